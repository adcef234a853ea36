(** Mode matching at the interface of two waveguides, and the contracts of the
    numpy.linalg functions used by meanas/fdfd/eme.py. *)
From Coq Require Import Reals List Arith.
From Verif.Lib Require Import Num Sums Idx Mat RealF.
From Verif.Spec Require Export EigenSpec.
Import ListNotations.
Local Open Scope R_scope.

Definition delta (i j : nat) : cpx := if (i =? j)%nat then c1 else c0.

(** U^H U = U U^H = 1 *)
Definition unitary (n : nat) (U : mat CC) : Prop :=
  (forall i j, (i < n)%nat -> (j < n)%nat -> sumN (K := CC) n (fun q => cmul (cconj (U q i)) (U q j)) = delta i j) /\
  (forall i j, (i < n)%nat -> (j < n)%nat -> sumN (K := CC) n (fun q => cmul (U i q) (cconj (U j q))) = delta i j).
(** M = U diag(st) V *)
Definition is_svd (r c : nat) (M U : mat CC) (st : nat -> R) (V : mat CC) : Prop :=
  unitary r U /\ unitary c V /\ (forall q, (q < min r c)%nat -> 0 <= st q) /\
  (forall i j, (i < r)%nat -> (j < c)%nat -> M i j = sumN (K := CC) (min r c) (fun q => cmul (cmul (U i q) (mkC (st q) 0)) (V q j))).
(** A^H (A X - B) = 0 *)
Definition is_lstsq (m n p : nat) (A B X : mat CC) : Prop :=
  forall i j, (i < n)%nat -> (j < p)%nat ->
    sumN (K := CC) m (fun q => cmul (cconj (A q i)) (csub (sumN (K := CC) n (fun k => cmul (A q k) (X k j))) (B q j))) = c0.
Definition injective (m n : nat) (A : mat CC) : Prop :=
  forall x, (forall i, (i < m)%nat -> mv (K := CC) n A x i = c0) -> forall j, (j < n)%nat -> x j = c0.
(** The first Penrose condition, A P A = A. *)
Definition is_pinv (m n : nat) (A P : mat CC) : Prop :=
  forall i j, (i < m)%nat -> (j < n)%nat ->
    sumN (K := CC) n (fun k => cmul (A i k) (sumN (K := CC) m (fun l => cmul (P k l) (A l j)))) = A i j.

(** The singular values of [M] are at most one. *)
Definition no_gain (r c : nat) (M : mat CC) : Prop := forall x, norm2 r (mv (K := CC) c M x) <= norm2 c x.

(** For each left mode i coming in, transmitted amplitudes T k i and reflected
    amplitudes R j i make the transverse fields (the first [nt] entries)
    continuous; reflected modes have their H reversed. *)
Definition matched (nt nL : nat) (eL hL : nat -> vect CC) (nR : nat) (eR hR : nat -> vect CC) (T R : mat CC) : Prop :=
  forall i q, (i < nL)%nat -> (q < nt)%nat ->
    cadd (eL i q) (sumN (K := CC) nL (fun j => cmul (R j i) (eL j q))) = sumN (K := CC) nR (fun k => cmul (T k i) (eR k q)) /\
    csub (hL i q) (sumN (K := CC) nL (fun j => cmul (R j i) (hL j q))) = sumN (K := CC) nR (fun k => cmul (T k i) (hR k q)).
(** Incoming amplitudes aL, aR and outgoing amplitudes bL, bR on both sides. *)
Definition scattering (nt nL : nat) (eL hL : nat -> vect CC) (nR : nat) (eR hR : nat -> vect CC) (aL aR bL bR : vect CC) : Prop :=
  forall q, (q < nt)%nat ->
    sumN (K := CC) nL (fun j => cmul (cadd (aL j) (bL j)) (eL j q)) = sumN (K := CC) nR (fun k => cmul (cadd (aR k) (bR k)) (eR k q)) /\
    sumN (K := CC) nL (fun j => cmul (csub (aL j) (bL j)) (hL j q)) = sumN (K := CC) nR (fun k => cmul (csub (bR k) (aR k)) (hR k q)).
