(** Rayleigh quotient iteration and eigenpairs. *)
From Coq Require Import Reals List Arith.
From Verif.Lib Require Import Num Sums Idx Mat RealF.
Import ListNotations.
Local Open Scope R_scope.

Definition eigenpair (n : nat) (A : mat CC) (lam : cpx) (v : vect CC) : Prop :=
  forall i, (i < n)%nat -> mv (K := CC) n A v i = cmul lam (v i).
Definition nonzero_vec (n : nat) (v : vect CC) : Prop := exists i, (i < n)%nat /\ v i <> c0.
Definition norm2 (n : nat) (v : vect CC) : R := sumN (K := RF) n (fun i => cre (v i) * cre (v i) + cim (v i) * cim (v i)).
(** v^H A v / v^H v *)
Definition rayleigh_quotient (n : nat) (A : mat CC) (v : vect CC) : cpx :=
  cdiv (sumN (K := CC) n (fun i => cmul (cconj (v i)) (mv (K := CC) n A v i))) (mkC (norm2 n v) 0).
(** |A v - lam v|^2 *)
Definition residual2 (n : nat) (A : mat CC) (lam : cpx) (v : vect CC) : R :=
  norm2 n (fun i => csub (mv (K := CC) n A v i) (cmul lam (v i))).
(** [w] is [v] with unit length. *)
Definition unit_of (n : nat) (v w : vect CC) : Prop :=
  norm2 n w = 1 /\ exists r, 0 < r /\ forall i, v i = cmul (mkC r 0) (w i).
(** A - lam I *)
Definition shifted (A : mat CC) (lam : cpx) : mat CC := fun i j => csub (A i j) (cmul lam (if Nat.eqb i j then c1 else c0)).
(** The order in which numpy sorts complex numbers: by real part, then imaginary part. *)
Definition not_after (x y : cpx) : Prop := cre x < cre y \/ (cre x = cre y /\ cim x <= cim y).
(** A commutes with its adjoint, in the form |A x| = |A^H x|.  Hermitian operators do. *)
Definition normal_op (n : nat) (A : mat CC) : Prop :=
  forall x : vect CC, norm2 n (mv (K := CC) n A x) = norm2 n (mv (K := CC) n (fun i j => cconj (A j i)) x).
