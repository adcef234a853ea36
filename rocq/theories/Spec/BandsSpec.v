(** A complete set of bands of an operator, in order, and independent modes. *)
From Coq Require Import Reals List Arith.
From Verif.Lib Require Import Num Sums Idx Mat RealF.
From Verif.Spec Require Import BlochSpec EigenSpec BlochSolveSpec.
Import ListNotations.
Local Open Scope R_scope.

(** N orthonormal eigenvectors (columns of V), eigenvalues -w, w_0 <= w_1 <= ..
    maxwell_operator is minus the operator curl (1/eps) curl (C89), so that w is
    the square of the frequency. *)
Record bands (N : nat) (op : vect CC -> option (vect CC)) (V : mat CC) (w : nat -> R) : Prop := mkBands {
  b_orth : forall a b, (a < N)%nat -> (b < N)%nat -> hdot N (col V a) (col V b) = if (a =? b)%nat then c1 else c0;
  b_eig : forall a, (a < N)%nat -> exists Av, op (col V a) = Some Av /\ forall i, (i < N)%nat -> Av i = cmul (mkC (- w a) 0) (V i a);
  b_sorted : forall a b, (a <= b)%nat -> (b < N)%nat -> w a <= w b }.

(** Linear combination of vectors, given with their coefficients. *)
Fixpoint lincomb (l : list (cpx * vect CC)) : vect CC :=
  match l with
  | [] => fun _ => c0
  | (c, v) :: r => fun i => cadd (cmul c (v i)) (lincomb r i)
  end.
(** Only the combination with zero coefficients vanishes. *)
Definition independent (N : nat) (vs : list (vect CC)) : Prop :=
  forall l, map snd l = vs -> (forall i, (i < N)%nat -> lincomb l i = c0) -> forall p, In p l -> fst p = c0.
(** numpy.linalg.eig of a Hermitian matrix gives independent eigenvectors, also
    for repeated eigenvalues. *)
Definition eig_independent (k : nat) (eig : nat -> mat CC -> option ((nat -> cpx) * mat CC)) : Prop :=
  forall M lam V, (forall i j, (i < k)%nat -> (j < k)%nat -> M i j = cconj (M j i)) -> eig k M = Some (lam, V) ->
    independent k (map (col V) (seq 0 k)).
(** Sum of the squares of the k lowest frequencies *)
Definition lowest (k : nat) (w : nat -> R) : R := sumN (K := RF) k w.
(** Hermitian matrices *)
Definition hermitian (n : nat) (A : mat CC) : Prop := forall i j, (i < n)%nat -> (j < n)%nat -> A i j = cconj (A j i).
