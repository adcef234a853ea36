(** Rayleigh-Ritz approximations of eigenpairs, the objective of the
    trace minimisation, and contracts of the functions used by
    meanas/fdfd/bloch.py eigsolve. *)
From Coq Require Import Reals List Arith Sorted.
From Verif.Lib Require Import Num Sums Idx Mat RealF.
From Verif.Spec Require Import BlochSpec EigenSpec.
Import ListNotations.
Local Open Scope R_scope.

(** column j *)
Definition col (X : mat CC) (j : nat) : vect CC := fun i => X i j.
(** sum_j c_j X_j *)
Definition comb (k : nat) (X : mat CC) (c : vect CC) : vect CC := fun i => sumN (K := CC) k (fun j => cmul (X i j) (c j)).
Definition in_span (N k : nat) (X : mat CC) (v : vect CC) : Prop := exists c, forall i, (i < N)%nat -> v i = comb k X c i.

(** A function defined everywhere with <x, A y> = <A x, y> *)
Definition hermitian_op (N : nat) (op : vect CC -> option (vect CC)) : Prop :=
  forall x y, exists Ax Ay, op x = Some Ax /\ op y = Some Ay /\ hdot N x Ay = hdot N Ax y.

Definition is_inverse (k : nat) (M U : mat CC) : Prop :=
  forall i j, (i < k)%nat -> (j < k)%nat ->
    sumN (K := CC) k (fun q => cmul (M i q) (U q j)) = (if (i =? j)%nat then c1 else c0) /\
    sumN (K := CC) k (fun q => cmul (U i q) (M q j)) = (if (i =? j)%nat then c1 else c0).
Definition posdef (k : nat) (M : mat CC) : Prop :=
  (forall i j, (i < k)%nat -> (j < k)%nat -> M i j = cconj (M j i)) /\
  (forall x, nonzero_vec k x -> 0 < cre (hdot k x (mv (K := CC) k M x))).

(** Contracts for k by k matrices.
    numpy.linalg.inv raises for singular matrices only. *)
Definition inv_ok (k : nat) (inv : nat -> mat CC -> option (mat CC)) : Prop :=
  forall M, match inv k M with Some U => is_inverse k M U | None => forall U, ~ is_inverse k M U end.
(** scipy.linalg.sqrtm: the principal square root, Hermitian for positive definite matrices *)
Definition sqrtm_ok (k : nat) (sqrtm : nat -> mat CC -> option (mat CC)) : Prop :=
  forall M S, sqrtm k M = Some S ->
    (forall i j, (i < k)%nat -> (j < k)%nat -> sumN (K := CC) k (fun q => cmul (S i q) (S q j)) = M i j) /\
    (posdef k M -> forall i j, (i < k)%nat -> (j < k)%nat -> S i j = cconj (S j i)).
(** numpy.linalg.eig *)
Definition eig_ok (k : nat) (eig : nat -> mat CC -> option ((nat -> cpx) * mat CC)) : Prop :=
  forall M lam V, eig k M = Some (lam, V) -> forall j, (j < k)%nat ->
    eigenpair k M (lam j) (col V j) /\ nonzero_vec k (col V j).
(** The result of the line search is not worse than its starting point. *)
Definition no_worse (minimize : (R -> option R) -> option R) : Prop :=
  forall f t x y, minimize f = Some t -> f 0 = Some x -> f t = Some y -> y <= x.

(** E = | Re trace(Z^H A Z inv(Z^H Z)) | *)
Definition objective (N k : nat) (op : vect CC -> option (vect CC)) (Z : mat CC) (E : R) : Prop :=
  exists (AZ : nat -> vect CC) U,
    (forall j, (j < k)%nat -> op (col Z j) = Some (AZ j)) /\
    is_inverse k (fun i j => hdot N (col Z i) (col Z j)) U /\
    E = Rabs (cre (sumN (K := CC) k (fun i => sumN (K := CC) k (fun j => cmul (hdot N (col Z i) (AZ j)) (U j i))))).

(** A unit vector in the span of Z, with its Rayleigh quotient, and residual
    orthogonal to Z. *)
Definition ritz_pair (N k : nat) (op : vect CC -> option (vect CC)) (Z : mat CC) (lam : cpx) (v : vect CC) : Prop :=
  norm2 N v = 1 /\ in_span N k Z v /\ cim lam = 0 /\
  exists Av, op v = Some Av /\ hdot N v Av = lam /\
    forall j, (j < k)%nat -> hdot N (col Z j) (fun i => csub (Av i) (cmul lam (v i))) = c0.
Definition abs_le (p q : cpx * vect CC) : Prop := cabs (fst p) <= cabs (fst q).
(** G_j: the part of sgn(trace(Z^H A Z U)) A Z U that is orthogonal to Z, U = inv(Z^H Z) *)
Definition is_direction (N k : nat) (op : vect CC -> option (vect CC)) (Z : mat CC) (G : nat -> vect CC) : Prop :=
  exists (AZ : nat -> vect CC) U sgn,
    (forall j, (j < k)%nat -> op (col Z j) = Some (AZ j)) /\
    is_inverse k (fun i j => hdot N (col Z i) (col Z j)) U /\
    let E := cre (sumN (K := CC) k (fun i => sumN (K := CC) k (fun j => cmul (hdot N (col Z i) (AZ j)) (U j i)))) in
    Rabs E = sgn * E /\ (sgn = 1 \/ sgn = -1 \/ sgn = 0) /\
    forall j, (j < k)%nat ->
      (forall l, (l < k)%nat -> hdot N (col Z l) (G j) = c0) /\
      in_span N k Z (fun i => csub (cmul (mkC sgn 0) (comb k (fun r q => AZ q r) (col U j) i)) (G j i)).
