(** Starting vectors of meanas/fdfd/bloch.py eigsolve. *)
From Coq Require Import Reals List Arith.
From Verif.Lib Require Import Num Sums Idx Mat RealF.
From Verif.Spec Require Import BlochSpec EigenSpec BlochSolveSpec.
Local Open Scope R_scope.

(** Sum of |Z_j|^2 over the k columns *)
Definition total2 (N k : nat) (Z : mat CC) : R := sumN (K := RF) k (fun j => norm2 N (col Z j)).
(** U is the inverse of Z^H Z *)
Definition gram_inverse (N k : nat) (Z U : mat CC) : Prop := is_inverse k (fun i j => hdot N (col Z i) (col Z j)) U.
Definition re_trace (k : nat) (U : mat CC) : R := cre (sumN (K := CC) k (fun i => U i i)).
(** Z^H Z is invertible, and the trace of the inverse is at most 1e8 k. *)
Definition well_conditioned (N k : nat) (Z : mat CC) : Prop :=
  exists U, gram_inverse N k Z U /\ re_trace k U <= 100000000 * INR k.
(** The rows of y as columns, scaled by c *)
Definition from_rows (c : R) (y : mat CC) : mat CC := fun i j => cmul (mkC c 0) (y j i).
