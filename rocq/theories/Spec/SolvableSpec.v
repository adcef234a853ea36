(** Solvability of the driven problem (C151). *)
From Coq Require Import Arith.
From Verif.Lib Require Import Num Sums Mat.
Local Open Scope fld_scope.

(** The system A x = b of n equations has a solution and no second one. *)
Definition exactly_one {K : Fld} (n : nat) (A : mat K) (b : vect K) : Prop :=
  exists x, veq n (mv n A x) b /\ forall y, veq n (mv n A y) b -> veq n y x.
(** Some x that is not zero has A x = 0. *)
Definition singular {K : Fld} (n : nat) (A : mat K) : Prop :=
  exists x, (exists q, (q < n)%nat /\ x q <> 0) /\ veq n (mv n A x) (fun _ => 0).
