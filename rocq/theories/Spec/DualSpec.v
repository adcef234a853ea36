(** Duality: the electric and the magnetic field exchange their roles when every axis of
    the grid is reversed. *)
From Coq Require Import List Arith ZArith.
From Verif.Lib Require Import Num Idx Mat.
From Verif.Model Require Import Fdmath.
Import ListNotations.
Local Open Scope fld_scope.

(** Coordinate -i of a periodic axis of [n] cells, on every axis. *)
Definition minus (n i : nat) : nat := ((n - i) mod n)%nat.
Fixpoint opposite (sh idx : list nat) : list nat :=
  match sh, idx with n :: ns, i :: is => minus n i :: opposite ns is | _, _ => [] end.

Section S.
  Context {K : Fld}.
  (** The components are kept, the cells reversed. *)
  Definition dual (sh : list nat) (F : field K) : field K := fun c idx => F c (opposite sh idx).
  Definition dual_w (sh : list nat) (w : widths K) : widths K := fun a i => w a (minus (dim sh a) i).
End S.
(** The same for vectors. *)
Definition dual_v {K : Fld} (sh : list nat) (v : vect K) : vect K := vec sh (dual sh (unvec sh v)).
