(** The same window of cells in two grids (C175). *)
From Coq Require Import List Arith.
From Verif.Lib Require Import Num Idx.
From Verif.Model Require Import Fdmath.
Import ListNotations.

(** The cell of the grid that cell [x] of the window lies at, if the window starts at [o]. *)
Definition place (o : nat -> nat) (x : list nat) : list nat :=
  [o 0 + coord x 0; o 1 + coord x 1; o 2 + coord x 2].

(** A window of shape [W] starting at [o] fits in the grid: along the axes marked [full]
    it is the whole grid, along the others it is not and does not wrap around. *)
Definition fits (sh W : list nat) (o : nat -> nat) (full : nat -> bool) : Prop :=
  length sh = 3 /\ length W = 3 /\
  forall a, a < 3 -> if full a then o a = 0 /\ dim W a = dim sh a else o a + dim W a <= dim sh a /\ dim W a < dim sh a.

(** Cells at least [m] cells from the low border of the window and [M] from the high one. *)
Definition deep (W : list nat) (full : nat -> bool) (m M : nat) (x : list nat) : Prop :=
  inb W x /\ forall a, a < 3 -> full a = false -> m <= coord x a /\ coord x a + M < dim W a.

(** The two grids look the same in the window. *)
Definition same_w {K : Fld} (W : list nat) (o o' : nat -> nat) (w w' : widths K) : Prop :=
  forall a i, a < 3 -> i < dim W a -> w a (o a + i) = w' a (o' a + i).
Definition same_f {K : Fld} (W : list nat) (o o' : nat -> nat) (F F' : field K) : Prop :=
  forall c x, c < 3 -> inb W x -> F c (place o x) = F' c (place o' x).

(** A field that vanishes everywhere but in the window, and there in the outer [d] layers. *)
Definition confined {K : Fld} (sh W : list nat) (o : nat -> nat) (full : nat -> bool) (d : nat) (F : field K) : Prop :=
  forall c i, c < 3 -> inb sh i -> (forall x, deep W full d d x -> i <> place o x) -> F c i = f0.
