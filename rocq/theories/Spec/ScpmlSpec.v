(** Independent description of a stretched layer. *)
From Coq Require Import Reals List Arith ZArith.
From Verif.Lib Require Import Num Sums.
Local Open Scope fld_scope.

Section Spec.
  Context {K : CFld}.

  (** Total width of cells [lo .. hi-1]. *)
  Definition span (w : nat -> K) (lo hi : nat) : K := sumN (hi - lo) (fun j => w (lo + j)%nat).

  (** Cells of the layer: the first or the last [th] of [n]. *)
  Definition in_layer (front : bool) (n th i : nat) : Prop :=
    if front then (i < th)%nat else (n - th <= i < n)%nat.

  (** Length of the layer. *)
  Definition layer_len (front : bool) (n th : nat) (w : nat -> K) : K :=
    if front then span w 0 th else span w (n - th) n.

  (** Depth into the layer, from its inner edge: of the centre of cell [i]
      ([dist_mid]) and of its lower edge ([dist_edge]). *)
  Definition dist_mid (front : bool) (n th : nat) (w : nat -> K) (i : nat) : K :=
    if front then w i / 2 + span w (S i) th else span w (n - th) i + w i / 2.
  Definition dist_edge (front : bool) (n th : nat) (w : nat -> K) (i : nat) : K :=
    if front then span w i th else span w (n - th) i.

  (** The factor a cell at normalised depth [x] is stretched by. *)
  Definition stretch_factor (s : K -> K) (len corr x : K) : K := 1 + im * s (x / len) / (len * corr).
End Spec.

(** The [th] cells of [n] on the side a polarity names in the documentation
    ("-1 for -ve, +1 for +ve"): the first ones for -1, the last ones for +1. *)
Definition named_side (polarity : Z) (n th i : nat) : Prop :=
  if Z.ltb polarity 0 then (i < th)%nat else (n - th <= i < n)%nat.
