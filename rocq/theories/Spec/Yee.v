(** Independent specification pieces: the staggered (Yee) grid geometry.

    A grid is described by two lists of widths: [we] (dxes[0])
    and [wh] (dxes[1]).  The component [c] of E lives on a primal edge along [c];
    the volume attributed to it is [we] along [c] and [wh] along the other two
    axes.  The component [c] of H lives on a dual edge, with the roles exchanged. *)
From Coq Require Import List Arith.
From Verif.Lib Require Import Num Sums Idx.
From Verif.Model Require Import Fdmath.
Import ListNotations.
Local Open Scope fld_scope.

Section Yee.
  Context {K : Fld}.
  Definition vol3 (w0 w1 w2 : nat -> nat -> K) (idx : list nat) : K :=
    w0 0%nat (coord idx 0) * w1 1%nat (coord idx 1) * w2 2%nat (coord idx 2).

  Definition vol_e (we wh : widths K) (c : nat) (idx : list nat) : K :=
    match c with
    | 0%nat => vol3 we wh wh idx
    | 1%nat => vol3 wh we wh idx
    | _ => vol3 wh wh we idx
    end.
  Definition vol_h (we wh : widths K) (c : nat) (idx : list nat) : K := vol_e wh we c idx.

  (** Sum over the three components. *)
  Definition csum (f : nat -> K) : K := f 0%nat + f 1%nat + f 2%nat.
  (** Optional material: 1 everywhere if absent. *)
  Definition matl (m : option (field K)) (c : nat) (idx : list nat) : K :=
    match m with Some t => t c idx | None => 1 end.

  (** Sum over the three components and the whole grid. *)
  Definition fsum (sh : list nat) (f : nat -> list nat -> K) : K :=
    gsum sh (f 0%nat) + gsum sh (f 1%nat) + gsum sh (f 2%nat).

  (** All widths of a grid are non-zero. *)
  Definition nzw (sh : list nat) (w : widths K) : Prop :=
    forall a i, (a < length sh)%nat -> (i < dim sh a)%nat -> w a i <> 0.

  (** Equality of fields at all components and in-range cells. *)
  Definition feq (sh : list nat) (F G : field K) : Prop :=
    forall c idx, (c < 3)%nat -> inb sh idx -> F c idx = G c idx.
End Yee.
