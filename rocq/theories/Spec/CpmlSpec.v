(** What a convolutional PML does to a derivative, written without memory
    variables: the derivative is scaled, and a geometrically weighted sum of all
    past scaled derivatives is added. *)
From Coq Require Import List Arith ZArith Bool.
From Verif.Lib Require Import Num Sums Idx.
From Verif.Model Require Import Fdmath Fdtd Pml.
Import ListNotations.
Local Open Scope fld_scope.

Fixpoint fpow {K : Fld} (x : K) (n : nat) : K := match n with O => 1 | S m => x * fpow x m end.

Section S.
  Context {K : Fld}.
  Variable sh : list nat.
  Variable Ls : nat -> nat -> option (layer K).

  (** A layer of [th] cells on axis [a]: at the start ([pp] = 0) or at the end. *)
  Definition inside (a pp th : nat) (idx : list nat) : bool :=
    if Nat.eqb pp 0 then Nat.ltb (coord idx a) th else Nat.leb (dim sh a - th) (coord idx a).
  (** Cells from the first cell of the layer. *)
  Definition depth (a pp th : nat) (idx : list nat) : nat :=
    if Nat.eqb pp 0 then coord idx a else (coord idx a - (dim sh a - th))%nat.
  (** The layer on axis [a], side [pp], if the cell lies in it. *)
  Definition here (a pp : nat) (idx : list nat) : option (layer K) :=
    match Ls a pp with
    | Some L => if inside a pp (lth L) idx then Some L else None
    | None => None
    end.

  Variables p0 p1 p2 : layer K -> nat -> K.

  (** 1/kappa of a side at a cell (1 outside). *)
  Definition kfac (a pp : nat) (idx : list nat) : K :=
    match here a pp idx with Some L => p2 L (depth a pp (lth L) idx) | None => 1 end.
  (** Scaling seen by side [pp] (layers only overlap if thicker than the grid). *)
  Definition scale_at (a pp : nat) (idx : list nat) : K :=
    match pp with O => kfac a 0 idx | _ => kfac a 0 idx * kfac a 1 idx end.

  (** Memory term of side [pp] when the derivative's history, oldest first, is [ds]. *)
  Definition memory (a pp : nat) (idx : list nat) (ds : list K) : K :=
    match here a pp idx with
    | Some L =>
        let k := depth a pp (lth L) idx in
        let n := length ds in
        sumN n (fun i => fpow (p0 L k) (n - 1 - i) * (p1 L k * (scale_at a pp idx * nth i ds 0)))
    | None => 0
    end.

  (** The stretched derivative: history [ds] (oldest first, current value last). *)
  Definition stretched (a : nat) (idx : list nat) (ds : list K) : K :=
    scale_at a 1 idx * last ds 0 + memory a 0 idx ds + memory a 1 idx ds.
End S.
