(** Motions of a periodic Yee grid: what they do to fields, materials and widths. *)
From Coq Require Import List Arith ZArith Bool.
From Verif.Lib Require Import Num Idx.
From Verif.Model Require Import Fdmath.
Import ListNotations.
Local Open Scope fld_scope.

Section S.
  Context {K : Fld}.

  (** A motion of a grid.  Component [c] of the moved E field at a cell is [sign_E c] times
      the component [axis_of c] of the old one at the cell [at_E c idx]; likewise H.
      Along the new axis [b] the widths are the old ones along [axis_of b] at [on_we b i]
      (E, dxes[0]) and [on_wh b i] (H, dxes[1]). *)
  Record motion := mkMotion {
    new_shape : list nat;
    axis_of : nat -> nat;
    at_E : nat -> list nat -> list nat;
    at_H : nat -> list nat -> list nat;
    sign_E : nat -> K;
    sign_H : nat -> K;
    on_we : nat -> nat -> nat;
    on_wh : nat -> nat -> nat }.

  Definition moved_E (m : motion) (F : field K) : field K := fun c idx => sign_E m c * F (axis_of m c) (at_E m c idx).
  Definition moved_H (m : motion) (F : field K) : field K := fun c idx => sign_H m c * F (axis_of m c) (at_H m c idx).
  (** Materials have no sign. *)
  Definition moved_eps (m : motion) (e : field K) : field K := fun c idx => e (axis_of m c) (at_E m c idx).
  Definition moved_mu (m : motion) (u : field K) : field K := fun c idx => u (axis_of m c) (at_H m c idx).
  Definition moved_we (m : motion) (w : widths K) : widths K := fun b i => w (axis_of m b) (on_we m b i).
  Definition moved_wh (m : motion) (w : widths K) : widths K := fun b i => w (axis_of m b) (on_wh m b i).

  (** By [d] cells along axis [a]. *)
  Definition translation (sh : list nat) (a : nat) (d : Z) : motion :=
    let ix b i := if Nat.eqb b a then cyc (dim sh a) d i else i in
    mkMotion sh (fun c => c) (fun _ => shift_ix sh a d) (fun _ => shift_ix sh a d) (fun _ => 1) (fun _ => 1) ix ix.

  (** The old axes y, z, x are the new axes x, y, z. *)
  Definition rotation (sh : list nat) : motion :=
    let ax c := match c with 0%nat => 1%nat | 1%nat => 2%nat | _ => 0%nat end in
    let at_ (_ : nat) (idx : list nat) := [coord idx 2; coord idx 0; coord idx 1] in
    mkMotion [dim sh 1; dim sh 2; dim sh 0] ax at_ at_ (fun _ => 1) (fun _ => 1) (fun _ i => i) (fun _ i => i).

  (** x and y exchanged: this turns right-handed axes into left-handed ones, so the
      magnetic field changes sign. *)
  Definition exchange (sh : list nat) : motion :=
    let ax c := match c with 0%nat => 1%nat | 1%nat => 0%nat | _ => 2%nat end in
    let at_ (_ : nat) (idx : list nat) := [coord idx 1; coord idx 0; coord idx 2] in
    mkMotion [dim sh 1; dim sh 0; dim sh 2] ax at_ at_ (fun _ => 1) (fun _ => - (1)) (fun _ i => i) (fun _ i => i).

  (** Reflection of axis [a] at the grid line 0.  Quantities on the grid lines (E across
      the axis, H along it, widths of H) go from i to -i, those between grid lines (E along
      the axis, H across it, widths of E) from i to -1 - i.  The E component along the axis
      and the H components across it change sign. *)
  Definition reflection (sh : list nat) (a : nat) : motion :=
    let line i := ((dim sh a - i) mod dim sh a)%nat in
    let between i := (dim sh a - 1 - i)%nat in
    mkMotion sh (fun c => c)
      (fun c idx => upd a (if Nat.eqb c a then between (coord idx a) else line (coord idx a)) idx)
      (fun c idx => upd a (if Nat.eqb c a then line (coord idx a) else between (coord idx a)) idx)
      (fun c => if Nat.eqb c a then - (1) else 1) (fun c => if Nat.eqb c a then 1 else - (1))
      (fun b i => if Nat.eqb b a then between i else i) (fun b i => if Nat.eqb b a then line i else i).

  Inductive grid_motion (sh : list nat) : motion -> Prop :=
  | is_translation a d : (a < 3)%nat -> grid_motion sh (translation sh a d)
  | is_rotation : grid_motion sh (rotation sh)
  | is_exchange : grid_motion sh (exchange sh)
  | is_reflection a : (a < 3)%nat -> grid_motion sh (reflection sh a).
End S.
Arguments motion K : clear implicits.
