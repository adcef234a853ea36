(** Specification pieces for waveguide_3d. *)
From Coq Require Import Reals List Arith.
From Verif.Lib Require Import Num Idx RealF.
From Verif.Model Require Import Fdmath Waveguide3d.
Import ListNotations.

(** Non-empty slices inside the grid, one item along the propagation axis. *)
Definition valid_slices (sh : list nat) (axis : nat) (sl : slices) : Prop :=
  (forall a, a < 3 -> start sl a < stop sl a /\ stop sl a <= dim sh a) /\ stop sl axis = S (start sl axis).

(** The cell and its neighbours are inside the grid along the axis and inside
    the window across it (a window covering the whole axis is periodic). *)
Definition stencil_inside (sh : list nat) (axis : nat) (sl : slices) (idx : list nat) : Prop :=
  inb sh idx /\ 0 < coord idx axis /\ coord idx axis + 1 < dim sh axis /\
  forall a, a < 3 -> a <> axis ->
    (start sl a = 0 /\ stop sl a = dim sh a) \/ (start sl a < coord idx a /\ coord idx a + 1 < stop sl a).

(** The array does not change along the axis. *)
Definition invariant_along (sh : list nat) (axis : nat) (f : field CC) : Prop :=
  forall c idx m, c < 3 -> inb sh idx -> m < dim sh axis -> f c (upd axis m idx) = f c idx.

(** All widths along the axis are the real number [dx]. *)
Definition uniform_along (sh : list nat) (axis : nat) (dxes : widths CC * widths CC) (dx : R) : Prop :=
  forall m, m < dim sh axis -> fst dxes axis m = mkC dx 0 /\ snd dxes axis m = mkC dx 0.

(** A missing permeability is 1 everywhere. *)
Definition permeability (mu : option (field CC)) : field CC :=
  match mu with Some m => m | None => fun _ _ => c1 end.

(** A waveguide along [axis]: valid slices, real equal widths along the axis,
    materials that are non-zero and do not change along the axis. *)
Record waveguide_along (sh : list nat) (axis : nat) (sl : slices) (dxes : widths CC * widths CC) (dx : R)
    (eps : field CC) (mu : option (field CC)) : Prop := {
  wa_dims : length sh = 3;
  wa_axis : axis < 3;
  wa_slices : valid_slices sh axis sl;
  wa_widths : uniform_along sh axis dxes dx;
  wa_dx : dx <> 0%R;
  wa_eps : invariant_along sh axis eps;
  wa_mu : invariant_along sh axis (permeability mu);
  wa_eps_nz : forall c idx, c < 3 -> inb sh idx -> eps c idx <> c0;
  wa_mu_nz : forall c idx, c < 3 -> inb sh idx -> permeability mu c idx <> c0 }.

(** The field with its component along [axis] negated. *)
Definition flip_axis (axis : nat) (F : field CC) : field CC :=
  fun c idx => if Nat.eqb c axis then copp (F c idx) else F c idx.

(** The cell is inside the window across the axis. *)
Definition in_window (axis : nat) (sl : slices) (idx : list nat) : Prop :=
  forall a, a < 3 -> a <> axis -> start sl a <= coord idx a /\ coord idx a < stop sl a.
