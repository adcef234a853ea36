(** Specification pieces for Gaussian beams. *)
From Coq Require Import Reals List.
From Verif.Lib Require Import Idx RealF.
From Verif.Spec Require Import SensSpec.
Local Open Scope R_scope.

(** The paraxial Helmholtz equation u_xx + u_yy + 2 i k u_z = 0 everywhere, for the
    envelope [u] of a wave u exp(i k z). *)
Definition paraxial (k : R) (u : R -> R -> R -> cpx) : Prop :=
  forall x y z, exists (ux uy : R -> cpx) (uxx uyy uz : cpx),
    (forall t, cderiv (fun s => u s y z) t (ux t)) /\ cderiv ux x uxx /\
    (forall t, cderiv (fun s => u x s z) t (uy t)) /\ cderiv uy y uyy /\
    cderiv (fun s => u x y s) z uz /\
    cadd (cadd uxx uyy) (cmul (mkC 0 (2 * k)) uz) = c0.

(** Coordinates of a point along the axes of a beam through [center] that is tilted
    around the y axis: across in the x-z plane, across along y, and along the beam. *)
Definition across_x (tilt : R) (p center : nat -> R) : R :=
  (p 0%nat - center 0%nat) * cos tilt + (p 2%nat - center 2%nat) * sin tilt.
Definition across_y (p center : nat -> R) : R := p 1%nat - center 1%nat.
Definition along (tilt : R) (p center : nat -> R) : R :=
  (p 2%nat - center 2%nat) * cos tilt - (p 0%nat - center 0%nat) * sin tilt.

(** Position of a sample. *)
Definition point (xyz : nat -> nat -> R) (idx : list nat) (j : nat) : R := xyz j (coord idx j).
