(** Discrete Maxwell's equations in cylindrical coordinates (r, y, theta) for
    fields with theta-dependence exp(-i beta rmin theta): the module
    documentation of waveguide_cyl.py, with the factors 1/t of the curl that are
    missing there in the second and fifth equation.  [ta], [tb] are r / rmin at
    the integer and half-integer grid points, as functions of the r index.
    The permeability is 1. *)
From Coq Require Import List Arith.
From Verif.Lib Require Import Num Sums Idx Mat.
From Verif.Model Require Import Fdmath.
From Verif.Spec Require Import Grid.
Import ListNotations.
Local Open Scope fld_scope.

Section Spec.
  Context {K : CFld}.

  (** -i omega h = curl e *)
  Definition cyl_faraday (sh : list nat) (ta tb : nat -> K) (we : widths K) (om beta : K) (e h : field K) : Prop :=
    let Dr := diff_next sh (Some we) 0 in let Dy := diff_next sh (Some we) 1 in
    forall i, inb sh i -> let a := ta (coord i 0) in let b := tb (coord i 0) in
      - im * om * h 0%nat i = Dy (e 2%nat) i + im * beta / a * e 1%nat i /\
      - im * om * h 1%nat i = - im * beta / b * e 0%nat i - 1 / b * Dr (fun j => ta (coord j 0) * e 2%nat j) i /\
      - im * om * h 2%nat i = Dr (e 1%nat) i - Dy (e 0%nat) i.

  (** i omega eps e = curl h *)
  Definition cyl_ampere (sh : list nat) (ta tb : nat -> K) (wh : widths K) (om beta : K) (eps e h : field K) : Prop :=
    let Dr := diff_prev sh (Some wh) 0 in let Dy := diff_prev sh (Some wh) 1 in
    forall i, inb sh i -> let a := ta (coord i 0) in let b := tb (coord i 0) in
      im * om * (eps 0%nat i * e 0%nat i) = Dy (h 2%nat) i + im * beta / b * h 1%nat i /\
      im * om * (eps 1%nat i * e 1%nat i) = - im * beta / a * h 0%nat i - 1 / a * Dr (fun j => tb (coord j 0) * h 2%nat j) i /\
      im * om * (eps 2%nat i * e 2%nat i) = Dr (h 1%nat) i - Dy (h 0%nat) i.

  Definition is_cyl_mode (sh : list nat) (ta tb : nat -> K) (we wh : widths K) (om beta : K) (eps e h : field K) : Prop :=
    cyl_faraday sh ta tb we om beta e h /\ cyl_ampere sh ta tb wh om beta eps e h.

  (** The radii used by the code, divided by [rmin]. *)
  Definition t_int (we : widths K) (rmin : K) (m : nat) : K := (rmin + sumN (S m) (we 0%nat)) / rmin.
  Definition t_half (we wh : widths K) (rmin : K) (m : nat) : K :=
    (rmin + we 0%nat m / 2 + sumN (S m) (wh 0%nat)) / rmin.
End Spec.
