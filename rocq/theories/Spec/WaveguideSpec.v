(** Discrete Maxwell's equations for fields with z-dependence exp(-i beta z)
    (module documentation of waveguide_2d.py, "Substituting in our expressions
    ... and discretizing"), on a 2D grid with widths [we] (dxes[0]) and
    [wh] (dxes[1]). *)
From Coq Require Import List Arith.
From Verif.Lib Require Import Num Sums Idx Mat.
From Verif.Model Require Import Fdmath.
From Verif.Spec Require Import Grid.
Import ListNotations.
Local Open Scope fld_scope.

Section Spec.
  Context {K : CFld}.

  (** -i omega mu h = curl e *)
  Definition faraday (sh : list nat) (we : widths K) (om beta : K) (mu e h : field K) : Prop :=
    let Dx := diff_next sh (Some we) 0 in let Dy := diff_next sh (Some we) 1 in
    forall i, inb sh i ->
      - im * om * (mu 0%nat i * h 0%nat i) = Dy (e 2%nat) i + im * beta * e 1%nat i /\
      - im * om * (mu 1%nat i * h 1%nat i) = - im * beta * e 0%nat i - Dx (e 2%nat) i /\
      - im * om * (mu 2%nat i * h 2%nat i) = Dx (e 1%nat) i - Dy (e 0%nat) i.

  (** i omega eps e = curl h *)
  Definition ampere (sh : list nat) (wh : widths K) (om beta : K) (eps e h : field K) : Prop :=
    let Dx := diff_prev sh (Some wh) 0 in let Dy := diff_prev sh (Some wh) 1 in
    forall i, inb sh i ->
      im * om * (eps 0%nat i * e 0%nat i) = Dy (h 2%nat) i + im * beta * h 1%nat i /\
      im * om * (eps 1%nat i * e 1%nat i) = - im * beta * h 0%nat i - Dx (h 2%nat) i /\
      im * om * (eps 2%nat i * e 2%nat i) = Dx (h 1%nat) i - Dy (h 0%nat) i.

  (** div (eps e) = 0, div (mu h) = 0 *)
  Definition gauss_e (sh : list nat) (wh : widths K) (beta : K) (eps e : field K) : Prop :=
    forall i, inb sh i ->
      diff_prev sh (Some wh) 0 (fun j => eps 0%nat j * e 0%nat j) i
      + diff_prev sh (Some wh) 1 (fun j => eps 1%nat j * e 1%nat j) i
      - im * beta * (eps 2%nat i * e 2%nat i) = 0.
  Definition gauss_h (sh : list nat) (we : widths K) (beta : K) (mu h : field K) : Prop :=
    forall i, inb sh i ->
      diff_next sh (Some we) 0 (fun j => mu 0%nat j * h 0%nat j) i
      + diff_next sh (Some we) 1 (fun j => mu 1%nat j * h 1%nat j) i
      - im * beta * (mu 2%nat i * h 2%nat i) = 0.

  (** A mode with wavenumber [beta]. *)
  Definition is_mode (sh : list nat) (we wh : widths K) (om beta : K) (eps mu e h : field K) : Prop :=
    faraday sh we om beta mu e h /\ ampere sh wh om beta eps e h.

  (** Transverse part of a 3-component field as a vector of [2 * nx * ny] entries. *)
  Definition transverse (sh : list nat) (F : field K) : vect K := vec sh F.

  (** The E x H flux through the cross-section: area of the cell around E_x/H_y
      is [we] along x times [wh] along y, around E_y/H_x the other way round. *)
  Definition flux (sh : list nat) (we wh : widths K) (e h : field K) : K :=
    gsum sh (fun i => we 0%nat (coord i 0) * wh 1%nat (coord i 1) * (e 0%nat i * h 1%nat i)
                      - wh 0%nat (coord i 0) * we 1%nat (coord i 1) * (e 1%nat i * h 0%nat i)).
End Spec.
