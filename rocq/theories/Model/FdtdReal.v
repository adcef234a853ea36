(** Models of the parts of meanas/fdtd that need real exponentials:
    pml.py cpml_params and misc.py pulses.  Floats are modelled by the reals. *)
From Coq Require Import Reals ZArith List Bool.
From Verif.Lib Require Import Num RealF.
From Verif.Model Require Import Fdmath Pml.
Import ListNotations.
Local Open Scope R_scope.

(** [x ** y] for [x >= 0] ([0 ** 0 = 1], [0 ** y = 0] for [y > 0]; [0 ** y] with [y < 0] is
    infinite in numpy and not used by the theorems). *)
Definition rpow (x y : R) : R :=
  if Req_EM_T x 0 then (if Req_EM_T y 0 then 1 else 0) else Rpower x y.

(** pml.py:52-61: [xe], [xh] at position [i] of the layer ([i < thickness]). *)
Definition cp_xe (polarity : Z) (t i : nat) : R :=
  if Z.ltb 0 polarity then INR (i + 1) - 1/2 else INR (t - i).
Definition cp_xh (polarity : Z) (t i : nat) : R :=
  if Z.ltb 0 polarity then INR (i + 1) else INR (t - i) - 1/2.

(** pml.py:48-50, 67-75: the coefficient function [par]. *)
Section Par.
  Variables (dt ln_R epsilon_eff mu_eff m ma cfs_alpha : R) (t : nat).
  Definition cp_sigma_max : R := - ln_R / 2 * (m + 1).
  Definition cp_kappa_max : R := sqrt (epsilon_eff * mu_eff).
  Definition cp_scaling (x : R) : R := rpow (x / INR t) m.
  Definition cp_sigma (x : R) : R := cp_scaling x * cp_sigma_max.
  Definition cp_kappa (x : R) : R := 1 + cp_scaling x * (cp_kappa_max - 1).
  Definition cp_alpha (x : R) : R := rpow (1 - x / INR t) ma * cfs_alpha.
  Definition cp_p0 (x : R) : R := exp (- (cp_sigma x / cp_kappa x + cp_alpha x) * dt).
  Definition cp_p1 (x : R) : R := cp_sigma x / (cp_sigma x + cp_kappa x * cp_alpha x) * (cp_p0 x - 1).
  Definition cp_p2 (x : R) : R := 1 / cp_kappa x.
End Par.

(** pml.py:23-93.  On success: the axis, the side ([0] low, [1] high) and the
    layer record used by [updates_with_cpml]. *)
Definition cpml_params (axis polarity : Z) (dt : R) (thickness : Z)
    (ln_R epsilon_eff mu_eff m ma cfs_alpha : R) : result (nat * nat * layer RF) :=
  if negb (Z.leb 0 axis && Z.ltb axis 3) then Raise
  else if negb (Z.eqb polarity (-1) || Z.eqb polarity 1) then Raise
  else if Z.leb thickness 2 then Raise
  else if Rle_dec epsilon_eff 0 then Raise
  else
    let t := Z.to_nat thickness in
    let P0 := cp_p0 dt ln_R epsilon_eff mu_eff m ma cfs_alpha t in
    let P1 := cp_p1 dt ln_R epsilon_eff mu_eff m ma cfs_alpha t in
    let P2 := cp_p2 epsilon_eff mu_eff m t in
    let xe := cp_xe polarity t in
    let xh := cp_xh polarity t in
    Ok (Z.to_nat axis, if Z.ltb polarity 0 then 0%nat else 1%nat,
        mkLayer (K := RF) t (fun i => P0 (xe i)) (fun i => P1 (xe i)) (fun i => P2 (xe i))
                            (fun i => P0 (xh i)) (fun i => P1 (xh i)) (fun i => P2 (xh i))).

(** numpy.ceil *)
Definition zceil (x : R) : Z := (1 - up (- x))%Z.

(** misc.py:15-66, gaussian_packet: wavelength, width, step, turn_on, one_sided. *)
Section Packet.
  Variables (wl dwl dt turn_on : R) (one_sided : bool).
  Definition gp_omega : R := 2 * PI / wl.
  Definition gp_freq : R := 1 / wl.
  Definition gp_fwhm : R := dwl * gp_omega * gp_omega / (2 * PI).
  Definition gp_alpha : R := gp_fwhm * gp_fwhm * ln 2 / 8.
  Definition gp_delay : R := IZR (zceil (sqrt (- ln turn_on / gp_alpha) * gp_freq)) / gp_freq.
  (** source_phasor(ii) for a scalar timestep [ii]. *)
  Definition gp_envelope (ii : R) : R :=
    let t0 := ii * dt - gp_delay in
    if one_sided && (if Rlt_dec 0 t0 then true else false) then 1
    else sqrt (sqrt (2 * gp_alpha / PI)) * exp (- gp_alpha * t0 * t0).
  Definition gp_cos (ii : R) : R := cos (gp_omega * (ii * dt - gp_delay)).
  Definition gp_sin (ii : R) : R := sin (gp_omega * (ii * dt - gp_delay)).
  (** [if x:] for an array of several elements raises ValueError; an empty array, too
      (since numpy 2.2, before it counts as False). *)
  Definition truth (x : list bool) : option bool := match x with [b] => Some b | _ => None end.
  (** misc.py:52-63 for an array of timesteps: envelope, cosines, sines.  For one
      element the envelope 1 is a scalar, here a list of one element. *)
  Definition gp_source_array (ii : list R) : option (list R * list R * list R) :=
    let t0 := map (fun i => i * dt - gp_delay) ii in
    let envelope := map (fun t => sqrt (sqrt (2 * gp_alpha / PI)) * exp (- gp_alpha * t * t)) t0 in
    let cc := map (fun t => cos (gp_omega * t)) t0 in
    let ss := map (fun t => sin (gp_omega * t)) t0 in
    if one_sided then
      match truth (map (fun t => if Rlt_dec 0 t then true else false) t0) with
      | None => None
      | Some true => Some ([1], cc, ss)
      | Some false => Some (envelope, cc, ss)
      end
    else Some (envelope, cc, ss).
End Packet.

(** misc.py:69-114, ricker_pulse; [root] is what scipy's root_scalar returned. *)
Section Ricker.
  Variables (wl dt turn_on : R).
  Definition rk_omega : R := 2 * PI / wl.
  Definition rk_freq : R := 1 / wl.
  (** misc.py:100: the function whose zero is sought. *)
  Definition rk_target (tt : R) : R :=
    (1 - rk_omega * rk_omega * tt * tt / 2) * exp (- rk_omega * rk_omega / 4 * tt * tt) - turn_on.
  Variable root : R.
  Definition rk_delay : R := IZR (zceil (root * rk_freq)) / rk_freq.
  Definition rk_ff (ii : R) : R :=
    let t0 := ii * dt - rk_delay in
    let rr := rk_omega * t0 / 2 in
    (1 - 2 * rr * rr) * exp (- rr * rr).
  Definition rk_cos (ii : R) : R := cos (rk_omega * (ii * dt - rk_delay)).
  Definition rk_sin (ii : R) : R := sin (rk_omega * (ii * dt - rk_delay)).
End Ricker.
