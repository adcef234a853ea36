(** Property theorems that need real numbers: stability (C17), CPML coefficients
    (C20), source pulses (C22, C57, C58). *)
From Coq Require Import Reals Lra Lia ZArith List Bool.
From Verif.Lib Require Import Num Sums Idx Mat RealF.
From Verif.Model Require Import Fdmath Fdtd Pml FdtdReal.
From Verif.Spec Require Import Yee FdtdRun PulseSpec.
From Verif.Proofs Require Import FdtdP2 CflP FdtdRealP.
Import ListNotations.
Local Open Scope R_scope.

(** ** C17: stability *)

(** Below the documented limit
    [dt < sqrt(mu.min()*eps.min()) / sqrt(1/dx_min^2 + 1/dy_min^2 + 1/dz_min^2)]
    the E and H energies are bounded, at every step of every source-free run, by a
    constant (depending on dt, the grid and the materials only) times the energy
    of the initial state. *)
Theorem C17_stable :
  forall (sh : list nat) (we wh : widths RF) (dx dy dz dt : R) (eps : field RF) (mu : option (field RF)) (eps0 mu0 : R),
    length sh = 3%nat ->
    0 < dx -> 0 < dy -> 0 < dz -> 0 < eps0 -> 0 < mu0 ->
    (forall i, (i < dim sh 0)%nat -> dx <= we 0%nat i /\ dx <= wh 0%nat i) ->
    (forall i, (i < dim sh 1)%nat -> dy <= we 1%nat i /\ dy <= wh 1%nat i) ->
    (forall i, (i < dim sh 2)%nat -> dz <= we 2%nat i /\ dz <= wh 2%nat i) ->
    (forall c idx, (c < 3)%nat -> inb sh idx -> eps0 <= eps c idx) ->
    (forall c idx, (c < 3)%nat -> inb sh idx -> mu0 <= matl mu c idx) ->
    0 <= dt -> dt < sqrt (mu0 * eps0) / sqrt (1 / (dx * dx) + 1 / (dy * dy) + 1 / (dz * dz)) ->
    exists C : R, 0 < C /\
    forall (s : state RF) (n : nat),
      let d := Some (we, wh) in
      let s' := run sh dt d eps mu (repeat noj n) s in
      let U : R := gsum sh (yee_energy (fun c i => fmul (sE s c i) (sE s c i))
                          (fun c i => fmul (sH s c i) (maxwell_h sh dt d (sE s) (sH s) mu c i)) (Some eps) mu d) in
      fsum (K := RF) sh (fun c i => vol_e we wh c i * (eps c i * (sE s' c i * sE s' c i))) <= C * U
      /\ fsum (K := RF) sh (fun c i => vol_h we wh c i * (matl mu c i * (sH s' c i * sH s' c i))) <= C * U.
Proof.
  intros sh we wh dx dy dz dt eps mu eps0 mu0 HL Hx Hy Hz He0 Hm0 Wx Wy Wz He Hm Hdt Hlim.
  set (S := 1 / (dx * dx) + 1 / (dy * dy) + 1 / (dz * dz)) in Hlim.
  assert (HS : Ssum dx dy dz = S) by (unfold Ssum, S; field; lra).
  assert (Sp : 0 < S) by (rewrite <- HS; now apply Ssum_pos).
  assert (Pp : 0 < eps0 * mu0) by now apply Rmult_lt_0_compat.
  assert (Hq : q dx dy dz dt eps0 mu0 < 1).
  { unfold q. rewrite HS. apply (Rmult_lt_reg_r (eps0 * mu0)); [exact Pp|].
    unfold Rdiv. rewrite Rmult_assoc, Rinv_l, Rmult_1_r, Rmult_1_l by lra.
    assert (R1 : 0 < sqrt S) by now apply sqrt_lt_R0.
    apply (Rmult_lt_compat_r (sqrt S)) in Hlim; [|exact R1].
    unfold Rdiv in Hlim. rewrite Rmult_assoc, Rinv_l, Rmult_1_r in Hlim by lra.
    assert (0 <= dt * sqrt S) by (apply Rmult_le_pos; lra).
    assert (0 <= sqrt (mu0 * eps0)) by apply sqrt_pos.
    assert (A : (dt * sqrt S) * (dt * sqrt S) < sqrt (mu0 * eps0) * sqrt (mu0 * eps0)) by (apply Rmult_le_0_lt_compat; lra).
    rewrite sqrt_sqrt in A by nra.
    replace (dt * sqrt S * (dt * sqrt S)) with (dt * dt * (sqrt S * sqrt S)) in A by ring.
    rewrite sqrt_sqrt in A by lra. lra. }
  assert (Hw : forall a i, (a < 3)%nat -> (i < dim sh a)%nat -> dmin dx dy dz a <= we a i /\ dmin dx dy dz a <= wh a i).
  { intros a i Ha Hi. destruct a as [|[|[|a]]]; [now apply Wx|now apply Wy|now apply Wz|lia]. }
  exists (2 / (1 - q dx dy dz dt eps0 mu0)).
  assert (Cp : 0 < / (1 - q dx dy dz dt eps0 mu0)) by (apply Rinv_0_lt_compat; lra).
  split; [apply Rmult_lt_0_compat; lra|].
  intros s n d s' U.
  destruct (stable_state sh we wh dx dy dz HL Hx Hy Hz Hw dt eps mu eps0 mu0 He0 Hm0 He Hm Hq s') as [A B].
  assert (EU : yee_E RF sh dt d eps mu s' = U).
  { assert (Nd : nzd sh d) by exact (Coq.Init.Logic.conj (nzw_e sh we wh dx dy dz HL Hx Hy Hz Hw) (nzw_h sh we wh dx dy dz HL Hx Hy Hz Hw)).
    assert (Ne : nzm sh eps) by exact (eps_nz sh eps eps0 He0 He).
    assert (Nm : nzm_opt sh mu) by exact (mu_nz sh mu mu0 Hm0 Hm).
    unfold s'. rewrite yee_E_run by assumption. rewrite work_noj; [apply Rplus_0_r|].
    intros e idx. unfold yee_work, csum, noj. cbn [fadd fmul f0 RF].
    match goal with |- ?a = ?b => change (@eq R a b) end. ring. }
  fold d in A, B. rewrite EU in A, B. unfold nrmE in A. unfold nrmH in B.
  assert (U0 : 0 <= U).
  { apply Rmult_le_reg_r with (/ (1 - q dx dy dz dt eps0 mu0)); [exact Cp|]. rewrite Rmult_0_l.
    eapply Rle_trans; [|exact A]. unfold fsum. cbn [fadd RF].
    assert (forall c, (c < 3)%nat -> 0 <= @gsum RF sh (fun idx => vol_e we wh c idx * (eps c idx * (sE s' c idx * sE s' c idx)))).
    { intros c Hc. apply gsum_nonneg. intros idx Hi.
      pose proof (vol_e_pos sh we wh dx dy dz HL Hx Hy Hz Hw c idx Hi). pose proof (He c idx Hc Hi).
      apply Rmult_le_pos; [lra|]. apply Rmult_le_pos; [lra|apply Rle_0_sqr]. }
    pose proof (H 0%nat ltac:(lia)). pose proof (H 1%nat ltac:(lia)). pose proof (H 2%nat ltac:(lia)). 
    cbn [fmul RF] in *. lra. }
  cbn [fmul RF] in *.
  split; [eapply Rle_trans; [exact A|]|eapply Rle_trans; [exact B|]]; unfold Rdiv; nra.
Qed.
Print Assumptions C17_stable.

(** The hypotheses hold e.g. for widths 1, 2, 2 in vacuum with dt = 1/2 (limit
    1/sqrt(3/2) = 0.816...). *)
Example C17_example :
  0 <= 1/2 < sqrt (1 * 1) / sqrt (1 / (1 * 1) + 1 / (2 * 2) + 1 / (2 * 2)).
Proof.
  split; [lra|]. rewrite Rmult_1_r, sqrt_1.
  assert (A : sqrt (1 / 1 + 1 / (2 * 2) + 1 / (2 * 2)) < 2).
  { assert (E : sqrt 4 = 2) by (replace 4 with (2 * 2) by lra; apply sqrt_square; lra).
    apply Rlt_le_trans with (sqrt 4); [apply sqrt_lt_1; lra|lra]. }
  assert (B : 0 < sqrt (1 / 1 + 1 / (2 * 2) + 1 / (2 * 2))) by (apply sqrt_lt_R0; lra).
  set (X := sqrt (1 / 1 + 1 / (2 * 2) + 1 / (2 * 2))) in *.
  apply (Rmult_lt_reg_r X); [exact B|]. replace (1 / X * X) with 1 by (field; lra). lra.
Qed.

(** ** C20: CPML coefficients *)

Theorem C20_raises_iff :
  forall (axis polarity : Z) (dt : R) (thickness : Z) (ln_R epsilon_eff mu_eff m ma cfs_alpha : R),
    cpml_params axis polarity dt thickness ln_R epsilon_eff mu_eff m ma cfs_alpha = Raise
    <-> ~ (0 <= axis <= 2)%Z \/ ~ (polarity = -1 \/ polarity = 1)%Z \/ (thickness <= 2)%Z \/ epsilon_eff <= 0.
Proof.
  intros. unfold cpml_params.
  destruct (Z.leb_spec 0 axis), (Z.ltb_spec axis 3); cbn [andb negb]; try (split; [intros _; left; lia|reflexivity]).
  destruct (Z.eqb_spec polarity (-1)), (Z.eqb_spec polarity 1); cbn [orb negb];
    try (split; [intros _; right; left; lia|reflexivity]);
  (destruct (Z.leb_spec thickness 2); [split; [intros _; right; right; left; assumption|reflexivity]|]);
  (destruct (Rle_dec epsilon_eff 0); [split; [intros _; right; right; right; assumption|reflexivity]|]);
  (split; [discriminate|]); intros [G|[G|[G|G]]]; exfalso; first [lia | lra].
Qed.
Print Assumptions C20_raises_iff.

(** All coefficients are damping. [p0 - p1 <= 1] makes one memory update a
    contraction towards the scaled derivative. *)
Theorem C20_ranges :
  forall (axis polarity : Z) (dt : R) (thickness : Z) (ln_R epsilon_eff mu_eff m ma cfs_alpha : R) (a pp : nat) (L : layer RF),
    0 <= dt -> ln_R < 0 -> 1 <= epsilon_eff * mu_eff -> 0 <= m -> 0 <= ma -> 0 <= cfs_alpha ->
    cpml_params axis polarity dt thickness ln_R epsilon_eff mu_eff m ma cfs_alpha = Ok (a, pp, L) ->
    Z.of_nat a = axis /\ pp = (if Z.ltb polarity 0 then 0%nat else 1%nat) /\ Z.of_nat (lth L) = thickness /\
    forall i, (i < lth L)%nat ->
      let p0e : R := lp0e L i in let p1e : R := lp1e L i in let p2e : R := lp2e L i in
      let p0h : R := lp0h L i in let p1h : R := lp1h L i in let p2h : R := lp2h L i in
      (0 < p0e <= 1) /\ (-1 <= p1e <= 0) /\ (0 < p2e <= 1) /\ p0e - p1e <= 1
      /\ (0 < p0h <= 1) /\ (-1 <= p1h <= 0) /\ (0 < p2h <= 1) /\ p0h - p1h <= 1
      /\ (0 < dt -> p0e < 1 /\ p0h < 1).
Proof.
  intros axis pol dt th ln_R ee me m ma ca a pp L Hdt HR Hk Hm Hma Ha E. unfold cpml_params in E.
  destruct (Z.leb_spec 0 axis), (Z.ltb_spec axis 3); cbn [andb negb] in E; try discriminate E.
  assert (Hp : (pol = -1 \/ pol = 1)%Z).
  { destruct (Z.eqb_spec pol (-1)), (Z.eqb_spec pol 1); cbn [orb negb] in E; try discriminate E; lia. }
  destruct (negb _); [discriminate E|].
  destruct (Z.leb_spec th 2); [discriminate E|]. destruct (Rle_dec ee 0); [discriminate E|].
  injection E as <- <- <-. split; [lia|]. split; [reflexivity|]. split; [cbn [lth]; lia|].
  intros i Hi. cbn [lth lp0e lp1e lp2e lp0h lp1h lp2h] in *.
  assert (Ht : (0 < Z.to_nat th)%nat) by lia.
  destruct (xe_range pol (Z.to_nat th) i Hp Hi) as [Xe Xh].
  pose proof (p0_range dt ln_R ee me m ma ca (Z.to_nat th) Hdt HR Hk Hm Ha Ht _ Xe).
  pose proof (p0_range dt ln_R ee me m ma ca (Z.to_nat th) Hdt HR Hk Hm Ha Ht _ Xh).
  destruct (p1_range dt ln_R ee me m ma ca (Z.to_nat th) Hdt HR Hk Hm Ha Ht _ Xe).
  destruct (p1_range dt ln_R ee me m ma ca (Z.to_nat th) Hdt HR Hk Hm Ha Ht _ Xh).
  pose proof (p2_range ee me m (Z.to_nat th) Hk Hm Ht _ Xe).
  pose proof (p2_range ee me m (Z.to_nat th) Hk Hm Ht _ Xh).
  repeat split; try tauto; try lra.
  - intros. now apply p0_lt1.
  - intros. now apply p0_lt1.
Qed.
Print Assumptions C20_ranges.

(** The coefficients are those of the graded profile
    sigma = (x/t)^m * sigma_max, kappa = 1 + (x/t)^m (kappa_max - 1),
    alpha = (1 - x/t)^ma * cfs_alpha with sigma_max = -ln_R/2 (m+1), kappa_max =
    sqrt(eps_eff mu_eff), sampled at depths x staggered by half a cell between E and
    H: on the high side E at i + 1/2 and H at i + 1, on the low side E at t - i and H
    at t - i - 1/2. *)
Theorem C20_profile :
  forall (axis polarity : Z) (dt : R) (thickness : Z) (ln_R epsilon_eff mu_eff m ma cfs_alpha : R) (a pp : nat) (L : layer RF),
    cpml_params axis polarity dt thickness ln_R epsilon_eff mu_eff m ma cfs_alpha = Ok (a, pp, L) ->
    let t := INR (lth L) in
    let sigma x := power (x / t) m * (- ln_R / 2 * (m + 1)) in
    let kappa x := 1 + power (x / t) m * (sqrt (epsilon_eff * mu_eff) - 1) in
    let alpha x := power (1 - x / t) ma * cfs_alpha in
    let P0 x := exp (- (sigma x / kappa x + alpha x) * dt) in
    let P1 x := sigma x / (sigma x + kappa x * alpha x) * (P0 x - 1) in
    let P2 x := 1 / kappa x in
    forall i, (i < lth L)%nat ->
      let xe := if Z.ltb 0 polarity then INR i + 1/2 else t - INR i in
      let xh := if Z.ltb 0 polarity then INR i + 1 else t - INR i - 1/2 in
      lp0e L i = P0 xe /\ lp1e L i = P1 xe /\ lp2e L i = P2 xe
      /\ lp0h L i = P0 xh /\ lp1h L i = P1 xh /\ lp2h L i = P2 xh.
Proof.
  intros axis pol dt th ln_R ee me m ma ca a pp L E. unfold cpml_params in E.
  destruct (negb _); [discriminate E|]. destruct (negb _); [discriminate E|].
  destruct (Z.leb_spec th 2); [discriminate E|]. destruct (Rle_dec ee 0); [discriminate E|].
  injection E as <- <- <-. intros t0 sigma kappa alpha P0 P1 P2 i Hi xe xh.
  cbn [lth lp0e lp1e lp2e lp0h lp1h lp2h] in *. set (t := Z.to_nat th) in *.
  assert (Xe : cp_xe pol t i = xe).
  { unfold cp_xe, xe. destruct (Z.ltb 0 pol); [rewrite plus_INR; cbn; lra|]. now rewrite minus_INR by lia. }
  assert (Xh : cp_xh pol t i = xh).
  { unfold cp_xh, xh. destruct (Z.ltb 0 pol); [rewrite plus_INR; cbn; lra|]. now rewrite minus_INR by lia. }
  rewrite Xe, Xh. repeat split; reflexivity.
Qed.
Print Assumptions C20_profile.

(** The two polarities are mirror images with E and H exchanged. *)
Theorem C20_mirrored :
  forall (axis : Z) (dt : R) (thickness : Z) (ln_R epsilon_eff mu_eff m ma cfs_alpha : R) (a b pa pb : nat) (Lp Ln : layer RF),
    cpml_params axis 1 dt thickness ln_R epsilon_eff mu_eff m ma cfs_alpha = Ok (a, pa, Lp) ->
    cpml_params axis (-1) dt thickness ln_R epsilon_eff mu_eff m ma cfs_alpha = Ok (b, pb, Ln) ->
    pa = 1%nat /\ pb = 0%nat /\ lth Lp = lth Ln /\
    forall i, (i < lth Lp)%nat ->
      let i' := (lth Lp - 1 - i)%nat in
      lp0e Lp i = lp0h Ln i' /\ lp1e Lp i = lp1h Ln i' /\ lp2e Lp i = lp2h Ln i'
      /\ lp0h Lp i = lp0e Ln i' /\ lp1h Lp i = lp1e Ln i' /\ lp2h Lp i = lp2e Ln i'.
Proof.
  intros axis dt th ln_R ee me m ma ca a b pa pb Lp Ln E1 E2. unfold cpml_params in E1, E2.
  destruct (Z.leb 0 axis && Z.ltb axis 3)%bool; [|discriminate E1]. cbn [Z.eqb orb negb Pos.eqb] in E1, E2.
  destruct (Z.leb_spec th 2); [discriminate E1|]. destruct (Rle_dec ee 0); [discriminate E1|].
  injection E1 as <- <- <-. injection E2 as <- <- <-.
  split; [reflexivity|]. split; [reflexivity|]. split; [reflexivity|].
  intros i Hi i'. cbn [lth lp0e lp1e lp2e lp0h lp1h lp2h] in *. set (t := Z.to_nat th) in *.
  assert (A : cp_xe 1 t i = cp_xh (-1) t i').
  { unfold cp_xe, cp_xh. cbn [Z.ltb Z.compare]. replace (t - i')%nat with (i + 1)%nat by lia. reflexivity. }
  assert (B : cp_xh 1 t i = cp_xe (-1) t i').
  { unfold cp_xe, cp_xh. cbn [Z.ltb Z.compare]. replace (t - i')%nat with (i + 1)%nat by lia. reflexivity. }
  rewrite A, B. repeat split; reflexivity.
Qed.
Print Assumptions C20_mirrored.

(** Grading: going outwards ([i] towards the high edge for polarity 1, towards
    the low edge for polarity -1) kappa does not decrease; without a CFS term
    ([cfs_alpha = 0], the default) the memory decays ever faster and is fed ever
    more strongly. *)
Theorem C20_graded :
  forall (axis polarity : Z) (dt : R) (thickness : Z) (ln_R epsilon_eff mu_eff m ma cfs_alpha : R) (a pp : nat) (L : layer RF),
    0 <= dt -> ln_R < 0 -> 1 <= epsilon_eff * mu_eff -> 0 <= m -> 0 <= ma -> 0 <= cfs_alpha ->
    cpml_params axis polarity dt thickness ln_R epsilon_eff mu_eff m ma cfs_alpha = Ok (a, pp, L) ->
    forall i j, (i < lth L)%nat -> (j < lth L)%nat -> (if Z.ltb 0 polarity then i <= j else j <= i)%nat ->
      lp2e L j <= lp2e L i /\ lp2h L j <= lp2h L i
      /\ (cfs_alpha = 0 ->
            lp0e L j <= lp0e L i /\ lp0h L j <= lp0h L i
            /\ lp1e L j <= lp1e L i /\ lp1h L j <= lp1h L i).
Proof.
  intros axis pol dt th ln_R ee me m ma ca a pp L Hdt HR Hk Hm Hma Ha E. unfold cpml_params in E.
  destruct (negb _); [discriminate E|].
  assert (Hp : (pol = -1 \/ pol = 1)%Z).
  { destruct (Z.eqb_spec pol (-1)), (Z.eqb_spec pol 1); cbn [orb negb] in E; try discriminate E; lia. }
  destruct (negb _); [discriminate E|].
  destruct (Z.leb_spec th 2); [discriminate E|]. destruct (Rle_dec ee 0); [discriminate E|].
  injection E as <- <- <-. cbn [lth lp0e lp1e lp2e lp0h lp1h lp2h]. set (t := Z.to_nat th).
  intros i j Hi Hj Hij. assert (Ht : (0 < t)%nat) by lia.
  destruct (xe_range pol t i Hp Hi) as [Xe Xh]. destruct (xe_range pol t j Hp Hj) as [Ye Yh].
  assert (Me : cp_xe pol t i <= cp_xe pol t j).
  { unfold cp_xe. destruct (Z.ltb 0 pol); [apply Rplus_le_compat_r|]; apply le_INR; lia. }
  assert (Mh : cp_xh pol t i <= cp_xh pol t j).
  { unfold cp_xh. destruct (Z.ltb 0 pol); [|apply Rplus_le_compat_r]; apply le_INR; lia. }
  split; [apply p2_mono; tauto|]. split; [apply p2_mono; tauto|].
  intro Hz. 
  assert (A : forall x y, 0 < x <= INR t -> 0 < y <= INR t -> x <= y ->
     cp_p0 dt ln_R ee me m ma ca t y <= cp_p0 dt ln_R ee me m ma ca t x
     /\ cp_p1 dt ln_R ee me m ma ca t y <= cp_p1 dt ln_R ee me m ma ca t x).
  { intros x y X Y XY.
    assert (G : cp_p0 dt ln_R ee me m ma ca t y <= cp_p0 dt ln_R ee me m ma ca t x) by (apply p0_mono; tauto).
    split; [exact G|]. rewrite !p1_alpha0 by tauto. lra. }
  destruct (A _ _ Xe Ye Me). destruct (A _ _ Xh Yh Mh). tauto.
Qed.
Print Assumptions C20_graded.

(** Default arguments, thickness 8. *)
Example C20_example : exists L : layer RF, cpml_params 1 1 (1/2) 8 (-16) 1 1 (7/2) 1 0 = Ok (1%nat, 1%nat, L) /\ lth L = 8%nat.
Proof.
  unfold cpml_params. cbn [Z.leb Z.ltb Z.compare andb negb Z.eqb orb Pos.eqb Pos.compare Pos.compare_cont].
  destruct (Rle_dec 1 0); [lra|]. eexists. split; reflexivity.
Qed.

(** ** C22: gaussian_packet *)

Theorem C22_delay_whole_periods :
  forall (wl dwl turn_on : R), 0 < wl -> dwl <> 0 -> 0 < turn_on < 1 ->
    exists k : Z, (0 < k)%Z /\ gp_delay wl dwl turn_on = IZR k * wl.
Proof.
  intros wl dwl on Hw Hd Ho. exists (zceil (sqrt (- ln on / gp_alpha wl dwl) * gp_freq wl)).
  pose proof (delay_periods wl dwl on Hw) as E. split; [|exact E].
  pose proof (delay_pos wl dwl on Hw Hd Ho) as P. rewrite E in P.
  apply lt_IZR. apply (Rmult_lt_reg_r wl); lra.
Qed.
Print Assumptions C22_delay_whole_periods.

(** ... and the smallest such delay for which the Gaussian has fallen to [turn_on] at t = 0. *)
Theorem C22_delay_least :
  forall (wl dwl turn_on : R), 0 < wl -> dwl <> 0 -> 0 < turn_on < 1 ->
    let d := gp_delay wl dwl turn_on in
    exp (- packet_alpha wl dwl * d * d) <= turn_on /\
    forall j : Z, (0 <= j)%Z -> exp (- packet_alpha wl dwl * (IZR j * wl) * (IZR j * wl)) <= turn_on -> d <= IZR j * wl.
Proof.
  intros wl dwl on Hw Hd Ho d. pose proof (alpha_pos wl dwl Hw Hd) as A. change (packet_alpha wl dwl) with (gp_alpha wl dwl).
  pose proof (delay_ge wl dwl on Hw) as G. set (al := gp_alpha wl dwl) in *.
  assert (L : 0 < - ln on) by (pose proof (ln_increasing on 1 (proj1 Ho) (proj2 Ho)) as I; rewrite ln_1 in I; lra).
  assert (Q : 0 < - ln on / al) by (apply Rmult_lt_0_compat; [exact L|now apply Rinv_0_lt_compat]).
  pose proof (sqrt_sqrt _ (Rlt_le _ _ Q)) as S. pose proof (sqrt_lt_R0 _ Q) as P. set (r := sqrt (- ln on / al)) in *.
  assert (AL : al * (r * r) = - ln on) by (rewrite S; field; lra).
  split.
  - fold d in G. apply Rle_trans with (exp (ln on)); [|rewrite exp_ln; lra]. apply exp_le.
    assert (r * r <= d * d) by (apply Rmult_le_compat; lra). assert (al * (r * r) <= al * (d * d)) by (apply Rmult_le_compat_l; lra). lra.
  - intros j Hj E. set (t := IZR j * wl) in *. assert (T : 0 <= t) by (apply Rmult_le_pos; [now apply IZR_le|lra]).
    assert (B : - ln on <= al * (t * t)).
    { destruct (Rle_dec (- ln on) (al * (t * t))) as [|N]; [assumption|exfalso]. apply Rnot_le_lt in N.
      assert (X : exp (ln on) < exp (- al * t * t)) by (apply exp_increasing; lra). rewrite exp_ln in X by lra. lra. }
    assert (C : r <= t). { destruct (Rle_dec r t) as [|N]; [assumption|exfalso]. apply Rnot_le_lt in N.
      assert (t * t < r * r) by nra. assert (al * (t * t) < al * (r * r)) by (apply Rmult_lt_compat_l; lra). lra. }
    unfold d. rewrite (delay_periods wl dwl on Hw). fold al. fold r. unfold t. apply Rmult_le_compat_r; [lra|].
    apply IZR_le. pose proof (zceil_spec (r * gp_freq wl)) as [_ Z]. apply Zlt_succ_le. apply lt_IZR. unfold Z.succ. rewrite plus_IZR.
    assert (r * gp_freq wl <= IZR j). { unfold gp_freq. apply (Rmult_le_reg_r wl); [lra|]. replace (r * (1 / wl) * wl) with r by (field; lra). exact C. }
    lra.
Qed.
Print Assumptions C22_delay_least.

(** The envelope: a Gaussian around the delay, kept at 1 afterwards if one-sided. *)
Theorem C22_shape :
  forall (wl dwl dt turn_on : R) (one_sided : bool) (ii : R),
    let a := packet_alpha wl dwl in
    let t := ii * dt - gp_delay wl dwl turn_on in
    (one_sided = false \/ t <= 0 -> gp_envelope wl dwl dt turn_on one_sided ii = sqrt (sqrt (2 * a / PI)) * exp (- a * (t * t)))
    /\ (one_sided = true -> 0 < t -> gp_envelope wl dwl dt turn_on one_sided ii = 1).
Proof.
  intros wl dwl dt on os ii a t. unfold gp_envelope. cbv zeta. fold t. change (gp_alpha wl dwl) with a.
  split.
  - intros [-> | H]; [cbn [andb]; f_equal; f_equal; ring|]. destruct (Rlt_dec 0 t); [lra|]. rewrite andb_false_r. f_equal. f_equal. ring.
  - intros -> H. destruct (Rlt_dec 0 t); [reflexivity|contradiction].
Qed.
Print Assumptions C22_shape.

(** At timestep 0 the envelope is at most [turn_on] times its peak, and positive. *)
Theorem C22_turn_on :
  forall (wl dwl dt turn_on : R) (one_sided : bool) (ii : R), 0 < wl -> dwl <> 0 -> 0 < turn_on < 1 ->
    ii * dt = gp_delay wl dwl turn_on ->
    0 < gp_envelope wl dwl dt turn_on one_sided 0 <= turn_on * gp_envelope wl dwl dt turn_on one_sided ii.
Proof.
  intros wl dwl dt on os ii Hw Hd Ho E. rewrite (env_peak wl dwl dt on os ii E). split.
  - unfold gp_envelope. pose proof (peak_pos wl dwl Hw Hd) as P. unfold gp_peak in P.
    destruct (_ && _); [lra|]. apply Rmult_lt_0_compat; [exact P|apply exp_pos].
  - rewrite Rmult_comm. now apply env_start.
Qed.
Print Assumptions C22_turn_on.

(** The two-sided envelope is largest at the delay. *)
Theorem C22_peak_at_delay :
  forall (wl dwl dt turn_on ii jj : R), 0 < wl -> dwl <> 0 -> 0 < turn_on < 1 -> ii * dt = gp_delay wl dwl turn_on ->
    gp_envelope wl dwl dt turn_on false jj <= gp_envelope wl dwl dt turn_on false ii.
Proof. intros wl dwl dt on ii jj Hw Hd Ho E. rewrite (env_peak wl dwl dt on false ii E). now apply env_le_peak. Qed.
Print Assumptions C22_peak_at_delay.

(** One-sided, if the peak value does not exceed 1 (2 alpha <= pi): never decreases. *)
Theorem C22_one_sided_monotone :
  forall (wl dwl dt turn_on ii jj : R), 0 < wl -> dwl <> 0 -> 0 < turn_on < 1 -> 0 <= dt ->
    2 * packet_alpha wl dwl <= PI -> ii <= jj ->
    gp_envelope wl dwl dt turn_on true ii <= gp_envelope wl dwl dt turn_on true jj.
Proof. intros. now apply env_one_sided_mono. Qed.
Print Assumptions C22_one_sided_monotone.

(** The carrier: unit modulus, and in phase with exp(i omega t) although the pulse is
    delayed. *)
Theorem C22_carrier :
  forall (wl dwl dt turn_on ii : R), 0 < wl -> dwl <> 0 -> 0 < turn_on < 1 ->
    gp_cos wl dwl dt turn_on ii = cos (2 * PI / wl * (ii * dt))
    /\ gp_sin wl dwl dt turn_on ii = sin (2 * PI / wl * (ii * dt))
    /\ gp_cos wl dwl dt turn_on ii * gp_cos wl dwl dt turn_on ii
       + gp_sin wl dwl dt turn_on ii * gp_sin wl dwl dt turn_on ii = 1
    /\ gp_cos wl dwl dt turn_on 0 = 1 /\ gp_sin wl dwl dt turn_on 0 = 0.
Proof.
  intros wl dwl dt on ii Hw Hd Ho. destruct (carrier wl dwl dt on Hw ii) as [A B].
  destruct (phase wl dwl dt on Hw) as [C D].
  split; [exact A|]. split; [exact B|]. split; [|split; assumption].
  rewrite A, B. pose proof (sin2_cos2 (gp_omega wl * (ii * dt))) as S. unfold Rsqr in S. lra.
Qed.
Print Assumptions C22_carrier.

Example C22_example : 0 < 1 /\ (1:R) <> 0 /\ 0 < 1/2 < 1 /\ 2 * packet_alpha 4 1 <= PI.
Proof.
  repeat split; try lra. unfold packet_alpha.
  pose proof PI_RGT_0 as P. assert (L : ln 2 <= 1).
  { rewrite <- (ln_exp 1). apply ln_le; [lra|]. pose proof (exp_ineq1 1). lra. }
  pose proof ln2_pos. pose proof PI_4 as P4.
  replace (2 * (1 * (2 * PI / 4) * (2 * PI / 4) / (2 * PI) * (1 * (2 * PI / 4) * (2 * PI / 4) / (2 * PI)) * ln 2 / 8))
    with (PI * PI * ln 2 / 256) by (field; lra). nra.
Qed.

(** ** C57: the packet's documented bounds *)

Lemma sqrt2_gt1 x : 1 < x -> 1 < sqrt (sqrt x).
Proof.
  intro H. assert (A : sqrt 1 < sqrt x) by (apply sqrt_lt_1; lra). rewrite sqrt_1 in A.
  assert (B : sqrt 1 < sqrt (sqrt x)) by (apply sqrt_lt_1; lra). rewrite sqrt_1 in B. exact B.
Qed.

(** One-sided envelopes of short pulses jump down after the delay. *)
Theorem C57_one_sided_monotone_refuted :
  exists (wl dwl dt turn_on ii jj : R), 0 < wl /\ 0 < dwl /\ 0 < turn_on < 1 /\ 0 < dt /\ ii <= jj /\
    gp_envelope wl dwl dt turn_on true jj < gp_envelope wl dwl dt turn_on true ii.
Proof.
  set (k := gp_delay 1 8 (1/2)).
  exists 1, 8, 1, (1/2), k, (k + 1). repeat (split; [lra|]).
  rewrite (env_peak 1 8 1 (1/2) true k) by (fold k; ring).
  unfold gp_envelope. fold k. cbn [andb].
  destruct (Rlt_dec 0 ((k + 1) * 1 - k)) as [_|N]; [|exfalso; apply N; lra].
  unfold gp_peak. apply sqrt2_gt1.
  assert (A : 1 < 2 * gp_alpha 1 8 / PI).
  { pose proof PI_RGT_0 as P. pose proof ln2_half. pose proof PI2_1.
    unfold gp_alpha, gp_fwhm, gp_omega.
    replace (2 * (8 * (2 * PI / 1) * (2 * PI / 1) / (2 * PI) * (8 * (2 * PI / 1) * (2 * PI / 1) / (2 * PI)) * ln 2 / 8) / PI)
      with (64 * PI * ln 2) by (field; lra). nra. }
  exact A.
Qed.
Print Assumptions C57_one_sided_monotone_refuted.

(** [turn_on] is documented as the "max allowable amplitude at t=0"; the amplitude
    there can exceed it, because the peak is not 1. *)
Theorem C57_turn_on_amplitude_refuted :
  exists (wl dwl dt turn_on : R), 0 < wl /\ 0 < dwl /\ 0 < turn_on < 1 /\ 0 < dt /\
    turn_on < gp_envelope wl dwl dt turn_on false 0.
Proof.
  set (A := gp_alpha 1 1). assert (Ap : 0 < A) by (apply alpha_pos; lra).
  exists 1, 1, 1, (exp (- A)). pose proof (exp_pos (- A)) as E0.
  assert (E1 : exp (- A) < 1) by (rewrite <- exp_0; apply exp_increasing; lra).
  repeat (split; [lra|]).
  assert (D : gp_delay 1 1 (exp (- A)) = 1).
  { unfold gp_delay, gp_freq. fold A. rewrite ln_exp.
    replace (- - A / A) with 1 by (field; lra). rewrite sqrt_1.
    rewrite (zceil_unique (1 * (1 / 1)) 1) by lra. field. }
  unfold gp_envelope. cbn [andb]. rewrite D. fold A.
  replace (- A * (0 * 1 - 1) * (0 * 1 - 1)) with (- A) by ring.
  assert (P : 1 < sqrt (sqrt (2 * A / PI))).
  { apply sqrt2_gt1. pose proof PI_RGT_0. pose proof ln2_half. pose proof PI2_1.
    assert (Q : 1 < 2 * A / PI).
    { unfold A, gp_alpha, gp_fwhm, gp_omega.
      replace (2 * (1 * (2 * PI / 1) * (2 * PI / 1) / (2 * PI) * (1 * (2 * PI / 1) * (2 * PI / 1) / (2 * PI)) * ln 2 / 8) / PI)
        with (PI * ln 2) by (field; lra). nra. }
    exact Q. }
  rewrite <- (Rmult_1_l (exp (- A))) at 1. apply Rmult_lt_compat_r; lra.
Qed.
Print Assumptions C57_turn_on_amplitude_refuted.

(** What does hold: amplitude at t = 0 at most turn_on * (2 alpha / pi)^(1/4). *)
Theorem C57_turn_on_amplitude :
  forall (wl dwl dt turn_on : R) (one_sided : bool), 0 < wl -> dwl <> 0 -> 0 < turn_on < 1 ->
    gp_envelope wl dwl dt turn_on one_sided 0 <= turn_on * sqrt (sqrt (2 * packet_alpha wl dwl / PI)).
Proof. intros. rewrite Rmult_comm. now apply env_start. Qed.
Print Assumptions C57_turn_on_amplitude.

(** ** C58: ricker_pulse *)

(** Whatever zero of the target the root finder returns, the delay is 0 or one
    period, and the amplitude at t = 0 is 1 or (2 pi^2 - 1) exp(-pi^2): it does not
    depend on [turn_on]. *)
Lemma rk_zero wl on root : ricker_shape wl root = on <-> rk_target wl on root = 0.
Proof. unfold rk_target, rk_omega, ricker_shape. cbv zeta. split; intro H; lra. Qed.

Theorem C58_ricker_start :
  forall (wl dt turn_on root : R), 0 < wl -> 0 < turn_on -> ricker_shape wl root = turn_on ->
    (rk_delay wl root = 0 /\ rk_ff wl dt root 0 = 1)
    \/ (rk_delay wl root = wl /\ rk_ff wl dt root 0 = - ((2 * PI * PI - 1) * exp (- (PI * PI)))).
Proof.
  intros wl dt on root Hw Ho Hr. apply rk_zero in Hr.
  destruct (rk_delay_cases wl on root Hw Ho Hr) as [[A B]|[A B]];
  destruct (rk_start wl dt on root Hw Ho Hr) as [[A' B']|[A' B']]; [left|exfalso; lra|exfalso; lra|right]; split; assumption.
Qed.
Print Assumptions C58_ricker_start.

(** The amplitude at t = 0 is at least exp(-pi^2) (about 5e-5), whatever [turn_on]. *)
Theorem C58_ricker_floor :
  forall (wl dt turn_on root : R), 0 < wl -> 0 < turn_on -> ricker_shape wl root = turn_on ->
    exp (- (PI * PI)) <= Rabs (rk_ff wl dt root 0).
Proof. intros wl dt on root Hw Ho Hr. apply rk_zero in Hr. exact (rk_start_big wl dt on root Hw Ho Hr). Qed.
Print Assumptions C58_ricker_floor.

Lemma rk_root_exists wl on : 0 < wl -> 0 < on < 1 -> exists root, rk_target wl on root = 0.
Proof.
  intros Hw Ho. pose proof PI_RGT_0 as P.
  assert (W : 0 < rk_omega wl) by (unfold rk_omega; apply Rmult_lt_0_compat; [lra|now apply Rinv_0_lt_compat]).
  set (w := rk_omega wl) in *.
  destruct (IVT (fun tt => - ((1 - w * w * tt * tt / 2) * exp (- w * w / 4 * tt * tt) - on)) 0 (2 / w)) as [z [_ Hz]].
  - reg.
  - apply Rmult_lt_0_compat; [lra|now apply Rinv_0_lt_compat].
  - rewrite !Rmult_0_r, exp_0. unfold Rdiv. rewrite Rmult_0_l. lra.
  - replace (w * w * (2 / w) * (2 / w) / 2) with 2 by (field; lra).
    pose proof (exp_pos (- w * w / 4 * (2 / w) * (2 / w))). lra.
  - exists z. unfold rk_target. fold w. lra.
Qed.

(** With the default [turn_on = 1e-10], documented as "max allowable amplitude at
    t=0": a root exists, and for every root the bound fails. *)
Lemma exp_pow_INR x n : exp x ^ n = exp (INR n * x).
Proof.
  induction n as [|n IH]; [cbn; rewrite Rmult_0_l; symmetry; apply exp_0|].
  rewrite S_INR. cbn [pow]. rewrite IH, <- exp_plus. f_equal. ring.
Qed.

Theorem C58_turn_on_refuted :
  exists (wl dt turn_on : R), 0 < wl /\ 0 < dt /\ turn_on = / 10 ^ 10 /\
    (exists root, ricker_shape wl root = turn_on) /\
    forall root, ricker_shape wl root = turn_on -> turn_on < Rabs (rk_ff wl dt root 0).
Proof.
  assert (O : 0 < / 10 ^ 10) by (apply Rinv_0_lt_compat; lra).
  assert (O1 : / 10 ^ 10 < 1) by (rewrite <- Rinv_1; apply Rinv_lt_contravar; lra).
  exists 1, 1, (/ 10 ^ 10). split; [lra|]. split; [lra|]. split; [reflexivity|].
  split; [destruct (rk_root_exists 1 (/ 10 ^ 10)) as [root Hr]; [lra|lra|exists root; now apply rk_zero]|].
  intros root Hr. eapply Rlt_le_trans; [|apply (C58_ricker_floor 1 1 (/ 10 ^ 10) root); [lra|exact O|exact Hr]].
  assert (E : exp 16 <= 3 ^ 16).
  { replace 16 with (INR 16 * 1) by (cbn; lra). rewrite <- exp_pow_INR. apply pow_incr.
    split; [left; apply exp_pos|exact exp_le_3]. }
  pose proof PI_4 as P4. pose proof PI_RGT_0 as P0.
  apply Rlt_le_trans with (exp (Ropp 16)).
  - rewrite exp_Ropp. apply Rinv_lt_contravar; [pose proof (exp_pos 16); apply Rmult_lt_0_compat; lra|lra].
  - apply exp_le. nra.
Qed.
Print Assumptions C58_turn_on_refuted.

(** The rest of what is returned: the Ricker shape centred on the delay, which is a
    whole number of periods, so that the carrier is exp(i omega t). *)
Lemma turns_z (x : R) (n : Z) : cos (x + 2 * IZR n * PI) = cos x /\ sin (x + 2 * IZR n * PI) = sin x.
Proof.
  assert (P : forall (m : Z) y, (0 <= m)%Z -> cos (y + 2 * IZR m * PI) = cos y /\ sin (y + 2 * IZR m * PI) = sin y).
  { intros m y Hm. rewrite <- (Z2Nat.id m) by exact Hm. rewrite <- INR_IZR_INZ. split; [apply cos_period|apply sin_period]. }
  destruct (Z_le_gt_dec 0 n) as [H|H]; [now apply P|].
  destruct (P (- n)%Z (x + 2 * IZR n * PI) ltac:(lia)) as [A B]. rewrite opp_IZR in A, B.
  replace (x + 2 * IZR n * PI + 2 * - IZR n * PI) with x in A, B by ring. now rewrite A, B.
Qed.
Theorem C58_ricker_pulse :
  forall (wl dt root ii : R), 0 < wl ->
    (exists n : Z, rk_delay wl root = IZR n * wl /\ IZR (n - 1) * wl < root <= IZR n * wl)
    /\ rk_ff wl dt root ii = ricker_shape wl (ii * dt - rk_delay wl root)
    /\ rk_cos wl dt root ii = cos (2 * PI / wl * (ii * dt))
    /\ rk_sin wl dt root ii = sin (2 * PI / wl * (ii * dt)).
Proof.
  intros wl dt root ii Hw. destruct (zceil_spec (root * rk_freq wl)) as [Z1 Z2].
  set (n := zceil (root * rk_freq wl)) in *.
  assert (D : rk_delay wl root = IZR n * wl) by (unfold rk_delay; fold n; unfold rk_freq; field; lra).
  split; [|split].
  - exists n. split; [exact D|]. rewrite minus_IZR. unfold rk_freq in Z1, Z2.
    assert (E : root = root * (1 / wl) * wl) by (field; lra). rewrite E at 1. rewrite E at 2.
    split; [apply Rmult_lt_compat_r; lra|apply Rmult_le_compat_r; lra].
  - unfold rk_ff, ricker_shape, rk_omega. set (t := ii * dt - rk_delay wl root). cbv zeta.
    assert (X : - (2 * PI / wl * t / 2) * (2 * PI / wl * t / 2) = - (2 * PI / wl) * (2 * PI / wl) / 4 * t * t) by (field; lra).
    rewrite X. apply Rmult_eq_compat_r. field. lra.
  - unfold rk_cos, rk_sin, rk_omega. rewrite D.
    replace (2 * PI / wl * (ii * dt - IZR n * wl)) with (2 * PI / wl * (ii * dt) + 2 * IZR (- n) * PI)
      by (rewrite opp_IZR; field; lra).
    destruct (turns_z (2 * PI / wl * (ii * dt)) (- n)) as [-> ->]. split; reflexivity.
Qed.
Print Assumptions C58_ricker_pulse.
