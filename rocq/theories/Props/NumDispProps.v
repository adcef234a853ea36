(** Speed of waves on uniform grids (C161), see meanas/fdmath/__init__.py:405-505. *)
From Coq Require Import Reals Lra Psatz List Arith ZArith Lia Field.
From Verif.Lib Require Import Num Sums Idx Mat RealF Cexp.
From Verif.Model Require Import Fdmath Fdtd Fdfd.
From Verif.Spec Require Import Yee FdtdRun FdfdSpec HarmonicSpec DispersionSpec.
From Verif.Proofs Require Import FdmathP DispersionP DispersionP2 NumDispP.
From Verif.Props Require Import DispersionProps.
Import ListNotations.
Local Open Scope R_scope.

(** ** C161: the grid slows waves down, by at most a second-order fraction *)
(** |k|, the wave number in the continuum. *)
Definition knorm (k : nat -> R) : R := sqrt (k 0%nat * k 0%nat + k 1%nat * k 1%nat + k 2%nat * k 2%nat).

Lemma knorm_sqr k : knorm k * knorm k = k 0%nat * k 0%nat + k 1%nat * k 1%nat + k 2%nat * k 2%nat.
Proof. apply sqrt_sqrt. nra. Qed.
Lemma knorm_pos k : 0 <= knorm k. Proof. apply sqrt_pos. Qed.
Lemma grid_k2_sin k w : (forall a, (a < 3)%nat -> 0 < w a) ->
  grid_k2 k w = 4 * (sin (k 0%nat * w 0%nat / 2) * sin (k 0%nat * w 0%nat / 2) / (w 0%nat * w 0%nat)
    + sin (k 1%nat * w 1%nat / 2) * sin (k 1%nat * w 1%nat / 2) / (w 1%nat * w 1%nat)
    + sin (k 2%nat * w 2%nat / 2) * sin (k 2%nat * w 2%nat / 2) / (w 2%nat * w 2%nat)).
Proof.
  intro Hw. unfold grid_k2, grid_k. pose proof (Hw 0%nat ltac:(lia)). pose proof (Hw 1%nat ltac:(lia)). pose proof (Hw 2%nat ltac:(lia)). field. lra.
Qed.
Lemma sin2_le_sqr x : sin x * sin x <= x * x.
Proof.
  pose proof (cos_lower (2 * x)) as Q. rewrite cos_2a_sin in Q. lra.
Qed.
Lemma grid_k2_upper k w : (forall a, (a < 3)%nat -> 0 < w a) -> grid_k2 k w <= knorm k * knorm k.
Proof.
  intro Hw. rewrite knorm_sqr, (grid_k2_sin k w Hw).
  assert (X : forall a, (a < 3)%nat -> 4 * (sin (k a * w a / 2) * sin (k a * w a / 2) / (w a * w a)) <= k a * k a).
  { intros a Ha. pose proof (Hw a Ha) as P. pose proof (sin2_le_sqr (k a * w a / 2)) as Q.
    apply (Rmult_le_reg_r (w a * w a)); [nra|]. replace (4 * (sin (k a * w a / 2) * sin (k a * w a / 2) / (w a * w a)) * (w a * w a)) with (4 * (sin (k a * w a / 2) * sin (k a * w a / 2))) by (field; lra).
    lra. }
  pose proof (X 0%nat ltac:(lia)). pose proof (X 1%nat ltac:(lia)). pose proof (X 2%nat ltac:(lia)). lra.
Qed.
Lemma grid_k2_lower k w m : (forall a, (a < 3)%nat -> 0 < w a) -> 0 <= m <= 24 -> (forall a, (a < 3)%nat -> (k a * w a) * (k a * w a) <= m) ->
  knorm k * knorm k * ((1 - m / 24) * (1 - m / 24)) <= grid_k2 k w.
Proof.
  intros Hw Hm Hk. rewrite knorm_sqr, (grid_k2_sin k w Hw).
  assert (X : forall a, (a < 3)%nat -> k a * k a * ((1 - m / 24) * (1 - m / 24)) <= 4 * (sin (k a * w a / 2) * sin (k a * w a / 2) / (w a * w a))).
  { intros a Ha. pose proof (Hw a Ha) as P. pose proof (Hk a Ha) as Q.
    pose proof (sin2_lower (k a * w a / 2) (m / 24) ltac:(lra) ltac:(lra)) as S.
    apply (Rmult_le_reg_r (w a * w a)); [nra|]. replace (4 * (sin (k a * w a / 2) * sin (k a * w a / 2) / (w a * w a)) * (w a * w a)) with (4 * (sin (k a * w a / 2) * sin (k a * w a / 2))) by (field; lra).
    replace (k a * k a * ((1 - m / 24) * (1 - m / 24)) * (w a * w a)) with (4 * (k a * w a / 2 * (k a * w a / 2) * ((1 - m / 24) * (1 - m / 24)))) by field. lra. }
  pose proof (X 0%nat ltac:(lia)). pose proof (X 1%nat ltac:(lia)). pose proof (X 2%nat ltac:(lia)). lra.
Qed.
Lemma sqr_le x y : 0 <= y -> x * x <= y * y -> x <= y.
Proof. intros Hy Q. destruct (Rle_dec x y); [assumption|]. nra. Qed.

(** Frequency domain: a plane wave that [e_full] annihilates has at least the wave number
    omega sqrt (mu eps) of the continuum, and at most a fraction m / 24 more when
    (k_a w_a)^2 <= m along every axis. *)
Theorem C161_frequency_domain :
  forall (sh : list nat) (k w : nat -> R) (Om eps mu m : R) (e0 : nat -> CC),
    length sh = 3%nat -> (forall a, (a < 3)%nat -> (0 < dim sh a)%nat) ->
    commensurate sh k w -> (forall a, (a < 3)%nat -> 0 < w a) -> 0 < Om -> 0 < eps -> 0 < mu ->
    (exists c, (c < 3)%nat /\ e0 c <> c0) ->
    feq (K := CC) sh
      (unvec (K := CC) sh (mv (K := CC) (3 * prodl sh)
        (e_full_mat (K := CC) sh (mkC Om 0) (cw (uniw (K := RF) w), cw (uniw (K := RF) w))
           (vec (K := CC) sh (cf (unim (K := RF) eps))) (Some (vec (K := CC) sh (cf (unim (K := RF) mu)))) None None)
        (vec (K := CC) sh (plane_wave (K := CC) (phases k w) e0)))) noj ->
    (forall a, (a < 3)%nat -> (k a * w a) * (k a * w a) <= m) ->
    knorm k * (1 - m / 24) <= Om * sqrt (mu * eps) <= knorm k.
Proof.
  intros sh k w Om eps mu m e0 HL Hd Hk Hw Ho He Hm Hn Q Hb.
  destruct (proj1 (C116_real_wave_vector sh k w Om eps mu e0 HL Hd Hk ltac:(intros a Ha; pose proof (Hw a Ha); lra) ltac:(lra) ltac:(lra) ltac:(lra) Hn) Q) as [_ D].
  assert (ME : 0 < mu * eps) by now apply Rmult_lt_0_compat. pose proof (sqrt_sqrt (mu * eps) ltac:(lra)) as S. pose proof (sqrt_lt_R0 _ ME) as SP. set (c := sqrt (mu * eps)) in *.
  assert (E : (Om * c) * (Om * c) = grid_k2 k w). { rewrite D. replace (Om * c * (Om * c)) with (Om * Om * (c * c)) by ring. rewrite S. ring. }
  pose proof (knorm_pos k) as KP. split.
  - destruct (Rle_dec m 24) as [L|L].
    + apply sqr_le; [nra|]. rewrite E. replace (knorm k * (1 - m / 24) * (knorm k * (1 - m / 24))) with (knorm k * knorm k * ((1 - m / 24) * (1 - m / 24))) by ring.
      apply grid_k2_lower; try assumption. split; [|assumption]. pose proof (Hb 0%nat ltac:(lia)). nra.
    + assert (knorm k * (1 - m / 24) <= 0) by nra. nra.
  - apply sqr_le; [exact KP|]. rewrite E. now apply grid_k2_upper.
Qed.
Print Assumptions C161_frequency_domain.

(** Time domain: below the documented time step the frequency of a wave vector within
    the limits |k_a w_a| <= pi of the grid is at most that of the continuum, and smaller by
    at most the fraction m / 24. *)
Theorem C161_speed :
  forall (k w : nat -> R) (dt omega eps mu m : R),
    (forall a, (a < 3)%nat -> 0 < w a) -> 0 < dt -> 0 < eps -> 0 < mu ->
    dt * dt / (mu * eps) <= 1 / (1 / (w 0%nat * w 0%nat) + 1 / (w 1%nat * w 1%nat) + 1 / (w 2%nat * w 2%nat)) ->
    (forall a, (a < 3)%nat -> Rabs (k a * w a) <= PI) ->
    (forall a, (a < 3)%nat -> (k a * w a) * (k a * w a) <= m) ->
    0 <= omega <= PI / dt ->
    let Om := 2 * sin (omega * dt / 2) / dt in
    grid_k2 k w = Om * Om * mu * eps ->
    knorm k / sqrt (mu * eps) * (1 - m / 24) <= omega <= knorm k / sqrt (mu * eps).
Proof.
  intros k w dt omega eps mu m Hw Hdt He Hm Hc Hz Hb Ho Om D.
  assert (ME : 0 < mu * eps) by now apply Rmult_lt_0_compat. pose proof (sqrt_sqrt (mu * eps) ltac:(lra)) as S. pose proof (sqrt_lt_R0 _ ME) as SP.
  pose proof (knorm_pos k) as KP. pose proof PI_RGT_0 as Pi.
  assert (Hw0 := Hw 0%nat ltac:(lia)). assert (Hw1 := Hw 1%nat ltac:(lia)). assert (Hw2 := Hw 2%nat ltac:(lia)).
  assert (Th : 0 <= omega * dt / 2 <= PI / 2).
  { destruct Ho as [H0 H1]. split; [nra|]. apply (Rmult_le_compat_r dt) in H1; [|lra]. replace (PI / dt * dt) with PI in H1 by (field; lra). lra. }
  set (th := omega * dt / 2) in *. assert (OD : omega = 2 * th / dt) by (unfold th; field; lra).
  pose proof (sin_ge_0 th ltac:(lra) ltac:(lra)) as S0.
  split.
  - (* not slower *)
    destruct (Rle_dec m 24) as [L|L].
    + assert (M0 : 0 <= m) by (pose proof (Hb 0%nat ltac:(lia)); nra).
      assert (LE : knorm k * (1 - m / 24) <= Om * sqrt (mu * eps)).
      { assert (O0 : 0 <= Om). { unfold Om, Rdiv. apply Rmult_le_pos; [lra|]. left. now apply Rinv_0_lt_compat. }
        apply sqr_le; [nra|]. replace (Om * sqrt (mu * eps) * (Om * sqrt (mu * eps))) with (Om * Om * (sqrt (mu * eps) * sqrt (mu * eps))) by ring. rewrite S.
        replace (Om * Om * (mu * eps)) with (grid_k2 k w) by (rewrite D; ring).
        replace (knorm k * (1 - m / 24) * (knorm k * (1 - m / 24))) with (knorm k * knorm k * ((1 - m / 24) * (1 - m / 24))) by ring.
        now apply grid_k2_lower. }
      assert (OL : Om <= omega).
      { rewrite OD. unfold Om, Rdiv. apply Rmult_le_compat_r; [left; now apply Rinv_0_lt_compat|]. destruct (Req_EM_T th 0) as [Z|Z]; [rewrite Z, sin_0; lra|]. pose proof (sin_lt_x th ltac:(lra)). lra. }
      apply Rle_trans with Om; [|exact OL]. apply (Rmult_le_reg_r (sqrt (mu * eps))); [exact SP|].
      replace (knorm k / sqrt (mu * eps) * (1 - m / 24) * sqrt (mu * eps)) with (knorm k * (1 - m / 24)) by (field; lra). exact LE.
    + apply Rle_trans with 0; [|apply Ho]. assert (0 <= knorm k / sqrt (mu * eps)) by (apply Rmult_le_pos; [exact KP|]; left; now apply Rinv_0_lt_compat). nra.
  - (* not faster *)
    set (p := fun a : nat => dt * dt / (mu * eps) * (1 / (w a * w a))). set (x := fun a : nat => k a * w a / 2).
    assert (DD : 0 < dt * dt / (mu * eps)) by (apply Rdiv_lt_0_compat; nra).
    assert (Wp : forall a, (a < 3)%nat -> 0 < 1 / (w a * w a)). { intros a Ha. pose proof (Hw a Ha). apply Rdiv_lt_0_compat; nra. }
    assert (Pp : forall a, (a < 3)%nat -> 0 < p a) by (intros a Ha; apply Rmult_lt_0_compat; auto).
    assert (Xz : forall a, (a < 3)%nat -> Rabs (x a) <= PI / 2).
    { intros a Ha. unfold x, Rdiv. rewrite Rabs_mult, (Rabs_right (/ 2)) by lra. pose proof (Hz a Ha). lra. }
    assert (Ps : p 0%nat + p 1%nat + p 2%nat <= 1).
    { unfold p. pose proof (Wp 0%nat ltac:(lia)). pose proof (Wp 1%nat ltac:(lia)). pose proof (Wp 2%nat ltac:(lia)).
      set (s := 1 / (w 0%nat * w 0%nat) + 1 / (w 1%nat * w 1%nat) + 1 / (w 2%nat * w 2%nat)) in *. assert (0 < s) by (unfold s; lra).
      apply (Rmult_le_compat_r s) in Hc; [|lra]. replace (1 / s * s) with 1 in Hc by (field; lra). unfold s in Hc. lra. }
    destruct (sin2_jensen (p 0%nat) (p 1%nat) (p 2%nat) (x 0%nat) (x 1%nat) (x 2%nat) (Pp 0%nat ltac:(lia)) (Pp 1%nat ltac:(lia)) (Pp 2%nat ltac:(lia)) Ps (Xz 0%nat ltac:(lia)) (Xz 1%nat ltac:(lia)) (Xz 2%nat ltac:(lia))) as [Bv J].
    set (v := sqrt (p 0%nat * (x 0%nat * x 0%nat) + p 1%nat * (x 1%nat * x 1%nat) + p 2%nat * (x 2%nat * x 2%nat))) in *.
    assert (Ev : v = knorm k / sqrt (mu * eps) * dt / 2).
    { unfold v. replace (p 0%nat * (x 0%nat * x 0%nat) + p 1%nat * (x 1%nat * x 1%nat) + p 2%nat * (x 2%nat * x 2%nat)) with ((knorm k / sqrt (mu * eps) * dt / 2) * (knorm k / sqrt (mu * eps) * dt / 2)).
      - apply sqrt_square. unfold Rdiv. repeat apply Rmult_le_pos; try lra. left. now apply Rinv_0_lt_compat.
      - replace (knorm k / sqrt (mu * eps) * dt / 2 * (knorm k / sqrt (mu * eps) * dt / 2)) with (knorm k * knorm k / (sqrt (mu * eps) * sqrt (mu * eps)) * (dt * dt) / 4) by (field; lra).
        rewrite knorm_sqr, S. unfold p, x. field. lra. }
    assert (Es : sin th * sin th = p 0%nat * (sin (x 0%nat) * sin (x 0%nat)) + p 1%nat * (sin (x 1%nat) * sin (x 1%nat)) + p 2%nat * (sin (x 2%nat) * sin (x 2%nat))).
    { assert (Q : sin th * sin th = grid_k2 k w * (dt * dt) / (4 * (mu * eps))). { rewrite D. unfold Om. field. lra. }
      rewrite Q, (grid_k2_sin k w Hw). unfold p, x. field. lra. }
    rewrite <- Es in J. pose proof (sin_ge_0 v ltac:(lra) ltac:(lra)) as V0. pose proof (sqr_le _ _ V0 J) as Q.
    assert (TV : th <= v). { destruct (Rle_dec th v); [assumption|]. pose proof (sin_increasing_1 v th ltac:(lra) ltac:(lra) ltac:(lra) ltac:(lra) ltac:(lra)). lra. }
    rewrite Ev in TV. rewrite OD. apply (Rmult_le_reg_r (dt / 2)); [lra|]. replace (2 * th / dt * (dt / 2)) with th by (field; lra). lra.
Qed.
Print Assumptions C161_speed.

(** There is exactly one such frequency, and FDTD runs from the transverse waves of
    that wave vector oscillate with it. *)
Theorem C161_time_domain :
  forall (sh : list nat) (k w : nat -> R) (dt eps mu m : R),
    length sh = 3%nat -> commensurate sh k w -> (forall a, (a < 3)%nat -> 0 < w a) -> 0 < dt -> 0 < eps -> 0 < mu ->
    dt * dt / (mu * eps) <= 1 / (1 / (w 0%nat * w 0%nat) + 1 / (w 1%nat * w 1%nat) + 1 / (w 2%nat * w 2%nat)) ->
    (forall a, (a < 3)%nat -> Rabs (k a * w a) <= PI) -> (exists a, (a < 3)%nat /\ k a <> 0) ->
    (forall a, (a < 3)%nat -> (k a * w a) * (k a * w a) <= m) ->
    exists omega, 0 < omega <= PI / dt
      /\ knorm k / sqrt (mu * eps) * (1 - m / 24) <= omega <= knorm k / sqrt (mu * eps)
      /\ (forall omega', 0 <= omega' <= PI / dt ->
            let Om' := 2 * sin (omega' * dt / 2) / dt in grid_k2 k w = Om' * Om' * mu * eps -> omega' = omega)
      /\ forall e0 : nat -> CC, dot3 (K := CC) (bwd (K := CC) (phases k w) (cv w)) e0 = c0 ->
         let W := uniw (K := RF) w in
         let E := plane_wave (K := CC) (phases k w) e0 in
         let H := e2h_f (K := CC) sh (mkC (2 * sin (omega * dt / 2) / dt) 0) (cw W, cw W) (Some (cf (unim (K := RF) mu))) E in
         forall N : nat,
           seq_st (K := RF) sh
             (run (K := RF) sh dt (Some (W, W)) (unim (K := RF) eps) (Some (unim (K := RF) mu)) (repeat noj N)
                (mkst (at_phase E 0) (at_phase H (- (omega * dt / 2)))))
             (mkst (at_phase E (omega * (INR N * dt))) (at_phase H (omega * ((INR N - / 2) * dt)))).
Proof.
  intros sh k w dt eps mu m HL Hk Hw Hdt He Hm Hc Hz (a & Ha & Ka) Hb.
  assert (ME : 0 < mu * eps) by now apply Rmult_lt_0_compat. pose proof PI_RGT_0 as Pi.
  assert (Wp : forall a, (a < 3)%nat -> 0 < 1 / (w a * w a)). { intros b Hb'. pose proof (Hw b Hb'). apply Rdiv_lt_0_compat; nra. }
  set (q := grid_k2 k w * (dt * dt) / (4 * (mu * eps))).
  assert (G0 : 0 < grid_k2 k w).
  { assert (X : forall b, 0 <= grid_k k w b * grid_k k w b) by (intro; nra).
    assert (Y : 0 < grid_k k w a * grid_k k w a).
    { assert (grid_k k w a <> 0); [|nra]. unfold grid_k. pose proof (Hw a Ha). intro Z.
      assert (Sz : sin (k a * w a / 2) = 0). { apply (f_equal (fun t => t * w a / 2)) in Z. rewrite <- (Rmult_0_l (w a / 2)). replace (sin (k a * w a / 2)) with (2 * sin (k a * w a / 2) / w a * w a / 2) by (field; lra). rewrite Z. field. }
      pose proof (Hz a Ha) as Za. assert (N : k a * w a <> 0) by (intro T; apply Rmult_integral in T; lra).
      destruct (Rle_dec 0 (k a * w a)) as [P|P].
      - rewrite Rabs_right in Za by lra. pose proof (sin_gt_0 (k a * w a / 2) ltac:(lra) ltac:(lra)). lra.
      - rewrite Rabs_left in Za by lra. pose proof (sin_gt_0 (- (k a * w a / 2)) ltac:(lra) ltac:(lra)) as T. rewrite sin_neg in T. lra. }
    unfold grid_k2. pose proof (X 0%nat). pose proof (X 1%nat). pose proof (X 2%nat). destruct a as [|[|[|a]]]; [lra|lra|lra|lia]. }
  assert (Q1 : 0 < q <= 1).
  { split; [unfold q; apply Rdiv_lt_0_compat; [apply Rmult_lt_0_compat; [exact G0|now apply Rmult_lt_0_compat]|lra]|].
    assert (KB : forall b, (b < 3)%nat -> sin (k b * w b / 2) * sin (k b * w b / 2) / (w b * w b) <= 1 / (w b * w b)).
    { intros b Hb'. pose proof (Wp b Hb') as P. pose proof (SIN_bound (k b * w b / 2)). unfold Rdiv in *. apply Rmult_le_compat_r; [lra|nra]. }
    pose proof (KB 0%nat ltac:(lia)). pose proof (KB 1%nat ltac:(lia)). pose proof (KB 2%nat ltac:(lia)).
    set (s := 1 / (w 0%nat * w 0%nat) + 1 / (w 1%nat * w 1%nat) + 1 / (w 2%nat * w 2%nat)) in *.
    assert (S0 : 0 < s) by (pose proof (Wp 0%nat ltac:(lia)); pose proof (Wp 1%nat ltac:(lia)); pose proof (Wp 2%nat ltac:(lia)); unfold s; lra).
    assert (G : grid_k2 k w <= 4 * s) by (rewrite (grid_k2_sin k w Hw); unfold s; lra).
    apply (Rmult_le_compat_r s) in Hc; [|lra]. replace (1 / s * s) with 1 in Hc by (field; lra).
    replace q with (dt * dt / (mu * eps) * (grid_k2 k w / 4)) by (unfold q; field; lra).
    apply Rle_trans with (dt * dt / (mu * eps) * s); [|exact Hc]. apply Rmult_le_compat_l; [|lra]. left. apply Rdiv_lt_0_compat; nra. }
  pose proof (sqrt_lt_R0 q (proj1 Q1)) as R0. pose proof (sqrt_sqrt q ltac:(lra)) as R1. set (r := sqrt q) in *.
  assert (R2 : r <= 1) by nra.
  assert (A0 : 0 < asin r <= PI / 2).
  { pose proof (asin_bound r) as [_ B]. split; [|exact B]. rewrite <- asin_0. apply Rnot_le_lt. intro Le.
    assert (sin (asin r) <= sin (asin 0)). { apply sin_incr_1; try lra; try apply asin_bound. }
    rewrite !sin_asin in H by lra. lra. }
  set (omega := 2 * asin r / dt). assert (Eth : omega * dt / 2 = asin r) by (unfold omega; field; lra).
  assert (O : 0 < omega <= PI / dt).
  { unfold omega. split; [apply Rdiv_lt_0_compat; lra|]. unfold Rdiv. apply Rmult_le_compat_r; [left; now apply Rinv_0_lt_compat|lra]. }
  assert (D : grid_k2 k w = 2 * sin (omega * dt / 2) / dt * (2 * sin (omega * dt / 2) / dt) * mu * eps).
  { rewrite Eth, sin_asin by lra. replace (2 * r / dt * (2 * r / dt) * mu * eps) with (4 * (r * r) * (mu * eps) / (dt * dt)) by (field; lra). rewrite R1. unfold q. field. lra. }
  exists omega. split; [exact O|]. split; [|split].
  - apply (C161_speed k w dt omega eps mu m); try assumption. lra.
  - intros omega' Ho' Om' D'.
    assert (Sq : sin (omega' * dt / 2) * sin (omega' * dt / 2) = r * r). { rewrite R1. unfold q. rewrite D'. unfold Om'. field. lra. }
    assert (T : 0 <= omega' * dt / 2 <= PI / 2).
    { destruct Ho' as [H0 H1]. split; [nra|]. apply (Rmult_le_compat_r dt) in H1; [|lra]. replace (PI / dt * dt) with PI in H1 by (field; lra). lra. }
    pose proof (sin_ge_0 (omega' * dt / 2) ltac:(lra) ltac:(lra)) as S0. assert (E : sin (omega' * dt / 2) = r) by nra.
    apply (f_equal asin) in E. rewrite asin_sin in E by lra. unfold omega. rewrite <- E. field. lra.
  - intros e0 Tr. apply C116_time_domain; try assumption; try lra.
    + intros b Hb'. pose proof (Hw b Hb'). lra.
    + rewrite Eth, sin_asin by lra. intro Z. apply (f_equal (fun t => t * dt / 2)) in Z. replace (2 * r / dt * dt / 2) with r in Z by (field; lra). lra.
Qed.
Print Assumptions C161_time_domain.

(** Along one axis with the time step sqrt (mu eps) w there is no dispersion at all. *)
Theorem C161_exact :
  forall (k w : nat -> R) (a : nat) (dt eps mu : R),
    (a < 3)%nat -> (forall b, (b < 3)%nat -> 0 < w b) -> 0 < eps -> 0 < mu ->
    (forall b, (b < 3)%nat -> b <> a -> k b = 0) -> dt = sqrt (mu * eps) * w a ->
    let omega := k a / sqrt (mu * eps) in
    let Om := 2 * sin (omega * dt / 2) / dt in
    grid_k2 k w = Om * Om * mu * eps.
Proof.
  intros k w a dt eps mu Ha Hw He Hm Hk Hdt omega Om.
  assert (ME : 0 < mu * eps) by now apply Rmult_lt_0_compat. pose proof (sqrt_sqrt (mu * eps) ltac:(lra)) as S. pose proof (sqrt_lt_R0 _ ME) as SP.
  pose proof (Hw a Ha) as Wa.
  assert (Z : forall b, (b < 3)%nat -> b <> a -> grid_k k w b = 0).
  { intros b Hb N. pose proof (Hw b Hb). unfold grid_k. rewrite (Hk b Hb N). replace (0 * w b / 2) with 0 by field. rewrite sin_0. field. lra. }
  assert (E : grid_k2 k w = grid_k k w a * grid_k k w a).
  { unfold grid_k2. destruct a as [|[|[|a]]]; [| | |lia].
    - rewrite (Z 1%nat), (Z 2%nat) by lia. ring.
    - rewrite (Z 0%nat), (Z 2%nat) by lia. ring.
    - rewrite (Z 0%nat), (Z 1%nat) by lia. ring. }
  rewrite E. unfold Om, omega, grid_k. replace (k a / sqrt (mu * eps) * dt / 2) with (k a * w a / 2) by (rewrite Hdt; field; lra).
  rewrite Hdt. replace (2 * sin (k a * w a / 2) / (sqrt (mu * eps) * w a) * (2 * sin (k a * w a / 2) / (sqrt (mu * eps) * w a)) * mu * eps)
    with (4 * (sin (k a * w a / 2) * sin (k a * w a / 2)) / (w a * w a) * ((mu * eps) / (sqrt (mu * eps) * sqrt (mu * eps)))) by (field; lra).
  rewrite S. field. lra.
Qed.
Print Assumptions C161_exact.

(** Period 6 along x, unit widths and materials, time step 1/2: m = (pi/3)^2, so the wave is
    slower than the continuum by at most pi^2 / 216. *)
Example C161_case :
  let sh := [6; 1; 1]%nat in
  let k := fun a : nat => if Nat.eqb a 0 then PI / 3 else 0 in
  let w := fun _ : nat => 1 in
  commensurate sh k w
  /\ (1 / 2) * (1 / 2) / (1 * 1) <= 1 / (1 / (w 0%nat * w 0%nat) + 1 / (w 1%nat * w 1%nat) + 1 / (w 2%nat * w 2%nat))
  /\ (forall a, (a < 3)%nat -> Rabs (k a * w a) <= PI)
  /\ (forall a, (a < 3)%nat -> (k a * w a) * (k a * w a) <= PI * PI / 9)
  /\ knorm k / sqrt (1 * 1) = PI / 3.
Proof.
  cbv zeta. pose proof PI_RGT_0 as Pi. split; [|split; [|split; [|split]]].
  - intros a Ha. destruct a as [|[|[|a]]]; [exists 1%Z|exists 0%Z|exists 0%Z|lia]; cbn; lra.
  - lra.
  - intros a Ha. destruct a as [|[|[|a]]]; [| | |lia]; cbn; [rewrite Rabs_right by lra; lra|rewrite Rmult_0_l, Rabs_R0; lra|rewrite Rmult_0_l, Rabs_R0; lra].
  - intros a Ha. destruct a as [|[|[|a]]]; [| | |lia]; cbn; nra.
  - unfold knorm. cbn. rewrite Rmult_1_l, sqrt_1. replace (PI / 3 * (PI / 3) + 0 * 0 + 0 * 0) with (PI / 3 * (PI / 3)) by ring. rewrite sqrt_square by lra. field.
Qed.

(** ** C162: the limit of the time step is not the diagonal of a cell *)
Lemma am_hm a b c : 0 < a -> 0 < b -> 0 < c -> 9 <= (a + b + c) * (1 / a + 1 / b + 1 / c).
Proof.
  intros Ha Hb Hc. replace ((a + b + c) * (1 / a + 1 / b + 1 / c)) with (9 + ((a - b) * (a - b) / (a * b) + (a - c) * (a - c) / (a * c) + (b - c) * (b - c) / (b * c))) by (field; lra).
  assert (P : forall x y d, 0 < d -> 0 <= (x - y) * (x - y) / d). { intros x y d Hd. unfold Rdiv. apply Rmult_le_pos; [apply Rle_0_sqr|left; now apply Rinv_0_lt_compat]. }
  pose proof (P a b (a * b) ltac:(nra)). pose proof (P a c (a * c) ltac:(nra)). pose proof (P b c (b * c) ltac:(nra)). lra.
Qed.

(** The text bounds the distance of light per step by "the diagonal of the smallest
    cell". A third of the diagonal is already too long, for every shape of cell. *)
Theorem C162_third_of_the_diagonal :
  forall (sh : list nat) (w : nat -> R) (dt eps mu : R),
    length sh = 3%nat -> (forall a, (a < 3)%nat -> (0 < dim sh a)%nat /\ Nat.Even (dim sh a)) ->
    (forall a, (a < 3)%nat -> 0 < w a) -> 0 < eps -> 0 < mu -> 0 < dt ->
    let light := dt / sqrt (mu * eps) in
    let diagonal := sqrt (w 0%nat * w 0%nat + w 1%nat * w 1%nat + w 2%nat * w 2%nat) in
    diagonal / 3 < light ->
    exists E H : field RF, forall M : R, exists N c idx, (c < 3)%nat /\ inb sh idx /\
      M < Rabs (sE (run (K := RF) sh dt (Some (uniw (K := RF) w, uniw (K := RF) w)) (unim (K := RF) eps) (Some (unim (K := RF) mu))
                       (repeat noj N) (mkst E H)) c idx).
Proof.
  intros sh w dt eps mu HL Hd Hw He Hm Hdt light diagonal Hl.
  apply (C119_beyond_limit sh (fun _ => true) w dt eps mu HL (fun a Ha => proj1 (Hd a Ha)) Hw He Hm (fun a Ha _ => proj2 (Hd a Ha))).
  cbv beta iota. assert (Hw0 := Hw 0%nat ltac:(lia)). assert (Hw1 := Hw 1%nat ltac:(lia)). assert (Hw2 := Hw 2%nat ltac:(lia)).
  set (s := w 0%nat * w 0%nat + w 1%nat * w 1%nat + w 2%nat * w 2%nat) in *.
  assert (Sp : 0 < s) by (unfold s; nra). pose proof (am_hm (w 0%nat * w 0%nat) (w 1%nat * w 1%nat) (w 2%nat * w 2%nat) ltac:(nra) ltac:(nra) ltac:(nra)) as A. fold s in A.
  set (r := 1 / (w 0%nat * w 0%nat) + 1 / (w 1%nat * w 1%nat) + 1 / (w 2%nat * w 2%nat)) in *.
  assert (ME : 0 < mu * eps) by now apply Rmult_lt_0_compat. pose proof (sqrt_sqrt (mu * eps) ltac:(lra)) as S. pose proof (sqrt_lt_R0 _ ME) as SP.
  pose proof (sqrt_sqrt s ltac:(lra)) as Ds. pose proof (sqrt_pos s) as D0. fold diagonal in Ds, D0.
  assert (Q : s / 9 < light * light) by (rewrite <- Ds; nra).
  assert (L2 : light * light = dt * dt / (mu * eps)). { unfold light. rewrite <- S at 3. field. lra. }
  rewrite L2 in Q. assert (Q2 : s * (mu * eps) < 9 * (dt * dt)).
  { apply (Rmult_lt_compat_r (mu * eps)) in Q; [|lra]. replace (dt * dt / (mu * eps) * (mu * eps)) with (dt * dt) in Q by (field; lra). lra. }
  assert (R0 : 0 < r) by nra.
  assert (s * (mu * eps) * r < 9 * (dt * dt) * r) by (apply Rmult_lt_compat_r; assumption).
  assert (9 * (mu * eps) <= s * r * (mu * eps)) by (apply Rmult_le_compat_r; lra). lra.
Qed.
Print Assumptions C162_third_of_the_diagonal.

(** Runs with light covering less than the diagonal per step need not be bounded. *)
Theorem C162_diagonal_refuted :
  exists (sh : list nat) (w : nat -> R) (dt eps mu : R),
    length sh = 3%nat /\ (forall a, (a < 3)%nat -> 0 < w a) /\ 0 < eps /\ 0 < mu /\ 0 < dt /\
    dt / sqrt (mu * eps) < sqrt (w 0%nat * w 0%nat + w 1%nat * w 1%nat + w 2%nat * w 2%nat) /\
    exists E H : field RF, forall M : R, exists N c idx, (c < 3)%nat /\ inb sh idx /\
      M < Rabs (sE (run (K := RF) sh dt (Some (uniw (K := RF) w, uniw (K := RF) w)) (unim (K := RF) eps) (Some (unim (K := RF) mu))
                       (repeat noj N) (mkst E H)) c idx).
Proof.
  assert (B : 1 < sqrt (1 * 1 + 1 * 1 + 1 * 1) < 3).
  { split; [rewrite <- sqrt_1 at 1|rewrite <- (sqrt_square 3) by lra]; apply sqrt_lt_1_alt; lra. }
  exists [2; 2; 2]%nat, (fun _ => 1), 1, 1, 1. split; [reflexivity|]. split; [intros; lra|]. split; [lra|]. split; [lra|]. split; [lra|].
  split; [rewrite Rmult_1_l, sqrt_1; rewrite Rmult_1_l in B; lra|].
  apply C162_third_of_the_diagonal; try lra; try reflexivity.
  - intros a Ha. destruct a as [|[|[|a]]]; [| | |lia]; cbn; (split; [lia|now exists 1%nat]).
  - intros; lra.
  - rewrite (Rmult_1_l 1), sqrt_1 in *. lra.
Qed.
Print Assumptions C162_diagonal_refuted.

(** A third of the diagonal is sharp for cubes only: the documented limit is at most
    that, and at most the smallest width. *)
Theorem C162_limit :
  forall w : nat -> R, (forall a, (a < 3)%nat -> 0 < w a) ->
    let limit := sqrt (1 / (1 / (w 0%nat * w 0%nat) + 1 / (w 1%nat * w 1%nat) + 1 / (w 2%nat * w 2%nat))) in
    limit <= sqrt (w 0%nat * w 0%nat + w 1%nat * w 1%nat + w 2%nat * w 2%nat) / 3
    /\ (forall a, (a < 3)%nat -> limit < w a)
    /\ ((w 0%nat = w 1%nat /\ w 1%nat = w 2%nat) -> limit = w 0%nat / sqrt 3 /\ limit = sqrt (w 0%nat * w 0%nat + w 1%nat * w 1%nat + w 2%nat * w 2%nat) / 3).
Proof.
  intros w Hw limit. assert (Hw0 := Hw 0%nat ltac:(lia)). assert (Hw1 := Hw 1%nat ltac:(lia)). assert (Hw2 := Hw 2%nat ltac:(lia)).
  set (s := w 0%nat * w 0%nat + w 1%nat * w 1%nat + w 2%nat * w 2%nat) in *. assert (Sp : 0 < s) by (unfold s; nra).
  pose proof (am_hm (w 0%nat * w 0%nat) (w 1%nat * w 1%nat) (w 2%nat * w 2%nat) ltac:(nra) ltac:(nra) ltac:(nra)) as A. fold s in A.
  assert (Wp : forall a, (a < 3)%nat -> 0 < 1 / (w a * w a)). { intros a Ha. pose proof (Hw a Ha). apply Rdiv_lt_0_compat; nra. }
  assert (W0 := Wp 0%nat ltac:(lia)). assert (W1 := Wp 1%nat ltac:(lia)). assert (W2 := Wp 2%nat ltac:(lia)).
  set (r := 1 / (w 0%nat * w 0%nat) + 1 / (w 1%nat * w 1%nat) + 1 / (w 2%nat * w 2%nat)) in *.
  assert (R0 : 0 < r) by (unfold r; lra). assert (L2 : limit * limit = 1 / r) by (apply sqrt_sqrt; left; apply Rdiv_lt_0_compat; lra).
  assert (L0 : 0 <= limit) by apply sqrt_pos. pose proof (sqrt_sqrt s ltac:(lra)) as D2. pose proof (sqrt_pos s) as D0.
  assert (M : limit <= sqrt s / 3).
  { apply sqr_le; [lra|]. rewrite L2. replace (sqrt s / 3 * (sqrt s / 3)) with (sqrt s * sqrt s / 9) by field. rewrite D2. apply (Rmult_le_reg_r r); [exact R0|]. replace (1 / r * r) with 1 by (field; lra). lra. }
  split; [exact M|]. split.
  - intros a Ha. pose proof (Hw a Ha) as P. apply Rnot_le_lt. intro Le. assert (Q : w a * w a <= limit * limit) by nra. rewrite L2 in Q.
    apply (Rmult_le_compat_r r) in Q; [|lra]. replace (1 / r * r) with 1 in Q by (field; lra).
    assert (X : r * (w a * w a) <= 1) by lra. assert (Y : 1 / (w a * w a) * (w a * w a) = 1) by (field; lra).
    assert (Z : 1 / (w a * w a) < r) by (clear - Ha W0 W1 W2; unfold r; destruct a as [|[|[|a]]]; [lra|lra|lra|lia]). apply (Rmult_lt_compat_r (w a * w a)) in Z; [lra|nra].
  - intros [E1 E2]. assert (T : 0 < sqrt 3) by (apply sqrt_lt_R0; lra). pose proof (sqrt_sqrt 3 ltac:(lra)) as T2.
    assert (X : limit = w 0%nat / sqrt 3).
    { assert (V : 0 <= w 0%nat / sqrt 3) by (left; now apply Rdiv_lt_0_compat). assert (limit * limit = w 0%nat / sqrt 3 * (w 0%nat / sqrt 3)); [|nra].
      rewrite L2. replace (w 0%nat / sqrt 3 * (w 0%nat / sqrt 3)) with (w 0%nat * w 0%nat / (sqrt 3 * sqrt 3)) by (field; lra). rewrite T2. unfold r. rewrite <- E2, <- E1. field. lra. }
    split; [exact X|]. rewrite X. assert (Y : s = w 0%nat * w 0%nat * 3) by (unfold s; rewrite <- E2, <- E1; ring). rewrite Y, sqrt_mult, sqrt_square; [|lra|apply Rle_0_sqr|lra].
    apply (Rmult_eq_reg_r (sqrt 3)); [|lra]. replace (w 0%nat * sqrt 3 / 3 * sqrt 3) with (w 0%nat * (sqrt 3 * sqrt 3) / 3) by field. rewrite T2. field. lra.
Qed.
Print Assumptions C162_limit.
