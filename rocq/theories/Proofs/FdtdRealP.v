From Coq Require Import Reals Lra Lia ZArith List Bool Psatz Rpower.
From Verif.Lib Require Import Num RealF.
From Verif.Model Require Import Fdmath Pml FdtdReal.
Import ListNotations.
Local Open Scope R_scope.

(** ** zceil *)
Lemma zceil_spec x : x <= IZR (zceil x) < x + 1.
Proof.
  unfold zceil. rewrite minus_IZR. destruct (archimed (- x)) as [H1 H2]. lra.
Qed.
Lemma zceil_unique x z : x <= IZR z < x + 1 -> zceil x = z.
Proof.
  intro H. pose proof (zceil_spec x) as S.
  assert (A : IZR (zceil x) < IZR z + 1) by lra. assert (B : IZR z < IZR (zceil x) + 1) by lra.
  rewrite <- plus_IZR in A, B. apply lt_IZR in A, B. lia.
Qed.

(** ** rpow *)
Lemma rpow_pos x y : 0 < x -> 0 < rpow x y.
Proof. intro H. unfold rpow. destruct (Req_EM_T x 0); [lra|]. apply exp_pos. Qed.
Lemma rpow_nonneg x y : 0 <= x -> 0 <= rpow x y.
Proof.
  intro H. unfold rpow. destruct (Req_EM_T x 0); [destruct (Req_EM_T y 0); lra|]. left. apply exp_pos.
Qed.
Lemma ln_nonpos x : 0 < x -> x <= 1 -> ln x <= 0.
Proof.
  intros H0 H1. destruct (Req_dec x 1) as [->|Hn]; [rewrite ln_1; lra|].
  left. rewrite <- ln_1. apply ln_increasing; lra.
Qed.
Lemma rpow_le1 x y : 0 <= x -> x <= 1 -> 0 <= y -> rpow x y <= 1.
Proof.
  intros H0 H1 Hy. unfold rpow. destruct (Req_EM_T x 0); [destruct (Req_EM_T y 0); lra|].
  unfold Rpower. rewrite <- exp_0. pose proof (ln_nonpos x ltac:(lra) H1).
  destruct (Req_dec (y * ln x) 0) as [->|Hn]; [lra|]. left. apply exp_increasing. nra.
Qed.
Lemma ln_le x y : 0 < x -> x <= y -> ln x <= ln y.
Proof.
  intros H0 H1. destruct (Req_dec x y) as [->|Hn]; [lra|]. left. apply ln_increasing; lra.
Qed.
Lemma exp_le x y : x <= y -> exp x <= exp y.
Proof. intro H. destruct (Req_dec x y) as [->|Hn]; [lra|]. left. apply exp_increasing; lra. Qed.
Lemma rpow_mono x x' y : 0 < x -> x <= x' -> 0 <= y -> rpow x y <= rpow x' y.
Proof.
  intros H0 H1 Hy. unfold rpow. destruct (Req_EM_T x 0); [lra|]. destruct (Req_EM_T x' 0); [lra|].
  apply exp_le. apply Rmult_le_compat_l; [exact Hy|]. now apply ln_le.
Qed.

Section CP.
  Variables (dt ln_R epsilon_eff mu_eff m ma cfs_alpha : R) (t : nat).
  Hypothesis Hdt : 0 <= dt.
  Hypothesis HR : ln_R < 0.
  Hypothesis Hk : 1 <= epsilon_eff * mu_eff.
  Hypothesis Hm : 0 <= m.
  Hypothesis Hma : 0 <= ma.
  Hypothesis Ha : 0 <= cfs_alpha.
  Hypothesis Ht : (0 < t)%nat.

  Notation sg := (cp_sigma ln_R m t).
  Notation kp := (cp_kappa epsilon_eff mu_eff m t).
  Notation al := (cp_alpha ma cfs_alpha t).
  Notation sc := (cp_scaling m t).
  Notation p0 := (cp_p0 dt ln_R epsilon_eff mu_eff m ma cfs_alpha t).
  Notation p1 := (cp_p1 dt ln_R epsilon_eff mu_eff m ma cfs_alpha t).
  Notation p2 := (cp_p2 epsilon_eff mu_eff m t).

  Lemma t_pos : 0 < INR t. Proof. now apply lt_0_INR. Qed.
  Lemma xt_range x : 0 < x <= INR t -> 0 < x / INR t <= 1.
  Proof.
    intros [H1 H2]. pose proof t_pos. split.
    - apply Rmult_lt_0_compat; [exact H1|]. now apply Rinv_0_lt_compat.
    - apply (Rmult_le_reg_r (INR t)); [assumption|]. unfold Rdiv. rewrite Rmult_assoc, Rinv_l by lra. lra.
  Qed.
  Lemma sc_range x : 0 < x <= INR t -> 0 < sc x <= 1.
  Proof.
    intro H. destruct (xt_range x H). split; [now apply rpow_pos|]. apply rpow_le1; lra.
  Qed.
  Lemma smax_pos : 0 < cp_sigma_max ln_R m.
  Proof. unfold cp_sigma_max. apply Rmult_lt_0_compat; lra. Qed.
  Lemma kmax_ge1 : 1 <= cp_kappa_max epsilon_eff mu_eff.
  Proof. unfold cp_kappa_max. rewrite <- sqrt_1. apply sqrt_le_1; lra. Qed.
  Lemma sg_pos x : 0 < x <= INR t -> 0 < sg x.
  Proof. intro H. destruct (sc_range x H). pose proof smax_pos. now apply Rmult_lt_0_compat. Qed.
  Lemma kp_ge1 x : 0 < x <= INR t -> 1 <= kp x.
  Proof. intro H. destruct (sc_range x H). pose proof kmax_ge1. unfold cp_kappa. nra. Qed.
  Lemma al_nonneg x : 0 < x <= INR t -> 0 <= al x.
  Proof.
    intro H. destruct (xt_range x H). unfold cp_alpha. apply Rmult_le_pos; [|exact Ha]. apply rpow_nonneg. lra.
  Qed.
  Lemma rate_nonneg x : 0 < x <= INR t -> 0 <= sg x / kp x + al x.
  Proof.
    intro H. pose proof (sg_pos x H). pose proof (kp_ge1 x H). pose proof (al_nonneg x H).
    assert (0 <= sg x / kp x) by (apply Rmult_le_pos; [lra|left; apply Rinv_0_lt_compat; lra]). lra.
  Qed.

  Lemma p0_range x : 0 < x <= INR t -> 0 < p0 x <= 1.
  Proof.
    intro H. unfold cp_p0. split; [apply exp_pos|]. rewrite <- exp_0. apply exp_le.
    pose proof (rate_nonneg x H). nra.
  Qed.
  Lemma p0_lt1 x : 0 < dt -> 0 < x <= INR t -> p0 x < 1.
  Proof.
    intros Hd H. unfold cp_p0. rewrite <- exp_0. apply exp_increasing.
    pose proof (sg_pos x H). pose proof (kp_ge1 x H). pose proof (al_nonneg x H).
    assert (0 < sg x / kp x) by (apply Rmult_lt_0_compat; [lra|apply Rinv_0_lt_compat; lra]). nra.
  Qed.
  Lemma p1_range x : 0 < x <= INR t -> -1 <= p1 x <= 0 /\ p0 x + - p1 x <= 1.
  Proof.
    intro H. destruct (p0_range x H). pose proof (sg_pos x H). pose proof (kp_ge1 x H). pose proof (al_nonneg x H).
    unfold cp_p1. set (s := sg x) in *. set (k := kp x) in *. set (a := al x) in *.
    assert (P : 0 <= k * a) by nra.
    assert (Q : 0 <= s / (s + k * a) <= 1).
    { split; [apply Rmult_le_pos; [lra|left; apply Rinv_0_lt_compat; lra]|].
      apply (Rmult_le_reg_r (s + k * a)); [lra|]. unfold Rdiv. rewrite Rmult_assoc, Rinv_l by lra. lra. }
    set (r := s / (s + k * a)) in *. nra.
  Qed.
  Lemma p2_range x : 0 < x <= INR t -> 0 < p2 x <= 1.
  Proof.
    intro H. pose proof (kp_ge1 x H). unfold cp_p2. split.
    - apply Rmult_lt_0_compat; [lra|]. apply Rinv_0_lt_compat. lra.
    - apply (Rmult_le_reg_r (kp x)); [lra|]. unfold Rdiv. rewrite Rmult_assoc, Rinv_l by lra. lra.
  Qed.

  Lemma sc_mono x y : 0 < x -> x <= y -> y <= INR t -> sc x <= sc y.
  Proof.
    intros H1 H2 H3. unfold cp_scaling. apply rpow_mono; [|apply Rmult_le_compat_r|exact Hm].
    - apply xt_range. lra.
    - left. apply Rinv_0_lt_compat, t_pos.
    - exact H2.
  Qed.
  Lemma p2_mono x y : 0 < x -> x <= y -> y <= INR t -> p2 y <= p2 x.
  Proof.
    intros H1 H2 H3. pose proof (kp_ge1 x ltac:(lra)). 
    unfold cp_p2, Rdiv. rewrite !Rmult_1_l. apply Rinv_le_contravar; [lra|].
    pose proof (sc_mono x y H1 H2 H3). pose proof kmax_ge1. unfold cp_kappa. nra.
  Qed.
  Lemma sk_mono x y : 0 < x -> x <= y -> y <= INR t -> sg x / kp x <= sg y / kp y.
  Proof.
    intros H1 H2 H3. pose proof (kp_ge1 x ltac:(lra)) as Kx. pose proof (kp_ge1 y ltac:(lra)) as Ky.
    pose proof (sc_mono x y H1 H2 H3) as S. pose proof smax_pos as P.
    apply (Rmult_le_reg_r (kp x * kp y)); [nra|].
    replace (sg x / kp x * (kp x * kp y)) with (sg x * kp y) by (field; lra).
    replace (sg y / kp y * (kp x * kp y)) with (sg y * kp x) by (field; lra).
    unfold cp_sigma, cp_kappa. nra.
  Qed.
  Lemma p0_mono x y : cfs_alpha = 0 -> 0 < x -> x <= y -> y <= INR t -> p0 y <= p0 x.
  Proof.
    intros Hz H1 H2 H3. unfold cp_p0. apply exp_le. unfold cp_alpha. rewrite Hz, !Rmult_0_r, !Rplus_0_r.
    pose proof (sk_mono x y H1 H2 H3). nra.
  Qed.
  Lemma p1_alpha0 x : cfs_alpha = 0 -> 0 < x <= INR t -> p1 x = p0 x - 1.
  Proof.
    intros Hz H. pose proof (sg_pos x H). unfold cp_p1, cp_alpha. rewrite Hz, !Rmult_0_r, Rplus_0_r. field. lra.
  Qed.
End CP.

Lemma xe_range pol t i : (pol = -1 \/ pol = 1)%Z -> (i < t)%nat -> 0 < cp_xe pol t i <= INR t /\ 0 < cp_xh pol t i <= INR t.
Proof.
  intros Hp Hi. unfold cp_xe, cp_xh.
  pose proof (pos_INR i). assert (Hi' : INR (i + 1) <= INR t) by (apply le_INR; lia). rewrite plus_INR in *. cbn [INR] in *.
  destruct (Z.ltb_spec 0 pol).
  - lra.
  - rewrite minus_INR by lia. lra.
Qed.

(** ** Packet *)
Lemma ln2_pos : 0 < ln 2.
Proof. rewrite <- ln_1. apply ln_increasing; lra. Qed.
Lemma ln2_half : 1/2 <= ln 2.
Proof.
  rewrite <- (ln_exp (1/2)). apply ln_le; [apply exp_pos|].
  assert (E : exp (1/2) * exp (1/2) = exp 1) by (rewrite <- exp_plus; f_equal; lra).
  pose proof exp_le_3. pose proof (exp_pos (1/2)). nra.
Qed.

Section GP.
  Variables (wl dwl dt turn_on : R).
  Hypothesis Hwl : 0 < wl.
  Hypothesis Hdwl : dwl <> 0.
  Hypothesis Hon : 0 < turn_on < 1.
  Notation alpha := (gp_alpha wl dwl).
  Notation delay := (gp_delay wl dwl turn_on).
  Notation k := (zceil (sqrt (- ln turn_on / alpha) * gp_freq wl)).
  Definition gp_peak : R := sqrt (sqrt (2 * alpha / PI)).

  Lemma delay_periods : delay = IZR k * wl.
  Proof. unfold gp_delay, gp_freq. field. lra. Qed.
  Lemma alpha_pos : 0 < alpha.
  Proof.
    pose proof ln2_pos. pose proof PI_RGT_0.
    assert (gp_fwhm wl dwl <> 0).
    { intro E. apply Hdwl. unfold gp_fwhm, gp_omega in E.
      replace dwl with (dwl * (2 * PI / wl) * (2 * PI / wl) / (2 * PI) * (wl * wl / (2 * PI))) by (field; lra).
      rewrite E. ring. }
    unfold gp_alpha. assert (0 < gp_fwhm wl dwl * gp_fwhm wl dwl) by nra.
    unfold Rdiv. apply Rmult_lt_0_compat; [|lra]. now apply Rmult_lt_0_compat.
  Qed.
  Lemma lnon_neg : ln turn_on < 0.
  Proof. rewrite <- ln_1. apply ln_increasing; lra. Qed.
  Lemma delay_ge : sqrt (- ln turn_on / alpha) <= delay.
  Proof.
    rewrite delay_periods. pose proof (zceil_spec (sqrt (- ln turn_on / alpha) * gp_freq wl)) as [H _].
    apply (Rmult_le_compat_r wl) in H; [|lra]. unfold gp_freq in H.
    replace (sqrt (- ln turn_on / alpha) * (1 / wl) * wl) with (sqrt (- ln turn_on / alpha)) in H by (field; lra).
    exact H.
  Qed.
  Lemma delay_pos : 0 < delay.
  Proof.
    pose proof delay_ge. pose proof alpha_pos. pose proof lnon_neg.
    assert (0 < - ln turn_on / alpha) by (apply Rmult_lt_0_compat; [lra|now apply Rinv_0_lt_compat]).
    pose proof (sqrt_lt_R0 _ H2). lra.
  Qed.
  Lemma peak_pos : 0 < gp_peak.
  Proof.
    pose proof alpha_pos. pose proof PI_RGT_0. unfold gp_peak. do 2 apply sqrt_lt_R0.
    apply Rmult_lt_0_compat; [lra|]. now apply Rinv_0_lt_compat.
  Qed.
  Lemma decay_on : exp (- alpha * (0 * dt - delay) * (0 * dt - delay)) <= turn_on.
  Proof.
    apply Rle_trans with (exp (ln turn_on)); [|rewrite exp_ln; lra]. apply exp_le.
    pose proof delay_ge as D. pose proof alpha_pos as A. pose proof lnon_neg as L.
    assert (Q : 0 <= - ln turn_on / alpha) by (apply Rmult_le_pos; [lra|left; now apply Rinv_0_lt_compat]).
    pose proof (sqrt_pos (- ln turn_on / alpha)) as P. pose proof (sqrt_sqrt _ Q) as S.
    assert (W : - ln turn_on / alpha <= delay * delay) by (rewrite <- S; apply Rmult_le_compat; assumption).
    apply (Rmult_le_compat_l alpha) in W; [|lra].
    replace (alpha * (- ln turn_on / alpha)) with (- ln turn_on) in W by (field; lra).
    set (dl := delay) in *. nra.
  Qed.

  Lemma env_start os : gp_envelope wl dwl dt turn_on os 0 <= gp_peak * turn_on.
  Proof.
    unfold gp_envelope. pose proof delay_pos. pose proof decay_on. pose proof peak_pos.
    destruct (Rlt_dec 0 (0 * dt - delay)) as [Hc|Hc]; [lra|]. rewrite andb_false_r.
    fold gp_peak. apply Rmult_le_compat_l; lra.
  Qed.
  Lemma env_le_peak ii : gp_envelope wl dwl dt turn_on false ii <= gp_peak.
  Proof.
    unfold gp_envelope. cbn [andb]. fold gp_peak. pose proof peak_pos.
    rewrite <- (Rmult_1_r gp_peak) at 2. apply Rmult_le_compat_l; [lra|].
    rewrite <- exp_0. apply exp_le. pose proof alpha_pos. set (x := ii * dt - delay). nra.
  Qed.
  Lemma env_peak os ii : ii * dt = delay -> gp_envelope wl dwl dt turn_on os ii = gp_peak.
  Proof.
    intro E. unfold gp_envelope. rewrite E. replace (delay - delay) with 0 by ring.
    destruct (Rlt_dec 0 0); [lra|]. rewrite andb_false_r. fold gp_peak.
    rewrite !Rmult_0_r, exp_0. ring.
  Qed.

  Lemma env_one_sided_mono ii jj : 0 <= dt -> 2 * alpha <= PI -> ii <= jj ->
    gp_envelope wl dwl dt turn_on true ii <= gp_envelope wl dwl dt turn_on true jj.
  Proof.
    intros Hdt HA Hij. unfold gp_envelope. cbn [andb]. fold gp_peak.
    assert (ii * dt <= jj * dt) by (apply Rmult_le_compat_r; assumption).
    pose proof peak_pos as P. pose proof alpha_pos as A. pose proof PI_RGT_0.
    assert (PK : gp_peak <= 1).
    { unfold gp_peak. rewrite <- sqrt_1. apply sqrt_le_1_alt. rewrite <- sqrt_1. apply sqrt_le_1_alt.
      apply (Rmult_le_reg_r PI); [lra|]. unfold Rdiv. rewrite Rmult_assoc, Rinv_l by lra. lra. }
    assert (B : forall x, gp_peak * exp (- alpha * x * x) <= gp_peak).
    { intro x. rewrite <- (Rmult_1_r gp_peak) at 2. apply Rmult_le_compat_l; [lra|].
      rewrite <- exp_0. apply exp_le. nra. }
    destruct (Rlt_dec 0 (ii * dt - delay)) as [Hi|Hi]; destruct (Rlt_dec 0 (jj * dt - delay)) as [Hj|Hj]; try lra.
    - specialize (B (ii * dt - delay)). lra.
    - apply Rmult_le_compat_l; [lra|]. apply exp_le.
      set (x := ii * dt - delay) in *. set (y := jj * dt - delay) in *.
      assert (x <= y) by (unfold x, y; lra).
      assert (y * y <= x * x) by nra.
      assert (0 <= alpha * (x * x - y * y)) by (apply Rmult_le_pos; lra). lra.
  Qed.

  Lemma phase : gp_cos wl dwl dt turn_on 0 = 1 /\ gp_sin wl dwl dt turn_on 0 = 0.
  Proof.
    unfold gp_cos, gp_sin. rewrite delay_periods.
    replace (gp_omega wl * (0 * dt - IZR k * wl)) with (0 - 2 * IZR k * PI) by (unfold gp_omega; field; lra).
    rewrite <- cos_neg. replace (- (0 - 2 * IZR k * PI)) with (0 + 2 * IZR k * PI) by ring.
    replace (sin (0 - 2 * IZR k * PI)) with (- sin (0 + 2 * IZR k * PI)) by (rewrite <- sin_neg; f_equal; ring).
    assert (C : cos (0 + 2 * IZR k * PI) = cos 0 /\ sin (0 + 2 * IZR k * PI) = sin 0).
    { pose proof (zceil_spec (sqrt (- ln turn_on / alpha) * gp_freq wl)) as [H _].
      assert (K0 : (0 <= k)%Z).
      { apply le_IZR. apply Rle_trans with (2 := H). apply Rmult_le_pos; [apply sqrt_pos|].
        unfold gp_freq. left. apply Rmult_lt_0_compat; [lra|]. now apply Rinv_0_lt_compat. }
      rewrite <- (Z2Nat.id k) by exact K0. rewrite <- INR_IZR_INZ.
      split; [apply cos_period|apply sin_period]. }
    destruct C as [-> ->]. rewrite cos_0, sin_0. split; lra.
  Qed.
  Lemma carrier ii : gp_cos wl dwl dt turn_on ii = cos (gp_omega wl * (ii * dt))
     /\ gp_sin wl dwl dt turn_on ii = sin (gp_omega wl * (ii * dt)).
  Proof.
    destruct phase as [C S]. unfold gp_cos, gp_sin in *.
    replace (gp_omega wl * (ii * dt - delay)) with (gp_omega wl * (ii * dt) + gp_omega wl * (0 * dt - delay)) by ring.
    rewrite cos_plus, sin_plus, C, S. split; ring.
  Qed.
End GP.

(** ** Ricker *)
Section RK.
  Variables (wl dt turn_on root : R).
  Hypothesis Hwl : 0 < wl.
  Hypothesis Hon : 0 < turn_on.
  Hypothesis Hroot : rk_target wl turn_on root = 0.

  Lemma root_small : root * root * (rk_omega wl * rk_omega wl) < 2.
  Proof.
    unfold rk_target in Hroot. set (w := rk_omega wl) in *.
    pose proof (exp_pos (- w * w / 4 * root * root)) as E.
    set (ex := exp (- w * w / 4 * root * root)) in *.
    destruct (Rlt_dec (root * root * (w * w)) 2) as [H|H]; [exact H|exfalso].
    assert (1 - w * w * root * root / 2 <= 0) by lra. nra.
  Qed.
  Lemma root_freq : - (1) < root * rk_freq wl < 1.
  Proof.
    pose proof root_small as S. unfold rk_omega, rk_freq in *.
    set (x := root * (1 / wl)).
    assert (E : root * root * (2 * PI / wl * (2 * PI / wl)) = 4 * PI * PI * (x * x)) by (unfold x; field; lra).
    rewrite E in S. 
    assert (P3 : 1 <= PI) by (pose proof PI2_1; lra).
    assert (x * x < 1) by nra. split; nra.
  Qed.
  Lemma rk_delay_cases : (root <= 0 /\ rk_delay wl root = 0) \/ (0 < root /\ rk_delay wl root = wl).
  Proof.
    pose proof root_freq as F.
    assert (Fp : 0 < rk_freq wl) by (unfold rk_freq; apply Rmult_lt_0_compat; [lra|now apply Rinv_0_lt_compat]).
    destruct (Rle_dec root 0) as [H|H].
    - left. split; [exact H|]. unfold rk_delay. rewrite (zceil_unique _ 0%Z).
      + unfold Rdiv. ring.
      + split; [|lra]. nra.
    - right. split; [lra|]. unfold rk_delay. rewrite (zceil_unique _ 1%Z).
      + unfold rk_freq. field. lra.
      + split; [lra|]. assert (0 < root * rk_freq wl) by (apply Rmult_lt_0_compat; lra). lra.
  Qed.
  Lemma rk_start : (root <= 0 /\ rk_ff wl dt root 0 = 1)
     \/ (0 < root /\ rk_ff wl dt root 0 = - ((2 * PI * PI - 1) * exp (- (PI * PI)))).
  Proof.
    destruct rk_delay_cases as [[H E]|[H E]]; [left|right]; (split; [exact H|]); unfold rk_ff; rewrite E.
    - replace (rk_omega wl * (0 * dt - 0) / 2) with 0 by field. rewrite !Rmult_0_r. rewrite exp_0. ring.
    - replace (rk_omega wl * (0 * dt - wl) / 2) with (- PI) by (unfold rk_omega; field; lra).
      replace (- - PI * - PI) with (- (PI * PI)) by ring. ring.
  Qed.
  Lemma rk_start_big : exp (- (PI * PI)) <= Rabs (rk_ff wl dt root 0).
  Proof.
    assert (P3 : 1 <= PI) by (pose proof PI2_1; lra).
    pose proof (exp_pos (- (PI * PI))) as E.
    assert (E1 : exp (- (PI * PI)) <= 1) by (rewrite <- exp_0; apply exp_le; nra).
    destruct rk_start as [[_ ->]|[_ ->]].
    - rewrite Rabs_R1. exact E1.
    - assert (Q : 1 <= 2 * PI * PI - 1) by nra.
      assert (W : exp (- (PI * PI)) <= (2 * PI * PI - 1) * exp (- (PI * PI))).
      { rewrite <- (Rmult_1_l (exp (- (PI * PI)))) at 1. apply Rmult_le_compat_r; lra. }
      rewrite Rabs_Ropp, Rabs_right by lra. exact W.
  Qed.
End RK.
