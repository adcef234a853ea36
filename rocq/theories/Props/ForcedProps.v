(** Runs driven by a harmonic current (C172). *)
From Coq Require Import Reals List Arith ZArith Lia Lra Psatz Field.
From Verif.Lib Require Import Num Sums Idx Mat RealF BoxMin.
From Verif.Model Require Import Fdmath Fdtd Fdfd.
From Verif.Spec Require Import Grid Yee FdtdRun HarmonicSpec SolvableSpec ModesSpec ForcedSpec.
From Verif.Proofs Require Import FdfdP GridP CflP SpectralP ModesP ModesP2 ModesP3 ForcedP.
From Verif.Props Require Import ModesProps CurlFreeProps.
Import ListNotations.
Local Open Scope R_scope.

(** Off resonance a mode rings freely and follows the current, with an amplitude given by
    the distance of the two frequencies. *)
Theorem C172_response :
  forall (sh : list nat) (we wh : widths RF) (eps : field RF) (mu : option (field RF)) V lam (dt : R) (J : field RF) (ph : R) (s : state RF) a,
    lossless sh we wh eps mu -> modes sh we wh eps mu V lam -> (a < 3 * prodl sh)%nat -> dt * dt * lam a < 4 ->
    4 * (sin (ph / 2) * sin (ph / 2)) <> dt * dt * lam a ->
    let amplitude N := e_dot sh we wh eps (V a) (sE (run (K := RF) sh dt (Some (we, wh)) eps mu (harmonic_currents J ph N) s)) in
    let excitation := fsum (K := RF) sh (fun c i => vol_e (K := RF) we wh c i * (V a c i * J c i)) in
    exists th A B, 4 * (sin (th / 2) * sin (th / 2)) = dt * dt * lam a /\
      forall N, amplitude N = 2 * sin (ph / 2) / (4 * (sin (ph / 2) * sin (ph / 2)) - dt * dt * lam a) * excitation * sin ((INR N - 1 / 2) * ph)
                              + A * cos (INR N * th) + B * sin (INR N * th).
Proof.
  intros sh we wh eps mu V lam dt J ph s a LL Mo Ha H4 Hne amplitude excitation. pose proof (m_pos _ _ _ _ _ _ _ Mo a Ha) as P.
  destruct (Req_dec (dt * dt * lam a) 0) as [Z|Nz].
  - assert (Hs : sin (ph / 2) <> 0) by (intro Q; apply Hne; rewrite Z, Q; ring). destruct (Req_dec (lam a) 0) as [Z2|Nz2].
    + destruct (static_form sh we wh eps mu LL V lam Mo dt J ph s a Ha Z2 Hs) as (A & HA). exists 0, A, 0. split; [rewrite sin_half_sq, cos_0, Z; ring|]. intro N. unfold amplitude. rewrite (HA N), Z, Rmult_0_r, cos_0. fold excitation. unfold jd. fold excitation. ring.
    + assert (D0 : dt = 0) by (destruct (Rmult_integral _ _ Z) as [Q|Q]; [destruct (Rmult_integral _ _ Q); assumption|contradiction]).
      (* dt = 0: nothing but the current *)
      set (C := 2 * sin (ph / 2) / (4 * (sin (ph / 2) * sin (ph / 2)) - dt * dt * lam a)).
      exists 0, (amplitude 0%nat - C * excitation * sin ((INR 0 - 1 / 2) * ph)), 0. split; [rewrite sin_half_sq, cos_0, Z; ring|].
      induction N as [|N IH]; [rewrite Rmult_0_r, cos_0, sin_0; unfold amplitude; ring|].
      assert (E : amplitude (S N) = amplitude N + excitation * cos (INR N * ph)).
      { unfold amplitude. rewrite harm_S. unfold run. rewrite fold_left_app. cbn [fold_left]. rewrite (pd_step sh we wh eps mu LL V dt a), jd_cos. rewrite D0, Rmult_0_l, Rplus_0_r. reflexivity. }
      rewrite E, IH, S_INR, !Rmult_0_r, cos_0. replace ((INR N + 1 - 1 / 2) * ph) with (INR N * ph + ph / 2) by field. replace ((INR N - 1 / 2) * ph) with (INR N * ph - ph / 2) by field. rewrite sin_plus, sin_minus.
      assert (HC : C * (2 * sin (ph / 2)) = 1) by (unfold C; rewrite Z; field; lra). set (sx := sin (INR N * ph)). set (cx := cos (INR N * ph)). set (e := sin (ph / 2)) in *. set (f := cos (ph / 2)).
      replace (excitation * cx) with (excitation * cx * (C * (2 * e))) by (rewrite HC; ring). ring.
  - assert (Pk : 0 < dt * dt * lam a) by (assert (0 <= dt * dt) by apply Rle_0_sqr; assert (0 <= dt * dt * lam a) by (apply Rmult_le_pos; assumption); lra).
    set (k := dt * dt * lam a) in *. assert (C : cos (acos (1 - k / 2)) = 1 - k / 2) by (apply cos_acos; lra). assert (B : 0 < acos (1 - k / 2) < PI) by (apply acos_bound_lt; lra). set (th := acos (1 - k / 2)) in *.
    destruct (forced amplitude k th ph excitation) as (A & B0 & HF); [lra|pose proof (sin_gt_0 th); lra|exact Hne| |].
    + intro N. exact (amp_rec sh we wh eps mu LL V lam Mo dt J ph s a N Ha).
    + exists th, A, B0. split; [rewrite sin_half_sq; lra|exact HF].
Qed.
Print Assumptions C172_response.

(** At resonance the amplitude of the mode grows with the number of steps. *)
Theorem C172_resonant :
  forall (sh : list nat) (we wh : widths RF) (eps : field RF) (mu : option (field RF)) V lam (dt : R) (J : field RF) (ph : R) (s : state RF) a,
    lossless sh we wh eps mu -> modes sh we wh eps mu V lam -> (a < 3 * prodl sh)%nat -> 0 < ph < PI ->
    4 * (sin (ph / 2) * sin (ph / 2)) = dt * dt * lam a ->
    let amplitude N := e_dot sh we wh eps (V a) (sE (run (K := RF) sh dt (Some (we, wh)) eps mu (harmonic_currents J ph N) s)) in
    let excitation := fsum (K := RF) sh (fun c i => vol_e (K := RF) we wh c i * (V a c i * J c i)) in
    exists A B, forall N, amplitude N = excitation / (2 * cos (ph / 2)) * (INR N * cos ((INR N - 1 / 2) * ph)) + A * cos (INR N * ph) + B * sin (INR N * ph).
Proof.
  intros sh we wh eps mu V lam dt J ph s a LL Mo Ha Hp Hr amplitude excitation. apply (forced_res amplitude ph excitation); [pose proof (sin_gt_0 ph); lra|].
  intro N. rewrite Hr. exact (amp_rec sh we wh eps mu LL V lam Mo dt J ph s a N Ha).
Qed.
Print Assumptions C172_resonant.

(** Below the limit of the time step a driven run stays bounded exactly if no mode at the
    frequency of the current is excited; this does not depend on the initial fields. *)
Theorem C172_bounded :
  forall (sh : list nat) (we wh : widths RF) (eps : field RF) (mu : option (field RF)) V lam (dt : R) (J : field RF) (ph : R) (s : state RF),
    lossless sh we wh eps mu -> modes sh we wh eps mu V lam -> (forall a, (a < 3 * prodl sh)%nat -> dt * dt * lam a < 4) -> 0 < dt -> 0 <= ph < PI ->
    ((exists M, forall N c i, (c < 3)%nat -> inb sh i -> Rabs (sE (run (K := RF) sh dt (Some (we, wh)) eps mu (harmonic_currents J ph N) s) c i) <= M)
     <-> forall a, (a < 3 * prodl sh)%nat -> 4 * (sin (ph / 2) * sin (ph / 2)) = dt * dt * lam a ->
           fsum (K := RF) sh (fun c i => vol_e (K := RF) we wh c i * (V a c i * J c i)) = 0).
Proof.
  intros sh we wh eps mu V lam dt J ph s LL Mo H4 Hdt Hp. split.
  - intros (M & HM) a Ha Hr. destruct (amp_bounded sh we wh eps mu LL V dt J ph s M a HM) as (M' & HA). set (g := fsum (K := RF) sh _).
    destruct (Req_dec g 0) as [|Ng]; [assumption|exfalso]. destruct (Req_dec ph 0) as [P0|Np].
    + assert (Z : lam a = 0). { rewrite P0 in Hr. replace (0 / 2) with 0 in Hr by field. rewrite sin_0 in Hr. assert (dt * dt * lam a = 0) by lra. assert (dt * dt <> 0) by nra. destruct (Rmult_integral _ _ H); [contradiction|assumption]. }
      pose proof (static_dc sh we wh eps mu LL V lam Mo dt J ph s a Ha Z P0) as SD. set (a0 := e_dot _ _ _ _ _ _) in SD. fold g in SD. unfold jd in SD. fold g in SD.
      destruct (above ((M' + Rabs a0) / Rabs g)) as (N & HN). pose proof (HA N) as B. rewrite (SD N) in B. assert (0 < Rabs g) by now apply Rabs_pos_lt.
      assert (L : M' + Rabs a0 < INR N * Rabs g). { replace (M' + Rabs a0) with ((M' + Rabs a0) / Rabs g * Rabs g) by (field; lra). apply Rmult_lt_compat_r; assumption. }
      pose proof (Rabs_triang_inv (INR N * g) (- a0)) as T. rewrite Rabs_Ropp, Rabs_mult, (Rabs_pos_eq (INR N)) in T by apply pos_INR. replace (INR N * g - - a0) with (a0 + INR N * g) in T by ring. lra.
    + destruct (C172_resonant sh we wh eps mu V lam dt J ph s a LL Mo Ha ltac:(lra) Hr) as (A & B & HF). fold g in HF.
      assert (Sp : sin ph <> 0) by (pose proof (sin_gt_0 ph); lra). assert (Cp : 0 < cos (ph / 2)) by (apply cos_gt_0; lra).
      apply (grows ph (g / (2 * cos (ph / 2))) A B M' Sp); [intro Z; apply Ng; replace g with (g / (2 * cos (ph / 2)) * (2 * cos (ph / 2))) by (field; lra); rewrite Z; ring|].
      intro N. rewrite <- (HF N). apply HA.
  - intro Ex. apply (field_bounded sh we wh eps mu V lam Mo dt J ph s). intros a Ha. pose proof (H4 a Ha) as H4a.
    destruct (Req_dec (4 * (sin (ph / 2) * sin (ph / 2))) (dt * dt * lam a)) as [Hr|Hn].
    + pose proof (Ex a Ha Hr) as G0. destruct (Req_dec ph 0) as [P0|Np].
      * assert (Z : lam a = 0). { rewrite P0 in Hr. replace (0 / 2) with 0 in Hr by field. rewrite sin_0 in Hr. assert (dt * dt * lam a = 0) by lra. assert (dt * dt <> 0) by nra. destruct (Rmult_integral _ _ H); [contradiction|assumption]. }
        eexists. intro N. rewrite (static_dc sh we wh eps mu LL V lam Mo dt J ph s a Ha Z P0 N). unfold jd. rewrite G0, Rmult_0_r, Rplus_0_r. apply Rle_refl.
      * destruct (C172_resonant sh we wh eps mu V lam dt J ph s a LL Mo Ha ltac:(lra) Hr) as (A & B & HF). exists (Rabs A + Rabs B). intro N. rewrite (HF N), G0. replace (0 / (2 * cos (ph / 2)) * (INR N * cos ((INR N - 1 / 2) * ph)) + A * cos (INR N * ph) + B * sin (INR N * ph)) with (A * cos (INR N * ph) + B * sin (INR N * ph)) by (unfold Rdiv; ring). apply bounded_trig.
    + destruct (C172_response sh we wh eps mu V lam dt J ph s a LL Mo Ha H4a Hn) as (th & A & B & _ & HF). set (C := 2 * sin (ph / 2) / _ * _) in HF. exists (Rabs C + (Rabs A + Rabs B)). intro N. rewrite (HF N).
      rewrite Rplus_assoc. eapply Rle_trans; [apply Rabs_triang|]. apply Rplus_le_compat; [|apply bounded_trig]. rewrite Rabs_mult. pose proof (Rabs_pos C). assert (Rabs (sin ((INR N - 1 / 2) * ph)) <= 1) by (apply Rabs_le; pose proof (SIN_bound ((INR N - 1 / 2) * ph)); lra). nra.
Qed.
Print Assumptions C172_bounded.

(** The part that follows the current is the field of the frequency domain: with
    om = 2 sin(ph/2) / dt, any solution F of the wave equation for J at om, taken at quarter
    period (its imaginary part) and divided by dt. *)
Theorem C172_steady :
  forall (sh : list nat) (we wh : widths RF) (eps : field RF) (mu : option (field RF)) V lam (dt : R) (J : field RF) (ph : R) (s : state RF) (F : field CC),
    lossless sh we wh eps mu -> modes sh we wh eps mu V lam -> 0 < dt ->
    (forall a, (a < 3 * prodl sh)%nat -> dt * dt * lam a < 4 /\ 4 * (sin (ph / 2) * sin (ph / 2)) <> dt * dt * lam a) ->
    let om := mkC (2 * sin (ph / 2) / dt) 0 in
    feq (K := CC) sh (unvec (K := CC) sh (mv (K := CC) (3 * prodl sh) (e_full_at sh we wh eps mu om) (vec (K := CC) sh F)))
        (fun c i => cmul (cmul (copp ci) om) (mkC (J c i) 0)) ->
    exists th A B : nat -> R, (forall a, (a < 3 * prodl sh)%nat -> 4 * (sin (th a / 2) * sin (th a / 2)) = dt * dt * lam a) /\
      forall N, feq (K := RF) sh (sE (run (K := RF) sh dt (Some (we, wh)) eps mu (harmonic_currents J ph N) s))
        (fun c i => cim (F c i) / dt * sin ((INR N - 1 / 2) * ph)
                    + sumN (K := RF) (3 * prodl sh) (fun a => (A a * cos (INR N * th a) + B a * sin (INR N * th a)) * V a c i)).
Proof.
  intros sh we wh eps mu V lam dt J ph s F LL Mo Hdt Hr om HF. set (n := (3 * prodl sh)%nat) in *.
  set (g := fun a => fsum (K := RF) sh (fun c i => vol_e (K := RF) we wh c i * (V a c i * J c i))).
  set (C := fun a => 2 * sin (ph / 2) / (4 * (sin (ph / 2) * sin (ph / 2)) - dt * dt * lam a) * g a).
  assert (EX : exists T : nat -> R * R * R, forall a, (a < n)%nat -> let '(th, A, B) := T a in 4 * (sin (th / 2) * sin (th / 2)) = dt * dt * lam a /\
     forall N, e_dot sh we wh eps (V a) (sE (run (K := RF) sh dt (Some (we, wh)) eps mu (harmonic_currents J ph N) s)) = C a * sin ((INR N - 1 / 2) * ph) + A * cos (INR N * th) + B * sin (INR N * th)).
  { assert (Gen : forall m, (m <= n)%nat -> exists T : nat -> R * R * R, forall a, (a < m)%nat -> let '(th, A, B) := T a in 4 * (sin (th / 2) * sin (th / 2)) = dt * dt * lam a /\
     forall N, e_dot sh we wh eps (V a) (sE (run (K := RF) sh dt (Some (we, wh)) eps mu (harmonic_currents J ph N) s)) = C a * sin ((INR N - 1 / 2) * ph) + A * cos (INR N * th) + B * sin (INR N * th)).
    { induction m as [|m IH]; intro Hm; [exists (fun _ => (0, 0, 0)); intros; lia|]. destruct (IH ltac:(lia)) as (T & HT). destruct (Hr m ltac:(lia)) as (h1 & h2).
      destruct (C172_response sh we wh eps mu V lam dt J ph s m LL Mo ltac:(fold n; lia) h1 h2) as (th & A & B & h3 & h4).
      exists (fun a => if (a =? m)%nat then (th, A, B) else T a). intros a Ha. destruct (Nat.eqb_spec a m) as [->|Na]; [split; [exact h3|exact h4]|]. apply HT. lia. }
    exact (Gen n (le_n n)). }
  destruct EX as (T & HT). exists (fun a => fst (fst (T a))), (fun a => snd (fst (T a))), (fun a => snd (T a)). split.
  { intros a Ha. pose proof (HT a Ha) as P. destruct (T a) as ((th, A), B). exact (proj1 P). }
  assert (NR : forall a, (a < n)%nat -> cmul om om <> mkC (lam a) 0).
  { intros a Ha Q. apply (proj2 (Hr a Ha)). apply (f_equal cre) in Q. cbn in Q. rewrite <- Q. field. lra. }
  pose proof (proj2 (C152_driven sh we wh eps mu V lam om (fun c i => mkC (J c i) 0) LL Mo NR) F HF) as EF. cbv zeta in EF.
  assert (OV : forall a, fsum (K := CC) sh (fun c i => cmul (vol_e (K := CC) (cw we) (cw wh) c i) (cmul (cf (V a) c i) (mkC (J c i) 0))) = mkC (g a) 0).
  { intro a. apply cpx_ext; [rewrite fc_re|rewrite fc_im]; cbn [cre cim].
    - unfold g. apply fs_ext. intros c i _ _. rewrite cvol. unfold cf, cmul. cbn [cre cim]. req; ring.
    - rewrite (fs_ext sh _ (fun c i => 0 * 0)) by (intros c i _ _; rewrite cvol; unfold cf, cmul; cbn [cre cim]; req; ring). rewrite fs_scale. ring. }
  assert (IM : forall c i, (c < 3)%nat -> inb sh i -> cim (F c i) / dt = rs n (fun a => C a * V a c i)).
  { intros c i Hc Hi. rewrite (EF c i Hc Hi), im_sum. fold n. unfold Rdiv. rewrite Rmult_comm. rewrite <- rs_scale. apply rs_ext. intros a Ha. rewrite (OV a).
    assert (D : lam a - 2 * sin (ph / 2) / dt * (2 * sin (ph / 2) / dt) <> 0). { intro Q. apply (proj2 (Hr a Ha)). replace (lam a) with (2 * sin (ph / 2) / dt * (2 * sin (ph / 2) / dt)) by lra. field. lra. }
    assert (D2 : 4 * (sin (ph / 2) * sin (ph / 2)) - dt * dt * lam a <> 0) by (intro Q; apply (proj2 (Hr a Ha)); lra).
    unfold C, om, cf, cdiv, cinv, cmul, csub, cadd, copp, cnrm, ci; cbn [cre cim]. field. repeat split; lra. }
  intros N c i Hc Hi. rewrite (m_basis _ _ _ _ _ _ _ Mo _ c i Hc Hi). rewrite (IM c i Hc Hi). fold n.
  change (rs n (fun a => e_dot sh we wh eps (V a) (sE (run (K := RF) sh dt (Some (we, wh)) eps mu (harmonic_currents J ph N) s)) * V a c i) = rs n (fun a => C a * V a c i) * sin ((INR N - 1 / 2) * ph) + rs n (fun a => (snd (fst (T a)) * cos (INR N * fst (fst (T a))) + snd (T a) * sin (INR N * fst (fst (T a)))) * V a c i)).
  rewrite (Rmult_comm (rs n _)), <- rs_scale, <- rs_add. apply rs_ext. intros a Ha. pose proof (HT a Ha) as P. destruct (T a) as ((th, A), B). cbn [fst snd]. rewrite (proj2 P N). ring.
Qed.
Print Assumptions C172_steady.

(** In the box of C152 (six cells of different widths and materials) with its largest stable
    time step halved, the current eps V 8 excites mode 8 at its frequency and the run is
    unbounded; at a quarter turn per step no mode resonates. *)
Example C172_case : exists V lam dt ph, let sh := [2; 1; 3]%nat in let J : field RF := fun c i => mx_eps c i * V 8%nat c i in
  lossless sh mx_w mx_w mx_eps mx_mu /\ modes sh mx_w mx_w mx_eps mx_mu V lam /\ 0 < dt /\
  (forall a, (a < 3 * prodl sh)%nat -> dt * dt * lam a < 4) /\
  0 < ph < PI /\ 4 * (sin (ph / 2) * sin (ph / 2)) = dt * dt * lam 8%nat /\
  fsum (K := RF) sh (fun c i => vol_e (K := RF) mx_w mx_w c i * (V 8%nat c i * J c i)) = 1 /\
  (forall s, ~ exists M, forall N c i, (c < 3)%nat -> inb sh i -> Rabs (sE (run (K := RF) sh dt (Some (mx_w, mx_w)) mx_eps mx_mu (harmonic_currents J ph N) s) c i) <= M) /\
  (forall a, (a < 3 * prodl sh)%nat -> 4 * (sin (PI / 2 / 2) * sin (PI / 2 / 2)) <> dt * dt * lam a) /\
  (forall s, exists M, forall N c i, (c < 3)%nat -> inb sh i -> Rabs (sE (run (K := RF) sh dt (Some (mx_w, mx_w)) mx_eps mx_mu (harmonic_currents J (PI / 2) N) s) c i) <= M).
Proof.
  pose proof (proj1 C152_case) as LL. destruct (C152_modes _ _ _ _ _ LL) as (V & lam & Mo). set (sh := [2; 1; 3]%nat) in *.
  assert (P8 : 0 < lam 8%nat) by (pose proof (proj2 (proj2 (proj2 (proj1 C169_case)) V lam Mo)); pose proof (m_pos _ _ _ _ _ _ _ Mo 8%nat ltac:(cbn; lia)); lra).
  assert (P17 : lam 8%nat <= lam 17%nat) by (apply (m_sorted _ _ _ _ _ _ _ Mo); cbn; lia).
  assert (Sq : 0 < sqrt (lam 17%nat)) by (apply sqrt_lt_R0; lra). set (dt := / sqrt (lam 17%nat)).
  assert (D : dt * dt * lam 17%nat = 1) by (unfold dt; rewrite <- (sqrt_sqrt (lam 17%nat)) at 3 by lra; field; lra).
  assert (Dp : 0 < dt) by now apply Rinv_0_lt_compat.
  assert (H1 : forall a, (a < 3 * prodl sh)%nat -> dt * dt * lam a <= 1).
  { intros a Ha. rewrite <- D. apply Rmult_le_compat_l; [apply Rle_0_sqr|]. apply (m_sorted _ _ _ _ _ _ _ Mo); cbn in *; lia. }
  assert (H8 : 0 < dt * dt * lam 8%nat < 4) by (split; [apply Rmult_lt_0_compat; [now apply Rmult_lt_0_compat|exact P8]|specialize (H1 8%nat ltac:(cbn; lia)); lra]).
  destruct (C153_oscillation sh mx_w mx_w mx_eps mx_mu V lam dt 8%nat LL Mo ltac:(cbn; lia) H8) as (ph & Hp & Hs & _).
  exists V, lam, dt, ph. cbv zeta. set (J := fun c i => mx_eps c i * V 8%nat c i).
  assert (G : fsum (K := RF) sh (fun c i => vol_e (K := RF) mx_w mx_w c i * (V 8%nat c i * J c i)) = 1).
  { rewrite <- (m_orth _ _ _ _ _ _ _ Mo 8%nat 8%nat ltac:(cbn; lia) ltac:(cbn; lia) : _ = 1). unfold e_dot. apply fs_ext. intros c i _ _. unfold J. ring. }
  assert (Q : 4 * (sin (PI / 2 / 2) * sin (PI / 2 / 2)) = 2) by (rewrite sin_half_sq, cos_PI2; ring).
  assert (H4 : forall a, (a < 3 * prodl sh)%nat -> dt * dt * lam a < 4) by (intros a Ha; specialize (H1 a Ha); lra).
  assert (Nr : forall a, (a < 3 * prodl sh)%nat -> 4 * (sin (PI / 2 / 2) * sin (PI / 2 / 2)) <> dt * dt * lam a) by (intros a Ha; rewrite Q; specialize (H1 a Ha); lra).
  repeat (split; [assumption|]). split; [|split; [exact Nr|]].
  - intros s B. apply (C172_bounded sh mx_w mx_w mx_eps mx_mu V lam dt J ph s LL Mo H4 Dp ltac:(lra)) with (a := 8%nat) in B; [|cbn; lia|exact Hs]. rewrite G in B. lra.
  - intro s. apply (C172_bounded sh mx_w mx_w mx_eps mx_mu V lam dt J (PI / 2) s LL Mo H4 Dp); [pose proof PI_RGT_0; lra|]. intros a Ha E. now destruct (Nr a Ha).
Qed.
Print Assumptions C172_case.
