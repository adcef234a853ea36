(** Mode amplitudes of runs driven by a harmonic current. *)
From Coq Require Import Reals List Arith ZArith Lia Lra Psatz Bool Field.
From Verif.Lib Require Import Num Sums Idx Mat RealF Elim BoxMin.
From Verif.Model Require Import Fdmath Fdtd Fdfd.
From Verif.Spec Require Import Grid Yee FdtdRun FdfdSpec HarmonicSpec ModesSpec ForcedSpec.
From Verif.Proofs Require Import FdmathP FdmathP2 FdtdP2 FdfdP GridP CflP HarmonicP SpectralP ModesP ModesP2 ModesP3.
Import ListNotations.
Local Open Scope R_scope.

Lemma sin_half_sq x : 4 * (sin (x / 2) * sin (x / 2)) = 2 - 2 * cos x.
Proof. replace (cos x) with (cos (2 * (x / 2))) by (f_equal; field). rewrite cos_2a_sin. ring. Qed.
(** The drive of the oscillator. *)
Lemma cos_diff N ph : cos (INR (S N) * ph) - cos (INR N * ph) = - (2 * sin (ph / 2)) * sin ((INR N + 1 / 2) * ph).
Proof.
  rewrite S_INR. replace ((INR N + 1) * ph) with ((INR N + 1 / 2) * ph + ph / 2) by field. replace (INR N * ph) with ((INR N + 1 / 2) * ph - ph / 2) by field.
  rewrite cos_plus, cos_minus. ring.
Qed.
(** Off resonance. *)
Lemma forced (c : nat -> R) (k th ph g : R) : 2 - 2 * cos th = k -> sin th <> 0 -> 4 * (sin (ph / 2) * sin (ph / 2)) <> k ->
  (forall N, c (S (S N)) - 2 * c (S N) + c N = - k * c (S N) + g * cos (INR (S N) * ph) - g * cos (INR N * ph)) ->
  exists A B, forall N, c N = 2 * sin (ph / 2) / (4 * (sin (ph / 2) * sin (ph / 2)) - k) * g * sin ((INR N - 1 / 2) * ph) + A * cos (INR N * th) + B * sin (INR N * th).
Proof.
  intros Ek Hs Nk Hc. set (C := 2 * sin (ph / 2) / (4 * (sin (ph / 2) * sin (ph / 2)) - k)).
  set (d := fun N => c N - C * g * sin ((INR N - 1 / 2) * ph)).
  assert (Hd : forall N, d (S (S N)) - 2 * d (S N) + d N = - k * d (S N)).
  { intro N. unfold d. rewrite !S_INR. pose proof (Hc N) as E. assert (CD := cos_diff N ph). set (x := (INR N + 1 / 2) * ph) in *.
    replace ((INR N + 1 + 1 - 1 / 2) * ph) with (x + ph) by (unfold x; field). replace ((INR N + 1 - 1 / 2) * ph) with x by (unfold x; field). replace ((INR N - 1 / 2) * ph) with (x - ph) by (unfold x; field).
    rewrite sin_plus, sin_minus. assert (HC : C * (2 * cos ph - 2 + k) = - (2 * sin (ph / 2))).
    { unfold C. pose proof (sin_half_sq ph) as Q. set (s := sin (ph / 2)) in *. replace (2 * cos ph - 2 + k) with (- (4 * (s * s) - k)) by lra. field. lra. }
    assert (E2 : c (S (S N)) - 2 * c (S N) + c N = - k * c (S N) + g * (C * (2 * cos ph - 2 + k)) * sin x) by (rewrite HC, E; replace (g * cos (INR (S N) * ph) - g * cos (INR N * ph)) with (g * (cos (INR (S N) * ph) - cos (INR N * ph))) by ring;
      transitivity (- k * c (S N) + g * (cos (INR (S N) * ph) - cos (INR N * ph))); [ring|rewrite CD; ring]).
    clear - E2. nra. }
  exists (d 0%nat), ((d 1%nat - d 0%nat * cos th) / sin th). intro N. pose proof (osc d k th Ek Hs Hd N) as E. unfold d at 1 in E. lra.
Qed.
(** At resonance. *)
Lemma forced_res (c : nat -> R) (ph g : R) : sin ph <> 0 ->
  (forall N, c (S (S N)) - 2 * c (S N) + c N = - (4 * (sin (ph / 2) * sin (ph / 2))) * c (S N) + g * cos (INR (S N) * ph) - g * cos (INR N * ph)) ->
  exists A B, forall N, c N = g / (2 * cos (ph / 2)) * (INR N * cos ((INR N - 1 / 2) * ph)) + A * cos (INR N * ph) + B * sin (INR N * ph).
Proof.
  intros Hs Hc. assert (S2 : sin ph = 2 * sin (ph / 2) * cos (ph / 2)) by (replace ph with (2 * (ph / 2)) at 1 by field; apply sin_2a).
  assert (Hc0 : cos (ph / 2) <> 0) by (intro Z; apply Hs; rewrite S2, Z; ring).
  set (D := g / (2 * cos (ph / 2))). set (d := fun N => c N - D * (INR N * cos ((INR N - 1 / 2) * ph))). rewrite (sin_half_sq ph) in Hc.
  assert (Hd : forall N, d (S (S N)) - 2 * d (S N) + d N = - (2 - 2 * cos ph) * d (S N)).
  { intro N. unfold d. pose proof (Hc N) as E. rewrite !S_INR. assert (CD := cos_diff N ph). set (x := (INR N + 1 / 2) * ph) in *.
    replace ((INR N + 1 + 1 - 1 / 2) * ph) with (x + ph) by (unfold x; field). replace ((INR N + 1 - 1 / 2) * ph) with x by (unfold x; field). replace ((INR N - 1 / 2) * ph) with (x - ph) by (unfold x; field).
    rewrite cos_plus, cos_minus. assert (HD : D * sin ph = g * sin (ph / 2)) by (rewrite S2; unfold D; field; exact Hc0).
    assert (E2 : c (S (S N)) - 2 * c (S N) + c N = - (2 - 2 * cos ph) * c (S N) - 2 * (D * sin ph) * sin x).
    { rewrite HD, E. transitivity (- (2 - 2 * cos ph) * c (S N) + g * (cos (INR (S N) * ph) - cos (INR N * ph))); [ring|rewrite CD; ring]. }
    set (m := INR N) in *. clearbody m. clear - E2. nra. }
  exists (d 0%nat), ((d 1%nat - d 0%nat * cos ph) / sin ph). intro N. pose proof (osc d (2 - 2 * cos ph) ph eq_refl Hs Hd N) as E. unfold d at 1 in E. lra.
Qed.
Lemma bounded_trig A B x : Rabs (A * cos x + B * sin x) <= Rabs A + Rabs B.
Proof.
  eapply Rle_trans; [apply Rabs_triang|]. rewrite !Rabs_mult. pose proof (Rabs_pos A). pose proof (Rabs_pos B).
  assert (Rabs (cos x) <= 1) by (apply Rabs_le; pose proof (COS_bound x); lra). assert (Rabs (sin x) <= 1) by (apply Rabs_le; pose proof (SIN_bound x); lra). nra.
Qed.
Lemma grows ph D A B M : sin ph <> 0 -> D <> 0 -> ~ (forall N, Rabs (D * (INR N * cos ((INR N - 1 / 2) * ph)) + A * cos (INR N * ph) + B * sin (INR N * ph)) <= M).
Proof.
  intros Hs HD H. set (W := M + Rabs A + Rabs B).
  assert (U : forall N, Rabs (D * (INR N * cos ((INR N - 1 / 2) * ph))) <= W).
  { intro N. pose proof (H N) as HN. pose proof (bounded_trig A B (INR N * ph)) as T. set (u := D * _) in *. set (v := A * cos _) in *. set (w := B * sin _) in *. unfold W. clear - HN T. unfold Rabs in *. repeat destruct (Rcase_abs _); lra. }
  assert (Q : Rabs (cos ph) < 1). { pose proof (COS_bound ph). pose proof (sin2_cos2 ph) as P. unfold Rsqr in P. apply Rabs_def1; destruct (Req_dec (cos ph) 1); destruct (Req_dec (cos ph) (-1)); try (exfalso; apply Hs; nra); lra. }
  assert (P : 0 < D * D * (1 - Rabs (cos ph))) by (apply Rmult_lt_0_compat; [apply Rsqr_pos_lt; exact HD|lra]). set (p := D * D * (1 - Rabs (cos ph))) in *.
  assert (G : forall N, INR N * INR N * p <= 2 * (W * W)).
  { intro N. pose proof (U N) as U1. pose proof (U (S N)) as U2. rewrite S_INR in U2. replace ((INR N + 1 - 1 / 2) * ph) with (INR N * ph + ph / 2) in U2 by field. replace ((INR N - 1 / 2) * ph) with (INR N * ph - ph / 2) in U1 by field.
    pose proof (pos_INR N) as Pm. set (m := INR N) in *. set (x := m * ph) in *. clearbody x. set (y1 := cos (x - ph / 2)) in *. set (y2 := cos (x + ph / 2)) in *.
    assert (Y : 1 - Rabs (cos ph) <= y1 * y1 + y2 * y2).
    { assert (E : y1 * y1 + y2 * y2 = 1 + cos (2 * x) * cos ph).
      { unfold y1, y2. rewrite cos_minus, cos_plus. rewrite cos_2a. replace (cos ph) with (cos (2 * (ph / 2))) by (f_equal; field). rewrite cos_2a. pose proof (sin2_cos2 x) as Q1. pose proof (sin2_cos2 (ph / 2)) as Q2. unfold Rsqr in *. 
        set (a := sin x) in *. set (b := cos x) in *. set (e := sin (ph / 2)) in *. set (f := cos (ph / 2)) in *. clearbody a b e f. replace 1 with ((a * a + b * b) * (e * e + f * f)) by (rewrite Q1, Q2; ring). ring. }
      rewrite E. assert (Rabs (cos (2 * x) * cos ph) <= Rabs (cos ph)).
      { rewrite Rabs_mult. assert (Rabs (cos (2 * x)) <= 1) by (apply Rabs_le; pose proof (COS_bound (2 * x)); lra). pose proof (Rabs_pos (cos ph)). nra. }
      pose proof (Rle_abs (- (cos (2 * x) * cos ph))) as Z. rewrite Rabs_Ropp in Z. lra. }
    assert (S1 : (D * (m * y1)) * (D * (m * y1)) <= W * W). { clear - U1. set (u := D * (m * y1)) in *. clearbody u. pose proof (Rabs_pos u). replace (u * u) with (Rabs u * Rabs u) by (rewrite <- Rabs_mult; apply Rabs_pos_eq; nra). nra. }
    assert (S2 : (D * ((m + 1) * y2)) * (D * ((m + 1) * y2)) <= W * W). { clear - U2. set (u := D * ((m + 1) * y2)) in *. clearbody u. pose proof (Rabs_pos u). replace (u * u) with (Rabs u * Rabs u) by (rewrite <- Rabs_mult; apply Rabs_pos_eq; nra). nra. }
    assert (T1 : (m * m) * p <= (m * m) * (D * D * (y1 * y1 + y2 * y2))). { apply Rmult_le_compat_l; [nra|]. unfold p. apply Rmult_le_compat_l; [nra|exact Y]. }
    assert (T2 : (m * m) * (D * D * (y2 * y2)) <= ((m + 1) * (m + 1)) * (D * D * (y2 * y2))). { apply Rmult_le_compat_r; [|nra]. apply Rmult_le_pos; nra. }
    lra. }
  destruct (above (2 * (W * W) / p + 1)) as (N & HN). specialize (G N). assert (2 * (W * W) / p + 1 < INR N * INR N). { assert (0 <= 2 * (W * W) / p) by (apply Rmult_le_pos; [nra|left; now apply Rinv_0_lt_compat]). nra. }
  assert ((2 * (W * W) / p + 1) * p < INR N * INR N * p) by (apply Rmult_lt_compat_r; assumption). replace ((2 * (W * W) / p + 1) * p) with (2 * (W * W) + p) in H1 by (field; lra). lra.
Qed.

Section D.
  Variables (sh : list nat) (we wh : widths RF) (eps : field RF) (mu : option (field RF)).
  Hypothesis LL : lossless sh we wh eps mu.
  Notation n := (3 * prodl sh)%nat.
  Notation fs := (fsum (K := RF) sh).
  Notation pd := (e_dot sh we wh eps).
  Variables (V : nat -> field RF) (lam : nat -> R).
  Hypothesis Mo : modes sh we wh eps mu V lam.
  Variable dt : R.
  Notation rn := (run (K := RF) sh dt (Some (we, wh)) eps mu).
  Variables (J : field RF) (ph : R) (s : state RF).
  Notation amp a N := (pd (V a) (sE (rn (harmonic_currents J ph N) s))).
  Lemma harm_S N : harmonic_currents J ph (S N) = harmonic_currents J ph N ++ [fun c i => cos (INR N * ph) * J c i].
  Proof. unfold harmonic_currents. rewrite seq_S, map_app. reflexivity. Qed.
  Lemma jd_cos a x : jd sh we wh V a (fun c i => x * J c i) = jd sh we wh V a J * x.
  Proof. unfold jd. rewrite (Rmult_comm (fs _) x), <- fs_scale. apply fs_ext. intros. rring. Qed.
  Lemma amp_rec a N : (a < n)%nat -> amp a (S (S N)) - 2 * amp a (S N) + amp a N = - (dt * dt * lam a) * amp a (S N) + jd sh we wh V a J * cos (INR (S N) * ph) - jd sh we wh V a J * cos (INR N * ph).
  Proof.
    intro Ha. rewrite !harm_S. unfold run. rewrite !fold_left_app. cbn [fold_left]. rewrite (rec2 sh we wh eps mu LL V lam Mo dt a _ _ _ Ha), !jd_cos. reflexivity.
  Qed.
  Lemma amp_static a N : (a < n)%nat -> lam a = 0 -> amp a (S N) = amp a N + jd sh we wh V a J * cos (INR N * ph).
  Proof. intros Ha Z. rewrite harm_S. unfold run. rewrite fold_left_app. cbn [fold_left]. rewrite (static_step sh we wh eps mu LL V lam Mo dt a _ _ Ha Z), jd_cos. reflexivity. Qed.
  Lemma static_form a : (a < n)%nat -> lam a = 0 -> sin (ph / 2) <> 0 ->
    exists A, forall N, amp a N = 2 * sin (ph / 2) / (4 * (sin (ph / 2) * sin (ph / 2)) - 0) * jd sh we wh V a J * sin ((INR N - 1 / 2) * ph) + A.
  Proof.
    intros Ha Z Hs. set (C := 2 * sin (ph / 2) / (4 * (sin (ph / 2) * sin (ph / 2)) - 0)). set (g := jd sh we wh V a J).
    exists (amp a 0%nat - C * g * sin ((INR 0 - 1 / 2) * ph)). induction N as [|N IH]; [ring|]. rewrite (amp_static a N Ha Z), IH, S_INR. fold g.
    replace ((INR N + 1 - 1 / 2) * ph) with (INR N * ph + ph / 2) by field. replace ((INR N - 1 / 2) * ph) with (INR N * ph - ph / 2) by field. rewrite sin_plus, sin_minus.
    assert (HC : C * (2 * sin (ph / 2)) = 1) by (unfold C; field; lra). set (sx := sin (INR N * ph)). set (cx := cos (INR N * ph)). set (e := sin (ph / 2)) in *. set (f := cos (ph / 2)).
    replace (g * cx) with (g * cx * (C * (2 * e))) by (rewrite HC; ring). ring.
  Qed.
  Lemma static_dc a : (a < n)%nat -> lam a = 0 -> ph = 0 -> forall N, amp a N = amp a 0%nat + INR N * jd sh we wh V a J.
  Proof. intros Ha Z P. induction N as [|N IH]; [cbn [INR]; ring|]. rewrite (amp_static a N Ha Z), IH, S_INR, P, Rmult_0_r, cos_0. ring. Qed.
  (** Fields and amplitudes are bounded together. *)
  Lemma amp_bounded M a : (forall N c i, (c < 3)%nat -> inb sh i -> Rabs (sE (rn (harmonic_currents J ph N) s) c i) <= M) -> exists M', forall N, Rabs (amp a N) <= M'.
  Proof.
    intro H. exists (fs (fun c i => vol_e (K := RF) we wh c i * (eps c i * Rabs (V a c i))) * M). intro N. unfold e_dot. eapply Rle_trans; [apply fs_abs|]. rewrite Rmult_comm, <- fs_scale. apply fs_le. intros c i Hc Hi.
    pose proof (ve_pos sh we wh eps mu LL c i Hi). pose proof (eps_pos sh we wh eps mu LL c i Hc Hi). specialize (H N c i Hc Hi). set (E := sE _) in *.
    rewrite !Rabs_mult, (Rabs_pos_eq (vol_e (K := RF) we wh c i)), (Rabs_pos_eq (eps c i)) by lra.
    replace (M * (vol_e (K := RF) we wh c i * (eps c i * Rabs (V a c i)))) with (vol_e (K := RF) we wh c i * (eps c i * (Rabs (V a c i) * M))) by rring.
    apply Rmult_le_compat_l; [lra|]. apply Rmult_le_compat_l; [lra|]. apply Rmult_le_compat_l; [apply Rabs_pos|exact H].
  Qed.
  Lemma sum_bounded m (f : nat -> nat -> R) (v : nat -> field RF) : (forall a, (a < m)%nat -> exists M, forall N, Rabs (f a N) <= M) ->
    exists M, forall N c i, (c < 3)%nat -> inb sh i -> Rabs (sumN (K := RF) m (fun a => f a N * v a c i)) <= M.
  Proof.
    induction m as [|m IH]; intro H; [exists 0; intros; cbn; rewrite Rabs_R0; lra|]. destruct (IH ltac:(intros; apply H; lia)) as (M1 & H1). destruct (H m ltac:(lia)) as (M2 & H2).
    exists (M1 + M2 * fs (fun c i => Rabs (v m c i))). intros N c i Hc Hi. cbn [sumN]. eapply Rle_trans; [apply Rabs_triang|]. apply Rplus_le_compat; [now apply H1|]. cbn [fmul RF]. rewrite Rabs_mult.
    pose proof (fs_point sh (fun c i => Rabs (v m c i)) c i (fun c i _ _ => Rabs_pos _) Hc Hi) as P. cbv beta in P. apply Rmult_le_compat; [apply Rabs_pos|apply Rabs_pos|apply H2|exact P].
  Qed.
  Lemma field_bounded : (forall a, (a < n)%nat -> exists M, forall N, Rabs (amp a N) <= M) -> exists M, forall N c i, (c < 3)%nat -> inb sh i -> Rabs (sE (rn (harmonic_currents J ph N) s) c i) <= M.
  Proof.
    intro H. destruct (sum_bounded n (fun a N => amp a N) V H) as (M & HM). exists M. intros N c i Hc Hi. specialize (HM N c i Hc Hi). cbv beta in HM.
    pose proof (m_basis _ _ _ _ _ _ _ Mo (sE (rn (harmonic_currents J ph N) s)) c i Hc Hi) as E. cbv beta in E. rewrite E. exact HM.
  Qed.
End D.
