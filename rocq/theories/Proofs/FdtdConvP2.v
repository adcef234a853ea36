(** The error of an FDTD run against the samples of exact fields. *)
From Coq Require Import List Arith ZArith Lia Field Bool Reals Lra Psatz.
From Verif.Lib Require Import Num Sums Idx Mat RealF BoxMin.
From Verif.Model Require Import Fdmath Fdtd.
From Verif.Spec Require Import Yee FdtdRun HarmonicSpec DispersionSpec SmoothSpec.
From Verif.Proofs Require Import FdmathP FdmathP2 FdtdP FdtdP2 CflP DrivenP HarmonicP2 LossyP NumDispP TaylorP FdtdConvP.
Import ListNotations.
Local Open Scope R_scope.

Section Conv.
  Variable sh : list nat.
  Variable w : nat -> R.
  Variable dt : R.
  Variables eps mu : nat -> pt -> R.
  Variables E H J : R -> nat -> pt -> R.
  Variables DE DH : R -> nat -> nat -> pt -> R.
  Variables Et Ht : R -> nat -> pt -> R.
  Variables M eps0 eps1 mu0 mu1 : R.
  Hypothesis HL : length sh = 3%nat.
  Hypothesis Hw : forall a, (a < 3)%nat -> 0 < w a.
  Hypothesis Hdt : 0 < dt.
  Hypothesis Heps0 : 0 < eps0.
  Hypothesis Hmu0 : 0 < mu0.
  Hypothesis Heps : forall c p, (c < 3)%nat -> eps0 <= eps c p <= eps1.
  Hypothesis Hmu : forall c p, (c < 3)%nat -> mu0 <= mu c p <= mu1.
  Let L := fun a => INR (dim sh a) * w a.
  Hypothesis SE : smooth_motion L E DE Et M.
  Hypothesis SH : smooth_motion L H DH Ht M.
  Hypothesis MxE : forall t c p, (c < 3)%nat -> eps c p * Et t c p = curl_re (DH t) c p - J t c p.
  Hypothesis MxH : forall t c p, (c < 3)%nat -> mu c p * Ht t c p = - curl_re (DE t) c p.
  Let W := uniw (K := RF) w.
  Let d : dxes_t RF := Some (W, W).
  Let ep : field RF := smp_e w eps.
  Let mm : option (field RF) := Some (smp_h w mu).
  Notation q0 := (q (w 0%nat) (w 1%nat) (w 2%nat) dt eps0 mu0).
  Hypothesis Hq : q0 < 1.
  Let S2 := w 0%nat * w 0%nat + w 1%nat * w 1%nat + w 2%nat * w 2%nat.
  Let N := INR (prodl sh).
  Let v := w 0%nat * w 1%nat * w 2%nat.

  Definition jn (n : nat) : field RF := fun c i => - dt * smp_e w (J ((INR n + / 2) * dt)) c i.
  Definition s0 : state RF := mkst (smp_e w (E 0)) (smp_h w (H (- dt / 2))).
  Definition sn (n : nat) : state RF := run sh dt d ep mm (map jn (seq 0 n)) s0.
  Definition es (n : nat) : field RF := smp_e w (E (INR n * dt)).
  Definition hs (n : nat) : field RF := smp_h w (H ((INR n - / 2) * dt)).
  Definition an (n : nat) : state RF := mkst (fun c i => 1 * sE (sn n) c i + - (1) * es n c i) (fun c i => 1 * sH (sn n) c i + - (1) * hs n c i).
  Definition gn (n : nat) : field RF := fun c i =>
    - (hs (S n) c i - hs n c i) - dt * curl_forward (K := RF) sh (Some W) (es n) c i / smp_h w mu c i.
  Definition en (n : nat) : field RF := fun c i =>
    jn n c i - ep c i * (es (S n) c i - es n c i) + dt * curl_back (K := RF) sh (Some W) (hs (S n)) c i.

  Lemma sn_S n : sn (S n) = step sh dt d ep mm (jn n) (sn n).
  Proof. unfold sn, run. rewrite seq_S, map_app, fold_left_app. reflexivity. Qed.
  Lemma ep_pos c i : (c < 3)%nat -> eps0 <= ep c i <= eps1.
  Proof. intro Hc. now apply Heps. Qed.
  Lemma mm_pos c i : (c < 3)%nat -> mu0 <= smp_h w mu c i <= mu1.
  Proof. intro Hc. now apply Hmu. Qed.

  Lemma an_step n : seq_st sh (an (S n)) (step sh dt d ep mm (en n) (kicked (gn n) (an n))).
  Proof.
    assert (HH : feq sh (sH (an (S n))) (sH (step sh dt d ep mm (en n) (kicked (gn n) (an n))))).
    { intros c i Hc Hi. cbn [an sH]. rewrite sn_S. unfold step, maxwell_h. cbn [sE sH mm d option_map fst kicked an].
      pose proof (curl_forward_lin RF sh (Some W) c 1%R (- (1))%R (sE (sn n)) (es n) i) as Y. unfold gn.
      set (x := curl_forward (K := RF) sh (Some W) (sE (sn n)) c i) in *. set (y := curl_forward (K := RF) sh (Some W) (es n) c i) in *.
      cbn [fadd fmul fsub fdiv RF] in *. rewrite Y. pose proof (mm_pos c i Hc). clearbody x y. match goal with |- ?a = ?b => change (a = b :> R) end. field. lra. }
    split; [|exact HH].
    intros c i Hc Hi. unfold step. cbn [sE]. unfold maxwell_e. cbn [d option_map snd].
    assert (Y0 : curl_back (K := RF) sh (Some W) (maxwell_h sh dt (Some (W, W)) (sE (kicked (gn n) (an n))) (sH (kicked (gn n) (an n))) mm) c i
      = curl_back (K := RF) sh (Some W) (sH (an (S n))) c i).
    { apply (curl_back_ext RF); [lia|assumption|]. intros k j Hk Hj. symmetry. now apply HH. }
    unfold d in *. rewrite Y0. cbn [an sH kicked sE].
    pose proof (curl_back_lin RF sh (Some W) c 1%R (- (1))%R (sH (sn (S n))) (hs (S n)) i) as Y. cbn [fadd fmul RF] in Y. rewrite Y.
    rewrite sn_S at 1. unfold step at 1. cbn [sE]. unfold maxwell_e. unfold d. cbn [option_map snd].
    assert (Z : curl_back (K := RF) sh (Some W) (maxwell_h sh dt (Some (W, W)) (sE (sn n)) (sH (sn n)) mm) c i = curl_back (K := RF) sh (Some W) (sH (sn (S n))) c i) by (rewrite sn_S; reflexivity).
    rewrite Z. unfold en. set (x := curl_back (K := RF) sh (Some W) (sH (sn (S n))) c i) in *. set (y := curl_back (K := RF) sh (Some W) (hs (S n)) c i) in *.
    pose proof (ep_pos c i Hc). clearbody x y. cbn [fadd fmul fsub fdiv RF]. match goal with |- ?a = ?b => change (a = b :> R) end. field. lra.
  Qed.

  Lemma gn_bound n c i : (c < 3)%nat -> inb sh i -> Rabs (smp_h w mu c i * gn n c i) <= dt * (M * (mu1 * (dt * dt) + S2) / 24).
  Proof.
    intros Hc Hi. pose proof (mm_pos c i Hc) as Pm. set (p := pos_h w c i). set (t := INR n * dt).
    destruct SH as (_ & _ & TH). destruct (TH c p Hc) as (f2 & f3 & D1 & D2 & D3 & B).
    pose proof (central_t (fun s => H s c p) (fun s => Ht s c p) f2 f3 M dt t D1 D2 D3 B Hdt) as C. cbv beta in C.
    destruct SE as (PE & DfE & _).
    pose proof (fwd_re sh w HL Hw (E t) (DE t) M (PE t) (DfE t) c i Hc Hi) as F. fold S2 in F. fold p in F.
    pose proof (MxH t c p Hc) as X. unfold gn, hs, es. unfold smp_h at 2 3. fold p. fold t.
    replace ((INR (S n) - / 2) * dt) with (t + dt / 2) by (unfold t; rewrite S_INR; field).
    replace ((INR n - / 2) * dt) with (t - dt / 2) by (unfold t; field). fold W in F.
    set (k := curl_forward (K := RF) sh (Some W) (smp_e w (E t)) c i) in *. change (smp_h w mu c i) with (mu c p) in *. clearbody k.
    set (a := H (t + dt / 2) c p) in *. set (b := H (t - dt / 2) c p) in *. set (m := mu c p) in *. set (u := Ht t c p) in *. clearbody a b m u. clear TH D1 D2 D3 B.
    cbn [fadd fmul fsub fdiv fopp RF] in *.
    replace (m * (- (a - b) - dt * k / m)) with (- (m * (a - b - dt * u) + dt * (k - curl_re (DE t) c p))).
    2:{ replace (curl_re (DE t) c p) with (- (m * u)) by lra. field. lra. }
    rewrite Rabs_Ropp. eapply Rle_trans; [apply Rabs_triang|]. rewrite !Rabs_mult, (Rabs_right m), (Rabs_right dt) by lra.
    apply Rle_trans with (mu1 * (dt * (M * (dt * dt) / 24)) + dt * (M * S2 / 24)); [|right; field].
    apply Rplus_le_compat; [|apply Rmult_le_compat_l; lra]. apply Rmult_le_compat; [lra|apply Rabs_pos|lra|exact C].
  Qed.
  Lemma en_bound n c i : (c < 3)%nat -> inb sh i -> Rabs (en n c i) <= dt * (M * (eps1 * (dt * dt) + S2) / 24).
  Proof.
    intros Hc Hi. pose proof (ep_pos c i Hc) as Pm. set (p := pos_e w c i). set (t := (INR n + / 2) * dt).
    destruct SE as (_ & _ & TE). destruct (TE c p Hc) as (f2 & f3 & D1 & D2 & D3 & B).
    pose proof (central_t (fun s => E s c p) (fun s => Et s c p) f2 f3 M dt t D1 D2 D3 B Hdt) as C. cbv beta in C.
    destruct SH as (PH & DfH & _).
    pose proof (back_re sh w HL Hw (H t) (DH t) M (PH t) (DfH t) c i Hc Hi) as F. fold S2 in F. fold p in F.
    pose proof (MxE t c p Hc) as X. unfold en, jn, hs, es. unfold smp_e. fold p. fold t.
    replace ((INR (S n) - / 2) * dt) with t by (unfold t; rewrite S_INR; field).
    replace (INR (S n) * dt) with (t + dt / 2) by (unfold t; rewrite S_INR; field).
    replace (INR n * dt) with (t - dt / 2) by (unfold t; field). fold W in F.
    set (k := curl_back (K := RF) sh (Some W) (smp_h w (H t)) c i) in *. change (ep c i) with (eps c p) in *. clearbody k.
    set (a := E (t + dt / 2) c p) in *. set (b := E (t - dt / 2) c p) in *. set (m := eps c p) in *. set (u := Et t c p) in *. clearbody a b m u. clear TE D1 D2 D3 B.
    cbn [fadd fmul fsub fdiv fopp RF] in *.
    replace (- dt * J t c p - m * (a - b) + dt * k) with (dt * (k - curl_re (DH t) c p) - m * (a - b - dt * u)).
    2:{ replace (J t c p) with (curl_re (DH t) c p - m * u) by lra. ring. }
    eapply Rle_trans; [apply Rabs_triang|]. rewrite Rabs_Ropp. rewrite !Rabs_mult, (Rabs_right m), (Rabs_right dt) by lra.
    apply Rle_trans with (dt * (M * S2 / 24) + eps1 * (dt * (M * (dt * dt) / 24))); [|right; field].
    apply Rplus_le_compat; [apply Rmult_le_compat_l; lra|]. apply Rmult_le_compat; [lra|apply Rabs_pos|lra|exact C].
  Qed.

  Lemma v_pos : 0 < v.
  Proof. unfold v. repeat apply Rmult_lt_0_compat; apply Hw; lia. Qed.
  Lemma Ve c i : vol_e (K := RF) W W c i = v.
  Proof. destruct c as [|[|c]]; reflexivity. Qed.
  Lemma Vh c i : vol_h (K := RF) W W c i = v.
  Proof. destruct c as [|[|c]]; reflexivity. Qed.
  Lemma sum_const b : fsum (K := RF) sh (fun _ _ => b) = 3 * N * b.
  Proof.
    unfold fsum. rewrite !(gsum_flat RF). pose proof (rs_const (prodl sh) b) as Q. change (sumN (K := RF) (prodl sh) (fun _ => b) = INR (prodl sh) * b) in Q. rewrite Q. cbn [fadd RF]. unfold N. lra.
  Qed.
  Lemma sq_le x b : Rabs x <= b -> x * x <= b * b.
  Proof. intro B. pose proof (Rabs_pos x). replace (x * x) with (Rabs x * Rabs x) by (rewrite <- Rabs_mult; apply Rabs_right; apply Rle_ge, Rle_0_sqr). now apply Rmult_le_compat. Qed.
  Lemma sqrt_bound (X m b : R) : 0 < m -> 0 <= b -> X <= v * N * 3 * (b * b) / m -> sqrt X <= sqrt (v * N) * (sqrt 3 * b / sqrt m).
  Proof.
    intros Pm Pb B. assert (PN : 0 <= v * N) by (apply Rmult_le_pos; [left; apply v_pos|apply pos_INR]).
    eapply Rle_trans; [apply sqrt_le_1_alt, B|].
    replace (v * N * 3 * (b * b) / m) with ((v * N) * ((3 * (b * b)) * / m)) by (field; lra).
    rewrite (sqrt_mult_alt (v * N)) by exact PN. rewrite (sqrt_mult_alt (3 * (b * b))) by (pose proof (Rle_0_sqr b); unfold Rsqr in *; lra).
    rewrite (sqrt_mult_alt 3) by lra. rewrite sqrt_square by exact Pb. rewrite <- inv_sqrt_depr by exact Pm. right. reflexivity.
  Qed.
  Lemma M0 : 0 <= M.
  Proof. destruct SE as (_ & Df & _). exact (diff3_M _ _ _ _ (Df 0 0%nat 0%nat ltac:(lia) ltac:(lia))). Qed.
  Lemma S2_pos : 0 < S2.
  Proof. unfold S2. repeat apply Rplus_lt_0_compat; apply Rmult_lt_0_compat; apply Hw; lia. Qed.
  Definition bg : R := dt * (M * (mu1 * (dt * dt) + S2) / 24).
  Definition bj : R := dt * (M * (eps1 * (dt * dt) + S2) / 24).
  Lemma mu1_pos : 0 < mu1.
  Proof. pose proof (Hmu 0%nat (0, 0, 0) ltac:(lia)). lra. Qed.
  Lemma eps1_pos : 0 < eps1.
  Proof. pose proof (Heps 0%nat (0, 0, 0) ltac:(lia)). lra. Qed.
  Lemma bg_pos : 0 <= bg.
  Proof. unfold bg. pose proof M0. pose proof S2_pos. pose proof mu1_pos. assert (0 < dt * dt) by now apply Rmult_lt_0_compat. assert (0 < mu1 * (dt * dt)) by now apply Rmult_lt_0_compat.
    apply Rmult_le_pos; [lra|]. apply Rmult_le_pos; [|lra]. apply Rmult_le_pos; lra. Qed.
  Lemma bj_pos : 0 <= bj.
  Proof. unfold bj. pose proof M0. pose proof S2_pos. pose proof eps1_pos. assert (0 < dt * dt) by now apply Rmult_lt_0_compat. assert (0 < eps1 * (dt * dt)) by now apply Rmult_lt_0_compat.
    apply Rmult_le_pos; [lra|]. apply Rmult_le_pos; [|lra]. apply Rmult_le_pos; lra. Qed.

  Lemma gn_norm n : sqrt (nrmH sh W W mm (gn n)) <= sqrt (v * N) * (sqrt 3 * bg / sqrt mu0).
  Proof.
    apply sqrt_bound; [exact Hmu0|exact bg_pos|]. unfold nrmH.
    apply Rle_trans with (fsum (K := RF) sh (fun _ _ => v * (bg * bg / mu0))); [|rewrite sum_const; right; field; lra].
    apply fsum_le_r. intros c i Hc Hi. pose proof (mm_pos c i Hc) as P. pose proof v_pos. rewrite Vh. apply Rmult_le_compat_l; [lra|].
    cbn [matl mm]. pose proof (sq_le _ _ (gn_bound n c i Hc Hi)) as Q. fold bg in Q. set (m := smp_h w mu c i) in *. set (g := gn n c i) in *. clearbody m g.
    replace (m * (g * g)) with ((m * g * (m * g)) * / m) by (field; lra). unfold Rdiv.
    apply Rmult_le_compat; [apply Rle_0_sqr|left; apply Rinv_0_lt_compat; lra|exact Q|apply Rinv_le_contravar; lra].
  Qed.
  Lemma en_norm n : sqrt (jj sh W W ep (en n)) <= sqrt (v * N) * (sqrt 3 * bj / sqrt eps0).
  Proof.
    apply sqrt_bound; [exact Heps0|exact bj_pos|]. unfold jj.
    apply Rle_trans with (fsum (K := RF) sh (fun _ _ => v * (bj * bj / eps0))); [|rewrite sum_const; right; field; lra].
    apply fsum_le_r. intros c i Hc Hi. pose proof (ep_pos c i Hc) as P. pose proof v_pos. rewrite Ve. apply Rmult_le_compat_l; [lra|].
    pose proof (sq_le _ _ (en_bound n c i Hc Hi)) as Q. fold bj in Q. unfold Rdiv.
    apply Rmult_le_compat; [apply Rle_0_sqr|left; apply Rinv_0_lt_compat; lra|exact Q|apply Rinv_le_contravar; lra].
  Qed.

  Lemma conv_U n : sqrt (yee_E RF sh dt d ep mm (an n)) <= sqrt (v * N) * (INR n * (sqrt 3 * bg / sqrt mu0 + sqrt 3 * bj / sqrt eps0 / sqrt (1 - q0))).
  Proof.
    assert (Hww : forall a i, (a < 3)%nat -> (i < dim sh a)%nat -> dmin (w 0%nat) (w 1%nat) (w 2%nat) a <= W a i /\ dmin (w 0%nat) (w 1%nat) (w 2%nat) a <= W a i).
    { intros a i Ha _. destruct a as [|[|[|a]]]; [| | |lia]; cbn; unfold W, uniw; lra. }
    pose proof (conv_run sh W W (w 0%nat) (w 1%nat) (w 2%nat) HL (Hw 0%nat ltac:(lia)) (Hw 1%nat ltac:(lia)) (Hw 2%nat ltac:(lia)) Hww dt ep mm eps0 mu0 Heps0 Hmu0
      ltac:(intros c i Hc _; exact (proj1 (ep_pos c i Hc))) ltac:(intros c i Hc _; exact (proj1 (mm_pos c i Hc))) Hq an gn en _ _ n
      ltac:(intros k _; apply an_step) ltac:(intros k _; apply gn_norm) ltac:(intros k _; apply en_norm)) as Rn.
    assert (Z : yee_E RF sh dt (Some (W, W)) ep mm (an 0) = 0).
    { rewrite (U_ext sh W W (w 0%nat) (w 1%nat) (w 2%nat) HL Hww dt ep mm eps0 mu0 Hmu0 ltac:(intros c i Hc _; exact (proj1 (ep_pos c i Hc))) ltac:(intros c i Hc _; exact (proj1 (mm_pos c i Hc))) (an 0) (mkst (fun _ _ => 0) (fun _ _ => 0))).
      - rewrite (U_split sh W W HL dt ep mm eps0 mu0 Hmu0 ltac:(intros c i Hc _; exact (proj1 (ep_pos c i Hc))) ltac:(intros c i Hc _; exact (proj1 (mm_pos c i Hc)))). cbn [sE sH].
        assert (Cz : forall c i, curl_forward (K := RF) sh (Some W) (fun _ _ => 0) c i = 0).
        { intros c i. pose proof (curl_forward_lin RF sh (Some W) c 0%R 0%R (fun _ _ => 0) (fun _ _ => 0) i) as Y. cbn [fadd fmul RF] in Y. rewrite !Rmult_0_l, Rplus_0_r in Y. exact Y. }
        assert (Fz : forall f, (forall c i, (c < 3)%nat -> inb sh i -> f c i = 0) -> fsum (K := RF) sh f = 0).
        { intros f Hf. rewrite (fsum_ext_r sh f (fun _ _ => 0) Hf), sum_const. match goal with |- ?a = ?b => change (a = b :> R) end; ring. }
        assert (Z1 : nrmE sh W W ep (fun _ _ => 0) = 0) by (apply Fz; intros; match goal with |- ?a = ?b => change (a = b :> R) end; ring).
        assert (Z2 : mid2 sh W W dt mm (fun _ _ => 0) (fun _ _ => 0) = 0) by (apply Fz; intros; cbn beta; rewrite Cz; unfold Rdiv; match goal with |- ?a = ?b => change (a = b :> R) end; ring).
        assert (Z3 : curl1 sh W W mm (fun _ _ => 0) = 0) by (apply Fz; intros; cbn beta; rewrite Cz; unfold Rdiv; match goal with |- ?a = ?b => change (a = b :> R) end; ring).
        rewrite Z1, Z2, Z3. match goal with |- ?a = ?b => change (a = b :> R) end; ring.
      - split; intros c i Hc Hi; cbn [an sE sH sn run map seq fold_left s0]; unfold es, hs; cbn [INR].
        + rewrite Rmult_0_l. cbn [s0 sE]. match goal with |- ?a = ?b => change (a = b :> R) end. ring.
        + replace ((0 - / 2) * dt) with (- dt / 2) by field. match goal with |- ?a = ?b => change (a = b :> R) end. ring. }
    fold d in Rn, Z. rewrite Z, sqrt_0 in Rn. eapply Rle_trans; [exact Rn|]. right. field.
    split; [|split]; apply Rgt_not_eq, sqrt_lt_R0; lra.
  Qed.
End Conv.
