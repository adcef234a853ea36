(** The running Fourier sums of an FDTD run are frequency-domain fields (C183). *)
From Coq Require Import Reals List Arith ZArith Lia Lra Psatz Field.
From Verif.Lib Require Import Num Sums Idx RealF Cexp Dft.
From Verif.Model Require Import Fdmath Fdtd Fdfd.
From Verif.Spec Require Import Grid Yee FdtdRun FdfdSpec HarmonicSpec BlochSpec.
From Verif.Proofs Require Import FdmathP FdtdP2 FdfdP FarP HarmonicP HarmonicP2.
From Verif.Props Require Import HarmonicProps MeanProps.
Import ListNotations.

Section Z.
  Variable K : CFld.
  Add Field Kfield : (fth K).
  Local Open Scope fld_scope.
  Lemma curl_forward_sum sh dx N (a : nat -> K) (F : nat -> field K) c i :
    curl_forward sh dx (fun c' i' => sumN N (fun n => a n * F n c' i')) c i = sumN N (fun n => a n * curl_forward sh dx (F n) c i).
  Proof.
    induction N as [|N IH]; cbn [sumN].
    - unfold curl_forward, curl_with, deriv_forward, roll. destruct dx; destruct c as [|[|[|c]]]; try ring; rewrite !(Fdiv_def (fth K)); ring.
    - rewrite <- IH. unfold curl_forward, curl_with, deriv_forward, roll. destruct dx; destruct c as [|[|[|c]]]; try ring; rewrite !(Fdiv_def (fth K)); ring.
  Qed.
  Lemma curl_back_sum sh dx N (a : nat -> K) (F : nat -> field K) c i :
    curl_back sh dx (fun c' i' => sumN N (fun n => a n * F n c' i')) c i = sumN N (fun n => a n * curl_back sh dx (F n) c i).
  Proof.
    induction N as [|N IH]; cbn [sumN].
    - unfold curl_back, curl_with, deriv_back, roll. destruct dx; destruct c as [|[|[|c]]]; try ring; rewrite !(Fdiv_def (fth K)); ring.
    - rewrite <- IH. unfold curl_back, curl_with, deriv_back, roll. destruct dx; destruct c as [|[|[|c]]]; try ring; rewrite !(Fdiv_def (fth K)); ring.
  Qed.
  Variables (sh : list nat) (dt om z : K) (d : dx2 K) (eps : field K) (mu : option (field K)) (j : nat -> field K) (s : state K).
  Hypothesis HL : length sh = 3%nat.
  Hypothesis Hdt : dt <> 0.
  Hypothesis Hz : z <> 0.
  Hypothesis Heps : nzm sh eps.
  Hypothesis Hmu : nzm_opt sh mu.
  Hypothesis Ho : im * om * dt = z - 1 / z.
  Let v := 1 / z.
  Let st n := run sh dt (Some d) eps mu (map j (seq 0 n)) s.
  Lemma st_S n : st (S n) = step sh dt (Some d) eps mu (j n) (st n).
  Proof. unfold st. rewrite seq_S, map_app. unfold run. rewrite fold_left_app. reflexivity. Qed.
  Lemma zsum N c i : (c < 3)%nat -> inb sh i ->
    let E := fun c i => sumN N (fun n => zpow v (2 * n) * sE (st n) c i) in
    let H := fun c i => sumN N (fun n => zpow v (2 * n + 1) * sH (st (S n)) c i) in
    let out := eh_full_f sh om d eps mu E H in
    dt * fst out c i = - sumN N (fun n => zpow v (2 * n + 1) * j n c i) - eps c i * (z * (sE (st 0) c i - zpow v (2 * N) * sE (st N) c i)) /\
    dt * snd out c i = matl mu c i * (sH (st 0) c i - zpow v (2 * N) * sH (st N) c i).
  Proof.
    intros Hc Hi E H out. unfold out. rewrite amp_form, far_form. unfold E, H. rewrite curl_back_sum, curl_forward_sum.
    assert (Nm : matl mu c i <> 0) by (unfold matl; destruct mu as [m|]; [now apply Hmu|apply (F_1_neq_0 (fth K))]).
    pose proof (Heps c i Hc Hi) as Ne.
    assert (Zv : z * v = 1) by (unfold v; field; exact Hz).
    assert (SH : forall n, dt * curl_forward sh (Some (fst d)) (sE (st n)) c i = matl mu c i * (sH (st n) c i - sH (st (S n)) c i)).
    { intro n. rewrite st_S. cbn [step sH]. rewrite maxwell_h_matl. set (q := curl_forward _ _ _ _ _). clearbody q. field. exact Nm. }
    assert (SE : forall n, dt * curl_back sh (Some (snd d)) (sH (st (S n))) c i = eps c i * (sE (st (S n)) c i - sE (st n) c i) - j n c i).
    { intro n. rewrite st_S. cbn [step sE sH]. set (h := maxwell_h _ _ _ _ _ _). clearbody h. unfold maxwell_e. cbn [option_map snd]. set (q := curl_back _ _ _ _ _). clearbody q. field. exact Ne. }
    set (a := fun n => sE (st n) c i) in *. set (b := fun n => sH (st n) c i) in *. set (p := fun n => curl_forward sh (Some (fst d)) (sE (st n)) c i). set (q := fun n => curl_back sh (Some (snd d)) (sH (st (S n))) c i).
    change (forall n, dt * p n = matl mu c i * (b n - b (S n))) in SH. change (forall n, dt * q n = eps c i * (a (S n) - a n) - j n c i) in SE.
    change (dt * (sumN N (fun n => zpow v (2 * n + 1) * q n) - im * om * eps c i * sumN N (fun n => zpow v (2 * n) * a n))
      = - sumN N (fun n => zpow v (2 * n + 1) * j n c i) - eps c i * (z * (a 0%nat - zpow v (2 * N) * a N)) /\
      dt * (sumN N (fun n => zpow v (2 * n) * p n) + im * om * matl mu c i * sumN N (fun n => zpow v (2 * n + 1) * b (S n))) = matl mu c i * (b 0%nat - zpow v (2 * N) * b N)).
    set (m := matl mu c i) in *. set (e := eps c i) in *. set (jj := fun n => j n c i) in *. change (forall n, dt * q n = e * (a (S n) - a n) - jj n) in SE. change (fun n => zpow v (2 * n + 1) * j n c i) with (fun n => zpow v (2 * n + 1) * jj n).
    change (im * om * dt = z - v) in Ho. clearbody m e jj a b p q v. clear - Ho Zv SH SE.
    assert (O : forall n, zpow v (2 * n + 1) = v * zpow v (2 * n)) by (intro n; rewrite Nat.add_1_r; reflexivity).
    induction N as [|N [IE IH]].
    - cbn. split; ring.
    - cbn [sumN]. rewrite zpow_SS, !O. set (w := zpow v (2 * N)) in *. clearbody w. specialize (SH N). specialize (SE N).
      set (s1 := sumN N (fun n => zpow v (2 * n + 1) * q n)) in *. set (s2 := sumN N (fun n => zpow v (2 * n) * a n)) in *. set (s3 := sumN N (fun n => zpow v (2 * n + 1) * jj n)) in *. set (s4 := sumN N (fun n => zpow v (2 * n) * p n)) in *. set (s5 := sumN N (fun n => zpow v (2 * n + 1) * b (S n))) in *. clearbody s1 s2 s3 s4 s5. clear O. split.
      + transitivity (dt * (s1 - im * om * e * s2) + (v * w * (dt * q N) - (im * om * dt) * e * w * a N)); [ring|]. rewrite IE, SE, Ho.
        transitivity (- (s3 + v * w * jj N) - e * (z * (a 0%nat - w * a N)) + e * v * w * a (S N) - z * e * w * a N); [ring|].
        transitivity (- (s3 + v * w * jj N) - e * (z * (a 0%nat - w * a N)) + e * (z * v) * v * w * a (S N) - z * e * w * a N); [rewrite Zv; ring|ring].
      + transitivity (dt * (s4 + im * om * m * s5) + (w * (dt * p N) + (im * om * dt) * m * (v * w) * b (S N))); [ring|]. rewrite IH, SH, Ho.
        transitivity (m * (b 0%nat - w * b N) + w * (m * (b N - b (S N))) + (z * v) * m * w * b (S N) - v * v * m * w * b (S N)); [ring|]. rewrite Zv. ring.
  Qed.
End Z.

(** ** Real runs as complex runs *)
Local Open Scope R_scope.
Definition cst (s : state RF) : state CC := mkst (cf (sE s)) (cf (sH s)).
Lemma dreal a b w : w <> 0 -> cdiv (csub (mkC a 0) (mkC b 0)) (mkC w 0) = mkC ((a - b) / w) 0.
Proof. intro H. unfold cdiv, cinv, cnrm. apply cpx_ext; cbn; field; exact H. Qed.
Lemma curl_forward_cf sh (w : widths RF) F c i : length sh = 3%nat -> nzw (K := RF) sh w -> (c < 3)%nat -> inb sh i ->
  curl_forward (K := CC) sh (Some (cw w)) (cf F) c i = mkC (curl_forward (K := RF) sh (Some w) F c i) 0.
Proof.
  intros HL Hw Hc Hi. assert (B : forall a, (a < 3)%nat -> w a (coord i a) <> 0) by (intros a Ha; apply Hw; [lia|apply inb_coord; [exact Hi|lia]]).
  assert (Dr : forall a f, (a < 3)%nat -> deriv_forward (K := CC) sh (Some (cw w)) a (fun k => mkC (f k) 0) i = mkC (deriv_forward (K := RF) sh (Some w) a f i) 0) by (intros a f Ha; exact (dreal _ _ _ (B a Ha))).
  assert (Sb : forall x y, csub (mkC x 0) (mkC y 0) = mkC (x - y) 0) by (intros; apply cpx_ext; cbn; ring).
  unfold curl_forward, curl_with, cf. destruct c as [|[|[|c]]]; [| | |lia]; rewrite !Dr by lia; apply Sb.
Qed.
Lemma curl_back_cf sh (w : widths RF) F c i : length sh = 3%nat -> nzw (K := RF) sh w -> (c < 3)%nat -> inb sh i ->
  curl_back (K := CC) sh (Some (cw w)) (cf F) c i = mkC (curl_back (K := RF) sh (Some w) F c i) 0.
Proof.
  intros HL Hw Hc Hi. assert (B : forall a, (a < 3)%nat -> w a (coord i a) <> 0) by (intros a Ha; apply Hw; [lia|apply inb_coord; [exact Hi|lia]]).
  assert (Dr : forall a f, (a < 3)%nat -> deriv_back (K := CC) sh (Some (cw w)) a (fun k => mkC (f k) 0) i = mkC (deriv_back (K := RF) sh (Some w) a f i) 0) by (intros a f Ha; exact (dreal _ _ _ (B a Ha))).
  assert (Sb : forall x y, csub (mkC x 0) (mkC y 0) = mkC (x - y) 0) by (intros; apply cpx_ext; cbn; ring).
  unfold curl_back, curl_with, cf. destruct c as [|[|[|c]]]; [| | |lia]; rewrite !Dr by lia; apply Sb.
Qed.
Section Emb.
  Variables (sh : list nat) (we wh : widths RF) (dt : R) (eps : field RF) (mu : option (field RF)).
  Hypothesis HL : length sh = 3%nat.
  Hypothesis He : nzw (K := RF) sh we.
  Hypothesis Hh : nzw (K := RF) sh wh.
  Hypothesis Heps : nzm (K := RF) sh eps.
  Hypothesis Hmu : nzm_opt (K := RF) sh mu.
  Lemma emb_step j s : seq_st (K := CC) sh (step (K := CC) sh (mkC dt 0) (Some (cw we, cw wh)) (cf eps) (option_map cf mu) (cf j) (cst s)) (cst (step (K := RF) sh dt (Some (we, wh)) eps mu j s)).
  Proof.
    assert (A : feq (K := CC) sh (maxwell_h (K := CC) sh (mkC dt 0) (Some (cw we, cw wh)) (cf (sE s)) (cf (sH s)) (option_map cf mu)) (cf (maxwell_h (K := RF) sh dt (Some (we, wh)) (sE s) (sH s) mu))).
    { intros c i Hc Hi. rewrite (maxwell_h_matl CC). cbn [fst]. rewrite (curl_forward_cf sh we _ c i HL He Hc Hi). unfold cf, maxwell_h. cbn [option_map fst]. set (q := curl_forward (K := RF) _ _ _ _ _). clearbody q. change R in q. unfold matl. destruct mu as [m|]; cbn [option_map].
      - specialize (Hmu c i Hc Hi). set (h := sH s c i). set (k := m c i) in *. clearbody h k. change R in h, k.
        change (csub (mkC h 0) (cdiv (cmul (mkC dt 0) (mkC q 0)) (mkC k 0)) = mkC (h - dt * q / k) 0). unfold cdiv, cinv, cnrm. apply cpx_ext; cbn; field; exact Hmu.
      - set (h := sH s c i). clearbody h. change R in h. change (csub (mkC h 0) (cdiv (cmul (mkC dt 0) (mkC q 0)) c1) = mkC (h - dt * q) 0). unfold cdiv, cinv, cnrm. apply cpx_ext; cbn; field. }
    split; [|exact A]. intros c i Hc Hi. cbn [step sE sH cst]. unfold maxwell_e. cbn [option_map snd].
    set (h' := maxwell_h (K := RF) _ _ _ _ _ _) in *.
    rewrite (curl_back_ext3 CC sh (Some (cw wh)) _ (cf h') c i HL Hi A), (curl_back_cf sh wh h' c i HL Hh Hc Hi). specialize (Heps c i Hc Hi).
    unfold cf. cbv beta. cbn [option_map snd]. fold h'. set (q := curl_back (K := RF) _ _ _ _ _). clearbody q. change R in q. set (x := sE s c i). set (k := eps c i) in *. set (y := j c i). clearbody x k y. change R in x, k, y.
    change (cadd (cadd (mkC x 0) (cdiv (cmul (mkC dt 0) (mkC q 0)) (mkC k 0))) (cdiv (mkC y 0) (mkC k 0)) = mkC (x + dt * q / k + y / k) 0). unfold cdiv, cinv, cnrm. apply cpx_ext; cbn; field; exact Heps.
  Qed.
  Lemma emb_run (j : nat -> field RF) s n : seq_st (K := CC) sh (run (K := CC) sh (mkC dt 0) (Some (cw we, cw wh)) (cf eps) (option_map cf mu) (map (fun n => cf (j n)) (seq 0 n)) (cst s)) (cst (run (K := RF) sh dt (Some (we, wh)) eps mu (map j (seq 0 n)) s)).
  Proof.
    induction n as [|n IH]; [split; apply feq_refl|]. rewrite seq_S, !map_app. unfold run. rewrite !fold_left_app. cbn [map fold_left Nat.add].
    eapply seq_st_trans; [apply step_ext; [exact HL|exact IH]|]. apply emb_step.
  Qed.
End Emb.

(** ** The Fourier sums of a run *)
(** Fourier sum of real fields sampled at the times t 0, ..., t (N - 1). *)
Definition fourier (omega : R) (N : nat) (t : nat -> R) (F : nat -> field RF) : field CC :=
  fun c i => sumN (K := CC) N (fun n => rmul (F n c i) (cis (- (omega * t n)))).

Lemma zpow_cis t n : zpow (K := CC) (cis t) n = cis (INR n * t).
Proof.
  induction n as [|n IH]; [cbn [zpow INR]; rewrite Rmult_0_l; symmetry; apply cis_0|].
  cbn [zpow]. rewrite IH, S_INR. change (@fmul CC) with cmul. rewrite <- cis_add. f_equal. ring.
Qed.
(** Every run, driven by a current density J: the Fourier sums of E, H and J satisfy the
    frequency-domain equations at 2 sin(omega dt / 2) / dt, up to terms with the first and
    the last fields. *)
Theorem C183_fourier_sums :
  forall (sh : list nat) (we wh : widths RF) (dt omega : R) (eps : field RF) (mu : option (field RF)) (J : nat -> field RF) (s : state RF) (N : nat),
    length sh = 3%nat -> nzw (K := RF) sh we -> nzw (K := RF) sh wh -> dt <> 0 -> nzm (K := RF) sh eps -> nzm_opt (K := RF) sh mu ->
    let st n := run (K := RF) sh dt (Some (we, wh)) eps mu (map (fun n c i => - (dt * J n c i)) (seq 0 n)) s in
    let E := fourier omega N (fun n => INR n * dt) (fun n => sE (st n)) in
    let H := fourier omega N (fun n => (INR n + / 2) * dt) (fun n => sH (st (S n))) in
    let Jw := fourier omega N (fun n => (INR n + / 2) * dt) J in
    let out := eh_full_f (K := CC) sh (mkC (2 * sin (omega * dt / 2) / dt) 0) (cw we, cw wh) (cf eps) (option_map cf mu) E H in
    forall c i, (c < 3)%nat -> inb sh i ->
      fst out c i = csub (Jw c i) (rmul (eps c i / dt) (csub (rmul (sE (st O) c i) (cis (omega * (dt / 2)))) (rmul (sE (st N) c i) (cis (- (omega * ((INR N - / 2) * dt)))))))  /\
      snd out c i = rmul (mu_at mu c i / dt) (csub (mkC (sH (st O) c i) 0) (rmul (sH (st N) c i) (cis (- (omega * (INR N * dt)))))).
Proof.
  intros sh we wh dt omega eps mu J s N HL He Hh Hdt Heps Hmu st E H Jw out c i Hc Hi.
  set (z := cis (omega * dt / 2)).
  assert (Zv : cmul z (cis (- (omega * dt / 2))) = c1) by (unfold z; rewrite <- cis_add, Rplus_opp_r; apply cis_0).
  assert (Hz : z <> c0). { intro X. rewrite X in Zv. apply (f_equal cre) in Zv. cbn in Zv. lra. }
  assert (Zi : fdiv (f := CC) f1 z = cis (- (omega * dt / 2))).
  { change (cdiv c1 z = cis (- (omega * dt / 2))). set (w := cis (- _)) in *. rewrite <- Zv. apply (mul_div_l CC z w Hz). }
  assert (Ho : fmul (fmul (im (c := CC)) (mkC (2 * sin (omega * dt / 2) / dt) 0)) (mkC dt 0) = fsub (f := CC) z (fdiv (f := CC) f1 z)).
  { rewrite Zi. unfold z, cis. rewrite cos_neg, sin_neg. apply cpx_ext; cbn; field; exact Hdt. }
  assert (Ne : nzm (K := CC) sh (cf eps)) by (intros a k Ha Hk X; apply (f_equal cre) in X; exact (Heps a k Ha Hk X)).
  assert (Nm : nzm_opt (K := CC) sh (option_map cf mu)).
  { destruct mu as [m|]; [|exact Logic.I]. intros a k Ha Hk X; apply (f_equal cre) in X; exact (Hmu a k Ha Hk X). }
  set (jj := fun n c i => - (dt * J n c i)) in *.
  pose proof (zsum CC sh (mkC dt 0) (mkC (2 * sin (omega * dt / 2) / dt) 0) z (cw we, cw wh) (cf eps) (option_map cf mu) (fun n => cf (jj n)) (cst s)) as Q.
  specialize (Q Hz Ne Nm Ho N c i Hc Hi). cbv zeta in Q. rewrite Zi in Q.
  set (stC := fun n => run (K := CC) sh (mkC dt 0) (Some (cw we, cw wh)) (cf eps) (option_map cf mu) (map (fun n => cf (jj n)) (seq 0 n)) (cst s)).
  assert (ER : forall n, seq_st (K := CC) sh (stC n) (cst (st n))) by (intro n; exact (emb_run sh we wh dt eps mu HL He Hh Heps Hmu jj s n)).
  assert (P0 : forall n, zpow (K := CC) (cis (- (omega * dt / 2))) (2 * n) = cis (- (omega * (INR n * dt)))).
  { intro n. rewrite zpow_cis. f_equal. rewrite mult_INR. cbn [INR]. field. }
  assert (P1 : forall n, zpow (K := CC) (cis (- (omega * dt / 2))) (2 * n + 1) = cis (- (omega * ((INR n + / 2) * dt)))).
  { intro n. rewrite zpow_cis. f_equal. rewrite plus_INR, mult_INR. cbn [INR]. field. }
  assert (RM : forall (x : R) (k : cpx), fmul (f := CC) k (mkC x 0) = rmul x k) by (intros x k; unfold rmul; apply cpx_ext; cbn; ring).
  assert (FE : feq (K := CC) sh (fun c i => sumN (K := CC) N (fun n => fmul (f := CC) (zpow (K := CC) (cis (- (omega * dt / 2))) (2 * n)) (sE (stC n) c i))) E).
  { intros a k Ha Hk. apply (sumN_ext CC). intros n _. rewrite P0, (proj1 (ER n) a k Ha Hk). apply RM. }
  assert (FH : feq (K := CC) sh (fun c i => sumN (K := CC) N (fun n => fmul (f := CC) (zpow (K := CC) (cis (- (omega * dt / 2))) (2 * n + 1)) (sH (stC (S n)) c i))) H).
  { intros a k Ha Hk. apply (sumN_ext CC). intros n _. rewrite P1, (proj2 (ER (S n)) a k Ha Hk). apply RM. }
  assert (FJ : sumN (K := CC) N (fun n => fmul (f := CC) (zpow (K := CC) (cis (- (omega * dt / 2))) (2 * n + 1)) (cf (jj n) c i)) = rmul (- dt) (Jw c i)).
  { transitivity (fmul (f := CC) (mkC (- dt) 0) (Jw c i)); [|unfold rmul; apply cpx_ext; cbn; ring]. unfold Jw, fourier. rewrite <- (sumN_mul_l CC). apply (sumN_ext CC). intros n _. rewrite P1. unfold cf, jj, rmul. set (y := J n c i). clearbody y. change R in y. apply cpx_ext; cbn; ring. }
  rewrite FJ in Q. change (run (K := CC) sh (mkC dt 0) (Some (cw we, cw wh)) (cf eps) (option_map cf mu) (map (fun n => cf (jj n)) (seq 0 0)) (cst s)) with (stC 0%nat) in Q.
  change (run (K := CC) sh (mkC dt 0) (Some (cw we, cw wh)) (cf eps) (option_map cf mu) (map (fun n => cf (jj n)) (seq 0 N)) (cst s)) with (stC N) in Q.
  rewrite (amp_form CC), (far_form CC) in Q. unfold out. rewrite (amp_form CC), (far_form CC).
  pose proof (FE c i Hc Hi) as FEi. pose proof (FH c i Hc Hi) as FHi. cbv beta in FEi, FHi.
  destruct Q as [Q1 Q2].
  assert (CB : curl_back (K := CC) sh (Some (cw wh)) (fun c i => sumN (K := CC) N (fun n => fmul (f := CC) (zpow (K := CC) (cis (- (omega * dt / 2))) (2 * n + 1)) (sH (stC (S n)) c i))) c i = curl_back (K := CC) sh (Some (cw wh)) H c i) by (apply (curl_back_ext3 CC); [exact HL|exact Hi|exact FH]).
  assert (CF : curl_forward (K := CC) sh (Some (cw we)) (fun c i => sumN (K := CC) N (fun n => fmul (f := CC) (zpow (K := CC) (cis (- (omega * dt / 2))) (2 * n)) (sE (stC n) c i))) c i = curl_forward (K := CC) sh (Some (cw we)) E c i) by (apply (curl_forward_ext3 CC); [exact HL|exact Hi|exact FE]).
  cbn [fst snd] in Q1, Q2 |- *. fold stC in Q1, Q2.
  rewrite (proj1 (ER 0%nat) c i Hc Hi), (proj1 (ER N) c i Hc Hi), P0 in Q1. rewrite (proj2 (ER 0%nat) c i Hc Hi), (proj2 (ER N) c i Hc Hi), P0 in Q2.
  set (cb := curl_back (K := CC) sh (Some (cw wh)) H c i) in *. set (cfw := curl_forward (K := CC) sh (Some (cw we)) E c i) in *. set (Om := mkC (2 * sin (omega * dt / 2) / dt) 0) in *.
  assert (Q1' : cmul (mkC dt 0) (csub cb (cmul (cmul (cmul ci Om) (mkC (eps c i) 0)) (E c i))) = csub (copp (rmul (- dt) (Jw c i))) (cmul (mkC (eps c i) 0) (cmul z (csub (mkC (sE (st O) c i) 0) (cmul (cis (- (omega * (INR N * dt)))) (mkC (sE (st N) c i) 0)))))).
  { rewrite <- CB, <- FEi. exact Q1. }
  assert (Q2' : cmul (mkC dt 0) (cadd cfw (cmul (cmul (cmul ci Om) (mkC (mu_at mu c i) 0)) (H c i))) = cmul (mkC (mu_at mu c i) 0) (csub (mkC (sH (st O) c i) 0) (cmul (cis (- (omega * (INR N * dt)))) (mkC (sH (st N) c i) 0)))).
  { rewrite <- CF, <- FHi. replace (mkC (mu_at mu c i) 0) with (matl (K := CC) (option_map cf mu) c i) by (unfold mu_at; destruct mu; reflexivity). exact Q2. }
  assert (Cn : forall X Y, cmul (mkC dt 0) X = cmul (mkC dt 0) Y -> X = Y).
  { intros X Y Z. pose proof (f_equal cre Z) as Z1. pose proof (f_equal cim Z) as Z2. cbn in Z1, Z2. apply cpx_ext; apply (Rmult_eq_reg_l dt); try exact Hdt; lra. }
  clear Q1 Q2 CB CF. split.
  - apply Cn. change (fsub (f := CC) cb (fmul (f := CC) (fmul (f := CC) (fmul (f := CC) im Om) (cf eps c i)) (E c i))) with (csub cb (cmul (cmul (cmul ci Om) (mkC (eps c i) 0)) (E c i))). rewrite Q1'.
    replace (cis (- (omega * ((INR N - / 2) * dt)))) with (cmul z (cis (- (omega * (INR N * dt))))) by (unfold z; rewrite <- cis_add; f_equal; field).
    replace (cis (omega * (dt / 2))) with z by (unfold z; f_equal; field).
    clearbody z. set (k := cis _). clearbody k. set (x := sE (st O) c i). set (y := sE (st N) c i). set (e := eps c i). clearbody x y e. change R in x, y, e. set (u := Jw c i). clearbody u. change cpx in u. unfold rmul. apply cpx_ext; cbn; field; exact Hdt.
  - apply Cn. replace (matl (K := CC) (option_map cf mu) c i) with (mkC (mu_at mu c i) 0) by (unfold mu_at; destruct mu; reflexivity).
    change (fadd (f := CC) cfw (fmul (f := CC) (fmul (f := CC) (fmul (f := CC) im Om) (mkC (mu_at mu c i) 0)) (H c i))) with (cadd cfw (cmul (cmul (cmul ci Om) (mkC (mu_at mu c i) 0)) (H c i))). rewrite Q2'.
    set (k := cis _). clearbody k. set (x := sH (st O) c i). set (y := sH (st N) c i). set (e := mu_at mu c i). clearbody x y e. change R in x, y, e. unfold rmul. apply cpx_ext; cbn; field; exact Hdt.
Qed.
Print Assumptions C183_fourier_sums.

(** A run that starts and ends without fields: its Fourier sums are an exact solution. *)
Theorem C183_decayed :
  forall (sh : list nat) (we wh : widths RF) (dt omega : R) (eps : field RF) (mu : option (field RF)) (J : nat -> field RF) (s : state RF) (N : nat),
    length sh = 3%nat -> nzw (K := RF) sh we -> nzw (K := RF) sh wh -> dt <> 0 -> nzm (K := RF) sh eps -> nzm_opt (K := RF) sh mu ->
    let st n := run (K := RF) sh dt (Some (we, wh)) eps mu (map (fun n c i => - (dt * J n c i)) (seq 0 n)) s in
    seq_st (K := RF) sh s (mkst noj noj) -> seq_st (K := RF) sh (st N) (mkst noj noj) ->
    solves sh we wh dt omega eps mu (fourier omega N (fun n => INR n * dt) (fun n => sE (st n)))
      (fourier omega N (fun n => (INR n + / 2) * dt) (fun n => sH (st (S n)))) (fourier omega N (fun n => (INR n + / 2) * dt) J).
Proof.
  intros sh we wh dt omega eps mu J s N HL He Hh Hdt Heps Hmu st [Z0 Z1] [D0 D1].
  unfold st in D0, D1.
  pose proof (C183_fourier_sums sh we wh dt omega eps mu J s N HL He Hh Hdt Heps Hmu) as Q. cbv zeta beta in Q.
  split; intros c i Hc Hi; destruct (Q c i Hc Hi) as [A B]; change (seq 0 0) with (@nil nat) in A, B; cbn [map] in A, B; change (run (K := RF) sh dt (Some (we, wh)) eps mu [] s) with s in A, B.
  - rewrite (D0 c i Hc Hi) in A. rewrite (Z0 c i Hc Hi) in A. refine (eq_trans A _). cbn [sE sH]. unfold noj.
    set (u := fourier _ _ _ _ _ _). clearbody u. change cpx in u. unfold rmul. set (k := cis _). set (l := cis _). clearbody k l. apply cpx_ext; cbn; ring.
  - rewrite (D1 c i Hc Hi) in B. rewrite (Z1 c i Hc Hi) in B. refine (eq_trans B _). cbn [sE sH]. unfold noj.
    unfold rmul. set (k := cis _). clearbody k. apply cpx_ext; cbn; ring.
Qed.
Print Assumptions C183_decayed.

(** A run that repeats after N steps, at a multiple of its fundamental frequency. *)
Theorem C183_periodic :
  forall (sh : list nat) (we wh : widths RF) (dt omega : R) (eps : field RF) (mu : option (field RF)) (J : nat -> field RF) (s : state RF) (N : nat) (m : Z),
    length sh = 3%nat -> nzw (K := RF) sh we -> nzw (K := RF) sh wh -> dt <> 0 -> nzm (K := RF) sh eps -> nzm_opt (K := RF) sh mu ->
    let st n := run (K := RF) sh dt (Some (we, wh)) eps mu (map (fun n c i => - (dt * J n c i)) (seq 0 n)) s in
    seq_st (K := RF) sh (st N) s -> omega * (INR N * dt) = 2 * PI * IZR m ->
    solves sh we wh dt omega eps mu (fourier omega N (fun n => INR n * dt) (fun n => sE (st n)))
      (fourier omega N (fun n => (INR n + / 2) * dt) (fun n => sH (st (S n)))) (fourier omega N (fun n => (INR n + / 2) * dt) J).
Proof.
  intros sh we wh dt omega eps mu J s N m HL He Hh Hdt Heps Hmu st [D0 D1] Hw.
  unfold st in D0, D1.
  pose proof (C183_fourier_sums sh we wh dt omega eps mu J s N HL He Hh Hdt Heps Hmu) as Q. cbv zeta beta in Q.
  assert (C1 : cis (- (omega * (INR N * dt))) = c1) by (rewrite cis_opp, Hw, cis_Z; apply cpx_ext; cbn; ring).
  assert (C2 : cis (- (omega * ((INR N - / 2) * dt))) = cis (omega * (dt / 2))).
  { replace (- (omega * ((INR N - / 2) * dt))) with (- (omega * (INR N * dt)) + omega * (dt / 2)) by field. rewrite cis_add, C1. apply cpx_ext; cbn; ring. }
  split; intros c i Hc Hi; destruct (Q c i Hc Hi) as [A B]; change (seq 0 0) with (@nil nat) in A, B; cbn [map] in A, B; change (run (K := RF) sh dt (Some (we, wh)) eps mu [] s) with s in A, B.
  - rewrite (D0 c i Hc Hi), C2 in A. refine (eq_trans A _).
    set (u := fourier _ _ _ _ _ _). clearbody u. change cpx in u. unfold rmul. set (k := cis _). clearbody k. apply cpx_ext; cbn; ring.
  - rewrite (D1 c i Hc Hi), C1 in B. refine (eq_trans B _). unfold noj, rmul. apply cpx_ext; cbn; ring.
Qed.
Print Assumptions C183_periodic.

(** Two pulses of a uniform current: the run is over after three steps with no field left. *)
Definition px_sh : list nat := [2; 1; 1]%nat.
Definition px_one : field RF := fun _ _ => 1.
Definition px_w : widths RF := fun _ _ => 1.
Definition px_J : nat -> field RF := fun n c _ => match n, c with O, O => -1 | 2%nat, O => 1 | _, _ => 0 end.
Example C183_example : forall omega : R,
  let st n := run (K := RF) px_sh 1 (Some (px_w, px_w)) px_one None (map (fun n c i => - (1 * px_J n c i)) (seq 0 n)) (mkst noj noj) in
  seq_st (K := RF) px_sh (st 3%nat) (mkst noj noj) /\
  fourier omega 3 (fun n => INR n * 1) (fun n => sE (st n)) 0%nat [0; 0; 0]%nat = cadd (cis (- omega)) (cis (- (2 * omega))).
Proof.
  intros omega st.
  assert (V : forall n u, (forall c i, sH (st n) c i = 0) -> (forall c i, sE (st n) c i = u c) ->
    (forall c i, sH (st (S n)) c i = 0) /\ (forall c i, sE (st (S n)) c i = u c + - (1 * px_J n c i))).
  { intros n u ZH U. assert (T : st (S n) = step (K := RF) px_sh 1 (Some (px_w, px_w)) px_one None (fun c i => - (1 * px_J n c i)) (st n)) by (unfold st; rewrite seq_S, map_app; unfold run; rewrite fold_left_app; reflexivity).
    rewrite T.
    assert (CF : forall c i, curl_forward (K := RF) px_sh (Some px_w) (sE (st n)) c i = 0).
    { intros c i. unfold curl_forward, curl_with, deriv_forward, roll. destruct c as [|[|[|c]]]; rewrite ?U; unfold px_w; cbn; field. }
    assert (ZH' : forall c i, maxwell_h (K := RF) px_sh 1 (Some (px_w, px_w)) (sE (st n)) (sH (st n)) None c i = 0).
    { intros c i. unfold maxwell_h. cbn [option_map fst]. rewrite CF, ZH. cbn. ring. }
    split; [exact ZH'|]. intros c i. cbn [step sE]. set (h := maxwell_h _ _ _ _ _ _) in *. clearbody h. unfold maxwell_e. cbn [option_map snd].
    assert (CB : curl_back (K := RF) px_sh (Some px_w) h c i = 0).
    { unfold curl_back, curl_with, deriv_back, roll. destruct c as [|[|[|c]]]; rewrite ?ZH'; unfold px_w; cbn; field. }
    rewrite CB, U. unfold px_one. set (y := px_J n c i). clearbody y. change R in y. cbn. field. }
  destruct (V 0%nat (fun _ => 0) ltac:(reflexivity) ltac:(reflexivity)) as [H1 E1].
  set (u1 := fun c => match c with O => 1 | _ => 0 end).
  destruct (V 1%nat u1 H1) as [H2 E2]. { intros c i. refine (eq_trans (E1 c i) _). unfold u1, px_J. destruct c; match goal with |- ?a = ?b => change (@eq R a b) end; cbn; ring. }
  destruct (V 2%nat u1 H2) as [H3 E3]. { intros c i. refine (eq_trans (E2 c i) _). unfold u1, px_J. destruct c; match goal with |- ?a = ?b => change (@eq R a b) end; cbn; ring. }
  split.
  - split; intros c i Hc Hi; cbn [sE sH]; unfold noj; [rewrite E3; unfold u1, px_J; destruct c; match goal with |- ?a = ?b => change (@eq R a b) end; cbn; ring|apply H3].
  - unfold fourier. cbn [sumN]. change (@fadd CC) with cadd. rewrite E1, E2. change (sE (st O) 0%nat [0; 0; 0]%nat) with 0. unfold u1, px_J, rmul.
    replace (- (omega * (INR 1 * 1))) with (- omega) by (cbn; ring). replace (- (omega * (INR 2 * 1))) with (- (2 * omega)) by (cbn; ring).
    set (k0 := cis (- (omega * _))). set (k1 := cis (- omega)). set (k2 := cis _). clearbody k0 k1 k2. apply cpx_ext; cbn; ring.
Qed.
