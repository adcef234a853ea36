(** Driven FDTD runs: the energy grows at most with the injected currents. *)
From Coq Require Import List Arith ZArith Lia Field Bool Reals Lra Psatz.
From Verif.Lib Require Import Num Sums Idx Mat RealF.
From Verif.Model Require Import Fdmath Fdtd.
From Verif.Spec Require Import Yee FdtdRun.
From Verif.Proofs Require Import FdmathP FdmathP2 FdtdP FdtdP2 CflP.
Import ListNotations.
Local Open Scope R_scope.

(** Sums over components and cells, as real-valued linear positive functionals. *)
Section F.
  Variable sh : list nat.
  Notation F := (fsum (K := RF) sh).
  Lemma fsum_ext_r (f g : nat -> list nat -> R) : (forall c i, (c < 3)%nat -> inb sh i -> f c i = g c i) -> F f = F g.
  Proof.
    intro H. unfold fsum. rewrite (@gsum_ext RF sh _ (g 0%nat)) by (intros; apply H; [lia|assumption]).
    rewrite (@gsum_ext RF sh (f 1%nat) (g 1%nat)) by (intros; apply H; [lia|assumption]).
    rewrite (@gsum_ext RF sh (f 2%nat) (g 2%nat)) by (intros; apply H; [lia|assumption]). reflexivity.
  Qed.
  Lemma fsum_add_r (f g : nat -> list nat -> R) : F (fun c i => f c i + g c i) = F f + F g.
  Proof.
    unfold fsum. pose proof (@gsum_add RF sh (f 0%nat) (g 0%nat)) as A. pose proof (@gsum_add RF sh (f 1%nat) (g 1%nat)) as B.
    pose proof (@gsum_add RF sh (f 2%nat) (g 2%nat)) as C. cbn [fadd RF] in *. lra.
  Qed.
  Lemma fsum_mul_r k (f : nat -> list nat -> R) : F (fun c i => k * f c i) = k * F f.
  Proof.
    unfold fsum. pose proof (@gsum_mul_l RF sh k (f 0%nat)) as A. pose proof (@gsum_mul_l RF sh k (f 1%nat)) as B.
    pose proof (@gsum_mul_l RF sh k (f 2%nat)) as C. cbn [fadd fmul RF] in *. lra.
  Qed.
  Lemma fsum_nonneg_r (f : nat -> list nat -> R) : (forall c i, (c < 3)%nat -> inb sh i -> 0 <= f c i) -> 0 <= F f.
  Proof.
    intro H. unfold fsum. cbn [fadd RF].
    pose proof (gsum_nonneg sh (f 0%nat) ltac:(intros; apply H; [lia|assumption])).
    pose proof (gsum_nonneg sh (f 1%nat) ltac:(intros; apply H; [lia|assumption])).
    pose proof (gsum_nonneg sh (f 2%nat) ltac:(intros; apply H; [lia|assumption])). lra.
  Qed.
End F.

Lemma quad_cs (A B C : R) : (forall t, 0 <= A - 2 * t * B + t * t * C) -> 0 <= C -> B * B <= A * C.
Proof.
  intros H HC. destruct (Req_dec C 0) as [->|N].
  - pose proof (H 0) as H0. destruct (Req_dec B 0) as [->|NB]; [lra|]. pose proof (H ((A + 1) / (2 * B))) as H1.
    replace (A - 2 * ((A + 1) / (2 * B)) * B + (A + 1) / (2 * B) * ((A + 1) / (2 * B)) * 0) with (-1) in H1 by (field; lra). lra.
  - pose proof (H (B / C)) as H1. replace (A - 2 * (B / C) * B + B / C * (B / C) * C) with ((A * C - B * B) / C) in H1 by (field; lra).
    apply (Rmult_le_compat_r C) in H1; [|lra]. replace ((A * C - B * B) / C * C) with (A * C - B * B) in H1 by (field; lra). lra.
Qed.

Section D.
  Variable sh : list nat.
  Variables we wh : widths RF.
  Variable eps : field RF.
  Hypothesis Hv : forall c i, inb sh i -> 0 < vol_e we wh c i.
  Hypothesis He : forall c i, (c < 3)%nat -> inb sh i -> 0 < eps c i.

  (** Squared strength of a current. *)
  Definition jj (j : field RF) : R := fsum (K := RF) sh (fun c i => vol_e we wh c i * (j c i * j c i / eps c i)).
  Definition je (j e : field RF) : R := fsum (K := RF) sh (fun c i => vol_e we wh c i * (j c i * e c i)).
  Notation ee e := (nrmE sh we wh eps e).

  Lemma jj_pos j : 0 <= jj j.
  Proof.
    apply fsum_nonneg_r. intros c i Hc Hi. pose proof (Hv c i Hi). pose proof (He c i Hc Hi).
    apply Rmult_le_pos; [lra|]. apply Rmult_le_pos; [apply Rle_0_sqr|]. left. now apply Rinv_0_lt_compat.
  Qed.
  Lemma ee_pos e : 0 <= ee e.
  Proof.
    apply fsum_nonneg_r. intros c i Hc Hi. pose proof (Hv c i Hi). pose proof (He c i Hc Hi).
    apply Rmult_le_pos; [lra|]. apply Rmult_le_pos; [lra|apply Rle_0_sqr].
  Qed.
  Lemma je_cs j e : je j e * je j e <= jj j * ee e.
  Proof.
    apply quad_cs; [|apply ee_pos]. intro t.
    replace (jj j - 2 * t * je j e + t * t * ee e)
      with (fsum (K := RF) sh (fun c i => vol_e we wh c i * ((j c i - t * (eps c i * e c i)) * (j c i - t * (eps c i * e c i)) / eps c i))).
    - apply fsum_nonneg_r. intros c i Hc Hi. pose proof (Hv c i Hi). pose proof (He c i Hc Hi).
      apply Rmult_le_pos; [lra|]. apply Rmult_le_pos; [apply Rle_0_sqr|]. left. now apply Rinv_0_lt_compat.
    - unfold jj, je, nrmE. replace (2 * t) with (- (- (2 * t))) by ring.
      transitivity (fsum (K := RF) sh (fun c i => vol_e we wh c i * (j c i * j c i / eps c i) + ((- (2 * t)) * (vol_e we wh c i * (j c i * e c i)) + t * t * (vol_e we wh c i * (eps c i * (e c i * e c i)))))).
      + apply fsum_ext_r. intros c i Hc Hi. pose proof (He c i Hc Hi). cbn [fmul RF]. match goal with |- ?a = ?b => change (a = b :> R) end. field. lra.
      + rewrite fsum_add_r, fsum_add_r, !fsum_mul_r. match goal with |- ?a = ?b => change (a = b :> R) end. ring.
  Qed.
  Lemma je_abs j e : Rabs (je j e) <= sqrt (jj j) * sqrt (ee e).
  Proof.
    rewrite <- sqrt_mult by (apply jj_pos || apply ee_pos). rewrite <- sqrt_Rsqr_abs. apply sqrt_le_1.
    - apply Rle_0_sqr.
    - apply Rmult_le_pos; [apply jj_pos|apply ee_pos].
    - apply je_cs.
  Qed.
End D.

Section R.
  Variable sh : list nat.
  Variables we wh : widths RF.
  Variables d0 d1 d2 : R.
  Hypothesis HL : length sh = 3%nat.
  Hypothesis Hd0 : 0 < d0.
  Hypothesis Hd1 : 0 < d1.
  Hypothesis Hd2 : 0 < d2.
  Hypothesis Hw : forall a i, (a < 3)%nat -> (i < dim sh a)%nat -> dmin d0 d1 d2 a <= we a i /\ dmin d0 d1 d2 a <= wh a i.
  Variable dt : R.
  Variable eps : field RF.
  Variable mu : option (field RF).
  Variables eps0 mu0 : R.
  Hypothesis Heps0 : 0 < eps0.
  Hypothesis Hmu0 : 0 < mu0.
  Hypothesis Heps : forall c idx, (c < 3)%nat -> inb sh idx -> eps0 <= eps c idx.
  Hypothesis Hmu : forall c idx, (c < 3)%nat -> inb sh idx -> mu0 <= matl mu c idx.
  Let d : dxes_t RF := Some (we, wh).
  Notation q0 := (q d0 d1 d2 dt eps0 mu0).
  Hypothesis Hq : q0 < 1.
  Notation U s := (yee_E RF sh dt d eps mu s).

  Let Hv : forall c i, inb sh i -> 0 < vol_e we wh c i := vol_e_pos sh we wh d0 d1 d2 HL Hd0 Hd1 Hd2 Hw.
  Let He : forall c i, (c < 3)%nat -> inb sh i -> 0 < eps c i.
  Proof. intros c i Hc Hi. pose proof (Heps c i Hc Hi). lra. Qed.

  Lemma ee_U s : nrmE sh we wh eps (sE s) <= U s / (1 - q0) /\ 0 <= U s.
  Proof.
    destruct (stable_state sh we wh d0 d1 d2 HL Hd0 Hd1 Hd2 Hw dt eps mu eps0 mu0 Heps0 Hmu0 Heps Hmu Hq s) as [A _]. fold d in A.
    split; [exact A|]. pose proof (ee_pos sh we wh eps Hv He (sE s)) as P.
    apply Rmult_le_reg_r with (/ (1 - q0)); [apply Rinv_0_lt_compat; lra|]. rewrite Rmult_0_l. eapply Rle_trans; [exact P|exact A].
  Qed.

  Lemma work_je j e : gsum (K := RF) sh (yee_work j e d) = je sh we wh j e.
  Proof.
    unfold je, fsum, yee_work, csum. cbn [vol_e_d d].
    rewrite (@gsum_add RF sh (fun i => fadd (fmul (fmul (j 0%nat i) (e 0%nat i)) (vol_e we wh 0 i)) (fmul (fmul (j 1%nat i) (e 1%nat i)) (vol_e we wh 1 i)))).
    rewrite (@gsum_add RF sh (fun i => fmul (fmul (j 0%nat i) (e 0%nat i)) (vol_e we wh 0 i))).
    assert (S : forall c, gsum (K := RF) sh (fun i => fmul (fmul (j c i) (e c i)) (vol_e we wh c i)) = gsum (K := RF) sh (fun i => vol_e we wh c i * (j c i * e c i))).
    { intro c. apply (@gsum_ext RF). intros i _. apply Rmult_comm. }
    rewrite !S. reflexivity.
  Qed.

  Lemma driven_step j s : sqrt (U (step sh dt d eps mu j s)) <= sqrt (U s) + sqrt (jj sh we wh eps j) / sqrt (1 - q0).
  Proof.
    set (s' := step sh dt d eps mu j s).
    assert (Nd : nzd sh d) by exact (Coq.Init.Logic.conj (nzw_e sh we wh d0 d1 d2 HL Hd0 Hd1 Hd2 Hw) (nzw_h sh we wh d0 d1 d2 HL Hd0 Hd1 Hd2 Hw)).
    assert (Ne : nzm sh eps) by exact (eps_nz sh eps eps0 Heps0 Heps).
    assert (Nm : nzm_opt sh mu) by exact (mu_nz sh mu mu0 Hmu0 Hmu).
    pose proof (yee_E_run RF sh dt d eps mu [j] HL Nd Ne Nm s) as E. cbn [run fold_left work] in E. fold s' in E. rewrite !work_je in E.
    destruct (ee_U s) as [A A0]. destruct (ee_U s') as [B B0].
    pose proof (je_abs sh we wh eps Hv He j (sE s)) as C1. pose proof (je_abs sh we wh eps Hv He j (sE s')) as C2.
    assert (Q : 0 < sqrt (1 - q0)) by (apply sqrt_lt_R0; lra).
    assert (L1 : sqrt (nrmE sh we wh eps (sE s)) <= sqrt (U s) / sqrt (1 - q0)).
    { rewrite <- sqrt_div by lra. apply sqrt_le_1_alt. exact A. }
    assert (L2 : sqrt (nrmE sh we wh eps (sE s')) <= sqrt (U s') / sqrt (1 - q0)).
    { rewrite <- sqrt_div by lra. apply sqrt_le_1_alt. exact B. }
    set (x := sqrt (U s)) in *. set (y := sqrt (U s')) in *. set (J := sqrt (jj sh we wh eps j)) in *.
    assert (X0 : 0 <= x) by apply sqrt_pos. assert (Y0 : 0 <= y) by apply sqrt_pos. assert (J0 : 0 <= J) by apply sqrt_pos.
    assert (Ex : U s = x * x) by (unfold x; now rewrite sqrt_sqrt). assert (Ey : U s' = y * y) by (unfold y; now rewrite sqrt_sqrt).
    assert (K1 : je sh we wh j (sE s) <= J / sqrt (1 - q0) * x).
    { pose proof (Rle_abs (je sh we wh j (sE s))). apply Rle_trans with (J * (x / sqrt (1 - q0))).
      - eapply Rle_trans; [eassumption|]. eapply Rle_trans; [exact C1|]. now apply Rmult_le_compat_l.
      - right. field. lra. }
    assert (K2 : je sh we wh j (sE s') <= J / sqrt (1 - q0) * y).
    { pose proof (Rle_abs (je sh we wh j (sE s'))). apply Rle_trans with (J * (y / sqrt (1 - q0))).
      - eapply Rle_trans; [eassumption|]. eapply Rle_trans; [exact C2|]. now apply Rmult_le_compat_l.
      - right. field. lra. }
    set (k := J / sqrt (1 - q0)) in *. assert (k0 : 0 <= k) by (apply Rmult_le_pos; [exact J0|]; left; now apply Rinv_0_lt_compat).
    cbn [fadd f0 RF] in E. rewrite Ex, Ey in E. clearbody x y k.
    destruct (Rle_dec y (x + k)) as [|N]; [assumption|]. exfalso.
    assert (0 < y - x - k) by lra. assert (0 < x + y) by lra. assert (0 < (y - x - k) * (x + y)) by now apply Rmult_lt_0_compat. nra.
  Qed.

  Lemma driven_run js : forall s, sqrt (U (run sh dt d eps mu js s)) <= sqrt (U s) + fold_right (fun j a => sqrt (jj sh we wh eps j) + a) 0 js / sqrt (1 - q0).
  Proof.
    induction js as [|j js IH]; intro s; [cbn; unfold Rdiv; lra|].
    cbn [run fold_left fold_right]. fold (run sh dt d eps mu js (step sh dt d eps mu j s)).
    eapply Rle_trans; [apply IH|]. pose proof (driven_step j s). unfold Rdiv in *. rewrite Rmult_plus_distr_r. lra.
  Qed.
End R.
