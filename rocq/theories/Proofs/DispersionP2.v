(** Growing plane waves in time-domain runs, and real wave vectors. *)
From Coq Require Import Reals Lra Psatz List Arith ZArith Lia Field Bool.
From Verif.Lib Require Import Num Sums Idx Mat RealF Cexp.
From Verif.Model Require Import Fdmath Fdtd Fdfd.
From Verif.Spec Require Import Yee FdtdRun FdfdSpec HarmonicSpec DispersionSpec.
From Verif.Proofs Require Import FdmathP FdtdP2 FdfdP HarmonicP HarmonicP2 GridP DispersionP.
Import ListNotations.
Local Open Scope fld_scope.

Section Grow.
  Variable K : Fld.
  Add Field Kfield : (fth K).
  Variables (sh : list nat) (p w : nat -> K).
  Hypothesis HL : length sh = 3%nat.
  Hypothesis Hp : fits sh p.
  Hypothesis Hw : forall a, (a < 3)%nat -> w a <> 0.
  Variables (dt eps mu lam : K) (e0 : nat -> K).
  Hypothesis He : eps <> 0.
  Hypothesis Hm : mu <> 0.
  Hypothesis Hl : lam - 1 <> 0.
  Hypothesis Hch : (lam - 1) * (lam - 1) * (eps * mu) = dt * dt * lam * dot3 (bwd p w) (fwd p w).
  Hypothesis Htr : dot3 (bwd p w) e0 = 0.

  Definition h0_of : nat -> K := fun c => - (dt / (mu * (lam - 1)) * cross3 (fwd p w) e0 c).
  Definition grown (k : K) : state K := mkst (plane_wave p (fun c => k * e0 c)) (plane_wave p (fun c => k * h0_of c)).

  Lemma grow_step k : seq_st sh (step sh dt (Some (uniw w, uniw w)) (unim eps) (Some (unim mu)) noj (grown k)) (grown (lam * k)).
  Proof.
    assert (QH : feq sh (maxwell_h sh dt (Some (uniw w, uniw w)) (sE (grown k)) (sH (grown k)) (Some (unim mu))) (sH (grown (lam * k)))).
    { intros c idx Hc Hi. unfold maxwell_h. cbn [option_map fst grown sE sH].
      pose proof (curl_next_wave K sh p HL Hp w Hw (fun c => k * e0 c) c idx Hc Hi) as X.
      change (curl_forward sh (Some (uniw w)) (plane_wave p (fun c0 => k * e0 c0)) c idx = plane_wave p (cross3 (fwd p w) (fun c0 => k * e0 c0)) c idx) in X.
      rewrite X. unfold plane_wave, unim, h0_of.
      destruct c as [|[|[|c]]]; [| | |lia]; unfold cross3; field; split; assumption. }
    split; [|exact QH]. intros c idx Hc Hi. unfold step. cbn [sE].
    pose proof (maxwell_e_ext K sh dt (Some (uniw w, uniw w)) (unim eps) _ _ _ _ HL (feq_refl K sh (sE (grown k))) QH c idx Hc Hi) as Y.
    rewrite Y. unfold maxwell_e. cbn [option_map snd grown sE sH].
    pose proof (curl_prev_wave K sh p HL Hp w Hw (fun c => lam * k * h0_of c) c idx Hc Hi) as X.
    change (curl_back sh (Some (uniw w)) (plane_wave p (fun c0 => lam * k * h0_of c0)) c idx = plane_wave p (cross3 (bwd p w) (fun c0 => lam * k * h0_of c0)) c idx) in X.
    rewrite X. unfold plane_wave, unim, noj.
    assert (V : cross3 (bwd p w) (fun c0 => lam * k * h0_of c0) c = k * (lam - 1) * eps / dt * e0 c \/ dt = 0).
    { destruct (feq_dec dt 0) as [D|D]; [now right|left].
      transitivity (- (lam * k * dt / (mu * (lam - 1))) * cross3 (bwd p w) (cross3 (fwd p w) e0) c).
      - unfold h0_of. destruct c as [|[|[|c]]]; [| | |lia]; unfold cross3; field; split; assumption.
      - rewrite bac_cab, Htr by exact Hc.
        transitivity (k * e0 c / (mu * (lam - 1) * dt) * (dt * dt * lam * dot3 (bwd p w) (fwd p w))); [field; repeat split; assumption|].
        rewrite <- Hch. field. repeat split; assumption. }
    destruct V as [V|D].
    - destruct (feq_dec dt 0) as [D|D].
      + exfalso. rewrite D in Hch. assert (Z : (lam - 1) * (lam - 1) * (eps * mu) = 0) by (rewrite Hch; ring).
        revert Z. repeat apply fmul_nz; assumption.
      + rewrite V. field. split; assumption.
    - exfalso. rewrite D in Hch. assert (Z : (lam - 1) * (lam - 1) * (eps * mu) = 0) by (rewrite Hch; ring).
      revert Z. repeat apply fmul_nz; assumption.
  Qed.

  Lemma grow_run N : seq_st sh (run sh dt (Some (uniw w, uniw w)) (unim eps) (Some (unim mu)) (repeat noj N) (grown 1)) (grown (zpow lam N)).
  Proof.
    enough (G : forall k, seq_st sh (run sh dt (Some (uniw w, uniw w)) (unim eps) (Some (unim mu)) (repeat noj N) (grown k)) (grown (zpow lam N * k))).
    { specialize (G 1). eapply seq_st_trans; [exact G|]. split; intros c i Hc Hi; cbn [grown sE sH]; unfold plane_wave; ring. }
    induction N as [|N IH]; intro k.
    - cbn [repeat run fold_left zpow]. split; intros c i Hc Hi; cbn [grown sE sH]; unfold plane_wave; ring.
    - cbn [repeat run fold_left zpow]. eapply seq_st_trans.
      + apply (run_ext K sh dt (Some (uniw w, uniw w)) (unim eps) (Some (unim mu)) (repeat noj N) HL). apply grow_step.
      + eapply seq_st_trans; [apply IH|]. split; intros c i Hc Hi; cbn [grown sE sH]; unfold plane_wave; ring.
  Qed.
End Grow.

Local Open Scope R_scope.
Lemma cexp_i t : cexp (mkC 0 t) = mkC (cos t) (sin t).
Proof. unfold cexp. cbn [cre cim]. rewrite exp_0. apply cpx_ext; cbn; ring. Qed.
Lemma cinv_i t : cdiv c1 (mkC (cos t) (sin t)) = mkC (cos t) (- sin t).
Proof.
  pose proof (sin2_cos2 t) as S. unfold Rsqr in S. unfold cdiv, cinv, cmul, cnrm. cbn [cre cim c1].
  replace (cos t * cos t + sin t * sin t) with 1 by lra. apply cpx_ext; cbn [cre cim]; field.
Qed.
Lemma cdiv_real x r : r <> 0 -> cdiv x (mkC r 0) = mkC (cre x / r) (cim x / r).
Proof. intro H. unfold cdiv, cinv, cmul, cnrm. cbn [cre cim]. apply cpx_ext; cbn [cre cim]; field; exact H. Qed.
Lemma half_sin t : 2 - 2 * cos t = 4 * (sin (t / 2) * sin (t / 2)).
Proof. replace t with (2 * (t / 2)) at 1 by field. rewrite cos_2a_sin. ring. Qed.

Lemma axis_k k w a : w a <> 0 ->
  cmul (bwd (K := CC) (phases k w) (cv w) a) (fwd (K := CC) (phases k w) (cv w) a)
  = mkC (- (2 * sin (k a * w a / 2) / w a * (2 * sin (k a * w a / 2) / w a))) 0.
Proof.
  intro H. unfold bwd, fwd, phases, cv. rewrite cexp_i. cbn. change (fdiv (f := CC)) with cdiv.
  rewrite cinv_i, !cdiv_real by exact H. cbn [cre cim csub cadd copp c1]. set (t := k a * w a).
  pose proof (half_sin t) as S. pose proof (sin2_cos2 t) as S2. unfold Rsqr in S2.
  unfold cmul, csub, cadd, copp. cbn [cre cim c1]. apply cpx_ext; cbn [cre cim].
  - apply (Rmult_eq_reg_r (w a * w a)); [|nra]. field_simplify; [|exact H|exact H].
    replace (t / 2) with (t / 2) by reflexivity. nra.
  - field. exact H.
Qed.

  (** A transverse amplitude with a positive entry. *)
  Lemma transverse_amplitude (b : nat -> CC) : exists (e0 : nat -> CC) (c : nat), (c < 3)%nat /\ 0 < cre (e0 c) /\ dot3 (K := CC) b e0 = c0.
  Proof.
    destruct (cpx_dec (b 0%nat) c0) as [E|E].
    - exists (fun c => match c with 0%nat => c1 | _ => c0 end), 0%nat. split; [lia|]. split; [cbn; lra|].
      unfold dot3. rewrite E. apply cpx_ext; cbn; ring.
    - exists (fun c => match c with 0%nat => copp (cmul (cconj (b 0%nat)) (b 1%nat)) | 1%nat => cmul (cconj (b 0%nat)) (b 0%nat) | _ => c0 end), 1%nat.
      split; [lia|]. split.
      + destruct (b 0%nat) as [x y]. cbn. assert (x <> 0 \/ y <> 0) by (destruct (Req_dec x 0); destruct (Req_dec y 0); subst; auto; exfalso; now apply E). nra.
      + unfold dot3. destruct (b 0%nat), (b 1%nat), (b 2%nat). apply cpx_ext; cbn; ring.
  Qed.

Section Real.
  Variables (sh : list nat) (k w : nat -> R).
  Hypothesis HL : length sh = 3%nat.
  Hypothesis Hw : forall a, (a < 3)%nat -> w a <> 0.
  Hypothesis Hk : commensurate sh k w.

  Lemma phases_fit : fits (K := CC) sh (phases k w).
  Proof using Hk.
    intros a Ha. split; [apply cexp_nz|]. unfold phases. rewrite zpow_cexp. destruct (Hk a Ha) as [m Hm].
    replace (INR (dim sh a) * (k a * w a)) with (2 * PI * IZR m) by (rewrite <- Hm; ring).
    rewrite cexp_i.
    assert (X : forall n : nat, cos (2 * PI * INR n) = 1 /\ sin (2 * PI * INR n) = 0).
    { intro n. pose proof (cos_period 0 n) as A. pose proof (sin_period 0 n) as B. rewrite cos_0 in A. rewrite sin_0 in B.
      split; [rewrite <- A|rewrite <- B]; f_equal; ring. }
    destruct m as [|q|q].
    - rewrite Rmult_0_r, cos_0, sin_0. reflexivity.
    - destruct (X (Pos.to_nat q)) as [A B]. rewrite INR_IZR_INZ, positive_nat_Z in A, B. now rewrite A, B.
    - destruct (X (Pos.to_nat q)) as [A B]. rewrite INR_IZR_INZ, positive_nat_Z in A, B.
      replace (2 * PI * IZR (Z.neg q)) with (- (2 * PI * IZR (Z.pos q))) by (change (Z.neg q) with (- Z.pos q)%Z; rewrite opp_IZR; ring).
      rewrite cos_neg, sin_neg, A, B, Ropp_0. reflexivity.
  Qed.
  Lemma cv_nz a : (a < 3)%nat -> cv w a <> (f0 (f := CC)).
  Proof using Hw. intros Ha X. apply (f_equal cre) in X. exact (Hw a Ha X). Qed.

  Lemma dot_k : dot3 (K := CC) (bwd (K := CC) (phases k w) (cv w)) (fwd (K := CC) (phases k w) (cv w)) = mkC (- grid_k2 k w) 0.
  Proof using Hw.
    unfold dot3. change (@fmul CC) with cmul. change (@fadd CC) with cadd.
    rewrite !axis_k by (apply Hw; repeat constructor). unfold cadd. cbn [cre cim]. unfold grid_k2, grid_k. apply cpx_ext; cbn [cre cim]; ring.
  Qed.

End Real.

(** The growth factor. *)
Lemma growth_root c : 4 < c -> exists g, 1 < g /\ (- g - 1) * (- g - 1) = c * g.
Proof.
  intro Hc. assert (D : 0 < c * c - 4 * c) by nra. pose proof (sqrt_lt_R0 _ D) as S. pose proof (sqrt_sqrt _ (Rlt_le _ _ D)) as Q.
  set (s := sqrt (c * c - 4 * c)) in *. exists ((c - 2 + s) / 2). split; [lra|].
  replace ((- ((c - 2 + s) / 2) - 1) * (- ((c - 2 + s) / 2) - 1)) with ((c * c + 2 * c * s + s * s) / 4) by field.
  rewrite Q. field.
Qed.
Lemma zpow_real (x : R) n : zpow (K := CC) (mkC x 0) n = mkC (zpow (K := RF) x n) 0.
Proof. induction n as [|n IH]; [reflexivity|]. cbn [zpow]. rewrite IH. apply cpx_ext; cbn; ring. Qed.

Section Unstable.
  Variables (sh : list nat) (k w : nat -> R) (dt eps mu : R).
  Hypothesis HL : length sh = 3%nat.
  Hypothesis Hd : forall a, (a < 3)%nat -> (0 < dim sh a)%nat.
  Hypothesis Hw : forall a, (a < 3)%nat -> w a <> 0.
  Hypothesis Hk : commensurate sh k w.
  Hypothesis He : 0 < eps.
  Hypothesis Hm : 0 < mu.
  Hypothesis Hc : 4 * (eps * mu) < dt * dt * grid_k2 k w.

  Lemma unstable : exists (g : R) (E H : field RF), 1 < g /\
    (exists c idx, (c < 3)%nat /\ inb sh idx /\ E c idx <> 0) /\
    forall N, seq_st (K := RF) sh (run (K := RF) sh dt (Some (uniw (K := RF) w, uniw (K := RF) w)) (unim (K := RF) eps) (Some (unim (K := RF) mu)) (repeat noj N) (mkst E H))
      (mkst (fun c i => zpow (K := RF) (- g) N * E c i) (fun c i => zpow (K := RF) (- g) N * H c i)).
  Proof.
    destruct (growth_root (dt * dt * grid_k2 k w / (eps * mu))) as (g & Hg & Qg).
    { apply (Rmult_lt_reg_r (eps * mu)); [nra|]. unfold Rdiv. rewrite (Rmult_assoc (dt * dt * _)), Rinv_l by nra. lra. }
    set (b := bwd (K := CC) (phases k w) (cv w)).
    destruct (transverse_amplitude b) as (e0 & c & Hc' & P0 & T0).
    set (lam := (mkC (- g) 0) : CC).
    set (S := fun x => grown CC (phases k w) (cv w) (mkC dt 0) (mkC mu 0) lam e0 x).
    assert (Hl : fsub (f := CC) lam f1 <> f0) by (intro X; apply (f_equal cre) in X; cbn in X; lra).
    assert (Ne : mkC eps 0 <> (f0 (f := CC))) by (intro X; apply (f_equal cre) in X; cbn in X; lra).
    assert (Nm : mkC mu 0 <> (f0 (f := CC))) by (intro X; apply (f_equal cre) in X; cbn in X; lra).
    assert (Hch : fmul (f := CC) (fmul (f := CC) (fsub (f := CC) lam f1) (fsub (f := CC) lam f1)) (fmul (f := CC) (mkC eps 0) (mkC mu 0))
             = fmul (f := CC) (fmul (f := CC) (fmul (f := CC) (mkC dt 0) (mkC dt 0)) lam) (dot3 (K := CC) b (fwd (K := CC) (phases k w) (cv w)))).
    { unfold b. rewrite (dot_k k w Hw). apply cpx_ext; cbn.
      - transitivity ((- g - 1) * (- g - 1) * (eps * mu)); [ring|]. rewrite Qg. field. nra.
      - ring. }
    exists g, (re (sE (S c1))), (re (sH (S c1))). split; [exact Hg|].
    assert (I0 : inb sh (0 :: 0 :: 0 :: nil)%nat).
    { clear - HL Hd. destruct sh as [|a [|b [|c [|]]]]; try discriminate. pose proof (Hd 0%nat ltac:(lia)). pose proof (Hd 1%nat ltac:(lia)). pose proof (Hd 2%nat ltac:(lia)).
      repeat constructor; assumption. }
    split.
    - exists c, (0 :: 0 :: 0 :: nil)%nat. split; [exact Hc'|]. split; [exact I0|].
      unfold re, S, grown. cbn [sE]. unfold plane_wave. rewrite (ripple_origin CC).
      cbn. lra.
    - intro N. pose proof (grow_run CC sh (phases k w) (cv w) HL (phases_fit sh k w Hk) (cv_nz w Hw) (mkC dt 0) (mkC eps 0) (mkC mu 0) lam e0 Ne Nm Hl Hch T0 N) as G.
      assert (R : seq_st (K := RF) sh (run (K := RF) sh dt (Some (uniw (K := RF) w, uniw (K := RF) w)) (unim (K := RF) eps) (Some (unim (K := RF) mu)) (repeat noj N) (re_st (S c1)))
                    (re_st (run (K := CC) sh (mkC dt 0) (Some (uniw (K := CC) (cv w), uniw (K := CC) (cv w))) (unim (K := CC) (mkC eps 0)) (Some (unim (K := CC) (mkC mu 0))) (repeat noj N) (S c1)))).
      { generalize (S c1). clear G. induction N as [|N IH]; intro s; [split; intros ? ? ? ?; reflexivity|].
        cbn [repeat run fold_left]. eapply seq_st_trans; [|apply IH].
        apply (run_ext RF sh dt _ _ _ (repeat noj N) HL).
        pose proof (re_step sh (uniw (K := RF) w) (uniw (K := RF) w) dt (unim (K := RF) eps) (Some (unim (K := RF) mu)) HL) as X.
        refine (X _ _ _ _ (noj (K := CC)) s).
        - intros a i. intros. unfold uniw. apply Hw. lia.
        - intros a i. intros. unfold uniw. apply Hw. lia.
        - intros c' i _ _. apply Rgt_not_eq. exact He.
        - intros c' i _ _. apply Rgt_not_eq. exact Hm. }
      eapply seq_st_trans; [exact R|]. destruct G as [GE GH].
      split; intros c' i Hc2 Hi; cbn [sE sH re_st]; unfold re.
      + refine (eq_trans (f_equal cre (GE c' i Hc2 Hi)) _). unfold S, lam. cbn [grown sE]. rewrite zpow_real. unfold plane_wave. cbn. ring.
      + refine (eq_trans (f_equal cre (GH c' i Hc2 Hi)) _). unfold S, lam. cbn [grown sH]. rewrite zpow_real. unfold plane_wave. cbn. ring.
  Qed.
End Unstable.
