(** Gaussian beams: the sampled expression is the complex-beam-parameter form, which
    solves the paraxial equation. *)
From Coq Require Import Reals Lra List Arith ZArith Bool Psatz Lia.
From Verif.Lib Require Import Num Sums Idx RealF Cexp.
From Verif.Model Require Import Ndarray Beam.
From Verif.Spec Require Import SensSpec BeamSpec.
From Verif.Proofs Require Import SensRealP EmeP.
Import ListNotations.
Local Open Scope R_scope.

Lemma cd_exp f t df : cderiv f t df -> cderiv (fun s => cexp (f s)) t (cmul df (cexp (f t))).
Proof.
  intros [A B].
  pose proof (derivable_pt_lim_comp _ _ _ _ _ A (derivable_pt_lim_exp (cre (f t)))) as E.
  pose proof (derivable_pt_lim_comp _ _ _ _ _ B (derivable_pt_lim_cos (cim (f t)))) as C.
  pose proof (derivable_pt_lim_comp _ _ _ _ _ B (derivable_pt_lim_sin (cim (f t)))) as S.
  split; unfold cexp, cmul; cbn [cre cim].
  - eapply dl_eq; [exact (derivable_pt_lim_mult _ _ _ _ _ E C)|]. unfold comp. ring.
  - eapply dl_eq; [exact (derivable_pt_lim_mult _ _ _ _ _ E S)|]. unfold comp. ring.
Qed.
Lemma cd_eq f t d d' : cderiv f t d -> d = d' -> cderiv f t d'.
Proof. now intros H <-. Qed.

Section Envelope.
  Variables w0 wl : R.
  Hypothesis Hw : 0 < w0.
  Hypothesis Hl : 0 < wl.
  Let zr := PI * w0 * w0 / wl.
  Lemma zr_pos : 0 < zr.
  Proof. unfold zr. pose proof PI_RGT_0. apply Rdiv_lt_0_compat; [|exact Hl]. apply Rmult_lt_0_compat; [apply Rmult_lt_0_compat; assumption|exact Hw]. Qed.

  (** the complex beam parameter, 1 + i z / zr *)
  Definition bq (z : R) : cpx := mkC 1 (z / zr).
  Lemma bq_nz z : bq z <> c0.
  Proof. intro E. apply (f_equal cre) in E. cbn in E. lra. Qed.
  Lemma bq_deriv z : cderiv bq z (mkC 0 (/ zr)).
  Proof.
    split; cbn [cre cim bq]; [apply derivable_pt_lim_const|].
    eapply dl_ext; [|eapply dl_eq; [exact (derivable_pt_lim_scal _ (/ zr) _ _ (derivable_pt_lim_id z))|ring]].
    intro s. unfold mult_real_fct, id, Rdiv. ring.
  Qed.
  Definition env (x y z : R) : cpx :=
    cmul (cinv (bq z)) (cexp (cmul (mkC (- (x * x + y * y) / (w0 * w0)) 0) (cinv (bq z)))).

  Lemma env_waist x y : env x y 0 = mkC (exp (- (x * x + y * y) / (w0 * w0))) 0.
  Proof.
    unfold env. replace (cinv (bq 0)) with c1.
    - replace (cmul (mkC (- (x * x + y * y) / (w0 * w0)) 0) c1) with (mkC (- (x * x + y * y) / (w0 * w0)) 0) by (apply cpx_ext; cbn; ring).
      unfold cexp. cbn [cre cim]. rewrite cos_0, sin_0. apply cpx_ext; cbn; ring.
    - pose proof zr_pos. apply cpx_ext; unfold cinv, bq, cnrm; cbn [cre cim c1]; field; lra.
  Qed.

  (** exp(a s^2 + b) c as a function of s *)
  Lemma cd_gauss (a b c : cpx) t :
    cderiv (fun s => cmul c (cexp (cadd (cmul (mkC (s * s) 0) a) b))) t
           (cmul (cmul (mkC (2 * t) 0) (cmul a c)) (cexp (cadd (cmul (mkC (t * t) 0) a) b))).
  Proof.
    assert (S : cderiv (fun s => mkC (s * s) 0) t (mkC (2 * t) 0)).
    { split; cbn [cre cim]; [|apply derivable_pt_lim_const].
      eapply dl_eq; [exact (derivable_pt_lim_mult _ _ _ _ _ (derivable_pt_lim_id t) (derivable_pt_lim_id t))|unfold id; ring]. }
    eapply cd_eq.
    - apply cd_mul_l. apply cd_exp. apply cd_add; [|apply cd_const]. apply cd_mul; [exact S|apply cd_const].
    - set (e := cexp _). clearbody e. apply cpx_ext; cbn; ring.
  Qed.
  Lemma cd_gauss2 (a b c : cpx) t :
    cderiv (fun t => cmul (cmul (mkC (2 * t) 0) (cmul a c)) (cexp (cadd (cmul (mkC (t * t) 0) a) b))) t
           (cmul (cmul (cadd (mkC 2 0) (cmul (mkC (4 * (t * t)) 0) a)) (cmul a c)) (cexp (cadd (cmul (mkC (t * t) 0) a) b))).
  Proof.
    assert (L : cderiv (fun s => mkC (2 * s) 0) t (mkC 2 0)).
    { split; cbn [cre cim]; [|apply derivable_pt_lim_const].
      eapply dl_eq; [exact (derivable_pt_lim_scal _ 2 _ _ (derivable_pt_lim_id t))|ring]. }
    pose proof (cd_gauss a b c1 t) as G.
    eapply cd_eq.
    - apply cd_mul; [apply cd_mul; [exact L|apply cd_const]|].
      eapply cd_eq; [|reflexivity].
      assert (X : cderiv (fun s => cexp (cadd (cmul (mkC (s * s) 0) a) b)) t (cmul (cmul (mkC (2 * t) 0) (cmul a c1)) (cexp (cadd (cmul (mkC (t * t) 0) a) b)))).
      { destruct G as [G1 G2]. split.
        - eapply dl_ext; [|exact G1]. intro s. cbv beta. set (e := cexp _). clearbody e. cbn. ring.
        - eapply dl_ext; [|exact G2]. intro s. cbv beta. set (e := cexp _). clearbody e. cbn. ring. }
      exact X.
    - cbv beta. set (e := cexp _). clearbody e. apply cpx_ext; cbn; ring.
  Qed.

  Lemma cd_ext_all f g t d : (forall s, f s = g s) -> cderiv f t d -> cderiv g t d.
  Proof. intros E [A B]. split; (eapply dl_ext; [|eassumption]); intro s; cbv beta; now rewrite E. Qed.

  Lemma env_paraxial : paraxial (2 * PI / wl) env.
  Proof.
    intros x y z. pose proof zr_pos as Zr. pose proof PI_RGT_0 as Hpi.
    set (iq := cinv (bq z)).
    set (a := cmul (mkC (- (/ (w0 * w0))) 0) iq).
    assert (Nw : w0 * w0 <> 0) by (apply Rgt_not_eq; nra).
    assert (EX : forall s yy, env s yy z = cmul iq (cexp (cadd (cmul (mkC (s * s) 0) a) (cmul (mkC (yy * yy) 0) a)))).
    { intros s yy. unfold env. fold iq. f_equal. f_equal. unfold a. apply cpx_ext; cbn [cre cim cadd cmul]; field; lra. }
    assert (EY : forall xx s, env xx s z = cmul iq (cexp (cadd (cmul (mkC (s * s) 0) a) (cmul (mkC (xx * xx) 0) a)))).
    { intros xx s. rewrite EX. f_equal. f_equal. apply cpx_ext; cbn; ring. }
    pose (E := cexp (cadd (cmul (mkC (x * x) 0) a) (cmul (mkC (y * y) 0) a))).
    exists (fun t => cmul (cmul (mkC (2 * t) 0) (cmul a iq)) (cexp (cadd (cmul (mkC (t * t) 0) a) (cmul (mkC (y * y) 0) a)))).
    exists (fun t => cmul (cmul (mkC (2 * t) 0) (cmul a iq)) (cexp (cadd (cmul (mkC (t * t) 0) a) (cmul (mkC (x * x) 0) a)))).
    eexists; eexists; eexists. split; [|split; [|split; [|split; [|split]]]].
    - intro t. eapply cd_ext_all; [|exact (cd_gauss a _ iq t)]. intro s. cbv beta. now rewrite EX.
    - apply cd_gauss2.
    - intro t. eapply cd_ext_all; [|exact (cd_gauss a _ iq t)]. intro s. cbv beta. now rewrite EY.
    - apply cd_gauss2.
    - unfold env. apply cd_mul; [|apply cd_exp; apply cd_mul_l]; (apply cd_inv; [apply bq_nz|apply bq_deriv]).
    - cbv beta. fold iq. replace (cinv (cmul (bq z) (bq z))) with (cmul iq iq).
      2:{ unfold iq. pose proof (bq_nz z) as Q. set (q := bq z) in *. clearbody q. cfield; exact Q. }
      replace (cexp (cmul (mkC (- (x * x + y * y) / (w0 * w0)) 0) iq)) with E.
      2:{ unfold E. f_equal. unfold a. apply cpx_ext; cbn [cre cim cadd cmul]; field; lra. }
      replace (cexp (cadd (cmul (mkC (y * y) 0) a) (cmul (mkC (x * x) 0) a))) with E.
      2:{ unfold E. f_equal. apply cpx_ext; cbn; ring. }
      fold E. 
      assert (KZ : 2 * (2 * PI / wl) * / zr = 4 * / (w0 * w0)).
      { unfold zr. field. repeat split; lra. }
      replace (mkC (- (x * x + y * y) / (w0 * w0)) 0) with (cmul (mkC (x * x + y * y) 0) (mkC (- / (w0 * w0)) 0)).
      2:{ apply cpx_ext; cbn; unfold Rdiv; ring. }
      assert (KC : cmul (mkC 0 (2 * (2 * PI / wl))) (mkC 0 (/ zr)) = cmul (mkC 4 0) (mkC (- / (w0 * w0)) 0)).
      { apply cpx_ext; cbn; rewrite <- ?KZ; ring [KZ]. }
      unfold a. set (A := mkC (- / (w0 * w0)) 0) in *. set (k := mkC 0 (2 * (2 * PI / wl))) in *. set (r := mkC 0 (/ zr)) in *.
      transitivity (cmul (csub (cmul (mkC 4 0) A) (cmul k r)) (cmul (cmul (cmul iq iq) E) (cadd c1 (cmul (mkC (x * x + y * y) 0) (cmul A iq))))).
      + clearbody A k r iq E. apply cpx_ext; cbn; ring.
      + rewrite KC. apply cpx_ext; cbn; ring.
  Qed.
End Envelope.

Section Sample.
  Variables w0 wl : R.
  Hypothesis Hw : 0 < w0.
  Hypothesis Hl : 0 < wl.

  Lemma gaussian_waist x y : gaussian w0 wl x y 0 = None.
  Proof.
    unfold gaussian. replace (0 * 0) with 0 by ring.
    assert (E : forall a, rdiv a (Some 0) = None) by (intros [a|]; cbn; [destruct (Req_EM_T 0 0); [reflexivity|lra]|reflexivity]).
    rewrite E. cbn [radd rlift2 rmul].
    set (ph := rdiv _ None). replace ph with (@None R).
    - destruct (rdiv (Some (2 * PI)) (Some wl)); cbn; now destruct (option_map _ _).
    - unfold ph, rdiv. now destruct (match rmul _ _ with Some _ => _ | None => _ end).
  Qed.

  Lemma gaussian_val x y z : z <> 0 ->
    gaussian w0 wl x y z = Some (cmul (env w0 wl x y z) (cexp (mkC 0 (2 * PI / wl * z)))).
  Proof.
    intro Hz. pose proof (zr_pos w0 wl Hw Hl) as Zr. pose proof PI_RGT_0 as Hpi. unfold gaussian.
    assert (Rd : forall a b, b <> 0 -> rdiv (Some a) (Some b) = Some (a / b)) by (intros a b Hb; cbn; destruct (Req_EM_T b 0); [contradiction|reflexivity]).
    set (zr := PI * w0 * w0 / wl) in *.
    rewrite (Rd _ wl) by lra. fold zr. cbn [rmul rlift2].
    assert (Nz2 : z * z <> 0) by (intro; nra). assert (Nzr2 : zr * zr <> 0) by (intro; nra).
    rewrite (Rd _ (zr * zr)) by exact Nzr2. cbn [radd rlift2].
    set (wz2 := w0 * w0 * (1 + z * z / (zr * zr))).
    assert (T : 0 <= z * z / (zr * zr)) by (apply Rmult_le_pos; [nra|left; apply Rinv_0_lt_compat; nra]).
    assert (P : 0 < wz2) by (unfold wz2; apply Rmult_lt_0_compat; [nra|lra]).
    cbn [option_map]. pose proof (sqrt_lt_R0 _ P) as Sp.
    rewrite (Rd w0) by lra. rewrite (Rd _ wz2) by lra. rewrite (Rd _ (z * z)) by exact Nz2. cbn [rlift2 radd].
    rewrite (Rd _ wl) by lra. rewrite (Rd z) by lra. cbn [option_map rmul rlift2]. rewrite (Rd _ 2) by lra.
    set (Rz := z * (1 + zr * zr / (z * z))).
    assert (NR : Rz <> 0).
    { unfold Rz. apply Rmult_integral_contrapositive. split; [exact Hz|].
      assert (0 <= zr * zr / (z * z)) by (apply Rmult_le_pos; [nra|left; apply Rinv_0_lt_compat; nra]). lra. }
    fold Rz. rewrite (Rd _ Rz) by exact NR. cbn [rsub radd rmul rlift2 nmul lift2 option_map].
    apply f_equal.
    set (t := z / zr).
    assert (Et : 1 + z * z / (zr * zr) = 1 + t²) by (unfold t, Rsqr; field; lra).
    assert (Q : 0 < 1 + t²) by (pose proof (Rle_0_sqr t); lra).
    assert (Sw : sqrt wz2 = w0 * sqrt (1 + t²)).
    { unfold wz2. rewrite Et. rewrite sqrt_mult by nra. f_equal. apply sqrt_square. lra. }
    pose proof (sqrt_lt_R0 _ Q) as Sq. pose proof (sqrt_sqrt (1 + t²) ltac:(lra)) as SS.
    (* amplitude and Gouy phase *)
    assert (G : cmul (mkC (w0 / sqrt wz2) 0) (cexp (mkC 0 (- atan t))) = cinv (bq w0 wl z)).
    { unfold cexp. cbn [cre cim]. rewrite exp_0, cos_neg, sin_neg, cos_atan, sin_atan, Sw.
      unfold bq. fold zr. fold t. set (s := sqrt (1 + t²)) in *. unfold Rsqr in *.
      apply cpx_ext; unfold cinv, cmul, cnrm; cbn [cre cim].
      - replace (1 * 1 + t * t) with (s * s) by lra. field. lra.
      - replace (1 * 1 + t * t) with (s * s) by lra. field. lra. }
    (* curvature *)
    assert (C : cmul (mkC (- (x * x + y * y) / (w0 * w0)) 0) (cinv (bq w0 wl z)) = mkC (- (x * x + y * y) / wz2) (2 * PI / wl * (x * x + y * y) / 2 / Rz)).
    { unfold bq. fold zr. fold t. unfold wz2, Rz. rewrite Et. unfold Rsqr in *.
      apply cpx_ext; unfold cinv, cmul, cnrm; cbn [cre cim].
      - field. repeat split; try lra.
      - replace (1 + zr * zr / (z * z)) with ((z * z + zr * zr) / (z * z)) by (field; exact Hz).
        assert (X : 0 < z * z + zr * zr) by nra.
        replace (1 * 1 + t * t) with ((z * z + zr * zr) / (zr * zr)) by (unfold t; field; lra).
        replace (2 * PI / wl) with (2 * zr / (w0 * w0)) by (unfold zr; field; lra).
        unfold t. field. repeat split; lra. }
    unfold env. rewrite C, <- G.
    replace (mkC (- (x * x + y * y) / wz2) (2 * PI / wl * (x * x + y * y) / 2 / Rz))
      with (cadd (mkC (- (x * x + y * y) / wz2) 0) (mkC 0 (2 * PI / wl * (x * x + y * y) / 2 / Rz))) by (apply cpx_ext; cbn; ring).
    rewrite cexp_add.
    replace (cexp (mkC (- (x * x + y * y) / wz2) 0)) with (mkC (exp (- (x * x + y * y) / wz2)) 0) by (unfold cexp; cbn [cre cim]; rewrite cos_0, sin_0; apply cpx_ext; cbn; ring).
    set (A := 2 * PI / wl * (x * x + y * y) / 2 / Rz).
    replace (mkC 0 (2 * PI / wl * z + A - atan t)) with (cadd (mkC 0 (2 * PI / wl * z)) (cadd (mkC 0 A) (mkC 0 (- atan t)))) by (apply cpx_ext; cbn; ring).
    rewrite !cexp_add.
    set (e1 := cexp (mkC 0 (2 * PI / wl * z))). set (e2 := cexp (mkC 0 A)). set (e3 := cexp (mkC 0 (- atan t))). set (e4 := exp _). set (e5 := w0 / _).
    clearbody e1 e2 e3 e4 e5. apply cpx_ext; cbn; ring.
  Qed.

  Lemma env_nz x y z : env w0 wl x y z <> c0.
  Proof.
    unfold env. intro E. assert (B := bq_nz w0 wl z). set (q := bq w0 wl z) in *. clearbody q.
    pose proof (cexp_nz (cmul (mkC (- (x * x + y * y) / (w0 * w0)) 0) (cinv q))) as N. set (e := cexp _) in *. clearbody e.
    apply N. transitivity (cmul q (cmul (cinv q) e)).
    - cfield; exact B.
    - rewrite E. apply cpx_ext; cbn; ring.
  Qed.
End Sample.
