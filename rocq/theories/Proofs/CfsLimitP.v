(** The CPML stretch for a vanishing time step. *)
From Coq Require Import Reals Lia Lra Field.
From Verif.Lib Require Import Num RealF Cexp.
From Verif.Model Require Import FdtdReal.
From Verif.Proofs Require Import CpmlRealP.
Local Open Scope R_scope.

Definition pos (x : R) : Prop := 0 < x.

Lemma quot_limit f l : derivable_pt_lim f 0 l -> f 0 = 0 -> limit1_in (fun h => f h / h) pos l 0.
Proof.
  intros D F0 e He. destruct (D e He) as [d Hd]. exists d. split; [apply cond_pos|].
  intros h [Hp Hh]. unfold pos in Hp. unfold dist, R_met, R_dist in *. cbn in *. unfold R_dist in *. rewrite Rminus_0_r in Hh.
  specialize (Hd h). rewrite Rplus_0_l, F0, Rminus_0_r in Hd. apply Hd; [lra|exact Hh].
Qed.

Lemma lim_const (c : R) : limit1_in (fun _ => c) pos c 0.
Proof. apply (lim_x (fun _ => c)) || (intros e He; exists 1; split; [lra|]; intros x _; unfold dist; cbn; unfold R_dist; rewrite Rminus_diag_eq by reflexivity; rewrite Rabs_R0; exact He). Qed.

Lemma dl_eq f l l' : derivable_pt_lim f 0 l' -> l = l' -> derivable_pt_lim f 0 l.
Proof. now intros H ->. Qed.
Lemma d_lin c : derivable_pt_lim (fun x => c * x) 0 c.
Proof.
  apply (dl_eq _ c (c * 1)); [|ring]. apply (derivable_pt_lim_scal id). apply derivable_pt_lim_id.
Qed.
Lemma d_exp c : derivable_pt_lim (fun x => exp (c * x)) 0 c.
Proof.
  apply (dl_eq _ _ (exp (c * 0) * c)); [|rewrite Rmult_0_r, exp_0 ; ring].
  apply (derivable_pt_lim_comp (fun x => c * x) exp); [apply d_lin|apply derivable_pt_lim_exp].
Qed.
Lemma d_cos c : derivable_pt_lim (fun x => cos (c * x)) 0 0.
Proof.
  apply (dl_eq _ _ (- sin (c * 0) * c)); [|rewrite Rmult_0_r, sin_0; ring].
  apply (derivable_pt_lim_comp (fun x => c * x) cos); [apply d_lin|apply derivable_pt_lim_cos].
Qed.
Lemma d_sin c : derivable_pt_lim (fun x => sin (c * x)) 0 c.
Proof.
  apply (dl_eq _ _ (cos (c * 0) * c)); [|rewrite Rmult_0_r, cos_0 ; ring].
  apply (derivable_pt_lim_comp (fun x => c * x) sin); [apply d_lin|apply derivable_pt_lim_sin].
Qed.

Section L.
  Variables (lam om r : R).
  Definition fA (x : R) : R := 1 - exp (- lam * x) * cos (om * x).
  Definition fB (x : R) : R := exp (- lam * x) * sin (om * x).
  Definition fP (x : R) : R := r * (exp (- lam * x) - 1).

  Lemma limA : limit1_in (fun h => fA h / h) pos lam 0.
  Proof.
    apply quot_limit; [|unfold fA; rewrite !Rmult_0_r, exp_0, cos_0; ring].
    unfold fA. apply (dl_eq _ _ (0 - (- lam * cos (om * 0) + exp (- lam * 0) * 0))); [|rewrite !Rmult_0_r, cos_0; ring].
    apply (derivable_pt_lim_minus (fun _ => 1) (fun x => exp (- lam * x) * cos (om * x))); [apply derivable_pt_lim_const|].
    apply (derivable_pt_lim_mult (fun x => exp (- lam * x)) (fun x => cos (om * x))); [apply d_exp|apply d_cos].
  Qed.
  Lemma limB : limit1_in (fun h => fB h / h) pos om 0.
  Proof.
    apply quot_limit; [|unfold fB; rewrite !Rmult_0_r, sin_0; ring].
    unfold fB. apply (dl_eq _ _ (- lam * sin (om * 0) + exp (- lam * 0) * om)); [|rewrite !Rmult_0_r, sin_0, exp_0; ring].
    apply (derivable_pt_lim_mult (fun x => exp (- lam * x)) (fun x => sin (om * x))); [apply d_exp|apply d_sin].
  Qed.
  Lemma limP : limit1_in (fun h => fP h / h) pos (- (r * lam)) 0.
  Proof.
    apply quot_limit; [|unfold fP; rewrite !Rmult_0_r, exp_0; ring].
    unfold fP. apply (dl_eq _ _ (r * (- lam - 0))); [|ring].
    apply (derivable_pt_lim_scal (fun x => exp (- lam * x) - 1)).
    apply (derivable_pt_lim_minus (fun x => exp (- lam * x)) (fun _ => 1)); [apply d_exp|apply derivable_pt_lim_const].
  Qed.

  Variable al : R.
  Hypothesis Hal : lam - r * lam = al.
  Hypothesis Hom : 0 < om.
  Definition nre (x : R) : R := fA x / x * (fA x / x + fP x / x) + fB x / x * (fB x / x).
  Definition nim (x : R) : R := fB x / x * (fP x / x).
  Definition nd (x : R) : R := (fA x / x + fP x / x) * (fA x / x + fP x / x) + fB x / x * (fB x / x).

  Lemma limAP : limit1_in (fun x => fA x / x + fP x / x) pos al 0.
  Proof. rewrite <- Hal. replace (lam - r * lam) with (lam + - (r * lam)) by ring. apply limit_plus; [exact limA|exact limP]. Qed.
  Lemma lim_nd : limit1_in nd pos (al * al + om * om) 0.
  Proof. unfold nd. apply limit_plus; apply limit_mul; (exact limAP || exact limB). Qed.
  Lemma ndz : al * al + om * om <> 0.
  Proof. assert (0 < om * om) by (now apply Rmult_lt_0_compat). assert (0 <= al * al) by apply Rle_0_sqr. lra. Qed.
  Lemma lim_re k : limit1_in (fun x => k * (nre x * / nd x)) pos (k * ((lam * al + om * om) * / (al * al + om * om))) 0.
  Proof.
    apply (limit_mul (fun _ => k)); [apply lim_const|]. apply limit_mul; [|apply limit_inv; [exact lim_nd|exact ndz]].
    unfold nre. apply limit_plus; apply limit_mul; (exact limA || exact limAP || exact limB).
  Qed.
  Lemma lim_im k : limit1_in (fun x => k * (nim x * / nd x)) pos (k * (om * - (r * lam) * / (al * al + om * om))) 0.
  Proof.
    apply (limit_mul (fun _ => k)); [apply lim_const|]. apply limit_mul; [|apply limit_inv; [exact lim_nd|exact ndz]].
    unfold nim. apply limit_mul; (exact limP || exact limB).
  Qed.
End L.

From Verif.Spec Require Import CpmlHarmonicSpec.
Section Point.
  Variables (sg kp al om : R).
  Hypothesis Hs : 0 < sg.
  Hypothesis Hk : 1 <= kp.
  Hypothesis Ha : 0 <= al.
  Hypothesis Hom : 0 < om.
  Let lam := sg / kp + al.
  Let r := sg / (sg + kp * al).
  Definition tgt : cpx := cadd (mkC kp 0) (cdiv (mkC sg 0) (mkC al om)).

  Lemma ka_nn : 0 <= kp * al.
  Proof. apply Rmult_le_pos; lra. Qed.
  Lemma lam_pos : 0 < lam.
  Proof. unfold lam. assert (0 < sg / kp) by (apply Rmult_lt_0_compat; [exact Hs|apply Rinv_0_lt_compat; lra]). lra. Qed.
  Lemma r_rng : 0 < r <= 1.
  Proof.
    pose proof ka_nn. unfold r. split.
    - apply Rmult_lt_0_compat; [exact Hs|apply Rinv_0_lt_compat; lra].
    - apply (Rmult_le_reg_r (sg + kp * al)); [lra|]. unfold Rdiv. rewrite Rmult_assoc, Rinv_l by lra. lra.
  Qed.
  Lemma rl : r * lam = sg / kp.
  Proof. pose proof ka_nn. unfold r, lam. field. split; lra. Qed.
  Lemma lam_al : lam - r * lam = al.
  Proof. rewrite rl. unfold lam. ring. Qed.

  Lemma str_quot x : 0 < x -> x * om < PI ->
    str (exp (- lam * x)) (r * (exp (- lam * x) - 1)) (1 / kp) (om * x)
    = mkC (kp * (nre lam om r x * / nd lam om r x)) (kp * (nim lam om r x * / nd lam om r x)).
  Proof.
    intros Hx Hp. set (q0 := exp (- lam * x)).
    assert (Q0 : 0 < q0) by apply exp_pos.
    assert (Ht : 0 < om * x < PI) by (split; [now apply Rmult_lt_0_compat|lra]).
    pose proof (den_pos q0 (r * (q0 - 1)) (om * x)) as D.
    assert (D' : 0 < den q0 (r * (q0 - 1)) (om * x)).
    { apply D; [|exact Ht]. split; [exact Q0|]. unfold q0. rewrite <- exp_0. apply exp_increasing. pose proof lam_pos.
      assert (0 < lam * x) by now apply Rmult_lt_0_compat. lra. }
    clear D. unfold str.
    assert (N : nd lam om r x = den q0 (r * (q0 - 1)) (om * x) / (x * x)).
    { unfold nd, den, fA, fB, fP. fold q0. field. lra. }
    rewrite N. unfold nre, nim, fA, fB, fP. fold q0.
    assert (C : sin (om * x) * sin (om * x) = 1 - cos (om * x) * cos (om * x)).
    { pose proof (sin2_cos2 (om * x)) as X. unfold Rsqr in X. lra. }
    set (d := den q0 _ _) in *. set (c := cos (om * x)) in *. set (s := sin (om * x)) in *.
    f_equal.
    - transitivity (kp * (((1 - q0 * c) * ((1 - q0 * c) + r * (q0 - 1)) + q0 * q0 * (s * s)) / d)).
      + rewrite C. field. repeat split; lra.
      + field. repeat split; lra.
    - field. repeat split; lra.
  Qed.

  Lemma coef_rng x : 0 < x -> let q0 := exp (- lam * x) in let q1 := r * (q0 - 1) in (0 < q0 < 1) /\ (-1 <= q1 < 0) /\ q0 - q1 <= 1.
  Proof.
    intros Hx q0 q1. assert (Q0 : 0 < q0 < 1).
    { split; [apply exp_pos|]. unfold q0. rewrite <- exp_0. apply exp_increasing. pose proof lam_pos.
      assert (0 < lam * x) by now apply Rmult_lt_0_compat. lra. }
    destruct r_rng as [R1 R2]. split; [exact Q0|].
    assert (A : 0 < r * (1 - q0)) by (apply Rmult_lt_0_compat; lra).
    assert (B : r * (1 - q0) <= 1 * (1 - q0)) by (apply Rmult_le_compat_r; lra).
    unfold q1. split; [split|]; lra.
  Qed.

  Lemma inv_gain q0 q1 q2 th : 0 < q0 < 1 -> -1 <= q1 < 0 -> q0 - q1 <= 1 -> 0 < q2 -> 0 < th < PI ->
    cdiv c1 (one_gain q0 q1 q2 th) = str q0 q1 q2 th.
  Proof.
    intros A B C D E. unfold one_gain.
    replace c1 with (mkC 1 0) at 1 by reflexivity. rewrite div_g by assumption.
    apply cpx_ext; unfold cmul; cbn [cre cim]; ring.
  Qed.

  Lemma tgt_val : tgt = mkC (kp * ((lam * al + om * om) * / (al * al + om * om))) (kp * (om * - (r * lam) * / (al * al + om * om))).
  Proof.
    pose proof (ndz om al Hom) as N. rewrite rl. unfold tgt, lam, cadd, cdiv, cmul, cinv, cnrm. cbn [cre cim].
    apply cpx_ext; cbn [cre cim]; field; repeat split; lra.
  Qed.

  Lemma cfs_point eta : 0 < eta -> exists d, 0 < d /\ forall x, 0 < x < d ->
    near eta (cdiv c1 (one_gain (exp (- lam * x)) (r * (exp (- lam * x) - 1)) (1 / kp) (om * x))) tgt.
  Proof.
    intro He. destruct (lim_re lam om r al lam_al Hom kp eta He) as [d1 [P1 L1]].
    destruct (lim_im lam om r al lam_al Hom kp eta He) as [d2 [P2 L2]].
    assert (PO : 0 < PI / om) by (apply Rmult_lt_0_compat; [apply PI_RGT_0|now apply Rinv_0_lt_compat]).
    exists (Rmin (Rmin d1 d2) (PI / om)). split; [repeat apply Rmin_pos; assumption|].
    intros x [Hx Hd]. assert (D1 : x < d1 /\ x < d2 /\ x < PI / om).
    { repeat split; eapply Rlt_le_trans; try exact Hd.
      - eapply Rle_trans; [apply Rmin_l|apply Rmin_l].
      - eapply Rle_trans; [apply Rmin_l|apply Rmin_r].
      - apply Rmin_r. }
    destruct D1 as [D1 [D2 D3]].
    assert (Hp : x * om < PI). { apply (Rmult_lt_compat_r om) in D3; [|exact Hom]. replace (PI / om * om) with PI in D3 by (field; lra). exact D3. }
    destruct (coef_rng x Hx) as [A [B C]].
    rewrite inv_gain; try assumption; [|apply Rmult_lt_0_compat; [lra|apply Rinv_0_lt_compat; lra]|split; [now apply Rmult_lt_0_compat|lra]].
    rewrite str_quot, tgt_val by assumption. unfold near. cbn [cre cim].
    specialize (L1 x). specialize (L2 x). unfold dist in L1, L2. cbn in L1, L2. unfold R_dist in L1, L2. rewrite Rminus_0_r in L1, L2.
    rewrite Rabs_right in L1, L2 by lra. unfold pos in L1, L2. split; [apply L1|apply L2]; split; assumption.
  Qed.
End Point.

Lemma finite_delta (P : nat -> R -> Prop) n : (forall i, (i < n)%nat -> exists d, 0 < d /\ forall x, 0 < x < d -> P i x) ->
  exists d, 0 < d /\ forall x, 0 < x < d -> forall i, (i < n)%nat -> P i x.
Proof.
  induction n as [|n IH]; intro H.
  - exists 1. split; [lra|]. intros x _ i Hi. lia.
  - destruct IH as [d1 [P1 H1]]; [intros i Hi; apply H; lia|]. destruct (H n) as [d2 [P2 H2]]; [lia|].
    exists (Rmin d1 d2). split; [now apply Rmin_pos|]. intros x [Hx Hd] i Hi.
    pose proof (Rmin_l d1 d2). pose proof (Rmin_r d1 d2).
    destruct (Nat.eq_dec i n) as [->|N]; [apply H2; lra|apply H1; [lra|lia]].
Qed.
