(** Time-harmonic fields and the two sets of curl equations. *)
From Coq Require Import List Arith ZArith Lia Field Bool.
From Verif.Lib Require Import Num Sums Idx Mat.
From Verif.Model Require Import Fdmath Fdtd Fdfd.
From Verif.Spec Require Import Yee FdtdRun FdfdSpec HarmonicSpec.
From Verif.Proofs Require Import FdmathP FdmathP2 FdtdP2 FdfdP.
From Verif.Proofs Require Import GridP.
Import ListNotations.
Local Open Scope nat_scope.

Section P.
  Variable K : CFld.
  Add Field Kfield : (fth K).
  Local Open Scope fld_scope.
  Implicit Types E H J F G : field K.

  Lemma curl_forward_scale sh dx (a : K) F c idx :
    curl_forward sh dx (fun c' i => a * F c' i) c idx = a * curl_forward sh dx F c idx.
  Proof.
    unfold curl_forward, curl_with, deriv_forward, roll.
    destruct dx; destruct c as [|[|[|c]]]; try ring; rewrite !(Fdiv_def (fth K)); ring.
  Qed.
  Lemma curl_back_scale sh dx (a : K) F c idx :
    curl_back sh dx (fun c' i => a * F c' i) c idx = a * curl_back sh dx F c idx.
  Proof.
    unfold curl_back, curl_with, deriv_back, roll.
    destruct dx; destruct c as [|[|[|c]]]; try ring; rewrite !(Fdiv_def (fth K)); ring.
  Qed.

  Lemma zpow_nz (z : K) n : z <> 0 -> zpow z n <> 0.
  Proof.
    intro Hz. induction n as [|n IH]; cbn [zpow].
    - apply (F_1_neq_0 (fth K)).
    - now apply fmul_nz.
  Qed.
  Lemma zpow_SS (z : K) n : zpow z (2 * S n) = z * z * zpow z (2 * n).
  Proof. replace (2 * S n)%nat with (S (S (2 * n))) by lia. cbn [zpow]. ring. Qed.

  Section Eqs.
    Variables (sh : list nat) (dt om z : K) (d : dx2 K) (eps : field K) (mu : option (field K)) (E H J : field K).
    Hypothesis HL : length sh = 3%nat.
    Hypothesis Hz : z <> 0.
    Hypothesis Heps : nzm sh eps.
    Hypothesis Hmu : nzm_opt sh mu.
    Hypothesis Hom : im * om * dt = z - 1 / z.

    Lemma far_form c idx : snd (eh_full_f sh om d eps mu E H) c idx
      = curl_forward sh (Some (fst d)) E c idx + im * om * matl mu c idx * H c idx.
    Proof. clear Hmu. unfold eh_full_f, matl. destruct mu; cbn [snd]; ring. Qed.
    Lemma amp_form c idx : fst (eh_full_f sh om d eps mu E H) c idx
      = curl_back sh (Some (snd d)) H c idx - im * om * eps c idx * E c idx.
    Proof. clear Hmu. unfold eh_full_f. destruct mu; reflexivity. Qed.
    Lemma matl_nz c idx : (c < 3)%nat -> inb sh idx -> matl mu c idx <> 0.
    Proof. intros Hc Hi. unfold matl. destruct mu as [m|]; [now apply Hmu|apply (F_1_neq_0 (fth K))]. Qed.
    Lemma maxwell_h_matl e h c idx : maxwell_h sh dt (Some d) e h mu c idx
      = h c idx - dt * curl_forward sh (Some (fst d)) e c idx / matl mu c idx.
    Proof. clear Hmu. unfold maxwell_h, matl. cbn [option_map]. destruct mu; [reflexivity|]. field. apply (F_1_neq_0 (fth K)). Qed.

    Lemma h_step n : feq sh (snd (eh_full_f sh om d eps mu E H)) noj ->
      feq sh (sH (step sh dt (Some d) eps mu (injected dt z J n) (harmonic z E H n))) (sH (harmonic z E H (S n))).
    Proof.
      intros S c idx Hc Hi. cbn [step sH sE harmonic]. rewrite maxwell_h_matl, curl_forward_scale, zpow_SS.
      specialize (S c idx Hc Hi). rewrite far_form in S. unfold noj in S.
      pose proof (matl_nz c idx Hc Hi) as M.
      assert (X : curl_forward sh (Some (fst d)) E c idx = - (im * om * matl mu c idx * H c idx))
        by (transitivity (0 - im * om * matl mu c idx * H c idx); [rewrite <- S|]; ring).
      rewrite X. transitivity (zpow z (2 * n) * H c idx * (1 / z + im * om * dt)); [field; now split|].
      rewrite Hom. field. exact Hz.
    Qed.
    Lemma e_step n : feq sh (snd (eh_full_f sh om d eps mu E H)) noj -> feq sh (fst (eh_full_f sh om d eps mu E H)) J ->
      feq sh (sE (step sh dt (Some d) eps mu (injected dt z J n) (harmonic z E H n))) (sE (harmonic z E H (S n))).
    Proof.
      intros S A c idx Hc Hi. pose proof (h_step n S) as Q. cbn [step sH sE harmonic] in *.
      assert (X : feq sh (maxwell_h sh dt (Some d) (fun c i => zpow z (2 * n) * E c i) (fun c i => zpow z (2 * n) / z * H c i) mu)
                         (fun c i => zpow z (2 * n) * z * H c i)).
      { intros c' i' Hc' Hi'. rewrite (Q c' i' Hc' Hi'), zpow_SS. field. exact Hz. }
      pose proof (maxwell_e_ext K sh dt (Some d) eps _ _ _ _ HL (feq_refl K sh (fun c i => zpow z (2 * n) * E c i)) X c idx Hc Hi) as Y.
      rewrite Y. clear Y. unfold maxwell_e, injected. cbn [option_map]. rewrite curl_back_scale, zpow_SS.
      specialize (A c idx Hc Hi). rewrite amp_form in A. rewrite <- A. pose proof (Heps c idx Hc Hi) as N.
      transitivity (zpow z (2 * n) * E c idx * (1 + z * (im * om * dt))); [field; exact N|].
      rewrite Hom. field. exact Hz.
    Qed.
    Lemma harm_step n : feq sh (fst (eh_full_f sh om d eps mu E H)) J -> feq sh (snd (eh_full_f sh om d eps mu E H)) noj ->
      seq_st sh (step sh dt (Some d) eps mu (injected dt z J n) (harmonic z E H n)) (harmonic z E H (S n)).
    Proof. intros A S. split; [now apply e_step|now apply h_step]. Qed.

    Lemma harm_run N : feq sh (fst (eh_full_f sh om d eps mu E H)) J -> feq sh (snd (eh_full_f sh om d eps mu E H)) noj ->
      seq_st sh (run sh dt (Some d) eps mu (map (injected dt z J) (seq 0 N)) (harmonic z E H 0)) (harmonic z E H N).
    Proof.
      intros A S. induction N as [|N IH]; [split; apply feq_refl|].
      rewrite seq_S, map_app. unfold run. rewrite fold_left_app. cbn [map fold_left Nat.add].
      eapply seq_st_trans; [apply step_ext; [exact HL|exact IH]|]. now apply harm_step.
    Qed.

    (** One step is enough to get the equations back. *)
    Lemma run_harm : dt <> 0 -> seq_st sh (step sh dt (Some d) eps mu (injected dt z J 0) (harmonic z E H 0)) (harmonic z E H 1) ->
      feq sh (fst (eh_full_f sh om d eps mu E H)) J /\ feq sh (snd (eh_full_f sh om d eps mu E H)) noj.
    Proof.
      intros Hdt [QE QH]. 
      assert (S : feq sh (snd (eh_full_f sh om d eps mu E H)) noj).
      { intros c idx Hc Hi. specialize (QH c idx Hc Hi). cbn [step sH sE harmonic] in QH.
        rewrite maxwell_h_matl, curl_forward_scale, zpow_SS in QH. cbn [Nat.mul Nat.add zpow] in QH. rewrite far_form. unfold noj.
        pose proof (matl_nz c idx Hc Hi) as M. set (C := curl_forward _ _ _ _ _) in *. set (m := matl mu c idx) in *.
        assert (X : C = m / dt * (1 / z - z) * H c idx).
        { transitivity (m / dt * (1 / z * H c idx - (1 / z * H c idx - dt * (1 * C) / m))); [field; repeat split; assumption|].
          rewrite QH. field. repeat split; assumption. }
        rewrite X. transitivity (m / dt * H c idx * (1 / z - z + im * om * dt)); [field; repeat split; assumption|].
        rewrite Hom. field. repeat split; assumption. }
      split; [|exact S]. intros c idx Hc Hi.
      pose proof (h_step 0 S) as Q. specialize (QE c idx Hc Hi). cbn [step sH sE harmonic] in *.
      assert (X : feq sh (maxwell_h sh dt (Some d) (fun c i => zpow z (2 * 0) * E c i) (fun c i => zpow z (2 * 0) / z * H c i) mu)
                         (fun c i => z * H c i)).
      { intros c' i' Hc' Hi'. rewrite (Q c' i' Hc' Hi'), zpow_SS. cbn [Nat.mul Nat.add zpow]. field. exact Hz. }
      pose proof (maxwell_e_ext K sh dt (Some d) eps _ _ _ _ HL (feq_refl K sh (fun c i => zpow z (2 * 0) * E c i)) X c idx Hc Hi) as Y.
      rewrite Y in QE. clear Y. unfold maxwell_e, injected in QE. cbn [option_map] in QE. rewrite curl_back_scale, zpow_SS in QE.
      cbn [Nat.mul Nat.add zpow] in QE. rewrite amp_form. pose proof (Heps c idx Hc Hi) as N.
      set (C := curl_back _ _ _ _ _) in *. set (x := E c idx) in *. set (e := eps c idx) in *. set (j := J c idx) in *.
      assert (Z : dt * z * (C - j) = e * (z * z - 1) * x).
      { transitivity (e * ((1 * x + dt * (z * C) / e + - (dt * (1 * z * j)) / e) - x)); [field; exact N|]. rewrite QE. ring. }
      assert (T : C - j = im * om * e * x).
      { transitivity (dt * z * (C - j) / (dt * z)); [field; split; assumption|]. rewrite Z.
        transitivity (e * x * (z - 1 / z) / dt); [field; split; assumption|]. rewrite <- Hom. field. exact Hdt. }
      transitivity (C - (C - j)); [rewrite T; ring|ring].
    Qed.
  End Eqs.
End P.

Section Q.
  Variable K : CFld.
  Add Field Kfield2 : (fth K).
  Local Open Scope fld_scope.
  Lemma mul_div_l (z w : K) : z <> 0 -> z * w / z = w.
  Proof. intro H. field. exact H. Qed.
  Lemma div_as_mul (x z : K) : x / z = x * (1 / z).
  Proof. rewrite !(Fdiv_def (fth K)). ring. Qed.
End Q.

Section Q2.
  Variable K : Fld.
  Add Field Kfield3 : (fth K).
  Local Open Scope fld_scope.
  Lemma seq_st_sym sh (s t : state K) : seq_st sh s t -> seq_st sh t s.
  Proof. intros [A B]. split; now apply feq_sym. Qed.
  Lemma step_ext_j sh dt d eps mu (j j' : field K) s : feq sh j j' ->
    seq_st sh (step sh dt d eps mu j s) (step sh dt d eps mu j' s).
  Proof. intro H. split; intros c i Hc Hi; cbn [step sE sH]; [now rewrite (H c i Hc Hi)|reflexivity]. Qed.
End Q2.

Section W.
  Variable K : CFld.
  Add Field Kfield4 : (fth K).
  Local Open Scope fld_scope.
  Lemma e_full_solution sh (om : K) (d : dx2 K) (eps : field K) (mu : option (field K)) (E J : field K) :
    length sh = 3%nat -> om <> 0 -> nzm_opt sh mu ->
    feq sh (unvec sh (mv (3 * prodl sh) (e_full_mat sh om d (vec sh eps) (option_map (vec sh) mu) None None) (vec sh E)))
           (fun c idx => - im * om * J c idx) ->
    feq sh (fst (eh_full_f sh om d eps mu E (e2h_f sh om d mu E))) J /\
    feq sh (snd (eh_full_f sh om d eps mu E (e2h_f sh om d mu E))) noj.
  Proof.
    intros HL Hom Hm Q.
    assert (I0 : im <> (0 : K)) by (intro X; pose proof (im_sq K) as Y; rewrite X in Y; apply (F_1_neq_0 (fth K)); transitivity (- - (1 : K)); [ring|]; rewrite <- Y; ring).
    assert (I1 : - im <> (0 : K)) by (intro X; apply I0; transitivity (- - im : K); [ring|]; rewrite X; ring).
    assert (N : - im * om <> (0 : K)).
    { intro X. apply (fmul_nz K im om I0 Hom). transitivity (- (- im * om)); [ring|]. rewrite X. ring. }
    assert (HM : forall c idx, (c < 3)%nat -> inb sh idx -> matl mu c idx <> 0).
    { intros c i Hc Hi. unfold matl. destruct mu as [m|]; [now apply Hm|apply (F_1_neq_0 (fth K))]. }
    assert (E2 : forall c idx, (c < 3)%nat -> inb sh idx -> e2h_f sh om d mu E c idx = 1 / (- im * om) * (inv_at mu c idx * curl_forward sh (Some (fst d)) E c idx)).
    { intros c i Hc Hi. pose proof (HM c i Hc Hi) as M. unfold e2h_f, inv_at. unfold matl in M. destruct mu as [m|]; field; repeat split; assumption. }
    split; intros c idx Hc Hi.
    - rewrite amp_form. specialize (Q c idx Hc Hi). unfold unvec in Q.
      rewrite e_full_wave in Q by (try assumption; now apply ravel_lt). rewrite unravel_ravel in Q by exact Hi.
      unfold wave_e in Q. to_model.
      rewrite (curl_back_ext3 K sh _ _ (fun c' i' => 1 / (- im * om) * (inv_at mu c' i' * curl_forward sh (Some (fst d)) E c' i')) c idx HL Hi) by (intros; now apply E2).
      rewrite curl_back_scale.
      set (C := curl_back _ _ _ _ _) in *. set (e := eps c idx) in *. set (x := E c idx) in *.
      assert (X : C = - im * om * J c idx + om * om * (e * x)) by (rewrite <- Q; ring).
      rewrite X. transitivity (J c idx + (om * om / (- im * om) - im * om) * (e * x)); [field; repeat split; assumption|].
      transitivity (J c idx + (- (1) - im * im) * (om / im * (e * x))); [field; repeat split; assumption|]. rewrite im_sq. ring.
    - rewrite far_form, E2 by assumption. pose proof (HM c idx Hc Hi) as M. unfold noj, inv_at, matl in *. destruct mu as [m|]; field; repeat split; assumption.
  Qed.
End W.

Section W2.
  Variable K : CFld.
  Add Field Kfield7 : (fth K).
  Local Open Scope fld_scope.
  Lemma e2h_no_m sh (om : K) d (eps : field K) (mu : option (field K)) (E : field K) : om <> 0 -> nzm_opt sh mu ->
    feq sh (snd (eh_full_f sh om d eps mu E (e2h_f sh om d mu E))) noj.
  Proof.
    intros Hom Hm c idx Hc Hi.
    assert (I0 : im <> (0 : K)) by (intro X; pose proof (im_sq K) as Y; rewrite X in Y; apply (F_1_neq_0 (fth K)); transitivity (- - (1 : K)); [ring|]; rewrite <- Y; ring).
    assert (I1 : - im <> (0 : K)) by (intro X; apply I0; transitivity (- - im : K); [ring|]; rewrite X; ring).
    assert (M : matl mu c idx <> 0) by (unfold matl; destruct mu as [m|]; [now apply Hm|apply (F_1_neq_0 (fth K))]).
    rewrite far_form. unfold noj, e2h_f, matl in *. destruct mu as [m|]; field; repeat split; assumption.
  Qed.
End W2.

Section D.
  Variable K : CFld.
  Add Field Kfield5 : (fth K).
  Local Open Scope fld_scope.

  (** With the opposite sign of the exponent the H update needs H = 0. *)
  Lemma opposite_phase sh (dt om z : K) (d : dx2 K) (eps : field K) (mu : option (field K)) (E H j : field K) :
    length sh = 3%nat -> z <> 0 -> z * z <> 1 -> 1 + 1 <> (0 : K) -> nzm_opt sh mu -> im * om * dt = z - 1 / z ->
    feq sh (snd (eh_full_f sh om d eps mu E H)) noj ->
    feq sh (sH (step sh dt (Some d) eps mu j (harmonic (1 / z) E H 0))) (sH (harmonic (1 / z) E H 1)) ->
    feq sh H noj.
  Proof.
    intros HL Hz Hzz H2 Hm Ho B Q c idx Hc Hi.
    assert (M : matl mu c idx <> 0) by (unfold matl; destruct mu as [m|]; [now apply Hm|apply (F_1_neq_0 (fth K))]).
    specialize (B c idx Hc Hi). specialize (Q c idx Hc Hi). rewrite far_form in B. cbn [step sH sE harmonic] in Q.
    rewrite maxwell_h_matl, curl_forward_scale, zpow_SS in Q. cbn [Nat.mul Nat.add zpow] in Q. unfold noj in *.
    set (C := curl_forward _ _ _ _ _) in *. set (m := matl mu c idx) in *. set (h := H c idx) in *.
    assert (X : C = - (im * om * m * h)) by (transitivity (0 - im * om * m * h); [rewrite <- B|]; ring).
    rewrite X in Q.
    assert (I : 1 / z <> 0).
    { intro Y. apply (F_1_neq_0 (fth K)). transitivity (z * (1 / z)); [field; exact Hz|]. rewrite Y. ring. }
    assert (Y : z * h + (z - 1 / z) * h = 1 / z * h).
    { rewrite <- Ho. transitivity (1 / (1 / z) * h - dt * (1 * - (im * om * m * h)) / m); [field; repeat split; try assumption; apply (F_1_neq_0 (fth K))|].
      rewrite Q. field. repeat split; try assumption. apply (F_1_neq_0 (fth K)). }
    assert (W : (1 + 1) * ((z * z - 1) * h) = 0).
    { transitivity (z * (z * h + (z - 1 / z) * h) - z * (1 / z * h)); [field; exact Hz|]. rewrite Y. ring. }
    destruct (fmul_integral K _ _ W) as [V|V]; [contradiction|].
    destruct (fmul_integral K _ _ V) as [U|U]; [|exact U].
    exfalso. apply Hzz. transitivity ((z * z - 1) + 1); [ring|]. rewrite U. ring.
  Qed.
End D.

Section Q3.
  Variable K : CFld.
  Add Field Kfield6 : (fth K).
  Local Open Scope fld_scope.
  Lemma mv_sub_aux n (A : mat K) (x y w : vect K) q : (forall j, w j = x j - y j) -> mv n A w q = mv n A x q - mv n A y q.
  Proof. intro H. unfold mv. rewrite <- sumN_sub. apply sumN_ext. intros j _. rewrite H. ring. Qed.
  Lemma div_back (z w : K) : z <> 0 -> z * (w / z) = w.
  Proof. intro H. field. exact H. Qed.
  Lemma zero_aux (x a : K) : x - x = a * 0.
  Proof. ring. Qed.
End Q3.

Lemma split3 sh q : (q < 3 * prodl sh)%nat ->
  exists c p, q = (c * prodl sh + p)%nat /\ (c < 3)%nat /\ (p < prodl sh)%nat.
Proof.
  intro H. assert (N : prodl sh <> 0%nat) by lia.
  exists (q / prodl sh)%nat, (q mod prodl sh)%nat. split; [rewrite Nat.mul_comm; now apply Nat.div_mod|].
  split; [apply Nat.div_lt_upper_bound; lia|now apply Nat.mod_upper_bound].
Qed.
