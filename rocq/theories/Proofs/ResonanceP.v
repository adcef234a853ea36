(** Source-free solutions of the frequency-domain equations. *)
From Coq Require Import Reals List Arith ZArith Bool Lia Lra Field.
From Verif.Lib Require Import Num Sums Idx Mat RealF.
From Verif.Model Require Import Fdmath Fdtd Fdfd.
From Verif.Spec Require Import Grid Yee FdtdRun FdfdSpec HarmonicSpec.
From Verif.Proofs Require Import FdmathP FdmathP2 FdtdP2 FdfdP GridP BlochP2 CflP HarmonicP3 HarmonicP4.
Import ListNotations.
Local Open Scope fld_scope.

Section P.
  Variable K : CFld.
  Add Field Kfield : (fth K).
  Variables (sh : list nat) (we wh : widths K) (eps : field K) (mu : option (field K)).
  Hypothesis HL : length sh = 3%nat.
  Hypothesis He : nzw sh we.
  Hypothesis Hh : nzw sh wh.
  Hypothesis Re : realw we.

  (** electric and magnetic forms *)
  Definition pform (F G : field K) : K := fsum sh (fun c i => vol_e we wh c i * (eps c i * (conj (F c i) * G c i))).
  Definition sform (F G : field K) : K :=
    fsum sh (fun c i => vol_h we wh c i * (inv_at mu c i * (conj (curl_next sh (Some we) F c i) * curl_next sh (Some we) G c i))).

  Lemma fsum_ext3 (f g : nat -> list nat -> K) : (forall c i, (c < 3)%nat -> inb sh i -> f c i = g c i) -> fsum sh f = fsum sh g.
  Proof.
    intro H. unfold fsum.
    rewrite (gsum_ext sh (f 0%nat) (g 0%nat)) by (intros i Hi; apply H; [lia|exact Hi]).
    rewrite (gsum_ext sh (f 1%nat) (g 1%nat)) by (intros i Hi; apply H; [lia|exact Hi]).
    rewrite (gsum_ext sh (f 2%nat) (g 2%nat)) by (intros i Hi; apply H; [lia|exact Hi]). reflexivity.
  Qed.
  Lemma fsum_mul (x : K) (f : nat -> list nat -> K) : fsum sh (fun c i => x * f c i) = x * fsum sh f.
  Proof. unfold fsum. rewrite !gsum_mul_l. ring. Qed.

  Lemma conj_curl_forward F c idx : (c < 3)%nat -> inb sh idx ->
    conj (curl_forward sh (Some we) F c idx) = curl_forward sh (Some we) (cjf F) c idx.
  Proof.
    intros Hc Hi.
    assert (N : forall a, (a < 3)%nat -> we a (coord idx a) <> 0).
    { intros a Ha. apply He; [lia|]. apply inb_coord; [exact Hi|lia]. }
    unfold curl_forward, curl_with, deriv_forward, roll, cjf.
    destruct c as [|[|[|c]]]; [| | |lia]; rewrite conj_sub, !conj_div, !conj_sub, !Re by (apply N; lia); reflexivity.
  Qed.

  Lemma forms (om : K) (F G : field K) : feq sh (wave_e sh om we wh eps mu G) noj -> om * om * pform F G = sform F G.
  Proof.
    intro W. unfold pform, sform. rewrite <- fsum_mul.
    transitivity (fsum sh (fun c i => vol_e we wh c i * (cjf F c i * curl_back sh (Some wh) (fun c' i' => inv_at mu c' i' * curl_forward sh (Some we) G c' i') c i))).
    - apply fsum_ext3. intros c i Hc Hi. specialize (W c i Hc Hi). unfold wave_e, noj in W. to_model.
      set (X := curl_back sh (Some wh) _ c i) in *. unfold cjf.
      assert (Y : X = om * om * (eps c i * G c i)).
      { transitivity (X - om * om * (eps c i * G c i) + om * om * (eps c i * G c i)); [ring|]. rewrite W. ring. }
      rewrite Y. ring.
    - rewrite <- (curl_adjoint K sh we wh (cjf F) (fun c' i' => inv_at mu c' i' * curl_forward sh (Some we) G c' i') HL He Hh).
      apply fsum_ext3. intros c i Hc Hi. to_model. rewrite <- conj_curl_forward by assumption. ring.
  Qed.
End P.

Section O.
  Variable K : CFld.
  Add Field Kfield' : (fth K).
  Variables (sh : list nat) (we wh : widths K) (eps : field K) (mu : option (field K)).
  Hypothesis HL : length sh = 3%nat.
  Hypothesis He : nzw sh we.
  Hypothesis Hh : nzw sh wh.
  Hypothesis Re : realw we.
  Hypothesis Rh : realw wh.
  Hypothesis Reps : forall c i, (c < 3)%nat -> inb sh i -> conj (eps c i) = eps c i.
  Hypothesis Rmu : forall c i, (c < 3)%nat -> inb sh i -> conj (inv_at mu c i) = inv_at mu c i.

  Lemma conj_gsum_k (f : list nat -> K) : conj (gsum sh f) = gsum sh (fun i => conj (f i)).
  Proof. rewrite !gsum_flat. apply conj_sumN. Qed.
  Lemma conj_vol c i : conj (vol_e we wh c i) = vol_e we wh c i.
  Proof. unfold vol_e, vol3. destruct c as [|[|c]]; rewrite !conj_mul, !Re, !Rh; reflexivity. Qed.
  Lemma conj_volh c i : conj (vol_h we wh c i) = vol_h we wh c i.
  Proof. unfold vol_h, vol_e, vol3. destruct c as [|[|c]]; rewrite !conj_mul, !Re, !Rh; reflexivity. Qed.

  Lemma pform_conj F G : conj (pform K sh we wh eps F G) = pform K sh we wh eps G F.
  Proof.
    unfold pform, fsum. rewrite !conj_add, !conj_gsum_k.
    apply f_equal2; [apply f_equal2|]; apply gsum_ext; intros i Hi; rewrite !conj_mul, conj_vol, conj_conj, Reps by (lia || exact Hi); ring.
  Qed.
  Lemma sform_conj F G : conj (sform K sh we wh mu F G) = sform K sh we wh mu G F.
  Proof.
    unfold sform, fsum. rewrite !conj_add, !conj_gsum_k.
    apply f_equal2; [apply f_equal2|]; apply gsum_ext; intros i Hi; rewrite !conj_mul, conj_volh, conj_conj, Rmu by (lia || exact Hi); ring.
  Qed.

  Lemma orth (om1 om2 : K) (F G : field K) :
    feq sh (wave_e sh om1 we wh eps mu F) noj -> feq sh (wave_e sh om2 we wh eps mu G) noj ->
    conj (om1 * om1) <> om2 * om2 -> pform K sh we wh eps F G = 0.
  Proof.
    intros W1 W2 N.
    pose proof (forms K sh we wh eps mu HL He Hh Re om2 F G W2) as A.
    pose proof (forms K sh we wh eps mu HL He Hh Re om1 G F W1) as B.
    apply (f_equal conj) in B. rewrite conj_mul, pform_conj, sform_conj in B.
    assert (D : om2 * om2 - conj (om1 * om1) <> 0).
    { intro X. apply N. transitivity (om2 * om2 - (om2 * om2 - conj (om1 * om1))); [ring|]. rewrite X. ring. }
    apply (fmul_cancel_l K (om2 * om2 - conj (om1 * om1))); [exact D|].
    transitivity (om2 * om2 * pform K sh we wh eps F G - conj (om1 * om1) * pform K sh we wh eps F G); [ring|].
    rewrite A, B. ring.
  Qed.
End O.

Local Open Scope R_scope.

Lemma cim_sumN n (F : nat -> cpx) : cim (sumN (K := CC) n F) = sumN (K := RF) n (fun i => cim (F i)).
Proof. induction n as [|n IH]; [reflexivity|]. cbn [sumN]. rewrite <- IH. reflexivity. Qed.
Lemma cim_gsum sh (f : list nat -> cpx) : cim (gsum (K := CC) sh f) = gsum (K := RF) sh (fun j => cim (f j)).
Proof. rewrite !(gsum_flat). apply cim_sumN. Qed.

(** om^2 (p + i q) = s with p > 0, s >= 0 *)
Lemma om_side (a b p q s : R) : 0 < p -> 0 <= s ->
  (a * a - b * b) * p - 2 * (a * b) * q = s -> (a * a - b * b) * q + 2 * (a * b) * p = 0 ->
  (q = 0 -> b = 0) /\ (q <= 0 -> 0 < a -> 0 <= b) /\ (q < 0 -> 0 < a -> 0 < b).
Proof.
  intros Hp Hs E1 E2.
  assert (A : q <= 0 -> 0 < a -> b < 0 -> False).
  { intros Hq Ha Hb. assert (ab : 0 < a * - b) by (apply Rmult_lt_0_compat; lra).
    assert (ap : 0 < a * - b * p) by (apply Rmult_lt_0_compat; lra).
    assert (aq : 0 <= a * - b * - q) by (apply Rmult_le_pos; lra).
    set (d := a * a - b * b) in *.
    assert (dq : 0 < d * q) by lra. assert (dn : d < 0) by (destruct (Rlt_dec d 0); [assumption|exfalso; assert (0 <= d * - q) by (apply Rmult_le_pos; lra); lra]).
    assert (0 < - d * p) by (apply Rmult_lt_0_compat; lra). lra. }
  split; [|split].
  - intro Hq. rewrite Hq in *.
    assert (X : a * b = 0). { apply (Rmult_eq_reg_r p); [|lra]. lra. }
    assert (Y : 0 <= a * a - b * b).
    { destruct (Rle_dec 0 (a * a - b * b)) as [|N]; [assumption|exfalso].
      assert (0 < - (a * a - b * b) * p) by (apply Rmult_lt_0_compat; lra). lra. }
    destruct (Rmult_integral _ _ X) as [-> | ->]; [nra|reflexivity].
  - intros Hq Ha. destruct (Rle_dec 0 b) as [|N]; [assumption|exfalso; apply A; lra].
  - intros Hq Ha. destruct (Rlt_dec 0 b) as [|N]; [assumption|exfalso].
    destruct (Req_dec b 0) as [->|Nb]; [|apply A; lra].
    assert (0 < a * a * - q) by (apply Rmult_lt_0_compat; [now apply Rmult_lt_0_compat|lra]). lra.
Qed.

Section R.
  Variables (sh : list nat) (we wh : widths RF) (eps : field CC) (mu : option (field CC)).
  Hypothesis HL : length sh = 3%nat.
  Hypothesis Hw : forall a i, (a < 3)%nat -> (i < dim sh a)%nat -> 0 < we a i /\ 0 < wh a i.
  Hypothesis Heps : forall c i, (c < 3)%nat -> inb sh i -> 0 < cre (eps c i).
  Hypothesis Hmu : forall c i, (c < 3)%nat -> inb sh i -> cim (matl (K := CC) mu c i) = 0 /\ 0 < cre (matl (K := CC) mu c i).

  Lemma we_nz : nzw (K := CC) sh (cw we).
  Proof. apply cw_nz. intros a i Ha Hi. destruct (Hw a i) as [X _]; [lia|exact Hi|]. intro E. rewrite E in X. exact (Rlt_irrefl _ X). Qed.
  Lemma wh_nz : nzw (K := CC) sh (cw wh).
  Proof. apply cw_nz. intros a i Ha Hi. destruct (Hw a i) as [_ X]; [lia|exact Hi|]. intro E. rewrite E in X. exact (Rlt_irrefl _ X). Qed.

  Lemma im_vol (we' wh' : widths RF) c idx x : cim (cmul (vol_e (K := CC) (cw we') (cw wh') c idx) x) = vol_e (K := RF) we' wh' c idx * cim x.
  Proof. destruct c as [|[|c]]; unfold vol_e, vol3, cw; cbn; rring. Qed.

  Lemma p_re F : cre (pform CC sh (cw we) (cw wh) eps F F) = fsum (K := RF) sh (fun c i => vol_e (K := RF) we wh c i * (cre (eps c i) * cnrm (F c i))).
  Proof.
    unfold pform, fsum. cbn [fadd CC cfld CF cadd cre]. rewrite !cre_gsum.
    apply f_equal2; [apply f_equal2|]; apply (gsum_ext (K := RF)); intros i Hi; rewrite re_vol; f_equal; unfold cnrm; cbn; rring.
  Qed.
  Lemma p_im F : cim (pform CC sh (cw we) (cw wh) eps F F) = fsum (K := RF) sh (fun c i => vol_e (K := RF) we wh c i * (cim (eps c i) * cnrm (F c i))).
  Proof.
    unfold pform, fsum. cbn [fadd CC cfld CF cadd cim]. rewrite !cim_gsum.
    apply f_equal2; [apply f_equal2|]; apply (gsum_ext (K := RF)); intros i Hi; rewrite im_vol; f_equal; unfold cnrm; cbn; rring.
  Qed.

  Lemma inv_mu c i : (c < 3)%nat -> inb sh i -> cim (inv_at (K := CC) mu c i) = 0 /\ 0 < cre (inv_at (K := CC) mu c i).
  Proof.
    intros Hc Hi. destruct (Hmu c i Hc Hi) as [I P]. unfold inv_at, matl in *. destruct mu as [u|]; [|cbn; split; [reflexivity|lra]].
    change (cim (cdiv c1 (u c i)) = 0 /\ 0 < cre (cdiv c1 (u c i))). unfold cdiv, cinv, cmul, c1, cnrm. cbn [cre cim]. rewrite I. 
    assert (Q : 0 < cre (u c i) * cre (u c i)) by now apply Rmult_lt_0_compat.
    split; [field; lra|]. replace (1 * (cre (u c i) / (cre (u c i) * cre (u c i) + 0 * 0)) - 0 * (- 0 / (cre (u c i) * cre (u c i) + 0 * 0))) with (/ cre (u c i)) by (field; lra).
    now apply Rinv_0_lt_compat.
  Qed.
  Lemma s_val F : cim (sform CC sh (cw we) (cw wh) mu F F) = 0 /\ 0 <= cre (sform CC sh (cw we) (cw wh) mu F F).
  Proof.
    unfold sform, fsum. cbn [fadd CC cfld CF cadd cim cre]. rewrite !cre_gsum, !cim_gsum.
    assert (V : forall c i, inb sh i -> 0 < vol_h (K := RF) we wh c i).
    { intros c i Hi. apply (vol_pos_h sh we wh HL); [intros a j Ha Hj; apply (Hw a j Ha Hj)|intros a j Ha Hj; apply (Hw a j Ha Hj)|exact Hi]. }
    assert (A : forall c i, (c < 3)%nat -> inb sh i ->
      cim (cmul (vol_h (K := CC) (cw we) (cw wh) c i) (cmul (inv_at (K := CC) mu c i) (cmul (cconj (curl_next (K := CC) sh (Some (cw we)) F c i)) (curl_next (K := CC) sh (Some (cw we)) F c i)))) = 0
      /\ 0 <= cre (cmul (vol_h (K := CC) (cw we) (cw wh) c i) (cmul (inv_at (K := CC) mu c i) (cmul (cconj (curl_next (K := CC) sh (Some (cw we)) F c i)) (curl_next (K := CC) sh (Some (cw we)) F c i))))).
    { intros c i Hc Hi. unfold vol_h. rewrite re_vol, im_vol. destruct (inv_mu c i Hc Hi) as [I P]. specialize (V c i Hi). unfold vol_h in V.
      set (v := vol_e (K := RF) wh we c i) in *. set (x := curl_next (K := CC) sh _ F c i). cbn [cmul cconj cre cim]. rewrite I. split; [rring|].
      apply Rmult_le_pos; [lra|].
      replace (cre (inv_at (K := CC) mu c i) * (cre x * cre x - - cim x * cim x) - 0 * (cre x * cim x + - cim x * cre x)) with (cre (inv_at (K := CC) mu c i) * (cre x * cre x + cim x * cim x)) by ring.
      apply Rmult_le_pos; [lra|nra]. }
    split.
    - rewrite !(gsum_zero RF); [cbn; lra| | |]; intros i Hi; apply A; (lia || exact Hi).
    - apply Rplus_le_le_0_compat; [apply Rplus_le_le_0_compat|]; apply gsum_nonneg; intros i Hi; apply A; (lia || exact Hi).
  Qed.

  Lemma ve c i : inb sh i -> 0 < vol_e (K := RF) we wh c i.
  Proof. intro Hi. apply (vol_pos_e sh we wh HL); [intros a j Ha Hj; apply (Hw a j Ha Hj)|intros a j Ha Hj; apply (Hw a j Ha Hj)|exact Hi]. Qed.
  Lemma cnn x : 0 <= cnrm x. Proof. unfold cnrm. nra. Qed.

  Lemma fsum_pos (f : nat -> list nat -> R) : (forall c i, (c < 3)%nat -> inb sh i -> 0 <= f c i) ->
    (exists c i, (c < 3)%nat /\ inb sh i /\ 0 < f c i) -> 0 < fsum (K := RF) sh f.
  Proof.
    intros N [c [i [Hc [Hi P]]]]. unfold fsum. cbn [fadd RF].
    assert (G : forall b, (b < 3)%nat -> 0 <= gsum (K := RF) sh (f b)) by (intros b Hb; apply gsum_nonneg; intros j Hj; now apply N).
    pose proof (gsum_ge_term sh (f c) i Hi (fun j Hj => N c j Hc Hj)) as T.
    pose proof (G 0%nat ltac:(lia)). pose proof (G 1%nat ltac:(lia)). pose proof (G 2%nat ltac:(lia)).
    destruct c as [|[|[|c]]]; [| | |lia]; lra.
  Qed.

  Lemma resonance om F : feq (K := CC) sh (wave_e (K := CC) sh om (cw we) (cw wh) eps mu F) (noj (K := CC)) ->
    (exists c i, (c < 3)%nat /\ inb sh i /\ F c i <> c0) ->
    ((forall c i, (c < 3)%nat -> inb sh i -> cim (eps c i) = 0) -> cim om = 0)
    /\ ((forall c i, (c < 3)%nat -> inb sh i -> cim (eps c i) <= 0) -> 0 < cre om -> 0 <= cim om)
    /\ ((forall c i, (c < 3)%nat -> inb sh i -> cim (eps c i) < 0) -> 0 < cre om -> 0 < cim om).
  Proof.
    intros W [c0' [i0 [Hc0 [Hi0 N0]]]].
    pose proof (forms CC sh (cw we) (cw wh) eps mu HL we_nz wh_nz (cw_real we) om F F W) as E.
    destruct (s_val F) as [S1 S2].
    set (P := pform CC sh (cw we) (cw wh) eps F F) in *. set (S := sform CC sh (cw we) (cw wh) mu F F) in *.
    assert (Nc : 0 < cnrm (F c0' i0)). { pose proof (cnrm_nz _ N0). pose proof (cnn (F c0' i0)). lra. }
    assert (Pp : 0 < cre P).
    { unfold P. rewrite p_re. apply fsum_pos.
      - intros c i Hc Hi. apply Rmult_le_pos; [left; now apply ve|]. apply Rmult_le_pos; [left; now apply Heps|apply cnn].
      - exists c0', i0. repeat split; try assumption. apply Rmult_lt_0_compat; [now apply ve|]. apply Rmult_lt_0_compat; [now apply Heps|exact Nc]. }
    assert (E1 := f_equal cre E). assert (E2 := f_equal cim E). rewrite S1 in E2. cbn [fmul CC cfld CF cmul cre cim] in E1, E2.
    destruct (om_side (cre om) (cim om) (cre P) (cim P) (cre S) Pp S2) as [A [B C]]; [rewrite <- E1; ring|rewrite <- E2; ring|].
    split; [|split]; intro H.
    - apply A. unfold P. rewrite p_im. unfold fsum. rewrite !(gsum_zero RF); [cbn; lra| | |]; intros i Hi; rewrite H by (lia || exact Hi); rring.
    - apply B. unfold P. rewrite p_im.
      assert (X : 0 <= fsum (K := RF) sh (fun c i => vol_e (K := RF) we wh c i * (- cim (eps c i) * cnrm (F c i)))).
      { unfold fsum. apply Rplus_le_le_0_compat; [apply Rplus_le_le_0_compat|]; apply gsum_nonneg; intros i Hi;
          (apply Rmult_le_pos; [left; now apply ve|]; apply Rmult_le_pos; [|apply cnn]); pose proof (H 0%nat i ltac:(lia) Hi); pose proof (H 1%nat i ltac:(lia) Hi); pose proof (H 2%nat i ltac:(lia) Hi); lra. }
      assert (Y : fsum (K := RF) sh (fun c i => vol_e (K := RF) we wh c i * (- cim (eps c i) * cnrm (F c i))) = - fsum (K := RF) sh (fun c i => vol_e (K := RF) we wh c i * (cim (eps c i) * cnrm (F c i)))).
      { assert (G : forall c, gsum (K := RF) sh (fun i => vol_e (K := RF) we wh c i * (- cim (eps c i) * cnrm (F c i))) = - gsum (K := RF) sh (fun i => vol_e (K := RF) we wh c i * (cim (eps c i) * cnrm (F c i)))).
        { intro c. rewrite <- (gsum_opp RF). apply (gsum_ext (K := RF)). intros i Hi. rring. }
        unfold fsum. rewrite !G. rring. }
      rewrite Y in X. lra.
    - apply C. unfold P. rewrite p_im.
      assert (X : 0 < fsum (K := RF) sh (fun c i => vol_e (K := RF) we wh c i * (- cim (eps c i) * cnrm (F c i)))).
      { apply fsum_pos.
        - intros c i Hc Hi. apply Rmult_le_pos; [left; now apply ve|]. apply Rmult_le_pos; [pose proof (H c i Hc Hi); lra|apply cnn].
        - exists c0', i0. repeat split; try assumption. apply Rmult_lt_0_compat; [now apply ve|]. apply Rmult_lt_0_compat; [pose proof (H c0' i0 Hc0 Hi0); lra|exact Nc]. }
      assert (Y : fsum (K := RF) sh (fun c i => vol_e (K := RF) we wh c i * (- cim (eps c i) * cnrm (F c i))) = - fsum (K := RF) sh (fun c i => vol_e (K := RF) we wh c i * (cim (eps c i) * cnrm (F c i)))).
      { assert (G : forall c, gsum (K := RF) sh (fun i => vol_e (K := RF) we wh c i * (- cim (eps c i) * cnrm (F c i))) = - gsum (K := RF) sh (fun i => vol_e (K := RF) we wh c i * (cim (eps c i) * cnrm (F c i)))).
        { intro c. rewrite <- (gsum_opp RF). apply (gsum_ext (K := RF)). intros i Hi. rring. }
        unfold fsum. rewrite !G. rring. }
      rewrite Y in X. lra.
  Qed.
End R.
