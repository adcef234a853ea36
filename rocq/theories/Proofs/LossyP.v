(** Driven frequency-domain fields in lossy media are bounded by the currents. *)
From Coq Require Import Reals Lra List Arith ZArith Lia Bool Psatz.
From Verif.Lib Require Import Num Sums Idx Mat RealF.
From Verif.Model Require Import Fdmath Fdtd Fdfd.
From Verif.Spec Require Import Yee FdtdRun HarmonicSpec.
From Verif.Proofs Require Import FdmathP FdtdP2 FdtdP BlochP2 DrivenP HarmonicP HarmonicP3 HarmonicP4.
Import ListNotations.
Local Open Scope R_scope.

Lemma fsum_le_r sh (f g : nat -> list nat -> R) : (forall c i, (c < 3)%nat -> inb sh i -> f c i <= g c i) -> fsum (K := RF) sh f <= fsum (K := RF) sh g.
Proof.
  intro H. assert (0 <= fsum (K := RF) sh (fun c i => g c i + (-1) * f c i)).
  { apply fsum_nonneg_r. intros c i Hc Hi. pose proof (H c i Hc Hi). lra. }
  rewrite fsum_add_r, fsum_mul_r in H0. lra.
Qed.
Lemma cnrm_pos x : 0 <= cnrm x. Proof. unfold cnrm. nra. Qed.

Section S.
  Variable sh : list nat.
  Variables (we wh : widths RF) (om : R) (eps : field CC) (mu : option (field CC)).
  Hypothesis HL : length sh = 3%nat.
  Hypothesis Hom : 0 < om.
  Hypothesis Hpos : forall a i, (a < 3)%nat -> (i < dim sh a)%nat -> 0 < we a i /\ 0 < wh a i.
  Notation Fe f := (fsum (K := RF) sh (fun c i => vol_e (K := RF) we wh c i * f c i)).
  Notation Fh f := (fsum (K := RF) sh (fun c i => vol_h (K := RF) we wh c i * f c i)).
  Notation nE E := (fsum (K := RF) sh (fun c i => vol_e (K := RF) we wh c i * cnrm (E c i))).
  Notation nH E := (fsum (K := RF) sh (fun c i => vol_h (K := RF) we wh c i * cnrm (E c i))).

  Lemma nz_e : nzw (K := RF) sh we. Proof. intros a i Ha Hi X. rewrite HL in Ha. destruct (Hpos a i Ha Hi) as [P _]. rewrite X in P. exact (Rlt_irrefl _ P). Qed.
  Lemma nz_h : nzw (K := RF) sh wh. Proof. intros a i Ha Hi X. rewrite HL in Ha. destruct (Hpos a i Ha Hi) as [_ P]. rewrite X in P. exact (Rlt_irrefl _ P). Qed.
  Lemma ve_pos c i : inb sh i -> 0 < vol_e (K := RF) we wh c i.
  Proof. apply (vol_pos_e sh we wh HL); intros; now apply Hpos. Qed.
  Lemma vh_pos c i : inb sh i -> 0 < vol_h (K := RF) we wh c i.
  Proof. apply (vol_pos_h sh we wh HL); intros; now apply Hpos. Qed.

  (** Imaginary part of the power balance. *)
  Lemma reactive (E H J M : field CC) :
    feq (K := CC) sh (fst (eh_full_f (K := CC) sh (mkC om 0) (cw we, cw wh) eps mu E H)) J ->
    feq (K := CC) sh (snd (eh_full_f (K := CC) sh (mkC om 0) (cw we, cw wh) eps mu E H)) (fun c i => copp (M c i)) ->
    fsum (K := RF) sh (fun c i => vol_e (K := RF) we wh c i * cim (cmul (E c i) (cconj (J c i))))
    + fsum (K := RF) sh (fun c i => vol_h (K := RF) we wh c i * cim (cmul (M c i) (cconj (H c i))))
    = om * (fsum (K := RF) sh (fun c i => vol_e (K := RF) we wh c i * (cre (eps c i) * cnrm (E c i)))
            - fsum (K := RF) sh (fun c i => vol_h (K := RF) we wh c i * (cre (matl (K := CC) mu c i) * cnrm (H c i)))).
  Proof.
    intros A B.
    set (eps' := fun c i => cmul ci (eps c i)). set (mu' := Some (fun c i => cmul (copp ci) (matl (K := CC) mu c i))).
    set (H' := fun c i => cmul ci (H c i)). set (J' := fun c i => cmul ci (J c i)).
    assert (A' : feq (K := CC) sh (fst (eh_full_f (K := CC) sh (mkC om 0) (cw we, cw wh) eps' mu' E H')) J').
    { intros c i Hc Hi. specialize (A c i Hc Hi). assert (A2 : csub (curl_back (K := CC) sh (Some (cw wh)) H c i) (cmul (cmul (cmul ci (mkC om 0)) (eps c i)) (E c i)) = J c i) by (destruct mu; exact A).
      change (csub (curl_back (K := CC) sh (Some (cw wh)) H' c i) (cmul (cmul (cmul ci (mkC om 0)) (cmul ci (eps c i))) (E c i)) = cmul ci (J c i)).
      unfold H'. pose proof (curl_back_scale CC sh (Some (cw wh)) ci H c i) as X. 
      refine (eq_trans (f_equal (fun z => csub z (cmul (cmul (cmul ci (mkC om 0)) (cmul ci (eps c i))) (E c i))) X) _). rewrite <- A2.
      match goal with |- context [curl_back ?a ?b ?c ?d ?e] => generalize (curl_back (K := CC) a b c d e) end. intro z. apply cpx_ext; cbn; ring. }
    assert (B' : feq (K := CC) sh (snd (eh_full_f (K := CC) sh (mkC om 0) (cw we, cw wh) eps' mu' E H')) (fun c i => copp (M c i))).
    { intros c i Hc Hi. rewrite <- (B c i Hc Hi).
      transitivity (cadd (curl_forward (K := CC) sh (Some (cw we)) E c i) (cmul (cmul (cmul ci (mkC om 0)) (matl (K := CC) mu c i)) (H c i))).
      - change (cadd (curl_forward (K := CC) sh (Some (cw we)) E c i) (cmul (cmul (cmul ci (mkC om 0)) (cmul (copp ci) (matl (K := CC) mu c i))) (cmul ci (H c i)))
          = cadd (curl_forward (K := CC) sh (Some (cw we)) E c i) (cmul (cmul (cmul ci (mkC om 0)) (matl (K := CC) mu c i)) (H c i))). f_equal. apply cpx_ext; cbn; ring.
      - destruct mu as [m|]; [reflexivity|]. cbn [eh_full_f snd]. change (cadd (curl_forward (K := CC) sh (Some (cw we)) E c i) (cmul (cmul (cmul ci (mkC om 0)) c1) (H c i))
          = cadd (curl_forward (K := CC) sh (Some (cw we)) E c i) (cmul (cmul ci (mkC om 0)) (H c i))). f_equal. apply cpx_ext; cbn; ring. }
    pose proof (total_power sh we wh om eps' mu' HL nz_e nz_h E H' J' M A' B') as T.
    transitivity (fsum (K := RF) sh (fun c i => vol_e (K := RF) we wh c i * cre (cmul (E c i) (cconj (J' c i)))) + fsum (K := RF) sh (fun c i => vol_h (K := RF) we wh c i * cre (cmul (M c i) (cconj (H' c i))))).
    { f_equal; apply fsum_ext_r; intros c i Hc Hi; unfold J', H'; cbn; ring. }
    rewrite T. f_equal.
    replace (fsum (K := RF) sh (fun c i => vol_h (K := RF) we wh c i * (cim (matl (K := CC) mu' c i) * cnrm (H' c i)))) with ((-1) * fsum (K := RF) sh (fun c i => vol_h (K := RF) we wh c i * (cre (matl (K := CC) mu c i) * cnrm (H c i)))).
    2:{ rewrite <- fsum_mul_r. apply fsum_ext_r. intros c i Hc Hi. unfold mu', H', matl at 2, cnrm. cbn. set (m := match mu with Some t => t c i | None => c1 end). change (matl (K := CC) mu c i) with m. ring. }
    replace (fsum (K := RF) sh (fun c i => vol_e (K := RF) we wh c i * (cim (eps' c i) * cnrm (E c i)))) with (fsum (K := RF) sh (fun c i => vol_e (K := RF) we wh c i * (cre (eps c i) * cnrm (E c i)))).
    2:{ apply fsum_ext_r. intros c i Hc Hi. unfold eps'. cbn. ring. }
    ring.
  Qed.

  (** Cauchy-Schwarz for both equations together *)
  Lemma pair_cs (E H J M : field CC) (f : cpx -> cpx -> R) : (forall x y t, cnrm x - 2 * t * f x y + t * t * cnrm y >= 0) ->
    let B := fsum (K := RF) sh (fun c i => vol_e (K := RF) we wh c i * f (E c i) (J c i)) + fsum (K := RF) sh (fun c i => vol_h (K := RF) we wh c i * f (H c i) (M c i)) in
    B * B <= (nE E + nH H) * (nE J + nH M).
  Proof.
    intros Hf B.
    assert (PJ : 0 <= nE J) by (apply fsum_nonneg_r; intros c i Hc Hi; apply Rmult_le_pos; [left; now apply ve_pos|apply cnrm_pos]).
    assert (PM : 0 <= nH M) by (apply fsum_nonneg_r; intros c i Hc Hi; apply Rmult_le_pos; [left; now apply vh_pos|apply cnrm_pos]).
    apply quad_cs; [|lra]. intro t.
    assert (X : 0 <= fsum (K := RF) sh (fun c i => vol_e (K := RF) we wh c i * cnrm (E c i) + ((- (2 * t)) * (vol_e (K := RF) we wh c i * f (E c i) (J c i)) + t * t * (vol_e (K := RF) we wh c i * cnrm (J c i))))).
    { apply fsum_nonneg_r. intros c i Hc Hi. pose proof (ve_pos c i Hi) as V. pose proof (Hf (E c i) (J c i) t) as Q.
      pose proof (Rmult_le_pos _ _ (Rlt_le _ _ V) (Rge_le _ _ Q)) as W. lra. }
    assert (Y : 0 <= fsum (K := RF) sh (fun c i => vol_h (K := RF) we wh c i * cnrm (H c i) + ((- (2 * t)) * (vol_h (K := RF) we wh c i * f (H c i) (M c i)) + t * t * (vol_h (K := RF) we wh c i * cnrm (M c i))))).
    { apply fsum_nonneg_r. intros c i Hc Hi. pose proof (vh_pos c i Hi) as V. pose proof (Hf (H c i) (M c i) t) as Q.
      pose proof (Rmult_le_pos _ _ (Rlt_le _ _ V) (Rge_le _ _ Q)) as W. lra. }
    rewrite !fsum_add_r, !fsum_mul_r in X. rewrite !fsum_add_r, !fsum_mul_r in Y. unfold B. lra.
  Qed.

  Variables (d e1 m0 : R).
  Hypothesis Hd : 0 < d.
  Hypothesis He1 : 0 <= e1.
  Hypothesis Hm0 : 0 < m0.
  Hypothesis Heps : forall c i, (c < 3)%nat -> inb sh i -> cim (eps c i) <= - d /\ cre (eps c i) <= e1.
  Hypothesis Hmu : forall c i, (c < 3)%nat -> inb sh i -> cim (matl (K := CC) mu c i) <= 0 /\ m0 <= cre (matl (K := CC) mu c i).

  Lemma bounded (E H J M : field CC) :
    feq (K := CC) sh (fst (eh_full_f (K := CC) sh (mkC om 0) (cw we, cw wh) eps mu E H)) J ->
    feq (K := CC) sh (snd (eh_full_f (K := CC) sh (mkC om 0) (cw we, cw wh) eps mu E H)) (fun c i => copp (M c i)) ->
    let k := (1 / d + (e1 / d + 1) / m0) / om in
    nE E + nH H <= k * k * (nE J + nH M).
  Proof.
    intros A B k. pose proof (total_power sh we wh om eps mu HL nz_e nz_h E H J M A B) as T. pose proof (reactive E H J M A B) as R.
    assert (PE : 0 <= nE E) by (apply fsum_nonneg_r; intros c i Hc Hi; apply Rmult_le_pos; [left; now apply ve_pos|apply cnrm_pos]).
    assert (PH : 0 <= nH H) by (apply fsum_nonneg_r; intros c i Hc Hi; apply Rmult_le_pos; [left; now apply vh_pos|apply cnrm_pos]).
    assert (PJ : 0 <= nE J) by (apply fsum_nonneg_r; intros c i Hc Hi; apply Rmult_le_pos; [left; now apply ve_pos|apply cnrm_pos]).
    assert (PM : 0 <= nH M) by (apply fsum_nonneg_r; intros c i Hc Hi; apply Rmult_le_pos; [left; now apply vh_pos|apply cnrm_pos]).
    pose proof (pair_cs E H J M (fun x y => cre (cmul x (cconj y))) ltac:(intros x y t; unfold cnrm, cmul, cconj; cbn [cre cim]; pose proof (Rle_0_sqr (cre x - t * cre y)) as P; pose proof (Rle_0_sqr (cim x - t * cim y)) as P'; unfold Rsqr in *; lra)) as C1. cbv beta zeta in C1.
    pose proof (pair_cs E H J (fun c i => copp (M c i)) (fun x y => cim (cmul x (cconj y))) ltac:(intros x y t; unfold cnrm, cmul, cconj; cbn [cre cim]; pose proof (Rle_0_sqr (cre x + t * cim y)) as P; pose proof (Rle_0_sqr (cim x - t * cre y)) as P'; unfold Rsqr in *; lra)) as C2. cbv beta zeta in C2.
    replace (fsum (K := RF) sh (fun c i => vol_h (K := RF) we wh c i * cnrm (copp (M c i)))) with (nH M) in C2 by (apply fsum_ext_r; intros; unfold cnrm; cbn; ring).
    replace (fsum (K := RF) sh (fun c i => vol_h (K := RF) we wh c i * cre (cmul (H c i) (cconj (M c i))))) with (fsum (K := RF) sh (fun c i => vol_h (K := RF) we wh c i * cre (cmul (M c i) (cconj (H c i))))) in C1
      by (apply fsum_ext_r; intros; cbn; ring).
    replace (fsum (K := RF) sh (fun c i => vol_h (K := RF) we wh c i * cim (cmul (H c i) (cconj (copp (M c i)))))) with (fsum (K := RF) sh (fun c i => vol_h (K := RF) we wh c i * cim (cmul (M c i) (cconj (H c i))))) in C2
      by (apply fsum_ext_r; intros; cbn; ring).
    rewrite T in C1. rewrite R in C2.
    set (eI := fsum (K := RF) sh (fun c i => vol_e (K := RF) we wh c i * (cim (eps c i) * cnrm (E c i)))) in *.
    set (hI := fsum (K := RF) sh (fun c i => vol_h (K := RF) we wh c i * (cim (matl (K := CC) mu c i) * cnrm (H c i)))) in *.
    set (eR := fsum (K := RF) sh (fun c i => vol_e (K := RF) we wh c i * (cre (eps c i) * cnrm (E c i)))) in *.
    set (hR := fsum (K := RF) sh (fun c i => vol_h (K := RF) we wh c i * (cre (matl (K := CC) mu c i) * cnrm (H c i)))) in *.
    assert (Q1 : eI <= (- d) * nE E).
    { unfold eI. rewrite <- fsum_mul_r. apply fsum_le_r. intros c i Hc Hi. pose proof (ve_pos c i Hi). destruct (Heps c i Hc Hi) as [X _]. pose proof (cnrm_pos (E c i)).
      assert (cim (eps c i) * cnrm (E c i) <= (- d) * cnrm (E c i)) by (apply Rmult_le_compat_r; assumption). replace ((- d) * (vol_e (K := RF) we wh c i * cnrm (E c i))) with (vol_e (K := RF) we wh c i * ((- d) * cnrm (E c i))) by (cbn; ring). apply Rmult_le_compat_l; lra. }
    assert (Q2 : hI <= 0 * nH H).
    { unfold hI. rewrite <- fsum_mul_r. apply fsum_le_r. intros c i Hc Hi. pose proof (vh_pos c i Hi). destruct (Hmu c i Hc Hi) as [X _]. pose proof (cnrm_pos (H c i)).
      assert (cim (matl (K := CC) mu c i) * cnrm (H c i) <= 0 * cnrm (H c i)) by (apply Rmult_le_compat_r; assumption). replace (0 * (vol_h (K := RF) we wh c i * cnrm (H c i))) with (vol_h (K := RF) we wh c i * (0 * cnrm (H c i))) by (cbn; ring). apply Rmult_le_compat_l; lra. }
    assert (Q3 : eR <= e1 * nE E).
    { unfold eR. rewrite <- fsum_mul_r. apply fsum_le_r. intros c i Hc Hi. pose proof (ve_pos c i Hi). destruct (Heps c i Hc Hi) as [_ X]. pose proof (cnrm_pos (E c i)).
      assert (cre (eps c i) * cnrm (E c i) <= e1 * cnrm (E c i)) by (apply Rmult_le_compat_r; assumption). replace (e1 * (vol_e (K := RF) we wh c i * cnrm (E c i))) with (vol_e (K := RF) we wh c i * (e1 * cnrm (E c i))) by (cbn; ring). apply Rmult_le_compat_l; lra. }
    assert (Q4 : m0 * nH H <= hR).
    { unfold hR. rewrite <- fsum_mul_r. apply fsum_le_r. intros c i Hc Hi. pose proof (vh_pos c i Hi). destruct (Hmu c i Hc Hi) as [_ X]. pose proof (cnrm_pos (H c i)).
      assert (m0 * cnrm (H c i) <= cre (matl (K := CC) mu c i) * cnrm (H c i)) by (apply Rmult_le_compat_r; assumption). replace (m0 * (vol_h (K := RF) we wh c i * cnrm (H c i))) with (vol_h (K := RF) we wh c i * (m0 * cnrm (H c i))) by (cbn; ring). apply Rmult_le_compat_l; lra. }
    clearbody eI hI eR hR. clear T R A B.
    set (ne := nE E) in *. set (nh := nH H) in *. set (nJ := nE J) in *. set (nM := nH M) in *. clearbody ne nh nJ nM.
    set (A := ne + nh) in *. set (C := nJ + nM) in *. assert (A0 : 0 <= A) by (unfold A; lra). assert (C0 : 0 <= C) by (unfold C; lra).
    set (x := sqrt A). set (y := sqrt C). assert (Xx : x * x = A) by now apply sqrt_sqrt. assert (Yy : y * y = C) by now apply sqrt_sqrt.
    assert (X0 : 0 <= x) by apply sqrt_pos. assert (Y0 : 0 <= y) by apply sqrt_pos.
    assert (XY : 0 <= x * y) by now apply Rmult_le_pos.
    assert (R1 : om * (- (eI + hI)) <= x * y). { apply Rsqr_incr_0_var; [|exact XY]. unfold Rsqr. replace (x * y * (x * y)) with (A * C) by (rewrite <- Xx, <- Yy; ring). lra. }
    assert (R2 : om * (hR - eR) <= x * y). { apply Rsqr_incr_0_var; [|exact XY]. unfold Rsqr. replace (x * y * (x * y)) with (A * C) by (rewrite <- Xx, <- Yy; ring). lra. }
    assert (S1 : ne <= x * y / (om * d)).
    { apply (Rmult_le_reg_r (om * d)); [now apply Rmult_lt_0_compat|]. replace (x * y / (om * d) * (om * d)) with (x * y) by (field; lra).
      assert (om * (d * ne) <= om * (- (eI + hI))) by (apply Rmult_le_compat_l; lra). lra. }
    assert (S2 : nh <= (e1 * ne + x * y / om) / m0).
    { apply (Rmult_le_reg_r m0); [assumption|]. replace ((e1 * ne + x * y / om) / m0 * m0) with (e1 * ne + x * y / om) by (field; lra).
      assert (om * (m0 * nh - e1 * ne) <= om * (hR - eR)) by (apply Rmult_le_compat_l; lra).
      assert (m0 * nh - e1 * ne <= x * y / om); [|lra]. apply (Rmult_le_reg_l om); [assumption|]. replace (om * (x * y / om)) with (x * y) by (field; lra). lra. }
    assert (S3 : A <= k * (x * y)).
    { unfold A. assert ((e1 * ne + x * y / om) / m0 <= (e1 * (x * y / (om * d)) + x * y / om) / m0).
      { unfold Rdiv at 1 3. apply Rmult_le_compat_r; [left; now apply Rinv_0_lt_compat|]. apply Rplus_le_compat_r. now apply Rmult_le_compat_l. }
      replace (k * (x * y)) with (x * y / (om * d) + (e1 * (x * y / (om * d)) + x * y / om) / m0) by (unfold k; field; lra). lra. }
    assert (K0 : 0 <= k). { unfold k. apply Rmult_le_pos; [|left; now apply Rinv_0_lt_compat]. assert (0 < 1 / d) by (apply Rdiv_lt_0_compat; lra). assert (0 <= (e1 / d + 1) / m0). { apply Rmult_le_pos; [|left; now apply Rinv_0_lt_compat]. assert (0 <= e1 / d) by (apply Rmult_le_pos; [lra|left; now apply Rinv_0_lt_compat]). lra. } lra. }
    rewrite <- Xx in S3. destruct (Req_EM_T x 0) as [Z|Z].
    - rewrite <- Xx, Z. replace (0 * 0) with 0 by ring. clearbody k. repeat apply Rmult_le_pos; assumption.
    - assert (x <= k * y). { apply (Rmult_le_reg_l x); [lra|]. lra. }
      rewrite <- Xx, <- Yy. replace (k * k * (y * y)) with (k * y * (k * y)) by ring. apply Rmult_le_compat; lra.
  Qed.
End S.
