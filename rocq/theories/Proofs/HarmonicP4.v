(** Power balance for real widths and frequency, and uniqueness with loss. *)
From Coq Require Import Reals Lra List Arith ZArith Lia Bool.
From Verif.Lib Require Import Num Sums Idx Mat RealF.
From Verif.Model Require Import Fdmath Fdtd Fdfd.
From Verif.Spec Require Import Yee FdtdRun HarmonicSpec.
From Verif.Proofs Require Import FdmathP FdtdP2 FdtdP BlochP2 HarmonicP HarmonicP3.
Import ListNotations.
Local Open Scope R_scope.

Ltac rring := match goal with |- @eq _ ?x ?y => change (@eq R x y) end; cbn [fadd fmul fopp fsub f0 f1 RF]; ring.

Lemma re_vol (we wh : widths RF) c idx x : cre (cmul (vol_e (K := CC) (cw we) (cw wh) c idx) x) = vol_e (K := RF) we wh c idx * cre x.
Proof.
  assert (Q : forall a b g y, cre (cmul (cmul (cmul (mkC a 0) (mkC b 0)) (mkC g 0)) y) = a * b * g * cre y)
    by (intros; unfold cmul; cbn [cre cim]; ring).
  destruct c as [|[|c]]; exact (Q _ _ _ _).
Qed.
Lemma re_csum (f : nat -> cpx) : cre (csum (K := CC) f) = csum (K := RF) (fun c => cre (f c)).
Proof. reflexivity. Qed.
Lemma csum_ext_r (f g : nat -> R) : (forall c, f c = g c) -> csum (K := RF) f = csum (K := RF) g.
Proof. intro H. unfold csum. now rewrite !H. Qed.

Lemma loss_e om eps E : cre (cmul E (cconj (cmul (cmul ci (mkC om 0)) (cmul eps E)))) = - (om * (cim eps * cnrm E)).
Proof. unfold cconj, ci, cmul, cnrm. cbn [cre cim]. ring. Qed.
Lemma loss_h om mu H : cre (cmul (cmul (cmul ci (mkC om 0)) (cmul mu H)) (cconj H)) = - (om * (cim mu * cnrm H)).
Proof. unfold cconj, ci, cmul, cnrm. cbn [cre cim]. ring. Qed.

Lemma gsum_lin sh (a b c e : list nat -> R) k : gsum (K := RF) sh (fun i => - a i - b i + k * (c i + e i))
  = - gsum (K := RF) sh a - gsum (K := RF) sh b + k * (gsum (K := RF) sh c + gsum (K := RF) sh e).
Proof.
  rewrite !(gsum_flat RF). induction (prodl sh) as [|n IH]; cbn [sumN].
  - rring.
  - rewrite IH. rring.
Qed.

Section P.
  Variable sh : list nat.
  Variables (we wh : widths RF) (om : R) (eps : field CC) (mu : option (field CC)).
  Hypothesis HL : length sh = 3%nat.
  Hypothesis He : nzw (K := RF) sh we.
  Hypothesis Hh : nzw (K := RF) sh wh.

  Lemma cw_nz (w : widths RF) : nzw (K := RF) sh w -> nzw (K := CC) sh (cw w).
  Proof. intros H a i Ha Hi X. apply (f_equal cre) in X. exact (H a i Ha Hi X). Qed.
  Lemma cw_real (w : widths RF) : realw (K := CC) (cw w).
  Proof. intros a i. apply cpx_ext; [reflexivity|exact Ropp_0]. Qed.

  Lemma power_balance (E H J M : field CC) idx : inb sh idx ->
    feq (K := CC) sh (fst (eh_full_f (K := CC) sh (mkC om 0) (cw we, cw wh) eps mu E H)) J ->
    feq (K := CC) sh (snd (eh_full_f (K := CC) sh (mkC om 0) (cw we, cw wh) eps mu E H)) (fun c i => copp (M c i)) ->
    cre (divergence_of (K := CC) sh (poynting (K := CC) sh (Some (cw we, cw wh)) E (cjf (K := CC) H)) idx)
    = - csum (K := RF) (fun c => vol_e (K := RF) we wh c idx * cre (cmul (E c idx) (cconj (J c idx))))
      - csum (K := RF) (fun c => vol_h (K := RF) we wh c idx * cre (cmul (M c idx) (cconj (H c idx))))
      + om * (csum (K := RF) (fun c => vol_e (K := RF) we wh c idx * (cim (eps c idx) * cnrm (E c idx)))
              + csum (K := RF) (fun c => vol_h (K := RF) we wh c idx * (cim (matl (K := CC) mu c idx) * cnrm (H c idx)))).
  Proof.
    intros Hi A B.
    pose proof (complex_poynting CC sh (mkC om 0) (cw we, cw wh) eps mu E H J M idx HL (cw_nz we He) (cw_nz wh Hh) (cw_real wh) Hi A B) as Q.
    apply (f_equal cre) in Q. refine (eq_trans Q _). clear Q. cbn [fst snd].
    set (s1 := csum (K := CC) _). set (s2 := csum (K := CC) _) at 1. set (s3 := csum (K := CC) _) at 1. set (s4 := csum (K := CC) _) at 1.
    change (- cre s1 - cre s2 - cre s3 - cre s4 =
      - csum (K := RF) (fun c => vol_e (K := RF) we wh c idx * cre (cmul (E c idx) (cconj (J c idx))))
      - csum (K := RF) (fun c => vol_h (K := RF) we wh c idx * cre (cmul (M c idx) (cconj (H c idx))))
      + om * (csum (K := RF) (fun c => vol_e (K := RF) we wh c idx * (cim (eps c idx) * cnrm (E c idx)))
              + csum (K := RF) (fun c => vol_h (K := RF) we wh c idx * (cim (matl (K := CC) mu c idx) * cnrm (H c idx))))).
    assert (S1 : cre s1 = csum (K := RF) (fun c => vol_e (K := RF) we wh c idx * cre (cmul (E c idx) (cconj (J c idx))))).
    { unfold s1. rewrite re_csum. apply csum_ext_r. intro c. apply re_vol. }
    assert (S2 : cre s2 = csum (K := RF) (fun c => vol_h (K := RF) we wh c idx * cre (cmul (M c idx) (cconj (H c idx))))).
    { unfold s2. rewrite re_csum. apply csum_ext_r. intro c. apply (re_vol wh we). }
    assert (S3 : cre s3 = - (om * csum (K := RF) (fun c => vol_e (K := RF) we wh c idx * (cim (eps c idx) * cnrm (E c idx))))).
    { unfold s3. rewrite re_csum.
      rewrite (csum_ext_r _ (fun c => vol_e (K := RF) we wh c idx * - (om * (cim (eps c idx) * cnrm (E c idx))))).
      - unfold csum. cbn [fadd RF]. ring.
      - intro c. refine (eq_trans (re_vol we wh c idx _) _). f_equal. exact (loss_e _ _ _). }
    assert (S4 : cre s4 = - (om * csum (K := RF) (fun c => vol_h (K := RF) we wh c idx * (cim (matl (K := CC) mu c idx) * cnrm (H c idx))))).
    { unfold s4. rewrite re_csum.
      rewrite (csum_ext_r _ (fun c => vol_h (K := RF) we wh c idx * - (om * (cim (matl (K := CC) mu c idx) * cnrm (H c idx))))).
      - unfold csum. cbn [fadd RF]. ring.
      - intro c. refine (eq_trans (re_vol wh we c idx _) _). unfold vol_h. f_equal. exact (loss_h _ _ _). }
    rewrite S1, S2, S3, S4. ring.
  Qed.

  Lemma fsum_csum (f : nat -> list nat -> R) : fsum (K := RF) sh f = gsum (K := RF) sh (fun i => csum (K := RF) (fun c => f c i)).
  Proof. unfold fsum, csum. now rewrite !(gsum_add RF). Qed.

  Lemma total_power (E H J M : field CC) :
    feq (K := CC) sh (fst (eh_full_f (K := CC) sh (mkC om 0) (cw we, cw wh) eps mu E H)) J ->
    feq (K := CC) sh (snd (eh_full_f (K := CC) sh (mkC om 0) (cw we, cw wh) eps mu E H)) (fun c i => copp (M c i)) ->
    fsum (K := RF) sh (fun c i => vol_e (K := RF) we wh c i * cre (cmul (E c i) (cconj (J c i))))
    + fsum (K := RF) sh (fun c i => vol_h (K := RF) we wh c i * cre (cmul (M c i) (cconj (H c i))))
    = om * (fsum (K := RF) sh (fun c i => vol_e (K := RF) we wh c i * (cim (eps c i) * cnrm (E c i)))
            + fsum (K := RF) sh (fun c i => vol_h (K := RF) we wh c i * (cim (matl (K := CC) mu c i) * cnrm (H c i)))).
  Proof.
    intros A B. pose proof (gsum_divergence CC sh (poynting (K := CC) sh (Some (cw we, cw wh)) E (cjf (K := CC) H)) HL) as Z.
    apply (f_equal cre) in Z. rewrite cre_gsum in Z.
    rewrite (gsum_ext (K := RF) sh _ _ (fun i Hi => power_balance E H J M i Hi A B)) in Z.
    rewrite !fsum_csum.
    rewrite (gsum_lin sh) in Z.
    cbn [f0 CC cfld CF c0 cre] in Z. cbv beta in Z |- *.
    match goal with |- ?x + ?y = _ => set (X := x) in *; set (Y := y) in * end.
    match goal with |- _ = om * (?x + ?y) => set (V := x) in *; set (W := y) in * end.
    change (- X - Y + om * (V + W) = 0) in Z. lra.
  Qed.

  Hypothesis Hpos_e : forall a i, (a < 3)%nat -> (i < dim sh a)%nat -> 0 < we a i.
  Hypothesis Hpos_h : forall a i, (a < 3)%nat -> (i < dim sh a)%nat -> 0 < wh a i.

  Lemma vol_pos_e c i : inb sh i -> 0 < vol_e (K := RF) we wh c i.
  Proof.
    intro Hi. assert (D : forall a, (a < 3)%nat -> (coord i a < dim sh a)%nat) by (intros a Ha; apply inb_coord; [exact Hi|lia]).
    destruct c as [|[|c]]; repeat apply Rmult_lt_0_compat; try apply Hpos_e; try apply Hpos_h; try apply D; lia.
  Qed.
  Lemma vol_pos_h c i : inb sh i -> 0 < vol_h (K := RF) we wh c i.
  Proof.
    intro Hi. assert (D : forall a, (a < 3)%nat -> (coord i a < dim sh a)%nat) by (intros a Ha; apply inb_coord; [exact Hi|lia]).
    destruct c as [|[|c]]; repeat apply Rmult_lt_0_compat; try apply Hpos_e; try apply Hpos_h; try apply D; lia.
  Qed.

  Lemma lossy_zero (E H : field CC) : 0 < om ->
    (forall c i, (c < 3)%nat -> inb sh i -> cim (eps c i) < 0) ->
    (forall c i, (c < 3)%nat -> inb sh i -> cim (matl (K := CC) mu c i) <= 0) ->
    feq (K := CC) sh (fst (eh_full_f (K := CC) sh (mkC om 0) (cw we, cw wh) eps mu E H)) (noj (K := CC)) ->
    feq (K := CC) sh (snd (eh_full_f (K := CC) sh (mkC om 0) (cw we, cw wh) eps mu E H)) (noj (K := CC)) ->
    feq (K := CC) sh E (noj (K := CC)).
  Proof.
    intros Hom Ie Im A B.
    assert (B' : feq (K := CC) sh (snd (eh_full_f (K := CC) sh (mkC om 0) (cw we, cw wh) eps mu E H)) (fun c i => copp (noj (K := CC) c i))).
    { intros c i Hc Hi. rewrite (B c i Hc Hi). apply cpx_ext; symmetry; exact Ropp_0. }
    pose proof (total_power E H _ _ A B') as T.
    assert (Z1 : fsum (K := RF) sh (fun c i => vol_e (K := RF) we wh c i * cre (cmul (E c i) (cconj (noj (K := CC) c i)))) = 0).
    { unfold fsum. rewrite !(gsum_zero RF); [exact (eq_trans (Rplus_0_r _) (Rplus_0_r _))| | |];
        intros i Hi; unfold cmul, cconj; cbn [cre cim]; cbn [fmul RF f0]; change (noj (K := CC) _ i) with c0; cbn [cre cim c0]; rring. }
    assert (Z2 : fsum (K := RF) sh (fun c i => vol_h (K := RF) we wh c i * cre (cmul (noj (K := CC) c i) (cconj (H c i)))) = 0).
    { unfold fsum. rewrite !(gsum_zero RF); [exact (eq_trans (Rplus_0_r _) (Rplus_0_r _))| | |];
        intros i Hi; unfold cmul, cconj; cbn [cre cim]; cbn [fmul RF f0]; change (noj (K := CC) _ i) with c0; cbn [cre cim c0]; rring. }
    rewrite Z1, Z2 in T.
    set (a := fun c i => - (vol_e (K := RF) we wh c i * (cim (eps c i) * cnrm (E c i)))).
    set (b := fun c i => - (vol_h (K := RF) we wh c i * (cim (matl (K := CC) mu c i) * cnrm (H c i)))).
    assert (Cn : forall x, 0 <= cnrm x) by (intro x; unfold cnrm; nra).
    assert (Pa : forall c i, (c < 3)%nat -> inb sh i -> 0 <= a c i).
    { intros c i Hc Hi. unfold a. pose proof (vol_pos_e c i Hi) as V. pose proof (Ie c i Hc Hi) as N. pose proof (Cn (E c i)) as X.
      assert (0 <= (- cim (eps c i)) * cnrm (E c i)) by (apply Rmult_le_pos; lra).
      assert (0 <= vol_e (K := RF) we wh c i * ((- cim (eps c i)) * cnrm (E c i))) by (apply Rmult_le_pos; lra). lra. }
    assert (Pb : forall c i, (c < 3)%nat -> inb sh i -> 0 <= b c i).
    { intros c i Hc Hi. unfold b. pose proof (vol_pos_h c i Hi) as V. pose proof (Im c i Hc Hi) as N. pose proof (Cn (H c i)) as X.
      assert (0 <= (- cim (matl (K := CC) mu c i)) * cnrm (H c i)) by (apply Rmult_le_pos; lra).
      assert (0 <= vol_h (K := RF) we wh c i * ((- cim (matl (K := CC) mu c i)) * cnrm (H c i))) by (apply Rmult_le_pos; lra). lra. }
    assert (NA : fsum (K := RF) sh (fun c i => vol_e (K := RF) we wh c i * (cim (eps c i) * cnrm (E c i))) = - fsum (K := RF) sh a).
    { unfold fsum, a. rewrite !(gsum_opp RF). rring. }
    assert (NB : fsum (K := RF) sh (fun c i => vol_h (K := RF) we wh c i * (cim (matl (K := CC) mu c i) * cnrm (H c i))) = - fsum (K := RF) sh b).
    { unfold fsum, b. rewrite !(gsum_opp RF). rring. }
    rewrite NA, NB in T.
    assert (Ga : forall c, (c < 3)%nat -> 0 <= gsum (K := RF) sh (a c)) by (intros c Hc; apply gsum_nonneg; intros; now apply Pa).
    assert (Gb : forall c, (c < 3)%nat -> 0 <= gsum (K := RF) sh (b c)) by (intros c Hc; apply gsum_nonneg; intros; now apply Pb).
    pose proof (Ga 0%nat ltac:(lia)) as A0. pose proof (Ga 1%nat ltac:(lia)) as A1. pose proof (Ga 2%nat ltac:(lia)) as A2.
    pose proof (Gb 0%nat ltac:(lia)) as B0. pose proof (Gb 1%nat ltac:(lia)) as B1. pose proof (Gb 2%nat ltac:(lia)) as B2.
    unfold fsum in T. cbn [fadd RF] in T.
    assert (S : gsum (K := RF) sh (a 0%nat) + gsum (K := RF) sh (a 1%nat) + gsum (K := RF) sh (a 2%nat) + (gsum (K := RF) sh (b 0%nat) + gsum (K := RF) sh (b 1%nat) + gsum (K := RF) sh (b 2%nat)) = 0) by nra.
    intros c i Hc Hi.
    assert (G : gsum (K := RF) sh (a c) = 0) by (destruct c as [|[|[|c]]]; [| | |lia]; lra).
    pose proof (gsum_ge_term sh (a c) i Hi (fun j Hj => Pa c j Hc Hj)) as T2. rewrite G in T2.
    pose proof (vol_pos_e c i Hi) as V. pose proof (Ie c i Hc Hi) as N. pose proof (Cn (E c i)) as X. unfold a in T2.
    assert (Y : cnrm (E c i) = 0).
    { destruct (Rle_lt_or_eq_dec 0 _ X) as [P|P]; [|now symmetry].
      assert (0 < vol_e (K := RF) we wh c i * ((- cim (eps c i)) * cnrm (E c i))) by (repeat apply Rmult_lt_0_compat; lra). lra. }
    unfold cnrm in Y. apply cpx_ext; change (cre (noj (K := CC) c i)) with 0; change (cim (noj (K := CC) c i)) with 0; nra.
  Qed.
End P.
