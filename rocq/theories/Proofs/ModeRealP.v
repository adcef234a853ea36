(** Power, energy and absorption of waveguide modes over the complex numbers. *)
From Coq Require Import List Arith ZArith Lia Bool Reals Lra Psatz.
From Verif.Lib Require Import Num Sums Idx Mat RealF Limits.
From Verif.Model Require Import Fdmath Fdfd Waveguide2d.
From Verif.Spec Require Import Grid Yee WaveguideSpec HarmonicSpec ModeSpec.
From Verif.Proofs Require Import FdmathP FdfdP WaveguideP4 GridP EmeP DrivenP ResonanceP ModeFluxP.
From Verif.Proofs Require BlochP2.
Import ListNotations.
Local Open Scope R_scope.

Notation cfsum := (fsum (K := CC)).
Notation rfsum := (fsum (K := RF)).
Ltac toR := match goal with |- ?a = ?b => change (a = b :> R) end.

Lemma cre_fsum sh (f : nat -> list nat -> cpx) : cre (cfsum sh f) = rfsum sh (fun c i => cre (f c i)).
Proof. unfold fsum. rewrite <- !BlochP2.cre_gsum. reflexivity. Qed.
Lemma cim_fsum sh (f : nat -> list nat -> cpx) : cim (cfsum sh f) = rfsum sh (fun c i => cim (f c i)).
Proof. unfold fsum. rewrite <- !cim_gsum. reflexivity. Qed.
Lemma area_cw we wh c i : area_e (K := CC) (cw we) (cw wh) c i = mkC (area_e (K := RF) we wh c i) 0.
Proof. unfold area_e, cw. destruct c as [|[|c]]; apply cpx_ext; cbn; try toR; ring. Qed.

Lemma area_h_cw we wh c i : area_h (K := CC) (cw we) (cw wh) c i = mkC (area_h (K := RF) we wh c i) 0.
Proof. apply area_cw. Qed.
Lemma cim_fadd (x y : CC) : cim (fadd x y) = cim x + cim y. Proof. reflexivity. Qed.
Lemma cre_fadd (x y : CC) : cre (fadd x y) = cre x + cre y. Proof. reflexivity. Qed.

Lemma rg_lin sh k l (f g h : list nat -> R) : gsum (K := RF) sh (fun i => f i + k * g i - l * h i) = gsum (K := RF) sh f + k * gsum (K := RF) sh g - l * gsum (K := RF) sh h.
Proof.
  pose proof (@gsum_sub RF sh (fun i => f i + k * g i) (fun i => l * h i)) as A. pose proof (@gsum_add RF sh f (fun i => k * g i)) as B.
  pose proof (@gsum_mul_l RF sh k g) as C. pose proof (@gsum_mul_l RF sh l h) as D. cbn [fadd fsub fmul RF] in *. lra.
Qed.

Lemma fsum_pos_r sh (f : nat -> list nat -> R) : (forall c i, (c < 3)%nat -> inb sh i -> 0 <= f c i) ->
  (exists c i, (c < 3)%nat /\ inb sh i /\ 0 < f c i) -> 0 < fsum (K := RF) sh f.
Proof.
  intros N [c [i [Hc [Hi P]]]]. unfold fsum. cbn [fadd RF].
  assert (G : forall b, (b < 3)%nat -> 0 <= gsum (K := RF) sh (f b)) by (intros b Hb; apply gsum_nonneg; intros j Hj; now apply N).
  pose proof (gsum_ge_term sh (f c) i Hi (fun j Hj => N c j Hc Hj)) as T.
  pose proof (G 0%nat ltac:(lia)). pose proof (G 1%nat ltac:(lia)). pose proof (G 2%nat ltac:(lia)).
  destruct c as [|[|[|c]]]; [| | |lia]; lra.
Qed.
Lemma cnn_r x : 0 <= cnrm x. Proof. unfold cnrm. nra. Qed.

Lemma cv_sumN n (f : nat -> nat -> R) g : (forall j, (j < n)%nat -> Un_cv (fun k => f k j) (g j)) ->
  Un_cv (fun k => sumN (K := RF) n (f k)) (sumN (K := RF) n g).
Proof.
  induction n as [|n IH]; intro H.
  - apply (cv_const 0).
  - apply (CV_plus (fun k => sumN (K := RF) n (f k)) (fun k => f k n)); [apply IH; intros; apply H; lia|apply H; lia].
Qed.
Lemma cv_gsum sh : forall (f : nat -> list nat -> R) g, (forall i, inb sh i -> Un_cv (fun k => f k i) (g i)) ->
  Un_cv (fun k => gsum (K := RF) sh (f k)) (gsum (K := RF) sh g).
Proof.
  induction sh as [|n ns IH]; intros f g H; cbn [gsum].
  - apply H. constructor.
  - apply (cv_sumN n (fun k j => gsum (K := RF) ns (fun r => f k (j :: r)))). intros j Hj. apply IH. intros i Hi. apply H. now constructor.
Qed.
Lemma cv_fsum sh (f : nat -> nat -> list nat -> R) g : (forall c i, (c < 3)%nat -> inb sh i -> Un_cv (fun k => f k c i) (g c i)) ->
  Un_cv (fun k => rfsum sh (f k)) (rfsum sh g).
Proof.
  intro H. unfold fsum. cbn [fadd RF].
  apply (CV_plus (fun k => gsum (K := RF) sh (f k 0%nat) + gsum (K := RF) sh (f k 1%nat)) (fun k => gsum (K := RF) sh (f k 2%nat))).
  - apply (CV_plus (fun k => gsum (K := RF) sh (f k 0%nat)) (fun k => gsum (K := RF) sh (f k 1%nat))); apply cv_gsum; intros; apply H; (lia || assumption).
  - apply cv_gsum; intros; apply H; (lia || assumption).
Qed.
Lemma cv_lin u v a b p q : Un_cv u a -> Un_cv v b -> Un_cv (fun n => p * u n + q * v n) (p * a + q * b).
Proof. intros A B. apply (CV_plus (fun n => p * u n) (fun n => q * v n)); [apply (CV_mult (fun _ => p) u)|apply (CV_mult (fun _ => q) v)]; auto using cv_const. Qed.

Lemma cmul_0 c z : c <> c0 -> cmul c z = c0 -> z = c0.
Proof.
  intros N E. pose proof (cnrm_nz c N) as Q. destruct c as [a b], z as [x y]. pose proof (f_equal cre E) as E1. pose proof (f_equal cim E) as E2.
  cbn in E1, E2. unfold cnrm in Q. cbn in Q. apply cpx_ext; cbn; apply (Rmult_eq_reg_l (a * a + b * b)); try lra; rewrite Rmult_0_r.
  - replace ((a * a + b * b) * x) with (a * (a * x - b * y) + b * (a * y + b * x)) by ring. rewrite E1, E2. ring.
  - replace ((a * a + b * b) * y) with (a * (a * y + b * x) - b * (a * x - b * y)) by ring. rewrite E1, E2. ring.
Qed.

Section M.
  Variable sh : list nat.
  Hypothesis HL : length sh = 2%nat.
  Variables we wh : widths RF.
  Hypothesis Hw : forall a i, (a < 2)%nat -> (i < dim sh a)%nat -> 0 < we a i /\ 0 < wh a i.

  Lemma nz_e : nzw (K := CC) sh (cw we).
  Proof. intros a i Ha Hi E. rewrite HL in Ha. destruct (Hw a i Ha Hi) as [P _]. apply (f_equal cre) in E. cbn in E. lra. Qed.
  Lemma nz_h : nzw (K := CC) sh (cw wh).
  Proof. intros a i Ha Hi E. rewrite HL in Ha. destruct (Hw a i Ha Hi) as [_ P]. apply (f_equal cre) in E. cbn in E. lra. Qed.
  Lemma real_w w : realw (K := CC) (cw w).
  Proof. intros a i. apply cpx_ext; [reflexivity|]; exact Ropp_0. Qed.
  Lemma area_pos c i : inb sh i -> 0 < area_e (K := RF) we wh c i /\ 0 < area_h (K := RF) we wh c i.
  Proof.
    intro Hi. destruct (Hw 0%nat (coord i 0) ltac:(lia) ltac:(apply inb_coord; [exact Hi|lia])) as [A B].
    destruct (Hw 1%nat (coord i 1) ltac:(lia) ltac:(apply inb_coord; [exact Hi|lia])) as [C D].
    unfold area_h, area_e. destruct c as [|[|c]]; cbn [fmul RF]; split; now apply Rmult_lt_0_compat.
  Qed.

  Notation fl := (flux (K := CC) sh (cw we) (cw wh)).
  Lemma flux_conj e h : fl (conjf (K := CC) e) h = cconj (fl e (conjf (K := CC) h)).
  Proof.
    unfold flux. apply cpx_ext.
    - cbn [cconj cre]. rewrite !BlochP2.cre_gsum. apply (@gsum_ext RF). intros i _. unfold conjf, cw. cbn. toR. ring.
    - cbn [cconj cim]. rewrite !cim_gsum. cbn [cim]. rewrite <- (@gsum_opp RF). apply (@gsum_ext RF). intros i _. unfold conjf, cw. cbn. toR. ring.
  Qed.

  (** Real frequency: the imaginary part of the wavenumber times the power is the absorbed power. *)
  Lemma absorption w beta eps mu e h : is_mode (K := CC) sh (cw we) (cw wh) (mkC w 0) beta eps mu e h ->
    2 * cim beta * cre (fl e (conjf (K := CC) h))
    = w * (rfsum sh (fun c i => area_e (K := RF) we wh c i * (cim (eps c i) * cnrm (e c i)))
         + rfsum sh (fun c i => area_h (K := RF) we wh c i * (cim (mu c i) * cnrm (h c i)))).
  Proof.
    intro M. pose proof (exchange CC sh HL (cw we) (cw wh) nz_e nz_h (real_w we) (real_w wh) _ _ _ _ _ _ _ _ _ _ _ _ M M) as E.
    rewrite flux_conj in E. apply (f_equal cim) in E. match type of E with ?l = _ => set (LL := l) in E end. rewrite cim_fadd, !cim_fsum in E. subst LL.
    set (F := fl e (conjf (K := CC) h)) in *. clearbody F.
    assert (L : cim (cmul (csub beta (cconj beta)) (cadd (cconj F) F)) = 2 * (2 * cim beta * cre F)) by (cbn; ring).
    rewrite (fsum_ext_r sh _ (fun c i => 2 * w * (area_e (K := RF) we wh c i * (cim (eps c i) * cnrm (e c i))))) in E.
    2:{ intros c i Hc Hi. rewrite area_cw. unfold cnrm. cbn. toR. ring. }
    match type of E with _ = _ + fsum _ ?f => rewrite (fsum_ext_r sh f (fun c i => 2 * w * (area_h (K := RF) we wh c i * (cim (mu c i) * cnrm (h c i))))) in E end.
    2:{ intros c i Hc Hi. rewrite area_h_cw. unfold cnrm. cbn. toR. ring. }
    rewrite !fsum_mul_r in E. pose proof (eq_trans (eq_sym L) E) as T. lra.
  Qed.

  (** Lossless, real wavenumber: as much electric as magnetic energy. *)
  Lemma equipartition w b eps mu e h : is_mode (K := CC) sh (cw we) (cw wh) (mkC w 0) (mkC b 0) eps mu e h -> w <> 0 ->
    (forall c i, (c < 3)%nat -> inb sh i -> cim (eps c i) = 0 /\ cim (mu c i) = 0) ->
    rfsum sh (fun c i => area_e (K := RF) we wh c i * (cre (eps c i) * cnrm (e c i)))
    = rfsum sh (fun c i => area_h (K := RF) we wh c i * (cre (mu c i) * cnrm (h c i))).
  Proof.
    intros M Nw R. pose proof (pair_A CC sh HL (cw we) (cw wh) nz_e nz_h (real_w we) _ _ _ _ _ _ _ _ _ _ _ _ M M) as E.
    apply (f_equal cre) in E. rewrite cre_fadd in E. set (F := fl _ _) in E. clearbody F.
    assert (Z : forall q : CC, q = fmul (fsub (mkC b 0 : CC) (conj (mkC b 0 : CC))) F -> cre q = 0) by (intros q ->; cbn; toR; ring).
    rewrite (Z _ eq_refl), !cre_fsum in E.
    rewrite (fsum_ext_r sh _ (fun c i => w * (area_e (K := RF) we wh c i * (cre (eps c i) * cnrm (e c i))))) in E.
    2:{ intros c i Hc Hi. destruct (R c i Hc Hi) as [R1 _]. rewrite area_cw. unfold cnrm. cbn. rewrite R1. toR. ring. }
    match type of E with _ = fsum _ ?f + _ => rewrite (fsum_ext_r sh f (fun c i => w * (area_h (K := RF) we wh c i * (cre (mu c i) * cnrm (h c i))))) in E end.
    2:{ intros c i Hc Hi. destruct (R c i Hc Hi) as [_ R2]. rewrite area_h_cw. unfold cnrm. cbn. rewrite R2. toR. ring. }
    rewrite !fsum_mul_r in E. apply (Rmult_eq_reg_l w); [|exact Nw]. rewrite Rplus_0_r in E. exact E.
  Qed.

  Notation vx i := (we 0%nat (coord i 0) * wh 1%nat (coord i 1)). Notation vy i := (wh 0%nat (coord i 0) * we 1%nat (coord i 1)).
  Notation vz i := (we 0%nat (coord i 0) * we 1%nat (coord i 1)).
  Notation Bx := (deriv_back (K := CC) sh (Some (cw wh)) 0). Notation By := (deriv_back (K := CC) sh (Some (cw wh)) 1).
  Notation Fx := (deriv_forward (K := CC) sh (Some (cw we)) 0). Notation Fy := (deriv_forward (K := CC) sh (Some (cw we)) 1).
  Notation rg := (gsum (K := RF) sh).
  Notation cg := (gsum (K := CC) sh).

  (** The transverse curl of a field h without divergence. *)
  Lemma curl_transverse (b : R) (a c d : list nat -> cpx) :
    (forall i, inb sh i -> fadd (Fx a i) (Fy c i) = cmul (mkC 0 b) (d i)) ->
    rg (fun i => vx i * cnrm (cadd (By d i) (cmul (mkC 0 b) (c i)))) + rg (fun i => vy i * cnrm (cadd (Bx d i) (cmul (mkC 0 b) (a i))))
    = rg (fun i => vx i * cnrm (By d i)) + rg (fun i => vy i * cnrm (Bx d i))
      + b * b * (rg (fun i => vy i * cnrm (a i)) + rg (fun i => vx i * cnrm (c i))) + 2 * (b * b) * rg (fun i => vz i * cnrm (d i)).
  Proof.
    intro G.
    set (dc := fun i => cconj (d i)).
    pose proof (stx CC sh HL (cw we) (cw wh) nz_e nz_h a dc) as SX. pose proof (sty CC sh HL (cw we) (cw wh) nz_e nz_h c dc) as SY.
    assert (CX : forall i, inb sh i -> Bx dc i = cconj (Bx d i)).
    { intros i Hi. symmetry. apply (conj_bwd CC sh HL (cw wh) nz_h (real_w wh) 0 d i); [lia|exact Hi]. }
    assert (CY : forall i, inb sh i -> By dc i = cconj (By d i)).
    { intros i Hi. symmetry. apply (conj_bwd CC sh HL (cw wh) nz_h (real_w wh) 1 d i); [lia|exact Hi]. }
    (* imaginary part of the cross terms *)
    assert (T : rg (fun i => vy i * cim (cmul (a i) (cconj (Bx d i)))) + rg (fun i => vx i * cim (cmul (c i) (cconj (By d i))))
                = - (b * rg (fun i => vz i * cnrm (d i)))).
    { assert (X1 : rg (fun i => vy i * cim (cmul (a i) (cconj (Bx d i)))) = cim (cg (fun i => fmul (fmul (cw wh 0%nat (coord i 0)) (cw we 1%nat (coord i 1))) (@fmul CC (a i) (Bx dc i))))).
      { rewrite cim_gsum. apply (@gsum_ext RF). intros i Hi. rewrite CX by exact Hi. cbn. toR. ring. }
      assert (X2 : rg (fun i => vx i * cim (cmul (c i) (cconj (By d i)))) = cim (cg (fun i => fmul (fmul (cw we 0%nat (coord i 0)) (cw wh 1%nat (coord i 1))) (@fmul CC (c i) (By dc i))))).
      { rewrite cim_gsum. apply (@gsum_ext RF). intros i Hi. rewrite CY by exact Hi. cbn. toR. ring. }
      apply (f_equal cim) in SX, SY.
      assert (N : forall z : CC, cim (fopp z) = - cim z) by reflexivity. rewrite N in SX, SY. rewrite X1, X2.
      rewrite cim_gsum in SX at 1. rewrite cim_gsum in SY at 1.
      assert (Q : b * rg (fun i => vz i * cnrm (d i)) = rg (fun i => cim (fmul (fmul (cw we 0%nat (coord i 0)) (cw we 1%nat (coord i 1)) : CC) (fmul (dc i : CC) (Fx a i))))
         + rg (fun i => cim (fmul (fmul (cw we 0%nat (coord i 0)) (cw we 1%nat (coord i 1)) : CC) (fmul (dc i : CC) (Fy c i))))).
      { rewrite <- (@gsum_mul_l RF). refine (eq_trans _ (@gsum_add RF sh _ _)). apply (@gsum_ext RF). intros i Hi.
        transitivity (cim (fmul (fmul (cw we 0%nat (coord i 0)) (cw we 1%nat (coord i 1)) : CC) (fmul (dc i : CC) (fadd (Fx a i) (Fy c i))))).
        - rewrite (G i Hi). unfold dc, cnrm. cbn. toR. ring.
        - generalize (Fx a i) (Fy c i). intros p q. cbn. toR. ring. }
      rewrite Q. lra. }
    transitivity (rg (fun i => vx i * cnrm (By d i)) + rg (fun i => vy i * cnrm (Bx d i))
      + b * b * (rg (fun i => vy i * cnrm (a i)) + rg (fun i => vx i * cnrm (c i)))
      - 2 * b * (rg (fun i => vy i * cim (cmul (a i) (cconj (Bx d i)))) + rg (fun i => vx i * cim (cmul (c i) (cconj (By d i)))))).
    2:{ rewrite T. ring. }
    assert (Y1 : rg (fun i => vx i * cnrm (cadd (By d i) (cmul (mkC 0 b) (c i))))
       = rg (fun i => vx i * cnrm (By d i)) + b * b * rg (fun i => vx i * cnrm (c i)) - 2 * b * rg (fun i => vx i * cim (cmul (c i) (cconj (By d i))))).
    { transitivity (rg (fun i => (vx i * cnrm (By d i) + b * b * (vx i * cnrm (c i))) - 2 * b * (vx i * cim (cmul (c i) (cconj (By d i)))))).
      - apply (@gsum_ext RF). intros i Hi. generalize (By d i). intro p. unfold cnrm. cbn. toR. ring.
      - apply rg_lin. }
    assert (Y2 : rg (fun i => vy i * cnrm (cadd (Bx d i) (cmul (mkC 0 b) (a i))))
       = rg (fun i => vy i * cnrm (Bx d i)) + b * b * rg (fun i => vy i * cnrm (a i)) - 2 * b * rg (fun i => vy i * cim (cmul (a i) (cconj (Bx d i))))).
    { transitivity (rg (fun i => (vy i * cnrm (Bx d i) + b * b * (vy i * cnrm (a i))) - 2 * b * (vy i * cim (cmul (a i) (cconj (Bx d i)))))).
      - apply (@gsum_ext RF). intros i Hi. generalize (Bx d i). intro p. unfold cnrm. cbn. toR. ring.
      - apply rg_lin. }
    rewrite Y1, Y2. ring.
  Qed.

  (** The wavenumber is at most that of a plane wave in the densest medium. *)
  Lemma index_bound w b eps mu m Mx e h : is_mode (K := CC) sh (cw we) (cw wh) (mkC w 0) (mkC b 0) eps mu e h ->
    gauss_h (K := CC) sh (cw we) (mkC b 0) mu h -> w <> 0 -> 0 < m ->
    (forall c i, (c < 3)%nat -> inb sh i -> mu c i = mkC m 0) ->
    (forall c i, (c < 3)%nat -> inb sh i -> cim (eps c i) = 0 /\ 0 < cre (eps c i) <= Mx) ->
    (exists c i, (c < 3)%nat /\ inb sh i /\ e c i <> c0) ->
    b * b <= w * w * (Mx * m).
  Proof.
    intros MD GH Nw Pm HM HE NZ.
    assert (GZ : forall i, inb sh i -> fadd (Fx (h 0%nat) i) (Fy (h 1%nat) i) = cmul (mkC 0 b) (h 2%nat i)).
    { intros i Hi. specialize (GH i Hi). change @diff_next with @deriv_forward in GH.
      rewrite (deriv_forward_ext CC sh (Some (cw we)) 0 _ (fun j => fmul (mkC m 0 : CC) (h 0%nat j)) i) in GH by (first [lia|exact Hi|intros j Hj; now rewrite (HM 0%nat j) by (lia || exact Hj)]).
      rewrite (deriv_forward_ext CC sh (Some (cw we)) 1 _ (fun j => fmul (mkC m 0 : CC) (h 1%nat j)) i) in GH by (first [lia|exact Hi|intros j Hj; now rewrite (HM 1%nat j) by (lia || exact Hj)]).
      rewrite !deriv_forward_scale in GH. rewrite (HM 2%nat i ltac:(lia) Hi) in GH.
      revert GH. generalize (Fx (h 0%nat) i) (Fy (h 1%nat) i) (h 2%nat i). intros p q r GH.
      pose proof (f_equal cre GH) as G1. pose proof (f_equal cim GH) as G2. cbn in G1, G2.
      apply cpx_ext; cbn; apply (Rmult_eq_reg_l m); lra. }
    pose proof (curl_transverse b (h 0%nat) (h 1%nat) (h 2%nat) GZ) as CT.
    pose proof MD as [_ Am]. unfold ampere in Am. change @diff_prev with @deriv_back in Am.
    set (SE := rfsum sh (fun c i => area_e (K := RF) we wh c i * (cre (eps c i) * cnrm (e c i)))).
    set (SH := rfsum sh (fun c i => area_h (K := RF) we wh c i * cnrm (h c i))).
    assert (EQ : SE = m * SH).
    { unfold SE, SH. rewrite (equipartition w b eps mu e h MD Nw).
      - rewrite <- fsum_mul_r. apply fsum_ext_r. intros c i Hc Hi. rewrite (HM c i Hc Hi). cbn. toR. ring.
      - intros c i Hc Hi. split; [apply (HE c i Hc Hi)|now rewrite (HM c i Hc Hi)]. }
    assert (PSE : 0 < SE).
    { apply fsum_pos_r.
      - intros c i Hc Hi. destruct (area_pos c i Hi) as [A _]. destruct (HE c i Hc Hi) as [_ [P _]].
        apply Rmult_le_pos; [lra|]. apply Rmult_le_pos; [lra|apply cnn_r].
      - destruct NZ as (c & i & Hc & Hi & N). exists c, i. split; [exact Hc|]. split; [exact Hi|].
        destruct (area_pos c i Hi) as [A _]. destruct (HE c i Hc Hi) as [_ [P _]]. pose proof (cnrm_nz _ N) as Q. pose proof (cnn_r (e c i)).
        apply Rmult_lt_0_compat; [exact A|]. apply Rmult_lt_0_compat; [exact P|lra]. }
    assert (PSH : 0 < SH) by (apply (Rmult_lt_reg_l m); lra).
    (* the curl is omega eps e *)
    set (Q := rfsum sh (fun c i => area_e (K := RF) we wh c i * (cre (eps c i) * cre (eps c i) * cnrm (e c i)))).
    assert (LQ : Q <= Mx * SE).
    { assert (Z : 0 <= rfsum sh (fun c i => area_e (K := RF) we wh c i * (cre (eps c i) * (Mx - cre (eps c i)) * cnrm (e c i)))).
      { apply fsum_nonneg_r. intros c i Hc Hi. destruct (area_pos c i Hi) as [A _]. destruct (HE c i Hc Hi) as [_ [P P2]].
        apply Rmult_le_pos; [lra|]. apply Rmult_le_pos; [apply Rmult_le_pos; lra|apply cnn_r]. }
      rewrite (fsum_ext_r sh _ (fun c i => Mx * (area_e (K := RF) we wh c i * (cre (eps c i) * cnrm (e c i))) + (-1) * (area_e (K := RF) we wh c i * (cre (eps c i) * cre (eps c i) * cnrm (e c i))))) in Z by (intros; toR; ring).
      rewrite fsum_add_r, !fsum_mul_r in Z. fold SE Q in Z. lra. }
    assert (LO : b * b * SH <= w * w * Q).
    { assert (X : rg (fun i => vx i * cnrm (cadd (By (h 2%nat) i) (cmul (mkC 0 b) (h 1%nat i)))) = w * w * rg (fun i => area_e (K := RF) we wh 0 i * (cre (eps 0%nat i) * cre (eps 0%nat i) * cnrm (e 0%nat i)))).
      { rewrite <- (@gsum_mul_l RF). apply (@gsum_ext RF). intros i Hi. destruct (Am i Hi) as (X & _ & _). destruct (HE 0%nat i ltac:(lia) Hi) as [E0 _].
        transitivity (vx i * cnrm (fmul (fmul im (mkC w 0 : CC)) (fmul (eps 0%nat i) (e 0%nat i)))).
        - f_equal. f_equal. rewrite X. apply cpx_ext; cbn; toR; ring.
        - unfold cnrm. cbn. rewrite E0. toR. ring. }
      assert (Y : rg (fun i => vy i * cnrm (cadd (Bx (h 2%nat) i) (cmul (mkC 0 b) (h 0%nat i)))) = w * w * rg (fun i => area_e (K := RF) we wh 1 i * (cre (eps 1%nat i) * cre (eps 1%nat i) * cnrm (e 1%nat i)))).
      { rewrite <- (@gsum_mul_l RF). apply (@gsum_ext RF). intros i Hi. destruct (Am i Hi) as (_ & X1 & _). destruct (HE 1%nat i ltac:(lia) Hi) as [E0 _].
        transitivity (vy i * cnrm (fopp (fmul (fmul im (mkC w 0 : CC)) (fmul (eps 1%nat i) (e 1%nat i))))).
        - f_equal. f_equal. rewrite X1. generalize (Bx (h 2%nat) i). intro p. apply cpx_ext; cbn; toR; ring.
        - unfold cnrm. cbn. rewrite E0. toR. ring. }
      assert (NN : forall (v : list nat -> R) (f : list nat -> cpx), (forall i, inb sh i -> 0 < v i) -> 0 <= rg (fun i => v i * cnrm (f i))).
      { intros v f Pv. apply gsum_nonneg. intros i Hi. pose proof (Pv i Hi). apply Rmult_le_pos; [lra|apply cnn_r]. }
      assert (VX : forall i, inb sh i -> 0 < vx i) by (intros i Hi; apply (area_pos 0 i Hi)).
      assert (VY : forall i, inb sh i -> 0 < vy i) by (intros i Hi; apply (area_pos 1 i Hi)).
      assert (VZ : forall i, inb sh i -> 0 < vz i) by (intros i Hi; apply (proj2 (area_pos 2 i Hi))).
      pose proof (NN _ (By (h 2%nat)) VX) as N1. pose proof (NN _ (Bx (h 2%nat)) VY) as N2. pose proof (NN _ (h 2%nat) VZ) as N3.
      assert (N4 : 0 <= rg (fun i => area_e (K := RF) we wh 2 i * (cre (eps 2%nat i) * cre (eps 2%nat i) * cnrm (e 2%nat i)))).
      { apply gsum_nonneg. intros i Hi. destruct (area_pos 2 i Hi) as [A _]. apply Rmult_le_pos; [lra|]. apply Rmult_le_pos; [apply Rle_0_sqr|apply cnn_r]. }
      assert (SHe : SH = rg (fun i => vy i * cnrm (h 0%nat i)) + rg (fun i => vx i * cnrm (h 1%nat i)) + rg (fun i => vz i * cnrm (h 2%nat i))) by reflexivity.
      assert (Qe : Q = rg (fun i => area_e (K := RF) we wh 0 i * (cre (eps 0%nat i) * cre (eps 0%nat i) * cnrm (e 0%nat i)))
         + rg (fun i => area_e (K := RF) we wh 1 i * (cre (eps 1%nat i) * cre (eps 1%nat i) * cnrm (e 1%nat i)))
         + rg (fun i => area_e (K := RF) we wh 2 i * (cre (eps 2%nat i) * cre (eps 2%nat i) * cnrm (e 2%nat i)))) by reflexivity.
      rewrite X, Y in CT. rewrite SHe, Qe. pose proof (Rle_0_sqr b) as B2. pose proof (Rle_0_sqr w) as W2. unfold Rsqr in B2, W2.
      pose proof (Rmult_le_pos _ _ B2 N3). pose proof (Rmult_le_pos _ _ W2 N4). lra. }
    apply (Rmult_le_reg_r SH); [exact PSH|].
    apply Rle_trans with (w * w * Q); [exact LO|]. replace (w * w * (Mx * m) * SH) with (w * w * (Mx * SE)) by (rewrite EQ; ring).
    apply Rmult_le_compat_l; [apply Rle_0_sqr|exact LQ].
  Qed.

  (** Two lossless modes at one frequency exchange no power. *)
  Lemma no_exchange w b1 b2 eps mu e1 h1 e2 h2 :
    is_mode (K := CC) sh (cw we) (cw wh) (mkC w 0) b1 eps mu e1 h1 -> is_mode (K := CC) sh (cw we) (cw wh) (mkC w 0) b2 eps mu e2 h2 ->
    (forall c i, (c < 3)%nat -> inb sh i -> cim (eps c i) = 0 /\ cim (mu c i) = 0) -> b2 <> cconj b1 ->
    cadd (fl (conjf (K := CC) e1) h2) (fl e2 (conjf (K := CC) h1)) = c0.
  Proof.
    intros M1 M2 R N. pose proof (exchange CC sh HL (cw we) (cw wh) nz_e nz_h (real_w we) (real_w wh) _ _ _ _ _ _ _ _ _ _ _ _ M1 M2) as E.
    set (X := cadd _ _).
    assert (Z : forall (A B : nat -> list nat -> cpx), (forall c i, (c < 3)%nat -> inb sh i -> A c i = c0) -> (forall c i, (c < 3)%nat -> inb sh i -> B c i = c0) ->
       fadd (cfsum sh A) (cfsum sh B) = (c0 : CC)).
    { intros A B HA HB. apply cpx_ext.
      - rewrite cre_fadd, !cre_fsum. rewrite (fsum_ext_r sh (fun c i => cre (A c i)) (fun c i => 0 * 1)) by (intros; rewrite HA by assumption; cbn; ring).
        rewrite (fsum_ext_r sh (fun c i => cre (B c i)) (fun c i => 0 * 1)) by (intros; rewrite HB by assumption; cbn; ring). rewrite !fsum_mul_r. cbn. ring.
      - rewrite cim_fadd, !cim_fsum. rewrite (fsum_ext_r sh (fun c i => cim (A c i)) (fun c i => 0 * 1)) by (intros; rewrite HA by assumption; cbn; ring).
        rewrite (fsum_ext_r sh (fun c i => cim (B c i)) (fun c i => 0 * 1)) by (intros; rewrite HB by assumption; cbn; ring). rewrite !fsum_mul_r. cbn. ring. }
    rewrite Z in E.
    2:{ intros c i Hc Hi. destruct (R c i Hc Hi) as [R1 _]. apply cpx_ext; cbn; rewrite R1; toR; ring. }
    2:{ intros c i Hc Hi. destruct (R c i Hc Hi) as [_ R1]. apply cpx_ext; cbn; rewrite R1; toR; ring. }
    change (cmul (csub b2 (cconj b1)) X = c0) in E.
    assert (D : csub b2 (cconj b1) <> c0).
    { intro D. apply N. apply cpx_ext; [apply (f_equal cre) in D|apply (f_equal cim) in D]; cbn in D; cbn; lra. }
    exact (cmul_0 _ _ D E).
  Qed.

  Lemma power_superposition w b1 b2 eps mu e1 h1 e2 h2 a1 a2 :
    is_mode (K := CC) sh (cw we) (cw wh) (mkC w 0) b1 eps mu e1 h1 -> is_mode (K := CC) sh (cw we) (cw wh) (mkC w 0) b2 eps mu e2 h2 ->
    (forall c i, (c < 3)%nat -> inb sh i -> cim (eps c i) = 0 /\ cim (mu c i) = 0) -> b2 <> cconj b1 ->
    cre (fl (fun c i => cadd (cmul a1 (e1 c i)) (cmul a2 (e2 c i))) (conjf (K := CC) (fun c i => cadd (cmul a1 (h1 c i)) (cmul a2 (h2 c i)))))
    = cnrm a1 * cre (fl e1 (conjf (K := CC) h1)) + cnrm a2 * cre (fl e2 (conjf (K := CC) h2)).
  Proof.
    intros M1 M2 R N. pose proof (no_exchange _ _ _ _ _ _ _ _ _ M1 M2 R N) as X. rewrite flux_conj in X.
    assert (E : fl (fun c i => cadd (cmul a1 (e1 c i)) (cmul a2 (e2 c i))) (conjf (K := CC) (fun c i => cadd (cmul a1 (h1 c i)) (cmul a2 (h2 c i))))
      = cadd (cadd (cmul (cmul a1 (cconj a1)) (fl e1 (conjf (K := CC) h1))) (cmul (cmul a2 (cconj a2)) (fl e2 (conjf (K := CC) h2))))
             (cadd (cmul (cmul a1 (cconj a2)) (fl e1 (conjf (K := CC) h2))) (cmul (cmul a2 (cconj a1)) (fl e2 (conjf (K := CC) h1))))).
    { unfold flux. 
      match goal with |- _ = cadd (cadd (cmul ?p ?A) (cmul ?q ?B)) (cadd (cmul ?r ?C) (cmul ?t ?D)) =>
        change (gsum (K := CC) sh (fun i => fsub (fmul (fmul (cw we 0%nat (coord i 0)) (cw wh 1%nat (coord i 1)) : CC) (fmul (cadd (cmul a1 (e1 0%nat i)) (cmul a2 (e2 0%nat i)) : CC) (cconj (cadd (cmul a1 (h1 1%nat i)) (cmul a2 (h2 1%nat i))))))
          (fmul (fmul (cw wh 0%nat (coord i 0)) (cw we 1%nat (coord i 1)) : CC) (fmul (cadd (cmul a1 (e1 1%nat i)) (cmul a2 (e2 1%nat i)) : CC) (cconj (cadd (cmul a1 (h1 0%nat i)) (cmul a2 (h2 0%nat i)))))))
         = @fadd CC (fadd (fmul (p : CC) A) (fmul (q : CC) B)) (fadd (fmul (r : CC) C) (fmul (t : CC) D))) end.
      rewrite <- !(@gsum_mul_l CC), <- !(@gsum_add CC). apply (@gsum_ext CC). intros i _. unfold conjf. apply cpx_ext; cbn; toR; ring. }
    rewrite E. clear E. revert X. generalize (fl e1 (conjf (K := CC) h2)) (fl e2 (conjf (K := CC) h1)) (fl e1 (conjf (K := CC) h1)) (fl e2 (conjf (K := CC) h2)).
    intros [p p'] [q q'] [r r'] [t t'] X. pose proof (f_equal cre X) as X1. pose proof (f_equal cim X) as X2. cbn in X1, X2.
    assert (q = - p) by lra. assert (q' = p') by lra. subst q q'. unfold cnrm. cbn. ring.
  Qed.

  (** Energy is not faster than light in the thinnest medium. *)
  Lemma energy_velocity em mm (eps mu e h : field CC) : 0 < em -> 0 < mm ->
    (forall c i, (c < 3)%nat -> inb sh i -> em <= cre (eps c i) /\ mm <= cre (mu c i)) ->
    Rabs (2 * cre (fl e (conjf (K := CC) h))) * sqrt (em * mm)
    <= rfsum sh (fun c i => area_e (K := RF) we wh c i * (cre (eps c i) * cnrm (e c i)))
      + rfsum sh (fun c i => area_h (K := RF) we wh c i * (cre (mu c i) * cnrm (h c i))).
  Proof.
    intros Pe Pm H. set (s := sqrt em). set (t := sqrt mm).
    assert (Es : s * s = em) by (apply sqrt_sqrt; lra). assert (Et : t * t = mm) by (apply sqrt_sqrt; lra).
    assert (Ps : 0 < s) by (apply sqrt_lt_R0; lra). assert (Pt : 0 < t) by (apply sqrt_lt_R0; lra).
    rewrite sqrt_mult by lra. fold s t.
    set (W := _ + _).
    assert (B : forall g : R, g * g = 1 -> 0 <= W - g * (2 * cre (fl e (conjf (K := CC) h)) * (s * t))).
    { intros g Hg. unfold W.
      assert (L : forall c i (p q : cpx), (c < 3)%nat -> inb sh i -> 0 <= em * cnrm p + mm * cnrm q - g * (2 * (s * t) * cre (cmul p (cconj q)))).
      { intros c i p q Hc Hi. rewrite <- Es, <- Et. unfold cnrm. cbn.
        replace (s * s * (cre p * cre p + cim p * cim p) + t * t * (cre q * cre q + cim q * cim q) - g * (2 * (s * t) * (cre p * cre q - cim p * - cim q)))
          with ((g * (s * cre p) - t * cre q) * (g * (s * cre p) - t * cre q) + (g * (s * cim p) - t * cim q) * (g * (s * cim p) - t * cim q)
                + (1 - g * g) * (s * s * (cre p * cre p + cim p * cim p))) by ring.
        rewrite Hg. pose proof (Rle_0_sqr (g * (s * cre p) - t * cre q)) as S1. pose proof (Rle_0_sqr (g * (s * cim p) - t * cim q)) as S2. unfold Rsqr in S1, S2. lra. }
      unfold flux. rewrite BlochP2.cre_gsum.
      assert (E : rfsum sh (fun c i => area_e (K := RF) we wh c i * (cre (eps c i) * cnrm (e c i)))
        + rfsum sh (fun c i => area_h (K := RF) we wh c i * (cre (mu c i) * cnrm (h c i)))
        = rg (fun i => (vx i * (cre (eps 0%nat i) * cnrm (e 0%nat i)) + vx i * (cre (mu 1%nat i) * cnrm (h 1%nat i)))
           + (vy i * (cre (eps 1%nat i) * cnrm (e 1%nat i)) + vy i * (cre (mu 0%nat i) * cnrm (h 0%nat i)))
           + (area_e (K := RF) we wh 2 i * (cre (eps 2%nat i) * cnrm (e 2%nat i)) + vz i * (cre (mu 2%nat i) * cnrm (h 2%nat i))))).
      { unfold fsum. rewrite <- !(@gsum_add RF). 
        apply (@gsum_ext RF). intros i Hi. unfold area_h, area_e. cbn. toR. ring. }
      rewrite E. clear E.
      match goal with |- 0 <= rg ?f - g * (2 * rg ?k * (s * t)) => replace (rg f - g * (2 * rg k * (s * t))) with (rg f + 0 * rg f - (g * (2 * (s * t))) * rg k) by ring;
        rewrite <- (rg_lin sh 0 (g * (2 * (s * t))) f f k) end.
      apply gsum_nonneg. intros i Hi.
      destruct (area_pos 0 i Hi) as [V0 _]. destruct (area_pos 1 i Hi) as [V1 _]. destruct (area_pos 2 i Hi) as [V2 V3].
      change (0 < vx i) in V0. change (0 < vy i) in V1. change (0 < vz i) in V3.
      destruct (H 0%nat i ltac:(lia) Hi) as [A0 B0]. destruct (H 1%nat i ltac:(lia) Hi) as [A1 B1]. destruct (H 2%nat i ltac:(lia) Hi) as [A2 B2].
      pose proof (L 0%nat i (e 0%nat i) (h 1%nat i) ltac:(lia) Hi) as L0.
      pose proof (L 0%nat i (e 1%nat i) (cmul (mkC (-1) 0) (h 0%nat i)) ltac:(lia) Hi) as L1.
      pose proof (cnn_r (e 0%nat i)) as n0. pose proof (cnn_r (e 1%nat i)) as n1. pose proof (cnn_r (e 2%nat i)) as n2.
      pose proof (cnn_r (h 0%nat i)) as m0. pose proof (cnn_r (h 1%nat i)) as m1. pose proof (cnn_r (h 2%nat i)) as m2.
      replace (cnrm (cmul (mkC (-1) 0) (h 0%nat i))) with (cnrm (h 0%nat i)) in L1 by (unfold cnrm; cbn; ring).
      assert (Q2 : 0 <= area_e (K := RF) we wh 2 i * (cre (eps 2%nat i) * cnrm (e 2%nat i)) + vz i * (cre (mu 2%nat i) * cnrm (h 2%nat i))).
      { apply Rplus_le_le_0_compat; (apply Rmult_le_pos; [lra|apply Rmult_le_pos; lra]). }
      pose proof (Rmult_le_compat_r _ _ _ n0 A0) as c0'. pose proof (Rmult_le_compat_r _ _ _ n1 A1) as c1'.
      pose proof (Rmult_le_compat_r _ _ _ m0 B0) as d0. pose proof (Rmult_le_compat_r _ _ _ m1 B1) as d1.
      assert (F0 : 0 <= vx i * (cre (eps 0%nat i) * cnrm (e 0%nat i) + cre (mu 1%nat i) * cnrm (h 1%nat i) - g * (2 * (s * t) * cre (cmul (e 0%nat i) (cconj (h 1%nat i)))))) by (apply Rmult_le_pos; lra).
      assert (F1 : 0 <= vy i * (cre (eps 1%nat i) * cnrm (e 1%nat i) + cre (mu 0%nat i) * cnrm (h 0%nat i) - g * (2 * (s * t) * cre (cmul (e 1%nat i) (cconj (cmul (mkC (-1) 0) (h 0%nat i))))))) by (apply Rmult_le_pos; lra).
      set (Q := area_e (K := RF) we wh 2 i * (cre (eps 2%nat i) * cnrm (e 2%nat i)) + vz i * (cre (mu 2%nat i) * cnrm (h 2%nat i))) in *. clearbody Q.
      unfold conjf, cw. cbn in F0, F1 |- *. lra. }
    pose proof (B 1 ltac:(ring)) as B1. pose proof (B (-1) ltac:(ring)) as B2.
    set (p := 2 * cre (fl e (conjf (K := CC) h))) in *. unfold Rabs. destruct (Rcase_abs p); lra.
  Qed.

  (** Group velocity is energy velocity. *)
  Lemma group_velocity (w b : R) (wn bn : nat -> R) (eps mu e h : field CC) (en hn : nat -> field CC) :
    is_mode (K := CC) sh (cw we) (cw wh) (mkC w 0) (mkC b 0) eps mu e h ->
    (forall n, is_mode (K := CC) sh (cw we) (cw wh) (mkC (wn n) 0) (mkC (bn n) 0) eps mu (en n) (hn n)) ->
    (forall c i, (c < 3)%nat -> inb sh i -> cim (eps c i) = 0 /\ cim (mu c i) = 0) ->
    (forall c i, (c < 3)%nat -> inb sh i -> ccv (fun n => en n c i) (e c i) /\ ccv (fun n => hn n c i) (h c i)) ->
    (forall n, bn n <> b) ->
    let W := rfsum sh (fun c i => area_e (K := RF) we wh c i * (cre (eps c i) * cnrm (e c i))) + rfsum sh (fun c i => area_h (K := RF) we wh c i * (cre (mu c i) * cnrm (h c i))) in
    W <> 0 -> Un_cv (fun n => (wn n - w) / (bn n - b)) (2 * cre (fl e (conjf (K := CC) h)) / W).
  Proof.
    intros M Mn R CV NB W NW.
    set (A := fun n => cre (fl (conjf (K := CC) e) (hn n)) + cre (fl (en n) (conjf (K := CC) h))).
    set (Wn := fun n => rfsum sh (fun c i => area_e (K := RF) we wh c i * (cre (eps c i) * cre (cmul (cconj (e c i)) (en n c i))))
       + rfsum sh (fun c i => area_h (K := RF) we wh c i * (cre (mu c i) * cre (cmul (cconj (h c i)) (hn n c i))))).
    assert (EX : forall n, (bn n - b) * A n = (wn n - w) * Wn n).
    { intro n. pose proof (exchange CC sh HL (cw we) (cw wh) nz_e nz_h (real_w we) (real_w wh) _ _ _ _ _ _ _ _ _ _ _ _ M (Mn n)) as E.
      apply (f_equal cre) in E. match type of E with ?l = _ => set (LL := l) in E end. rewrite cre_fadd, !cre_fsum in E.
      assert (L : LL = (bn n - b) * A n).
      { unfold LL, A. generalize (fl (conjf (K := CC) e) (hn n)) (fl (en n) (conjf (K := CC) h)). intros p q. cbn. toR. ring. }
      rewrite <- L, E. unfold Wn. rewrite Rmult_plus_distr_l, <- !fsum_mul_r. f_equal; apply fsum_ext_r; intros c i Hc Hi; destruct (R c i Hc Hi) as [R1 R2].
      - rewrite area_cw. cbn. rewrite R1. toR. ring.
      - rewrite area_h_cw. cbn. rewrite R2. toR. ring. }
    assert (LA : Un_cv A (2 * cre (fl e (conjf (K := CC) h)))).
    { replace (2 * cre (fl e (conjf (K := CC) h))) with (cre (fl (conjf (K := CC) e) h) + cre (fl e (conjf (K := CC) h))).
      2:{ rewrite flux_conj. cbn [cconj cre]. ring. }
      apply (CV_plus (fun n => cre (fl (conjf (K := CC) e) (hn n))) (fun n => cre (fl (en n) (conjf (K := CC) h)))).
      - unfold flux. rewrite BlochP2.cre_gsum.
        apply (cv_ext_from (fun n => rg (fun i => vx i * (cre (e 0%nat i) * cre (hn n 1%nat i) + cim (e 0%nat i) * cim (hn n 1%nat i)) + (- vy i) * (cre (e 1%nat i) * cre (hn n 0%nat i) + cim (e 1%nat i) * cim (hn n 0%nat i)))) _ _ 0).
        { intros n _. rewrite BlochP2.cre_gsum. apply (@gsum_ext RF). intros i Hi. unfold conjf. cbn. toR. ring. }
        match goal with |- Un_cv _ (gsum _ ?f) => replace (rg f) with (rg (fun i => vx i * (cre (e 0%nat i) * cre (h 1%nat i) + cim (e 0%nat i) * cim (h 1%nat i)) + (- vy i) * (cre (e 1%nat i) * cre (h 0%nat i) + cim (e 1%nat i) * cim (h 0%nat i)))) end.
        2:{ apply (@gsum_ext RF). intros i Hi. unfold conjf. cbn. toR. ring. }
        apply cv_gsum. intros i Hi. destruct (CV 0%nat i ltac:(lia) Hi) as [_ [H0 H0']]. destruct (CV 1%nat i ltac:(lia) Hi) as [_ [H1 H1']].
        apply (cv_lin _ _ _ _ (vx i) (- vy i)); apply cv_lin; assumption.
      - unfold flux. rewrite BlochP2.cre_gsum.
        apply (cv_ext_from (fun n => rg (fun i => vx i * (cre (h 1%nat i) * cre (en n 0%nat i) + cim (h 1%nat i) * cim (en n 0%nat i)) + (- vy i) * (cre (h 0%nat i) * cre (en n 1%nat i) + cim (h 0%nat i) * cim (en n 1%nat i)))) _ _ 0).
        { intros n _. rewrite BlochP2.cre_gsum. apply (@gsum_ext RF). intros i Hi. unfold conjf. cbn. toR. ring. }
        match goal with |- Un_cv _ (gsum _ ?f) => replace (rg f) with (rg (fun i => vx i * (cre (h 1%nat i) * cre (e 0%nat i) + cim (h 1%nat i) * cim (e 0%nat i)) + (- vy i) * (cre (h 0%nat i) * cre (e 1%nat i) + cim (h 0%nat i) * cim (e 1%nat i)))) end.
        2:{ apply (@gsum_ext RF). intros i Hi. unfold conjf. cbn. toR. ring. }
        apply cv_gsum. intros i Hi. destruct (CV 0%nat i ltac:(lia) Hi) as [[H0 H0'] _]. destruct (CV 1%nat i ltac:(lia) Hi) as [[H1 H1'] _].
        apply (cv_lin _ _ _ _ (vx i) (- vy i)); apply cv_lin; assumption. }
    assert (LW : Un_cv Wn W).
    { apply (CV_plus (fun n => rfsum sh (fun c i => area_e (K := RF) we wh c i * (cre (eps c i) * cre (cmul (cconj (e c i)) (en n c i)))))
        (fun n => rfsum sh (fun c i => area_h (K := RF) we wh c i * (cre (mu c i) * cre (cmul (cconj (h c i)) (hn n c i)))))).
      - apply cv_fsum. intros c i Hc Hi. destruct (CV c i Hc Hi) as [[H0 H1] _].
        apply (CV_mult (fun _ => area_e (K := RF) we wh c i) (fun n => cre (eps c i) * cre (cmul (cconj (e c i)) (en n c i)))); [apply cv_const|].
        apply (CV_mult (fun _ => cre (eps c i)) (fun n => cre (cmul (cconj (e c i)) (en n c i)))); [apply cv_const|].
        apply (cv_ext_from (fun n => cre (e c i) * cre (en n c i) + cim (e c i) * cim (en n c i)) _ _ 0); [intros n _; cbn; ring|].
        now apply cv_lin.
      - apply cv_fsum. intros c i Hc Hi. destruct (CV c i Hc Hi) as [_ [H0 H1]].
        apply (CV_mult (fun _ => area_h (K := RF) we wh c i) (fun n => cre (mu c i) * cre (cmul (cconj (h c i)) (hn n c i)))); [apply cv_const|].
        apply (CV_mult (fun _ => cre (mu c i)) (fun n => cre (cmul (cconj (h c i)) (hn n c i)))); [apply cv_const|].
        apply (cv_ext_from (fun n => cre (h c i) * cre (hn n c i) + cim (h c i) * cim (hn n c i)) _ _ 0); [intros n _; cbn; ring|].
        now apply cv_lin. }
    assert (EV : exists N, forall n, (N <= n)%nat -> Wn n <> 0).
    { destruct (LW (Rabs W)) as [N HN]; [now apply Rabs_pos_lt|]. exists N. intros n Hn Z. specialize (HN n Hn). rewrite Z in HN. unfold R_dist in HN.
      rewrite Rminus_0_l, Rabs_Ropp in HN. lra. }
    destruct EV as [N HN].
    apply (cv_ext_from (fun n => A n * / Wn n) _ _ N).
    - intros n Hn. specialize (HN n Hn). pose proof (EX n) as E. pose proof (NB n) as B.
      apply (Rmult_eq_reg_r ((bn n - b) * Wn n)); [|apply Rmult_integral_contrapositive_currified; lra].
      transitivity ((bn n - b) * A n); [field; exact HN|]. rewrite E. field. lra.
    - apply (CV_mult A (fun n => / Wn n)); [exact LA|now apply cv_inv].
  Qed.
End M.
