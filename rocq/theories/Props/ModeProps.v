(** Power, absorption, index and velocity of the modes waveguide_2d computes. *)
From Coq Require Import List Arith ZArith Lia Bool Reals Lra Psatz.
From Verif.Lib Require Import Num Sums Idx Mat RealF Limits.
From Verif.Model Require Import Fdmath Fdfd Waveguide2d.
From Verif.Spec Require Import Grid Yee WaveguideSpec HarmonicSpec ModeSpec.
From Verif.Proofs Require Import FdmathP FdfdP WaveguideP2 WaveguideP4 GridP EmeP DrivenP ModeFluxP ModeRealP.
From Verif.Props Require Import WaveguideProps.
Import ListNotations.
Local Open Scope R_scope.

Definition positive_widths (sh : list nat) (we wh : widths RF) : Prop :=
  forall a i, (a < 2)%nat -> (i < dim sh a)%nat -> 0 < we a i /\ 0 < wh a i.

Lemma cm_mode (K : CFld) sh we wh (om beta : K) eps mu x e h : length sh = 2%nat -> om <> f0 -> beta <> f0 -> nonzero_materials sh eps mu ->
  computed_mode sh we wh om beta eps mu x e h ->
  is_mode sh we wh om beta (unvec sh eps) (mu_field sh mu) e h /\ gauss_h sh we beta (mu_field sh mu) h /\
  (forall c i, (c < 2)%nat -> inb sh i -> e c i = unvec sh x c i).
Proof.
  intros HL Ho Hb Hm (E & -> & ->). destruct (C36_eigenvector_gives_mode K sh we wh om beta eps mu x HL Ho Hb Hm E) as (A & _ & B & C).
  split; [exact A|]. split; [exact B|]. apply veq_unvec. exact C.
Qed.
Lemma q_lt sh c i n : (c < n)%nat -> inb sh i -> (c * prodl sh + ravel sh i < n * prodl sh)%nat.
Proof. intros Hc Hi. pose proof (ravel_lt sh i Hi). nia. Qed.
Lemma mkC_nz r : r <> 0 -> mkC r 0 <> c0.
Proof. intros H E. apply (f_equal cre) in E. cbn in E. lra. Qed.
Lemma cm_nonzero sh we wh om beta eps mu x e h : length sh = 2%nat -> om <> c0 -> beta <> c0 -> nonzero_materials (K := CC) sh eps mu ->
  computed_mode (K := CC) sh we wh om beta eps mu x e h -> (exists q, (q < 2 * prodl sh)%nat /\ x q <> c0) ->
  exists c i, (c < 3)%nat /\ inb sh i /\ e c i <> c0.
Proof.
  intros HL Ho Hb Hm C (q & Hq & Nz). destruct (cm_mode CC sh we wh om beta eps mu x e h HL Ho Hb Hm C) as (_ & _ & T).
  assert (P0 : prodl sh <> 0%nat) by (intro Z; rewrite Z in Hq; lia).
  exists (q / prodl sh)%nat, (unravel sh (q mod prodl sh)).
  assert (L : (q / prodl sh < 2)%nat) by (apply Nat.div_lt_upper_bound; lia).
  assert (I : inb sh (unravel sh (q mod prodl sh))) by (apply inb_unravel; now apply Nat.mod_upper_bound).
  split; [lia|]. split; [exact I|]. rewrite T by assumption. unfold unvec. rewrite ravel_unravel by now apply Nat.mod_upper_bound.
  rewrite Nat.mul_comm, <- Nat.div_mod by exact P0. exact Nz.
Qed.

(** ** C135: no effective index above that of the densest medium *)
Theorem C135_index_bound :
  forall (sh : list nat) (we wh : widths RF) (om beta eps_max mu0 : R) (eps : vect CC) (mu : option (vect CC)) (x : vect CC) (e h : field CC),
    length sh = 2%nat -> positive_widths sh we wh -> om <> 0 -> beta <> 0 ->
    (forall q, (q < 3 * prodl sh)%nat -> cim (eps q) = 0 /\ 0 < cre (eps q) <= eps_max) ->
    0 < mu0 -> match mu with None => mu0 = 1 | Some m => forall q, (q < 3 * prodl sh)%nat -> m q = mkC mu0 0 end ->
    computed_mode (K := CC) sh (cw we) (cw wh) (mkC om 0) (mkC beta 0) eps mu x e h ->
    (exists q, (q < 2 * prodl sh)%nat /\ x q <> c0) ->
    beta * beta <= om * om * (eps_max * mu0).
Proof.
  intros sh we wh om beta eM m0 eps mu x e h HL Hw Ho Hb He Pm Hm C NZ.
  assert (NM : nonzero_materials (K := CC) sh eps mu).
  { split.
    - intros q Hq E. destruct (He q Hq) as [_ [P _]]. apply (f_equal cre) in E. cbn in E. lra.
    - destruct mu as [m|]; [|exact I]. intros q Hq E. rewrite (Hm q Hq) in E. apply (f_equal cre) in E. cbn in E. lra. }
  destruct (cm_mode CC sh _ _ _ _ _ _ _ _ _ HL (mkC_nz om Ho) (mkC_nz beta Hb) NM C) as (M & G & _).
  pose proof (cm_nonzero _ _ _ _ _ _ _ _ _ _ HL (mkC_nz om Ho) (mkC_nz beta Hb) NM C NZ) as NE.
  refine (index_bound sh HL we wh Hw om beta (unvec sh eps) (mu_field sh mu) m0 eM e h M G Ho Pm _ _ NE).
  - intros c i Hc Hi. unfold mu_field. destruct mu as [m|]; [apply Hm; now apply q_lt|]. rewrite Hm. reflexivity.
  - intros c i Hc Hi. apply He. now apply q_lt.
Qed.
Print Assumptions C135_index_bound.


(** A constant field in a uniform medium. *)
Lemma c_sub0 z : csub z z = c0. Proof. apply cpx_ext; cbn; ring. Qed.
Lemma c_div0 z : cdiv c0 z = c0. Proof. apply cpx_ext; cbn; unfold Rdiv; ring. Qed.
Lemma c_flat_f sh (w : option (widths CC)) a (k : CC) i : deriv_forward (K := CC) sh w a (fun _ => k) i = c0.
Proof. unfold deriv_forward, roll. destruct w; cbn; [rewrite c_sub0; apply c_div0|apply c_sub0]. Qed.
Lemma c_flat_b sh (w : option (widths CC)) a (k : CC) i : deriv_back (K := CC) sh w a (fun _ => k) i = c0.
Proof. unfold deriv_back, roll. destruct w; cbn; [rewrite c_sub0; apply c_div0|apply c_sub0]. Qed.
Definition flat_e : field CC := fun c _ => match c with 0%nat => c1 | _ => c0 end.
Definition flat_h (k : R) : field CC := fun c _ => match c with 1%nat => mkC k 0 | _ => c0 end.
Lemma flat_mode sh we wh (w ep m k : R) (eps mu : field CC) (E H : field CC) : length sh = 2%nat -> k * m * k = ep ->
  (forall c i, (c < 3)%nat -> inb sh i -> eps c i = mkC ep 0 /\ mu c i = mkC m 0) ->
  (forall c i, (c < 3)%nat -> inb sh i -> E c i = flat_e c i /\ H c i = flat_h k c i) ->
  is_mode (K := CC) sh (cw we) (cw wh) (mkC w 0) (mkC (w * (k * m)) 0) eps mu E H.
Proof.
  intros HL Q HM HF.
  assert (DF : forall a c i, (a < 2)%nat -> (c < 3)%nat -> inb sh i -> deriv_forward (K := CC) sh (Some (cw we)) a (E c) i = c0).
  { intros a c i Ha Hc Hi. rewrite (deriv_forward_ext CC sh _ a (E c) (fun _ => flat_e c []) i) by (first [lia|exact Hi|intros j Hj; exact (proj1 (HF c j Hc Hj))]). apply c_flat_f. }
  assert (DB : forall a c i, (a < 2)%nat -> (c < 3)%nat -> inb sh i -> deriv_back (K := CC) sh (Some (cw wh)) a (H c) i = c0).
  { intros a c i Ha Hc Hi. rewrite (deriv_back_ext CC sh _ a (H c) (fun _ => flat_h k c []) i) by (first [lia|exact Hi|intros j Hj; exact (proj2 (HF c j Hc Hj))]). apply c_flat_b. }
  change @deriv_forward with @diff_next in DF. change @deriv_back with @diff_prev in DB.
  split; intros i Hi; destruct (HM 0%nat i ltac:(lia) Hi) as [e0 m0]; destruct (HM 1%nat i ltac:(lia) Hi) as [e1 m1]; destruct (HM 2%nat i ltac:(lia) Hi) as [e2 m2];
    destruct (HF 0%nat i ltac:(lia) Hi) as [E0 H0]; destruct (HF 1%nat i ltac:(lia) Hi) as [E1 H1]; destruct (HF 2%nat i ltac:(lia) Hi) as [E2 H2];
    rewrite ?DF, ?DB by (lia || exact Hi); rewrite ?e0, ?e1, ?e2, ?m0, ?m1, ?m2, ?E0, ?E1, ?E2, ?H0, ?H1, ?H2; subst ep; cbn;
    (split; [|split]); apply cpx_ext; cbn; ring.
Qed.

(** The bound is reached: in a uniform medium a constant field is a mode with the
    plane wave's wavenumber. *)
Theorem C135_attained :
  forall (sh : list nat) (we wh : widths RF) (om eps0 mu0 : R),
    length sh = 2%nat -> prodl sh <> 0%nat -> positive_widths sh we wh -> om <> 0 -> 0 < eps0 -> 0 < mu0 ->
    let beta := om * sqrt (eps0 * mu0) in
    beta * beta = om * om * (eps0 * mu0) /\
    exists x e h,
      computed_mode (K := CC) sh (cw we) (cw wh) (mkC om 0) (mkC beta 0) (fun _ => mkC eps0 0 : CC) (Some (fun _ => mkC mu0 0 : CC)) x e h /\
      exists q, (q < 2 * prodl sh)%nat /\ x q <> c0.
Proof.
  intros sh we wh om ep m HL HN Hw Ho Pe Pm beta. set (s := sqrt (ep * m)) in *.
  assert (Ps : 0 < ep * m) by (apply Rmult_lt_0_compat; lra).
  assert (S2 : s * s = ep * m) by (apply sqrt_sqrt; lra).
  assert (S0 : 0 < s) by (apply sqrt_lt_R0; exact Ps).
  assert (Hb : beta <> 0) by (apply Rmult_integral_contrapositive_currified; lra).
  split; [unfold beta; replace (om * s * (om * s)) with (om * om * (s * s)) by ring; now rewrite S2|].
  set (k := s / m). set (x := vec (K := CC) sh flat_e). set (y := vec (K := CC) sh (flat_h k)).
  assert (NM : nonzero_materials (K := CC) sh (fun _ => mkC ep 0 : CC) (Some (fun _ => mkC m 0 : CC))) by (split; intros q _; apply mkC_nz; lra).
  assert (M : is_mode (K := CC) sh (cw we) (cw wh) (mkC om 0) (mkC beta 0) (unvec sh (fun _ => mkC ep 0 : CC)) (mu_field sh (Some (fun _ => mkC m 0 : CC))) (unvec sh x) (unvec sh y)).
  { replace beta with (om * (k * m)) by (unfold k, beta; field; lra). apply (flat_mode sh we wh om ep m k); [exact HL| | |].
    - unfold k. replace (s / m * m * (s / m)) with (s * s / m) by (field; lra). rewrite S2. field. lra.
    - intros c i _ _. split; reflexivity.
    - intros c i _ Hi. split; [apply (unvec_vec CC sh flat_e c i Hi)|apply (unvec_vec CC sh (flat_h k) c i Hi)]. }
  destruct (C37_mode_solves_both_eigenproblems CC sh (cw we) (cw wh) _ _ _ _ x y HL (mkC_nz om Ho) (mkC_nz beta Hb) NM M) as [[E _] _].
  exists x, (unvec sh (mv (2 * prodl sh) (exy2e sh (mkC beta 0 : CC) (cw we, cw wh) (fun _ => mkC ep 0 : CC)) x)),
    (unvec sh (mv (2 * prodl sh) (exy2h sh (mkC beta 0 : CC) (mkC om 0 : CC) (cw we, cw wh) (fun _ => mkC ep 0 : CC) (Some (fun _ => mkC m 0 : CC))) x)).
  split; [split; [exact E|split; reflexivity]|].
  exists 0%nat. split; [lia|]. unfold x, vec. rewrite Nat.div_0_l by exact HN. cbn. intro Z. apply (f_equal cre) in Z. cbn in Z. lra.
Qed.
Print Assumptions C135_attained.

(** A slab: two cells with permittivity 5 and 2, omega = 1.  Its guided mode has
    beta = 2, between sqrt 2 and sqrt 5. *)
Definition slab_sh : list nat := [2; 1]%nat.
Definition slab_w : widths RF := fun _ _ => 1.
Definition slab_eps : vect CC := fun q => if Nat.even q then mkC 5 0 else mkC 2 0.
Definition slab_e : vect CC := fun q => match q with 2%nat => mkC 2 0 | 3%nat => mkC 1 0 | _ => c0 end.
Definition slab_h : vect CC := fun q => match q with 0%nat => mkC (-4) 0 | 1%nat => mkC (-2) 0 | 4%nat => mkC 0 (-1) | 5%nat => mkC 0 1 | _ => c0 end.
Lemma slab_cells i : inb slab_sh i -> i = [0; 0]%nat \/ i = [1; 0]%nat.
Proof.
  intro H. inversion H as [|a n ia ns Ha T]; subst. inversion T as [|b m ib ms Hb T2]; subst. inversion T2; subst.
  destruct b; [|lia]. destruct a as [|[|a]]; [now left|now right|lia].
Qed.
Lemma slab_widths : positive_widths slab_sh slab_w slab_w.
Proof. intros a i _ _. unfold slab_w. split; lra. Qed.
Lemma slab_mode : is_mode (K := CC) slab_sh (cw slab_w) (cw slab_w) (mkC 1 0) (mkC 2 0) (unvec slab_sh slab_eps) (mu_field slab_sh None) (unvec slab_sh slab_e) (unvec slab_sh slab_h).
Proof.
  split; intros i Hi; destruct (slab_cells i Hi) as [-> | ->]; (split; [|split]); apply cpx_ext; unfold diff_next, diff_prev; cbn; change (Pos.to_nat 1) with 1%nat; unfold slab_w, cnrm; cbn; field.
Qed.
Lemma slab_materials : nonzero_materials (K := CC) slab_sh slab_eps None.
Proof. split; [|exact I]. intros q _. unfold slab_eps. destruct (Nat.even q); apply mkC_nz; lra. Qed.
Lemma slab_computed : exists e h, computed_mode (K := CC) slab_sh (cw slab_w) (cw slab_w) (mkC 1 0) (mkC 2 0) slab_eps None slab_e e h /\
  (forall c i, (c < 3)%nat -> inb slab_sh i -> e c i = unvec slab_sh slab_e c i /\ h c i = unvec slab_sh slab_h c i).
Proof.
  destruct (C37_mode_solves_both_eigenproblems CC slab_sh (cw slab_w) (cw slab_w) _ _ _ _ slab_e slab_h eq_refl (mkC_nz 1 ltac:(lra)) (mkC_nz 2 ltac:(lra)) slab_materials slab_mode) as [(E & A & B) _].
  eexists. eexists. split; [split; [exact E|split; reflexivity]|].
  intros c i Hc Hi. split; apply veq_unvec with (nb := 3%nat); assumption.
Qed.
Example C135_example :
  (forall q, (q < 3 * prodl slab_sh)%nat -> cim (slab_eps q) = 0 /\ 0 < cre (slab_eps q) <= 5) /\
  (exists q, (q < 2 * prodl slab_sh)%nat /\ slab_e q <> c0) /\ 1 * 1 * (2 * 1) < 2 * 2 <= 1 * 1 * (5 * 1).
Proof.
  split; [|split; [|lra]].
  - intros q _. unfold slab_eps. destruct (Nat.even q); cbn; lra.
  - exists 2%nat. split; [cbn; lia|]. intro Z. apply (f_equal cre) in Z. cbn in Z. lra.
Qed.

(** ** C136: power carried and absorbed *)
(** Two modes, of media and frequencies that may differ: what one loses to the other
    along z is what the differences of frequency and medium make of the overlaps of
    their fields. *)
Theorem C136_exchange :
  forall (K : CFld) (sh : list nat) (we wh : widths K) (om1 om2 b1 b2 : K) (eps1 eps2 : vect K) (mu1 mu2 : option (vect K))
         (x1 x2 : vect K) (e1 h1 e2 h2 : field K),
    length sh = 2%nat -> nzw sh we -> nzw sh wh -> realw we -> realw wh ->
    om1 <> f0 -> om2 <> f0 -> b1 <> f0 -> b2 <> f0 -> nonzero_materials sh eps1 mu1 -> nonzero_materials sh eps2 mu2 ->
    computed_mode sh we wh om1 b1 eps1 mu1 x1 e1 h1 -> computed_mode sh we wh om2 b2 eps2 mu2 x2 e2 h2 ->
    ((b2 - conj b1) * (flux sh we wh (conjf e1) h2 + flux sh we wh e2 (conjf h1))
     = fsum sh (fun c i => area_e we wh c i * ((om2 * unvec sh eps2 c i - conj (om1 * unvec sh eps1 c i)) * (conj (e1 c i) * e2 c i)))
       + fsum sh (fun c i => area_h we wh c i * ((om2 * mu_field sh mu2 c i - conj (om1 * mu_field sh mu1 c i)) * (conj (h1 c i) * h2 c i))))%K.
Proof.
  intros K sh we wh om1 om2 b1 b2 eps1 eps2 mu1 mu2 x1 x2 e1 h1 e2 h2 HL We Wh Re Rh O1 O2 B1 B2 N1 N2 M1 M2.
  apply exchange; try assumption; [exact (proj1 (cm_mode K _ _ _ _ _ _ _ _ _ _ HL O1 B1 N1 M1))|exact (proj1 (cm_mode K _ _ _ _ _ _ _ _ _ _ HL O2 B2 N2 M2))].
Qed.
Print Assumptions C136_exchange.

Section Real.
  Variables (sh : list nat) (we wh : widths RF).
  (** Real part of the flux of e x conj(h): twice the power through the cross-section. *)
  Definition power (e h : field CC) : R := cre (flux (K := CC) sh (cw we) (cw wh) e (conjf (K := CC) h)).
  (** Weighted sums of |e|^2 and |h|^2. *)
  Definition in_e (p : field RF) (e : field CC) : R := fsum (K := RF) sh (fun c i => area_e (K := RF) we wh c i * (p c i * cnrm (e c i))).
  Definition in_h (p : field RF) (h : field CC) : R := fsum (K := RF) sh (fun c i => area_h (K := RF) we wh c i * (p c i * cnrm (h c i))).
End Real.
Definition re_of (f : field CC) : field RF := fun c i => cre (f c i).
Definition im_of (f : field CC) : field RF := fun c i => cim (f c i).

(** At a real frequency the imaginary part of the wavenumber is the absorbed over the
    carried power.  So: a mode of a lossless medium whose wavenumber is not real carries
    no power; where nothing amplifies, a mode that carries power forward does not grow
    forward, and decays if every cell absorbs. *)
Theorem C136_absorption :
  forall (sh : list nat) (we wh : widths RF) (om : R) (beta : cpx) (eps : vect CC) (mu : option (vect CC)) (x : vect CC) (e h : field CC),
    length sh = 2%nat -> positive_widths sh we wh -> om <> 0 -> beta <> c0 -> nonzero_materials (K := CC) sh eps mu ->
    computed_mode (K := CC) sh (cw we) (cw wh) (mkC om 0) beta eps mu x e h ->
    let P := power sh we wh e h in let m := mu_field sh mu in
    2 * cim beta * P = om * (in_e sh we wh (im_of (unvec sh eps)) e + in_h sh we wh (im_of m) h) /\
    ((forall c i, (c < 3)%nat -> inb sh i -> cim (unvec sh eps c i) = 0 /\ cim (m c i) = 0) -> cim beta <> 0 -> P = 0) /\
    ((forall c i, (c < 3)%nat -> inb sh i -> cim (unvec sh eps c i) <= 0 /\ cim (m c i) <= 0) -> 0 < om * P ->
       cim beta <= 0 /\
       ((forall c i, (c < 3)%nat -> inb sh i -> cim (unvec sh eps c i) < 0) -> (exists q, (q < 2 * prodl sh)%nat /\ x q <> c0) -> cim beta < 0)).
Proof.
  intros sh we wh om beta eps mu x e h HL Hw Ho Hb NM C P m.
  destruct (cm_mode CC sh _ _ _ _ _ _ _ _ _ HL (mkC_nz om Ho) Hb NM C) as (M & _ & _).
  pose proof (absorption sh HL we wh Hw om beta _ _ e h M) as A.
  change (2 * cim beta * P = om * (in_e sh we wh (im_of (unvec sh eps)) e + in_h sh we wh (im_of m) h)) in A.
  split; [exact A|]. split.
  - intros Z N. assert (E0 : in_e sh we wh (im_of (unvec sh eps)) e = 0).
    { unfold in_e. rewrite (fsum_ext_r sh _ (fun c i => 0 * 1)); [rewrite fsum_mul_r; ring|]. intros c i Hc Hi. unfold im_of. rewrite (proj1 (Z c i Hc Hi)). ring. }
    assert (H0 : in_h sh we wh (im_of m) h = 0).
    { unfold in_h. rewrite (fsum_ext_r sh _ (fun c i => 0 * 1)); [rewrite fsum_mul_r; ring|]. intros c i Hc Hi. unfold im_of. rewrite (proj2 (Z c i Hc Hi)). ring. }
    rewrite E0, H0 in A. apply (Rmult_eq_reg_l (2 * cim beta)); lra.
  - intros Z PP.
    assert (SE : 0 <= - in_e sh we wh (im_of (unvec sh eps)) e).
    { unfold in_e. replace (- fsum (K := RF) sh _) with (-1 * fsum (K := RF) sh (fun c i => area_e (K := RF) we wh c i * (im_of (unvec sh eps) c i * cnrm (e c i)))) by ring.
      rewrite <- fsum_mul_r. apply fsum_nonneg_r. intros c i Hc Hi. destruct (Z c i Hc Hi) as [Z1 _]. destruct (area_pos sh HL we wh Hw c i Hi) as [V _].
      unfold im_of. replace (-1 * _) with (area_e (K := RF) we wh c i * (- cim (unvec sh eps c i) * cnrm (e c i))) by ring.
      apply Rmult_le_pos; [lra|]. apply Rmult_le_pos; [lra|apply cnn_r]. }
    assert (SH : 0 <= - in_h sh we wh (im_of m) h).
    { unfold in_h. replace (- fsum (K := RF) sh _) with (-1 * fsum (K := RF) sh (fun c i => area_h (K := RF) we wh c i * (im_of m c i * cnrm (h c i)))) by ring.
      rewrite <- fsum_mul_r. apply fsum_nonneg_r. intros c i Hc Hi. destruct (Z c i Hc Hi) as [_ Z1]. destruct (area_pos sh HL we wh Hw c i Hi) as [_ V].
      unfold im_of. replace (-1 * _) with (area_h (K := RF) we wh c i * (- cim (m c i) * cnrm (h c i))) by ring.
      apply Rmult_le_pos; [lra|]. apply Rmult_le_pos; [lra|apply cnn_r]. }
    assert (A2 : 2 * cim beta * (om * P) = om * om * (in_e sh we wh (im_of (unvec sh eps)) e + in_h sh we wh (im_of m) h)).
    { replace (2 * cim beta * (om * P)) with (om * (2 * cim beta * P)) by ring. rewrite A. ring. }
    assert (O2 : 0 < om * om) by (pose proof (Rsqr_pos_lt om Ho) as Q; exact Q).
    split.
    + apply Ropp_le_cancel. rewrite Ropp_0. apply (Rmult_le_reg_r (om * P)); [exact PP|]. rewrite Rmult_0_l.
      assert (0 <= om * om * (- in_e sh we wh (im_of (unvec sh eps)) e + - in_h sh we wh (im_of m) h)) by (apply Rmult_le_pos; lra). lra.
    + intros ZS NZ. pose proof (cm_nonzero _ _ _ _ _ _ _ _ _ _ HL (mkC_nz om Ho) Hb NM C NZ) as (c & i & Hc & Hi & NE).
      assert (SP : 0 < - in_e sh we wh (im_of (unvec sh eps)) e).
      { unfold in_e. replace (- fsum (K := RF) sh _) with (-1 * fsum (K := RF) sh (fun c i => area_e (K := RF) we wh c i * (im_of (unvec sh eps) c i * cnrm (e c i)))) by ring.
        rewrite <- fsum_mul_r. apply fsum_pos_r.
        - intros c' i' Hc' Hi'. pose proof (ZS c' i' Hc' Hi') as Z1. destruct (area_pos sh HL we wh Hw c' i' Hi') as [V _].
          unfold im_of. replace (-1 * _) with (area_e (K := RF) we wh c' i' * (- cim (unvec sh eps c' i') * cnrm (e c' i'))) by ring.
          apply Rmult_le_pos; [lra|]. apply Rmult_le_pos; [lra|apply cnn_r].
        - exists c, i. split; [exact Hc|]. split; [exact Hi|]. pose proof (ZS c i Hc Hi) as Z1. destruct (area_pos sh HL we wh Hw c i Hi) as [V _].
          unfold im_of. replace (-1 * _) with (area_e (K := RF) we wh c i * (- cim (unvec sh eps c i) * cnrm (e c i))) by ring.
          pose proof (cnrm_nz _ NE). pose proof (cnn_r (e c i)). apply Rmult_lt_0_compat; [lra|]. apply Rmult_lt_0_compat; lra. }
      apply Ropp_lt_cancel. rewrite Ropp_0. apply (Rmult_lt_reg_r (om * P)); [exact PP|]. rewrite Rmult_0_l.
      assert (0 < om * om * (- in_e sh we wh (im_of (unvec sh eps)) e + - in_h sh we wh (im_of m) h)) by (apply Rmult_lt_0_compat; lra). lra.
Qed.
Print Assumptions C136_absorption.

(** Modes of a lossless medium at one frequency: their powers add, unless one wavenumber
    is the conjugate of the other. *)
Theorem C136_powers_add :
  forall (sh : list nat) (we wh : widths RF) (om : R) (b1 b2 a1 a2 : cpx) (eps : vect CC) (mu : option (vect CC)) (x1 x2 : vect CC) (e1 h1 e2 h2 : field CC),
    length sh = 2%nat -> positive_widths sh we wh -> om <> 0 -> b1 <> c0 -> b2 <> c0 -> nonzero_materials (K := CC) sh eps mu ->
    (forall c i, (c < 3)%nat -> inb sh i -> cim (unvec sh eps c i) = 0 /\ cim (mu_field sh mu c i) = 0) ->
    computed_mode (K := CC) sh (cw we) (cw wh) (mkC om 0) b1 eps mu x1 e1 h1 ->
    computed_mode (K := CC) sh (cw we) (cw wh) (mkC om 0) b2 eps mu x2 e2 h2 ->
    b2 <> cconj b1 ->
    power sh we wh (fun c i => cadd (cmul a1 (e1 c i)) (cmul a2 (e2 c i))) (fun c i => cadd (cmul a1 (h1 c i)) (cmul a2 (h2 c i)))
    = cnrm a1 * power sh we wh e1 h1 + cnrm a2 * power sh we wh e2 h2.
Proof.
  intros sh we wh om b1 b2 a1 a2 eps mu x1 x2 e1 h1 e2 h2 HL Hw Ho B1 B2 NM L M1 M2 N.
  destruct (cm_mode CC sh _ _ _ _ _ _ _ _ _ HL (mkC_nz om Ho) B1 NM M1) as (D1 & _ & _).
  destruct (cm_mode CC sh _ _ _ _ _ _ _ _ _ HL (mkC_nz om Ho) B2 NM M2) as (D2 & _ & _).
  exact (power_superposition sh HL we wh Hw om b1 b2 _ _ e1 h1 e2 h2 a1 a2 D1 D2 L N).
Qed.
Print Assumptions C136_powers_add.

(** ** C137: group velocity *)
(** Energy moves no faster than light in the thinnest medium; and a branch of modes
    (frequencies and wavenumbers converge, fields converge cell by cell) has as group
    velocity the velocity of its energy. *)
Theorem C137_energy_velocity :
  forall (sh : list nat) (we wh : widths RF) (om beta eps_min mu_min : R) (eps : vect CC) (mu : option (vect CC)) (x : vect CC) (e h : field CC),
    length sh = 2%nat -> positive_widths sh we wh -> om <> 0 -> beta <> 0 -> 0 < eps_min -> 0 < mu_min ->
    (forall c i, (c < 3)%nat -> inb sh i -> cim (unvec sh eps c i) = 0 /\ cim (mu_field sh mu c i) = 0 /\
                                          eps_min <= cre (unvec sh eps c i) /\ mu_min <= cre (mu_field sh mu c i)) ->
    computed_mode (K := CC) sh (cw we) (cw wh) (mkC om 0) (mkC beta 0) eps mu x e h ->
    (exists q, (q < 2 * prodl sh)%nat /\ x q <> c0) ->
    let We := in_e sh we wh (re_of (unvec sh eps)) e in let Wh := in_h sh we wh (re_of (mu_field sh mu)) h in
    We = Wh /\ 0 < We /\ Rabs (2 * power sh we wh e h / (We + Wh)) <= 1 / sqrt (eps_min * mu_min).
Proof.
  intros sh we wh om beta em mm eps mu x e h HL Hw Ho Hb Pe Pm HM C NZ We Wh.
  assert (NM : nonzero_materials (K := CC) sh eps mu).
  { assert (Q : forall (v : vect CC), (forall c i, (c < 3)%nat -> inb sh i -> 0 < cre (unvec sh v c i)) -> forall q, (q < 3 * prodl sh)%nat -> v q <> c0).
    { intros v H q Hq. assert (P0 : prodl sh <> 0%nat) by (intro Z; rewrite Z in Hq; lia).
      specialize (H (q / prodl sh)%nat (unravel sh (q mod prodl sh))). unfold unvec in H. rewrite ravel_unravel in H by now apply Nat.mod_upper_bound.
      rewrite Nat.mul_comm, <- Nat.div_mod in H by exact P0. intro Z. rewrite Z in H.
      assert (Q : 0 < 0) by (apply H; [apply Nat.div_lt_upper_bound; lia|apply inb_unravel; now apply Nat.mod_upper_bound]). exact (Rlt_irrefl _ Q). }
    split; [apply Q; intros c i Hc Hi; destruct (HM c i Hc Hi) as (_ & _ & A & _); exact (Rlt_le_trans _ _ _ Pe A)|].
    destruct mu as [m|]; [|exact I]. apply Q. intros c i Hc Hi. destruct (HM c i Hc Hi) as (_ & _ & _ & A). exact (Rlt_le_trans _ _ _ Pm A). }
  destruct (cm_mode CC sh _ _ _ _ _ _ _ _ _ HL (mkC_nz om Ho) (mkC_nz beta Hb) NM C) as (M & _ & _).
  pose proof (cm_nonzero _ _ _ _ _ _ _ _ _ _ HL (mkC_nz om Ho) (mkC_nz beta Hb) NM C NZ) as (c & i & Hc & Hi & NE).
  assert (E : We = Wh).
  { apply (equipartition sh HL we wh Hw om beta _ _ e h M Ho). intros c' i' Hc' Hi'. destruct (HM c' i' Hc' Hi') as (A & B & _). now split. }
  assert (P : 0 < We).
  { apply fsum_pos_r.
    - intros c' i' Hc' Hi'. destruct (HM c' i' Hc' Hi') as (_ & _ & A & _). destruct (area_pos sh HL we wh Hw c' i' Hi') as [V _]. unfold re_of.
      apply Rmult_le_pos; [lra|]. apply Rmult_le_pos; [lra|apply cnn_r].
    - exists c, i. split; [exact Hc|]. split; [exact Hi|]. destruct (HM c i Hc Hi) as (_ & _ & A & _). destruct (area_pos sh HL we wh Hw c i Hi) as [V _]. unfold re_of.
      pose proof (cnrm_nz _ NE). pose proof (cnn_r (e c i)). apply Rmult_lt_0_compat; [lra|]. apply Rmult_lt_0_compat; lra. }
  split; [exact E|]. split; [exact P|].
  pose proof (energy_velocity sh HL we wh Hw em mm (unvec sh eps) (mu_field sh mu) e h Pe Pm) as V.
  assert (VV : Rabs (2 * power sh we wh e h) * sqrt (em * mm) <= We + Wh).
  { apply V. intros c' i' Hc' Hi'. destruct (HM c' i' Hc' Hi') as (_ & _ & A & B). now split. }
  assert (S : 0 < sqrt (em * mm)) by (apply sqrt_lt_R0, Rmult_lt_0_compat; assumption).
  assert (T : 0 < We + Wh) by lra.
  unfold Rdiv. rewrite Rabs_mult, (Rabs_right (/ (We + Wh))) by (apply Rle_ge, Rlt_le, Rinv_0_lt_compat, T).
  apply (Rmult_le_reg_r ((We + Wh) * sqrt (em * mm))); [now apply Rmult_lt_0_compat|].
  replace (Rabs (2 * power sh we wh e h) * / (We + Wh) * ((We + Wh) * sqrt (em * mm))) with (Rabs (2 * power sh we wh e h) * sqrt (em * mm)) by (field; lra).
  replace (1 * / sqrt (em * mm) * ((We + Wh) * sqrt (em * mm))) with (We + Wh) by (field; lra). exact VV.
Qed.
Print Assumptions C137_energy_velocity.

Theorem C137_group_velocity :
  forall (sh : list nat) (we wh : widths RF) (om beta : R) (om_n beta_n : nat -> R) (eps : vect CC) (mu : option (vect CC))
         (x : vect CC) (e h : field CC) (x_n : nat -> vect CC) (e_n h_n : nat -> field CC),
    length sh = 2%nat -> positive_widths sh we wh -> om <> 0 -> beta <> 0 -> (forall n, om_n n <> 0 /\ beta_n n <> 0) ->
    (forall c i, (c < 3)%nat -> inb sh i -> cim (unvec sh eps c i) = 0 /\ cim (mu_field sh mu c i) = 0) -> nonzero_materials (K := CC) sh eps mu ->
    computed_mode (K := CC) sh (cw we) (cw wh) (mkC om 0) (mkC beta 0) eps mu x e h ->
    (forall n, computed_mode (K := CC) sh (cw we) (cw wh) (mkC (om_n n) 0) (mkC (beta_n n) 0) eps mu (x_n n) (e_n n) (h_n n)) ->
    (forall n, beta_n n <> beta) ->
    (forall c i, (c < 3)%nat -> inb sh i -> ccv (fun n => e_n n c i) (e c i) /\ ccv (fun n => h_n n c i) (h c i)) ->
    let W := in_e sh we wh (re_of (unvec sh eps)) e + in_h sh we wh (re_of (mu_field sh mu)) h in
    W <> 0 ->
    Un_cv (fun n => (om_n n - om) / (beta_n n - beta)) (2 * power sh we wh e h / W).
Proof.
  intros sh we wh om beta omn bn eps mu x e h xn en hn HL Hw Ho Hb Hn L NM C Cn NB CV W NW.
  destruct (cm_mode CC sh _ _ _ _ _ _ _ _ _ HL (mkC_nz om Ho) (mkC_nz beta Hb) NM C) as (M & _ & _).
  apply (group_velocity sh HL we wh Hw om beta omn bn (unvec sh eps) (mu_field sh mu) e h en hn M); try assumption.
  intro n. destruct (Hn n) as [A B]. exact (proj1 (cm_mode CC sh _ _ _ _ _ _ _ _ _ HL (mkC_nz _ A) (mkC_nz _ B) NM (Cn n))).
Qed.
Print Assumptions C137_group_velocity.

(** The slab's mode: power 10, energies 22 + 22, velocity 5/11, at most 1/sqrt 2. *)
Example C136_example :
  power slab_sh slab_w slab_w (unvec slab_sh slab_e) (unvec slab_sh slab_h) = 10 /\
  in_e slab_sh slab_w slab_w (re_of (unvec slab_sh slab_eps)) (unvec slab_sh slab_e) = 22 /\
  in_h slab_sh slab_w slab_w (re_of (mu_field slab_sh None)) (unvec slab_sh slab_h) = 22.
Proof. unfold power, in_e, in_h, slab_w, re_of. cbn. unfold cnrm. cbn. repeat split; field. Qed.

(** A branch: constant fields in a uniform medium of permittivity 4, at the frequencies
    1 + 1/(n+1); the group velocity is 1/2. *)
Definition branch_eps : vect CC := fun _ => mkC 4 0.
Lemma branch_computed w : w <> 0 -> exists e h,
  computed_mode (K := CC) slab_sh (cw slab_w) (cw slab_w) (mkC w 0) (mkC (w * 2) 0) branch_eps None (vec slab_sh flat_e) e h /\
  forall c i, (c < 3)%nat -> inb slab_sh i -> e c i = flat_e c i /\ h c i = flat_h 2 c i.
Proof.
  intro Hw. assert (Hb : w * 2 <> 0) by lra.
  assert (NM : nonzero_materials (K := CC) slab_sh branch_eps None) by (split; [intros q _; apply mkC_nz; lra|exact I]).
  assert (M : is_mode (K := CC) slab_sh (cw slab_w) (cw slab_w) (mkC w 0) (mkC (w * 2) 0) (unvec slab_sh branch_eps) (mu_field slab_sh None) (unvec slab_sh (vec slab_sh flat_e)) (unvec slab_sh (vec slab_sh (flat_h 2)))).
  { replace (w * 2) with (w * (2 * 1)) by ring. apply (flat_mode slab_sh slab_w slab_w w 4 1 2); [reflexivity|lra| |].
    - intros c i _ _. split; reflexivity.
    - intros c i _ Hi. split; [apply (unvec_vec CC slab_sh flat_e c i Hi)|apply (unvec_vec CC slab_sh (flat_h 2) c i Hi)]. }
  destruct (C37_mode_solves_both_eigenproblems CC slab_sh (cw slab_w) (cw slab_w) _ _ _ _ _ _ eq_refl (mkC_nz w Hw) (mkC_nz _ Hb) NM M) as [(E & A & B) _].
  eexists. eexists. split; [split; [exact E|split; reflexivity]|].
  intros c i Hc Hi. split.
  - transitivity (unvec slab_sh (vec (K := CC) slab_sh flat_e) c i); [now apply veq_unvec with (nb := 3%nat)|apply (unvec_vec CC slab_sh flat_e c i Hi)].
  - transitivity (unvec slab_sh (vec (K := CC) slab_sh (flat_h 2)) c i); [now apply veq_unvec with (nb := 3%nat)|apply (unvec_vec CC slab_sh (flat_h 2) c i Hi)].
Qed.
Example C137_example :
  power slab_sh slab_w slab_w flat_e (flat_h 2) = 4 /\
  in_e slab_sh slab_w slab_w (re_of (unvec slab_sh branch_eps)) flat_e = 8 /\
  in_h slab_sh slab_w slab_w (re_of (mu_field slab_sh None)) (flat_h 2) = 8 /\
  forall n : nat, 1 + / INR (S n) <> 0 /\ (1 + / INR (S n)) * 2 <> 1 * 2 /\
    exists e h, computed_mode (K := CC) slab_sh (cw slab_w) (cw slab_w) (mkC (1 + / INR (S n)) 0) (mkC ((1 + / INR (S n)) * 2) 0) branch_eps None (vec slab_sh flat_e) e h.
Proof.
  split; [|split; [|split]]; [unfold power, in_e, in_h, slab_w, re_of; cbn; unfold cnrm; cbn; field..|].
  intro n. pose proof (Rinv_0_lt_compat _ (lt_0_INR (S n) ltac:(lia))) as P. split; [lra|]. split; [lra|].
  destruct (branch_computed (1 + / INR (S n)) ltac:(lra)) as (e & h & C & _). now exists e, h.
Qed.
