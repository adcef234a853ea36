(** The stretch that real CPML coefficients amount to at a real frequency. *)
From Coq Require Import Reals List Arith ZArith Lia Lra Field Bool.
From Verif.Lib Require Import Num Sums Idx RealF Cexp.
From Verif.Model Require Import Fdmath Fdtd Pml FdtdReal.
From Verif.Spec Require Import Yee FdtdRun HarmonicSpec CpmlSpec CpmlHarmonicSpec.
From Verif.Proofs Require Import FdmathP FdtdRealP PmlP CpmlHarmP.
Import ListNotations.
Local Open Scope R_scope.

Section One.
  Variables (q0 q1 q2 th : R).
  Hypothesis H0 : 0 < q0 < 1.
  Hypothesis H1 : -1 <= q1 < 0.
  Hypothesis H01 : q0 - q1 <= 1.
  Hypothesis H2 : 0 < q2.
  Hypothesis Hth : 0 < th < PI.
  Let Zc : cpx := cexp (mkC 0 th).
  Let g : cpx := cmul (mkC q2 0) (cadd c1 (cdiv (mkC q1 0) (csub c1 (cdiv (mkC q0 0) Zc)))).
  Definition den : R := (1 + q1 - q0 * cos th) * (1 + q1 - q0 * cos th) + (q0 * sin th) * (q0 * sin th).
  Definition str : cpx := mkC ((1 + q1 - q0 * cos th * (2 + q1) + q0 * q0) / (q2 * den)) (q0 * q1 * sin th / (q2 * den)).

  Lemma sin_p : 0 < sin th.
  Proof. apply sin_gt_0; lra. Qed.
  Lemma cs : cos th * cos th + sin th * sin th = 1.
  Proof. pose proof (sin2_cos2 th) as X. unfold Rsqr in X. lra. Qed.
  Lemma cos_lt1 : cos th < 1.
  Proof. pose proof cs. pose proof sin_p. assert (0 < sin th * sin th) by now apply Rmult_lt_0_compat. nra. Qed.
  Lemma den_pos : 0 < den.
  Proof.
    unfold den. assert (0 < q0 * sin th) by (apply Rmult_lt_0_compat; [lra|apply sin_p]).
    assert (0 < (q0 * sin th) * (q0 * sin th)) by now apply Rmult_lt_0_compat.
    assert (0 <= (1 + q1 - q0 * cos th) * (1 + q1 - q0 * cos th)) by apply Rle_0_sqr. lra.
  Qed.
  Lemma z_inv : cdiv (mkC q0 0) Zc = mkC (q0 * cos th) (- (q0 * sin th)).
  Proof.
    unfold Zc, cexp. cbn [cre cim]. rewrite exp_0, !Rmult_1_l. unfold cdiv, cinv, cmul, cnrm. cbn [cre cim]. rewrite cs.
    apply cpx_ext; cbn [cre cim]; field.
  Qed.
  Definition dd : R := (1 - q0 * cos th) * (1 - q0 * cos th) + (q0 * sin th) * (q0 * sin th).
  Lemma dd_pos : 0 < dd.
  Proof.
    unfold dd. assert (0 < q0 * sin th) by (apply Rmult_lt_0_compat; [lra|apply sin_p]).
    assert (0 < (q0 * sin th) * (q0 * sin th)) by now apply Rmult_lt_0_compat.
    assert (0 <= (1 - q0 * cos th) * (1 - q0 * cos th)) by apply Rle_0_sqr. lra.
  Qed.
  Lemma zq_nz : csub Zc (mkC q0 0) <> c0.
  Proof.
    intro X. apply (f_equal cim) in X. unfold Zc, cexp in X. cbn [csub cre cim c0] in X. rewrite exp_0 in X. pose proof sin_p. lra.
  Qed.
  Lemma g_str : cmul g str = c1.
  Proof.
    unfold g. rewrite z_inv. pose proof den_pos as D. pose proof dd_pos as D2. pose proof cs as C.
    assert (S2 : sin th * sin th = 1 - cos th * cos th) by lra.
    unfold str, cdiv, cinv, cmul, cadd, csub, c1, cnrm. cbn [cre cim].
    replace ((1 - q0 * cos th) * (1 - q0 * cos th) + (0 - - (q0 * sin th)) * (0 - - (q0 * sin th))) with dd by (unfold dd; ring).
    unfold den in *. unfold dd in *. set (c := cos th) in *. set (s := sin th) in *.
    apply cpx_ext; cbn [cre cim].
    - field_simplify_eq; [|repeat split; lra].
      replace (s ^ 6) with ((s * s) * (s * s) * (s * s)) by ring. replace (s ^ 4) with ((s * s) * (s * s)) by ring. replace (s ^ 2) with (s * s) by ring.
      rewrite S2. ring.
    - field_simplify_eq; [|repeat split; lra].
      replace (s ^ 5) with ((s * s) * (s * s) * s) by ring. replace (s ^ 3) with ((s * s) * s) by ring. 
      rewrite S2. ring.
  Qed.
  Lemma str_im : cim str < 0.
  Proof.
    unfold str. cbn [cim]. pose proof den_pos. pose proof sin_p.
    assert (A : 0 < q0 * sin th) by (apply Rmult_lt_0_compat; lra).
    assert (B : 0 < / (q2 * den)) by (apply Rinv_0_lt_compat, Rmult_lt_0_compat; lra).
    assert (X : q0 * q1 * sin th / (q2 * den) = - (q0 * sin th * - q1 * / (q2 * den))) by (unfold Rdiv; ring).
    rewrite X. assert (0 < q0 * sin th * - q1) by (apply Rmult_lt_0_compat; lra).
    assert (0 < q0 * sin th * - q1 * / (q2 * den)) by (apply Rmult_lt_0_compat; assumption). lra.
  Qed.
  Lemma str_re : 0 < cre str.
  Proof.
    unfold str. cbn [cre]. pose proof den_pos. pose proof cos_lt1 as C1.
    apply Rmult_lt_0_compat; [|apply Rinv_0_lt_compat, Rmult_lt_0_compat; lra].
    assert (C2 : -1 <= cos th) by (destruct (COS_bound th); assumption).
    assert (A : 1 + q1 - q0 * cos th * (2 + q1) + q0 * q0 = (1 + q1 - q0) * (1 - q0 * cos th) + q0 * (1 + q0) * (1 - cos th)) by ring.
    rewrite A.
    assert (B : 0 < 1 - q0 * cos th) by nra.
    assert (D : 0 < q0 * (1 + q0) * (1 - cos th)) by (repeat apply Rmult_lt_0_compat; lra).
    assert (E : 0 <= (1 + q1 - q0) * (1 - q0 * cos th)) by (apply Rmult_le_pos; lra). lra.
  Qed.
  Lemma g_nz : g <> c0.
  Proof. intro X. pose proof g_str as Y. rewrite X in Y. apply (f_equal cre) in Y. cbn in Y. lra. Qed.
  Lemma div_g (w : R) : cdiv (mkC w 0) g = cmul (mkC w 0) str.
  Proof.
    assert (X : forall a b c : CC, b <> f0 -> fmul (f := CC) b c = f1 -> fdiv (f := CC) a b = fmul (f := CC) a c).
    { intros a b c Hb Hc. transitivity (fmul (f := CC) (fdiv (f := CC) a b) (fmul (f := CC) b c)).
      - rewrite Hc. change (cdiv a b = cmul (cdiv a b) c1). apply cpx_ext; cbn; ring.
      - clear Hc. revert a b c Hb. pose proof (fth CC) as F. intros.
        change (cmul (cdiv a b) (cmul b c) = cmul a c).
        transitivity (cmul a (cmul (cmul (cinv b) b) c)).
        + unfold cdiv. apply cpx_ext; cbn; ring.
        + rewrite (Finv_l cpx_th b Hb). apply cpx_ext; cbn; ring. }
    apply X; [exact g_nz|exact g_str].
  Qed.
End One.

Lemma p1_neg dt ln_R ee me m ma ca t x : 0 < dt -> ln_R < 0 -> 1 <= ee * me -> 0 <= m -> 0 <= ca -> (0 < t)%nat -> 0 < x <= INR t ->
  cp_p1 dt ln_R ee me m ma ca t x < 0.
Proof.
  intros Hdt HR Hk Hm Ha Ht Hx.
  pose proof (p0_lt1 dt ln_R ee me m ma ca t HR Hk Hm Ha Ht x Hdt Hx) as P.
  pose proof (sg_pos ln_R m t HR Hm Ht x Hx) as S. pose proof (kp_ge1 ee me m t Hk Hm Ht x Hx) as Kp.
  pose proof (al_nonneg ma ca t Ha Ht x Hx) as A.
  unfold cp_p1. assert (X : 0 < cp_sigma ln_R m t x / (cp_sigma ln_R m t x + cp_kappa ee me m t x * cp_alpha ma ca t x)).
  { apply Rmult_lt_0_compat; [exact S|]. apply Rinv_0_lt_compat.
    assert (0 <= cp_kappa ee me m t x * cp_alpha ma ca t x) by (apply Rmult_le_pos; lra). lra. }
  set (r := cp_sigma ln_R m t x / _) in *. assert (0 < r * (1 - cp_p0 dt ln_R ee me m ma ca t x)) by (apply Rmult_lt_0_compat; lra). lra.
Qed.

Lemma made_ranges dt a pp L i : 0 < dt -> made_for dt a pp L -> (i < lth L)%nat ->
  let ok (q0 q1 q2 : R) := (0 < q0 < 1) /\ (-1 <= q1 < 0) /\ q0 - q1 <= 1 /\ 0 < q2 in
  (pp < 2)%nat /\ ok (lp0e L i) (lp1e L i) (lp2e L i) /\ ok (lp0h L i) (lp1h L i) (lp2h L i).
Proof.
  intros Hd (axis & pol & thick & lnR & ee & me & m & ma & ca & (HR & Hk & Hm & Hma & Ha) & E) Hi ok. unfold cpml_params in E.
  destruct (negb _); [discriminate E|].
  assert (Hp : (pol = -1 \/ pol = 1)%Z).
  { destruct (Z.eqb_spec pol (-1)), (Z.eqb_spec pol 1); cbn [orb negb] in E; try discriminate E; lia. }
  destruct (negb _); [discriminate E|].
  destruct (Z.leb_spec thick 2); [discriminate E|]. destruct (Rle_dec ee 0); [discriminate E|].
  injection E as <- <- <-. cbn [lth lp0e lp1e lp2e lp0h lp1h lp2h] in *. set (t := Z.to_nat thick) in *.
  assert (Ht : (0 < t)%nat) by lia. destruct (xe_range pol t i Hp Hi) as [Xe Xh].
  split; [destruct (Z.ltb pol 0); lia|].
  assert (A : forall x, 0 < x <= INR t -> ok (cp_p0 dt lnR ee me m ma ca t x) (cp_p1 dt lnR ee me m ma ca t x) (cp_p2 ee me m t x)).
  { intros x X. unfold ok.
    assert (Hd' : 0 <= dt) by lra.
    destruct (p0_range dt lnR ee me m ma ca t Hd' HR Hk Hm Ha Ht x X) as [P _].
    pose proof (p0_lt1 dt lnR ee me m ma ca t HR Hk Hm Ha Ht x Hd X).
    destruct (p1_range dt lnR ee me m ma ca t Hd' HR Hk Hm Ha Ht x X) as [[Q _] Q2].
    pose proof (p1_neg dt lnR ee me m ma ca t x Hd HR Hk Hm Ha Ht X).
    destruct (p2_range ee me m t Hk Hm Ht x X). repeat split; lra. }
  split; now apply A.
Qed.

Section Gain.
  Variables (sh : list nat) (Lr : nat -> nat -> option (layer RF)) (dt th : R).
  Hypothesis Hd : 0 < dt.
  Hypothesis Hth : 0 < th < PI.
  Hypothesis Fit : fitted sh dt Lr.
  Variables (r0 r1 r2 : layer RF -> nat -> R) (k0 k1 k2 : layer CC -> nat -> CC).
  Hypothesis E0 : forall L i, k0 (clayer L) i = mkC (r0 L i) 0.
  Hypothesis E1 : forall L i, k1 (clayer L) i = mkC (r1 L i) 0.
  Hypothesis E2 : forall L i, k2 (clayer L) i = mkC (r2 L i) 0.
  Hypothesis Rng : forall a pp L i, made_for dt a pp L -> (i < lth L)%nat ->
    (0 < r0 L i < 1) /\ (-1 <= r1 L i < 0) /\ r0 L i - r1 L i <= 1 /\ 0 < r2 L i.
  Let Ls : nat -> nat -> option (layer CC) := fun a pp => option_map clayer (Lr a pp).
  Let Zc : CC := cexp (mkC 0 th).

  Lemma inside_covers a pp t i : (a < 3)%nat -> inside sh a pp t [i; i; i] = true <-> covers (dim sh a) pp t i.
  Proof. intro Ha. unfold inside, covers. rewrite coord3 by exact Ha. destruct (Nat.eqb pp 0); [apply Nat.ltb_lt|apply Nat.leb_le]. Qed.
  Lemma depth_lt a pp t i : (a < 3)%nat -> (pp < 2)%nat -> (t <= dim sh a)%nat -> (i < dim sh a)%nat -> covers (dim sh a) pp t i -> (depth sh a pp t [i; i; i] < t)%nat.
  Proof. intros Ha Hp Ht Hi C. unfold depth, covers in *. rewrite coord3 by exact Ha. destruct (Nat.eqb pp 0); lia. Qed.

  Lemma coef_in p a pp L i : (a < 3)%nat -> Lr a pp = Some L -> covers (dim sh a) pp (lth L) i ->
    coef sh Ls p a pp i = Some (p (clayer L) (depth sh a pp (lth L) [i; i; i])).
  Proof.
    intros Ha E C. unfold coef, here, Ls. rewrite E. cbn [option_map clayer lth].
    now rewrite (proj2 (inside_covers a pp (lth L) i Ha) C).
  Qed.
  Lemma coef_out p a pp i : (a < 3)%nat -> (forall L, Lr a pp = Some L -> ~ covers (dim sh a) pp (lth L) i) ->
    coef sh Ls p a pp i = None.
  Proof.
    intros Ha H. unfold coef, here, Ls. destruct (Lr a pp) as [L|]; [|reflexivity]. specialize (H L eq_refl).
    cbn [option_map clayer lth]. pose proof (inside_covers a pp (lth L) i Ha) as X.
    destruct (inside _ _ _ _ _); [|reflexivity]. exfalso. apply H. now apply X.
  Qed.
  Lemma covered_dec a pp i : (exists L, Lr a pp = Some L /\ covers (dim sh a) pp (lth L) i)
    \/ (forall L, Lr a pp = Some L -> ~ covers (dim sh a) pp (lth L) i).
  Proof.
    destruct (Lr a pp) as [L|]; [|right; discriminate]. unfold covers.
    destruct (Nat.eqb pp 0); [destruct (Nat.lt_decidable i (lth L))|destruct (Nat.le_decidable (dim sh a - lth L) i)];
      [left|right|left|right]; try (exists L; split; [reflexivity|assumption]); intros L' X; injection X as <-; assumption.
  Qed.
  Lemma other_out a pp L i : (pp < 2)%nat -> (i < dim sh a)%nat -> Lr a pp = Some L -> covers (dim sh a) pp (lth L) i ->
    forall L', Lr a (1 - pp)%nat = Some L' -> ~ covers (dim sh a) (1 - pp) (lth L') i.
  Proof.
    intros Hp Hi E C L' E' C'. destruct Fit as [_ [No _]].
    destruct pp as [|[|pp]]; [| |lia]; cbn [Nat.sub Nat.eqb covers] in *; unfold covers in *; cbn [Nat.eqb] in *.
    - specialize (No a L L' E E'). lia.
    - specialize (No a L' L E' E). lia.
  Qed.

  Lemma gain_out a i : (a < 3)%nat -> (forall pp L, (pp < 2)%nat -> Lr a pp = Some L -> ~ covers (dim sh a) pp (lth L) i) ->
    gain sh Ls k0 k1 k2 Zc a i = c1.
  Proof.
    intros Ha H. unfold gain, resp. rewrite !coef_out by (try exact Ha; intros L; apply H; lia).
    cbn [or1]. apply cpx_ext; cbn; ring.
  Qed.
  Lemma gain_in a pp L i : (a < 3)%nat -> (pp < 2)%nat -> (i < dim sh a)%nat -> Lr a pp = Some L -> covers (dim sh a) pp (lth L) i ->
    let j := depth sh a pp (lth L) [i; i; i] in
    gain sh Ls k0 k1 k2 Zc a i
    = cmul (mkC (r2 L j) 0) (cadd c1 (cdiv (mkC (r1 L j) 0) (csub c1 (cdiv (mkC (r0 L j) 0) Zc)))).
  Proof.
    intros Ha Hp Hi E C j. pose proof (other_out a pp L i Hp Hi E C) as O.
    pose proof (coef_in k0 a pp L i Ha E C) as A0. pose proof (coef_in k1 a pp L i Ha E C) as A1. pose proof (coef_in k2 a pp L i Ha E C) as A2.
    rewrite E0 in A0. rewrite E1 in A1. rewrite E2 in A2. fold j in A0, A1, A2.
    unfold gain, resp. destruct pp as [|[|pp]]; [| |lia]; cbn [Nat.sub] in O.
    - rewrite A0, A1, A2, !(coef_out _ a 1 i Ha O). cbn [or1]. cbv zeta.
      change (cadd (cmul (cmul (mkC (r2 L j) 0) c1) (cadd c1 c0)) (cmul (mkC (r2 L j) 0) (cdiv (mkC (r1 L j) 0) (csub c1 (cdiv (mkC (r0 L j) 0) Zc))))
              = cmul (mkC (r2 L j) 0) (cadd c1 (cdiv (mkC (r1 L j) 0) (csub c1 (cdiv (mkC (r0 L j) 0) Zc))))).
      set (y := cdiv (mkC (r1 L j) 0) _). apply cpx_ext; cbn; ring.
    - rewrite A0, A1, A2, !(coef_out _ a 0 i Ha O). cbn [or1]. cbv zeta.
      change (cadd (cmul (cmul c1 (mkC (r2 L j) 0)) (cadd c1 (cdiv (mkC (r1 L j) 0) (csub c1 (cdiv (mkC (r0 L j) 0) Zc))))) (cmul c1 c0)
              = cmul (mkC (r2 L j) 0) (cadd c1 (cdiv (mkC (r1 L j) 0) (csub c1 (cdiv (mkC (r0 L j) 0) Zc))))).
      set (y := cdiv (mkC (r1 L j) 0) _). apply cpx_ext; cbn; ring.
  Qed.

  Lemma rng_in a pp L i : (a < 3)%nat -> (pp < 2)%nat -> (i < dim sh a)%nat -> Lr a pp = Some L -> covers (dim sh a) pp (lth L) i ->
    let j := depth sh a pp (lth L) [i; i; i] in (0 < r0 L j < 1) /\ (-1 <= r1 L j < 0) /\ r0 L j - r1 L j <= 1 /\ 0 < r2 L j.
  Proof.
    intros Ha Hp Hi E C j. destruct Fit as [Md [_ Th]]. apply (Rng a pp); [now apply Md|].
    apply depth_lt; try assumption. now apply (Th a pp).
  Qed.

  Lemma regular_fit : regular sh Ls k0 k1 k2 Zc.
  Proof.
    intros a i Ha Hi. split.
    - destruct (covered_dec a 0 i) as [[L [E C]]|N0].
      + rewrite (gain_in a 0 L i) by (assumption || lia). destruct (rng_in a 0 L i) as [A [B [D F]]]; try assumption; [lia|]. now apply g_nz.
      + destruct (covered_dec a 1 i) as [[L [E C]]|N1].
        * rewrite (gain_in a 1 L i) by (assumption || lia). destruct (rng_in a 1 L i) as [A [B [D F]]]; try assumption; [lia|]. now apply g_nz.
        * rewrite gain_out; [|exact Ha|intros [|[|pp]] L Hp; [apply N0|apply N1|lia]]. intro X. apply (f_equal cre) in X. cbn in X. lra.
    - intros pp q Hp X. destruct (covered_dec a pp i) as [[L [E C]]|N].
      + rewrite (coef_in k0 a pp L i Ha E C), E0 in X. injection X as <-.
        destruct (rng_in a pp L i) as [A [B [D F]]]; try assumption. apply zq_nz; assumption.
      + rewrite coef_out in X by assumption. discriminate X.
  Qed.

  Lemma eff_value (w : widths RF) a i : (a < 3)%nat -> (i < dim sh a)%nat ->
    exists s : cpx, effective sh Ls k0 k1 k2 Zc (cw w) a i = cmul (mkC (w a i) 0) s
      /\ 0 < cre s
      /\ ((exists pp L, (pp < 2)%nat /\ Lr a pp = Some L /\ covers (dim sh a) pp (lth L) i) -> cim s < 0)
      /\ ((forall pp L, (pp < 2)%nat -> Lr a pp = Some L -> ~ covers (dim sh a) pp (lth L) i) -> s = c1).
  Proof.
    intros Ha Hi.
    assert (In : forall pp L, (pp < 2)%nat -> Lr a pp = Some L -> covers (dim sh a) pp (lth L) i ->
      exists s : cpx, effective sh Ls k0 k1 k2 Zc (cw w) a i = cmul (mkC (w a i) 0) s /\ 0 < cre s /\ cim s < 0).
    { intros pp L Hp E C. destruct (rng_in a pp L i Ha Hp Hi E C) as [A [B [D F]]].
      set (j := depth sh a pp (lth L) [i; i; i]) in *.
      exists (str (r0 L j) (r1 L j) (r2 L j) th). split; [|split].
      - unfold effective. rewrite (gain_in a pp L i Ha Hp Hi E C). fold j. unfold cw. apply div_g; assumption.
      - now apply str_re.
      - now apply str_im. }
    destruct (covered_dec a 0 i) as [[L [E C]]|N0].
    - destruct (In 0%nat L ltac:(lia) E C) as [s [X1 [X2 X3]]]. exists s. repeat split; try assumption.
      + intros _. exact X3.
      + intro H. exfalso. apply (H 0%nat L); [lia|exact E|exact C].
    - destruct (covered_dec a 1 i) as [[L [E C]]|N1].
      + destruct (In 1%nat L ltac:(lia) E C) as [s [X1 [X2 X3]]]. exists s. repeat split; try assumption.
        * intros _. exact X3.
        * intro H. exfalso. apply (H 1%nat L); [lia|exact E|exact C].
      + exists c1. repeat split.
        * unfold effective. rewrite gain_out; [|exact Ha|intros [|[|pp]] L Hp; [apply N0|apply N1|lia]].
          change (cdiv (mkC (w a i) 0) c1 = cmul (mkC (w a i) 0) c1). unfold cdiv, cinv, cnrm; apply cpx_ext; cbn; field.
        * cbn. lra.
        * intros [pp [L [Hp [E C]]]]. exfalso. destruct pp as [|[|pp]]; [apply (N0 L E C)|apply (N1 L E C)|lia].
  Qed.
End Gain.
