(** The normalisation of waveguide modes in terms of Spec/NormSpec.v. *)
From Coq Require Import Reals List Arith ZArith Lia Lra Bool Psatz.
From Verif.Lib Require Import Num Sums Idx Mat RealF.
From Verif.Model Require Import Fdmath Fdfd Waveguide2d WaveguideReal.
From Verif.Spec Require Import NormSpec.
From Verif.Proofs Require FdfdP.
From Verif.Proofs Require Import WaveguideRealP.
Import ListNotations.
Local Open Scope R_scope.
Local Open Scope list_scope.

Lemma nf_common_factor_and_sign :
  forall sh e h dxes eps phase e' h',
    normalized_fields sh e h dxes eps phase = Some (e', h') ->
    (exists f : cpx, cnrm f * power sh e h dxes phase = 1 /\
       (forall q, e' q = cmul (e q) f) /\ (forall q, h' q = cmul (h q) f)) /\
    (forall m, (m < 3 * prodl sh)%nat ->
       (forall q, (q < 3 * prodl sh)%nat -> energy eps e q <= energy eps e m) ->
       (forall q, (q < m)%nat -> energy eps e q < energy eps e m) -> cim (e' m) = 0) /\
    0 < quadrant_sum sh (fun q => cmul (e' q) (mkC (energy eps e' q) 0)).
Proof.
  intros sh e h dxes eps phase e' h' H. destruct (nf_spec sh dxes eps phase e h e' h' H) as (P & Q & E1 & E2).
  cbv zeta in E1, E2. pose proof (nf_factor_nrm sh dxes eps phase e h P Q) as NF. split; [|split].
  - eexists. split; [|split; intro q; [rewrite E1|rewrite E2]; reflexivity]. rewrite NF. field. lra.
  - intros m Hm M1 M2.
    assert (E : amax (energy eps e) (3 * prodl sh - 1) = m).
    { set (a := amax (energy eps e) (3 * prodl sh - 1)).
      assert (Ha : (a <= 3 * prodl sh - 1)%nat) by apply amax_le.
      destruct (Nat.lt_trichotomy a m) as [L|[L|L]]; [|exact L|].
      - specialize (M2 a L). pose proof (amax_max (energy eps e) (3 * prodl sh - 1) m ltac:(lia)) as X. fold a in X. lra.
      - pose proof (amax_first (energy eps e) (3 * prodl sh - 1) m L) as X. fold a in X. specialize (M1 a ltac:(lia)). lra. }
    rewrite E1. unfold nf_u. rewrite E. pose proof (unphase_self (e m)) as U.
    set (u := unphase (e m)) in *. set (r := rsign _ * _).
    assert (X : cmul (e m) (cmul (mkC r 0) u) = cmul (mkC r 0) (cmul (e m) u)) by (apply cpx_ext; unfold cmul; cbn [cre cim]; ring).
    rewrite X, U. unfold cmul. cbn [cre cim]. ring.
  - set (p := power sh e h dxes phase) in *.
    assert (SG : 0 < rsign (nf_q sh eps e) * nf_q sh eps e).
    { apply rsign_abs. unfold rsign. destruct (Rlt_dec 0 (nf_q sh eps e)), (Rlt_dec (nf_q sh eps e) 0); lra. }
    pose proof (sqrt_lt_R0 _ P) as SP. set (s := sqrt p) in *.
    set (f := cmul (mkC (rsign (nf_q sh eps e) * (1 / s)) 0) (nf_u sh eps e)) in *.
    rewrite (quadrant_ext sh _ (fun q => cmul (cmul (cmul (e q) (mkC (energy eps e q) 0)) (nf_u sh eps e)) (mkC (cnrm f * (rsign (nf_q sh eps e) * (1 / s))) 0))).
    + rewrite quadrant_scale. fold (nf_q sh eps e). rewrite NF.
      assert (0 < 1 / p) by (apply Rdiv_lt_0_compat; lra). assert (0 < 1 / s) by (apply Rdiv_lt_0_compat; lra).
      replace (1 / p * (rsign (nf_q sh eps e) * (1 / s)) * nf_q sh eps e) with (1 / p * (1 / s) * (rsign (nf_q sh eps e) * nf_q sh eps e)) by ring.
      apply Rmult_lt_0_compat; [|exact SG]. now apply Rmult_lt_0_compat.
    + intro q. rewrite E1. rewrite energy_scale. generalize (cnrm f). intro k. unfold f. set (r := rsign _ * _). set (u := nf_u _ _ _).
      apply cpx_ext; unfold cmul; cbn [cre cim]; ring.
Qed.

Lemma nf_raises :
  forall sh e h dxes eps phase,
    (power sh e h dxes phase <= 0 -> normalized_fields sh e h dxes eps phase = None) /\
    (normalized_fields sh e h dxes eps phase = None ->
       power sh e h dxes phase <= 0 \/
       exists m, (m <= 3 * prodl sh - 1)%nat /\
         (forall q, (q <= 3 * prodl sh - 1)%nat -> energy eps e q <= energy eps e m) /\
         quadrant_sum sh (fun q => cmul (cmul (e q) (mkC (energy eps e q) 0)) (unphase (e m))) = 0).
Proof.
  intros sh e h dxes eps phase. split; intro H.
  - apply nf_none. now left.
  - apply nf_none in H. destruct H as [H|H]; [now left|right].
    exists (amax (energy eps e) (3 * prodl sh - 1)). split; [apply amax_le|]. split; [intros; now apply amax_max|]. exact H.
Qed.

Lemma energy_stored eps e q : energy eps e q = stored eps e q.
Proof. unfold energy, stored, cnrm, cmul, cconj. cbn [cre cim]. ring. Qed.
Lemma total_sum n f : sumN (K := RF) n f = total n f.
Proof. induction n as [|n IH]; cbn [sumN total]; [reflexivity|]. now rewrite IH. Qed.
Lemma total_ext n f g : (forall q, (q < n)%nat -> f q = g q) -> total n f = total n g.
Proof. intro H. induction n as [|n IH]; [reflexivity|]. cbn. rewrite IH by (intros; apply H; lia). now rewrite H by lia. Qed.
Lemma quadrant_quarter nx ny v : quadrant_sum [nx; ny] v = quarter nx ny (fun q => cre (v q)).
Proof.
  unfold quadrant_sum, quarter. rewrite total_sum. apply total_ext. intros c _. cbn [gsum dim nth].
  rewrite total_sum. apply total_ext. intros x _. rewrite total_sum. apply total_ext. intros y _.
  unfold unvec. cbn [ravel prodl fold_right]. f_equal. f_equal. nia.
Qed.
Lemma quarter_ext nx ny f g : (forall q, f q = g q) -> quarter nx ny f = quarter nx ny g.
Proof. intro H. unfold quarter. apply total_ext; intros; apply total_ext; intros; apply total_ext; intros. apply H. Qed.
Lemma amax_strongest n f : (0 < n)%nat -> strongest n f (amax f (n - 1)).
Proof.
  intro Hn. pose proof (amax_le f (n - 1)). split; [lia|]. split; intros q Hq.
  - apply amax_max. lia.
  - now apply amax_first.
Qed.
Lemma strongest_unique n f m m' : strongest n f m -> strongest n f m' -> m = m'.
Proof.
  intros (A & B & C) (A' & B' & C'). destruct (Nat.lt_trichotomy m m') as [L|[L|L]]; [|exact L|].
  - specialize (C' m L). specialize (B m' A'). lra.
  - specialize (C m' L). specialize (B' m A). lra.
Qed.
Lemma unphase_turns z : turns z (unphase z).
Proof.
  split; [|split].
  - unfold unphase. destruct (cpx_dec z c0) as [E|E]; [unfold cnrm; cbn; ring|].
    assert (P : 0 < cabs z).
    { unfold cabs. apply sqrt_lt_R0. destruct (Req_EM_T (cnrm z) 0) as [Z|Z].
      - exfalso. apply E. unfold cnrm in Z. apply cpx_ext; cbn; nra.
      - unfold cnrm in *. nra. }
    assert (S : cabs z * cabs z = cnrm z) by (unfold cabs; apply sqrt_sqrt; unfold cnrm; nra).
    unfold cnrm in *. cbn [cre cim]. rewrite <- (Rinv_r (cabs z * cabs z)) by nra. rewrite S at 1. field. lra.
  - exact (unphase_self z).
  - intros ->. unfold unphase. destruct (cpx_dec c0 c0); [reflexivity|contradiction].
Qed.
Lemma turns_unique z w w' : turns z w -> turns z w' -> w = w'.
Proof.
  intros (A & B & C) (A' & B' & C'). destruct (cpx_dec z c0) as [E|E]; [now rewrite C, C'|].
  assert (X : cmul z w = cmul z w') by now rewrite B, B'. assert (N : cnrm z <> 0) by (intro N; apply E; unfold cnrm in N; apply cpx_ext; cbn; nra).
  assert (X1 := f_equal cre X). assert (X2 := f_equal cim X). unfold cmul in X1, X2. cbn [cre cim] in X1, X2.
  assert (Y1 : cnrm z * (cre w - cre w') = 0).
  { transitivity (cre z * (cre z * cre w - cim z * cim w - (cre z * cre w' - cim z * cim w'))
                  + cim z * (cre z * cim w + cim z * cre w - (cre z * cim w' + cim z * cre w'))); [unfold cnrm; ring|]. rewrite X1, X2. ring. }
  assert (Y2 : cnrm z * (cim w - cim w') = 0).
  { transitivity (cre z * (cre z * cim w + cim z * cre w - (cre z * cim w' + cim z * cre w'))
                  - cim z * (cre z * cre w - cim z * cim w - (cre z * cre w' - cim z * cim w'))); [unfold cnrm; ring|]. rewrite X1, X2. ring. }
  apply Rmult_integral in Y1. apply Rmult_integral in Y2. apply cpx_ext; lra.
Qed.
Lemma strongest_ext n f g m : (forall q, f q = g q) -> strongest n f m -> strongest n g m.
Proof. intros H (A & B & C). split; [exact A|]. split; intros; rewrite <- !H; auto. Qed.
(** The normalization reads its arguments on the grid only. *)
Lemma nf_cong sh e h e2 h2 dxes eps phase : length sh = 2%nat ->
  veq (K := CC) (3 * prodl sh) e e2 -> veq (K := CC) (3 * prodl sh) h h2 ->
  match normalized_fields sh e h dxes eps phase, normalized_fields sh e2 h2 dxes eps phase with
  | Some (e', h'), Some (e'', h'') => veq (K := CC) (3 * prodl sh) e' e'' /\ veq (K := CC) (3 * prodl sh) h' h''
  | None, None => True
  | _, _ => False
  end.
Proof.
  intros HL He Hh.
  assert (EP : power sh e h dxes phase = power sh e2 h2 dxes phase).
  { unfold power, inner_product. cbv zeta. f_equal.
    assert (X : forall c idx, (c < 3)%nat -> inb sh idx -> unvec (K := CC) sh e c idx = unvec (K := CC) sh e2 c idx)
      by (intros c idx Hc Hi; now apply (FdfdP.unvec_ext_in CC)).
    assert (Y : forall c idx, (c < 3)%nat -> inb sh idx -> unvec (K := CC) sh h c idx = unvec (K := CC) sh h2 c idx)
      by (intros c idx Hc Hi; now apply (FdfdP.unvec_ext_in CC)).
    f_equal. f_equal; apply gsum_ext; intros idx Hi; rewrite !(X _ idx) by (lia || exact Hi);
      rewrite !(Y _ idx) by (lia || exact Hi); reflexivity. }
  assert (E : forall q, (q < 3 * prodl sh)%nat -> energy eps e q = energy eps e2 q)
    by (intros q Hq; unfold energy; now rewrite (He q Hq)).
  unfold normalized_fields. cbv zeta. rewrite <- EP. destruct (Rlt_dec 0 _) as [P|P]; [|exact I].
  assert (HN : (0 < prodl sh)%nat).
  { destruct (prodl sh) eqn:Z; [exfalso|lia]. unfold power in P. rewrite (ip_zero CC) in P; [cbn in P; lra|].
    intros q Hq. rewrite Z in Hq. lia. }
  assert (EA : amax (energy eps e2) (3 * prodl sh - 1) = amax (energy eps e) (3 * prodl sh - 1)).
  { apply amax_ext. intros q Hq. symmetry. apply E. lia. }
  rewrite EA. set (m := amax (energy eps e) _).
  assert (Hm : (m < 3 * prodl sh)%nat) by (pose proof (amax_le (energy eps e) (3 * prodl sh - 1)); unfold m; lia).
  rewrite <- (He m Hm). set (u := unphase (e m)).
  assert (EQ : quadrant_sum sh (fun q => cmul (cmul (e2 q) (mkC (energy eps e2 q) 0)) u)
             = quadrant_sum sh (fun q => cmul (cmul (e q) (mkC (energy eps e q) 0)) u)).
  { destruct sh as [|nx [|ny [|]]]; try discriminate HL. unfold quadrant_sum. apply sumN_ext. intros c Hc.
    apply gsum_ext. intros idx Hi. f_equal. apply (FdfdP.unvec_ext_in CC); [|exact Hc|].
    - assert (D : forall n, (0 < n -> Nat.max (n / 2) 1 <= n)%nat).
      { intros n Hn. pose proof (Nat.div_le_upper_bound n 2 n ltac:(lia) ltac:(lia)). apply Nat.max_lub; assumption. }
      assert (P2 : (0 < nx /\ 0 < ny)%nat) by (cbn in HN; destruct nx, ny; lia).
      destruct P2 as [P1 P2]. pose proof (D nx P1) as D1. pose proof (D ny P2) as D2.
      change (inb [Nat.max (nx / 2) 1; Nat.max (ny / 2) 1] idx) in Hi. clear - Hi D1 D2. unfold inb in *.
      inversion Hi as [|x a l1 l2 Hx Hi1 U V]; subst. inversion Hi1 as [|y b l3 l4 Hy Hi2 U V]; subst. inversion Hi2; subst.
      constructor; [eapply Nat.lt_le_trans; eassumption|]. constructor; [eapply Nat.lt_le_trans; eassumption|constructor].
    - intros q Hq. now rewrite (He q Hq), (E q Hq). }
  rewrite EQ. destruct (Req_EM_T _ 0); [exact I|]. split; intros q Hq; [now rewrite (He q Hq)|now rewrite (Hh q Hq)].
Qed.
