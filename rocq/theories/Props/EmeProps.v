(** Properties of meanas/fdfd/eme.py. *)
From Coq Require Import Reals List Arith ZArith Lia Lra Bool Field.
From Verif.Lib Require Import Num Sums Idx Mat RealF.
From Verif.Model Require Import Fdmath Fdfd Waveguide2d Eme.
From Verif.Spec Require Import EmeSpec.
From Verif.Proofs Require Import FdfdP2 WaveguideRealP EigensolversP EmeP.
From Verif.Props Require Import EigenProps.
Import ListNotations.
Local Open Scope R_scope.

Definition lstsq_fun := nat -> nat -> nat -> mat CC -> mat CC -> option (mat CC).
Definition svd_fun := nat -> nat -> mat CC -> option (mat CC * (nat -> R) * mat CC).
Definition pinv_fun := nat -> nat -> mat CC -> option (mat CC).
(** The numpy.linalg functions do what they promise whenever they return. *)
Definition lstsq_ok (lstsq : lstsq_fun) : Prop := forall m n p A B X, lstsq m n p A B = Some X -> is_lstsq m n p A B X.
Definition svd_ok (svd : svd_fun) : Prop := forall r c M U st V, svd r c M = Some (U, st, V) -> is_svd r c M U st V.
Definition pinv_ok (pinv : pinv_fun) : Prop := forall m n A P, pinv m n A = Some P -> is_pinv m n A P.

(** ** C47 *)
(** The transmission matrix has no singular value above one. *)
Theorem C47_transmission_no_gain :
  forall sh dxes (lstsq : lstsq_fun) (svd : svd_fun) nL ehL nR ehR tt rr,
    svd_ok svd -> get_tr sh dxes lstsq svd nL ehL nR ehR = Some (tt, rr) ->
    rows tt = nR /\ cols tt = nL /\ rows rr = nL /\ cols rr = nL /\ no_gain nR nL (ent tt).
Proof.
  intros sh dxes lstsq svd nL ehL nR ehR tt rr Sv H. destruct (Nat.eq_dec nL nR) as [<-|Ne]; [|rewrite get_tr_none in H by exact Ne; discriminate].
  destruct (get_tr_some _ _ _ _ _ _ _ _ _ H) as (X & U & st & V & _ & ES & -> & ->). cbn [rows cols ent]. splits; try reflexivity.
  destruct (Sv _ _ _ _ _ _ ES) as (HU & HV & P & _). rewrite Nat.min_id in P. apply usv_no_gain; [exact HU|exact HV|].
  intros i Hi. apply clip_range, P, Hi.
Qed.
Print Assumptions C47_transmission_no_gain.

(** If amplitudes T, R make the transverse fields continuous for every incoming
    left mode, and T has no gain, get_tr returns T and R.  The left modes are
    orthogonal and the matrix of summed overlaps is regular. *)
Theorem C47_matched_amplitudes :
  forall sh dxes (lstsq : lstsq_fun) (svd : svd_fun) n ehL ehR T R tt rr,
    lstsq_ok lstsq -> svd_ok svd ->
    matched (2 * prodl sh) n (fun i => fst (ehL i)) (fun i => snd (ehL i)) n (fun i => fst (ehR i)) (fun i => snd (ehR i)) T R ->
    (forall i j, (i < n)%nat -> (j < n)%nat -> i <> j -> inner_product (K := CC) sh (fst (ehL i)) (snd (ehL j)) dxes c1 false = c0) ->
    (forall i, (i < n)%nat -> inner_product (K := CC) sh (fst (ehL i)) (snd (ehL i)) dxes c1 false <> c0) ->
    injective n n (fun l r => cadd (inner_product (K := CC) sh (fst (ehR r)) (snd (ehL l)) dxes c1 false)
                                   (inner_product (K := CC) sh (fst (ehL l)) (snd (ehR r)) dxes c1 false)) ->
    no_gain n n T ->
    get_tr sh dxes lstsq svd n ehL n ehR = Some (tt, rr) ->
    forall i j, (i < n)%nat -> (j < n)%nat -> ent tt i j = T i j /\ ent rr i j = R i j.
Proof.
  intros sh dxes lstsq svd n ehL ehR T R tt rr Lo Sv M O B Inj G H.
  destruct (get_tr_some _ _ _ _ _ _ _ _ _ H) as (X & U & st & V & EL & ES & -> & ->). cbn [ent].
  pose proof (match_e sh dxes n n ehL ehR T R M O) as ME. pose proof (match_h sh dxes n n ehL ehR T R M O) as MH.
  assert (XT : forall i j, (i < n)%nat -> (j < n)%nat -> X i j = T i j).
  { apply (lstsq_exact n n n _ _ X T (Lo _ _ _ _ _ _ EL) Inj). intros q j Hq Hj.
    transitivity (cadd (sumN (K := CC) n (fun k => cmul (T k j) (oA21 sh dxes ehL ehR q k))) (sumN (K := CC) n (fun k => cmul (T k j) (oA12 sh dxes ehL ehR q k)))).
    - refine (eq_trans _ (sumN_add CC n _ _)). apply (sumN_ext CC). intros k _. unfold madd. apply cpx_ext; cbn; ring.
    - rewrite (ME j q Hj Hq), (MH j q Hj Hq). unfold mdiag, ind, delta. destruct (q =? j)%nat; apply cpx_ext; cbn; ring. }
  pose proof (Sv _ _ _ _ _ _ ES) as SV.
  assert (XG : no_gain n n X).
  { intro x. rewrite (norm2_ext n _ (mv (K := CC) n T x)); [apply G|]. intros i Hi. apply (mv_ext CC); [|reflexivity]. intros j Hj. now apply XT. }
  assert (St : forall i, (i < n)%nat -> clip st i = st i).
  { intros i Hi. unfold clip. destruct (Rlt_dec 1 (st i)) as [L|L]; [|reflexivity]. pose proof (svd_of_contraction n X U st V SV XG i Hi). lra. }
  assert (TT : forall i j, (i < n)%nat -> (j < n)%nat -> mm n (mm n U (mdiag (K := CC) (fun i => mkC (clip st i) 0))) V i j = T i j).
  { apply (meq_of_mv CC). intros x i Hi. transitivity (mv (K := CC) n X x i); [|apply (mv_ext CC); [intros; now apply XT|reflexivity]].
    rewrite (svd_mv n X U st V x i SV Hi). rewrite !usv_mv. apply (mv_ext_v CC). intros j Hj. rewrite !mv_diag by exact Hj. now rewrite St. }
  intros i j Hi Hj. split; [now apply TT|].
  rewrite (mm_assoc CC).
  transitivity (mv (K := CC) n (mdiag (K := CC) (fun l => cdiv chalf (oB sh dxes ehL l))) (fun k => sumN (K := CC) n (fun q => cmul (msub (oA21 sh dxes ehL ehR) (oA12 sh dxes ehL ehR) k q) (mm n (mm n U (mdiag (K := CC) (fun i => mkC (clip st i) 0))) V q j))) i); [reflexivity|].
  rewrite mv_diag by exact Hi.
  assert (E : sumN (K := CC) n (fun q => cmul (msub (oA21 sh dxes ehL ehR) (oA12 sh dxes ehL ehR) i q) (mm n (mm n U (mdiag (K := CC) (fun i => mkC (clip st i) 0))) V q j)) = cmul (cadd c1 c1) (cmul (oB sh dxes ehL i) (R i j))).
  { transitivity (csub (sumN (K := CC) n (fun k => cmul (T k j) (oA21 sh dxes ehL ehR i k))) (sumN (K := CC) n (fun k => cmul (T k j) (oA12 sh dxes ehL ehR i k)))).
    - refine (eq_trans _ (sumN_sub CC n _ _)). apply (sumN_ext CC). intros k Hk. rewrite TT by assumption. unfold msub. apply cpx_ext; cbn; ring.
    - rewrite (ME j i Hj Hi), (MH j i Hj Hi). cring. }
  rewrite E. specialize (B i Hi). change (inner_product sh (fst (ehL i)) (snd (ehL i)) dxes c1 false) with (oB sh dxes ehL i) in B.
  set (b := oB sh dxes ehL i) in *. clearbody b. set (z := R i j). clearbody z.
  replace chalf with (cdiv c1 (cadd c1 c1)) by (unfold chalf; apply cpx_ext; cbn; unfold cnrm; cbn; field).
  cfield. split; first [exact B|exact c2nz].
Qed.
Print Assumptions C47_matched_amplitudes.

(** With as many left as right modes get_tr returns whenever numpy does. *)
Theorem C47_get_tr_succeeds :
  forall sh dxes (lstsq : lstsq_fun) (svd : svd_fun) n ehL ehR,
    (forall A B, exists X, lstsq n n n A B = Some X) -> (forall M, exists r, svd n n M = Some r) ->
    exists tr, get_tr sh dxes lstsq svd n ehL n ehR = Some tr.
Proof.
  intros sh dxes lstsq svd n ehL ehR HL HS. destruct (HL (madd (oA21 sh dxes ehL ehR) (oA12 sh dxes ehL ehR)) (mdiag (K := CC) (fun l => cmul ctwo (oB sh dxes ehL l)))) as (X & EX).
  destruct (HS X) as (r & Er). exact (get_tr_total _ _ _ _ _ _ _ _ _ EX Er).
Qed.
Print Assumptions C47_get_tr_succeeds.

Lemma get_s_shape sh dxes lstsq svd nL ehL nR ehR ng rc S : get_s sh dxes lstsq svd nL ehL nR ehR ng rc = Some S -> nL = nR /\ rows S = (nL + nR)%nat /\ cols S = (nL + nR)%nat.
Proof.
  unfold get_s. intro H. destruct (Nat.eq_dec nL nR) as [<-|Ne]; [|rewrite get_tr_none in H by exact Ne; discriminate]. split; [reflexivity|].
  destruct (get_tr sh dxes lstsq svd nL ehL nL ehR) as [[t12 r12]|] eqn:E12; [|discriminate]. cbn [obind] in H.
  destruct (get_tr sh dxes lstsq svd nL ehR nL ehL) as [[t21 r21]|] eqn:E21; [|discriminate]. cbn [obind] in H.
  apply get_tr_some in E12, E21. destruct E12 as (? & ? & ? & ? & _ & _ & E1 & E2). destruct E21 as (? & ? & ? & ? & _ & _ & E3 & E4).
  unfold block in H. rewrite E1, E2, E3, E4 in H. cbn [rows cols] in H. rewrite !Nat.eqb_refl in H. cbn [andb obind rows cols] in H.
  destruct ng.
  - destruct (svd _ _ _) as [[[U sing] V]|]; [|discriminate]. cbn [obind] in H. rewrite Nat.min_id in H. unfold matmul, diag in H. cbn [rows cols obind] in H.
    rewrite !Nat.eqb_refl in H. cbn [obind rows cols] in H. rewrite !Nat.eqb_refl in H. cbn [obind rows cols] in H.
    destruct rc; [|injection H as <-; split; reflexivity]. unfold zip2 in H. cbn [rows cols] in H. rewrite !Nat.eqb_refl in H. cbn [andb obind rows cols] in H. injection H as <-. split; reflexivity.
  - cbn [obind] in H. destruct rc; [|injection H as <-; split; reflexivity]. unfold zip2 in H. cbn [rows cols] in H. rewrite !Nat.eqb_refl in H. cbn [andb obind rows cols] in H. injection H as <-. split; reflexivity.
Qed.

(** get_s with force_reciprocal is symmetric. *)
Theorem C47_force_reciprocal_symmetric :
  forall sh dxes (lstsq : lstsq_fun) (svd : svd_fun) nL ehL nR ehR force_nogain S,
    get_s sh dxes lstsq svd nL ehL nR ehR force_nogain true = Some S ->
    rows S = (nL + nR)%nat /\ cols S = (nL + nR)%nat /\ forall i j, ent S i j = ent S j i.
Proof.
  intros sh dxes lstsq svd nL ehL nR ehR ng S H. pose proof (get_s_shape _ _ _ _ _ _ _ _ _ _ _ H) as (_ & R1 & R2). split; [exact R1|]. split; [exact R2|].
  unfold get_s in H. destruct (get_tr sh dxes lstsq svd nL ehL nR ehR) as [[t12 r12]|]; [|discriminate]. cbn [obind] in H.
  destruct (get_tr sh dxes lstsq svd nR ehR nL ehL) as [[t21 r21]|]; [|discriminate]. cbn [obind] in H.
  destruct (block r12 t12 t21 r21) as [ss|]; [|discriminate]. cbn [obind] in H.
  match type of H with obind ?e _ = _ => destruct e as [s2|]; [|discriminate] end. cbn [obind] in H.
  unfold zip2 in H. destruct (_ && _)%bool; [|discriminate]. cbn [obind rows cols ent] in H. injection H as <-. cbn [ent].
  intros i j. unfold mscale, madd, mtr. apply cpx_ext; cbn; ring.
Qed.
Print Assumptions C47_force_reciprocal_symmetric.

(** The four blocks of get_abcd map (incoming left, outgoing left) to (outgoing
    right, incoming right), when t21 is regular. *)
Theorem C47_abcd_blocks :
  forall sh dxes (lstsq : lstsq_fun) (svd : svd_fun) (pinv : pinv_fun) n ehL ehR t12 r12 t21 r21 A B C D,
    pinv_ok pinv ->
    get_tr sh dxes lstsq svd n ehL n ehR = Some (t12, r12) -> get_tr sh dxes lstsq svd n ehR n ehL = Some (t21, r21) ->
    abcd_blocks sh dxes lstsq svd pinv n ehL n ehR = Some (A, B, C, D) ->
    injective n n (ent t21) ->
    forall aL aR bL bR : vect CC,
      (forall i, (i < n)%nat -> bL i = cadd (mv (K := CC) n (ent r12) aL i) (mv (K := CC) n (ent t21) aR i)) ->
      (forall i, (i < n)%nat -> bR i = cadd (mv (K := CC) n (ent t12) aL i) (mv (K := CC) n (ent r21) aR i)) ->
      forall i, (i < n)%nat ->
        cadd (mv (K := CC) n (ent A) aL i) (mv (K := CC) n (ent B) bL i) = bR i /\
        cadd (mv (K := CC) n (ent C) aL i) (mv (K := CC) n (ent D) bL i) = aR i.
Proof.
  intros sh dxes lstsq svd pinv n ehL ehR t12 r12 t21 r21 A B C D Po E12 E21 H Inj aL aR bL bR HbL HbR.
  unfold abcd_blocks in H. rewrite E12, E21 in H. cbn [obind] in H.
  apply get_tr_some in E12, E21. destruct E12 as (? & ? & ? & ? & _ & _ & E1 & E2). destruct E21 as (? & ? & ? & ? & _ & _ & E3 & E4).
  assert (Rt12 : rows t12 = n /\ cols t12 = n) by (rewrite E1; split; reflexivity). assert (Rr12 : rows r12 = n /\ cols r12 = n) by (rewrite E2; split; reflexivity).
  assert (Rt21 : rows t21 = n /\ cols t21 = n) by (rewrite E3; split; reflexivity). assert (Rr21 : rows r21 = n /\ cols r21 = n) by (rewrite E4; split; reflexivity).
  clear E1 E2 E3 E4. destruct t12 as [k1 l1 mt12], r12 as [k2 l2 mr12], t21 as [k3 l3 mt21], r21 as [k4 l4 mr21]. cbn [rows cols ent] in *.
  destruct Rt12 as (-> & ->), Rr12 as (-> & ->), Rt21 as (-> & ->), Rr21 as (-> & ->).
  destruct (pinv n n mt21) as [p|] eqn:EP; [|discriminate]. cbn [obind rows cols ent] in H.
  unfold matmul in H. cbn [rows cols ent] in H. rewrite !Nat.eqb_refl in H. cbn [obind rows cols ent] in H. rewrite !Nat.eqb_refl in H. cbn [obind rows cols ent] in H.
  unfold zip2 in H. cbn [rows cols ent] in H. rewrite !Nat.eqb_refl in H. cbn [andb obind rows cols ent] in H. injection H as <- <- <- <-. cbn [ent].
  (* p t21 = 1 *)
  assert (PT : forall x i, (i < n)%nat -> mv (K := CC) n p (mv (K := CC) n mt21 x) i = x i).
  { clear - Po EP Inj. intros x i Hi. pose proof (Po _ _ _ _ EP) as P1.
    assert (Z : forall k, (k < n)%nat -> mv (K := CC) n mt21 (fun j => csub (mv (K := CC) n p (mv (K := CC) n mt21 x) j) (x j)) k = c0).
    { intros k Hk. refine (eq_trans (mv_lin_sub CC n mt21 _ _ k) _).
      assert (Q : mv (K := CC) n mt21 (mv (K := CC) n p (mv (K := CC) n mt21 x)) k = mv (K := CC) n mt21 x k).
      { transitivity (mv (K := CC) n (mm n mt21 (mm n p mt21)) x k).
        - refine (eq_trans (mv_ext_v CC n mt21 _ (mv (K := CC) n (mm n p mt21) x) k _) (eq_sym (mv_mm (K := CC) n n _ _ x k))).
          intros j _. symmetry. apply (mv_mm (K := CC)).
        - apply (mv_ext CC); [|reflexivity]. intros j Hj. exact (P1 k j Hk Hj). }
      refine (eq_trans (f_equal (fun z => csub z _) Q) _). cring. }
    pose proof (Inj _ Z i Hi) as W. apply cpx_ext; injection W; cbn; lra. }
  assert (AR : forall i, (i < n)%nat -> aR i = csub (mv (K := CC) n p bL i) (mv (K := CC) n p (mv (K := CC) n mr12 aL) i)).
  { intros i Hi. rewrite <- (PT aR i Hi).
    transitivity (mv (K := CC) n p (fun j => csub (bL j) (mv (K := CC) n mr12 aL j)) i); [|exact (mv_lin_sub CC n p _ _ i)].
    apply (mv_ext_v CC). intros j Hj. rewrite (HbL j Hj). cring. }
  assert (CA : forall i, mv (K := CC) n (mm n (mopp p) mr12) aL i = copp (mv (K := CC) n p (mv (K := CC) n mr12 aL) i)).
  { intro i. refine (eq_trans (mv_mm (K := CC) n n _ _ aL i) _). exact (mv_mopp CC n p _ i). }
  intros i Hi. split.
  - rewrite (HbR i Hi).
    assert (Q1 : mv (K := CC) n (msub mt12 (mm n (mm n mr21 p) mr12)) aL i = csub (mv (K := CC) n mt12 aL i) (mv (K := CC) n mr21 (mv (K := CC) n p (mv (K := CC) n mr12 aL)) i)).
    { refine (eq_trans (mv_msub CC n _ _ aL i) _). refine (f_equal (csub (mv (K := CC) n mt12 aL i)) _).
      refine (eq_trans (mv_mm (K := CC) n n _ _ aL i) _). apply (mv_mm (K := CC)). }
    assert (Q2 : mv (K := CC) n (mm n mr21 p) bL i = mv (K := CC) n mr21 (mv (K := CC) n p bL) i) by apply (mv_mm (K := CC)).
    assert (Q3 : mv (K := CC) n mr21 aR i = csub (mv (K := CC) n mr21 (mv (K := CC) n p bL) i) (mv (K := CC) n mr21 (mv (K := CC) n p (mv (K := CC) n mr12 aL)) i)).
    { refine (eq_trans (mv_ext_v CC n mr21 _ _ i AR) _). exact (mv_lin_sub CC n mr21 _ _ i). }
    refine (eq_trans (f_equal2 cadd Q1 Q2) _). refine (eq_trans _ (f_equal (cadd (mv (K := CC) n mt12 aL i)) (eq_sym Q3))). cring.
  - refine (eq_trans (f_equal2 cadd (CA i) eq_refl) _). rewrite (AR i Hi). cring.
Qed.
Print Assumptions C47_abcd_blocks.

(** ** C82 *)
(** Different numbers of modes on the two sides raise ValueError. *)
Theorem C82_different_mode_counts_raise :
  forall sh dxes (lstsq : lstsq_fun) (svd : svd_fun) (pinv : pinv_fun) nL ehL nR ehR force_nogain force_reciprocal,
    nL <> nR ->
    get_tr sh dxes lstsq svd nL ehL nR ehR = None /\
    get_abcd sh dxes lstsq svd pinv nL ehL nR ehR = None /\
    get_s sh dxes lstsq svd nL ehL nR ehR force_nogain force_reciprocal = None.
Proof.
  intros sh dxes lstsq svd pinv nL ehL nR ehR ng rc H. pose proof (get_tr_none sh dxes lstsq svd nL ehL nR ehR H) as E. split; [exact E|].
  unfold get_abcd, get_abcd_with, abcd_blocks, get_s. rewrite E. split; reflexivity.
Qed.
Print Assumptions C82_different_mode_counts_raise.

(** ** C85 *)
(** get_abcd never returns: its blocks always have the same shape, and
    scipy.sparse.block_array does not take dense blocks of the same shape. *)
Theorem C85_get_abcd_raises :
  forall sh dxes (lstsq : lstsq_fun) (svd : svd_fun) (pinv : pinv_fun) nL ehL nR ehR,
    get_abcd sh dxes lstsq svd pinv nL ehL nR ehR = None.
Proof.
  intros sh dxes lstsq svd pinv nL ehL nR ehR. destruct (Nat.eq_dec nL nR) as [<-|Ne]; [|now apply (C82_different_mode_counts_raise sh dxes lstsq svd pinv nL ehL nR ehR true true)].
  unfold get_abcd, get_abcd_with, abcd_blocks.
  destruct (get_tr sh dxes lstsq svd nL ehL nL ehR) as [[t12 r12]|] eqn:E12; [|reflexivity]. cbn [obind].
  destruct (get_tr sh dxes lstsq svd nL ehR nL ehL) as [[t21 r21]|] eqn:E21; [|reflexivity]. cbn [obind].
  apply get_tr_some in E12, E21. destruct E12 as (? & ? & ? & ? & _ & _ & E1 & E2). destruct E21 as (? & ? & ? & ? & _ & _ & E3 & E4).
  destruct (pinv _ _ _) as [p|]; [|reflexivity]. cbn [obind]. rewrite E1, E2, E3, E4. cbn [rows cols].
  unfold matmul. cbn [rows cols ent]. rewrite !Nat.eqb_refl. cbn [obind rows cols ent]. rewrite !Nat.eqb_refl. cbn [obind rows cols ent].
  unfold zip2. cbn [rows cols ent]. rewrite !Nat.eqb_refl. cbn [andb obind rows cols ent]. unfold sparse_block_array. cbn [rows cols]. rewrite !Nat.eqb_refl. reflexivity.
Qed.
Print Assumptions C85_get_abcd_raises.

(** ** C83 *)
Lemma get_s_nogain sh dxes lstsq svd nL ehL nR ehR S' : get_s sh dxes lstsq svd nL ehL nR ehR true false = Some S' ->
  exists S U sing V, get_s sh dxes lstsq svd nL ehL nR ehR false false = Some S /\ svd (rows S) (cols S) (ent S) = Some (U, sing, V) /\
    ent S' = mm (nL + nR) (mm (nL + nR) (mdiag (K := CC) (fun i => mkC (sing i) 0)) U) V.
Proof.
  intro H. unfold get_s in H.
  destruct (get_tr sh dxes lstsq svd nL ehL nR ehR) as [[t12 r12]|] eqn:E1; [|discriminate]. cbn [obind] in *.
  destruct (get_tr sh dxes lstsq svd nR ehR nL ehL) as [[t21 r21]|] eqn:E2; [|discriminate]. cbn [obind] in *.
  destruct (block r12 t12 t21 r21) as [ss|] eqn:EB; [|discriminate]. cbn [obind] in *.
  assert (F : get_s sh dxes lstsq svd nL ehL nR ehR false false = Some ss). { unfold get_s. rewrite E1. cbn [obind]. rewrite E2. cbn [obind]. rewrite EB. reflexivity. }
  destruct (get_s_shape _ _ _ _ _ _ _ _ _ _ _ F) as (_ & R1 & R2). exists ss.
  destruct (svd (rows ss) (cols ss) (ent ss)) as [[[U sing] V]|] eqn:ES; [|discriminate]. cbn [obind] in H. exists U, sing, V. split; [exact F|]. split; [reflexivity|].
  rewrite R1, R2, Nat.min_id in H. unfold matmul, diag in H. cbn [rows cols obind] in H. rewrite !Nat.eqb_refl in H. cbn [obind rows cols] in H. rewrite !Nat.eqb_refl in H.
  cbn [obind] in H. injection H as <-. reflexivity.
Qed.

(** force_nogain neither removes nor adds gain, whatever the modes; it makes
    S S^H diagonal. *)
Theorem C83_force_nogain_keeps_gain :
  forall sh dxes (lstsq : lstsq_fun) (svd : svd_fun) nL ehL nR ehR S S',
    svd_ok svd ->
    get_s sh dxes lstsq svd nL ehL nR ehR false false = Some S ->
    get_s sh dxes lstsq svd nL ehL nR ehR true false = Some S' ->
    let m := (nL + nR)%nat in
    (no_gain m m (ent S') <-> no_gain m m (ent S)) /\
    (forall i j, (i < m)%nat -> (j < m)%nat -> i <> j -> sumN (K := CC) m (fun q => cmul (ent S' i q) (cconj (ent S' j q))) = c0).
Proof.
  intros sh dxes lstsq svd nL ehL nR ehR S S' Sv H H' m.
  destruct (get_s_nogain _ _ _ _ _ _ _ _ _ H') as (S0 & U & sing & V & E0 & ES & ->). rewrite E0 in H. injection H as ->.
  destruct (get_s_shape _ _ _ _ _ _ _ _ _ _ _ E0) as (_ & R1 & R2). rewrite R1, R2 in ES. fold m in ES |- *.
  pose proof (Sv _ _ _ _ _ _ ES) as SV. pose proof SV as (HU & HV & P & _). rewrite Nat.min_id in P.
  pose proof (dw_svd m sing _ (unitary_mm m U V HU HV) P) as SW.
  assert (As : forall i j, mm (K := CC) m (mm m (mdiag (K := CC) (fun i => mkC (sing i) 0)) U) V i j = mm (K := CC) m (mdiag (K := CC) (fun i => mkC (sing i) 0)) (mm (K := CC) m U V) i j).
  { intros i j. apply (mm_assoc CC). }
  split; [split|].
  - intro G. apply (svd_no_gain m _ U sing V SV). apply (svd_of_contraction m _ _ _ _ SW). refine (no_gain_ext m _ _ _ G). intros i j _ _. apply As.
  - intro G. refine (no_gain_ext m _ _ _ (svd_no_gain m _ _ _ _ SW (svd_of_contraction m _ _ _ _ SV G))). intros i j _ _. symmetry. apply As.
  - intros i j Hi Hj Ne. destruct (unitary_mm m U V HU HV) as (_ & W2).
    assert (D : forall k q, (k < m)%nat -> mm (K := CC) m (mdiag (K := CC) (fun i => mkC (sing i) 0)) (mm (K := CC) m U V) k q = cmul (mkC (sing k) 0) (mm (K := CC) m U V k q)).
    { intros k q Hk. exact (mv_diag m (fun i => mkC (sing i) 0) (fun k => mm (K := CC) m U V k q) k Hk). }
    transitivity (sumN (K := CC) m (fun q => cmul (mkC (sing i * sing j) 0) (cmul (mm (K := CC) m U V i q) (cconj (mm (K := CC) m U V j q))))).
    + apply (sumN_ext CC). intros q _. rewrite !As, !D by assumption. set (a := mm (K := CC) m U V i q). set (b := mm (K := CC) m U V j q). clearbody a b. apply cpx_ext; cbn; ring.
    + refine (eq_trans (sumN_mul_l CC m _ _) _). refine (eq_trans (f_equal (cmul (mkC (sing i * sing j) 0)) (W2 i j Hi Hj)) _).
      unfold delta. destruct (Nat.eqb_spec i j); [contradiction|]. apply cpx_ext; cbn; ring.
Qed.
Print Assumptions C83_force_nogain_keeps_gain.

(** *** A single mode on each side of a one-cell grid *)
Definition vec3 (x y : R) : vect CC := fun i => match i with O => mkC x 0 | 1%nat => mkC y 0 | _ => c0 end.
Definition unit_dxes : dx2 CC := (fun _ _ => c1, fun _ _ => c1).
Lemma overlap_11 x y u v : overlap [1; 1]%nat unit_dxes (vec3 x y) (vec3 u v) = mkC ((x * v - y * u) / 2) 0.
Proof. apply cpx_ext; cbn; unfold cnrm; cbn; field. Qed.
Definition lstsq1 : lstsq_fun := fun m n p A B =>
  match m, n, p with 1%nat, 1%nat, 1%nat => if cpx_dec (A 0%nat 0%nat) c0 then None else Some (fun _ _ => cdiv (B 0%nat 0%nat) (A 0%nat 0%nat)) | _, _, _ => None end.
Lemma lstsq1_ok : lstsq_ok lstsq1.
Proof.
  intros m n p A B X. unfold lstsq1. destruct m as [|[|m]], n as [|[|n]], p as [|[|p]]; try discriminate. destruct (cpx_dec _ _) as [|Nz]; [discriminate|]. intro E. injection E as <-.
  intros i j Hi Hj. assert (i = 0 /\ j = 0)%nat as (-> & ->) by lia.
  transitivity (cmul (cconj (A 0%nat 0%nat)) (csub (cmul (A 0%nat 0%nat) (cdiv (B 0%nat 0%nat) (A 0%nat 0%nat))) (B 0%nat 0%nat))).
  - set (z := cdiv _ _). apply cpx_ext; cbn; ring.
  - set (a := A 0%nat 0%nat) in *. set (b := B 0%nat 0%nat). set (c := cconj a). clearbody a b c. cfield. exact Nz.
Qed.

Definition S83 : mat CC := fun i j => match i, j with O, O => mkC (4 / 3) 0 | 1%nat, 1%nat => mkC (- (4 / 3)) 0 | _, _ => c1 end.
Definition U83 : mat CC := fun i j => match i, j with O, O => mkC (4 / 5) 0 | 1%nat, 1%nat => mkC (- (4 / 5)) 0 | _, _ => mkC (3 / 5) 0 end.
Definition svd83 : svd_fun := fun r c M =>
  match r, c with
  | 1%nat, 1%nat => if cpx_dec (M 0%nat 0%nat) c1 then Some (mid, fun _ => 1, mid) else None
  | 2%nat, 2%nat => if same_mat 2 M S83 then Some (U83, fun _ => 5 / 3, mid) else None
  | _, _ => None
  end.
Lemma two_cases i : (i < 2)%nat -> i = 0%nat \/ i = 1%nat. Proof. lia. Qed.
Lemma svd83_ok : svd_ok svd83.
Proof.
  intros r c M U st V. unfold svd83. destruct r as [|[|[|r]]], c as [|[|[|c]]]; try discriminate.
  - destruct (cpx_dec _ _) as [E|]; [|discriminate]. intro H. injection H as <- <- <-. split; [apply unitary_mid|]. split; [apply unitary_mid|]. split; [intros; lra|].
    intros i j Hi Hj. assert (i = 0 /\ j = 0)%nat as (-> & ->) by lia. rewrite E. apply cpx_ext; cbn; ring.
  - destruct (same_mat 2 M S83) eqn:E; [|discriminate]. rewrite same_mat_spec in E. intro H. injection H as <- <- <-. split; [|split; [apply unitary_mid|split; [intros; lra|]]].
    + split; intros i j Hi Hj; destruct (two_cases i Hi) as [->| ->], (two_cases j Hj) as [->| ->]; apply cpx_ext; cbn; field.
    + intros i j Hi Hj. rewrite E by assumption. destruct (two_cases i Hi) as [->| ->], (two_cases j Hj) as [->| ->]; apply cpx_ext; cbn; field.
Qed.
Definition ehL83 : modes := fun _ => (vec3 1 0, vec3 1 1).
Definition ehR83 : modes := fun _ => (vec3 (1 / 3) (-2), vec3 (5 / 9) (- (1 / 3))).

(** get_tr for one mode with overlaps summing to one and norm 1/2. *)
Lemma tr_one ehL ehR a b : overlap [1; 1]%nat unit_dxes (fst (ehR 0%nat)) (snd (ehL 0%nat)) = mkC a 0 -> overlap [1; 1]%nat unit_dxes (fst (ehL 0%nat)) (snd (ehR 0%nat)) = mkC b 0 ->
  overlap [1; 1]%nat unit_dxes (fst (ehL 0%nat)) (snd (ehL 0%nat)) = mkC (1 / 2) 0 -> a + b = 1 ->
  exists tt rr, get_tr [1; 1]%nat unit_dxes lstsq1 svd83 1 ehL 1 ehR = Some (tt, rr) /\ rows tt = 1%nat /\ cols tt = 1%nat /\ rows rr = 1%nat /\ cols rr = 1%nat /\
    ent tt 0%nat 0%nat = c1 /\ ent rr 0%nat 0%nat = mkC (a - b) 0.
Proof.
  intros Ea Eb EB Hs. set (A := madd (oA21 [1; 1]%nat unit_dxes ehL ehR) (oA12 [1; 1]%nat unit_dxes ehL ehR)).
  set (Bm := mdiag (K := CC) (fun l => cmul ctwo (oB [1; 1]%nat unit_dxes ehL l))).
  assert (A00 : A 0%nat 0%nat = c1).
  { unfold A, madd, oA21, oA12. refine (eq_trans (f_equal2 cadd Ea Eb) _). apply cpx_ext; cbn; lra. }
  assert (B00 : Bm 0%nat 0%nat = c1).
  { unfold Bm, mdiag, oB. cbn [Nat.eqb ind]. refine (eq_trans (f_equal (fun z => cmul c1 (cmul ctwo z)) EB) _). apply cpx_ext; cbn; field. }
  assert (X0 : lstsq1 1%nat 1%nat 1%nat A Bm = Some (fun _ _ => c1)).
  { unfold lstsq1. rewrite A00, B00. destruct (cpx_dec c1 c0) as [Z|_]; [injection Z; lra|]. do 2 f_equal.
    assert (Q : cdiv c1 c1 = c1) by (apply cpx_ext; cbn; unfold cnrm; cbn; field). now rewrite Q. }
  assert (S0 : svd83 1%nat 1%nat (fun _ _ => c1) = Some (mid, fun _ => 1, mid)). { unfold svd83. destruct (cpx_dec c1 c1); [reflexivity|contradiction]. }
  destruct (get_tr_total [1; 1]%nat unit_dxes lstsq1 svd83 1 ehL ehR _ _ X0 S0) as ((tt & rr) & H). exists tt, rr. split; [exact H|].
  destruct (get_tr_some _ _ _ _ _ _ _ _ _ H) as (X & U & st & V & EX & ES & Et & ->). fold A Bm in EX. rewrite X0 in EX. injection EX as <-. rewrite S0 in ES. injection ES as <- <- <-.
  assert (T : ent tt 0%nat 0%nat = c1). { rewrite Et. cbn [ent]. unfold mm. cbn [sumN]. unfold clip. destruct (Rlt_dec 1 1); [lra|]. apply cpx_ext; cbn; ring. }
  assert (Sh : rows tt = 1%nat /\ cols tt = 1%nat) by (rewrite Et; split; reflexivity). destruct Sh as (S1 & S2). clear Et.
  splits; try assumption; try reflexivity. cbn [ent]. unfold mm. cbn [sumN]. unfold msub, mdiag, oA21, oA12, oB. rewrite T, Ea, Eb, EB. apply cpx_ext; cbn; unfold cnrm; cbn; field.
Qed.
Lemma s83 : exists S, get_s [1; 1]%nat unit_dxes lstsq1 svd83 1 ehL83 1 ehR83 false false = Some S /\ same_mat 2 (ent S) S83 = true.
Proof.
  destruct (tr_one ehL83 ehR83 (7 / 6) (- (1 / 6))) as (t12 & r12 & E12 & P1 & P2 & P3 & P4 & T12 & R12);
    [cbn [ehL83 ehR83 fst snd]; rewrite overlap_11; apply cpx_ext; cbn; field..|lra|].
  destruct (tr_one ehR83 ehL83 (- (1 / 6)) (7 / 6)) as (t21 & r21 & E21 & Q1 & Q2 & Q3 & Q4 & T21 & R21);
    [cbn [ehL83 ehR83 fst snd]; rewrite overlap_11; apply cpx_ext; cbn; field..|lra|].
  unfold get_s. rewrite E12. cbn [obind]. rewrite E21. cbn [obind]. unfold block. rewrite P1, P2, P3, P4, Q1, Q2, Q3, Q4. cbn [Nat.eqb andb obind].
  eexists. split; [reflexivity|]. apply same_mat_spec. intros i j Hi Hj. destruct (two_cases i Hi) as [->| ->], (two_cases j Hj) as [->| ->]; cbn [ent Nat.ltb Nat.leb Nat.sub];
    [rewrite R12|rewrite T12|rewrite T21|rewrite R21]; apply cpx_ext; cbn; field.
Qed.

(** Both sides carry one mode of norm 1/2, numpy is exact, and the reflection
    coefficient stays at 4/3. *)
Theorem C83_force_nogain_refuted :
  exists sh dxes (lstsq : lstsq_fun) (svd : svd_fun) nL ehL nR ehR S',
    lstsq_ok lstsq /\ svd_ok svd /\
    get_s sh dxes lstsq svd nL ehL nR ehR true false = Some S' /\ ~ no_gain (nL + nR) (nL + nR) (ent S').
Proof.
  destruct s83 as (S & E & Sm). destruct (get_s_shape _ _ _ _ _ _ _ _ _ _ _ E) as (_ & R1 & R2).
  assert (E' : exists S', get_s [1; 1]%nat unit_dxes lstsq1 svd83 1 ehL83 1 ehR83 true false = Some S').
  { unfold get_s in E |- *. destruct (get_tr _ _ _ _ _ ehL83 _ ehR83) as [[t12 r12]|]; [|discriminate]. cbn [obind] in *.
    destruct (get_tr _ _ _ _ _ ehR83 _ ehL83) as [[t21 r21]|]; [|discriminate]. cbn [obind] in *. destruct (block _ _ _ _) as [ss|]; [|discriminate]. cbn [obind] in *.
    injection E as ->. rewrite R1, R2. unfold svd83. change (1 + 1)%nat with 2%nat. cbn iota beta. rewrite Sm. cbn [obind].
    unfold matmul, diag. cbn [rows cols Nat.min Nat.eqb obind]. eexists. reflexivity. }
  destruct E' as (S' & E'). exists [1; 1]%nat, unit_dxes, lstsq1, svd83, 1%nat, ehL83, 1%nat, ehR83, S'. split; [exact lstsq1_ok|]. split; [exact svd83_ok|]. split; [exact E'|].
  intro G. apply (C83_force_nogain_keeps_gain _ _ _ _ _ _ _ _ _ _ svd83_ok E E') in G. apply (no_gain_ext 2 _ S83) in G; [|apply same_mat_spec; exact Sm].
  specialize (G (basis 0)). unfold norm2, mv, basis, S83 in G. cbn in G. lra.
Qed.
Print Assumptions C83_force_nogain_refuted.

(** *** Two modes on each side of a one-cell grid: the right modes are the left
    ones, turned by 90 degrees. *)
Definition ehL84 : modes := fun i => match i with O => (vec3 1 0, vec3 0 1) | _ => (vec3 0 1, vec3 (-1) 0) end.
Definition ehR84 : modes := fun i => match i with O => (vec3 0 1, vec3 (-1) 0) | _ => (vec3 (-1) 0, vec3 0 (-1)) end.
Definition J1 : mat CC := fun i j => match i, j with O, 1%nat => c1 | 1%nat, O => copp c1 | _, _ => c0 end.
Definition J2 : mat CC := fun i j => match i, j with O, 1%nat => copp c1 | 1%nat, O => c1 | _, _ => c0 end.
Definition zero_mat : mat CC := fun _ _ => c0.
Definition det2 (A : mat CC) : cpx := csub (cmul (A 0%nat 0%nat) (A 1%nat 1%nat)) (cmul (A 0%nat 1%nat) (A 1%nat 0%nat)).
Definition lstsq2 : lstsq_fun := fun m n p A B =>
  match m, n, p with
  | 2%nat, 2%nat, 2%nat => if cpx_dec (det2 A) c0 then None else
      Some (fun k j => match k with
                       | O => cdiv (csub (cmul (A 1%nat 1%nat) (B 0%nat j)) (cmul (A 0%nat 1%nat) (B 1%nat j))) (det2 A)
                       | _ => cdiv (csub (cmul (A 0%nat 0%nat) (B 1%nat j)) (cmul (A 1%nat 0%nat) (B 0%nat j))) (det2 A) end)
  | _, _, _ => None
  end.
Definition svd84 : svd_fun := fun r c M =>
  match r, c with
  | 2%nat, 2%nat => if same_mat 2 M J1 then Some (J1, fun _ => 1, mid) else if same_mat 2 M J2 then Some (J2, fun _ => 1, mid) else None
  | _, _ => None
  end.
Definition pinv84 : pinv_fun := fun r c M =>
  match r, c with 2%nat, 2%nat => if same_mat 2 M J2 then Some J1 else None | _, _ => None end.
Lemma lstsq2_ok : lstsq_ok lstsq2.
Proof.
  intros m n p A B X. unfold lstsq2. destruct m as [|[|[|m]]], n as [|[|[|n]]], p as [|[|[|p]]]; try discriminate. destruct (cpx_dec _ _) as [|Nz]; [discriminate|].
  intro E. injection E as <-. intros i j Hi Hj. apply (sumN_zero CC). intros q Hq.
  match goal with |- @fmul _ _ _ = _ => idtac | |- cmul _ ?y = _ => enough (Z : y = c0) by (rewrite Z; apply cpx_ext; cbn; ring) end.
  unfold det2 in *. set (a := A 0%nat 0%nat) in *. set (b := A 0%nat 1%nat) in *. set (c := A 1%nat 0%nat) in *. set (d := A 1%nat 1%nat) in *.
  set (x := B 0%nat j). set (y := B 1%nat j).
  destruct (two_cases q Hq) as [->| ->].
  - change (csub (cadd (cadd c0 (cmul a (cdiv (csub (cmul d x) (cmul b y)) (csub (cmul a d) (cmul b c))))) (cmul b (cdiv (csub (cmul a y) (cmul c x)) (csub (cmul a d) (cmul b c))))) x = c0).
    clearbody a b c d x y. cfield. exact Nz.
  - change (csub (cadd (cadd c0 (cmul c (cdiv (csub (cmul d x) (cmul b y)) (csub (cmul a d) (cmul b c))))) (cmul d (cdiv (csub (cmul a y) (cmul c x)) (csub (cmul a d) (cmul b c))))) y = c0).
    clearbody a b c d x y. cfield. exact Nz.
Qed.
Lemma unitary_J1 : unitary 2 J1.
Proof. split; intros i j Hi Hj; destruct (two_cases i Hi) as [->| ->], (two_cases j Hj) as [->| ->]; apply cpx_ext; cbn; ring. Qed.
Lemma unitary_J2 : unitary 2 J2.
Proof. split; intros i j Hi Hj; destruct (two_cases i Hi) as [->| ->], (two_cases j Hj) as [->| ->]; apply cpx_ext; cbn; ring. Qed.
Lemma svd84_ok : svd_ok svd84.
Proof.
  intros r c M U st V. unfold svd84. destruct r as [|[|[|r]]], c as [|[|[|c]]]; try discriminate.
  destruct (same_mat 2 M J1) eqn:E1; [|destruct (same_mat 2 M J2) eqn:E2; [|discriminate]]; intro H; injection H as <- <- <-.
  - rewrite same_mat_spec in E1. split; [exact unitary_J1|]. split; [apply unitary_mid|]. split; [intros; lra|]. intros i j Hi Hj. rewrite E1 by assumption.
    destruct (two_cases i Hi) as [->| ->], (two_cases j Hj) as [->| ->]; apply cpx_ext; cbn; ring.
  - rewrite same_mat_spec in E2. split; [exact unitary_J2|]. split; [apply unitary_mid|]. split; [intros; lra|]. intros i j Hi Hj. rewrite E2 by assumption.
    destruct (two_cases i Hi) as [->| ->], (two_cases j Hj) as [->| ->]; apply cpx_ext; cbn; ring.
Qed.
Lemma pinv84_ok : pinv_ok pinv84.
Proof.
  intros r c M P. unfold pinv84. destruct r as [|[|[|r]]], c as [|[|[|c]]]; try discriminate. destruct (same_mat 2 M J2) eqn:E; [|discriminate]. intro H. injection H as <-.
  rewrite same_mat_spec in E. intros i j Hi Hj. rewrite (E i j Hi Hj).
  transitivity (sumN (K := CC) 2 (fun k => cmul (J2 i k) (sumN (K := CC) 2 (fun l => cmul (J1 k l) (J2 l j))))).
  - apply (sumN_ext CC). intros k Hk. rewrite (E i k Hi Hk). refine (f_equal (cmul (J2 i k)) _). apply (sumN_ext CC). intros l Hl. now rewrite (E l j Hl Hj).
  - destruct (two_cases i Hi) as [->| ->], (two_cases j Hj) as [->| ->]; apply cpx_ext; cbn; ring.
Qed.

(** Everything C47_matched_amplitudes asks for, for one direction. *)
Definition good_pair (ehA ehB : modes) (T : mat CC) : Prop :=
  matched (2 * prodl [1; 1]%nat) 2 (fun i => fst (ehA i)) (fun i => snd (ehA i)) 2 (fun i => fst (ehB i)) (fun i => snd (ehB i)) T zero_mat /\
  (forall i j, (i < 2)%nat -> (j < 2)%nat -> i <> j -> overlap [1; 1]%nat unit_dxes (fst (ehA i)) (snd (ehA j)) = c0) /\
  (forall i, (i < 2)%nat -> overlap [1; 1]%nat unit_dxes (fst (ehA i)) (snd (ehA i)) <> c0) /\
  injective 2 2 (fun l r => cadd (overlap [1; 1]%nat unit_dxes (fst (ehB r)) (snd (ehA l))) (overlap [1; 1]%nat unit_dxes (fst (ehA l)) (snd (ehB r)))) /\
  no_gain 2 2 T.
Lemma det2_injective A : det2 A <> c0 -> injective 2 2 A.
Proof.
  intros H x Z. pose proof (Z 0%nat ltac:(lia)) as Z0. pose proof (Z 1%nat ltac:(lia)) as Z1.
  change (cadd (cadd c0 (cmul (A 0%nat 0%nat) (x 0%nat))) (cmul (A 0%nat 1%nat) (x 1%nat)) = c0) in Z0. change (cadd (cadd c0 (cmul (A 1%nat 0%nat) (x 0%nat))) (cmul (A 1%nat 1%nat) (x 1%nat)) = c0) in Z1.
  unfold det2 in H. set (a := A 0%nat 0%nat) in *. set (b := A 0%nat 1%nat) in *. set (c := A 1%nat 0%nat) in *. set (d := A 1%nat 1%nat) in *. set (u := x 0%nat) in *. set (v := x 1%nat) in *.
  intros j Hj. destruct (two_cases j Hj) as [->| ->]; apply (cmul_zero _ _ H).
  - transitivity (csub (cmul d (cadd (cadd c0 (cmul a u)) (cmul b v))) (cmul b (cadd (cadd c0 (cmul c u)) (cmul d v)))); [fold u; cring|rewrite Z0, Z1; cring].
  - transitivity (csub (cmul a (cadd (cadd c0 (cmul c u)) (cmul d v))) (cmul c (cadd (cadd c0 (cmul a u)) (cmul b v)))); [fold v; cring|rewrite Z0, Z1; cring].
Qed.
Lemma no_gain_unitary n U : unitary n U -> no_gain n n U.
Proof. intros H x. rewrite (unitary_norm n U x H). lra. Qed.
Ltac cases2 := repeat match goal with H : (?i < 2)%nat |- _ => destruct (two_cases i H) as [->| ->]; clear H end.
Lemma good_LR : good_pair ehL84 ehR84 J1.
Proof.
  split; [|split; [|split; [|split]]].
  - intros i q Hi Hq. change (q < 2)%nat in Hq. cases2; split; apply cpx_ext; cbn; ring.
  - intros i j Hi Hj Ne. cases2; try lia; cbn [ehL84 fst snd]; rewrite overlap_11; apply cpx_ext; cbn; field.
  - intros i Hi. cases2; cbn [ehL84 fst snd]; rewrite overlap_11; intro Z; injection Z; lra.
  - apply det2_injective. unfold det2. cbn [ehL84 ehR84 fst snd]. rewrite !overlap_11. intro Z. injection Z. cbn. lra.
  - apply no_gain_unitary, unitary_J1.
Qed.
Lemma good_RL : good_pair ehR84 ehL84 J2.
Proof.
  split; [|split; [|split; [|split]]].
  - intros i q Hi Hq. change (q < 2)%nat in Hq. cases2; split; apply cpx_ext; cbn; ring.
  - intros i j Hi Hj Ne. cases2; try lia; cbn [ehR84 fst snd]; rewrite overlap_11; apply cpx_ext; cbn; field.
  - intros i Hi. cases2; cbn [ehR84 fst snd]; rewrite overlap_11; intro Z; injection Z; lra.
  - apply det2_injective. unfold det2. cbn [ehL84 ehR84 fst snd]. rewrite !overlap_11. intro Z. injection Z. cbn. lra.
  - apply no_gain_unitary, unitary_J2.
Qed.
Lemma tr84 ehA ehB T : good_pair ehA ehB T -> (T = J1 \/ T = J2) ->
  det2 (madd (oA21 [1; 1]%nat unit_dxes ehA ehB) (oA12 [1; 1]%nat unit_dxes ehA ehB)) <> c0 ->
  exists tt rr, get_tr [1; 1]%nat unit_dxes lstsq2 svd84 2 ehA 2 ehB = Some (tt, rr) /\ rows tt = 2%nat /\ cols tt = 2%nat /\ rows rr = 2%nat /\ cols rr = 2%nat /\
    same_mat 2 (ent tt) T = true /\ same_mat 2 (ent rr) zero_mat = true.
Proof.
  intros (M & O & B & I & G) HT Det.
  set (A := madd (oA21 [1; 1]%nat unit_dxes ehA ehB) (oA12 [1; 1]%nat unit_dxes ehA ehB)) in *. set (Bm := mdiag (K := CC) (fun l => cmul ctwo (oB [1; 1]%nat unit_dxes ehA l))).
  assert (EX : exists X, lstsq2 2%nat 2%nat 2%nat A Bm = Some X). { unfold lstsq2. destruct (cpx_dec (det2 A) c0); [contradiction|]. eexists. reflexivity. }
  destruct EX as (X & EX).
  assert (XT : forall i j, (i < 2)%nat -> (j < 2)%nat -> X i j = T i j).
  { apply (lstsq_exact 2 2 2 A Bm X T (lstsq2_ok _ _ _ _ _ _ EX) I). intros q j Hq Hj.
    transitivity (cadd (sumN (K := CC) 2 (fun k => cmul (T k j) (oA21 [1; 1]%nat unit_dxes ehA ehB q k))) (sumN (K := CC) 2 (fun k => cmul (T k j) (oA12 [1; 1]%nat unit_dxes ehA ehB q k)))).
    - refine (eq_trans _ (sumN_add CC 2 _ _)). apply (sumN_ext CC). intros k _. unfold A, madd. set (x := oA21 _ _ _ _ q k). set (y := oA12 _ _ _ _ q k). set (t := T k j). clearbody x y t. apply cpx_ext; cbn; ring.
    - rewrite (match_e [1; 1]%nat unit_dxes 2 2 ehA ehB T zero_mat M O j q Hj Hq), (match_h [1; 1]%nat unit_dxes 2 2 ehA ehB T zero_mat M O j q Hj Hq).
      unfold Bm, mdiag, ind, delta, zero_mat. set (z := oB _ _ ehA q). clearbody z. destruct (q =? j)%nat; apply cpx_ext; cbn; ring. }
  assert (ES : exists r, svd84 2%nat 2%nat X = Some r).
  { unfold svd84. apply same_mat_spec in XT. destruct HT; subst T; rewrite XT; [eexists; reflexivity|]. destruct (same_mat 2 X J1); eexists; reflexivity. }
  destruct ES as (r & ES). destruct (get_tr_total [1; 1]%nat unit_dxes lstsq2 svd84 2 ehA ehB X r EX ES) as ((tt & rr) & H). exists tt, rr. split; [exact H|].
  destruct (C47_transmission_no_gain _ _ _ _ _ _ _ _ _ _ svd84_ok H) as (S1 & S2 & S3 & S4 & _). splits; try assumption.
  - apply same_mat_spec. intros i j Hi Hj. exact (proj1 (C47_matched_amplitudes _ _ _ _ _ _ _ _ _ _ _ lstsq2_ok svd84_ok M O B I G H i j Hi Hj)).
  - apply same_mat_spec. intros i j Hi Hj. exact (proj2 (C47_matched_amplitudes _ _ _ _ _ _ _ _ _ _ _ lstsq2_ok svd84_ok M O B I G H i j Hi Hj)).
Qed.
Lemma tr_LR : exists tt rr, get_tr [1; 1]%nat unit_dxes lstsq2 svd84 2 ehL84 2 ehR84 = Some (tt, rr) /\ rows tt = 2%nat /\ cols tt = 2%nat /\ rows rr = 2%nat /\ cols rr = 2%nat /\
  same_mat 2 (ent tt) J1 = true /\ same_mat 2 (ent rr) zero_mat = true.
Proof. apply tr84; [exact good_LR|now left|]. unfold det2, madd, oA21, oA12. cbn [ehL84 ehR84 fst snd]. rewrite !overlap_11. intro Z. injection Z. cbn. lra. Qed.
Lemma tr_RL : exists tt rr, get_tr [1; 1]%nat unit_dxes lstsq2 svd84 2 ehR84 2 ehL84 = Some (tt, rr) /\ rows tt = 2%nat /\ cols tt = 2%nat /\ rows rr = 2%nat /\ cols rr = 2%nat /\
  same_mat 2 (ent tt) J2 = true /\ same_mat 2 (ent rr) zero_mat = true.
Proof. apply tr84; [exact good_RL|now right|]. unfold det2, madd, oA21, oA12. cbn [ehL84 ehR84 fst snd]. rewrite !overlap_11. intro Z. injection Z. cbn. lra. Qed.

Example C47_matched_amplitudes_case :
  lstsq_ok lstsq2 /\ svd_ok svd84 /\ good_pair ehL84 ehR84 J1 /\ exists tt rr, get_tr [1; 1]%nat unit_dxes lstsq2 svd84 2 ehL84 2 ehR84 = Some (tt, rr).
Proof. split; [exact lstsq2_ok|]. split; [exact svd84_ok|]. split; [exact good_LR|]. destruct tr_LR as (tt & rr & H & _). now exists tt, rr. Qed.
Example C47_abcd_blocks_case :
  pinv_ok pinv84 /\ exists t21 r21 q, get_tr [1; 1]%nat unit_dxes lstsq2 svd84 2 ehR84 2 ehL84 = Some (t21, r21) /\ injective 2 2 (ent t21) /\
    abcd_blocks [1; 1]%nat unit_dxes lstsq2 svd84 pinv84 2 ehL84 2 ehR84 = Some q.
Proof.
  split; [exact pinv84_ok|]. destruct tr_LR as (t12 & r12 & E12 & P1 & P2 & P3 & P4 & T12 & _). destruct tr_RL as (t21 & r21 & E21 & Q1 & Q2 & Q3 & Q4 & T21 & _).
  assert (HQ : exists q, abcd_blocks [1; 1]%nat unit_dxes lstsq2 svd84 pinv84 2 ehL84 2 ehR84 = Some q).
  { unfold abcd_blocks. rewrite E12. cbn [obind]. rewrite E21. cbn [obind]. rewrite Q1, Q2. unfold pinv84. rewrite T21. cbn [obind]. unfold matmul. cbn [rows cols ent].
    rewrite P1, P2, P3, P4 || rewrite P3, P4. rewrite Q3, Q4. cbn [Nat.eqb obind rows cols]. rewrite ?P3, ?P4, ?Q4. cbn [Nat.eqb obind rows cols]. unfold zip2. cbn [rows cols].
    rewrite ?P1, ?P2, ?P3, ?P4, ?Q3, ?Q4. cbn [Nat.eqb andb obind]. eexists. reflexivity. }
  destruct HQ as (q & HQ). exists t21, r21, q. split; [exact E21|]. split; [|exact HQ].
  apply det2_injective. rewrite same_mat_spec in T21. unfold det2. rewrite !T21 by lia. intro Z. injection Z. cbn. lra.
Qed.

(** ** C84 *)
(** (aL, aR) as one vector *)
Definition both (n : nat) (a b : vect CC) : vect CC := fun i => if (i <? n)%nat then a i else b (i - n)%nat.

(** What get_s returns: applied to the incoming amplitudes it uses t12 for waves
    coming from the right and t21 for those coming from the left. *)
Theorem C84_get_s_blocks :
  forall sh dxes (lstsq : lstsq_fun) (svd : svd_fun) n ehL ehR t12 r12 t21 r21 S,
    get_tr sh dxes lstsq svd n ehL n ehR = Some (t12, r12) -> get_tr sh dxes lstsq svd n ehR n ehL = Some (t21, r21) ->
    get_s sh dxes lstsq svd n ehL n ehR false false = Some S ->
    forall aL aR i, (i < n)%nat ->
      mv (K := CC) (n + n) (ent S) (both n aL aR) i = cadd (mv (K := CC) n (ent r12) aL i) (mv (K := CC) n (ent t12) aR i) /\
      mv (K := CC) (n + n) (ent S) (both n aL aR) (n + i)%nat = cadd (mv (K := CC) n (ent t21) aL i) (mv (K := CC) n (ent r21) aR i).
Proof.
  intros sh dxes lstsq svd n ehL ehR t12 r12 t21 r21 S E12 E21 H aL aR i Hi. unfold get_s in H. rewrite E12, E21 in H. cbn [obind] in H.
  apply get_tr_some in E12, E21. destruct E12 as (? & ? & ? & ? & _ & _ & E1 & E2). destruct E21 as (? & ? & ? & ? & _ & _ & E3 & E4).
  assert (Rt12 : rows t12 = n /\ cols t12 = n) by (rewrite E1; split; reflexivity). assert (Rr12 : rows r12 = n /\ cols r12 = n) by (rewrite E2; split; reflexivity).
  assert (Rt21 : rows t21 = n /\ cols t21 = n) by (rewrite E3; split; reflexivity). assert (Rr21 : rows r21 = n /\ cols r21 = n) by (rewrite E4; split; reflexivity).
  clear E1 E2 E3 E4. destruct Rt12 as (A1 & A2), Rr12 as (A3 & A4), Rt21 as (A5 & A6), Rr21 as (A7 & A8).
  unfold block in H. rewrite A1, A2, A3, A4, A5, A6, A7, A8, !Nat.eqb_refl in H. cbn [andb obind] in H. injection H as <-. cbn [ent].
  split; (refine (eq_trans (sumN_app CC n n _) _); refine (f_equal2 cadd _ _); apply (sumN_ext CC); intros j Hj; unfold both).
  - rewrite (proj2 (Nat.ltb_lt i n) Hi), (proj2 (Nat.ltb_lt j n) Hj). reflexivity.
  - rewrite (proj2 (Nat.ltb_lt i n) Hi), (proj2 (Nat.ltb_ge (n + j) n) ltac:(lia)). replace (n + j - n)%nat with j by lia. reflexivity.
  - rewrite (proj2 (Nat.ltb_ge (n + i) n) ltac:(lia)), (proj2 (Nat.ltb_lt j n) Hj). replace (n + i - n)%nat with i by lia. reflexivity.
  - rewrite (proj2 (Nat.ltb_ge (n + i) n) ltac:(lia)), (proj2 (Nat.ltb_ge (n + j) n) ltac:(lia)). replace (n + i - n)%nat with i by lia. replace (n + j - n)%nat with j by lia. reflexivity.
Qed.
Print Assumptions C84_get_s_blocks.

(** get_abcd with numpy.block in place of scipy.sparse.block_array: the matrix maps
    (incoming left, outgoing left) to (outgoing right, incoming right). *)
Theorem C85_repaired :
  forall sh dxes (lstsq : lstsq_fun) (svd : svd_fun) (pinv : pinv_fun) n ehL ehR t12 r12 t21 r21 M,
    pinv_ok pinv ->
    get_tr sh dxes lstsq svd n ehL n ehR = Some (t12, r12) -> get_tr sh dxes lstsq svd n ehR n ehL = Some (t21, r21) ->
    get_abcd_with sh dxes lstsq svd pinv block n ehL n ehR = Some M ->
    injective n n (ent t21) ->
    forall aL aR bL bR : vect CC,
      (forall i, (i < n)%nat -> bL i = cadd (mv (K := CC) n (ent r12) aL i) (mv (K := CC) n (ent t21) aR i)) ->
      (forall i, (i < n)%nat -> bR i = cadd (mv (K := CC) n (ent t12) aL i) (mv (K := CC) n (ent r21) aR i)) ->
      forall i, (i < n + n)%nat -> mv (K := CC) (n + n) (ent M) (both n aL bL) i = both n bR aR i.
Proof.
  intros sh dxes lstsq svd pinv n ehL ehR t12 r12 t21 r21 M Po E12 E21 H Inj aL aR bL bR HbL HbR. unfold get_abcd_with in H.
  destruct (abcd_blocks sh dxes lstsq svd pinv n ehL n ehR) as [[[[A B] C] D]|] eqn:EB; [|discriminate]. cbn [obind] in H.
  pose proof (C47_abcd_blocks sh dxes lstsq svd pinv n ehL ehR t12 r12 t21 r21 A B C D Po E12 E21 EB Inj aL aR bL bR HbL HbR) as Q.
  assert (Sz : rows A = n /\ cols A = n /\ rows B = n /\ cols B = n /\ rows C = n /\ cols C = n /\ rows D = n /\ cols D = n).
  { unfold abcd_blocks in EB. rewrite E12, E21 in EB. cbn [obind] in EB. apply get_tr_some in E12, E21. destruct E12 as (? & ? & ? & ? & _ & _ & E1 & E2). destruct E21 as (? & ? & ? & ? & _ & _ & E3 & E4).
    destruct (pinv _ _ _) as [p|]; [|discriminate]. cbn [obind] in EB. rewrite E1, E2, E3, E4 in EB. cbn [rows cols] in EB.
    unfold matmul in EB. cbn [rows cols ent] in EB. rewrite !Nat.eqb_refl in EB. cbn [obind rows cols ent] in EB. rewrite !Nat.eqb_refl in EB. cbn [obind rows cols ent] in EB.
    unfold zip2 in EB. cbn [rows cols ent] in EB. rewrite !Nat.eqb_refl in EB. cbn [andb obind rows cols ent] in EB. injection EB as <- <- <- <-. cbn [rows cols]. repeat split. }
  destruct Sz as (A1 & A2 & A3 & A4 & A5 & A6 & A7 & A8).
  unfold block in H. rewrite A1, A2, A3, A4, A5, A6, A7, A8, !Nat.eqb_refl in H. cbn [andb obind] in H. injection H as <-. cbn [ent].
  intros i Hi. unfold both at 2. destruct (Nat.ltb_spec i n) as [Li|Gi].
  - refine (eq_trans (sumN_app CC n n _) _). refine (eq_trans _ (proj1 (Q i Li))). refine (f_equal2 cadd _ _); apply (sumN_ext CC); intros j Hj; unfold both.
    + rewrite (proj2 (Nat.ltb_lt i n) Li), (proj2 (Nat.ltb_lt j n) Hj). reflexivity.
    + rewrite (proj2 (Nat.ltb_lt i n) Li), (proj2 (Nat.ltb_ge (n + j) n) ltac:(lia)). replace (n + j - n)%nat with j by lia. reflexivity.
  - refine (eq_trans (sumN_app CC n n _) _). refine (eq_trans _ (proj2 (Q (i - n)%nat ltac:(lia)))). refine (f_equal2 cadd _ _); apply (sumN_ext CC); intros j Hj; unfold both.
    + rewrite (proj2 (Nat.ltb_ge i n) ltac:(lia)), (proj2 (Nat.ltb_lt j n) Hj). reflexivity.
    + rewrite (proj2 (Nat.ltb_ge i n) ltac:(lia)), (proj2 (Nat.ltb_ge (n + j) n) ltac:(lia)). replace (n + j - n)%nat with j by lia. reflexivity.
Qed.
Print Assumptions C85_repaired.
Example C85_repaired_case :
  exists t12 r12 t21 r21 M, pinv_ok pinv84 /\ get_tr [1; 1]%nat unit_dxes lstsq2 svd84 2 ehL84 2 ehR84 = Some (t12, r12) /\
    get_tr [1; 1]%nat unit_dxes lstsq2 svd84 2 ehR84 2 ehL84 = Some (t21, r21) /\
    get_abcd_with [1; 1]%nat unit_dxes lstsq2 svd84 pinv84 block 2 ehL84 2 ehR84 = Some M /\ injective 2 2 (ent t21).
Proof.
  destruct C47_abcd_blocks_case as (P1 & t21 & r21 & q & P3 & P5 & P4). destruct tr_LR as (t12 & r12 & P2 & _). destruct q as [[[A B] C] D].
  assert (X : exists M, get_abcd_with [1; 1]%nat unit_dxes lstsq2 svd84 pinv84 block 2 ehL84 2 ehR84 = Some M).
  { unfold get_abcd_with. rewrite P4. cbn [obind]. unfold block.
    unfold abcd_blocks in P4. rewrite P2, P3 in P4. cbn [obind] in P4. apply get_tr_some in P2, P3. destruct P2 as (? & ? & ? & ? & _ & _ & E1 & E2). destruct P3 as (? & ? & ? & ? & _ & _ & E3 & E4).
    destruct (pinv84 _ _ _) as [p|]; [|discriminate]. cbn [obind] in P4. rewrite E1, E2, E3, E4 in P4. cbn [rows cols] in P4.
    unfold matmul in P4. cbn [rows cols ent Nat.eqb] in P4. cbn [obind rows cols ent Nat.eqb] in P4.
    unfold zip2 in P4. cbn [rows cols ent Nat.eqb andb obind] in P4. injection P4 as <- <- <- <-. cbn [rows cols Nat.eqb andb]. eexists. reflexivity. }
  destruct X as (M & X). exists t12, r12, t21, r21, M. repeat split; assumption.
Qed.

(** The scattering matrix does not map incoming to outgoing amplitudes: with the
    right modes being the left ones turned by 90 degrees (equally normalized,
    nothing reflected), the amplitudes that make the fields continuous are unique
    and differ from those given by get_s. *)
Theorem C84_scattering_refuted :
  exists sh dxes (lstsq : lstsq_fun) (svd : svd_fun) n ehL ehR S (aL aR bL bR : vect CC) k,
    let scat := scattering (2 * prodl sh) n (fun i => fst (ehL i)) (fun i => snd (ehL i)) n (fun i => fst (ehR i)) (fun i => snd (ehR i)) aL aR in
    lstsq_ok lstsq /\ svd_ok svd /\ get_s sh dxes lstsq svd n ehL n ehR false false = Some S /\
    scat bL bR /\
    (forall bL' bR', scat bL' bR' -> forall i, (i < n)%nat -> bL' i = bL i /\ bR' i = bR i) /\
    (k < n + n)%nat /\ mv (K := CC) (n + n) (ent S) (both n aL aR) k <> both n bL bR k.
Proof.
  destruct tr_LR as (t12 & r12 & E12 & P1 & P2 & P3 & P4 & T12 & R12). destruct tr_RL as (t21 & r21 & E21 & Q1 & Q2 & Q3 & Q4 & T21 & R21).
  assert (ES : exists S, get_s [1; 1]%nat unit_dxes lstsq2 svd84 2 ehL84 2 ehR84 false false = Some S).
  { unfold get_s. rewrite E12. cbn [obind]. rewrite E21. cbn [obind]. unfold block. rewrite P1, P2, P3, P4, Q1, Q2, Q3, Q4. cbn [Nat.eqb andb obind]. eexists. reflexivity. }
  destruct ES as (S & ES).
  exists [1; 1]%nat, unit_dxes, lstsq2, svd84, 2%nat, ehL84, ehR84, S, (fun _ => c0), (basis 0), (basis 1), (fun _ => c0), 1%nat.
  cbv zeta. split; [exact lstsq2_ok|]. split; [exact svd84_ok|]. split; [exact ES|]. split; [|split; [|split; [lia|]]].
  - intros q Hq. change (q < 2)%nat in Hq. cases2; split; apply cpx_ext; cbn; ring.
  - intros bL' bR' H i Hi. destruct (H 0%nat ltac:(cbn; lia)) as (H0 & H1). destruct (H 1%nat ltac:(cbn; lia)) as (H2 & H3). clear H.
    injection H0 as A1 A2. injection H1 as A3 A4. injection H2 as A5 A6. injection H3 as A7 A8. cbn in *.
    cases2; split; apply cpx_ext; cbn; lra.
  - intro Z. destruct (C84_get_s_blocks _ _ _ _ _ _ _ _ _ _ _ _ E12 E21 ES (fun _ => c0) (basis 0) 1%nat ltac:(lia)) as (Q & _). rewrite Q in Z. clear Q.
    rewrite same_mat_spec in T12.
    assert (X1 : mv (K := CC) 2 (ent r12) (fun _ => c0) 1%nat = c0). { apply (sumN_zero CC). intros j _. change (cmul (ent r12 1%nat j) c0 = c0). apply cpx_ext; cbn; ring. }
    assert (X2 : mv (K := CC) 2 (ent t12) (basis 0) 1%nat = copp c1).
    { transitivity (mv (K := CC) 2 J1 (basis 0) 1%nat); [apply (mv_ext CC); [intros; now apply T12; lia|reflexivity]|]. apply cpx_ext; cbn; ring. }
    rewrite X1, X2 in Z. apply (f_equal cre) in Z. cbn in Z. lra.
Qed.
Print Assumptions C84_scattering_refuted.

(** With one mode on each side and equal norms it does. *)
Theorem C84_one_mode_scattering :
  forall sh dxes (lstsq : lstsq_fun) (svd : svd_fun) ehL ehR T12 R12 T21 R21 S,
    let B (e h : vect CC) := inner_product (K := CC) sh e h dxes c1 false in
    lstsq_ok lstsq -> svd_ok svd ->
    matched (2 * prodl sh) 1 (fun i => fst (ehL i)) (fun i => snd (ehL i)) 1 (fun i => fst (ehR i)) (fun i => snd (ehR i)) T12 R12 ->
    matched (2 * prodl sh) 1 (fun i => fst (ehR i)) (fun i => snd (ehR i)) 1 (fun i => fst (ehL i)) (fun i => snd (ehL i)) T21 R21 ->
    B (fst (ehL 0%nat)) (snd (ehL 0%nat)) <> c0 -> B (fst (ehR 0%nat)) (snd (ehR 0%nat)) = B (fst (ehL 0%nat)) (snd (ehL 0%nat)) ->
    cadd (B (fst (ehR 0%nat)) (snd (ehL 0%nat))) (B (fst (ehL 0%nat)) (snd (ehR 0%nat))) <> c0 ->
    no_gain 1 1 T12 ->
    get_s sh dxes lstsq svd 1 ehL 1 ehR false false = Some S ->
    forall aL aR, exists bL bR,
      scattering (2 * prodl sh) 1 (fun i => fst (ehL i)) (fun i => snd (ehL i)) 1 (fun i => fst (ehR i)) (fun i => snd (ehR i)) aL aR bL bR /\
      forall k, (k < 2)%nat -> mv (K := CC) 2 (ent S) (both 1 aL aR) k = both 1 bL bR k.
Proof.
  intros sh dxes lstsq svd ehL ehR T12 R12 T21 R21 S B Lo Sv M1 M2 HB Eq Sum G H aL aR.
  assert (Inj : forall z, z <> c0 -> forall A : mat CC, A 0%nat 0%nat = z -> injective 1 1 A).
  { intros z Hz A EA x Z j Hj. assert (j = 0)%nat by lia. subst j. specialize (Z 0%nat ltac:(lia)). change (cadd c0 (cmul (A 0%nat 0%nat) (x 0%nat)) = c0) in Z. rewrite EA in Z.
    apply (cmul_zero z); [exact Hz|]. refine (eq_trans _ Z). cring. }
  assert (O1 : forall eh : modes, forall i j, (i < 1)%nat -> (j < 1)%nat -> i <> j -> B (fst (eh i)) (snd (eh j)) = c0) by (intros; lia).
  (* equal transmission *)
  set (s := cadd (B (fst (ehR 0%nat)) (snd (ehL 0%nat))) (B (fst (ehL 0%nat)) (snd (ehR 0%nat)))) in *.
  assert (TE : T21 0%nat 0%nat = T12 0%nat 0%nat).
  { pose proof (match_e sh dxes 1 1 ehL ehR T12 R12 M1 (O1 ehL) 0%nat 0%nat ltac:(lia) ltac:(lia)) as X1. pose proof (match_h sh dxes 1 1 ehL ehR T12 R12 M1 (O1 ehL) 0%nat 0%nat ltac:(lia) ltac:(lia)) as X2.
    pose proof (match_e sh dxes 1 1 ehR ehL T21 R21 M2 (O1 ehR) 0%nat 0%nat ltac:(lia) ltac:(lia)) as X3. pose proof (match_h sh dxes 1 1 ehR ehL T21 R21 M2 (O1 ehR) 0%nat 0%nat ltac:(lia) ltac:(lia)) as X4.
    cbn [sumN] in X1, X2, X3, X4. unfold oA21, oA12, oB, delta in *. cbn [Nat.eqb] in *.
    change (overlap sh dxes) with B in *. rewrite Eq in X3, X4.
    set (p := B (fst (ehR 0%nat)) (snd (ehL 0%nat))) in *. set (q := B (fst (ehL 0%nat)) (snd (ehR 0%nat))) in *. set (b := B (fst (ehL 0%nat)) (snd (ehL 0%nat))) in *.
    set (t := T12 0%nat 0%nat) in *. set (t' := T21 0%nat 0%nat) in *. set (r := R12 0%nat 0%nat) in *. set (r' := R21 0%nat 0%nat) in *.
    change (cadd c0 (cmul t p) = cmul b (cadd c1 r)) in X1. change (cadd c0 (cmul t q) = cmul b (csub c1 r)) in X2. change (cadd c0 (cmul t' q) = cmul b (cadd c1 r')) in X3. change (cadd c0 (cmul t' p) = cmul b (csub c1 r')) in X4.
    apply (fmul_cancel_l CC s); [exact Sum|]. change (cmul s t' = cmul s t).
    transitivity (cadd (cadd c0 (cmul t' q)) (cadd c0 (cmul t' p))); [unfold s; cring|]. rewrite X3, X4.
    transitivity (cadd (cadd c0 (cmul t p)) (cadd c0 (cmul t q))); [rewrite X1, X2; cring|unfold s; cring]. }
  assert (G2 : no_gain 1 1 T21). { apply (no_gain_ext 1 T12); [|exact G]. intros i j Hi Hj. assert (i = 0 /\ j = 0)%nat as (-> & ->) by lia. now symmetry. }
  unfold get_s in H. destruct (get_tr sh dxes lstsq svd 1 ehL 1 ehR) as [[t12 r12]|] eqn:E12; [|discriminate]. cbn [obind] in H.
  destruct (get_tr sh dxes lstsq svd 1 ehR 1 ehL) as [[t21 r21]|] eqn:E21; [|discriminate]. cbn [obind] in H.
  assert (HS : get_s sh dxes lstsq svd 1 ehL 1 ehR false false = Some S). { unfold get_s. rewrite E12, E21. exact H. }
  destruct (C47_matched_amplitudes _ _ _ _ _ _ _ _ _ _ _ Lo Sv M1 (O1 ehL) ltac:(intros i Hi; replace i with 0%nat by lia; exact HB) (Inj s Sum _ eq_refl) G E12 0%nat 0%nat ltac:(lia) ltac:(lia)) as (V1 & V2).
  assert (Sum' : cadd (B (fst (ehL 0%nat)) (snd (ehR 0%nat))) (B (fst (ehR 0%nat)) (snd (ehL 0%nat))) <> c0).
  { intro Z. apply Sum. unfold s. refine (eq_trans _ Z). cring. }
  destruct (C47_matched_amplitudes _ _ _ _ _ _ _ _ _ _ _ Lo Sv M2 (O1 ehR) ltac:(intros i Hi; replace i with 0%nat by lia; fold (B (fst (ehR 0%nat)) (snd (ehR 0%nat))); rewrite Eq; exact HB) (Inj _ Sum' _ eq_refl) G2 E21 0%nat 0%nat ltac:(lia) ltac:(lia)) as (V3 & V4).
  destruct (C84_get_s_blocks _ _ _ _ _ _ _ _ _ _ _ _ E12 E21 HS aL aR 0%nat ltac:(lia)) as (W1 & W2).
  set (t := T12 0%nat 0%nat) in *. set (r := R12 0%nat 0%nat) in *. set (r' := R21 0%nat 0%nat) in *. set (a := aL 0%nat). set (a' := aR 0%nat).
  exists (fun _ => cadd (cmul r a) (cmul t a')), (fun _ => cadd (cmul t a) (cmul r' a')). split.
  - intros q Hq. destruct (M1 0%nat q ltac:(lia) Hq) as (Y1 & Y2). destruct (M2 0%nat q ltac:(lia) Hq) as (Y3 & Y4). cbn [sumN] in *.
    set (e := fst (ehL 0%nat) q) in *. set (h := snd (ehL 0%nat) q) in *. set (e' := fst (ehR 0%nat) q) in *. set (h' := snd (ehR 0%nat) q) in *. rewrite TE in Y3, Y4.
    change (cadd e (cadd c0 (cmul r e)) = cadd c0 (cmul t e')) in Y1. change (csub h (cadd c0 (cmul r h)) = cadd c0 (cmul t h')) in Y2.
    change (cadd e' (cadd c0 (cmul r' e')) = cadd c0 (cmul t e)) in Y3. change (csub h' (cadd c0 (cmul r' h')) = cadd c0 (cmul t h)) in Y4.
    change (cadd c0 (cmul (cadd a (cadd (cmul r a) (cmul t a'))) e) = cadd c0 (cmul (cadd a' (cadd (cmul t a) (cmul r' a'))) e') /\
            cadd c0 (cmul (csub a (cadd (cmul r a) (cmul t a'))) h) = cadd c0 (cmul (csub (cadd (cmul t a) (cmul r' a')) a') h')).
    split.
    + transitivity (cadd (cmul a (cadd e (cadd c0 (cmul r e)))) (cmul a' (cadd c0 (cmul t e)))); [cring|]. rewrite Y1, <- Y3. cring.
    + transitivity (csub (cmul a (csub h (cadd c0 (cmul r h)))) (cmul a' (cadd c0 (cmul t h)))); [cring|]. rewrite Y2, <- Y4. cring.
  - assert (MV : forall (A : mat CC) x, mv (K := CC) 1 A x 0%nat = cmul (A 0%nat 0%nat) (x 0%nat)) by (intros; apply cpx_ext; cbn; ring).
    rewrite !MV in W1, W2. rewrite V1, V2 in W1. rewrite V3, V4, TE in W2. intros k Hk. cases2; [exact W1|exact W2].
Qed.
Print Assumptions C84_one_mode_scattering.

(** A step in wave impedance: transmission 4/5, reflection 3/5. *)
Definition ehL84b : modes := fun _ => (vec3 1 0, vec3 0 1).
Definition ehR84b : modes := fun _ => (vec3 2 0, vec3 0 (1 / 2)).
Definition const_mat (r : R) : mat CC := fun _ _ => mkC r 0.
Definition svd84b : svd_fun := fun r c M =>
  match r, c with 1%nat, 1%nat => if cpx_dec (M 0%nat 0%nat) (mkC (4 / 5) 0) then Some (mid, fun _ => 4 / 5, mid) else None | _, _ => None end.
Lemma svd84b_ok : svd_ok svd84b.
Proof.
  intros r c M U st V. unfold svd84b. destruct r as [|[|r]], c as [|[|c]]; try discriminate. destruct (cpx_dec _ _) as [E|]; [|discriminate].
  intro H. injection H as <- <- <-. split; [apply unitary_mid|]. split; [apply unitary_mid|]. split; [intros; lra|].
  intros i j Hi Hj. assert (i = 0 /\ j = 0)%nat as (-> & ->) by lia. rewrite E. apply cpx_ext; cbn; ring.
Qed.
Lemma tr84b ehA ehB : overlap [1; 1]%nat unit_dxes (fst (ehA 0%nat)) (snd (ehA 0%nat)) = mkC (1 / 2) 0 ->
  cadd (overlap [1; 1]%nat unit_dxes (fst (ehB 0%nat)) (snd (ehA 0%nat))) (overlap [1; 1]%nat unit_dxes (fst (ehA 0%nat)) (snd (ehB 0%nat))) = mkC (5 / 4) 0 ->
  exists tt rr, get_tr [1; 1]%nat unit_dxes lstsq1 svd84b 1 ehA 1 ehB = Some (tt, rr).
Proof.
  intros EB EA. set (A := madd (oA21 [1; 1]%nat unit_dxes ehA ehB) (oA12 [1; 1]%nat unit_dxes ehA ehB)). set (Bm := mdiag (K := CC) (fun l => cmul ctwo (oB [1; 1]%nat unit_dxes ehA l))).
  assert (A00 : A 0%nat 0%nat = mkC (5 / 4) 0) by exact EA.
  assert (B00 : Bm 0%nat 0%nat = c1).
  { unfold Bm, mdiag, oB. cbn [Nat.eqb ind]. refine (eq_trans (f_equal (fun z => cmul c1 (cmul ctwo z)) EB) _). apply cpx_ext; cbn; field. }
  assert (X0 : lstsq1 1%nat 1%nat 1%nat A Bm = Some (const_mat (4 / 5))).
  { unfold lstsq1. rewrite A00, B00. destruct (cpx_dec (mkC (5 / 4) 0) c0) as [Z|_]; [injection Z; lra|].
    assert (Q : cdiv c1 (mkC (5 / 4) 0) = mkC (4 / 5) 0) by (apply cpx_ext; cbn; unfold cnrm; cbn; field). now rewrite Q. }
  destruct (get_tr_total [1; 1]%nat unit_dxes lstsq1 svd84b 1 ehA ehB (const_mat (4 / 5)) (mid, fun _ => 4 / 5, mid) X0) as ((tt & rr) & H).
  - unfold svd84b, const_mat. destruct (cpx_dec _ _); [reflexivity|contradiction].
  - now exists tt, rr.
Qed.
Example C84_one_mode_scattering_case :
  let B (e h : vect CC) := inner_product (K := CC) [1; 1]%nat e h unit_dxes c1 false in
  lstsq_ok lstsq1 /\ svd_ok svd84b /\
  matched 2 1 (fun i => fst (ehL84b i)) (fun i => snd (ehL84b i)) 1 (fun i => fst (ehR84b i)) (fun i => snd (ehR84b i)) (const_mat (4 / 5)) (const_mat (3 / 5)) /\
  matched 2 1 (fun i => fst (ehR84b i)) (fun i => snd (ehR84b i)) 1 (fun i => fst (ehL84b i)) (fun i => snd (ehL84b i)) (const_mat (4 / 5)) (const_mat (- (3 / 5))) /\
  B (fst (ehL84b 0%nat)) (snd (ehL84b 0%nat)) <> c0 /\ B (fst (ehR84b 0%nat)) (snd (ehR84b 0%nat)) = B (fst (ehL84b 0%nat)) (snd (ehL84b 0%nat)) /\
  cadd (B (fst (ehR84b 0%nat)) (snd (ehL84b 0%nat))) (B (fst (ehL84b 0%nat)) (snd (ehR84b 0%nat))) <> c0 /\
  no_gain 1 1 (const_mat (4 / 5)) /\
  exists S, get_s [1; 1]%nat unit_dxes lstsq1 svd84b 1 ehL84b 1 ehR84b false false = Some S.
Proof.
  cbv zeta. fold (overlap [1; 1]%nat unit_dxes). split; [exact lstsq1_ok|]. split; [exact svd84b_ok|]. split; [|split; [|split; [|split; [|split; [|split]]]]].
  - intros i q Hi Hq. assert (i = 0)%nat by lia. subst i. cases2; split; apply cpx_ext; cbn; field.
  - intros i q Hi Hq. assert (i = 0)%nat by lia. subst i. cases2; split; apply cpx_ext; cbn; field.
  - change (overlap [1; 1]%nat unit_dxes (vec3 1 0) (vec3 0 1) <> c0). rewrite overlap_11. intro Z. injection Z. lra.
  - change (overlap [1; 1]%nat unit_dxes (vec3 2 0) (vec3 0 (1 / 2)) = overlap [1; 1]%nat unit_dxes (vec3 1 0) (vec3 0 1)). rewrite !overlap_11. apply cpx_ext; cbn; field.
  - change (cadd (overlap [1; 1]%nat unit_dxes (vec3 2 0) (vec3 0 1)) (overlap [1; 1]%nat unit_dxes (vec3 1 0) (vec3 0 (1 / 2))) <> c0). rewrite !overlap_11. intro Z. injection Z. lra.
  - intro x. unfold norm2, const_mat, mv. cbn. nra.
  - destruct (tr84b ehL84b ehR84b) as (t12 & r12 & E12); [cbn [ehL84b ehR84b fst snd]; rewrite ?overlap_11; apply cpx_ext; cbn; field..|].
    destruct (tr84b ehR84b ehL84b) as (t21 & r21 & E21); [cbn [ehL84b ehR84b fst snd]; rewrite ?overlap_11; apply cpx_ext; cbn; field..|].
    unfold get_s. rewrite E12. cbn [obind]. rewrite E21. cbn [obind]. unfold block.
    destruct (C47_transmission_no_gain _ _ _ _ _ _ _ _ _ _ svd84b_ok E12) as (-> & -> & -> & -> & _). destruct (C47_transmission_no_gain _ _ _ _ _ _ _ _ _ _ svd84b_ok E21) as (-> & -> & -> & -> & _).
    cbn [Nat.eqb andb obind]. eexists. reflexivity.
Qed.
