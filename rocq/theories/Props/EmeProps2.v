(** Further properties of meanas/fdfd/eme.py: get_tr does not depend on the
    choices of the SVD, is reciprocal, follows phases and order of the modes, and
    what it returns for modes of different normalisation. *)
From Coq Require Import Reals List Arith ZArith Lia Lra Bool Field.
From Verif.Lib Require Import Num Sums Idx Mat RealF Elim.
From Verif.Model Require Import Fdmath Fdfd Waveguide2d Eme.
From Verif.Spec Require Import EmeSpec.
From Verif.Proofs Require Import FdfdP2 WaveguideRealP EigensolversP EmeP EmeP2.
From Verif.Props Require Import EigenProps EmeProps.
Import ListNotations.
Local Open Scope R_scope.

(** The matrix of summed overlaps of left mode l and right mode r,
    int (E_r x H_l + E_l x H_r) / 2. *)
Definition overlaps (sh : list nat) (dxes : dx2 CC) (ehL ehR : modes) : mat CC :=
  fun l r => cadd (inner_product (K := CC) sh (fst (ehR r)) (snd (ehL l)) dxes c1 false)
                  (inner_product (K := CC) sh (fst (ehL l)) (snd (ehR r)) dxes c1 false).
Definition self_overlap (sh : list nat) (dxes : dx2 CC) (eh : modes) (i : nat) : cpx := inner_product (K := CC) sh (fst (eh i)) (snd (eh i)) dxes c1 false.

(** ** C170 *)
(** The singular vectors are not unique (phases, degenerate singular values), the
    result of get_tr is. *)
Theorem C170_deterministic :
  forall sh dxes (lstsq lstsq' : lstsq_fun) (svd svd' : svd_fun) n ehL ehR tt rr tt' rr',
    lstsq_ok lstsq -> svd_ok svd -> lstsq_ok lstsq' -> svd_ok svd' ->
    injective n n (overlaps sh dxes ehL ehR) ->
    get_tr sh dxes lstsq svd n ehL n ehR = Some (tt, rr) -> get_tr sh dxes lstsq' svd' n ehL n ehR = Some (tt', rr') ->
    forall i j, (i < n)%nat -> (j < n)%nat -> ent tt i j = ent tt' i j /\ ent rr i j = ent rr' i j.
Proof.
  intros sh dxes lstsq lstsq' svd svd' n ehL ehR tt rr tt' rr' Lo Sv Lo' Sv' I H H'.
  destruct (tr_unfold sh dxes lstsq svd n ehL ehR tt rr Lo Sv I H) as (X & U & st & V & EX & SV & ET & ER).
  destruct (tr_unfold sh dxes lstsq' svd' n ehL ehR tt' rr' Lo' Sv' I H') as (X' & U' & st' & V' & EX' & SV' & ET' & ER').
  assert (XX : forall i j, (i < n)%nat -> (j < n)%nat -> X' i j = X i j).
  { apply (solve_unique n (summed sh dxes ehL ehR)); [exact I|]. intros q j Hq Hj. now rewrite EX, EX'. }
  assert (TT : forall i j, (i < n)%nat -> (j < n)%nat -> ent tt i j = ent tt' i j).
  { intros i j Hi Hj. rewrite ET, ET' by assumption. exact (svd_fun_unique n X U V st U' V' st' clip1 SV (svd_ext n X' X U' st' V' XX SV') clip1_0 i j Hi Hj). }
  intros i j Hi Hj. split; [now apply TT|]. rewrite ER, ER' by assumption. f_equal. apply cs_ext. intros k Hk. now rewrite TT.
Qed.
Print Assumptions C170_deterministic.

(** Reciprocity: with all modes of the two sides normalised alike, what goes from
    left mode j to right mode i equals what goes from right mode i to left mode j. *)
Theorem C170_reciprocal :
  forall sh dxes (lstsq : lstsq_fun) (svd : svd_fun) n ehL ehR b t12 r12 t21 r21,
    lstsq_ok lstsq -> svd_ok svd ->
    b <> c0 -> (forall i, (i < n)%nat -> self_overlap sh dxes ehL i = b) -> (forall i, (i < n)%nat -> self_overlap sh dxes ehR i = b) ->
    injective n n (overlaps sh dxes ehL ehR) ->
    get_tr sh dxes lstsq svd n ehL n ehR = Some (t12, r12) -> get_tr sh dxes lstsq svd n ehR n ehL = Some (t21, r21) ->
    forall i j, (i < n)%nat -> (j < n)%nat -> ent t12 i j = ent t21 j i.
Proof.
  intros sh dxes lstsq svd n ehL ehR b t12 r12 t21 r21 Lo Sv Hb BL BR I H12 H21.
  destruct (tr_unfold sh dxes lstsq svd n ehL ehR t12 r12 Lo Sv I H12) as (X & U & st & V & EX & SV & ET & _).
  set (S := summed sh dxes ehL ehR) in *.
  assert (ST : forall l r, summed sh dxes ehR ehL l r = S r l) by (intros l r; unfold S, summed, oA21, oA12; cring).
  assert (b2 : cmul ctwo b <> c0).
  { intro Z. apply Hb. injection Z as Z1 Z2. apply cpx_ext; cbn; lra. }
  assert (EX2 : forall q j, (q < n)%nat -> (j < n)%nat -> cs n (fun k => cmul (S q k) (X k j)) = cmul (delta q j) (cmul ctwo b)).
  { intros q j Hq Hj. rewrite EX by assumption. do 2 f_equal. exact (BL j Hj). }
  (* x S X *)
  assert (XS : forall (x : nat -> cpx) j, (j < n)%nat -> cs n (fun k => cmul (cs n (fun q => cmul (x q) (S q k))) (X k j)) = cmul (cmul ctwo b) (x j)).
  { intros x j Hj. transitivity (cs n (fun q => cmul (delta q j) (cmul (cmul ctwo b) (x q)))); [|exact (cs_delta_l' n j (fun q => cmul (cmul ctwo b) (x q)) Hj)].
    transitivity (cs n (fun k => cs n (fun q => cmul (x q) (cmul (S q k) (X k j))))).
    - apply cs_ext. intros k _. rewrite <- cs_mul_r. apply cs_ext. intros q _. cring.
    - rewrite cs_swap. apply cs_ext. intros q Hq. rewrite cs_mul_l, EX2 by assumption. cring. }
  assert (cancel : forall x y, cmul (cmul ctwo b) x = cmul (cmul ctwo b) y -> x = y).
  { intros x y E. revert b2 E. generalize (cmul ctwo b). intros c Hc E. transitivity (cdiv (cmul c x) c); [cfield; exact Hc|rewrite E; cfield; exact Hc]. }
  assert (I' : injective n n (summed sh dxes ehR ehL)).
  { intros x Z j Hj. apply cancel. refine (eq_trans (eq_sym (XS x j Hj)) _). transitivity (cs n (fun _ => cmul c0 c0)).
    - apply cs_ext. intros k Hk. specialize (Z k Hk). assert (Z' : cs n (fun q => cmul (x q) (S q k)) = c0).
      { rewrite <- Z. apply cs_ext. intros q _. change (cmul (x q) (S q k) = cmul (summed sh dxes ehR ehL k q) (x q)). rewrite ST. cring. }
      rewrite Z'. cring.
    - rewrite cs_mul_l. cring. }
  destruct (tr_unfold sh dxes lstsq svd n ehR ehL t21 r21 Lo Sv I' H21) as (X' & U' & st' & V' & EX' & SV' & ET' & _).
  assert (XX : forall i j, (i < n)%nat -> (j < n)%nat -> mtr (K := CC) X' i j = X i j).
  { intros i j Hi Hj. unfold mtr. apply cancel. rewrite <- (XS (fun q => X' q i) j Hj).
    transitivity (cs n (fun k => cmul (delta k i) (cmul (cmul ctwo b) (X k j)))); [|symmetry; symmetry; exact (cs_delta_l' n i (fun k => cmul (cmul ctwo b) (X k j)) Hi)].
    apply cs_ext. intros k Hk. transitivity (cmul (cs n (fun q => cmul (summed sh dxes ehR ehL k q) (X' q i))) (X k j)).
    - f_equal. apply cs_ext. intros q _. rewrite ST. cring.
    - rewrite EX' by assumption. pose proof (BR i Hi) as Bi. change (oB sh dxes ehR i = b) in Bi. rewrite Bi. cring. }
  intros i j Hi Hj. rewrite ET, ET' by assumption.
  refine (eq_trans (svd_fun_unique n X U V st (mtr (K := CC) V') (mtr (K := CC) U') st' clip1 SV (svd_ext n _ X _ _ _ XX (svd_transpose n X' U' st' V' SV')) clip1_0 i j Hi Hj) _).
  apply cs_ext. intros k _. unfold mtr. cring.
Qed.
Print Assumptions C170_reciprocal.

(** Phases and order of the modes.  [s], [t] permute the left and the right modes,
    [a], [b] are their new phases. *)
Theorem C170_relabel :
  forall sh dxes (lstsq : lstsq_fun) (svd : svd_fun) n ehL ehR ehL' ehR' s si t ti a b tt rr tt' rr',
    lstsq_ok lstsq -> svd_ok svd ->
    (forall i, (i < n)%nat -> (s i < n)%nat /\ (si i < n)%nat /\ si (s i) = i /\ s (si i) = i) ->
    (forall i, (i < n)%nat -> (t i < n)%nat /\ (ti i < n)%nat /\ ti (t i) = i /\ t (ti i) = i) ->
    (forall i, (i < n)%nat -> cmul (cconj (a i)) (a i) = c1) -> (forall i, (i < n)%nat -> cmul (cconj (b i)) (b i) = c1) ->
    (forall i, ehL' i = (fun q => cmul (a i) (fst (ehL (s i)) q), fun q => cmul (a i) (snd (ehL (s i)) q))) ->
    (forall i, ehR' i = (fun q => cmul (b i) (fst (ehR (t i)) q), fun q => cmul (b i) (snd (ehR (t i)) q))) ->
    injective n n (overlaps sh dxes ehL ehR) ->
    (forall i, (i < n)%nat -> self_overlap sh dxes ehL i <> c0) ->
    get_tr sh dxes lstsq svd n ehL n ehR = Some (tt, rr) -> get_tr sh dxes lstsq svd n ehL' n ehR' = Some (tt', rr') ->
    forall i j, (i < n)%nat -> (j < n)%nat ->
      ent tt' i j = cmul (cmul (cconj (b i)) (a j)) (ent tt (t i) (s j)) /\ ent rr' i j = cmul (cmul (cconj (a i)) (a j)) (ent rr (s i) (s j)).
Proof.
  intros sh dxes lstsq svd n ehL ehR ehL' ehR' s si t ti a b tt rr tt' rr' Lo Sv Bs Bt Pa Pb EL ER I Bnz H H'.
  assert (O12 : forall l r, oA12 sh dxes ehL' ehR' l r = cmul (cmul (a l) (b r)) (oA12 sh dxes ehL ehR (s l) (t r))).
  { intros l r. unfold oA12. rewrite EL, ER. cbn [fst snd]. unfold overlap. refine (eq_trans (ip_scale_l CC sh dxes c1 _ _ _) _). refine (eq_trans (f_equal (cmul (a l)) (ip_scale_r CC sh dxes c1 _ _ _)) _).
    set (z := inner_product _ _ _ _ _ _). change (cmul (a l) (cmul (b r) z) = cmul (cmul (a l) (b r)) z). cring. }
  assert (O21 : forall l r, oA21 sh dxes ehL' ehR' l r = cmul (cmul (a l) (b r)) (oA21 sh dxes ehL ehR (s l) (t r))).
  { intros l r. unfold oA21. rewrite EL, ER. cbn [fst snd]. unfold overlap. refine (eq_trans (ip_scale_l CC sh dxes c1 _ _ _) _). refine (eq_trans (f_equal (cmul (b r)) (ip_scale_r CC sh dxes c1 _ _ _)) _).
    set (z := inner_product _ _ _ _ _ _). change (cmul (b r) (cmul (a l) z) = cmul (cmul (a l) (b r)) z). cring. }
  assert (OB : forall l, oB sh dxes ehL' l = cmul (cmul (a l) (a l)) (oB sh dxes ehL (s l))).
  { intro l. unfold oB. rewrite EL. cbn [fst snd]. unfold overlap. refine (eq_trans (ip_scale_l CC sh dxes c1 _ _ _) _). refine (eq_trans (f_equal (cmul (a l)) (ip_scale_r CC sh dxes c1 _ _ _)) _).
    set (z := inner_product _ _ _ _ _ _). change (cmul (a l) (cmul (a l) z) = cmul (cmul (a l) (a l)) z). cring. }
  assert (SM : forall l r, summed sh dxes ehL' ehR' l r = cmul (cmul (a l) (b r)) (summed sh dxes ehL ehR (s l) (t r))).
  { intros l r. unfold summed. rewrite O12, O21. cring. }
  assert (anz : forall i, (i < n)%nat -> a i <> c0). { intros i Hi Z. pose proof (Pa i Hi) as P. rewrite Z in P. injection P. cbn. lra. }
  assert (bnz : forall i, (i < n)%nat -> b i <> c0). { intros i Hi Z. pose proof (Pb i Hi) as P. rewrite Z in P. injection P. cbn. lra. }
  assert (I' : injective n n (summed sh dxes ehL' ehR')).
  { intros x Z j Hj. assert (Q : cmul (b (ti (t j))) (x (ti (t j))) = c0).
    { apply (I (fun r => cmul (b (ti r)) (x (ti r)))); [|apply (Bt j Hj)]. intros i Hi. destruct (Bs i Hi) as (_ & Hsi & _ & Es). pose proof (Z (si i) Hsi) as Zi.
      assert (E : cmul (a (si i)) (mv (K := CC) n (overlaps sh dxes ehL ehR) (fun r => cmul (b (ti r)) (x (ti r))) i) = c0).
      { rewrite <- Zi. transitivity (cs n (fun r => cmul (a (si i)) (cmul (summed sh dxes ehL ehR i r) (cmul (b (ti r)) (x (ti r)))))); [symmetry; exact (cs_mul_l n _ _)|].
        refine (eq_trans (eq_sym (bij_sum n t ti (fun r => cmul (a (si i)) (cmul (summed sh dxes ehL ehR i r) (cmul (b (ti r)) (x (ti r))))) Bt)) _). apply cs_ext. intros r Hr. rewrite SM, Es. rewrite (proj1 (proj2 (proj2 (Bt r Hr)))). match goal with |- ?u = ?z => change (u = cmul (cmul (cmul (a (si i)) (b r)) (summed sh dxes ehL ehR i (t r))) (x r)) end. cring. }
      apply (cmul_zero _ _ (anz (si i) Hsi) E). }
    rewrite (proj1 (proj2 (proj2 (Bt j Hj)))) in Q. exact (cmul_zero _ _ (bnz j Hj) Q). }
  destruct (tr_unfold sh dxes lstsq svd n ehL ehR tt rr Lo Sv I H) as (X & U & st & V & EX & SV & ET & ERR).
  destruct (tr_unfold sh dxes lstsq svd n ehL' ehR' tt' rr' Lo Sv I' H') as (X' & U' & st' & V' & EX' & SV' & ET' & ERR').
  assert (Pb' : forall i, (i < n)%nat -> phase (cconj (b i))). { intros i Hi. unfold phase. rewrite conj_conj. rewrite <- (Pb i Hi). cring. }
  assert (XX : forall i j, (i < n)%nat -> (j < n)%nat -> X' i j = cmul (cconj (b i)) (cmul (X (t i) (s j)) (a j))).
  { apply (solve_unique n (summed sh dxes ehL' ehR') X' (fun i j => cmul (cconj (b i)) (cmul (X (t i) (s j)) (a j))) I'). intros q j Hq Hj. rewrite (EX' q j Hq Hj).
    transitivity (cmul (cmul (a q) (a j)) (cs n (fun k => cmul (summed sh dxes ehL ehR (s q) k) (X k (s j))))).
    - rewrite EX by (apply (Bs _); assumption). rewrite (bij_delta n s si q j Bs Hq Hj), OB. unfold delta. destruct (Nat.eqb_spec q j) as [->|]; cring.
    - rewrite <- (bij_sum n t ti (fun k => cmul (summed sh dxes ehL ehR (s q) k) (X k (s j))) Bt), <- cs_mul_l. apply cs_ext. intros k Hk. rewrite SM.
      transitivity (cmul (cmul (cconj (b k)) (b k)) (cmul (cmul (a q) (a j)) (cmul (summed sh dxes ehL ehR (s q) (t k)) (X (t k) (s j))))); [rewrite (Pb k Hk); cring|cring]. }
  assert (TT : forall i j, (i < n)%nat -> (j < n)%nat -> ent tt' i j = cmul (cmul (cconj (b i)) (a j)) (ent tt (t i) (s j))).
  { intros i j Hi Hj. rewrite ET', ET by first [assumption | apply (Bs _); assumption | apply (Bt _); assumption].
    pose proof (svd_mix n X U st V t ti s si a (fun i => cconj (b i)) Bt Bs Pa Pb' SV) as SM2. cbv beta in SM2.
    refine (eq_trans (svd_fun_unique n X' U' V' st' _ _ st clip1 SV' (svd_ext n _ X' _ _ _ (fun i j Hi Hj => eq_sym (XX i j Hi Hj)) SM2) clip1_0 i j Hi Hj) _).
    rewrite <- cs_mul_l. apply cs_ext. intros k _. cring. }
  intros i j Hi Hj. split; [now apply TT|]. destruct (Bs i Hi) as (Hsi & _). destruct (Bs j Hj) as (Hsj & _). rewrite ERR', ERR by assumption. rewrite OB.
  set (D := fun k => csub (oA21 sh dxes ehL ehR (s i) k) (oA12 sh dxes ehL ehR (s i) k)).
  transitivity (cmul (cdiv chalf (cmul (cmul (a i) (a i)) (oB sh dxes ehL (s i)))) (cmul (cmul (a i) (a j)) (cs n (fun k => cmul (D k) (ent tt k (s j)))))).
  - f_equal. rewrite <- (bij_sum n t ti (fun k => cmul (D k) (ent tt k (s j))) Bt), <- cs_mul_l. apply cs_ext. intros k Hk. rewrite O12, O21, TT by assumption. unfold D.
    set (d := csub _ _). set (e := ent tt _ _). transitivity (cmul (cmul (cconj (b k)) (b k)) (cmul (cmul (a i) (a j)) (cmul (csub (oA21 sh dxes ehL ehR (s i) (t k)) (oA12 sh dxes ehL ehR (s i) (t k))) e))); [unfold d; cring|rewrite (Pb k Hk); cring].
  - change (fun k => cmul (csub (oA21 sh dxes ehL ehR (s i) k) (oA12 sh dxes ehL ehR (s i) k)) (ent tt k (s j))) with (fun k => cmul (D k) (ent tt k (s j))). set (w := cs n (fun k => cmul (D k) (ent tt k (s j)))). clearbody w.
    pose proof (Bnz (s i) Hsi) as B0. change (oB sh dxes ehL (s i) <> c0) in B0. set (o := oB sh dxes ehL (s i)) in *. clearbody o. pose proof (anz i Hi) as A0. pose proof (Pa i Hi) as P.
    assert (CI : cconj (a i) = cdiv c1 (a i)). { transitivity (cdiv (cmul (cconj (a i)) (a i)) (a i)); [cfield; exact A0|now rewrite P]. }
    rewrite CI. set (x := a i) in *. set (y := a j). clearbody x y. clear P CI. cfield. split; assumption.
Qed.
Print Assumptions C170_relabel.

(** ** C171 *)
(** The same orthogonal modes on both sides, those on the left a_i times those on
    the right: the amplitudes a_i make the fields continuous, there is no
    reflection, and get_tr returns 1 / conj(a_i) in place of a_i if |a_i| > 1. *)
Definition diag_mat (d : nat -> cpx) : mat CC := fun i j => cmul (delta i j) (d i).
Theorem C171_scaled_modes :
  forall sh dxes (lstsq : lstsq_fun) (svd : svd_fun) n ehL ehR a tt rr,
    lstsq_ok lstsq -> svd_ok svd ->
    (forall i, ehL i = (fun q => cmul (a i) (fst (ehR i) q), fun q => cmul (a i) (snd (ehR i) q))) ->
    (forall i j, (i < n)%nat -> (j < n)%nat -> i <> j -> inner_product (K := CC) sh (fst (ehR i)) (snd (ehR j)) dxes c1 false = c0) ->
    (forall i, (i < n)%nat -> self_overlap sh dxes ehR i <> c0) ->
    (forall i, (i < n)%nat -> a i <> c0) ->
    get_tr sh dxes lstsq svd n ehL n ehR = Some (tt, rr) ->
    matched (2 * prodl sh) n (fun i => fst (ehL i)) (fun i => snd (ehL i)) n (fun i => fst (ehR i)) (fun i => snd (ehR i)) (diag_mat a) (fun _ _ => c0) /\
    forall i j, (i < n)%nat -> (j < n)%nat ->
      ent rr i j = c0 /\ (i <> j -> ent tt i j = c0) /\
      (cnrm (a i) <= 1 -> ent tt i i = a i) /\ (1 < cnrm (a i) -> ent tt i i = cdiv c1 (cconj (a i))).
Proof.
  intros sh dxes lstsq svd n ehL ehR a tt rr Lo Sv EL Orth Bnz Anz H. split.
  { intros i q Hi Hq. rewrite EL. cbn [fst snd]. unfold diag_mat. split.
    - transitivity (cmul (a i) (fst (ehR i) q)).
      + rewrite (cs_mul_l n c0). cring.
      + symmetry. refine (eq_trans _ (cs_delta_l' n i (fun k => cmul (a k) (fst (ehR k) q)) Hi)). apply cs_ext. intros k _. cring.
    - transitivity (cmul (a i) (snd (ehR i) q)).
      + rewrite (cs_mul_l n c0). cring.
      + symmetry. refine (eq_trans _ (cs_delta_l' n i (fun k => cmul (a k) (snd (ehR k) q)) Hi)). apply cs_ext. intros k _. cring. }
  set (B := self_overlap sh dxes ehR) in *.
  assert (O12 : forall l r, (l < n)%nat -> (r < n)%nat -> oA12 sh dxes ehL ehR l r = cmul (delta l r) (cmul (a l) (B l))).
  { intros l r Hl Hr. unfold oA12. rewrite EL. cbn [fst snd]. unfold overlap. refine (eq_trans (ip_scale_l CC sh dxes c1 _ _ _) _). unfold delta. destruct (Nat.eqb_spec l r) as [<-|Ne].
    - change (cmul (a l) (B l) = cmul c1 (cmul (a l) (B l))). cring.
    - refine (eq_trans (f_equal (cmul (a l)) (Orth l r Hl Hr Ne)) _). cring. }
  assert (O21 : forall l r, (l < n)%nat -> (r < n)%nat -> oA21 sh dxes ehL ehR l r = cmul (delta l r) (cmul (a l) (B l))).
  { intros l r Hl Hr. unfold oA21. rewrite EL. cbn [fst snd]. unfold overlap. refine (eq_trans (ip_scale_r CC sh dxes c1 _ _ _) _). unfold delta. destruct (Nat.eqb_spec l r) as [<-|Ne].
    - change (cmul (a l) (B l) = cmul c1 (cmul (a l) (B l))). cring.
    - refine (eq_trans (f_equal (cmul (a l)) (Orth r l Hr Hl (not_eq_sym Ne))) _). cring. }
  assert (OB : forall l, oB sh dxes ehL l = cmul (cmul (a l) (a l)) (B l)).
  { intro l. unfold oB. rewrite EL. cbn [fst snd]. unfold overlap. refine (eq_trans (ip_scale_l CC sh dxes c1 _ _ _) _). refine (eq_trans (f_equal (cmul (a l)) (ip_scale_r CC sh dxes c1 _ _ _)) _).
    change (cmul (a l) (cmul (a l) (B l)) = cmul (cmul (a l) (a l)) (B l)). cring. }
  assert (SM : forall l r, (l < n)%nat -> (r < n)%nat -> summed sh dxes ehL ehR l r = cmul (delta l r) (cmul ctwo (cmul (a l) (B l)))).
  { intros l r Hl Hr. unfold summed. rewrite O12, O21 by assumption. unfold delta, ctwo. destruct (l =? r)%nat; apply cpx_ext; cbn; ring. }
  assert (D : forall (f : nat -> cpx) l, (l < n)%nat -> cs n (fun r => cmul (summed sh dxes ehL ehR l r) (f r)) = cmul (cmul ctwo (cmul (a l) (B l))) (f l)).
  { intros f l Hl. refine (eq_trans _ (cs_delta_l n l (fun r => cmul (cmul ctwo (cmul (a l) (B l))) (f r)) Hl)). apply cs_ext. intros r Hr. rewrite SM by assumption. cring. }
  assert (c2 : ctwo <> c0) by (intro Z; injection Z; lra).
  assert (I : injective n n (summed sh dxes ehL ehR)).
  { intros x Z j Hj. specialize (Z j Hj). pose proof (D x j Hj) as E. change (mv (K := CC) n (summed sh dxes ehL ehR) x j = cmul (cmul ctwo (cmul (a j) (B j))) (x j)) in E. rewrite Z in E.
    assert (N : cmul ctwo (cmul (a j) (B j)) <> c0). { intro Q. apply (cmul_zero _ _ c2) in Q. apply (cmul_zero _ _ (Anz j Hj)) in Q. exact (Bnz j Hj Q). }
    exact (cmul_zero _ _ N (eq_sym E)). }
  destruct (tr_unfold sh dxes lstsq svd n ehL ehR tt rr Lo Sv I H) as (X & U & st & V & EX & SV & ET & ERR).
  assert (XX : forall i j, (i < n)%nat -> (j < n)%nat -> diag_mat a i j = X i j).
  { apply (solve_unique n (summed sh dxes ehL ehR)); [exact I|]. intros q j Hq Hj. rewrite EX, OB, D by assumption. unfold diag_mat, delta. destruct (Nat.eqb_spec q j) as [->|]; cring. }
  set (u := fun i => cdiv (a i) (mkC (sqrt (cnrm (a i))) 0)).
  assert (NP : forall i, (i < n)%nat -> 0 < cnrm (a i)).
  { intros i Hi. pose proof (Anz i Hi) as N. unfold cnrm. destruct (a i) as [x y]. cbn in *. destruct (Req_dec x 0) as [->|]; [|nra]. destruct (Req_dec y 0) as [->|]; [|nra]. exfalso. apply N. reflexivity. }
  assert (SQ : forall i, (i < n)%nat -> 0 < sqrt (cnrm (a i)) /\ sqrt (cnrm (a i)) * sqrt (cnrm (a i)) = cnrm (a i)).
  { intros i Hi. split; [now apply sqrt_lt_R0, NP|apply sqrt_sqrt; left; now apply NP]. }
  assert (Pu : forall i, (i < n)%nat -> phase (u i)).
  { intros i Hi. unfold phase, u. destruct (SQ i Hi) as (S0 & S1). set (r := sqrt (cnrm (a i))) in *. unfold cnrm in S1. destruct (a i) as [x y]. cbn in S1. apply cpx_ext; cbn; unfold cnrm; cbn.
    - transitivity ((x * x + y * y) / (r * r)); [field; lra|rewrite <- S1; field; lra].
    - field. lra. }
  assert (SV' : is_svd n n X (fun r i => cmul (u r) (mid (K := CC) r i)) (fun i => sqrt (cnrm (a i))) mid).
  { split; [apply (phase_mix n (fun i => i) (fun i => i) u mid); [intros i Hi; repeat split; auto|exact Pu|apply unitary_mid]|]. split; [apply unitary_mid|]. rewrite Nat.min_id. split; [intros; apply sqrt_pos|].
    intros i j Hi Hj. rewrite <- XX by assumption. destruct (SQ i Hi) as (S0 & _). assert (E0 : forall x y, @mid CC x y = delta x y) by (intros x y; unfold mid; apply ind_delta).
    transitivity (cmul (cmul (u i) (mkC (sqrt (cnrm (a i))) 0)) (delta i j)).
    { assert (EU : cmul (u i) (mkC (sqrt (cnrm (a i))) 0) = a i).
      { unfold u. set (r := sqrt (cnrm (a i))) in *. clear - S0. destruct (a i) as [x y]. apply cpx_ext; cbn; unfold cnrm; cbn; field; lra. }
      rewrite EU. unfold diag_mat. cring. }
    refine (eq_sym (eq_trans _ (cs_delta_l n i (fun q => cmul (cmul (u i) (mkC (sqrt (cnrm (a q))) 0)) (delta q j)) Hi))). apply cs_ext. intros q _. cbv beta. rewrite (E0 i q), (E0 q j). cring. }
  assert (TT : forall i j, (i < n)%nat -> (j < n)%nat -> ent tt i j = cmul (delta i j) (cmul (u i) (mkC (clip1 (sqrt (cnrm (a i)))) 0))).
  { intros i j Hi Hj. rewrite ET by assumption. refine (eq_trans (svd_fun_unique n X U V st _ _ _ clip1 SV SV' clip1_0 i j Hi Hj) _). assert (E0 : forall x y, @mid CC x y = delta x y) by (intros x y; unfold mid; apply ind_delta).
    refine (eq_trans _ (eq_trans (cs_delta_l n i (fun q => cmul (cmul (u i) (mkC (clip1 (sqrt (cnrm (a q)))) 0)) (delta q j)) Hi) _)); [apply cs_ext; intros q _; cbv beta; rewrite (E0 i q), (E0 q j); cring|cring]. }
  intros i j Hi Hj. split; [|split; [|split]].
  - rewrite ERR by assumption. transitivity (cmul (cdiv chalf (oB sh dxes ehL i)) (cs n (fun _ => cmul c0 c0))).
    + f_equal. apply cs_ext. intros k Hk. rewrite O12, O21 by assumption. cring.
    + rewrite (cs_mul_l n c0). cring.
  - intro Ne. rewrite TT by assumption. unfold delta. destruct (Nat.eqb_spec i j); [contradiction|cring].
  - intro L. rewrite TT by assumption. unfold delta. rewrite Nat.eqb_refl. unfold u, clip1. destruct (SQ i Hi) as (S0 & S1). set (r := sqrt (cnrm (a i))) in *. destruct (Rlt_dec 1 r) as [G|_]; [exfalso; nra|].
    clear - S0. destruct (a i) as [x y]. apply cpx_ext; cbn; unfold cnrm; cbn; field; lra.
  - intro L. rewrite TT by assumption. unfold delta. rewrite Nat.eqb_refl. unfold u, clip1. destruct (SQ i Hi) as (S0 & S1). pose proof (NP i Hi) as NPi. set (r := sqrt (cnrm (a i))) in *. destruct (Rlt_dec 1 r) as [_|G]; [|exfalso; nra].
    unfold cnrm in S1, NPi. destruct (a i) as [x y]. cbn in S1, NPi. clear - S0 S1 NPi. apply cpx_ext; cbn; unfold cnrm; cbn.
    + transitivity (x / (r * r)); [field; lra|rewrite S1; field; nra].
    + transitivity (y / (r * r)); [field; lra|rewrite S1; field; nra].
Qed.
Print Assumptions C171_scaled_modes.

(** ** The cases *)
(** Another choice of singular vectors: U = 1. *)
Definition svd170 : svd_fun := fun r c M =>
  match r, c with
  | 2%nat, 2%nat => if same_mat 2 M J1 then Some (mid, fun _ => 1, J1) else None
  | _, _ => None
  end.
Lemma svd170_ok : svd_ok svd170.
Proof.
  intros r c M U st V. unfold svd170. destruct r as [|[|[|r]]], c as [|[|[|c]]]; try discriminate.
  destruct (same_mat 2 M J1) eqn:E1; [|discriminate]; intro H; injection H as <- <- <-.
  rewrite same_mat_spec in E1. split; [apply unitary_mid|]. split; [exact unitary_J1|]. split; [intros; lra|]. intros i j Hi Hj. rewrite E1 by assumption.
  destruct (two_cases i Hi) as [->| ->], (two_cases j Hj) as [->| ->]; apply cpx_ext; cbn; ring.
Qed.
Lemma tr170 : exists tt rr, get_tr [1; 1]%nat unit_dxes lstsq2 svd170 2 ehL84 2 ehR84 = Some (tt, rr).
Proof.
  destruct tr_LR as (tt & rr & H & _). destruct (get_tr_some _ _ _ _ _ _ _ _ _ H) as (X & U & st & V & EX & ES & _).
  assert (XJ : same_mat 2 X J1 = true).
  { unfold svd84 in ES. destruct (same_mat 2 X J1) eqn:E; [reflexivity|exfalso]. destruct (same_mat 2 X J2) eqn:E2; [|discriminate].
    destruct (tr_unfold [1; 1]%nat unit_dxes lstsq2 svd84 2 ehL84 ehR84 tt rr lstsq2_ok svd84_ok (proj1 (proj2 (proj2 (proj2 good_LR)))) H) as (X' & U' & st' & V' & EX' & _).
    pose proof (lstsq_exact 2 2 2 _ _ X X' (lstsq2_ok _ _ _ _ _ _ EX) (proj1 (proj2 (proj2 (proj2 good_LR))))) as Q.
    rewrite same_mat_spec in E2. specialize (E2 0%nat 1%nat ltac:(lia) ltac:(lia)).
    assert (X01 : X 0%nat 1%nat = c1); [|rewrite X01 in E2; injection E2; cbn; lra].
    unfold lstsq2 in EX. destruct (cpx_dec _ _) as [|Nz]; [discriminate|]. injection EX as <-. unfold madd, mdiag, oA21, oA12, oB, det2. cbn [ehL84 ehR84 fst snd Nat.eqb ind]. rewrite !overlap_11. clear. apply cpx_ext; cbn; unfold cnrm; cbn; field; lra. }
  destruct (get_tr_total [1; 1]%nat unit_dxes lstsq2 svd170 2 ehL84 ehR84 X (mid, fun _ => 1, J1) EX) as ((t & r) & HH); [unfold svd170; now rewrite XJ|]. now exists t, r.
Qed.
Example C170_deterministic_case :
  lstsq_ok lstsq2 /\ svd_ok svd84 /\ svd_ok svd170 /\ injective 2 2 (overlaps [1; 1]%nat unit_dxes ehL84 ehR84) /\
  (exists tt rr, get_tr [1; 1]%nat unit_dxes lstsq2 svd84 2 ehL84 2 ehR84 = Some (tt, rr)) /\
  (exists tt rr, get_tr [1; 1]%nat unit_dxes lstsq2 svd170 2 ehL84 2 ehR84 = Some (tt, rr)) /\
  svd84 2%nat 2%nat J1 <> svd170 2%nat 2%nat J1.
Proof.
  split; [exact lstsq2_ok|]. split; [exact svd84_ok|]. split; [exact svd170_ok|]. split; [exact (proj1 (proj2 (proj2 (proj2 good_LR))))|]. split; [|split].
  - destruct tr_LR as (tt & rr & H & _). now exists tt, rr.
  - exact tr170.
  - assert (E : same_mat 2 J1 J1 = true) by (apply same_mat_spec; reflexivity). unfold svd84, svd170. rewrite E. intro H. injection H as H1 _. apply (f_equal (fun A : mat CC => cre (A 0%nat 0%nat))) in H1. cbn in H1. lra.
Qed.
Example C170_reciprocal_case :
  lstsq_ok lstsq2 /\ svd_ok svd84 /\ mkC (1 / 2) 0 <> c0 /\
  (forall i, (i < 2)%nat -> self_overlap [1; 1]%nat unit_dxes ehL84 i = mkC (1 / 2) 0) /\ (forall i, (i < 2)%nat -> self_overlap [1; 1]%nat unit_dxes ehR84 i = mkC (1 / 2) 0) /\
  injective 2 2 (overlaps [1; 1]%nat unit_dxes ehL84 ehR84) /\
  exists t12 r12 t21 r21, get_tr [1; 1]%nat unit_dxes lstsq2 svd84 2 ehL84 2 ehR84 = Some (t12, r12) /\ get_tr [1; 1]%nat unit_dxes lstsq2 svd84 2 ehR84 2 ehL84 = Some (t21, r21) /\
    ent t12 0%nat 1%nat <> ent t12 1%nat 0%nat.
Proof.
  split; [exact lstsq2_ok|]. split; [exact svd84_ok|]. split; [intro Z; injection Z; lra|].
  split; [intros i Hi; change (overlap [1; 1]%nat unit_dxes (fst (ehL84 i)) (snd (ehL84 i)) = mkC (1 / 2) 0); cases2; cbn [ehL84 fst snd]; rewrite overlap_11; apply cpx_ext; cbn; field|].
  split; [intros i Hi; change (overlap [1; 1]%nat unit_dxes (fst (ehR84 i)) (snd (ehR84 i)) = mkC (1 / 2) 0); cases2; cbn [ehR84 fst snd]; rewrite overlap_11; apply cpx_ext; cbn; field|].
  split; [exact (proj1 (proj2 (proj2 (proj2 good_LR))))|].
  destruct tr_LR as (t12 & r12 & H12 & _ & _ & _ & _ & T12 & _). destruct tr_RL as (t21 & r21 & H21 & _). exists t12, r12, t21, r21. split; [exact H12|]. split; [exact H21|].
  rewrite same_mat_spec in T12. rewrite !T12 by lia. cbn. intro Z. injection Z. lra.
Qed.

(** The modes swapped, with phases i and 1 on the left, 1 and i on the right. *)
Definition swap2 (i : nat) : nat := match i with O => 1 | _ => 0 end%nat.
Definition a170 (i : nat) : cpx := match i with O => ci | _ => c1 end.
Definition b170 (i : nat) : cpx := match i with O => c1 | _ => ci end.
Definition scaled (x : nat -> cpx) (s : nat -> nat) (eh : modes) : modes := fun i => (fun q => cmul (x i) (fst (eh (s i)) q), fun q => cmul (x i) (snd (eh (s i)) q)).
Lemma ov_scaled (x y : cpx) e h : overlap [1; 1]%nat unit_dxes (fun q => cmul x (e q)) (fun q => cmul y (h q)) = cmul (cmul x y) (overlap [1; 1]%nat unit_dxes e h).
Proof.
  unfold overlap. refine (eq_trans (ip_scale_l CC [1; 1]%nat unit_dxes c1 _ _ _) _). refine (eq_trans (f_equal (cmul x) (ip_scale_r CC [1; 1]%nat unit_dxes c1 _ _ _)) _).
  set (z := inner_product _ _ _ _ _ _). change (cmul x (cmul y z) = cmul (cmul x y) z). cring.
Qed.
Lemma good_170 : good_pair (scaled a170 swap2 ehL84) (scaled b170 swap2 ehR84) J2.
Proof.
  split; [|split; [|split; [|split]]].
  - intros i q Hi Hq. change (q < 2)%nat in Hq. cases2; split; apply cpx_ext; cbn; ring.
  - intros i j Hi Hj Ne. cases2; try lia; cbn [scaled swap2 ehL84 fst snd]; rewrite ov_scaled, overlap_11; apply cpx_ext; cbn; field.
  - intros i Hi. cases2; cbn [scaled swap2 ehL84 fst snd]; rewrite ov_scaled, overlap_11; intro Z; injection Z; cbn; lra.
  - apply det2_injective. unfold det2. cbn [scaled swap2 ehL84 ehR84 fst snd]. rewrite !ov_scaled, !overlap_11. intro Z. injection Z. cbn. lra.
  - apply no_gain_unitary, unitary_J2.
Qed.
Example C170_relabel_case :
  lstsq_ok lstsq2 /\ svd_ok svd84 /\
  (forall i, (i < 2)%nat -> (swap2 i < 2)%nat /\ (swap2 i < 2)%nat /\ swap2 (swap2 i) = i /\ swap2 (swap2 i) = i) /\
  (forall i, (i < 2)%nat -> cmul (cconj (a170 i)) (a170 i) = c1) /\ (forall i, (i < 2)%nat -> cmul (cconj (b170 i)) (b170 i) = c1) /\
  injective 2 2 (overlaps [1; 1]%nat unit_dxes ehL84 ehR84) /\ (forall i, (i < 2)%nat -> self_overlap [1; 1]%nat unit_dxes ehL84 i <> c0) /\
  (exists tt rr, get_tr [1; 1]%nat unit_dxes lstsq2 svd84 2 ehL84 2 ehR84 = Some (tt, rr)) /\
  (exists tt rr, get_tr [1; 1]%nat unit_dxes lstsq2 svd84 2 (scaled a170 swap2 ehL84) 2 (scaled b170 swap2 ehR84) = Some (tt, rr)).
Proof.
  split; [exact lstsq2_ok|]. split; [exact svd84_ok|]. split; [intros i Hi; cases2; cbn; repeat split; lia|]. split; [intros i Hi; cases2; apply cpx_ext; cbn; ring|]. split; [intros i Hi; cases2; apply cpx_ext; cbn; ring|].
  split; [exact (proj1 (proj2 (proj2 (proj2 good_LR))))|]. split; [exact (proj1 (proj2 (proj2 good_LR)))|]. split.
  - destruct tr_LR as (tt & rr & H & _). now exists tt, rr.
  - destruct (tr84 _ _ _ good_170) as (tt & rr & H & _); [now right| |now exists tt, rr].
    unfold det2, madd, oA21, oA12. cbn [scaled swap2 ehL84 ehR84 fst snd]. rewrite !ov_scaled, !overlap_11. intro Z. injection Z. cbn. lra.
Qed.

(** The SVD of a 1 x 1 matrix *)
Definition svd1 : svd_fun := fun r c M =>
  match r, c with
  | 1%nat, 1%nat => let z := M 0%nat 0%nat in
      Some (fun _ _ => if cpx_dec z c0 then c1 else cdiv z (mkC (sqrt (cnrm z)) 0), fun _ => sqrt (cnrm z), mid)
  | _, _ => None
  end.
Lemma svd1_ok : svd_ok svd1.
Proof.
  intros r c M U st V. unfold svd1. destruct r as [|[|r]], c as [|[|c]]; try discriminate. cbv zeta. intro H. injection H as <- <- <-. set (z := M 0%nat 0%nat).
  assert (Z : z <> c0 -> 0 < sqrt (cnrm z) /\ sqrt (cnrm z) * sqrt (cnrm z) = cnrm z).
  { intro N. assert (0 < cnrm z). { unfold cnrm. destruct z as [x y]. cbn. destruct (Req_dec x 0) as [->|]; [|nra]. destruct (Req_dec y 0) as [->|]; [|nra]. exfalso. apply N. reflexivity. }
    split; [now apply sqrt_lt_R0|apply sqrt_sqrt; lra]. }
  split; [|split; [apply unitary_mid|split; [intros; apply sqrt_pos|]]].
  - assert (P : forall w, w = (if cpx_dec z c0 then c1 else cdiv z (mkC (sqrt (cnrm z)) 0)) -> cmul (cconj w) w = c1).
    { intros w ->. destruct (cpx_dec z c0) as [_|N]; [apply cpx_ext; cbn; ring|]. destruct (Z N) as (P & Q). set (r := sqrt (cnrm z)) in *. clearbody r. unfold cnrm in Q. clear N Z. destruct z as [x y]. cbn in Q. apply cpx_ext; cbn; unfold cnrm; cbn; [|field; lra].
      transitivity ((x * x + y * y) / (r * r)); [field; lra|rewrite <- Q; field; lra]. }
    set (w := if cpx_dec z c0 then _ else _) in *. specialize (P w eq_refl). clearbody w.
    split; intros i j Hi Hj; assert (i = 0 /\ j = 0)%nat as (-> & ->) by lia; cbn [delta Nat.eqb].
    + transitivity (cadd c0 (cmul (cconj w) w)); [reflexivity|rewrite P; apply cpx_ext; cbn; ring].
    + transitivity (cadd c0 (cmul (cconj w) w)); [apply cpx_ext; cbn; ring|rewrite P; apply cpx_ext; cbn; ring].
  - intros i j Hi Hj. assert (i = 0 /\ j = 0)%nat as (-> & ->) by lia. fold z. destruct (cpx_dec z c0) as [E|N].
    + assert (S0 : sqrt (cnrm z) = 0) by (rewrite E; unfold cnrm; cbn; rewrite Rmult_0_l, Rplus_0_l; apply sqrt_0). rewrite S0, E. apply cpx_ext; cbn; ring.
    + destruct (Z N) as (P & _). set (r := sqrt (cnrm z)) in *. clearbody r. clear N Z. destruct z as [x y]. apply cpx_ext; cbn; unfold cnrm; cbn; field; lra.
Qed.
(** One mode, twice as large on the left. *)
Definition eh171 : modes := fun _ => (vec3 1 0, vec3 0 1).
Lemma tr171 (a : cpx) : a <> c0 -> exists tt rr, get_tr [1; 1]%nat unit_dxes lstsq1 svd1 1 (scaled (fun _ => a) (fun i => i) eh171) 1 eh171 = Some (tt, rr).
Proof.
  intro Ha. set (L := scaled (fun _ => a) (fun i => i) eh171).
  set (A := madd (oA21 [1; 1]%nat unit_dxes L eh171) (oA12 [1; 1]%nat unit_dxes L eh171)). set (Bm := mdiag (K := CC) (fun l => cmul ctwo (oB [1; 1]%nat unit_dxes L l))).
  assert (EX : exists X, lstsq1 1%nat 1%nat 1%nat A Bm = Some X).
  { unfold lstsq1. destruct (cpx_dec (A 0%nat 0%nat) c0) as [Z|]; [exfalso|eexists; reflexivity]. apply Ha. rewrite <- Z. unfold A, madd, oA21, oA12, L, scaled, eh171. cbn [fst snd].
    assert (E1 : overlap [1; 1]%nat unit_dxes (vec3 1 0) (fun q => cmul a (vec3 0 1 q)) = cmul a (mkC (1 / 2) 0)).
    { unfold overlap. refine (eq_trans (ip_scale_r CC [1; 1]%nat unit_dxes c1 _ _ _) _). refine (f_equal (cmul a) _). refine (eq_trans (overlap_11 1 0 0 1) _). apply cpx_ext; cbn; field. }
    assert (E2 : overlap [1; 1]%nat unit_dxes (fun q => cmul a (vec3 1 0 q)) (vec3 0 1) = cmul a (mkC (1 / 2) 0)).
    { unfold overlap. refine (eq_trans (ip_scale_l CC [1; 1]%nat unit_dxes c1 _ _ _) _). refine (f_equal (cmul a) _). refine (eq_trans (overlap_11 1 0 0 1) _). apply cpx_ext; cbn; field. }
    rewrite E1, E2. apply cpx_ext; cbn; field. }
  destruct EX as (X & EX). destruct (get_tr_total [1; 1]%nat unit_dxes lstsq1 svd1 1 L eh171 X _ EX eq_refl) as ((tt & rr) & H). now exists tt, rr.
Qed.
Lemma eh171_self i : self_overlap [1; 1]%nat unit_dxes eh171 i <> c0.
Proof. change (overlap [1; 1]%nat unit_dxes (vec3 1 0) (vec3 0 1) <> c0). rewrite overlap_11. intro Z. injection Z. lra. Qed.
Example C171_scaled_modes_case :
  lstsq_ok lstsq1 /\ svd_ok svd1 /\ (forall i, (i < 1)%nat -> self_overlap [1; 1]%nat unit_dxes eh171 i <> c0) /\ mkC 2 1 <> c0 /\ 1 < cnrm (mkC 2 1) /\
  exists tt rr, get_tr [1; 1]%nat unit_dxes lstsq1 svd1 1 (scaled (fun _ => mkC 2 1) (fun i => i) eh171) 1 eh171 = Some (tt, rr).
Proof.
  split; [exact lstsq1_ok|]. split; [exact svd1_ok|]. split; [intros i _; apply eh171_self|]. split; [intro Z; injection Z; lra|]. split; [unfold cnrm; cbn; lra|]. apply tr171. intro Z. injection Z. lra.
Qed.

(** Without normalisation get_tr need not return the amplitudes that make the
    fields continuous, even at an interface of two equal cross-sections: the
    hypothesis [no_gain] of C47_matched_amplitudes cannot be left out. *)
Theorem C171_any_normalisation_refuted :
  exists sh dxes (lstsq : lstsq_fun) (svd : svd_fun) n ehL ehR T R tt rr,
    lstsq_ok lstsq /\ svd_ok svd /\
    matched (2 * prodl sh) n (fun i => fst (ehL i)) (fun i => snd (ehL i)) n (fun i => fst (ehR i)) (fun i => snd (ehR i)) T R /\
    (forall i j, (i < n)%nat -> (j < n)%nat -> i <> j -> inner_product (K := CC) sh (fst (ehL i)) (snd (ehL j)) dxes c1 false = c0) /\
    (forall i, (i < n)%nat -> inner_product (K := CC) sh (fst (ehL i)) (snd (ehL i)) dxes c1 false <> c0) /\
    injective n n (overlaps sh dxes ehL ehR) /\
    get_tr sh dxes lstsq svd n ehL n ehR = Some (tt, rr) /\
    exists i, (i < n)%nat /\ T i i = mkC 2 0 /\ ent tt i i = mkC (1 / 2) 0.
Proof.
  set (L := scaled (fun _ => mkC 2 0) (fun i => i) eh171). destruct (tr171 (mkC 2 0)) as (tt & rr & H); [intro Z; injection Z; lra|]. fold L in H.
  destruct (C171_scaled_modes [1; 1]%nat unit_dxes lstsq1 svd1 1 L eh171 (fun _ => mkC 2 0) tt rr lstsq1_ok svd1_ok) as (M & Q); try assumption.
  - reflexivity.
  - intros i j Hi Hj Ne. lia.
  - intros i _. apply eh171_self.
  - intros i _ Z. injection Z. lra.
  - exists [1; 1]%nat, unit_dxes, lstsq1, svd1, 1%nat, L, eh171, (diag_mat (fun _ => mkC 2 0)), (fun _ _ => c0), tt, rr.
    split; [exact lstsq1_ok|]. split; [exact svd1_ok|]. split; [exact M|]. split; [intros i j Hi Hj Ne; lia|].
    assert (S2 : overlap [1; 1]%nat unit_dxes (fst (L 0%nat)) (snd (L 0%nat)) = mkC 2 0). { unfold L, scaled, eh171. cbn [fst snd]. rewrite ov_scaled, overlap_11. apply cpx_ext; cbn; field. }
    split; [|split; [|split; [exact H|]]].
    + intros i Hi. assert (i = 0)%nat by lia. subst i. intro Z. pose proof (eq_trans (eq_sym S2) Z) as Q2. injection Q2. lra.
    + intros x Z j Hj. assert (j = 0)%nat by lia. subst j. specialize (Z 0%nat ltac:(lia)).
      assert (E : overlaps [1; 1]%nat unit_dxes L eh171 0%nat 0%nat = mkC 2 0).
      { unfold overlaps. transitivity (cadd (overlap [1; 1]%nat unit_dxes (vec3 1 0) (fun q => cmul (mkC 2 0) (vec3 0 1 q))) (overlap [1; 1]%nat unit_dxes (fun q => cmul (mkC 2 0) (vec3 1 0 q)) (vec3 0 1))); [reflexivity|].
        unfold overlap. refine (eq_trans (f_equal2 cadd (ip_scale_r CC [1; 1]%nat unit_dxes c1 (mkC 2 0) _ _) (ip_scale_l CC [1; 1]%nat unit_dxes c1 (mkC 2 0) _ _)) _).
        refine (eq_trans (f_equal (fun z => cadd (cmul (mkC 2 0) z) (cmul (mkC 2 0) z)) (overlap_11 1 0 0 1)) _). apply cpx_ext; cbn; field. }
      assert (Z2 : cmul (mkC 2 0) (x 0%nat) = c0). { rewrite <- Z, <- E. unfold mv. cbn [sumN]. set (p := overlaps _ _ _ _ _ _). set (y := x 0%nat). change (cmul p y = cadd c0 (cmul p y)). cring. }
      injection Z2 as Z2 Z3. cbn in Z2, Z3. apply cpx_ext; cbn; lra.
    + exists 0%nat. split; [lia|]. split; [apply cpx_ext; cbn; ring|]. destruct (Q 0%nat 0%nat ltac:(lia) ltac:(lia)) as (_ & _ & _ & Q4). rewrite Q4 by (unfold cnrm; cbn; lra). apply cpx_ext; cbn; unfold cnrm; cbn; field.
Qed.
Print Assumptions C171_any_normalisation_refuted.
