(** Properties of meanas/fdfd/waveguide_3d.py: expand_e, compute_overlap_e and
    compute_source. *)
From Coq Require Import Reals List Arith ZArith Lia Lra Bool Field.
From Verif.Lib Require Import Num Sums Idx Mat RealF Cexp.
From Verif.Model Require Import Fdmath Fdfd Waveguide2d WaveguideReal Waveguide3d.
From Verif.Spec Require Import Yee FdfdSpec WaveguideSpec Wg3dSpec.
From Verif.Proofs Require Import FdmathP FdfdP FdfdP3 WaveguideP Wg3dP Wg3dRealP.
From Verif.Props Require Import FdfdProps Wg3dProps.
From Verif.Proofs Require Import GridP.
Import ListNotations.
Local Open Scope R_scope.

(** ** C43 *)
Lemma a_E_diff dxes axis m s : (s <= m)%nat ->
  a_E dxes axis m - a_E dxes axis s = sumN (K := RF) (m - s) (fun i => cre (fst dxes axis (s + 1 + i)%nat)).
Proof.
  intro H. unfold a_E. replace (S m) with (S s + (m - s))%nat by lia. rewrite (sumN_app RF).
  rewrite (sumN_ext RF (m - s) (fun i => cre (fst dxes axis (S s + i)%nat)) (fun i => cre (fst dxes axis (s + 1 + i)%nat))).
  - cbn. ring.
  - intros i _. do 2 f_equal. lia.
Qed.

(** exp(-i polarity k D) *)
Definition phase_factor (pol : Z) (k : cpx) (D : R) : cpx := cexp (cmul (mkC 0 (- IZR pol)) (cmul k (mkC D 0))).

Theorem C43_expand_e :
  forall sh dxes axis pol sl (E : field CC) k c idx,
    length sh = 3%nat -> (axis < 3)%nat -> valid_slices sh axis sl -> inb sh idx ->
    let F := expand_e sh dxes axis pol sl E k in
    let s := start sl axis in let m := coord idx axis in
    let width i := cre (fst dxes axis i) in
    (in_window axis sl idx -> m = s -> F c idx = E c idx) /\
    (in_window axis sl idx -> (s <= m)%nat ->
       F c idx = cmul (phase_factor pol k (sumN (K := RF) (m - s) (fun i => width (s + 1 + i)%nat))) (E c (upd axis s idx))) /\
    (in_window axis sl idx -> (m <= s)%nat ->
       F c idx = cmul (phase_factor pol k (- sumN (K := RF) (s - m) (fun i => width (m + 1 + i)%nat))) (E c (upd axis s idx))) /\
    (~ in_window axis sl idx -> F c idx = c0).
Proof.
  intros sh dxes axis pol sl E k c idx HL Hax HV Hi F s m width.
  assert (W : in_window axis sl idx <-> win (ox axis) (fun b => start sl (ox axis b)) (fun b => slen sh sl (ox axis b)) idx).
  { symmetry. exact (win_iff sh axis sl HL Hax HV idx). }
  assert (P : in_window axis sl idx -> F c idx = cmul (phase_at dxes axis sl pol k m) (E c (upd axis s idx))).
  { intro I. unfold F. rewrite (expand_win sh dxes axis pol sl E k c idx Hax HL HV Hi) by now apply W. reflexivity. }
  assert (PF : forall D, cexp (cmul (cmul (mkC 0 (- IZR pol)) k) (mkC D 0)) = phase_factor pol k D).
  { intro D. unfold phase_factor. f_equal. apply cpx_ext; cbn; ring. }
  split; [|split; [|split]].
  - intros I E1. rewrite (P I), E1. unfold s at 1. rewrite phase_start. rewrite <- E1. unfold m. rewrite upd_coord. apply cpx_ext; cbn; ring.
  - intros I L. rewrite (P I). f_equal. unfold phase_at. rewrite PF. f_equal. now apply a_E_diff.
  - intros I L. rewrite (P I). f_equal. unfold phase_at. rewrite PF. f_equal. fold s.
    pose proof (a_E_diff dxes axis s m L) as A. unfold width. cbn in A |- *. rewrite <- A. cbn. ring.
  - intro N. unfold F, expand_e. cbv zeta. destruct (selected _ idx) eqn:S; [|reflexivity].
    exfalso. apply N, W. now apply (sel_exp sh axis sl HL Hax HV idx Hi).
Qed.
Print Assumptions C43_expand_e.

Example C43_example :
  valid_slices m3_sh 2 m3_sl /\ inb m3_sh [1; 0; 2]%nat /\ in_window 2 m3_sl [1; 0; 2]%nat /\ (start m3_sl 2 < coord [1; 0; 2] 2)%nat.
Proof.
  split; [exact (wa_slices _ _ _ _ _ _ _ m3_waveguide)|]. split; [repeat constructor|]. split; [|cbn; lia].
  intros [|[|[|a]]] Ha Hn; cbn; lia.
Qed.

(** ** C72: the distance between two planes of the transverse E field is the
    width [dx_e[m]] that the forward difference divides by; the phase uses
    [dx_e[m + 1]]. *)
Theorem C72_expand_e_distance_refuted :
  exists sh dxes axis sl (E : field CC) (k : cpx) c idx,
    length sh = 3%nat /\ (axis < 3)%nat /\ valid_slices sh axis sl /\ inb sh idx /\ in_window axis sl idx /\
    coord idx axis = start sl axis /\ (coord idx axis + 1 < dim sh axis)%nat /\ c <> axis /\
    let F := expand_e sh dxes axis 1 sl E k in
    F c (upd axis (coord idx axis + 1) idx) <> cmul (phase_factor 1 k (cre (fst dxes axis (coord idx axis)))) (F c idx).
Proof.
  pose (w := fun (a i : nat) => if Nat.eqb i 1 then mkC 2 0 else c1).
  exists [1; 1; 2]%nat, (w, w), 2%nat, (fun a => (0, 1)%nat), (fun _ _ => c1), (mkC (PI / 2) 0), 0%nat, [0; 0; 0]%nat.
  assert (HV : valid_slices [1; 1; 2]%nat 2 (fun _ => (0, 1)%nat)).
  { split; [|reflexivity]. intros [|[|[|a]]] Ha; cbn; lia. }
  assert (W : in_window 2 (fun _ => (0, 1)%nat) [0; 0; 0]%nat).
  { intros [|[|[|a]]] Ha Hn; cbn; lia. }
  assert (W1 : in_window 2 (fun _ => (0, 1)%nat) [0; 0; 1]%nat).
  { intros [|[|[|a]]] Ha Hn; cbn; lia. }
  split; [reflexivity|]. split; [lia|]. split; [exact HV|]. split; [repeat constructor|]. split; [exact W|]. split; [reflexivity|].
  split; [cbn; lia|]. split; [discriminate|]. cbv zeta.
  change (coord [0; 0; 0] 2)%nat with 0%nat. change (upd 2 (0 + 1) [0; 0; 0])%nat with [0; 0; 1]%nat.
  destruct (C43_expand_e [1; 1; 2]%nat (w, w) 2 1 (fun _ => (0, 1)%nat) (fun _ _ => c1) (mkC (PI / 2) 0) 0 [0; 0; 0]%nat eq_refl ltac:(lia) HV ltac:(repeat constructor)) as (A & _).
  destruct (C43_expand_e [1; 1; 2]%nat (w, w) 2 1 (fun _ => (0, 1)%nat) (fun _ _ => c1) (mkC (PI / 2) 0) 0 [0; 0; 1]%nat eq_refl ltac:(lia) HV ltac:(repeat constructor)) as (_ & B & _).
  rewrite (A W eq_refl). rewrite (B W1 ltac:(cbn; lia)).
  change (sumN (K := RF) _ _) with (0 + 2). change (cre (fst (w, w) 2%nat 0%nat)) with 1.
  intro Z. apply (f_equal cre) in Z. unfold phase_factor, cexp in Z. cbn in Z.
  match type of Z with exp ?a * cos ?b * 1 - _ = exp ?c * cos ?d * 1 - _ =>
    replace a with 0 in Z by ring; replace b with (- PI) in Z by field; replace c with 0 in Z by ring; replace d with (- (PI / 2)) in Z by field end.
  rewrite exp_0, !cos_neg, cos_PI, cos_PI2 in Z. lra.
Qed.
Print Assumptions C72_expand_e_distance_refuted.

(** ** C44 *)
Lemma sum_all_div sh (f : field CC) (n : cpx) : sum_all sh (fun c idx => cdiv (f c idx) n) = cdiv (sum_all sh f) n.
Proof.
  assert (D : forall x y : cpx, cdiv x y = cmul (cinv y) x).
  { intros x y. unfold cdiv. apply cpx_ext; cbn; ring. }
  unfold sum_all. rewrite D. rewrite <- (sumN_mul_l CC). apply (sumN_ext CC). intros c _.
  refine (eq_trans _ (gsum_mul_l CC sh (cinv n) (f c))). apply (gsum_ext (K := CC)). intros idx _. apply D.
Qed.

Lemma cre_sumN n (f : nat -> cpx) : cre (sumN (K := CC) n f) = sumN (K := RF) n (fun i => cre (f i)).
Proof. induction n as [|n IH]; [reflexivity|]. cbn [sumN]. rewrite <- IH. reflexivity. Qed.
Lemma cre_gsum sh (f : list nat -> cpx) : cre (gsum (K := CC) sh f) = gsum (K := RF) sh (fun i => cre (f i)).
Proof. rewrite (gsum_flat CC), (gsum_flat RF). apply cre_sumN. Qed.

Theorem C44_overlap_is_one :
  forall sh dxes axis pol sl (E : field CC) k o,
    compute_overlap_e sh dxes axis pol sl E k = Some o ->
    sumN (K := CC) 3 (fun c => gsum (K := CC) sh (fun idx => cmul (o c idx) (cconj (expand_e sh dxes axis pol sl E k c idx)))) = c1.
Proof.
  intros sh dxes axis pol sl E k o H. unfold compute_overlap_e in H. cbv zeta in H.
  set (F := expand_e sh dxes axis pol sl E k) in *.
  destruct (cpx_dec _ c0) as [|Hn]; [discriminate|]. injection H as <-.
  set (n := sum_all sh _) in *.
  transitivity (cdiv n n).
  - unfold n at 2. rewrite <- sum_all_div. unfold sum_all. apply (sumN_ext CC). intros c _. apply (gsum_ext (K := CC)). intros idx _.
    fold n. destruct (selected _ idx); unfold cdiv; apply cpx_ext; cbn; ring.
  - clearbody n. unfold cdiv. pose proof (cnrm_nz n Hn) as N. unfold cnrm in N. apply cpx_ext; cbn; unfold cnrm; field; exact N.
Qed.
Print Assumptions C44_overlap_is_one.

(** The two-cell-thick window: the two cells before the slice (polarity 1), or
    the slice and the next cell (polarity -1). *)
Definition overlap_window (axis : nat) (pol : Z) (sl : slices) (idx : list nat) : Prop :=
  in_window axis sl idx /\
  if (0 <? pol)%Z then (start sl axis <= coord idx axis + 2 /\ coord idx axis < start sl axis)%nat
  else (start sl axis <= coord idx axis /\ coord idx axis < start sl axis + 2)%nat.

Lemma overlap_selected sh axis pol sl idx : (axis < 3)%nat -> inb sh idx -> length sh = 3%nat -> psign pol -> valid_slices sh axis sl ->
  (pol = (-1)%Z \/ (2 <= start sl axis)%nat) ->
  (selected (overlap_slices sh axis pol sl) idx = true <-> overlap_window axis pol sl idx).
Proof.
  intros Hax Hi HL Hp HV He. rewrite (selected_iff sh axis sl HL Hax). unfold overlap_window, in_window, overlap_slices, start at 1, stop at 1.
  pose proof (inb_coord sh idx axis Hi ltac:(lia)) as Ci. destruct (proj1 HV axis Hax) as [V1 V2].
  assert (A : (if (0 <? pol)%Z then (start sl axis <= coord idx axis + 2 /\ coord idx axis < start sl axis)%nat
     else (start sl axis <= coord idx axis /\ coord idx axis < start sl axis + 2)%nat) <->
     (py_bound (dim sh axis) (Z.min (Z.of_nat (start sl axis)) (Z.of_nat (start sl axis) - 2 * pol)) <= coord idx axis /\
      coord idx axis < py_bound (dim sh axis) (Z.max (Z.of_nat (start sl axis)) (Z.of_nat (start sl axis) - 2 * pol)))%nat).
  { unfold py_bound. set (s := start sl axis) in *. set (n := dim sh axis) in *. set (m := coord idx axis) in *. clearbody s n m.
    destruct Hp as [-> | ->].
    - change (0 <? 1)%Z with true. cbv iota. destruct He as [He|He]; [discriminate|].
      destruct (Z.ltb_spec (Z.min (Z.of_nat s) (Z.of_nat s - 2 * 1)) 0); [lia|]. destruct (Z.ltb_spec (Z.max (Z.of_nat s) (Z.of_nat s - 2 * 1)) 0); lia.
    - change (0 <? -1)%Z with false. cbv iota.
      destruct (Z.ltb_spec (Z.min (Z.of_nat s) (Z.of_nat s - 2 * -1)) 0); [lia|]. destruct (Z.ltb_spec (Z.max (Z.of_nat s) (Z.of_nat s - 2 * -1)) 0); lia. }
  rewrite A. split.
  - intro H. split.
    + intros a Ha Hn. specialize (H a Ha). rewrite (proj2 (Nat.eqb_neq _ _) Hn) in H. exact H.
    + specialize (H axis Hax). rewrite Nat.eqb_refl in H. exact H.
  - intros [H1 H2] a Ha. destruct (Nat.eqb_spec a axis) as [->|Hn]; [exact H2|now apply H1].
Qed.

Theorem C44_zero_outside_window :
  forall sh dxes axis pol sl (E : field CC) k o c idx,
    length sh = 3%nat -> (axis < 3)%nat -> valid_slices sh axis sl -> psign pol -> (pol = (-1)%Z \/ (2 <= start sl axis)%nat) ->
    inb sh idx -> compute_overlap_e sh dxes axis pol sl E k = Some o ->
    ~ overlap_window axis pol sl idx -> o c idx = c0.
Proof.
  intros sh dxes axis pol sl E k o c idx HL Hax HV Hp He Hi H Hw. unfold compute_overlap_e in H. cbv zeta in H.
  destruct (cpx_dec _ c0) as [|Hn]; [discriminate|]. injection H as <-.
  destruct (selected (overlap_slices sh axis pol sl) idx) eqn:S.
  - exfalso. apply Hw. now apply (overlap_selected sh).
  - unfold cdiv. apply cpx_ext; cbn; ring.
Qed.
Print Assumptions C44_zero_outside_window.

(** A result exists as soon as the mode has one non-zero value on its slice
    and the window is inside the grid. *)
Theorem C44_defined :
  forall sh dxes axis pol sl (E : field CC) k c idx,
    length sh = 3%nat -> (axis < 3)%nat -> valid_slices sh axis sl -> psign pol -> (pol = (-1)%Z \/ (2 <= start sl axis)%nat) ->
    (c < 3)%nat -> inb sh idx -> in_window axis sl idx -> coord idx axis = start sl axis -> E c idx <> c0 ->
    exists o, compute_overlap_e sh dxes axis pol sl E k = Some o.
Proof.
  intros sh dxes axis pol sl E k c idx HL Hax HV Hp He Hc Hi W Hs HE.
  set (m := (if (0 <? pol)%Z then start sl axis - 1 else start sl axis)%nat).
  destruct (proj1 HV axis Hax) as [V1 V2].
  assert (Hm : (m < dim sh axis)%nat) by (unfold m; destruct (0 <? pol)%Z; lia).
  set (j := upd axis m idx).
  assert (Hj : inb sh j) by now apply inb_upd.
  assert (Cj : coord j axis = m) by (unfold j; apply coord_upd_same; rewrite (inb_length _ _ Hi); lia).
  assert (Wj : in_window axis sl j).
  { intros a Ha Hn. unfold j. rewrite coord_upd_other by congruence. now apply W. }
  assert (Sj : selected (overlap_slices sh axis pol sl) j = true).
  { apply (overlap_selected sh); try assumption. split; [exact Wj|]. rewrite Cj. unfold m.
    destruct Hp as [-> | ->]; cbv iota.
    - change (0 <? 1)%Z with true. cbv iota. destruct He as [He|He]; [discriminate|lia].
    - change (0 <? -1)%Z with false. cbv iota. lia. }
  assert (Fj : expand_e sh dxes axis pol sl E k c j <> c0).
  { rewrite (expand_win sh dxes axis pol sl E k c j Hax HL HV Hj) by (apply (win_iff sh axis sl HL Hax HV); exact Wj).
    unfold j. rewrite upd_upd_same, <- Hs, upd_coord. intro Z.
    revert Z. unfold phase_at. exact (fmul_nz CC _ _ (cexp_nz _) HE). }
  unfold compute_overlap_e. cbv zeta. destruct (cpx_dec _ c0) as [Z|]; [exfalso|now eexists].
  apply (f_equal cre) in Z. unfold sum_all in Z. rewrite cre_sumN in Z.
  rewrite (sumN_ext RF 3 _ (fun c => gsum (K := RF) sh (fun i => cnrm (if selected (overlap_slices sh axis pol sl) i then expand_e sh dxes axis pol sl E k c i else c0)))) in Z.
  2:{ intros c' _. rewrite cre_gsum. apply (gsum_ext (K := RF)). intros i _. unfold cnrm. cbn. ring. }
  assert (NN : forall x : cpx, 0 <= cnrm x) by (intro x; unfold cnrm; pose proof (Rle_0_sqr (cre x)); pose proof (Rle_0_sqr (cim x)); unfold Rsqr in *; lra).
  assert (T : forall c', 0 <= gsum (K := RF) sh (fun i => cnrm (if selected (overlap_slices sh axis pol sl) i then expand_e sh dxes axis pol sl E k c' i else c0)))
    by (intro c'; apply gsum_nonneg; intros; apply NN).
  assert (P : 0 < gsum (K := RF) sh (fun i => cnrm (if selected (overlap_slices sh axis pol sl) i then expand_e sh dxes axis pol sl E k c i else c0))).
  { pose proof (gsum_ge_term sh (fun i => cnrm (if selected (overlap_slices sh axis pol sl) i then expand_e sh dxes axis pol sl E k c i else c0)) j Hj (fun i _ => NN _)) as G.
    cbv beta in G. rewrite Sj in G.
    pose proof (cnrm_nz _ Fj) as N. specialize (NN (expand_e sh dxes axis pol sl E k c j)). lra. }
  cbn [sumN] in Z. change (@f0 RF) with 0 in Z. change (@fadd RF) with Rplus in Z.
  pose proof (T 0%nat). pose proof (T 1%nat). pose proof (T 2%nat). change (cre c0) with 0 in Z.
  destruct c as [|[|[|]]]; [| | |lia]; lra.
Qed.
Print Assumptions C44_defined.

(** ** C73: forward modes near the low edge *)
Theorem C73_overlap_near_low_edge :
  forall sh dxes axis sl (E : field CC) k,
    length sh = 3%nat -> (axis < 3)%nat -> valid_slices sh axis sl -> (start sl axis < 2)%nat ->
    compute_overlap_e sh dxes axis 1 sl E k = None.
Proof.
  intros sh dxes axis sl E k HL Hax HV Hs. unfold compute_overlap_e. cbv zeta.
  destruct (cpx_dec _ c0) as [|N]; [reflexivity|exfalso]. apply N. unfold sum_all.
  apply (sumN_zero CC). intros c _. apply (gsum_zero CC). intros idx Hi.
  assert (S : selected (overlap_slices sh axis 1 sl) idx = false).
  { destruct (selected _ idx) eqn:S; [exfalso|reflexivity]. rewrite (selected_iff sh axis sl HL Hax) in S. specialize (S axis Hax).
    unfold overlap_slices, start at 1, stop at 1 in S. rewrite Nat.eqb_refl in S. cbn [fst snd] in S. unfold py_bound in S.
    destruct (proj1 HV axis Hax) as [V1 V2]. pose proof (inb_coord sh idx axis Hi ltac:(lia)) as Ci.
    set (s := start sl axis) in *. set (n := dim sh axis) in *. set (m := coord idx axis) in *. clearbody s n m.
    destruct (Z.ltb_spec (Z.min (Z.of_nat s) (Z.of_nat s - 2 * 1)) 0); [|lia]. destruct (Z.ltb_spec (Z.max (Z.of_nat s) (Z.of_nat s - 2 * 1)) 0); lia. }
  rewrite S. apply cpx_ext; cbn; ring.
Qed.
Print Assumptions C73_overlap_near_low_edge.

Theorem C73_overlap_defined_everywhere_refuted :
  exists sh dxes axis sl (E : field CC) k,
    length sh = 3%nat /\ (axis < 3)%nat /\ valid_slices sh axis sl /\ (0 < start sl axis)%nat /\
    (forall c idx, (c < 3)%nat -> inb sh idx -> E c idx <> c0) /\
    compute_overlap_e sh dxes axis 1 sl E k = None.
Proof.
  exists m3_sh, m3_d, 2%nat, m3_sl, (fun _ _ => c1), c1. destruct m3_waveguide as [HL Hax HV _ _ _ _ _ _].
  split; [reflexivity|]. split; [lia|]. split; [exact HV|]. split; [cbn; lia|]. split.
  - intros c idx _ _ Z. apply (f_equal cre) in Z. cbn in Z. lra.
  - apply C73_overlap_near_low_edge; try assumption. cbn. lia.
Qed.
Print Assumptions C73_overlap_defined_everywhere_refuted.

Example C44_example : exists o, compute_overlap_e m3_sh m3_d 2 (-1) m3_sl (fun _ _ => c1) c1 = Some o.
Proof.
  destruct m3_waveguide as [HL Hax HV _ _ _ _ _ _].
  apply (C44_defined m3_sh m3_d 2 (-1) m3_sl (fun _ _ => c1) c1 0 [0; 0; 1]%nat HL Hax HV (or_intror eq_refl)).
  - now left.
  - lia.
  - repeat constructor.
  - intros [|[|[|a]]] Ha Hn; cbn; lia.
  - reflexivity.
  - intro Z. apply (f_equal cre) in Z. cbn in Z. lra.
Qed.

(** ** C74: compute_source *)
(** The field ahead of the source plane only: from the slice on for positive
    polarity, up to and including it for negative polarity. *)
Definition one_sided (axis : nat) (pol : Z) (sl : slices) (F : field CC) : field CC := fun c idx =>
  if (if (0 <? pol)%Z then (start sl axis <=? coord idx axis)%nat else (coord idx axis <? stop sl axis)%nat) then F c idx else c0.

Definition ahead (axis : nat) (pol : Z) (sl : slices) (idx : list nat) : bool :=
  if (0 <? pol)%Z then (start sl axis <=? coord idx axis)%nat else (coord idx axis <? stop sl axis)%nat.

Lemma mask_ahead sh axis pol sl c idx : inb sh idx -> (axis < length sh)%nat ->
  source_mask sh axis pol sl c idx = if ahead axis pol sl idx then c1 else c0.
Proof.
  intros Hi Ha. pose proof (inb_coord sh idx axis Hi Ha) as C. unfold source_mask, ahead. destruct (0 <? pol)%Z; cbn [fst snd].
  - rewrite (proj2 (Nat.ltb_lt _ _) C), andb_true_r. reflexivity.
  - change (0 <=? coord idx axis)%nat with true. reflexivity.
Qed.
Lemma ahead_coord axis pol sl i j : coord i axis = coord j axis -> ahead axis pol sl i = ahead axis pol sl j.
Proof. unfold ahead. now intros ->. Qed.

Lemma inb_neighbour sh a d idx : inb sh idx -> inb sh (neighbour sh false a d idx).
Proof.
  intro Hi. unfold neighbour. destruct (andb _ _) eqn:B; [|exact Hi]. apply andb_true_iff in B. rewrite Z.leb_le, Z.ltb_lt in B.
  apply inb_upd; [exact Hi|lia].
Qed.
Lemma mask_edge sh axis pol sl c idx : length sh = 3%nat -> (axis < 3)%nat -> inb sh idx ->
  (on_edge (K := CC) sh false (source_mask sh axis pol sl) c idx <->
   exists d, (d = 1 \/ d = -1)%Z /\ ahead axis pol sl (neighbour sh false axis d idx) <> ahead axis pol sl idx).
Proof.
  intros HL Ha Hi.
  assert (N : c1 <> c0) by (intro Z; apply (f_equal cre) in Z; cbn in Z; lra).
  split.
  - intros (a & d & A1 & D & _ & Q). rewrite !mask_ahead in Q by (try lia; try assumption; now apply inb_neighbour).
    destruct (Nat.eq_dec a axis) as [->|Hne]; [exists d; split; [exact D|]; intro E; now rewrite E in Q|].
    exfalso. apply Q. rewrite (ahead_coord axis pol sl (neighbour sh false a d idx) idx); [reflexivity|].
    unfold neighbour. destruct (andb _ _); [|reflexivity]. now rewrite coord_upd_other.
  - intros (d & D & Q). exists axis, d. split; [exact Ha|]. split; [exact D|]. split.
    + intro D1. apply Q. f_equal. unfold neighbour. pose proof (inb_coord sh idx axis Hi ltac:(lia)) as C.
      destruct (andb _ _) eqn:B; [|reflexivity]. apply andb_true_iff in B. rewrite Z.leb_le, Z.ltb_lt in B. lia.
    + rewrite !mask_ahead by (try lia; try assumption; now apply inb_neighbour). intro E. apply Q.
      destruct (ahead axis pol sl (neighbour _ _ _ _ _)), (ahead axis pol sl idx); try reflexivity; [now apply N in E|now apply eq_sym, N in E].
Qed.

Theorem C74_source_drives_one_sided_mode :
  forall sh omega dxes axis pol sl (E : field CC) k (eps : field CC) mu,
    length sh = 3%nat -> (0 < prodl sh)%nat -> (axis < 3)%nat -> omega <> c0 ->
    let F := expand_e sh dxes axis pol sl E k in
    exists J, compute_source sh omega dxes axis pol sl E k eps mu = Ok J /\
      (forall c idx, (c < 3)%nat -> inb sh idx -> (0 < coord idx axis)%nat -> (coord idx axis + 1 < dim sh axis)%nat ->
         residual sh omega dxes eps mu F c idx = c0 ->
         residual sh omega dxes eps mu (one_sided axis pol sl F) c idx = cmul (cmul (copp ci) omega) (J c idx)) /\
      (forall c idx, (c < 3)%nat -> inb sh idx -> J c idx <> c0 ->
         if (0 <? pol)%Z then coord idx axis = start sl axis \/ (coord idx axis + 1)%nat = start sl axis
         else (coord idx axis + 1)%nat = stop sl axis \/ coord idx axis = stop sl axis).
Proof.
  intros sh omega dxes axis pol sl E k eps mu HL HN Hax Hom F.
  destruct (C30_boundary_source_rows CC sh (source_mask sh axis pol sl) omega dxes (vec (K := CC) sh eps) (vec_opt (K := CC) sh mu) false
    (vec (K := CC) sh F) HL HN) as (B & HB & RB). cbv zeta in RB.
  exists (unvec (K := CC) sh (mv (K := CC) (3 * prodl sh) B (vec (K := CC) sh F))).
  split; [unfold compute_source; rewrite HB; reflexivity|]. split.
  - intros c idx Hc Hi H1 H2 HR. destruct (RB c idx Hc Hi) as [R1 R2]. rewrite residual_wave in HR by assumption.
    assert (OS : residual sh omega dxes eps mu (one_sided axis pol sl F) c idx
      = wave_e (K := CC) sh omega (fst dxes) (snd dxes) eps mu (fun c' i' => @fmul CC (source_mask sh axis pol sl c' i') (F c' i')) c idx).
    { rewrite residual_wave by assumption. apply (wave_e_ext_in CC); try assumption. intros c' i _ Hi'.
      rewrite mask_ahead by (try lia; assumption). unfold one_sided. fold (ahead axis pol sl i).
      destruct (ahead axis pol sl i); apply cpx_ext; cbn; ring. }
    rewrite OS.
    assert (Dec : {ahead axis pol sl (neighbour sh false axis 1 idx) <> ahead axis pol sl idx \/ ahead axis pol sl (neighbour sh false axis (-1) idx) <> ahead axis pol sl idx} +
                  {ahead axis pol sl (neighbour sh false axis 1 idx) = ahead axis pol sl idx /\ ahead axis pol sl (neighbour sh false axis (-1) idx) = ahead axis pol sl idx}).
    { destruct (bool_dec (ahead axis pol sl (neighbour sh false axis 1 idx)) (ahead axis pol sl idx)),
        (bool_dec (ahead axis pol sl (neighbour sh false axis (-1) idx)) (ahead axis pol sl idx)); tauto. }
    destruct Dec as [De|[D1 D2]].
    + rewrite R1.
      2:{ apply mask_edge; try assumption. destruct De as [De|De]; [exists 1%Z|exists (-1)%Z]; (split; [lia|exact De]). }
      pose proof (C29_tfsf_field CC sh (source_mask sh axis pol sl) omega dxes eps mu F c idx HL Hc Hi) as T.
      rewrite T, HR. set (w := wave_e _ _ _ _ _ _ _ _ _). set (s := source_mask _ _ _ _ _ _). clearbody w s.
      pose proof (cnrm_nz omega Hom) as Hn. unfold cnrm in Hn.
      apply cpx_ext; cbn; unfold cnrm; cbn; field; nra.
    + rewrite R2.
      2:{ intro X. apply mask_edge in X; try assumption. destruct X as (d & [-> | ->] & X); contradiction. }
      rewrite (wave_e_const_mask CC sh omega (fst dxes) (snd dxes) eps mu (source_mask sh axis pol sl) F c idx HL Hi Hc).
      * rewrite HR. apply cpx_ext; cbn; ring.
      * intros c' i' Hc' St.
        assert (N1 : neighbour sh false axis 1 idx = upd axis (coord idx axis + 1) idx).
        { unfold neighbour. rewrite (proj2 (andb_true_iff _ _)); [f_equal; lia|]. rewrite Z.leb_le, Z.ltb_lt. lia. }
        assert (N2 : neighbour sh false axis (-1) idx = upd axis (coord idx axis - 1) idx).
        { unfold neighbour. rewrite (proj2 (andb_true_iff _ _)); [f_equal; lia|]. rewrite Z.leb_le, Z.ltb_lt. lia. }
        assert (Hi3 : (axis < length idx)%nat) by (rewrite (inb_length _ _ Hi); lia).
        assert (AH : forall i, (coord i axis = coord idx axis \/ coord i axis = coord idx axis + 1 \/ coord i axis = coord idx axis - 1)%nat -> ahead axis pol sl i = ahead axis pol sl idx).
        { intros i [C|[C|C]].
          - now apply ahead_coord.
          - rewrite <- D1, N1. apply ahead_coord. now rewrite coord_upd_same.
          - rewrite <- D2, N2. apply ahead_coord. now rewrite coord_upd_same. }
        assert (CP : forall a, (a < 3)%nat -> (coord (shift_ix sh a 1 idx) axis = coord idx axis \/ coord (shift_ix sh a 1 idx) axis = coord idx axis + 1)%nat).
        { intros a Ha. destruct (Nat.eq_dec a axis) as [->|Hne]; [|left; now rewrite coord_shift_other].
          right. rewrite coord_shift_same by (try lia; assumption). rewrite cyc_succ by lia. destruct (Nat.eqb_spec (S (coord idx axis)) (dim sh axis)); lia. }
        assert (CM : forall a, (a < 3)%nat -> (coord (shift_ix sh a (-1) idx) axis = coord idx axis \/ coord (shift_ix sh a (-1) idx) axis = coord idx axis - 1)%nat).
        { intros a Ha. destruct (Nat.eq_dec a axis) as [->|Hne]; [|left; now rewrite coord_shift_other].
          right. rewrite coord_shift_same by (try lia; assumption). rewrite cyc_pred by lia. destruct (Nat.eqb_spec (coord idx axis) 0); lia. }
        assert (Hin : inb sh i' /\ (coord i' axis = coord idx axis \/ coord i' axis = coord idx axis + 1 \/ coord i' axis = coord idx axis - 1)%nat).
        { destruct St as [->|(a & b & Ha & Hb & [->|[->| ->]])].
          - split; [exact Hi|now left].
          - split; [apply inb_shift; [exact Hi|lia]|]. destruct (CP a Ha); lia.
          - split; [apply inb_shift; [exact Hi|lia]|]. destruct (CM b Hb); lia.
          - assert (Hib : inb sh (shift_ix sh b (-1) idx)) by (apply inb_shift; [exact Hi|lia]).
            split; [apply inb_shift; [exact Hib|lia]|].
            destruct (Nat.eq_dec a axis) as [->|Hne]; [|rewrite coord_shift_other by exact Hne; destruct (CM b Hb); lia].
            rewrite coord_shift_same by (try lia; assumption). rewrite cyc_succ by (destruct (CM b Hb); lia).
            destruct (Nat.eqb_spec (S (coord (shift_ix sh b (-1) idx) axis)) (dim sh axis)); destruct (CM b Hb); lia. }
        destruct Hin as [Hi' Ci]. rewrite !mask_ahead by (try lia; assumption). now rewrite (AH i' Ci).
  - intros c idx Hc Hi HJ. destruct (RB c idx Hc Hi) as [_ R2].
    assert (X : ~ ~ on_edge (K := CC) sh false (source_mask sh axis pol sl) c idx) by (intro X; apply HJ; now apply R2).
    pose proof (inb_coord sh idx axis Hi ltac:(lia)) as Ci. assert (Hi3 : (axis < length idx)%nat) by (rewrite (inb_length _ _ Hi); lia).
    assert (G : forall d, (d = 1 \/ d = -1)%Z -> ahead axis pol sl (neighbour sh false axis d idx) <> ahead axis pol sl idx ->
       if (0 <? pol)%Z then coord idx axis = start sl axis \/ (coord idx axis + 1)%nat = start sl axis
         else (coord idx axis + 1)%nat = stop sl axis \/ coord idx axis = stop sl axis).
    { intros d Hd Hne. unfold neighbour in Hne. destruct (andb _ _) eqn:Bd; [|congruence]. apply andb_true_iff in Bd. rewrite Z.leb_le, Z.ltb_lt in Bd.
      unfold ahead in Hne. rewrite coord_upd_same in Hne by exact Hi3. destruct (0 <? pol)%Z.
      - destruct (Nat.leb_spec (start sl axis) (Z.to_nat (Z.of_nat (coord idx axis) + d))), (Nat.leb_spec (start sl axis) (coord idx axis)); try congruence; lia.
      - destruct (Nat.ltb_spec (Z.to_nat (Z.of_nat (coord idx axis) + d)) (stop sl axis)), (Nat.ltb_spec (coord idx axis) (stop sl axis)); try congruence; lia. }
    assert (Dec : (if (0 <? pol)%Z then coord idx axis = start sl axis \/ (coord idx axis + 1)%nat = start sl axis
         else (coord idx axis + 1)%nat = stop sl axis \/ coord idx axis = stop sl axis) \/
       ~ (if (0 <? pol)%Z then coord idx axis = start sl axis \/ (coord idx axis + 1)%nat = start sl axis
         else (coord idx axis + 1)%nat = stop sl axis \/ coord idx axis = stop sl axis)) by (destruct (0 <? pol)%Z; lia).
    destruct Dec as [D|D]; [exact D|exfalso]. apply X. intro Oe. apply mask_edge in Oe; try assumption.
    destruct Oe as (d & Hd & Hne). apply D. exact (G d Hd Hne).
Qed.
Print Assumptions C74_source_drives_one_sided_mode.

(** Together with C42: the current launches the forward mode and nothing else. *)
Theorem C74_forward_source :
  forall sh omega dxes axis sl dx eps mu solver k k2 H E,
    waveguide_along sh axis sl dxes dx eps mu -> omega <> c0 ->
    solver_ok solver (problem_2d sh omega dxes axis sl eps mu) ->
    solve_mode_3d sh omega dxes axis 1 sl solver eps mu = Some (k, k2, H, E) ->
    exists J, compute_source sh omega dxes axis 1 sl E k eps mu = Ok J /\
      forall c idx, (c < 3)%nat -> stencil_inside sh axis sl idx ->
        residual sh omega dxes eps mu (one_sided axis 1 sl (expand_e sh dxes axis 1 sl E k)) c idx
        = cmul (cmul (copp ci) omega) (J c idx).
Proof.
  intros sh omega dxes axis sl dx eps mu solver k k2 H E W Hom Ok R.
  pose proof (C42_forward_mode sh omega dxes axis sl dx eps mu solver k k2 H E W Hom Ok R) as M.
  destruct W as [HL Hax HV _ _ _ _ _ _].
  assert (HN : (0 < prodl sh)%nat).
  { apply (prodl_pos_inb sh [start sl 0; start sl 1; start sl 2]%nat). apply inb_iff. split; [now rewrite HL|].
    intros a Ha. rewrite HL in Ha. destruct (proj1 HV a Ha). destruct a as [|[|[|]]]; [| | |lia]; cbn; lia. }
  destruct (C74_source_drives_one_sided_mode sh omega dxes axis 1 sl E k eps mu HL HN Hax Hom) as (J & HJ & D & _).
  exists J. split; [exact HJ|]. intros c idx Hc Hs. destruct Hs as (Hi & H1 & H2 & Hs'). 
  apply D; try assumption. apply (proj1 (M c idx Hc (Logic.conj Hi (Logic.conj H1 (Logic.conj H2 Hs'))))).
Qed.
Print Assumptions C74_forward_source.

Example C74_example : exists k H E, solve_mode_3d m3_sh m3_om m3_d 2 1 m3_sl m3_solver m3_eps None = Some (k, m3_k2, H, E).
Proof. exact (m3_solved 1). Qed.
