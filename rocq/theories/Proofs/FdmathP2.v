(** More lemmas about the fdmath model: group laws of shifts, mirrored shifts,
    averages, cross products, adjointness of the curls. *)
From Coq Require Import List Arith ZArith Lia Field Bool.
From Verif.Lib Require Import Num Sums Idx Mat.
From Verif.Model Require Import Fdmath.
From Verif.Spec Require Import Yee.
From Verif.Proofs Require Import FdmathP.
Import ListNotations.
Local Open Scope nat_scope.

Lemma coord_unravel_0 sh k : coord (unravel sh 0) k = 0.
Proof.
  unfold coord. revert k. induction sh as [|n ns IH]; intros [|k]; cbn [unravel nth]; try reflexivity.
  - destruct (prodl ns) as [|m]; [reflexivity|]. now apply Nat.div_small; lia.
  - replace (0 mod prodl ns) with 0; [apply IH|].
    destruct (prodl ns) as [|m]; [reflexivity|]. symmetry. now apply Nat.mod_small; lia.
Qed.

Section P.
  Variable K : Fld.
  Add Field Kfield : (fth K).
  Local Open Scope fld_scope.
  Implicit Types x : vect K.
  Implicit Types f g : arr K.
  Implicit Types F G : field K.

  (** ** shift_circ *)
  Lemma shift_circ_roll sh a d f p : (a < length sh)%nat -> (p < prodl sh)%nat ->
    mv (prodl sh) (shift_circ_mat a sh d) (flat sh f) p = flat sh (roll sh (- d) a f) p.
  Proof.
    intros Ha Hp. rewrite mv_shift_circ by assumption.
    unfold flat, roll, sflat. rewrite unravel_ravel by (apply inb_shift; [now apply inb_unravel|exact Ha]).
    now rewrite Z.opp_involutive.
  Qed.

  Lemma shift_circ_comp sh a d e : (a < length sh)%nat ->
    meq (prodl sh) (prodl sh) (mm (prodl sh) (shift_circ_mat a sh d) (shift_circ_mat a sh e))
        (shift_circ_mat a sh (d + e) : mat K).
  Proof.
    intro Ha. apply meq_of_mv. intros x i Hi. rewrite mv_mm.
    rewrite !mv_shift_circ by (try assumption; now apply sflat_lt).
    rewrite sflat_sflat by assumption. f_equal. f_equal. lia.
  Qed.

  Lemma shift_circ_id sh a : (a < length sh)%nat ->
    meq (prodl sh) (prodl sh) (shift_circ_mat a sh 0) (mid : mat K).
  Proof.
    intro Ha. apply meq_of_mv. intros x i Hi.
    rewrite mv_shift_circ, mv_mid by assumption. now rewrite sflat_0.
  Qed.

  Lemma sflat_period sh a d k p : (a < length sh)%nat -> (p < prodl sh)%nat ->
    sflat sh a (d + k * Z.of_nat (dim sh a)) p = sflat sh a d p.
  Proof.
    intros Ha Hp. unfold sflat, shift_ix. rewrite cyc_period; [reflexivity|].
    apply (inb_dim_pos sh (unravel sh p)); [now apply inb_unravel|exact Ha].
  Qed.

  Lemma shift_circ_period sh a d k : (a < length sh)%nat ->
    meq (prodl sh) (prodl sh) (shift_circ_mat a sh (d + k * Z.of_nat (dim sh a)))
        (shift_circ_mat a sh d : mat K).
  Proof.
    intro Ha. apply meq_of_mv. intros x i Hi.
    rewrite !mv_shift_circ by assumption. now rewrite sflat_period.
  Qed.

  Lemma shift_circ_tr sh a d : (a < length sh)%nat ->
    meq (prodl sh) (prodl sh) (mtr (shift_circ_mat a sh d)) (shift_circ_mat a sh (- d) : mat K).
  Proof.
    intros Ha i j Hi Hj. unfold mtr. rewrite !shift_circ_entry by assumption. f_equal.
    destruct (Nat.eqb_spec (sflat sh a d j) i) as [E|E];
      destruct (Nat.eqb_spec (sflat sh a (- d) i) j) as [E'|E']; try reflexivity; exfalso.
    - apply E'. rewrite <- E, sflat_sflat by assumption.
      replace (- d + d)%Z with 0%Z by lia. now apply sflat_0.
    - apply E. rewrite <- E', sflat_sflat by assumption.
      replace (d + - d)%Z with 0%Z by lia. now apply sflat_0.
  Qed.

  Lemma shift_circ_raises axis sh d :
    shift_circ (K := K) axis sh d = Raise <->
    ~ ((length sh = 2 \/ length sh = 3)%nat /\ (0 <= axis < Z.of_nat (length sh))%Z).
  Proof.
    unfold shift_circ, shape_ok, axis_ok.
    destruct (Nat.eqb_spec (length sh) 2), (Nat.eqb_spec (length sh) 3),
      (Z.leb_spec 0 axis), (Z.ltb_spec axis (Z.of_nat (length sh))); cbn;
      (split; [intro HH; try discriminate HH; intros [? ?]; lia | intro HH; try reflexivity; exfalso; apply HH; lia]).
  Qed.

  Lemma shift_circ_ok axis sh d :
    (length sh = 2 \/ length sh = 3)%nat -> (0 <= axis < Z.of_nat (length sh))%Z ->
    shift_circ (K := K) axis sh d = Ok (shift_circ_mat (Z.to_nat axis) sh d).
  Proof.
    intros H1 H2. unfold shift_circ, shape_ok, axis_ok.
    destruct (Nat.eqb_spec (length sh) 2), (Nat.eqb_spec (length sh) 3),
      (Z.leb_spec 0 axis), (Z.ltb_spec axis (Z.of_nat (length sh))); cbn; try reflexivity; lia.
  Qed.

  (** ** shift_with_mirror *)
  (** The reflected coordinate, as a specification. *)
  Lemma mirrored_range n d i : (i < n)%nat -> (- Z.of_nat n <= d < Z.of_nat n)%Z ->
    (0 <= mirrored n d i < Z.of_nat n)%Z.
  Proof.
    intros Hi Hd. unfold mirrored.
    destruct (Z.leb_spec (Z.of_nat n) (Z.of_nat i + d)) as [H|H].
    - destruct (Z.ltb_spec (2 * Z.of_nat n - (Z.of_nat i + d) - 1) 0); lia.
    - destruct (Z.ltb_spec (Z.of_nat i + d) 0); lia.
  Qed.

  Lemma mirrored_0 n i : (i < n)%nat -> mirrored n 0 i = Z.of_nat i.
  Proof.
    intro Hi. unfold mirrored.
    destruct (Z.leb_spec (Z.of_nat n) (Z.of_nat i + 0)) as [H|H]; [lia|].
    destruct (Z.ltb_spec (Z.of_nat i + 0) 0); lia.
  Qed.

  Lemma mapc_mirror sh a d idx : inb sh idx -> (a < length sh)%nat ->
    mapc (fun b i => Z.to_nat (mirrored (dim sh b) (mirror_shift a d b) i)) idx
    = upd a (Z.to_nat (mirrored (dim sh a) d (coord idx a))) idx.
  Proof.
    intros H Ha. pose proof (inb_length sh idx H) as HL.
    apply list_ext_coord.
    - unfold mapc. now rewrite length_mapc_from, length_upd.
    - intros b Hb. unfold mapc in Hb. rewrite length_mapc_from in Hb.
      rewrite coord_mapc by exact Hb. unfold mirror_shift.
      destruct (Nat.eqb_spec b a) as [->|Hne].
      + now rewrite coord_upd_same by assumption.
      + rewrite coord_upd_other by lia. rewrite mirrored_0 by (apply inb_coord; [exact H|lia]). lia.
  Qed.

  Lemma mv_shift_mirror sh a d x p : (a < length sh)%nat -> (p < prodl sh)%nat ->
    (- Z.of_nat (dim sh a) <= d < Z.of_nat (dim sh a))%Z ->
    mv (prodl sh) (shift_mirror_mat a sh d) x p
    = x (ravel sh (upd a (Z.to_nat (mirrored (dim sh a) d (coord (unravel sh p) a))) (unravel sh p))).
  Proof.
    intros Ha Hp Hd. unfold shift_mirror_mat.
    pose proof (inb_unravel sh p Hp) as Hin.
    pose proof (inb_coord sh _ a Hin Ha) as Hc.
    pose proof (mirrored_range _ d _ Hc Hd) as Hr.
    rewrite mv_mcoo_row; [|exact Hp|].
    - rewrite mapc_mirror by assumption. ring.
    - rewrite mapc_mirror by assumption. apply ravel_lt. apply inb_upd; [exact Hin|lia].
  Qed.

  (** The shifted array continues [f] by even reflection at both ends: for any
      doubly reflected extension [g] of the line of [f] through the cell. *)
  Lemma shift_mirror_ext sh a d f idx (g : Z -> K) : (a < length sh)%nat -> inb sh idx ->
    (- Z.of_nat (dim sh a) <= d < Z.of_nat (dim sh a))%Z ->
    (forall k, (k < dim sh a)%nat -> g (Z.of_nat k) = f (upd a k idx)) ->
    (forall j, g (- 1 - j)%Z = g j) -> (forall j, g (2 * Z.of_nat (dim sh a) - 1 - j)%Z = g j) ->
    mv (prodl sh) (shift_mirror_mat a sh d) (flat sh f) (ravel sh idx) = g (Z.of_nat (coord idx a) + d)%Z.
  Proof.
    intros Ha Hi Hd Hg H1 H2. rewrite mv_shift_mirror by (try assumption; now apply ravel_lt).
    rewrite unravel_ravel by exact Hi.
    pose proof (inb_coord sh _ a Hi Ha) as Hc.
    pose proof (mirrored_range _ d _ Hc Hd) as Hr.
    unfold flat. rewrite unravel_ravel by (apply inb_upd; [exact Hi|lia]).
    rewrite <- Hg by lia. rewrite Z2Nat.id by lia.
    unfold mirrored in *.
    destruct (Z.leb_spec (Z.of_nat (dim sh a)) (Z.of_nat (coord idx a) + d)) as [H|H].
    - destruct (Z.ltb_spec (2 * Z.of_nat (dim sh a) - (Z.of_nat (coord idx a) + d) - 1) 0); [lia|].
      rewrite <- (H2 (Z.of_nat (coord idx a) + d)%Z). f_equal. lia.
    - destruct (Z.ltb_spec (Z.of_nat (coord idx a) + d) 0); [|reflexivity]. apply H1.
  Qed.

  Lemma mirror_in_range_iff b a sh d idx : inb sh idx ->
    mirror_in_range b a sh d idx = true <->
    (forall k, (k < length sh)%nat ->
       (0 <= mirrored (dim sh k) (mirror_shift a d (b + k)) (coord idx k) < Z.of_nat (dim sh k))%Z).
  Proof.
    intro H. unfold inb in H. revert b. induction H as [|i n idx sh Hi H IH]; intro b; cbn [mirror_in_range length].
    - split; [intros _ k Hk; lia|reflexivity].
    - rewrite !andb_true_iff, Z.leb_le, Z.ltb_lt, IH. unfold dim, coord. split.
      + intros [[H1 H2] H3] k Hk. destruct k as [|k]; cbn [nth]; [rewrite Nat.add_0_r; lia|].
        specialize (H3 k ltac:(lia)). unfold dim, coord in H3. rewrite <- Nat.add_succ_comm. exact H3.
      + intro H0. split.
        * specialize (H0 0%nat ltac:(lia)). cbn [nth] in H0. rewrite Nat.add_0_r in H0. lia.
        * intros k Hk. specialize (H0 (S k) ltac:(lia)). cbn [nth] in H0.
          rewrite Nat.add_succ_comm. exact H0.
  Qed.

  Lemma shift_mirror_ok axis sh d :
    (length sh = 2 \/ length sh = 3)%nat -> (0 <= axis < Z.of_nat (length sh))%Z ->
    (- Z.of_nat (dim sh (Z.to_nat axis)) <= d < Z.of_nat (dim sh (Z.to_nat axis)))%Z ->
    shift_with_mirror (K := K) axis sh d = Ok (shift_mirror_mat (Z.to_nat axis) sh d).
  Proof.
    intros H1 H2 H3. unfold shift_with_mirror, shape_ok, axis_ok.
    assert (E1 : negb (Nat.eqb (length sh) 2 || Nat.eqb (length sh) 3) = false).
    { destruct (Nat.eqb_spec (length sh) 2), (Nat.eqb_spec (length sh) 3); cbn; try reflexivity; lia. }
    assert (E2 : negb ((0 <=? axis)%Z && (axis <? Z.of_nat (length sh))%Z) = false).
    { destruct (Z.leb_spec 0 axis), (Z.ltb_spec axis (Z.of_nat (length sh))); cbn; try reflexivity; lia. }
    rewrite E1, E2.
    destruct (Z.leb_spec (Z.of_nat (dim sh (Z.to_nat axis))) d); [lia|].
    match goal with |- (if ?b then _ else _) = _ => assert (Eb : b = true) end.
    { apply forallb_forall. intros p Hp. apply in_seq in Hp.
      pose proof (inb_unravel sh p ltac:(lia)) as Hin.
      apply mirror_in_range_iff; [exact Hin|]. intros k Hk. cbn [plus].
      pose proof (inb_coord sh _ k Hin Hk). unfold mirror_shift.
      destruct (Nat.eqb_spec k (Z.to_nat axis)) as [->|Hne]; [apply mirrored_range; lia|].
      rewrite mirrored_0; lia. }
    now rewrite Eb.
  Qed.

  Lemma shift_mirror_raises axis sh d : (0 < prodl sh)%nat ->
    shift_with_mirror (K := K) axis sh d = Raise <->
    ~ ((length sh = 2 \/ length sh = 3)%nat /\ (0 <= axis < Z.of_nat (length sh))%Z /\
       (- Z.of_nat (dim sh (Z.to_nat axis)) <= d < Z.of_nat (dim sh (Z.to_nat axis)))%Z).
  Proof.
    intro HN. split.
    - intros H [H1 [H2 H3]]. rewrite shift_mirror_ok in H by assumption. discriminate H.
    - intro Hn. unfold shift_with_mirror, shape_ok, axis_ok.
      destruct (Nat.eqb_spec (length sh) 2) as [L2|L2], (Nat.eqb_spec (length sh) 3) as [L3|L3]; cbn; try reflexivity;
      (destruct (Z.leb_spec 0 axis) as [A0|A0], (Z.ltb_spec axis (Z.of_nat (length sh))) as [A1|A1]; cbn; try reflexivity;
       destruct (Z.leb_spec (Z.of_nat (dim sh (Z.to_nat axis))) d) as [D|D]; try reflexivity;
       assert (Hd : (d < - Z.of_nat (dim sh (Z.to_nat axis)))%Z) by (destruct (Z.lt_ge_cases d (- Z.of_nat (dim sh (Z.to_nat axis)))); [assumption|exfalso; apply Hn; lia]);
       match goal with |- (if ?b then _ else _) = _ => destruct b eqn:Eb; [|reflexivity] end;
       exfalso; rewrite forallb_forall in Eb;
       specialize (Eb 0%nat ltac:(apply in_seq; lia));
       pose proof (inb_unravel sh 0 HN) as Hin;
       rewrite mirror_in_range_iff in Eb by exact Hin;
       pose proof (inb_coord sh _ (Z.to_nat axis) Hin ltac:(lia)) as Hc;
       specialize (Eb (Z.to_nat axis) ltac:(lia));
       unfold mirror_shift in Eb; cbn [plus] in Eb; rewrite Nat.eqb_refl in Eb;
       assert (Hz : coord (unravel sh 0) (Z.to_nat axis) = 0%nat);
       [ apply coord_unravel_0
       | rewrite Hz in *; unfold mirrored in Eb;
         destruct (Z.leb_spec (Z.of_nat (dim sh (Z.to_nat axis))) (Z.of_nat 0 + d)); [lia|];
         destruct (Z.ltb_spec (Z.of_nat 0 + d) 0); lia ]).
  Qed.

  (** ** Averages *)
  Lemma mv_avg_forward sh a x p : (a < length sh)%nat -> (p < prodl sh)%nat ->
    mv (prodl sh) (avg_forward_mat a sh) x p = (x p + x (sflat sh a 1 p)) / 2.
  Proof.
    intros Ha Hp. unfold avg_forward_mat.
    rewrite mv_mscale, mv_madd, mv_mid, mv_shift_circ by assumption. rewrite !fdiv_def. ring.
  Qed.

  Lemma avg_back_meq sh a : (a < length sh)%nat ->
    meq (prodl sh) (prodl sh) (avg_back_mat a sh)
        (mscale (1 / 2) (madd mid (shift_circ_mat a sh (-1))) : mat K).
  Proof.
    intros Ha i j Hi Hj. unfold avg_back_mat, avg_forward_mat, mtr, mscale, madd, mid.
    pose proof (shift_circ_tr sh a 1 Ha i j Hi Hj) as E. unfold mtr in E. rewrite E.
    rewrite (Nat.eqb_sym j i). reflexivity.
  Qed.

  Lemma mv_avg_back sh a x p : (a < length sh)%nat -> (p < prodl sh)%nat ->
    mv (prodl sh) (avg_back_mat a sh) x p = (x p + x (sflat sh a (-1) p)) / 2.
  Proof.
    intros Ha Hp. rewrite (mv_of_meq K _ _ _ _ x p (avg_back_meq sh a Ha) Hp).
    rewrite mv_mscale, mv_madd, mv_mid, mv_shift_circ by assumption. rewrite !fdiv_def. ring.
  Qed.

  Lemma flat_sflat sh a d f p : (a < length sh)%nat -> (p < prodl sh)%nat ->
    flat sh f (sflat sh a d p) = f (shift_ix sh a d (unravel sh p)).
  Proof.
    intros Ha Hp. unfold flat, sflat. rewrite unravel_ravel; [reflexivity|].
    apply inb_shift; [now apply inb_unravel|exact Ha].
  Qed.

  Lemma half_double (y : K) : (y + y) / 2 = y.
  Proof. field. apply f2nz. Qed.

  Lemma avg_forward_sum sh a x : (a < length sh)%nat ->
    sumN (prodl sh) (mv (prodl sh) (avg_forward_mat a sh) x) = sumN (prodl sh) x.
  Proof.
    intro Ha.
    rewrite (sumN_ext K _ _ (fun p => (x p + x (sflat sh a 1 p)) / 2)) by (intros; now apply mv_avg_forward).
    rewrite (sumN_ext K _ _ (fun p => (1 / 2) * (x p + x (sflat sh a 1 p)))) by (intros; rewrite !fdiv_def; ring).
    rewrite sumN_mul_l, sumN_add.
    rewrite (sumN_reindex K (prodl sh) x (sflat sh a 1) (sflat sh a (-1))).
    - field. apply f2nz.
    - intros; now apply sflat_lt.
    - intros; now apply sflat_lt.
    - intros i Hi. rewrite sflat_sflat by assumption. now apply sflat_0.
    - intros i Hi. rewrite sflat_sflat by assumption. now apply sflat_0.
  Qed.
  Lemma avg_back_sum sh a x : (a < length sh)%nat ->
    sumN (prodl sh) (mv (prodl sh) (avg_back_mat a sh) x) = sumN (prodl sh) x.
  Proof.
    intro Ha.
    rewrite (sumN_ext K _ _ (fun p => (x p + x (sflat sh a (-1) p)) / 2)) by (intros; now apply mv_avg_back).
    rewrite (sumN_ext K _ _ (fun p => (1 / 2) * (x p + x (sflat sh a (-1) p)))) by (intros; rewrite !fdiv_def; ring).
    rewrite sumN_mul_l, sumN_add.
    rewrite (sumN_reindex K (prodl sh) x (sflat sh a (-1)) (sflat sh a 1)).
    - field. apply f2nz.
    - intros; now apply sflat_lt.
    - intros; now apply sflat_lt.
    - intros i Hi. rewrite sflat_sflat by assumption. now apply sflat_0.
    - intros i Hi. rewrite sflat_sflat by assumption. now apply sflat_0.
  Qed.

  (** ** Cross products *)
  Lemma mv_vec_cross sh (B X : field K) c p : (c < 3)%nat -> (p < prodl sh)%nat ->
    mv (3 * prodl sh) (vec_cross_mat (prodl sh) (vec sh B)) (vec sh X) (c * prodl sh + p)%nat
    = match c with
      | 0%nat => B 1%nat (unravel sh p) * X 2%nat (unravel sh p) - B 2%nat (unravel sh p) * X 1%nat (unravel sh p)
      | 1%nat => B 2%nat (unravel sh p) * X 0%nat (unravel sh p) - B 0%nat (unravel sh p) * X 2%nat (unravel sh p)
      | _ => B 0%nat (unravel sh p) * X 1%nat (unravel sh p) - B 1%nat (unravel sh p) * X 0%nat (unravel sh p)
      end.
  Proof.
    intros Hc Hp. unfold vec_cross_mat. rewrite mv_cross by assumption.
    destruct c as [|[|[|c]]]; [| | |lia]; rewrite !mv_mdiag, !vec_at by exact Hp; reflexivity.
  Qed.

  (** ** Adjointness of the two curls with Yee volumes *)
  Lemma sbp_axis sh (we wh : widths K) a b c g f : length sh = 3%nat -> nzw sh we -> nzw sh wh ->
    (a < 3)%nat -> (b < 3)%nat -> (c < 3)%nat -> a <> b -> b <> c -> a <> c ->
    gsum sh (fun idx => vol_h we wh c idx * (g idx * deriv_forward sh (Some we) a f idx))
    = - gsum sh (fun idx => vol_e we wh b idx * (f idx * deriv_back sh (Some wh) a g idx)).
  Proof.
    intros HL He Hh Ha Hb Hc Hab Hbc Hac.
    set (W := fun idx => wh c (coord idx c) * we b (coord idx b)).
    transitivity (gsum sh (fun idx => W idx * we a (coord idx a) * (g idx * deriv_forward sh (Some we) a f idx))).
    { apply gsum_ext. intros idx _. unfold W, vol_h, vol_e, vol3.
      destruct a as [|[|[|a]]], b as [|[|[|b]]], c as [|[|[|c]]]; try lia; ring. }
    rewrite (sum_by_parts K sh a we wh W f g); [|lia| | |].
    - f_equal. apply gsum_ext. intros idx _. unfold W, vol_h, vol_e, vol3.
      destruct a as [|[|[|a]]], b as [|[|[|b]]], c as [|[|[|c]]]; try lia; ring.
    - intros idx _. unfold W. now rewrite !coord_shift_other by lia.
    - intros i Hi. apply He; lia.
    - intros i Hi. apply Hh; lia.
  Qed.

  Lemma curl_adjoint sh (we wh : widths K) (E H : field K) : length sh = 3%nat -> nzw sh we -> nzw sh wh ->
    fsum sh (fun c idx => vol_h we wh c idx * (H c idx * curl_forward sh (Some we) E c idx))
    = fsum sh (fun c idx => vol_e we wh c idx * (E c idx * curl_back sh (Some wh) H c idx)).
  Proof.
    intros HL He Hh. unfold fsum, curl_forward, curl_back, curl_with.
    assert (S1 : forall (v h p q : arr K), gsum sh (fun idx => v idx * (h idx * (p idx - q idx)))
       = gsum sh (fun idx => v idx * (h idx * p idx)) - gsum sh (fun idx => v idx * (h idx * q idx))).
    { intros. rewrite <- gsum_sub. apply gsum_ext. intros. ring. }
    rewrite !S1.
    rewrite (sbp_axis sh we wh 1 2 0), (sbp_axis sh we wh 2 1 0) by (try assumption; lia).
    rewrite (sbp_axis sh we wh 2 0 1), (sbp_axis sh we wh 0 2 1) by (try assumption; lia).
    rewrite (sbp_axis sh we wh 0 1 2), (sbp_axis sh we wh 1 0 2) by (try assumption; lia).
    ring.
  Qed.

  Lemma sbp_plain sh a (we wh : widths K) f g :
    (a < length sh)%nat -> nzw sh we -> nzw sh wh ->
    gsum sh (fun idx => we a (coord idx a) * (g idx * deriv_forward sh (Some we) a f idx))
    = - gsum sh (fun idx => wh a (coord idx a) * (f idx * deriv_back sh (Some wh) a g idx)).
  Proof.
    intros Ha He Hh.
    pose proof (sum_by_parts K sh a we wh (fun _ => 1) f g Ha (fun _ _ => eq_refl)
      (fun i => He a i Ha) (fun i => Hh a i Ha)) as E.
    rewrite (gsum_ext sh _ (fun idx => 1 * we a (coord idx a) * (g idx * deriv_forward sh (Some we) a f idx)))
      by (intros; ring).
    rewrite E. f_equal. apply gsum_ext. intros. ring.
  Qed.

  Lemma curl_parts_sum sh (dx : option (widths K)) F c idx : (c < 3)%nat ->
    fst (curl_forward_parts sh dx F c) idx + snd (curl_forward_parts sh dx F c) idx
      = curl_forward sh dx F c idx
    /\ fst (curl_back_parts sh dx F c) idx + snd (curl_back_parts sh dx F c) idx
      = curl_back sh dx F c idx.
  Proof.
    intro Hc. unfold curl_forward_parts, curl_back_parts, curl_forward, curl_back, curl_parts_with, curl_with.
    destruct c as [|[|[|c]]]; [| | |lia]; split; cbn [fst snd]; ring.
  Qed.

  Lemma avg_values sh a f idx : (a < length sh)%nat -> inb sh idx ->
    mv (prodl sh) (avg_forward_mat a sh) (flat sh f) (ravel sh idx) = (f idx + f (shift_ix sh a 1 idx)) / 2
    /\ mv (prodl sh) (avg_back_mat a sh) (flat sh f) (ravel sh idx) = (f idx + f (shift_ix sh a (-1) idx)) / 2.
  Proof.
    intros Ha Hi. pose proof (ravel_lt sh idx Hi) as Hp.
    rewrite mv_avg_forward, mv_avg_back, !flat_sflat by assumption.
    unfold flat. rewrite unravel_ravel by exact Hi. split; reflexivity.
  Qed.

  Lemma avg_laws sh a : (a < length sh)%nat ->
    (forall (k : K) p, (p < prodl sh)%nat ->
        mv (prodl sh) (avg_forward_mat a sh) (fun _ => k) p = k
        /\ mv (prodl sh) (avg_back_mat a sh) (fun _ => k) p = k)
    /\ (forall x : vect K,
          sumN (prodl sh) (mv (prodl sh) (avg_forward_mat a sh) x) = sumN (prodl sh) x
          /\ sumN (prodl sh) (mv (prodl sh) (avg_back_mat a sh) x) = sumN (prodl sh) x)
    /\ (forall i j, avg_back_mat (K := K) a sh i j = avg_forward_mat a sh j i).
  Proof.
    intro Ha. split; [|split].
    - intros k p Hp. rewrite mv_avg_forward, mv_avg_back by assumption. split; apply half_double.
    - intro x. split; [now apply avg_forward_sum|now apply avg_back_sum].
    - reflexivity.
  Qed.

  Lemma vec_cross_values sh (B X : field K) idx : inb sh idx ->
    let R := unvec sh (mv (3 * prodl sh) (vec_cross_mat (prodl sh) (vec sh B)) (vec sh X)) in
    R 0%nat idx = B 1%nat idx * X 2%nat idx - B 2%nat idx * X 1%nat idx
    /\ R 1%nat idx = B 2%nat idx * X 0%nat idx - B 0%nat idx * X 2%nat idx
    /\ R 2%nat idx = B 0%nat idx * X 1%nat idx - B 1%nat idx * X 0%nat idx.
  Proof.
    intros Hi R. pose proof (ravel_lt sh idx Hi) as Hp. unfold R, unvec.
    rewrite !mv_vec_cross by (try assumption; lia). rewrite unravel_ravel by exact Hi.
    repeat split; reflexivity.
  Qed.

  Lemma vec_cross_laws sh (B X : field K) idx : inb sh idx ->
    let CP P Q := unvec sh (mv (3 * prodl sh) (vec_cross_mat (prodl sh) (vec sh P)) (vec sh Q)) in
    (forall c, (c < 3)%nat -> CP B X c idx = - CP X B c idx)
    /\ (forall c, (c < 3)%nat -> CP B B c idx = 0)
    /\ B 0%nat idx * CP B X 0%nat idx + B 1%nat idx * CP B X 1%nat idx + B 2%nat idx * CP B X 2%nat idx = 0.
  Proof.
    intros Hi CP.
    pose proof (vec_cross_values sh B X idx Hi) as H1.
    pose proof (vec_cross_values sh X B idx Hi) as H2.
    pose proof (vec_cross_values sh B B idx Hi) as H3.
    cbv zeta in H1, H2, H3. fold (CP B X) in H1. fold (CP X B) in H2. fold (CP B B) in H3.
    destruct H1 as (A0 & A1 & A2), H2 as (B0 & B1 & B2), H3 as (C0 & C1 & C2).
    split; [|split].
    - intros [|[|[|c]]] Hc; [| | |lia]; [rewrite A0, B0|rewrite A1, B1|rewrite A2, B2]; ring.
    - intros [|[|[|c]]] Hc; [| | |lia]; [rewrite C0|rewrite C1|rewrite C2]; ring.
    - rewrite A0, A1, A2. ring.
  Qed.
End P.
