(** Courant stability: norm bound of the curl and boundedness of runs. *)
From Coq Require Import List Arith ZArith Lia Field Bool Reals Lra Psatz.
From Verif.Lib Require Import Num Sums Idx Mat RealF.
From Verif.Model Require Import Fdmath Fdtd.
From Verif.Spec Require Import Yee FdtdRun.
From Verif.Proofs Require Import FdmathP FdmathP2 FdtdP FdtdP2.
Import ListNotations.
Local Open Scope nat_scope.

Section G.
  Variable K : Fld.
  Add Field Kfield : (fth K).
  Local Open Scope fld_scope.

  Definition vol_n (wh : widths K) (idx : list nat) : K := vol3 wh wh wh idx.

  Lemma cross_parts sh (we wh : widths K) a b c p q : length sh = 3%nat -> nzw sh we -> nzw sh wh ->
    (a < 3)%nat -> (b < 3)%nat -> (c < 3)%nat -> a <> b -> b <> c -> a <> c ->
    gsum sh (fun idx => vol_h we wh c idx * (deriv_forward sh (Some we) a p idx * deriv_forward sh (Some we) b q idx))
    = gsum sh (fun idx => vol_n wh idx * (deriv_back sh (Some wh) a q idx * deriv_back sh (Some wh) b p idx)).
  Proof.
    intros HL He Hh Ha Hb Hc Hab Hbc Hac.
    set (W := fun idx => wh c (coord idx c) * we b (coord idx b)).
    set (W' := fun idx => wh c (coord idx c) * wh a (coord idx a)).
    transitivity (gsum sh (fun idx => W idx * we a (coord idx a)
       * (deriv_forward sh (Some we) b q idx * deriv_forward sh (Some we) a p idx))).
    { apply gsum_ext. intros idx _. unfold W, vol_h, vol_e, vol3.
      destruct a as [|[|[|a]]], b as [|[|[|b]]], c as [|[|[|c]]]; try lia; ring. }
    rewrite (sum_by_parts K sh a we wh W); [|lia| | |].
    - transitivity (- gsum sh (fun idx => W' idx * we b (coord idx b)
         * (p idx * deriv_forward sh (Some we) b (deriv_back sh (Some wh) a q) idx))).
      { f_equal. apply gsum_ext. intros idx _. rewrite (deriv_fb_comm K sh (Some we) (Some wh) b a) by lia.
        unfold W, W'. ring. }
      rewrite (sum_by_parts K sh b we wh W'); [|lia| | |].
      + transitivity (gsum sh (fun idx => W' idx * wh b (coord idx b)
           * (deriv_back sh (Some wh) a q idx * deriv_back sh (Some wh) b p idx))); [ring|].
        apply gsum_ext. intros idx _. unfold W', vol_n, vol3.
        destruct a as [|[|[|a]]], b as [|[|[|b]]], c as [|[|[|c]]]; try lia; ring.
      + intros idx _. unfold W'. now rewrite !coord_shift_other by lia.
      + intros i Hi. apply He; lia.
      + intros i Hi. apply Hh; lia.
    - intros idx _. unfold W. now rewrite !coord_shift_other by lia.
    - intros i Hi. apply He; lia.
    - intros i Hi. apply Hh; lia.
  Qed.

  Notation sq x := (x * x).

  (** ||curl e||^2 + ||div e||^2 = sum of all squared single derivatives *)
  Lemma curl_div_norm sh (we wh : widths K) (e : field K) : length sh = 3%nat -> nzw sh we -> nzw sh wh ->
    let Df a c := deriv_forward sh (Some we) a (e c) in
    let Db a c := deriv_back sh (Some wh) a (e c) in
    fsum sh (fun c idx => vol_h we wh c idx * sq (curl_forward sh (Some we) e c idx))
    + gsum sh (fun idx => vol_n wh idx * sq (Db 0%nat 0%nat idx + Db 1%nat 1%nat idx + Db 2%nat 2%nat idx))
    = (gsum sh (fun idx => vol_h we wh 0 idx * sq (Df 1%nat 2%nat idx)) + gsum sh (fun idx => vol_h we wh 0 idx * sq (Df 2%nat 1%nat idx)))
    + (gsum sh (fun idx => vol_h we wh 1 idx * sq (Df 2%nat 0%nat idx)) + gsum sh (fun idx => vol_h we wh 1 idx * sq (Df 0%nat 2%nat idx)))
    + (gsum sh (fun idx => vol_h we wh 2 idx * sq (Df 0%nat 1%nat idx)) + gsum sh (fun idx => vol_h we wh 2 idx * sq (Df 1%nat 0%nat idx)))
    + (gsum sh (fun idx => vol_n wh idx * sq (Db 0%nat 0%nat idx)) + gsum sh (fun idx => vol_n wh idx * sq (Db 1%nat 1%nat idx))
       + gsum sh (fun idx => vol_n wh idx * sq (Db 2%nat 2%nat idx))).
  Proof.
    intros HL He Hh Df Db.
    assert (S2 : forall (v p q : arr K), gsum sh (fun idx => v idx * sq (p idx - q idx))
       = gsum sh (fun idx => v idx * sq (p idx)) + gsum sh (fun idx => v idx * sq (q idx))
         - (1 + 1) * gsum sh (fun idx => v idx * (p idx * q idx))).
    { intros. rewrite <- gsum_mul_l, <- gsum_add, <- gsum_sub. apply gsum_ext. intros. ring. }
    assert (S3 : forall (v p q r : arr K), gsum sh (fun idx => v idx * sq (p idx + q idx + r idx))
       = gsum sh (fun idx => v idx * sq (p idx)) + gsum sh (fun idx => v idx * sq (q idx)) + gsum sh (fun idx => v idx * sq (r idx))
         + (1 + 1) * (gsum sh (fun idx => v idx * (p idx * q idx)) + gsum sh (fun idx => v idx * (p idx * r idx))
                      + gsum sh (fun idx => v idx * (q idx * r idx)))).
    { intros. rewrite <- !gsum_add, <- gsum_mul_l, <- gsum_add. apply gsum_ext. intros. ring. }
    unfold fsum, curl_forward, curl_with.
    rewrite !S2, S3. unfold Df, Db.
    rewrite (cross_parts sh we wh 1 2 0), (cross_parts sh we wh 2 0 1), (cross_parts sh we wh 0 1 2) by (assumption || lia).
    rewrite (gsum_ext sh (fun idx => vol_n wh idx * (deriv_back sh (Some wh) 1 (e 1%nat) idx * deriv_back sh (Some wh) 2 (e 2%nat) idx))
                         (fun idx => vol_n wh idx * (deriv_back sh (Some wh) 2 (e 2%nat) idx * deriv_back sh (Some wh) 1 (e 1%nat) idx)))
      by (intros; ring).
    rewrite (gsum_ext sh (fun idx => vol_n wh idx * (deriv_back sh (Some wh) 2 (e 2%nat) idx * deriv_back sh (Some wh) 0 (e 0%nat) idx))
                         (fun idx => vol_n wh idx * (deriv_back sh (Some wh) 0 (e 0%nat) idx * deriv_back sh (Some wh) 2 (e 2%nat) idx)))
      by (intros; ring).
    ring.
  Qed.
End G.

Section Rl.
  Local Open Scope R_scope.
  Notation G := (@gsum RF).

  (** One weighted difference quotient *)
  Lemma sq_diff x y : (x - y) * (x - y) <= 2 * (x * x + y * y).
  Proof. pose proof (Rle_0_sqr (x + y)) as H. unfold Rsqr in H. lra. Qed.

  Lemma inv_le_ratio d w1 w2 : 0 < d -> d <= w1 -> d <= w2 -> / w1 <= w2 * / (d * d).
  Proof.
    intros Hd H1 H2. apply Rle_trans with (/ d).
    - apply Rinv_le_contravar; lra.
    - replace (/ d) with (d * / (d * d)) by (field; lra).
      apply Rmult_le_compat_r; [|exact H2]. left. apply Rinv_0_lt_compat. nra.
  Qed.

  (** generic: sum W * t(i) * (f shifted - f)^2 where t <= bound *)
  Lemma fwd_bound sh a (we wh : widths RF) (W f : arr RF) d : (a < length sh)%nat -> 0 < d ->
    (forall i, (i < dim sh a)%nat -> d <= we a i) -> (forall i, (i < dim sh a)%nat -> d <= wh a i) ->
    (forall idx, inb sh idx -> 0 <= W idx) -> (forall z idx, inb sh idx -> W (shift_ix sh a z idx) = W idx) ->
    G sh (fun idx => W idx * we a (coord idx a) * (deriv_forward sh (Some we) a f idx * deriv_forward sh (Some we) a f idx))
    <= 4 * / (d * d) * G sh (fun idx => W idx * wh a (coord idx a) * (f idx * f idx)).
  Proof.
    intros Ha Hd He Hh HW HWs.
    set (u := fun idx => W idx * / we a (coord idx a) * (f idx * f idx)).
    set (v := fun idx => W idx * / we a (cyc (dim sh a) (-1) (coord idx a)) * (f idx * f idx)).
    apply Rle_trans with (2 * (G sh v + G sh u)).
    - replace (G sh v) with (G sh (fun idx => v (shift_ix sh a 1 idx))).
      2:{ apply (@gsum_shift RF sh a 1 v Ha). }
      change (G sh (fun idx => W idx * we a (coord idx a) * (deriv_forward sh (Some we) a f idx * deriv_forward sh (Some we) a f idx))
        <= 2 * (fadd (f := RF) (G sh (fun idx => v (shift_ix sh a 1 idx))) (G sh u))).
      rewrite <- gsum_add.
      change (2 * G sh (fun x => fadd (f := RF) (v (shift_ix sh a 1 x)) (u x)))
        with (fmul (f := RF) (2%R) (G sh (fun x => fadd (f := RF) (v (shift_ix sh a 1 x)) (u x)))).
      rewrite <- gsum_mul_l. apply gsum_le. intros idx Hi.
      assert (Hn : (0 < dim sh a)%nat) by now apply (inb_dim_pos sh idx).
      pose proof (inb_coord sh idx a Hi Ha) as Hci.
      assert (Hwi : d <= we a (coord idx a)) by now apply He.
      unfold u, v. rewrite coord_shift_same by assumption. rewrite cyc_cyc by exact Hn.
      change (-1 + 1)%Z with 0%Z. rewrite cyc_0 by exact Hci. rewrite HWs by exact Hi.
      unfold deriv_forward, roll. change (Z.opp (-1)) with 1%Z.
      cbn [fadd fmul fsub fdiv RF].
      set (x := f (shift_ix sh a 1 idx)). set (y := f idx). set (w := we a (coord idx a)) in *.
      pose proof (HW idx Hi) as HWi. pose proof (sq_diff x y) as Hsq.
      replace (W idx * w * ((x - y) / w * ((x - y) / w))) with (W idx * / w * ((x - y) * (x - y)))
        by (field; lra).
      replace (2 * (W idx * / w * (x * x) + W idx * / w * (y * y))) with (W idx * / w * (2 * (x * x + y * y))) by ring.
      apply Rmult_le_compat_l; [|exact Hsq].
      apply Rmult_le_pos; [exact HWi|]. left. apply Rinv_0_lt_compat. lra.
    - assert (B : forall g : list nat -> R, (forall idx, inb sh idx -> g idx <= wh a (coord idx a) * / (d * d)) ->
         G sh (fun idx => W idx * g idx * (f idx * f idx))
         <= / (d * d) * G sh (fun idx => W idx * wh a (coord idx a) * (f idx * f idx))).
      { intros g Hg.
        change (/ (d * d) * G sh (fun idx => W idx * wh a (coord idx a) * (f idx * f idx)))
          with (fmul (f := RF) ((/ (d * d))%R) (G sh (fun idx => W idx * wh a (coord idx a) * (f idx * f idx)))).
        rewrite <- gsum_mul_l. apply gsum_le. intros idx Hi. cbn [fmul RF].
        replace (/ (d * d) * (W idx * wh a (coord idx a) * (f idx * f idx)))
          with (W idx * (wh a (coord idx a) * / (d * d)) * (f idx * f idx)) by ring.
        pose proof (HW idx Hi). pose proof (Hg idx Hi).
        apply Rmult_le_compat_r; [nra|]. apply Rmult_le_compat_l; lra. }
      assert (Bu : G sh u <= / (d * d) * G sh (fun idx => W idx * wh a (coord idx a) * (f idx * f idx))).
      { apply (B (fun idx => / we a (coord idx a))). intros idx Hi. pose proof (inb_coord sh idx a Hi Ha).
        apply inv_le_ratio; auto. }
      assert (Bv : G sh v <= / (d * d) * G sh (fun idx => W idx * wh a (coord idx a) * (f idx * f idx))).
      { apply (B (fun idx => / we a (cyc (dim sh a) (-1) (coord idx a)))). intros idx Hi. pose proof (inb_coord sh idx a Hi Ha).
        assert ((cyc (dim sh a) (-1) (coord idx a) < dim sh a)%nat) by (apply cyc_lt; lia).
        apply inv_le_ratio; auto. }
      lra.
  Qed.

  Lemma back_bound sh a (we wh : widths RF) (W f : arr RF) d : (a < length sh)%nat -> 0 < d ->
    (forall i, (i < dim sh a)%nat -> d <= we a i) -> (forall i, (i < dim sh a)%nat -> d <= wh a i) ->
    (forall idx, inb sh idx -> 0 <= W idx) -> (forall z idx, inb sh idx -> W (shift_ix sh a z idx) = W idx) ->
    G sh (fun idx => W idx * wh a (coord idx a) * (deriv_back sh (Some wh) a f idx * deriv_back sh (Some wh) a f idx))
    <= 4 * / (d * d) * G sh (fun idx => W idx * we a (coord idx a) * (f idx * f idx)).
  Proof.
    intros Ha Hd He Hh HW HWs.
    set (u := fun idx => W idx * / wh a (coord idx a) * (f idx * f idx)).
    set (v := fun idx => W idx * / wh a (cyc (dim sh a) 1 (coord idx a)) * (f idx * f idx)).
    apply Rle_trans with (2 * (G sh v + G sh u)).
    - replace (G sh v) with (G sh (fun idx => v (shift_ix sh a (-1) idx))).
      2:{ apply (@gsum_shift RF sh a (-1) v Ha). }
      change (G sh (fun idx => W idx * wh a (coord idx a) * (deriv_back sh (Some wh) a f idx * deriv_back sh (Some wh) a f idx))
        <= 2 * (fadd (f := RF) (G sh (fun idx => v (shift_ix sh a (-1) idx))) (G sh u))).
      rewrite <- gsum_add.
      change (2 * G sh (fun x => fadd (f := RF) (v (shift_ix sh a (-1) x)) (u x)))
        with (fmul (f := RF) (2%R) (G sh (fun x => fadd (f := RF) (v (shift_ix sh a (-1) x)) (u x)))).
      rewrite <- gsum_mul_l. apply gsum_le. intros idx Hi.
      assert (Hn : (0 < dim sh a)%nat) by now apply (inb_dim_pos sh idx).
      pose proof (inb_coord sh idx a Hi Ha) as Hci.
      assert (Hwi : d <= wh a (coord idx a)) by now apply Hh.
      unfold u, v. rewrite coord_shift_same by assumption. rewrite cyc_cyc by exact Hn.
      change (1 + -1)%Z with 0%Z. rewrite cyc_0 by exact Hci. rewrite HWs by exact Hi.
      unfold deriv_back, roll. change (Z.opp 1) with (-1)%Z.
      cbn [fadd fmul fsub fdiv RF].
      set (x := f (shift_ix sh a (-1) idx)). set (y := f idx). set (w := wh a (coord idx a)) in *.
      pose proof (HW idx Hi) as HWi. pose proof (sq_diff y x) as Hsq.
      replace (W idx * w * ((y - x) / w * ((y - x) / w))) with (W idx * / w * ((y - x) * (y - x)))
        by (field; lra).
      replace (2 * (W idx * / w * (x * x) + W idx * / w * (y * y))) with (W idx * / w * (2 * (y * y + x * x))) by ring.
      apply Rmult_le_compat_l; [|exact Hsq].
      apply Rmult_le_pos; [exact HWi|]. left. apply Rinv_0_lt_compat. lra.
    - assert (B : forall g : list nat -> R, (forall idx, inb sh idx -> g idx <= we a (coord idx a) * / (d * d)) ->
         G sh (fun idx => W idx * g idx * (f idx * f idx))
         <= / (d * d) * G sh (fun idx => W idx * we a (coord idx a) * (f idx * f idx))).
      { intros g Hg.
        change (/ (d * d) * G sh (fun idx => W idx * we a (coord idx a) * (f idx * f idx)))
          with (fmul (f := RF) ((/ (d * d))%R) (G sh (fun idx => W idx * we a (coord idx a) * (f idx * f idx)))).
        rewrite <- gsum_mul_l. apply gsum_le. intros idx Hi. cbn [fmul RF].
        replace (/ (d * d) * (W idx * we a (coord idx a) * (f idx * f idx)))
          with (W idx * (we a (coord idx a) * / (d * d)) * (f idx * f idx)) by ring.
        pose proof (HW idx Hi). pose proof (Hg idx Hi).
        apply Rmult_le_compat_r; [nra|]. apply Rmult_le_compat_l; lra. }
      assert (Bu : G sh u <= / (d * d) * G sh (fun idx => W idx * we a (coord idx a) * (f idx * f idx))).
      { apply (B (fun idx => / wh a (coord idx a))). intros idx Hi. pose proof (inb_coord sh idx a Hi Ha).
        apply inv_le_ratio; auto. }
      assert (Bv : G sh v <= / (d * d) * G sh (fun idx => W idx * we a (coord idx a) * (f idx * f idx))).
      { apply (B (fun idx => / wh a (cyc (dim sh a) 1 (coord idx a)))). intros idx Hi. pose proof (inb_coord sh idx a Hi Ha).
        assert ((cyc (dim sh a) 1 (coord idx a) < dim sh a)%nat) by (apply cyc_lt; lia).
        apply inv_le_ratio; auto. }
      lra.
  Qed.
End Rl.

Ltac req := match goal with |- @eq _ ?x ?y => change (@eq R x y) end.
Ltac rring := req; ring.

Lemma div_cancel (x t : R) : (x <> 0 -> x * (t / x) = t)%R.
Proof. intro H. field. exact H. Qed.

Section Stab.
  Local Open Scope R_scope.
  Notation G := (@gsum RF).
  Variable sh : list nat.
  Variables we wh : widths RF.
  Variables d0 d1 d2 : R.
  Hypothesis HL : length sh = 3%nat.
  Hypothesis Hd0 : 0 < d0.
  Hypothesis Hd1 : 0 < d1.
  Hypothesis Hd2 : 0 < d2.
  Definition dmin (a : nat) : R := match a with 0%nat => d0 | 1%nat => d1 | _ => d2 end.
  Hypothesis Hw : forall a i, (a < 3)%nat -> (i < dim sh a)%nat -> dmin a <= we a i /\ dmin a <= wh a i.

  Definition Ssum : R := / (d0 * d0) + / (d1 * d1) + / (d2 * d2).

  Lemma dmin_pos a : 0 < dmin a.
  Proof. destruct a as [|[|a]]; assumption. Qed.
  Lemma w_pos a i : (a < 3)%nat -> (i < dim sh a)%nat -> 0 < we a i /\ 0 < wh a i.
  Proof. intros Ha Hi. destruct (Hw a i Ha Hi). pose proof (dmin_pos a). split; lra. Qed.
  Lemma nzw_e : nzw sh we.
  Proof. intros a i Ha Hi E. rewrite HL in Ha. destruct (w_pos a i Ha Hi) as [P _]. cbn in E. lra. Qed.
  Lemma nzw_h : nzw sh wh.
  Proof. intros a i Ha Hi E. rewrite HL in Ha. destruct (w_pos a i Ha Hi) as [_ P]. cbn in E. lra. Qed.

  Lemma w_pos_idx a idx : (a < 3)%nat -> inb sh idx -> 0 < we a (coord idx a) /\ 0 < wh a (coord idx a).
  Proof. intros Ha Hi. apply w_pos; [exact Ha|]. apply inb_coord; [exact Hi|lia]. Qed.

  Lemma vol_e_pos c idx : inb sh idx -> 0 < vol_e we wh c idx.
  Proof.
    intro Hi. destruct (w_pos_idx 0 idx ltac:(lia) Hi), (w_pos_idx 1 idx ltac:(lia) Hi), (w_pos_idx 2 idx ltac:(lia) Hi).
    unfold vol_e, vol3. destruct c as [|[|c]]; cbn [fmul RF]; apply Rmult_lt_0_compat; try assumption; now apply Rmult_lt_0_compat.
  Qed.
  Lemma vol_h_pos c idx : inb sh idx -> 0 < vol_h we wh c idx.
  Proof.
    intro Hi. destruct (w_pos_idx 0 idx ltac:(lia) Hi), (w_pos_idx 1 idx ltac:(lia) Hi), (w_pos_idx 2 idx ltac:(lia) Hi).
    unfold vol_h, vol_e, vol3. destruct c as [|[|c]]; cbn [fmul RF]; apply Rmult_lt_0_compat; try assumption; now apply Rmult_lt_0_compat.
  Qed.

  Lemma df_bound a b c f : (a < 3)%nat -> (b < 3)%nat -> (c < 3)%nat -> a <> b -> b <> c -> a <> c ->
    G sh (fun idx => vol_h we wh b idx * (deriv_forward sh (Some we) a f idx * deriv_forward sh (Some we) a f idx))
    <= 4 * / (dmin a * dmin a) * G sh (fun idx => vol_e we wh c idx * (f idx * f idx)).
  Proof.
    intros Ha Hb Hc Hab Hbc Hac.
    set (W := fun idx => wh b (coord idx b) * we c (coord idx c)).
    pose proof (fwd_bound sh a we wh W f (dmin a) ltac:(lia) (dmin_pos a)
      (fun i Hi => proj1 (Hw a i Ha Hi)) (fun i Hi => proj2 (Hw a i Ha Hi))) as B.
    rewrite (@gsum_ext RF sh (fun idx => vol_h we wh b idx * (deriv_forward sh (Some we) a f idx * deriv_forward sh (Some we) a f idx))
      (fun idx => W idx * we a (coord idx a) * (deriv_forward sh (Some we) a f idx * deriv_forward sh (Some we) a f idx))).
    2:{ intros idx Hi. unfold W, vol_h, vol_e, vol3. cbn [fmul RF].
        destruct a as [|[|[|a]]], b as [|[|[|b]]], c as [|[|[|c]]]; try lia; rring. }
    rewrite (@gsum_ext RF sh (fun idx => vol_e we wh c idx * (f idx * f idx)) (fun idx => W idx * wh a (coord idx a) * (f idx * f idx))).
    2:{ intros idx Hi. unfold W, vol_h, vol_e, vol3. cbn [fmul RF].
        destruct a as [|[|[|a]]], b as [|[|[|b]]], c as [|[|[|c]]]; try lia; rring. }
    apply B.
    - intros idx Hi. unfold W. destruct (w_pos_idx b idx Hb Hi), (w_pos_idx c idx Hc Hi). apply Rmult_le_pos; lra.
    - intros z idx Hi. unfold W. now rewrite !coord_shift_other by lia.
  Qed.

  Lemma db_bound c f : (c < 3)%nat ->
    G sh (fun idx => vol_n RF wh idx * (deriv_back sh (Some wh) c f idx * deriv_back sh (Some wh) c f idx))
    <= 4 * / (dmin c * dmin c) * G sh (fun idx => vol_e we wh c idx * (f idx * f idx)).
  Proof.
    intros Hc.
    set (o1 := match c with 0%nat => 1%nat | _ => 0%nat end). set (o2 := match c with 2%nat => 1%nat | _ => 2%nat end).
    assert (Ho : (o1 < 3 /\ o2 < 3 /\ o1 <> o2 /\ o1 <> c /\ o2 <> c)%nat)
      by (unfold o1, o2; destruct c as [|[|[|c]]]; lia).
    set (W := fun idx => wh o1 (coord idx o1) * wh o2 (coord idx o2)).
    pose proof (back_bound sh c we wh W f (dmin c) ltac:(lia) (dmin_pos c)
      (fun i Hi => proj1 (Hw c i Hc Hi)) (fun i Hi => proj2 (Hw c i Hc Hi))) as B.
    rewrite (@gsum_ext RF sh (fun idx => vol_n RF wh idx * (deriv_back sh (Some wh) c f idx * deriv_back sh (Some wh) c f idx))
      (fun idx => W idx * wh c (coord idx c) * (deriv_back sh (Some wh) c f idx * deriv_back sh (Some wh) c f idx))).
    2:{ intros idx Hi. unfold W, o1, o2, vol_n, vol3. cbn [fmul RF].
        destruct c as [|[|[|c]]]; try lia; rring. }
    rewrite (@gsum_ext RF sh (fun idx => vol_e we wh c idx * (f idx * f idx)) (fun idx => W idx * we c (coord idx c) * (f idx * f idx))).
    2:{ intros idx Hi. unfold W, o1, o2, vol_e, vol3. cbn [fmul RF].
        destruct c as [|[|[|c]]]; try lia; rring. }
    apply B.
    - intros idx Hi. unfold W. destruct (w_pos_idx o1 idx ltac:(lia) Hi), (w_pos_idx o2 idx ltac:(lia) Hi). apply Rmult_le_pos; lra.
    - intros z idx Hi. unfold W. now rewrite !coord_shift_other by lia.
  Qed.

  Definition nrm_e (e : field RF) : R := fsum sh (fun c idx => vol_e we wh c idx * (e c idx * e c idx)).
  Definition nrm_c (e : field RF) : R :=
    fsum sh (fun c idx => vol_h we wh c idx * (curl_forward sh (Some we) e c idx * curl_forward sh (Some we) e c idx)).

  Lemma curl_bound e : nrm_c e <= 4 * Ssum * nrm_e e.
  Proof.
    pose proof (curl_div_norm RF sh we wh e HL nzw_e nzw_h) as E. cbv zeta in E.
    fold (nrm_c e) in E. cbn [fadd fmul RF] in E.
    assert (P : 0 <= G sh (fun idx => vol_n RF wh idx *
       ((deriv_back sh (Some wh) 0 (e 0%nat) idx + deriv_back sh (Some wh) 1 (e 1%nat) idx + deriv_back sh (Some wh) 2 (e 2%nat) idx)
        * (deriv_back sh (Some wh) 0 (e 0%nat) idx + deriv_back sh (Some wh) 1 (e 1%nat) idx + deriv_back sh (Some wh) 2 (e 2%nat) idx)))).
    { apply gsum_nonneg. intros idx Hi. apply Rmult_le_pos; [|apply Rle_0_sqr].
      destruct (w_pos_idx 0 idx ltac:(lia) Hi), (w_pos_idx 1 idx ltac:(lia) Hi), (w_pos_idx 2 idx ltac:(lia) Hi).
      unfold vol_n, vol3. cbn [fmul RF]. left. apply Rmult_lt_0_compat; try assumption; now apply Rmult_lt_0_compat. }
    pose proof (df_bound 1 0 2 (e 2%nat) ltac:(lia) ltac:(lia) ltac:(lia) ltac:(lia) ltac:(lia) ltac:(lia)) as B12.
    pose proof (df_bound 2 0 1 (e 1%nat) ltac:(lia) ltac:(lia) ltac:(lia) ltac:(lia) ltac:(lia) ltac:(lia)) as B21.
    pose proof (df_bound 2 1 0 (e 0%nat) ltac:(lia) ltac:(lia) ltac:(lia) ltac:(lia) ltac:(lia) ltac:(lia)) as B20.
    pose proof (df_bound 0 1 2 (e 2%nat) ltac:(lia) ltac:(lia) ltac:(lia) ltac:(lia) ltac:(lia) ltac:(lia)) as B02.
    pose proof (df_bound 0 2 1 (e 1%nat) ltac:(lia) ltac:(lia) ltac:(lia) ltac:(lia) ltac:(lia) ltac:(lia)) as B01.
    pose proof (df_bound 1 2 0 (e 0%nat) ltac:(lia) ltac:(lia) ltac:(lia) ltac:(lia) ltac:(lia) ltac:(lia)) as B10.
    pose proof (db_bound 0 (e 0%nat) ltac:(lia)) as B00.
    pose proof (db_bound 1 (e 1%nat) ltac:(lia)) as B11.
    pose proof (db_bound 2 (e 2%nat) ltac:(lia)) as B22.
    cbn [dmin] in *. unfold nrm_e, fsum, Ssum. cbn [fadd fmul RF] in *.
    set (X0 := G sh (fun idx => vol_e we wh 0 idx * (e 0%nat idx * e 0%nat idx))) in *.
    set (X1 := G sh (fun idx => vol_e we wh 1 idx * (e 1%nat idx * e 1%nat idx))) in *.
    set (X2 := G sh (fun idx => vol_e we wh 2 idx * (e 2%nat idx * e 2%nat idx))) in *.
    rewrite Rmult_plus_distr_l, !Rmult_plus_distr_l, !Rmult_plus_distr_r.
    match type of E with ?x + ?y = ?z => assert (E' : @eq R (nrm_c e + y) z) by exact E end.
    clear E. lra.
  Qed.

  (** ** Runs *)
  Variable dt : R.
  Variable eps : field RF.
  Variable mu : option (field RF).
  Variables eps0 mu0 : R.
  Hypothesis Heps0 : 0 < eps0.
  Hypothesis Hmu0 : 0 < mu0.
  Hypothesis Heps : forall c idx, (c < 3)%nat -> inb sh idx -> eps0 <= eps c idx.
  Hypothesis Hmu : forall c idx, (c < 3)%nat -> inb sh idx -> mu0 <= matl mu c idx.
  Let d : dxes_t RF := Some (we, wh).

  Lemma eps_nz : nzm sh eps.
  Proof. intros c idx Hc Hi E. pose proof (Heps c idx Hc Hi) as H. cbn in E. lra. Qed.
  Lemma mu_nz : nzm_opt sh mu.
  Proof.
    unfold nzm_opt. destruct mu as [m|] eqn:Em; [|exact I].
    intros c idx Hc Hi E. pose proof (Hmu c idx Hc Hi) as H. rewrite ?Em in H. cbn in H, E. lra.
  Qed.

  Definition nrmE (e : field RF) : R := fsum sh (fun c idx => vol_e we wh c idx * (eps c idx * (e c idx * e c idx))).
  Definition nrmH (h : field RF) : R := fsum sh (fun c idx => vol_h we wh c idx * (matl mu c idx * (h c idx * h c idx))).

  Lemma nrm_e_eps e : eps0 * nrm_e e <= nrmE e.
  Proof.
    unfold nrm_e, nrmE, fsum. cbn [fadd RF]. rewrite !Rmult_plus_distr_l.
    assert (A : forall c, (c < 3)%nat -> eps0 * G sh (fun idx => vol_e we wh c idx * (e c idx * e c idx))
       <= G sh (fun idx => vol_e we wh c idx * (eps c idx * (e c idx * e c idx)))).
    { intros c Hc. 
      change (eps0 * G sh (fun idx => vol_e we wh c idx * (e c idx * e c idx)))
        with (fmul (f := RF) eps0 (G sh (fun idx => vol_e we wh c idx * (e c idx * e c idx)))).
      rewrite <- gsum_mul_l. apply gsum_le. intros idx Hi. cbn [fmul RF].
      pose proof (vol_e_pos c idx Hi). pose proof (Heps c idx Hc Hi). pose proof (Rle_0_sqr (e c idx)) as Hs. unfold Rsqr in Hs.
      replace (eps0 * (vol_e we wh c idx * (e c idx * e c idx))) with (vol_e we wh c idx * (eps0 * (e c idx * e c idx))) by ring.
      apply Rmult_le_compat_l; [lra|]. apply Rmult_le_compat_r; assumption. }
    pose proof (A 0%nat ltac:(lia)). pose proof (A 1%nat ltac:(lia)). pose proof (A 2%nat ltac:(lia)). 
    repeat apply Rplus_le_compat; assumption.
  Qed.

  Definition curl1 (e : field RF) : R :=
    fsum sh (fun c idx => vol_h we wh c idx * (curl_forward sh (Some we) e c idx * curl_forward sh (Some we) e c idx / matl mu c idx)).
  Lemma curl1_bound e : mu0 * curl1 e <= nrm_c e.
  Proof.
    unfold curl1, nrm_c, fsum. cbn [fadd RF]. rewrite !Rmult_plus_distr_l.
    assert (A : forall c, (c < 3)%nat ->
       mu0 * G sh (fun idx => vol_h we wh c idx * (curl_forward sh (Some we) e c idx * curl_forward sh (Some we) e c idx / matl mu c idx))
       <= G sh (fun idx => vol_h we wh c idx * (curl_forward sh (Some we) e c idx * curl_forward sh (Some we) e c idx))).
    { intros c Hc. 
      change (mu0 * G sh (fun idx => vol_h we wh c idx * (curl_forward sh (Some we) e c idx * curl_forward sh (Some we) e c idx / matl mu c idx)))
        with (fmul (f := RF) mu0 (G sh (fun idx => vol_h we wh c idx * (curl_forward sh (Some we) e c idx * curl_forward sh (Some we) e c idx / matl mu c idx)))).
      rewrite <- gsum_mul_l. apply gsum_le. intros idx Hi. cbn [fmul RF].
      set (x := curl_forward sh (Some we) e c idx).
      pose proof (vol_h_pos c idx Hi). pose proof (Hmu c idx Hc Hi) as Hm. pose proof (Rle_0_sqr x) as Hs. unfold Rsqr in Hs.
      set (m := matl mu c idx) in *.
      replace (mu0 * (vol_h we wh c idx * (x * x / m))) with (vol_h we wh c idx * (x * x * (mu0 / m))) by (field; lra).
      apply Rmult_le_compat_l; [lra|].
      replace (x * x) with (x * x * 1) at 2 by ring.
      apply Rmult_le_compat_l; [exact Hs|].
      apply (Rmult_le_reg_r m); [lra|]. unfold Rdiv. rewrite Rmult_assoc, Rinv_l by lra. lra. }
    pose proof (A 0%nat ltac:(lia)). pose proof (A 1%nat ltac:(lia)). pose proof (A 2%nat ltac:(lia)). 
    repeat apply Rplus_le_compat; assumption.
  Qed.

  (** Courant number squared *)
  Definition q : R := dt * dt * Ssum / (eps0 * mu0).
  Hypothesis Hq : q < 1.

  Lemma Ssum_pos : 0 < Ssum.
  Proof.
    unfold Ssum. assert (forall x, 0 < x -> 0 < / (x * x)) by (intros x Hx; apply Rinv_0_lt_compat; nra).
    pose proof (H d0 Hd0). pose proof (H d1 Hd1). pose proof (H d2 Hd2). lra.
  Qed.

  Lemma curl1_q e : dt * dt / 4 * curl1 e <= q * nrmE e.
  Proof.
    pose proof (curl1_bound e) as A. pose proof (curl_bound e) as B. pose proof (nrm_e_eps e) as C.
    pose proof Ssum_pos as S.
    assert (D : eps0 * mu0 * curl1 e <= 4 * Ssum * nrmE e).
    { apply Rle_trans with (eps0 * nrm_c e).
      - rewrite Rmult_assoc. apply Rmult_le_compat_l; lra.
      - apply Rle_trans with (eps0 * (4 * Ssum * nrm_e e)).
        + apply Rmult_le_compat_l; lra.
        + replace (eps0 * (4 * Ssum * nrm_e e)) with (4 * Ssum * (eps0 * nrm_e e)) by ring.
          apply Rmult_le_compat_l; lra. }
    assert (P : 0 < eps0 * mu0) by nra.
    unfold q.
    apply (Rmult_le_reg_l (eps0 * mu0)); [exact P|].
    replace (eps0 * mu0 * (dt * dt / 4 * curl1 e)) with (dt * dt / 4 * (eps0 * mu0 * curl1 e)) by field.
    replace (eps0 * mu0 * (dt * dt * Ssum / (eps0 * mu0) * nrmE e)) with (dt * dt / 4 * (4 * Ssum * nrmE e)) by (field; lra).
    apply Rmult_le_compat_l; [nra|exact D].
  Qed.

  (** Energy with completed square *)
  Definition mid2 (e h : field RF) : R :=
    fsum sh (fun c idx => vol_h we wh c idx * (matl mu c idx *
      ((h c idx - dt * curl_forward sh (Some we) e c idx / (2 * matl mu c idx))
       * (h c idx - dt * curl_forward sh (Some we) e c idx / (2 * matl mu c idx))))).

  Lemma mid2_nonneg e h : 0 <= mid2 e h.
  Proof.
    unfold mid2, fsum. cbn [fadd RF].
    assert (A : forall c, (c < 3)%nat -> 0 <= G sh (fun idx => vol_h we wh c idx * (matl mu c idx *
      ((h c idx - dt * curl_forward sh (Some we) e c idx / (2 * matl mu c idx))
       * (h c idx - dt * curl_forward sh (Some we) e c idx / (2 * matl mu c idx)))))).
    { intros c Hc. apply gsum_nonneg. intros idx Hi. pose proof (vol_h_pos c idx Hi). pose proof (Hmu c idx Hc Hi).
      apply Rmult_le_pos; [lra|]. apply Rmult_le_pos; [lra|]. apply Rle_0_sqr. }
    pose proof (A 0%nat ltac:(lia)). pose proof (A 1%nat ltac:(lia)). pose proof (A 2%nat ltac:(lia)). lra.
  Qed.

  Lemma gsum_split_E (s : state RF) :
    yee_E RF sh dt d eps mu s = nrmE (sE s) + mid2 (sE s) (sH s) - dt * dt / 4 * curl1 (sE s).
  Proof.
    unfold yee_E, nrmE, mid2, curl1, fsum, yee_energy, csum. cbn [fadd RF].
    set (dq := dt * dt / 4).
    assert (X : forall x y z : R, dq * (x + y + z) = fmul (f := RF) dq x + fmul (f := RF) dq y + fmul (f := RF) dq z)
      by (intros; cbn [fmul RF]; ring).
    rewrite X. rewrite <- !gsum_mul_l.
    change Rplus with (fadd (f := RF)). change Rminus with (fsub (f := RF)).
    rewrite <- !gsum_add, <- gsum_sub. apply gsum_ext. intros idx Hi.
    cbn [vol_e_d vol_h_d d matl]. unfold maxwell_h. change (option_map fst d) with (Some we).
    unfold dq.
    assert (M : forall c, (c < 3)%nat -> matl mu c idx <> 0).
    { intros c Hc. pose proof (Hmu c idx Hc Hi). lra. }
    pose proof (M 0%nat ltac:(lia)) as M0. pose proof (M 1%nat ltac:(lia)) as M1. pose proof (M 2%nat ltac:(lia)) as M2.
    destruct mu as [m|]; cbn [matl] in *; cbn [fadd fmul fsub fdiv f1 RF] in *.
    - req. field. repeat split; assumption.
    - req. field.
  Qed.

  Lemma nrmH_bound e h : nrmH h <= 2 * mid2 e h + 2 * (dt * dt / 4 * curl1 e).
  Proof.
    assert (A : forall c idx, (c < 3)%nat -> inb sh idx ->
      vol_h we wh c idx * (matl mu c idx * (h c idx * h c idx))
      <= 2 * (vol_h we wh c idx * (matl mu c idx *
      ((h c idx - dt * curl_forward sh (Some we) e c idx / (2 * matl mu c idx))
       * (h c idx - dt * curl_forward sh (Some we) e c idx / (2 * matl mu c idx)))))
      + dt * dt / 2 * (vol_h we wh c idx * (curl_forward sh (Some we) e c idx * curl_forward sh (Some we) e c idx / matl mu c idx))).
    { intros c idx Hc Hi. pose proof (vol_h_pos c idx Hi) as V. pose proof (Hmu c idx Hc Hi) as Hm.
      set (m := matl mu c idx) in *. set (x := curl_forward sh (Some we) e c idx). set (v := vol_h we wh c idx) in *.
      set (y := dt * x / (2 * m)). 
      replace (dt * dt / 2 * (v * (x * x / m))) with (2 * (v * (m * (y * y)))) by (unfold y; field; lra).
      set (z := h c idx - y). replace (h c idx) with (z + y) by (unfold z; cbn [fsub RF]; ring).
      pose proof (Rle_0_sqr (z - y)) as Hs. unfold Rsqr in Hs.
      assert (P : 0 <= v * m) by (apply Rmult_le_pos; lra).
      assert (Q : 0 <= v * m * ((z - y) * (z - y))) by (apply Rmult_le_pos; assumption).
      cbn [fadd RF]. nra. }
    unfold nrmH, mid2, curl1, fsum. cbn [fadd RF].
    assert (B : forall c, (c < 3)%nat ->
      G sh (fun idx => vol_h we wh c idx * (matl mu c idx * (h c idx * h c idx)))
      <= 2 * G sh (fun idx => vol_h we wh c idx * (matl mu c idx *
      ((h c idx - dt * curl_forward sh (Some we) e c idx / (2 * matl mu c idx))
       * (h c idx - dt * curl_forward sh (Some we) e c idx / (2 * matl mu c idx)))))
      + dt * dt / 2 * G sh (fun idx => vol_h we wh c idx * (curl_forward sh (Some we) e c idx * curl_forward sh (Some we) e c idx / matl mu c idx))).
    { intros c Hc.
      set (g1 := fun idx => vol_h we wh c idx * (matl mu c idx *
      ((h c idx - dt * curl_forward sh (Some we) e c idx / (2 * matl mu c idx))
       * (h c idx - dt * curl_forward sh (Some we) e c idx / (2 * matl mu c idx))))).
      set (g2 := fun idx => vol_h we wh c idx * (curl_forward sh (Some we) e c idx * curl_forward sh (Some we) e c idx / matl mu c idx)).
      change (2 * G sh g1 + dt * dt / 2 * G sh g2)
        with (fadd (f := RF) (fmul (f := RF) (2%R) (G sh g1)) (fmul (f := RF) ((dt * dt / 2)%R) (G sh g2))).
      rewrite <- !gsum_mul_l, <- gsum_add. apply gsum_le. intros idx Hi. now apply A. }
    pose proof (B 0%nat ltac:(lia)). pose proof (B 1%nat ltac:(lia)). pose proof (B 2%nat ltac:(lia)). lra.
  Qed.

  Lemma stable_state s : 
    nrmE (sE s) <= yee_E RF sh dt d eps mu s / (1 - q)
    /\ nrmH (sH s) <= 2 * yee_E RF sh dt d eps mu s / (1 - q).
  Proof.
    pose proof (gsum_split_E s) as E. pose proof (mid2_nonneg (sE s) (sH s)) as M.
    pose proof (curl1_q (sE s)) as Q. pose proof (nrmH_bound (sE s) (sH s)) as H.
    set (X := nrmE (sE s)) in *. set (Z := dt * dt / 4 * curl1 (sE s)) in *. set (Y := mid2 (sE s) (sH s)) in *.
    set (T := yee_E RF sh dt d eps mu s) in *. set (N := nrmH (sH s)) in *.
    assert (A : (1 - q) * X <= T) by lra.
    assert (X0 : 0 <= X).
    { pose proof (nrm_e_eps (sE s)) as C. fold X in C.
      assert (0 <= nrm_e (sE s)).
      { unfold nrm_e, fsum. cbn [fadd RF].
        assert (forall c, 0 <= G sh (fun idx => vol_e we wh c idx * (sE s c idx * sE s c idx))).
        { intro c. apply gsum_nonneg. intros idx Hi. pose proof (vol_e_pos c idx Hi).
          apply Rmult_le_pos; [lra|apply Rle_0_sqr]. }
        pose proof (H0 0%nat). pose proof (H0 1%nat). pose proof (H0 2%nat). lra. }
      nra. }
    split.
    - apply (Rmult_le_reg_l (1 - q)); [lra|]. rewrite div_cancel by lra. exact A.
    - apply (Rmult_le_reg_l (1 - q)); [lra|]. rewrite div_cancel by lra.
      (* N <= 2Y + 2Z, Y = T - X + Z, Z <= q X, so N <= 2T - 2X + 4Z *)
      assert (Nb : N <= 2 * T - 2 * X + 4 * (q * X)) by lra.
      assert (Nb' : N <= 2 * T - 2 * X + 4 * Z) by lra.
      (* Y >= 0 *)
      assert (Hq0 : 0 <= q).
      { unfold q. pose proof Ssum_pos. apply Rmult_le_pos; [nra|]. left. apply Rinv_0_lt_compat. nra. }
      assert (T0 : 0 <= T) by (apply Rle_trans with ((1 - q) * X); [apply Rmult_le_pos; lra|exact A]).
      assert (TQ : 0 <= q * T) by (apply Rmult_le_pos; lra).
      assert (TQ' : 0 <= (1 - q) * T) by (apply Rmult_le_pos; lra).
      assert (Nq : (1 - q) * N <= (1 - q) * (2 * T - 2 * X + 4 * (q * X))) by (apply Rmult_le_compat_l; lra).
      replace ((1 - q) * (2 * T - 2 * X + 4 * (q * X)))
        with (2 * ((1 - q) * T) + 2 * (2 * q - 1) * ((1 - q) * X)) in Nq by ring.
      destruct (Rle_dec 0 (2 * q - 1)) as [Hc|Hc].
      + assert (2 * (2 * q - 1) * ((1 - q) * X) <= 2 * (2 * q - 1) * T) by (apply Rmult_le_compat_l; [lra|exact A]).
        lra.
      + assert (0 <= (1 - q) * X) by (apply Rmult_le_pos; lra).
        assert (0 <= (2 * (1 - 2 * q)) * ((1 - q) * X)) by (apply Rmult_le_pos; lra).
        lra.
  Qed.
End Stab.
