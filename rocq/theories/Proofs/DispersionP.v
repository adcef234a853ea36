(** Plane waves under the grid operators. *)
From Coq Require Import List Arith ZArith Lia Field Bool.
From Verif.Lib Require Import Num Sums Idx Mat.
From Verif.Model Require Import Fdmath Fdtd Fdfd.
From Verif.Spec Require Import Yee FdtdRun FdfdSpec HarmonicSpec DispersionSpec.
From Verif.Proofs Require Import FdmathP FdtdP2 FdfdP HarmonicP GridP.
Import ListNotations.
Local Open Scope fld_scope.

Section P.
  Variable K : Fld.
  Add Field Kfield : (fth K).

  Lemma zpow_succ_r (z : K) n : zpow z (S n) = zpow z n * z.
  Proof. cbn [zpow]. ring. Qed.

  Lemma bac_cab (u v x : nat -> K) c : (c < 3)%nat ->
    cross3 u (cross3 v x) c = v c * dot3 u x - x c * dot3 u v.
  Proof. intro Hc. destruct c as [|[|[|c]]]; [| | |lia]; unfold cross3, dot3; ring. Qed.
  Lemma dot_cross (u v : nat -> K) : dot3 u (cross3 u v) = 0.
  Proof. unfold dot3, cross3; ring. Qed.

  Variables (sh : list nat) (p : nat -> K).
  Hypothesis HL : length sh = 3%nat.
  Hypothesis Hp : fits sh p.

  Lemma zpow_cyc_next a i : (a < 3)%nat -> (i < dim sh a)%nat -> zpow (p a) (cyc (dim sh a) 1 i) = p a * zpow (p a) i.
  Proof.
    intros Ha Hi. rewrite cyc_succ by exact Hi. destruct (Nat.eqb_spec (S i) (dim sh a)) as [E|E].
    - destruct (Hp a Ha) as [_ Q]. rewrite <- E in Q. cbn [zpow] in Q |- *. now rewrite Q.
    - reflexivity.
  Qed.
  Lemma zpow_cyc_prev a i : (a < 3)%nat -> (i < dim sh a)%nat -> zpow (p a) (cyc (dim sh a) (-1) i) = zpow (p a) i / p a.
  Proof.
    intros Ha Hi. destruct (Hp a Ha) as [N Q]. rewrite cyc_pred by exact Hi. destruct (Nat.eqb_spec i 0) as [E|E].
    - subst i. cbn [zpow]. replace (dim sh a) with (S (dim sh a - 1)) in Q by lia. cbn [zpow] in Q.
      rewrite <- Q. field. exact N.
    - replace i with (S (i - 1)) at 2 by lia. cbn [zpow]. field. exact N.
  Qed.
  Lemma inb3 idx : inb sh idx -> length idx = 3%nat.
  Proof. intro H. rewrite <- HL. symmetry. exact (Forall2_length H) || (rewrite (inb_length sh idx H); reflexivity). Qed.

  Lemma ripple_next a idx : (a < 3)%nat -> inb sh idx -> ripple p (shift_ix sh a 1 idx) = p a * ripple p idx.
  Proof.
    intros Ha Hi. assert (D : forall b, (b < 3)%nat -> (coord idx b < dim sh b)%nat) by (intros b Hb; apply inb_coord; [exact Hi|lia]).
    unfold ripple. destruct a as [|[|[|a]]]; [| | |lia]; rewrite coord_shift_same by (try assumption; lia);
      rewrite !coord_shift_other by lia; rewrite zpow_cyc_next by (try lia; apply D; lia); ring.
  Qed.
  Lemma ripple_prev a idx : (a < 3)%nat -> inb sh idx -> ripple p (shift_ix sh a (-1) idx) = ripple p idx / p a.
  Proof.
    intros Ha Hi. assert (D : forall b, (b < 3)%nat -> (coord idx b < dim sh b)%nat) by (intros b Hb; apply inb_coord; [exact Hi|lia]).
    pose proof (proj1 (Hp a Ha)) as N.
    unfold ripple. destruct a as [|[|[|a]]]; [| | |lia]; rewrite coord_shift_same by (try assumption; lia);
      rewrite !coord_shift_other by lia; rewrite zpow_cyc_prev by (try lia; apply D; lia); field; exact N.
  Qed.

  Variable w : nat -> K.
  Hypothesis Hw : forall a, (a < 3)%nat -> w a <> 0.

  Lemma next_wave a k idx : (a < 3)%nat -> inb sh idx ->
    Grid.diff_next sh (Some (uniw w)) a (fun i => k * ripple p i) idx = fwd p w a * k * ripple p idx.
  Proof.
    intros Ha Hi. unfold Grid.diff_next, Grid.over, uniw, fwd. rewrite ripple_next by assumption. field. now apply Hw.
  Qed.
  Lemma prev_wave a k idx : (a < 3)%nat -> inb sh idx ->
    Grid.diff_prev sh (Some (uniw w)) a (fun i => k * ripple p i) idx = bwd p w a * k * ripple p idx.
  Proof.
    intros Ha Hi. unfold Grid.diff_prev, Grid.over, uniw, bwd. rewrite ripple_prev by assumption. field.
    split; [exact (proj1 (Hp a Ha))|now apply Hw].
  Qed.
  Lemma curl_next_wave e0 c idx : (c < 3)%nat -> inb sh idx ->
    Grid.curl_next sh (Some (uniw w)) (plane_wave p e0) c idx = plane_wave p (cross3 (fwd p w) e0) c idx.
  Proof.
    intros Hc Hi. unfold plane_wave, Grid.curl_next, Grid.curl_of.
    destruct c as [|[|[|c]]]; [| | |lia]; rewrite !next_wave by (try lia; assumption); unfold cross3; ring.
  Qed.
  Lemma curl_prev_wave e0 c idx : (c < 3)%nat -> inb sh idx ->
    Grid.curl_prev sh (Some (uniw w)) (plane_wave p e0) c idx = plane_wave p (cross3 (bwd p w) e0) c idx.
  Proof.
    intros Hc Hi. unfold plane_wave, Grid.curl_prev, Grid.curl_of.
    destruct c as [|[|[|c]]]; [| | |lia]; rewrite !prev_wave by (try lia; assumption); unfold cross3; ring.
  Qed.
  Lemma ripple_origin : ripple p (0 :: 0 :: 0 :: nil)%nat = 1.
  Proof. unfold ripple. cbn. ring. Qed.
End P.

Section Q.
  Variable K : CFld.
  Add Field Kfield2 : (fth K).
  Variables (sh : list nat) (p w : nat -> K).
  Hypothesis HL : length sh = 3%nat.
  Hypothesis Hp : fits sh p.
  Hypothesis Hw : forall a, (a < 3)%nat -> w a <> 0.

  Lemma wave_e_wave (om eps mu : K) e0 c idx : mu <> 0 -> (c < 3)%nat -> inb sh idx ->
    wave_e sh om (uniw w) (uniw w) (unim eps) (Some (unim mu)) (plane_wave p e0) c idx
    = (cross3 (bwd p w) (cross3 (fwd p w) e0) c / mu - om * om * eps * e0 c) * ripple p idx.
  Proof.
    intros Hm Hc Hi. unfold wave_e.
    transitivity (Grid.curl_prev sh (Some (uniw w)) (plane_wave p (fun c => 1 / mu * cross3 (fwd p w) e0 c)) c idx
                  - om * om * (eps * (e0 c * ripple p idx))).
    - f_equal. to_model. apply curl_back_ext3; [exact HL|exact Hi|]. intros c' i' Hc' Hi'.
      pose proof (curl_next_wave K sh p HL Hp w Hw e0 c' i' Hc' Hi') as X.
      unfold inv_at, unim. etransitivity; [apply (f_equal (fmul (1 / mu))); exact X|]. unfold plane_wave. ring.
    - rewrite (curl_prev_wave K sh p HL Hp w Hw) by assumption. unfold plane_wave.
      destruct c as [|[|[|c]]]; [| | |lia]; unfold cross3; field; exact Hm.
  Qed.

  Lemma wave_kernel (om eps mu : K) e0 : mu <> 0 ->
    dot3 (bwd p w) e0 = 0 -> - dot3 (bwd p w) (fwd p w) = om * om * eps * mu ->
    forall c idx, (c < 3)%nat -> inb sh idx ->
       wave_e sh om (uniw w) (uniw w) (unim eps) (Some (unim mu)) (plane_wave p e0) c idx = 0.
  Proof.
    intros Hm B0 D0 c idx Hc Hi. rewrite wave_e_wave by assumption. rewrite bac_cab, B0 by exact Hc.
    transitivity ((e0 c * (- dot3 (bwd p w) (fwd p w)) / mu - om * om * eps * e0 c) * ripple p idx); [field; exact Hm|].
    rewrite D0. field. exact Hm.
  Qed.

  Lemma wave_iff (om eps mu : K) e0 : om <> 0 -> eps <> 0 -> mu <> 0 -> (exists c, (c < 3)%nat /\ e0 c <> 0) ->
    (forall a, (a < 3)%nat -> (0 < dim sh a)%nat) ->
    (forall c idx, (c < 3)%nat -> inb sh idx ->
       wave_e sh om (uniw w) (uniw w) (unim eps) (Some (unim mu)) (plane_wave p e0) c idx = 0)
    <-> dot3 (bwd p w) e0 = 0 /\ - dot3 (bwd p w) (fwd p w) = om * om * eps * mu.
  Proof.
    intros Ho He Hm (c0 & Hc0 & E0) Hd.
    assert (I0 : inb sh (0 :: 0 :: 0 :: nil)%nat).
    { destruct sh as [|a [|b [|c [|]]]]; try discriminate. pose proof (Hd 0%nat ltac:(lia)). pose proof (Hd 1%nat ltac:(lia)). pose proof (Hd 2%nat ltac:(lia)).
      repeat constructor; assumption. }
    split.
    - intro Q.
      assert (V : forall c, (c < 3)%nat -> cross3 (bwd p w) (cross3 (fwd p w) e0) c = om * om * eps * mu * e0 c).
      { intros c Hc. specialize (Q c _ Hc I0). rewrite wave_e_wave in Q by assumption. rewrite ripple_origin in Q.
        set (x := cross3 _ _ c) in *. transitivity ((x / mu - om * om * eps * e0 c) * 1 * mu + om * om * eps * mu * e0 c); [field; exact Hm|].
        rewrite Q. ring. }
      assert (B0 : dot3 (bwd p w) e0 = 0).
      { assert (Z : om * om * eps * mu * dot3 (bwd p w) e0 = 0).
        { rewrite <- (dot_cross K (bwd p w) (cross3 (fwd p w) e0)). unfold dot3.
          rewrite (V 0%nat), (V 1%nat), (V 2%nat) by lia. ring. }
        destruct (feq_dec (dot3 (bwd p w) e0) 0) as [E|E]; [exact E|].
        exfalso. revert Z. repeat apply fmul_nz; assumption. }
      split; [exact B0|]. specialize (V c0 Hc0). rewrite bac_cab, B0 in V by exact Hc0.
      transitivity ((fwd p w c0 * 0 - e0 c0 * dot3 (bwd p w) (fwd p w)) / e0 c0); [field; exact E0|]. rewrite V. field. exact E0.
    - intros (B0 & D0). now apply wave_kernel.
  Qed.

  Lemma e_full_at (om eps mu : K) F c idx : (c < 3)%nat -> inb sh idx ->
    unvec sh (mv (3 * prodl sh) (e_full_mat sh om (uniw w, uniw w) (vec sh (unim eps)) (Some (vec sh (unim mu))) None None) (vec sh F)) c idx
    = wave_e sh om (uniw w) (uniw w) (unim eps) (Some (unim mu)) F c idx.
  Proof.
    intros Hc Hi. unfold unvec.
    pose proof (e_full_wave K sh om (uniw w, uniw w) (unim eps) (Some (unim mu)) F c (ravel sh idx) HL Hc (ravel_lt sh idx Hi)) as Q.
    cbn [option_map fst snd] in Q. rewrite unravel_ravel in Q by exact Hi. exact Q.
  Qed.
End Q.
