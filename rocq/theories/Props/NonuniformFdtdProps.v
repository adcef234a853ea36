(** Convergence of FDTD runs on grids with unequal widths (C168). *)
From Coq Require Import Reals Lra List Arith ZArith Lia Bool Psatz.
From Verif.Lib Require Import Num Sums Idx Mat RealF BoxMin.
From Verif.Model Require Import Fdmath Fdtd.
From Verif.Spec Require Import Yee FdtdRun DispersionSpec SmoothSpec NonuniformSpec.
From Verif.Proofs Require Import FdmathP FdtdP2 FdtdP CflP DrivenP LossyP NumDispP TaylorP FdtdConvP NonuniformP NonuniformFdtdP.
From Verif.Props Require Import ConvergeProps FdtdConvProps NonuniformProps.
Import ListNotations.
Local Open Scope R_scope.

(** ** C168: FDTD is second-order accurate on any nonuniform grid *)
(** Smooth periodic fields that satisfy Maxwell's equations with the current [J], sampled
    at the documented positions of a grid cut by arbitrary planes, and stepped with the
    documented widths: the errors after n steps, weighted with the volumes the samples
    stand for, are squares of terms of order dl^2 + dt^2, dl the largest width.  The
    constants depend on the materials, the Courant number (of the smallest widths d) and
    n dt, not on how the widths change from cell to cell. *)
Theorem C168_second_order :
  forall (sh : list nat) (X : planes) (d : nat -> R) (dl dt : R) (eps mu : nat -> pt -> R) (E H J : R -> nat -> pt -> R)
         (DE D2E DH : R -> nat -> nat -> pt -> R) (Et Ht : R -> nat -> pt -> R) (M2 M eps0 eps1 mu0 mu1 : R) (n : nat),
    length sh = 3%nat -> (forall a, (a < 3)%nat -> 0 < d a) ->
    (forall a i, (a < 3)%nat -> (i < dim sh a)%nat -> d a <= base_w X a i <= dl) ->
    0 < dt -> 0 < eps0 -> 0 < mu0 ->
    (forall c p, (c < 3)%nat -> eps0 <= eps c p <= eps1) -> (forall c p, (c < 3)%nat -> mu0 <= mu c p <= mu1) ->
    smooth_motion2 (span sh X) E DE D2E Et M2 M -> smooth_motion (span sh X) H DH Ht M ->
    (forall t c p, (c < 3)%nat -> eps c p * Et t c p = curl_re (DH t) c p - J t c p) ->
    (forall t c p, (c < 3)%nat -> mu c p * Ht t c p = - curl_re (DE t) c p) ->
    let q := dt * dt * (/ (d 0%nat * d 0%nat) + / (d 1%nat * d 1%nat) + / (d 2%nat * d 2%nat)) / (eps0 * mu0) in
    q < 1 ->
    let we := derived_w sh X in let wh := base_w X in
    let s := run (K := RF) sh dt (Some (we, wh)) (sam_e X eps) (Some (sam_h X mu))
               (map (fun (k : nat) (c : nat) (i : list nat) => - dt * sam_e X (J ((INR k + / 2) * dt)) c i) (seq 0 n))
               (mkst (K := RF) (sam_e X (E 0)) (sam_h X (H (- dt / 2)))) in
    let r := sqrt (1 - q) in
    let B := (sqrt eps1 * (M2 * (dl * dl) / 4)
              + INR n * dt * M * ((mu1 * (dt * dt) / 24 + 5 * (dl * dl) / 12) / sqrt mu0
                                  + (eps1 * (dt * dt) / 24 + dl * dl / 12 + eps1 * (dl * dl) / 4) / sqrt eps0 / r)) / r in
    let eE := fun c i => sE s c i - sam_e X (E (INR n * dt)) c i in
    let eH := fun c i => sH s c i - sam_h X (H ((INR n - / 2) * dt)) c i in
    fsum (K := RF) sh (fun c i => vol_e (K := RF) we wh c i * (sam_e X eps c i * (eE c i * eE c i))) <= 12 * volume sh X * (B * B)
    /\ fsum (K := RF) sh (fun c i => vol_h (K := RF) we wh c i * (sam_h X mu c i * (eH c i * eH c i))) <= 6 * volume sh X * (B * B).
Proof.
  intros sh X d dl dt eps mu E H J DE D2E DH Et Ht M2 M eps0 eps1 mu0 mu1 n HL Hd Hw Hdt He0 Hm0 He Hm SE SH MxE MxH q Hq we wh s r B eE eH.
  assert (Hw' : forall a i, (a < 3)%nat -> (i < dim sh a)%nat -> dmin (d 0%nat) (d 1%nat) (d 2%nat) a <= base_w X a i <= dl).
  { intros a i Ha Hi. pose proof (Hw a i Ha Hi). destruct a as [|[|[|a]]]; [| | |lia]; assumption. }
  pose proof (conv_EH sh X dl (d 0%nat) (d 1%nat) (d 2%nat) dt eps mu E H J DE D2E DH Et Ht M2 M eps0 eps1 mu0 mu1 HL (Hd 0%nat ltac:(lia)) (Hd 1%nat ltac:(lia)) (Hd 2%nat ltac:(lia)) Hw' Hdt He0 Hm0 He Hm SE SH MxE MxH Hq n) as [A C].
  set (y := yb dl (d 0%nat) (d 1%nat) (d 2%nat) dt M2 M eps0 eps1 mu0 mu1 n) in *.
  change (CflP.q (d 0%nat) (d 1%nat) (d 2%nat) dt eps0 mu0) with q in *.
  assert (Rp : 0 < r) by (apply sqrt_lt_R0; lra). assert (Rr : r * r = 1 - q) by (apply sqrt_sqrt; lra).
  assert (Sm : 0 < sqrt mu0) by (apply sqrt_lt_R0; lra). assert (Se : 0 < sqrt eps0) by (apply sqrt_lt_R0; lra).
  assert (EB : B * B = y * y / (1 - q)).
  { rewrite <- Rr. assert (E1 : B = y / r). { unfold B, y, yb, bg, bj, b0. change (CflP.q (d 0%nat) (d 1%nat) (d 2%nat) dt eps0 mu0) with q. fold r. field. lra. } rewrite E1. field. lra. }
  rewrite EB. split; [refine (Rle_trans _ _ _ A (Req_le _ _ _))|refine (Rle_trans _ _ _ C (Req_le _ _ _))]; ring.
Qed.
Print Assumptions C168_second_order.

Lemma smooth_motion2_ext L L' F D D2 Ft M2 M : (forall a, (a < 3)%nat -> L a = L' a) -> smooth_motion2 L F D D2 Ft M2 M -> smooth_motion2 L' F D D2 Ft M2 M.
Proof. intros E (P & Q). split; [|exact Q]. intros t c a p Hc Ha. rewrite <- (E a Ha). now apply P. Qed.

(** So on any family of grids of a fixed domain whose largest width tends to zero, with the
    time step below a fixed fraction of the stability limit, the fields up to time T tend to
    the exact ones. *)
Theorem C168_converges :
  forall (L : nat -> R) (eps mu : nat -> pt -> R) (E H J : R -> nat -> pt -> R)
         (DE D2E DH : R -> nat -> nat -> pt -> R) (Et Ht : R -> nat -> pt -> R) (M2 M eps0 eps1 mu0 mu1 theta T : R),
    (forall a, (a < 3)%nat -> 0 < L a) -> 0 < eps0 -> 0 < mu0 -> theta < 1 ->
    (forall c p, (c < 3)%nat -> eps0 <= eps c p <= eps1) -> (forall c p, (c < 3)%nat -> mu0 <= mu c p <= mu1) ->
    smooth_motion2 L E DE D2E Et M2 M -> smooth_motion L H DH Ht M ->
    (forall t c p, (c < 3)%nat -> eps c p * Et t c p = curl_re (DH t) c p - J t c p) ->
    (forall t c p, (c < 3)%nat -> mu c p * Ht t c p = - curl_re (DE t) c p) ->
    forall eta : R, 0 < eta ->
    exists dl : R, 0 < dl /\ forall (sh : list nat) (X : planes) (d : nat -> R) (dt : R) (n : nat),
      length sh = 3%nat -> (forall a, (a < 3)%nat -> span sh X a = L a) -> (forall a, (a < 3)%nat -> 0 < d a) ->
      (forall a i, (a < 3)%nat -> (i < dim sh a)%nat -> d a <= base_w X a i <= dl) ->
      0 < dt -> dt * dt * (/ (d 0%nat * d 0%nat) + / (d 1%nat * d 1%nat) + / (d 2%nat * d 2%nat)) / (eps0 * mu0) <= theta -> INR n * dt <= T ->
      let we := derived_w sh X in let wh := base_w X in
      let s := run (K := RF) sh dt (Some (we, wh)) (sam_e X eps) (Some (sam_h X mu))
                 (map (fun (k : nat) (c : nat) (i : list nat) => - dt * sam_e X (J ((INR k + / 2) * dt)) c i) (seq 0 n))
                 (mkst (K := RF) (sam_e X (E 0)) (sam_h X (H (- dt / 2)))) in
      let eE := fun c i => sE s c i - sam_e X (E (INR n * dt)) c i in
      let eH := fun c i => sH s c i - sam_h X (H ((INR n - / 2) * dt)) c i in
      fsum (K := RF) sh (fun c i => vol_e (K := RF) we wh c i * (sam_e X eps c i * (eE c i * eE c i))) <= eta
      /\ fsum (K := RF) sh (fun c i => vol_h (K := RF) we wh c i * (sam_h X mu c i * (eH c i * eH c i))) <= eta.
Proof.
  intros L eps mu E H J DE D2E DH Et Ht M2 M eps0 eps1 mu0 mu1 theta T HLp He0 Hm0 Hth He Hm SE SH MxE MxH eta Heta.
  assert (Mp : 0 <= M). { destruct SH as (_ & Df & _). exact (diff3_M _ _ _ _ (Df 0 0%nat 0%nat ltac:(lia) ltac:(lia))). }
  assert (M2p : 0 <= M2). { destruct SE as (_ & Df & _). destruct (Df 0 0%nat 0%nat ltac:(lia) ltac:(lia)) as (_ & _ & B & _). pose proof (B (0, 0, 0)). pose proof (Rabs_pos (D2E 0 0%nat 0%nat (0, 0, 0))). lra. }
  assert (m1 : 0 < mu1) by (pose proof (Hm 0%nat (0, 0, 0) ltac:(lia)); lra). assert (e1 : 0 < eps1) by (pose proof (He 0%nat (0, 0, 0) ltac:(lia)); lra).
  set (r := sqrt (1 - theta)). assert (Rp : 0 < r) by (apply sqrt_lt_R0; lra).
  assert (Sm : 0 < / sqrt mu0) by (apply Rinv_0_lt_compat, sqrt_lt_R0; lra). assert (Se : 0 < / sqrt eps0) by (apply Rinv_0_lt_compat, sqrt_lt_R0; lra).
  assert (Sm0 : 0 < sqrt mu0) by (apply sqrt_lt_R0; lra). assert (Se0 : 0 < sqrt eps0) by (apply sqrt_lt_R0; lra).
  assert (em : 0 < eps0 * mu0) by now apply Rmult_lt_0_compat.
  assert (me : 0 < mu1 * (eps0 * mu0)) by now apply Rmult_lt_0_compat. assert (ee : 0 < eps1 * (eps0 * mu0)) by now apply Rmult_lt_0_compat.
  assert (ir : 0 < / r) by now apply Rinv_0_lt_compat.
  set (k := (mu1 * (eps0 * mu0) / 24 + 5 / 12) * / sqrt mu0 + (eps1 * (eps0 * mu0) / 24 + 1 / 12 + eps1 / 4) * / sqrt eps0 * / r).
  assert (k0 : 0 <= k).
  { unfold k. apply Rplus_le_le_0_compat; [apply Rmult_le_pos; lra|]. apply Rmult_le_pos; [apply Rmult_le_pos|]; lra. }
  set (c := (sqrt eps1 * (M2 / 4) + Rabs T * M * k) * / r).
  assert (TM : 0 <= Rabs T * M) by (apply Rmult_le_pos; [apply Rabs_pos|exact Mp]).
  assert (sM : 0 <= sqrt eps1 * (M2 / 4)) by (apply Rmult_le_pos; [apply sqrt_pos|lra]).
  assert (Tk : 0 <= Rabs T * M * k) by now apply Rmult_le_pos.
  assert (c0 : 0 <= c) by (unfold c; apply Rmult_le_pos; lra).
  set (vol := L 0%nat * L 1%nat * L 2%nat). assert (V0 : 0 < vol) by (unfold vol; repeat apply Rmult_lt_0_compat; apply HLp; lia).
  set (C := 12 * vol * (c * c)). assert (C0 : 0 <= C) by (unfold C; apply Rmult_le_pos; [lra|apply Rle_0_sqr]).
  set (dl := Rmin 1 (eta / (C + 1))). assert (De : 0 < eta / (C + 1)) by (apply Rdiv_lt_0_compat; lra).
  assert (D0 : 0 < dl) by (unfold dl, Rmin; destruct (Rle_dec 1 (eta / (C + 1))); lra).
  assert (D1 : dl <= 1) by apply Rmin_l. assert (D2 : dl <= eta / (C + 1)) by apply Rmin_r.
  exists dl. split; [exact D0|]. intros sh X d dt n HS HX Hd Hw Hdt Hq HT we wh s eE eH.
  set (q := dt * dt * (/ (d 0%nat * d 0%nat) + / (d 1%nat * d 1%nat) + / (d 2%nat * d 2%nat)) / (eps0 * mu0)) in *.
  assert (HX' : forall a, (a < 3)%nat -> L a = span sh X a) by (intros; symmetry; now apply HX).
  pose proof (C168_second_order sh X d dl dt eps mu E H J DE D2E DH Et Ht M2 M eps0 eps1 mu0 mu1 n HS Hd Hw Hdt He0 Hm0 He Hm (smooth_motion2_ext _ _ _ _ _ _ _ _ HX' SE) (smooth_motion_ext _ _ _ _ _ _ HX' SH) MxE MxH) as B.
  cbv zeta in B. fold q in B. specialize (B ltac:(lra)). fold we in B. fold wh in B. fold s in B.
  match type of B with _ <= 12 * volume sh X * (?b * ?b) /\ _ => set (bb := b) in B end.
  assert (Vv : volume sh X = vol) by (unfold volume, vol; rewrite <- !HX' by lia; reflexivity). rewrite Vv in B.
  (* the time step is no longer than a multiple of the largest width *)
  assert (dd : 0 < dt * dt) by now apply Rmult_lt_0_compat.
  assert (N0 : (0 < dim sh 0)%nat).
  { destruct (dim sh 0) eqn:Z; [|lia]. pose proof (HX 0%nat ltac:(lia)) as Y. unfold span in Y. rewrite Z in Y. pose proof (HLp 0%nat ltac:(lia)). lra. }
  assert (dd0 : 0 < d 0%nat <= dl) by (pose proof (Hw 0%nat 0%nat ltac:(lia) N0); pose proof (Hd 0%nat ltac:(lia)); lra).
  assert (iv : forall a, (a < 3)%nat -> 0 < / (d a * d a)) by (intros a Ha; apply Rinv_0_lt_compat; apply Rmult_lt_0_compat; now apply Hd).
  assert (P0 : 0 < d 0%nat * d 0%nat) by (apply Rmult_lt_0_compat; lra).
  assert (tt : dt * dt <= eps0 * mu0 * (dl * dl)).
  { assert (Y : dt * dt * / (d 0%nat * d 0%nat) <= eps0 * mu0).
    { assert (Y1 : q * (eps0 * mu0) <= 1 * (eps0 * mu0)) by (apply Rmult_le_compat_r; lra).
      replace (q * (eps0 * mu0)) with (dt * dt * (/ (d 0%nat * d 0%nat) + / (d 1%nat * d 1%nat) + / (d 2%nat * d 2%nat))) in Y1 by (unfold q; field; repeat split; try lra; apply Rgt_not_eq, Hd; lia).
      pose proof (iv 1%nat ltac:(lia)). pose proof (iv 2%nat ltac:(lia)). assert (0 < dt * dt * (/ (d 1%nat * d 1%nat) + / (d 2%nat * d 2%nat))) by (apply Rmult_lt_0_compat; lra). lra. }
    apply Rle_trans with (eps0 * mu0 * (d 0%nat * d 0%nat)).
    - apply (Rmult_le_reg_r (/ (d 0%nat * d 0%nat))); [apply iv; lia|]. rewrite (Rmult_assoc (eps0 * mu0)), Rinv_r, Rmult_1_r by lra. exact Y.
    - apply Rmult_le_compat_l; [lra|]. apply Rmult_le_compat; lra. }
  assert (q0 : 0 < q). { unfold q. apply Rdiv_lt_0_compat; [|exact em]. pose proof (iv 0%nat ltac:(lia)). pose proof (iv 1%nat ltac:(lia)). pose proof (iv 2%nat ltac:(lia)). apply Rmult_lt_0_compat; lra. }
  set (w2 := dl * dl) in *. assert (W2 : 0 < w2) by (unfold w2; now apply Rmult_lt_0_compat).
  set (rq := sqrt (1 - q)) in *. assert (Rq : r <= rq) by (apply sqrt_le_1_alt; lra).
  assert (irq : 0 < / rq <= / r) by (split; [apply Rinv_0_lt_compat; lra|apply Rinv_le_contravar; lra]).
  assert (Tn : 0 <= INR n * dt <= Rabs T). { split; [apply Rmult_le_pos; [apply pos_INR|lra]|]. pose proof (Rle_abs T). lra. }
  set (kk := (mu1 * (dt * dt) / 24 + 5 * w2 / 12) / sqrt mu0 + (eps1 * (dt * dt) / 24 + w2 / 12 + eps1 * w2 / 4) / sqrt eps0 / rq) in *.
  assert (mt : 0 <= mu1 * (dt * dt) <= mu1 * (eps0 * mu0) * w2). { split; [apply Rmult_le_pos; lra|]. rewrite Rmult_assoc. apply Rmult_le_compat_l; lra. }
  assert (et : 0 <= eps1 * (dt * dt) <= eps1 * (eps0 * mu0) * w2). { split; [apply Rmult_le_pos; lra|]. rewrite Rmult_assoc. apply Rmult_le_compat_l; lra. }
  assert (ew : 0 <= eps1 * w2) by (apply Rmult_le_pos; lra).
  assert (KK : 0 <= kk <= k * w2).
  { assert (A1 : 0 <= (mu1 * (dt * dt) / 24 + 5 * w2 / 12) / sqrt mu0 <= (mu1 * (eps0 * mu0) / 24 + 5 / 12) * / sqrt mu0 * w2).
    { split; [apply Rmult_le_pos; lra|]. replace ((mu1 * (eps0 * mu0) / 24 + 5 / 12) * / sqrt mu0 * w2) with ((mu1 * (eps0 * mu0) * w2 / 24 + 5 * w2 / 12) * / sqrt mu0) by (field; lra). unfold Rdiv at 1. apply Rmult_le_compat_r; lra. }
    assert (A2 : 0 <= (eps1 * (dt * dt) / 24 + w2 / 12 + eps1 * w2 / 4) / sqrt eps0 / rq <= (eps1 * (eps0 * mu0) / 24 + 1 / 12 + eps1 / 4) * / sqrt eps0 * / r * w2).
    { split; [apply Rmult_le_pos; [apply Rmult_le_pos|]; lra|].
      replace ((eps1 * (eps0 * mu0) / 24 + 1 / 12 + eps1 / 4) * / sqrt eps0 * / r * w2) with ((eps1 * (eps0 * mu0) * w2 / 24 + w2 / 12 + eps1 * w2 / 4) * / sqrt eps0 * / r) by (field; lra).
      unfold Rdiv at 1. unfold Rdiv at 1. apply Rmult_le_compat; [apply Rmult_le_pos; lra|lra| |lra]. apply Rmult_le_compat_r; lra. }
    unfold kk, k. lra. }
  clearbody kk.
  assert (Bb : 0 <= bb <= c * w2).
  { unfold bb, c. assert (Z0 : 0 <= sqrt eps1 * (M2 * w2 / 4)) by (apply Rmult_le_pos; [apply sqrt_pos|]; apply Rmult_le_pos; [apply Rmult_le_pos; lra|lra]).
    assert (Z1 : 0 <= INR n * dt * M) by (apply Rmult_le_pos; lra).
    assert (Z2 : 0 <= INR n * dt * M * kk <= Rabs T * M * k * w2).
    { split; [apply Rmult_le_pos; lra|]. rewrite (Rmult_assoc (Rabs T * M)). apply Rmult_le_compat; [lra|lra| |lra]. apply Rmult_le_compat_r; lra. }
    unfold Rdiv at 1 3. split; [apply Rmult_le_pos; lra|].
    replace ((sqrt eps1 * (M2 / 4) + Rabs T * M * k) * / r * w2) with ((sqrt eps1 * (M2 * w2 / 4) + Rabs T * M * k * w2) * / r) by (field; lra).
    apply Rmult_le_compat; lra. }
  assert (B2 : 12 * vol * (bb * bb) <= eta).
  { apply Rle_trans with (C * (w2 * w2)).
    - unfold C. replace (12 * vol * (c * c) * (w2 * w2)) with (12 * vol * (c * w2 * (c * w2))) by ring. apply Rmult_le_compat_l; [lra|]. apply Rmult_le_compat; lra.
    - assert (D4 : w2 * w2 <= dl).
      { assert (w2 <= 1) by (unfold w2; replace 1 with (1 * 1) by ring; apply Rmult_le_compat; lra).
        apply Rle_trans with (w2 * 1); [apply Rmult_le_compat_l; lra|]. rewrite Rmult_1_r. unfold w2. apply Rle_trans with (dl * 1); [apply Rmult_le_compat_l; lra|lra]. }
      apply Rle_trans with (C * dl); [apply Rmult_le_compat_l; assumption|].
      apply Rle_trans with (C * (eta / (C + 1))); [apply Rmult_le_compat_l; assumption|].
      apply (Rmult_le_reg_r (C + 1)); [lra|]. replace (C * (eta / (C + 1)) * (C + 1)) with (C * eta) by (field; lra). lra. }
  destruct B as [BE BH]. split; [exact (Rle_trans _ _ _ BE B2)|]. refine (Rle_trans _ _ _ BH _).
  assert (0 <= vol * (bb * bb)) by (apply Rmult_le_pos; [lra|apply Rle_0_sqr]). lra.
Qed.
Print Assumptions C168_converges.

(** The travelling wave of C164_case on two cells of widths pi/2 and 3 pi/2. *)
Example C168_case :
  let L := fun a : nat => if Nat.eqb a 0 then 2 * PI else 1 in
  let wave := fun (t : R) (c : nat) (p : pt) => if Nat.eqb c 1 then sin (fst (fst p) - t) else 0 in
  let dwave := fun (t : R) (a c : nat) (p : pt) => if Nat.eqb a 0 && Nat.eqb c 1 then cos (fst (fst p) - t) else 0 in
  let d2wave := fun (t : R) (a c : nat) (p : pt) => if Nat.eqb a 0 && Nat.eqb c 1 then - sin (fst (fst p) - t) else 0 in
  let twave := fun (t : R) (c : nat) (p : pt) => if Nat.eqb c 1 then - cos (fst (fst p) - t) else 0 in
  let X : planes := fun a i => if Nat.eqb a 0 then match i with 0%nat => 0 | 1%nat => PI / 2 | _ => 2 * PI end else INR i in
  let sh := [2; 1; 1]%nat in
  smooth_motion2 L wave dwave d2wave twave 1 1
  /\ (forall a, (a < 3)%nat -> span sh X a = L a)
  /\ (forall a i, (a < 3)%nat -> (i < dim sh a)%nat -> 1 <= base_w X a i <= 3 * PI / 2)
  /\ base_w X 0%nat 0%nat <> base_w X 0%nat 1%nat
  /\ / 2 * / 2 * (/ (1 * 1) + / (1 * 1) + / (1 * 1)) / (1 * 1) < 1.
Proof.
  cbv zeta.
  assert (Ds : forall t, derivable_pt_lim sin t (cos t)) by (intro; apply derivable_pt_lim_sin).
  assert (Dc : forall t, derivable_pt_lim cos t (- sin t)) by (intro; apply derivable_pt_lim_cos).
  assert (Dns : forall t, derivable_pt_lim (fun s => - sin s) t (- cos t)) by (intro; apply derivable_pt_lim_opp; apply Ds).
  assert (Dnc : forall t, derivable_pt_lim (fun s => - cos s) t (- - sin t)) by (intro; apply derivable_pt_lim_opp; apply Dc).
  assert (Bs : forall t, Rabs (- cos t) <= 1) by (intro t; rewrite Rabs_Ropp; apply Rabs_le; pose proof (COS_bound t); lra).
  assert (Bc : forall t, Rabs (- sin t) <= 1) by (intro t; rewrite Rabs_Ropp; apply Rabs_le; pose proof (SIN_bound t); lra).
  assert (Z : forall t : R, derivable_pt_lim (fun _ => 0) t 0) by (intro t; apply (d_ext (fct_cte 0)); [reflexivity|apply derivable_pt_lim_const]).
  assert (R0 : Rabs 0 <= 1) by (rewrite Rabs_R0; lra).
  pose proof PI_RGT_0 as PP. assert (P2 : 2 < PI) by (pose proof PI2_1; lra).
  split; [|split; [|split; [|split]]].
  - split; [|split; [|split]].
    + intros t c a [[x y] z] Hc Ha. destruct a as [|[|a]]; cbn [Nat.eqb mvp fst]; try reflexivity. destruct (Nat.eqb c 1); [|reflexivity].
      replace (x + 2 * PI - t) with (x - t + 2 * INR 1 * PI) by (cbn; ring). apply sin_period.
    + intros t c a Hc Ha. destruct (Nat.eqb_spec c 1) as [Y|N].
      * eapply diff23_ext; [| | |apply (along_x2 (fun s => sin (s - t)) (fun s => cos (s - t)) (fun s => - sin (s - t)) (fun s => - cos (s - t)) a)]; try (intro p; destruct (Nat.eqb a 0); reflexivity); try exact Ha.
        -- intro s. now apply d_shift.
        -- intro s. apply (d_shift cos (fun s => - sin s)); assumption.
        -- intro s. apply (d_shift (fun s => - sin s) (fun s => - cos s)); assumption.
        -- intro s. apply Bc.
        -- intro s. apply Bs.
      * eapply diff23_ext; [| | |apply (flat2 a)]; intro p; rewrite ?andb_false_r; reflexivity.
    + intros c [[x y] z] Hc. cbn [fst]. destruct (Nat.eqb c 1).
      * exists (fun s => - sin (x - s)), (fun s => - - cos (x - s)). split; [|split; [|split]].
        -- intro t. apply (d_back sin cos); exact Ds.
        -- intro t. apply (d_val _ _ (- - - sin (x - t))); [ring|]. apply (d_back (fun s => - cos s) (fun s => - - sin s)); exact Dnc.
        -- intro t. apply (d_back (fun s => - sin s) (fun s => - cos s)); exact Dns.
        -- intro t. rewrite Rabs_Ropp. apply Bs.
      * exists (fun _ => 0), (fun _ => 0). split; [|split; [|split]]; try (intro t; apply Z). intro t. exact R0.
    + intros c a [[x y] z] Hc Ha. cbn [fst]. destruct (Nat.eqb a 0 && Nat.eqb c 1).
      * exists (fun s => - - cos (x - s)). split; [intro t; apply (d_back (fun s => - sin s) (fun s => - cos s)); exact Dns|]. intro t. rewrite Rabs_Ropp. apply Bs.
      * exists (fun _ => 0). split; [intro t; apply Z|intro t; exact R0].
  - intros a Ha. unfold span, dim. destruct a as [|[|[|a]]]; [| | |lia]; cbn; ring.
  - intros a i Ha Hi. unfold base_w, dim in *. destruct a as [|[|[|a]]]; [| | |lia]; cbn [nth] in Hi.
    + destruct i as [|[|i]]; [| |lia]; cbn [Nat.eqb]; lra.
    + assert (i = 0%nat) as -> by lia. cbn. lra.
    + assert (i = 0%nat) as -> by lia. cbn. lra.
  - unfold base_w. cbn [Nat.eqb]. lra.
  - lra.
Qed.
