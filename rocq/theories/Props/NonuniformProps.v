(** Convergence of the frequency-domain method on grids with unequal widths (C167). *)
From Coq Require Import Reals Lra List Arith ZArith Lia Bool Psatz.
From Verif.Lib Require Import Num Sums Idx Mat RealF BoxMin.
From Verif.Model Require Import Fdmath Fdtd Fdfd.
From Verif.Spec Require Import Yee FdtdRun FdfdSpec HarmonicSpec DispersionSpec SmoothSpec NonuniformSpec.
From Verif.Proofs Require Import FdmathP FdtdP2 FdtdP BlochP2 DrivenP HarmonicP HarmonicP3 HarmonicP4 LossyP NumDispP TaylorP NonuniformP.
From Verif.Props Require Import ConvergeProps.
Import ListNotations.
Local Open Scope R_scope.

Local Ltac rr := cbn [fmul fadd RF]; match goal with |- ?a = ?b => change (a = b :> R) end; ring.
(** * Volumes add up to the domain *)
Lemma dim3 sh : length sh = 3%nat -> sh = [dim sh 0; dim sh 1; dim sh 2].
Proof. destruct sh as [|a [|b [|c [|d sh]]]]; cbn; intro H; try discriminate. reflexivity. Qed.
Lemma gsum_vol sh (u v w : widths RF) : length sh = 3%nat ->
  gsum (K := RF) sh (vol3 (K := RF) u v w) = rs (dim sh 0) (u 0%nat) * rs (dim sh 1) (v 1%nat) * rs (dim sh 2) (w 2%nat).
Proof.
  intro H. rewrite (dim3 sh H) at 1. cbn [gsum]. unfold vol3, coord. cbn [nth]. unfold rs.
  transitivity (sumN (K := RF) (dim sh 0) (fun i => u 0%nat i * (sumN (K := RF) (dim sh 1) (v 1%nat) * sumN (K := RF) (dim sh 2) (w 2%nat)))).
  - apply (sumN_ext RF). intros i _. transitivity (sumN (K := RF) (dim sh 1) (fun j => u 0%nat i * v 1%nat j * sumN (K := RF) (dim sh 2) (w 2%nat))).
    + apply (sumN_ext RF). intros j _. apply (sumN_mul_l RF).
    + rewrite (sumN_mul_r RF), (sumN_mul_l RF). exact (Rmult_assoc _ _ _).
  - rewrite (sumN_mul_r RF). exact (eq_sym (Rmult_assoc _ _ _)).
Qed.
Lemma base_sum X a n : rs n (base_w X a) = X a n - X a 0%nat.
Proof. exact (sumN_telescope RF n (X a)). Qed.
Lemma cyc_sum n (f : nat -> R) : rs n (fun i => f (if Nat.eqb (S i) n then 0%nat else S i)) = rs n f.
Proof.
  destruct n as [|n]; [reflexivity|]. refine (eq_trans _ (eq_sym (sumN_shift RF n f))). unfold rs. cbn [sumN]. rewrite Nat.eqb_refl.
  rewrite (sumN_ext RF n _ (fun i => f (S i))); [exact (Rplus_comm _ _)|]. intros i Hi. destruct (Nat.eqb_spec (S i) (S n)); [lia|reflexivity].
Qed.
Lemma derived_sum sh X a : rs (dim sh a) (derived_w sh X a) = X a (dim sh a) - X a 0%nat.
Proof.
  destruct (Nat.eq_dec (dim sh a) 0) as [Z|Z]. { rewrite Z. unfold rs. cbn. ring. }
  assert (Q : rs (dim sh a) (fun i => base_w X a (nxt sh a i)) = rs (dim sh a) (base_w X a)).
  { exact (cyc_sum (dim sh a) (base_w X a)). }
  rewrite <- base_sum. rewrite <- (Rmult_1_l (rs _ (base_w X a))). replace (1 * rs (dim sh a) (base_w X a)) with (/ 2 * (rs (dim sh a) (base_w X a) + rs (dim sh a) (fun i => base_w X a (nxt sh a i)))) by (rewrite Q; field).
  rewrite <- rs_add, <- rs_scale. apply rs_ext. intros i _. unfold derived_w. fold (nxt sh a i). field.
Qed.
Definition volume (sh : list nat) (X : planes) : R := span sh X 0 * span sh X 1 * span sh X 2.
Lemma vol_e_sum sh X : length sh = 3%nat -> fsum (K := RF) sh (vol_e (K := RF) (derived_w sh X) (base_w X)) = 3 * volume sh X.
Proof.
  intro H. set (u := derived_w sh X). set (v := base_w X).
  change (gsum (K := RF) sh (vol3 (K := RF) u v v) + gsum (K := RF) sh (vol3 (K := RF) v u v) + gsum (K := RF) sh (vol3 (K := RF) v v u) = 3 * volume sh X).
  rewrite !(gsum_vol sh) by exact H. unfold u, v, volume, span. rewrite !base_sum, !derived_sum. rr.
Qed.
Lemma vol_h_sum sh X : length sh = 3%nat -> fsum (K := RF) sh (vol_h (K := RF) (derived_w sh X) (base_w X)) = 3 * volume sh X.
Proof.
  intro H. set (u := derived_w sh X). set (v := base_w X).
  change (gsum (K := RF) sh (vol3 (K := RF) v u u) + gsum (K := RF) sh (vol3 (K := RF) u v u) + gsum (K := RF) sh (vol3 (K := RF) u u v) = 3 * volume sh X).
  rewrite !(gsum_vol sh) by exact H. unfold u, v, volume, span. rewrite !base_sum, !derived_sum. rr.
Qed.
Lemma fsum_vol_le sh (v x : nat -> list nat -> R) b : (forall c i, (c < 3)%nat -> inb sh i -> 0 <= v c i) -> (forall c i, (c < 3)%nat -> inb sh i -> x c i <= b) ->
  fsum (K := RF) sh (fun c i => v c i * x c i) <= b * fsum (K := RF) sh v.
Proof.
  intros V B. rewrite <- fsum_mul_r. apply fsum_le_r. intros c i Hc Hi. rewrite (Rmult_comm b). apply Rmult_le_compat_l; [now apply V|now apply B].
Qed.
Lemma cnrm_sum2 x y : cnrm (cadd x y) <= 2 * cnrm x + 2 * cnrm y.
Proof. unfold cnrm. cbn [cre cim cadd]. pose proof (Rle_0_sqr (cre x - cre y)). pose proof (Rle_0_sqr (cim x - cim y)). unfold Rsqr in *. lra. Qed.
Lemma cnrm_prod x y : cnrm (cmul x y) = cnrm x * cnrm y. Proof. unfold cnrm. cbn. ring. Qed.
Lemma cre_le_mod z b : 0 <= b -> cnrm z <= b * b -> cre z <= b.
Proof. intros P H. unfold cnrm in H. apply Rnot_lt_le. intro X. pose proof (Rle_0_sqr (cim z)). unfold Rsqr in *. assert (b * b < cre z * cre z) by (apply Rmult_le_0_lt_compat; lra). lra. Qed.

(** ** C167: second-order convergence on any nonuniform grid *)
(** The planes of the grid are arbitrary; dl bounds the widths.  The widths passed to the
    operators are the documented ones.  The error of the computed E and H, weighted with
    the volumes the samples stand for, is of order dl^2 with constants that do not depend
    on the grid: not on how abruptly the widths change either. *)
Theorem C167_second_order :
  forall (sh : list nat) (X : planes) (dl om : R) (eps mu J E H : nat -> pt -> cpx) (DE D2E DH : nat -> nat -> pt -> cpx) (M2 M d e1 m0 : R) (e : field CC),
    length sh = 3%nat -> 0 < om -> (forall a i, (a < 3)%nat -> (i < dim sh a)%nat -> 0 < base_w X a i <= dl) ->
    0 < d -> 0 <= e1 -> 0 < m0 ->
    (forall c p, (c < 3)%nat -> cim (eps c p) <= - d /\ cnrm (eps c p) <= e1 * e1) ->
    (forall c p, (c < 3)%nat -> cim (mu c p) <= 0 /\ m0 <= cre (mu c p)) ->
    smooth_field2 (span sh X) E DE D2E M2 M -> smooth_field (span sh X) H DH M ->
    (forall c p, (c < 3)%nat -> curl_of DE c p = copp (cmul (cmul (cmul ci (mkC om 0)) (mu c p)) (H c p))) ->
    (forall c p, (c < 3)%nat -> curl_of DH c p = cadd (cmul (cmul (cmul ci (mkC om 0)) (eps c p)) (E c p)) (J c p)) ->
    let we := derived_w sh X in let wh := base_w X in
    feq (K := CC) sh
      (unvec (K := CC) sh (mv (K := CC) (3 * prodl sh)
        (e_full_mat (K := CC) sh (mkC om 0) (cw we, cw wh) (vec (K := CC) sh (sam_e X eps)) (Some (vec (K := CC) sh (sam_h X mu))) None None) (vec (K := CC) sh e)))
      (fun c i => cmul (cmul (copp ci) (mkC om 0)) (sam_e X J c i)) ->
    let h := e2h_f (K := CC) sh (mkC om 0) (cw we, cw wh) (Some (sam_h X mu)) e in
    let k := (1 / d + (e1 / d + 1) / m0) / om in
    fsum (K := RF) sh (fun c i => vol_e (K := RF) we wh c i * cnrm (csub (e c i) (sam_e X E c i)))
    + fsum (K := RF) sh (fun c i => vol_h (K := RF) we wh c i * cnrm (csub (h c i) (sam_h X H c i)))
    <= volume sh X * (k * k * (9 / 4 * (M * M) + 3 / 2 * (om * e1 * M2 * (om * e1 * M2))) + 3 / 4 * (M2 * M2)) * (dl * dl * (dl * dl)).
Proof.
  intros sh X dl om eps mu J E H DE D2E DH M2 M d e1 m0 e HL Hom Hw Hd He1 Hm0 He Hm HE HH MxE MxH we wh Q h k.
  assert (Nz : nzm_opt (K := CC) sh (Some (sam_h X mu))) by (apply (mu_nz sh _ m0 Hm0); intros; now apply Hm).
  assert (On : mkC om 0 <> f0 (f := CC)) by (intro Y; apply (f_equal cre) in Y; cbn in Y; lra).
  assert (Wp : forall a i, (a < 3)%nat -> (i < dim sh a)%nat -> 0 < we a i /\ 0 < wh a i).
  { intros a i Ha Hi. split; [now apply (we_pos sh X dl)|now apply Hw]. }
  destruct (e_full_solution CC sh (mkC om 0) (cw we, cw wh) (sam_e X eps) (Some (sam_h X mu)) e (sam_e X J) HL On Nz Q) as [A B]. fold h in A, B.
  set (Es := star X E D2E). set (Hs := sam_h X H).
  set (m1 := mkC (-1) 0). set (de := fun c i => cadd (cmul c1 (e c i)) (cmul m1 (Es c i)) : CC). set (dh := fun c i => cadd (cmul c1 (h c i)) (cmul m1 (Hs c i)) : CC).
  set (RJ := fst (eh_full_f (K := CC) sh (mkC om 0) (cw we, cw wh) (sam_e X eps) (Some (sam_h X mu)) de dh)).
  set (RM := fun c i => copp (snd (eh_full_f (K := CC) sh (mkC om 0) (cw we, cw wh) (sam_e X eps) (Some (sam_h X mu)) de dh) c i)).
  pose proof (bounded sh we wh om (sam_e X eps) (Some (sam_h X mu)) HL Hom Wp d e1 m0 Hd He1 Hm0
    ltac:(intros c i Hc Hi; destruct (He c (at_e X c i) Hc); split; [assumption|now apply cre_le_mod]) ltac:(intros; now apply Hm) de dh RJ RM ltac:(intros c i _ _; reflexivity) ltac:(intros c i _ _; unfold RM; apply cpx_ext; cbn [cre cim copp]; symmetry; apply Ropp_involutive)) as Bd.
  cbv zeta in Bd. fold k in Bd. set (D4 := dl * dl * (dl * dl)).
  assert (SE : forall c i, (c < 3)%nat -> inb sh i -> cnrm (csub (Es c i) (sam_e X E c i)) <= M2 * M2 / 8 * D4).
  { intros c i Hc Hi. pose proof (star_near sh X dl HL Hw E DE D2E M2 M HE c i Hc Hi) as Y. apply close_nrm in Y. refine (Rle_trans _ _ _ Y (Req_le _ _ _)). unfold D4. field. }
  assert (BJ : forall c i, (c < 3)%nat -> inb sh i -> cnrm (RJ c i) <= (M * M / 36 + om * e1 * M2 * (om * e1 * M2) / 4) * D4).
  { intros c i Hc Hi. pose proof (curl_b_near sh X dl HL Hw H DH M HH c i Hc Hi) as Y0. apply close_nrm in Y0.
    set (ie := cmul (cmul ci (mkC om 0)) (sam_e X eps c i)).
    assert (V : cnrm (cmul ie (csub (Es c i) (sam_e X E c i))) <= om * e1 * M2 * (om * e1 * M2) / 8 * D4).
    { rewrite cnrm_prod. unfold ie. rewrite !cnrm_prod. destruct (He c (at_e X c i) Hc) as [_ He2]. pose proof (SE c i Hc Hi) as S1.
      replace (om * e1 * M2 * (om * e1 * M2) / 8 * D4) with (1 * (om * om) * (e1 * e1) * (M2 * M2 / 8 * D4)) by field.
      replace (cnrm ci * cnrm (mkC om 0)) with (1 * (om * om)) by (unfold cnrm; cbn; ring).
      assert (P0 : 0 <= 1 * (om * om)) by (pose proof (Rle_0_sqr om); unfold Rsqr in *; lra).
      apply Rmult_le_compat; [apply Rmult_le_pos; [exact P0|apply cnrm_pos]|apply cnrm_pos| |exact S1]. apply Rmult_le_compat_l; [exact P0|exact He2]. }
    pose proof (cnrm_sum2 (csub (curl_of DH c (at_e X c i)) (curl_back (K := CC) sh (Some (cw wh)) (sam_h X H) c i)) (cmul ie (csub (Es c i) (sam_e X E c i)))) as Tr.
    replace (cnrm (csub (curl_of DH c (at_e X c i)) (curl_back (K := CC) sh (Some (cw wh)) (sam_h X H) c i))) with (cnrm (csub (curl_back (K := CC) sh (Some (cw wh)) (sam_h X H) c i) (curl_of DH c (at_e X c i)))) in Tr by (unfold cnrm; cbn [cre cim csub]; ring).
    assert (G : cnrm (RJ c i) <= 2 * (2 * (M * (dl * dl) / 12 * (M * (dl * dl) / 12))) + 2 * (om * e1 * M2 * (om * e1 * M2) / 8 * D4)).
    2:{ refine (Rle_trans _ _ _ G (Req_le _ _ _)). unfold D4. field. }
    replace (cnrm (RJ c i)) with (cnrm (cadd (csub (curl_of DH c (at_e X c i)) (curl_back (K := CC) sh (Some (cw wh)) (sam_h X H) c i)) (cmul ie (csub (Es c i) (sam_e X E c i))))); [unfold wh in *; lra|].
    rewrite (MxH c (at_e X c i) Hc). pose proof (A c i Hc Hi) as A1. unfold RJ, eh_full_f in *. cbn [fst snd] in *. fold ie in A1 |- *.
    unfold dh. pose proof (curl_back_lin CC sh (Some (cw wh)) c c1 m1 h Hs i) as Y.
    set (z := curl_back (K := CC) sh (Some (cw wh)) (sam_h X H) c i) in *. change (curl_back (K := CC) sh (Some (cw wh)) Hs c i) with z in Y. set (y := curl_back (K := CC) sh (Some (cw wh)) h c i) in *.
    refine (eq_trans _ (f_equal (fun t => cnrm (csub t (cmul ie (de c i)))) (eq_sym Y))).
    assert (Ey : y = cadd (sam_e X J c i) (cmul ie (e c i))).
    { rewrite <- A1. change (y = cadd (csub y (cmul ie (e c i))) (cmul ie (e c i))). generalize (cmul ie (e c i)). intro t. apply cpx_ext; cbn [cre cim cadd csub]; ring. }
    rewrite Ey. unfold sam_e in *. unfold ie. clearbody z. set (x := Es c i) in *. unfold de. fold x. clearbody x. clear. unfold m1, cnrm, sam_e. cbn. ring. }
  assert (BM : forall c i, (c < 3)%nat -> inb sh i -> cnrm (RM c i) <= 25 / 72 * (M * M) * D4).
  { intros c i Hc Hi. pose proof (curl_f_near sh X dl HL Hw E DE D2E M2 M HE c i Hc Hi) as X0. apply close_nrm in X0.
    refine (Rle_trans _ _ _ _ (Rle_trans _ _ _ X0 (Req_le _ _ _))); [|unfold D4; field]. apply Req_le.
    fold Es. rewrite (MxE c (at_h X c i) Hc). pose proof (B c i Hc Hi) as B1. unfold RM, eh_full_f in *. cbn [fst snd] in *.
    pose proof (curl_forward_lin CC sh (Some (cw we)) c c1 m1 e Es i) as Y. fold we.
    set (z := curl_forward (K := CC) sh (Some (cw we)) Es c i) in *. set (y := curl_forward (K := CC) sh (Some (cw we)) e c i) in *.
    set (im := cmul (cmul ci (mkC om 0)) (sam_h X mu c i)).
    refine (eq_trans (f_equal (fun t => cnrm (copp (cadd t (cmul im (dh c i))))) Y) _).
    assert (Ey : y = copp (cmul im (h c i))).
    { assert (B2 : cadd y (cmul im (h c i)) = c0) by exact B1. revert B2. generalize (cmul im (h c i)). intros t B2.
      pose proof (f_equal cre B2) as P1. pose proof (f_equal cim B2) as P2. cbn [cre cim cadd c0] in P1, P2. apply cpx_ext; cbn [cre cim copp]; lra. }
    rewrite Ey. unfold dh. clearbody z. set (hh := h c i). clearbody hh. clear. unfold im, m1, Hs, sam_h, cnrm. cbn. ring. }
  assert (Pv : forall c i, (c < 3)%nat -> inb sh i -> 0 <= vol_e (K := RF) we wh c i /\ 0 <= vol_h (K := RF) we wh c i).
  { intros c i Hc Hi. assert (P : forall a, (a < 3)%nat -> 0 < we a (coord i a) /\ 0 < wh a (coord i a)) by (intros a Ha; apply Wp; [exact Ha|]; apply inb_coord; [exact Hi|lia]).
    pose proof (P 0%nat ltac:(lia)) as [? ?]. pose proof (P 1%nat ltac:(lia)) as [? ?]. pose proof (P 2%nat ltac:(lia)) as [? ?].
    destruct c as [|[|[|c]]]; [| | |lia]; split; unfold vol_h, vol_e, vol3; (apply Rmult_le_pos; [apply Rmult_le_pos|]); left; assumption. }
  assert (Ve : forall c i, (c < 3)%nat -> inb sh i -> 0 <= vol_e (K := RF) we wh c i) by (intros; now apply Pv).
  assert (Vh : forall c i, (c < 3)%nat -> inb sh i -> 0 <= vol_h (K := RF) we wh c i) by (intros; now apply Pv).
  pose proof (fsum_vol_le sh _ (fun c i => cnrm (RJ c i)) _ Ve BJ) as FJ. pose proof (fsum_vol_le sh _ (fun c i => cnrm (RM c i)) _ Vh BM) as FM.
  pose proof (fsum_vol_le sh _ (fun c i => cnrm (csub (Es c i) (sam_e X E c i))) _ Ve SE) as FE.
  pose proof (vol_e_sum sh X HL) as Se. pose proof (vol_h_sum sh X HL) as Sh. fold we in Se, Sh. fold wh in Se, Sh.
  rewrite Se in FJ, FE. rewrite Sh in FM.
  assert (Ge : fsum (K := RF) sh (fun c i => vol_e (K := RF) we wh c i * cnrm (csub (e c i) (sam_e X E c i)))
    <= 2 * fsum (K := RF) sh (fun c i => vol_e (K := RF) we wh c i * cnrm (de c i)) + 2 * fsum (K := RF) sh (fun c i => vol_e (K := RF) we wh c i * cnrm (csub (Es c i) (sam_e X E c i)))).
  { rewrite <- !fsum_mul_r, <- fsum_add_r. apply fsum_le_r. intros c i Hc Hi. pose proof (Ve c i Hc Hi) as P. set (v := vol_e (K := RF) we wh c i) in *.
    pose proof (cnrm_sum2 (de c i) (csub (Es c i) (sam_e X E c i))) as T.
    replace (cadd (de c i) (csub (Es c i) (sam_e X E c i))) with (csub (e c i) (sam_e X E c i)) in T by (unfold de, m1; apply cpx_ext; cbn; ring).
    replace (2 * (v * cnrm (de c i)) + 2 * (v * cnrm (csub (Es c i) (sam_e X E c i)))) with (v * (2 * cnrm (de c i) + 2 * cnrm (csub (Es c i) (sam_e X E c i)))) by ring.
    apply Rmult_le_compat_l; assumption. }
  assert (Gh : fsum (K := RF) sh (fun c i => vol_h (K := RF) we wh c i * cnrm (csub (h c i) (sam_h X H c i))) = fsum (K := RF) sh (fun c i => vol_h (K := RF) we wh c i * cnrm (dh c i))).
  { apply fsum_ext_r. intros c i _ _. unfold dh, m1, Hs, cnrm. cbn. ring. }
  assert (Ph : 0 <= fsum (K := RF) sh (fun c i => vol_h (K := RF) we wh c i * cnrm (dh c i))).
  { apply fsum_nonneg_r. intros c i Hc Hi. apply Rmult_le_pos; [now apply Vh|apply cnrm_pos]. }
  refine (Rle_trans _ _ _ (Rplus_le_compat_l _ _ _ (Req_le _ _ Gh)) _).
  set (x1 := fsum (K := RF) sh (fun c i => vol_e (K := RF) we wh c i * cnrm (csub (e c i) (sam_e X E c i)))) in *.
  set (x2 := fsum (K := RF) sh (fun c i => vol_e (K := RF) we wh c i * cnrm (de c i))) in *.
  set (x3 := fsum (K := RF) sh (fun c i => vol_e (K := RF) we wh c i * cnrm (csub (Es c i) (sam_e X E c i)))) in *.
  set (x4 := fsum (K := RF) sh (fun c i => vol_h (K := RF) we wh c i * cnrm (dh c i))) in *.
  set (x5 := fsum (K := RF) sh (fun c i => vol_e (K := RF) we wh c i * cnrm (RJ c i))) in *.
  set (x6 := fsum (K := RF) sh (fun c i => vol_h (K := RF) we wh c i * cnrm (RM c i))) in *.
  set (V := volume sh X) in *. clearbody x1 x2 x3 x4 x5 x6 V D4.
  set (z := om * e1 * M2 * (om * e1 * M2)) in *. clearbody z.
  assert (K2 : 0 <= k * k) by apply Rle_0_sqr. assert (B2 : k * k * (x5 + x6) <= k * k * ((M * M / 36 + z / 4) * D4 * (3 * V) + 25 / 72 * (M * M) * D4 * (3 * V))) by (apply Rmult_le_compat_l; lra).
  replace (V * (k * k * (9 / 4 * (M * M) + 3 / 2 * z) + 3 / 4 * (M2 * M2)) * D4)
    with (2 * (k * k * ((M * M / 36 + z / 4) * D4 * (3 * V) + 25 / 72 * (M * M) * D4 * (3 * V))) + 2 * (M2 * M2 / 8 * D4 * (3 * V))) by field.
  lra.
Qed.
Print Assumptions C167_second_order.

Lemma smooth_field2_ext L L' F D D2 M2 M : (forall a, (a < 3)%nat -> L a = L' a) -> smooth_field2 L F D D2 M2 M -> smooth_field2 L' F D D2 M2 M.
Proof. intros E [P Q]. split; [|exact Q]. intros c a p Hc Ha. rewrite <- (E a Ha). now apply P. Qed.

(** So for any family of grids of a fixed domain whose largest width tends to zero, with no
    other condition on the widths, the computed fields tend to the exact ones. *)
Theorem C167_converges :
  forall (L : nat -> R) (om : R) (eps mu J E H : nat -> pt -> cpx) (DE D2E DH : nat -> nat -> pt -> cpx) (M2 M d e1 m0 : R),
    (forall a, (a < 3)%nat -> 0 < L a) -> 0 < om -> 0 < d -> 0 <= e1 -> 0 < m0 ->
    (forall c p, (c < 3)%nat -> cim (eps c p) <= - d /\ cnrm (eps c p) <= e1 * e1) ->
    (forall c p, (c < 3)%nat -> cim (mu c p) <= 0 /\ m0 <= cre (mu c p)) ->
    smooth_field2 L E DE D2E M2 M -> smooth_field L H DH M ->
    (forall c p, (c < 3)%nat -> curl_of DE c p = copp (cmul (cmul (cmul ci (mkC om 0)) (mu c p)) (H c p))) ->
    (forall c p, (c < 3)%nat -> curl_of DH c p = cadd (cmul (cmul (cmul ci (mkC om 0)) (eps c p)) (E c p)) (J c p)) ->
    forall eta : R, 0 < eta ->
    exists dl : R, 0 < dl /\ forall (sh : list nat) (X : planes) (e : field CC),
      length sh = 3%nat -> (forall a, (a < 3)%nat -> span sh X a = L a) ->
      (forall a i, (a < 3)%nat -> (i < dim sh a)%nat -> 0 < base_w X a i <= dl) ->
      let we := derived_w sh X in let wh := base_w X in
      feq (K := CC) sh
        (unvec (K := CC) sh (mv (K := CC) (3 * prodl sh)
          (e_full_mat (K := CC) sh (mkC om 0) (cw we, cw wh) (vec (K := CC) sh (sam_e X eps)) (Some (vec (K := CC) sh (sam_h X mu))) None None) (vec (K := CC) sh e)))
        (fun c i => cmul (cmul (copp ci) (mkC om 0)) (sam_e X J c i)) ->
      let h := e2h_f (K := CC) sh (mkC om 0) (cw we, cw wh) (Some (sam_h X mu)) e in
      fsum (K := RF) sh (fun c i => vol_e (K := RF) we wh c i * cnrm (csub (e c i) (sam_e X E c i)))
      + fsum (K := RF) sh (fun c i => vol_h (K := RF) we wh c i * cnrm (csub (h c i) (sam_h X H c i))) <= eta.
Proof.
  intros L om eps mu J E H DE D2E DH M2 M d e1 m0 HL Hom Hd He1 Hm0 He Hm HE HH MxE MxH eta Heta.
  set (k := (1 / d + (e1 / d + 1) / m0) / om).
  set (C := L 0%nat * L 1%nat * L 2%nat * (k * k * (9 / 4 * (M * M) + 3 / 2 * (om * e1 * M2 * (om * e1 * M2))) + 3 / 4 * (M2 * M2))).
  assert (C0 : 0 <= C).
  { unfold C. pose proof (HL 0%nat ltac:(lia)). pose proof (HL 1%nat ltac:(lia)). pose proof (HL 2%nat ltac:(lia)).
    apply Rmult_le_pos; [repeat apply Rmult_le_pos; lra|]. pose proof (Rle_0_sqr M) as P1. pose proof (Rle_0_sqr M2) as P2. pose proof (Rle_0_sqr (om * e1 * M2)) as P3. unfold Rsqr in *.
    apply Rplus_le_le_0_compat; [apply Rmult_le_pos; [apply Rle_0_sqr|]|]; lra. }
  set (dl := Rmin 1 (eta / (C + 1))). assert (De : 0 < eta / (C + 1)) by (apply Rdiv_lt_0_compat; lra).
  assert (D0 : 0 < dl) by (unfold dl, Rmin; destruct (Rle_dec 1 (eta / (C + 1))); lra).
  assert (D1 : dl <= 1) by apply Rmin_l. assert (D2 : dl <= eta / (C + 1)) by apply Rmin_r.
  exists dl. split; [exact D0|]. intros sh X e HS HX Hw we wh Q h.
  assert (HX' : forall a, (a < 3)%nat -> L a = span sh X a) by (intros; symmetry; now apply HX).
  pose proof (C167_second_order sh X dl om eps mu J E H DE D2E DH M2 M d e1 m0 e HS Hom Hw Hd He1 Hm0 He Hm (smooth_field2_ext _ _ _ _ _ _ _ HX' HE) (smooth_field_ext _ _ _ _ _ HX' HH) MxE MxH Q) as B.
  cbv zeta in B. fold k in B. eapply Rle_trans; [exact B|]. unfold volume. rewrite <- !HX' by lia. fold C.
  assert (D4 : dl * dl * (dl * dl) <= dl).
  { assert (dl * dl <= 1) by (replace 1 with (1 * 1) by ring; apply Rmult_le_compat; lra). assert (0 <= dl * dl) by (apply Rmult_le_pos; lra).
    apply Rle_trans with (dl * dl * 1); [apply Rmult_le_compat_l; lra|]. rewrite Rmult_1_r. apply Rle_trans with (dl * 1); [apply Rmult_le_compat_l; lra|lra]. }
  apply Rle_trans with (C * dl); [apply Rmult_le_compat_l; assumption|].
  apply Rle_trans with (C * (eta / (C + 1))); [apply Rmult_le_compat_l; assumption|].
  apply (Rmult_le_reg_r (C + 1)); [lra|]. replace (C * (eta / (C + 1)) * (C + 1)) with (C * eta) by (field; lra). lra.
Qed.
Print Assumptions C167_converges.

(** The result cannot be read off point by point: the difference quotient of the samples
    themselves is only first-order accurate where the widths change. *)
Definition step_planes (w : R) : planes := fun a i =>
  match a, i with 0%nat, 0%nat => - (w / 2) | 0%nat, S k => INR k * w | _, _ => INR i * w end.
Theorem C167_pointwise_second_order_refuted :
  forall C : R, exists (sh : list nat) (X : planes) (dl : R) (idx : list nat),
    length sh = 3%nat /\ inb sh idx /\ span sh X 0 = 2 * PI
    /\ (forall a i, (a < 3)%nat -> (i < dim sh a)%nat -> 0 < base_w X a i <= dl)
    /\ C * (dl * dl) < Rabs (deriv_forward (K := RF) sh (Some (derived_w sh X)) 0 (sam_e X (fun _ p => cos (fst (fst p))) 1) idx - - sin (fst (fst (at_h X 2 idx)))).
Proof.
  intro C. set (B := 7 * (1 + 32 * Rabs C)). assert (C0 : 0 <= Rabs C) by apply Rabs_pos.
  set (m := Z.to_nat (up B)). assert (Hm : B < INR m).
  { unfold m. destruct (archimed B) as (A & _). apply Rgt_lt in A. assert (0 <= up B)%Z by (apply le_IZR; unfold B in *; lra). now rewrite INR_IZR_INZ, Z2Nat.id. }
  set (w := 2 * PI / (INR m + / 2)). assert (Pm : 0 < INR m + / 2) by (unfold B in Hm; lra).
  pose proof PI_RGT_0 as PP. assert (P4 : PI <= 4) by (pose proof PI_4; lra).
  assert (P3 : 2 * PI <= 7). { pose proof PI_ineq 1%nat as [_ Q]. unfold tg_alt, PI_tg in Q. cbn in Q. lra. }
  assert (W0 : 0 < w) by (apply Rdiv_lt_0_compat; lra).
  assert (Wm : w * (INR m + / 2) = 2 * PI) by (unfold w; field; lra).
  assert (W1 : w * (1 + 32 * Rabs C) <= 1).
  { apply (Rmult_le_reg_l 7); [lra|]. replace (7 * (w * (1 + 32 * Rabs C))) with (w * B) by (unfold B; ring). apply Rle_trans with (w * (INR m + / 2)); [apply Rmult_le_compat_l; lra|]. lra. }
  assert (M1 : (0 < m)%nat) by (apply INR_lt; unfold B in Hm; cbn [INR]; lra).
  exists [S m; 1; 1]%nat, (step_planes w), w, [0; 0; 0]%nat.
  split; [reflexivity|]. split; [repeat constructor; lia|]. split; [unfold span, step_planes, dim; cbn [nth]; lra|]. split.
  - intros a i Ha Hi. unfold base_w, step_planes. destruct a as [|[|[|a]]]; [| | |lia].
    + destruct i as [|i]; [cbn [INR]; lra|]. rewrite S_INR. lra.
    + rewrite S_INR. lra.
    + rewrite S_INR. lra.
  - unfold deriv_forward, roll. change (- -1)%Z with 1%Z.
    assert (Sx : shift_ix [S m; 1; 1]%nat 0 1 [0; 0; 0]%nat = [1; 0; 0]%nat).
    { unfold shift_ix, coord, dim. cbn [nth]. rewrite cyc_succ by lia. destruct (Nat.eqb_spec 1 (S m)); [lia|reflexivity]. }
    rewrite Sx. unfold sam_e, at_e, at_h, grid_pt, coord. cbn [nth Nat.eqb negb fst]. unfold derived_w. cbn [dim nth]. destruct (Nat.eqb_spec 1 (S m)) as [X0|_]; [lia|].
    unfold middle, base_w, step_planes. cbn [INR]. replace (0 * w) with 0 by ring. rewrite sin_0, Ropp_0. cbn [fsub fdiv RF].
    match goal with |- _ < Rabs ?t => change (C * (w * w) < Rabs t) end.
    replace ((0 + 1 * w) / 2) with (w / 2) by field. replace ((- (w / 2) + 0) / 2) with (- (w / 4)) by field. rewrite cos_neg.
    replace ((0 - - (w / 2) + (1 * w - 0)) / 2) with (3 * w / 4) by field.
    assert (S1 : forall x, 0 <= x <= 1 -> x / 2 <= sin x).
    { intros x Hx. pose proof (sin_lower x ltac:(lra)). assert (x * x <= 1) by (replace 1 with (1 * 1) by ring; apply Rmult_le_compat; lra). assert (x * x * x <= 1 * x) by (apply Rmult_le_compat_r; lra). lra. }
    assert (Wl : w <= 1). { assert (0 <= w * (32 * Rabs C)) by (apply Rmult_le_pos; lra). lra. }
    pose proof (S1 (3 * w / 8) ltac:(lra)) as A1. pose proof (S1 (w / 8) ltac:(lra)) as A2.
    pose proof (form2 (w / 2) (w / 4)) as Fm. replace ((w / 2 - w / 4) / 2) with (w / 8) in Fm by field. replace ((w / 2 + w / 4) / 2) with (3 * w / 8) in Fm by field.
    assert (A3 : 3 * w / 8 / 2 * (w / 8 / 2) <= sin (3 * w / 8) * sin (w / 8)) by (apply Rmult_le_compat; lra).
    apply Rlt_le_trans with (w / 32).
    + apply Rle_lt_trans with (Rabs C * (w * w)); [apply Rmult_le_compat_r; [apply Rle_0_sqr|apply Rle_abs]|]. assert (0 < w * w) by (apply Rmult_lt_0_compat; lra).
      apply (Rmult_lt_reg_r 32); [lra|]. replace (Rabs C * (w * w) * 32) with (w * (w * (32 * Rabs C))) by ring. replace (w / 32 * 32) with (w * 1) by field.
      apply Rmult_lt_compat_l; [lra|]. lra.
    + rewrite <- Rabs_Ropp. eapply Rle_trans; [|apply Rle_abs]. apply (Rmult_le_reg_r (3 * w / 4)); [lra|].
      match goal with |- _ <= ?t => replace t with (- (cos (w / 2) - cos (w / 4))) by (cbn; field; lra) end. rewrite Fm. lra.
Qed.
Print Assumptions C167_pointwise_second_order_refuted.

(** The fields of C163_case on two cells of widths pi/2 and 3 pi/2. *)
Lemma along_x2 (g g1 g2 g3 : R -> R) a : (forall t, derivable_pt_lim g t (g1 t)) -> (forall t, derivable_pt_lim g1 t (g2 t)) -> (forall t, derivable_pt_lim g2 t (g3 t)) ->
  (forall t, Rabs (g2 t) <= 1) -> (forall t, Rabs (g3 t) <= 1) -> (a < 3)%nat ->
  diff23 a (fun p => g (fst (fst p))) (fun p => if Nat.eqb a 0 then g1 (fst (fst p)) else 0) (fun p => if Nat.eqb a 0 then g2 (fst (fst p)) else 0) 1 1.
Proof.
  intros D1 D2 D3 B2 B Ha. assert (T : forall f f' : R -> R, (forall t, derivable_pt_lim f t (f' t)) -> pd 0 (fun p => f (fst (fst p))) (fun p => f' (fst (fst p)))).
  { intros f f' D [[x y] z] eps He. destruct (D x eps He) as (dl & Q). exists dl. intros h Hn Hl. cbn [mvp fst]. rewrite Rplus_0_l, Rplus_0_r. now apply Q. }
  assert (C : forall b (f : R -> R), b <> 0%nat -> pd b (fun p => f (fst (fst p))) (fun _ => 0)).
  { intros b f N [[x y] z]. apply (d_ext (fct_cte (f x))); [|apply derivable_pt_lim_const]. intro t. destruct b as [|[|b]]; [contradiction| |]; reflexivity. }
  assert (Z : forall b, pd b (fun _ => 0) (fun _ => 0)). { intros b p. apply (d_ext (fct_cte 0)); [reflexivity|apply derivable_pt_lim_const]. }
  assert (R0 : Rabs 0 <= 1) by (rewrite Rabs_R0; lra).
  destruct a as [|a]; cbn [Nat.eqb].
  - split; [now apply T|]. split; [now apply T|]. split; [intro; apply B2|]. intros b Hb. destruct b as [|b].
    + exists (fun p => g3 (fst (fst p))). split; [now apply T|intro; apply B].
    + exists (fun _ => 0). split; [apply (C (S b) g2); lia|intro; exact R0].
  - split; [apply (C (S a) g); lia|]. split; [apply Z|]. split; [intro; exact R0|]. intros b Hb. exists (fun _ => 0). split; [apply Z|intro; exact R0].
Qed.
Lemma diff23_ext a F G F1 G1 F2 G2 M2 M : (forall p, F p = G p) -> (forall p, F1 p = G1 p) -> (forall p, F2 p = G2 p) -> diff23 a F F1 F2 M2 M -> diff23 a G G1 G2 M2 M.
Proof.
  intros E1 E2 E3 (A & B & C & D). split; [|split; [|split]].
  - intro p. rewrite <- E2. apply (d_ext (fun t => F (mvp a t p))); [intro; apply E1|apply A].
  - intro p. rewrite <- E3. apply (d_ext (fun t => F1 (mvp a t p))); [intro; apply E2|apply B].
  - intro p. rewrite <- E3. apply C.
  - intros b Hb. destruct (D b Hb) as (F3 & P & Q). exists F3. split; [|exact Q]. intro p. apply (d_ext (fun t => F2 (mvp b t p))); [intro; apply E3|apply P].
Qed.
Lemma flat2 a : diff23 a (fun _ => 0) (fun _ => 0) (fun _ => 0) 1 1.
Proof.
  assert (Z : forall b, pd b (fun _ => 0) (fun _ => 0)). { intros b p. apply (d_ext (fct_cte 0)); [reflexivity|apply derivable_pt_lim_const]. }
  assert (R0 : Rabs 0 <= 1) by (rewrite Rabs_R0; lra).
  split; [apply Z|]. split; [apply Z|]. split; [intro; exact R0|]. intros b _. exists (fun _ => 0). split; [apply Z|intro; exact R0].
Qed.
Example C167_case :
  let L := fun a : nat => if Nat.eqb a 0 then 2 * PI else 1 in
  let xof := fun p : pt => fst (fst p) in
  let E := fun c p => if Nat.eqb c 1 then mkC (sin (xof p)) 0 else c0 in
  let DE := fun a c p => if Nat.eqb a 0 && Nat.eqb c 1 then mkC (cos (xof p)) 0 else c0 in
  let D2E := fun a c p => if Nat.eqb a 0 && Nat.eqb c 1 then mkC (- sin (xof p)) 0 else c0 in
  let X : planes := fun a i => if Nat.eqb a 0 then match i with 0%nat => 0 | 1%nat => PI / 2 | _ => 2 * PI end else INR i in
  let sh := [2; 1; 1]%nat in
  smooth_field2 L E DE D2E 1 1
  /\ (forall a, (a < 3)%nat -> span sh X a = L a)
  /\ (forall a i, (a < 3)%nat -> (i < dim sh a)%nat -> 0 < base_w X a i <= 3 * PI / 2)
  /\ base_w X 0%nat 0%nat <> base_w X 0%nat 1%nat
  /\ cnrm (mkC 1 (-1)) <= 2 * 2.
Proof.
  cbv zeta.
  assert (Ds : forall t, derivable_pt_lim sin t (cos t)) by (intro; apply derivable_pt_lim_sin).
  assert (Dc : forall t, derivable_pt_lim cos t (- sin t)) by (intro; apply derivable_pt_lim_cos).
  assert (Dns : forall t, derivable_pt_lim (fun s => - sin s) t (- cos t)) by (intro; apply derivable_pt_lim_opp; apply Ds).
  assert (Bs : forall t, Rabs (- cos t) <= 1) by (intro t; rewrite Rabs_Ropp; apply Rabs_le; pose proof (COS_bound t); lra).
  assert (Bc : forall t, Rabs (- sin t) <= 1) by (intro t; rewrite Rabs_Ropp; apply Rabs_le; pose proof (SIN_bound t); lra).
  pose proof PI_RGT_0 as PP. assert (P2 : 2 < PI) by (pose proof PI2_1; lra).
  split; [|split; [|split; [|split]]].
  - split.
    + intros c a [[x y] z] Hc Ha. destruct a as [|[|a]]; cbn [Nat.eqb mvp fst]; try reflexivity. destruct (Nat.eqb c 1); [|reflexivity]. f_equal. replace (x + 2 * PI) with (x + 2 * INR 1 * PI) by (cbn; ring). apply sin_period.
    + intros c a Hc Ha. destruct (Nat.eqb_spec c 1) as [->|N].
      * split; [|eapply diff23_ext; [| | |apply (flat2 a)]; intro p; destruct (Nat.eqb a 0); reflexivity].
        eapply diff23_ext; [| | |apply (along_x2 sin cos (fun s => - sin s) (fun s => - cos s) a); assumption]; intro p; [reflexivity| |]; destruct (Nat.eqb a 0); reflexivity.
      * split; (eapply diff23_ext; [| | |apply (flat2 a)]; intro p; rewrite ?andb_false_r; try reflexivity; destruct (Nat.eqb a 0); reflexivity).
  - intros a Ha. unfold span, dim. destruct a as [|[|[|a]]]; [| | |lia]; cbn; ring.
  - intros a i Ha Hi. unfold base_w, dim in *. destruct a as [|[|[|a]]]; [| | |lia]; cbn [nth] in Hi.
    + destruct i as [|[|i]]; [| |lia]; cbn [Nat.eqb]; lra.
    + assert (i = 0%nat) as -> by lia. cbn. lra.
    + assert (i = 0%nat) as -> by lia. cbn. lra.
  - unfold base_w. cbn [Nat.eqb]. lra.
  - unfold cnrm. cbn. lra.
Qed.
