(** The error of an FDTD run on a grid with unequal widths. *)
From Coq Require Import List Arith ZArith Lia Field Bool Reals Lra Psatz.
From Verif.Lib Require Import Num Sums Idx Mat RealF BoxMin.
From Verif.Model Require Import Fdmath Fdtd.
From Verif.Spec Require Import Yee FdtdRun HarmonicSpec DispersionSpec SmoothSpec NonuniformSpec.
From Verif.Proofs Require Import FdmathP FdmathP2 FdtdP FdtdP2 CflP DrivenP HarmonicP2 LossyP NumDispP TaylorP FdtdConvP FdtdConvP2 NonuniformP.
From Verif.Props Require Import NonuniformProps.
Import ListNotations.
Local Open Scope R_scope.

Local Ltac rr := match goal with |- ?a = ?b => change (a = b :> R) end; ring.
Section Conv.
  Variable sh : list nat.
  Variable X : planes.
  Variables dl d0 d1 d2 dt : R.
  Variables eps mu : nat -> pt -> R.
  Variables E H J : R -> nat -> pt -> R.
  Variables DE D2E DH : R -> nat -> nat -> pt -> R.
  Variables Et Ht : R -> nat -> pt -> R.
  Variables M2 M eps0 eps1 mu0 mu1 : R.
  Hypothesis HL : length sh = 3%nat.
  Hypothesis Hd0 : 0 < d0.
  Hypothesis Hd1 : 0 < d1.
  Hypothesis Hd2 : 0 < d2.
  Hypothesis Hw : forall a i, (a < 3)%nat -> (i < dim sh a)%nat -> dmin d0 d1 d2 a <= base_w X a i <= dl.
  Hypothesis Hdt : 0 < dt.
  Hypothesis Heps0 : 0 < eps0.
  Hypothesis Hmu0 : 0 < mu0.
  Hypothesis Heps : forall c p, (c < 3)%nat -> eps0 <= eps c p <= eps1.
  Hypothesis Hmu : forall c p, (c < 3)%nat -> mu0 <= mu c p <= mu1.
  Notation L := (span sh X).
  Hypothesis SE : smooth_motion2 L E DE D2E Et M2 M.
  Hypothesis SH : smooth_motion L H DH Ht M.
  Hypothesis MxE : forall t c p, (c < 3)%nat -> eps c p * Et t c p = curl_re (DH t) c p - J t c p.
  Hypothesis MxH : forall t c p, (c < 3)%nat -> mu c p * Ht t c p = - curl_re (DE t) c p.
  Let we := derived_w sh X.
  Let wh := base_w X.
  Let d : dxes_t RF := Some (we, wh).
  Let ep : field RF := sam_e X eps.
  Let mm : option (field RF) := Some (sam_h X mu).
  Notation q0 := (q d0 d1 d2 dt eps0 mu0).
  Hypothesis Hq : q0 < 1.
  Let V3 := 3 * volume sh X.

  Lemma dmin_pos a : (a < 3)%nat -> 0 < dmin d0 d1 d2 a.
  Proof. intro Ha. destruct a as [|[|[|a]]]; [| | |lia]; cbn; assumption. Qed.
  Lemma Hw0 a i : (a < 3)%nat -> (i < dim sh a)%nat -> 0 < base_w X a i <= dl.
  Proof. intros Ha Hi. pose proof (Hw a i Ha Hi). pose proof (dmin_pos a Ha). lra. Qed.
  Lemma Hww a i : (a < 3)%nat -> (i < dim sh a)%nat -> dmin d0 d1 d2 a <= we a i /\ dmin d0 d1 d2 a <= wh a i.
  Proof.
    intros Ha Hi. pose proof (Hw a i Ha Hi) as P. split; [|exact (proj1 P)]. unfold we, derived_w. fold (nxt sh a i). pose proof (Hw a _ Ha (nxt_lt sh a i Hi)). lra.
  Qed.
  Lemma nz_we : nzw (K := RF) sh we.
  Proof. intros a i Ha Hi. pose proof (Hww a i ltac:(lia) Hi) as [P _]. pose proof (dmin_pos a ltac:(lia)). cbn in *. lra. Qed.
  Lemma nz_wh : nzw (K := RF) sh wh.
  Proof. intros a i Ha Hi. pose proof (Hww a i ltac:(lia) Hi) as [_ P]. pose proof (dmin_pos a ltac:(lia)). cbn in *. lra. Qed.

  (** * Corrected samples of E *)
  Definition Ec t : nat -> pt -> cpx := fun c p => mkC (E t c p) 0.
  Definition D2c t : nat -> nat -> pt -> cpx := fun a c p => mkC (D2E t a c p) 0.
  Definition DEc t : nat -> nat -> pt -> cpx := fun a c p => mkC (DE t a c p) 0.
  Definition Est (t : R) : field RF := part X (Ec t) (D2c t) cre.
  Lemma M2_pos : 0 <= M2.
  Proof. destruct SE as (_ & Df & _). destruct (Df 0 0%nat 0%nat ltac:(lia) ltac:(lia)) as (_ & _ & B & _). pose proof (B (0, 0, 0)). pose proof (Rabs_pos (D2E 0 0%nat 0%nat (0, 0, 0))). lra. Qed.
  Lemma M0 : 0 <= M.
  Proof. destruct SH as (_ & Df & _). exact (diff3_M _ _ _ _ (Df 0 0%nat 0%nat ltac:(lia) ltac:(lia))). Qed.
  Lemma flat23 a : diff23 a (fun _ => 0) (fun _ => 0) (fun _ => 0) M2 M.
  Proof.
    assert (Z : forall b, pd b (fun _ => 0) (fun _ => 0)). { intros b p. apply (d_ext (fct_cte 0)); [reflexivity|apply derivable_pt_lim_const]. }
    split; [apply Z|]. split; [apply Z|]. split; [intro; rewrite Rabs_R0; exact M2_pos|]. intros b _. exists (fun _ => 0). split; [apply Z|intro; rewrite Rabs_R0; exact M0].
  Qed.
  Lemma lift2 t : smooth_field2 L (Ec t) (DEc t) (D2c t) M2 M.
  Proof.
    destruct SE as (P & Df & _). split.
    - intros c a p Hc Ha. unfold Ec. now rewrite P.
    - intros c a Hc Ha. split; [exact (Df t c a Hc Ha)|exact (flat23 a)].
  Qed.
  Lemma liftH t : smooth_field L (fun c p => mkC (H t c p) 0) (fun a c p => mkC (DH t a c p) 0) M.
  Proof.
    destruct SH as (P & Df & _). split.
    - intros c a p Hc Ha. now rewrite P.
    - intros c a Hc Ha. split; [exact (Df t c a Hc Ha)|exact (flatM a M M0)].
  Qed.
  Lemma curl_lift2 (D : nat -> nat -> pt -> R) c p : (c < 3)%nat -> cre (curl_of (fun a c p => mkC (D a c p) 0) c p) = curl_re D c p.
  Proof. clear. intro Hc. destruct c as [|[|[|c]]]; [| | |lia]; reflexivity. Qed.
  Lemma fwd2 t c i : (c < 3)%nat -> inb sh i -> Rabs (curl_forward (K := RF) sh (Some we) (Est t) c i - curl_re (DE t) c (at_h X c i)) <= 5 * M * (dl * dl) / 12.
  Proof.
    intros Hc Hi. destruct (curl_f_near sh X dl HL Hw0 (Ec t) (DEc t) (D2c t) M2 M (lift2 t) c i Hc Hi) as [A _]. unfold DEc in A. rewrite (curl_lift2 (DE t) c _ Hc) in A.
    pose proof (re_curl_forward sh we HL nz_we (star X (Ec t) (D2c t)) c i Hc Hi) as Y.
    refine (Rle_trans _ _ _ (Req_le _ _ _) A). f_equal. f_equal. exact Y.
  Qed.
  Lemma back2 t c i : (c < 3)%nat -> inb sh i -> Rabs (curl_back (K := RF) sh (Some wh) (sam_h X (H t)) c i - curl_re (DH t) c (at_e X c i)) <= M * (dl * dl) / 12.
  Proof.
    intros Hc Hi. destruct (curl_b_near sh X dl HL Hw0 _ _ M (liftH t) c i Hc Hi) as [A _]. rewrite (curl_lift2 (DH t) c _ Hc) in A.
    pose proof (re_curl_back sh wh HL nz_wh (sam_h X (fun c p => mkC (H t c p) 0)) c i Hc Hi) as Y.
    refine (Rle_trans _ _ _ (Req_le _ _ _) A). f_equal. f_equal. exact Y.
  Qed.
  Lemma Est_near t c i : (c < 3)%nat -> inb sh i -> Rabs (Est t c i - sam_e X (E t) c i) <= M2 * (dl * dl) / 4.
  Proof. intros Hc Hi. exact (proj1 (star_near sh X dl HL Hw0 (Ec t) (DEc t) (D2c t) M2 M (lift2 t) c i Hc Hi)). Qed.
  (** The correction moves slowly. *)
  Lemma Est_slow t c i : (c < 3)%nat -> inb sh i ->
    Rabs ((Est (t + dt / 2) c i - Est (t - dt / 2) c i) - (E (t + dt / 2) c (at_e X c i) - E (t - dt / 2) c (at_e X c i))) <= dt * (M * (dl * dl) / 4).
  Proof.
    intros Hc Hi. set (p := at_e X c i).
    assert (T : forall a, (a < 3)%nat -> Rabs (kap X a (coord i a) * (D2E (t + dt / 2) a c p - D2E (t - dt / 2) a c p)) <= dt * (M * (dl * dl) / 8)).
    { intros a Ha. destruct (kap_bd sh X dl Hw0 a (coord i a) Ha ltac:(apply inb_coord; [exact Hi|lia])) as [K0 K1].
      destruct SE as (_ & _ & _ & G). destruct (G c a p Hc Ha) as (g & Dg & Bg).
      pose proof (lipschitz (fun s => D2E (t + s) a c p) (fun s => g (t + s)) M ltac:(intro s; apply (shift_lim (fun s => D2E s a c p)); apply Dg) ltac:(intro s; apply Bg) (dt / 2) (dt / 2) ltac:(lra) ltac:(lra)) as Q.
      cbv beta in Q. change (t + - (dt / 2)) with (t - dt / 2) in Q. rewrite Rabs_mult, (Rabs_right (kap X a (coord i a))) by lra.
      replace (dt * (M * (dl * dl) / 8)) with (dl * dl / 8 * (M * (dt / 2 + dt / 2))) by field. apply Rmult_le_compat; [lra|apply Rabs_pos|lra|exact Q]. }
    assert (U : forall x y, Rabs x <= dt * (M * (dl * dl) / 8) -> Rabs y <= dt * (M * (dl * dl) / 8) -> Rabs (- x + - y) <= dt * (M * (dl * dl) / 4)).
    { intros x y Hx Hy. eapply Rle_trans; [apply Rabs_triang|]. rewrite !Rabs_Ropp. lra. }
    unfold Est. destruct c as [|[|[|c]]]; [| | |lia].
    - rewrite !(part_at X _ _ cre 1 0 2) by lia. fold p. refine (Rle_trans _ _ _ (Req_le _ _ _) (U _ _ (T 1%nat ltac:(lia)) (T 2%nat ltac:(lia)))). f_equal. cbn [Ec D2c cre]. ring.
    - rewrite !(part_at X _ _ cre 0 1 2) by lia. fold p. refine (Rle_trans _ _ _ (Req_le _ _ _) (U _ _ (T 0%nat ltac:(lia)) (T 2%nat ltac:(lia)))). f_equal. cbn [Ec D2c cre]. ring.
    - rewrite !(part_at X _ _ cre 0 2 1) by lia. fold p. refine (Rle_trans _ _ _ (Req_le _ _ _) (U _ _ (T 0%nat ltac:(lia)) (T 1%nat ltac:(lia)))). f_equal. cbn [Ec D2c cre]. ring.
  Qed.

  (** * The error *)
  Definition jn (n : nat) : field RF := fun c i => - dt * sam_e X (J ((INR n + / 2) * dt)) c i.
  Definition s0 : state RF := mkst (sam_e X (E 0)) (sam_h X (H (- dt / 2))).
  Definition sn (n : nat) : state RF := run sh dt d ep mm (map jn (seq 0 n)) s0.
  Definition es (n : nat) : field RF := Est (INR n * dt).
  Definition hs (n : nat) : field RF := sam_h X (H ((INR n - / 2) * dt)).
  Definition an (n : nat) : state RF := mkst (fun c i => 1 * sE (sn n) c i + - (1) * es n c i) (fun c i => 1 * sH (sn n) c i + - (1) * hs n c i).
  Definition gn (n : nat) : field RF := fun c i =>
    - (hs (S n) c i - hs n c i) - dt * curl_forward (K := RF) sh (Some we) (es n) c i / sam_h X mu c i.
  Definition en (n : nat) : field RF := fun c i =>
    jn n c i - ep c i * (es (S n) c i - es n c i) + dt * curl_back (K := RF) sh (Some wh) (hs (S n)) c i.

  Lemma sn_S n : sn (S n) = step sh dt d ep mm (jn n) (sn n).
  Proof. unfold sn, run. rewrite seq_S, map_app, fold_left_app. reflexivity. Qed.
  Lemma ep_pos c i : (c < 3)%nat -> eps0 <= ep c i <= eps1.
  Proof. intro Hc. now apply Heps. Qed.
  Lemma mm_pos c i : (c < 3)%nat -> mu0 <= sam_h X mu c i <= mu1.
  Proof. intro Hc. now apply Hmu. Qed.

  Lemma an_step n : seq_st sh (an (S n)) (step sh dt d ep mm (en n) (kicked (gn n) (an n))).
  Proof.
    assert (HH : feq sh (sH (an (S n))) (sH (step sh dt d ep mm (en n) (kicked (gn n) (an n))))).
    { intros c i Hc Hi. cbn [an sH]. rewrite sn_S. unfold step, maxwell_h. cbn [sE sH mm d option_map fst kicked an].
      pose proof (curl_forward_lin RF sh (Some we) c 1%R (- (1))%R (sE (sn n)) (es n) i) as Y. unfold gn.
      set (x := curl_forward (K := RF) sh (Some we) (sE (sn n)) c i) in *. set (y := curl_forward (K := RF) sh (Some we) (es n) c i) in *.
      cbn [fadd fmul fsub fdiv RF] in *. rewrite Y. pose proof (mm_pos c i Hc). clearbody x y. match goal with |- ?a = ?b => change (a = b :> R) end. field. lra. }
    split; [|exact HH].
    intros c i Hc Hi. unfold step. cbn [sE]. unfold maxwell_e. cbn [d option_map snd].
    assert (Y0 : curl_back (K := RF) sh (Some wh) (maxwell_h sh dt (Some (we, wh)) (sE (kicked (gn n) (an n))) (sH (kicked (gn n) (an n))) mm) c i
      = curl_back (K := RF) sh (Some wh) (sH (an (S n))) c i).
    { apply (curl_back_ext RF); [lia|assumption|]. intros k j Hk Hj. symmetry. now apply HH. }
    unfold d in *. rewrite Y0. cbn [an sH kicked sE].
    pose proof (curl_back_lin RF sh (Some wh) c 1%R (- (1))%R (sH (sn (S n))) (hs (S n)) i) as Y. cbn [fadd fmul RF] in Y. rewrite Y.
    rewrite sn_S at 1. unfold step at 1. cbn [sE]. unfold maxwell_e. unfold d. cbn [option_map snd].
    assert (Z : curl_back (K := RF) sh (Some wh) (maxwell_h sh dt (Some (we, wh)) (sE (sn n)) (sH (sn n)) mm) c i = curl_back (K := RF) sh (Some wh) (sH (sn (S n))) c i) by (rewrite sn_S; reflexivity).
    rewrite Z. unfold en. set (x := curl_back (K := RF) sh (Some wh) (sH (sn (S n))) c i) in *. set (y := curl_back (K := RF) sh (Some wh) (hs (S n)) c i) in *.
    pose proof (ep_pos c i Hc). clearbody x y. cbn [fadd fmul fsub fdiv RF]. match goal with |- ?a = ?b => change (a = b :> R) end. field. lra.
  Qed.

  Definition bg : R := dt * (M * (mu1 * (dt * dt) / 24 + 5 * (dl * dl) / 12)).
  Definition bj : R := dt * (M * (eps1 * (dt * dt) / 24 + (dl * dl) / 12 + eps1 * (dl * dl) / 4)).
  Lemma gn_bound n c i : (c < 3)%nat -> inb sh i -> Rabs (sam_h X mu c i * gn n c i) <= bg.
  Proof.
    intros Hc Hi. pose proof (mm_pos c i Hc) as Pm. set (p := at_h X c i). set (t := INR n * dt).
    destruct SH as (_ & _ & TH). destruct (TH c p Hc) as (f2 & f3 & D1 & D2 & D3 & B).
    pose proof (central_t (fun s => H s c p) (fun s => Ht s c p) f2 f3 M dt t D1 D2 D3 B Hdt) as C. cbv beta in C.
    pose proof (fwd2 t c i Hc Hi) as F. fold p in F.
    pose proof (MxH t c p Hc) as Y. unfold gn, hs, es. unfold sam_h at 2 3. fold p. fold t.
    replace ((INR (S n) - / 2) * dt) with (t + dt / 2) by (unfold t; rewrite S_INR; field).
    replace ((INR n - / 2) * dt) with (t - dt / 2) by (unfold t; field).
    set (k := curl_forward (K := RF) sh (Some we) (Est t) c i) in *. change (sam_h X mu c i) with (mu c p) in *. clearbody k.
    set (a := H (t + dt / 2) c p) in *. set (b := H (t - dt / 2) c p) in *. set (m := mu c p) in *. set (u := Ht t c p) in *. clearbody a b m u. clear TH D1 D2 D3 B.
    cbn [fadd fmul fsub fdiv fopp RF] in *.
    replace (m * (- (a - b) - dt * k / m)) with (- (m * (a - b - dt * u) + dt * (k - curl_re (DE t) c p))).
    2:{ replace (curl_re (DE t) c p) with (- (m * u)) by lra. field. lra. }
    rewrite Rabs_Ropp. eapply Rle_trans; [apply Rabs_triang|]. rewrite !Rabs_mult, (Rabs_right m), (Rabs_right dt) by lra.
    apply Rle_trans with (mu1 * (dt * (M * (dt * dt) / 24)) + dt * (5 * M * (dl * dl) / 12)); [|right; unfold bg; field].
    apply Rplus_le_compat; [|apply Rmult_le_compat_l; lra]. apply Rmult_le_compat; [lra|apply Rabs_pos|lra|exact C].
  Qed.
  Lemma en_bound n c i : (c < 3)%nat -> inb sh i -> Rabs (en n c i) <= bj.
  Proof.
    intros Hc Hi. pose proof (ep_pos c i Hc) as Pm. set (p := at_e X c i). set (t := (INR n + / 2) * dt).
    destruct SE as (_ & _ & TE & _). destruct (TE c p Hc) as (f2 & f3 & D1 & D2 & D3 & B).
    pose proof (central_t (fun s => E s c p) (fun s => Et s c p) f2 f3 M dt t D1 D2 D3 B Hdt) as C. cbv beta in C.
    pose proof (back2 t c i Hc Hi) as F. fold p in F. pose proof (Est_slow t c i Hc Hi) as S1. fold p in S1.
    pose proof (MxE t c p Hc) as Y. unfold en, jn, hs, es. unfold sam_e at 1. fold p. fold t.
    replace ((INR (S n) - / 2) * dt) with t by (unfold t; rewrite S_INR; field).
    replace (INR (S n) * dt) with (t + dt / 2) by (unfold t; rewrite S_INR; field).
    replace (INR n * dt) with (t - dt / 2) by (unfold t; field).
    set (k := curl_back (K := RF) sh (Some wh) (sam_h X (H t)) c i) in *. change (ep c i) with (eps c p) in *. clearbody k.
    set (a := E (t + dt / 2) c p) in *. set (b := E (t - dt / 2) c p) in *. set (m := eps c p) in *. set (u := Et t c p) in *.
    set (x := Est (t + dt / 2) c i) in *. set (y := Est (t - dt / 2) c i) in *. clearbody a b m u x y. clear TE D1 D2 D3 B.
    cbn [fadd fmul fsub fdiv fopp RF] in *.
    replace (- dt * J t c p - m * (x - y) + dt * k) with (dt * (k - curl_re (DH t) c p) + - (m * (a - b - dt * u)) + - (m * ((x - y) - (a - b)))).
    2:{ replace (J t c p) with (curl_re (DH t) c p - m * u) by lra. ring. }
    eapply Rle_trans; [apply Rabs_triang|]. apply Rle_trans with ((dt * (M * (dl * dl) / 12) + eps1 * (dt * (M * (dt * dt) / 24))) + eps1 * (dt * (M * (dl * dl) / 4))); [|right; unfold bj; field].
    apply Rplus_le_compat.
    - eapply Rle_trans; [apply Rabs_triang|]. rewrite Rabs_Ropp. rewrite !Rabs_mult, (Rabs_right m), (Rabs_right dt) by lra.
      apply Rplus_le_compat; [apply Rmult_le_compat_l; lra|]. apply Rmult_le_compat; [lra|apply Rabs_pos|lra|exact C].
    - rewrite Rabs_Ropp, Rabs_mult, (Rabs_right m) by lra. apply Rmult_le_compat; [lra|apply Rabs_pos|lra|exact S1].
  Qed.

  Lemma vols c i : (c < 3)%nat -> inb sh i -> 0 <= vol_e (K := RF) we wh c i /\ 0 <= vol_h (K := RF) we wh c i.
  Proof.
    intros Hc Hi. assert (P : forall a, (a < 3)%nat -> 0 < we a (coord i a) /\ 0 < wh a (coord i a)).
    { intros a Ha. pose proof (Hww a (coord i a) Ha ltac:(apply inb_coord; [exact Hi|lia])). pose proof (dmin_pos a Ha). lra. }
    pose proof (P 0%nat ltac:(lia)) as [? ?]. pose proof (P 1%nat ltac:(lia)) as [? ?]. pose proof (P 2%nat ltac:(lia)) as [? ?].
    destruct c as [|[|[|c]]]; [| | |lia]; split; unfold vol_h, vol_e, vol3; (apply Rmult_le_pos; [apply Rmult_le_pos|]); left; assumption.
  Qed.
  Lemma V3_pos : 0 <= V3.
  Proof. unfold V3. rewrite <- (vol_e_sum sh X HL). apply fsum_nonneg_r. intros c i Hc Hi. exact (proj1 (vols c i Hc Hi)). Qed.
  Lemma sum_vol_e (x : nat -> list nat -> R) b : (forall c i, (c < 3)%nat -> inb sh i -> x c i <= b) -> fsum (K := RF) sh (fun c i => vol_e (K := RF) we wh c i * x c i) <= V3 * b.
  Proof.
    intro B. rewrite (Rmult_comm V3). unfold V3. rewrite <- (vol_e_sum sh X HL). apply fsum_vol_le; [|exact B]. intros c i Hc Hi. exact (proj1 (vols c i Hc Hi)).
  Qed.
  Lemma sum_vol_h (x : nat -> list nat -> R) b : (forall c i, (c < 3)%nat -> inb sh i -> x c i <= b) -> fsum (K := RF) sh (fun c i => vol_h (K := RF) we wh c i * x c i) <= V3 * b.
  Proof.
    intro B. rewrite (Rmult_comm V3). unfold V3. rewrite <- (vol_h_sum sh X HL). apply fsum_vol_le; [|exact B]. intros c i Hc Hi. exact (proj2 (vols c i Hc Hi)).
  Qed.
  Lemma sqrt_bd (Y m b : R) : 0 < m -> 0 <= b -> Y <= V3 * (b * b / m) -> sqrt Y <= sqrt V3 * (b / sqrt m).
  Proof.
    intros Pm Pb B. eapply Rle_trans; [apply sqrt_le_1_alt, B|]. rewrite (sqrt_mult_alt V3) by exact V3_pos. unfold Rdiv.
    rewrite (sqrt_mult_alt (b * b)) by apply Rle_0_sqr. rewrite sqrt_square by exact Pb. rewrite <- inv_sqrt_depr by exact Pm. right. reflexivity.
  Qed.
  Lemma mu1_pos : 0 < mu1.
  Proof. pose proof (Hmu 0%nat (0, 0, 0) ltac:(lia)). lra. Qed.
  Lemma eps1_pos : 0 < eps1.
  Proof. pose proof (Heps 0%nat (0, 0, 0) ltac:(lia)). lra. Qed.
  Lemma bg_pos : 0 <= bg.
  Proof. unfold bg. pose proof M0. pose proof mu1_pos. assert (0 < dt * dt) by now apply Rmult_lt_0_compat. assert (0 < mu1 * (dt * dt)) by now apply Rmult_lt_0_compat. pose proof (Rle_0_sqr dl) as P. unfold Rsqr in P.
    apply Rmult_le_pos; [lra|]. apply Rmult_le_pos; lra. Qed.
  Lemma bj_pos : 0 <= bj.
  Proof. unfold bj. pose proof M0. pose proof eps1_pos. assert (0 < dt * dt) by now apply Rmult_lt_0_compat. assert (0 < eps1 * (dt * dt)) by now apply Rmult_lt_0_compat. pose proof (Rle_0_sqr dl) as P. unfold Rsqr in P.
    assert (0 <= eps1 * (dl * dl)) by (apply Rmult_le_pos; lra). apply Rmult_le_pos; [lra|]. apply Rmult_le_pos; lra. Qed.

  Lemma gn_norm n : sqrt (nrmH sh we wh mm (gn n)) <= sqrt V3 * (bg / sqrt mu0).
  Proof.
    apply sqrt_bd; [exact Hmu0|exact bg_pos|]. unfold nrmH. apply sum_vol_h. intros c i Hc Hi. pose proof (mm_pos c i Hc) as P.
    cbn [matl mm]. pose proof (sq_le _ _ (gn_bound n c i Hc Hi)) as Q. set (m := sam_h X mu c i) in *. set (g := gn n c i) in *. clearbody m g.
    replace (m * (g * g)) with ((m * g * (m * g)) * / m) by (field; lra). unfold Rdiv.
    apply Rmult_le_compat; [apply Rle_0_sqr|left; apply Rinv_0_lt_compat; lra|exact Q|apply Rinv_le_contravar; lra].
  Qed.
  Lemma en_norm n : sqrt (jj sh we wh ep (en n)) <= sqrt V3 * (bj / sqrt eps0).
  Proof.
    apply sqrt_bd; [exact Heps0|exact bj_pos|]. unfold jj. apply sum_vol_e. intros c i Hc Hi. pose proof (ep_pos c i Hc) as P.
    pose proof (sq_le _ _ (en_bound n c i Hc Hi)) as Q. unfold Rdiv.
    apply Rmult_le_compat; [apply Rle_0_sqr|left; apply Rinv_0_lt_compat; lra|exact Q|apply Rinv_le_contravar; lra].
  Qed.
  Definition b0 : R := M2 * (dl * dl) / 4.
  Lemma b0_pos : 0 <= b0.
  Proof. unfold b0. pose proof M2_pos. pose proof (Rle_0_sqr dl) as P. unfold Rsqr in P. apply Rmult_le_pos; [apply Rmult_le_pos|]; lra. Qed.
  Lemma nrm_star t : nrmE sh we wh ep (fun c i => Est t c i - sam_e X (E t) c i) <= V3 * (eps1 * (b0 * b0)).
  Proof.
    unfold nrmE. apply sum_vol_e. intros c i Hc Hi. pose proof (ep_pos c i Hc) as P. pose proof (sq_le _ _ (Est_near t c i Hc Hi)) as Q. fold b0 in Q.
    apply Rmult_le_compat; [lra|apply Rle_0_sqr|lra|exact Q].
  Qed.
  Lemma start_U : sqrt (yee_E RF sh dt d ep mm (an 0)) <= sqrt V3 * (sqrt eps1 * b0).
  Proof.
    assert (He : forall c i, (c < 3)%nat -> inb sh i -> eps0 <= ep c i) by (intros c i Hc _; exact (proj1 (ep_pos c i Hc))).
    assert (Hm : forall c i, (c < 3)%nat -> inb sh i -> mu0 <= matl mm c i) by (intros c i Hc _; exact (proj1 (mm_pos c i Hc))).
    assert (Z : yee_E RF sh dt d ep mm (an 0) = nrmE sh we wh ep (fun c i => Est 0 c i - sam_e X (E 0) c i)).
    { unfold d. rewrite (U_split sh we wh HL dt ep mm eps0 mu0 Hmu0 He Hm (an 0)).
      assert (Z1 : mid2 sh we wh dt mm (sE (an 0)) (sH (an 0)) = dt * dt / 4 * curl1 sh we wh mm (sE (an 0))).
      { unfold mid2, curl1. rewrite <- fsum_mul_r. apply fsum_ext_r. intros c i Hc Hi. pose proof (mm_pos c i Hc) as P.
        assert (Hz : sH (an 0) c i = 0). { cbn [an sH sn run map seq fold_left s0]. unfold hs. cbn [INR]. replace ((0 - / 2) * dt) with (- dt / 2) by field. rr. }
        rewrite Hz. change (matl mm c i) with (sam_h X mu c i). set (x := curl_forward (K := RF) sh (Some we) (sE (an 0)) c i). match goal with |- ?a = ?b => change (a = b :> R) end. field. lra. }
      assert (Z2 : nrmE sh we wh ep (sE (an 0)) = nrmE sh we wh ep (fun c i => Est 0 c i - sam_e X (E 0) c i)).
      { apply fsum_ext_r. intros c i Hc Hi. cbn [an sE sn run map seq fold_left s0]. unfold es. cbn [INR]. rewrite Rmult_0_l. cbn [s0 sE]. rr. }
      rewrite Z1, Z2. rr. }
    rewrite Z. eapply Rle_trans; [apply sqrt_le_1_alt, nrm_star|]. pose proof eps1_pos. rewrite (sqrt_mult_alt V3) by exact V3_pos. rewrite (sqrt_mult_alt eps1) by lra. rewrite sqrt_square by exact b0_pos. right. reflexivity.
  Qed.

  Lemma conv_U n : sqrt (yee_E RF sh dt d ep mm (an n)) <= sqrt V3 * (sqrt eps1 * b0 + INR n * (bg / sqrt mu0 + bj / sqrt eps0 / sqrt (1 - q0))).
  Proof.
    pose proof (conv_run sh we wh d0 d1 d2 HL Hd0 Hd1 Hd2 Hww dt ep mm eps0 mu0 Heps0 Hmu0
      ltac:(intros c i Hc _; exact (proj1 (ep_pos c i Hc))) ltac:(intros c i Hc _; exact (proj1 (mm_pos c i Hc))) Hq an gn en _ _ n
      ltac:(intros k _; apply an_step) ltac:(intros k _; apply gn_norm) ltac:(intros k _; apply en_norm)) as Rn.
    fold d in Rn. pose proof start_U as Z. refine (Rle_trans _ _ _ Rn _).
    apply Rle_trans with (sqrt V3 * (sqrt eps1 * b0) + INR n * (sqrt V3 * (bg / sqrt mu0) + sqrt V3 * (bj / sqrt eps0) / sqrt (1 - q0))); [lra|].
    right. field. split; [|split]; apply Rgt_not_eq, sqrt_lt_R0; lra.
  Qed.

  (** Both fields. *)
  Definition yb (n : nat) : R := sqrt eps1 * b0 + INR n * (bg / sqrt mu0 + bj / sqrt eps0 / sqrt (1 - q0)).
  Lemma yb_ge n : sqrt eps1 * b0 <= yb n /\ 0 <= yb n.
  Proof.
    assert (P : 0 <= INR n * (bg / sqrt mu0 + bj / sqrt eps0 / sqrt (1 - q0))).
    { apply Rmult_le_pos; [apply pos_INR|]. assert (0 < / sqrt mu0) by (apply Rinv_0_lt_compat, sqrt_lt_R0; lra). assert (0 < / sqrt eps0) by (apply Rinv_0_lt_compat, sqrt_lt_R0; lra).
      assert (0 < / sqrt (1 - q0)) by (apply Rinv_0_lt_compat, sqrt_lt_R0; lra). pose proof bg_pos. pose proof bj_pos.
      unfold Rdiv. apply Rplus_le_le_0_compat; [apply Rmult_le_pos; lra|]. apply Rmult_le_pos; [apply Rmult_le_pos|]; lra. }
    assert (Q : 0 <= sqrt eps1 * b0) by (apply Rmult_le_pos; [apply sqrt_pos|exact b0_pos]). unfold yb. lra.
  Qed.
  Lemma q0_pos : 0 < q0.
  Proof.
    unfold q. assert (0 < dt * dt) by now apply Rmult_lt_0_compat. assert (0 < eps0 * mu0) by now apply Rmult_lt_0_compat.
    assert (forall x, 0 < x -> 0 < / (x * x)) by (intros x Hx; apply Rinv_0_lt_compat; now apply Rmult_lt_0_compat). pose proof (H2 d0 Hd0). pose proof (H2 d1 Hd1). pose proof (H2 d2 Hd2).
    apply Rdiv_lt_0_compat; [apply Rmult_lt_0_compat; [assumption|]|assumption]. unfold Ssum. lra.
  Qed.
  Lemma conv_EH n :
    fsum (K := RF) sh (fun c i => vol_e (K := RF) we wh c i * (ep c i * ((sE (sn n) c i - sam_e X (E (INR n * dt)) c i) * (sE (sn n) c i - sam_e X (E (INR n * dt)) c i)))) <= 4 * V3 * (yb n * yb n / (1 - q0))
    /\ fsum (K := RF) sh (fun c i => vol_h (K := RF) we wh c i * (sam_h X mu c i * ((sH (sn n) c i - sam_h X (H ((INR n - / 2) * dt)) c i) * (sH (sn n) c i - sam_h X (H ((INR n - / 2) * dt)) c i)))) <= 2 * V3 * (yb n * yb n / (1 - q0)).
  Proof.
    assert (He : forall c i, (c < 3)%nat -> inb sh i -> eps0 <= ep c i) by (intros c i Hc _; exact (proj1 (ep_pos c i Hc))).
    assert (Hm : forall c i, (c < 3)%nat -> inb sh i -> mu0 <= matl mm c i) by (intros c i Hc _; exact (proj1 (mm_pos c i Hc))).
    pose proof (conv_U n) as C. fold (yb n) in C. destruct (yb_ge n) as [Y1 Y0].
    pose proof (stable_state sh we wh d0 d1 d2 HL Hd0 Hd1 Hd2 Hww dt ep mm eps0 mu0 Heps0 Hmu0 He Hm Hq (an n)) as [PE PH].
    pose proof (U_pos sh we wh d0 d1 d2 HL Hd0 Hd1 Hd2 Hww dt ep mm eps0 mu0 Heps0 Hmu0 He Hm Hq (an n)) as PU. fold d in PE, PH, PU.
    set (U := yee_E RF sh dt d ep mm (an n)) in *. pose proof V3_pos as PV. set (y := yb n) in *.
    assert (UY : U <= V3 * (y * y)).
    { rewrite <- (sqrt_sqrt U PU), <- (sqrt_sqrt V3 PV). replace (sqrt V3 * sqrt V3 * (y * y)) with (sqrt V3 * y * (sqrt V3 * y)) by ring. apply Rmult_le_compat; try apply sqrt_pos; exact C. }
    assert (Q0 : 0 < / (1 - q0)) by (apply Rinv_0_lt_compat; lra).
    assert (UQ : U / (1 - q0) <= V3 * (y * y / (1 - q0))). { unfold Rdiv. rewrite <- Rmult_assoc. apply Rmult_le_compat_r; lra. }
    assert (YQ : eps1 * (b0 * b0) <= y * y / (1 - q0)).
    { replace (eps1 * (b0 * b0)) with (sqrt eps1 * b0 * (sqrt eps1 * b0) * 1) by (rewrite <- (sqrt_sqrt eps1) at 3 by (left; exact eps1_pos); ring).
      assert (0 <= sqrt eps1 * b0) by (apply Rmult_le_pos; [apply sqrt_pos|exact b0_pos]).
      unfold Rdiv. apply Rmult_le_compat; [apply Rle_0_sqr|lra|apply Rmult_le_compat; lra|]. rewrite <- Rinv_1. apply Rinv_le_contravar; [lra|]. pose proof q0_pos. lra. }
    split.
    - pose proof (nrm_star (INR n * dt)) as PS.
      assert (Tr : fsum (K := RF) sh (fun c i => vol_e (K := RF) we wh c i * (ep c i * ((sE (sn n) c i - sam_e X (E (INR n * dt)) c i) * (sE (sn n) c i - sam_e X (E (INR n * dt)) c i))))
        <= 2 * nrmE sh we wh ep (sE (an n)) + 2 * nrmE sh we wh ep (fun c i => Est (INR n * dt) c i - sam_e X (E (INR n * dt)) c i)).
      { unfold nrmE. rewrite <- !fsum_mul_r, <- fsum_add_r. apply fsum_le_r. intros c i Hc Hi. destruct (vols c i Hc Hi) as [P _]. pose proof (ep_pos c i Hc) as Pe. cbn [an sE]. unfold es.
        set (v := vol_e (K := RF) we wh c i) in *. set (e := ep c i) in *. set (x := sE (sn n) c i). set (s := Est (INR n * dt) c i). set (z := sam_e X (E (INR n * dt)) c i). clearbody v e x s z. clear - P Pe Heps0.
        assert (0 <= e * ((x + z - 2 * s) * (x + z - 2 * s))) by (apply Rmult_le_pos; [lra|apply Rle_0_sqr]).
        refine (Rle_trans _ _ _ _ (Req_le (v * (2 * (e * ((x - s) * (x - s))) + 2 * (e * ((s - z) * (s - z))))) _ _)); [apply Rmult_le_compat_l; [exact P|]|]; [|rr].
        assert (e * ((x - z) * (x - z)) + e * ((x + z - 2 * s) * (x + z - 2 * s)) = 2 * (e * ((x - s) * (x - s))) + 2 * (e * ((s - z) * (s - z)))) by ring. lra. }
      refine (Rle_trans _ _ _ Tr _). assert (V3 * (eps1 * (b0 * b0)) <= V3 * (y * y / (1 - q0))) by (apply Rmult_le_compat_l; lra). lra.
    - assert (Ey : nrmH sh we wh mm (sH (an n)) = fsum (K := RF) sh (fun c i => vol_h (K := RF) we wh c i * (sam_h X mu c i * ((sH (sn n) c i - sam_h X (H ((INR n - / 2) * dt)) c i) * (sH (sn n) c i - sam_h X (H ((INR n - / 2) * dt)) c i))))).
      { apply fsum_ext_r. intros c i Hc Hi. cbn [an sH matl mm]. unfold hs. rr. }
      rewrite <- Ey. refine (Rle_trans _ _ _ PH _). unfold Rdiv in *. lra.
  Qed.
End Conv.
