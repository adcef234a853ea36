(** Time averages over harmonic FDTD runs against the frequency-domain power and energy (C180). *)
From Coq Require Import Reals List Arith ZArith Lia Lra Psatz.
From Verif.Lib Require Import Num Sums Idx RealF Dft.
From Verif.Model Require Import Fdmath Fdtd Fdfd.
From Verif.Spec Require Import Yee FdtdRun FdfdSpec HarmonicSpec.
From Verif.Proofs Require Import FdmathP FdtdP2 FarP HarmonicP.
From Verif.Props Require Import HarmonicProps.
Import ListNotations.
Local Open Scope R_scope.

(** Average of the values for n = 0 .. N - 1. *)
Definition mean (N : nat) (f : nat -> R) : R := sumN (K := RF) N f / INR N.

(** ** Averages of products of two oscillations *)
Lemma phases_cancel N m x n0 : x * INR N = PI * IZR m -> sin x <> 0 ->
  sumN (K := CC) N (fun n => cis (2 * (x * INR (n0 + n)))) = c0.
Proof.
  intros Hx Hs.
  assert (G : cmul (csub (cis (2 * x)) c1) (sumN (K := CC) N (fun n => cis (2 * x * INR n))) = c0).
  { rewrite cis_geometric. replace (2 * x * INR N) with (2 * PI * IZR m) by (rewrite (Rmult_assoc 2 x), Hx; ring). rewrite cis_Z. apply cpx_ext; cbn; ring. }
  assert (Z : sumN (K := CC) N (fun n => cis (2 * x * INR n)) = c0).
  { destruct (fmul_integral CC _ _ G) as [A|A]; [exfalso|exact A]. apply (f_equal cre) in A. cbn in A. rewrite cos_2a_sin in A. apply Hs. nra. }
  transitivity (sumN (K := CC) N (fun n => fmul (f := CC) (cis (2 * (x * INR n0))) (cis (2 * x * INR n)))).
  - apply (sumN_ext CC). intros n _. change (@fmul CC) with cmul. rewrite <- cis_add, plus_INR. f_equal. ring.
  - rewrite (sumN_mul_l CC). rewrite Z. apply cpx_ext; cbn; ring.
Qed.
Lemma sum_re N (f : nat -> cpx) : sumN (K := RF) N (fun n => cre (f n)) = cre (sumN (K := CC) N f).
Proof. induction N as [|N IH]; [reflexivity|]. cbn [sumN]. rewrite IH. reflexivity. Qed.
(** A constant plus an oscillation at twice the frequency. *)
Lemma mean_osc N m x n0 a b : (0 < N)%nat -> x * INR N = PI * IZR m -> sin x <> 0 ->
  mean N (fun n => a + cre (cmul b (cis (2 * (x * INR (n0 + n)))))) = a.
Proof.
  intros P Hx Hs. unfold mean. assert (0 < INR N) by (apply (lt_INR 0); lia).
  assert (C : forall M, sumN (K := RF) M (fun _ => a) = a * INR M).
  { induction M as [|M IH]; [cbn; ring|]. cbn [sumN]. rewrite IH, S_INR. change (a * INR M + a = a * (INR M + 1)). ring. }
  transitivity ((sumN (K := RF) N (fun _ => a) + sumN (K := RF) N (fun n => cre (cmul b (cis (2 * (x * INR (n0 + n))))))) / INR N).
  { f_equal. exact (sumN_add RF N _ _). }
  rewrite C, sum_re. replace (sumN (K := CC) N (fun n => cmul b (cis (2 * (x * INR (n0 + n)))))) with c0; [cbn; field; lra|].
  symmetry. transitivity (cmul b (sumN (K := CC) N (fun n => cis (2 * (x * INR (n0 + n)))))); [exact (sumN_mul_l CC N _ _)|].
  rewrite (phases_cancel N m) by assumption. apply cpx_ext; cbn; ring.
Qed.
Lemma mean_ext N f g : (forall n, (n < N)%nat -> f n = g n) -> mean N f = mean N g.
Proof. intro H. unfold mean. f_equal. apply (sumN_ext RF). exact H. Qed.

Section P.
  Variables (sh : list nat) (we wh : widths RF) (E H : field CC).
  Let S := poynting_e_cross_h_f (K := CC) sh (cw we, cw wh) E (cjf (K := CC) H).
  Let Q := poynting_e_cross_h_f (K := CC) sh (cw we, cw wh) E H.
  (** E x H of two fields that oscillate with phases t and t + p. *)
  Lemma poynting_phase t p c i : (c < 3)%nat ->
    poynting (K := RF) sh (Some (we, wh)) (at_phase E t) (at_phase H (t + p)) c i
    = cre (cmul (cis (- p)) (S c i)) / 2 + cre (cmul (cmul (cmul (mkC (/ 2) 0) (cis p)) (Q c i)) (cis (2 * t))).
  Proof.
    intro Hc. assert (X : forall (f : R) (x y : cpx) g,
      (cre x * cos t - cim x * sin t) * f * ((cre y * cos (t + p) - cim y * sin (t + p)) * g)
      = cre (cmul (cis (- p)) (cmul (cmul x (mkC f 0)) (cmul (cconj y) (mkC g 0)))) / 2
        + cre (cmul (cmul (cmul (mkC (/ 2) 0) (cis p)) (cmul (cmul x (mkC f 0)) (cmul y (mkC g 0)))) (cis (2 * t)))).
    { intros f x y g. transitivity (cre (cmul (cis (- p)) (cmul (cmul x (mkC f 0)) (cmul (cconj y) (mkC g 0)))) * (sin t * sin t + cos t * cos t) / 2
        + cre (cmul (cmul (cmul (mkC (/ 2) 0) (cis p)) (cmul (cmul x (mkC f 0)) (cmul y (mkC g 0)))) (cis (2 * t)))).
      - unfold cis. rewrite cos_neg, sin_neg, cos_plus, sin_plus, cos_2a, sin_2a. destruct x as [a b], y as [u v]. cbn. field.
      - pose proof (sin2_cos2 t) as U. unfold Rsqr in U. rewrite U. f_equal. f_equal. ring. }
    assert (Y : forall (f f' : R) (x x' y y' : cpx) g g',
      (cre x * cos t - cim x * sin t) * f * ((cre y * cos (t + p) - cim y * sin (t + p)) * g) - (cre x' * cos t - cim x' * sin t) * f' * ((cre y' * cos (t + p) - cim y' * sin (t + p)) * g')
      = cre (cmul (cis (- p)) (csub (cmul (cmul x (mkC f 0)) (cmul (cconj y) (mkC g 0))) (cmul (cmul x' (mkC f' 0)) (cmul (cconj y') (mkC g' 0))))) / 2
        + cre (cmul (cmul (cmul (mkC (/ 2) 0) (cis p)) (csub (cmul (cmul x (mkC f 0)) (cmul y (mkC g 0))) (cmul (cmul x' (mkC f' 0)) (cmul y' (mkC g' 0))))) (cis (2 * t)))).
    { intros. rewrite !X. set (u1 := cmul (cmul x (mkC f 0)) (cmul (cconj y) (mkC g 0))). set (u2 := cmul (cmul x' (mkC f' 0)) (cmul (cconj y') (mkC g' 0))).
      set (u3 := cmul (cmul x (mkC f 0)) (cmul y (mkC g 0))). set (u4 := cmul (cmul x' (mkC f' 0)) (cmul y' (mkC g' 0))). set (k1 := cis _). set (k2 := cis _). set (k3 := cis _). clearbody u1 u2 u3 u4 k1 k2 k3. cbn. field. }
    unfold S, Q. destruct c as [|[|[|c]]]; [| | |lia]; unfold poynting, poynting_e_cross_h_f, roll, wat, at_phase, cjf, cw; cbn [option_map fst snd]; apply Y.
  Qed.
End P.

(** The state after n steps of the run that belongs to a frequency-domain solution. *)
Definition driven (sh : list nat) (we wh : widths RF) (dt omega : R) (eps : field RF) (mu : option (field RF)) (E H J : field CC) (n : nat) : state RF :=
  run (K := RF) sh dt (Some (we, wh)) eps mu
    (map (fun n c i => - (dt * at_phase J (omega * ((INR n + / 2) * dt)) c i)) (seq 0 n))
    (mkst (at_phase E 0) (at_phase H (- (omega * dt / 2)))).
(** The frequency-domain equations at the frequency that fdtd sees. *)
Definition solves (sh : list nat) (we wh : widths RF) (dt omega : R) (eps : field RF) (mu : option (field RF)) (E H J : field CC) : Prop :=
  let out := eh_full_f (K := CC) sh (mkC (2 * sin (omega * dt / 2) / dt) 0) (cw we, cw wh) (cf eps) (option_map cf mu) E H in
  feq (K := CC) sh (fst out) J /\ feq (K := CC) sh (snd out) noj.
Lemma poynting_on sh d e h e' h' c i : length sh = 3%nat -> feq (K := RF) sh e e' -> feq (K := RF) sh h h' -> (c < 3)%nat -> inb sh i ->
  poynting (K := RF) sh d e h c i = poynting (K := RF) sh d e' h' c i.
Proof.
  intros HL A B Hc Hi.
  assert (I1 : inb sh (shift_ix sh c 1 i)) by (apply inb_shift; [exact Hi|lia]).
  destruct c as [|[|[|c]]]; [| | |lia]; unfold poynting, roll; change (- -1)%Z with 1%Z; rewrite !(fun k Hk => A k _ Hk I1) by lia; rewrite !(fun k Hk => B k _ Hk Hi) by lia; reflexivity.
Qed.

(** The average over a whole number of half periods of the Poynting vector of fdtd.  With
    H taken half a step before E, or half a step after E, the frequency-domain vector
    E x H* is turned by half a step; the average of the two is cos(omega dt / 2) times the
    documented Re(E x H* ) / 2. *)
Theorem C180_mean_power :
  forall (sh : list nat) (we wh : widths RF) (dt omega : R) (eps : field RF) (mu : option (field RF)) (E H J : field CC) (N n0 : nat) (m : Z),
    length sh = 3%nat -> nzw (K := RF) sh we -> nzw (K := RF) sh wh -> dt <> 0 -> nzm (K := RF) sh eps -> nzm_opt (K := RF) sh mu ->
    solves sh we wh dt omega eps mu E H J ->
    (0 < N)%nat -> omega * dt * INR N = PI * IZR m -> sin (omega * dt) <> 0 ->
    let st n := driven sh we wh dt omega eps mu E H J (n0 + n) in
    let d := Some (we, wh) in
    let S := poynting_e_cross_h_f (K := CC) sh (cw we, cw wh) E (cjf (K := CC) H) in
    forall c i, (c < 3)%nat -> inb sh i ->
      let before n := poynting (K := RF) sh d (sE (st n)) (sH (st n)) c i in
      let after n := poynting (K := RF) sh d (sE (st n)) (sH (st (n + 1)%nat)) c i in
      mean N before = cre (cmul (cis (omega * dt / 2)) (S c i)) / 2 /\
      mean N after = cre (cmul (cis (- (omega * dt / 2))) (S c i)) / 2 /\
      mean N (fun n => (before n + after n) / 2) = cos (omega * dt / 2) * (cre (S c i) / 2).
Proof.
  intros sh we wh dt omega eps mu E H J N n0 m HL He Hh Hdt Heps Hmu [A B] HN Hx Hs st d S c i Hc Hi before after.
  assert (R : forall n, seq_st (K := RF) sh (st n) (mkst (at_phase E (omega * (INR (n0 + n) * dt))) (at_phase H (omega * ((INR (n0 + n) - / 2) * dt))))).
  { intro n. exact (C115_real_run sh we wh dt omega eps mu E H J HL He Hh Hdt Heps Hmu A B (n0 + n)). }
  set (Q := poynting_e_cross_h_f (K := CC) sh (cw we, cw wh) E H).
  assert (G : forall p n h, feq (K := RF) sh h (at_phase H (omega * (INR (n0 + n) * dt) + p)) ->
    poynting (K := RF) sh d (sE (st n)) h c i = cre (cmul (cis (- p)) (S c i)) / 2 + cre (cmul (cmul (cmul (mkC (/ 2) 0) (cis p)) (Q c i)) (cis (2 * (omega * dt * INR (n0 + n)))))).
  { intros p n h Hh'. rewrite (poynting_on sh d _ _ _ _ c i HL (proj1 (R n)) Hh' Hc Hi). cbn [sE]. unfold d. rewrite poynting_phase by exact Hc.
    fold S Q. replace (2 * (omega * (INR (n0 + n) * dt))) with (2 * (omega * dt * INR (n0 + n))) by ring. reflexivity. }
  assert (GB : forall n, before n = cre (cmul (cis (omega * dt / 2)) (S c i)) / 2 + cre (cmul (cmul (cmul (mkC (/ 2) 0) (cis (- (omega * dt / 2)))) (Q c i)) (cis (2 * (omega * dt * INR (n0 + n)))))).
  { intro n. unfold before. rewrite (G (- (omega * dt / 2)) n) by (intros a b Ha Hb; rewrite (proj2 (R n) a b Ha Hb); cbn [sH]; f_equal; field). now rewrite Ropp_involutive. }
  assert (GA : forall n, after n = cre (cmul (cis (- (omega * dt / 2))) (S c i)) / 2 + cre (cmul (cmul (cmul (mkC (/ 2) 0) (cis (omega * dt / 2))) (Q c i)) (cis (2 * (omega * dt * INR (n0 + n)))))).
  { intro n. unfold after. apply G. intros a b Ha Hb. rewrite (proj2 (R (n + 1)%nat) a b Ha Hb). cbn [sH]. f_equal. rewrite !plus_INR. cbn [INR]. field. }
  split; [|split].
  - rewrite (mean_ext N _ _ (fun n _ => GB n)). now apply (mean_osc N m).
  - rewrite (mean_ext N _ _ (fun n _ => GA n)). now apply (mean_osc N m).
  - set (u := cmul (cmul (mkC (/ 2) 0) (cis (- (omega * dt / 2)))) (Q c i)) in *. set (v := cmul (cmul (mkC (/ 2) 0) (cis (omega * dt / 2))) (Q c i)) in *.
    transitivity (mean N (fun n => cos (omega * dt / 2) * (cre (S c i) / 2) + cre (cmul (cmul (mkC (/ 2) 0) (cadd u v)) (cis (2 * (omega * dt * INR (n0 + n))))))); [|now apply (mean_osc N m)].
    apply mean_ext. intros n _. rewrite GB, GA. clearbody u v. set (w := cis (2 * _)). clearbody w. unfold cis. rewrite cos_neg, sin_neg.
    set (s := S c i). clearbody s. change cpx in s. destruct s as [a b]. cbn. field.
Qed.
Print Assumptions C180_mean_power.

(** The documented value is approached with the square of the time step. *)
Theorem C180_documented_error :
  forall (sh : list nat) (we wh : widths RF) (dt omega : R) (eps : field RF) (mu : option (field RF)) (E H J : field CC) (N n0 : nat) (m : Z),
    length sh = 3%nat -> nzw (K := RF) sh we -> nzw (K := RF) sh wh -> dt <> 0 -> nzm (K := RF) sh eps -> nzm_opt (K := RF) sh mu ->
    solves sh we wh dt omega eps mu E H J ->
    (0 < N)%nat -> omega * dt * INR N = PI * IZR m -> sin (omega * dt) <> 0 ->
    let st n := driven sh we wh dt omega eps mu E H J (n0 + n) in
    let d := Some (we, wh) in
    let S := poynting_e_cross_h_f (K := CC) sh (cw we, cw wh) E (cjf (K := CC) H) in
    forall c i, (c < 3)%nat -> inb sh i ->
      Rabs (mean N (fun n => (poynting (K := RF) sh d (sE (st n)) (sH (st n)) c i + poynting (K := RF) sh d (sE (st n)) (sH (st (n + 1)%nat)) c i) / 2) - cre (S c i) / 2)
      <= (omega * dt) * (omega * dt) / 8 * Rabs (cre (S c i) / 2).
Proof.
  intros sh we wh dt omega eps mu E H J N n0 m HL He Hh Hdt Heps Hmu Sv HN Hx Hs st d S c i Hc Hi.
  pose proof (proj2 (proj2 (C180_mean_power sh we wh dt omega eps mu E H J N n0 m HL He Hh Hdt Heps Hmu Sv HN Hx Hs c i Hc Hi))) as M.
  fold S in M. replace (mean N _) with (cos (omega * dt / 2) * (cre (S c i) / 2)) by (symmetry; exact M). clear M.
  set (s := cre (S c i) / 2). clearbody s. change R in s. replace (cos (omega * dt / 2) * s - s) with (- ((1 - cos (omega * dt / 2)) * s)) by ring.
  rewrite Rabs_Ropp, Rabs_mult. apply Rmult_le_compat_r; [apply Rabs_pos|].
  replace (omega * dt / 2) with (2 * (omega * dt / 4)) by field. rewrite cos_2a_sin. rewrite Rabs_right by nra.
  assert (Q : forall x, sin x * sin x <= x * x).
  { assert (Q0 : forall x, 0 < x -> Rabs (sin x) <= x).
    { intros x Px. pose proof (sin_lt_x x Px). destruct (Rle_dec 0 (sin x)) as [|N0]; [rewrite Rabs_right; lra|].
      rewrite Rabs_left by lra. destruct (Rle_dec x PI) as [L|L]; [pose proof (sin_ge_0 x ltac:(lra) L); lra|]. pose proof (SIN_bound x). pose proof PI2_3_2. lra. }
    intro x. assert (Rabs (sin x) <= Rabs x).
    { destruct (Rtotal_order x 0) as [L|[->|L]].
      - rewrite (Rabs_left x) by lra. rewrite <- (Rabs_Ropp (sin x)), <- sin_neg. apply Q0. lra.
      - rewrite sin_0. lra.
      - rewrite (Rabs_right x) by lra. now apply Q0. }
    apply Rsqr_le_abs_1 in H0. exact H0. }
  pose proof (Q (omega * dt / 4)). lra.
Qed.
Print Assumptions C180_documented_error.

(** ** Energy *)
Lemma mean_add N f g : mean N (fun n => f n + g n) = mean N f + mean N g.
Proof. unfold mean. transitivity ((sumN (K := RF) N f + sumN (K := RF) N g) / INR N); [f_equal; exact (sumN_add RF N f g)|unfold Rdiv; ring]. Qed.
Lemma mean_scale N f k : mean N (fun n => f n * k) = mean N f * k.
Proof.
  unfold mean. transitivity (sumN (K := RF) N f * k / INR N); [f_equal|unfold Rdiv; ring].
  induction N as [|N IH]; [cbn; ring|]. cbn [sumN]. rewrite IH. change (sumN (K := RF) N f * k + f N * k = (sumN (K := RF) N f + f N) * k). ring.
Qed.
Lemma mean_pair N m x n0 q p (z : cpx) : (0 < N)%nat -> x * INR N = PI * IZR m -> sin x <> 0 ->
  mean N (fun n => (cre z * cos (x * INR (n0 + n) + q) - cim z * sin (x * INR (n0 + n) + q)) * (cre z * cos (x * INR (n0 + n) + (q + p)) - cim z * sin (x * INR (n0 + n) + (q + p))))
  = cos p * (cnrm z / 2).
Proof.
  intros HN Hx Hs. rewrite <- (mean_osc N m x n0 (cos p * (cnrm z / 2)) (cmul (mkC (/ 2) 0) (cmul (cmul z z) (cis (2 * q + p)))) HN Hx Hs). apply mean_ext. intros n _.
  set (t := x * INR (n0 + n)). clearbody t. rewrite <- Rplus_assoc. set (u := t + q).
  replace (cre (cmul (cmul (mkC (/ 2) 0) (cmul (cmul z z) (cis (2 * q + p)))) (cis (2 * t)))) with (cre (cmul (cmul (mkC (/ 2) 0) (cmul (cmul z z) (cis p))) (cis (2 * u)))).
  - clearbody u. transitivity (cos p * (cnrm z / 2) * (sin u * sin u + cos u * cos u) + cre (cmul (cmul (mkC (/ 2) 0) (cmul (cmul z z) (cis p))) (cis (2 * u)))).
    + unfold cis, cnrm. rewrite cos_plus, sin_plus, cos_2a, sin_2a. destruct z as [a b]. cbn. field.
    + pose proof (sin2_cos2 u) as U. unfold Rsqr in U. rewrite U. ring.
  - unfold u. replace (2 * (t + q)) with (2 * q + 2 * t) by ring. rewrite !cis_add. set (k1 := cis p). set (k2 := cis (2 * q)). set (k3 := cis (2 * t)). clearbody k1 k2 k3. f_equal. apply cpx_ext; cbn; ring.
Qed.
Lemma mean_dxmul N eps mu d i (e h : nat -> field RF) (a b : nat -> R) :
  (forall c, (c < 3)%nat -> mean N (fun n => e n c i) = a c) -> (forall c, (c < 3)%nat -> mean N (fun n => h n c i) = b c) ->
  mean N (fun n => dxmul (K := RF) (e n) (h n) eps mu d i) = dxmul (K := RF) (fun c _ => a c) (fun c _ => b c) eps mu d i.
Proof.
  intros A B. unfold dxmul, sum_axis0. rewrite <- !A, <- !B by lia.
  set (k0 := or_one (K := RF) eps 0 i). set (k1 := or_one (K := RF) eps 1 i). set (k2 := or_one (K := RF) eps 2 i).
  set (l0 := or_one (K := RF) mu 0 i). set (l1 := or_one (K := RF) mu 1 i). set (l2 := or_one (K := RF) mu 2 i).
  set (v0 := wat (K := RF) (option_map fst d) 0 i). set (v1 := wat (K := RF) (option_map fst d) 1 i). set (v2 := wat (K := RF) (option_map fst d) 2 i).
  set (w0 := wat (K := RF) (option_map snd d) 0 i). set (w1 := wat (K := RF) (option_map snd d) 1 i). set (w2 := wat (K := RF) (option_map snd d) 2 i).
  clearbody k0 k1 k2 l0 l1 l2 v0 v1 v2 w0 w1 w2. change R in k0, k1, k2, l0, l1, l2, v0, v1, v2, w0, w1, w2.
  transitivity (mean N (fun n => (e n 0%nat i * k0 + e n 1%nat i * k1 + e n 2%nat i * k2) * (v0 * v1 * v2) + (h n 0%nat i * l0 + h n 1%nat i * l1 + h n 2%nat i * l2) * (w0 * w1 * w2))).
  - apply mean_ext. intros n _. set (x0 := e n 0%nat i). set (x1 := e n 1%nat i). set (x2 := e n 2%nat i). set (y0 := h n 0%nat i). set (y1 := h n 1%nat i). set (y2 := h n 2%nat i).
    clearbody x0 x1 x2 y0 y1 y2. change R in x0, x1, x2, y0, y1, y2.
    change ((x0 * k0 + x1 * k1 + x2 * k2) * v0 * v1 * v2 + (y0 * l0 + y1 * l1 + y2 * l2) * w0 * w1 * w2 = (x0 * k0 + x1 * k1 + x2 * k2) * (v0 * v1 * v2) + (y0 * l0 + y1 * l1 + y2 * l2) * (w0 * w1 * w2)). ring.
  - rewrite mean_add, !mean_scale, !mean_add, !mean_scale. set (x0 := mean N (fun n => e n 0%nat i)). set (x1 := mean N (fun n => e n 1%nat i)). set (x2 := mean N (fun n => e n 2%nat i)).
    set (y0 := mean N (fun n => h n 0%nat i)). set (y1 := mean N (fun n => h n 1%nat i)). set (y2 := mean N (fun n => h n 2%nat i)). clearbody x0 x1 x2 y0 y1 y2.
    change ((x0 * k0 + x1 * k1 + x2 * k2) * (v0 * v1 * v2) + (y0 * l0 + y1 * l1 + y2 * l2) * (w0 * w1 * w2) = (x0 * k0 + x1 * k1 + x2 * k2) * v0 * v1 * v2 + (y0 * l0 + y1 * l1 + y2 * l2) * w0 * w1 * w2). ring.
Qed.
Definition mu_at (mu : option (field RF)) (c : nat) (i : list nat) : R := match mu with Some t => t c i | None => 1 end.
(** The average of the energies: of the two products in each of them, the one of two
    different times carries the factor cos(omega dt). *)
Theorem C180_mean_energy :
  forall (sh : list nat) (we wh : widths RF) (dt omega : R) (eps : field RF) (mu : option (field RF)) (E H J : field CC) (N n0 : nat) (m : Z),
    length sh = 3%nat -> nzw (K := RF) sh we -> nzw (K := RF) sh wh -> dt <> 0 -> nzm (K := RF) sh eps -> nzm_opt (K := RF) sh mu ->
    solves sh we wh dt omega eps mu E H J ->
    (0 < N)%nat -> omega * dt * INR N = PI * IZR m -> sin (omega * dt) <> 0 ->
    let st n := driven sh we wh dt omega eps mu E H J (n0 + n) in
    let d := Some (we, wh) in
    forall i, inb sh i ->
      let cell (w : widths RF) := w 0%nat (coord i 0) * w 1%nat (coord i 1) * w 2%nat (coord i 2) in
      let electric := (eps 0%nat i * cnrm (E 0%nat i) + eps 1%nat i * cnrm (E 1%nat i) + eps 2%nat i * cnrm (E 2%nat i)) * cell we in
      let magnetic := (mu_at mu 0 i * cnrm (H 0%nat i) + mu_at mu 1 i * cnrm (H 1%nat i) + mu_at mu 2 i * cnrm (H 2%nat i)) * cell wh in
      mean N (fun n => energy_estep (K := RF) (sH (st n)) (sE (st n)) (sH (st (n + 1)%nat)) (Some eps) mu d i) = (electric + cos (omega * dt) * magnetic) / 2 /\
      mean N (fun n => energy_hstep (K := RF) (sE (st n)) (sH (st (n + 1)%nat)) (sE (st (n + 1)%nat)) (Some eps) mu d i) = (cos (omega * dt) * electric + magnetic) / 2.
Proof.
  intros sh we wh dt omega eps mu E H J N n0 m HL He Hh Hdt Heps Hmu [A B] HN Hx Hs st d i Hi cell electric magnetic.
  assert (R : forall n, seq_st (K := RF) sh (st n) (mkst (at_phase E (omega * (INR (n0 + n) * dt))) (at_phase H (omega * ((INR (n0 + n) - / 2) * dt))))).
  { intro n. exact (C115_real_run sh we wh dt omega eps mu E H J HL He Hh Hdt Heps Hmu A B (n0 + n)). }
  set (x := omega * dt) in *.
  set (os := fun (z : cpx) n q => cre z * cos (x * INR (n0 + n) + q) - cim z * sin (x * INR (n0 + n) + q)).
  assert (RE : forall n c, (c < 3)%nat -> sE (st n) c i = os (E c i) n 0 /\ sE (st (n + 1)%nat) c i = os (E c i) n x /\ sH (st n) c i = os (H c i) n (- (x / 2)) /\ sH (st (n + 1)%nat) c i = os (H c i) n (x / 2)).
  { intros n c Hc. destruct (R n) as [R1 R2]. destruct (R (n + 1)%nat) as [R3 R4]. rewrite (R1 c i Hc Hi), (R2 c i Hc Hi), (R3 c i Hc Hi), (R4 c i Hc Hi). cbn [sE sH]. unfold at_phase, os.
    replace (omega * (INR (n0 + n) * dt)) with (x * INR (n0 + n) + 0) by (unfold x; ring).
    replace (omega * (INR (n0 + (n + 1)) * dt)) with (x * INR (n0 + n) + x) by (unfold x; rewrite !plus_INR; cbn [INR]; ring).
    replace (omega * ((INR (n0 + n) - / 2) * dt)) with (x * INR (n0 + n) + - (x / 2)) by (unfold x; field).
    replace (omega * ((INR (n0 + (n + 1)) - / 2) * dt)) with (x * INR (n0 + n) + x / 2) by (unfold x; rewrite !plus_INR; cbn [INR]; field). auto. }
  assert (MP : forall z q p, mean N (fun n => os z n q * os z n (q + p)) = cos p * (cnrm z / 2)) by (intros; now apply (mean_pair N m)).
  split.
  - unfold energy_estep. rewrite (mean_dxmul N (Some eps) mu d i _ _ (fun c => cnrm (E c i) / 2) (fun c => cos x * (cnrm (H c i) / 2))).
    + unfold dxmul, sum_axis0, or_one, wat, electric, magnetic, cell, mu_at, d. cbn [option_map fst snd]. destruct mu; cbn; field.
    + intros c Hc. transitivity (mean N (fun n => os (E c i) n 0 * os (E c i) n (0 + 0))); [|rewrite MP, cos_0; ring]. apply mean_ext. intros n _. destruct (RE n c Hc) as (-> & _). rewrite Rplus_0_l. reflexivity.
    + intros c Hc. transitivity (mean N (fun n => os (H c i) n (- (x / 2)) * os (H c i) n (- (x / 2) + x))); [|apply MP]. apply mean_ext. intros n _. destruct (RE n c Hc) as (_ & _ & -> & ->).
      replace (- (x / 2) + x) with (x / 2) by field. reflexivity.
  - unfold energy_hstep. rewrite (mean_dxmul N (Some eps) mu d i _ _ (fun c => cos x * (cnrm (E c i) / 2)) (fun c => cnrm (H c i) / 2)).
    + unfold dxmul, sum_axis0, or_one, wat, electric, magnetic, cell, mu_at, d. cbn [option_map fst snd]. destruct mu; cbn; field.
    + intros c Hc. transitivity (mean N (fun n => os (E c i) n 0 * os (E c i) n (0 + x))); [|apply MP]. apply mean_ext. intros n _. destruct (RE n c Hc) as (-> & -> & _). rewrite Rplus_0_l. reflexivity.
    + intros c Hc. transitivity (mean N (fun n => os (H c i) n (x / 2) * os (H c i) n (x / 2 + 0))); [|rewrite MP, cos_0; ring]. apply mean_ext. intros n _. destruct (RE n c Hc) as (_ & _ & _ & ->). rewrite Rplus_0_r. reflexivity.
Qed.
Print Assumptions C180_mean_energy.

(** ** The documented average is not exact
    Two cells of width 1 along x in vacuum, four time steps per period. *)
Definition ax_sh : list nat := [2; 1; 1]%nat.
Definition ax_w : widths RF := fun _ _ => 1.
Definition ax_eps : field RF := fun _ _ => 1.
Definition ax_E : field CC := fun c i => match c with 1%nat => match coord i 0 with O => c1 | _ => ci end | _ => c0 end.
Definition ax_om : cpx := mkC (2 * sin (PI / 2 * 1 / 2) / 1) 0.
Definition ax_H : field CC := fun c i => cdiv (curl_forward (K := CC) ax_sh (Some (cw ax_w)) ax_E c i) (cmul (copp ci) ax_om).
Definition ax_J : field CC := fst (eh_full_f (K := CC) ax_sh ax_om (cw ax_w, cw ax_w) (cf ax_eps) None ax_E ax_H).
Lemma ax_pos : 0 < sin (PI / 2 * 1 / 2).
Proof. pose proof PI_RGT_0. apply sin_gt_0; lra. Qed.
Lemma ax_solves : solves ax_sh ax_w ax_w 1 (PI / 2) ax_eps None ax_E ax_H ax_J.
Proof.
  split; [intros c i _ _; reflexivity|]. intros c i _ _. unfold eh_full_f. cbn [option_map snd fst]. change (mkC (2 * sin (PI / 2 * 1 / 2) / 1) 0) with ax_om. unfold ax_H, noj.
  set (k := curl_forward (K := CC) ax_sh (Some (cw ax_w)) ax_E c i). clearbody k. change cpx in k.
  change (cadd k (cmul (cmul ci ax_om) (cdiv k (cmul (copp ci) ax_om))) = c0). unfold ax_om. pose proof ax_pos as P. set (s := sin (PI / 2 * 1 / 2)) in *. clearbody s.
  destruct k as [a b]. unfold cdiv, cinv, cnrm. apply cpx_ext; cbn; field; nra.
Qed.
Lemma ax_S : cre (poynting_e_cross_h_f (K := CC) ax_sh (cw ax_w, cw ax_w) ax_E (cjf (K := CC) ax_H) 0%nat [0; 0; 0]%nat) = - (1 / (2 * sin (PI / 2 * 1 / 2))).
Proof.
  assert (Cz : curl_forward (K := CC) ax_sh (Some (cw ax_w)) ax_E 2%nat [0; 0; 0]%nat = mkC (-1) 1).
  { transitivity (csub (cdiv (csub ci c1) (mkC 1 0)) (cdiv (csub c0 c0) (mkC 1 0))); [reflexivity|]. unfold cdiv, cinv, cnrm. apply cpx_ext; cbn; field. }
  change (cre (csub (cmul (cmul ci (mkC 1 0)) (cmul (cconj (ax_H 2%nat [0; 0; 0]%nat)) (mkC 1 0))) (cmul (cmul c0 (mkC 1 0)) (cmul (cconj (ax_H 1%nat [0; 0; 0]%nat)) (mkC 1 0)))) = - (1 / (2 * sin (PI / 2 * 1 / 2)))).
  set (h1 := ax_H 1%nat [0; 0; 0]%nat). clearbody h1. change cpx in h1. unfold ax_H. rewrite Cz. unfold ax_om. pose proof ax_pos as P. set (s := sin (PI / 2 * 1 / 2)) in *. clearbody s.
  unfold cdiv, cinv, cnrm. cbn. field. nra.
Qed.
Lemma ax_angles : PI / 2 * 1 * INR 4 = PI * IZR 2 /\ sin (PI / 2 * 1) <> 0 /\ cos (PI / 2 * 1 / 2) <> 1.
Proof.
  split; [cbn; field|]. rewrite Rmult_1_r. split; [rewrite sin_PI2; lra|]. replace (PI / 2 / 2) with (PI / 4) by field. rewrite cos_PI4. intro C.
  assert (S2 : sqrt 2 = 1). { pose proof (sqrt_lt_R0 2 ltac:(lra)). apply (f_equal (fun x => x * sqrt 2)) in C. unfold Rdiv in C. rewrite Rmult_assoc, Rinv_l in C by lra. lra. }
  pose proof (sqrt_sqrt 2 ltac:(lra)) as Q. rewrite S2 in Q. lra.
Qed.
Lemma ax_inb : inb ax_sh [0; 0; 0]%nat.
Proof. repeat (constructor; [cbn; lia|]). constructor. Qed.
Theorem C180_documented_average_refuted :
  exists (sh : list nat) (we wh : widths RF) (dt omega : R) (eps : field RF) (E H J : field CC) (N : nat) (c : nat) (i : list nat),
    length sh = 3%nat /\ (forall a j, 0 < we a j) /\ (forall a j, 0 < wh a j) /\ 0 < dt /\ (forall a j, 0 < eps a j) /\
    solves sh we wh dt omega eps None E H J /\ (0 < N)%nat /\ omega * (INR N * dt) = 2 * PI /\ (c < 3)%nat /\ inb sh i /\
    let st n := driven sh we wh dt omega eps None E H J n in
    mean N (fun n => (poynting (K := RF) sh (Some (we, wh)) (sE (st n)) (sH (st n)) c i + poynting (K := RF) sh (Some (we, wh)) (sE (st n)) (sH (st (n + 1)%nat)) c i) / 2)
    <> cre (poynting_e_cross_h_f (K := CC) sh (cw we, cw wh) E (cjf (K := CC) H) c i) / 2.
Proof.
  exists ax_sh, ax_w, ax_w, 1, (PI / 2), ax_eps, ax_E, ax_H, ax_J, 4%nat, 0%nat, [0; 0; 0]%nat.
  split; [reflexivity|]. split; [intros; unfold ax_w; lra|]. split; [intros; unfold ax_w; lra|]. split; [lra|]. split; [intros; unfold ax_eps; lra|].
  split; [exact ax_solves|]. split; [lia|]. split; [cbn; field|]. split; [lia|]. split; [exact ax_inb|]. intro st.
  destruct ax_angles as (A1 & A2 & A3). intro C.
  assert (W : nzw (K := RF) ax_sh ax_w) by (intros a j _ _; exact R1_neq_R0). assert (M : nzm (K := RF) ax_sh ax_eps) by (intros a j _ _; exact R1_neq_R0).
  pose proof (proj2 (proj2 (C180_mean_power ax_sh ax_w ax_w 1 (PI / 2) ax_eps None ax_E ax_H ax_J 4 0 2 eq_refl W W R1_neq_R0 M Coq.Init.Logic.I ax_solves ltac:(lia) A1 A2 0%nat [0; 0; 0]%nat ltac:(lia) ax_inb))) as Q.
  assert (Q' := eq_trans (eq_sym C) Q). clear C Q. rewrite ax_S in Q'. pose proof ax_pos as P. apply A3. set (s := sin (PI / 2 * 1 / 2)) in *. set (t := cos (PI / 2 * 1 / 2)) in *. clearbody s t.
  assert (Ps : 0 < 1 / (2 * s)) by (apply Rdiv_lt_0_compat; lra). nra.
Qed.
Print Assumptions C180_documented_average_refuted.
