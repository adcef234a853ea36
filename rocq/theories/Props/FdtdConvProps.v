(** Convergence of FDTD runs to the exact fields (C164). *)
From Coq Require Import Reals Lra List Arith ZArith Lia Bool Psatz.
From Verif.Lib Require Import Num Sums Idx Mat RealF BoxMin.
From Verif.Model Require Import Fdmath Fdtd.
From Verif.Spec Require Import Yee FdtdRun DispersionSpec SmoothSpec.
From Verif.Proofs Require Import FdmathP FdtdP2 FdtdP CflP DrivenP LossyP NumDispP TaylorP FdtdConvP FdtdConvP2.
From Verif.Props Require Import ConvergeProps.
Import ListNotations.
Local Open Scope R_scope.

(** ** C164: FDTD converges to second order *)
(** Smooth periodic fields that satisfy Maxwell's equations with the current [J], sampled
    at the Yee positions (E at t = 0, H half a step earlier), and stepped with
    maxwell_h / maxwell_e and the current of the middle of every step: after n steps the
    fields differ from the samples of the exact ones, in the mean square, by at most a
    multiple of T M (w_x^2 + w_y^2 + w_z^2 + dt^2), T = n dt.  The multiple depends on
    the materials and the Courant number only. *)
Theorem C164_second_order :
  forall (sh : list nat) (w : nat -> R) (dt : R) (eps mu : nat -> pt -> R) (E H J : R -> nat -> pt -> R)
         (DE DH : R -> nat -> nat -> pt -> R) (Et Ht : R -> nat -> pt -> R) (M eps0 eps1 mu0 mu1 : R) (n : nat),
    length sh = 3%nat -> (forall a, (a < 3)%nat -> 0 < w a) -> 0 < dt -> 0 < eps0 -> 0 < mu0 ->
    (forall c p, (c < 3)%nat -> eps0 <= eps c p <= eps1) -> (forall c p, (c < 3)%nat -> mu0 <= mu c p <= mu1) ->
    smooth_motion (fun a => INR (dim sh a) * w a) E DE Et M -> smooth_motion (fun a => INR (dim sh a) * w a) H DH Ht M ->
    (forall t c p, (c < 3)%nat -> eps c p * Et t c p = curl_re (DH t) c p - J t c p) ->
    (forall t c p, (c < 3)%nat -> mu c p * Ht t c p = - curl_re (DE t) c p) ->
    let q := dt * dt * (/ (w 0%nat * w 0%nat) + / (w 1%nat * w 1%nat) + / (w 2%nat * w 2%nat)) / (eps0 * mu0) in
    q < 1 ->
    let W := uniw (K := RF) w in
    let s := run (K := RF) sh dt (Some (W, W)) (smp_e w eps) (Some (smp_h w mu))
               (map (fun (k : nat) (c : nat) (i : list nat) => - dt * smp_e w (J ((INR k + / 2) * dt)) c i) (seq 0 n))
               (mkst (K := RF) (smp_e w (E 0)) (smp_h w (H (- dt / 2)))) in
    let S := w 0%nat * w 0%nat + w 1%nat * w 1%nat + w 2%nat * w 2%nat in
    let B := INR n * dt * (sqrt 3 * M / 24) * ((mu1 * (dt * dt) + S) / sqrt mu0 + (eps1 * (dt * dt) + S) / sqrt eps0 / sqrt (1 - q)) / sqrt (1 - q) in
    sqrt (fsum (K := RF) sh (fun c i => smp_e w eps c i * ((sE s c i - smp_e w (E (INR n * dt)) c i) * (sE s c i - smp_e w (E (INR n * dt)) c i))) / INR (prodl sh)) <= B
    /\ sqrt (fsum (K := RF) sh (fun c i => smp_h w mu c i * ((sH s c i - smp_h w (H ((INR n - / 2) * dt)) c i) * (sH s c i - smp_h w (H ((INR n - / 2) * dt)) c i))) / INR (prodl sh)) <= sqrt 2 * B.
Proof.
  intros sh w dt eps mu E H J DE DH Et Ht M eps0 eps1 mu0 mu1 n HL Hw Hdt He0 Hm0 He Hm SE SH MxE MxH q Hq W s S B.
  pose proof (conv_U sh w dt eps mu E H J DE DH Et Ht M eps0 eps1 mu0 mu1 HL Hw Hdt He0 Hm0 He Hm SE SH MxE MxH Hq n) as C.
  set (a := an sh w dt eps mu E H J n) in *.
  assert (Hww : forall a i, (a < 3)%nat -> (i < dim sh a)%nat -> dmin (w 0%nat) (w 1%nat) (w 2%nat) a <= W a i /\ dmin (w 0%nat) (w 1%nat) (w 2%nat) a <= W a i).
  { intros b i Ha _. destruct b as [|[|[|b]]]; [| | |lia]; cbn; unfold W, uniw; lra. }
  pose proof (stable_state sh W W (w 0%nat) (w 1%nat) (w 2%nat) HL (Hw 0%nat ltac:(lia)) (Hw 1%nat ltac:(lia)) (Hw 2%nat ltac:(lia)) Hww dt (smp_e w eps) (Some (smp_h w mu)) eps0 mu0 He0 Hm0
    ltac:(intros c i Hc _; exact (proj1 (He c _ Hc))) ltac:(intros c i Hc _; exact (proj1 (Hm c _ Hc))) Hq a) as [PE PH].
  pose proof (U_pos sh W W (w 0%nat) (w 1%nat) (w 2%nat) HL (Hw 0%nat ltac:(lia)) (Hw 1%nat ltac:(lia)) (Hw 2%nat ltac:(lia)) Hww dt (smp_e w eps) (Some (smp_h w mu)) eps0 mu0 He0 Hm0
    ltac:(intros c i Hc _; exact (proj1 (He c _ Hc))) ltac:(intros c i Hc _; exact (proj1 (Hm c _ Hc))) Hq a) as PU.
  change (CflP.q (w 0%nat) (w 1%nat) (w 2%nat) dt eps0 mu0) with q in *. fold W in C.
  set (U := yee_E RF sh dt (Some (W, W)) (smp_e w eps) (Some (smp_h w mu)) a) in *.
  set (v := w 0%nat * w 1%nat * w 2%nat) in *. assert (V : 0 < v) by (unfold v; repeat apply Rmult_lt_0_compat; apply Hw; lia).
  set (x := fsum (K := RF) sh (fun c i => smp_e w eps c i * ((sE s c i - smp_e w (E (INR n * dt)) c i) * (sE s c i - smp_e w (E (INR n * dt)) c i)))).
  set (y := fsum (K := RF) sh (fun c i => smp_h w mu c i * ((sH s c i - smp_h w (H ((INR n - / 2) * dt)) c i) * (sH s c i - smp_h w (H ((INR n - / 2) * dt)) c i)))).
  assert (Ex : nrmE sh W W (smp_e w eps) (sE a) = v * x).
  { unfold nrmE, x. rewrite <- fsum_mul_r. apply fsum_ext_r. intros c i Hc Hi. change (vol_e (K := RF) W W c i) with (vol_e (K := RF) (uniw (K := RF) w) (uniw (K := RF) w) c i). rewrite Ve. fold v.
    change (sE a c i) with (1 * sE s c i + - (1) * smp_e w (E (INR n * dt)) c i). match goal with |- ?u = ?z => change (u = z :> R) end. ring. }
  assert (Ey : nrmH sh W W (Some (smp_h w mu)) (sH a) = v * y).
  { unfold nrmH, y. rewrite <- fsum_mul_r. apply fsum_ext_r. intros c i Hc Hi. change (vol_h (K := RF) W W c i) with (vol_h (K := RF) (uniw (K := RF) w) (uniw (K := RF) w) c i). rewrite Vh. fold v.
    change (sH a c i) with (1 * sH s c i + - (1) * smp_h w (H ((INR n - / 2) * dt)) c i). cbn [matl]. match goal with |- ?u = ?z => change (u = z :> R) end. ring. }
  rewrite Ex in PE. rewrite Ey in PH. set (N := INR (prodl sh)) in *. assert (PN : 0 <= N) by apply pos_INR. clearbody x y N. clear Ex Ey.
  set (r := sqrt (1 - q)) in *. assert (Rp : 0 < r) by (apply sqrt_lt_R0; lra). assert (Rr : r * r = 1 - q) by (apply sqrt_sqrt; lra).
  set (X := INR n * (sqrt 3 * bg w dt M mu1 / sqrt mu0 + sqrt 3 * bj w dt M eps1 / sqrt eps0 / r)) in *.
  assert (Sm : 0 < sqrt mu0) by (apply sqrt_lt_R0; lra). assert (Se : 0 < sqrt eps0) by (apply sqrt_lt_R0; lra).
  assert (EB : B = X / r). { unfold B, X, bg, bj. fold r. fold S. field. lra. }
  assert (X0 : 0 <= X).
  { unfold X. pose proof (bg_pos sh w dt eps mu E J DE DH Et Ht M mu0 mu1 HL Hw Hdt Hm0 Hm SE MxE MxH) as G1. pose proof (bj_pos sh w dt eps mu E J DE DH Et Ht M eps0 eps1 HL Hw Hdt He0 He SE MxE MxH) as G2.
    pose proof (sqrt_pos 3) as S3. set (g1 := bg w dt M mu1) in *. set (g2 := bj w dt M eps1) in *. clearbody g1 g2.
    apply Rmult_le_pos; [apply pos_INR|]. apply Rplus_le_le_0_compat; unfold Rdiv; repeat apply Rmult_le_pos; try assumption; left; now apply Rinv_0_lt_compat. }
  assert (UX : U <= v * N * (X * X)).
  { rewrite <- (sqrt_sqrt U PU). assert (VN : 0 <= v * N) by (apply Rmult_le_pos; lra). rewrite <- (sqrt_sqrt (v * N) VN) at 1.
    replace (sqrt (v * N) * sqrt (v * N) * (X * X)) with (sqrt (v * N) * X * (sqrt (v * N) * X)) by ring.
    apply Rmult_le_compat; try apply sqrt_pos; exact C. }
  clearbody X U. rewrite EB. clear EB C.
  assert (Fin : forall z k, 0 <= k -> v * z <= k * U / (1 - q) -> sqrt (z / N) <= sqrt k * (X / r)).
  { intros z k Pk Pz. rewrite <- (sqrt_square (X / r)) by (apply Rmult_le_pos; [lra|left; now apply Rinv_0_lt_compat]).
    rewrite <- sqrt_mult_alt by exact Pk. apply sqrt_le_1_alt.
    replace (k * (X / r * (X / r))) with (k * (X * X) / (1 - q)) by (rewrite <- Rr; field; lra).
    assert (Q0 : 0 < / (1 - q)) by (apply Rinv_0_lt_compat; lra).
    assert (P2 : 0 <= k * (X * X) / (1 - q)) by (apply Rmult_le_pos; [apply Rmult_le_pos; [lra|apply Rle_0_sqr]|lra]).
    destruct PN as [PN|PN].
    - apply (Rmult_le_reg_r N); [exact PN|]. unfold Rdiv at 1. rewrite Rmult_assoc, Rinv_l, Rmult_1_r by lra.
      apply (Rmult_le_reg_l v); [exact V|]. eapply Rle_trans; [exact Pz|].
      replace (v * (k * (X * X) / (1 - q) * N)) with (k * (v * N * (X * X)) / (1 - q)) by (field; lra).
      unfold Rdiv. apply Rmult_le_compat_r; [lra|]. apply Rmult_le_compat_l; lra.
    - rewrite <- PN. unfold Rdiv at 1. rewrite Rinv_0, Rmult_0_r. exact P2. }
  split.
  - replace (X / r) with (sqrt 1 * (X / r)) by (rewrite sqrt_1; ring). apply Fin; [lra|]. rewrite Rmult_1_l. exact PE.
  - apply Fin; [lra|exact PH].
Qed.
Print Assumptions C164_second_order.

Lemma smooth_motion_ext L L' F D Ft M : (forall a, (a < 3)%nat -> L a = L' a) -> smooth_motion L F D Ft M -> smooth_motion L' F D Ft M.
Proof. intros E (P & Q). split; [|exact Q]. intros t c a p Hc Ha. rewrite <- (E a Ha). now apply P. Qed.

(** On ever finer grids of a fixed domain, with the Courant number kept below a fixed
    bound under 1, the fields at all times up to T tend to the exact ones. *)
Theorem C164_converges :
  forall (L : nat -> R) (eps mu : nat -> pt -> R) (E H J : R -> nat -> pt -> R)
         (DE DH : R -> nat -> nat -> pt -> R) (Et Ht : R -> nat -> pt -> R) (M eps0 eps1 mu0 mu1 theta T : R),
    (forall a, (a < 3)%nat -> 0 < L a) -> 0 < eps0 -> 0 < mu0 -> theta < 1 ->
    (forall c p, (c < 3)%nat -> eps0 <= eps c p <= eps1) -> (forall c p, (c < 3)%nat -> mu0 <= mu c p <= mu1) ->
    smooth_motion L E DE Et M -> smooth_motion L H DH Ht M ->
    (forall t c p, (c < 3)%nat -> eps c p * Et t c p = curl_re (DH t) c p - J t c p) ->
    (forall t c p, (c < 3)%nat -> mu c p * Ht t c p = - curl_re (DE t) c p) ->
    forall eta : R, 0 < eta ->
    exists n0 : nat, forall (sh : list nat) (dt : R) (n : nat),
      length sh = 3%nat -> (forall a, (a < 3)%nat -> (n0 <= dim sh a)%nat) ->
      let w := fun a => L a / INR (dim sh a) in
      0 < dt -> dt * dt * (/ (w 0%nat * w 0%nat) + / (w 1%nat * w 1%nat) + / (w 2%nat * w 2%nat)) / (eps0 * mu0) <= theta -> INR n * dt <= T ->
      let W := uniw (K := RF) w in
      let s := run (K := RF) sh dt (Some (W, W)) (smp_e w eps) (Some (smp_h w mu))
                 (map (fun (k : nat) (c : nat) (i : list nat) => - dt * smp_e w (J ((INR k + / 2) * dt)) c i) (seq 0 n))
                 (mkst (K := RF) (smp_e w (E 0)) (smp_h w (H (- dt / 2)))) in
      sqrt (fsum (K := RF) sh (fun c i => smp_e w eps c i * ((sE s c i - smp_e w (E (INR n * dt)) c i) * (sE s c i - smp_e w (E (INR n * dt)) c i))) / INR (prodl sh)) <= eta
      /\ sqrt (fsum (K := RF) sh (fun c i => smp_h w mu c i * ((sH s c i - smp_h w (H ((INR n - / 2) * dt)) c i) * (sH s c i - smp_h w (H ((INR n - / 2) * dt)) c i))) / INR (prodl sh)) <= eta.
Proof.
  intros L eps mu E H J DE DH Et Ht M eps0 eps1 mu0 mu1 theta T HLp He0 Hm0 Hth He Hm SE SH MxE MxH eta Heta.
  assert (M0 : 0 <= M). { destruct SE as (_ & Df & _). exact (diff3_M _ _ _ _ (Df 0 0%nat 0%nat ltac:(lia) ltac:(lia))). }
  assert (m1 : 0 < mu1) by (pose proof (Hm 0%nat (0, 0, 0) ltac:(lia)); lra). assert (e1 : 0 < eps1) by (pose proof (He 0%nat (0, 0, 0) ltac:(lia)); lra).
  set (Q := L 0%nat * L 0%nat + L 1%nat * L 1%nat + L 2%nat * L 2%nat).
  set (r := sqrt (1 - theta)). assert (Rp : 0 < r) by (apply sqrt_lt_R0; lra).
  assert (Sm : 0 < sqrt mu0) by (apply sqrt_lt_R0; lra). assert (Se : 0 < sqrt eps0) by (apply sqrt_lt_R0; lra).
  assert (em : 0 < eps0 * mu0) by now apply Rmult_lt_0_compat.
  set (k := (mu1 * (eps0 * mu0) + 1) / sqrt mu0 + (eps1 * (eps0 * mu0) + 1) / sqrt eps0 / r).
  assert (k0 : 0 < k).
  { unfold k. assert (0 < mu1 * (eps0 * mu0)) by now apply Rmult_lt_0_compat. assert (0 < eps1 * (eps0 * mu0)) by now apply Rmult_lt_0_compat.
    apply Rplus_lt_0_compat; unfold Rdiv; repeat apply Rmult_lt_0_compat; try apply Rinv_0_lt_compat; lra. }
  set (c3 := sqrt 3 * M / 24). assert (C3 : 0 <= c3) by (unfold c3; pose proof (sqrt_pos 3); apply Rmult_le_pos; [apply Rmult_le_pos; lra|lra]).
  set (x := 2 * (Rabs T * c3 * (k * Q) / r)).
  assert (Q0 : 0 <= Q) by (unfold Q; pose proof (Rle_0_sqr (L 0%nat)); pose proof (Rle_0_sqr (L 1%nat)); pose proof (Rle_0_sqr (L 2%nat)); unfold Rsqr in *; lra).
  assert (X0 : 0 <= x).
  { unfold x. apply Rmult_le_pos; [lra|]. apply Rmult_le_pos; [|left; now apply Rinv_0_lt_compat]. apply Rmult_le_pos; [apply Rmult_le_pos; [apply Rabs_pos|exact C3]|apply Rmult_le_pos; lra]. }
  assert (Ar : exists n : nat, x < INR n * eta).
  { exists (Z.to_nat (up (x / eta))). destruct (archimed (x / eta)) as (A & _).
    assert (P : 0 <= x / eta) by (apply Rmult_le_pos; [exact X0|left; now apply Rinv_0_lt_compat]).
    assert (Z0 : (0 <= up (x / eta))%Z) by (apply le_IZR; lra). rewrite INR_IZR_INZ, Z2Nat.id by exact Z0.
    apply Rgt_lt in A. apply (Rmult_lt_compat_r eta) in A; [|exact Heta]. replace (x / eta * eta) with x in A by (field; lra). exact A. }
  destruct Ar as (n0 & Hn). exists (S n0). intros sh dt n HS Hdim w Hdt Hcf HT W s.
  assert (N : forall a, (a < 3)%nat -> INR (S n0) <= INR (dim sh a)) by (intros a Ha; apply le_INR; now apply Hdim).
  assert (N1 : 1 <= INR (S n0)) by (rewrite S_INR; pose proof (pos_INR n0); lra).
  assert (Hw : forall a, (a < 3)%nat -> 0 < w a) by (intros a Ha; apply Rdiv_lt_0_compat; [now apply HLp|pose proof (N a Ha); lra]).
  assert (EL : forall a, (a < 3)%nat -> L a = INR (dim sh a) * w a) by (intros a Ha; unfold w; pose proof (N a Ha); field; lra).
  pose proof (C164_second_order sh w dt eps mu E H J DE DH Et Ht M eps0 eps1 mu0 mu1 n HS Hw Hdt He0 Hm0 He Hm (smooth_motion_ext _ _ _ _ _ _ EL SE) (smooth_motion_ext _ _ _ _ _ _ EL SH) MxE MxH) as B.
  cbv zeta in B. set (q := dt * dt * (/ (w 0%nat * w 0%nat) + / (w 1%nat * w 1%nat) + / (w 2%nat * w 2%nat)) / (eps0 * mu0)) in *.
  specialize (B ltac:(lra)). set (sg := w 0%nat * w 0%nat + w 1%nat * w 1%nat + w 2%nat * w 2%nat) in *.
  assert (Ws : forall a, (a < 3)%nat -> w a * w a * INR (S n0) <= L a * L a).
  { intros a Ha. rewrite (EL a Ha). pose proof (Hw a Ha) as P. pose proof (N a Ha) as P1. set (y := INR (dim sh a)) in *. set (z := INR (S n0)) in *.
    replace (y * w a * (y * w a)) with (w a * w a * (y * y)) by ring. apply Rmult_le_compat_l; [apply Rle_0_sqr|]. apply Rle_trans with (y * 1); [lra|apply Rmult_le_compat_l; lra]. }
  assert (Ss : sg * INR (S n0) <= Q). { unfold sg, Q. pose proof (Ws 0%nat ltac:(lia)). pose proof (Ws 1%nat ltac:(lia)). pose proof (Ws 2%nat ltac:(lia)). lra. }
  assert (S0 : 0 < sg) by (unfold sg; repeat apply Rplus_lt_0_compat; apply Rmult_lt_0_compat; apply Hw; lia).
  assert (D2 : dt * dt <= eps0 * mu0 * sg).
  { assert (W0 : 0 < w 0%nat * w 0%nat) by (apply Rmult_lt_0_compat; apply Hw; lia). assert (W1 : 0 < w 1%nat * w 1%nat) by (apply Rmult_lt_0_compat; apply Hw; lia). assert (W2 : 0 < w 2%nat * w 2%nat) by (apply Rmult_lt_0_compat; apply Hw; lia).
    pose proof (Rinv_0_lt_compat _ W1). pose proof (Rinv_0_lt_compat _ W2). assert (dd : 0 < dt * dt) by now apply Rmult_lt_0_compat.
    assert (A : dt * dt * / (w 0%nat * w 0%nat) / (eps0 * mu0) <= 1).
    { apply Rle_trans with q; [|lra]. unfold q, Rdiv. apply Rmult_le_compat_r; [left; now apply Rinv_0_lt_compat|]. apply Rmult_le_compat_l; lra. }
    apply Rle_trans with (eps0 * mu0 * (w 0%nat * w 0%nat)); [|apply Rmult_le_compat_l; unfold sg; lra].
    apply (Rmult_le_compat_r (eps0 * mu0 * (w 0%nat * w 0%nat))) in A; [|left; now apply Rmult_lt_0_compat].
    replace (dt * dt * / (w 0%nat * w 0%nat) / (eps0 * mu0) * (eps0 * mu0 * (w 0%nat * w 0%nat))) with (dt * dt) in A; [lra|]. field. pose proof (Hw 0%nat ltac:(lia)). lra. }
  assert (rq : r <= sqrt (1 - q)) by (apply sqrt_le_1_alt; lra).
  assert (ir : / sqrt (1 - q) <= / r) by (apply Rinv_le_contravar; lra).
  set (b := INR n * dt * c3 * ((mu1 * (dt * dt) + sg) / sqrt mu0 + (eps1 * (dt * dt) + sg) / sqrt eps0 / sqrt (1 - q)) / sqrt (1 - q)).
  fold c3 in B. fold b in B. assert (iq : 0 < / sqrt (1 - q)) by (apply Rinv_0_lt_compat; lra).
  assert (T0 : 0 <= INR n * dt) by (apply Rmult_le_pos; [apply pos_INR|lra]).
  assert (dd : 0 < dt * dt) by now apply Rmult_lt_0_compat.
  assert (Kb : 0 <= (mu1 * (dt * dt) + sg) / sqrt mu0 + (eps1 * (dt * dt) + sg) / sqrt eps0 / sqrt (1 - q) <= k * sg).
  { assert (A1 : 0 <= (mu1 * (dt * dt) + sg) / sqrt mu0 <= (mu1 * (eps0 * mu0) + 1) / sqrt mu0 * sg).
    { assert (I : 0 < / sqrt mu0) by now apply Rinv_0_lt_compat. assert (0 < mu1 * (dt * dt)) by now apply Rmult_lt_0_compat. split; [apply Rmult_le_pos; lra|].
      replace ((mu1 * (eps0 * mu0) + 1) / sqrt mu0 * sg) with ((mu1 * (eps0 * mu0 * sg) + sg) / sqrt mu0) by (field; lra). unfold Rdiv. apply Rmult_le_compat_r; [lra|]. apply Rplus_le_compat_r. apply Rmult_le_compat_l; lra. }
    assert (A2 : 0 <= (eps1 * (dt * dt) + sg) / sqrt eps0 / sqrt (1 - q) <= (eps1 * (eps0 * mu0) + 1) / sqrt eps0 / r * sg).
    { assert (I : 0 < / sqrt eps0) by now apply Rinv_0_lt_compat. assert (0 < eps1 * (dt * dt)) by now apply Rmult_lt_0_compat. split; [apply Rmult_le_pos; [apply Rmult_le_pos|]; lra|].
      replace ((eps1 * (eps0 * mu0) + 1) / sqrt eps0 / r * sg) with ((eps1 * (eps0 * mu0 * sg) + sg) / sqrt eps0 / r) by (field; lra). unfold Rdiv.
      apply Rmult_le_compat; [apply Rmult_le_pos; lra|lra| |exact ir]. apply Rmult_le_compat_r; [lra|]. apply Rplus_le_compat_r. apply Rmult_le_compat_l; lra. }
    unfold k. lra. }
  assert (Bb : 0 <= b <= Rabs T * c3 * (k * sg) / r).
  { unfold b. set (kk := (mu1 * (dt * dt) + sg) / sqrt mu0 + (eps1 * (dt * dt) + sg) / sqrt eps0 / sqrt (1 - q)) in *. clearbody kk. unfold Rdiv.
    assert (T1 : INR n * dt <= Rabs T) by (pose proof (Rle_abs T); lra).
    assert (U1 : 0 <= INR n * dt * c3 * kk) by (apply Rmult_le_pos; [apply Rmult_le_pos|]; lra).
    split; [apply Rmult_le_pos; lra|]. apply Rmult_le_compat; [exact U1|lra| |exact ir].
    apply Rmult_le_compat; [apply Rmult_le_pos; lra|lra| |lra]. apply Rmult_le_compat_r; lra. }
  assert (B2 : 2 * b <= eta).
  { apply (Rmult_le_reg_r (INR (S n0))); [lra|]. apply Rle_trans with x.
    - unfold x. rewrite Rmult_assoc. apply Rmult_le_compat_l; [lra|]. apply Rle_trans with (Rabs T * c3 * (k * sg) / r * INR (S n0)); [apply Rmult_le_compat_r; lra|].
      replace (Rabs T * c3 * (k * sg) / r * INR (S n0)) with (Rabs T * c3 * k / r * (sg * INR (S n0))) by (field; lra).
      replace (Rabs T * c3 * (k * Q) / r) with (Rabs T * c3 * k / r * Q) by (field; lra). apply Rmult_le_compat_l; [|exact Ss].
      apply Rmult_le_pos; [|left; now apply Rinv_0_lt_compat]. apply Rmult_le_pos; [apply Rmult_le_pos; [apply Rabs_pos|exact C3]|lra].
    - rewrite S_INR. lra. }
  assert (s2 : sqrt 2 <= 2). { rewrite <- (sqrt_square 2) at 2 by lra. apply sqrt_le_1_alt. lra. }
  destruct B as [BE BH]. split; [eapply Rle_trans; [exact BE|lra]|]. eapply Rle_trans; [exact BH|]. apply Rle_trans with (2 * b); [apply Rmult_le_compat_r; lra|exact B2].
Qed.
Print Assumptions C164_converges.

(** E_y = H_z = sin (x - t) in vacuum, on a domain of period 2 pi: a travelling wave. *)
Lemma d_shift f f' t s : (forall u, derivable_pt_lim f u (f' u)) -> derivable_pt_lim (fun u => f (u - t)) s (f' (s - t)).
Proof.
  intros D e He. destruct (D (s - t) e He) as (dl & Q). exists dl. intros h Hn Hl. replace (s + h - t) with (s - t + h) by ring. now apply Q.
Qed.
Lemma d_back f f' x s : (forall u, derivable_pt_lim f u (f' u)) -> derivable_pt_lim (fun u => f (x - u)) s (- f' (x - s)).
Proof.
  intros D. pose proof (derivable_pt_lim_comp (fun u => x - u) f s (- (1)) (f' (x - s))) as C.
  apply (d_val _ _ (f' (x - s) * - (1))); [ring|]. apply C; [|apply D].
  apply (d_val _ _ (0 - 1)); [ring|]. apply (derivable_pt_lim_minus (fun _ => x) (fun u => u)); [apply derivable_pt_lim_const|apply derivable_pt_lim_id].
Qed.
Example C164_case :
  let L := fun a : nat => if Nat.eqb a 0 then 2 * PI else 1 in
  let wave := fun (k : nat) (t : R) (c : nat) (p : pt) => if Nat.eqb c k then sin (fst (fst p) - t) else 0 in
  let dwave := fun (k : nat) (t : R) (a c : nat) (p : pt) => if Nat.eqb a 0 && Nat.eqb c k then cos (fst (fst p) - t) else 0 in
  let twave := fun (k : nat) (t : R) (c : nat) (p : pt) => if Nat.eqb c k then - cos (fst (fst p) - t) else 0 in
  smooth_motion L (wave 1%nat) (dwave 1%nat) (twave 1%nat) 1 /\ smooth_motion L (wave 2%nat) (dwave 2%nat) (twave 2%nat) 1
  /\ (forall t c p, (c < 3)%nat -> 1 * twave 1%nat t c p = curl_re (dwave 2%nat t) c p - 0)
  /\ (forall t c p, (c < 3)%nat -> 1 * twave 2%nat t c p = - curl_re (dwave 1%nat t) c p).
Proof.
  cbv zeta.
  assert (Ds : forall t, derivable_pt_lim sin t (cos t)) by (intro; apply derivable_pt_lim_sin).
  assert (Dc : forall t, derivable_pt_lim cos t (- sin t)) by (intro; apply derivable_pt_lim_cos).
  assert (Dns : forall t, derivable_pt_lim (fun s => - sin s) t (- cos t)) by (intro; apply derivable_pt_lim_opp; apply Ds).
  assert (Dnc : forall t, derivable_pt_lim (fun s => - cos s) t (- - sin t)) by (intro; apply derivable_pt_lim_opp; apply Dc).
  assert (Bs : forall t, Rabs (- cos t) <= 1) by (intro t; rewrite Rabs_Ropp; apply Rabs_le; pose proof (COS_bound t); lra).
  assert (G : forall k, smooth_motion (fun a : nat => if Nat.eqb a 0 then 2 * PI else 1)
    (fun (t : R) (c : nat) (p : pt) => if Nat.eqb c k then sin (fst (fst p) - t) else 0)
    (fun (t : R) (a c : nat) (p : pt) => if Nat.eqb a 0 && Nat.eqb c k then cos (fst (fst p) - t) else 0)
    (fun (t : R) (c : nat) (p : pt) => if Nat.eqb c k then - cos (fst (fst p) - t) else 0) 1).
  { intro k. split; [|split].
    - intros t c a [[x y] z] Hc Ha. destruct a as [|[|a]]; cbn [Nat.eqb mvp fst]; try reflexivity. destruct (Nat.eqb c k); [|reflexivity].
      replace (x + 2 * PI - t) with (x - t + 2 * INR 1 * PI) by (cbn; ring). apply sin_period.
    - intros t c a Hc Ha. destruct (Nat.eqb_spec c k) as [E|N].
      + eapply diff3_ext; [| |apply (along_x (fun s => sin (s - t)) (fun s => cos (s - t)) (fun s => - sin (s - t)) (fun s => - cos (s - t)) a)]; try intro p; try reflexivity.
        * destruct (Nat.eqb a 0); reflexivity.
        * now apply d_shift.
        * apply (d_shift cos (fun s => - sin s)); assumption.
        * apply (d_shift (fun s => - sin s) (fun s => - cos s)); assumption.
        * apply Bs.
        * exact Ha.
      + eapply diff3_ext; [| |apply (flat a Ha)]; intro p; rewrite ?andb_false_r; reflexivity.
    - intros c [[x y] z] Hc. cbn [fst]. destruct (Nat.eqb c k).
      + exists (fun s => - sin (x - s)), (fun s => - - cos (x - s)). split; [|split; [|split]].
        * intro t. apply (d_back sin cos); exact Ds.
        * intro t. apply (d_val _ _ (- - - sin (x - t))); [ring|]. apply (d_back (fun s => - cos s) (fun s => - - sin s)); exact Dnc.
        * intro t. apply (d_back (fun s => - sin s) (fun s => - cos s)); exact Dns.
        * intro t. rewrite Rabs_Ropp. apply Bs.
      + exists (fun _ => 0), (fun _ => 0). split; [|split; [|split]]; try (intro t; apply (d_ext (fct_cte 0)); [reflexivity|apply derivable_pt_lim_const]).
        intro t. rewrite Rabs_R0. lra. }
  split; [apply G|]. split; [apply G|]. split; intros t c p Hc; destruct c as [|[|[|c]]]; try lia; cbn; ring.
Qed.
