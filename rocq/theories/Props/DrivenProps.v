(** Driven FDTD runs (C134). *)
From Coq Require Import Reals Lra Lia ZArith List Bool.
From Verif.Lib Require Import Num Sums Idx Mat RealF.
From Verif.Model Require Import Fdmath Fdtd.
From Verif.Spec Require Import Yee FdtdRun.
From Verif.Proofs Require Import FdmathP FdtdP2 CflP DrivenP.
Import ListNotations.
Local Open Scope R_scope.

Lemma courant_lt dx dy dz dt eps0 mu0 : 0 < dx -> 0 < dy -> 0 < dz -> 0 < eps0 -> 0 < mu0 -> 0 <= dt ->
  dt < sqrt (mu0 * eps0) / sqrt (1 / (dx * dx) + 1 / (dy * dy) + 1 / (dz * dz)) -> 0 <= q dx dy dz dt eps0 mu0 < 1.
Proof.
  intros Hx Hy Hz He0 Hm0 Hdt Hlim. set (S := 1 / (dx * dx) + 1 / (dy * dy) + 1 / (dz * dz)) in Hlim.
  assert (HS : Ssum dx dy dz = S) by (unfold Ssum, S; field; lra).
  assert (Sp : 0 < S) by (rewrite <- HS; now apply Ssum_pos).
  assert (Pp : 0 < eps0 * mu0) by now apply Rmult_lt_0_compat.
  unfold q. rewrite HS. split.
  { apply Rmult_le_pos; [|left; now apply Rinv_0_lt_compat]. apply Rmult_le_pos; [nra|lra]. }
  apply (Rmult_lt_reg_r (eps0 * mu0)); [exact Pp|].
  unfold Rdiv. rewrite Rmult_assoc, Rinv_l, Rmult_1_r, Rmult_1_l by lra.
  assert (R1 : 0 < sqrt S) by now apply sqrt_lt_R0.
  apply (Rmult_lt_compat_r (sqrt S)) in Hlim; [|exact R1].
  unfold Rdiv in Hlim. rewrite Rmult_assoc, Rinv_l, Rmult_1_r in Hlim by lra.
  assert (0 <= dt * sqrt S) by (apply Rmult_le_pos; lra).
  assert (0 <= sqrt (mu0 * eps0)) by apply sqrt_pos.
  assert (A : (dt * sqrt S) * (dt * sqrt S) < sqrt (mu0 * eps0) * sqrt (mu0 * eps0)) by (apply Rmult_le_0_lt_compat; lra).
  rewrite sqrt_sqrt in A by nra.
  replace (dt * sqrt S * (dt * sqrt S)) with (dt * dt * (sqrt S * sqrt S)) in A by ring.
  rewrite sqrt_sqrt in A by lra. lra.
Qed.

(** ** C134 *)
(** Below the documented time step, whatever is injected ([e += j / epsilon] after
    each step): the square root of the energy grows by at most a constant times the
    sum of the strengths of the currents, and this bounds the E and H fields. *)
Theorem C134_driven :
  forall (sh : list nat) (we wh : widths RF) (dx dy dz dt : R) (eps : field RF) (mu : option (field RF)) (eps0 mu0 : R),
    length sh = 3%nat ->
    0 < dx -> 0 < dy -> 0 < dz -> 0 < eps0 -> 0 < mu0 ->
    (forall i, (i < dim sh 0)%nat -> dx <= we 0%nat i /\ dx <= wh 0%nat i) ->
    (forall i, (i < dim sh 1)%nat -> dy <= we 1%nat i /\ dy <= wh 1%nat i) ->
    (forall i, (i < dim sh 2)%nat -> dz <= we 2%nat i /\ dz <= wh 2%nat i) ->
    (forall c idx, (c < 3)%nat -> inb sh idx -> eps0 <= eps c idx) ->
    (forall c idx, (c < 3)%nat -> inb sh idx -> mu0 <= matl mu c idx) ->
    0 <= dt -> dt < sqrt (mu0 * eps0) / sqrt (1 / (dx * dx) + 1 / (dy * dy) + 1 / (dz * dz)) ->
    exists C : R, 0 < C /\
    forall (s : state RF) (js : list (field RF)),
      let d := Some (we, wh) in
      let s' := run sh dt d eps mu js s in
      let U (s : state RF) : R := gsum sh (yee_energy (fun c i => fmul (sE s c i) (sE s c i))
                          (fun c i => fmul (sH s c i) (maxwell_h sh dt d (sE s) (sH s) mu c i)) (Some eps) mu d) in
      let strength (j : field RF) : R := sqrt (fsum (K := RF) sh (fun c i => vol_e we wh c i * (j c i * j c i / eps c i))) in
      let total := fold_right Rplus 0 (map strength js) in
      0 <= U s /\ sqrt (U s') <= sqrt (U s) + C * total
      /\ sqrt (fsum (K := RF) sh (fun c i => vol_e we wh c i * (eps c i * (sE s' c i * sE s' c i)))) <= C * (sqrt (U s) + total)
      /\ sqrt (fsum (K := RF) sh (fun c i => vol_h we wh c i * (matl mu c i * (sH s' c i * sH s' c i)))) <= C * (sqrt (U s) + total).
Proof.
  intros sh we wh dx dy dz dt eps mu eps0 mu0 HL Hx Hy Hz He0 Hm0 Wx Wy Wz He Hm Hdt Hlim.
  destruct (courant_lt dx dy dz dt eps0 mu0 Hx Hy Hz He0 Hm0 Hdt Hlim) as [Q0 Hq].
  assert (Hw : forall a i, (a < 3)%nat -> (i < dim sh a)%nat -> dmin dx dy dz a <= we a i /\ dmin dx dy dz a <= wh a i).
  { intros a i Ha Hi. destruct a as [|[|[|a]]]; [now apply Wx|now apply Wy|now apply Wz|lia]. }
  set (g := 1 - q dx dy dz dt eps0 mu0) in *. assert (G0 : 0 < g <= 1) by (unfold g; lra).
  assert (R0 : 0 < sqrt g) by (apply sqrt_lt_R0; lra). assert (R1 : sqrt g <= 1) by (rewrite <- sqrt_1; apply sqrt_le_1; lra).
  pose proof (sqrt_sqrt g ltac:(lra)) as R2.
  assert (I1 : 1 <= / sqrt g) by (rewrite <- Rinv_1; apply Rinv_le_contravar; lra).
  exists (2 / g). split; [apply Rmult_lt_0_compat; [lra|apply Rinv_0_lt_compat; lra]|]. intros s js d s' U strength total.
  destruct (ee_U sh we wh dx dy dz HL Hx Hy Hz Hw dt eps mu eps0 mu0 He0 Hm0 He Hm Hq s) as [_ U0].
  destruct (ee_U sh we wh dx dy dz HL Hx Hy Hz Hw dt eps mu eps0 mu0 He0 Hm0 He Hm Hq s') as [_ U0'].
  destruct (stable_state sh we wh dx dy dz HL Hx Hy Hz Hw dt eps mu eps0 mu0 He0 Hm0 He Hm Hq s') as [A B].
  pose proof (driven_run sh we wh dx dy dz HL Hx Hy Hz Hw dt eps mu eps0 mu0 He0 Hm0 He Hm Hq js s) as D.
  fold d g in A, B, D, U0, U0'. fold s' in D.
  change (yee_E RF sh dt d eps mu s) with (U s) in *. change (yee_E RF sh dt d eps mu s') with (U s') in *.
  assert (T : fold_right (fun j a => sqrt (jj sh we wh eps j) + a) 0 js = total).
  { unfold total. clear. induction js as [|j js IH]; [reflexivity|]. cbn [fold_right map]. rewrite IH. reflexivity. }
  rewrite T in D. assert (T0 : 0 <= total).
  { unfold total. clear. induction js as [|j js IH]; [cbn; lra|]. cbn [fold_right map]. pose proof (sqrt_pos (fsum (K := RF) sh (fun c i => vol_e we wh c i * (j c i * j c i / eps c i)))). unfold strength at 1. lra. }
  assert (I2 : / g = / sqrt g * / sqrt g) by (rewrite <- R2 at 1; field; lra).
  assert (I3 : / sqrt g <= / g) by (rewrite I2; nra).
  assert (S0 : 0 <= sqrt (U s)) by apply sqrt_pos. assert (S1 : 0 <= sqrt (U s')) by apply sqrt_pos.
  assert (L : sqrt (U s') <= / sqrt g * (sqrt (U s) + total)).
  { eapply Rle_trans; [exact D|]. unfold Rdiv. nra. }
  assert (P0 : 0 <= sqrt (U s) + total) by lra.
  split; [exact U0|]. split; [|split].
  - eapply Rle_trans; [exact D|]. apply Rplus_le_compat_l. unfold Rdiv. rewrite (Rmult_comm total). apply Rmult_le_compat_r; [exact T0|]. lra.
  - apply Rle_trans with (sqrt (U s' / g)); [apply sqrt_le_1_alt; exact A|]. rewrite sqrt_div by lra.
    apply Rle_trans with (/ sqrt g * (sqrt (U s) + total) * / sqrt g).
    + unfold Rdiv. apply Rmult_le_compat_r; [lra|exact L].
    + replace (/ sqrt g * (sqrt (U s) + total) * / sqrt g) with (/ g * (sqrt (U s) + total)) by (rewrite I2; ring). unfold Rdiv. apply Rmult_le_compat_r; lra.
  - apply Rle_trans with (sqrt (2 * U s' / g)); [apply sqrt_le_1_alt; exact B|].
    apply Rle_trans with (sqrt (4 * (U s' / g))).
    { apply sqrt_le_1_alt. assert (0 <= U s' / g) by (apply Rmult_le_pos; [exact U0'|lra]). unfold Rdiv in *. lra. }
    rewrite sqrt_mult by first [lra|apply Rmult_le_pos; [exact U0'|lra]]. replace (sqrt 4) with 2 by (replace 4 with (2 * 2) by ring; symmetry; apply sqrt_square; lra).
    rewrite sqrt_div by lra. apply Rle_trans with (2 * (/ sqrt g * (sqrt (U s) + total) * / sqrt g)).
    + apply Rmult_le_compat_l; [lra|]. unfold Rdiv. apply Rmult_le_compat_r; [lra|exact L].
    + replace (/ sqrt g * (sqrt (U s) + total) * / sqrt g) with (/ g * (sqrt (U s) + total)) by (rewrite I2; ring). unfold Rdiv. right. ring.
Qed.
Print Assumptions C134_driven.

Lemma flat_forward sh w a (x : R) idx : deriv_forward (K := RF) sh w a (fun _ => x) idx = 0.
Proof. unfold deriv_forward, roll. destruct w; cbn; match goal with |- ?a = ?b => change (a = b :> R) end; unfold Rdiv; ring. Qed.
Lemma flat_back sh w a (x : R) idx : deriv_back (K := RF) sh w a (fun _ => x) idx = 0.
Proof. unfold deriv_back, roll. destruct w; cbn; match goal with |- ?a = ?b => change (a = b :> R) end; unfold Rdiv; ring. Qed.

(** The growth is reached: currents epsilon * a(c) that are the same at every step drive a
    uniform field, and the square root of the energy is the sum of their strengths. *)
Theorem C134_reached :
  forall (sh : list nat) (we wh : widths RF) (dt : R) (eps : field RF) (mu : option (field RF)) (a : nat -> R) (n : nat),
    length sh = 3%nat -> (forall c idx, inb sh idx -> 0 < vol_e we wh c idx) -> (forall c idx, (c < 3)%nat -> inb sh idx -> 0 < eps c idx) ->
    let d := Some (we, wh) in
    let j : field RF := fun c i => eps c i * a c in
    let s := run sh dt d eps mu (repeat j n) (mkst noj noj) in
    let U : R := gsum sh (yee_energy (fun c i => fmul (sE s c i) (sE s c i))
                          (fun c i => fmul (sH s c i) (maxwell_h sh dt d (sE s) (sH s) mu c i)) (Some eps) mu d) in
    let strength : R := sqrt (fsum (K := RF) sh (fun c i => vol_e we wh c i * (j c i * j c i / eps c i))) in
    sqrt U = INR n * strength.
Proof.
  intros sh we wh dt eps mu a n HL Hv He d j s U strength.
  set (flat (x : R) := mkst (K := RF) (fun c _ => x * a c) noj).
  assert (Z : forall x c i, (c < 3)%nat -> inb sh i -> maxwell_h (K := RF) sh dt d (sE (flat x)) noj mu c i = 0).
  { intros x c i Hc Hi. unfold maxwell_h, curl_forward, curl_with. cbn [sE flat].
    destruct c as [|[|[|c]]]; [| | |lia]; rewrite !flat_forward; unfold noj; destruct mu; cbn; match goal with |- ?a = ?b => change (a = b :> R) end; unfold Rdiv; ring. }
  assert (St : forall x, seq_st sh (step sh dt d eps mu j (flat x)) (flat (x + 1))).
  { intro x. assert (H0 : feq (K := RF) sh (maxwell_h sh dt d (sE (flat x)) (sH (flat x)) mu) noj) by (intros c i Hc Hi; exact (Z x c i Hc Hi)).
    split; [|exact H0]. intros c i Hc Hi. unfold step. cbn [sE].
    pose proof (maxwell_e_ext RF sh dt d eps (sE (flat x)) (sE (flat x)) _ _ HL (fun c i _ _ => eq_refl) H0 c i Hc Hi) as M.
    refine (eq_trans (f_equal (fun t => fadd t _) M) _). pose proof (He c i Hc Hi). unfold maxwell_e, curl_back, curl_with, noj.
    destruct c as [|[|[|c]]]; [| | |lia]; rewrite !flat_back; unfold j; cbn; match goal with |- ?a = ?b => change (a = b :> R) end; field; lra. }
  assert (Sn : seq_st sh s (flat (INR n))).
  { unfold s. replace (INR n) with (0 + INR n) by ring. assert (I0 : seq_st sh (mkst (K := RF) noj noj) (flat 0)).
    { split; intros c i Hc Hi; cbn; [|reflexivity]. unfold noj. cbn. match goal with |- ?a = ?b => change (a = b :> R) end. ring. }
    apply (seq_st_trans RF) with (run sh dt d eps mu (repeat j n) (flat 0)); [now apply run_ext|]. clear - St HL.
    generalize 0. induction n as [|n IH]; intro x.
    - cbn. rewrite Rplus_0_r. split; intros c i _ _; reflexivity.
    - rewrite S_INR. cbn [repeat run fold_left]. replace (x + (INR n + 1)) with (x + 1 + INR n) by ring.
      apply (seq_st_trans RF) with (run sh dt d eps mu (repeat j n) (flat (x + 1))); [|apply IH]. apply (run_ext RF); [exact HL|]. apply St. }
  destruct Sn as [SE SH].
  assert (EU : U = INR n * INR n * fsum (K := RF) sh (fun c i => vol_e we wh c i * (j c i * j c i / eps c i))).
  { transitivity (fsum (K := RF) sh (fun c i => INR n * INR n * (vol_e we wh c i * (j c i * j c i / eps c i)))); [|apply fsum_mul_r].
    unfold U, fsum. rewrite <- !(@gsum_add RF). apply (@gsum_ext RF). intros i Hi. unfold yee_energy, csum, vol_e_d, vol_h_d, matl at 1 2 3. cbn [d].
    rewrite !SE, !SH by (assumption || lia). pose proof (He 0%nat i ltac:(lia) Hi). pose proof (He 1%nat i ltac:(lia) Hi). pose proof (He 2%nat i ltac:(lia) Hi).
    unfold j, noj. cbn. match goal with |- ?a = ?b => change (a = b :> R) end. field. lra. }
  rewrite EU. fold strength. rewrite sqrt_mult_alt by nra. rewrite sqrt_square by apply pos_INR. reflexivity.
Qed.
Print Assumptions C134_reached.

(** Both theorems at once: widths 1, vacuum, dt = 1/2, a unit current along x for three steps. *)
Example C134_example :
  let sh := [2; 1; 1]%nat in let w : widths RF := fun _ _ => 1 in let eps : field RF := fun _ _ => 1 in
  let j : field RF := fun c _ => if Nat.eqb c 0 then 1 else 0 in
  (0 <= 1/2 < sqrt (1 * 1) / sqrt (1 / (1 * 1) + 1 / (1 * 1) + 1 / (1 * 1)))
  /\ sqrt (fsum (K := RF) sh (fun c i => vol_e w w c i * (j c i * j c i / eps c i))) = sqrt 2.
Proof.
  cbv zeta. split.
  - split; [lra|]. rewrite Rmult_1_r, sqrt_1. set (X := sqrt _).
    assert (A : X < 2). { unfold X. replace 2 with (sqrt 4) by (replace 4 with (2 * 2) by lra; apply sqrt_square; lra). apply sqrt_lt_1; lra. }
    assert (B : 0 < X) by (apply sqrt_lt_R0; lra).
    apply (Rmult_lt_reg_r X); [exact B|]. replace (1 / X * X) with 1 by (field; lra). lra.
  - f_equal. cbn. field.
Qed.
