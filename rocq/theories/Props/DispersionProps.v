(** Properties of plane waves on uniform grids: dispersion and the limit of stability
    (C116, C119), see meanas/fdmath/__init__.py:405-505. *)
From Coq Require Import Reals Lra Psatz List Arith ZArith Lia Field QArith Qcanon.
From Verif.Lib Require Import Num Sums Idx Mat RealF Cexp.
From Verif.Model Require Import Fdmath Fdtd Fdfd.
From Verif.Spec Require Import Yee FdtdRun FdfdSpec HarmonicSpec DispersionSpec.
From Verif.Proofs Require Import FdmathP FdtdP2 FdtdP FdfdP FdfdP2 HarmonicP HarmonicP2 GridP DispersionP DispersionP2.
From Verif.Props Require Import FdfdProps HarmonicProps.
Import ListNotations.
Local Open Scope fld_scope.

(** ** C116: dispersion relation *)
(** A plane wave is in the kernel of [e_full] exactly when it is transverse and its
    differences satisfy the dispersion relation. *)
Theorem C116_dispersion :
  forall (K : CFld) (sh : list nat) (p w : nat -> K) (om eps mu : K) (e0 : nat -> K),
    length sh = 3%nat -> (forall a, (a < 3)%nat -> (0 < dim sh a)%nat) ->
    fits sh p -> (forall a, (a < 3)%nat -> w a <> 0) -> om <> 0 -> eps <> 0 -> mu <> 0 ->
    (exists c, (c < 3)%nat /\ e0 c <> 0) ->
    feq sh (unvec sh (mv (3 * prodl sh) (e_full_mat sh om (uniw w, uniw w) (vec sh (unim eps)) (Some (vec sh (unim mu))) None None)
                        (vec sh (plane_wave p e0)))) noj
    <-> dot3 (bwd p w) e0 = 0 /\ - dot3 (bwd p w) (fwd p w) = om * om * eps * mu.
Proof.
  intros K sh p w om eps mu e0 HL Hd Hp Hw Ho He Hm Hn.
  rewrite <- (wave_iff K sh p w HL Hp Hw om eps mu e0 Ho He Hm Hn Hd).
  split; intros Q c idx Hc Hi; specialize (Q c idx Hc Hi); rewrite (e_full_at K sh w HL) in * by assumption; exact Q.
Qed.
Print Assumptions C116_dispersion.

(** For a real wave vector: Kx^2 + Ky^2 + Kz^2 = Omega^2 mu eps. *)
Theorem C116_real_wave_vector :
  forall (sh : list nat) (k w : nat -> R) (Om eps mu : R) (e0 : nat -> CC),
    length sh = 3%nat -> (forall a, (a < 3)%nat -> (0 < dim sh a)%nat) ->
    commensurate sh k w -> (forall a, (a < 3)%nat -> w a <> 0%R) -> Om <> 0%R -> eps <> 0%R -> mu <> 0%R ->
    (exists c, (c < 3)%nat /\ e0 c <> c0) ->
    feq (K := CC) sh
      (unvec (K := CC) sh (mv (K := CC) (3 * prodl sh)
        (e_full_mat (K := CC) sh (mkC Om 0) (cw (uniw (K := RF) w), cw (uniw (K := RF) w))
           (vec (K := CC) sh (cf (unim (K := RF) eps))) (Some (vec (K := CC) sh (cf (unim (K := RF) mu)))) None None)
        (vec (K := CC) sh (plane_wave (K := CC) (phases k w) e0)))) noj
    <-> dot3 (K := CC) (bwd (K := CC) (phases k w) (cv w)) e0 = c0 /\ grid_k2 k w = (Om * Om * mu * eps)%R.
Proof.
  intros sh k w Om eps mu e0 HL Hd Hk Hw Ho He Hm Hn.
  pose proof (C116_dispersion CC sh (phases k w) (cv w) (mkC Om 0) (mkC eps 0) (mkC mu 0) e0 HL Hd (phases_fit sh k w Hk) (cv_nz w Hw)) as X.
  assert (N : forall x : R, x <> 0%R -> mkC x 0 <> (f0 (f := CC))) by (intros x Hx Y; apply (f_equal cre) in Y; exact (Hx Y)).
  specialize (X (N Om Ho) (N eps He) (N mu Hm) Hn). rewrite (dot_k k w Hw) in X.
  etransitivity; [exact X|]. split; intros [A B]; (split; [exact A|]).
  - apply (f_equal cre) in B. cbn in B. lra.
  - apply cpx_ext; cbn; [|ring]. rewrite B. ring.
Qed.
Print Assumptions C116_real_wave_vector.

(** C115 without current. *)
Lemma free_run sh (W : widths RF) (dt omega : R) (eps mu : field RF) (E H : field CC) :
  length sh = 3%nat -> nzw (K := RF) sh W -> dt <> 0%R -> nzm (K := RF) sh eps -> nzm (K := RF) sh mu ->
  let out := eh_full_f (K := CC) sh (mkC (2 * sin (omega * dt / 2) / dt)%R 0%R) (cw W, cw W) (cf eps) (Some (cf mu)) E H in
  feq (K := CC) sh (fst out) noj -> feq (K := CC) sh (snd out) noj ->
  forall N : nat,
      seq_st (K := RF) sh (run (K := RF) sh dt (Some (W, W)) eps (Some mu) (repeat noj N)
           (mkst (at_phase E 0) (at_phase H (- (omega * dt / 2)))%R))
        (mkst (at_phase E (omega * (INR N * dt))%R) (at_phase H (omega * ((INR N - / 2) * dt))%R)).
Proof.
  intros HL Hw Hdt He Hm out A B N.
  eapply seq_st_trans; [|exact (C115_real_run sh W W dt omega eps (Some mu) E H (noj (K := CC)) HL Hw Hw Hdt He Hm A B N)].
  generalize (mkst (K := RF) (at_phase E 0) (at_phase H (- (omega * dt / 2))%R)). generalize 0%nat.
  induction N as [|N IH]; intros m s; [split; intros ? ? ? ?; reflexivity|].
  cbn [repeat seq map run fold_left]. eapply seq_st_trans; [|apply IH].
  apply (run_ext RF sh dt (Some (W, W)) eps (Some mu) (repeat noj N) HL). apply step_ext_j.
  intros c i Hc Hi. unfold noj, at_phase. cbn. ring.
Qed.

(** In the time domain: transverse plane waves with Omega = 2 sin(omega dt / 2) / dt in
    the relation propagate unchanged, H from [e2h]. *)
Theorem C116_time_domain :
  forall (sh : list nat) (k w : nat -> R) (dt omega eps mu : R) (e0 : nat -> CC),
    length sh = 3%nat -> commensurate sh k w -> (forall a, (a < 3)%nat -> w a <> 0%R) -> dt <> 0%R -> eps <> 0%R -> mu <> 0%R ->
    let Om := (2 * sin (omega * dt / 2) / dt)%R in
    Om <> 0%R ->
    dot3 (K := CC) (bwd (K := CC) (phases k w) (cv w)) e0 = c0 ->
    grid_k2 k w = (Om * Om * mu * eps)%R ->
    let W := uniw (K := RF) w in
    let E := plane_wave (K := CC) (phases k w) e0 in
    let H := e2h_f (K := CC) sh (mkC Om 0) (cw W, cw W) (Some (cf (unim (K := RF) mu))) E in
    forall N : nat,
      seq_st (K := RF) sh
        (run (K := RF) sh dt (Some (W, W)) (unim (K := RF) eps) (Some (unim (K := RF) mu)) (repeat noj N)
           (mkst (at_phase E 0) (at_phase H (- (omega * dt / 2)))%R))
        (mkst (at_phase E (omega * (INR N * dt))%R) (at_phase H (omega * ((INR N - / 2) * dt))%R)).
Proof.
  intros sh k w dt omega eps mu e0 HL Hk Hw Hdt He Hm Om Ho Tr Dr W E H N.
  assert (Nm : nzm_opt (K := CC) sh (Some (cf (unim (K := RF) mu)))) by (intros c i _ _ Y; apply (f_equal cre) in Y; exact (Hm Y)).
  assert (No : mkC Om 0 <> (f0 (f := CC))) by (intro Y; apply (f_equal cre) in Y; exact (Ho Y)).
  assert (Nu : mkC mu 0 <> (f0 (f := CC))) by (intro Y; apply (f_equal cre) in Y; exact (Hm Y)).
  assert (D2 : fopp (f := CC) (dot3 (K := CC) (bwd (K := CC) (phases k w) (cv w)) (fwd (K := CC) (phases k w) (cv w)))
               = fmul (f := CC) (fmul (f := CC) (fmul (f := CC) (mkC Om 0) (mkC Om 0)) (mkC eps 0)) (mkC mu 0)).
  { rewrite (dot_k k w Hw), Dr. apply cpx_ext; cbn; ring. }
  pose proof (wave_kernel CC sh (phases k w) (cv w) HL (phases_fit sh k w Hk) (cv_nz w Hw) (mkC Om 0) (mkC eps 0) (mkC mu 0) e0 Nu Tr D2) as Q.
  destruct (e_full_solution CC sh (mkC Om 0) (cw W, cw W) (cf (unim (K := RF) eps)) (Some (cf (unim (K := RF) mu))) E (noj (K := CC)) HL No Nm) as [A B].
  { intros c i Hc Hi. etransitivity; [exact (e_full_at CC sh (cv w) HL (mkC Om 0) (mkC eps 0) (mkC mu 0) E c i Hc Hi)|].
    etransitivity; [exact (Q c i Hc Hi)|]. apply cpx_ext; cbn; ring. }
  apply free_run; try assumption.
  - intros a i Ha Hi. apply Hw. lia.
  - intros c i _ _. exact He.
  - intros c i _ _. exact Hm.
Qed.
Print Assumptions C116_time_domain.

(** Below the documented time step every real wave vector has a real frequency. *)
Theorem C116_real_frequency :
  forall (k w : nat -> R) (dt eps mu : R),
    (0 < dt)%R -> (0 < eps)%R -> (0 < mu)%R -> (forall a, (a < 3)%nat -> w a <> 0%R) ->
    (dt * dt / (mu * eps) < 1 / (1 / (w 0%nat * w 0%nat) + 1 / (w 1%nat * w 1%nat) + 1 / (w 2%nat * w 2%nat)))%R ->
    exists omega : R,
      let Om := (2 * sin (omega * dt / 2) / dt)%R in grid_k2 k w = (Om * Om * mu * eps)%R.
Proof.
  intros k w dt eps mu Hdt He Hm Hw Hb.
  set (s := (1 / (w 0%nat * w 0%nat) + 1 / (w 1%nat * w 1%nat) + 1 / (w 2%nat * w 2%nat))%R) in *.
  assert (P : forall a, (a < 3)%nat -> (0 < 1 / (w a * w a))%R).
  { intros a Ha. apply Rdiv_lt_0_compat; [lra|]. pose proof (Hw a Ha). nra. }
  assert (S0 : (0 < s)%R) by (pose proof (P 0%nat ltac:(lia)); pose proof (P 1%nat ltac:(lia)); pose proof (P 2%nat ltac:(lia)); unfold s; lra).
  assert (Kb : forall a, (a < 3)%nat -> (0 <= grid_k k w a * grid_k k w a <= 4 * (1 / (w a * w a)))%R).
  { intros a Ha. split; [nra|]. unfold grid_k. pose proof (SIN_bound (k a * w a / 2)) as SB. set (x := sin _) in *. pose proof (P a Ha) as Pa. pose proof (Hw a Ha).
    replace (2 * x / w a * (2 * x / w a))%R with (4 * (x * x) * (1 / (w a * w a)))%R by (field; assumption).
    assert (x * x <= 1)%R by nra. apply Rmult_le_compat_r; lra. }
  assert (G : (0 <= grid_k2 k w <= 4 * s)%R).
  { unfold grid_k2, s. pose proof (Kb 0%nat ltac:(lia)); pose proof (Kb 1%nat ltac:(lia)); pose proof (Kb 2%nat ltac:(lia)). lra. }
  assert (ME : (0 < mu * eps)%R) by now apply Rmult_lt_0_compat.
  assert (DD : (0 < dt * dt)%R) by now apply Rmult_lt_0_compat.
  assert (B : (dt * dt * s < mu * eps)%R).
  { apply (Rmult_lt_compat_r (mu * eps * s)) in Hb; [|now apply Rmult_lt_0_compat].
    replace (dt * dt / (mu * eps) * (mu * eps * s))%R with (dt * dt * s)%R in Hb by (field; lra).
    replace (1 / s * (mu * eps * s))%R with (mu * eps)%R in Hb by (field; lra). exact Hb. }
  set (q := (grid_k2 k w * (dt * dt) / (4 * (mu * eps)))%R).
  assert (Q0 : (0 <= q <= 1)%R).
  { unfold q. split.
    - apply Rmult_le_pos; [apply Rmult_le_pos; lra|]. left. apply Rinv_0_lt_compat. lra.
    - apply (Rmult_le_reg_r (4 * (mu * eps))); [lra|]. unfold Rdiv. rewrite Rmult_assoc, Rinv_l by lra.
      apply Rle_trans with (4 * s * (dt * dt))%R; [|lra]. rewrite Rmult_1_r. apply Rmult_le_compat_r; lra. }
  pose proof (sqrt_pos q) as R0. pose proof (sqrt_sqrt q (proj1 Q0)) as R1. set (r := sqrt q) in *.
  exists (2 * asin r / dt)%R. cbv zeta.
  replace (2 * asin r / dt * dt / 2)%R with (asin r) by (field; lra). rewrite sin_asin by nra.
  replace (2 * r / dt * (2 * r / dt) * mu * eps)%R with (4 * (r * r) * (mu * eps) / (dt * dt))%R by (field; lra).
  rewrite R1. unfold q. field. lra.
Qed.
Print Assumptions C116_real_frequency.

(** A wave of period 4 along x with unit widths: p = i, K_x^2 = 2. *)
Example C116_example :
  let sh := [4; 1; 1]%nat in
  let p := fun a : nat => if Nat.eqb a 0 then gz 0 1 else gz 1 0 in
  let w := fun _ : nat => gz 1 0 in
  let e0 := fun c : nat => if Nat.eqb c 1 then gz 1 0 else (0 : GQC) in
  fits sh p
  /\ feq sh (unvec sh (mv (3 * prodl sh) (e_full_mat sh (gz 1 0) (uniw w, uniw w) (vec sh (unim (gz 2 0))) (Some (vec sh (unim (gz 1 0)))) None None)
                        (vec sh (plane_wave p e0)))) noj
  /\ plane_wave p e0 1%nat [1; 0; 0]%nat = gz 0 1.
Proof.
  cbv zeta. set (p := fun a : nat => if Nat.eqb a 0 then gz 0 1 else gz 1 0).
  assert (F : fits (K := GQC) [4; 1; 1]%nat p).
  { intros a Ha. split.
    - destruct a as [|[|[|a]]]; [| | |lia]; unfold p; cbn [Nat.eqb].
      + intro X. apply (f_equal (fun x => Qeq_bool (this (gim x)) 0)) in X. vm_compute in X. discriminate.
      + intro X. apply (f_equal (fun x => Qeq_bool (this (gre x)) 0)) in X. vm_compute in X. discriminate.
      + intro X. apply (f_equal (fun x => Qeq_bool (this (gre x)) 0)) in X. vm_compute in X. discriminate.
    - destruct a as [|[|[|a]]]; [| | |lia]; gq_refl. }
  split; [exact F|]. split; [|gq_refl].
  assert (N1 : gz 1 0 <> (0 : GQC)) by (intro X; apply (f_equal (fun x => Qeq_bool (this (gre x)) 0)) in X; vm_compute in X; discriminate).
  assert (N2 : gz 2 0 <> (0 : GQC)) by (intro X; apply (f_equal (fun x => Qeq_bool (this (gre x)) 0)) in X; vm_compute in X; discriminate).
  assert (NZ : exists c, (c < 3)%nat /\ (if Nat.eqb c 1 then gz 1 0 else (0 : GQC)) <> 0) by (exists 1%nat; split; [lia|exact N1]).
  apply (proj2 (C116_dispersion GQC [4; 1; 1]%nat p (fun _ => gz 1 0) (gz 1 0) (gz 2 0) (gz 1 0)
     (fun c : nat => if Nat.eqb c 1 then gz 1 0 else (0 : GQC)) eq_refl ltac:(intros a Ha; destruct a as [|[|[|a]]]; cbn; lia) F (fun _ _ => N1) N1 N2 N1
     NZ)).
  split; gq_refl.
Qed.

(** ** C119: the documented time step is the limit of stability *)
(** Beyond it a wave grows by a fixed factor per step. *)
Theorem C119_unstable :
  forall (sh : list nat) (k w : nat -> R) (dt eps mu : R),
    length sh = 3%nat -> (forall a, (a < 3)%nat -> (0 < dim sh a)%nat) ->
    (forall a, (a < 3)%nat -> w a <> 0%R) -> commensurate sh k w -> (0 < eps)%R -> (0 < mu)%R ->
    (4 * (eps * mu) < dt * dt * grid_k2 k w)%R ->
    exists (g : R) (E H : field RF), (1 < g)%R /\
      (exists c idx, (c < 3)%nat /\ inb sh idx /\ E c idx <> 0%R) /\
      forall N, seq_st (K := RF) sh
        (run (K := RF) sh dt (Some (uniw (K := RF) w, uniw (K := RF) w)) (unim (K := RF) eps) (Some (unim (K := RF) mu)) (repeat noj N) (mkst E H))
        (mkst (fun c i => ((- g) ^ N * E c i)%R) (fun c i => ((- g) ^ N * H c i)%R)).
Proof.
  intros sh k w dt eps mu HL Hd Hw Hk He Hm Hc.
  destruct (unstable sh k w dt eps mu HL Hd Hw Hk He Hm Hc) as (g & E & H & Hg & Hn & R).
  exists g, E, H. split; [exact Hg|]. split; [exact Hn|]. intro N.
  assert (Z : forall n, zpow (K := RF) (- g)%R n = ((- g) ^ n)%R) by (induction n as [|n IH]; [reflexivity|]; cbn [zpow pow]; now rewrite IH).
  specialize (R N). rewrite Z in R. exact R.
Qed.
Print Assumptions C119_unstable.

(** With even numbers of cells along the axes [q]: unstable as soon as the time step
    exceeds the documented limit for these axes. The fields have no bound. *)
Theorem C119_beyond_limit :
  forall (sh : list nat) (q : nat -> bool) (w : nat -> R) (dt eps mu : R),
    length sh = 3%nat -> (forall a, (a < 3)%nat -> (0 < dim sh a)%nat) ->
    (forall a, (a < 3)%nat -> (0 < w a)%R) -> (0 < eps)%R -> (0 < mu)%R ->
    (forall a, (a < 3)%nat -> q a = true -> Nat.Even (dim sh a)) ->
    let part a := if q a then (1 / (w a * w a))%R else 0%R in
    (eps * mu < dt * dt * (part 0%nat + part 1%nat + part 2%nat))%R ->
    exists E H : field RF, forall M : R, exists N c idx, (c < 3)%nat /\ inb sh idx /\
      (M < Rabs (sE (run (K := RF) sh dt (Some (uniw (K := RF) w, uniw (K := RF) w)) (unim (K := RF) eps) (Some (unim (K := RF) mu))
                       (repeat noj N) (mkst E H)) c idx))%R.
Proof.
  intros sh q w dt eps mu HL Hd Hw He Hm Hq part Hc.
  set (k := fun a => if q a then (PI / w a)%R else 0%R).
  assert (G : forall a, (a < 3)%nat -> (grid_k k w a * grid_k k w a = 4 * part a)%R).
  { intros a Ha. pose proof (Hw a Ha). unfold grid_k, k, part. destruct (q a).
    - replace (PI / w a * w a / 2)%R with (PI / 2)%R by (field; lra). rewrite sin_PI2. field. lra.
    - replace (0 * w a / 2)%R with 0%R by field. rewrite sin_0. field. lra. }
  destruct (C119_unstable sh k w dt eps mu HL Hd) as (g & E & H & Hg & (c & idx & Hc' & Hi & N0) & R); try assumption.
  - intros a Ha. pose proof (Hw a Ha). lra.
  - intros a Ha. pose proof (Hw a Ha). unfold k. destruct (q a) eqn:Q.
    + destruct (Hq a Ha Q) as [m Em]. exists (Z.of_nat m). rewrite Em, mult_INR, <- INR_IZR_INZ. cbn [INR]. field. lra.
    + exists 0%Z. ring.
  - unfold grid_k2. rewrite !G by lia. lra.
  - exists E, H. intro M. pose proof (Rabs_pos_lt _ N0) as A0.
    destruct (Pow_x_infinity g) with (b := ((Rabs M + 1) / Rabs (E c idx))%R) as [N HN]; [rewrite Rabs_right; lra|].
    exists N, c, idx. split; [exact Hc'|]. split; [exact Hi|]. destruct (R N) as [RE _]. specialize (RE c idx Hc' Hi).
    cbn [sE] in RE. rewrite RE. rewrite Rabs_mult, <- RPow_abs, Rabs_Ropp, RPow_abs. specialize (HN N (le_n N)).
    apply Rge_le in HN. apply (Rmult_le_compat_r (Rabs (E c idx))) in HN; [|lra].
    unfold Rdiv in HN. rewrite Rmult_assoc, Rinv_l, Rmult_1_r in HN by lra. pose proof (Rle_abs M). lra.
Qed.
Print Assumptions C119_beyond_limit.

(** 2 x 2 x 2 cells of unit width, eps = mu = 1: dt = 3/5 is beyond 1/sqrt 3. *)
Example C119_example :
  exists E H : field RF, forall M : R, exists N c idx, (c < 3)%nat /\ inb [2; 2; 2]%nat idx /\
      (M < Rabs (sE (run (K := RF) [2; 2; 2]%nat (3 / 5)%R (Some (uniw (K := RF) (fun _ => 1%R), uniw (K := RF) (fun _ => 1%R)))
                     (unim (K := RF) 1%R) (Some (unim (K := RF) 1%R)) (repeat noj N) (mkst E H)) c idx))%R.
Proof.
  apply (C119_beyond_limit [2; 2; 2]%nat (fun _ => true) (fun _ => 1%R) (3 / 5)%R 1%R 1%R); try lra.
  - reflexivity.
  - intros a Ha. destruct a as [|[|[|a]]]; cbn; lia.
  - intros; lra.
  - intros a Ha _. exists 1%nat. destruct a as [|[|[|a]]]; cbn; lia.
Qed.
