(** Resonances of closed lossless boxes (C152 - C154). *)
From Coq Require Import Reals List Arith ZArith Lia Lra.
From Verif.Lib Require Import Num Sums Idx Mat RealF.
From Verif.Model Require Import Fdmath Fdtd Fdfd.
From Verif.Spec Require Import Grid Yee FdtdRun HarmonicSpec SolvableSpec ModesSpec.
From Verif.Proofs Require Import FdfdP GridP CflP SpectralP ModesP ModesP2 ModesP3.
Import ListNotations.
Local Open Scope R_scope.

(** ** C152: the modes *)
(** There is a complete set: as many modes as entries of the field. *)
Theorem C152_modes :
  forall (sh : list nat) (we wh : widths RF) (eps : field RF) (mu : option (field RF)),
    lossless sh we wh eps mu -> exists V lam, modes sh we wh eps mu V lam.
Proof. exact modes_exist. Qed.
Print Assumptions C152_modes.

(** The matrix is singular at the (complex) frequencies om with om^2 = lam a, and only there. *)
Theorem C152_resonances :
  forall (sh : list nat) (we wh : widths RF) (eps : field RF) (mu : option (field RF)) V lam (om : CC),
    lossless sh we wh eps mu -> modes sh we wh eps mu V lam ->
    (singular (K := CC) (3 * prodl sh) (e_full_at sh we wh eps mu om) <->
     exists a, (a < 3 * prodl sh)%nat /\ cmul om om = mkC (lam a) 0).
Proof. intros sh we wh eps mu V lam om LL Mo. exact (resonant sh we wh eps mu LL V lam Mo om). Qed.
Print Assumptions C152_resonances.

(** At any other frequency a current J excites each mode in proportion to its overlap
    with the mode, over the distance of om^2 to the resonance; this is the one solution. *)
Theorem C152_driven :
  forall (sh : list nat) (we wh : widths RF) (eps : field RF) (mu : option (field RF)) V lam (om : CC) (J : field CC),
    lossless sh we wh eps mu -> modes sh we wh eps mu V lam ->
    let n := (3 * prodl sh)%nat in
    (forall a, (a < n)%nat -> cmul om om <> mkC (lam a) 0) ->
    let applied E := unvec (K := CC) sh (mv (K := CC) n (e_full_at sh we wh eps mu om) (vec (K := CC) sh E)) in
    let overlap a := fsum (K := CC) sh (fun c i => cmul (vol_e (K := CC) (cw we) (cw wh) c i) (cmul (cf (V a) c i) (J c i))) in
    let E : field CC := fun c i => sumN (K := CC) n (fun a =>
       cmul (cdiv (cmul (cmul (copp ci) om) (overlap a)) (csub (mkC (lam a) 0) (cmul om om))) (cf (V a) c i)) in
    feq (K := CC) sh (applied E) (fun c i => cmul (cmul (copp ci) om) (J c i)) /\
    forall E', feq (K := CC) sh (applied E') (fun c i => cmul (cmul (copp ci) om) (J c i)) -> feq (K := CC) sh E' E.
Proof. intros sh we wh eps mu V lam om J LL Mo n Hn applied overlap E. exact (driven sh we wh eps mu LL V lam Mo om J Hn). Qed.
Print Assumptions C152_driven.

(** The modes at zero frequency are the ones without curl. *)
Theorem C152_static :
  forall (sh : list nat) (we wh : widths RF) (eps : field RF) (mu : option (field RF)) V lam a,
    lossless sh we wh eps mu -> modes sh we wh eps mu V lam -> (a < 3 * prodl sh)%nat ->
    (lam a = 0 <-> feq (K := RF) sh (curl_next (K := RF) sh (Some we) (V a)) (fun _ _ => 0)).
Proof.
  intros sh we wh eps mu V lam a LL Mo Ha. split.
  - intros Z c i Hc Hi. exact (static_curl sh we wh eps mu LL V lam Mo a c i Ha Z Hc Hi).
  - intro Z. pose proof (m_cd sh we wh eps mu LL V lam Mo a (V a) Ha) as E. rewrite (m_orth _ _ _ _ _ _ _ Mo a a Ha Ha), Nat.eqb_refl in E.
    unfold c_dot in E. rewrite (fs_ext sh _ (fun _ _ => 0)) in E; [rewrite fs_zero in E; lra|]. intros c i Hc Hi. rewrite (Z c i Hc Hi). unfold Rdiv. ring.
Qed.
Print Assumptions C152_static.

(** The resonances do not depend on the choice of the modes. *)
Theorem C152_unique :
  forall (sh : list nat) (we wh : widths RF) (eps : field RF) (mu : option (field RF)) V lam V' lam' a,
    lossless sh we wh eps mu -> modes sh we wh eps mu V lam -> modes sh we wh eps mu V' lam' -> (a < 3 * prodl sh)%nat -> lam a = lam' a.
Proof.
  intros sh we wh eps mu V lam V' lam' a LL M1 M2 Ha. apply Rle_antisym.
  - apply (compare sh we wh eps eps mu mu LL) with (V := V') (V' := V); try assumption; intros; lra.
  - apply (compare sh we wh eps eps mu mu LL) with (V := V) (V' := V'); try assumption; intros; lra.
Qed.
Print Assumptions C152_unique.

(** ** C153: time-domain runs *)
(** Any run, with currents, is a sum of modes; the amplitude of each is a discrete
    driven oscillator, separate from the others. *)
Theorem C153_superposition :
  forall (sh : list nat) (we wh : widths RF) (eps : field RF) (mu : option (field RF)) V lam (dt : R) (js : list (field RF)) (j1 j2 : field RF) (s : state RF),
    lossless sh we wh eps mu -> modes sh we wh eps mu V lam ->
    let n := (3 * prodl sh)%nat in
    let E l := sE (run (K := RF) sh dt (Some (we, wh)) eps mu l s) in
    let amplitude a l := e_dot sh we wh eps (V a) (E l) in
    let excitation a (j : field RF) := fsum (K := RF) sh (fun c i => vol_e (K := RF) we wh c i * (V a c i * j c i)) in
    feq (K := RF) sh (E js) (fun c i => sumN (K := RF) n (fun a => amplitude a js * V a c i)) /\
    forall a, (a < n)%nat ->
      amplitude a (js ++ [j1; j2]) - 2 * amplitude a (js ++ [j1]) + amplitude a js
      = - (dt * dt * lam a) * amplitude a (js ++ [j1]) + excitation a j2 - excitation a j1.
Proof.
  intros sh we wh eps mu V lam dt js j1 j2 s LL Mo n E amplitude excitation. split; [exact (m_basis _ _ _ _ _ _ _ Mo (E js))|]. intros a Ha.
  unfold amplitude, E, run. rewrite !fold_left_app. cbn [fold_left]. exact (rec2 sh we wh eps mu LL V lam Mo dt a j1 j2 _ Ha).
Qed.
Print Assumptions C153_superposition.

(** Without currents the amplitude of a mode rings at the phase th per step, where
    2 sin(th/2)/dt = sqrt lam. *)
Theorem C153_oscillation :
  forall (sh : list nat) (we wh : widths RF) (eps : field RF) (mu : option (field RF)) V lam (dt : R) a,
    lossless sh we wh eps mu -> modes sh we wh eps mu V lam -> (a < 3 * prodl sh)%nat ->
    0 < dt * dt * lam a < 4 ->
    exists th, 0 < th < PI /\ 4 * (sin (th / 2) * sin (th / 2)) = dt * dt * lam a /\
    forall (s : state RF),
    let amplitude N := e_dot sh we wh eps (V a) (sE (run (K := RF) sh dt (Some (we, wh)) eps mu (repeat (noj (K := RF)) N) s)) in
    forall N, amplitude N = amplitude 0%nat * cos (INR N * th) + (amplitude 1%nat - amplitude 0%nat * cos th) / sin th * sin (INR N * th).
Proof.
  intros sh we wh eps mu V lam dt a LL Mo Ha Hk. set (k := dt * dt * lam a) in *. exists (acos (1 - k / 2)).
  assert (B : 0 < acos (1 - k / 2) < PI) by (apply acos_bound_lt; lra). assert (C : cos (acos (1 - k / 2)) = 1 - k / 2) by (apply cos_acos; lra).
  set (th := acos (1 - k / 2)) in *. assert (S2 : 4 * (sin (th / 2) * sin (th / 2)) = k).
  { replace th with (2 * (th / 2)) in C by field. rewrite cos_2a_sin in C. lra. }
  split; [exact B|]. split; [exact S2|]. intros s amplitude. apply (osc amplitude k); [lra| |].
  - pose proof (sin_gt_0 th). lra.
  - intro N. exact (free_rec sh we wh eps mu LL V lam Mo dt a s N Ha).
Qed.
Print Assumptions C153_oscillation.
(** At zero frequency it stays, *)
Theorem C153_static :
  forall (sh : list nat) (we wh : widths RF) (eps : field RF) (mu : option (field RF)) V lam (dt : R) (s : state RF) a N,
    lossless sh we wh eps mu -> modes sh we wh eps mu V lam -> (a < 3 * prodl sh)%nat -> lam a = 0 ->
    e_dot sh we wh eps (V a) (sE (run (K := RF) sh dt (Some (we, wh)) eps mu (repeat (noj (K := RF)) N) s)) = e_dot sh we wh eps (V a) (sE s).
Proof.
  intros sh we wh eps mu V lam dt s a N LL Mo Ha Z. induction N as [|N IH]; [reflexivity|].
  rewrite run_S, (static_step sh we wh eps mu LL V lam Mo dt a _ _ Ha Z), IH, jd_noj. apply Rplus_0_r.
Qed.
Print Assumptions C153_static.

(** All runs without currents stay bounded if and only if dt^2 lam < 4 for all modes:
    the exact limit of the time step for any structure. *)
Theorem C153_exact_limit :
  forall (sh : list nat) (we wh : widths RF) (eps : field RF) (mu : option (field RF)) V lam (dt : R),
    lossless sh we wh eps mu -> modes sh we wh eps mu V lam ->
    ((forall s : state RF, exists M, forall N c i, (c < 3)%nat -> inb sh i ->
        let s' := run (K := RF) sh dt (Some (we, wh)) eps mu (repeat (noj (K := RF)) N) s in Rabs (sE s' c i) <= M /\ Rabs (sH s' c i) <= M)
     <-> forall a, (a < 3 * prodl sh)%nat -> dt * dt * lam a < 4).
Proof.
  intros sh we wh eps mu V lam dt LL Mo. split.
  - intros B a Ha. destruct (Rlt_dec (dt * dt * lam a) 4) as [|N]; [assumption|exfalso]. destruct (B (mkst (V a) (noj (K := RF)))) as (M & HM).
    destruct (unstable_cells sh we wh eps mu LL V lam Mo dt a Ha ltac:(lra) M) as (K0 & c & i & Hc & Hi & L). destruct (HM K0 c i Hc Hi) as (X & _). lra.
  - intros Hd s. exact (stable_cells sh we wh eps mu LL V lam Mo dt Hd s).
Qed.
Print Assumptions C153_exact_limit.

(** The documented limit on the time step bounds the resonances of every structure. *)
Theorem C153_highest :
  forall (sh : list nat) (we wh : widths RF) (dx dy dz : R) (eps : field RF) (mu : option (field RF)) (eps0 mu0 : R) V lam a,
    lossless sh we wh eps mu -> modes sh we wh eps mu V lam -> (a < 3 * prodl sh)%nat ->
    0 < dx -> 0 < dy -> 0 < dz -> 0 < eps0 -> 0 < mu0 ->
    (forall i, (i < dim sh 0)%nat -> dx <= we 0%nat i /\ dx <= wh 0%nat i) ->
    (forall i, (i < dim sh 1)%nat -> dy <= we 1%nat i /\ dy <= wh 1%nat i) ->
    (forall i, (i < dim sh 2)%nat -> dz <= we 2%nat i /\ dz <= wh 2%nat i) ->
    (forall c i, (c < 3)%nat -> inb sh i -> eps0 <= eps c i) ->
    (forall c i, (c < 3)%nat -> inb sh i -> mu0 <= matl (K := RF) mu c i) ->
    lam a <= 4 * (1 / (dx * dx) + 1 / (dy * dy) + 1 / (dz * dz)) / (eps0 * mu0).
Proof.
  intros sh we wh dx dy dz eps mu eps0 mu0 V lam a LL Mo Ha Hx Hy Hz He0 Hm0 Wx Wy Wz He Hm.
  assert (Hw : forall a i, (a < 3)%nat -> (i < dim sh a)%nat -> dmin dx dy dz a <= we a i /\ dmin dx dy dz a <= wh a i).
  { intros b i Hb Hi. destruct b as [|[|[|b]]]; [now apply Wx|now apply Wy|now apply Wz|lia]. }
  pose proof (curl1_q sh we wh dx dy dz (len3 sh we wh eps mu LL) Hx Hy Hz Hw 2 eps mu eps0 mu0 He0 Hm0 He Hm (V a)) as Q.
  change (curl1 sh we wh mu (V a)) with (c_dot sh we wh mu (V a) (V a)) in Q. change (nrmE sh we wh eps (V a)) with (e_dot sh we wh eps (V a) (V a)) in Q.
  rewrite (m_cd sh we wh eps mu LL V lam Mo a (V a) Ha), (m_orth _ _ _ _ _ _ _ Mo a a Ha Ha), Nat.eqb_refl in Q. unfold q, Ssum in Q.
  apply Rle_trans with (2 * 2 * (/ (dx * dx) + / (dy * dy) + / (dz * dz)) / (eps0 * mu0) * 1); [lra|]. right. field. lra.
Qed.
Print Assumptions C153_highest.

(** ** C154: dependence on the materials *)
(** More permittivity or permeability anywhere lowers every resonance (or leaves it). *)
Theorem C154_monotone :
  forall (sh : list nat) (we wh : widths RF) (eps eps' : field RF) (mu mu' : option (field RF)) V lam V' lam' a,
    lossless sh we wh eps mu -> lossless sh we wh eps' mu' ->
    (forall c i, (c < 3)%nat -> inb sh i -> eps c i <= eps' c i /\ matl (K := RF) mu c i <= matl (K := RF) mu' c i) ->
    modes sh we wh eps mu V lam -> modes sh we wh eps' mu' V' lam' -> (a < 3 * prodl sh)%nat -> lam' a <= lam a.
Proof.
  intros sh we wh eps eps' mu mu' V lam V' lam' a LL LL' G M1 M2 Ha.
  apply (compare sh we wh eps eps' mu mu' LL) with (V := V) (V' := V'); try assumption; intros; now apply G.
Qed.
Print Assumptions C154_monotone.
(** So a time step that is stable for a structure is stable for any denser one. *)
Theorem C154_stable :
  forall (sh : list nat) (we wh : widths RF) (eps eps' : field RF) (mu mu' : option (field RF)) (dt : R),
    lossless sh we wh eps mu -> lossless sh we wh eps' mu' ->
    (forall c i, (c < 3)%nat -> inb sh i -> eps c i <= eps' c i /\ matl (K := RF) mu c i <= matl (K := RF) mu' c i) ->
    let bounded ep m := forall s : state RF, exists M, forall N c i, (c < 3)%nat -> inb sh i ->
        let s' := run (K := RF) sh dt (Some (we, wh)) ep m (repeat (noj (K := RF)) N) s in Rabs (sE s' c i) <= M /\ Rabs (sH s' c i) <= M in
    bounded eps mu -> bounded eps' mu'.
Proof.
  intros sh we wh eps eps' mu mu' dt LL LL' G bounded B. destruct (C152_modes sh we wh eps mu LL) as (V & lam & M1). destruct (C152_modes sh we wh eps' mu' LL') as (V' & lam' & M2).
  refine (proj2 (C153_exact_limit sh we wh eps' mu' V' lam' dt LL' M2) _). intros a Ha. pose proof (proj1 (C153_exact_limit sh we wh eps mu V lam dt LL M1) B a Ha) as L.
  pose proof (C154_monotone sh we wh eps eps' mu mu' V lam V' lam' a LL LL' G M1 M2 Ha). pose proof (Rle_0_sqr dt) as S2. unfold Rsqr in S2. nra.
Qed.
Print Assumptions C154_stable.

(** ** Concrete cases *)
(** Six cells of different widths and materials, and the same with more permittivity in one cell. *)
Definition mx_w : widths RF := fun a i => 1 + INR (a + i).
Definition mx_eps : field RF := fun c _ => 2 + INR c.
Definition mx_eps' : field RF := fun c i => if (c =? 1)%nat then (if (coord i 2 =? 1)%nat then 7 else 3) else 2 + INR c.
Definition mx_mu : option (field RF) := Some (fun _ i => 1 + INR (coord i 0)).
Example C152_case : lossless [2; 1; 3]%nat mx_w mx_w mx_eps mx_mu /\ lossless [2; 1; 3]%nat mx_w mx_w mx_eps' mx_mu /\
  (forall c i, (c < 3)%nat -> inb [2; 1; 3]%nat i -> mx_eps c i <= mx_eps' c i /\ matl (K := RF) mx_mu c i <= matl (K := RF) mx_mu c i) /\
  mx_eps 1%nat [0; 0; 1]%nat < mx_eps' 1%nat [0; 0; 1]%nat.
Proof.
  assert (W : forall a i, 0 < mx_w a i) by (intros a i; unfold mx_w; pose proof (pos_INR (a + i)); lra).
  assert (P : forall c i, 0 < mx_eps c i) by (intros c i; unfold mx_eps; pose proof (pos_INR c); lra).
  assert (G : forall c i, mx_eps c i <= mx_eps' c i).
  { intros c i. unfold mx_eps, mx_eps'. destruct (Nat.eqb_spec c 1) as [->|]; [|lra]. destruct (coord i 2 =? 1)%nat; cbn [INR]; lra. }
  assert (M : forall c i, 0 < matl (K := RF) mx_mu c i) by (intros c i; unfold mx_mu, matl; pose proof (pos_INR (coord i 0)); lra).
  split; [|split; [|split]].
  - split; [reflexivity|]. split; intros; split; auto.
  - split; [reflexivity|]. split; intros; split; auto. eapply Rlt_le_trans; [apply P|apply G].
  - intros c i _ _. split; [apply G|lra].
  - unfold mx_eps, mx_eps'. cbn. lra.
Qed.
