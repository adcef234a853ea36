(** Properties of meanas/eigensolvers.py. *)
From Coq Require Import Reals List Arith ZArith Lia Lra Bool Permutation.
From Verif.Lib Require Import Num Sums Idx Mat RealF.
From Verif.Model Require Import WaveguideReal Eigensolvers.
From Verif.Spec Require Import EigenSpec.
From Verif.Proofs Require Import FdfdP2 WaveguideRealP EigensolversP.
Import ListNotations.
Local Open Scope R_scope.

(** ** C48 *)
(** rayleigh_quotient_iteration walks through unit vectors u 0, u 1, ...: u 0 is
    the guess and u (j+1) what the solver returns for the shifted operator and
    u j, both scaled to unit length.  It stops at the first one with residual
    below the tolerance and returns it with its Rayleigh quotient; if there is
    none among u 0 .. u (iterations - 1) it returns u iterations. *)
Theorem C48_rayleigh_quotient_iteration :
  forall (n : nat) (A : mat CC) (tol : R) (solver : mat CC -> vect CC -> vect CC) (guess : vect CC) (iterations : nat),
    0 <= tol -> nonzero_vec n guess ->
    (forall b, norm2 n b = 1 -> tol * tol <= residual2 n A (rayleigh_quotient n A b) b ->
       nonzero_vec n (solver (shifted A (rayleigh_quotient n A b)) b)) ->
    (0 < iterations)%nat ->
    exists (u : nat -> vect CC) (k : nat) (lam : cpx),
      result (rayleigh_quotient_iteration n A tol solver guess iterations) = Some (lam, u k) /\
      unit_of n guess (u 0%nat) /\
      (forall j, (j <= k)%nat -> norm2 n (u j) = 1) /\
      (forall j, (j < k)%nat -> unit_of n (solver (shifted A (rayleigh_quotient n A (u j))) (u j)) (u (S j))) /\
      (forall j, (j < k)%nat -> tol * tol <= residual2 n A (rayleigh_quotient n A (u j)) (u j)) /\
      ((k < iterations)%nat /\ lam = rayleigh_quotient n A (u k) /\ residual2 n A lam (u k) < tol * tol \/
       k = iterations /\ lam = rayleigh_quotient n A (u (k - 1)%nat)).
Proof.
  intros n A tol solver guess its Ht Hg Hs Hi.
  set (step v := normalize n (solver (mshift A (cdot n v (mv n A v))) v)).
  set (u := fix u k := match k with O => normalize n guess | S j => step (u j) end).
  set (big j := tol * tol <= residual2 n A (rayleigh_quotient n A (u j)) (u j)).
  assert (U : forall j, (forall i, (i < j)%nat -> big i) -> norm2 n (u j) = 1).
  { induction j as [|j IH]; intro B; cbn; [apply normalize_unit_of; exact Hg|]. pose proof (IH ltac:(intros; apply B; lia)) as V.
    apply normalize_unit_of. rewrite (rq_unit n A (u j) V). apply Hs; [exact V|apply B; lia]. }
  assert (L : forall it j last, (forall i, (i < j)%nat -> big i) ->
     exists k, (j <= k <= j + it)%nat /\ snd (rqi_loop n A tol solver it last (u j)) = u k /\
       (forall i, (i < k)%nat -> big i) /\
       ((k < j + it)%nat /\ fst (rqi_loop n A tol solver it last (u j)) = Some (rayleigh_quotient n A (u k)) /\ residual2 n A (rayleigh_quotient n A (u k)) (u k) < tol * tol \/
        k = (j + it)%nat /\ fst (rqi_loop n A tol solver it last (u j)) = match it with O => last | S _ => Some (rayleigh_quotient n A (u (k - 1)%nat)) end)).
  { induction it as [|it IH]; intros j last Hj.
    - exists j. cbn. repeat split; try lia; [exact Hj|]. right. split; [lia|reflexivity].
    - cbn [rqi_loop]. rewrite (rq_unit n A (u j) (U j Hj)). pose proof (residual_sq n A (rayleigh_quotient n A (u j)) (u j)) as Q.
      pose proof (residual_pos n A (rayleigh_quotient n A (u j)) (u j)) as P.
      destruct (Rlt_dec _ tol) as [T|T].
      + exists j. cbn [fst snd]. repeat split; try lia; [exact Hj|]. left. split; [lia|]. split; [reflexivity|]. nra.
      + assert (Es : normalize n (solver (mshift A (rayleigh_quotient n A (u j))) (u j)) = u (S j)).
        { change (u (S j)) with (step (u j)). unfold step. now rewrite (rq_unit n A (u j) (U j Hj)). }
        rewrite Es. destruct (IH (S j) (Some (rayleigh_quotient n A (u j)))) as (k & K1 & K2 & K3 & K4).
        { intros i Hij. destruct (Nat.eq_dec i j) as [->|Ne]; [unfold big; nra|apply Hj; lia]. }
        exists k. split; [lia|]. split; [exact K2|]. split; [exact K3|].
        destruct K4 as [(K5 & K6 & K7)|(K5 & K6)]; [left; split; [lia|split; [exact K6|exact K7]]|right; split; [lia|]].
        rewrite K6. destruct it; [|reflexivity]. do 2 f_equal. f_equal. lia. }
  destruct (L its 0%nat None ltac:(lia)) as (k & K1 & K2 & K3 & K4).
  unfold rayleigh_quotient_iteration. change (normalize n guess) with (u 0%nat).
  destruct (rqi_loop n A tol solver its None (u 0%nat)) as [last w]. cbn [fst snd result] in *. subst w.
  assert (U' : forall j, (j <= k)%nat -> norm2 n (u j) = 1). { intros j Hj. apply U. intros i Hij. apply K3. lia. }
  assert (S0 : forall j, (j < k)%nat -> unit_of n (solver (mshift A (rayleigh_quotient n A (u j))) (u j)) (u (S j))).
  { intros j Hj. assert (V : norm2 n (u j) = 1) by (apply U'; lia). change (u (S j)) with (step (u j)). unfold step. rewrite (rq_unit n A (u j) V).
    apply normalize_unit_of, Hs; [exact V|now apply K3]. }
  destruct K4 as [(K5 & -> & K7)|(K5 & ->)].
  - exists u, k, (rayleigh_quotient n A (u k)). split; [reflexivity|]. split; [now apply normalize_unit_of|]. split; [exact U'|]. split; [exact S0|]. split; [exact K3|].
    left. split; [lia|]. split; [reflexivity|exact K7].
  - destruct its as [|its]; [lia|]. exists u, k, (rayleigh_quotient n A (u (k - 1)%nat)). split; [reflexivity|]. split; [now apply normalize_unit_of|].
    split; [exact U'|]. split; [exact S0|]. split; [exact K3|]. right. split; [lia|reflexivity].
Qed.
Print Assumptions C48_rayleigh_quotient_iteration.

(** The Rayleigh quotient is the best eigenvalue estimate for a vector. *)
Theorem C48_rayleigh_quotient_optimal :
  forall (n : nat) (A : mat CC) (v : vect CC) (mu : cpx),
    norm2 n v = 1 -> residual2 n A (rayleigh_quotient n A v) v <= residual2 n A mu v.
Proof.
  intros n A v mu H. rewrite <- rq_unit by exact H. pose proof (rq_optimal n A v mu H) as O.
  rewrite <- !residual_sq. pose proof (residual_pos n A (cdot n v (mv n A v)) v). pose proof (residual_pos n A mu v). nra.
Qed.
Print Assumptions C48_rayleigh_quotient_optimal.

Lemma eig_unit n A lam v : eigenpair n A lam v -> nonzero_vec n v -> eigenpair n A lam (normalize n v) /\ cdot n (normalize n v) (mv n A (normalize n v)) = lam.
Proof.
  intros E H. pose proof (nonzero_norm n v H) as N.
  assert (E' : eigenpair n A lam (normalize n v)).
  { intros i Hi. unfold normalize. rewrite mv_vdivr by exact N. unfold vdivr. rewrite (E i Hi). set (z := mkC (vnorm n v) 0). clearbody z. unfold cdiv. apply cpx_ext; cbn; ring. }
  split; [exact E'|]. rewrite (cdot_ext n _ _ (normalize n v) (fun i => cmul lam (normalize n v i)) (fun _ _ => eq_refl) E').
  rewrite cdot_scale, cdot_self. change (nrm2 n (normalize n v)) with (norm2 n (normalize n v)). rewrite (proj1 (normalize_unit_of n v H)). apply cpx_ext; cbn; ring.
Qed.

(** An exact eigenvector is recognised at once, whatever the solver does. *)
Theorem C48_exact_guess :
  forall (n : nat) (A : mat CC) (tol : R) (solver : mat CC -> vect CC -> vect CC) (guess : vect CC) (lam : cpx) (iterations : nat),
    0 < tol -> (0 < iterations)%nat -> nonzero_vec n guess -> eigenpair n A lam guess ->
    exists v, result (rayleigh_quotient_iteration n A tol solver guess iterations) = Some (lam, v) /\ unit_of n guess v.
Proof.
  intros n A tol solver guess lam its Ht Hi Hg E. exists (normalize n guess). split; [|now apply normalize_unit_of].
  destruct (eig_unit n A lam guess E Hg) as (E' & Q). unfold rayleigh_quotient_iteration. destruct its as [|its]; [lia|]. cbn [rqi_loop]. rewrite Q.
  assert (R0 : residual n A lam (normalize n guess) = 0).
  { apply vnorm_zero. intros i Hi'. rewrite (E' i Hi'). apply cpx_ext; cbn; ring. }
  rewrite R0. destruct (Rlt_dec 0 tol) as [T|T]; [reflexivity|contradiction].
Qed.
Print Assumptions C48_exact_guess.

Lemma vasum_pos n v : nonzero_vec n v -> 0 < vasum n v.
Proof.
  intros (i & Hi & H). unfold vasum.
  assert (P : forall j, 0 <= cabs (v j)) by (intro; apply sqrt_pos).
  assert (Pi : 0 < cabs (v i)).
  { unfold cabs. apply sqrt_lt_R0. pose proof (cnrm_nz _ H). assert (0 <= cnrm (v i)) by (unfold cnrm; nra). lra. }
  clear H. induction n as [|n IH]; [lia|]. change (0 < sumN (K := RF) n (fun j => cabs (v j)) + cabs (v n)).
  pose proof (sumN_nonneg n (fun j => cabs (v j)) (fun j _ => P j)) as S. destruct (Nat.eq_dec i n) as [->|Ne].
  - lra.
  - specialize (IH ltac:(lia)). pose proof (P n). lra.
Qed.
Lemma vdivr_scale x r i : r <> 0 -> vdivr x r i = cmul (mkC (/ r) 0) (x i).
Proof. intro H. destruct (vdivr_at x r i H) as (P & Q). apply cpx_ext; [rewrite P|rewrite Q]; cbn; field; exact H. Qed.
Lemma cmul_zero c z : c <> c0 -> cmul c z = c0 -> z = c0.
Proof. intros Hc H. apply (fmul_cancel_l CC c z (@f0 CC) Hc). refine (eq_trans H _). apply cpx_ext; cbn; ring. Qed.
Lemma creal_nz r : r <> 0 -> mkC r 0 <> c0.
Proof. intros H Z. injection Z. exact H. Qed.
Lemma iter_r {T} k (f : T -> T) x : Nat.iter (S k) f x = Nat.iter k f (f x).
Proof. induction k as [|k IH]; [reflexivity|]. change (f (Nat.iter (S k) f x) = f (Nat.iter k f (f x))). now rewrite IH. Qed.
Lemma iter_scale n (A : mat CC) it c (x y : vect CC) : (forall i, x i = cmul c (y i)) -> forall i, Nat.iter it (mv n A) x i = cmul c (Nat.iter it (mv n A) y i).
Proof.
  intro H. induction it as [|it IH]; [exact H|]. intro i. cbn [Nat.iter].
  refine (eq_trans (mv_ext_v CC n A _ (fun j => @fmul CC c (Nat.iter it (mv n A) y j)) i (fun j _ => IH j)) _). apply (mv_lin_scale CC).
Qed.
Lemma power_loop_dir n A it : forall v, (forall k, (k <= it)%nat -> nonzero_vec n (Nat.iter k (mv n A) v)) ->
  exists r, 0 < r /\ forall i, power_loop n A it v i = cmul (mkC r 0) (Nat.iter it (mv n A) v i).
Proof.
  induction it as [|it IH]; intros v H; cbn [power_loop].
  - exists 1. split; [lra|]. intro i. apply cpx_ext; cbn; ring.
  - set (w := mv n A v). pose proof (vasum_pos n w (H 1%nat ltac:(lia))) as P. set (s := vasum n w) in *.
    assert (Ps : 0 < / s) by (now apply Rinv_0_lt_compat).
    assert (D : forall k i, Nat.iter k (mv n A) (vdivr w s) i = cmul (mkC (/ s) 0) (Nat.iter (S k) (mv n A) v i)).
    { intros k i. rewrite iter_r. apply iter_scale. intro j. apply vdivr_scale. lra. }
    destruct (IH (vdivr w s)) as (r & Hr & E).
    + intros k Hk. destruct (H (S k) ltac:(lia)) as (i & Hi & Nz). exists i. split; [exact Hi|]. rewrite D. intro Z. apply Nz.
      apply (cmul_zero (mkC (/ s) 0)); [apply creal_nz; lra|exact Z].
    + exists (r * / s). split; [now apply Rmult_lt_0_compat|]. intro i. rewrite E, D. apply cpx_ext; cbn; ring.
Qed.
Lemma unit_of_scale n r (v w x : vect CC) : 0 < r -> (forall i, v i = cmul (mkC r 0) (x i)) -> unit_of n v w -> unit_of n x w.
Proof.
  intros Hr H (U & s & Hs & E). split; [exact U|]. exists (/ r * s). split; [apply Rmult_lt_0_compat; [now apply Rinv_0_lt_compat|exact Hs]|].
  intro i. specialize (H i). rewrite (E i) in H. transitivity (cmul (mkC (/ r) 0) (cmul (mkC r 0) (x i))).
  - apply cpx_ext; cbn; field; lra.
  - rewrite <- H. apply cpx_ext; cbn; ring.
Qed.

(** power_iteration returns the direction of A^iterations guess as a unit
    vector, with its Rayleigh quotient, and leaves the guess alone when it
    iterates at least once. *)
Theorem C48_power_iteration :
  forall (n : nat) (A : mat CC) (guess : vect CC) (iterations : nat),
    (forall k, (k <= iterations)%nat -> nonzero_vec n (Nat.iter k (mv n A) guess)) ->
    let '(lam, v) := result (power_iteration n A guess iterations) in
    unit_of n (Nat.iter iterations (mv n A) guess) v /\ lam = rayleigh_quotient n A v /\
    ((0 < iterations)%nat -> guess_after (power_iteration n A guess iterations) = guess).
Proof.
  intros n A g its H. cbn [power_iteration result].
  destruct (power_loop_dir n A its g H) as (r & Hr & E).
  assert (Nz : nonzero_vec n (power_loop n A its g)).
  { destruct (H its ltac:(lia)) as (i & Hi & Z). exists i. split; [exact Hi|]. rewrite E. intro Q. apply Z. apply (cmul_zero (mkC r 0)); [apply creal_nz; lra|exact Q]. }
  pose proof (normalize_unit_of n _ Nz) as U. splits.
  - exact (unit_of_scale n r _ _ _ Hr E U).
  - apply rq_unit, U.
  - intro Hi. destruct its as [|its]; [lia|reflexivity].
Qed.
Print Assumptions C48_power_iteration.

(** An eigenvector with a non-zero eigenvalue is a fixed point. *)
Theorem C48_power_iteration_eigenvector :
  forall (n : nat) (A : mat CC) (guess : vect CC) (lam : cpx) (iterations : nat),
    nonzero_vec n guess -> eigenpair n A lam guess -> lam <> c0 ->
    let '(l, v) := result (power_iteration n A guess iterations) in l = lam /\ eigenpair n A lam v /\ norm2 n v = 1.
Proof.
  intros n A g lam its Hg E Hl.
  assert (P : forall k, (k <= its)%nat -> nonzero_vec n (Nat.iter k (mv n A) g) /\ eigenpair n A lam (Nat.iter k (mv n A) g)).
  { induction k as [|k IH]; intro Hk; [split; assumption|]. destruct (IH ltac:(lia)) as ((i & Hi & Z) & EE). cbn [Nat.iter]. split.
    - exists i. split; [exact Hi|]. intro Q. apply Z. exact (cmul_zero lam _ Hl (eq_trans (eq_sym (EE i Hi)) Q)).
    - intros j Hj. refine (eq_trans (mv_ext_v CC n A _ (fun q => @fmul CC lam (Nat.iter k (mv n A) g q)) j EE) _). refine (eq_trans (mv_lin_scale CC n A lam _ j) _). exact (f_equal (cmul lam) (eq_refl _)). }
  pose proof (C48_power_iteration n A g its (fun k Hk => proj1 (P k Hk))) as T.
  destruct (result (power_iteration n A g its)) as [l v]. destruct T as ((U & r & Hr & Ev) & -> & _).
  assert (EV : eigenpair n A lam v).
  { intros j Hj. destruct (P its ltac:(lia)) as (_ & EE). specialize (EE j Hj).
    assert (Q : mv n A (Nat.iter its (mv n A) g) j = cmul (mkC r 0) (mv n A v j)).
    { refine (eq_trans (mv_ext_v CC n A _ (fun q => @fmul CC (mkC r 0) (v q)) j (fun q _ => Ev q)) _). apply (mv_lin_scale CC). }
    rewrite Q, (Ev j) in EE. apply (fmul_cancel_l CC (mkC r 0)); [intro Z; injection Z; lra|]. refine (eq_trans EE _). set (z := v j). clearbody z. apply cpx_ext; cbn; ring. }
  splits; [|exact EV|exact U]. rewrite <- rq_unit by exact U.
  rewrite (cdot_ext n v _ v (fun i => cmul lam (v i)) (fun _ _ => eq_refl) EV), cdot_scale, cdot_self.
  change (nrm2 n v) with (norm2 n v). rewrite U. apply cpx_ext; cbn; ring.
Qed.
Print Assumptions C48_power_iteration_eigenvector.

(** *** signed_eigensolve *)
(** What eigs is assumed to return: eigenpairs of its argument, and no
    eigenvalue left out is larger in magnitude than one returned.  It raises
    ValueError ("ncv must be k+1<ncv<=n") unless ncv is at most the size. *)
Definition eigs_ok (n : nat) (eigs : mat CC -> nat -> nat -> option (list (cpx * vect CC))) : Prop :=
  forall M k ncv l, eigs M k ncv = Some l ->
    (ncv <= n)%nat /\
    length l = k /\
    (forall mu v, In (mu, v) l -> nonzero_vec n v /\ eigenpair n M mu v) /\
    (forall mu v, nonzero_vec n v -> eigenpair n M mu v -> In mu (map fst l) \/ forall mu', In mu' (map fst l) -> cabs mu <= cabs mu').

Lemma shift_eig n (A : mat CC) (s : R) mu (v : vect CC) : eigenpair n (madd A (mscale (K := CC) (mkC s 0) mid)) mu v <-> eigenpair n A (csub mu (mkC s 0)) v.
Proof.
  assert (Q : forall i, (i < n)%nat -> mv n (madd A (mscale (K := CC) (mkC s 0) mid)) v i = cadd (mv n A v i) (cmul (mkC s 0) (v i))).
  { intros i Hi. rewrite (mv_madd CC). f_equal. rewrite (mv_mscale CC), (mv_mid CC) by exact Hi. reflexivity. }
  split; intros H i Hi; specialize (H i Hi); rewrite Q in * by exact Hi.
  - assert (E : cadd (mv n A v i) (cmul (mkC s 0) (v i)) = cmul mu (v i)) by exact H. clear H. set (y := mv n A v i) in *. clearbody y.
    transitivity (csub (cadd y (cmul (mkC s 0) (v i))) (cmul (mkC s 0) (v i))); [apply cpx_ext; cbn; ring|]. rewrite E. apply cpx_ext; cbn; ring.
  - rewrite H. apply cpx_ext; cbn; ring.
Qed.

(** Every returned pair is an eigenpair of the operator itself, eigenvalues are
    in increasing order (numpy's order of complex numbers). *)
Theorem C48_signed_eigensolve :
  forall (n : nat) (A : mat CC) eigs (lm : cpx) (how_many : nat) (negative : bool) res,
    eigs_ok n eigs -> signed_eigensolve n A eigs lm how_many negative = Some res ->
    length res = how_many /\
    (forall lam v, In (lam, v) res -> nonzero_vec n v /\ eigenpair n A lam v) /\
    (forall i j p q, (i < j)%nat -> nth_error res i = Some p -> nth_error res j = Some q -> not_after (fst p) (fst q)).
Proof.
  intros n A eigs lm k neg res Ok H. unfold signed_eigensolve in H. set (s := if neg then _ else _) in *.
  destruct (eigs _ k _) as [l|] eqn:E; [|discriminate]. injection H as <-. destruct (Ok _ _ _ _ E) as (_ & L & P & _).
  set (m := map (fun p : cpx * vect CC => (csub (fst p) (mkC s 0), snd p)) l). pose proof (argsorted_perm (vect CC) m) as Pm. splits.
  - refine (eq_trans (Permutation_length Pm) _). unfold m. now rewrite map_length.
  - intros lam v Hin. apply (Permutation_in _ Pm) in Hin. unfold m in Hin. apply in_map_iff in Hin. destruct Hin as ((mu & w) & Q & Hin).
    cbn in Q. injection Q as <- <-. destruct (P _ _ Hin) as (N & EE). split; [exact N|]. now apply shift_eig.
  - intros i j p q Hij Hi Hj. exact (increasing_nth (vect CC) _ i j p q (argsorted_inc (vect CC) m) Hij Hi Hj).
Qed.
Print Assumptions C48_signed_eigensolve.

(** If all eigenvalues are real and none exceeds |lm_eigval| in magnitude, the
    result holds the largest eigenvalues (smallest ones with negative=True). *)
Theorem C48_signed_eigensolve_extreme :
  forall (n : nat) (A : mat CC) eigs (lm : cpx) (how_many : nat) (negative : bool) res,
    eigs_ok n eigs -> signed_eigensolve n A eigs lm how_many negative = Some res ->
    (forall lam v, nonzero_vec n v -> eigenpair n A lam v -> cim lam = 0 /\ cabs lam <= cabs lm) ->
    forall lam v, nonzero_vec n v -> eigenpair n A lam v -> In lam (map fst res) \/
      forall lam', In lam' (map fst res) -> if negative then cre lam' <= cre lam else cre lam <= cre lam'.
Proof.
  intros n A eigs lm k neg res Ok H R lam v Nv Ev. pose proof (C48_signed_eigensolve n A eigs lm k neg res Ok H) as (_ & P & _).
  unfold signed_eigensolve in H. set (s := if neg then _ else _) in *.
  destruct (eigs _ k _) as [l|] eqn:E; [|discriminate]. injection H as <-. destruct (Ok _ _ _ _ E) as (_ & _ & _ & D).
  set (m := map (fun p : cpx * vect CC => (csub (fst p) (mkC s 0), snd p)) l) in *. pose proof (argsorted_perm (vect CC) m) as Pm.
  assert (Ev' : eigenpair n (madd A (mscale (K := CC) (mkC s 0) mid)) (cadd lam (mkC s 0)) v).
  { apply shift_eig. replace (csub (cadd lam (mkC s 0)) (mkC s 0)) with lam by (apply cpx_ext; cbn; ring). exact Ev. }
  destruct (D _ _ Nv Ev') as [I|I].
  - left. apply in_map_iff in I. destruct I as ((mu & w) & Q & I). cbn in Q. subst mu.
    apply (Permutation_in _ (Permutation_map fst (Permutation_sym Pm))). unfold m. rewrite map_map. apply in_map_iff. exists (cadd lam (mkC s 0), w). split; [|exact I].
    cbn. apply cpx_ext; cbn; ring.
  - right. intros lam' Hin. apply (Permutation_in _ (Permutation_map fst Pm)) in Hin. unfold m in Hin. rewrite map_map in Hin. apply in_map_iff in Hin.
    destruct Hin as ((mu & w) & Q & Hin). cbn in Q. subst lam'. specialize (I mu ltac:(apply in_map_iff; now exists (mu, w))).
    destruct (R lam v Nv Ev) as (Z1 & B1).
    assert (Hin' : In (csub mu (mkC s 0), w) (argsorted m)).
    { apply (Permutation_in _ (Permutation_sym Pm)). unfold m. apply in_map_iff. now exists (mu, w). }
    destruct (P _ _ Hin') as (Nw & Ew). destruct (R _ _ Nw Ew) as (Z2 & B2). cbn in Z2.
    assert (AR : forall z, cim z = 0 -> cabs z = Rabs (cre z)).
    { intros z Hz. unfold cabs, cnrm. rewrite Hz. replace (cre z * cre z + 0 * 0) with (Rsqr (cre z)) by (unfold Rsqr; ring). apply sqrt_Rsqr_abs. }
    rewrite (AR _ Z1) in B1. rewrite (AR (csub mu (mkC s 0))) in B2 by (cbn; exact Z2). cbn in B2.
    rewrite (AR (cadd lam (mkC s 0))), (AR mu) in I by (cbn; lra). cbn in I. cbn.
    unfold s in *. clear - B1 B2 I. destruct neg; unfold Rabs in *; repeat destruct (Rcase_abs _); lra.
Qed.
Print Assumptions C48_signed_eigensolve_extreme.

(** If the operator has at least how_many eigenvalues of the wanted sign, only
    eigenvalues of that sign are returned. *)
Theorem C48_signed_eigensolve_sign :
  forall (n : nat) (A : mat CC) eigs (lm : cpx) (how_many : nat) (negative : bool) res,
    eigs_ok n eigs -> signed_eigensolve n A eigs lm how_many negative = Some res ->
    (forall lam v, nonzero_vec n v -> eigenpair n A lam v -> cim lam = 0 /\ cabs lam <= cabs lm) ->
    forall L, NoDup L -> length L = how_many ->
      (forall lam, In lam L -> (exists v, nonzero_vec n v /\ eigenpair n A lam v) /\ if negative then cre lam < 0 else 0 < cre lam) ->
      forall lam, In lam (map fst res) -> if negative then cre lam < 0 else 0 < cre lam.
Proof.
  intros n A eigs lm k neg res Ok H R L ND Len P lam Hin.
  pose proof (C48_signed_eigensolve n A eigs lm k neg res Ok H) as (Lr & _ & _).
  pose proof (C48_signed_eigensolve_extreme n A eigs lm k neg res Ok H R) as X.
  assert (Bad : ~ (if neg then cre lam < 0 else 0 < cre lam) -> False).
  { intro B. assert (I : incl L (map fst res)).
    { intros mu Hmu. destruct (P mu Hmu) as ((v & Nv & Ev) & S). destruct (X mu v Nv Ev) as [Q|Q]; [exact Q|].
      specialize (Q lam Hin). exfalso. destruct neg; lra. }
    assert (I' : incl (map fst res) L).
    { apply (NoDup_length_incl ND); [|exact I]. rewrite map_length, Lr, Len. apply le_n. }
    exact (B (proj2 (P lam (I' lam Hin)))). }
  destruct neg; [destruct (Rlt_dec (cre lam) 0)|destruct (Rlt_dec 0 (cre lam))]; try assumption; exfalso; now apply Bad.
Qed.
Print Assumptions C48_signed_eigensolve_sign.

(** *** Concrete operators *)
Definition rdiag (l : list R) : mat CC := fun i j => if (i =? j)%nat then mkC (nth i l 0) 0 else c0.
Definition basis (k : nat) : vect CC := fun i => if (i =? k)%nat then c1 else c0.

Lemma sumN_delta n k (f : nat -> cpx) : (k < n)%nat -> (forall i, (i < n)%nat -> i <> k -> f i = c0) -> sumN (K := CC) n f = f k.
Proof.
  intros Hk H. induction n as [|n IH]; [lia|]. change (cadd (sumN (K := CC) n f) (f n) = f k). destruct (Nat.eq_dec n k) as [->|Ne].
  - rewrite (sumN_zero CC k f); [|intros i Hi; apply H; lia]. apply cpx_ext; cbn; ring.
  - rewrite (H n) by lia. rewrite IH; [apply cpx_ext; cbn; ring|lia|intros; apply H; lia].
Qed.
Lemma mv_rdiag n l (v : vect CC) i : (i < n)%nat -> mv (K := CC) n (rdiag l) v i = cmul (mkC (nth i l 0) 0) (v i).
Proof.
  intro Hi. refine (eq_trans (sumN_delta n i (fun j => cmul (rdiag l i j) (v j)) Hi _) _).
  - intros j Hj Ne. unfold rdiag. destruct (Nat.eqb_spec i j); [lia|]. apply cpx_ext; cbn; ring.
  - unfold rdiag. rewrite Nat.eqb_refl. reflexivity.
Qed.
Lemma rdiag_eig n l lam v : (length l = n)%nat -> nonzero_vec n v -> eigenpair n (rdiag l) lam v -> cim lam = 0 /\ In (cre lam) l.
Proof.
  intros Hn (i & Hi & Nz) E. specialize (E i Hi). rewrite mv_rdiag in E by exact Hi.
  assert (Q : mkC (nth i l 0) 0 = lam).
  { apply (fmul_cancel_l CC (v i)); [exact Nz|]. transitivity (cmul (mkC (nth i l 0) 0) (v i)); [apply cpx_ext; cbn; ring|]. rewrite E. apply cpx_ext; cbn; ring. }
  rewrite <- Q. cbn. split; [reflexivity|]. apply nth_In. lia.
Qed.
Lemma rdiag_basis n l k : (k < n)%nat -> nonzero_vec n (basis k) /\ eigenpair n (rdiag l) (mkC (nth k l 0) 0) (basis k).
Proof.
  intro Hk. split.
  - exists k. split; [exact Hk|]. unfold basis. rewrite Nat.eqb_refl. intro Z. injection Z. lra.
  - intros i Hi. rewrite mv_rdiag by exact Hi. unfold basis. destruct (Nat.eqb_spec i k) as [->|]; [reflexivity|]. apply cpx_ext; cbn; ring.
Qed.

(** An eigs that knows one matrix. *)
Definition same_mat (n : nat) (M N : mat CC) : bool :=
  forallb (fun i => forallb (fun j => if cpx_dec (M i j) (N i j) then true else false) (seq 0 n)) (seq 0 n).
Definition table_eigs (n : nat) (N : mat CC) (k : nat) (l : list (cpx * vect CC)) : mat CC -> nat -> nat -> option (list (cpx * vect CC)) :=
  fun M k' ncv => if (same_mat n M N && (k' =? k)%nat && (ncv <=? n)%nat)%bool then Some l else None.
Lemma same_mat_spec n M N : same_mat n M N = true <-> forall i j, (i < n)%nat -> (j < n)%nat -> M i j = N i j.
Proof.
  unfold same_mat. rewrite forallb_forall. split.
  - intros H i j Hi Hj. specialize (H i ltac:(apply in_seq; lia)). rewrite forallb_forall in H. specialize (H j ltac:(apply in_seq; lia)). now destruct (cpx_dec (M i j) (N i j)).
  - intros H i Hi. apply in_seq in Hi. apply forallb_forall. intros j Hj. apply in_seq in Hj. destruct (cpx_dec (M i j) (N i j)) as [|Ne]; [reflexivity|]. exfalso. apply Ne, H; lia.
Qed.
Lemma same_mat_eig n (M N : mat CC) lam v : (forall i j, (i < n)%nat -> (j < n)%nat -> M i j = N i j) -> eigenpair n M lam v -> eigenpair n N lam v.
Proof. intros H E i Hi. rewrite <- (E i Hi). apply (sumN_ext CC). intros j Hj. now rewrite H. Qed.
Lemma table_eigs_ok n N k l : length l = k ->
  (forall mu v, In (mu, v) l -> nonzero_vec n v /\ eigenpair n N mu v) ->
  (forall mu v, nonzero_vec n v -> eigenpair n N mu v -> In mu (map fst l) \/ forall mu', In mu' (map fst l) -> cabs mu <= cabs mu') ->
  eigs_ok n (table_eigs n N k l).
Proof.
  intros Hk Hp He M k' ncv l'. unfold table_eigs. destruct (same_mat n M N) eqn:S; [|discriminate]. destruct (Nat.eqb_spec k' k) as [->|]; [|discriminate].
  destruct (Nat.leb_spec ncv n); [|discriminate]. cbn. intro E. injection E as <-. rewrite same_mat_spec in S. splits; try assumption.
  - intros mu v I. destruct (Hp mu v I) as (A & B). split; [exact A|]. apply (same_mat_eig n N M); [|exact B]. intros. symmetry. now apply S.
  - intros mu v A B. apply (He mu v A). now apply (same_mat_eig n M N).
Qed.

(** 60 eigenvalues 1, -1/2, -1, ..., -1. *)
Definition ev60 : list R := 1 :: - (1 / 2) :: repeat (-1) 58.
Definition shifted60 : list R := 2 :: (1 / 2) :: repeat 0 58.
Definition eigs60 := table_eigs 60 (rdiag shifted60) 2 [(mkC 2 0, basis 0); (mkC (1 / 2) 0, basis 1)].
Lemma cabs_re r : 0 <= r -> cabs (mkC r 0) = r.
Proof. intro H. unfold cabs, cnrm. cbn. replace (r * r + 0 * 0) with (Rsqr r) by (unfold Rsqr; ring). now apply sqrt_Rsqr. Qed.
Lemma eigs60_ok : eigs_ok 60 eigs60.
Proof.
  apply table_eigs_ok; [reflexivity| |].
  - intros mu v [E|[E|[]]]; injection E as <- <-.
    + apply (rdiag_basis 60 shifted60 0). lia.
    + apply (rdiag_basis 60 shifted60 1). lia.
  - intros mu v N E. destruct (rdiag_eig 60 shifted60 mu v eq_refl N E) as (Z & I).
    assert (Q : mu = mkC (cre mu) 0) by (apply cpx_ext; cbn; [reflexivity|exact Z]). rewrite Q.
    unfold shifted60 in I. destruct I as [<-|[<-|I]]; [left; left; reflexivity|left; right; left; reflexivity|].
    apply repeat_spec in I. rewrite I. right. intros mu' [<-|[<-|[]]]; cbn [fst]; rewrite !cabs_re; lra.
Qed.
Lemma shift60 j : (j < 60)%nat -> nth j ev60 0 + 1 = nth j shifted60 0.
Proof.
  intro H. unfold ev60, shifted60. destruct j as [|[|j]]; [cbn; ring|cbn; field|]. change (nth j (repeat (-1) 58) 0 + 1 = nth j (repeat 0 58) 0).
  rewrite (nth_indep _ 0 (-1)) by (rewrite repeat_length; lia). rewrite !nth_repeat. ring.
Qed.
Lemma eigs60_run : signed_eigensolve 60 (rdiag ev60) eigs60 (mkC 1 0) 2 false = Some [(mkC (- (1 / 2)) 0, basis 1); (mkC 1 0, basis 0)].
Proof.
  unfold signed_eigensolve. rewrite cabs_re by lra. unfold eigs60, table_eigs.
  rewrite (proj2 (same_mat_spec 60 _ (rdiag shifted60))).
  - change ((2 =? 2)%nat) with true. change ((2 * 2 + 50 <=? 60)%nat) with true. cbn [andb map fst snd]. f_equal. cbn [argsorted fold_right insert_mode].
    replace (csub (mkC 2 0) (mkC 1 0)) with (mkC 1 0) by (apply cpx_ext; cbn; ring).
    replace (csub (mkC (1 / 2) 0) (mkC 1 0)) with (mkC (- (1 / 2)) 0) by (apply cpx_ext; cbn; field).
    cbn [argsorted fold_right insert_mode fst]. destruct (cle_dec (mkC 1 0) (mkC (- (1 / 2)) 0)) as [C|C]; [|reflexivity].
    exfalso. unfold cle in C. cbn in C. lra.
  - intros i j Hi Hj. unfold madd, mscale, mid, rdiag. destruct (Nat.eqb_spec i j) as [->|Ne].
    + change (cadd (mkC (nth j ev60 0) 0) (cmul (mkC 1 0) c1) = mkC (nth j shifted60 0) 0). rewrite <- (shift60 j Hj). set (x := nth j ev60 0). clearbody x.
      apply cpx_ext; cbn; ring.
    + apply cpx_ext; cbn; ring.
Qed.

(** Every hypothesis of the three theorems above holds for this operator. *)
Example C48_signed_eigensolve_case :
  eigs_ok 60 eigs60 /\
  (exists res, signed_eigensolve 60 (rdiag ev60) eigs60 (mkC 1 0) 2 false = Some res) /\
  (forall lam v, nonzero_vec 60 v -> eigenpair 60 (rdiag ev60) lam v -> cim lam = 0 /\ cabs lam <= cabs (mkC 1 0)) /\
  nonzero_vec 60 (basis 0) /\ eigenpair 60 (rdiag ev60) c1 (basis 0).
Proof.
  split; [exact eigs60_ok|]. split; [eexists; exact eigs60_run|]. split.
  - intros lam v N E. destruct (rdiag_eig 60 ev60 lam v eq_refl N E) as (Z & I). split; [exact Z|].
    rewrite cabs_re by lra. replace lam with (mkC (cre lam) 0) by (apply cpx_ext; cbn; [reflexivity|now rewrite Z]).
    assert (B : -1 <= cre lam <= 1). { unfold ev60 in I. destruct I as [<-|[<-|I]]; [lra|lra|]. apply repeat_spec in I. lra. }
    unfold cabs, cnrm. cbn. rewrite <- sqrt_1. apply sqrt_le_1; nra.
  - apply (rdiag_basis 60 ev60 0). lia.
Qed.

Definition eigs60' := table_eigs 60 (rdiag shifted60) 1 [(mkC 2 0, basis 0)].
Example C48_signed_eigensolve_sign_case :
  eigs_ok 60 eigs60' /\ (exists res, signed_eigensolve 60 (rdiag ev60) eigs60' (mkC 1 0) 1 false = Some res) /\
  NoDup [c1] /\ (forall lam, In lam [c1] -> (exists v, nonzero_vec 60 v /\ eigenpair 60 (rdiag ev60) lam v) /\ 0 < cre lam).
Proof.
  split; [|split; [|split]].
  - apply table_eigs_ok; [reflexivity| |].
    + intros mu v [E|[]]. injection E as <- <-. apply (rdiag_basis 60 shifted60 0). lia.
    + intros mu v N E. destruct (rdiag_eig 60 shifted60 mu v eq_refl N E) as (Z & I).
      assert (Q : mu = mkC (cre mu) 0) by (apply cpx_ext; cbn; [reflexivity|exact Z]). rewrite Q.
      unfold shifted60 in I. destruct I as [<-|[<-|I]]; [left; left; reflexivity| |apply repeat_spec in I; rewrite I];
        right; intros mu' [<-|[]]; cbn [fst]; rewrite !cabs_re; lra.
  - eexists. pose proof eigs60_run as H. unfold signed_eigensolve, eigs60, eigs60', table_eigs in *.
    destruct (same_mat _ _ _); [reflexivity|discriminate H].
  - repeat constructor. intros [].
  - intros lam [<-|[]]. split; [|cbn; lra]. exists (basis 0). apply (rdiag_basis 60 ev60 0). lia.
Qed.

(** ** C80 *)
(** "Largest-magnitude positive-only eigenvalues": an operator with one positive
    eigenvalue, asked for two, yields a negative one without any sign of it; the
    largest-magnitude eigenvalue is known exactly and eigs is exact. *)
Theorem C80_positive_only_refuted :
  exists n A eigs lm how_many res lam v,
    eigs_ok n eigs /\
    (forall mu w, nonzero_vec n w -> eigenpair n A mu w -> cim mu = 0 /\ cabs mu <= cabs lm) /\
    (exists w, nonzero_vec n w /\ eigenpair n A lm w) /\
    signed_eigensolve n A eigs lm how_many false = Some res /\ In (lam, v) res /\ cre lam < 0.
Proof.
  destruct C48_signed_eigensolve_case as (O & _ & B & N & E).
  exists 60%nat, (rdiag ev60), eigs60, (mkC 1 0), 2%nat, [(mkC (- (1 / 2)) 0, basis 1); (mkC 1 0, basis 0)], (mkC (- (1 / 2)) 0), (basis 1).
  split; [exact O|]. split; [exact B|]. split; [exists (basis 0); split; [exact N|exact E]|]. split; [exact eigs60_run|]. split; [now left|]. cbn. lra.
Qed.
Print Assumptions C80_positive_only_refuted.

(** ** C81 *)
(** signed_eigensolve always raises for operators smaller than 2 * how_many + 50. *)
Theorem C81_small_operators_raise :
  forall (n : nat) (A : mat CC) eigs (lm : cpx) (how_many : nat) (negative : bool),
    eigs_ok n eigs -> (n < 2 * how_many + 50)%nat -> signed_eigensolve n A eigs lm how_many negative = None.
Proof.
  intros n A eigs lm k neg Ok H. unfold signed_eigensolve. destruct (eigs _ k _) as [l|] eqn:E; [|reflexivity].
  destruct (Ok _ _ _ _ E) as (L & _). lia.
Qed.
Print Assumptions C81_small_operators_raise.

(** ** C78 *)
Definition diag_solver (M : mat CC) (b : vect CC) : vect CC := fun i => cdiv (b i) (M i i).
Definition guess34 : vect CC := fun i => match i with O => mkC (3 / 5) 0 | 1%nat => mkC (4 / 5) 0 | _ => c0 end.
Definition A01 : mat CC := rdiag [0; 1].
Lemma mshift_rdiag l lam i j : mshift (rdiag l) lam i j = if (i =? j)%nat then csub (mkC (nth i l 0) 0) lam else c0.
Proof. unfold mshift, msub, mscale, mid, rdiag. destruct (i =? j)%nat; apply cpx_ext; cbn; ring. Qed.

Lemma cmul_cdiv d b : d <> c0 -> cmul d (cdiv b d) = b.
Proof.
  intro H. apply cnrm_nz in H. unfold cdiv, cinv. set (q := cnrm d) in *. assert (Q : cre d * cre d + cim d * cim d = q) by reflexivity. clearbody q.
  apply cpx_ext; cbn; [transitivity (cre b * (cre d * cre d + cim d * cim d) / q)|transitivity (cim b * (cre d * cre d + cim d * cim d) / q)]; try (field; exact H); rewrite Q; field; exact H.
Qed.
Lemma A01_solve lam b i : lam <> c0 -> lam <> c1 -> (i < 2)%nat -> mv (K := CC) 2 (mshift A01 lam) (diag_solver (mshift A01 lam) b) i = b i.
Proof.
  intros H0 H1 Hi. refine (eq_trans (sumN_delta 2 i (fun j => cmul (mshift A01 lam i j) (diag_solver (mshift A01 lam) b j)) Hi _) _).
  - intros j _ Ne. unfold A01. rewrite mshift_rdiag. destruct (Nat.eqb_spec i j); [lia|]. apply cpx_ext; cbn; ring.
  - unfold diag_solver, A01. rewrite mshift_rdiag, Nat.eqb_refl. apply cmul_cdiv. 
    destruct i as [|[|]]; [intro Z; apply H0|intro Z; apply H1|lia]; injection Z; intros; apply cpx_ext; cbn in *; lra.
Qed.
Lemma norm2_2 v : norm2 2 v = cnrm (v 0%nat) + cnrm (v 1%nat).
Proof. unfold norm2, cnrm. cbn. ring. Qed.
Lemma rq_A01 v : norm2 2 v = 1 -> rayleigh_quotient 2 A01 v = mkC (cnrm (v 1%nat)) 0.
Proof.
  intro U. unfold rayleigh_quotient. rewrite U.
  assert (E : sumN (K := CC) 2 (fun i => cmul (cconj (v i)) (mv (K := CC) 2 A01 v i)) = mkC (cnrm (v 1%nat)) 0).
  { change (cadd (cadd c0 (cmul (cconj (v 0%nat)) (mv (K := CC) 2 A01 v 0%nat))) (cmul (cconj (v 1%nat)) (mv (K := CC) 2 A01 v 1%nat)) = mkC (cnrm (v 1%nat)) 0).
    unfold A01. rewrite !mv_rdiag by lia. unfold cnrm. apply cpx_ext; cbn; ring. }
  rewrite E. apply cpx_ext; cbn; unfold cnrm; cbn; field.
Qed.
Lemma res_A01 v : norm2 2 v = 1 -> residual2 2 A01 (rayleigh_quotient 2 A01 v) v = cnrm (v 0%nat) * cnrm (v 1%nat).
Proof.
  intro U. rewrite (rq_A01 v U). unfold residual2. rewrite norm2_2 in *. unfold A01. rewrite !mv_rdiag by lia. set (q := cnrm (v 1%nat)) in *.
  assert (Q : cnrm (v 1%nat) = q) by reflexivity. assert (P : cnrm (v 0%nat) = 1 - q) by lra. rewrite P. clearbody q. unfold cnrm in *. cbn.
  set (a := cre (v 0%nat)) in *; set (b := cim (v 0%nat)) in *; set (c := cre (v 1%nat)) in *; set (d := cim (v 1%nat)) in *. clearbody a b c d.
  transitivity (q * q * (a * a + b * b) + (1 - q) * (1 - q) * (c * c + d * d)); [ring|]. rewrite P, Q. ring.
Qed.
Lemma guess34_unit : norm2 2 guess34 = 1.
Proof. rewrite norm2_2. unfold cnrm, guess34. cbn. field. Qed.
Lemma guess34_nz : nonzero_vec 2 guess34.
Proof. exists 0%nat. split; [lia|]. unfold guess34. intro Z. injection Z. lra. Qed.
Lemma A01_solver_nz b : norm2 2 b = 1 -> (1 / 10) * (1 / 10) <= residual2 2 A01 (rayleigh_quotient 2 A01 b) b ->
  rayleigh_quotient 2 A01 b <> c0 /\ rayleigh_quotient 2 A01 b <> c1 /\ nonzero_vec 2 (diag_solver (mshift A01 (rayleigh_quotient 2 A01 b)) b).
Proof.
  intros U R. rewrite (res_A01 b U) in R. rewrite (rq_A01 b U). rewrite norm2_2 in U. set (p := cnrm (b 0%nat)) in *. set (q := cnrm (b 1%nat)) in *.
  assert (Hq : mkC q 0 <> c0) by (intro Z; injection Z; nra). assert (Hq1 : mkC q 0 <> c1) by (intro Z; injection Z; nra).
  split; [exact Hq|]. split; [exact Hq1|]. exists 0%nat. split; [lia|]. intro Z.
  assert (B0 : b 0%nat = c0).
  { rewrite <- (cmul_cdiv (mshift A01 (mkC q 0) 0%nat 0%nat) (b 0%nat)).
    - change (cdiv (b 0%nat) (mshift A01 (mkC q 0) 0%nat 0%nat)) with (diag_solver (mshift A01 (mkC q 0)) b 0%nat). rewrite Z. apply cpx_ext; cbn; ring.
    - unfold A01. rewrite mshift_rdiag. cbn. intro Y. injection Y. nra. }
  unfold p in *. rewrite B0 in R, U. unfold cnrm in *. cbn in *. lra.
Qed.

(** A run that meets the hypotheses of C48_rayleigh_quotient_iteration. *)
Example C48_rayleigh_quotient_iteration_case :
  0 <= 1 / 10 /\ nonzero_vec 2 guess34 /\
  (forall b, norm2 2 b = 1 -> (1 / 10) * (1 / 10) <= residual2 2 A01 (rayleigh_quotient 2 A01 b) b ->
     nonzero_vec 2 (diag_solver (mshift A01 (rayleigh_quotient 2 A01 b)) b)).
Proof. split; [lra|]. split; [exact guess34_nz|]. intros b U R. exact (proj2 (proj2 (A01_solver_nz b U R))). Qed.
Example C48_exact_guess_case : nonzero_vec 2 (basis 1) /\ eigenpair 2 A01 c1 (basis 1) /\ c1 <> c0.
Proof. destruct (rdiag_basis 2 [0; 1] 1 ltac:(lia)) as (A & B). split; [exact A|]. split; [exact B|]. intro Z. injection Z. lra. Qed.
Example C48_rayleigh_quotient_optimal_case : norm2 2 guess34 = 1.
Proof. exact guess34_unit. Qed.
Example C48_power_iteration_case : forall k, nonzero_vec 2 (Nat.iter k (mv (K := CC) 2 (rdiag [2; 1])) guess34).
Proof.
  intro k. exists 1%nat. split; [lia|].
  assert (E : forall j, Nat.iter j (mv (K := CC) 2 (rdiag [2; 1])) guess34 1%nat = mkC (4 / 5) 0).
  { induction j as [|j IH]; [reflexivity|]. refine (eq_trans (mv_rdiag 2 [2; 1] _ 1 ltac:(lia)) _). refine (eq_trans (f_equal (cmul (mkC 1 0)) IH) _). apply cpx_ext; cbn; ring. }
  rewrite E. intro Z. injection Z. lra.
Qed.

(** With the iterations used up, the returned eigenvalue is that of the previous
    vector.  The solver solves exactly whenever the shifted operator is regular. *)
Theorem C78_stale_eigenvalue_refuted :
  exists n A tol solver guess iterations lam v,
    0 < tol /\ (0 < iterations)%nat /\ norm2 n guess = 1 /\
    (forall mu b, (forall w, nonzero_vec n w -> ~ eigenpair n A mu w) ->
       forall i, (i < n)%nat -> mv (K := CC) n (shifted A mu) (solver (shifted A mu) b) i = b i) /\
    result (rayleigh_quotient_iteration n A tol solver guess iterations) = Some (lam, v) /\
    norm2 n v = 1 /\ lam <> rayleigh_quotient n A v.
Proof.
  destruct C48_rayleigh_quotient_iteration_case as (T & G & S).
  destruct (C48_rayleigh_quotient_iteration 2 A01 (1 / 10) diag_solver guess34 1 T G S ltac:(lia)) as (u & k & lam & E & (U0 & r & Hr & D) & Un & St & Bg & Fin).
  assert (R1 : r = 1).
  { pose proof guess34_unit as N. rewrite norm2_2 in N, U0. unfold cnrm in *. rewrite !D in N. cbn in N. assert (Q : r * r = 1); [|nra].
    transitivity (r * r * (cre (u 0%nat 0%nat) * cre (u 0%nat 0%nat) + cim (u 0%nat 0%nat) * cim (u 0%nat 0%nat) + (cre (u 0%nat 1%nat) * cre (u 0%nat 1%nat) + cim (u 0%nat 1%nat) * cim (u 0%nat 1%nat)))); [rewrite U0; ring|]. rewrite <- N. ring. }
  assert (V : forall i, u 0%nat i = guess34 i). { intro i. rewrite D, R1. apply cpx_ext; cbn; ring. }
  assert (N0 : cnrm (u 0%nat 0%nat) = 9 / 25) by (rewrite V; unfold cnrm; cbn; field).
  assert (N1 : cnrm (u 0%nat 1%nat) = 16 / 25) by (rewrite V; unfold cnrm; cbn; field).
  assert (Q0 : rayleigh_quotient 2 A01 (u 0%nat) = mkC (16 / 25) 0) by (rewrite (rq_A01 _ U0), N1; reflexivity).
  assert (K1 : k = 1%nat /\ lam = mkC (16 / 25) 0).
  { destruct Fin as [(F1 & F2 & F3)|(-> & F2)].
    - assert (k = 0)%nat by lia. subst k. rewrite F2 in F3. rewrite (res_A01 _ U0), N0, N1 in F3. lra.
    - split; [reflexivity|]. rewrite F2. exact Q0. }
  destruct K1 as (-> & ->). destruct (St 0%nat ltac:(lia)) as (U1 & r' & Hr' & D'). rewrite Q0 in D'. change (shifted A01) with (mshift A01) in D'.
  exists 2%nat, A01, (1 / 10), diag_solver, guess34, 1%nat, (mkC (16 / 25) 0), (u 1%nat).
  split; [lra|]. split; [lia|]. split; [exact guess34_unit|]. split.
  { intros mu b Reg i Hi. destruct (rdiag_basis 2 [0; 1] 0 ltac:(lia)) as (Z0 & Z1). destruct (rdiag_basis 2 [0; 1] 1 ltac:(lia)) as (Z2 & Z3).
    apply A01_solve; [intro; subst mu; exact (Reg _ Z0 Z1)|intro; subst mu; exact (Reg _ Z2 Z3)|exact Hi]. }
  split; [exact E|]. split; [exact U1|]. rewrite (rq_A01 _ U1). intro Z. injection Z as Z.
  assert (W0 : diag_solver (mshift A01 (mkC (16 / 25) 0)) (u 0%nat) 0%nat = mkC (- (15 / 16)) 0).
  { unfold diag_solver, A01. rewrite mshift_rdiag, V. cbn. apply cpx_ext; cbn; unfold cnrm; cbn; field. }
  assert (W1 : diag_solver (mshift A01 (mkC (16 / 25) 0)) (u 0%nat) 1%nat = mkC (20 / 9) 0).
  { unfold diag_solver, A01. rewrite mshift_rdiag, V. cbn. apply cpx_ext; cbn; unfold cnrm; cbn; field. }
  pose proof (D' 0%nat) as D0. pose proof (D' 1%nat) as D1. rewrite W0 in D0. rewrite W1 in D1. rewrite norm2_2 in U1.
  assert (C0 : (225 / 256) = r' * r' * cnrm (u 1%nat 0%nat)).
  { transitivity (cnrm (mkC (- (15 / 16)) 0)); [unfold cnrm; cbn; field|]. rewrite D0. unfold cnrm. cbn. ring. }
  assert (C1 : (400 / 81) = r' * r' * cnrm (u 1%nat 1%nat)).
  { transitivity (cnrm (mkC (20 / 9) 0)); [unfold cnrm; cbn; field|]. rewrite D1. unfold cnrm. cbn. ring. }
  rewrite <- Z in *. assert (P0 : cnrm (u 1%nat 0%nat) = 9 / 25) by lra. rewrite P0 in C0. lra.
Qed.
Print Assumptions C78_stale_eigenvalue_refuted.

(** iterations = 0 raises UnboundLocalError. *)
Theorem C78_no_iterations_raises :
  forall (n : nat) (A : mat CC) (tol : R) (solver : mat CC -> vect CC -> vect CC) (guess : vect CC),
    result (rayleigh_quotient_iteration n A tol solver guess 0) = None.
Proof. reflexivity. Qed.
Print Assumptions C78_no_iterations_raises.

(** ** C79 *)
(** rayleigh_quotient_iteration overwrites the caller's guess with the unit
    vector; power_iteration does so when iterations = 0. *)
Theorem C79_guess_overwritten :
  forall (n : nat) (A : mat CC) (tol : R) (solver : mat CC -> vect CC -> vect CC) (guess : vect CC) (iterations : nat),
    nonzero_vec n guess -> norm2 n guess <> 1 ->
    (exists i, (i < n)%nat /\ guess_after (rayleigh_quotient_iteration n A tol solver guess iterations) i <> guess i) /\
    unit_of n guess (guess_after (rayleigh_quotient_iteration n A tol solver guess iterations)) /\
    unit_of n guess (guess_after (power_iteration n A guess 0)).
Proof.
  intros n A tol solver g its N H.
  assert (E : guess_after (rayleigh_quotient_iteration n A tol solver g its) = normalize n g).
  { unfold rayleigh_quotient_iteration. now destruct (rqi_loop _ _ _ _ _ _ _). }
  rewrite E. pose proof (normalize_unit_of n g N) as U. splits; [|exact U|exact U].
  destruct N as (i & Hi & Nz). exists i. split; [exact Hi|]. intro Q. apply H. destruct U as (U & r & Hr & D).
  assert (R1 : r = 1).
  { pose proof (D i) as Di. rewrite Q in Di. set (z := g i) in *. clearbody z. injection (f_equal (fun w => mkC (cre w) (cim w)) Di). cbn. intros E2 E1.
    destruct (Req_dec r 1) as [|Ne]; [assumption|]. exfalso. apply Nz. assert (M : r - 1 <> 0) by lra. apply cpx_ext; cbn; apply (Rmult_eq_reg_l (r - 1)); try exact M; lra. }
  transitivity (norm2 n (normalize n g)); [|exact U]. unfold norm2. apply (sumN_ext RF). intros j _.
  assert (Dj : g j = normalize n g j). { rewrite (D j), R1. apply cpx_ext; cbn; ring. } now rewrite <- Dj.
Qed.
Print Assumptions C79_guess_overwritten.
Example C79_guess_overwritten_case : nonzero_vec 2 (fun _ => c1) /\ norm2 2 (fun _ => c1) <> 1.
Proof. split; [exists 0%nat; split; [lia|intro Z; injection Z; lra]|]. rewrite norm2_2. unfold cnrm. cbn. lra. Qed.
