(** Convergence of power_iteration; residuals of Rayleigh quotient iteration. *)
From Coq Require Import Reals List Arith ZArith Lia Lra Bool.
From Verif.Lib Require Import Num Sums Idx Mat RealF.
From Verif.Model Require Import WaveguideReal Eigensolvers.
From Verif.Spec Require Import EigenSpec.
From Verif.Proofs Require Import FdfdP2 EigensolversP.
Import ListNotations.
Local Open Scope R_scope.

Lemma cnrm_pos x : 0 <= cnrm x. Proof. unfold cnrm. nra. Qed.
Lemma cnrm_mul x y : cnrm (cmul x y) = cnrm x * cnrm y. Proof. unfold cnrm. cbn. ring. Qed.
Lemma cnrm_add2 x y : cnrm (cadd x y) <= 2 * cnrm x + 2 * cnrm y.
Proof. unfold cnrm. cbn. pose proof (Rle_0_sqr (cre x - cre y)). pose proof (Rle_0_sqr (cim x - cim y)). unfold Rsqr in *. lra. Qed.

Fixpoint cpw (x : cpx) (n : nat) : cpx := match n with O => c1 | S k => cmul x (cpw x k) end.
Lemma cnrm_cpw x n : cnrm (cpw x n) = cnrm x ^ n.
Proof. induction n as [|n IH]; [unfold cnrm; cbn; ring|]. cbn [cpw pow]. rewrite cnrm_mul, IH. reflexivity. Qed.

Lemma nrm2_S n x : nrm2 (S n) x = nrm2 n x + cnrm (x n). Proof. reflexivity. Qed.
Lemma nrm2_ext n x y : (forall i, (i < n)%nat -> x i = y i) -> nrm2 n x = nrm2 n y.
Proof. intro H. unfold nrm2. apply (sumN_ext RF). intros i Hi. now rewrite H. Qed.
Lemma nrm2_scale n c x : nrm2 n (fun i => cmul c (x i)) = cnrm c * nrm2 n x.
Proof. induction n as [|n IH]; [cbn; ring|]. rewrite !nrm2_S, IH, cnrm_mul. ring. Qed.
Lemma nrm2_add2 n x y : nrm2 n (fun i => cadd (x i) (y i)) <= 2 * nrm2 n x + 2 * nrm2 n y.
Proof. induction n as [|n IH]; [cbn; lra|]. rewrite !nrm2_S. pose proof (cnrm_add2 (x n) (y n)). lra. Qed.
Lemma nrm2_le n x (b : nat -> R) : (forall i, (i < n)%nat -> cnrm (x i) <= b i) -> nrm2 n x <= sumN (K := RF) n b.
Proof.
  induction n as [|n IH]; intro H; [cbn; lra|]. rewrite nrm2_S. change (nrm2 n x + cnrm (x n) <= sumN (K := RF) n b + b n).
  specialize (IH (fun i Hi => H i ltac:(lia))). pose proof (H n ltac:(lia)). lra.
Qed.

(** A finite sum of terms each bounded by rho^n. *)
Fixpoint two (m : nat) : R := match m with O => 0 | S k => 2 * two k + 2 end.
Lemma two_pos m : 0 <= two m. Proof. induction m as [|m IH]; cbn; lra. Qed.
Lemma cnrm_sum m (a : nat -> cpx) (b : R) : 0 <= b -> (forall k, (k < m)%nat -> cnrm (a k) <= b) -> cnrm (sumN (K := CC) m a) <= two m * b.
Proof.
  intros Hb. induction m as [|m IH]; intro H; [unfold cnrm; cbn; lra|]. cbn [two].
  change (sumN (K := CC) (S m) a) with (cadd (sumN (K := CC) m a) (a m)).
  pose proof (cnrm_add2 (sumN (K := CC) m a) (a m)). specialize (IH (fun k Hk => H k ltac:(lia))). pose proof (H m ltac:(lia)). lra.
Qed.
Fixpoint tot (m : nat) (f : nat -> R) : R := match m with O => 0 | S k => tot k f + f k end.
Lemma tot_pos m f : (forall k, 0 <= f k) -> 0 <= tot m f.
Proof. intro H. induction m as [|m IH]; cbn; [lra|]. pose proof (H m). lra. Qed.
Lemma tot_ge m f k : (forall k, 0 <= f k) -> (k < m)%nat -> f k <= tot m f.
Proof.
  intros H. induction m as [|m IH]; intro Hk; [lia|]. cbn. pose proof (tot_pos m f H). pose proof (H m).
  destruct (Nat.eq_dec k m) as [->|]; [lra|]. specialize (IH ltac:(lia)). lra.
Qed.

Section C.
  Variables (n : nat) (A : mat CC) (lam : cpx) (w : vect CC) (m : nat) (mu : nat -> cpx) (y : nat -> vect CC) (rho : R).
  Hypothesis Hw : nonzero_vec n w.
  Hypothesis Ew : eigenpair n A lam w.
  Hypothesis Ey : forall k, (k < m)%nat -> eigenpair n A (mu k) (y k).
  Hypothesis Hmu : forall k, (k < m)%nat -> cnrm (mu k) <= rho.
  Hypothesis Hrho : rho < cnrm lam.
  Variable g : vect CC.
  Hypothesis Hg : forall i, (i < n)%nat -> g i = cadd (w i) (sumN (K := CC) m (fun k => y k i)).

  Definition rest (f : nat -> cpx) (t : nat) : vect CC := fun i => sumN (K := CC) m (fun k => cmul (cmul (cpw (mu k) t) (f k)) (y k i)).
  Let one : nat -> cpx := fun _ => c1.
  Let rho' := Rmax rho 0.

  Lemma mv_sum (f : nat -> vect CC) i M : mv (K := CC) n A (fun j => sumN (K := CC) M (fun k => f k j)) i = sumN (K := CC) M (fun k => mv (K := CC) n A (f k) i).
  Proof.
    induction M as [|M IH].
    - cbn [sumN]. unfold mv. apply (sumN_zero CC). intros j _. apply cpx_ext; cbn; ring.
    - cbn [sumN]. rewrite <- IH. exact (mv_lin_add CC n A (fun j => sumN (K := CC) M (fun k => f k j)) (f M) i).
  Qed.

  Lemma iter_at t : forall i, (i < n)%nat -> Nat.iter t (mv (K := CC) n A) g i = cadd (cmul (cpw lam t) (w i)) (rest one t i).
  Proof.
    induction t as [|t IH]; intros i Hi.
    - change (Nat.iter 0 (mv n A) g i) with (g i). rewrite (Hg i Hi). cbn [cpw]. f_equal; [apply cpx_ext; cbn; ring|].
      unfold rest. apply (sumN_ext CC). intros k _. apply cpx_ext; cbn; ring.
    - change (Nat.iter (S t) (mv n A) g i) with (mv (K := CC) n A (Nat.iter t (mv n A) g) i).
      refine (eq_trans (mv_ext_v CC n A _ _ i IH) _).
      refine (eq_trans (mv_lin_add CC n A (fun j => cmul (cpw lam t) (w j)) (rest one t) i) _). apply f_equal2.
      + refine (eq_trans (mv_lin_scale CC n A (cpw lam t) w i) _). rewrite (Ew i Hi). apply cpx_ext; cbn; ring.
      + unfold rest. rewrite mv_sum. apply (sumN_ext CC). intros k Hk.
        refine (eq_trans (mv_lin_scale CC n A (cmul (cpw (mu k) t) (one k)) (y k) i) _).
        rewrite (Ey k Hk i Hi). cbn [cpw]. apply cpx_ext; cbn; ring.
  Qed.

  Lemma rest_bound f : exists B, 0 <= B /\ forall t, nrm2 n (rest f t) <= B * rho' ^ t.
  Proof.
    set (b := fun i => two m * tot m (fun k => cnrm (cmul (f k) (y k i)))).
    exists (sumN (K := RF) n b).
    assert (Hb : forall i, 0 <= b i) by (intro i; apply Rmult_le_pos; [apply two_pos|apply tot_pos; intro; apply cnrm_pos]).
    split; [apply sumN_nonneg; intros i _; apply Hb|].
    intro t. assert (R0 : 0 <= rho' ^ t) by (apply pow_le, Rmax_r).
    apply Rle_trans with (sumN (K := RF) n (fun i => rho' ^ t * b i)).
    - apply nrm2_le. intros i Hi. unfold rest, b. rewrite <- Rmult_assoc, (Rmult_comm (rho' ^ t)), Rmult_assoc.
      apply cnrm_sum; [apply Rmult_le_pos; [exact R0|apply tot_pos; intro; apply cnrm_pos]|].
      intros k Hk. replace (cmul (cmul (cpw (mu k) t) (f k)) (y k i)) with (cmul (cpw (mu k) t) (cmul (f k) (y k i))) by (apply cpx_ext; cbn; ring).
      rewrite cnrm_mul, cnrm_cpw. apply Rmult_le_compat; [apply pow_le, cnrm_pos|apply cnrm_pos| |].
      + apply pow_incr. split; [apply cnrm_pos|]. eapply Rle_trans; [apply Hmu, Hk|apply Rmax_l].
      + apply (tot_ge m (fun k => cnrm (cmul (f k) (y k i)))); [intro; apply cnrm_pos|exact Hk].
    - pose proof (sumN_mul_l RF n (rho' ^ t) b) as Q. change (sumN (K := RF) n (fun i => rho' ^ t * b i) = rho' ^ t * sumN (K := RF) n b) in Q.
      rewrite Q. lra.
  Qed.

  Lemma lam_pos : 0 < cnrm lam \/ lam = c0.
  Proof. destruct (cpx_dec lam c0) as [->|N]; [now right|left]. pose proof (cnrm_nz lam N). pose proof (cnrm_pos lam). lra. Qed.

  Hypothesis Hl : 0 < cnrm lam.
  Let q := rho' / cnrm lam.
  Lemma q_range : 0 <= q < 1.
  Proof.
    unfold q, rho'. assert (H : Rmax rho 0 < cnrm lam) by (apply Rmax_lub_lt; assumption). pose proof (Rmax_r rho 0).
    split; [apply Rmult_le_pos; [assumption|left; now apply Rinv_0_lt_compat]|].
    apply (Rmult_lt_reg_r (cnrm lam)); [exact Hl|]. unfold Rdiv. rewrite Rmult_assoc, Rinv_l by lra. lra.
  Qed.
  Lemma q_pow t : rho' ^ t = q ^ t * cnrm lam ^ t.
  Proof. rewrite <- Rpow_mult_distr. f_equal. unfold q. field. lra. Qed.

  Lemma w_pos : 0 < nrm2 n w.
  Proof. pose proof (nonzero_norm n w Hw) as H. pose proof (vnorm_sq n w) as S. pose proof (vnorm_pos n w). nra. Qed.

  Lemma converges : exists C N, 0 <= C /\ forall t, (N <= t)%nat ->
    (forall k, (k <= t)%nat -> nonzero_vec n (Nat.iter k (mv (K := CC) n A) g)) /\
    forall v, unit_of n (Nat.iter t (mv (K := CC) n A) g) v ->
      residual2 n A lam v <= C * q ^ t /\ exists p, norm2 n (fun i => csub (v i) (cmul p (w i))) <= C * q ^ t.
  Proof.
    destruct (rest_bound one) as (B & B0 & HB). destruct (rest_bound (fun k => csub (mu k) lam)) as (B' & B0' & HB').
    pose proof w_pos as W. pose proof q_range as Q.
    destruct (pow_lt_1_zero q) with (y := nrm2 n w / (4 * (B + 1))) as [N HN].
    { rewrite Rabs_pos_eq; apply Q. } { apply Rmult_lt_0_compat; [exact W|apply Rinv_0_lt_compat; lra]. }
    exists (4 * (B + B') / nrm2 n w), N.
    split; [apply Rmult_le_pos; [lra|left; now apply Rinv_0_lt_compat]|]. intros t Ht.
    assert (LP : 0 < cnrm lam ^ t) by (apply pow_lt; exact Hl). assert (QP : 0 <= q ^ t) by (apply pow_le, Q).
    (* the norm of A^t g *)
    assert (G : cnrm lam ^ t * nrm2 n w / 4 <= nrm2 n (Nat.iter t (mv (K := CC) n A) g)).
    { set (G := Nat.iter t (mv (K := CC) n A) g).
      assert (E : nrm2 n (fun i => cmul (cpw lam t) (w i)) <= 2 * nrm2 n G + 2 * nrm2 n (rest one t)).
      { assert (E1 : nrm2 n (fun i => cmul (copp c1) (rest one t i)) = nrm2 n (rest one t)) by (rewrite nrm2_scale; unfold cnrm; cbn; ring).
        rewrite <- E1. eapply Rle_trans; [|apply nrm2_add2]. right. apply nrm2_ext. intros i Hi. unfold G. rewrite (iter_at t i Hi). apply cpx_ext; cbn; ring. }
      rewrite nrm2_scale, cnrm_cpw in E. pose proof (HB t) as HBt. rewrite q_pow in HBt.
      assert (S : q ^ t * (4 * (B + 1)) < nrm2 n w).
      { specialize (HN t Ht). rewrite Rabs_pos_eq in HN by exact QP. apply (Rmult_lt_compat_r (4 * (B + 1))) in HN; [|lra].
        unfold Rdiv in HN. rewrite Rmult_assoc, Rinv_l in HN by lra. lra. }
      assert (S2 : cnrm lam ^ t * (q ^ t * B) <= cnrm lam ^ t * (nrm2 n w / 4)) by (apply Rmult_le_compat_l; lra).
      lra. }
    assert (GP : 0 < nrm2 n (Nat.iter t (mv (K := CC) n A) g)). { assert (0 < cnrm lam ^ t * nrm2 n w) by now apply Rmult_lt_0_compat. lra. }
    split.
    - intros k Hk. destruct (Classical_Prop.classic (nonzero_vec n (Nat.iter k (mv (K := CC) n A) g))) as [X|X]; [exact X|exfalso].
      assert (Z : forall d i, (i < n)%nat -> Nat.iter (d + k) (mv (K := CC) n A) g i = c0).
      { induction d as [|d IH]; intros i Hi.
        - destruct (cpx_dec (Nat.iter k (mv (K := CC) n A) g i) c0) as [Y|Y]; [exact Y|]. exfalso. apply X. exists i. now split.
        - change (mv (K := CC) n A (Nat.iter (d + k) (mv (K := CC) n A) g) i = c0). unfold mv. apply (sumN_zero CC). intros j Hj.
          refine (eq_trans (f_equal (cmul (A i j)) (IH j Hj)) _). apply cpx_ext; cbn; ring. }
      specialize (Z (t - k)%nat). replace (t - k + k)%nat with t in Z by lia.
      pose proof (vnorm_zero n _ Z) as V. pose proof (vnorm_sq n (Nat.iter t (mv (K := CC) n A) g)) as V2. rewrite V in V2. lra.
    - intros v (U & r & Hr & E). set (G' := Nat.iter t (mv (K := CC) n A) g) in *.
      assert (R2 : nrm2 n G' = r * r).
      { rewrite (nrm2_ext n G' (fun i => cmul (mkC r 0) (v i))) by (intros; apply E). rewrite nrm2_scale. change (nrm2 n v) with (norm2 n v). rewrite U. unfold cnrm. cbn. ring. }
      assert (V : forall i, v i = cmul (mkC (/ r) 0) (G' i)). { intro i. rewrite E. apply cpx_ext; cbn; field; lra. }
      assert (CI : cnrm (mkC (/ r) 0) = / (r * r)) by (unfold cnrm; cbn; field; lra).
      assert (RR : 0 < r * r) by nra.
      assert (Bd : forall X b, 0 <= b -> X <= b * rho' ^ t -> b <= B + B' -> / (r * r) * X <= 4 * (B + B') / nrm2 n w * q ^ t).
      { intros X b Hb HX Hbb. rewrite q_pow in HX.
        apply (Rmult_le_reg_l (r * r * nrm2 n w)); [now apply Rmult_lt_0_compat|].
        replace (r * r * nrm2 n w * (/ (r * r) * X)) with (nrm2 n w * X) by (field; lra).
        replace (r * r * nrm2 n w * (4 * (B + B') / nrm2 n w * q ^ t)) with ((4 * (r * r)) * ((B + B') * q ^ t)) by (field; lra).
        apply Rle_trans with (nrm2 n w * ((B + B') * (q ^ t * cnrm lam ^ t))).
        - apply Rmult_le_compat_l; [lra|]. eapply Rle_trans; [exact HX|]. apply Rmult_le_compat_r; [apply Rmult_le_pos; lra|exact Hbb].
        - replace (nrm2 n w * ((B + B') * (q ^ t * cnrm lam ^ t))) with ((cnrm lam ^ t * nrm2 n w) * ((B + B') * q ^ t)) by ring.
          apply Rmult_le_compat_r; [apply Rmult_le_pos; lra|]. rewrite R2 in G. lra. }
      split.
      + unfold residual2. change (nrm2 n (fun i => csub (mv (K := CC) n A v i) (cmul lam (v i))) <= 4 * (B + B') / nrm2 n w * q ^ t).
        rewrite (nrm2_ext n _ (fun i => cmul (mkC (/ r) 0) (rest (fun k => csub (mu k) lam) t i))).
        * rewrite nrm2_scale, CI. apply (Bd _ B'); [exact B0'|apply HB'|lra].
        * intros i Hi.
          assert (M : mv (K := CC) n A v i = cmul (mkC (/ r) 0) (Nat.iter (S t) (mv (K := CC) n A) g i)).
          { change (Nat.iter (S t) (mv (K := CC) n A) g i) with (mv (K := CC) n A G' i). refine (eq_trans (mv_ext_v CC n A _ _ i (fun j _ => V j)) _).
            exact (mv_lin_scale CC n A (mkC (/ r) 0) G' i). }
          rewrite M, V. unfold G'. rewrite (iter_at (S t) i Hi), (iter_at t i Hi). cbn [cpw].
          assert (Rst : rest (fun k => csub (mu k) lam) t i = csub (rest one (S t) i) (cmul lam (rest one t i))).
          { unfold rest. rewrite <- (sumN_mul_l CC m lam). refine (eq_trans _ (sumN_sub CC m _ _)). apply (sumN_ext CC). intros k Hk. cbn [cpw]. apply cpx_ext; cbn; ring. }
          rewrite Rst. apply cpx_ext; cbn; ring.
      + exists (cmul (mkC (/ r) 0) (cpw lam t)).
        change (nrm2 n (fun i => csub (v i) (cmul (cmul (mkC (/ r) 0) (cpw lam t)) (w i))) <= 4 * (B + B') / nrm2 n w * q ^ t).
        rewrite (nrm2_ext n _ (fun i => cmul (mkC (/ r) 0) (rest one t i))).
        * rewrite nrm2_scale, CI. apply (Bd _ B); [exact B0|apply HB|lra].
        * intros i Hi. rewrite V. unfold G'. rewrite (iter_at t i Hi). apply cpx_ext; cbn; ring.
  Qed.
End C.

(** The Rayleigh quotient is at least as close as the residual. *)
Lemma rq_close n A v lam : norm2 n v = 1 -> cnrm (csub (rayleigh_quotient n A v) lam) <= residual2 n A lam v.
Proof.
  intro H. rewrite <- (rq_unit n A v H). unfold residual2. change (norm2 n) with (nrm2 n).
  rewrite nrm2_comb by exact H. pose proof (nrm2_pos n (fun i => csub (mv (K := CC) n A v i) (cmul (cdot n v (mv n A v)) (v i)))) as P.
  rewrite nrm2_comb in P by exact H. set (d := cdot n v (mv (K := CC) n A v)) in *. set (Y := nrm2 n (mv (K := CC) n A v)) in *. clearbody d Y.
  unfold cnrm in *. cbn in *. lra.
Qed.

(** ** Rayleigh quotient iteration of a normal operator *)
Lemma sum_conj n (f : nat -> cpx) : cconj (sumN (K := CC) n f) = sumN (K := CC) n (fun i => cconj (f i)).
Proof.
  induction n as [|n IH]; [apply cpx_ext; cbn; ring|].
  change (cconj (cadd (sumN (K := CC) n f) (f n)) = cadd (sumN (K := CC) n (fun i => cconj (f i))) (cconj (f n))).
  rewrite <- IH. set (a := sumN (K := CC) n f). clearbody a. apply cpx_ext; cbn; ring.
Qed.
Definition adj (A : mat CC) : mat CC := fun i j => cconj (A j i).
Lemma cdot_adj n A x y : cdot n x (mv (K := CC) n A y) = cdot n (mv (K := CC) n (adj A) x) y.
Proof.
  unfold cdot, mv.
  transitivity (sumN (K := CC) n (fun i => sumN (K := CC) n (fun j => cmul (cconj (x i)) (cmul (A i j) (y j))))).
  { apply (sumN_ext CC). intros i _. symmetry. apply (sumN_mul_l CC). }
  rewrite (sumN_swap CC). apply (sumN_ext CC). intros j _. rewrite sum_conj.
  refine (eq_trans _ (eq_sym (eq_trans (eq_sym (sumN_mul_r CC n (y j) _)) eq_refl))). apply (sumN_ext CC). intros i _. unfold adj. apply cpx_ext; cbn; ring.
Qed.
Lemma cdot_conj n x y : cconj (cdot n x y) = cdot n y x.
Proof. unfold cdot. rewrite sum_conj. apply (sumN_ext CC). intros i _. apply cpx_ext; cbn; ring. Qed.

(** Cauchy-Schwarz against a unit vector. *)
Lemma cs_unit n v x : nrm2 n v = 1 -> cnrm (cdot n v x) <= nrm2 n x.
Proof.
  intro H. pose proof (nrm2_pos n (fun i => csub (x i) (cmul (cdot n v x) (v i)))) as P. rewrite nrm2_comb in P by exact H.
  set (d := cdot n v x) in *. clearbody d. unfold cnrm in *. cbn in *. lra.
Qed.

Lemma normal_shift n A lam v : normal_op n A -> nrm2 n v = 1 ->
  nrm2 n (fun i => csub (mv (K := CC) n A v i) (cmul lam (v i))) = nrm2 n (fun i => csub (mv (K := CC) n (adj A) v i) (cmul (cconj lam) (v i))).
Proof.
  intros N H. rewrite !nrm2_comb by exact H. specialize (N v). change (nrm2 n (mv (K := CC) n A v) = nrm2 n (mv (K := CC) n (adj A) v)) in N. rewrite N.
  assert (E : cdot n v (mv (K := CC) n (adj A) v) = cconj (cdot n v (mv (K := CC) n A v))) by (rewrite cdot_conj, cdot_adj; unfold cdot; apply (sumN_ext CC); intros i _; f_equal; f_equal; unfold mv; apply (sumN_ext CC); intros j _; unfold adj; apply cpx_ext; cbn; ring).
  rewrite E. set (d := cdot n v (mv (K := CC) n A v)). clearbody d. unfold cnrm. cbn. ring.
Qed.

Lemma mv_shift n A lam x i : (i < n)%nat -> mv (K := CC) n (mshift A lam) x i = csub (mv (K := CC) n A x i) (cmul lam (x i)).
Proof.
  intro Hi. unfold mshift. rewrite (mv_msub CC), (mv_mscale CC), (mv_mid CC) by exact Hi. reflexivity.
Qed.

(** One step from [v]: the new vector has, with the old quotient, a residual at most that of [v]. *)
Lemma rqi_step n A lam v x : normal_op n A -> nrm2 n v = 1 ->
  (forall i, (i < n)%nat -> mv (K := CC) n (mshift A lam) x i = v i) ->
  nonzero_vec n x /\ nrm2 n (normalize n x) = 1 /\ residual2 n A lam (normalize n x) <= residual2 n A lam v.
Proof.
  intros N H E.
  assert (X : nonzero_vec n x).
  { destruct (unit_nonzero n v H) as (i & Hi & Z). destruct (Classical_Prop.classic (nonzero_vec n x)) as [Y|Y]; [exact Y|exfalso].
    apply Z. rewrite <- (E i Hi). unfold mv. apply (sumN_zero CC). intros j Hj.
    destruct (cpx_dec (x j) c0) as [Q|Q]; [|exfalso; apply Y; exists j; now split].
    refine (eq_trans (f_equal (cmul (mshift A lam i j)) Q) _). apply cpx_ext; cbn; ring. }
  split; [exact X|]. destruct (normalize_unit_of n x X) as (U & r & Hr & D). split; [exact U|].
  set (u := normalize n x) in *. change (nrm2 n u = 1) in U.
  (* (A - lam) u = v / r *)
  assert (F : forall i, (i < n)%nat -> csub (mv (K := CC) n A u i) (cmul lam (u i)) = cmul (mkC (/ r) 0) (v i)).
  { intros i Hi. rewrite <- (E i Hi), <- mv_shift by exact Hi.
    assert (G : mv (K := CC) n (mshift A lam) x i = cmul (mkC r 0) (mv (K := CC) n (mshift A lam) u i)).
    { refine (eq_trans (mv_ext_v CC n _ x (fun j => @fmul CC (mkC r 0) (u j)) i (fun j _ => D j)) _). apply (mv_lin_scale CC). }
    rewrite G. set (z := mv (K := CC) n (mshift A lam) u i). clearbody z. apply cpx_ext; cbn; field; lra. }
  unfold residual2. change (nrm2 n (fun i => csub (mv (K := CC) n A u i) (cmul lam (u i))) <= nrm2 n (fun i => csub (mv (K := CC) n A v i) (cmul lam (v i)))).
  rewrite (normal_shift n A lam v N H). rewrite (nrm2_ext n _ _ F), nrm2_scale, H.
  set (y := fun i => csub (mv (K := CC) n (adj A) v i) (cmul (cconj lam) (v i))).
  pose proof (cs_unit n u y U) as C. eapply Rle_trans; [|exact C]. right.
  assert (G : cconj (cdot n u y) = mkC (/ r) 0).
  { rewrite cdot_conj. unfold y. transitivity (cdot n v (fun i => csub (mv (K := CC) n A u i) (cmul lam (u i)))).
    - transitivity (csub (cdot n (mv (K := CC) n (adj A) v) u) (cmul lam (cdot n v u))).
      + unfold cdot. rewrite <- (sumN_mul_l CC n lam). refine (eq_trans _ (sumN_sub CC n _ _)). apply (sumN_ext CC). intros i _. apply cpx_ext; cbn; ring.
      + rewrite <- cdot_adj. unfold cdot. rewrite <- (sumN_mul_l CC n lam). refine (eq_trans (eq_sym (sumN_sub CC n _ _)) _). apply (sumN_ext CC). intros i _. apply cpx_ext; cbn; ring.
    - rewrite (cdot_ext n v _ v (fun i => cmul (mkC (/ r) 0) (v i)) (fun _ _ => eq_refl) F), cdot_scale, cdot_self, H. apply cpx_ext; cbn; ring. }
  assert (G2 : cdot n u y = mkC (/ r) 0).
  { rewrite <- (cdot_conj n y u). rewrite cdot_conj in G. rewrite G. apply cpx_ext; cbn; ring. }
  rewrite G2. ring.
Qed.

Section Rq.
  Variables (n : nat) (A : mat CC) (tol : R) (solver : mat CC -> vect CC -> vect CC).
  Hypothesis N : normal_op n A.
  Hypothesis Ht : 0 <= tol.
  Hypothesis HS : forall b, norm2 n b = 1 -> tol * tol <= residual2 n A (rayleigh_quotient n A b) b ->
    forall i, (i < n)%nat -> mv (K := CC) n (shifted A (rayleigh_quotient n A b)) (solver (shifted A (rayleigh_quotient n A b)) b) i = b i.
  Let res (p : cpx * vect CC) := residual2 n A (fst p) (snd p).
  Let next v := normalize n (solver (mshift A (cdot n v (mv n A v))) v).

  Lemma next_ok v : nrm2 n v = 1 -> ~ residual n A (cdot n v (mv n A v)) v < tol ->
    nrm2 n (next v) = 1 /\ residual2 n A (cdot n v (mv n A v)) (next v) <= residual2 n A (cdot n v (mv n A v)) v.
  Proof.
    intros U R. pose proof (HS v U) as E. rewrite <- (rq_unit n A v U) in E. change (shifted A) with (mshift A) in E.
    assert (T : tol * tol <= residual2 n A (cdot n v (mv n A v)) v).
    { rewrite <- residual_sq. pose proof (residual_pos n A (cdot n v (mv n A v)) v). apply Rmult_le_compat; lra. }
    destruct (rqi_step n A _ v _ N U (E T)) as (_ & X & Y). now split.
  Qed.
  Lemma opt v lam : nrm2 n v = 1 -> residual2 n A (cdot n v (mv n A v)) v <= residual2 n A lam v.
  Proof.
    intro U. pose proof (rq_optimal n A v lam U). rewrite <- !residual_sq. pose proof (residual_pos n A (cdot n v (mv n A v)) v). apply Rmult_le_compat; lra.
  Qed.
  Lemma loop_res it : forall last v, nrm2 n v = 1 ->
    exists l w, rqi_loop n A tol solver (S it) last v = (Some l, w) /\ nrm2 n w = 1 /\ residual2 n A l w <= residual2 n A (cdot n v (mv n A v)) v.
  Proof.
    induction it as [|it IH]; intros last v U; cbn [rqi_loop]; destruct (Rlt_dec _ _) as [T|T]; try (exists (cdot n v (mv n A v)), v; splits; [reflexivity|exact U|lra]).
    - destruct (next_ok v U T) as (X & Y). exists (cdot n v (mv n A v)), (next v). splits; [reflexivity|exact X|exact Y].
    - destruct (next_ok v U T) as (X & Y). destruct (IH (Some (cdot n v (mv n A v))) (next v) X) as (l & w & E & U' & L). exists l, w. splits; [exact E|exact U'|].
      pose proof (opt (next v) (cdot n v (mv n A v)) X). lra.
  Qed.
  Lemma loop_mono a : forall b last v, (a <= b)%nat -> nrm2 n v = 1 ->
    exists l w l' w', rqi_loop n A tol solver (S a) last v = (Some l, w) /\ rqi_loop n A tol solver (S b) last v = (Some l', w') /\ residual2 n A l' w' <= residual2 n A l w.
  Proof.
    induction a as [|a IH]; intros b last v Hb U.
    - destruct b as [|b].
      + destruct (loop_res 0 last v U) as (l & w & E & _ & _). exists l, w, l, w. splits; [exact E|exact E|lra].
      + cbn [rqi_loop]. destruct (Rlt_dec (residual n A (cdot n v (mv n A v)) v) tol) as [T|T].
        * exists (cdot n v (mv n A v)), v, (cdot n v (mv n A v)), v. splits; [reflexivity|reflexivity|lra].
        * destruct (next_ok v U T) as (X & Y). destruct (loop_res b (Some (cdot n v (mv n A v))) (next v) X) as (l & w & E & U' & L).
          exists (cdot n v (mv n A v)), (next v), l, w. splits; [reflexivity|exact E|]. pose proof (opt (next v) (cdot n v (mv n A v)) X). lra.
    - destruct b as [|b]; [lia|].
      change (rqi_loop n A tol solver (S (S a)) last v) with (if Rlt_dec (residual n A (cdot n v (mv n A v)) v) tol then (Some (cdot n v (mv n A v)), v) else rqi_loop n A tol solver (S a) (Some (cdot n v (mv n A v))) (next v)).
      change (rqi_loop n A tol solver (S (S b)) last v) with (if Rlt_dec (residual n A (cdot n v (mv n A v)) v) tol then (Some (cdot n v (mv n A v)), v) else rqi_loop n A tol solver (S b) (Some (cdot n v (mv n A v))) (next v)).
      destruct (Rlt_dec (residual n A (cdot n v (mv n A v)) v) tol) as [T|T].
      + exists (cdot n v (mv n A v)), v, (cdot n v (mv n A v)), v. splits; [reflexivity|reflexivity|lra].
      + destruct (next_ok v U T) as (X & Y). exact (IH b (Some (cdot n v (mv n A v))) (next v) ltac:(lia) X).
  Qed.
End Rq.
