(** A Lipschitz function on the box [-1,1]^n takes a least value; the least
    eigenvalue of a real symmetric matrix. *)
From Coq Require Import Reals Lra Psatz List Arith Lia.
From Verif.Lib Require Import Num Sums RealF.
Local Open Scope R_scope.

Notation rs := (sumN (K := RF)).

Lemma rs_abs n (f g h : nat -> R) : (forall i, (i < n)%nat -> Rabs (f i - g i) <= h i) -> Rabs (rs n f - rs n g) <= rs n h.
Proof.
  induction n as [|n IH]; intro H.
  - cbn. rewrite Rminus_0_r, Rabs_R0. lra.
  - change (Rabs ((rs n f + f n) - (rs n g + g n)) <= rs n h + h n). specialize (IH (fun i Hi => H i ltac:(lia))). specialize (H n ltac:(lia)).
    replace (rs n f + f n - (rs n g + g n)) with ((rs n f - rs n g) + (f n - g n)) by ring.
    eapply Rle_trans; [apply Rabs_triang|]. lra.
Qed.
Lemma rs_scale n c (f : nat -> R) : rs n (fun i => c * f i) = c * rs n f.
Proof. exact (sumN_mul_l RF n c f). Qed.
Lemma rs_add n (f g : nat -> R) : rs n (fun i => f i + g i) = rs n f + rs n g.
Proof. exact (sumN_add RF n f g). Qed.
Lemma rs_sub n (f g : nat -> R) : rs n (fun i => f i - g i) = rs n f - rs n g.
Proof. exact (sumN_sub RF n f g). Qed.
Lemma rs_ext n (f g : nat -> R) : (forall i, (i < n)%nat -> f i = g i) -> rs n f = rs n g.
Proof. exact (sumN_ext RF n f g). Qed.
Lemma rs_le n (f g : nat -> R) : (forall i, (i < n)%nat -> f i <= g i) -> rs n f <= rs n g.
Proof. exact (sumN_le n f g). Qed.
Lemma rs_nonneg n (f : nat -> R) : (forall i, (i < n)%nat -> 0 <= f i) -> 0 <= rs n f.
Proof. exact (sumN_nonneg n f). Qed.
Lemma rs_const n c : rs n (fun _ => c) = INR n * c.
Proof. induction n as [|n IH]; [cbn; ring|]. change (rs n (fun _ => c) + c = INR (S n) * c). rewrite IH, S_INR. ring. Qed.
Lemma rs_ge_term n (f : nat -> R) k : (k < n)%nat -> (forall i, (i < n)%nat -> 0 <= f i) -> f k <= rs n f.
Proof.
  induction n as [|n IH]; intros Hk H; [lia|]. change (f k <= rs n f + f n). pose proof (rs_nonneg n f (fun i Hi => H i ltac:(lia))).
  destruct (Nat.eq_dec k n) as [->|]; [lra|]. specialize (IH ltac:(lia) (fun i Hi => H i ltac:(lia))). pose proof (H n ltac:(lia)). lra.
Qed.
Lemma rs_swap n m (f : nat -> nat -> R) : rs n (fun i => rs m (fun j => f i j)) = rs m (fun j => rs n (fun i => f i j)).
Proof. exact (sumN_swap RF n m f). Qed.
Lemma rs_single n k (f : nat -> R) : (k < n)%nat -> (forall i, (i < n)%nat -> i <> k -> f i = 0) -> rs n f = f k.
Proof.
  induction n as [|n IH]; intros Hk H; [lia|]. change (rs n f + f n = f k). destruct (Nat.eq_dec k n) as [->|N].
  - assert (Z : rs n f = 0) by (apply (sumN_zero RF); intros; apply H; lia). rewrite Z. ring.
  - rewrite (IH ltac:(lia) (fun i Hi Ni => H i ltac:(lia) Ni)), (H n) by lia. ring.
Qed.

Lemma abs_le_in x : Rabs x <= 1 -> -1 <= x <= 1.
Proof. unfold Rabs. destruct (Rcase_abs _); lra. Qed.

(** ** Unique choice of real numbers *)
Lemma real_function (P : R -> R -> Prop) : (forall t, exists v, P t v) -> (forall t v v', P t v -> P t v' -> v = v') -> exists m, forall t, P t (m t).
Proof.
  intros Ex Un.
  assert (B : forall t, bound (P t)). { intro t. destruct (Ex t) as (v & Hv). exists v. intros w Hw. right. exact (Un t w v Hw Hv). }
  exists (fun t => proj1_sig (completeness (P t) (B t) (Ex t))). intro t. destruct (completeness (P t) (B t) (Ex t)) as (m & U & L). cbn.
  destruct (Ex t) as (v & Hv). assert (E : m = v); [|now rewrite E]. apply Rle_antisym; [|now apply U]. apply L. intros w Hw. right. exact (Un t w v Hw Hv).
Qed.

(** ** The box *)
Definition box (n : nat) (x : nat -> R) : Prop := forall i, (i < n)%nat -> -1 <= x i <= 1.
Definition lip (n : nat) (C : R) (f : (nat -> R) -> R) : Prop :=
  forall x y d, 0 <= d -> box n x -> box n y -> (forall i, (i < n)%nat -> Rabs (x i - y i) <= d) -> Rabs (f x - f y) <= C * d.
Definition upd (x : nat -> R) (k : nat) (t : R) : nat -> R := fun i => if (i =? k)%nat then t else x i.
Definition clamp (t : R) : R := Rmax (-1) (Rmin 1 t).
Lemma clamp_in t : -1 <= clamp t <= 1.
Proof. unfold clamp. split; [apply Rmax_l|]. apply Rmax_lub; [lra|apply Rmin_l]. Qed.
Lemma clamp_id t : -1 <= t <= 1 -> clamp t = t.
Proof. intros [A B]. unfold clamp. rewrite Rmin_right by exact B. apply Rmax_right. exact A. Qed.
Lemma clamp_lip s t : Rabs (clamp s - clamp t) <= Rabs (s - t).
Proof. unfold clamp, Rmax, Rmin. repeat destruct (Rle_dec _ _); unfold Rabs; repeat destruct (Rcase_abs _); lra. Qed.
Lemma upd_same x k t : upd x k t k = t.
Proof. unfold upd. now rewrite Nat.eqb_refl. Qed.

Lemma box_min n : forall C f, 0 <= C -> lip n C f -> exists x, box n x /\ forall y, box n y -> f x <= f y.
Proof.
  induction n as [|n IH]; intros C f HC Hf.
  - exists (fun _ => 0). split; [intros i Hi; lia|]. intros y Hy.
    assert (B : Rabs (f (fun _ => 0) - f y) <= C * 0) by (apply Hf; [lra|intros i Hi; lia|exact Hy|intros i Hi; lia]).
    rewrite Rmult_0_r in B. revert B. unfold Rabs. destruct (Rcase_abs _); lra.
  - assert (BU : forall x t, box n x -> box (S n) (upd x n (clamp t))).
    { intros x t Hx i Hi. unfold upd. destruct (Nat.eqb_spec i n); [apply clamp_in|]. apply Hx. lia. }
    set (P := fun t v => exists x, box n x /\ v = f (upd x n (clamp t)) /\ forall y, box n y -> v <= f (upd y n (clamp t))).
    destruct (real_function P) as (m & Hm).
    + intro t. destruct (IH C (fun x => f (upd x n (clamp t))) HC) as (x & Hx & Lx).
      * intros x y d Pd Hx Hy Hd. apply Hf; [exact Pd|now apply BU|now apply BU|]. intros i Hi. unfold upd. destruct (Nat.eqb_spec i n) as [->|]; [|apply Hd; lia].
        rewrite Rminus_diag_eq, Rabs_R0 by reflexivity. exact Pd.
      * exists (f (upd x n (clamp t))). exists x. split; [exact Hx|]. split; [reflexivity|exact Lx].
    + intros t v v' (x & Hx & -> & L) (x' & Hx' & -> & L'). apply Rle_antisym; [now apply L|now apply L'].
    + assert (ML : forall s t, m s <= m t + C * Rabs (s - t)).
      { intros s t. destruct (Hm s) as (x & Hx & Es & Ls). destruct (Hm t) as (y & Hy & Et & Lt). specialize (Ls y Hy). rewrite Et.
        assert (D : Rabs (f (upd y n (clamp s)) - f (upd y n (clamp t))) <= C * Rabs (s - t)).
        { apply Hf; [apply Rabs_pos|now apply BU|now apply BU|]. intros i Hi. unfold upd. destruct (Nat.eqb_spec i n); [apply clamp_lip|].
          rewrite Rminus_diag_eq, Rabs_R0 by reflexivity. apply Rabs_pos. }
        revert D. unfold Rabs at 1. destruct (Rcase_abs _); lra. }
      assert (Cm : forall c, -1 <= c <= 1 -> continuity_pt m c).
      { intros c _ eps He. exists (eps / (C + 1)). split; [apply Rdiv_lt_0_compat; lra|]. intros x (_ & Hx). cbn in Hx |- *. unfold R_dist in *.
        pose proof (ML x c) as A. pose proof (ML c x) as B. rewrite (Rabs_minus_sym c x) in B.
        assert (Lt : C * Rabs (x - c) < eps).
        { apply Rle_lt_trans with (C * (eps / (C + 1))); [apply Rmult_le_compat_l; lra|].
          apply Rmult_lt_reg_r with (C + 1); [lra|]. replace (C * (eps / (C + 1)) * (C + 1)) with (C * eps) by (field; lra). nra. }
        unfold Rabs at 1. destruct (Rcase_abs _); lra. }
      destruct (continuity_ab_min m (-1) 1 ltac:(lra) Cm) as (t & Mt & It). destruct (Hm t) as (x & Hx & Et & _).
      exists (upd x n (clamp t)). split; [now apply BU|]. intros y Hy. rewrite <- Et.
      assert (Yn : -1 <= y n <= 1) by (apply Hy; lia). destruct (Hm (y n)) as (_ & _ & _ & L). specialize (L y (fun i Hi => Hy i ltac:(lia))).
      assert (E : Rabs (f (upd y n (clamp (y n))) - f y) <= C * 0).
      { apply Hf; [lra|apply BU; intros i Hi; apply Hy; lia|exact Hy|]. intros i Hi. unfold upd. rewrite clamp_id by exact Yn.
        destruct (Nat.eqb_spec i n) as [->|]; rewrite Rminus_diag_eq, Rabs_R0 by reflexivity; lra. }
      rewrite Rmult_0_r in E. specialize (Mt (y n) Yn). revert E. unfold Rabs. destruct (Rcase_abs _); lra.
Qed.

(** ** Quadratic forms *)
Section Quad.
  Variable n : nat.
  Definition qf (T : nat -> nat -> R) (x : nat -> R) : R := rs n (fun i => rs n (fun j => T i j * (x i * x j))).
  Definition bf (T : nat -> nat -> R) (x y : nat -> R) : R := rs n (fun i => rs n (fun j => T i j * (x i * y j))).
  Definition sq (x : nat -> R) : R := rs n (fun i => x i * x i).
  Lemma qf_scale T s x : qf T (fun i => s * x i) = s * s * qf T x.
  Proof.
    unfold qf. rewrite <- rs_scale. apply rs_ext. intros i _. rewrite <- rs_scale. apply rs_ext. intros j _. ring.
  Qed.
  Lemma qf_lip T : lip n (rs n (fun i => rs n (fun j => 2 * Rabs (T i j)))) (qf T).
  Proof.
    intros x y d Pd Hx Hy Hd. unfold qf. rewrite Rmult_comm, <- rs_scale. apply rs_abs. intros i Hi. rewrite <- rs_scale. apply rs_abs. intros j Hj.
    replace (T i j * (x i * x j) - T i j * (y i * y j)) with (T i j * ((x i - y i) * x j + y i * (x j - y j))) by ring.
    rewrite Rabs_mult. apply Rle_trans with (Rabs (T i j) * (2 * d)); [|right; ring]. apply Rmult_le_compat_l; [apply Rabs_pos|].
    eapply Rle_trans; [apply Rabs_triang|]. rewrite !Rabs_mult.
    assert (A : Rabs (x j) <= 1) by (apply Rabs_le; apply Hx; exact Hj). assert (B : Rabs (y i) <= 1) by (apply Rabs_le; apply Hy; exact Hi).
    pose proof (Hd i Hi). pose proof (Hd j Hj). pose proof (Rabs_pos (x i - y i)). pose proof (Rabs_pos (x j - y j)). pose proof (Rabs_pos (x j)). pose proof (Rabs_pos (y i)). nra.
  Qed.
  Lemma face_min T k : (k < n)%nat -> exists x, box n x /\ x k = 1 /\ forall y, box n y -> y k = 1 -> qf T x <= qf T y.
  Proof.
    intro Hk. assert (BU : forall x, box n x -> box n (upd x k 1)). { intros x Hx i Hi. unfold upd. destruct (Nat.eqb_spec i k); [lra|now apply Hx]. }
    destruct (box_min n (rs n (fun i => rs n (fun j => 2 * Rabs (T i j)))) (fun x => qf T (upd x k 1))) as (x & Hx & Lx).
    - apply rs_nonneg. intros i _. apply rs_nonneg. intros j _. pose proof (Rabs_pos (T i j)). lra.
    - intros x y d Pd Hx Hy Hd. apply qf_lip; [exact Pd|now apply BU|now apply BU|]. intros i Hi. unfold upd. destruct (Nat.eqb_spec i k); [|now apply Hd].
      rewrite Rminus_diag_eq, Rabs_R0 by reflexivity. exact Pd.
    - exists (upd x k 1). split; [now apply BU|]. split; [apply upd_same|]. intros y Hy Ey. specialize (Lx y Hy).
      replace (qf T y) with (qf T (upd y k 1)); [exact Lx|]. unfold qf. apply rs_ext. intros i _. apply rs_ext. intros j _. unfold upd.
      destruct (Nat.eqb_spec i k) as [->|], (Nat.eqb_spec j k) as [->|]; rewrite ?Ey; reflexivity.
  Qed.
  Lemma argmax (x : nat -> R) : forall m, (0 < m)%nat -> exists k, (k < m)%nat /\ forall i, (i < m)%nat -> Rabs (x i) <= Rabs (x k).
  Proof.
    induction m as [|m IH]; intro Hm; [lia|]. destruct m as [|m]; [exists 0%nat; split; [lia|]; intros i Hi; assert (i = 0%nat) by lia; subst; lra|].
    destruct (IH ltac:(lia)) as (k & Hk & Mk). destruct (Rle_dec (Rabs (x (S m))) (Rabs (x k))) as [L|L].
    - exists k. split; [lia|]. intros i Hi. destruct (Nat.eq_dec i (S m)) as [->|]; [exact L|apply Mk; lia].
    - exists (S m). split; [lia|]. intros i Hi. destruct (Nat.eq_dec i (S m)) as [->|]; [lra|]. specialize (Mk i ltac:(lia)). lra.
  Qed.
  (** A form that is nowhere negative vanishes somewhere, or is bounded below. *)
  Lemma definite_or_null T : (forall x, 0 <= qf T x) -> (0 < n)%nat ->
    (exists v, (exists k, (k < n)%nat /\ v k <> 0) /\ qf T v = 0) \/ exists m, 0 < m /\ forall x, m * sq x <= qf T x.
  Proof.
    intros Hp Hn.
    assert (F : forall k, (k <= n)%nat -> (exists v, (exists k, (k < n)%nat /\ v k <> 0) /\ qf T v = 0) \/
                exists m, 0 < m /\ forall j, (j < k)%nat -> forall y, box n y -> y j = 1 -> m <= qf T y).
    { induction k as [|k IH]; intro Hk; [right; exists 1; split; [lra|intros; lia]|].
      destruct (IH ltac:(lia)) as [V | (m & Pm & Lm)]; [now left|]. destruct (face_min T k ltac:(lia)) as (x & Hx & Ex & Lx).
      destruct (Req_EM_T (qf T x) 0) as [Z|N]; [left; exists x; split; [exists k; split; [lia|lra]|exact Z]|].
      right. exists (Rmin m (qf T x)). pose proof (Hp x). split; [apply Rmin_glb_lt; lra|]. intros j Hj y Hy Ey. destruct (Nat.eq_dec j k) as [->|].
      - eapply Rle_trans; [apply Rmin_r|]. now apply Lx.
      - eapply Rle_trans; [apply Rmin_l|]. apply (Lm j ltac:(lia) y Hy Ey). }
    destruct (F n (le_n n)) as [V | (m & Pm & Lm)]; [now left|right].
    exists (m / INR n). assert (Pn : 0 < INR n) by (apply lt_0_INR; exact Hn). split; [apply Rdiv_lt_0_compat; assumption|]. intro x.
    destruct (argmax x n Hn) as (k & Hk & Mk). set (s := x k). destruct (Req_EM_T s 0) as [Z|N].
    - assert (E : sq x = 0). { apply (sumN_zero RF). intros i Hi. specialize (Mk i Hi). fold s in Mk. rewrite Z, Rabs_R0 in Mk. pose proof (Rabs_pos (x i)).
        assert (X : x i = 0) by (destruct (Req_EM_T (x i) 0) as [|Q]; [assumption|apply Rabs_pos_lt in Q; lra]). cbn. rewrite X. ring. }
      rewrite E, Rmult_0_r. apply Hp.
    - assert (Ps : 0 < s * s) by nra. specialize (Lm k Hk (fun i => / s * x i)).
      assert (B : m <= qf T (fun i => / s * x i)).
      { apply Lm; [|unfold s; field; exact N]. intros i Hi. apply abs_le_in. rewrite Rabs_mult, Rabs_inv. specialize (Mk i Hi). fold s in Mk.
        apply Rmult_le_reg_l with (Rabs s); [now apply Rabs_pos_lt|]. rewrite <- Rmult_assoc, Rinv_r, Rmult_1_l, Rmult_1_r; [exact Mk|]. now apply Rabs_no_R0. }
      rewrite qf_scale in B. assert (E : qf T x = s * s * (/ s * / s * qf T x)) by (field; exact N). rewrite E.
      assert (Q : sq x <= INR n * (s * s)).
      { rewrite <- rs_const. apply rs_le. intros i Hi. specialize (Mk i Hi). fold s in Mk. apply Rsqr_le_abs_1 in Mk. exact Mk. }
      apply Rle_trans with (m / INR n * (INR n * (s * s))); [apply Rmult_le_compat_l; [left; apply Rdiv_lt_0_compat; assumption|exact Q]|].
      replace (m / INR n * (INR n * (s * s))) with (s * s * m) by (field; lra). apply Rmult_le_compat_l; lra.
  Qed.

  (** The least eigenvalue. *)
  Variable T : nat -> nat -> R.
  Hypothesis Tsym : forall i j, (i < n)%nat -> (j < n)%nat -> T i j = T j i.
  Lemma bf_sym x y : bf T x y = bf T y x.
  Proof. unfold bf. rewrite rs_swap. apply rs_ext. intros i Hi. apply rs_ext. intros j Hj. rewrite Tsym by assumption. ring. Qed.
  Definition shifted (mu : R) : nat -> nat -> R := fun i j => T i j - (if (i =? j)%nat then mu else 0).
  Lemma shifted_qf mu x : qf (shifted mu) x = qf T x - mu * sq x.
  Proof.
    unfold qf, sq, shifted. rewrite <- rs_scale, <- rs_sub. apply rs_ext. intros i Hi.
    rewrite (rs_ext n _ (fun j => T i j * (x i * x j) - (if (i =? j)%nat then mu else 0) * (x i * x j))) by (intros; ring). rewrite rs_sub. f_equal.
    rewrite (rs_single n i) by (first [exact Hi | intros j _ N; destruct (Nat.eqb_spec i j); [congruence|ring]]). rewrite Nat.eqb_refl. reflexivity.
  Qed.
  Lemma least_eigenpair : (0 < n)%nat -> exists mu v, (exists k, (k < n)%nat /\ v k <> 0) /\ (forall i, (i < n)%nat -> rs n (fun j => T i j * v j) = mu * v i) /\
    forall x, mu * sq x <= qf T x.
  Proof.
    intro Hn. set (E := fun c => forall x, c * sq x <= qf T x).
    assert (Sp : forall x, 0 <= sq x) by (intro x; apply rs_nonneg; intros; nra).
    assert (B : bound E).
    { exists (qf T (fun i => if (i =? 0)%nat then 1 else 0)). intros c Hc. specialize (Hc (fun i => if (i =? 0)%nat then 1 else 0)).
      replace (sq (fun i => if (i =? 0)%nat then 1 else 0)) with 1 in Hc; [lra|]. unfold sq. rewrite (rs_single n 0) by (first [exact Hn | intros i _ Ni; destruct (Nat.eqb_spec i 0); [contradiction|ring]]).
      cbn. ring. }
    assert (NE : exists c, E c).
    { exists (- rs n (fun i => rs n (fun j => Rabs (T i j)))). intro x.
      assert (L : rs n (fun i => rs n (fun j => - (Rabs (T i j) * sq x))) <= qf T x).
      { apply rs_le. intros i Hi. apply rs_le. intros j Hj.
        assert (Xi : x i * x i <= sq x) by (apply (rs_ge_term n (fun i => x i * x i) i Hi); intros; nra).
        assert (Xj : x j * x j <= sq x) by (apply (rs_ge_term n (fun i => x i * x i) j Hj); intros; nra).
        assert (P : Rabs (x i * x j) <= sq x) by (apply Rabs_le; split; nra).
        pose proof (Rle_abs (- (T i j * (x i * x j)))) as Q. rewrite Rabs_Ropp, Rabs_mult in Q. pose proof (Rabs_pos (T i j)). nra. }
      replace (rs n (fun i => rs n (fun j => - (Rabs (T i j) * sq x)))) with (- rs n (fun i => rs n (fun j => Rabs (T i j))) * sq x) in L; [exact L|].
      rewrite Rmult_comm, Ropp_mult_distr_r_reverse, Ropp_mult_distr_l, <- rs_scale. apply rs_ext. intros i _. rewrite <- rs_scale. apply rs_ext. intros j _. ring. }
    destruct (completeness E B NE) as (mu & U & L).
    assert (Em : E mu).
    { intro x. destruct (Req_EM_T (sq x) 0) as [Z|N].
      - destruct NE as (c & Hc). specialize (Hc x). rewrite Z in *. lra.
      - pose proof (Sp x). assert (Q : mu <= qf T x / sq x).
        { apply L. intros c Hc. specialize (Hc x). apply Rmult_le_reg_r with (sq x); [lra|]. unfold Rdiv. rewrite Rmult_assoc, Rinv_l by exact N. lra. }
        apply Rmult_le_compat_r with (r := sq x) in Q; [|lra]. unfold Rdiv in Q. rewrite Rmult_assoc, Rinv_l in Q by exact N. lra. }
    set (W := shifted mu). assert (Wp : forall x, 0 <= qf W x) by (intro x; unfold W; rewrite shifted_qf; specialize (Em x); lra).
    destruct (definite_or_null W Wp Hn) as [(v & Nv & Zv) | (m & Pm & Lm)].
    2:{ exfalso. assert (Q : mu + m <= mu); [|lra]. apply U. intro x. specialize (Lm x). unfold W in Lm. rewrite shifted_qf in Lm. lra. }
    exists mu, v. split; [exact Nv|]. split; [|exact Em].
    set (r := fun i => rs n (fun j => W i j * v j)).
    assert (Ws : forall i j, (i < n)%nat -> (j < n)%nat -> W i j = W j i) by (intros i j Hi Hj; unfold W, shifted; rewrite (Tsym i j Hi Hj), (Nat.eqb_sym i j); reflexivity).
    assert (Exp : forall t, qf W (fun i => v i + t * r i) = 2 * t * sq r + t * t * qf W r).
    { intro t. transitivity (qf W v + 2 * t * sq r + t * t * qf W r); [|lra].
      assert (C1 : bf W r v = sq r).
      { unfold bf, sq. apply rs_ext. intros i Hi. unfold r at 3. rewrite <- rs_scale. apply rs_ext. intros; ring. }
      assert (C2 : bf W v r = sq r). { rewrite <- C1. unfold bf. rewrite rs_swap. apply rs_ext. intros i Hi. apply rs_ext. intros j Hj. rewrite (Ws i j Hi Hj). ring. }
      transitivity (qf W v + t * bf W r v + t * bf W v r + t * t * qf W r); [|rewrite C1, C2; ring].
      unfold qf, bf. rewrite <- !rs_scale, <- !rs_add. apply rs_ext. intros i Hi. rewrite <- !rs_scale, <- !rs_add. apply rs_ext. intros j Hj. ring. }
    assert (Zr : sq r = 0).
    { destruct (Req_EM_T (sq r) 0) as [|N]; [assumption|exfalso]. pose proof (Sp r) as Pr. set (a := sq r) in *. set (F := qf W r) in *. pose proof (Wp r : 0 <= F) as PF.
      pose proof (Wp (fun i => v i + (- (a / (F + 1))) * r i)) as Q. rewrite Exp in Q. fold a F in Q.
      assert (X : 2 * - (a / (F + 1)) * a + - (a / (F + 1)) * - (a / (F + 1)) * F = - (a * a * (F + 2) / ((F + 1) * (F + 1)))) by (field; lra).
      rewrite X in Q. assert (0 < a * a * (F + 2) / ((F + 1) * (F + 1))); [|lra]. apply Rdiv_lt_0_compat; [|nra]. apply Rmult_lt_0_compat; nra. }
    intros i Hi. assert (Ri : r i = 0).
    { pose proof (rs_ge_term n (fun i => r i * r i) i Hi (fun k _ => Rle_0_sqr (r k))) as Q. fold (sq r) in Q. rewrite Zr in Q. cbv beta in Q. nra. }
    unfold r, W, shifted in Ri.
    rewrite (rs_ext n _ (fun j => T i j * v j - (if (i =? j)%nat then mu else 0) * v j)) in Ri by (intros; ring). rewrite rs_sub in Ri.
    rewrite (rs_single n i (fun j => (if (i =? j)%nat then mu else 0) * v j)) in Ri by (first [exact Hi | intros j _ N; destruct (Nat.eqb_spec i j); [congruence|ring]]).
    rewrite Nat.eqb_refl in Ri. lra.
  Qed.
End Quad.
