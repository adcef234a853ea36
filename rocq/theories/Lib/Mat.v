(** Matrices as functions [row -> column -> K]; sizes are passed to the
    operations that need them (as the length of the inner sum). *)
From Coq Require Import List Arith ZArith Lia Field.
From Verif.Lib Require Import Num Sums Idx.
Import ListNotations.
Local Open Scope fld_scope.

Definition mat (K : Fld) := nat -> nat -> K.
Definition vect (K : Fld) := nat -> K.

Section Defs.
  Context {K : Fld}.
  (** [A @ x] for [A] with [n] columns. *)
  Definition mv (n : nat) (A : mat K) (x : vect K) : vect K :=
    fun i => sumN n (fun j => A i j * x j).
  (** [A @ B] where [A] has [n] columns and [B] has [n] rows. *)
  Definition mm (n : nat) (A B : mat K) : mat K :=
    fun i j => sumN n (fun k => A i k * B k j).
  Definition madd (A B : mat K) : mat K := fun i j => A i j + B i j.
  Definition msub (A B : mat K) : mat K := fun i j => A i j - B i j.
  Definition mopp (A : mat K) : mat K := fun i j => - A i j.
  Definition mscale (c : K) (A : mat K) : mat K := fun i j => c * A i j.
  Definition mtr (A : mat K) : mat K := fun i j => A j i.
  (** [scipy.sparse.eye_array] *)
  Definition mid : mat K := fun i j => ind (Nat.eqb i j).
  Definition mzero : mat K := fun _ _ => 0.
  (** [scipy.sparse.diags_array(d)] *)
  Definition mdiag (d : vect K) : mat K := fun i j => ind (Nat.eqb i j) * d i.
  (** [scipy.sparse.csr_array((data, (row, col)))] with [n] stored triples;
      duplicate entries are summed. *)
  Definition mcoo (n : nat) (data : nat -> K) (row col : nat -> nat) : mat K :=
    fun i j => sumN n (fun k => data k * ind (andb (Nat.eqb (row k) i) (Nat.eqb (col k) j))).
  (** [scipy.sparse.block_array] for blocks of [rn] rows and [cn] columns. *)
  Definition mblock (rn cn : nat) (B : nat -> nat -> mat K) : mat K :=
    fun i j => B (i / rn)%nat (j / cn)%nat (i mod rn) (j mod cn).
End Defs.

(** Equality of matrices / vectors within their bounds. *)
Definition meq {K : Fld} (r c : nat) (A B : mat K) : Prop :=
  forall i j, (i < r)%nat -> (j < c)%nat -> A i j = B i j.
Definition veq {K : Fld} (n : nat) (x y : vect K) : Prop :=
  forall i, (i < n)%nat -> x i = y i.

Section Facts.
  Variable K : Fld.
  Add Field Kfield : (fth K).
  Implicit Types A B C : mat K.
  Implicit Types x y : vect K.

  Lemma mv_ext n A B x y i :
    (forall j, (j < n)%nat -> A i j = B i j) -> (forall j, (j < n)%nat -> x j = y j) ->
    mv n A x i = mv n B y i.
  Proof. intros HA Hx. apply sumN_ext. intros j Hj. now rewrite HA, Hx. Qed.

  Lemma mv_ext_v n A x y i : (forall j, (j < n)%nat -> x j = y j) -> mv n A x i = mv n A y i.
  Proof. intro H. now apply mv_ext. Qed.

  Lemma mv_madd n A B x i : mv n (madd A B) x i = mv n A x i + mv n B x i.
  Proof. unfold mv, madd. rewrite <- sumN_add. apply sumN_ext. intros. ring. Qed.

  Lemma mv_msub n A B x i : mv n (msub A B) x i = mv n A x i - mv n B x i.
  Proof. unfold mv, msub. rewrite <- sumN_sub. apply sumN_ext. intros. ring. Qed.

  Lemma mv_mopp n A x i : mv n (mopp A) x i = - mv n A x i.
  Proof. unfold mv, mopp. rewrite <- sumN_opp. apply sumN_ext. intros. ring. Qed.

  Lemma mv_mscale n c A x i : mv n (mscale c A) x i = c * mv n A x i.
  Proof. unfold mv, mscale. rewrite <- sumN_mul_l. apply sumN_ext. intros. ring. Qed.

  Lemma mv_mid n x i : (i < n)%nat -> mv n mid x i = x i.
  Proof. intro H. unfold mv, mid. now apply sumN_ind_l'. Qed.

  Lemma mv_mzero n x i : mv n mzero x i = 0.
  Proof. unfold mv, mzero. apply sumN_zero. intros. ring. Qed.

  Lemma mv_mdiag n d x i : (i < n)%nat -> mv n (mdiag d) x i = d i * x i.
  Proof.
    intro H. unfold mv, mdiag.
    transitivity (sumN n (fun j => ind (Nat.eqb i j) * (d i * x j))).
    - apply sumN_ext. intros. ring.
    - now apply (sumN_ind_l' K n i (fun j => d i * x j)).
  Qed.

  Lemma mv_mm n m A B x i : mv n (mm m A B) x i = mv m A (mv n B x) i.
  Proof.
    unfold mv, mm.
    transitivity (sumN n (fun j => sumN m (fun k => A i k * B k j * x j))).
    { apply sumN_ext. intros. rewrite <- sumN_mul_r. apply sumN_ext. intros. ring. }
    rewrite sumN_swap. apply sumN_ext. intros k Hk. rewrite <- sumN_mul_l.
    apply sumN_ext. intros. ring.
  Qed.

  Lemma mv_lin_add n A x y i : mv n A (fun j => x j + y j) i = mv n A x i + mv n A y i.
  Proof. unfold mv. rewrite <- sumN_add. apply sumN_ext. intros. ring. Qed.

  Lemma mv_lin_sub n A x y i : mv n A (fun j => x j - y j) i = mv n A x i - mv n A y i.
  Proof. unfold mv. rewrite <- sumN_sub. apply sumN_ext. intros. ring. Qed.

  Lemma mv_lin_scale n A c x i : mv n A (fun j => c * x j) i = c * mv n A x i.
  Proof. unfold mv. rewrite <- sumN_mul_l. apply sumN_ext. intros. ring. Qed.

  Lemma mv_lin_opp n A x i : mv n A (fun j => - x j) i = - mv n A x i.
  Proof. unfold mv. rewrite <- sumN_opp. apply sumN_ext. intros. ring. Qed.

  (** The stored-triple matrix with rows [0..n-1], one entry per row. *)
  Lemma mcoo_row n (data : nat -> K) col i j : (i < n)%nat ->
    mcoo n data (fun k => k) col i j = data i * ind (Nat.eqb (col i) j).
  Proof.
    intro Hi. unfold mcoo.
    transitivity (sumN n (fun k => (data k * ind (Nat.eqb (col k) j)) * ind (Nat.eqb k i))).
    - apply sumN_ext. intros k _. unfold ind.
      destruct (Nat.eqb k i), (Nat.eqb (col k) j); cbn; ring.
    - now apply (sumN_ind_r K n i (fun k => data k * ind (Nat.eqb (col k) j))).
  Qed.

  Lemma mv_mcoo_row n (data : nat -> K) col x i : (i < n)%nat -> (col i < n)%nat ->
    mv n (mcoo n data (fun k => k) col) x i = data i * x (col i).
  Proof.
    intros Hi Hc. unfold mv.
    transitivity (sumN n (fun j => ind (Nat.eqb (col i) j) * (data i * x j))).
    - apply sumN_ext. intros j Hj. rewrite mcoo_row by exact Hi. ring.
    - now apply (sumN_ind_l' K n (col i) (fun j => data i * x j)).
  Qed.

  (** Block matrices act block-wise. *)
  Lemma mv_mblock rn cn nb (B : nat -> nat -> mat K) x i :
    mv (nb * cn) (mblock rn cn B) x i
    = sumN nb (fun b => mv cn (B (i / rn)%nat b) (fun q => x (b * cn + q)%nat) (i mod rn)%nat).
  Proof.
    unfold mv, mblock. rewrite sumN_prod. apply sumN_ext. intros b Hb.
    apply sumN_ext. intros q Hq. f_equal.
    rewrite Nat.div_add_l by lia. rewrite (Nat.div_small q cn) by exact Hq.
    rewrite (Nat.add_comm (b * cn)), Nat.mod_add by lia. rewrite (Nat.mod_small q cn) by exact Hq.
    now rewrite Nat.add_0_r.
  Qed.

  (** Matrix identities from vector identities and back. *)
  Lemma mv_unit n A j i : (j < n)%nat -> mv n A (fun k => ind (Nat.eqb k j)) i = A i j.
  Proof. intro H. unfold mv. now apply (sumN_ind_r K n j (A i)). Qed.

  Lemma meq_of_mv r n A B : (forall x i, (i < r)%nat -> mv n A x i = mv n B x i) -> meq r n A B.
  Proof.
    intros H i j Hi Hj. rewrite <- (mv_unit n A j i Hj), <- (mv_unit n B j i Hj). now apply H.
  Qed.

  Lemma mv_of_meq r n A B x i : meq r n A B -> (i < r)%nat -> mv n A x i = mv n B x i.
  Proof. intros H Hi. apply mv_ext; [intros; now apply H|reflexivity]. Qed.

  (** Transposition and the bilinear pairing. *)
  Definition dot (n : nat) (x y : vect K) : K := sumN n (fun i => x i * y i).

  Lemma dot_mtr n m A x y : dot n (mv m A x) y = dot m x (mv n (mtr A) y).
  Proof.
    unfold dot, mv, mtr.
    transitivity (sumN n (fun i => sumN m (fun j => A i j * x j * y i))).
    { apply sumN_ext. intros. rewrite <- sumN_mul_r. reflexivity. }
    rewrite sumN_swap. apply sumN_ext. intros j _. rewrite <- sumN_mul_l.
    apply sumN_ext. intros. ring.
  Qed.

  Lemma dot_comm n x y : dot n x y = dot n y x.
  Proof. apply sumN_ext. intros. ring. Qed.

  Lemma dot_ext n x x' y y' : veq n x x' -> veq n y y' -> dot n x y = dot n x' y'.
  Proof. intros Hx Hy. apply sumN_ext. intros i Hi. now rewrite Hx, Hy. Qed.

  (** Symmetry of a matrix from symmetry of its bilinear form. *)
  Lemma sym_of_dot n A :
    (forall x y, dot n (mv n A x) y = dot n x (mv n A y)) ->
    forall i j, (i < n)%nat -> (j < n)%nat -> A i j = A j i.
  Proof.
    intros H i j Hi Hj.
    specialize (H (fun k => ind (Nat.eqb k j)) (fun k => ind (Nat.eqb k i))).
    unfold dot in H.
    rewrite (sumN_ind_r K n i (mv n A (fun k => ind (Nat.eqb k j))) Hi) in H.
    rewrite (sumN_ind_l K n j (mv n A (fun k => ind (Nat.eqb k i))) Hj) in H.
    now rewrite !mv_unit in H by assumption.
  Qed.

  Lemma tr_of_dot n A B :
    (forall x y, dot n (mv n A x) y = dot n x (mv n B y)) ->
    meq n n (mtr A) B.
  Proof.
    intros H i j Hi Hj. unfold mtr.
    specialize (H (fun k => ind (Nat.eqb k i)) (fun k => ind (Nat.eqb k j))).
    unfold dot in H.
    rewrite (sumN_ind_r K n j (mv n A (fun k => ind (Nat.eqb k i))) Hj) in H.
    rewrite (sumN_ind_l K n i (mv n B (fun k => ind (Nat.eqb k j))) Hi) in H.
    now rewrite !mv_unit in H by assumption.
  Qed.
End Facts.

Arguments dot {K} n x y.
Arguments mv_mm {K} n m A B x i.
Arguments mv_mblock {K} rn cn nb B x i.

Lemma block_div c n p : (p < n)%nat -> ((c * n + p) / n = c)%nat.
Proof. intro H. rewrite Nat.div_add_l by lia. rewrite Nat.div_small by exact H. lia. Qed.

Lemma block_mod c n p : (p < n)%nat -> ((c * n + p) mod n = p)%nat.
Proof.
  intro H. rewrite (Nat.add_comm (c * n)), Nat.mod_add by lia. now apply Nat.mod_small.
Qed.
