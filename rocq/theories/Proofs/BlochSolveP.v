(** Lemmas for eigsolve of meanas/fdfd/bloch.py. *)
From Coq Require Import Reals List Arith ZArith Lia Lra Psatz Bool Field Sorted Permutation.
From Verif.Lib Require Import Num Sums Idx Mat RealF.
From Verif.Model Require Import Ndarray Bloch Eigensolvers BlochSolve.
From Verif.Spec Require Import BlochSpec EigenSpec BlochSolveSpec.
From Verif.Proofs Require Import EmeP EigensolversP.
Import ListNotations.
Local Open Scope R_scope.

Lemma hdot_ext n x y x' y' : (forall i, (i < n)%nat -> x i = x' i) -> (forall i, (i < n)%nat -> y i = y' i) -> hdot n x y = hdot n x' y'.
Proof. intros Hx Hy. unfold hdot. apply (sumN_ext CC). intros i Hi. now rewrite Hx, Hy. Qed.
Lemma hdot_conj n x y : hdot n y x = cconj (hdot n x y).
Proof. unfold hdot. rewrite cconj_sum. apply (sumN_ext CC). intros. apply cpx_ext; cbn; ring. Qed.
Lemma hdot_add_r n x y z : hdot n x (fun i => cadd (y i) (z i)) = cadd (hdot n x y) (hdot n x z).
Proof. unfold hdot. refine (eq_trans _ (sumN_add CC _ _ _)). apply (sumN_ext CC). intros. apply cpx_ext; cbn; ring. Qed.
Lemma hdot_sub_r n x y z : hdot n x (fun i => csub (y i) (z i)) = csub (hdot n x y) (hdot n x z).
Proof. unfold hdot. refine (eq_trans _ (sumN_sub CC _ _ _)). apply (sumN_ext CC). intros. apply cpx_ext; cbn; ring. Qed.
Lemma hdot_scale_r n x c y : hdot n x (fun i => cmul c (y i)) = cmul c (hdot n x y).
Proof. unfold hdot. refine (eq_trans _ (sumN_mul_l CC _ _ _)). apply (sumN_ext CC). intros. apply cpx_ext; cbn; ring. Qed.
Lemma hdot_comb_r n k x X c : hdot n x (comb k X c) = sumN (K := CC) k (fun j => cmul (hdot n x (col X j)) (c j)).
Proof.
  unfold hdot, comb.
  transitivity (sumN (K := CC) n (fun i => sumN (K := CC) k (fun j => cmul (cmul (cconj (x i)) (X i j)) (c j)))).
  { apply (sumN_ext CC). intros i _. refine (eq_trans (eq_sym (sumN_mul_l CC _ _ _)) _). apply (sumN_ext CC). intros. apply cpx_ext; cbn; ring. }
  refine (eq_trans (sumN_swap CC _ _ _) _). apply (sumN_ext CC). intros j _. refine (sumN_mul_r CC _ _ _).
Qed.
Lemma hdot_comb_l n k X c y : hdot n (comb k X c) y = sumN (K := CC) k (fun j => cmul (cconj (c j)) (hdot n (col X j) y)).
Proof.
  rewrite hdot_conj, hdot_comb_r, cconj_sum. apply (sumN_ext CC). intros j _. rewrite (hdot_conj n y (col X j)). apply cpx_ext; cbn; ring.
Qed.
Lemma hdot_self n x : hdot n x x = mkC (norm2 n x) 0.
Proof. unfold hdot. apply norm2_cdot. Qed.
Lemma hdot_nondeg n y : (forall x, hdot n x y = c0) -> forall i, (i < n)%nat -> y i = c0.
Proof.
  intros H i Hi. specialize (H y). rewrite hdot_self in H. apply (f_equal cre) in H. cbn in H. now apply (norm2_zero n).
Qed.
Lemma csub_0 a b : csub a b = c0 -> a = b.
Proof. intro H. apply cpx_ext; [apply (f_equal cre) in H|apply (f_equal cim) in H]; cbn in H; lra. Qed.

(** ** Hermitian functions are linear *)
Section Herm.
  Variables (N : nat) (op : vect CC -> option (vect CC)).
  Hypothesis H : hermitian_op N op.
  Definition Af (x : vect CC) : vect CC := match op x with Some y => y | None => fun _ => c0 end.
  Lemma op_Af x : op x = Some (Af x).
  Proof. unfold Af. destruct (H x x) as (y & _ & E & _). now rewrite E. Qed.
  Lemma Af_herm x y : hdot N x (Af y) = hdot N (Af x) y.
  Proof. destruct (H x y) as (a & b & E & F & G). unfold Af. now rewrite E, F. Qed.
  Lemma Af_comb k X c i : (i < N)%nat -> Af (comb k X c) i = comb k (fun r j => Af (col X j) r) c i.
  Proof.
    intro Hi. apply csub_0. revert i Hi. apply (hdot_nondeg N (fun i => csub (Af (comb k X c) i) (comb k (fun r j => Af (col X j) r) c i))).
    intro x. rewrite hdot_sub_r, Af_herm, !hdot_comb_r.
    replace (sumN (K := CC) k (fun j => cmul (hdot N (Af x) (col X j)) (c j))) with
      (sumN (K := CC) k (fun j => cmul (hdot N x (col (fun r j => Af (col X j) r) j)) (c j))); [apply cpx_ext; cbn; ring|].
    apply (sumN_ext CC). intros j _. f_equal. change (hdot N x (Af (col X j)) = hdot N (Af x) (col X j)). apply Af_herm.
  Qed.
  Lemma Af_ext x y : (forall i, (i < N)%nat -> x i = y i) -> forall i, (i < N)%nat -> Af x i = Af y i.
  Proof.
    intros E i Hi. apply csub_0. revert i Hi. apply (hdot_nondeg N (fun i => csub (Af x i) (Af y i))). intro z.
    rewrite hdot_sub_r, !Af_herm. rewrite (hdot_ext N (Af z) x (Af z) y) by (auto). apply cpx_ext; cbn; ring.
  Qed.
  Lemma on_columns_Af k X : exists M, on_columns op k X = Some M /\ forall i j, (j < k)%nat -> M i j = Af (col X j) i.
  Proof.
    induction k as [|k (M & E & V)]; cbn [on_columns].
    - eexists. split; [reflexivity|]. intros; lia.
    - rewrite E. cbn [obind]. change (op (fun i => X i k)) with (op (col X k)). rewrite op_Af. cbn [obind]. eexists. split; [reflexivity|].
      intros i j Hj. cbn. destruct (Nat.eqb_spec j k) as [->|]; [reflexivity|]. apply V. lia.
  Qed.
  Lemma on_columns_val k X M : on_columns op k X = Some M -> forall i j, (j < k)%nat -> M i j = Af (col X j) i.
  Proof. destruct (on_columns_Af k X) as (M' & E & V). rewrite E. intro Q. injection Q as <-. exact V. Qed.
End Herm.

(** ** Inverses *)
Definition mulm (k : nat) (A B : mat CC) : mat CC := mm (K := CC) k A B.
Lemma delta_l k i (f : nat -> cpx) : (i < k)%nat -> sumN (K := CC) k (fun q => cmul (if (i =? q)%nat then c1 else c0) (f q)) = f i.
Proof.
  intro Hi. refine (eq_trans _ (sumN_ind_l' CC k i f Hi)). apply (sumN_ext CC). intros q _. unfold ind. now destruct (i =? q)%nat.
Qed.
Lemma delta_r k j (f : nat -> cpx) : (j < k)%nat -> sumN (K := CC) k (fun q => cmul (f q) (if (q =? j)%nat then c1 else c0)) = f j.
Proof.
  intro Hj. refine (eq_trans _ (delta_l k j f Hj)). apply (sumN_ext CC). intros q _. rewrite (Nat.eqb_sym q j). destruct (j =? q)%nat; cring.
Qed.
Lemma mm_ext k (A A' B B' : mat CC) i j : (forall q, (q < k)%nat -> A i q = A' i q) -> (forall q, (q < k)%nat -> B q j = B' q j) ->
  mm (K := CC) k A B i j = mm (K := CC) k A' B' i j.
Proof. intros HA HB. unfold mm. apply (sumN_ext CC). intros q Hq. now rewrite HA, HB. Qed.
Lemma inv_r k M U i j : is_inverse k M U -> (i < k)%nat -> (j < k)%nat -> mm (K := CC) k M U i j = if (i =? j)%nat then c1 else c0.
Proof. intros H Hi Hj. exact (proj1 (H i j Hi Hj)). Qed.
Lemma inv_l k M U i j : is_inverse k M U -> (i < k)%nat -> (j < k)%nat -> mm (K := CC) k U M i j = if (i =? j)%nat then c1 else c0.
Proof. intros H Hi Hj. exact (proj2 (H i j Hi Hj)). Qed.
Lemma inv_unique k M M' U U' : (forall i j, (i < k)%nat -> (j < k)%nat -> M i j = M' i j) ->
  is_inverse k M U -> is_inverse k M' U' -> forall i j, (i < k)%nat -> (j < k)%nat -> U i j = U' i j.
Proof.
  intros E H H' i j Hi Hj.
  (* U = U (M' U') = (U M) U' = U' *)
  transitivity (mm (K := CC) k U (mm k M' U') i j).
  { rewrite <- (delta_r k j (fun q => U i q) Hj). unfold mm at 1. apply (sumN_ext CC). intros q Hq. cbn beta. now rewrite (inv_r k M' U' q j H' Hq Hj). }
  rewrite <- (mm_assoc CC). rewrite <- (delta_l k i (fun q => U' q j) Hi). unfold mm at 1. apply (sumN_ext CC). intros q Hq. refine (f_equal2 cmul _ eq_refl).
  refine (eq_trans _ (inv_l k M U i q H Hi Hq)). apply mm_ext; [reflexivity|]. intros r Hr. symmetry. now apply E.
Qed.
Lemma inv_ext k M M' U : (forall i j, (i < k)%nat -> (j < k)%nat -> M i j = M' i j) -> is_inverse k M U -> is_inverse k M' U.
Proof.
  intros E H i j Hi Hj. destruct (H i j Hi Hj) as [A B]. rewrite <- A at 1. rewrite <- B. split; apply (sumN_ext CC); intros q Hq; rewrite E; auto.
Qed.
Lemma mct_mm k (A B : mat CC) i j : mct (mm k A B) i j = mm (K := CC) k (mct B) (mct A) i j.
Proof. unfold mct, mm. rewrite cconj_sum. apply (sumN_ext CC). intros. apply cpx_ext; cbn; ring. Qed.
Lemma inv_herm k M U : (forall i j, (i < k)%nat -> (j < k)%nat -> M i j = cconj (M j i)) -> is_inverse k M U ->
  forall i j, (i < k)%nat -> (j < k)%nat -> U i j = cconj (U j i).
Proof.
  intros HM H. change (forall i j, (i < k)%nat -> (j < k)%nat -> U i j = mct U i j). apply (inv_unique k M (mct M)); [exact HM|exact H|].
  intros i j Hi Hj. change (mm (K := CC) k (mct M) (mct U) i j = (if (i =? j)%nat then c1 else c0) /\ mm (K := CC) k (mct U) (mct M) i j = (if (i =? j)%nat then c1 else c0)).
  rewrite <- !mct_mm. unfold mct at 1 2. rewrite (inv_l k M U j i H Hj Hi), (inv_r k M U j i H Hj Hi), (Nat.eqb_sym j i).
  split; destruct (i =? j)%nat; apply cpx_ext; cbn; ring.
Qed.

(** The Gram matrix of columns with an inverse is positive definite, and so is its inverse. *)
Lemma gram_entry N Z i j : mm (K := CC) N (mct Z) Z i j = hdot N (col Z i) (col Z j).
Proof. reflexivity. Qed.
Lemma gram_herm N Z i j : mm (K := CC) N (mct Z) Z i j = cconj (mm (K := CC) N (mct Z) Z j i).
Proof. rewrite !gram_entry. apply hdot_conj. Qed.
Lemma mv_comb k (M : mat CC) x i : mv (K := CC) k M x i = comb k M x i.
Proof. reflexivity. Qed.
Lemma nonzero_dec k x : nonzero_vec k x \/ forall i, (i < k)%nat -> x i = c0.
Proof.
  induction k as [|k [(i & Hi & Q)|IH]].
  - right. intros; lia.
  - left. exists i. split; [lia|exact Q].
  - destruct (cpx_dec (x k) c0) as [E|E]; [right|left; exists k; split; [lia|exact E]].
    intros i Hi. destruct (Nat.eq_dec i k) as [->|]; [exact E|apply IH; lia].
Qed.
Lemma norm2_nonneg0 n x : norm2 n x <> 0 -> 0 < norm2 n x.
Proof. intro. pose proof (norm2_pos n x). lra. Qed.
Lemma inverse_posdef N k Z U : is_inverse k (mm (K := CC) N (mct Z) Z) U -> posdef k U.
Proof.
  intro HU. set (M := mm (K := CC) N (mct Z) Z) in *.
  assert (HM : forall i j, (i < k)%nat -> (j < k)%nat -> M i j = cconj (M j i)) by (intros; apply gram_herm).
  split; [exact (inv_herm k M U HM HU)|]. intros x (i0 & Hi0 & Nx).
  (* x^H U x = |Z U x|^2 *)
  assert (EM : forall i, (i < k)%nat -> mv (K := CC) k M (mv (K := CC) k U x) i = x i).
  { intros i Hi. rewrite <- (mv_mm (K := CC)). unfold mv. rewrite <- (delta_l k i x Hi). apply (sumN_ext CC). intros q Hq. refine (f_equal2 cmul _ eq_refl). now apply inv_r. }
  set (y := mv (K := CC) k U x) in *.
  assert (ZE : forall q, (q < k)%nat -> hdot N (col Z q) (comb k Z y) = x q).
  { intros q Hq. rewrite hdot_comb_r. exact (EM q Hq). }
  assert (E : hdot k x y = mkC (norm2 N (comb k Z y)) 0).
  { rewrite hdot_conj. transitivity (cconj (hdot N (comb k Z y) (comb k Z y))); [|rewrite hdot_self; apply cpx_ext; cbn; ring]. f_equal.
    rewrite hdot_comb_l. unfold hdot at 1. apply (sumN_ext CC). intros q Hq. now rewrite (ZE q Hq). }
  rewrite E. cbn. apply norm2_nonneg0. intro Q.
  assert (Y0 : forall q, (q < k)%nat -> hdot N (col Z q) (comb k Z y) = c0).
  { intros q _. rewrite (hdot_ext N _ (comb k Z y) (col Z q) (fun _ => c0)); [|reflexivity|intros; now apply (norm2_zero N)].
    unfold hdot. apply (sumN_zero CC). intros. apply cpx_ext; cbn; ring. }
  apply Nx. rewrite <- (ZE i0 Hi0). exact (Y0 i0 Hi0).
Qed.

(** ** Rayleigh-Ritz *)
Section Ritz.
  Variables (N k : nat) (op : vect CC -> option (vect CC)) (Z U S : mat CC).
  Hypothesis HA : hermitian_op N op.
  Let M : mat CC := mm (K := CC) N (mct Z) Z.
  Hypothesis HU : is_inverse k M U.
  Hypothesis HS : forall i j, (i < k)%nat -> (j < k)%nat -> mm (K := CC) k S S i j = U i j.
  Hypothesis SH : forall i j, (i < k)%nat -> (j < k)%nat -> S i j = cconj (S j i).
  Let Y : mat CC := mm (K := CC) k Z S.

  Lemma S_right i j : (i < k)%nat -> (j < k)%nat -> mm (K := CC) k S (mm k S M) i j = if (i =? j)%nat then c1 else c0.
  Proof.
    intros Hi Hj. rewrite <- (mm_assoc CC). refine (eq_trans _ (inv_l k M U i j HU Hi Hj)). apply mm_ext; [|reflexivity]. intros q Hq. now apply HS.
  Qed.
  (* Y^H Y = S M S *)
  Lemma YtY_SMS i j : (i < k)%nat -> (j < k)%nat -> hdot N (col Y i) (col Y j) = mm (K := CC) k S (mm k M S) i j.
  Proof.
    intros Hi Hj. change (col Y i) with (comb k Z (col S i)). change (col Y j) with (comb k Z (col S j)). rewrite hdot_comb_l. unfold mm at 1.
    apply (sumN_ext CC). intros q Hq. refine (f_equal2 cmul _ _); [unfold col; symmetry; now apply SH|]. now rewrite hdot_comb_r.
  Qed.
  Lemma Y_orthonormal i j : (i < k)%nat -> (j < k)%nat -> hdot N (col Y i) (col Y j) = if (i =? j)%nat then c1 else c0.
  Proof.
    intros Hi Hj. rewrite YtY_SMS by assumption.
    set (P := mm (K := CC) k S (mm k M S)).
    (* P S = S *)
    assert (PS : forall i j, (i < k)%nat -> (j < k)%nat -> mm (K := CC) k P S i j = S i j).
    { intros a b Ha Hb. unfold P. rewrite (mm_assoc CC).
      transitivity (mm (K := CC) k S (fun q j => if (q =? j)%nat then c1 else c0) a b); [|now apply delta_r].
      apply mm_ext; [reflexivity|]. intros q Hq. rewrite (mm_assoc CC). refine (eq_trans _ (inv_r k M U q b HU Hq Hb)). apply mm_ext; [reflexivity|].
      intros r Hr. now apply HS. }
    transitivity (mm (K := CC) k P (fun q j => if (q =? j)%nat then c1 else c0) i j); [symmetry; now apply delta_r|].
    transitivity (mm (K := CC) k P (mm k S (mm k S M)) i j); [apply mm_ext; [reflexivity|intros q Hq; symmetry; now apply S_right]|].
    rewrite <- (mm_assoc CC). refine (eq_trans _ (S_right i j Hi Hj)). apply mm_ext; [|reflexivity]. intros q Hq. now apply PS.
  Qed.
  Lemma Z_of_Y j i : (j < k)%nat -> col Z j i = comb k Y (fun l => mm (K := CC) k S M l j) i.
  Proof.
    intro Hj. unfold comb. change (Z i j = mm (K := CC) k Y (mm k S M) i j). unfold Y. rewrite (mm_assoc CC).
    transitivity (mm (K := CC) k Z (fun q j => if (q =? j)%nat then c1 else c0) i j); [symmetry; now apply delta_r|].
    apply mm_ext; [reflexivity|]. intros q Hq. symmetry. now apply S_right.
  Qed.

  Variables (AY V : mat CC) (lam : nat -> cpx).
  Hypothesis EAY : on_columns op k Y = Some AY.
  Hypothesis EV : forall j, (j < k)%nat -> eigenpair k (mm (K := CC) N (mct Y) AY) (lam j) (col V j) /\ nonzero_vec k (col V j).
  Variable j : nat.
  Hypothesis Hj : (j < k)%nat.
  Let w : vect CC := col V j.
  Let x : vect CC := fun i => mm (K := CC) k Y V i j.
  Let v : vect CC := normalize N x.

  Lemma x_comb : x = comb k Y w.
  Proof. reflexivity. Qed.
  Lemma Yx l : (l < k)%nat -> hdot N (col Y l) x = w l.
  Proof.
    intro Hl. rewrite x_comb, hdot_comb_r. rewrite <- (delta_l k l w Hl). apply (sumN_ext CC). intros q Hq. cbv beta. now rewrite (Y_orthonormal l q Hl Hq).
  Qed.
  Lemma norm_x : norm2 N x = norm2 k w.
  Proof.
    assert (E : mkC (norm2 N x) 0 = mkC (norm2 k w) 0).
    { rewrite <- !hdot_self. rewrite x_comb at 1. rewrite hdot_comb_l. unfold hdot at 2. apply (sumN_ext CC). intros q Hq. now rewrite (Yx q Hq). }
    exact (f_equal cre E).
  Qed.
  Lemma x_pos : 0 < norm2 N x.
  Proof.
    rewrite norm_x. apply norm2_nonneg0. intro Q. destruct (proj2 (EV j Hj)) as (i & Hi & Ni). apply Ni. exact (norm2_zero k w Q i Hi).
  Qed.
  Lemma YAx l : (l < k)%nat -> hdot N (col Y l) (Af op x) = cmul (lam j) (w l).
  Proof.
    intro Hl. refine (eq_trans _ (proj1 (EV j Hj) l Hl)).
    rewrite (hdot_ext N (col Y l) (Af op x) (col Y l) (comb k AY w)); [|reflexivity|].
    - rewrite hdot_comb_r. reflexivity.
    - intros i Hi. rewrite x_comb, (Af_comb N op HA k Y w i Hi). unfold comb. apply (sumN_ext CC). intros q Hq. f_equal. symmetry. exact (on_columns_val N op HA k Y AY EAY i q Hq).
  Qed.
  (* v = x / r *)
  Let r : R := vnorm N x.
  Lemma r_pos : 0 < r.
  Proof.
    unfold r. pose proof (vnorm_pos N x). pose proof (vnorm_sq N x) as Q. pose proof x_pos as P. change (norm2 N x) with (nrm2 N x) in P. rewrite <- Q in P. nra.
  Qed.
  Lemma v_scale i : v i = cmul (mkC (/ r) 0) (x i).
  Proof. unfold v, normalize, vdivr. fold r. pose proof r_pos. apply cpx_ext; cbn; unfold cnrm; cbn; field; lra. Qed.
  Lemma hdot_v y : hdot N y v = cmul (mkC (/ r) 0) (hdot N y x).
  Proof. rewrite <- hdot_scale_r. apply hdot_ext; [reflexivity|]. intros. apply v_scale. Qed.
  Lemma Av_scale i : (i < N)%nat -> Af op v i = cmul (mkC (/ r) 0) (Af op x i).
  Proof.
    intro Hi. rewrite (Af_ext N op HA v (comb 1 (fun i _ => x i) (fun _ => mkC (/ r) 0))); [|intros i' _; rewrite v_scale; unfold comb; cbn; apply cpx_ext; cbn; ring|exact Hi].
    rewrite (Af_comb N op HA 1 _ _ i Hi). unfold comb. cbn. unfold col. change (Af op (fun i0 : nat => x i0)) with (Af op x). apply cpx_ext; cbn; ring.
  Qed.
  Lemma v_unit : norm2 N v = 1.
  Proof.
    change (nrm2 N v = 1). rewrite <- vnorm_sq. unfold v. rewrite normalize_unit; [ring|]. fold r. pose proof r_pos. lra.
  Qed.
  Lemma v_comb i : v i = comb k Y (fun q => cmul (mkC (/ r) 0) (w q)) i.
  Proof.
    rewrite v_scale, x_comb. unfold comb. refine (eq_trans (eq_sym (sumN_mul_l CC _ _ _)) _). apply (sumN_ext CC). intros. apply cpx_ext; cbn; ring.
  Qed.
  Lemma v_span : in_span N k Z v.
  Proof.
    exists (mv (K := CC) k S (fun q => cmul (mkC (/ r) 0) (w q))). intros i Hi. rewrite v_comb. unfold Y.
    exact (mv_mm (K := CC) k k Z S (fun q => cmul (mkC (/ r) 0) (w q)) i).
  Qed.
  Lemma resid_Y l : (l < k)%nat -> hdot N (col Y l) (fun i => csub (Af op v i) (cmul (lam j) (v i))) = c0.
  Proof.
    intro Hl. rewrite hdot_sub_r, hdot_scale_r, hdot_v, (Yx l Hl).
    rewrite (hdot_ext N (col Y l) (Af op v) (col Y l) (fun i => cmul (mkC (/ r) 0) (Af op x i))); [|reflexivity|intros; now apply Av_scale].
    rewrite hdot_scale_r, (YAx l Hl). apply cpx_ext; cbn; ring.
  Qed.
  Lemma resid_comb c : hdot N (comb k Y c) (fun i => csub (Af op v i) (cmul (lam j) (v i))) = c0.
  Proof.
    rewrite hdot_comb_l. apply (sumN_zero CC). intros q Hq. rewrite (resid_Y q Hq). apply cpx_ext; cbn; ring.
  Qed.
  Lemma ritz_value : hdot N v (Af op v) = lam j.
  Proof.
    pose proof (resid_comb (fun q => cmul (mkC (/ r) 0) (w q))) as Q.
    rewrite (hdot_ext N _ (fun i => csub (Af op v i) (cmul (lam j) (v i))) v (fun i => csub (Af op v i) (cmul (lam j) (v i)))) in Q; [|intros; symmetry; apply v_comb|reflexivity].
    rewrite hdot_sub_r, hdot_scale_r, hdot_self, v_unit in Q. apply csub_0 in Q. rewrite Q. apply cpx_ext; cbn; ring.
  Qed.
  Lemma ritz_real : cim (lam j) = 0.
  Proof.
    pose proof (Af_herm N op HA v v) as Q. rewrite (hdot_conj N v (Af op v)), ritz_value in Q. apply (f_equal cim) in Q. cbn in Q. lra.
  Qed.
  Lemma ritz_ok : ritz_pair N k op Z (lam j) v.
  Proof.
    split; [exact v_unit|]. split; [exact v_span|]. split; [exact ritz_real|]. exists (Af op v). split; [apply (op_Af N op HA)|]. split; [exact ritz_value|].
    intros l Hl. rewrite (hdot_ext N (col Z l) _ (comb k Y (fun q => mm (K := CC) k S M q l)) (fun i => csub (Af op v i) (cmul (lam j) (v i)))); [|intros; now apply Z_of_Y|reflexivity].
    apply resid_comb.
  Qed.
End Ritz.

(** ** Sorting *)
Lemma insert_abs_perm p l : Permutation (p :: l) (insert_abs p l).
Proof.
  induction l as [|q l IH]; [apply Permutation_refl|]. cbn. destruct (Rle_dec _ _); [apply Permutation_refl|].
  refine (perm_trans (perm_swap q p l) _). now apply perm_skip.
Qed.
Lemma sort_abs_perm l : Permutation l (sort_abs l).
Proof. induction l as [|p l IH]; [apply Permutation_refl|]. cbn. refine (perm_trans (perm_skip p IH) _). apply insert_abs_perm. Qed.
Lemma insert_abs_sorted p l : StronglySorted abs_le l -> StronglySorted abs_le (insert_abs p l).
Proof.
  induction l as [|q l IH]; intro Hs; cbn; [repeat constructor|]. inversion Hs as [|? ? Hs' Hf]; subst. destruct (Rle_dec _ _) as [L|L].
  - constructor; [exact Hs|]. constructor; [exact L|]. rewrite Forall_forall in Hf |- *. intros z Hz. specialize (Hf z Hz). unfold abs_le in *. exact (Rle_trans _ _ _ L Hf).
  - constructor; [now apply IH|]. rewrite Forall_forall in Hf |- *. intros z Hz. apply (Permutation_in _ (Permutation_sym (insert_abs_perm p l))) in Hz.
    destruct Hz as [<-|Hz]; [apply Rnot_le_lt in L; unfold abs_le; apply Rlt_le; exact L|now apply Hf].
Qed.
Lemma sort_abs_sorted l : StronglySorted abs_le (sort_abs l).
Proof. induction l as [|p l IH]; cbn; [constructor|now apply insert_abs_sorted]. Qed.

(** ** recover *)
Lemma recover_ok N k op inv sqrtm eig Z ms : hermitian_op N op -> inv_ok k inv -> sqrtm_ok k sqrtm -> eig_ok k eig ->
  recover N k op inv sqrtm eig Z (mm (K := CC) N (mct Z) Z) = Some ms ->
  length ms = k /\ StronglySorted abs_le ms /\ forall p, In p ms -> ritz_pair N k op Z (fst p) (snd p).
Proof.
  intros HA Hinv Hsq Heig E. unfold recover in E.
  pose proof (Hinv (mm (K := CC) N (mct Z) Z)) as HI. destruct (inv k _) as [U|]; [|discriminate]. cbn [obind] in E.
  destruct (sqrtm k U) as [S|] eqn:ES; [|discriminate]. cbn [obind] in E. destruct (Hsq U S ES) as [HS SH]. specialize (SH (inverse_posdef N k Z U HI)).
  destruct (on_columns op k (mm k Z S)) as [AY|] eqn:EA; [|discriminate]. cbn [obind] in E.
  destruct (eig k _) as [[lam V]|] eqn:EE; [|discriminate]. cbn [obind] in E. pose proof (Heig _ lam V EE) as HV.
  destruct (existsb _ _); [discriminate|].
  injection E as <-. split; [|split].
  - rewrite <- (Permutation_length (sort_abs_perm _)), map_length. apply seq_length.
  - apply sort_abs_sorted.
  - intros p Hp. apply (Permutation_in _ (Permutation_sym (sort_abs_perm _))) in Hp. apply in_map_iff in Hp as (j & <- & Hj). apply in_seq in Hj. cbn [fst snd].
    apply (ritz_ok N k op Z U S HA HI HS SH AY V lam EA HV j). lia.
Qed.
Lemma ritz_orthogonal N k op Z l1 v1 l2 v2 : hermitian_op N op -> ritz_pair N k op Z l1 v1 -> ritz_pair N k op Z l2 v2 -> l1 <> l2 -> hdot N v1 v2 = c0.
Proof.
  intros HA (_ & (c1' & S1) & R1 & A1 & E1 & _ & O1) (_ & (c2' & S2) & R2 & A2 & E2 & _ & O2) Nl.
  assert (P1 : hdot N v1 A2 = cmul l2 (hdot N v1 v2)).
  { apply csub_0. rewrite <- hdot_scale_r, <- hdot_sub_r. rewrite (hdot_ext N v1 _ (comb k Z c1') (fun i => csub (A2 i) (cmul l2 (v2 i)))); [|exact S1|reflexivity].
    rewrite hdot_comb_l. apply (sumN_zero CC). intros q Hq. rewrite (O2 q Hq). apply cpx_ext; cbn; ring. }
  assert (P2 : hdot N v2 A1 = cmul l1 (hdot N v2 v1)).
  { apply csub_0. rewrite <- hdot_scale_r, <- hdot_sub_r. rewrite (hdot_ext N v2 _ (comb k Z c2') (fun i => csub (A1 i) (cmul l1 (v1 i)))); [|exact S2|reflexivity].
    rewrite hdot_comb_l. apply (sumN_zero CC). intros q Hq. rewrite (O1 q Hq). apply cpx_ext; cbn; ring. }
  destruct (HA v1 v2) as (B1 & B2 & F1 & F2 & Q). rewrite E1 in F1. injection F1 as <-. rewrite E2 in F2. injection F2 as <-.
  rewrite P1, (hdot_conj N v2 A1), P2, (hdot_conj N v1 v2) in Q.
  set (z := hdot N v1 v2) in *. clearbody z.
  assert (D : cre l1 <> cre l2) by (intro X; apply Nl; apply cpx_ext; lra).
  pose proof (f_equal cre Q) as Qr. pose proof (f_equal cim Q) as Qi. cbn in Qr, Qi. rewrite R1, R2 in Qr, Qi.
  assert (Zr : (cre l2 - cre l1) * cre z = 0) by lra. assert (Zi : (cre l2 - cre l1) * cim z = 0) by lra.
  apply Rmult_integral in Zr, Zi. apply cpx_ext; cbn; destruct Zr, Zi; lra.
Qed.
Lemma ritz_exact N k op Z lam v : hermitian_op N op -> (forall j, (j < k)%nat -> forall y, op (col Z j) = Some y -> in_span N k Z y) ->
  ritz_pair N k op Z lam v -> forall Av, op v = Some Av -> forall i, (i < N)%nat -> Av i = cmul lam (v i).
Proof.
  intros HA Hinv (_ & (c & Hc) & _ & A & EA & _ & O) Av E. rewrite EA in E. injection E as <-.
  assert (SA : exists d, forall i, (i < N)%nat -> A i = comb k Z d i).
  { assert (CH : exists B : mat CC, forall j, (j < k)%nat -> forall i, (i < N)%nat -> Af op (col Z j) i = comb k Z (col B j) i).
    { clear - Hinv HA. assert (G : forall m, (m <= k)%nat -> exists B : mat CC, forall j, (j < m)%nat -> forall i, (i < N)%nat -> Af op (col Z j) i = comb k Z (col B j) i).
      { induction m as [|m IH]; intro Hm; [exists (fun _ _ => c0); intros; lia|]. destruct (IH ltac:(lia)) as (B & HB).
        destruct (Hinv m ltac:(lia) _ (op_Af N op HA (col Z m))) as (d & Hd).
        exists (fun i j => if (j =? m)%nat then d i else B i j). intros j Hj i Hi. unfold col at 2. destruct (Nat.eqb_spec j m) as [->|]; [now apply Hd|].
        change (fun i0 => B i0 j) with (col B j). apply HB; [lia|exact Hi]. }
      exact (G k (le_n k)). }
    destruct CH as (B & HB). exists (mv (K := CC) k B c). intros i Hi.
    replace (A i) with (Af op v i) by (unfold Af; now rewrite EA).
    rewrite (Af_ext N op HA v (comb k Z c) Hc i Hi), (Af_comb N op HA k Z c i Hi).
    transitivity (mv (K := CC) k (mm k Z B) c i); [|exact (mv_mm (K := CC) k k Z B c i)]. unfold comb, mv. apply (sumN_ext CC). intros j Hj. f_equal. rewrite (HB j Hj i Hi). reflexivity. }
  destruct SA as (d & Hd).
  set (res := fun i => csub (A i) (cmul lam (v i))) in *.
  assert (Hres : forall i, (i < N)%nat -> res i = comb k Z (fun q => csub (d q) (cmul lam (c q))) i).
  { intros i Hi. unfold res. rewrite (Hd i Hi), (Hc i Hi). unfold comb.
    refine (eq_trans (f_equal2 csub eq_refl (eq_sym (sumN_mul_l CC _ _ _))) _). refine (eq_trans (eq_sym (sumN_sub CC _ _ _)) _). apply (sumN_ext CC). intros. apply cpx_ext; cbn; ring. }
  assert (Z0 : hdot N res res = c0).
  { rewrite (hdot_ext N res res (comb k Z (fun q => csub (d q) (cmul lam (c q)))) res Hres); [|reflexivity]. rewrite hdot_comb_l. apply (sumN_zero CC). intros q Hq.
    rewrite (O q Hq). apply cpx_ext; cbn; ring. }
  rewrite hdot_self in Z0. intros i Hi. apply csub_0. change (res i = c0). apply (norm2_zero N res); [exact (f_equal cre Z0)|exact Hi].
Qed.

(** ** Objective *)
Lemma hdot_lin2 N (x y x' y' : vect CC) c s :
  hdot N (fun r => cadd (cmul (mkC c 0) (x r)) (cmul (mkC s 0) (y r))) (fun r => cadd (cmul (mkC c 0) (x' r)) (cmul (mkC s 0) (y' r)))
  = cadd (cadd (cmul (mkC (c * c) 0) (hdot N x x')) (cmul (mkC (s * s) 0) (hdot N y y'))) (cmul (mkC (s * c) 0) (cadd (hdot N x y') (hdot N y x'))).
Proof.
  rewrite hdot_add_r, !hdot_scale_r.
  assert (L : forall z, hdot N (fun r => cadd (cmul (mkC c 0) (x r)) (cmul (mkC s 0) (y r))) z = cadd (cmul (mkC c 0) (hdot N x z)) (cmul (mkC s 0) (hdot N y z))).
  { intro z. rewrite hdot_conj, hdot_add_r, !hdot_scale_r, (hdot_conj N z x), (hdot_conj N z y). apply cpx_ext; cbn; ring. }
  rewrite !L. apply cpx_ext; cbn; ring.
Qed.
Definition step_to (t : R) (Z D : mat CC) : mat CC := madd (mscale_r (cos t) Z) (mscale_r (sin t) D).
Lemma col_step t Z D j : col (step_to t Z D) j = (fun r => cadd (cmul (mkC (cos t) 0) (col Z j r)) (cmul (mkC (sin t) 0) (col D j r))).
Proof. reflexivity. Qed.

Section Obj.
  Variables (N k : nat) (op : vect CC -> option (vect CC)).
  Hypothesis HA : hermitian_op N op.
  Lemma objective_Af Z E : objective N k op Z E <-> exists U, is_inverse k (fun i j => hdot N (col Z i) (col Z j)) U /\
    E = Rabs (cre (sumN (K := CC) k (fun i => sumN (K := CC) k (fun j => cmul (hdot N (col Z i) (Af op (col Z j))) (U j i))))).
  Proof.
    split.
    - intros (AZ & U & EA & HU & ->). exists U. split; [exact HU|]. do 2 f_equal. apply (sumN_ext CC). intros i _. apply (sumN_ext CC). intros j Hj. do 2 f_equal.
      unfold Af. now rewrite (EA j Hj).
    - intros (U & HU & ->). exists (fun j => Af op (col Z j)), U. split; [intros; apply (op_Af N op HA)|]. split; [exact HU|reflexivity].
  Qed.
  Lemma objective_ext Z Z' E : (forall i j, Z i j = Z' i j) -> objective N k op Z E -> objective N k op Z' E.
  Proof.
    intros EZ. rewrite !objective_Af. intros (U & HU & ->). exists U. split.
    - apply (inv_ext k (fun i j => hdot N (col Z i) (col Z j))); [|exact HU]. intros i j _ _. apply hdot_ext; intros; apply EZ.
    - do 2 f_equal. apply (sumN_ext CC). intros i _. apply (sumN_ext CC). intros j _. refine (f_equal2 cmul _ eq_refl). apply hdot_ext; [intros; apply EZ|].
      intros r Hr. apply (Af_ext N op HA); [intros; apply EZ|exact Hr].
  Qed.
  Lemma objective_unique Z E E' : objective N k op Z E -> objective N k op Z E' -> E = E'.
  Proof.
    rewrite !objective_Af. intros (U & HU & ->) (U' & HU' & ->). do 2 f_equal. apply (sumN_ext CC). intros i Hi. apply (sumN_ext CC). intros j Hj. f_equal.
    exact (inv_unique k _ _ U U' (fun _ _ _ _ => eq_refl) HU HU' j i Hj Hi).
  Qed.

  Variables (Z D AZ AD : mat CC).
  Hypothesis EZ : forall i j, (j < k)%nat -> AZ i j = Af op (col Z j) i.
  Hypothesis ED : forall i j, (j < k)%nat -> AD i j = Af op (col D j) i.
  Lemma Q_entry t i j :
    madd (madd (mscale_r (cos t * cos t) (mm N (mct Z) Z)) (mscale_r (sin t * sin t) (mm N (mct D) D))) (mscale_r (2 * sin t * cos t) (symmetrize (mm N (mct Z) D))) i j
    = hdot N (col (step_to t Z D) i) (col (step_to t Z D) j).
  Proof.
    rewrite !col_step, hdot_lin2. unfold madd, mscale_r, mscale, symmetrize. unfold mct at 4. rewrite !gram_entry.
    change (mm (K := CC) N (mct Z) D i j) with (hdot N (col Z i) (col D j)). change (mm (K := CC) N (mct Z) D j i) with (hdot N (col Z j) (col D i)).
    rewrite (hdot_conj N (col Z j) (col D i)). set (a := hdot N (col Z j) (col D i)). generalize a (hdot N (col Z i) (col D j)) (hdot N (col Z i) (col Z j)) (hdot N (col D i) (col D j)).
    intros. apply cpx_ext; cbn; field.
  Qed.
  Lemma R_entry t i j : (i < k)%nat -> (j < k)%nat ->
    madd (madd (mscale_r (cos t * cos t) (mm N (mct Z) AZ)) (mscale_r (sin t * sin t) (mm N (mct D) AD))) (mscale_r (2 * sin t * cos t) (symmetrize (mm N (mct Z) AD))) i j
    = hdot N (col (step_to t Z D) i) (Af op (col (step_to t Z D) j)).
  Proof.
    intros Hi Hj.
    transitivity (hdot N (col (step_to t Z D) i) (fun r => cadd (cmul (mkC (cos t) 0) (Af op (col Z j) r)) (cmul (mkC (sin t) 0) (Af op (col D j) r)))).
    2:{ apply hdot_ext; [reflexivity|]. intros r Hr. rewrite col_step.
        pose (X := fun (r : nat) (q : nat) => if (q =? 0)%nat then col Z j r else col D j r). pose (cf := fun q : nat => if (q =? 0)%nat then mkC (cos t) 0 else mkC (sin t) 0).
        transitivity (Af op (comb 2 X cf) r).
        - rewrite (Af_comb N op HA 2 X cf r Hr). unfold comb. cbn [sumN]. change (Af op (col X 0)) with (Af op (col Z j)). change (Af op (col X 1)) with (Af op (col D j)).
          unfold cf. cbn [Nat.eqb]. apply cpx_ext; cbn; ring.
        - apply (Af_ext N op HA); [|exact Hr]. intros q _. unfold comb, X, cf. cbn [sumN Nat.eqb]. apply cpx_ext; cbn; ring. }
    rewrite col_step, hdot_lin2. unfold madd, mscale_r, mscale, symmetrize. unfold mct at 4.
    assert (G : forall (X Y AY : mat CC) a b, (b < k)%nat -> (forall i j, (j < k)%nat -> AY i j = Af op (col Y j) i) -> mm (K := CC) N (mct X) AY a b = hdot N (col X a) (Af op (col Y b))).
    { intros X Y AY a b Hb EY. unfold mm, mct, hdot, col. apply (sumN_ext CC). intros q _. now rewrite (EY q b Hb). }
    rewrite (G Z Z AZ i j Hj EZ), (G D D AD i j Hj ED), (G Z D AD i j Hj ED), (G Z D AD j i Hi ED).
    rewrite (hdot_conj N (Af op (col Z j)) (col D i)), <- (Af_herm N op HA (col Z j) (col D i)).
    generalize (hdot N (col Z j) (Af op (col D i))) (hdot N (col Z i) (Af op (col D j))) (hdot N (col Z i) (Af op (col Z j))) (hdot N (col D i) (Af op (col D j))).
    intros. apply cpx_ext; cbn; field.
  Qed.
  Variable inv : nat -> mat CC -> option (mat CC).
  Hypothesis HI : inv_ok k inv.
  Lemma trace_func_objective t E : objective N k op (step_to t Z D) E ->
    trace_func k inv (mm N (mct Z) Z) (mm N (mct D) D) (symmetrize (mm N (mct Z) D)) (mm N (mct Z) AZ) (mm N (mct D) AD) (symmetrize (mm N (mct Z) AD)) t = Some E.
  Proof.
    rewrite objective_Af. intros (U & HU & ->). unfold trace_func, Qi_func. cbv zeta.
    set (Q := madd _ _). pose proof (HI Q) as HQ. destruct (inv k Q) as [Qi|].
    2:{ exfalso. apply (HQ U). apply (inv_ext k (fun i j => hdot N (col (step_to t Z D) i) (col (step_to t Z D) j))); [|exact HU]. intros. symmetry. apply Q_entry. }
    cbn [obind]. do 2 f_equal.
    assert (EU : forall i j, (i < k)%nat -> (j < k)%nat -> Qi i j = U i j).
    { apply (inv_unique k Q (fun i j => hdot N (col (step_to t Z D) i) (col (step_to t Z D) j)) Qi U); [intros; apply Q_entry|exact HQ|exact HU]. }
    unfold rtrace_AtB. f_equal. refine (eq_trans (sumN_swap CC _ _ _) _). apply (sumN_ext CC). intros i Hi. apply (sumN_ext CC). intros j Hj.
    rewrite (R_entry t j i Hj Hi), (EU j i Hj Hi). rewrite (Af_herm N op HA), <- hdot_conj. reflexivity.
  Qed.
End Obj.

(** ** The loop *)
Section Loop.
  Variables (N k : nat) (op iop : vect CC -> option (vect CC)) (tolerance : R) (reset_iters : nat).
  Variable inv : nat -> mat CC -> option (mat CC).
  Variable minimize : (R -> option R) -> option R.
  Hypothesis HA : hermitian_op N op.
  Hypothesis HI : inv_ok k inv.
  Notation stepf := (cg_step N k op iop tolerance reset_iters inv minimize).
  Notation loopf := (cg_loop N k op iop tolerance reset_iters inv minimize).

  Lemma step_E st i r : stepf i st = Some r -> exists E, objective N k op (sZ st) E /\
    match r with
    | Stop s => (0 < i)%nat /\ Rabs (E - sprev_E st) < tolerance * (1 / 2) * (E + sprev_E st + 1 / 10000000) /\ sZ s = sZ st /\ sZtZ s = mm N (mct (sZ st)) (sZ st)
    | Next s => sprev_E s = E /\ sZtZ s = mm N (mct (sZ st)) (sZ st) /\
        (no_worse minimize -> forall E', objective N k op (sZ s) E' -> E' <= E)
    end.
  Proof.
    unfold cg_step. cbv zeta. intro H.
    pose proof (HI (mm N (mct (sZ st)) (sZ st))) as HU. destruct (inv k _) as [U|]; [|discriminate]. cbn [obind] in H.
    destruct (on_columns op k (sZ st)) as [AZ|] eqn:EA; [|discriminate]. cbn [obind] in H.
    pose proof (on_columns_val N op HA k (sZ st) AZ EA) as VA.
    set (E := Rabs (cre (trace k (mm k (mm N (mct (sZ st)) AZ) U)))) in *.
    assert (HE : objective N k op (sZ st) E).
    { apply (objective_Af N k op HA). exists U. split; [exact HU|]. unfold E, trace. do 2 f_equal. apply (sumN_ext CC). intros i' _. unfold mm at 1. apply (sumN_ext CC). intros j Hj.
      refine (f_equal2 cmul _ eq_refl). unfold mm, mct, hdot, col. apply (sumN_ext CC). intros q _. now rewrite (VA q j Hj). }
    exists E. split; [exact HE|].
    destruct ((0 <? i)%nat && _)%bool eqn:T.
    - injection H as <-. apply andb_true_iff in T as [T1 T2]. apply Nat.ltb_lt in T1. destruct (Rlt_dec _ _) as [L|]; [|discriminate]. cbn. auto.
    - clear T. destruct (on_columns iop k _) as [KG|]; [|discriminate]. cbn [obind] in H.
      match type of H with obind ?g _ = _ => destruct g as [gamma|]; [|discriminate] end. cbn [obind] in H.
      destruct (Req_EM_T _ 0); [discriminate|].
      set (D := mscale_r (INR k / _) _) in H. clearbody D. destruct (on_columns op k D) as [AD|] eqn:ED; [|discriminate]. cbn [obind] in H.
      destruct (minimize _) as [t|] eqn:Em; [|discriminate]. cbn [obind] in H. injection H as <-. cbn [sprev_E sZtZ sZ]. repeat split.
      intros NW E' HE'. apply (NW _ t E E' Em).
      + apply (trace_func_objective N k op HA (sZ st) D AZ AD VA (on_columns_val N op HA k D AD ED) inv HI).
        apply (objective_ext N k op HA (sZ st)); [|exact HE]. intros. unfold step_to. rewrite cos_0, sin_0. unfold madd, mscale_r, mscale. apply cpx_ext; cbn; ring.
      + exact (trace_func_objective N k op HA (sZ st) D AZ AD VA (on_columns_val N op HA k D AD ED) inv HI t E' HE').
  Qed.

  Definition descends (l : list (mat CC)) : Prop :=
    ForallOrdPairs (fun Z' Z => forall E E', objective N k op Z E -> objective N k op Z' E' -> E' <= E) l.
  Lemma loop_descends fuel : no_worse minimize -> forall i st its st' its' conv, loopf fuel i st its = Some (st', its', conv) ->
    (exists tl, its = sZ st :: tl) -> descends its -> (exists tl, its' = sZ st' :: tl) /\ descends its'.
  Proof.
    intro NW. induction fuel as [|f IH]; intros i st its st' its' conv H (tl & Hd) Hds; cbn [cg_loop] in H.
    - injection H as <- <- _. split; [now exists tl|exact Hds].
    - destruct (stepf i st) as [r|] eqn:Es; [|discriminate]. cbn [obind] in H. destruct (step_E st i r Es) as (E & HE & C). destruct r as [s|s].
      + injection H as <- <- _. destruct C as (_ & _ & C & _). split; [exists tl; now rewrite C|exact Hds].
      + destruct C as (_ & _ & C). specialize (C NW). apply (IH _ _ _ _ _ _ H); [now exists its|]. constructor; [|exact Hds]. rewrite Hd in Hds |- *.
        inversion Hds as [|? ? F1 F2]; subst. constructor.
        * intros E0 E' H0 H'. rewrite (objective_unique N k op HA _ _ _ H0 HE). now apply C.
        * rewrite Forall_forall in F1 |- *. intros Z HZ E0 E' H0 H'. apply (Rle_trans _ E); [now apply C|]. exact (F1 Z HZ E0 E H0 HE).
  Qed.
  Lemma loop_converged fuel : forall i st its st' its', loopf fuel i st its = Some (st', its', true) ->
    (exists tl, its = sZ st :: tl) -> ((0 < i)%nat -> exists Zp tl, its = sZ st :: Zp :: tl /\ objective N k op Zp (sprev_E st)) ->
    sZtZ st' = mm N (mct (sZ st')) (sZ st') /\
    exists Zp tl E Ep, its' = sZ st' :: Zp :: tl /\ objective N k op (sZ st') E /\ objective N k op Zp Ep /\ Rabs (E - Ep) < tolerance * (1 / 2) * (E + Ep + 1 / 10000000).
  Proof.
    induction fuel as [|f IH]; intros i st its st' its' H (tl & Hd) Hp; cbn [cg_loop] in H; [discriminate|].
    destruct (stepf i st) as [r|] eqn:Es; [|discriminate]. cbn [obind] in H. destruct (step_E st i r Es) as (E & HE & C). destruct r as [s|s].
    - injection H as <- <-. destruct C as (Hi & L & EZ & EG). rewrite EZ. split; [exact EG|]. destruct (Hp Hi) as (Zp & tl' & -> & HEp).
      exists Zp, tl', E, (sprev_E st). auto.
    - destruct C as (EE & _). apply (IH _ _ _ _ _ H); [now exists its|]. intros _. exists (sZ st), tl. rewrite Hd, EE. auto.
  Qed.
End Loop.

Lemma start_loop_gram N k inv sqrtm rng fuel : forall draw view y Z Z' ZtZ view' y',
  start_loop N k inv sqrtm rng fuel draw view y Z = Some (Z', ZtZ, view', y') -> ZtZ = mm N (mct Z') Z'.
Proof.
  induction fuel as [|f IH]; intros draw view y Z Z' ZtZ view' y' H; cbn [start_loop] in H; [discriminate|]. cbv zeta in H.
  destruct (Req_EM_T _ 0); [discriminate|]. destruct (inv k _) as [U|]; [|exact (IH _ _ _ _ _ _ _ _ H)].
  destruct (Rlt_dec _ _); [|now injection H as <- <- _ _]. destruct (sqrtm k U) as [S|]; [|discriminate]. cbn [obind] in H. exact (IH _ _ _ _ _ _ _ _ H).
Qed.
