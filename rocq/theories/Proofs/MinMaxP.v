(** Min-max characterisation of the bands of a Hermitian operator. *)
From Coq Require Import Reals List Arith ZArith Lia Lra Psatz Bool Field Sorted Permutation.
From Verif.Lib Require Import Num Sums Idx Mat RealF Elim BoxMin.
From Verif.Model Require Import Ndarray Bloch Eigensolvers BlochSolve.
From Verif.Spec Require Import BlochSpec EigenSpec BlochSolveSpec BandsSpec.
From Verif.Proofs Require Import EmeP EigensolversP BlochSolveP SpectralP.
Import ListNotations.
Local Open Scope R_scope.

Notation rc r := (mkC r 0).
Lemma hdot_zero_r n x : hdot n x (fun _ => c0) = c0.
Proof. unfold hdot. apply (sumN_zero CC). intros. apply cpx_ext; cbn; ring. Qed.
Lemma norm2_zero_vec n x : (forall i, (i < n)%nat -> x i = c0) -> norm2 n x = 0.
Proof. intro H. unfold norm2. apply (sumN_zero RF). intros i Hi. rewrite (H i Hi). change (0 * 0 + 0 * 0 = 0). ring. Qed.
Lemma hdot_unit_l n i (y : vect CC) : (i < n)%nat -> hdot n (fun j => if (i =? j)%nat then c1 else c0) y = y i.
Proof.
  intro Hi. unfold hdot. rewrite <- (delta_l n i y Hi). apply (sumN_ext CC). intros j _. destruct (i =? j)%nat; apply cpx_ext; cbn; ring.
Qed.
Lemma hdot_unit_r n i (y : vect CC) : (i < n)%nat -> hdot n y (fun j => if (i =? j)%nat then c1 else c0) = cconj (y i).
Proof. intro Hi. now rewrite hdot_conj, hdot_unit_l. Qed.
Lemma rs_CC n (f : nat -> R) : sumN (K := CC) n (fun a => mkC (f a) 0) = mkC (rs n f) 0.
Proof. apply cpx_ext; [now rewrite re_sum|rewrite im_sum]. cbn [cim]. apply (sumN_zero RF). reflexivity. Qed.

(** Orthonormal families of n vectors. *)
Section Basis.
  Variables (n : nat) (V : mat CC).
  Hypothesis On : forall a b, (a < n)%nat -> (b < n)%nat -> hdot n (col V a) (col V b) = if (a =? b)%nat then c1 else c0.
  Lemma on_coef m c a : (m <= n)%nat -> (a < m)%nat -> hdot n (col V a) (comb m V c) = c a.
  Proof.
    intros Hm Ha. rewrite hdot_comb_r. rewrite <- (delta_l m a c Ha). apply (sumN_ext CC). intros j Hj. now rewrite On by lia.
  Qed.
  Lemma on_complete z i : (i < n)%nat -> z i = comb n V (fun a => hdot n (col V a) z) i.
  Proof.
    destruct (injective_surjective CC n V) with (b := z) as (c & Ec).
    - intros x Hx j Hj. rewrite <- (on_coef n x j (le_n n) Hj). rewrite (hdot_ext n _ _ (col V j) (fun _ => c0)) by (first [intros; reflexivity | intros; now apply Hx]).
      apply hdot_zero_r.
    - assert (Ez : forall i, (i < n)%nat -> z i = comb n V c i) by (intros q Hq; symmetry; now apply Ec).
      intro Hi. rewrite (Ez i Hi). unfold comb. apply (sumN_ext CC). intros a Ha. f_equal. rewrite (hdot_ext n _ z (col V a) (comb n V c)) by (first [intros; reflexivity | intros; now apply Ez]).
      symmetry. now apply on_coef.
  Qed.
  Lemma parseval x y : hdot n x y = sumN (K := CC) n (fun a => cmul (cconj (hdot n (col V a) x)) (hdot n (col V a) y)).
  Proof.
    rewrite (hdot_ext n x y (comb n V (fun a => hdot n (col V a) x)) y); [|intros; now apply on_complete|reflexivity]. apply hdot_comb_l.
  Qed.
  Lemma parseval2 x : norm2 n x = rs n (fun a => cnrm (hdot n (col V a) x)).
  Proof.
    apply (f_equal cre (x := mkC (norm2 n x) 0) (y := mkC (rs n (fun a => cnrm (hdot n (col V a) x))) 0)).
    rewrite <- hdot_self, parseval, <- rs_CC. apply (sumN_ext CC). intros a _. unfold cnrm. apply cpx_ext; cbn; ring.
  Qed.
End Basis.

Lemma all_dec m (P : nat -> Prop) : (forall i, (i < m)%nat -> P i \/ ~ P i) -> (forall i, (i < m)%nat -> P i) \/ ~ (forall i, (i < m)%nat -> P i).
Proof.
  induction m as [|m IH]; intro D; [left; intros; lia|]. destruct (IH (fun i Hi => D i ltac:(lia))) as [Y|Nn].
  - destruct (D m ltac:(lia)) as [Q|Q]; [left|right; intro X; apply Q, X; lia]. intros i Hi. destruct (Nat.eq_dec i m) as [->|]; [exact Q|apply Y; lia].
  - right. intro X. apply Nn. intros; apply X; lia.
Qed.
Lemma real_dec n (H : mat CC) : real_mat n H \/ ~ real_mat n H.
Proof.
  destruct (all_dec n (fun i => forall j, (j < n)%nat -> cim (H i j) = 0)) as [Y|Nn].
  - intros i _. apply all_dec. intros j _. destruct (Req_EM_T (cim (H i j)) 0); auto.
  - left. intros i j Hi Hj. now apply Y.
  - right. intro X. apply Nn. intros i Hi j Hj. now apply X.
Qed.

Section Bands.
  Variables (N : nat) (op : vect CC -> option (vect CC)).
  Hypothesis HA : hermitian_op N op.
  Notation A := (Af op).
  Definition form (z : vect CC) : R := - cre (hdot N z (A z)).
  Lemma form_ext x y : (forall i, (i < N)%nat -> x i = y i) -> form x = form y.
  Proof. intro E. unfold form. do 2 f_equal. apply hdot_ext; [exact E|]. apply (Af_ext N op HA). exact E. Qed.
  Definition opmat : mat CC := fun i j => copp (A (fun q => if (j =? q)%nat then c1 else c0) i).
  Lemma opmat_herm i j : (i < N)%nat -> (j < N)%nat -> opmat i j = cconj (opmat j i).
  Proof.
    intros Hi Hj. unfold opmat. rewrite <- (hdot_unit_l N i (A _) Hi), (Af_herm N op HA), (hdot_unit_r N j (A _) Hj). apply cpx_ext; cbn; ring.
  Qed.
  Lemma opmat_mv y i : (i < N)%nat -> mv (K := CC) N opmat y i = copp (A y i).
  Proof.
    intro Hi. rewrite <- (hdot_unit_l N i (A y) Hi), (Af_herm N op HA). unfold mv, hdot.
    transitivity (sumN (K := CC) N (fun q => copp (cmul (cconj (A (fun j => if (i =? j)%nat then c1 else c0) q)) (y q)))); [|exact (sumN_opp CC _ _)].
    apply (sumN_ext CC). intros j Hj. rewrite (opmat_herm i j Hi Hj). unfold opmat. apply cpx_ext; cbn; ring.
  Qed.
  Lemma bands_exist : exists V w, bands N op V w.
  Proof.
    destruct (spectral_upto N opmat opmat_herm N (le_n N)) as (V & w & F & _).
    { apply real_dec. }
    exists V, w. split.
    - exact (proj1 F).
    - intros a Ha. exists (A (col V a)). split; [apply (op_Af N op HA)|]. intros i Hi. pose proof (proj1 (proj2 F) a i Ha Hi) as E. rewrite opmat_mv in E by exact Hi.
      unfold col in *. apply cpx_ext; [apply (f_equal cre) in E|apply (f_equal cim) in E]; cbn in E |- *; lra.
    - intros a b. exact (found_sorted N opmat opmat_herm V w a b F).
  Qed.

  Section Given.
    Variables (V : mat CC) (w : nat -> R).
    Hypothesis HB : bands N op V w.
    Let On := b_orth _ _ _ _ HB.
    Lemma band_eig a i : (a < N)%nat -> (i < N)%nat -> A (col V a) i = cmul (rc (- w a)) (V i a).
    Proof. intros Ha Hi. destruct (b_eig _ _ _ _ HB a Ha) as (Av & E & F). unfold Af. rewrite E. now apply F. Qed.
    Lemma band_coef a z : (a < N)%nat -> hdot N (col V a) (A z) = cmul (rc (- w a)) (hdot N (col V a) z).
    Proof.
      intro Ha. rewrite (Af_herm N op HA). rewrite (hdot_ext N _ z (fun i => cmul (rc (- w a)) (col V a i)) z); [|intros; now apply band_eig|reflexivity].
      rewrite hdot_conj, hdot_scale_r, (hdot_conj N z (col V a)) at 1. rewrite (hdot_conj N (col V a) z). apply cpx_ext; cbn; ring.
    Qed.
    Lemma form_sum z : form z = rs N (fun a => w a * cnrm (hdot N (col V a) z)).
    Proof.
      unfold form. rewrite (parseval N V On z (A z)), re_sum.
      rewrite (rs_ext N (fun a => w a * cnrm (hdot N (col V a) z)) (fun a => -1 * cre (cmul (cconj (hdot N (col V a) z)) (hdot N (col V a) (A z))))).
      - rewrite rs_scale. ring.
      - intros a Ha. rewrite (band_coef a z Ha). unfold cnrm. cbn. ring.
    Qed.
    (** The a-th band is the least value of the form on what is orthogonal to the bands below. *)
    Lemma band_least a z : (a < N)%nat -> (forall b, (b < a)%nat -> hdot N (col V b) z = c0) -> w a * norm2 N z <= form z.
    Proof.
      intros Ha Oz. rewrite form_sum, (parseval2 N V On z), <- rs_scale. apply rs_le. intros b Hb. destruct (Nat.lt_ge_cases b a) as [L|L].
      - rewrite (Oz b L). unfold cnrm. cbn. lra.
      - pose proof (b_sorted _ _ _ _ HB a b L Hb). apply Rmult_le_compat_r; [unfold cnrm; nra|assumption].
    Qed.
    Lemma band_most a z : (a < N)%nat -> (forall b, (a < b)%nat -> (b < N)%nat -> hdot N (col V b) z = c0) -> form z <= w a * norm2 N z.
    Proof.
      intros Ha Oz. rewrite form_sum, (parseval2 N V On z), <- rs_scale. apply rs_le. intros b Hb. destruct (Nat.lt_ge_cases a b) as [L|L].
      - rewrite (Oz b L Hb). unfold cnrm. cbn. lra.
      - pose proof (b_sorted _ _ _ _ HB b a L Ha). apply Rmult_le_compat_r; [unfold cnrm; nra|assumption].
    Qed.
    (** If the form is at most t on a space of dimension a + 1, then so is the a-th band. *)
    Lemma courant a (W : mat CC) t : (a < N)%nat ->
      (forall c, (forall i, (i < N)%nat -> comb (S a) W c i = c0) -> forall j, (j < S a)%nat -> c j = c0) ->
      (forall c, form (comb (S a) W c) <= t * norm2 N (comb (S a) W c)) -> w a <= t.
    Proof.
      intros Ha Ind Fb. destruct (underdetermined CC a (S a) (fun b j => hdot N (col V b) (col W j)) ltac:(lia)) as (c & (q & Hq & Nq) & Sc).
      set (z := comb (S a) W c). assert (P : 0 < norm2 N z).
      { pose proof (norm2_pos N z). destruct (Req_EM_T (norm2 N z) 0) as [Z|]; [|lra]. exfalso. apply Nq. apply (Ind c); [|exact Hq]. exact (norm2_zero N z Z). }
      assert (Oz : forall b, (b < a)%nat -> hdot N (col V b) z = c0). { intros b Hb. unfold z. rewrite hdot_comb_r. exact (Sc b Hb). }
      pose proof (band_least a z Ha Oz). pose proof (Fb c). fold z in H0. nra.
    Qed.
    (** Vectors orthonormal to each other are independent. *)
    Lemma span_most a c : (a < N)%nat -> form (comb (S a) V c) <= w a * norm2 N (comb (S a) V c).
    Proof.
      intro Ha. apply band_most; [exact Ha|]. intros b Hb Hn. rewrite hdot_comb_r. apply (sumN_zero CC). intros j Hj. rewrite On by lia.
      destruct (Nat.eqb_spec b j); [lia|]. apply cpx_ext; cbn; ring.
    Qed.
    Lemma on_independent m c : (m <= N)%nat -> (forall i, (i < N)%nat -> comb m V c i = c0) -> forall j, (j < m)%nat -> c j = c0.
    Proof.
      intros Hm Z j Hj. rewrite <- (on_coef N V On m c j Hm Hj). rewrite (hdot_ext N _ _ (col V j) (fun _ => c0)) by (first [intros; reflexivity|exact Z]). apply hdot_zero_r.
    Qed.
  End Given.
End Bands.

(** A smaller form gives lower bands. *)
Lemma bands_mono N op op' V V' w w' : hermitian_op N op -> hermitian_op N op' -> bands N op V w -> bands N op' V' w' ->
  (forall z, form N op' z <= form N op z) -> forall a, (a < N)%nat -> w' a <= w a.
Proof.
  intros HA HA' HB HB' F a Ha. apply (courant N op' HA' V' w' HB' a V); [exact Ha| |].
  - intro c. apply (on_independent N op V w HB). lia.
  - intro c. apply Rle_trans with (1 := F _). now apply (span_most N op HA V w HB).
Qed.
Lemma bands_unique N op V V' w w' : hermitian_op N op -> bands N op V w -> bands N op V' w' -> forall a, (a < N)%nat -> w a = w' a.
Proof.
  intros HA HB HB' a Ha. apply Rle_antisym; [apply (bands_mono N op op V' V w' w)|apply (bands_mono N op op V V' w w')]; auto; intros; lra.
Qed.
