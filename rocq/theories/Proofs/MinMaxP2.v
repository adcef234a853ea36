(** The objective of eigsolve and the modes it returns, compared with the bands. *)
From Coq Require Import Reals List Arith ZArith Lia Lra Psatz Bool Field Sorted Permutation.
From Verif.Lib Require Import Num Sums Idx Mat RealF Elim BoxMin.
From Verif.Model Require Import Ndarray Bloch Eigensolvers BlochSolve.
From Verif.Spec Require Import BlochSpec EigenSpec BlochSolveSpec BandsSpec.
From Verif.Proofs Require Import EmeP EigensolversP BlochSolveP SpectralP MinMaxP.
Import ListNotations.
Local Open Scope R_scope.

Lemma cmul_comm (a b : cpx) : cmul a b = cmul b a.
Proof. apply cpx_ext; cbn; ring. Qed.
Lemma rs_first N k (f : nat -> R) : (k <= N)%nat -> rs N (fun b => (if (b <? k)%nat then f b else 0) : R) = rs k f.
Proof.
  intro H. replace N with (k + (N - k))%nat by lia. rewrite rs_app. rewrite (rs_ext k _ f).
  - rewrite (sumN_zero RF (N - k)); [cbn; ring|]. intros i Hi. destruct (Nat.ltb_spec (k + i) k); [lia|reflexivity].
  - intros i Hi. destruct (Nat.ltb_spec i k); [reflexivity|lia].
Qed.
(** Weights between 0 and 1 of total k: the least weighted sum takes the first k. *)
Lemma bathtub N k (w p : nat -> R) : (forall a b, (a <= b)%nat -> (b < N)%nat -> w a <= w b) -> (forall b, (b < N)%nat -> 0 <= p b <= 1) -> rs N p = INR k ->
  (k <= N)%nat /\ rs k w <= rs N (fun b => w b * p b).
Proof.
  intros Sw Hp Sp.
  assert (Hk : (k <= N)%nat).
  { apply INR_le. rewrite <- Sp. rewrite <- (Rmult_1_r (INR N)), <- rs_const. apply rs_le. intros; now apply Hp. }
  split; [exact Hk|]. destruct k as [|k].
  - cbn [sumN INR] in *. rewrite (sumN_zero RF N); [cbn; lra|]. intros b Hb. pose proof (rs_ge_term N p b Hb (fun i Hi => proj1 (Hp i Hi))) as T. rewrite Sp in T. cbn in T. pose proof (Hp b Hb).
    replace (p b) with 0 by lra. change (w b * 0 = 0). ring.
  - set (t := w k). rewrite <- (rs_first N (S k) w Hk).
    assert (Z : rs N (fun b => t * (p b - if (b <? S k)%nat then 1 else 0)) = 0).
    { rewrite rs_scale, rs_sub, Sp. pose proof (rs_first N (S k) (fun _ => 1) Hk) as Q. rewrite rs_const, Rmult_1_r in Q. cbv beta in Q |- *.
      rewrite Q. match goal with |- _ = ?b => change (t * (INR (S k) - INR (S k)) = 0) end. ring. }
    assert (L : rs N (fun b => t * (p b - if (b <? S k)%nat then 1 else 0)) <= rs N (fun b => w b * p b - if (b <? S k)%nat then w b else 0)).
    { apply rs_le. intros b Hb. pose proof (Hp b Hb). destruct (Nat.ltb_spec b (S k)).
      - pose proof (Sw b k ltac:(lia) ltac:(lia)). fold t in H1. nra.
      - pose proof (Sw k b ltac:(lia) Hb). fold t in H1. nra. }
    rewrite Z, rs_sub in L. lra.
Qed.

Section KyFan.
  Variables (N k : nat) (op : vect CC -> option (vect CC)) (V : mat CC) (w : nat -> R).
  Hypothesis HA : hermitian_op N op.
  Hypothesis HB : bands N op V w.
  Let On := b_orth _ _ _ _ HB.
  Variables (Z U : mat CC).
  Hypothesis HU : is_inverse k (fun i j => hdot N (col Z i) (col Z j)) U.
  Let y (b : nat) : vect CC := fun i => hdot N (col Z i) (col V b).
  Let p (b : nat) : cpx := hdot k (y b) (mv (K := CC) k U (y b)).
  Lemma weight_real b : cim (p b) = 0 /\ 0 <= cre (p b).
  Proof.
    pose proof (inverse_posdef N k Z U HU) as (Uh & Up). assert (E : p b = cconj (p b)).
    { unfold p at 1. rewrite (herm_hdot k U Uh). rewrite hdot_conj. reflexivity. }
    split; [apply (f_equal cim) in E; cbn in E; lra|]. destruct (nonzero_dec k (y b)) as [Nz|Zz]; [left; exact (Up _ Nz)|].
    right. unfold p. rewrite (hdot_ext k (y b) _ (fun _ => c0) (mv (K := CC) k U (y b))) by (first [exact Zz|intros; reflexivity]). rewrite hdot_conj, hdot_zero_r. cbn. ring.
  Qed.
  Lemma weight_le b : (b < N)%nat -> cre (p b) <= 1.
  Proof.
    intro Hb. set (u := mv (K := CC) k U (y b)). set (r := fun i => csub (col V b i) (comb k Z u i)). pose proof (norm2_pos N r) as P.
    assert (E1 : hdot N (col V b) (comb k Z u) = p b).
    { rewrite hdot_comb_r. unfold p, hdot at 2. apply (sumN_ext CC). intros j _. unfold y. now rewrite (hdot_conj N (col Z j) (col V b)). }
    assert (E2 : hdot N (comb k Z u) (comb k Z u) = p b).
    { rewrite hdot_comb_l. transitivity (hdot k u (y b)).
      - change (hdot k u (y b)) with (sumN (K := CC) k (fun j => cmul (cconj (u j)) (y b j))). apply (sumN_ext CC). intros j Hj. f_equal. rewrite hdot_comb_r. unfold u, mv.
        transitivity (mm (K := CC) k (mm (K := CC) k (fun i j => hdot N (col Z i) (col Z j)) U) (fun q _ => y b q) j O).
        + rewrite (mm_assoc CC). reflexivity.
        + unfold mm at 1. rewrite <- (delta_l k j (y b) Hj). apply (sumN_ext CC). intros q Hq. now rewrite (inv_r k _ U j q HU Hj Hq).
      - pose proof (inverse_posdef N k Z U HU) as (Uh & _). unfold u. rewrite <- (herm_hdot k U Uh). reflexivity. }
    assert (E : mkC (norm2 N r) 0 = csub (cconj (csub c1 (p b))) (cconj (csub (cconj (p b)) (p b)))).
    { rewrite <- hdot_self. unfold r at 2. rewrite hdot_sub_r. rewrite (hdot_conj N (col V b) r), (hdot_conj N (comb k Z u) r). unfold r. rewrite !hdot_sub_r, E2, E1.
      rewrite (hdot_conj N (col V b) (comb k Z u)), E1. rewrite On, Nat.eqb_refl by exact Hb. apply cpx_ext; cbn; ring. }
    apply (f_equal cre) in E. cbn in E. lra.
  Qed.
  Lemma weights_total : rs N (fun b => cre (p b)) = INR k.
  Proof.
    rewrite <- re_sum. transitivity (cre (sumN (K := CC) k (fun i => sumN (K := CC) k (fun j => cmul (hdot N (col Z i) (col Z j)) (U j i))))).
    - f_equal. unfold p. unfold hdot at 1, mv.
      transitivity (sumN (K := CC) N (fun b => sumN (K := CC) k (fun j => sumN (K := CC) k (fun i => cmul (U j i) (cmul (y b i) (cconj (y b j))))))).
      { apply (sumN_ext CC). intros b _. apply (sumN_ext CC). intros j _. refine (eq_trans (eq_sym (sumN_mul_l CC _ _ _)) _). apply (sumN_ext CC). intros. apply cpx_ext; cbn; ring. }
      refine (eq_trans (sumN_swap CC _ _ _) _). refine (eq_trans _ (sumN_swap CC _ _ _)). apply (sumN_ext CC). intros j Hj.
      refine (eq_trans (sumN_swap CC _ _ _) _). apply (sumN_ext CC). intros i Hi. refine (eq_trans (sumN_mul_l CC _ _ _) _).
      rewrite (parseval N V On (col Z i) (col Z j)). refine (eq_trans _ (cmul_comm _ _)). refine (f_equal (cmul (U j i)) _). apply (sumN_ext CC). intros b _. unfold y.
      rewrite (hdot_conj N (col V b) (col Z i)), (hdot_conj N (col V b) (col Z j)). apply cpx_ext; cbn; ring.
    - rewrite re_sum. rewrite (rs_ext k _ (fun _ => 1)); [refine (eq_trans (rs_const k 1) _); apply Rmult_1_r|]. intros i Hi.
      change (cre (mm (K := CC) k (fun i j => hdot N (col Z i) (col Z j)) U i i) = 1). rewrite (inv_r k _ U i i HU Hi Hi), Nat.eqb_refl. reflexivity.
  Qed.
  Lemma trace_weights : cre (sumN (K := CC) k (fun i => sumN (K := CC) k (fun j => cmul (hdot N (col Z i) (Af op (col Z j))) (U j i)))) = - rs N (fun b => w b * cre (p b)).
  Proof.
    transitivity (rs N (fun b => -1 * (w b * cre (p b)))); [|rewrite rs_scale; ring].
    transitivity (cre (sumN (K := CC) N (fun b => cmul (rc (- w b)) (p b)))).
    2:{ rewrite re_sum. apply rs_ext. intros. cbn. ring. }
    f_equal. unfold p. unfold hdot at 2, mv.
    transitivity (sumN (K := CC) N (fun b => sumN (K := CC) k (fun j => sumN (K := CC) k (fun i => cmul (U j i) (cmul (rc (- w b)) (cmul (y b i) (cconj (y b j)))))))).
    2:{ apply (sumN_ext CC). intros b _. refine (eq_trans _ (sumN_mul_l CC _ _ _)). apply (sumN_ext CC). intros j _.
        set (s := sumN (K := CC) k (fun j0 => fmul (U j j0) (y b j0))). transitivity (cmul (cmul (rc (- w b)) (cconj (y b j))) s); [|apply cpx_ext; cbn; ring].
        refine (eq_trans _ (sumN_mul_l CC _ _ _)). apply (sumN_ext CC). intros. apply cpx_ext; cbn; ring. }
    symmetry. refine (eq_trans (sumN_swap CC _ _ _) _). refine (eq_trans _ (sumN_swap CC _ _ _)). apply (sumN_ext CC). intros j Hj.
    refine (eq_trans (sumN_swap CC _ _ _) _). apply (sumN_ext CC). intros i Hi. refine (eq_trans (sumN_mul_l CC _ _ _) _).
    rewrite (parseval N V On (col Z i) (Af op (col Z j))). refine (eq_trans _ (cmul_comm _ _)). refine (f_equal (cmul (U j i)) _). apply (sumN_ext CC). intros b Hb. rewrite (band_coef N op HA V w HB b (col Z j) Hb). unfold y.
    rewrite (hdot_conj N (col V b) (col Z i)), (hdot_conj N (col V b) (col Z j)). apply cpx_ext; cbn; ring.
  Qed.
  Lemma ky_fan : (k <= N)%nat /\
    lowest k w <= - cre (sumN (K := CC) k (fun i => sumN (K := CC) k (fun j => cmul (hdot N (col Z i) (Af op (col Z j))) (U j i)))).
  Proof.
    rewrite trace_weights, Ropp_involutive. apply (bathtub N k w (fun b => cre (p b))); [exact (b_sorted _ _ _ _ HB)| |exact weights_total].
    intros b Hb. split; [apply weight_real|now apply weight_le].
  Qed.
End KyFan.
