(** Real matrices that are symmetric for a positive weight: complete sets of eigenvectors. *)
From Coq Require Import List Arith ZArith Lia Bool Reals Lra Psatz.
From Verif.Lib Require Import Num Sums Idx Mat RealF BoxMin.
From Verif.Proofs Require Import SpectralP.
Import ListNotations.
Local Open Scope R_scope.

Lemma sum_re n (F : nat -> cpx) : sumN (K := CC) n F = mkC (rs n (fun i => cre (F i))) (rs n (fun i => cim (F i))).
Proof. apply cpx_ext; [apply re_sum|apply im_sum]. Qed.

Section Real.
  Variables (n : nat) (M : mat CC) (w : nat -> R).
  Hypothesis Hw : forall i, (i < n)%nat -> 0 < w i.
  Hypothesis Hr : forall i j, (i < n)%nat -> (j < n)%nat -> cim (M i j) = 0.
  Hypothesis Hs : forall i j, (i < n)%nat -> (j < n)%nat -> w i * cre (M i j) = w j * cre (M j i).

  Definition coefw (V : nat -> nat -> R) (x : vect CC) (a : nat) : cpx := sumN (K := CC) n (fun q => cmul (mkC (w q * V a q) 0) (x q)).

  Lemma real_complete : exists (V : nat -> nat -> R) (lam : nat -> R),
    (forall a b, (a < n)%nat -> (b < n)%nat -> rs n (fun q => w q * (V a q * V b q)) = if (a =? b)%nat then 1 else 0) /\
    (forall a q, (a < n)%nat -> (q < n)%nat -> mv (K := CC) n M (fun q => mkC (V a q) 0) q = cmul (mkC (lam a) 0) (mkC (V a q) 0)) /\
    (forall a b, (a <= b)%nat -> (b < n)%nat -> lam b <= lam a) /\
    (forall (x : vect CC) q, (q < n)%nat -> x q = sumN (K := CC) n (fun a => cmul (coefw V x a) (mkC (V a q) 0))).
  Proof.
    destruct (weighted_spectral n w (fun i j => - (w i * cre (M i j)))) as (U & lam & On & Ev & _ & So & Cp).
    - exact Hw.
    - intros i j Hi Hj. now rewrite (Hs i j Hi Hj).
    - exists (fun a q => U q a), (fun a => - lam a). split; [exact On|]. split; [|split].
      + intros a q Ha Hq. pose proof (Ev a q Ha Hq) as E. unfold mv. etransitivity; [apply sum_re|]. pose proof (Hw q Hq) as Pq.
        rewrite (rs_ext n (fun i => cim _) (fun _ => 0)) by (intros j Hj; cbn; rewrite (Hr q j Hq Hj); ring).
        rewrite rs_const. rewrite (rs_ext n _ (fun j => - / w q * (- (w q * cre (M q j)) * U j a))).
        * rewrite rs_scale, E. apply cpx_ext; cbn; field; lra.
        * intros j Hj. cbn. field. lra.
      + intros a b Hab Hb. pose proof (So a b Hab Hb). lra.
      + intros x q Hq. apply cpx_ext.
        * rewrite re_sum. rewrite (Cp (fun i => cre (x i)) q Hq). apply rs_ext. intros a Ha. unfold coefw. rewrite sum_re.
          cbn [cmul cre cim]. rewrite Rmult_0_r, Rminus_0_r. f_equal. apply rs_ext. intros j Hj. cbn. ring.
        * rewrite im_sum. rewrite (Cp (fun i => cim (x i)) q Hq). apply rs_ext. intros a Ha. unfold coefw. rewrite sum_re.
          cbn [cmul cre cim]. rewrite Rmult_0_r, Rplus_0_l. f_equal. apply rs_ext. intros j Hj. cbn. ring.
  Qed.
End Real.

Section Coef.
  Variables (n : nat) (M : mat CC) (w : nat -> R) (V : nat -> nat -> R) (lam : nat -> R).
  Hypothesis Hr : forall i j, (i < n)%nat -> (j < n)%nat -> cim (M i j) = 0.
  Hypothesis Hs : forall i j, (i < n)%nat -> (j < n)%nat -> w i * cre (M i j) = w j * cre (M j i).
  Hypothesis On : forall a b, (a < n)%nat -> (b < n)%nat -> rs n (fun q => w q * (V a q * V b q)) = if (a =? b)%nat then 1 else 0.
  Hypothesis Ev : forall a q, (a < n)%nat -> (q < n)%nat -> mv (K := CC) n M (fun q => mkC (V a q) 0) q = cmul (mkC (lam a) 0) (mkC (V a q) 0).

  Lemma coefw_comb (c : nat -> cpx) (x : vect CC) a : (a < n)%nat -> (forall q, (q < n)%nat -> x q = sumN (K := CC) n (fun b => cmul (c b) (mkC (V b q) 0))) -> coefw n w V x a = c a.
  Proof.
    intros Ha Hx. unfold coefw.
    transitivity (sumN (K := CC) n (fun q => sumN (K := CC) n (fun b => cmul (c b) (mkC (w q * (V a q * V b q)) 0)))).
    - apply (sumN_ext CC). intros q Hq. rewrite (Hx q Hq). refine (eq_trans (eq_sym (sumN_mul_l CC n _ _)) _). apply (sumN_ext CC). intros b Hb. apply cpx_ext; cbn; ring.
    - refine (eq_trans (sumN_swap CC n n _) _).
      transitivity (sumN (K := CC) n (fun b => cmul (c b) (mkC (if (a =? b)%nat then 1 else 0) 0))).
      + apply (sumN_ext CC). intros b Hb. refine (eq_trans (sumN_mul_l CC n (c b) _) _). refine (f_equal (cmul (c b)) _).
        rewrite sum_re. cbn [cre cim]. rewrite (On a b Ha Hb), rs_const. apply cpx_ext; cbn; ring.
      + refine (eq_trans (sumN_single CC n _ a Ha _) _).
        * intros b Hb Nb. destruct (Nat.eqb_spec a b); [now subst|]. apply cpx_ext; cbn; ring.
        * rewrite Nat.eqb_refl. apply cpx_ext; cbn; ring.
  Qed.
  Lemma coefw_op x a : (a < n)%nat -> coefw n w V (mv (K := CC) n M x) a = cmul (mkC (lam a) 0) (coefw n w V x a).
  Proof.
    intro Ha. unfold coefw. 
    transitivity (sumN (K := CC) n (fun q => sumN (K := CC) n (fun r => cmul (cmul (mkC (w q * V a q) 0) (M q r)) (x r)))).
    - apply (sumN_ext CC). intros q Hq. unfold mv. refine (eq_trans (eq_sym (sumN_mul_l CC n _ _)) _). apply (sumN_ext CC). intros r Hr'. apply cpx_ext; cbn; ring.
    - refine (eq_trans (sumN_swap CC n n _) _). refine (eq_trans _ (sumN_mul_l CC n _ _)). apply (sumN_ext CC). intros r Hr'.
      transitivity (cmul (cmul (mkC (w r) 0) (mv (K := CC) n M (fun q => mkC (V a q) 0) r)) (x r)).
      + unfold mv. transitivity (sumN (K := CC) n (fun q => cmul (x r) (cmul (mkC (w r) 0) (cmul (M r q) (mkC (V a q) 0))))).
        * apply (sumN_ext CC). intros q Hq. pose proof (Hs q r Hq Hr') as S. pose proof (Hr q r Hq Hr') as I1. pose proof (Hr r q Hr' Hq) as I2.
          apply cpx_ext; cbn; rewrite I1, I2.
          -- transitivity (w q * cre (M q r) * V a q * cre (x r)); [ring|]. rewrite S. ring.
          -- transitivity (w q * cre (M q r) * V a q * cim (x r)); [ring|]. rewrite S. ring.
        * refine (eq_trans (sumN_mul_l CC n _ _) _). refine (eq_trans (f_equal (cmul (x r)) (sumN_mul_l CC n _ _)) _). set (X := sumN n _). clearbody X. apply cpx_ext; cbn; ring.
      + rewrite (Ev a r Ha Hr'). apply cpx_ext; cbn; ring.
  Qed.
End Coef.

(** Sums of eigenvectors never reach a generalised eigenvector. *)
Section Jordan.
  Variables (n : nat) (M : mat CC).
  Definition eig_of (l : cpx) (u : vect CC) : Prop := veq (K := CC) n (mv (K := CC) n M u) (fun q => cmul l (u q)).
  Fixpoint csum (F : cpx * vect CC -> cpx) (L : list (cpx * vect CC)) : cpx := match L with [] => c0 | p :: L => cadd (F p) (csum F L) end.
  Definition total (L : list (cpx * vect CC)) : vect CC := fun q => csum (fun p => snd p q) L.
  Lemma mv_total L q : mv (K := CC) n M (total L) q = csum (fun p => mv (K := CC) n M (snd p) q) L.
  Proof.
    induction L as [|p L IH].
    - cbn. unfold mv. apply (sumN_zero CC). intros. apply cpx_ext; cbn; ring.
    - cbn [csum]. rewrite <- IH. unfold mv. refine (eq_trans _ (sumN_add CC n _ _)). apply (sumN_ext CC). intros r Hr.
      change (total (p :: L) r) with (cadd (snd p r) (total L r)). set (t := total L r). clearbody t. apply cpx_ext; cbn; ring.
  Qed.
  Lemma csum_ext F G L : (forall p, In p L -> F p = G p) -> csum F L = csum G L.
  Proof. induction L as [|p L IH]; intro H; [reflexivity|]. cbn [csum]. rewrite (H p) by now left. rewrite IH; [reflexivity|]. intros r Hr. apply H. now right. Qed.
  Lemma csum_mul c F L : csum (fun p => cmul c (F p)) L = cmul c (csum F L).
  Proof. induction L as [|p L IH]; cbn [csum]; [apply cpx_ext; cbn; ring|]. rewrite IH. apply cpx_ext; cbn; ring. Qed.
  Lemma csum_sub F G L : csum (fun p => csub (F p) (G p)) L = csub (csum F L) (csum G L).
  Proof. induction L as [|p L IH]; cbn [csum]; [apply cpx_ext; cbn; ring|]. rewrite IH. apply cpx_ext; cbn; ring. Qed.
  Lemma csum_map F g L : csum F (map g L) = csum (fun p => F (g p)) L.
  Proof. induction L as [|p L IH]; [reflexivity|]. cbn [csum map]. now rewrite IH. Qed.
  Lemma csum_filter F P L : (forall p, In p L -> P p = false -> F p = c0) -> csum F L = csum F (filter P L).
  Proof.
    induction L as [|p L IH]; intro H; [reflexivity|]. cbn [csum filter]. rewrite IH by (intros r Hr; apply H; now right).
    destruct (P p) eqn:Q; [reflexivity|]. rewrite (H p) by (try (now left); exact Q). apply cpx_ext; cbn; ring.
  Qed.
  Lemma total_eig L q : (q < n)%nat -> (forall p, In p L -> eig_of (fst p) (snd p)) -> mv (K := CC) n M (total L) q = csum (fun p => cmul (fst p) (snd p q)) L.
  Proof. intros Hq H. rewrite mv_total. apply csum_ext. intros p Hp. exact (H p Hp q Hq). Qed.
  Lemma eig_scale c l u : eig_of l u -> eig_of l (fun q => cmul c (u q)).
  Proof.
    intros E q Hq. transitivity (cmul c (mv (K := CC) n M u q)).
    - unfold mv. refine (eq_trans _ (sumN_mul_l CC n _ _)). apply (sumN_ext CC). intros. apply cpx_ext; cbn; ring.
    - rewrite (E q Hq). apply cpx_ext; cbn; ring.
  Qed.
  (** (M - a) applied to a sum of eigenvectors. *)
  Definition lower (a : cpx) (L : list (cpx * vect CC)) : list (cpx * vect CC) := map (fun p => (fst p, fun q => cmul (csub (fst p) a) (snd p q))) L.
  Lemma lower_total a L q : (q < n)%nat -> (forall p, In p L -> eig_of (fst p) (snd p)) -> csub (mv (K := CC) n M (total L) q) (cmul a (total L q)) = total (lower a L) q.
  Proof.
    intros Hq H. rewrite (total_eig L q Hq H). unfold total, lower. rewrite csum_map, <- csum_mul, <- csum_sub. apply csum_ext. intros [a1 u1] _. cbn [fst snd]. set (t := u1 q). clearbody t. change cpx in t. apply cpx_ext; cbn; ring.
  Qed.
  Lemma lower_eig a L p : (forall p, In p L -> eig_of (fst p) (snd p)) -> In p (lower a L) -> eig_of (fst p) (snd p).
  Proof. intros H Hp. unfold lower in Hp. apply in_map_iff in Hp. destruct Hp as (r & <- & Hr). cbn [fst snd]. apply eig_scale. now apply H. Qed.
  Lemma independent_eig m : forall L l v, length L = m -> (forall p, In p L -> eig_of (fst p) (snd p)) -> (forall p, In p L -> fst p <> l) -> eig_of l v ->
    (forall q, (q < n)%nat -> v q = total L q) -> forall q, (q < n)%nat -> v q = c0.
  Proof.
    induction m as [|m IH]; intros L l v Hm H Hl Ev Hv q Hq.
    { destruct L; [exact (Hv q Hq)|discriminate]. }
    destruct L as [|[l1 u1] L]; [discriminate|]. injection Hm as Hm.
    assert (Z : cmul (csub l l1) (v q) = c0).
    { apply (IH (lower l1 L) l (fun q => cmul (csub l l1) (v q))).
      - unfold lower. now rewrite map_length.
      - intros p Hp. apply (lower_eig l1 L p); [|exact Hp]. intros r Hr. apply H. now right.
      - intros p Hp. unfold lower in Hp. apply in_map_iff in Hp. destruct Hp as (r & <- & Hr). cbn [fst]. apply Hl. now right.
      - now apply eig_scale.
      - intros k Hk. transitivity (csub (mv (K := CC) n M v k) (cmul l1 (v k))); [rewrite (Ev k Hk); apply cpx_ext; cbn; ring|].
        rewrite (Hv k Hk), (mv_ext_v CC n M v (total ((l1, u1) :: L)) k) by exact Hv. rewrite (lower_total l1 _ k Hk H).
        unfold lower. cbn [map]. unfold total. cbn [csum fst snd]. set (t := csum _ _). clearbody t. apply cpx_ext; cbn; ring.
      - exact Hq. }
    assert (D : csub l l1 <> c0).
    { intro C. apply (Hl (l1, u1)); [now left|]. cbn [fst]. apply cpx_ext; [apply (f_equal cre) in C|apply (f_equal cim) in C]; cbn in C; lra. }
    destruct (fmul_integral CC _ _ Z) as [C|C]; [contradiction|exact C].
  Qed.
  (** A generalised eigenvector is no sum of eigenvectors. *)
  Lemma chain_not_sum L l v w k : (k < n)%nat -> v k <> c0 -> eig_of l v -> veq (K := CC) n (mv (K := CC) n M w) (fun q => cadd (cmul l (w q)) (v q)) ->
    (forall p, In p L -> eig_of (fst p) (snd p)) -> ~ (forall q, (q < n)%nat -> w q = total L q).
  Proof.
    intros Hk Nv Ev Ew H Hw. apply Nv.
    set (P := fun p : cpx * vect CC => if (feq_dec (f := CC)) (fst p) l then false else true).
    apply (independent_eig (length (filter P (lower l L))) (filter P (lower l L)) l v eq_refl); [| |exact Ev| |exact Hk].
    - intros p Hp. apply filter_In in Hp. now apply (lower_eig l L).
    - intros p Hp. apply filter_In in Hp. destruct Hp as [_ Hp]. unfold P in Hp. destruct ((feq_dec (f := CC)) (fst p) l); [discriminate|assumption].
    - intros q Hq. transitivity (total (lower l L) q).
      + rewrite <- (lower_total l L q Hq H). rewrite <- (Hw q Hq), <- (mv_ext_v CC n M w (total L) q) by exact Hw. rewrite (Ew q Hq). apply cpx_ext; cbn; ring.
      + unfold total. apply csum_filter. intros p Hp Fp. unfold lower in Hp. apply in_map_iff in Hp. destruct Hp as (r & <- & _).
        unfold P in Fp. cbn [fst snd] in *. destruct (feq_dec (f := CC) (fst r) l) as [C|C]; [|discriminate]. rewrite C. set (t := snd r q). clearbody t. change cpx in t. apply cpx_ext; cbn; ring.
  Qed.
End Jordan.
