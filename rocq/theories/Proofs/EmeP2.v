(** The result of eme.get_tr does not depend on the choices of the SVD. *)
From Coq Require Import Reals List Arith ZArith Lia Lra Bool Field.
From Verif.Lib Require Import Num Sums Idx Mat RealF Elim.
From Verif.Model Require Import Fdmath Fdfd Waveguide2d Eme.
From Verif.Spec Require Import EmeSpec.
From Verif.Proofs Require Import FdfdP2 WaveguideRealP EigensolversP EmeP.
Import ListNotations.
Local Open Scope R_scope.
Notation cs := (sumN (K := CC)).

Lemma cs_ext n (f g : nat -> cpx) : (forall i, (i < n)%nat -> f i = g i) -> cs n f = cs n g.
Proof. exact (sumN_ext CC n f g). Qed.
Lemma cs_mul_l n (c : cpx) f : cs n (fun i => cmul c (f i)) = cmul c (cs n f).
Proof. exact (sumN_mul_l CC n c f). Qed.
Lemma cs_mul_r n (c : cpx) f : cs n (fun i => cmul (f i) c) = cmul (cs n f) c.
Proof. exact (sumN_mul_r CC n c f). Qed.
Lemma cs_swap n m (f : nat -> nat -> cpx) : cs n (fun i => cs m (fun j => f i j)) = cs m (fun j => cs n (fun i => f i j)).
Proof. exact (sumN_swap CC n m f). Qed.
Lemma cs_delta_l n k (f : nat -> cpx) : (k < n)%nat -> cs n (fun i => cmul (delta k i) (f i)) = f k.
Proof. exact (sumN_ind_l' CC n k f). Qed.
Lemma cs_delta_l' n k (f : nat -> cpx) : (k < n)%nat -> cs n (fun i => cmul (delta i k) (f i)) = f k.
Proof. exact (sumN_ind_l CC n k f). Qed.
Lemma delta_sym i j : delta i j = delta j i.
Proof. unfold delta. now rewrite Nat.eqb_sym. Qed.
Lemma conj_conj z : cconj (cconj z) = z.
Proof. apply cpx_ext; cbn; ring. Qed.
Lemma conj_cmul x y : cconj (cmul x y) = cmul (cconj x) (cconj y).
Proof. apply cpx_ext; cbn; ring. Qed.
Lemma conj_real x : cconj (mkC x 0) = mkC x 0.
Proof. apply cpx_ext; cbn; ring. Qed.

Section Svd.
  Variables (n : nat) (M U V : mat CC) (s : nat -> R).
  Hypothesis SV : is_svd n n M U s V.
  Lemma svd_entry i j : (i < n)%nat -> (j < n)%nat -> M i j = cs n (fun q => cmul (cmul (U i q) (mkC (s q) 0)) (V q j)).
  Proof. destruct SV as (_ & _ & _ & E). rewrite Nat.min_id in E. apply E. Qed.
  Lemma svd_nonneg q : (q < n)%nat -> 0 <= s q.
  Proof. destruct SV as (_ & _ & P & _). rewrite Nat.min_id in P. apply P. Qed.
  (** M V^H = U S *)
  Lemma svd_right q j : (q < n)%nat -> (j < n)%nat -> cs n (fun r => cmul (M q r) (cconj (V j r))) = cmul (U q j) (mkC (s j) 0).
  Proof.
    intros Hq Hj. destruct SV as (_ & (_ & V2) & _).
    transitivity (cs n (fun k => cmul (delta k j) (cmul (U q k) (mkC (s k) 0)))); [|exact (cs_delta_l' n j (fun k => cmul (U q k) (mkC (s k) 0)) Hj)].
    transitivity (cs n (fun r => cs n (fun k => cmul (cmul (U q k) (mkC (s k) 0)) (cmul (V k r) (cconj (V j r)))))).
    - apply cs_ext. intros r Hr. rewrite svd_entry by assumption. rewrite <- cs_mul_r. apply cs_ext. intros k _. cring.
    - rewrite cs_swap. apply cs_ext. intros k Hk. rewrite cs_mul_l, V2 by assumption. cring.
  Qed.
  (** U^H M = S V *)
  Lemma svd_left j r : (j < n)%nat -> (r < n)%nat -> cs n (fun q => cmul (cconj (U q j)) (M q r)) = cmul (mkC (s j) 0) (V j r).
  Proof.
    intros Hj Hr. destruct SV as ((U1 & _) & _).
    transitivity (cs n (fun k => cmul (delta j k) (cmul (mkC (s k) 0) (V k r)))); [|exact (cs_delta_l n j (fun k => cmul (mkC (s k) 0) (V k r)) Hj)].
    transitivity (cs n (fun q => cs n (fun k => cmul (cmul (mkC (s k) 0) (V k r)) (cmul (cconj (U q j)) (U q k))))).
    - apply cs_ext. intros q Hq. rewrite svd_entry by assumption. rewrite <- cs_mul_l. apply cs_ext. intros k _. cring.
    - rewrite cs_swap. apply cs_ext. intros k Hk. rewrite cs_mul_l, U1 by assumption. cring.
  Qed.
End Svd.

(** U f(S) V is the same for all decompositions, if f 0 = 0. *)
Lemma svd_fun_unique n M U V s U' V' s' (f : R -> R) : is_svd n n M U s V -> is_svd n n M U' s' V' -> f 0 = 0 ->
  forall p q, (p < n)%nat -> (q < n)%nat ->
  cs n (fun j => cmul (cmul (U p j) (mkC (f (s j)) 0)) (V j q)) = cs n (fun j => cmul (cmul (U' p j) (mkC (f (s' j)) 0)) (V' j q)).
Proof.
  intros S1 S2 F0 p q Hp Hq.
  set (Y := fun i j => cs n (fun k => cmul (cconj (U' k i)) (U k j))). set (X := fun i j => cs n (fun k => cmul (V' i k) (cconj (V j k)))).
  assert (A : forall i j, (i < n)%nat -> (j < n)%nat -> cmul (Y i j) (mkC (s j) 0) = cmul (mkC (s' i) 0) (X i j)).
  { intros i j Hi Hj. unfold Y. rewrite <- cs_mul_r. transitivity (cs n (fun k => cs n (fun r => cmul (cmul (cconj (U' k i)) (M k r)) (cconj (V j r))))).
    - apply cs_ext. intros k Hk. transitivity (cmul (cconj (U' k i)) (cmul (U k j) (mkC (s j) 0))); [cring|]. rewrite <- (svd_right n M U V s S1 k j Hk Hj), <- cs_mul_l. apply cs_ext. intros r _. cring.
    - rewrite cs_swap. unfold X. rewrite <- cs_mul_l. apply cs_ext. intros r Hr. rewrite cs_mul_r, (svd_left n M U' V' s' S2 i r Hi Hr). cring. }
  assert (B : forall i j, (i < n)%nat -> (j < n)%nat -> cmul (X i j) (mkC (s j) 0) = cmul (mkC (s' i) 0) (Y i j)).
  { intros i j Hi Hj. unfold X. rewrite <- cs_mul_r. transitivity (cs n (fun r => cs n (fun k => cmul (U k j) (cmul (cconj (M k r)) (V' i r))))).
    - apply cs_ext. intros r Hr. pose proof (f_equal cconj (svd_left n M U V s S1 j r Hj Hr)) as E. rewrite cconj_sum, conj_cmul, conj_real in E.
      transitivity (cmul (V' i r) (cmul (mkC (s j) 0) (cconj (V j r)))); [cring|]. rewrite <- E, <- cs_mul_l. apply cs_ext. intros k _. rewrite conj_cmul, conj_conj. cring.
    - rewrite cs_swap. unfold Y. rewrite <- cs_mul_l. apply cs_ext. intros k Hk. rewrite cs_mul_l.
      pose proof (f_equal cconj (svd_right n M U' V' s' S2 k i Hk Hi)) as E. rewrite cconj_sum, conj_cmul, conj_real in E.
      assert (E2 : cs n (fun r => cmul (cconj (M k r)) (V' i r)) = cmul (cconj (U' k i)) (mkC (s' i) 0)).
      { rewrite <- E. apply cs_ext. intros r _. rewrite conj_cmul, conj_conj. reflexivity. }
      rewrite E2. cring. }
  assert (C : forall i j, (i < n)%nat -> (j < n)%nat -> cmul (Y i j) (mkC (f (s j)) 0) = cmul (mkC (f (s' i)) 0) (X i j)).
  { intros i j Hi Hj. pose proof (A i j Hi Hj) as E1. pose proof (B i j Hi Hj) as E2. pose proof (svd_nonneg n M U V s S1 j Hj) as P1. pose proof (svd_nonneg n M U' V' s' S2 i Hi) as P2.
    set (y := Y i j) in *. set (x := X i j) in *. clearbody x y. destruct x as [xr xi], y as [yr yi]. set (a := s j) in *. set (b := s' i) in *. clearbody a b.
    injection E1 as R1 I1. injection E2 as R2 I2. cbn in R1, I1, R2, I2.
    assert (Ra : yr * a = b * xr) by lra. assert (Rb : yi * a = b * xi) by lra. assert (Rc : xr * a = b * yr) by lra. assert (Rd : xi * a = b * yi) by lra. clear R1 I1 R2 I2.
    destruct (Req_dec a b) as [<-|Nab].
    - destruct (Req_dec a 0) as [->|Na]; [rewrite F0; apply cpx_ext; cbn; ring|].
      assert (yr = xr) by (apply (Rmult_eq_reg_l a); lra). assert (yi = xi) by (apply (Rmult_eq_reg_l a); lra). subst. apply cpx_ext; cbn; ring.
    - assert (Z : forall x y, y * a = b * x -> x * a = b * y -> x = 0 /\ (y = 0)).
      { intros x y e1 e2. assert (N : a * a - b * b <> 0) by (intro Q; apply Nab; nra).
        assert (x * (a * a - b * b) = 0) by nra. assert (y * (a * a - b * b) = 0) by nra. split.
        - destruct (Rmult_integral _ _ H); [assumption|contradiction].
        - destruct (Rmult_integral _ _ H0); [assumption|contradiction]. }
      destruct (Z xr yr Ra Rc) as (-> & ->). destruct (Z xi yi Rb Rd) as (-> & ->). apply cpx_ext; cbn; ring. }
  assert (HU : forall j, (j < n)%nat -> U p j = cs n (fun i => cmul (U' p i) (Y i j))).
  { intros j Hj. destruct S2 as ((_ & U2) & _). unfold Y.
    transitivity (cs n (fun k => cmul (delta p k) (U k j))); [symmetry; exact (cs_delta_l n p (fun k => U k j) Hp)|].
    transitivity (cs n (fun k => cs n (fun i => cmul (cmul (U' p i) (cconj (U' k i))) (U k j)))).
    - apply cs_ext. intros k Hk. rewrite cs_mul_r, U2 by assumption. reflexivity.
    - rewrite cs_swap. apply cs_ext. intros i _. rewrite <- cs_mul_l. apply cs_ext. intros k _. cring. }
  assert (HV : forall i, (i < n)%nat -> V' i q = cs n (fun j => cmul (X i j) (V j q))).
  { intros i Hi. destruct S1 as (_ & (V1 & _) & _). unfold X.
    transitivity (cs n (fun k => cmul (delta k q) (V' i k))); [symmetry; exact (cs_delta_l' n q (fun k => V' i k) Hq)|].
    transitivity (cs n (fun k => cs n (fun j => cmul (cmul (V' i k) (cconj (V j k))) (V j q)))).
    - apply cs_ext. intros k Hk. rewrite <- (V1 k q Hk Hq), <- cs_mul_r. apply cs_ext. intros j _. cring.
    - rewrite cs_swap. apply cs_ext. intros j _. rewrite <- cs_mul_r. reflexivity. }
  transitivity (cs n (fun j => cs n (fun i => cmul (U' p i) (cmul (cmul (Y i j) (mkC (f (s j)) 0)) (V j q))))).
  - apply cs_ext. intros j Hj. rewrite (HU j Hj), <- !cs_mul_r. apply cs_ext. intros i _. cring.
  - rewrite cs_swap. apply cs_ext. intros i Hi. rewrite (HV i Hi), <- cs_mul_l. apply cs_ext. intros j Hj. rewrite (C i j Hi Hj). cring.
Qed.

Definition clip1 (x : R) : R := if Rlt_dec 1 x then 1 / x else x.
Lemma clip1_0 : clip1 0 = 0.
Proof. unfold clip1. destruct (Rlt_dec 1 0); lra. Qed.
Lemma usv_entry n (U V : mat CC) s p q : (p < n)%nat -> (q < n)%nat ->
  mm (K := CC) n (mm (K := CC) n U (mdiag (K := CC) (fun i => mkC (clip s i) 0))) V p q = cs n (fun j => cmul (cmul (U p j) (mkC (clip1 (s j)) 0)) (V j q)).
Proof.
  intros Hp Hq. apply cs_ext. intros j Hj. refine (f_equal (fun z => cmul z (V j q)) _).
  transitivity (cs n (fun k => cmul (delta k j) (cmul (U p k) (mkC (clip s k) 0)))).
  - apply cs_ext. intros k _. unfold mdiag, delta. destruct (k =? j)%nat; apply cpx_ext; cbn; ring.
  - exact (cs_delta_l' n j (fun k => cmul (U p k) (mkC (clip s k) 0)) Hj).
Qed.
Lemma svd_ext n M M' U s V : (forall i j, (i < n)%nat -> (j < n)%nat -> M i j = M' i j) -> is_svd n n M U s V -> is_svd n n M' U s V.
Proof. intros E (A & B & C & D). split; [exact A|]. split; [exact B|]. split; [exact C|]. intros i j Hi Hj. rewrite <- E by assumption. now apply D. Qed.
Lemma svd_transpose n M U s V : is_svd n n M U s V -> is_svd n n (mtr M) (mtr V) s (mtr U).
Proof.
  intros ((U1 & U2) & (V1 & V2) & P & E). rewrite Nat.min_id in P, E. split; [|split; [|rewrite Nat.min_id; split; [exact P|]]].
  - split; intros i j Hi Hj; [rewrite delta_sym, <- (V2 j i Hj Hi)|rewrite delta_sym, <- (V1 j i Hj Hi)]; apply cs_ext; intros q _; unfold mtr; cring.
  - split; intros i j Hi Hj; [rewrite delta_sym, <- (U2 j i Hj Hi)|rewrite delta_sym, <- (U1 j i Hj Hi)]; apply cs_ext; intros q _; unfold mtr; cring.
  - intros i j Hi Hj. unfold mtr. rewrite (E j i Hj Hi). apply cs_ext. intros q _. cring.
Qed.
(** Rows picked by t and multiplied by phases b, columns by s and a. *)
Definition bij (n : nat) (s si : nat -> nat) : Prop := forall i, (i < n)%nat -> (s i < n)%nat /\ (si i < n)%nat /\ si (s i) = i /\ s (si i) = i.
Lemma bij_sum n s si (f : nat -> cpx) : bij n s si -> cs n (fun i => f (s i)) = cs n f.
Proof. intro B. apply (sumN_reindex CC n f s si); intros i Hi; apply (B i Hi). Qed.
Lemma bij_delta n s si i j : bij n s si -> (i < n)%nat -> (j < n)%nat -> delta (s i) (s j) = delta i j.
Proof.
  intros B Hi Hj. unfold delta. destruct (Nat.eqb_spec (s i) (s j)) as [E|E], (Nat.eqb_spec i j) as [F|F]; try reflexivity; exfalso.
  - apply F. rewrite <- (proj1 (proj2 (proj2 (B i Hi)))), <- (proj1 (proj2 (proj2 (B j Hj)))). now f_equal.
  - apply E. now f_equal.
Qed.
Definition phase (z : cpx) : Prop := cmul (cconj z) z = c1.
Lemma phase_mix n t ti (b : nat -> cpx) U : bij n t ti -> (forall i, (i < n)%nat -> phase (b i)) -> unitary n U -> unitary n (fun r i => cmul (b r) (U (t r) i)).
Proof.
  intros B P (U1 & U2). split; intros i j Hi Hj.
  - rewrite <- (U1 i j Hi Hj). refine (eq_trans _ (bij_sum n t ti (fun q => cmul (cconj (U q i)) (U q j)) B)). apply cs_ext. intros q Hq. rewrite conj_cmul. transitivity (cmul (cmul (cconj (b q)) (b q)) (cmul (cconj (U (t q) i)) (U (t q) j))); [cring|]. rewrite (P q Hq). cring.
  - transitivity (cmul (cmul (b i) (cconj (b j))) (cs n (fun q => cmul (U (t i) q) (cconj (U (t j) q))))).
    + rewrite <- cs_mul_l. apply cs_ext. intros q _. rewrite conj_cmul. cring.
    + rewrite U2 by (apply (B _); assumption). rewrite (bij_delta n t ti i j B Hi Hj). unfold delta. destruct (Nat.eqb_spec i j) as [->|]; [|cring].
      transitivity (cmul (cconj (b j)) (b j)); [cring|exact (P j Hj)].
Qed.
Lemma unitary_tr n U : unitary n U -> unitary n (mtr U).
Proof.
  intros (U1 & U2). split; intros i j Hi Hj; [rewrite delta_sym, <- (U2 j i Hj Hi)|rewrite delta_sym, <- (U1 j i Hj Hi)]; apply cs_ext; intros q _; unfold mtr; cring.
Qed.
Lemma svd_mix n M U st V t ti s si (a b : nat -> cpx) : bij n t ti -> bij n s si -> (forall i, (i < n)%nat -> phase (a i)) -> (forall i, (i < n)%nat -> phase (b i)) ->
  is_svd n n M U st V -> is_svd n n (fun r l => cmul (b r) (cmul (M (t r) (s l)) (a l))) (fun r i => cmul (b r) (U (t r) i)) st (fun i l => cmul (V i (s l)) (a l)).
Proof.
  intros Bt Bs Pa Pb (HU & HV & P & E). rewrite Nat.min_id in P, E. split; [now apply (phase_mix n t ti)|]. split; [|rewrite Nat.min_id; split; [exact P|]].
  - pose proof (unitary_tr n _ (phase_mix n s si a (mtr V) Bs Pa (unitary_tr n V HV))) as (W1 & W2). split; intros i j Hi Hj; [rewrite <- (W1 i j Hi Hj)|rewrite <- (W2 i j Hi Hj)]; apply cs_ext; intros q _; unfold mtr; rewrite ?conj_cmul; cring.
  - intros i j Hi Hj. rewrite (E (t i) (s j)) by (apply (Bt i Hi) || apply (Bs j Hj)). rewrite <- cs_mul_r, <- cs_mul_l. apply cs_ext. intros q _. cring.
Qed.

Lemma mdiag_mm n (d : nat -> cpx) (N : mat CC) i j : (i < n)%nat -> mm (K := CC) n (mdiag (K := CC) d) N i j = cmul (d i) (N i j).
Proof.
  intro Hi. refine (eq_trans _ (cs_delta_l n i (fun k => cmul (d k) (N k j)) Hi)). apply cs_ext. intros k _. unfold mdiag, delta. destruct (Nat.eqb_spec i k) as [->|]; apply cpx_ext; cbn; ring.
Qed.

(** ** get_tr *)
Section Tr.
  Variables (sh : list nat) (dxes : dx2 CC).
  Notation A12 := (oA12 sh dxes). Notation A21 := (oA21 sh dxes). Notation oBB := (oB sh dxes).
  Definition summed (ehL ehR : modes) : mat CC := fun l r => cadd (A21 ehL ehR l r) (A12 ehL ehR l r).
  Definition lstsq_good (lstsq : nat -> nat -> nat -> mat CC -> mat CC -> option (mat CC)) := forall m n p A B X, lstsq m n p A B = Some X -> is_lstsq m n p A B X.
  Definition svd_good (svd : nat -> nat -> mat CC -> option (mat CC * (nat -> R) * mat CC)) := forall r c M U st V, svd r c M = Some (U, st, V) -> is_svd r c M U st V.
  (** What is decomposed solves the equations exactly. *)
  Lemma tr_unfold lstsq svd n ehL ehR tt rr : lstsq_good lstsq -> svd_good svd -> injective n n (summed ehL ehR) -> get_tr sh dxes lstsq svd n ehL n ehR = Some (tt, rr) ->
    exists X U st V, (forall q j, (q < n)%nat -> (j < n)%nat -> cs n (fun k => cmul (summed ehL ehR q k) (X k j)) = cmul (delta q j) (cmul ctwo (oBB ehL j))) /\
      is_svd n n X U st V /\
      (forall i j, (i < n)%nat -> (j < n)%nat -> ent tt i j = cs n (fun k => cmul (cmul (U i k) (mkC (clip1 (st k)) 0)) (V k j))) /\
      (forall i j, (i < n)%nat -> (j < n)%nat -> ent rr i j = cmul (cdiv chalf (oBB ehL i)) (cs n (fun k => cmul (csub (A21 ehL ehR i k) (A12 ehL ehR i k)) (ent tt k j)))).
  Proof.
    intros Lo Sv I H. destruct (get_tr_some _ _ _ _ _ _ _ _ _ H) as (X & U & st & V & EL & ES & -> & ->). exists X, U, st, V. cbn [ent].
    split; [|split; [now apply Sv|split]].
    - assert (Ex : exists T : mat CC, forall q j, (q < n)%nat -> (j < n)%nat -> cs n (fun k => cmul (summed ehL ehR q k) (T k j)) = mdiag (K := CC) (fun l => cmul ctwo (oBB ehL l)) q j).
      { assert (C : forall m, exists T : mat CC, forall q j, (q < n)%nat -> (j < m)%nat -> cs n (fun k => cmul (summed ehL ehR q k) (T k j)) = mdiag (K := CC) (fun l => cmul ctwo (oBB ehL l)) q j).
        { induction m as [|m (T & HT)]; [exists (fun _ _ => c0); intros; lia|]. destruct (injective_surjective CC n (summed ehL ehR) I (fun q => mdiag (K := CC) (fun l => cmul ctwo (oBB ehL l)) q m)) as (x & Ex).
          exists (fun k j => if (j =? m)%nat then x k else T k j). intros q j Hq Hj. destruct (Nat.eqb_spec j m) as [->|]; [exact (Ex q Hq)|apply HT; lia]. }
        exact (C n). }
      destruct Ex as (T & HT). assert (XT : forall i j, (i < n)%nat -> (j < n)%nat -> X i j = T i j).
      { apply (lstsq_exact n n n _ _ X T (Lo _ _ _ _ _ _ EL)); [exact I|exact HT]. }
      intros q j Hq Hj. transitivity (cs n (fun k => cmul (summed ehL ehR q k) (T k j))); [apply cs_ext; intros k Hk; now rewrite XT|]. rewrite (HT q j Hq Hj). unfold mdiag, delta. destruct (Nat.eqb_spec q j) as [->|]; apply cpx_ext; cbn; ring.
    - intros i j Hi Hj. now apply usv_entry.
    - intros i j Hi Hj. refine (eq_trans (mm_assoc CC n n _ _ _ i j) _).
      exact (mdiag_mm n (fun i => cdiv chalf (oBB ehL i)) _ i j Hi).
  Qed.
  (** Two solutions of the equations are equal. *)
  Lemma solve_unique n (M X Y : mat CC) : injective n n M -> (forall q j, (q < n)%nat -> (j < n)%nat -> cs n (fun k => cmul (M q k) (X k j)) = cs n (fun k => cmul (M q k) (Y k j))) ->
    forall i j, (i < n)%nat -> (j < n)%nat -> X i j = Y i j.
  Proof.
    intros I E i j Hi Hj. assert (Z : csub (X i j) (Y i j) = c0).
    { apply (I (fun k => csub (X k j) (Y k j))); [|exact Hi]. intros q Hq. transitivity (csub (cs n (fun k => cmul (M q k) (X k j))) (cs n (fun k => cmul (M q k) (Y k j)))).
      - refine (eq_trans _ (sumN_sub CC n _ _)). apply cs_ext. intros k _. apply cpx_ext; cbn; ring.
      - rewrite (E q j Hq Hj). cring. }
    transitivity (cadd (csub (X i j) (Y i j)) (Y i j)); [cring|rewrite Z; cring].
  Qed.
End Tr.
