(** Lemmas for meanas/fdfd/eme.py. *)
From Coq Require Import Reals List Arith ZArith Lia Lra Bool Field.
From Verif.Lib Require Import Num Sums Idx Mat RealF.
From Verif.Model Require Import Fdmath Fdfd Waveguide2d Eme.
From Verif.Spec Require Import EmeSpec.
From Verif.Proofs Require Import FdfdP2 WaveguideRealP EigensolversP.
Import ListNotations.

Section Ip.
  Variable K : CFld.
  Add Field Kfield : (fth K).
  Local Open Scope fld_scope.
  Variables (sh : list nat) (dxes : dx2 K) (phase : K).
  Notation ip e h := (inner_product sh e h dxes phase false).
  Lemma ip_add_l e e' h : ip (fun q => e q + e' q) h = ip e h + ip e' h.
  Proof.
    unfold inner_product, unvec. cbv zeta.
    match goal with |- 1 / 2 * (?a - ?b) = 1 / 2 * (?c - ?d) + 1 / 2 * (?e - ?f) => assert (A : a = c + e); [|assert (B : b = d + f); [|rewrite A, B; ring]] end;
      rewrite <- gsum_add; apply gsum_ext; intros i Hi; ring.
  Qed.
  Lemma ip_add_r e h h' : ip e (fun q => h q + h' q) = ip e h + ip e h'.
  Proof.
    unfold inner_product, unvec. cbv zeta.
    match goal with |- 1 / 2 * (?a - ?b) = 1 / 2 * (?c - ?d) + 1 / 2 * (?e - ?f) => assert (A : a = c + e); [|assert (B : b = d + f); [|rewrite A, B; ring]] end;
      rewrite <- gsum_add; apply gsum_ext; intros i Hi; ring.
  Qed.
  Lemma ip_scale_l c e h : ip (fun q => c * e q) h = c * ip e h.
  Proof.
    unfold inner_product, unvec. cbv zeta.
    match goal with |- 1 / 2 * (?a - ?b) = ?k * (1 / 2 * (?c - ?d)) => assert (A : a = k * c); [|assert (B : b = k * d); [|rewrite A, B; ring]] end;
      rewrite <- gsum_mul_l; apply gsum_ext; intros i Hi; ring.
  Qed.
  Lemma ip_scale_r c e h : ip e (fun q => c * h q) = c * ip e h.
  Proof.
    unfold inner_product, unvec. cbv zeta.
    match goal with |- 1 / 2 * (?a - ?b) = ?k * (1 / 2 * (?c - ?d)) => assert (A : a = k * c); [|assert (B : b = k * d); [|rewrite A, B; ring]] end;
      rewrite <- gsum_mul_l; apply gsum_ext; intros i Hi; ring.
  Qed.
  Lemma ip_sum_l n (c : nat -> K) e h : ip (fun q => sumN n (fun k => c k * e k q)) h = sumN n (fun k => c k * ip (e k) h).
  Proof.
    induction n as [|n IH]; cbn [sumN].
    - transitivity (ip (fun q => 0 * 0) h); [apply ip_ext; intros; [ring|reflexivity]|]. rewrite ip_scale_l. ring.
    - rewrite ip_add_l, IH, ip_scale_l. reflexivity.
  Qed.
  Lemma ip_sum_r n (c : nat -> K) e h : ip e (fun q => sumN n (fun k => c k * h k q)) = sumN n (fun k => c k * ip e (h k)).
  Proof.
    induction n as [|n IH]; cbn [sumN].
    - transitivity (ip e (fun q => 0 * 0)); [apply ip_ext; intros; [reflexivity|ring]|]. rewrite ip_scale_r. ring.
    - rewrite ip_add_r, IH, ip_scale_r. reflexivity.
  Qed.
  Lemma fmul_shuffle (a b c : K) : a * (b * c) = a * c * b.
  Proof. ring. Qed.
  Lemma mm_assoc n m (A B C : mat K) i j : mm n (mm m A B) C i j = mm m A (mm n B C) i j.
  Proof. exact (mv_mm n m A B (fun k => C k j) i). Qed.

  (** <U x, U y> = <x, y> *)
  Lemma unitary_inner n m (U : mat K) (x y : vect K) :
    (forall i j, (i < n)%nat -> (j < n)%nat -> sumN m (fun q => conj (U q i) * U q j) = ind (Nat.eqb i j)) ->
    sumN m (fun i => conj (mv n U x i) * mv n U y i) = sumN n (fun i => conj (x i) * y i).
  Proof.
    intro H. unfold mv.
    transitivity (sumN m (fun i => sumN n (fun p => sumN n (fun q => conj (x p) * y q * (conj (U i p) * U i q))))).
    { apply sumN_ext. intros i Hi. rewrite conj_sumN, <- sumN_mul_r. apply sumN_ext. intros p Hp. rewrite <- sumN_mul_l. apply sumN_ext. intros q Hq. rewrite conj_mul. ring. }
    rewrite sumN_swap. apply sumN_ext. intros p Hp. rewrite sumN_swap.
    transitivity (sumN n (fun q => ind (Nat.eqb p q) * (conj (x p) * y q))).
    { apply sumN_ext. intros q Hq. rewrite sumN_mul_l, H by assumption. ring. }
    now rewrite (sumN_ind_l' K n p (fun q => conj (x p) * y q) Hp).
  Qed.
End Ip.

Add Field Cfield : cpx_th.
Ltac cring := match goal with |- @eq _ ?a ?b => change (@eq cpx a b) end; first [ring | symmetry; ring].
Ltac cfield := match goal with |- @eq _ ?a ?b => change (@eq cpx a b) end; first [field | symmetry; field].
Local Open Scope R_scope.

Lemma ind_delta i j : @ind CC (Nat.eqb i j) = delta i j.
Proof. reflexivity. Qed.
Lemma norm2_cdot n x : sumN (K := CC) n (fun i => cmul (cconj (x i)) (x i)) = mkC (norm2 n x) 0.
Proof.
  unfold norm2. induction n as [|n IH]; [reflexivity|]. cbn [sumN].
  change (cadd (sumN (K := CC) n (fun i => cmul (cconj (x i)) (x i))) (cmul (cconj (x n)) (x n)) = mkC (sumN (K := RF) n (fun i => cre (x i) * cre (x i) + cim (x i) * cim (x i)) + (cre (x n) * cre (x n) + cim (x n) * cim (x n))) 0).
  rewrite IH. apply cpx_ext; cbn [cre cim cadd cmul cconj]; ring.
Qed.
Lemma unitary_norm n U x : unitary n U -> norm2 n (mv (K := CC) n U x) = norm2 n x.
Proof.
  intros (H & _). assert (E : mkC (norm2 n (mv (K := CC) n U x)) 0 = mkC (norm2 n x) 0); [|now injection E].
  rewrite <- !norm2_cdot. exact (unitary_inner CC n n U x x H).
Qed.
Lemma norm2_ext n x y : (forall i, (i < n)%nat -> x i = y i) -> norm2 n x = norm2 n y.
Proof. intro H. unfold norm2. apply (sumN_ext RF). intros i Hi. now rewrite H. Qed.
Lemma norm2_le n x y : (forall i, (i < n)%nat -> cnrm (x i) <= cnrm (y i)) -> norm2 n x <= norm2 n y.
Proof. intro H. apply sumN_le. exact H. Qed.
Lemma norm2_pos n x : 0 <= norm2 n x.
Proof. apply sumN_nonneg. intros. nra. Qed.
Lemma norm2_zero n x : norm2 n x = 0 -> forall i, (i < n)%nat -> x i = c0.
Proof.
  intros H i Hi. induction n as [|n IH]; [lia|]. unfold norm2 in *. cbn [sumN] in H.
  change (norm2 n x + (cre (x n) * cre (x n) + cim (x n) * cim (x n)) = 0) in H.
  pose proof (norm2_pos n x). pose proof (Rle_0_sqr (cre (x n))). pose proof (Rle_0_sqr (cim (x n))). unfold Rsqr in *.
  destruct (Nat.eq_dec i n) as [->|Ne]; [|apply IH; [change (norm2 n x = 0); lra|lia]].
  apply cpx_ext; cbn; nra.
Qed.
Lemma mv_diag n d (x : vect CC) i : (i < n)%nat -> mv (K := CC) n (mdiag (K := CC) d) x i = cmul (d i) (x i).
Proof. intro H. exact (mv_mdiag CC n d x i H). Qed.
Lemma cnrm_scale_le r z : 0 <= r <= 1 -> cnrm (cmul (mkC r 0) z) <= cnrm z.
Proof.
  intro H. replace (cnrm (cmul (mkC r 0) z)) with (r * r * cnrm z) by (unfold cnrm; cbn; ring).
  assert (0 <= cnrm z) by (unfold cnrm; nra). assert (r * r <= 1) by nra. nra.
Qed.

(** U diag(s) V with 0 <= s <= 1 has no gain. *)
Lemma usv_no_gain n U s V : unitary n U -> unitary n V -> (forall i, (i < n)%nat -> 0 <= s i <= 1) ->
  no_gain n n (mm n (mm n U (mdiag (K := CC) (fun i => mkC (s i) 0))) V).
Proof.
  intros HU HV Hs x.
  assert (E : forall i, mv (K := CC) n (mm n (mm n U (mdiag (K := CC) (fun i => mkC (s i) 0))) V) x i = mv (K := CC) n U (mv (K := CC) n (mdiag (K := CC) (fun i => mkC (s i) 0)) (mv (K := CC) n V x)) i).
  { intro i. rewrite (mv_mm (K := CC)). apply (mv_mm (K := CC)). }
  rewrite (norm2_ext n _ _ (fun i _ => E i)). rewrite (unitary_norm n U _ HU), <- (unitary_norm n V x HV).
  apply norm2_le. intros i Hi. rewrite mv_diag by exact Hi. apply cnrm_scale_le, Hs, Hi.
Qed.

Lemma svd_mv n M U st V x i : is_svd n n M U st V -> (i < n)%nat ->
  mv (K := CC) n M x i = mv (K := CC) n (mm n (mm n U (mdiag (K := CC) (fun i => mkC (st i) 0))) V) x i.
Proof.
  intros (_ & _ & _ & H) Hi. rewrite Nat.min_id in H. apply (mv_ext CC); [|reflexivity]. intros j Hj. rewrite H by assumption.
  apply (sumN_ext CC). intros q Hq. refine (f_equal (fun z => cmul z (V q j)) (eq_sym _)).
  refine (eq_trans _ (sumN_ind_r CC n q (fun k => @fmul CC (U i k) (mkC (st k) 0)) Hq)). apply (sumN_ext CC). intros k Hk. unfold mdiag. apply (fmul_shuffle CC).
Qed.

Lemma usv_mv n (U V : mat CC) d x i :
  mv (K := CC) n (mm n (mm n U (mdiag (K := CC) d)) V) x i = mv (K := CC) n U (mv (K := CC) n (mdiag (K := CC) d) (mv (K := CC) n V x)) i.
Proof. refine (eq_trans (mv_mm (K := CC) n n _ V x i) _). apply (mv_mm (K := CC)). Qed.
Lemma sumR_single n k (f : nat -> R) : (k < n)%nat -> (forall i, (i < n)%nat -> i <> k -> f i = 0) -> sumN (K := RF) n f = f k.
Proof.
  intros Hk H. induction n as [|n IH]; [lia|]. change (sumN (K := RF) n f + f n = f k). destruct (Nat.eq_dec n k) as [->|Ne].
  - rewrite (sumN_zero RF k f); [|intros i Hi; apply H; lia]. change (0 + f k = f k). ring.
  - rewrite (H n) by lia. rewrite IH; [ring|lia|intros; apply H; lia].
Qed.
Lemma svd_of_contraction n M U st V : is_svd n n M U st V -> no_gain n n M -> forall q, (q < n)%nat -> st q <= 1.
Proof.
  intros S G q Hq. pose proof (fun x i => svd_mv n M U st V x i S) as E. destruct S as (HU & HV & P & _). rewrite Nat.min_id in P. specialize (P q Hq).
  set (x := fun j => cconj (V q j)).
  assert (Vx : forall p, (p < n)%nat -> mv (K := CC) n V x p = delta p q). { intros p Hp. exact (proj2 HV p q Hp Hq). }
  assert (Nx : norm2 n x = 1).
  { rewrite <- (unitary_norm n V x HV). rewrite (norm2_ext n _ _ Vx). unfold norm2. rewrite (sumR_single n q).
    - unfold delta. rewrite Nat.eqb_refl. cbn. ring.
    - exact Hq.
    - intros i Hi Ne. unfold delta. destruct (Nat.eqb_spec i q); [contradiction|]. cbn. ring. }
  assert (Nm : norm2 n (mv (K := CC) n M x) = st q * st q).
  { rewrite (norm2_ext n _ _ (fun i Hi => eq_trans (E x i Hi) (usv_mv n U V _ x i))), (unitary_norm n U _ HU).
    unfold norm2. rewrite (sumR_single n q).
    - rewrite mv_diag, Vx by exact Hq. unfold delta. rewrite Nat.eqb_refl. cbn. ring.
    - exact Hq.
    - intros i Hi Ne. rewrite mv_diag, Vx by exact Hi. unfold delta. destruct (Nat.eqb_spec i q); [contradiction|]. cbn. ring. }
  specialize (G x). rewrite Nx, Nm in G. nra.
Qed.

(** Least squares: if A T = B exactly and A is injective, the solution is T. *)
Section Lst.
  Variable K : CFld.
  Add Field Kfield : (fth K).
  Local Open Scope fld_scope.
  Lemma adj_swap n m (A : mat K) (x y : vect K) :
    sumN m (fun q => conj (mv n A x q) * y q) = sumN n (fun i => conj (x i) * sumN m (fun q => conj (A q i) * y q)).
  Proof.
    unfold mv. transitivity (sumN m (fun q => sumN n (fun i => conj (x i) * (conj (A q i) * y q)))).
    { apply sumN_ext. intros q Hq. rewrite conj_sumN, <- sumN_mul_r. apply sumN_ext. intros i Hi. rewrite conj_mul. ring. }
    rewrite sumN_swap. apply sumN_ext. intros i Hi. apply sumN_mul_l.
  Qed.
  Lemma ls_col n m (A : mat K) (x t b : vect K) : (forall q, (q < m)%nat -> mv n A t q = b q) ->
    (forall i, (i < n)%nat -> sumN m (fun q => conj (A q i) * (mv n A x q - b q)) = 0) ->
    sumN m (fun q => conj (mv n A (fun k => x k - t k) q) * mv n A (fun k => x k - t k) q) = 0.
  Proof.
    intros T N. transitivity (sumN m (fun q => conj (mv n A (fun k => x k - t k) q) * (mv n A x q - b q))).
    { apply sumN_ext. intros q Hq. rewrite mv_lin_sub, T by exact Hq. reflexivity. }
    rewrite adj_swap. apply sumN_zero. intros i Hi. rewrite N by exact Hi. ring.
  Qed.
End Lst.
Lemma lstsq_exact m n p A B X T : is_lstsq m n p A B X -> injective m n A ->
  (forall q j, (q < m)%nat -> (j < p)%nat -> sumN (K := CC) n (fun k => cmul (A q k) (T k j)) = B q j) ->
  forall i j, (i < n)%nat -> (j < p)%nat -> X i j = T i j.
Proof.
  intros L I H i j Hi Hj.
  pose proof (ls_col CC n m A (fun k => X k j) (fun k => T k j) (fun q => B q j) (fun q Hq => H q j Hq Hj) (fun i Hi => L i j Hi Hj)) as Z.
  assert (N : norm2 m (mv (K := CC) n A (fun k => csub (X k j) (T k j))) = 0).
  { assert (E : mkC (norm2 m (mv (K := CC) n A (fun k => csub (X k j) (T k j)))) 0 = c0); [|now injection E]. rewrite <- norm2_cdot. exact Z. }
  pose proof (I _ (norm2_zero m _ N) i Hi) as Q. apply cpx_ext; injection Q; cbn; lra.
Qed.

(** ** get_tr *)
Section Tr.
  Variables (sh : list nat) (dxes : dx2 CC).
  Variable lstsq : nat -> nat -> nat -> mat CC -> mat CC -> option (mat CC).
  Variable svd : nat -> nat -> mat CC -> option (mat CC * (nat -> R) * mat CC).
  Definition oA12 (ehL ehR : modes) : mat CC := fun l r => overlap sh dxes (fst (ehL l)) (snd (ehR r)).
  Definition oA21 (ehL ehR : modes) : mat CC := fun l r => overlap sh dxes (fst (ehR r)) (snd (ehL l)).
  Definition oB (ehL : modes) (l : nat) : cpx := overlap sh dxes (fst (ehL l)) (snd (ehL l)).
  Definition clip (st : nat -> R) (i : nat) : R := if Rlt_dec 1 (st i) then 1 / st i else st i.

  Lemma get_tr_none nL ehL nR ehR : nL <> nR -> get_tr sh dxes lstsq svd nL ehL nR ehR = None.
  Proof.
    intro H. unfold get_tr. cbv zeta. destruct (lstsq _ _ _ _ _) as [X|]; [|reflexivity]. cbn [obind]. destruct (svd _ _ _) as [[[U st] V]|]; [|reflexivity].
    cbn [obind]. unfold matmul at 1, diag. cbn [rows cols]. destruct (Nat.eqb_spec nR (min nR nL)) as [E|E]; [|reflexivity]. cbn [obind].
    unfold matmul at 1. cbn [rows cols]. destruct (Nat.eqb_spec (min nR nL) nL) as [F|F]; [lia|reflexivity].
  Qed.
  Lemma get_tr_some n ehL ehR tt rr : get_tr sh dxes lstsq svd n ehL n ehR = Some (tt, rr) ->
    exists X U st V,
      lstsq n n n (madd (oA21 ehL ehR) (oA12 ehL ehR)) (mdiag (K := CC) (fun l => cmul ctwo (oB ehL l))) = Some X /\
      svd n n X = Some (U, st, V) /\
      tt = mk2 n n (mm n (mm n U (mdiag (K := CC) (fun i => mkC (clip st i) 0))) V) /\
      rr = mk2 n n (mm n (mm n (mdiag (K := CC) (fun l => cdiv chalf (oB ehL l))) (msub (oA21 ehL ehR) (oA12 ehL ehR))) (ent tt)).
  Proof.
    unfold get_tr. cbv zeta. fold (oA21 ehL ehR) (oA12 ehL ehR).
    change (fun l : nat => cmul ctwo (overlap sh dxes (fst (ehL l)) (snd (ehL l)))) with (fun l => cmul ctwo (oB ehL l)).
    change (fun l : nat => cdiv chalf (overlap sh dxes (fst (ehL l)) (snd (ehL l)))) with (fun l => cdiv chalf (oB ehL l)).
    intro H. destruct (lstsq _ _ _ _ _) as [X|] eqn:EL; [|discriminate]. cbn [obind] in H. destruct (svd n n X) as [[[U st] V]|] eqn:ES; [|discriminate].
    cbn [obind] in H. rewrite Nat.min_id in H. unfold matmul at 1, diag in H. cbn [rows cols ent] in H. rewrite Nat.eqb_refl in H. cbn [obind] in H.
    unfold matmul at 1 in H. cbn [rows cols ent] in H. rewrite Nat.eqb_refl in H. cbn [obind] in H.
    unfold matmul at 1 in H. cbn [rows cols ent] in H. rewrite Nat.eqb_refl in H. cbn [obind] in H.
    unfold matmul at 1 in H. cbn [rows cols ent] in H. rewrite Nat.eqb_refl in H. cbn [obind] in H.
    injection H as <- <-. exists X, U, st, V. split; [reflexivity|]. split; [exact ES|]. split; reflexivity.
  Qed.
  Lemma get_tr_total n ehL ehR X USV :
    lstsq n n n (madd (oA21 ehL ehR) (oA12 ehL ehR)) (mdiag (K := CC) (fun l => cmul ctwo (oB ehL l))) = Some X ->
    svd n n X = Some USV -> exists tr, get_tr sh dxes lstsq svd n ehL n ehR = Some tr.
  Proof.
    intros EL ES. unfold get_tr. cbv zeta. fold (oA21 ehL ehR) (oA12 ehL ehR).
    change (fun l : nat => cmul ctwo (overlap sh dxes (fst (ehL l)) (snd (ehL l)))) with (fun l => cmul ctwo (oB ehL l)).
    rewrite EL. cbn [obind]. rewrite ES. destruct USV as [[U st] V]. cbn [obind]. rewrite Nat.min_id. unfold matmul, diag. cbn [rows cols ent].
    rewrite !Nat.eqb_refl. cbn [obind rows cols]. rewrite !Nat.eqb_refl. cbn [obind rows cols]. rewrite !Nat.eqb_refl. cbn [obind rows cols]. eexists. reflexivity.
  Qed.
  Lemma clip_range st i : 0 <= st i -> 0 <= clip st i <= 1.
  Proof.
    intro H. unfold clip. destruct (Rlt_dec 1 (st i)) as [L|L]; [|lra].
    assert (P : 0 < / st i) by (apply Rinv_0_lt_compat; lra). unfold Rdiv. rewrite Rmult_1_l. split; [lra|].
    rewrite <- Rinv_1. apply Rinv_le_contravar; lra.
  Qed.
End Tr.

(** ** Mode matching *)
Section Match.
  Variables (sh : list nat) (dxes : dx2 CC) (n nR : nat) (ehL ehR : modes) (T R : mat CC).
  Notation eL := (fun i => fst (ehL i)). Notation hL := (fun i => snd (ehL i)).
  Notation eR := (fun i => fst (ehR i)). Notation hR := (fun i => snd (ehR i)).
  Hypothesis M : matched (2 * prodl sh) n eL hL nR eR hR T R.
  Hypothesis O : forall i j, (i < n)%nat -> (j < n)%nat -> i <> j -> overlap sh dxes (fst (ehL i)) (snd (ehL j)) = c0.

  Lemma sum_orth (f : nat -> cpx) (g : nat -> cpx) m : (m < n)%nat -> (forall j, (j < n)%nat -> j <> m -> g j = c0) ->
    sumN (K := CC) n (fun j => cmul (f j) (g j)) = cmul (f m) (g m).
  Proof.
    intros Hm H. refine (eq_trans (sumN_single CC n (fun j => cmul (f j) (g j)) m Hm _) eq_refl). intros j Hj Ne. rewrite H by assumption. apply cpx_ext; cbn; ring.
  Qed.
  Lemma match_e i m : (i < n)%nat -> (m < n)%nat ->
    sumN (K := CC) nR (fun k => cmul (T k i) (oA21 sh dxes ehL ehR m k)) = cmul (oB sh dxes ehL m) (cadd (delta m i) (R m i)).
  Proof.
    intros Hi Hm.
    transitivity (overlap sh dxes (fun q => cadd (fst (ehL i) q) (sumN (K := CC) n (fun j => cmul (R j i) (fst (ehL j) q)))) (snd (ehL m))).
    - transitivity (overlap sh dxes (fun q => sumN (K := CC) nR (fun k => cmul (T k i) (fst (ehR k) q))) (snd (ehL m))).
      + symmetry. exact (ip_sum_l CC sh dxes c1 nR (fun k => T k i) (fun k => fst (ehR k)) (snd (ehL m))).
      + apply (ip_ext CC); [|reflexivity]. intros q Hq. symmetry. exact (proj1 (M i q Hi Hq)).
    - refine (eq_trans (ip_add_l CC sh dxes c1 (fst (ehL i)) (fun q => sumN (K := CC) n (fun j => cmul (R j i) (fst (ehL j) q))) (snd (ehL m))) _).
      refine (eq_trans (f_equal (cadd (overlap sh dxes (fst (ehL i)) (snd (ehL m)))) (ip_sum_l CC sh dxes c1 n (fun j => R j i) (fun j => fst (ehL j)) (snd (ehL m)))) _).
      change (cadd (overlap sh dxes (fst (ehL i)) (snd (ehL m))) (sumN (K := CC) n (fun j => cmul (R j i) (overlap sh dxes (fst (ehL j)) (snd (ehL m))))) = cmul (oB sh dxes ehL m) (cadd (delta m i) (R m i))).
      rewrite (sum_orth (fun j => R j i) (fun j => overlap sh dxes (fst (ehL j)) (snd (ehL m))) m Hm) by (intros; now apply O).
      unfold delta. destruct (Nat.eqb_spec m i) as [->|Ne].
      + unfold oB. ring.
      + rewrite O by auto. unfold oB. ring.
  Qed.
  Lemma match_h i m : (i < n)%nat -> (m < n)%nat ->
    sumN (K := CC) nR (fun k => cmul (T k i) (oA12 sh dxes ehL ehR m k)) = cmul (oB sh dxes ehL m) (csub (delta m i) (R m i)).
  Proof.
    intros Hi Hm.
    transitivity (overlap sh dxes (fst (ehL m)) (fun q => cadd (snd (ehL i) q) (sumN (K := CC) n (fun j => cmul (copp (R j i)) (snd (ehL j) q))))).
    - transitivity (overlap sh dxes (fst (ehL m)) (fun q => sumN (K := CC) nR (fun k => cmul (T k i) (snd (ehR k) q)))).
      + symmetry. exact (ip_sum_r CC sh dxes c1 nR (fun k => T k i) (fst (ehL m)) (fun k => snd (ehR k))).
      + apply (ip_ext CC); [reflexivity|]. intros q Hq. symmetry. refine (eq_trans _ (proj2 (M i q Hi Hq))).
        transitivity (cadd (snd (ehL i) q) (copp (sumN (K := CC) n (fun j => cmul (R j i) (snd (ehL j) q))))); [|ring].
        f_equal. refine (eq_trans _ (sumN_opp CC n (fun j => cmul (R j i) (snd (ehL j) q)))). apply (sumN_ext CC). intros j _. apply cpx_ext; cbn; ring.
    - refine (eq_trans (ip_add_r CC sh dxes c1 (fst (ehL m)) (snd (ehL i)) (fun q => sumN (K := CC) n (fun j => cmul (copp (R j i)) (snd (ehL j) q)))) _).
      refine (eq_trans (f_equal (cadd (overlap sh dxes (fst (ehL m)) (snd (ehL i)))) (ip_sum_r CC sh dxes c1 n (fun j => copp (R j i)) (fst (ehL m)) (fun j => snd (ehL j)))) _).
      change (cadd (overlap sh dxes (fst (ehL m)) (snd (ehL i))) (sumN (K := CC) n (fun j => cmul (copp (R j i)) (overlap sh dxes (fst (ehL m)) (snd (ehL j))))) = cmul (oB sh dxes ehL m) (csub (delta m i) (R m i))).
      rewrite (sum_orth (fun j => copp (R j i)) (fun j => overlap sh dxes (fst (ehL m)) (snd (ehL j))) m Hm) by (intros; apply O; auto).
      unfold delta. destruct (Nat.eqb_spec m i) as [->|Ne].
      + unfold oB. ring.
      + rewrite O by auto. unfold oB. ring.
  Qed.
End Match.

Lemma cconj_sum n (f : nat -> cpx) : cconj (sumN (K := CC) n f) = sumN (K := CC) n (fun i => cconj (f i)).
Proof. exact (conj_sumN CC n f). Qed.
Lemma unitary_mm n U V : unitary n U -> unitary n V -> unitary n (mm (K := CC) n U V).
Proof.
  intros (U1 & U2) (V1 & V2). split; intros i j Hi Hj.
  - refine (eq_trans (unitary_inner CC n n U (fun q => V q i) (fun q => V q j) U1) _). exact (V1 i j Hi Hj).
  - pose (Vh := (fun q p => cconj (V p q)) : mat CC).
    assert (A : forall k, (k < n)%nat -> forall q, cconj (mm (K := CC) n U V k q) = mv (K := CC) n Vh (fun p => cconj (U k p)) q).
    { intros k Hk q. refine (eq_trans (cconj_sum n _) _). apply (sumN_ext CC). intros p _. unfold Vh. apply cpx_ext; cbn; ring. }
    transitivity (sumN (K := CC) n (fun q => cmul (cconj (mv (K := CC) n Vh (fun p => cconj (U i p)) q)) (mv (K := CC) n Vh (fun p => cconj (U j p)) q))).
    + apply (sumN_ext CC). intros q Hq. rewrite <- (A i Hi q), <- (A j Hj q). apply cpx_ext; cbn; ring.
    + refine (eq_trans (unitary_inner CC n n Vh _ _ _) _).
      * intros p q Hp Hq. refine (eq_trans _ (V2 p q Hp Hq)). apply (sumN_ext CC). intros k _. unfold Vh. apply cpx_ext; cbn; ring.
      * refine (eq_trans _ (U2 i j Hi Hj)). apply (sumN_ext CC). intros k _. apply cpx_ext; cbn; ring.
Qed.
Lemma unitary_mid n : unitary n (mid (K := CC)).
Proof.
  split; intros i j Hi Hj.
  - refine (eq_trans _ (sumN_ind_l' CC n i (fun q => @ind CC (Nat.eqb q j)) Hi)). apply (sumN_ext CC). intros q _. unfold mid. rewrite (Nat.eqb_sym q i). destruct (i =? q)%nat, (q =? j)%nat; apply cpx_ext; cbn; ring.
  - refine (eq_trans _ (sumN_ind_l' CC n i (fun q => @ind CC (Nat.eqb q j)) Hi)). apply (sumN_ext CC). intros q _. unfold mid. rewrite (Nat.eqb_sym j q). destruct (i =? q)%nat, (q =? j)%nat; apply cpx_ext; cbn; ring.
Qed.
(** diag(s) W with W unitary is a singular value decomposition. *)
Lemma dw_svd n s W : unitary n W -> (forall q, (q < n)%nat -> 0 <= s q) ->
  is_svd n n (mm (K := CC) n (mdiag (K := CC) (fun i => mkC (s i) 0)) W) (mid (K := CC)) s W.
Proof.
  intros HW Hs. split; [apply unitary_mid|]. split; [exact HW|]. rewrite Nat.min_id. split; [exact Hs|]. intros i j Hi Hj.
  apply (sumN_ext CC). intros q _. unfold mdiag, mid. destruct (Nat.eqb_spec i q) as [->|]; apply cpx_ext; cbn; ring.
Qed.
Lemma no_gain_ext n A B : (forall i j, (i < n)%nat -> (j < n)%nat -> A i j = B i j) -> no_gain n n A -> no_gain n n B.
Proof.
  intros H G x. rewrite (norm2_ext n _ (mv (K := CC) n A x)); [apply G|]. intros i Hi. apply (mv_ext CC); [|reflexivity]. intros j Hj. symmetry. now apply H.
Qed.
Lemma svd_no_gain n M U s V : is_svd n n M U s V -> (forall q, (q < n)%nat -> s q <= 1) -> no_gain n n M.
Proof.
  intros S H x. rewrite (norm2_ext n _ _ (fun i Hi => svd_mv n M U s V x i S Hi)). destruct S as (HU & HV & P & _). rewrite Nat.min_id in P.
  apply (usv_no_gain n U s V HU HV). intros i Hi. split; [now apply P|now apply H].
Qed.
