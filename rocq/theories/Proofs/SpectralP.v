(** The spectral theorem for Hermitian matrices. *)
From Coq Require Import Reals List Arith ZArith Lia Lra Psatz Bool Field.
From Verif.Lib Require Import Num Sums Idx Mat RealF Elim BoxMin.
From Verif.Spec Require Import BlochSpec EigenSpec BlochSolveSpec.
From Verif.Proofs Require Import EmeP EigensolversP BlochSolveP.
Import ListNotations.
Local Open Scope R_scope.

Notation rc := (fun r : R => mkC r 0).

Lemma re_sum n (F : nat -> cpx) : cre (sumN (K := CC) n F) = rs n (fun i => cre (F i)).
Proof. induction n as [|n IH]; [reflexivity|]. change (cre (sumN (K := CC) n F) + cre (F n) = rs n (fun i => cre (F i)) + cre (F n)). now rewrite IH. Qed.
Lemma im_sum n (F : nat -> cpx) : cim (sumN (K := CC) n F) = rs n (fun i => cim (F i)).
Proof. induction n as [|n IH]; [reflexivity|]. change (cim (sumN (K := CC) n F) + cim (F n) = rs n (fun i => cim (F i)) + cim (F n)). now rewrite IH. Qed.
Lemma rs_app n m (f : nat -> R) : rs (n + m) f = rs n f + rs m (fun i => f (n + i)%nat).
Proof. exact (sumN_app RF n m f). Qed.

Section Herm.
  Variables (n : nat) (H : mat CC).
  Hypothesis Hh : forall i j, (i < n)%nat -> (j < n)%nat -> H i j = cconj (H j i).

  Lemma herm_hdot x y : hdot n x (mv (K := CC) n H y) = hdot n (mv (K := CC) n H x) y.
  Proof.
    unfold hdot, mv.
    transitivity (sumN (K := CC) n (fun i => sumN (K := CC) n (fun j => cmul (cmul (cconj (x i)) (H i j)) (y j)))).
    { apply (sumN_ext CC). intros i _. refine (eq_trans (eq_sym (sumN_mul_l CC _ _ _)) _). apply (sumN_ext CC). intros. apply cpx_ext; cbn; ring. }
    refine (eq_trans (sumN_swap CC _ _ _) _). apply (sumN_ext CC). intros j Hj. refine (eq_trans (sumN_mul_r CC _ _ _) _).
    refine (f_equal (fun t => cmul t (y j)) _). cbv beta. rewrite cconj_sum. apply (sumN_ext CC). intros i Hi.
    rewrite (Hh i j Hi Hj). apply cpx_ext; cbn; ring.
  Qed.

  (** As a real symmetric matrix on the real and imaginary parts. *)
  Definition realm (i j : nat) : R :=
    if (i <? n)%nat then (if (j <? n)%nat then cre (H i j) else - cim (H i (j - n)%nat))
    else (if (j <? n)%nat then cim (H (i - n)%nat j) else cre (H (i - n)%nat (j - n)%nat)).
  Definition join (x : nat -> R) : vect CC := fun i => mkC (x i) (x (n + i)%nat).
  Definition parts (z : vect CC) : nat -> R := fun i => if (i <? n)%nat then cre (z i) else cim (z (i - n)%nat).
  Lemma join_parts z i : (i < n)%nat -> join (parts z) i = z i.
  Proof.
    intro Hi. unfold join, parts. destruct (Nat.ltb_spec i n); [|lia]. destruct (Nat.ltb_spec (n + i) n); [lia|]. replace (n + i - n)%nat with i by lia. now destruct (z i).
  Qed.
  Lemma realm_sym i j : (i < n + n)%nat -> (j < n + n)%nat -> realm i j = realm j i.
  Proof.
    intros Hi Hj. unfold realm. destruct (Nat.ltb_spec i n), (Nat.ltb_spec j n).
    - rewrite (Hh i j) by assumption. reflexivity.
    - rewrite (Hh i (j - n)%nat) by lia. cbn. ring.
    - rewrite (Hh (i - n)%nat j) by lia. reflexivity.
    - rewrite (Hh (i - n)%nat (j - n)%nat) by lia. reflexivity.
  Qed.
  Lemma realm_mv x i : (i < n)%nat ->
    rs (n + n) (fun j => realm i j * x j) = cre (mv (K := CC) n H (join x) i) /\
    rs (n + n) (fun j => realm (n + i)%nat j * x j) = cim (mv (K := CC) n H (join x) i).
  Proof.
    intro Hi. rewrite !rs_app. unfold mv. rewrite re_sum, im_sum. split; rewrite <- rs_add; apply rs_ext; intros j Hj; unfold realm, join;
      repeat match goal with |- context [Nat.ltb ?a ?b] => destruct (Nat.ltb_spec a b); [try lia|try lia] end;
      replace (n + j - n)%nat with j by lia; replace (n + i - n)%nat with i by lia; cbn; ring.
  Qed.
  Lemma realm_sq x : sq (n + n) x = norm2 n (join x).
  Proof. unfold sq, norm2. rewrite rs_app, <- rs_add. apply rs_ext. intros. reflexivity. Qed.
  Lemma realm_qf x : qf (n + n) realm x = cre (hdot n (join x) (mv (K := CC) n H (join x))).
  Proof.
    unfold qf. rewrite (rs_ext (n + n) _ (fun i => x i * rs (n + n) (fun j => realm i j * x j))).
    2:{ intros i _. rewrite <- rs_scale. apply rs_ext. intros; ring. }
    unfold hdot. rewrite re_sum, rs_app, <- rs_add. apply rs_ext. intros i Hi. destruct (realm_mv x i Hi) as (-> & ->). cbn. ring.
  Qed.
  Definition min_pair (mu : R) (v : vect CC) : Prop :=
    0 < norm2 n v /\ (forall i, (i < n)%nat -> mv (K := CC) n H v i = cmul (rc mu) (v i)) /\
    forall z, mu * norm2 n z <= cre (hdot n z (mv (K := CC) n H z)).
  Lemma herm_min : (0 < n)%nat -> exists mu v, min_pair mu v.
  Proof.
    intro Hn. destruct (least_eigenpair (n + n) realm realm_sym ltac:(lia)) as (mu & x & (k & Hk & Nk) & Ex & Mx).
    exists mu, (join x). split; [|split].
    - rewrite <- realm_sq. apply Rlt_le_trans with (x k * x k); [nra|]. apply (rs_ge_term (n + n) (fun i => x i * x i) k Hk). intros; nra.
    - intros i Hi. destruct (realm_mv x i Hi) as (A & B). rewrite (Ex i ltac:(lia)) in A. rewrite (Ex (n + i)%nat ltac:(lia)) in B.
      apply cpx_ext; [rewrite <- A|rewrite <- B]; cbn; ring.
    - intro z. specialize (Mx (parts z)). rewrite realm_sq, realm_qf in Mx.
      rewrite (norm2_ext n _ z) in Mx by (intros; now apply join_parts).
      rewrite (hdot_ext n _ _ z (mv (K := CC) n H z)) in Mx; [exact Mx|intros; now apply join_parts|]. intros i Hi. apply (mv_ext_v CC). intros. now apply join_parts.
  Qed.
  (** with a real vector, if H is real *)
  Lemma real_min : (0 < n)%nat -> (forall i j, (i < n)%nat -> (j < n)%nat -> cim (H i j) = 0) -> exists mu v, min_pair mu v /\ forall i, cim (v i) = 0.
  Proof.
    intros Hn Hr. destruct (least_eigenpair n (fun i j => cre (H i j))) as (mu & x & (k & Hk & Nk) & Ex & Mx).
    - intros i j Hi Hj. now rewrite (Hh i j Hi Hj).
    - exact Hn.
    - exists mu, (fun i => rc (x i)). split; [|reflexivity].
      assert (Mr : forall z i, (i < n)%nat -> mv (K := CC) n H z i = mkC (rs n (fun j => cre (H i j) * cre (z j))) (rs n (fun j => cre (H i j) * cim (z j)))).
      { intros z i Hi. unfold mv. apply cpx_ext; [rewrite re_sum|rewrite im_sum]; cbn [cre cim]; apply rs_ext; intros j Hj; cbn; rewrite (Hr i j Hi Hj); ring. }
      split; [|split].
      + apply Rlt_le_trans with (x k * x k + 0 * 0); [nra|]. apply (rs_ge_term n (fun i => x i * x i + 0 * 0) k Hk). intros; nra.
      + intros i Hi. rewrite (Mr _ i Hi). cbn [cre cim]. rewrite (Ex i Hi). apply cpx_ext; cbn; [ring|]. rewrite (rs_ext n (fun j => cre (H i j) * 0) (fun _ => 0)) by (intros; ring). rewrite rs_const. ring.
      + intro z. unfold hdot. rewrite re_sum. rewrite (rs_ext n _ (fun i => cre (z i) * rs n (fun j => cre (H i j) * cre (z j)) + cim (z i) * rs n (fun j => cre (H i j) * cim (z j)))).
        2:{ intros i Hi. rewrite (Mr z i Hi). cbn. ring. }
        rewrite rs_add. pose proof (Mx (fun i => cre (z i))) as M1. pose proof (Mx (fun i => cim (z i))) as M2. unfold qf, sq in M1, M2.
        rewrite (rs_ext n (fun i => rs n (fun j => cre (H i j) * (cre (z i) * cre (z j)))) (fun i => cre (z i) * rs n (fun j => cre (H i j) * cre (z j)))) in M1 by (intros; rewrite <- rs_scale; apply rs_ext; intros; ring).
        rewrite (rs_ext n (fun i => rs n (fun j => cre (H i j) * (cim (z i) * cim (z j)))) (fun i => cim (z i) * rs n (fun j => cre (H i j) * cim (z j)))) in M2 by (intros; rewrite <- rs_scale; apply rs_ext; intros; ring).
        unfold norm2. change (mu * rs n (fun i => cre (z i) * cre (z i) + cim (z i) * cim (z i)) <= rs n (fun i => cre (z i) * rs n (fun j => cre (H i j) * cre (z j))) + rs n (fun i => cim (z i) * rs n (fun j => cre (H i j) * cim (z j)))).
        rewrite rs_add. lra.
  Qed.
  Definition real_mat : Prop := forall i j, (i < n)%nat -> (j < n)%nat -> cim (H i j) = 0.
End Herm.

Section Spectral.
  Variables (n : nat) (H : mat CC).
  Hypothesis Hh : forall i j, (i < n)%nat -> (j < n)%nat -> H i j = cconj (H j i).
  Notation A := (mv (K := CC) n H).
  (** k orthonormal eigenvectors, each with the least Rayleigh quotient among the vectors
      orthogonal to the ones before. *)
  Definition found (k : nat) (V : mat CC) (lam : nat -> R) : Prop :=
    (forall a b, (a < k)%nat -> (b < k)%nat -> hdot n (col V a) (col V b) = if (a =? b)%nat then c1 else c0) /\
    (forall a i, (a < k)%nat -> (i < n)%nat -> A (col V a) i = cmul (rc (lam a)) (V i a)) /\
    (forall a z, (a < k)%nat -> (forall b, (b < a)%nat -> hdot n (col V b) z = c0) -> lam a * norm2 n z <= cre (hdot n z (A z))).
  Definition found_real (k : nat) (V : mat CC) : Prop := real_mat n H -> forall a i, (a < k)%nat -> (i < n)%nat -> cim (V i a) = 0.

  (** The matrix with c added to the eigenvalues found so far. *)
  Definition lifted (k : nat) (V : mat CC) (c : R) : mat CC :=
    fun i j => cadd (H i j) (cmul (rc c) (sumN (K := CC) k (fun a => cmul (V i a) (cconj (V j a))))).
  Lemma lifted_herm k V c i j : (i < n)%nat -> (j < n)%nat -> lifted k V c i j = cconj (lifted k V c j i).
  Proof.
    intros Hi Hj. unfold lifted. rewrite (Hh i j Hi Hj). set (s := sumN (K := CC) k (fun a => cmul (V i a) (cconj (V j a)))).
    assert (E : s = cconj (sumN (K := CC) k (fun a => cmul (V j a) (cconj (V i a))))).
    { unfold s. rewrite cconj_sum. apply (sumN_ext CC). intros. apply cpx_ext; cbn; ring. }
    rewrite E. apply cpx_ext; cbn; ring.
  Qed.
  Lemma lifted_mv k V c z i : mv (K := CC) n (lifted k V c) z i = cadd (A z i) (cmul (rc c) (comb k V (fun a => hdot n (col V a) z) i)).
  Proof.
    unfold mv, lifted, comb, hdot, col.
    transitivity (cadd (sumN (K := CC) n (fun j => cmul (H i j) (z j))) (sumN (K := CC) n (fun j => cmul (rc c) (cmul (sumN (K := CC) k (fun a => cmul (V i a) (cconj (V j a)))) (z j))))).
    { refine (eq_trans _ (sumN_add CC _ _ _)). apply (sumN_ext CC). intros. apply cpx_ext; cbn; ring. }
    f_equal. refine (eq_trans (sumN_mul_l CC _ _ _) _). refine (f_equal (cmul (rc c)) _).
    transitivity (sumN (K := CC) n (fun j => sumN (K := CC) k (fun a => cmul (V i a) (cmul (cconj (V j a)) (z j))))).
    { apply (sumN_ext CC). intros j _. refine (eq_trans (eq_sym (sumN_mul_r CC _ _ _)) _). apply (sumN_ext CC). intros. apply cpx_ext; cbn; ring. }
    refine (eq_trans (sumN_swap CC _ _ _) _). apply (sumN_ext CC). intros a _. refine (sumN_mul_l CC _ _ _).
  Qed.

  Lemma spectral_step k V lam : (k < n)%nat -> found k V lam -> found_real k V -> (real_mat n H \/ ~ real_mat n H) -> exists V' lam', found (S k) V' lam' /\ found_real (S k) V'.
  Proof.
    intros Hk (On & Ev & Mn) Fr Dr.
    destruct (underdetermined CC k n (fun a i => cconj (V i a)) Hk) as (u & (q & Hq & Nq) & Ou).
    assert (Ou' : forall a, (a < k)%nat -> hdot n (col V a) u = c0) by exact Ou.
    assert (Pu : 0 < norm2 n u). { pose proof (norm2_pos n u). destruct (Req_EM_T (norm2 n u) 0) as [Z|]; [|lra]. exfalso. apply Nq. exact (norm2_zero n u Z q Hq). }
    set (qu := cre (hdot n u (A u))).
    set (c := Rabs qu / norm2 n u + 1 + rs k (fun a => Rabs (lam a))).
    assert (MP : exists mu w, min_pair n (lifted k V c) mu w /\ (real_mat n H -> forall i, cim (w i) = 0)).
    { destruct Dr as [Rl|Nr].
      - destruct (real_min n (lifted k V c) (lifted_herm k V c) ltac:(lia)) as (mu & w & P & Q).
        + intros i j Hi Hj. unfold lifted. set (s := sumN (K := CC) k (fun a => cmul (V i a) (cconj (V j a)))).
          assert (E : cim s = 0). { unfold s. rewrite im_sum. rewrite (rs_ext k _ (fun _ => 0)). 2:{ intros a Ha. cbn. rewrite (Fr Rl a i Ha Hi), (Fr Rl a j Ha Hj). ring. } rewrite rs_const. ring. }
          cbn. rewrite E, (Rl i j Hi Hj). ring.
        + exists mu, w. split; [exact P|intros _; exact Q].
      - destruct (herm_min n (lifted k V c) (lifted_herm k V c) ltac:(lia)) as (mu & w & P). exists mu, w. split; [exact P|]. intro X. contradiction. }
    destruct MP as (mu & w & (Pw & Ew & Mw) & Rw).
    assert (Z0 : forall z i, (forall a, (a < k)%nat -> hdot n (col V a) z = c0) -> mv (K := CC) n (lifted k V c) z i = A z i).
    { intros z i Hz. rewrite lifted_mv. unfold comb. rewrite (sumN_zero CC).
      - apply cpx_ext; cbn; ring.
      - intros a Ha. rewrite (Hz a Ha). apply cpx_ext; cbn; ring. }
    assert (Mz : forall z, (forall a, (a < k)%nat -> hdot n (col V a) z = c0) -> mu * norm2 n z <= cre (hdot n z (A z))).
    { intros z Hz. specialize (Mw z). rewrite (hdot_ext n z _ z (A z)) in Mw; [exact Mw|reflexivity|]. intros i _. now apply Z0. }
    assert (Lm : forall a, (a < k)%nat -> mu < lam a + c).
    { intros a Ha. pose proof (Mz u Ou') as B. fold qu in B. pose proof (rs_ge_term k (fun a => Rabs (lam a)) a Ha (fun i _ => Rabs_pos (lam i))) as G. cbv beta in G.
      assert (mu <= Rabs qu / norm2 n u).
      { apply Rmult_le_reg_r with (norm2 n u); [exact Pu|]. unfold Rdiv. rewrite Rmult_assoc, Rinv_l by lra. pose proof (Rle_abs qu). lra. }
      unfold c. revert G. unfold Rabs at 1. destruct (Rcase_abs (lam a)); lra. }
    assert (Ow : forall a, (a < k)%nat -> hdot n (col V a) w = c0).
    { intros a Ha. set (h := hdot n (col V a) w).
      assert (E1 : hdot n (col V a) (mv (K := CC) n (lifted k V c) w) = cmul (rc mu) h).
      { rewrite (hdot_ext n (col V a) _ (col V a) (fun i => cmul (rc mu) (w i))); [apply hdot_scale_r|reflexivity|exact Ew]. }
      assert (E2 : hdot n (col V a) (mv (K := CC) n (lifted k V c) w) = cmul (rc (lam a + c)) h).
      { rewrite (hdot_ext n (col V a) _ (col V a) (fun i => cadd (A w i) (cmul (rc c) (comb k V (fun a => hdot n (col V a) w) i)))); [|reflexivity|intros i _; apply lifted_mv].
        rewrite hdot_add_r, hdot_scale_r, (herm_hdot n H Hh).
        rewrite (hdot_ext n (A (col V a)) w (fun i => cmul (rc (lam a)) (col V a i)) w); [|intros i Hi; now apply Ev|reflexivity].
        rewrite (hdot_conj n w (fun i => cmul (rc (lam a)) (col V a i))), hdot_scale_r, (hdot_conj n (col V a) w). fold h.
        rewrite hdot_comb_r. assert (S1 : sumN (K := CC) k (fun j => cmul (hdot n (col V a) (col V j)) (hdot n (col V j) w)) = h).
        { transitivity (sumN (K := CC) k (fun j => fmul (f := CC) (ind (Nat.eqb j a)) (hdot n (col V j) w))).
          - apply (sumN_ext CC). intros j Hj. rewrite (On a j Ha Hj), (Nat.eqb_sym j a). destruct (a =? j)%nat; apply cpx_ext; cbn; ring.
          - exact (sumN_ind_l CC k a _ Ha). }
        rewrite S1. apply cpx_ext; cbn; ring. }
      rewrite E1 in E2. specialize (Lm a Ha). apply cpx_ext; [apply (f_equal cre) in E2|apply (f_equal cim) in E2]; cbn in E2 |- *; nra. }
    set (s := / sqrt (norm2 n w)). assert (Ps : 0 < sqrt (norm2 n w)) by now apply sqrt_lt_R0.
    assert (S2 : s * s * norm2 n w = 1). { unfold s. rewrite <- (sqrt_sqrt (norm2 n w)) at 3 by lra. field. lra. }
    set (V' := fun i a => if (a =? k)%nat then cmul (rc s) (w i) else V i a).
    assert (Cl : forall a i, (a < k)%nat -> col V' a i = col V a i). { intros a i Ha. unfold col, V'. destruct (Nat.eqb_spec a k); [lia|reflexivity]. }
    assert (Ck : forall i, col V' k i = cmul (rc s) (w i)) by (intro i; unfold col, V'; now rewrite Nat.eqb_refl).
    exists V', (fun a => if (a =? k)%nat then mu else lam a). split; [split; [|split]|].
    - intros a b Ha Hb. destruct (Nat.eq_dec a k) as [->|Na], (Nat.eq_dec b k) as [->|Nb].
      + rewrite Nat.eqb_refl. rewrite (hdot_ext n _ _ (fun i => cmul (rc s) (w i)) (fun i => cmul (rc s) (w i))) by (intros; apply Ck).
        rewrite hdot_scale_r, (hdot_conj n w), hdot_scale_r, hdot_self. apply cpx_ext; cbn; [rewrite <- S2; ring|ring].
      + destruct (Nat.eqb_spec k b); [lia|]. rewrite (hdot_ext n _ _ (fun i => cmul (rc s) (w i)) (col V b)) by (first [intros; apply Ck | intros; apply Cl; lia]).
        rewrite (hdot_conj n (col V b)), hdot_scale_r, Ow by lia. apply cpx_ext; cbn; ring.
      + destruct (Nat.eqb_spec a k); [lia|]. rewrite (hdot_ext n _ _ (col V a) (fun i => cmul (rc s) (w i))) by (first [intros; apply Cl; lia | intros; apply Ck]).
        rewrite hdot_scale_r, Ow by lia. apply cpx_ext; cbn; ring.
      + rewrite (hdot_ext n _ _ (col V a) (col V b)) by (intros; apply Cl; lia). apply On; lia.
    - intros a i Ha Hi. destruct (Nat.eqb_spec a k) as [->|Na].
      + rewrite (mv_ext_v CC n H _ (fun i => cmul (rc s) (w i))) by (intros; apply Ck). refine (eq_trans (mv_lin_scale CC n H (rc s) w i) _).
        rewrite <- (Z0 w i Ow), (Ew i Hi). unfold V'. rewrite Nat.eqb_refl. apply cpx_ext; cbn; ring.
      + rewrite (mv_ext_v CC n H _ (col V a)) by (intros; apply Cl; lia). rewrite (Ev a i ltac:(lia) Hi). unfold V'. destruct (Nat.eqb_spec a k); [lia|reflexivity].
    - intros a z Ha Hz. destruct (Nat.eqb_spec a k) as [->|Na].
      + apply Mz. intros b Hb. rewrite <- (Hz b Hb). apply hdot_ext; [intros; symmetry; now apply Cl|reflexivity].
      + apply Mn; [lia|]. intros b Hb. rewrite <- (Hz b Hb). apply hdot_ext; [intros; symmetry; apply Cl; lia|reflexivity].
    - intros Rl a i Ha Hi. unfold V'. destruct (Nat.eqb_spec a k); [cbn; rewrite (Rw Rl i); ring|]. apply Fr; [exact Rl|lia|exact Hi].
  Qed.

  Lemma spectral_upto k : (k <= n)%nat -> (real_mat n H \/ ~ real_mat n H) -> exists V lam, found k V lam /\ found_real k V.
  Proof.
    intros Hk Dr. induction k as [|k IH].
    - exists (fun _ _ => c0), (fun _ => 0). split; [split; [intros; lia|]; split; intros; lia|]. intros _ a i Ha. lia.
    - destruct (IH ltac:(lia)) as (V & lam & F & Fr). exact (spectral_step k V lam ltac:(lia) F Fr Dr).
  Qed.

  Lemma found_sorted V lam a b : found n V lam -> (a <= b)%nat -> (b < n)%nat -> lam a <= lam b.
  Proof.
    intros (On & Ev & Mn) Hab Hb. destruct (Nat.eq_dec a b) as [->|N]; [lra|]. specialize (Mn a (col V b) ltac:(lia)).
    assert (E : norm2 n (col V b) = 1). { pose proof (On b b Hb Hb) as Q. rewrite Nat.eqb_refl, hdot_self in Q. now apply (f_equal cre) in Q. }
    rewrite E in Mn. rewrite (hdot_ext n _ _ (col V b) (fun i => cmul (rc (lam b)) (col V b i))) in Mn by (first [intros; reflexivity | intros; now apply Ev]).
    rewrite hdot_scale_r, hdot_self, E in Mn. cbn in Mn. specialize (fun X => Mn X). assert (lam a * 1 <= lam b * 1 - 0 * 0); [|lra]. apply Mn. intros c Hc. rewrite (On c b ltac:(lia) Hb).
    destruct (Nat.eqb_spec c b); [lia|reflexivity].
  Qed.

  (** The eigenvectors are a basis. *)
  Lemma found_complete V lam : found n V lam -> forall z i, (i < n)%nat -> z i = comb n V (fun a => hdot n (col V a) z) i.
  Proof.
    intros (On & _ & _) z.
    assert (Cf : forall c a, (a < n)%nat -> hdot n (col V a) (comb n V c) = c a).
    { intros c a Ha. rewrite hdot_comb_r. transitivity (sumN (K := CC) n (fun j => fmul (f := CC) (ind (Nat.eqb j a)) (c j))).
      - apply (sumN_ext CC). intros j Hj. rewrite (On a j Ha Hj), (Nat.eqb_sym j a). destruct (a =? j)%nat; apply cpx_ext; cbn; ring.
      - exact (sumN_ind_l CC n a _ Ha). }
    destruct (injective_surjective CC n V) with (b := z) as (c & Ec).
    - intros x Hx j Hj. rewrite <- (Cf x j Hj). rewrite (hdot_ext n _ _ (col V j) (fun _ => c0)) by (first [intros; reflexivity | intros; now apply Hx]).
      apply (sumN_zero CC). intros. apply cpx_ext; cbn; ring.
    - assert (Ez : forall i, (i < n)%nat -> z i = comb n V c i) by (intros i Hi; symmetry; now apply Ec).
      intros i Hi. rewrite (Ez i Hi). unfold comb. apply (sumN_ext CC). intros a Ha. f_equal. rewrite (hdot_ext n _ z (col V a) (comb n V c)) by (first [intros; reflexivity | intros; now apply Ez]).
      symmetry. now apply Cf.
  Qed.
End Spectral.


(** Real symmetric matrices with a weight. *)
Section Weighted.
  Variables (n : nat) (w : nat -> R) (T : nat -> nat -> R).
  Hypothesis Hw : forall i, (i < n)%nat -> 0 < w i.
  Hypothesis Ht : forall i j, (i < n)%nat -> (j < n)%nat -> T i j = T j i.
  Let s i := sqrt (w i).
  Lemma s_pos i : (i < n)%nat -> 0 < s i. Proof. intro Hi. apply sqrt_lt_R0. now apply Hw. Qed.
  Lemma s_sq i : (i < n)%nat -> s i * s i = w i. Proof. intro Hi. apply sqrt_sqrt. left. now apply Hw. Qed.
  Let H : mat CC := fun i j => rc (T i j / (s i * s j)).
  Theorem weighted_spectral : exists (V : nat -> nat -> R) (lam : nat -> R),
    (forall a b, (a < n)%nat -> (b < n)%nat -> rs n (fun i => w i * (V i a * V i b)) = if (a =? b)%nat then 1 else 0) /\
    (forall a i, (a < n)%nat -> (i < n)%nat -> rs n (fun j => T i j * V j a) = lam a * (w i * V i a)) /\
    (forall a x, (a < n)%nat -> (forall b, (b < a)%nat -> rs n (fun i => w i * (V i b * x i)) = 0) ->
       lam a * rs n (fun i => w i * (x i * x i)) <= rs n (fun i => rs n (fun j => T i j * (x i * x j)))) /\
    (forall a b, (a <= b)%nat -> (b < n)%nat -> lam a <= lam b) /\
    (forall x i, (i < n)%nat -> x i = rs n (fun a => rs n (fun j => w j * (V j a * x j)) * V i a)).
  Proof.
    assert (Hh : forall i j, (i < n)%nat -> (j < n)%nat -> H i j = cconj (H j i)).
    { intros i j Hi Hj. unfold H. rewrite (Ht i j Hi Hj), (Rmult_comm (s i)). apply cpx_ext; cbn; [reflexivity|ring]. }
    assert (Rl : real_mat n H) by (intros i j _ _; reflexivity).
    destruct (spectral_upto n H Hh n (le_n n) (or_introl Rl)) as (U & lam & F & Fr). specialize (Fr Rl).
    pose proof (found_complete n H U lam F) as Cp. pose proof (fun a b => found_sorted n H Hh U lam a b F) as So.
    pose proof F as F0. destruct F as (On & Ev & Mn).
    assert (Hd : forall a (x : nat -> R), (a < n)%nat -> hdot n (col U a) (fun i => rc (s i * x i)) = rc (rs n (fun i => w i * (cre (U i a) / s i * x i)))).
    { intros a x Ha. unfold hdot. apply cpx_ext; [rewrite re_sum|rewrite im_sum].
      - cbn [cre]. apply rs_ext. intros i Hi. unfold col. rewrite <- (s_sq i Hi). pose proof (s_pos i Hi). cbn. field. lra.
      - rewrite (rs_ext n _ (fun _ => 0)) by (intros i Hi; unfold col; cbn; rewrite (Fr a i Ha Hi); ring). rewrite rs_const. cbn. ring. }
    exists (fun i a => cre (U i a) / s i), lam. split; [|split; [|split; [|split]]].
    - intros a b Ha Hb. pose proof (Hd a (fun i => cre (U i b) / s i) Ha) as E.
      rewrite (hdot_ext n _ _ (col U a) (col U b)) in E.
      + rewrite (On a b Ha Hb) in E. apply (f_equal cre) in E. cbn [cre] in E. rewrite <- E. destruct (a =? b)%nat; reflexivity.
      + reflexivity.
      + intros i Hi. unfold col. pose proof (s_pos i Hi). apply cpx_ext; cbn; [field; lra|]. now rewrite (Fr b i Hb Hi).
    - intros a i Ha Hi. pose proof (Ev a i Ha Hi) as E. apply (f_equal cre) in E. unfold mv in E. rewrite re_sum in E.
      rewrite (rs_ext n _ (fun j => / s i * (T i j * (cre (U j a) / s j)))) in E.
      2:{ intros j Hj. pose proof (s_pos i Hi). pose proof (s_pos j Hj). unfold col, H. cbn. field. lra. }
      rewrite rs_scale in E. pose proof (s_pos i Hi). rewrite <- (s_sq i Hi). cbn in E. apply (Rmult_eq_reg_l (/ s i)); [|apply Rinv_neq_0_compat; lra]. rewrite E. field. lra.
    - intros a x Ha Hx. pose proof (Mn a (fun i => rc (s i * x i)) Ha) as M.
      assert (P : lam a * norm2 n (fun i => rc (s i * x i)) <= cre (hdot n (fun i => rc (s i * x i)) (mv (K := CC) n H (fun i => rc (s i * x i))))).
      { apply M. intros b Hb. rewrite Hd by lia. rewrite (Hx b Hb). reflexivity. }
      unfold norm2 in P. rewrite (rs_ext n (fun i => w i * (x i * x i)) (fun i => cnrm (rc (s i * x i)))).
      2:{ intros i Hi. rewrite <- (s_sq i Hi). unfold cnrm. cbn. ring. }
      refine (Rle_trans _ _ _ P _). right. unfold hdot. rewrite re_sum. apply rs_ext. intros i Hi. pose proof (s_pos i Hi).
      transitivity (s i * x i * cre (mv (K := CC) n H (fun i => rc (s i * x i)) i)); [cbn; ring|]. unfold mv. rewrite re_sum, <- rs_scale. apply rs_ext. intros j Hj.
      pose proof (s_pos j Hj). unfold H. cbn. field. lra.
    - intros a b Hab Hb. apply So; assumption.
    - intros x i Hi. pose proof (Cp (fun i => rc (s i * x i)) i Hi) as E. apply (f_equal cre) in E. unfold comb in E. rewrite re_sum in E. cbn [cre] in E.
      pose proof (s_pos i Hi). apply (Rmult_eq_reg_l (s i)); [|lra]. rewrite E, <- rs_scale. apply rs_ext. intros a Ha. rewrite (Hd a x Ha). cbn. field. lra.
  Qed.
End Weighted.
