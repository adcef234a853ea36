(** How fast the bands change with the Bloch wavevector. *)
From Coq Require Import Reals List Arith ZArith Lia Lra Psatz Field Bool.
From Verif.Lib Require Import Num Sums Idx Mat RealF Dft BoxMin Elim.
From Verif.Model Require Import Ndarray Bloch.
From Verif.Spec Require Import BlochSpec BlochBandSpec EigenSpec BlochSolveSpec BandsSpec.
From Verif.Proofs Require Import EmeP NdarrayP BlochP BlochP2 BlochSolveP BlochSolveP2 BlochBandP SpectralP MinMaxP.
Import ListNotations.
Local Open Scope R_scope.

(** * Linear functionals *)
Section Functional.
  Variables (n : nat) (L : vect CC -> cpx).
  Hypothesis Lext : forall x y, (forall i, (i < n)%nat -> x i = y i) -> L x = L y.
  Hypothesis Ladd : forall x y, L (fun i => cadd (x i) (y i)) = cadd (L x) (L y).
  Hypothesis Lscale : forall c x, L (fun i => cmul c (x i)) = cmul c (L x).
  Lemma L_zero : L (fun _ => c0) = c0.
  Proof. rewrite (Lext _ (fun i => cmul c0 ((fun _ => c0) i))) by (intros; apply cpx_ext; cbn; ring). rewrite Lscale. apply cpx_ext; cbn; ring. Qed.
  Lemma functional_sum x : L x = sumN (K := CC) n (fun s => cmul (L (fun i => if (s =? i)%nat then c1 else c0)) (x s)).
  Proof.
    assert (Q : forall k, (k <= n)%nat -> L (fun i => if (i <? k)%nat then x i else c0) = sumN (K := CC) k (fun s => cmul (L (fun i => if (s =? i)%nat then c1 else c0)) (x s))).
    { induction k as [|k IH]; intro Hk.
      - rewrite (Lext _ (fun _ => c0)) by (intros; reflexivity). apply L_zero.
      - rewrite (Lext _ (fun i => cadd ((fun i => if (i <? k)%nat then x i else c0) i) (cmul (x k) ((fun i => if (k =? i)%nat then c1 else c0) i)))).
        + rewrite Ladd. rewrite (Lscale (x k) (fun i => if (k =? i)%nat then c1 else c0)), IH by lia. cbn [sumN]. refine (f_equal (cadd _) _). apply cpx_ext; cbn; ring.
        + intros i _. destruct (Nat.ltb_spec i (S k)), (Nat.ltb_spec i k), (Nat.eqb_spec k i); try lia; subst; apply cpx_ext; cbn; ring. }
    rewrite <- (Q n (le_n n)). apply Lext. intros i Hi. now rewrite (proj2 (Nat.ltb_lt i n) Hi).
  Qed.
End Functional.

(** * Frames *)
Definition lv (m n : vec3) : vec3 := cross m n.
(** z l + u m + v n *)
Definition frame (l m n : vec3) (z u v : cpx) : nat -> cpx := fun a => cadd (rmul (l a) z) (from_mn m n u v a).
Definition orthonormal2 (m n : vec3) : Prop := dot3 m m = 1 /\ dot3 n n = 1 /\ dot3 m n = 0.
Lemma tb_on k m n : transverse_basis k m n -> orthonormal2 m n.
Proof. intros (A & B & C & _). now repeat split. Qed.
(** l l^T + m m^T + n n^T = 1 *)
Lemma complete_diag m n a : orthonormal2 m n -> (a < 3)%nat -> lv m n a * lv m n a + m a * m a + n a * n a = 1.
Proof.
  intros (A & B & C) Ha. unfold dot3 in *. unfold lv, cross, v3.
  destruct a as [|[|[|a]]]; [| | |lia].
  - transitivity ((m 1%nat * m 1%nat + m 2%nat * m 2%nat) * (n 1%nat * n 1%nat + n 2%nat * n 2%nat) - (m 1%nat * n 1%nat + m 2%nat * n 2%nat) * (m 1%nat * n 1%nat + m 2%nat * n 2%nat) + m O * m O + n O * n O); [ring|].
    replace (m 1%nat * m 1%nat + m 2%nat * m 2%nat) with (1 - m O * m O) by lra. replace (n 1%nat * n 1%nat + n 2%nat * n 2%nat) with (1 - n O * n O) by lra.
    replace (m 1%nat * n 1%nat + m 2%nat * n 2%nat) with (- (m O * n O)) by lra. ring.
  - transitivity ((m O * m O + m 2%nat * m 2%nat) * (n O * n O + n 2%nat * n 2%nat) - (m O * n O + m 2%nat * n 2%nat) * (m O * n O + m 2%nat * n 2%nat) + m 1%nat * m 1%nat + n 1%nat * n 1%nat); [ring|].
    replace (m O * m O + m 2%nat * m 2%nat) with (1 - m 1%nat * m 1%nat) by lra. replace (n O * n O + n 2%nat * n 2%nat) with (1 - n 1%nat * n 1%nat) by lra.
    replace (m O * n O + m 2%nat * n 2%nat) with (- (m 1%nat * n 1%nat)) by lra. ring.
  - transitivity ((m O * m O + m 1%nat * m 1%nat) * (n O * n O + n 1%nat * n 1%nat) - (m O * n O + m 1%nat * n 1%nat) * (m O * n O + m 1%nat * n 1%nat) + m 2%nat * m 2%nat + n 2%nat * n 2%nat); [ring|].
    replace (m O * m O + m 1%nat * m 1%nat) with (1 - m 2%nat * m 2%nat) by lra. replace (n O * n O + n 1%nat * n 1%nat) with (1 - n 2%nat * n 2%nat) by lra.
    replace (m O * n O + m 1%nat * n 1%nat) with (- (m 2%nat * n 2%nat)) by lra. ring.
Qed.
Lemma complete_off m n a b : orthonormal2 m n -> (a < 3)%nat -> (b < 3)%nat -> a <> b -> lv m n a * lv m n b + m a * m b + n a * n b = 0.
Proof.
  assert (S : forall p q r s t u, p * p + q * q + r * r = 1 -> s * s + t * t + u * u = 1 -> p * s + q * t + r * u = 0 ->
    (q * u - r * t) * (r * s - p * u) + p * q + s * t = 0).
  { intros p q r s t u A B C.
    transitivity ((r * u) * (q * s + p * t) + p * q * (1 - u * u) + s * t * (1 - r * r)); [ring|].
    replace (r * u) with (- (p * s) - q * t) by lra. replace (1 - u * u) with (s * s + t * t) by lra. replace (1 - r * r) with (p * p + q * q) by lra. ring. }
  intros (A & B & C) Ha Hb N. unfold dot3 in *. unfold lv, cross, v3.
  destruct a as [|[|[|a]]]; [| | |lia]; (destruct b as [|[|[|b]]]; [| | |lia]); try (exfalso; apply N; reflexivity).
  - rewrite <- (S (m O) (m 1%nat) (m 2%nat) (n O) (n 1%nat) (n 2%nat)); first [ring|lra].
  - rewrite <- (S (m 2%nat) (m O) (m 1%nat) (n 2%nat) (n O) (n 1%nat)); first [ring|lra].
  - rewrite <- (S (m O) (m 1%nat) (m 2%nat) (n O) (n 1%nat) (n 2%nat)); first [ring|lra].
  - rewrite <- (S (m 1%nat) (m 2%nat) (m O) (n 1%nat) (n 2%nat) (n O)); first [ring|lra].
  - rewrite <- (S (m 2%nat) (m O) (m 1%nat) (n 2%nat) (n O) (n 1%nat)); first [ring|lra].
  - rewrite <- (S (m 1%nat) (m 2%nat) (m O) (n 1%nat) (n 2%nat) (n O)); first [ring|lra].
Qed.
Lemma frame_complete m n (F : nat -> cpx) a : orthonormal2 m n -> (a < 3)%nat -> F a = frame (lv m n) m n (dotc (lv m n) F) (dotc m F) (dotc n F) a.
Proof.
  intros O3 Ha.
  assert (Q : forall f : nat -> R, f a = lv m n a * dot3 (lv m n) f + m a * dot3 m f + n a * dot3 n f).
  { intro f. unfold dot3.
    transitivity ((lv m n a * lv m n O + m a * m O + n a * n O) * f O + (lv m n a * lv m n 1%nat + m a * m 1%nat + n a * n 1%nat) * f 1%nat + (lv m n a * lv m n 2%nat + m a * m 2%nat + n a * n 2%nat) * f 2%nat); [|ring].
    pose proof (complete_diag m n a O3 Ha) as D. pose proof (fun b => complete_off m n a b O3 Ha) as Of.
    destruct a as [|[|[|a]]]; [| | |lia].
    - rewrite D, (Of 1%nat), (Of 2%nat) by lia. ring.
    - rewrite D, (Of 0%nat), (Of 2%nat) by lia. ring.
    - rewrite D, (Of 0%nat), (Of 1%nat) by lia. ring. }
  apply cpx_ext.
  - rewrite (Q (fun b => cre (F b))). unfold frame, from_mn, dotc, rmul, dot3. cbn. ring.
  - rewrite (Q (fun b => cim (F b))). unfold frame, from_mn, dotc, rmul, dot3. cbn. ring.
Qed.
Lemma frame_norm m n z u v : orthonormal2 m n -> let F := frame (lv m n) m n z u v in cabs2 (F 0%nat) + cabs2 (F 1%nat) + cabs2 (F 2%nat) = cabs2 z + cabs2 u + cabs2 v.
Proof.
  intros (A & B & C).
  assert (Ll : dot3 (lv m n) (lv m n) = 1).
  { transitivity (dot3 m m * dot3 n n - dot3 m n * dot3 m n); [unfold dot3, lv, cross, v3; ring|]. rewrite A, B, C. ring. }
  assert (Lm : dot3 (lv m n) m = 0) by (unfold dot3, lv, cross, v3; ring). assert (Ln : dot3 (lv m n) n = 0) by (unfold dot3, lv, cross, v3; ring).
  generalize dependent (lv m n). intros l Ll Lm Ln.
  assert (Q : forall p q r, (l O * p + (m O * q + n O * r)) * (l O * p + (m O * q + n O * r)) + (l 1%nat * p + (m 1%nat * q + n 1%nat * r)) * (l 1%nat * p + (m 1%nat * q + n 1%nat * r)) + (l 2%nat * p + (m 2%nat * q + n 2%nat * r)) * (l 2%nat * p + (m 2%nat * q + n 2%nat * r)) = p * p + q * q + r * r).
  { intros p q r. transitivity (dot3 l l * (p * p) + dot3 m m * (q * q) + dot3 n n * (r * r) + 2 * (dot3 l m * (p * q)) + 2 * (dot3 l n * (p * r)) + 2 * (dot3 m n * (q * r))); [unfold dot3; ring|].
    rewrite A, B, C, Ll, Lm, Ln. ring. }
  pose proof (Q (cre z) (cre u) (cre v)) as Q1. pose proof (Q (cim z) (cim u) (cim v)) as Q2. cbv zeta. unfold cabs2, frame, from_mn, rmul. cbn. nra.
Qed.
(** k x l = 0 *)
Lemma rcross_frame k m n z u v a : transverse_basis k m n -> (a < 3)%nat -> rcross k (frame (lv m n) m n z u v) a = rcross k (from_mn m n u v) a.
Proof.
  intros T Ha. destruct (basis_k k m n T) as (X & Y & Z). set (q := norm3 k) in *. clearbody q.
  assert (E : forall b, (b < 3)%nat -> k b = q * lv m n b). { intros b Hb. destruct b as [|[|[|b]]]; [exact X|exact Y|exact Z|lia]. }
  clear X Y Z T. generalize dependent (lv m n). intros l E. pose proof (E 0%nat ltac:(lia)) as E0. pose proof (E 1%nat ltac:(lia)) as E1. pose proof (E 2%nat ltac:(lia)) as E2.
  destruct a as [|[|[|a]]]; [| | |lia]; cbn [rcross]; unfold frame; set (f := from_mn m n u v); rewrite E0, E1, E2 || rewrite ?E0, ?E1, ?E2; apply cpx_ext; cbn; ring.
Qed.
(** |d x F|^2 <= |d|^2 |F|^2 *)
Lemma rcross_bound d (F : nat -> cpx) : cabs2 (rcross d F 0%nat) + cabs2 (rcross d F 1%nat) + cabs2 (rcross d F 2%nat) <= dot3 d d * (cabs2 (F 0%nat) + cabs2 (F 1%nat) + cabs2 (F 2%nat)).
Proof.
  assert (Q : forall p q r, (d 1%nat * r - d 2%nat * q) * (d 1%nat * r - d 2%nat * q) + (d 2%nat * p - d O * r) * (d 2%nat * p - d O * r) + (d O * q - d 1%nat * p) * (d O * q - d 1%nat * p) <= dot3 d d * (p * p + q * q + r * r)).
  { intros p q r. unfold dot3. pose proof (Rle_0_sqr (d O * p + d 1%nat * q + d 2%nat * r)) as S. unfold Rsqr in S. lra. }
  pose proof (Q (cre (F 0%nat)) (cre (F 1%nat)) (cre (F 2%nat))). pose proof (Q (cim (F 0%nat)) (cim (F 1%nat)) (cim (F 2%nat))).
  unfold cabs2, rcross, rmul. cbn. lra.
Qed.
Lemma cabs2_add_t (u v : cpx) t : 0 < t -> cabs2 (cadd u v) <= (1 + t) * cabs2 u + (1 + / t) * cabs2 v.
Proof.
  intro Ht. unfold cabs2. cbn.
  assert (Q : forall p q, (p + q) * (p + q) <= (1 + t) * (p * p) + (1 + / t) * (q * q)).
  { intros p q. assert (S : 0 <= / t * ((t * p - q) * (t * p - q))) by (apply Rmult_le_pos; [apply Rlt_le; now apply Rinv_0_lt_compat|apply Rle_0_sqr]).
    replace (/ t * ((t * p - q) * (t * p - q))) with (t * (p * p) - 2 * (p * q) + / t * (q * q)) in S by (field; lra). lra. }
  pose proof (Q (cre u) (cre v)). pose proof (Q (cim u) (cim v)). lra.
Qed.
Lemma sum3_eq (f : nat -> R) : sumN (K := RF) 3 f = f 0%nat + f 1%nat + f 2%nat.
Proof. cbn. ring. Qed.

(** Minimum over t of (1 + t) x + (1 + 1/t) z *)
Lemma sqrt_young x y z : 0 <= x -> 0 <= z -> (forall t, 0 < t -> y <= (1 + t) * x + (1 + / t) * z) -> sqrt y <= sqrt x + sqrt z.
Proof.
  intros Hx Hz H.
  assert (Q : y <= (sqrt x + sqrt z) * (sqrt x + sqrt z)).
  { pose proof (sqrt_sqrt x Hx) as X. pose proof (sqrt_sqrt z Hz) as Z. pose proof (sqrt_pos x). pose proof (sqrt_pos z).
    destruct (Req_EM_T x 0) as [Ex|Nx]; [|destruct (Req_EM_T z 0) as [Ez|Nz]].
    - subst x. destruct (Rle_dec y z) as [L|L]; [nra|]. exfalso. apply Rnot_le_lt in L.
      destruct (Req_EM_T z 0) as [->|Nz]; [specialize (H 1 ltac:(lra)); lra|].
      assert (T : 0 < (z / (y - z) + 1)) by (assert (0 < z / (y - z)) by (apply Rdiv_lt_0_compat; lra); lra).
      specialize (H _ T). assert (E : (z / (y - z) + 1) = y / (y - z)) by (field; lra). rewrite E in H.
      replace (/ (y / (y - z))) with ((y - z) / y) in H by (field; split; lra).
      assert (z * ((y - z) / y) < y - z); [|lra]. apply Rmult_lt_reg_r with y; [lra|]. replace (z * ((y - z) / y) * y) with (z * (y - z)) by (field; lra). nra.
    - subst z. destruct (Rle_dec y x) as [L|L]; [nra|]. exfalso. apply Rnot_le_lt in L.
      assert (T : 0 < (y - x) / (2 * x)) by (apply Rdiv_lt_0_compat; lra). specialize (H _ T).
      replace ((1 + (y - x) / (2 * x)) * x) with ((x + y) / 2) in H by (field; lra). lra.
    - assert (Sx : 0 < sqrt x) by (apply sqrt_lt_R0; lra). assert (Sz : 0 < sqrt z) by (apply sqrt_lt_R0; lra).
      specialize (H (sqrt z / sqrt x) ltac:(now apply Rdiv_lt_0_compat)).
      set (p := sqrt x) in *. set (q := sqrt z) in *. rewrite <- X, <- Z in H.
      replace ((1 + q / p) * (p * p) + (1 + / (q / p)) * (q * q)) with ((p + q) * (p + q)) in H; [exact H|field; lra]. }
  rewrite <- (sqrt_square (sqrt x + sqrt z)) by (pose proof (sqrt_pos x); pose proof (sqrt_pos z); lra). destruct (Rle_dec 0 y) as [P|P].
  - apply sqrt_le_1_alt. exact Q.
  - rewrite (sqrt_neg_0 y) by lra. apply sqrt_pos.
Qed.

Section Slope.
  Variables (sh : list nat) (e : nat -> list nat -> R) (lo : R).
  Hypothesis Hlo : 0 < lo.
  Hypothesis He : forall a x, (a < 3)%nat -> inb sh x -> lo <= e a x.
  Notation P := (prodl sh).
  (** D: curl of the field *)
  Definition qform (D : nat -> list nat -> cpx) : R := INR P * gsum (K := RF) sh (fun x => sumN (K := RF) 3 (fun a => cabs2 (D a x) * / e a x)).
  Definition curlk (K : list nat -> vec3) (F : list nat -> nat -> cpx) : nat -> list nat -> cpx := fun a x => ifftn sh (fun j => rcross (K j) (F j) a) x.
  Definition fnorm (F : list nat -> nat -> cpx) : R := gsum (K := RF) sh (fun j => cabs2 (F j 0%nat) + cabs2 (F j 1%nat) + cabs2 (F j 2%nat)).

  Lemma qform_ext D D' : (forall a x, (a < 3)%nat -> inb sh x -> D a x = D' a x) -> qform D = qform D'.
  Proof. intro E. unfold qform. f_equal. apply (gsum_ext (K := RF)). intros x Hx. apply (sumN_ext RF). intros a Ha. now rewrite E. Qed.
  Lemma qform_young t D D1 D2 : 0 < t -> (forall a x, (a < 3)%nat -> inb sh x -> D a x = cadd (D1 a x) (D2 a x)) -> qform D <= (1 + t) * qform D1 + (1 + / t) * qform D2.
  Proof.
    intros Ht E. unfold qform. rewrite <- !Rmult_assoc, (Rmult_comm (1 + t)), (Rmult_comm (1 + / t)), !Rmult_assoc, <- Rmult_plus_distr_l. apply Rmult_le_compat_l; [apply pos_INR|].
    refine (Rle_trans _ _ _ _ (Req_le _ _ (f_equal2 Rplus (gsum_mul_l RF sh (1 + t) _) (gsum_mul_l RF sh (1 + / t) _)))).
    refine (Rle_trans _ _ _ _ (Req_le _ _ (gsum_add RF sh _ _))). apply gsum_le. intros x Hx. rewrite !sum3_eq.
    change (cabs2 (D 0%nat x) * / e 0%nat x + cabs2 (D 1%nat x) * / e 1%nat x + cabs2 (D 2%nat x) * / e 2%nat x <=
      (1 + t) * (cabs2 (D1 0%nat x) * / e 0%nat x + cabs2 (D1 1%nat x) * / e 1%nat x + cabs2 (D1 2%nat x) * / e 2%nat x) +
      (1 + / t) * (cabs2 (D2 0%nat x) * / e 0%nat x + cabs2 (D2 1%nat x) * / e 1%nat x + cabs2 (D2 2%nat x) * / e 2%nat x)).
    assert (Q : forall a, (a < 3)%nat -> cabs2 (D a x) * / e a x <= ((1 + t) * cabs2 (D1 a x) + (1 + / t) * cabs2 (D2 a x)) * / e a x).
    { intros a Ha. apply Rmult_le_compat_r; [left; apply Rinv_0_lt_compat; pose proof (He a x Ha Hx); lra|]. rewrite (E a x Ha Hx). now apply cabs2_add_t. }
    pose proof (Q 0%nat ltac:(lia)). pose proof (Q 1%nat ltac:(lia)). pose proof (Q 2%nat ltac:(lia)). lra.
  Qed.
  Lemma qform_const d F : qform (curlk (fun _ => d) F) <= dot3 d d / lo * fnorm F.
  Proof.
    unfold qform. apply Rle_trans with (INR P * (/ lo * gsum (K := RF) sh (fun x => sumN (K := RF) 3 (fun a => cabs2 (curlk (fun _ => d) F a x))))).
    - apply Rmult_le_compat_l; [apply pos_INR|]. refine (Rle_trans _ _ _ _ (Req_le _ _ (gsum_mul_l RF sh (/ lo) _))). apply gsum_le. intros x Hx. 
      refine (Rle_trans _ _ _ _ (Req_le _ _ (sumN_mul_l RF 3 (/ lo) _))). apply sumN_le. intros a Ha. change (cabs2 (curlk (fun _ => d) F a x) * / e a x <= / lo * cabs2 (curlk (fun _ => d) F a x)).
      rewrite (Rmult_comm (/ lo)). apply Rmult_le_compat_l; [apply cabs2_nonneg|]. apply Rinv_le_contravar; [exact Hlo|now apply He].
    - assert (Q : INR P * gsum (K := RF) sh (fun x => sumN (K := RF) 3 (fun a => cabs2 (curlk (fun _ => d) F a x))) = gsum (K := RF) sh (fun j => sumN (K := RF) 3 (fun a => cabs2 (rcross d (F j) a)))).
      { rewrite !gsum_sumN. refine (eq_trans (eq_sym (sumN_mul_l RF 3 _ _)) _). apply (sumN_ext RF). intros a _. symmetry. apply parseval_cabs2. }
      replace (INR P * (/ lo * gsum (K := RF) sh (fun x => sumN (K := RF) 3 (fun a => cabs2 (curlk (fun _ => d) F a x))))) with (/ lo * (INR P * gsum (K := RF) sh (fun x => sumN (K := RF) 3 (fun a => cabs2 (curlk (fun _ => d) F a x))))) by (set (g := gsum _ _); change (g : R) with g; generalize (g : R); intro; ring).
      rewrite Q. unfold Rdiv. rewrite (Rmult_comm (dot3 d d)), Rmult_assoc. apply Rmult_le_compat_l; [left; now apply Rinv_0_lt_compat|].
      refine (Rle_trans _ _ _ _ (Req_le _ _ (gsum_mul_l RF sh (dot3 d d) _))). apply gsum_le. intros j Hj. rewrite sum3_eq. apply rcross_bound.
  Qed.

  Variables (K K' m n m' n' : list nat -> vec3) (d : vec3).
  Hypothesis HT : forall j, inb sh j -> transverse_basis (K j) (m j) (n j).
  Hypothesis HT' : forall j, inb sh j -> transverse_basis (K' j) (m' j) (n' j).
  Hypothesis HK : forall j a, inb sh j -> (a < 3)%nat -> K' j a = K j a + d a.
  Variables (op op' : vect CC -> option (vect CC)).
  Notation N := (2 * P)%nat.
  Hypothesis HA : hermitian_op N op.
  Hypothesis HA' : hermitian_op N op'.
  Definition mnfield (m n : list nat -> vec3) (h : vect CC) (j : list nat) : nat -> cpx := from_mn (m j) (n j) (h (ravel sh j)) (h (P + ravel sh j)%nat).
  Hypothesis Hf : forall h, form N op h = qform (curlk K (mnfield m n h)).
  Hypothesis Hf' : forall h, form N op' h = qform (curlk K' (mnfield m' n' h)).
  Variables (V V' : mat CC) (w w' : nat -> R).
  Hypothesis HB : bands N op V w.
  Hypothesis HB' : bands N op' V' w'.

  (** x: longitudinal amplitudes, then amplitudes of the lowest S a bands *)
  Definition hpart (a : nat) (x : vect CC) : vect CC := comb (S a) V (fun b => x (P + b)%nat).
  Definition Fx (a : nat) (x : vect CC) (j : list nat) : nat -> cpx :=
    frame (lv (m j) (n j)) (m j) (n j) (x (ravel sh j)) (hpart a x (ravel sh j)) (hpart a x (P + ravel sh j)%nat).
  Definition h' (a : nat) (x : vect CC) : vect CC := fun p =>
    if (p <? P)%nat then dotc (m' (unravel sh p)) (Fx a x (unravel sh p)) else dotc (n' (unravel sh (p - P))) (Fx a x (unravel sh (p - P))).
  Definition rowL (a r : nat) (x : vect CC) : cpx :=
    if (r <? P)%nat then dotc (lv (m' (unravel sh r)) (n' (unravel sh r))) (Fx a x (unravel sh r)) else hdot N (col V' (r - P)) (h' a x).

  Lemma hpart_add a x y p : hpart a (fun i => cadd (x i) (y i)) p = cadd (hpart a x p) (hpart a y p).
  Proof. unfold hpart, comb. refine (eq_trans _ (sumN_add CC _ _ _)). apply (sumN_ext CC). intros. apply cpx_ext; cbn; ring. Qed.
  Lemma hpart_scale a c x p : hpart a (fun i => cmul c (x i)) p = cmul c (hpart a x p).
  Proof. unfold hpart, comb. refine (eq_trans _ (sumN_mul_l CC _ _ _)). apply (sumN_ext CC). intros. apply cpx_ext; cbn; ring. Qed.
  Lemma hpart_ext a x y p : (forall i, (i < P + S a)%nat -> x i = y i) -> hpart a x p = hpart a y p.
  Proof. intro E. unfold hpart, comb. apply (sumN_ext CC). intros j Hj. now rewrite E by lia. Qed.
  Lemma Fx_add a x y j b : Fx a (fun i => cadd (x i) (y i)) j b = cadd (Fx a x j b) (Fx a y j b).
  Proof. unfold Fx, frame, from_mn. rewrite !hpart_add. unfold rmul. apply cpx_ext; cbn; ring. Qed.
  Lemma Fx_scale a c x j b : Fx a (fun i => cmul c (x i)) j b = cmul c (Fx a x j b).
  Proof. unfold Fx, frame, from_mn. rewrite !hpart_scale. unfold rmul. apply cpx_ext; cbn; ring. Qed.
  Lemma Fx_ext a x y j b : inb sh j -> (forall i, (i < P + S a)%nat -> x i = y i) -> Fx a x j b = Fx a y j b.
  Proof. intros Hj E. unfold Fx, frame. rewrite !(hpart_ext a x y) by exact E. rewrite E; [reflexivity|]. pose proof (ravel_lt sh j Hj). lia. Qed.
  Lemma dotc_add u (f g : nat -> cpx) (s : nat -> cpx) : (forall b, s b = cadd (f b) (g b)) -> dotc u s = cadd (dotc u f) (dotc u g).
  Proof. intro E. unfold dotc. rewrite !E. unfold rmul. apply cpx_ext; cbn; ring. Qed.
  Lemma dotc_scale u c (f : nat -> cpx) (s : nat -> cpx) : (forall b, s b = cmul c (f b)) -> dotc u s = cmul c (dotc u f).
  Proof. intro E. unfold dotc. rewrite !E. unfold rmul. apply cpx_ext; cbn; ring. Qed.
  Lemma dotc_ext u (f g : nat -> cpx) : (forall b, f b = g b) -> dotc u f = dotc u g.
  Proof. intro E. unfold dotc. now rewrite !E. Qed.
  Lemma h'_add a x y p : h' a (fun i => cadd (x i) (y i)) p = cadd (h' a x p) (h' a y p).
  Proof. unfold h'. destruct (p <? P)%nat; apply dotc_add; intro; apply Fx_add. Qed.
  Lemma h'_scale a c x p : h' a (fun i => cmul c (x i)) p = cmul c (h' a x p).
  Proof. unfold h'. destruct (p <? P)%nat; apply dotc_scale; intro; apply Fx_scale. Qed.
  Lemma h'_ext a x y p : (p < N)%nat -> (forall i, (i < P + S a)%nat -> x i = y i) -> h' a x p = h' a y p.
  Proof. intros Hp E. unfold h'. destruct (Nat.ltb_spec p P); apply dotc_ext; intro; apply Fx_ext; try exact E; apply inb_unravel; lia. Qed.
  Lemma rowL_sum a r x : rowL a r x = sumN (K := CC) (P + S a) (fun s => cmul (rowL a r (fun i => if (s =? i)%nat then c1 else c0)) (x s)).
  Proof.
    apply (functional_sum (P + S a) (rowL a r)).
    - intros y z E. unfold rowL. destruct (Nat.ltb_spec r P).
      + apply dotc_ext. intro. apply Fx_ext; [now apply inb_unravel|exact E].
      + apply hdot_ext; [reflexivity|]. intros p Hp. now apply h'_ext.
    - intros y z. unfold rowL. destruct (r <? P)%nat; [apply dotc_add; intro; apply Fx_add|]. rewrite <- hdot_add_r. apply hdot_ext; [reflexivity|]. intros; apply h'_add.
    - intros c y. unfold rowL. destruct (r <? P)%nat; [apply dotc_scale; intro; apply Fx_scale|]. rewrite <- hdot_scale_r. apply hdot_ext; [reflexivity|]. intros; apply h'_scale.
  Qed.
  Lemma fnorm_split a x : fnorm (Fx a x) = rs P (fun i => cabs2 (x i)) + norm2 N (hpart a x).
  Proof.
    assert (E : norm2 N (hpart a x) = gsum (K := RF) sh (fun j => cabs2 (hpart a x (ravel sh j)) + cabs2 (hpart a x (P + ravel sh j)%nat))).
    { unfold norm2. replace N with (P + P)%nat by lia. refine (eq_trans (sumN_app RF _ _ _) _).
      refine (eq_trans (f_equal2 fadd (gsum_flat' RF sh _) (gsum_flat' RF sh _)) _). symmetry. exact (gsum_add RF sh _ _). }
    rewrite E. refine (eq_trans _ (f_equal2 Rplus (eq_sym (gsum_flat' RF sh (fun i => cabs2 (x i)))) eq_refl)). refine (eq_trans _ (gsum_add RF sh _ _)).
    unfold fnorm. apply (gsum_ext (K := RF)). intros j Hj. unfold Fx. rewrite (frame_norm (m j) (n j) _ _ _ (tb_on _ _ _ (HT j Hj))).
    change (cabs2 (x (ravel sh j)) + cabs2 (hpart a x (ravel sh j)) + cabs2 (hpart a x (P + ravel sh j)%nat) = cabs2 (x (ravel sh j)) + (cabs2 (hpart a x (ravel sh j)) + cabs2 (hpart a x (P + ravel sh j)%nat))). ring.
  Qed.
  Lemma h'_m a x j : inb sh j -> h' a x (ravel sh j) = dotc (m' j) (Fx a x j).
  Proof. intro Hj. unfold h'. pose proof (ravel_lt sh j Hj). rewrite (proj2 (Nat.ltb_lt _ _) H), unravel_ravel by exact Hj. reflexivity. Qed.
  Lemma h'_n a x j : inb sh j -> h' a x (P + ravel sh j)%nat = dotc (n' j) (Fx a x j).
  Proof. intro Hj. unfold h'. pose proof (ravel_lt sh j Hj). rewrite (proj2 (Nat.ltb_ge (P + ravel sh j) P)) by lia. replace (P + ravel sh j - P)%nat with (ravel sh j) by lia. rewrite unravel_ravel by exact Hj. reflexivity. Qed.
  Section Transverse.
    Variables (a : nat) (x : vect CC).
    Hypothesis Tr : forall j, inb sh j -> dotc (lv (m' j) (n' j)) (Fx a x j) = c0.
    Lemma Fx_mn j b : inb sh j -> (b < 3)%nat -> Fx a x j b = frame (lv (m' j) (n' j)) (m' j) (n' j) c0 (h' a x (ravel sh j)) (h' a x (P + ravel sh j)%nat) b.
    Proof.
      intros Hj Hb. rewrite (frame_complete (m' j) (n' j) (Fx a x j) b (tb_on _ _ _ (HT' j Hj)) Hb) at 1. now rewrite (Tr j Hj), (h'_m a x j Hj), (h'_n a x j Hj).
    Qed.
    Lemma fnorm_h' : fnorm (Fx a x) = norm2 N (h' a x).
    Proof.
      unfold norm2. replace N with (P + P)%nat by lia. refine (eq_trans _ (eq_sym (sumN_app RF _ _ _))).
      refine (eq_trans _ (eq_sym (f_equal2 fadd (gsum_flat' RF sh _) (gsum_flat' RF sh _)))). refine (eq_trans _ (gsum_add RF sh _ _)).
      unfold fnorm. apply (gsum_ext (K := RF)). intros j Hj. rewrite !(Fx_mn j) by (try exact Hj; lia).
      rewrite (frame_norm (m' j) (n' j) _ _ _ (tb_on _ _ _ (HT' j Hj))). set (u := h' a x (ravel sh j)). set (v := h' a x _). clearbody u v.
      change (cabs2 c0 + cabs2 u + cabs2 v = cabs2 u + cabs2 v). unfold cabs2. cbn. ring.
    Qed.
    Lemma form_h' : form N op' (h' a x) = qform (curlk K' (Fx a x)).
    Proof.
      rewrite Hf'. apply qform_ext. intros b y Hb Hy. unfold curlk. apply ifftn_ext. intros j Hj. unfold mnfield.
      rewrite <- (rcross_frame (K' j) (m' j) (n' j) c0 _ _ b (HT' j Hj) Hb).
      destruct b as [|[|[|b]]]; [| | |lia]; cbn [rcross]; rewrite !(Fx_mn j) by (try exact Hj; lia); reflexivity.
    Qed.
  End Transverse.
  Lemma form_h a x : form N op (hpart a x) = qform (curlk K (Fx a x)).
  Proof.
    rewrite Hf. apply qform_ext. intros b y Hb Hy. unfold curlk. apply ifftn_ext. intros j Hj. unfold mnfield, Fx. symmetry. exact (rcross_frame (K j) (m j) (n j) _ _ _ b (HT j Hj) Hb).
  Qed.
  Lemma ifftn_add f g y : ifftn sh (fun j => cadd (f j) (g j)) y = cadd (ifftn sh f y) (ifftn sh g y).
  Proof.
    unfold ifftn, cdiv. set (c := cinv _).
    transitivity (cmul (cadd (gsum (K := CC) sh (fun k => cmul (f k) (cis (2 * PI * turns sh k y)))) (gsum (K := CC) sh (fun k => cmul (g k) (cis (2 * PI * turns sh k y))))) c); [|apply cpx_ext; cbn; ring].
    refine (f_equal (fun z => cmul z c) _). refine (eq_trans _ (gsum_add CC sh _ _)). apply (gsum_ext (K := CC)). intros k Hk. apply cpx_ext; cbn; ring.
  Qed.
  Lemma slope_step t a : 0 < t -> (a < N)%nat -> w' a <= (1 + t) * w a + (1 + / t) * (dot3 d d / lo).
  Proof.
    intros Ht Ha. destruct (underdetermined CC (P + a) (P + S a) (fun r s => rowL a r (fun i => if (s =? i)%nat then c1 else c0)) ltac:(lia)) as (x & (q & Hq & Nq) & Sx).
    assert (R0 : forall r, (r < P + a)%nat -> rowL a r x = c0). { intros r Hr. rewrite rowL_sum. exact (Sx r Hr). }
    assert (Tr : forall j, inb sh j -> dotc (lv (m' j) (n' j)) (Fx a x j) = c0).
    { intros j Hj. pose proof (ravel_lt sh j Hj) as L. pose proof (R0 (ravel sh j) ltac:(lia)) as E. unfold rowL in E. rewrite (proj2 (Nat.ltb_lt _ _) L), unravel_ravel in E by exact Hj. exact E. }
    assert (Oz : forall b, (b < a)%nat -> hdot N (col V' b) (h' a x) = c0).
    { intros b Hb. pose proof (R0 (P + b)%nat ltac:(lia)) as E. unfold rowL in E. rewrite (proj2 (Nat.ltb_ge (P + b) P)) in E by lia. replace (P + b - P)%nat with b in E by lia. exact E. }
    pose proof (band_least N op' HA' V' w' HB' a (h' a x) Ha Oz) as Lb. rewrite (form_h' a x Tr), <- (fnorm_h' a x Tr) in Lb.
    pose proof (span_most N op HA V w HB a (fun b => x (P + b)%nat) Ha) as Ub. fold (hpart a x) in Ub. rewrite form_h in Ub.
    pose proof (qform_young t (curlk K' (Fx a x)) (curlk K (Fx a x)) (curlk (fun _ => d) (Fx a x)) Ht) as Y.
    pose proof (qform_const d (Fx a x)) as Q. pose proof (fnorm_split a x) as Sp.
    assert (Y' := Y ltac:(intros b y Hb Hy; unfold curlk; rewrite <- ifftn_add; apply ifftn_ext; intros j Hj; unfold rcross; cbv beta; destruct b as [|[|[|b]]]; [| | |lia]; rewrite !HK by (try exact Hj; lia); unfold rmul; apply cpx_ext; cbn; ring)). clear Y.
    assert (Px : 0 <= rs P (fun i => cabs2 (x i))) by (apply rs_nonneg; intros; apply cabs2_nonneg).
    pose proof (norm2_pos N (hpart a x)) as Ph.
    assert (Pf : 0 < fnorm (Fx a x)).
    { destruct (Req_EM_T (fnorm (Fx a x)) 0) as [Z|Z]; [|rewrite Sp in Z |- *; lra]. exfalso. apply Nq. rewrite Z in Sp.
      destruct (Nat.lt_ge_cases q P) as [L|L].
      - pose proof (rs_ge_term P (fun i => cabs2 (x i)) q L ltac:(intros; apply cabs2_nonneg)) as T. cbv beta in T. assert (T0 : cabs2 (x q) = 0) by (pose proof (cabs2_nonneg (x q)); lra). unfold cabs2 in T0. apply cpx_ext; cbn; nra.
      - assert (Z2 : norm2 N (hpart a x) = 0) by lra. pose proof (norm2_zero N _ Z2) as Z3.
        replace q with (P + (q - P))%nat by lia. apply (on_independent N op V w HB (S a) (fun b => x (P + b)%nat) ltac:(lia) Z3 (q - P)%nat). lia. }
    assert (W0 : 0 <= w a).
    { rewrite <- (Rmult_1_r (w a)). 
      assert (En : norm2 N (col V a) = 1). { pose proof (b_orth _ _ _ _ HB a a Ha Ha) as O1. rewrite Nat.eqb_refl in O1. apply (f_equal cre) in O1. rewrite hdot_self in O1. exact O1. }
      assert (Fe : form N op (col V a) = w a).
      { unfold form. rewrite (hdot_ext N _ (Af op (col V a)) (col V a) (fun i => cmul (rc (- w a)) (col V a i))) by (first [intros; reflexivity|intros; now apply (band_eig N op V w HB)]).
        rewrite hdot_scale_r, (b_orth _ _ _ _ HB a a Ha Ha), Nat.eqb_refl. cbn. ring. }
      rewrite Rmult_1_r, <- Fe, Hf. unfold qform. apply Rmult_le_pos; [apply pos_INR|]. apply gsum_nonneg. intros y Hy. apply sumN_nonneg. intros b Hb. apply Rmult_le_pos; [apply cabs2_nonneg|]. left. apply Rinv_0_lt_compat. pose proof (He b y Hb Hy). lra. }
    set (f := fnorm (Fx a x)) in *. set (c := dot3 d d / lo) in *.
    assert (Ti : 0 < / t) by now apply Rinv_0_lt_compat.
    assert (B1 : qform (curlk K (Fx a x)) <= w a * f). { apply Rle_trans with (1 := Ub). apply Rmult_le_compat_l; [exact W0|lra]. }
    assert (B2 : (1 + t) * qform (curlk K (Fx a x)) <= (1 + t) * (w a * f)) by (apply Rmult_le_compat_l; lra).
    assert (B3 : (1 + / t) * qform (curlk (fun _ => d) (Fx a x)) <= (1 + / t) * (c * f)) by (apply Rmult_le_compat_l; lra).
    apply Rmult_le_reg_r with f; [exact Pf|]. lra.
  Qed.
End Slope.
