(** Bounds, scaling, translation and reversal of the Bloch operator. *)
From Coq Require Import Reals List Arith ZArith Lia Lra Psatz Field Bool.
From Verif.Lib Require Import Num Sums Idx RealF Dft.
From Verif.Model Require Import Ndarray Bloch.
From Verif.Spec Require Import BlochSpec BlochBandSpec.
From Verif.Proofs Require Import EmeP NdarrayP BlochP BlochP2.
Import ListNotations.
Local Open Scope R_scope.

Lemma cabs2_nonneg z : 0 <= cabs2 z. Proof. unfold cabs2. nra. Qed.
Lemma parseval_cabs2 sh (d : list nat -> cpx) :
  gsum (K := RF) sh (fun j => cabs2 (d j)) = INR (prodl sh) * gsum (K := RF) sh (fun x => cabs2 (ifftn sh d x)).
Proof.
  destruct (Nat.eq_dec (prodl sh) 0) as [Z|Z].
  { rewrite !gsum_flat. rewrite Z. cbn. ring. }
  assert (N : INR (prodl sh) <> 0) by (apply not_0_INR, Z).
  pose proof (parseval sh d (ifftn sh d) N) as P. apply (f_equal cre) in P.
  assert (L : cre (gsum (K := CC) sh (fun j => cmul (cconj (d j)) (fftn sh (ifftn sh d) j))) = gsum (K := RF) sh (fun j => cabs2 (d j))).
  { rewrite cre_gsum. apply (gsum_ext (K := RF)). intros j Hj. rewrite fftn_ifftn by exact Hj. unfold cabs2. cbn. ring. }
  rewrite L in P. rewrite P. set (s := gsum _ _). transitivity (INR (prodl sh) * cre s); [cbn; ring|]. f_equal.
  unfold s. rewrite cre_gsum. apply (gsum_ext (K := RF)). intros j Hj. unfold cabs2. cbn. ring.
Qed.

Lemma gsum_sumN (K : Fld) sh n (f : list nat -> nat -> K) : gsum sh (fun x => sumN n (f x)) = sumN n (fun a => gsum sh (fun x => f x a)).
Proof. induction n as [|n IH]; cbn [sumN]; [apply gsum_zero; reflexivity|]. rewrite gsum_add, IH. reflexivity. Qed.

Section Bounds.
  Variables (k0 : vec3) (G : nat -> nat -> R) (sh : list nat).
  Hypothesis Hsh : length sh = 3%nat.
  Hypothesis Hfin : forall j, inb sh j -> snd (generate_kmn k0 G sh j) <> None.
  Notation nn := (getn k0 G sh).
  (** |F^-1 d|^2 at a place *)
  Definition d2 (h : nat -> cpx) (a : nat) (x : list nat) : R := cabs2 (ifftn sh (dval k0 G sh nn h a) x).
  Lemma quad_re (e : nat -> list nat -> R) h r : (forall a j, (a < 3)%nat -> inb sh j -> e a j <> 0) ->
    maxwell_operator k0 G sh (fun a j => mkC (e a j) 0) None h = Some r ->
    - cre (hdot (2 * prodl sh) h (fun p => value (r p)))
    = INR (prodl sh) * gsum (K := RF) sh (fun x => sumN (K := RF) 3 (fun a => d2 h a x * / e a x)).
  Proof.
    intros He E.
    assert (He' : forall a j, (a < 3)%nat -> inb sh j -> mkC (e a j) 0 <> c0) by (intros a j Ha Hj; apply mkC_nz; now apply He).
    rewrite (quad k0 G sh Hsh Hfin _ He' h h r E). cbn [copp cre]. rewrite Ropp_involutive, cre_gsum.
    refine (eq_trans _ (gsum_mul_l RF sh _ _)). apply (gsum_ext (K := RF)). intros x Hx. rewrite cre_sumN.
    refine (eq_trans _ (sumN_mul_l RF 3 _ _)). apply (sumN_ext RF). intros a Ha. rewrite rdiv_r by now apply He.
    unfold d2. set (u := ifftn _ _ _). clearbody u. unfold cabs2. cbn. ring.
  Qed.
  Lemma sum_d2 h : INR (prodl sh) * gsum (K := RF) sh (fun x => sumN (K := RF) 3 (fun a => d2 h a x)) = k2_weight sh (k_xyz k0 G sh) h.
  Proof.
    rewrite gsum_sumN. transitivity (sumN (K := RF) 3 (fun a => gsum (K := RF) sh (fun j => cabs2 (dval k0 G sh nn h a j)))).
    { refine (eq_trans (eq_sym (sumN_mul_l RF 3 _ _)) _). apply (sumN_ext RF). intros a _. unfold d2. symmetry. apply parseval_cabs2. }
    rewrite <- gsum_sumN.
    apply (gsum_ext (K := RF)). intros j Hj.
    pose proof (basis_mn k0 G sh j (nn j) (getn_ok _ _ _ _ (Hfin j Hj))) as (A & B & C). fold (mv3 k0 G sh j) in *.
    assert (Q : dot3 (k_xyz k0 G sh j) (k_xyz k0 G sh j) = kk k0 G sh j * kk k0 G sh j) by (unfold kk; rewrite kk_norm, norm3_sq; reflexivity).
    rewrite Q. unfold dval. fold (hm sh h j). fold (hn sh h j). set (q := kk k0 G sh j). set (m := mv3 k0 G sh j) in *. set (n := nn j) in *.
    set (u := hm sh h j). set (v := hn sh h j). clearbody q m n u v. unfold dot3 in A, B, C. cbn. unfold cabs2. cbn.
    transitivity (q * q * ((n O * n O + n 1%nat * n 1%nat + n 2%nat * n 2%nat) * (cre u * cre u + cim u * cim u)
      + (m O * m O + m 1%nat * m 1%nat + m 2%nat * m 2%nat) * (cre v * cre v + cim v * cim v)
      - 2 * (m O * n O + m 1%nat * n 1%nat + m 2%nat * n 2%nat) * (cre u * cre v + cim u * cim v))); [ring|].
    rewrite A, B, C. ring.
  Qed.
  Lemma quad_mono (e e' : nat -> list nat -> R) h r r' : (forall a j, (a < 3)%nat -> inb sh j -> 0 < e a j <= e' a j) ->
    maxwell_operator k0 G sh (fun a j => mkC (e a j) 0) None h = Some r -> maxwell_operator k0 G sh (fun a j => mkC (e' a j) 0) None h = Some r' ->
    - cre (hdot (2 * prodl sh) h (fun p => value (r' p))) <= - cre (hdot (2 * prodl sh) h (fun p => value (r p))).
  Proof.
    intros He E E'. rewrite (quad_re e h r), (quad_re e' h r'); try assumption; try (intros a j Ha Hj; pose proof (He a j Ha Hj); lra).
    apply Rmult_le_compat_l; [apply pos_INR|]. apply gsum_le. intros x Hx. apply sumN_le. intros a Ha.
    apply Rmult_le_compat_l; [apply cabs2_nonneg|]. pose proof (He a x Ha Hx). apply Rinv_le_contravar; lra.
  Qed.
  Lemma quad_bounds (e : nat -> list nat -> R) lo hi h r : 0 < lo -> (forall a j, (a < 3)%nat -> inb sh j -> lo <= e a j <= hi) ->
    maxwell_operator k0 G sh (fun a j => mkC (e a j) 0) None h = Some r ->
    k2_weight sh (k_xyz k0 G sh) h / hi <= - cre (hdot (2 * prodl sh) h (fun p => value (r p))) <= k2_weight sh (k_xyz k0 G sh) h / lo.
  Proof.
    intros Hlo He E. rewrite (quad_re e h r); try assumption; try (intros a j Ha Hj; pose proof (He a j Ha Hj); lra).
    rewrite <- sum_d2. unfold Rdiv. rewrite !Rmult_assoc.
    assert (S : forall c, gsum (K := RF) sh (fun x => sumN (K := RF) 3 (fun a => d2 h a x)) * c = gsum (K := RF) sh (fun x => sumN (K := RF) 3 (fun a => d2 h a x * c))).
    { intro c. symmetry. refine (eq_trans _ (gsum_mul_r RF sh c _)). apply (gsum_ext (K := RF)). intros x _. refine (eq_trans _ (sumN_mul_r RF 3 c _)). reflexivity. }
    rewrite !S. split; (apply Rmult_le_compat_l; [apply pos_INR|]); apply gsum_le; intros x Hx; apply sumN_le; intros a Ha;
      (apply Rmult_le_compat_l; [apply cabs2_nonneg|]); pose proof (He a x Ha Hx); apply Rinv_le_contravar; lra.
  Qed.
End Bounds.
Lemma k2_weight_bounds sh (k : list nat -> nat -> R) h q Q : (forall j, inb sh j -> q <= dot3 (k j) (k j) <= Q) ->
  let n2 := sumN (K := RF) (2 * prodl sh) (fun p => cabs2 (h p)) in q * n2 <= k2_weight sh k h <= Q * n2.
Proof.
  intros H n2.
  assert (E : n2 = gsum (K := RF) sh (fun j => cabs2 (h (ravel sh j)) + cabs2 (h (prodl sh + ravel sh j)%nat))).
  { unfold n2. replace (2 * prodl sh)%nat with (prodl sh + prodl sh)%nat by lia. refine (eq_trans (sumN_app RF _ _ _) _).
    refine (eq_trans (f_equal2 fadd (gsum_flat' RF sh _) (gsum_flat' RF sh _)) _). symmetry. exact (gsum_add RF sh _ _). }
  rewrite E. unfold k2_weight. split; refine (Rle_trans _ _ _ (Req_le _ _ _) _).
  - symmetry. exact (gsum_mul_l RF sh q _).
  - apply gsum_le. intros j Hj. pose proof (H j Hj). apply Rmult_le_compat_r; [|lra]. pose proof (cabs2_nonneg (h (ravel sh j))). pose proof (cabs2_nonneg (h (prodl sh + ravel sh j)%nat)). lra.
  - reflexivity.
  - refine (Rle_trans _ _ _ _ (Req_le _ _ (gsum_mul_l RF sh Q _))).
    apply gsum_le. intros j Hj. pose proof (H j Hj). apply Rmult_le_compat_r; [|lra]. pose proof (cabs2_nonneg (h (ravel sh j))). pose proof (cabs2_nonneg (h (prodl sh + ravel sh j)%nat)). lra.
Qed.

(** * Translation *)
Lemma cis_IZR z : cis (2 * PI * IZR z) = c1.
Proof.
  destruct (Z.le_gt_cases 0 z) as [P|N].
  - rewrite <- (Z2Nat.id z P), <- INR_IZR_INZ. apply cis_nat.
  - replace (2 * PI * IZR z) with (- (2 * PI * INR (Z.to_nat (- z)))).
    + rewrite cis_opp, cis_nat. apply cpx_ext; cbn; ring.
    + rewrite INR_IZR_INZ, Z2Nat.id by lia. rewrite opp_IZR. ring.
Qed.
Lemma turns_upd sh k x b v : inb sh x -> inb sh k -> (b < length sh)%nat ->
  turns sh k (upd b v x) = turns sh k x + INR (coord k b) * (INR v - INR (coord x b)) / INR (dim sh b).
Proof.
  intros Hx. revert k b. induction Hx as [|i n x ns Li Hx IH]; intros k b Hk Hb; [cbn in Hb; lia|].
  inversion Hk as [|i' n' k' ns' Lk Hk']; subst. destruct b as [|b]; cbn [upd turns].
  - change (coord (i' :: k') 0) with i'. change (coord (i :: x) 0) with i. change (dim (n :: ns) 0) with n. unfold Rdiv. ring.
  - rewrite (IH k' b Hk') by (cbn in Hb; lia). change (coord (i' :: k') (S b)) with (coord k' b). change (coord (i :: x) (S b)) with (coord x b).
    change (dim (n :: ns) (S b)) with (dim ns b). ring.
Qed.
Lemma inb_dim_pos sh x b : inb sh x -> (b < length sh)%nat -> (coord x b < dim sh b)%nat.
Proof.
  intros Hx. revert b. induction Hx as [|i n x ns Li Hx IH]; intros b Hb; [cbn in Hb; lia|].
  destruct b as [|b]; [exact Li|]. apply (IH b). cbn in Hb; lia.
Qed.
(** the phase of plane wave j for a displacement of d cells along b *)
Definition shift_phase (sh : list nat) (b : nat) (d : Z) (j : list nat) : cpx := cis (2 * PI * (INR (coord j b) * IZR d / INR (dim sh b))).
Lemma phase_shift sh k x b d : inb sh x -> inb sh k -> (b < length sh)%nat ->
  cis (2 * PI * turns sh k (shift_ix sh b d x)) = cmul (shift_phase sh b d k) (cis (2 * PI * turns sh k x)).
Proof.
  intros Hx Hk Hb. unfold shift_ix, shift_phase. rewrite turns_upd by assumption.
  pose proof (inb_dim_pos sh x b Hx Hb) as L. set (n := dim sh b) in *. set (i := coord x b) in *. set (a := coord k b).
  assert (Pn : 0 < INR n) by (apply (lt_INR 0); lia).
  assert (E : INR (cyc n d i) = INR i + IZR d - INR n * IZR ((Z.of_nat i + d) / Z.of_nat n)).
  { unfold cyc. pose proof (Z.mod_pos_bound (Z.of_nat i + d) (Z.of_nat n)) as M.
    rewrite INR_IZR_INZ, Z2Nat.id by lia. rewrite Z.mod_eq by lia. rewrite minus_IZR, mult_IZR, plus_IZR, <- !INR_IZR_INZ. ring. }
  rewrite E. set (q := ((Z.of_nat i + d) / Z.of_nat n)%Z).
  rewrite <- cis_add. transitivity (cmul c1 (cis (2 * PI * (INR a * IZR d / INR n) + 2 * PI * turns sh k x))); [|apply cpx_ext; cbn; ring].
  rewrite <- (cis_IZR (- (Z.of_nat a * q))), <- cis_add. f_equal. rewrite opp_IZR, mult_IZR, <- INR_IZR_INZ. field. lra.
Qed.
Lemma cis_unit t : cmul (cis t) (cconj (cis t)) = c1.
Proof. rewrite <- cis_opp, <- cis_add. replace (t + - t) with 0 by ring. apply cis_0. Qed.
Lemma ifftn_phase sh b d f x : inb sh x -> (b < length sh)%nat ->
  ifftn sh (fun j => cmul (shift_phase sh b d j) (f j)) x = ifftn sh f (shift_ix sh b d x).
Proof.
  intros Hx Hb. unfold ifftn. f_equal. apply (gsum_ext (K := CC)). intros k Hk. rewrite phase_shift by assumption.
  set (p := shift_phase _ _ _ _). set (q := cis _). set (r := f k). clearbody p q r. apply cpx_ext; cbn; ring.
Qed.
Lemma fftn_shift sh b d f j : inb sh j -> (b < length sh)%nat ->
  fftn sh (fun x => f (shift_ix sh b d x)) j = cmul (shift_phase sh b d j) (fftn sh f j).
Proof.
  intros Hj Hb. unfold fftn.
  rewrite <- (gsum_shift (K := CC) sh b d (fun x => cmul (f x) (cis (- (2 * PI * turns sh j x))))) by exact Hb.
  refine (eq_trans _ (gsum_mul_l CC sh _ _)). apply (gsum_ext (K := CC)). intros x Hx. rewrite !cis_opp, phase_shift by assumption.
  pose proof (cis_unit (2 * PI * (INR (coord j b) * IZR d / INR (dim sh b)))) as U. fold (shift_phase sh b d j) in U.
  set (p := shift_phase _ _ _ _) in *. set (q := cis _). set (r := f _). clearbody p q r.
  change (cmul r (cconj q) = cmul p (cmul r (cconj (cmul p q)))).
  transitivity (cmul (cmul p (cconj p)) (cmul r (cconj q))); [rewrite U|]; apply cpx_ext; cbn; ring.
Qed.

  Lemma dotc_scale v c u : dotc v (fun a => cmul c (u a)) = cmul c (dotc v u).
  Proof. unfold dotc. apply cpx_ext; cbn; ring. Qed.
  Lemma dotc_ext v u u' : (forall a, (a < 3)%nat -> u a = u' a) -> dotc v u = dotc v u'.
  Proof. intro H. unfold dotc. now rewrite !H by lia. Qed.
Section Two.
  Variables (k0 : vec3) (G : nat -> nat -> R) (sh : list nat).
  Hypothesis Hsh : length sh = 3%nat.
  Hypothesis Hfin : forall j, inb sh j -> snd (generate_kmn k0 G sh j) <> None.
  Notation nn := (getn k0 G sh).
  Lemma translate (eps eps' : nat -> list nat -> cpx) b d h h' r r' : (b < 3)%nat -> (forall a j, (a < 3)%nat -> inb sh j -> eps a j <> c0) ->
    (forall a x, (a < 3)%nat -> inb sh x -> eps' a x = eps a (shift_ix sh b d x)) ->
    (forall j, inb sh j -> hm sh h' j = cmul (shift_phase sh b d j) (hm sh h j) /\ hn sh h' j = cmul (shift_phase sh b d j) (hn sh h j)) ->
    maxwell_operator k0 G sh eps None h = Some r -> maxwell_operator k0 G sh eps' None h' = Some r' ->
    forall j, inb sh j -> value (r' (ravel sh j)) = cmul (shift_phase sh b d j) (value (r (ravel sh j))) /\
      value (r' (prodl sh + ravel sh j)%nat) = cmul (shift_phase sh b d j) (value (r (prodl sh + ravel sh j)%nat)).
  Proof.
    intros Hb He E Hh Er Er' j Hj. assert (Hb' : (b < length sh)%nat) by lia.
    assert (He' : forall a j, (a < 3)%nat -> inb sh j -> eps' a j <> c0).
    { intros a x Ha Hx. rewrite E by assumption. apply He; [exact Ha|]. apply inb_shift; assumption. }
    destruct (mop_value k0 G sh Hsh Hfin eps He h) as (s & Es & _ & V). destruct (mop_value k0 G sh Hsh Hfin eps' He' h') as (s' & Es' & _ & V').
    rewrite Er in Es. rewrite Er' in Es'. injection Es as <-. injection Es' as <-.
    destruct (V j Hj) as [-> ->]. destruct (V' j Hj) as [-> ->].
    assert (X : forall a, (a < 3)%nat -> ev k0 G sh nn eps' h' a j = cmul (shift_phase sh b d j) (ev k0 G sh nn eps h a j)).
    { intros a Ha. unfold ev. rewrite <- fftn_shift by assumption. apply fftn_ext. intros x Hx. rewrite E by assumption. f_equal.
      rewrite <- ifftn_phase by assumption. apply ifftn_ext. intros q Hq. unfold dval. destruct (Hh q Hq) as [-> ->].
      set (p := shift_phase _ _ _ _). set (u := hm sh h q). set (v := hn sh h q). clearbody p u v. apply cpx_ext; cbn; ring. }
    rewrite !(dotc_ext _ _ _ X), !dotc_scale. set (p := shift_phase _ _ _ _). set (u := dotc _ _). set (v := dotc _ _). clearbody p u v.
    split; apply cpx_ext; cbn; ring.
  Qed.
  Lemma eps_scale (eps eps' : nat -> list nat -> cpx) c h r r' : c <> c0 -> (forall a j, (a < 3)%nat -> inb sh j -> eps a j <> c0) ->
    (forall a x, (a < 3)%nat -> inb sh x -> eps' a x = cmul c (eps a x)) ->
    maxwell_operator k0 G sh eps None h = Some r -> maxwell_operator k0 G sh eps' None h = Some r' ->
    forall p, (p < 2 * prodl sh)%nat -> value (r' p) = cdiv (value (r p)) c.
  Proof.
    intros Hc He E Er Er' p Hp.
    assert (He' : forall a j, (a < 3)%nat -> inb sh j -> eps' a j <> c0).
    { intros a x Ha Hx. rewrite E by assumption. intro X. destruct (fmul_integral CC _ _ X); [contradiction|]. now apply (He a x). }
    destruct (mop_value k0 G sh Hsh Hfin eps He h) as (s & Es & _ & V). destruct (mop_value k0 G sh Hsh Hfin eps' He' h) as (s' & Es' & _ & V').
    rewrite Er in Es. rewrite Er' in Es'. injection Es as <-. injection Es' as <-.
    destruct (halves sh p Hp) as (j & Hj & C).
    assert (X : forall a, (a < 3)%nat -> ev k0 G sh nn eps' h a j = cmul (cinv c) (ev k0 G sh nn eps h a j)).
    { intros a Ha. unfold ev. rewrite <- fftn_scale. apply fftn_ext. intros x Hx. rewrite E by assumption.
      assert (Y : cmul (cinv c) (cinv (eps a x)) = cinv (cmul c (eps a x))).
      { symmetry. apply (finv_mul CC). assumption. now apply He. }
      unfold cdiv. rewrite <- Y. set (u := ifftn _ _ _). set (v := cinv c). set (w := cinv _). clearbody u v w. apply cpx_ext; cbn; ring. }
    assert (Y : forall t u, rmul t (cmul (cinv c) u) = cdiv (rmul t u) c).
    { intros t u. unfold cdiv. set (v := cinv c). clearbody v. apply cpx_ext; cbn; ring. }
    destruct (V j Hj) as [A B]. destruct (V' j Hj) as [A' B'].
    destruct C as [-> | ->]; rewrite ?A, ?A', ?B, ?B', (dotc_ext _ _ _ X), dotc_scale; apply Y.
  Qed.
End Two.

(** * Scaling of the reciprocal lattice *)
Lemma norm3_scale s u v : 0 < s -> (forall a, (a < 3)%nat -> v a = s * u a) -> norm3 v = s * norm3 u.
Proof.
  intros Hs H. unfold norm3. rewrite !H by lia. rewrite <- (sqrt_square s) at 7 by lra. rewrite <- sqrt_mult by nra. f_equal. ring.
Qed.
Lemma k_xyz_scale k0 G G' s sh j : (forall a b, G' a b = s * G a b) -> forall a, k_xyz k0 G' sh j a = s * k_xyz k0 G sh j a.
Proof. intros H a. unfold k_xyz. rewrite !H. ring. Qed.
Lemma kis0_scale s k k' : s <> 0 -> (forall a, k' a = s * k a) -> k_is_0 k' = k_is_0 k.
Proof.
  intros Hs H. assert (X : k_is_0 k' = true <-> k_is_0 k = true).
  { rewrite !k_is_0_spec, !H. split; intros (A & B & C); repeat split; try (rewrite ?A, ?B, ?C; ring); eapply Rmult_eq_reg_l; try exact Hs; lra. }
  destruct (k_is_0 k'), (k_is_0 k); try reflexivity; [symmetry|]; now apply X.
Qed.
Definition kmn (k : vec3) : R * vec3 * option vec3 :=
  let m := if Req_EM_T (k O) 0 then v3 0 1 0 else let u := cross k (v3 0 0 1) in fun a => u a / norm3 u in
  let v := cross k m in
  let n := if k_is_0 k then Some (v3 0 0 1) else if Req_EM_T (norm3 v) 0 then None else Some (fun a => v a / norm3 v) in
  (norm3 k, m, n).
Lemma generate_is_kmn k0 G sh j : generate_kmn k0 G sh j = kmn (k_xyz k0 G sh j).
Proof. reflexivity. Qed.
Definition sgn1 (t : R) : R := if Rlt_dec 0 t then 1 else -1.
Definition sg_m (k : vec3) (t : R) : R := if Req_EM_T (k O) 0 then 1 else sgn1 t.
Definition sg_n (k : vec3) (t : R) : R := if Req_EM_T (k O) 0 then (if k_is_0 k then 1 else sgn1 t) else 1.
Lemma sgn1_abs t : t <> 0 -> t = sgn1 t * Rabs t /\ sgn1 t * sgn1 t = 1 /\ sgn1 t * t = Rabs t.
Proof. intro H. unfold sgn1. destruct Rlt_dec as [P|P]; [rewrite Rabs_pos_eq by lra|rewrite Rabs_left by lra]; lra. Qed.
Lemma norm3_scale_abs s u v : (forall a, (a < 3)%nat -> v a = s * u a) -> norm3 v = Rabs s * norm3 u.
Proof.
  intro H. unfold norm3. rewrite !H by lia. rewrite <- (sqrt_Rsqr_abs s). rewrite <- sqrt_mult by (try apply Rle_0_sqr; nra). f_equal. unfold Rsqr. ring.
Qed.
Lemma kmn_scale k k' t : t <> 0 -> (forall a, k' a = t * k a) ->
  fst (fst (kmn k')) = Rabs t * fst (fst (kmn k)) /\
  (forall a, (a < 3)%nat -> snd (fst (kmn k')) a = sg_m k t * snd (fst (kmn k)) a) /\
  (forall n, snd (kmn k) = Some n -> exists n', snd (kmn k') = Some n' /\ forall a, (a < 3)%nat -> n' a = sg_n k t * n a).
Proof.
  intros Ht H. destruct (sgn1_abs t Ht) as (T1 & T2 & T3). assert (Ta : 0 < Rabs t) by now apply Rabs_pos_lt.
  assert (N : norm3 k' = Rabs t * norm3 k) by (apply norm3_scale_abs; auto).
  assert (M : forall a, (a < 3)%nat -> snd (fst (kmn k')) a = sg_m k t * snd (fst (kmn k)) a).
  { intros a Ha. unfold kmn, sg_m. cbn [fst snd]. rewrite H. destruct (Req_EM_T (k O) 0) as [Z|Z].
    - rewrite Z, Rmult_0_r. destruct Req_EM_T; [|lra]. ring.
    - destruct Req_EM_T as [Y|Y]; [exfalso; apply Rmult_integral in Y; tauto|].
      assert (C : forall a, (a < 3)%nat -> cross k' (v3 0 0 1) a = t * cross k (v3 0 0 1) a) by (intros [|[|[|b]]] Hb; try lia; cbn; rewrite ?H; ring).
      rewrite (norm3_scale_abs t _ _ C), C by exact Ha.
      assert (P : norm3 (cross k (v3 0 0 1)) <> 0). { intro X. apply norm3_0 in X. cbn in X. lra. }
      rewrite T1 at 1. field. lra. }
  split; [exact N|]. split; [exact M|]. intros n Hn.
  unfold kmn in Hn |- *. cbn [fst snd] in Hn |- *. rewrite (kis0_scale t k k' Ht H).
  assert (C : forall a, (a < 3)%nat -> cross k' (snd (fst (kmn k'))) a = (t * sg_m k t) * cross k (snd (fst (kmn k))) a).
  { intros [|[|[|b]]] Hb; try lia; unfold cross, v3; rewrite !M, !H by lia; ring. }
  unfold kmn in C. cbn [fst snd] in C.
  destruct (k_is_0 k) eqn:K.
  - injection Hn as <-. eexists. split; [reflexivity|]. intros a Ha. unfold sg_n. rewrite K.
    apply k_is_0_spec in K. destruct K as (K & _). destruct (Req_EM_T (k O) 0); symmetry; apply Rmult_1_l.
  - match type of C with forall a, _ -> ?f a = _ * ?g a => set (v' := f) in *; set (v := g) in *; clearbody v v' end.
    pose proof (norm3_scale_abs _ _ _ C) as Nv.
    assert (S : sg_m k t * sg_m k t = 1) by (unfold sg_m; destruct (Req_EM_T (k O) 0); [ring|exact T2]).
    assert (Ab : Rabs (t * sg_m k t) = Rabs t).
    { rewrite Rabs_mult. assert (Rabs (sg_m k t) = 1). { pose proof (Rabs_pos (sg_m k t)). assert (Rabs (sg_m k t) * Rabs (sg_m k t) = 1) by (rewrite <- Rabs_mult, S; apply Rabs_R1). nra. } rewrite H0. ring. }
    rewrite Ab in Nv. destruct (Req_EM_T (norm3 v) 0) as [Z|Z]; [discriminate|]. injection Hn as <-.
    destruct Req_EM_T as [Y|Y]; [exfalso; rewrite Nv in Y; apply Rmult_integral in Y; lra|].
    eexists. split; [reflexivity|]. intros a Ha. cbv beta. rewrite C, Nv by exact Ha.
    unfold sg_n, sg_m. rewrite K. destruct (Req_EM_T (k O) 0) as [X|X].
    + rewrite T1 at 1. field. lra.
    + replace (t * sgn1 t) with (Rabs t) by lra. field. lra.
Qed.
Lemma kmn_sign k t : t <> 0 -> (sg_m k t * sg_n k t - sgn1 t) * fst (fst (kmn k)) = 0 /\ sg_m k t * sg_m k t = 1 /\ sg_n k t * sg_n k t = 1.
Proof.
  intro Ht. destruct (sgn1_abs t Ht) as (T1 & T2 & T3). unfold sg_m, sg_n.
  destruct (Req_EM_T (k O) 0) as [X|X]; [|split; [ring|split; lra]].
  destruct (k_is_0 k) eqn:K; [|split; [ring|split; lra]].
  apply k_is_0_spec in K. destruct K as (K0 & K1 & K2). split; [|split; lra].
  cbn. unfold norm3. rewrite K0, K1, K2. replace (0 * 0 + 0 * 0 + 0 * 0) with 0 by ring. rewrite sqrt_0. ring.
Qed.
Lemma g_scale k0 G G' s sh eps h r r' : length sh = 3%nat -> 0 < s -> (forall a b, G' a b = s * G a b) ->
  (forall j, inb sh j -> snd (generate_kmn k0 G sh j) <> None) -> (forall a j, (a < 3)%nat -> inb sh j -> eps a j <> c0) ->
  maxwell_operator k0 G sh eps None h = Some r -> maxwell_operator k0 G' sh eps None h = Some r' ->
  forall p, (p < 2 * prodl sh)%nat -> value (r' p) = rmul (s * s) (value (r p)).
Proof.
  intros L Hs HG Hf He Er Er' p Hp.
  assert (S : sgn1 s = 1) by (unfold sgn1; destruct Rlt_dec; lra).
  assert (K : forall j, inb sh j -> kk k0 G' sh j = s * kk k0 G sh j /\ (forall a, (a < 3)%nat -> mv3 k0 G' sh j a = mv3 k0 G sh j a) /\
    snd (generate_kmn k0 G' sh j) <> None /\ (forall a, (a < 3)%nat -> getn k0 G' sh j a = getn k0 G sh j a)).
  { intros j Hj. destruct (kmn_scale (k_xyz k0 G sh j) (k_xyz k0 G' sh j) s ltac:(lra) (k_xyz_scale k0 G G' s sh j HG)) as (A & B & C).
    destruct (C _ (getn_ok _ _ _ _ (Hf j Hj))) as (n' & E & F). rewrite Rabs_pos_eq in A by lra.
    split; [exact A|]. split; [|split].
    - intros a Ha. refine (eq_trans (B a Ha) _). unfold sg_m. rewrite S. destruct Req_EM_T; apply Rmult_1_l.
    - rewrite generate_is_kmn, E. discriminate.
    - intros a Ha. unfold getn at 1. rewrite generate_is_kmn, E, F by exact Ha. unfold sg_n. rewrite S. destruct Req_EM_T; [destruct k_is_0|]; apply Rmult_1_l. }
  assert (Hf' : forall j, inb sh j -> snd (generate_kmn k0 G' sh j) <> None) by (intros j Hj; apply (K j Hj)).
  destruct (mop_value k0 G sh L Hf eps He h) as (t & Et & _ & V). destruct (mop_value k0 G' sh L Hf' eps He h) as (t' & Et' & _ & V').
  rewrite Er in Et. rewrite Er' in Et'. injection Et as <-. injection Et' as <-.
  destruct (halves sh p Hp) as (j & Hj & C). destruct (K j Hj) as (K1 & K2 & _ & K3).
  assert (X : forall a, (a < 3)%nat -> ev k0 G' sh (getn k0 G' sh) eps h a j = cmul (mkC s 0) (ev k0 G sh (getn k0 G sh) eps h a j)).
  { intros a Ha. unfold ev. rewrite <- fftn_scale. apply fftn_ext. intros x Hx.
    transitivity (cdiv (ifftn sh (fun q => cmul (mkC s 0) (dval k0 G sh (getn k0 G sh) h a q)) x) (eps a x)).
    - f_equal. apply ifftn_ext. intros q Hq. destruct (K q Hq) as (Q1 & Q2 & _ & Q3). unfold dval. rewrite Q1, Q2, Q3 by exact Ha.
      set (u := hm sh h q). set (v := hn sh h q). clearbody u v. apply cpx_ext; cbn; ring.
    - rewrite ifftn_scale. unfold cdiv. set (u := ifftn _ _ _). set (w := cinv _). clearbody u w. apply cpx_ext; cbn; ring. }
  assert (Y : forall v v' : vec3, (forall a, (a < 3)%nat -> v' a = v a) -> dotc v' (fun a => ev k0 G' sh (getn k0 G' sh) eps h a j) = cmul (mkC s 0) (dotc v (fun a => ev k0 G sh (getn k0 G sh) eps h a j))).
  { intros v v' Hv. rewrite (dotc_ext _ _ _ X), dotc_scale. f_equal. unfold dotc. now rewrite !Hv by lia. }
  destruct (V j Hj) as [A B]. destruct (V' j Hj) as [A' B'].
  destruct C as [-> | ->]; [rewrite A, A', K1, (Y _ _ K3)|rewrite B, B', K1, (Y _ _ K2)]; set (u := dotc _ _); clearbody u; apply cpx_ext; cbn; ring.
Qed.

(** * Reversal *)
Lemma mirror_lt n i : (i < n)%nat -> (mirror n i < n)%nat.
Proof. unfold mirror. intro H. destruct (Nat.even n), (Nat.eqb_spec i 0); lia. Qed.
Lemma mirror_mirror n i : (i < n)%nat -> mirror n (mirror n i) = i.
Proof.
  unfold mirror. intro H. destruct (Nat.even n); [lia|]. destruct (Nat.eqb_spec i 0) as [->|]; [reflexivity|].
  destruct (Nat.eqb_spec (n - i) 0); lia.
Qed.
Lemma mirrors_inb sh j : inb sh j -> inb sh (mirrors sh j).
Proof. induction 1; cbn; constructor; auto using mirror_lt. Qed.
Lemma mirrors_mirrors sh j : inb sh j -> mirrors sh (mirrors sh j) = j.
Proof. induction 1; cbn; [reflexivity|]. now rewrite mirror_mirror, IHForall2 by assumption. Qed.
Lemma gsum_mirror (K : Fld) sh (f : list nat -> K) : gsum sh (fun j => f (mirrors sh j)) = gsum sh f.
Proof.
  revert f. induction sh as [|n ns IH]; intro f; cbn [gsum mirrors]; [reflexivity|].
  transitivity (sumN n (fun i => gsum ns (fun x => f (mirror n i :: x)))).
  - apply sumN_ext. intros i _. exact (IH (fun x => f (mirror n i :: x))).
  - apply (sumN_reindex K n (fun i => gsum ns (fun x => f (i :: x))) (mirror n) (mirror n)); auto using mirror_lt, mirror_mirror.
Qed.
Fixpoint half (sh x : list nat) : R :=
  match sh, x with n :: ns, i :: is => (if Nat.even n then INR i / INR n else 0) + half ns is | _, _ => 0 end.
Lemma phase_mirror sh j x : inb sh j -> inb sh x ->
  cis (2 * PI * turns sh (mirrors sh j) x) = cmul (cis (- (2 * PI * half sh x))) (cconj (cis (2 * PI * turns sh j x))).
Proof.
  intro Hj. revert x. induction Hj as [|i n j ns Li Hj IH]; intros x Hx; inversion Hx as [|y n' x' ns' Ly Hx']; subst.
  - cbn. rewrite Rmult_0_r, Ropp_0, cis_0. apply cpx_ext; cbn; ring.
  - cbn [mirrors turns half]. rewrite !(Rmult_plus_distr_l (2 * PI)), Ropp_plus_distr, !cis_add, (IH x' Hx').
    assert (E : cis (2 * PI * (INR (mirror n i) * INR y / INR n)) = cmul (cis (- (2 * PI * (if Nat.even n then INR y / INR n else 0)))) (cconj (cis (2 * PI * (INR i * INR y / INR n))))).
    { assert (Pn : 0 < INR n) by (apply (lt_INR 0); lia). rewrite <- cis_opp, <- cis_add. unfold mirror. destruct (Nat.even n).
      - transitivity (cmul (cis (2 * PI * INR y)) (cis (- (2 * PI * (INR y / INR n)) + - (2 * PI * (INR i * INR y / INR n))))).
        + rewrite <- cis_add. f_equal. rewrite !minus_INR by lia. change (INR 1) with 1. field. lra.
        + rewrite cis_nat. apply cpx_ext; cbn; ring.
      - destruct (Nat.eqb_spec i 0) as [-> |]; [f_equal; change (INR 0) with 0; field; lra|].
        transitivity (cmul (cis (2 * PI * INR y)) (cis (- (2 * PI * 0) + - (2 * PI * (INR i * INR y / INR n))))).
        + rewrite <- cis_add. f_equal. rewrite !minus_INR by lia. field. lra.
        + rewrite cis_nat. apply cpx_ext; cbn; ring. }
    rewrite E. set (a := cis _). set (b := cis _). set (c := cis _). set (d := cis _). clearbody a b c d. apply cpx_ext; cbn; ring.
Qed.
Lemma cconj_gsum sh f : cconj (gsum (K := CC) sh f) = gsum (K := CC) sh (fun x => cconj (f x)).
Proof. exact (conj_gsum sh f). Qed.
Lemma cconj_cdiv x y : cconj (cdiv x y) = cdiv (cconj x) (cconj y).
Proof. apply cpx_ext; cbn; unfold cnrm; cbn; unfold Rdiv; rewrite ?Rmult_opp_opp; ring. Qed.
Lemma ifftn_mirror sh f g x : inb sh x -> (forall j, inb sh j -> g (mirrors sh j) = cconj (f j)) ->
  ifftn sh g x = cmul (cis (- (2 * PI * half sh x))) (cconj (ifftn sh f x)).
Proof.
  intros Hx H. unfold ifftn. rewrite cconj_cdiv, cconj_gsum. rewrite <- (gsum_mirror CC).
  transitivity (cdiv (cmul (cis (- (2 * PI * half sh x))) (gsum (K := CC) sh (fun k => cconj (cmul (f k) (cis (2 * PI * turns sh k x)))))) (mkC (INR (prodl sh)) 0)).
  - f_equal. refine (eq_trans _ (gsum_mul_l CC sh _ _)). apply (gsum_ext (K := CC)). intros j Hj. rewrite H, phase_mirror by assumption.
    set (a := cis _). set (b := cis _). set (c := f j). clearbody a b c. apply cpx_ext; cbn; ring.
  - unfold cdiv. set (a := cis _). set (b := gsum _ _). apply cpx_ext; cbn; unfold cnrm; cbn; unfold Rdiv; rewrite ?Ropp_0; ring.
Qed.
Lemma fftn_mirror sh f g j : inb sh j -> (forall x, inb sh x -> g x = cmul (cis (- (2 * PI * half sh x))) (cconj (f x))) ->
  fftn sh g (mirrors sh j) = cconj (fftn sh f j).
Proof.
  intros Hj H. unfold fftn. rewrite cconj_gsum. apply (gsum_ext (K := CC)). intros x Hx. rewrite H by assumption.
  rewrite !cis_opp, phase_mirror by assumption. rewrite !cis_opp. pose proof (cis_unit (2 * PI * half sh x)) as U.
  set (a := cis (2 * PI * half sh x)) in *. set (b := cis _). set (c := f x). clearbody a b c.
  transitivity (cmul (cmul a (cconj a)) (cmul (cconj c) b)); [|rewrite U]; apply cpx_ext; cbn; ring.
Qed.
Lemma signed_freq_mirror n i : (i < n)%nat -> IZR (signed_freq n (mirror n i)) = - IZR (signed_freq n i) - (if Nat.even n then 1 else 0).
Proof.
  intro H. assert (E : signed_freq n (mirror n i) = (- signed_freq n i - (if Nat.even n then 1 else 0))%Z).
  { unfold signed_freq, mirror. destruct (Nat.even n) eqn:Ev.
    - apply Nat.even_spec in Ev. destruct Ev as [m ->]. destruct (Nat.ltb_spec (2 * i) (2 * m)), (Nat.ltb_spec (2 * (2 * m - 1 - i)) (2 * m)); lia.
    - assert (O : Nat.odd n = true) by (unfold Nat.odd; now rewrite Ev). apply Nat.odd_spec in O. destruct O as [m ->].
      destruct (Nat.eqb_spec i 0) as [-> |]; [destruct (Nat.ltb_spec (2 * 0) (2 * m + 1)); lia|].
      destruct (Nat.ltb_spec (2 * i) (2 * m + 1)), (Nat.ltb_spec (2 * (2 * m + 1 - i)) (2 * m + 1)); lia. }
  rewrite E, minus_IZR, opp_IZR. now destruct (Nat.even n).
Qed.
Lemma mirrors_coord sh j b : inb sh j -> (b < length sh)%nat -> coord (mirrors sh j) b = mirror (dim sh b) (coord j b).
Proof.
  intros Hj. revert b. induction Hj as [|i n j ns Li Hj IH]; intros b Hb; [cbn in Hb; lia|].
  destruct b as [|b]; [reflexivity|]. exact (IH b ltac:(cbn in Hb; lia)).
Qed.
Lemma wavevector_mirror k0 G sh j a : length sh = 3%nat -> inb sh j ->
  wavevector (opposite sh k0) G sh (mirrors sh j) a = - wavevector k0 G sh j a.
Proof.
  intros L Hj. unfold wavevector, opposite. rewrite !mirrors_coord by (try assumption; lia).
  rewrite !signed_freq_mirror by (apply inb_dim_pos; [assumption|lia]). ring.
Qed.
Lemma k_xyz_mirror k0 G sh j a : length sh = 3%nat -> inb sh j ->
  k_xyz (opposite sh k0) G sh (mirrors sh j) a = (-1) * k_xyz k0 G sh j a.
Proof. intros L Hj. rewrite !k_xyz_wavevector by (try assumption; now apply mirrors_inb). rewrite wavevector_mirror by assumption. ring. Qed.

Section Reverse.
  Variables (k0 : vec3) (G : nat -> nat -> R) (sh : list nat).
  Hypothesis Hsh : length sh = 3%nat.
  Hypothesis Hfin : forall j, inb sh j -> snd (generate_kmn k0 G sh j) <> None.
  Notation k1 := (opposite sh k0).
  Definition sgm (j : list nat) : R := sg_m (k_xyz k0 G sh j) (-1).
  Definition sgn (j : list nat) : R := sg_n (k_xyz k0 G sh j) (-1).
  Lemma reverse_basis j : inb sh j -> kk k1 G sh (mirrors sh j) = kk k0 G sh j /\
    (forall a, (a < 3)%nat -> mv3 k1 G sh (mirrors sh j) a = sgm j * mv3 k0 G sh j a) /\
    snd (generate_kmn k1 G sh (mirrors sh j)) <> None /\
    (forall a, (a < 3)%nat -> getn k1 G sh (mirrors sh j) a = sgn j * getn k0 G sh j a).
  Proof.
    intro Hj. destruct (kmn_scale (k_xyz k0 G sh j) (k_xyz k1 G sh (mirrors sh j)) (-1) ltac:(lra) (fun a => k_xyz_mirror k0 G sh j a Hsh Hj)) as (A & B & C).
    destruct (C _ (getn_ok _ _ _ _ (Hfin j Hj))) as (n' & E & F). rewrite Rabs_left in A by lra.
    split; [refine (eq_trans A _); unfold kk; rewrite generate_is_kmn; lra|]. split; [exact B|]. split.
    - rewrite generate_is_kmn, E. discriminate.
    - intros a Ha. unfold getn at 1. rewrite generate_is_kmn, E. exact (F a Ha).
  Qed.
  Lemma reverse_signs j : (sgm j * sgn j + 1) * kk k0 G sh j = 0 /\ sgm j * sgm j = 1 /\ sgn j * sgn j = 1.
  Proof.
    destruct (kmn_sign (k_xyz k0 G sh j) (-1) ltac:(lra)) as (A & B & C). split; [|now split].
    replace (sgn1 (-1)) with (-1) in A by (unfold sgn1; destruct Rlt_dec; lra). unfold kk, sgm, sgn. rewrite generate_is_kmn. lra.
  Qed.
  Lemma reverse_fin j : inb sh j -> snd (generate_kmn k1 G sh j) <> None.
  Proof. intro Hj. rewrite <- (mirrors_mirrors sh j Hj). apply reverse_basis. now apply mirrors_inb. Qed.
  Lemma reverse (eps eps' : nat -> list nat -> cpx) h h' r r' : (forall a j, (a < 3)%nat -> inb sh j -> eps a j <> c0) ->
    (forall a x, (a < 3)%nat -> inb sh x -> eps' a x = cconj (eps a x)) ->
    (forall j, inb sh j -> hm sh h' (mirrors sh j) = rmul (sgm j) (cconj (hm sh h j)) /\ hn sh h' (mirrors sh j) = rmul (sgn j) (cconj (hn sh h j))) ->
    maxwell_operator k0 G sh eps None h = Some r -> maxwell_operator k1 G sh eps' None h' = Some r' ->
    forall j, inb sh j -> value (r' (ravel sh (mirrors sh j))) = rmul (sgm j) (cconj (value (r (ravel sh j)))) /\
      value (r' (prodl sh + ravel sh (mirrors sh j))%nat) = rmul (sgn j) (cconj (value (r (prodl sh + ravel sh j)%nat))).
  Proof.
    intros He E Hh Er Er' j Hj.
    assert (He' : forall a j, (a < 3)%nat -> inb sh j -> eps' a j <> c0).
    { intros a x Ha Hx. rewrite E by assumption. intro X. apply (He a x Ha Hx). pose proof (f_equal cre X) as X1. pose proof (f_equal cim X) as X2. cbn in X1, X2. apply cpx_ext; cbn; lra. }
    destruct (mop_value k0 G sh Hsh Hfin eps He h) as (t & Et & _ & V). destruct (mop_value k1 G sh Hsh reverse_fin eps' He' h') as (t' & Et' & _ & V').
    rewrite Er in Et. rewrite Er' in Et'. injection Et as <-. injection Et' as <-.
    assert (X : forall a, (a < 3)%nat -> ev k1 G sh (getn k1 G sh) eps' h' a (mirrors sh j) = copp (cconj (ev k0 G sh (getn k0 G sh) eps h a j))).
    { intros a Ha. unfold ev.
      rewrite (fftn_mirror sh (fun x => copp (cdiv (ifftn sh (dval k0 G sh (getn k0 G sh) h a) x) (eps a x)))); [|exact Hj|].
      - transitivity (cconj (cmul (copp c1) (fftn sh (fun x => cdiv (ifftn sh (dval k0 G sh (getn k0 G sh) h a) x) (eps a x)) j))).
        + f_equal. rewrite <- fftn_scale. apply fftn_ext. intros x _. apply cpx_ext; cbn; ring.
        + set (z := fftn _ _ _). clearbody z. apply cpx_ext; cbn; ring.
      - intros x Hx. rewrite E by assumption.
        rewrite (ifftn_mirror sh (fun q => copp (dval k0 G sh (getn k0 G sh) h a q))); [|exact Hx|].
        + transitivity (cdiv (cmul (cis (- (2 * PI * half sh x))) (cconj (cmul (copp c1) (ifftn sh (dval k0 G sh (getn k0 G sh) h a) x)))) (cconj (eps a x))).
          * f_equal. f_equal. f_equal. rewrite <- ifftn_scale. apply ifftn_ext. intros q _. apply cpx_ext; cbn; ring.
          * set (z := ifftn _ _ _). set (w := eps a x). set (u := cis _). clearbody z w u.
            transitivity (cmul u (copp (cdiv (cconj z) (cconj w)))).
            -- unfold cdiv. set (i := cinv _). clearbody i. apply cpx_ext; cbn; ring.
            -- rewrite <- cconj_cdiv. set (q := cdiv _ _). clearbody q. apply cpx_ext; cbn; ring.
        + intros q Hq. destruct (reverse_basis q Hq) as (K1 & K2 & _ & K3). destruct (Hh q Hq) as (H1 & H2). destruct (reverse_signs q) as (S1 & S2 & S3).
          unfold dval. rewrite K1, K2, K3, H1, H2 by exact Ha. set (u := hm sh h q). set (v := hn sh h q).
          set (k := kk k0 G sh q) in *. set (m := mv3 k0 G sh q a). set (n := getn k0 G sh q a). set (sm := sgm q) in *. set (sn := sgn q) in *. clearbody u v k m n sm sn.
          assert (S4 : sm * sn * k = - k) by lra.
          apply cpx_ext; cbn.
          -- transitivity ((sm * sn * k) * (n * cre u - m * cre v)); [ring|rewrite S4; ring].
          -- transitivity (- (sm * sn * k) * (n * cim u - m * cim v)); [ring|rewrite S4; ring]. }
    destruct (V j Hj) as [A B]. destruct (V' _ (mirrors_inb sh j Hj)) as [A' B']. destruct (reverse_basis j Hj) as (K1 & K2 & _ & K3). destruct (reverse_signs j) as (S1 & S2 & S3).
    assert (Y : forall (v v' : vec3) c, (forall a, (a < 3)%nat -> v' a = c * v a) ->
      dotc v' (fun a => ev k1 G sh (getn k1 G sh) eps' h' a (mirrors sh j)) = rmul (- c) (cconj (dotc v (fun a => ev k0 G sh (getn k0 G sh) eps h a j)))).
    { intros v v' c Hv. rewrite (dotc_ext _ _ _ X). unfold dotc. rewrite !Hv by lia.
      set (x := ev _ _ _ _ _ _ _ _). set (y := ev _ _ _ _ _ _ _ _). set (z := ev _ _ _ _ _ _ _ _). clearbody x y z. apply cpx_ext; cbn; ring. }
    rewrite A, A', B, B', K1, (Y _ _ _ K2), (Y _ _ _ K3). set (x := dotc _ _). set (y := dotc _ _).
    set (k := kk k0 G sh j) in *. set (sm := sgm j) in *. set (sn := sgn j) in *. clearbody x y k sm sn.
    assert (S5 : k * sn = - (k * sm)). { transitivity (sm * sm * (k * sn)); [rewrite S2; ring|]. transitivity (sm * (sm * sn * k)); [ring|]. replace (sm * sn * k) with (- k) by lra. ring. }
    split; apply cpx_ext; cbn.
    - transitivity ((k * sn) * cre x); [ring|rewrite S5; ring].
    - transitivity (- (k * sn) * cim x); [ring|rewrite S5; ring].
    - transitivity (- (k * sm) * cre y); [ring|rewrite <- S5; ring].
    - transitivity (k * sm * cim y); [ring|]. replace (k * sm) with (- (k * sn)) by lra. ring.
  Qed.
End Reverse.
