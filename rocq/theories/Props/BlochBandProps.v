(** Properties of the bands of the Bloch operator of meanas/fdfd/bloch.py: bounds, scaling, symmetries. *)
From Coq Require Import Reals List Arith ZArith Lia Lra Psatz Bool Field Sorted FunctionalExtensionality.
From Verif.Lib Require Import Num Sums Idx Mat RealF Dft.
From Verif.Model Require Import Ndarray Bloch Eigensolvers BlochSolve WaveguideReal.
From Verif.Spec Require Import BlochSpec BlochBandSpec EigenSpec BlochSolveSpec.
From Verif.Proofs Require Import EmeP NdarrayP BlochP BlochP2 BlochSolveP BlochSolveP2 BlochBandP.
From Verif.Props Require Import BlochProps BlochSolveProps.
Import ListNotations.
Local Open Scope R_scope.

(** lam is an eigenvalue of the operator. *)
Definition is_band k0 G sh eps (lam : cpx) : Prop :=
  exists h r, gives (2 * prodl sh) (maxwell_operator k0 G sh eps None h) r /\
    (exists p, (p < 2 * prodl sh)%nat /\ h p <> c0) /\ forall p, (p < 2 * prodl sh)%nat -> r p = cmul lam (h p).
Definition real_eps (e : nat -> list nat -> R) : nat -> list nat -> cpx := fun a j => mkC (e a j) 0.
Definition within sh (lo hi : R) (e : nat -> list nat -> R) : Prop := forall a j, (a < 3)%nat -> inb sh j -> lo <= e a j <= hi.
(** Sum of the squared moduli. *)
Definition total2 (n : nat) (h : nat -> cpx) : R := sumN (K := RF) n (fun p => cabs2 (h p)).

Lemma k2_wave k0 G sh h : length sh = 3%nat -> k2_weight sh (k_xyz k0 G sh) h = k2_weight sh (wavevector k0 G sh) h.
Proof. intro L. apply (gsum_ext (K := RF)). intros j Hj. unfold dot3. now rewrite !k_xyz_wavevector by assumption. Qed.
Lemma given n x r : gives n x r -> exists f, x = Some f /\ forall p, (p < n)%nat -> r p = value (f p).
Proof. intros (f & -> & F). exists f. split; [reflexivity|]. intros p Hp. now rewrite (F p Hp). Qed.
Lemma given_fin k0 G sh eps h f : length sh = 3%nat -> (forall j, inb sh j -> snd (generate_kmn k0 G sh j) <> None) -> nonzero_on sh eps ->
  maxwell_operator k0 G sh eps None h = Some f -> gives (2 * prodl sh) (maxwell_operator k0 G sh eps None h) (fun p => value (f p)).
Proof. intros L Hf He E. destruct (mop_value k0 G sh L Hf eps He h) as (g & E' & F & _). rewrite E in E'. injection E' as <-. exists f. split; [exact E|exact F]. Qed.
Lemma mop_some k0 G sh eps h : length sh = 3%nat -> (forall j, inb sh j -> snd (generate_kmn k0 G sh j) <> None) -> nonzero_on sh eps ->
  exists f, maxwell_operator k0 G sh eps None h = Some f.
Proof. intros L Hf He. destruct (mop_value k0 G sh L Hf eps He h) as (g & E' & _). now exists g. Qed.
Lemma pos_nonzero sh e : (forall a j, (a < 3)%nat -> inb sh j -> 0 < e a j) -> nonzero_on sh (real_eps e).
Proof. intros He a j Ha Hj X. apply (f_equal cre) in X. cbn in X. pose proof (He a j Ha Hj). lra. Qed.
Lemma within_pos sh lo hi e : 0 < lo -> within sh lo hi e -> forall a j, (a < 3)%nat -> inb sh j -> 0 < e a j.
Proof. intros Hl H a j Ha Hj. pose proof (H a j Ha Hj). lra. Qed.

(** ** C146 *)
(** The quadratic form lies between those of the uniform media of the smallest and the largest epsilon. *)
Theorem C146_bounds :
  forall k0 G sh e lo hi h, length sh = 3%nat -> off_y_axis k0 G sh -> 0 < lo -> within sh lo hi e ->
    exists r, gives (2 * prodl sh) (maxwell_operator k0 G sh (real_eps e) None h) r /\
      let w := k2_weight sh (wavevector k0 G sh) h in
      cim (hdot (2 * prodl sh) h r) = 0 /\ w / hi <= - cre (hdot (2 * prodl sh) h r) <= w / lo.
Proof.
  intros k0 G sh e lo hi h L Oy Hlo He. pose proof (op_fin k0 G sh L Oy) as Hf. pose proof (within_pos _ _ _ _ Hlo He) as Hp.
  destruct (C49_negative k0 G sh e h L Oy Hp) as (r & Er & Ci & _). exists r. split; [exact Er|]. intro w. split; [exact Ci|].
  destruct (given _ _ _ Er) as (f & Ef & Vf). rewrite (hdot_ext _ h r h (fun p => value (f p)) ltac:(reflexivity) Vf).
  unfold w. rewrite <- k2_wave by exact L. exact (quad_bounds k0 G sh L Hf e lo hi h f Hlo He Ef).
Qed.
Print Assumptions C146_bounds.
(** A larger epsilon gives a smaller form. *)
Theorem C146_monotone :
  forall k0 G sh e e' h, length sh = 3%nat -> off_y_axis k0 G sh -> (forall a j, (a < 3)%nat -> inb sh j -> 0 < e a j <= e' a j) ->
    exists r r', gives (2 * prodl sh) (maxwell_operator k0 G sh (real_eps e) None h) r /\
      gives (2 * prodl sh) (maxwell_operator k0 G sh (real_eps e') None h) r' /\
      - cre (hdot (2 * prodl sh) h r') <= - cre (hdot (2 * prodl sh) h r).
Proof.
  intros k0 G sh e e' h L Oy He. pose proof (op_fin k0 G sh L Oy) as Hf.
  assert (N : nonzero_on sh (real_eps e)) by (apply pos_nonzero; intros a j Ha Hj; pose proof (He a j Ha Hj); lra).
  assert (N' : nonzero_on sh (real_eps e')) by (apply pos_nonzero; intros a j Ha Hj; pose proof (He a j Ha Hj); lra).
  destruct (mop_some k0 G sh _ h L Hf N) as (f & Ef). destruct (mop_some k0 G sh _ h L Hf N') as (f' & Ef').
  exists (fun p => value (f p)), (fun p => value (f' p)). split; [now apply given_fin|]. split; [now apply given_fin|].
  exact (quad_mono k0 G sh L Hf e e' h f f' He Ef Ef').
Qed.
Print Assumptions C146_monotone.
Lemma total2_pos n h p : (p < n)%nat -> h p <> c0 -> 0 < total2 n h.
Proof.
  intros Hp Nz. assert (T : cabs2 (h p) <= total2 n h).
  { unfold total2. clear Nz. induction n as [|n IH]; [lia|]. cbn [sumN]. change (cabs2 (h p) <= sumN (K := RF) n (fun p => cabs2 (h p)) + cabs2 (h n)).
    pose proof (sumN_nonneg n (fun p => cabs2 (h p)) (fun i _ => cabs2_nonneg (h i))). destruct (Nat.eq_dec p n) as [-> |]; [lra|].
    specialize (IH ltac:(lia)). pose proof (cabs2_nonneg (h n)). lra. }
  apply Rlt_le_trans with (2 := T). pose proof (cabs2_nonneg (h p)). destruct H as [H|H]; [exact H|]. exfalso. apply Nz. unfold cabs2 in H. apply cpx_ext; cbn; nra.
Qed.
Lemma hdot_eig n h r lam : (forall p, (p < n)%nat -> r p = cmul lam (h p)) -> hdot n h r = rmul (total2 n h) lam.
Proof.
  intro H. unfold hdot, total2. induction n as [|n IH]; [apply cpx_ext; cbn; ring|]. cbn [sumN]. rewrite IH by (intros; apply H; lia). rewrite H by lia.
  set (s := sumN (K := RF) n _). clearbody s. unfold cabs2. apply cpx_ext; cbn; ring.
Qed.
(** Every band is between the smallest |k|^2 over the largest epsilon and the largest |k|^2 over the smallest epsilon. *)
Theorem C146_bands :
  forall k0 G sh e lo hi q Q lam, length sh = 3%nat -> off_y_axis k0 G sh -> 0 < lo -> within sh lo hi e ->
    (forall j, inb sh j -> q <= dot3 (wavevector k0 G sh j) (wavevector k0 G sh j) <= Q) ->
    is_band k0 G sh (real_eps e) lam -> cim lam = 0 /\ q / hi <= - cre lam <= Q / lo.
Proof.
  intros k0 G sh e lo hi q Q lam L Oy Hlo He Hq (h & r & Er & (p & Hp & Np) & Rl).
  destruct (C146_bounds k0 G sh e lo hi h L Oy Hlo He) as (r' & Er' & Ci & B1 & B2).
  assert (RR : forall p, (p < 2 * prodl sh)%nat -> r' p = cmul lam (h p)).
  { intros i Hi. rewrite <- Rl by exact Hi. destruct Er as (f & F1 & F2), Er' as (f' & F1' & F2'). rewrite F1 in F1'. injection F1' as <-. specialize (F2 i Hi). specialize (F2' i Hi). congruence. }
  rewrite (hdot_eig _ h r' lam RR) in Ci, B1, B2. pose proof (total2_pos _ h p Hp Np) as T. set (t := total2 _ h) in *.
  destruct (k2_weight_bounds sh (wavevector k0 G sh) h q Q Hq) as [W1 W2]. fold (total2 (2 * prodl sh) h) in W1, W2. fold t in W1, W2. set (w := k2_weight sh _ h) in *.
  assert (Hhi : 0 < hi). { assert (0 < prodl sh)%nat by lia. pose proof (He 0%nat (unravel sh 0) ltac:(lia) (inb_unravel sh 0 H)). lra. }
  clearbody t w. cbn in Ci, B1, B2. split; [nra|]. split.
  - apply (Rmult_le_reg_l t); [exact T|]. apply Rle_trans with (w / hi); [|lra]. unfold Rdiv. rewrite <- Rmult_assoc. apply Rmult_le_compat_r; [left; now apply Rinv_0_lt_compat|lra].
  - apply (Rmult_le_reg_l t); [exact T|]. apply Rle_trans with (w / lo); [lra|]. unfold Rdiv. rewrite <- Rmult_assoc. apply Rmult_le_compat_r; [left; now apply Rinv_0_lt_compat|lra].
Qed.
Print Assumptions C146_bands.
(** Zero is a band exactly if one of the wavevectors is zero. *)
Definition two_part (sh : list nat) (u v : list nat -> cpx) : nat -> cpx := fun p => if (p <? prodl sh)%nat then u (unravel sh p) else v (unravel sh (p - prodl sh)).
Lemma two_part_m sh u v j : inb sh j -> two_part sh u v (ravel sh j) = u j.
Proof. intro Hj. unfold two_part. pose proof (ravel_lt sh j Hj). destruct (Nat.ltb_spec (ravel sh j) (prodl sh)); [|lia]. now rewrite unravel_ravel. Qed.
Lemma two_part_n sh u v j : inb sh j -> two_part sh u v (prodl sh + ravel sh j)%nat = v j.
Proof. intro Hj. unfold two_part. destruct (Nat.ltb_spec (prodl sh + ravel sh j) (prodl sh)); [lia|]. replace (prodl sh + ravel sh j - prodl sh)%nat with (ravel sh j) by lia. now rewrite unravel_ravel. Qed.
Theorem C146_zero_band :
  forall k0 G sh e, length sh = 3%nat -> off_y_axis k0 G sh -> (forall a j, (a < 3)%nat -> inb sh j -> 0 < e a j) ->
    (is_band k0 G sh (real_eps e) c0 <-> exists j, inb sh j /\ forall a, (a < 3)%nat -> wavevector k0 G sh j a = 0).
Proof.
  intros k0 G sh e L Oy He. pose proof (op_fin k0 G sh L Oy) as Hf. split.
  - intros (h & r & Er & (p & Hp & Np) & Rl).
    set (lo := / gsum (K := RF) sh (fun x => sumN (K := RF) 3 (fun a => / e a x))). set (hi := gsum (K := RF) sh (fun x => sumN (K := RF) 3 (fun a => e a x))).
    assert (Pi : forall a x, (a < 3)%nat -> inb sh x -> 0 < / e a x) by (intros; apply Rinv_0_lt_compat; auto).
    assert (U : forall (f : nat -> list nat -> R), (forall a x, (a < 3)%nat -> inb sh x -> 0 < f a x) -> forall a x, (a < 3)%nat -> inb sh x -> f a x <= gsum (K := RF) sh (fun x => sumN (K := RF) 3 (fun a => f a x))).
    { intros f Pf a x Ha Hx. pose proof (gsum_ge_term sh (fun x => sumN (K := RF) 3 (fun a => f a x)) x Hx) as T.
      apply Rle_trans with (sumN (K := RF) 3 (fun a => f a x)); [|apply T].
      - pose proof (Pf 0%nat x ltac:(lia) Hx). pose proof (Pf 1%nat x ltac:(lia) Hx). pose proof (Pf 2%nat x ltac:(lia) Hx). cbn.
        destruct a as [|[|[|a]]]; [lra|lra|lra|lia].
      - intros y Hy. apply sumN_nonneg. intros i Hi. left. now apply Pf. }
    assert (P0 : (0 < prodl sh)%nat) by lia. pose proof (inb_unravel sh 0 P0) as I0.
    assert (Hlo : 0 < lo). { apply Rinv_0_lt_compat. apply Rlt_le_trans with (/ e 0%nat (unravel sh 0)); [now apply Pi; [lia|]|]. apply (U (fun a x => / e a x)); auto; lia. }
    assert (Hw : within sh lo hi e).
    { intros a j Ha Hj. split; [|now apply (U e)]. rewrite <- (Rinv_inv (e a j)). apply Rinv_le_contravar; [now apply Pi|]. now apply (U (fun a x => / e a x)). }
    destruct (C146_bounds k0 G sh e lo hi h L Oy Hlo Hw) as (r' & Er' & _ & B1 & _).
    assert (RR : forall p, (p < 2 * prodl sh)%nat -> r' p = cmul c0 (h p)).
    { intros i Hi. rewrite <- Rl by exact Hi. destruct Er as (f & F1 & F2), Er' as (f' & F1' & F2'). rewrite F1 in F1'. injection F1' as <-. specialize (F2 i Hi). specialize (F2' i Hi). congruence. }
    rewrite (hdot_eig _ h r' c0 RR) in B1. cbn in B1.
    assert (Hhi : 0 < hi) by (pose proof (Hw 0%nat (unravel sh 0) ltac:(lia) I0); lra).
    destruct (halves sh p Hp) as (j & Hj & Cj). exists j. split; [exact Hj|].
    set (k := wavevector k0 G sh) in *. set (term := fun j => dot3 (k j) (k j) * (cabs2 (h (ravel sh j)) + cabs2 (h (prodl sh + ravel sh j)%nat))).
    assert (Pt : forall j, 0 <= term j). { intro y. unfold term. pose proof (cabs2_nonneg (h (ravel sh y))). pose proof (cabs2_nonneg (h (prodl sh + ravel sh y)%nat)). apply Rmult_le_pos; [unfold dot3; nra|lra]. }
    pose proof (gsum_ge_term sh term j Hj (fun i _ => Pt i)) as T. change (gsum (K := RF) sh term) with (k2_weight sh k h) in T.
    assert (W : k2_weight sh k h <= 0). { apply (Rmult_le_reg_r (/ hi)); [now apply Rinv_0_lt_compat|]. unfold Rdiv in B1. lra. }
    assert (S : 0 < cabs2 (h (ravel sh j)) + cabs2 (h (prodl sh + ravel sh j)%nat)).
    { assert (Cp : 0 < cabs2 (h p)). { destruct (cabs2_nonneg (h p)) as [X|X]; [exact X|]. exfalso. apply Np. unfold cabs2 in X. apply cpx_ext; cbn; nra. }
      pose proof (cabs2_nonneg (h (ravel sh j))). pose proof (cabs2_nonneg (h (prodl sh + ravel sh j)%nat)). destruct Cj as [-> | ->]; lra. }
    assert (D : dot3 (k j) (k j) = 0). { unfold term in T. assert (0 <= dot3 (k j) (k j)) by (unfold dot3; nra). nra. }
    unfold dot3 in D. intros [|[|[|a]]] Ha; [| | |lia]; nra.
  - intros (j & Hj & Kz). assert (N : nonzero_on sh (real_eps e)) by now apply pos_nonzero.
    set (h := two_part sh (fun x => if leqb x j then c1 else c0) (fun _ => c0)).
    destruct (mop_value k0 G sh L Hf _ N h) as (f & Ef & F & V). exists h, (fun p => value (f p)). split; [now apply given_fin|]. split.
    + exists (ravel sh j). split; [pose proof (ravel_lt sh j Hj); lia|]. unfold h. rewrite two_part_m by exact Hj. replace (leqb j j) with true by (symmetry; now apply leqb_spec).
      intro X. apply (f_equal cre) in X. cbn in X. lra.
    + assert (K0 : kk k0 G sh j = 0).
      { unfold kk. rewrite kk_norm. unfold norm3. rewrite !k_xyz_wavevector, !Kz by (try assumption; lia). replace (0 * 0 + 0 * 0 + 0 * 0) with 0 by ring. apply sqrt_0. }
      assert (Dz : forall a q, inb sh q -> dval k0 G sh (getn k0 G sh) h a q = cmul c0 c0).
      { intros a q Hq. unfold dval, hm, hn, h. rewrite two_part_m, two_part_n by exact Hq. destruct (leqb q j) eqn:Q; [apply leqb_spec in Q; subst q; rewrite K0|]; apply cpx_ext; cbn; ring. }
      assert (Ez : forall a q, (a < 3)%nat -> ev k0 G sh (getn k0 G sh) (real_eps e) h a q = c0).
      { intros a q Ha. unfold ev. transitivity (fftn sh (fun x => cmul c0 c0) q); [|rewrite fftn_scale; apply cpx_ext; cbn; ring].
        apply fftn_ext. intros x Hx. rewrite (ifftn_ext sh _ _ x (Dz a)), ifftn_scale. unfold cdiv. set (z := ifftn _ _ _). set (y := cinv _). clearbody z y. apply cpx_ext; cbn; ring. }
      intros p Hp. destruct (halves sh p Hp) as (q & Hq & C). destruct (V q Hq) as [A B].
      assert (Z : forall v, dotc v (fun a => ev k0 G sh (getn k0 G sh) (real_eps e) h a q) = c0).
      { intro v. rewrite (dotc_ext v _ (fun _ => c0)) by (intros; now apply Ez). unfold dotc. apply cpx_ext; cbn; ring. }
      destruct C as [-> | ->]; [rewrite A|rewrite B]; rewrite Z; apply cpx_ext; cbn; ring.
Qed.
Print Assumptions C146_zero_band.
(** The eigenvalues eigsolve returns obey the same bounds. *)
Theorem C146_solver :
  forall k0 G sh e lo hi q Q k tolerance max_iters reset_iters inv sqrtm eig minimize rng fuel y0 s,
    length sh = 3%nat -> off_y_axis k0 G sh -> 0 < lo -> within sh lo hi e ->
    (forall j, inb sh j -> q <= dot3 (wavevector k0 G sh j) (wavevector k0 G sh j) <= Q) ->
    inv_ok k inv -> sqrtm_ok k sqrtm -> eig_ok k eig ->
    eigsolve (2 * prodl sh) k (bloch_op k0 G sh (real_eps e) None) (bloch_iop k0 G sh (real_eps e) None) tolerance max_iters reset_iters inv sqrtm eig minimize rng fuel y0 = Some s -> converged s = true ->
    forall lam v, In (lam, v) (modes s) -> cim lam = 0 /\ q / hi <= - cre lam <= Q / lo.
Proof.
  intros k0 G sh e lo hi q Q k tol mx reset inv sqrtm eig minimize rng fuel y0 s L Oy Hlo He Hq HI HS HE H C lam v Hv. pose proof (op_fin k0 G sh L Oy) as Hf.
  pose proof (within_pos _ _ _ _ Hlo He) as Hp.
  destruct (C104_bloch k0 G sh e k tol mx reset inv sqrtm eig minimize rng fuel y0 s L Oy Hp HI HS HE H C) as (_ & _ & Z & rest & _ & P).
  destruct (P lam v Hv) as ((N1 & _ & Ci & Av & EA & <- & _) & _). split; [exact Ci|].
  destruct (C146_bounds k0 G sh e lo hi v L Oy Hlo He) as (r & Er & _ & B1 & B2). destruct (given _ _ _ Er) as (f & Ef & Vf).
  assert (Fin : forall p, (p < 2 * prodl sh)%nat -> f p = Some (value (f p))). { destruct Er as (f' & Ef' & Vf'). rewrite Ef in Ef'. injection Ef' as <-. intros p0 Hp0. rewrite (Vf' p0 Hp0). reflexivity. }
  unfold bloch_op in EA. change (fun a j => mkC (e a j) 0) with (real_eps e) in EA. rewrite Ef in EA. cbn [obind] in EA. destruct (finite_vec_ok _ f Fin) as (w & Ew & Vw). rewrite Ew in EA. injection EA as <-.
  rewrite (hdot_ext _ v w v r ltac:(reflexivity)) by (intros p Hp'; rewrite Vw, Vf by exact Hp'; reflexivity).
  destruct (k2_weight_bounds sh (wavevector k0 G sh) v q Q Hq) as [W1 W2].
  change (sumN (K := RF) (2 * prodl sh) (fun p => cabs2 (v p))) with (norm2 (2 * prodl sh) v) in W1, W2. rewrite N1 in W1, W2.
  assert (Hhi : 0 < hi).
  { destruct (Nat.eq_dec (prodl sh) 0) as [Z0|Z0]; [exfalso; rewrite Z0 in N1; cbn in N1; lra|].
    pose proof (He 0%nat (unravel sh 0) ltac:(lia) (inb_unravel sh 0 ltac:(lia))). lra. }
  split.
  - apply Rle_trans with (2 := B1). apply Rmult_le_compat_r; [left; now apply Rinv_0_lt_compat|lra].
  - apply Rle_trans with (1 := B2). apply Rmult_le_compat_r; [left; now apply Rinv_0_lt_compat|lra].
Qed.
Print Assumptions C146_solver.
Lemma uniform_band k0 G sh e j : length sh = 3%nat -> off_y_axis k0 G sh -> e <> 0 -> inb sh j ->
  is_band k0 G sh (real_eps (fun _ _ => e)) (mkC (- (dot3 (wavevector k0 G sh j) (wavevector k0 G sh j) / e)) 0).
Proof.
  intros L Oy Ne Hj. set (h := two_part sh (fun x => if leqb x j then c1 else c0) (fun _ => c0)).
  destruct (C49_uniform k0 G sh (real_eps (fun _ _ => e)) (mkC e 0) h L Oy (mkC_nz e Ne) ltac:(reflexivity)) as (r & Er & V).
  exists h, r. split; [exact Er|]. split.
  - exists (ravel sh j). split; [pose proof (ravel_lt sh j Hj); lia|]. unfold h. rewrite two_part_m by exact Hj. replace (leqb j j) with true by (symmetry; now apply leqb_spec).
    intro X. apply (f_equal cre) in X. cbn in X. lra.
  - intros p Hp. destruct (halves sh p Hp) as (q & Hq & C). destruct (V q Hq) as [A B].
    destruct C as [-> | ->]; [rewrite A|rewrite B]; unfold h; rewrite ?two_part_m, ?two_part_n by exact Hq; [|apply cpx_ext; cbn; ring].
    destruct (leqb q j) eqn:E; [apply leqb_spec in E; subst q|apply cpx_ext; cbn; ring].
    rewrite rdiv_r by exact Ne. apply cpx_ext; cbn; unfold Rdiv; ring.
Qed.
Lemma uniform_bands_only k0 G sh e lam : length sh = 3%nat -> off_y_axis k0 G sh -> e <> 0 -> is_band k0 G sh (real_eps (fun _ _ => e)) lam ->
  exists j, inb sh j /\ lam = mkC (- (dot3 (wavevector k0 G sh j) (wavevector k0 G sh j) / e)) 0.
Proof.
  intros L Oy Ne (h & r & Er & (p & Hp & Np) & Rl).
  destruct (C49_uniform k0 G sh (real_eps (fun _ _ => e)) (mkC e 0) h L Oy (mkC_nz e Ne) ltac:(reflexivity)) as (r' & Er' & V).
  assert (RR : forall p, (p < 2 * prodl sh)%nat -> r' p = cmul lam (h p)).
  { intros i Hi. rewrite <- Rl by exact Hi. destruct Er as (f & F1 & F2), Er' as (f' & F1' & F2'). rewrite F1 in F1'. injection F1' as <-. specialize (F2 i Hi). specialize (F2' i Hi). congruence. }
  destruct (halves sh p Hp) as (j & Hj & C). exists j. split; [exact Hj|]. destruct (V j Hj) as [A B].
  assert (X : cmul (cdiv (mkC (- dot3 (wavevector k0 G sh j) (wavevector k0 G sh j)) 0) (mkC e 0)) (h p) = cmul lam (h p)).
  { rewrite <- RR by exact Hp. destruct C as [-> | ->]; [now rewrite A|now rewrite B]. }
  assert (Y : cmul (csub (cdiv (mkC (- dot3 (wavevector k0 G sh j) (wavevector k0 G sh j)) 0) (mkC e 0)) lam) (h p) = c0).
  { set (x := cdiv _ _) in *. set (y := h p) in *. clearbody x y. pose proof (f_equal cre X) as X1. pose proof (f_equal cim X) as X2. cbn in X1, X2. apply cpx_ext; cbn; lra. }
  destruct (fmul_integral CC _ _ Y) as [Z|Z]; [|contradiction]. rewrite rdiv_r in Z by exact Ne.
  pose proof (f_equal cre Z) as Z1. pose proof (f_equal cim Z) as Z2. cbn in Z1, Z2. apply cpx_ext; cbn; unfold Rdiv; lra.
Qed.
Example C146_case : off_y_axis k0_case identity3 sh_case /\ within sh_case 2 5 eps_case /\
  (forall j, inb sh_case j -> 109 / 576 <= dot3 (wavevector k0_case identity3 sh_case j) (wavevector k0_case identity3 sh_case j) <= 1933 / 576) /\
  is_band k0_case identity3 sh_case (real_eps (fun _ _ => 2)) (mkC (- (1933 / 1152)) 0) /\
  (exists j, inb [1; 1; 1]%nat j /\ forall a, (a < 3)%nat -> wavevector (v3 0 0 0) identity3 [1; 1; 1]%nat j a = 0) /\
  exists s, eigsolve 2 1 op1 iop1 1 2 100 inv1 sqrtm1 eig1 (better t1) no_rng 1 (Some y1) = Some s /\ converged s = true.
Proof.
  split; [apply off_y, off_plane_case|]. split; [|split; [|split; [|split]]].
  - intros a j Ha Hj. unfold eps_case. pose proof (inb_dim_pos _ j 0 Hj ltac:(cbn; lia)) as B. cbn in B.
    pose proof (pos_INR (coord j 0)). pose proof (pos_INR a). assert (coord j 0 <= 1)%nat by lia. assert (a <= 2)%nat by lia. apply le_INR in H1, H2. cbn in H1, H2. lra.
  - intros j Hj. inversion Hj as [|x n l s Hx Hl]; subst. inversion Hl as [|y n2 l2 s2 Hy Hl2]; subst. inversion Hl2 as [|z n3 l3 s3 Hz Hl3]; subst. inversion Hl3; subst.
    assert (y = 0%nat) by lia. subst y. unfold dot3, wavevector, identity3, k0_case, sh_case.
    destruct x as [|[|x]]; [| |lia]; (destruct z as [|[|z]]; [| |lia]); cbn; lra.
  - replace (mkC (- (1933 / 1152)) 0) with (mkC (- (dot3 (wavevector k0_case identity3 sh_case [1;0;1]%nat) (wavevector k0_case identity3 sh_case [1;0;1]%nat) / 2)) 0).
    + apply uniform_band; [reflexivity|apply off_y, off_plane_case|lra|inbt].
    + f_equal. unfold dot3, wavevector, identity3, k0_case, sh_case. cbn. field.
  - exists [0; 0; 0]%nat. split; [inbt|]. intros a _. unfold wavevector, identity3. cbn. ring.
  - apply C104_case.
Qed.

(** ** C147 *)
(** The two components of every plane wave of h' are those of h times the factor w. *)
Definition times_waves (sh : list nat) (w : list nat -> cpx) (h h' : nat -> cpx) : Prop := forall j, inb sh j ->
  h' (ravel sh j) = cmul (w j) (h (ravel sh j)) /\ h' (prodl sh + ravel sh j)%nat = cmul (w j) (h (prodl sh + ravel sh j)%nat).
(** exp(2 pi i d j_b / n_b) *)
Definition wave_phase (sh : list nat) (b : nat) (d : Z) (j : list nat) : cpx := cis (2 * PI * (INR (coord j b) * IZR d / INR (dim sh b))).
(** Displacing epsilon multiplies the plane waves of every solution by phases. *)
Theorem C147_translate :
  forall k0 G sh eps eps' b d h h', length sh = 3%nat -> off_y_axis k0 G sh -> nonzero_on sh eps -> (b < 3)%nat ->
    (forall a x, (a < 3)%nat -> inb sh x -> eps' a x = eps a (shift_ix sh b d x)) ->
    times_waves sh (wave_phase sh b d) h h' ->
    exists r r', gives (2 * prodl sh) (maxwell_operator k0 G sh eps None h) r /\
      gives (2 * prodl sh) (maxwell_operator k0 G sh eps' None h') r' /\ times_waves sh (wave_phase sh b d) r r'.
Proof.
  intros k0 G sh eps eps' b d h h' L Oy He Hb E Hh. pose proof (op_fin k0 G sh L Oy) as Hf.
  assert (He' : nonzero_on sh eps'). { intros a x Ha Hx. rewrite E by assumption. apply He; [exact Ha|]. apply inb_shift; [exact Hx|lia]. }
  destruct (mop_some k0 G sh _ h L Hf He) as (f & Ef). destruct (mop_some k0 G sh _ h' L Hf He') as (f' & Ef').
  exists (fun p => value (f p)), (fun p => value (f' p)). split; [now apply given_fin|]. split; [now apply given_fin|].
  intros j Hj. exact (translate k0 G sh L Hf eps eps' b d h h' f f' Hb He E Hh Ef Ef' j Hj).
Qed.
Print Assumptions C147_translate.
Lemma band_uniq n x r r' : gives n x r -> gives n x r' -> forall p, (p < n)%nat -> r p = r' p.
Proof. intros (f & F1 & F2) (f' & F1' & F2') p Hp. rewrite F1 in F1'. injection F1' as <-. specialize (F2 p Hp). specialize (F2' p Hp). congruence. Qed.
Lemma times_waves_band sh w h h' r r' lam : (forall j, inb sh j -> w j <> c0) -> times_waves sh w h h' -> times_waves sh w r r' ->
  (exists p, (p < 2 * prodl sh)%nat /\ h p <> c0) -> (forall p, (p < 2 * prodl sh)%nat -> r p = cmul lam (h p)) ->
  (exists p, (p < 2 * prodl sh)%nat /\ h' p <> c0) /\ (forall p, (p < 2 * prodl sh)%nat -> r' p = cmul lam (h' p)).
Proof.
  intros Hw Th Tr (p & Hp & Np) Rl. split.
  - exists p. split; [exact Hp|]. destruct (halves sh p Hp) as (j & Hj & C). destruct (Th j Hj) as [A B]. pose proof (Hw j Hj).
    intro X. destruct C as [-> | ->]; [rewrite A in X|rewrite B in X]; destruct (fmul_integral CC _ _ X); contradiction.
  - intros q Hq. destruct (halves sh q Hq) as (j & Hj & C). destruct (Th j Hj) as [A B]. destruct (Tr j Hj) as [A' B'].
    destruct C as [-> | ->]; [rewrite A, A'|rewrite B, B']; rewrite Rl by exact Hq; set (x := h _); set (y := w j); clearbody x y; apply cpx_ext; cbn; ring.
Qed.
Lemma cis_nz t : cis t <> c0.
Proof. intro X. pose proof (cis_unit t) as U. rewrite X in U. apply (f_equal cre) in U. cbn in U. lra. Qed.
Lemma translate_band k0 G sh eps eps' b d lam : length sh = 3%nat -> off_y_axis k0 G sh -> nonzero_on sh eps -> (b < 3)%nat ->
  (forall a x, (a < 3)%nat -> inb sh x -> eps' a x = eps a (shift_ix sh b d x)) -> is_band k0 G sh eps lam -> is_band k0 G sh eps' lam.
Proof.
  intros L Oy He Hb E (h & r & Er & Nz & Rl).
  set (h' := two_part sh (fun j => cmul (wave_phase sh b d j) (h (ravel sh j))) (fun j => cmul (wave_phase sh b d j) (h (prodl sh + ravel sh j)%nat))).
  assert (T : times_waves sh (wave_phase sh b d) h h') by (intros j Hj; unfold h'; now rewrite two_part_m, two_part_n).
  destruct (C147_translate k0 G sh eps eps' b d h h' L Oy He Hb E T) as (s & s' & Es & Es' & S).
  assert (Rs : forall p, (p < 2 * prodl sh)%nat -> s p = cmul lam (h p)) by (intros p Hp; rewrite <- Rl by exact Hp; exact (band_uniq _ _ _ _ Es Er p Hp)).
  destruct (times_waves_band sh _ h h' s s' lam (fun j _ => cis_nz _) T S Nz Rs) as [A B]. exists h', s'. auto.
Qed.
(** The bands of a displaced structure are the same. *)
Theorem C147_translate_bands :
  forall k0 G sh eps eps' b d lam, length sh = 3%nat -> off_y_axis k0 G sh -> nonzero_on sh eps -> (b < 3)%nat ->
    (forall a x, (a < 3)%nat -> inb sh x -> eps' a x = eps a (shift_ix sh b d x)) ->
    (is_band k0 G sh eps lam <-> is_band k0 G sh eps' lam).
Proof.
  intros k0 G sh eps eps' b d lam L Oy He Hb E. split; [now apply (translate_band k0 G sh eps eps' b d lam)|].
  apply (translate_band k0 G sh eps' eps b (- d) lam); try assumption.
  - intros a x Ha Hx. rewrite E by assumption. apply He; [exact Ha|]. apply inb_shift; [exact Hx|lia].
  - intros a x Ha Hx. rewrite E; [|exact Ha|apply inb_shift; [exact Hx|lia]]. rewrite shift_ix_inv' by (try assumption; lia). reflexivity.
Qed.
Print Assumptions C147_translate_bands.
(** Scaling epsilon, or the reciprocal lattice. *)
Theorem C147_scale_epsilon :
  forall k0 G sh eps eps' c h, length sh = 3%nat -> off_y_axis k0 G sh -> nonzero_on sh eps -> c <> c0 ->
    (forall a x, (a < 3)%nat -> inb sh x -> eps' a x = cmul c (eps a x)) ->
    exists r r', gives (2 * prodl sh) (maxwell_operator k0 G sh eps None h) r /\ gives (2 * prodl sh) (maxwell_operator k0 G sh eps' None h) r' /\
      forall p, (p < 2 * prodl sh)%nat -> r' p = cdiv (r p) c.
Proof.
  intros k0 G sh eps eps' c h L Oy He Hc E. pose proof (op_fin k0 G sh L Oy) as Hf.
  assert (He' : nonzero_on sh eps'). { intros a x Ha Hx. rewrite E by assumption. intro X. destruct (fmul_integral CC _ _ X); [contradiction|]. now apply (He a x). }
  destruct (mop_some k0 G sh _ h L Hf He) as (f & Ef). destruct (mop_some k0 G sh _ h L Hf He') as (f' & Ef').
  exists (fun p => value (f p)), (fun p => value (f' p)). split; [now apply given_fin|]. split; [now apply given_fin|].
  exact (eps_scale k0 G sh L Hf eps eps' c h f f' Hc He E Ef Ef').
Qed.
Print Assumptions C147_scale_epsilon.
Theorem C147_scale_lattice :
  forall k0 G G' sh eps s h, length sh = 3%nat -> off_y_axis k0 G sh -> nonzero_on sh eps -> 0 < s -> (forall a b, G' a b = s * G a b) ->
    exists r r', gives (2 * prodl sh) (maxwell_operator k0 G sh eps None h) r /\ gives (2 * prodl sh) (maxwell_operator k0 G' sh eps None h) r' /\
      forall p, (p < 2 * prodl sh)%nat -> r' p = rmul (s * s) (r p).
Proof.
  intros k0 G G' sh eps s h L Oy He Hs E. pose proof (op_fin k0 G sh L Oy) as Hf.
  assert (W : forall j a, wavevector k0 G' sh j a = s * wavevector k0 G sh j a) by (intros j a; unfold wavevector; rewrite !E; ring).
  assert (Oy' : off_y_axis k0 G' sh).
  { intros j Hj. rewrite !W. assert (Z : forall x, x <> 0 -> s * x <> 0) by (intros x Hx X; apply Rmult_integral in X; lra).
    destruct (Oy j Hj) as [A|[A|A]]; [left; now apply Z|right; left; rewrite A; ring|right; right; now apply Z]. }
  pose proof (op_fin k0 G' sh L Oy') as Hf'.
  destruct (mop_some k0 G sh _ h L Hf He) as (f & Ef). destruct (mop_some k0 G' sh _ h L Hf' He) as (f' & Ef').
  exists (fun p => value (f p)), (fun p => value (f' p)). split; [now apply given_fin|]. split; [now apply given_fin|].
  exact (g_scale k0 G G' s sh eps h f f' L Hs E Hf He Ef Ef').
Qed.
Print Assumptions C147_scale_lattice.
(** The wavevectors of the grid at [opposite sh k0] are the negatives of those at k0. *)
Theorem C147_opposite_wavevectors :
  forall k0 G sh j a, length sh = 3%nat -> inb sh j -> inb sh (mirrors sh j) /\ mirrors sh (mirrors sh j) = j /\
    wavevector (opposite sh k0) G sh (mirrors sh j) a = - wavevector k0 G sh j a.
Proof. intros k0 G sh j a L Hj. split; [now apply mirrors_inb|]. split; [now apply mirrors_mirrors|]. now apply wavevector_mirror. Qed.
Print Assumptions C147_opposite_wavevectors.
(** The unit vectors m and n. *)
Definition basis_of k0 G sh (m n : list nat -> nat -> R) : Prop :=
  forall j, inb sh j -> snd (fst (generate_kmn k0 G sh j)) = m j /\ snd (generate_kmn k0 G sh j) = Some (n j).
(** The field of plane wave [mirrors sh j] of h' is the conjugate of that of plane wave j of h. *)
Definition conjugate_fields sh (m n m' n' : list nat -> nat -> R) (h h' : nat -> cpx) : Prop := forall j a, inb sh j -> (a < 3)%nat ->
  let q := mirrors sh j in
  from_mn (m' q) (n' q) (h' (ravel sh q)) (h' (prodl sh + ravel sh q)%nat) a = cconj (from_mn (m j) (n j) (h (ravel sh j)) (h (prodl sh + ravel sh j)%nat) a).
Lemma conj_fields_iff k0 G sh m n m' n' h h' : length sh = 3%nat -> (forall j, inb sh j -> snd (generate_kmn k0 G sh j) <> None) ->
  basis_of k0 G sh m n -> basis_of (opposite sh k0) G sh m' n' ->
  (conjugate_fields sh m n m' n' h h' <-> forall j, inb sh j -> hm sh h' (mirrors sh j) = rmul (sgm k0 G sh j) (cconj (hm sh h j)) /\ hn sh h' (mirrors sh j) = rmul (sgn k0 G sh j) (cconj (hn sh h j))).
Proof.
  intros L Hf B B'.
  assert (S : forall j, inb sh j -> let q := mirrors sh j in (forall a, (a < 3)%nat -> m' q a = sgm k0 G sh j * m j a) /\ (forall a, (a < 3)%nat -> n' q a = sgn k0 G sh j * n j a) /\
     sgm k0 G sh j * sgm k0 G sh j = 1 /\ sgn k0 G sh j * sgn k0 G sh j = 1 /\ dot3 (m j) (m j) = 1 /\ dot3 (n j) (n j) = 1 /\ dot3 (m j) (n j) = 0).
  { intros j Hj q. destruct (reverse_basis k0 G sh L Hf j Hj) as (_ & M & _ & N). destruct (reverse_signs k0 G sh j) as (_ & S1 & S2).
    destruct (B j Hj) as [B1 B2]. destruct (B' q (mirrors_inb sh j Hj)) as [B1' B2']. pose proof (basis_mn k0 G sh j _ B2) as O. rewrite B1 in O.
    unfold mv3 in M. rewrite B1 in M. fold q in M, N. rewrite B1' in M. unfold getn in N. rewrite B2, B2' in N. tauto. }
  split.
  - intros C j Hj. destruct (S j Hj) as (M & N & S1 & S2 & O1 & O2 & O3).
    pose proof (C j 0%nat Hj ltac:(lia)) as C0. pose proof (C j 1%nat Hj ltac:(lia)) as C1. pose proof (C j 2%nat Hj ltac:(lia)) as C2.
    cbv zeta in C0, C1, C2. set (q := mirrors sh j) in *. unfold hm, hn. unfold from_mn in C0, C1, C2. rewrite !M, !N in C0, C1, C2 by lia.
    set (u := h (ravel sh j)) in *. set (v := h (prodl sh + ravel sh j)%nat) in *. set (u' := h' (ravel sh q)) in *. set (v' := h' (prodl sh + ravel sh q)%nat) in *.
    set (sm := sgm k0 G sh j) in *. set (sn := sgn k0 G sh j) in *. set (mj := m j) in *. set (nj := n j) in *. unfold dot3 in O1, O2, O3.
    clearbody u v u' v' sm sn mj nj. clear M N.
    assert (Dm : forall (x y x' y' : R), (forall a, (a < 3)%nat -> sm * mj a * x' + sn * nj a * y' = mj a * x + nj a * y) -> x' = sm * x /\ y' = sn * y).
    { intros x y x' y' Q. pose proof (Q 0%nat ltac:(lia)) as Q0. pose proof (Q 1%nat ltac:(lia)) as Q1. pose proof (Q 2%nat ltac:(lia)) as Q2. split.
      - transitivity (sm * (mj O * (sm * mj O * x' + sn * nj O * y') + mj 1%nat * (sm * mj 1%nat * x' + sn * nj 1%nat * y') + mj 2%nat * (sm * mj 2%nat * x' + sn * nj 2%nat * y'))).
        + transitivity (sm * sm * (mj O * mj O + mj 1%nat * mj 1%nat + mj 2%nat * mj 2%nat) * x' + sm * sn * (mj O * nj O + mj 1%nat * nj 1%nat + mj 2%nat * nj 2%nat) * y'); [rewrite S1, O1, O3; ring|ring].
        + rewrite Q0, Q1, Q2. transitivity (sm * ((mj O * mj O + mj 1%nat * mj 1%nat + mj 2%nat * mj 2%nat) * x + (mj O * nj O + mj 1%nat * nj 1%nat + mj 2%nat * nj 2%nat) * y)); [ring|rewrite O1, O3; ring].
      - transitivity (sn * (nj O * (sm * mj O * x' + sn * nj O * y') + nj 1%nat * (sm * mj 1%nat * x' + sn * nj 1%nat * y') + nj 2%nat * (sm * mj 2%nat * x' + sn * nj 2%nat * y'))).
        + transitivity (sn * sn * (nj O * nj O + nj 1%nat * nj 1%nat + nj 2%nat * nj 2%nat) * y' + sm * sn * (mj O * nj O + mj 1%nat * nj 1%nat + mj 2%nat * nj 2%nat) * x'); [rewrite S2, O2, O3; ring|ring].
        + rewrite Q0, Q1, Q2. transitivity (sn * ((nj O * nj O + nj 1%nat * nj 1%nat + nj 2%nat * nj 2%nat) * y + (mj O * nj O + mj 1%nat * nj 1%nat + mj 2%nat * nj 2%nat) * x)); [ring|rewrite O2, O3; ring]. }
    destruct (Dm (cre u) (cre v) (cre u') (cre v')) as [R1 R2].
    { intros [|[|[|a]]] Ha; [| | |lia]; [pose proof (f_equal cre C0) as X|pose proof (f_equal cre C1) as X|pose proof (f_equal cre C2) as X]; cbn in X; lra. }
    destruct (Dm (- cim u) (- cim v) (cim u') (cim v')) as [I1 I2].
    { intros [|[|[|a]]] Ha; [| | |lia]; [pose proof (f_equal cim C0) as X|pose proof (f_equal cim C1) as X|pose proof (f_equal cim C2) as X]; cbn in X; lra. }
    split; apply cpx_ext; cbn; lra.
  - intros H j a Hj Ha q. destruct (H j Hj) as [H1 H2]. destruct (S j Hj) as (M & N & S1 & S2 & _). unfold hm, hn in H1, H2. fold q in H1, H2. unfold from_mn. unfold q in *. rewrite H1, H2, M, N by exact Ha.
    set (u := h (ravel sh j)). set (v := h (prodl sh + ravel sh j)%nat). clearbody u v. set (sm := sgm k0 G sh j) in *. set (sn := sgn k0 G sh j) in *. clearbody sm sn.
    apply cpx_ext; cbn.
    + transitivity (sm * sm * (m j a * cre u) + sn * sn * (n j a * cre v)); [ring|rewrite S1, S2; ring].
    + transitivity (- (sm * sm * (m j a * cim u)) - sn * sn * (n j a * cim v)); [ring|rewrite S1, S2; ring].
Qed.
(** Conjugate fields, with the conjugate of epsilon, give conjugate results. *)
Theorem C147_reverse :
  forall k0 G sh eps eps' m n m' n' h h', length sh = 3%nat -> off_y_axis k0 G sh -> nonzero_on sh eps ->
    (forall a x, (a < 3)%nat -> inb sh x -> eps' a x = cconj (eps a x)) ->
    basis_of k0 G sh m n -> basis_of (opposite sh k0) G sh m' n' -> conjugate_fields sh m n m' n' h h' ->
    exists r r', gives (2 * prodl sh) (maxwell_operator k0 G sh eps None h) r /\
      gives (2 * prodl sh) (maxwell_operator (opposite sh k0) G sh eps' None h') r' /\ conjugate_fields sh m n m' n' r r'.
Proof.
  intros k0 G sh eps eps' m n m' n' h h' L Oy He E B B' C. pose proof (op_fin k0 G sh L Oy) as Hf. pose proof (reverse_fin k0 G sh L Hf) as Hf'.
  assert (He' : nonzero_on sh eps').
  { intros a x Ha Hx. rewrite E by assumption. intro X. apply (He a x Ha Hx). pose proof (f_equal cre X) as X1. pose proof (f_equal cim X) as X2. cbn in X1, X2. apply cpx_ext; cbn; lra. }
  destruct (mop_some k0 G sh _ h L Hf He) as (f & Ef). destruct (mop_some (opposite sh k0) G sh _ h' L Hf' He') as (f' & Ef').
  exists (fun p => value (f p)), (fun p => value (f' p)). split; [now apply given_fin|]. split; [now apply given_fin|].
  pose proof (proj1 (conj_fields_iff k0 G sh m n m' n' h h' L Hf B B') C) as C'. apply (proj2 (conj_fields_iff k0 G sh m n m' n' _ _ L Hf B B')).
  intros j Hj. exact (reverse k0 G sh L Hf eps eps' h h' f f' He E C' Ef Ef' j Hj).
Qed.
Print Assumptions C147_reverse.
Lemma conj_zero_iff z : cconj z = c0 -> z = c0.
Proof. intro X. pose proof (f_equal cre X) as X1. pose proof (f_equal cim X) as X2. cbn in X1, X2. apply cpx_ext; cbn; lra. Qed.
Lemma reverse_band k0 G sh eps eps' lam : length sh = 3%nat -> off_y_axis k0 G sh -> nonzero_on sh eps ->
  (forall a x, (a < 3)%nat -> inb sh x -> eps' a x = cconj (eps a x)) -> is_band k0 G sh eps lam -> is_band (opposite sh k0) G sh eps' (cconj lam).
Proof.
  intros L Oy He E (h & r & Er & (p & Hp & Np) & Rl). pose proof (op_fin k0 G sh L Oy) as Hf. pose proof (reverse_fin k0 G sh L Hf) as Hf'.
  assert (He' : nonzero_on sh eps') by (intros a x Ha Hx; rewrite E by assumption; intro X; now apply (He a x Ha Hx), conj_zero_iff).
  set (h' := two_part sh (fun q => rmul (sgm k0 G sh (mirrors sh q)) (cconj (hm sh h (mirrors sh q)))) (fun q => rmul (sgn k0 G sh (mirrors sh q)) (cconj (hn sh h (mirrors sh q))))).
  assert (C : forall j, inb sh j -> hm sh h' (mirrors sh j) = rmul (sgm k0 G sh j) (cconj (hm sh h j)) /\ hn sh h' (mirrors sh j) = rmul (sgn k0 G sh j) (cconj (hn sh h j))).
  { intros j Hj. unfold hm at 1, hn at 1, h'. pose proof (mirrors_inb sh j Hj). rewrite two_part_m, two_part_n, mirrors_mirrors by assumption. now split. }
  destruct (given _ _ _ Er) as (f & Ef & Vf). destruct (mop_some (opposite sh k0) G sh _ h' L Hf' He') as (f' & Ef').
  pose proof (reverse k0 G sh L Hf eps eps' h h' f f' He E C Ef Ef') as V.
  exists h', (fun p => value (f' p)). split; [now apply given_fin|]. split.
  - destruct (halves sh p Hp) as (j & Hj & Cj). pose proof (ravel_lt sh _ (mirrors_inb sh j Hj)). destruct (C j Hj) as [A B]. destruct (reverse_signs k0 G sh j) as (_ & S1 & S2).
    assert (Z : forall s z, s * s = 1 -> rmul s (cconj z) = c0 -> z = c0).
    { intros s z Hs X. pose proof (f_equal cre X) as X1. pose proof (f_equal cim X) as X2. cbn in X1, X2. apply cpx_ext; cbn; nra. }
    destruct Cj as [-> | ->].
    + exists (ravel sh (mirrors sh j)). split; [lia|]. intro X. apply Np. apply (Z _ _ S1). unfold hm in A. now rewrite <- A.
    + exists (prodl sh + ravel sh (mirrors sh j))%nat. split; [lia|]. intro X. apply Np. apply (Z _ _ S2). unfold hn in B. now rewrite <- B.
  - intros q Hq. destruct (halves sh q Hq) as (i & Hi & Ci). rewrite <- (mirrors_mirrors sh i Hi) in Ci. set (j := mirrors sh i) in *. assert (Hj : inb sh j) by now apply mirrors_inb.
    destruct (C j Hj) as [A B]. destruct (V j Hj) as [A' B']. pose proof (ravel_lt sh j Hj). unfold hm, hn in A, B.
    destruct Ci as [-> | ->]; [rewrite A, A'|rewrite B, B']; rewrite <- Vf, Rl by lia; set (x := h _); clearbody x; apply cpx_ext; cbn; ring.
Qed.
(** Time reversal: the bands at the opposite wavevectors are the conjugate ones, for conjugate epsilon. *)
Theorem C147_reverse_bands :
  forall k0 G sh eps eps' lam, length sh = 3%nat -> off_y_axis k0 G sh -> nonzero_on sh eps ->
    (forall a x, (a < 3)%nat -> inb sh x -> eps' a x = cconj (eps a x)) ->
    (is_band k0 G sh eps lam <-> is_band (opposite sh k0) G sh eps' (cconj lam)).
Proof.
  intros k0 G sh eps eps' lam L Oy He E. split; [now apply reverse_band|]. intro H.
  assert (Oy' : off_y_axis (opposite sh k0) G sh).
  { intros j Hj. rewrite <- (mirrors_mirrors sh j Hj). rewrite !wavevector_mirror by (try assumption; now apply mirrors_inb).
    assert (Z : forall x, x <> 0 -> - x <> 0) by (intros; lra). destruct (Oy _ (mirrors_inb sh j Hj)) as [A|[A|A]]; [left; now apply Z|right; left; lra|right; right; now apply Z]. }
  assert (He' : nonzero_on sh eps') by (intros a x Ha Hx; rewrite E by assumption; intro X; now apply (He a x Ha Hx), conj_zero_iff).
  assert (E' : forall a x, (a < 3)%nat -> inb sh x -> eps a x = cconj (eps' a x)) by (intros a x Ha Hx; rewrite E by assumption; apply cpx_ext; cbn; ring).
  pose proof (reverse_band (opposite sh k0) G sh eps' eps (cconj lam) L Oy' He' E' H) as X.
  replace (opposite sh (opposite sh k0)) with k0 in X by (apply functional_extensionality; intro b; unfold opposite; destruct (Nat.even (dim sh b)); ring).
  replace (cconj (cconj lam)) with lam in X by (apply cpx_ext; cbn; ring). exact X.
Qed.
Print Assumptions C147_reverse_bands.
(** Real epsilon, odd numbers of points: the bands at -k0 are those at k0. *)
Theorem C147_minus_k :
  forall k0 G sh e lam, length sh = 3%nat -> off_y_axis k0 G sh -> (forall a j, (a < 3)%nat -> inb sh j -> 0 < e a j) ->
    (forall b, (b < 3)%nat -> Nat.even (dim sh b) = false) ->
    (is_band k0 G sh (real_eps e) lam <-> is_band (fun b => - k0 b) G sh (real_eps e) lam).
Proof.
  intros k0 G sh e lam L Oy He Od. pose proof (pos_nonzero sh e He) as N.
  assert (W : forall k1 k2, (forall b, (b < 3)%nat -> k1 b = k2 b) -> forall j, k_xyz k1 G sh j = k_xyz k2 G sh j).
  { intros k1 k2 H j. apply functional_extensionality. intro a. unfold k_xyz. now rewrite !H by lia. }
  assert (M : forall k1 k2 eps h, (forall b, (b < 3)%nat -> k1 b = k2 b) -> maxwell_operator k1 G sh eps None h = maxwell_operator k2 G sh eps None h).
  { intros k1 k2 eps h H. assert (Z : generate_kmn k1 G sh = generate_kmn k2 G sh) by (apply functional_extensionality; intro j; rewrite !generate_is_kmn; now rewrite (W k1 k2 H)).
    unfold maxwell_operator, k_mag, m_vec, n_vec. now rewrite Z. }
  assert (B : forall k1 k2 l, (forall b, (b < 3)%nat -> k1 b = k2 b) -> is_band k1 G sh (real_eps e) l -> is_band k2 G sh (real_eps e) l).
  { intros k1 k2 l H (h & r & Er & X). exists h, r. rewrite <- (M k1 k2 _ h H). now split. }
  assert (O : forall b, (b < 3)%nat -> opposite sh k0 b = - k0 b) by (intros b Hb; unfold opposite; rewrite Od by exact Hb; ring).
  assert (E : forall a x, (a < 3)%nat -> inb sh x -> real_eps e a x = cconj (real_eps e a x)) by (intros; apply cpx_ext; cbn; ring).
  pose proof (C147_reverse_bands k0 G sh (real_eps e) (real_eps e) lam L Oy N E) as RB.
  assert (Rl : forall k l, off_y_axis k G sh -> is_band k G sh (real_eps e) l -> cim l = 0).
  { intros k l Ok (h & r & Er & (p & Hp & Np) & Rq). destruct (C49_negative k G sh e h L Ok He) as (r' & Er' & Ci & _).
    rewrite (hdot_eig _ h r' l) in Ci by (intros i Hi; rewrite <- Rq by exact Hi; exact (band_uniq _ _ _ _ Er' Er i Hi)). pose proof (total2_pos _ h p Hp Np). set (t := total2 _ h) in *. clearbody t. cbn in Ci. nra. }
  split.
  - intro H. pose proof (Rl k0 lam Oy H) as I. apply RB in H. replace (cconj lam) with lam in H by (apply cpx_ext; cbn; lra). exact (B _ _ _ O H).
  - intro H. assert (Oy' : off_y_axis (fun b => - k0 b) G sh).
    { intros j Hj. assert (Q : forall a, wavevector (fun b => - k0 b) G sh j a = - wavevector k0 G sh (mirrors sh j) a).
      { intro a. rewrite <- (mirrors_mirrors sh j Hj) at 1. rewrite <- (wavevector_mirror k0 G sh (mirrors sh j) a L (mirrors_inb sh j Hj)). unfold wavevector. now rewrite !O by lia. }
      rewrite !Q. assert (Z : forall x, x <> 0 -> - x <> 0) by (intros; lra). destruct (Oy _ (mirrors_inb sh j Hj)) as [A|[A|A]]; [left; now apply Z|right; left; lra|right; right; now apply Z]. }
    pose proof (Rl _ lam Oy' H) as I. apply RB. replace (cconj lam) with lam by (apply cpx_ext; cbn; lra). apply (B (fun b => - k0 b)); [|exact H]. intros b Hb. now rewrite O.
Qed.
Print Assumptions C147_minus_k.
(** On a grid with an even number of points the bands at k0 and -k0 differ. *)
Theorem C147_minus_k_refuted :
  exists k0 sh lam, length sh = 3%nat /\ off_y_axis k0 identity3 sh /\ off_y_axis (fun b => - k0 b) identity3 sh /\
    is_band k0 identity3 sh (real_eps (fun _ _ => 1)) lam /\ ~ is_band (fun b => - k0 b) identity3 sh (real_eps (fun _ _ => 1)) lam.
Proof.
  exists (v3 (1/4) 0 0), [2;1;1]%nat, (mkC (- (25 / 16)) 0).
  assert (Q : forall z : Z, - (1 / 4) <> IZR z). { intros z E. apply (quarter_not_int (- z)). rewrite opp_IZR. lra. }
  assert (O1 : off_y_axis (v3 (1/4) 0 0) identity3 [2;1;1]%nat) by (apply off_y, off_plane_diagonal; try reflexivity; [unfold identity3; cbn; lra|exact quarter_not_int]).
  assert (O2 : off_y_axis (fun b => - v3 (1/4) 0 0 b) identity3 [2;1;1]%nat) by (apply off_y, off_plane_diagonal; try reflexivity; [unfold identity3; cbn; lra|exact Q]).
  split; [reflexivity|]. split; [exact O1|]. split; [exact O2|]. split.
  - replace (mkC (- (25 / 16)) 0) with (mkC (- (dot3 (wavevector (v3 (1/4) 0 0) identity3 [2;1;1]%nat [1;0;0]%nat) (wavevector (v3 (1/4) 0 0) identity3 [2;1;1]%nat [1;0;0]%nat) / 1)) 0).
    + apply uniform_band; [reflexivity|exact O1|lra|inbt].
    + f_equal. unfold dot3, wavevector, identity3. cbn. field.
  - intro H. apply uniform_bands_only in H; [|reflexivity|exact O2|lra]. destruct H as (j & Hj & E). apply (f_equal cre) in E. cbn [cre] in E.
    inversion Hj as [|x n l s Hx Hl]; subst. inversion Hl as [|y n2 l2 s2 Hy Hl2]; subst. inversion Hl2 as [|z n3 l3 s3 Hz Hl3]; subst. inversion Hl3; subst.
    assert (y = 0%nat) by lia. assert (z = 0%nat) by lia. subst y z. unfold dot3, wavevector, identity3 in E. destruct x as [|[|x]]; [| |lia]; cbn in E; lra.
Qed.
Print Assumptions C147_minus_k_refuted.
(** k0 and k0 plus a reciprocal lattice vector do not have the same bands. *)
Theorem C147_period_refuted :
  exists k0 sh lam, length sh = 3%nat /\ off_y_axis k0 identity3 sh /\ off_y_axis (fun b => k0 b + v3 1 0 0 b) identity3 sh /\
    is_band k0 identity3 sh (real_eps (fun _ _ => 1)) lam /\ ~ is_band (fun b => k0 b + v3 1 0 0 b) identity3 sh (real_eps (fun _ _ => 1)) lam.
Proof.
  exists (v3 (1/4) 0 0), [1;1;1]%nat, (mkC (- (1 / 16)) 0).
  assert (O1 : off_y_axis (v3 (1/4) 0 0) identity3 [1;1;1]%nat) by (apply off_y, off_plane_diagonal; try reflexivity; [unfold identity3; cbn; lra|exact quarter_not_int]).
  assert (O2 : off_y_axis (fun b => v3 (1/4) 0 0 b + v3 1 0 0 b) identity3 [1;1;1]%nat).
  { apply off_y, off_plane_diagonal; try reflexivity; [unfold identity3; cbn; lra|]. intros z E. apply (quarter_not_int (z - 1)). rewrite minus_IZR. cbn in E. lra. }
  split; [reflexivity|]. split; [exact O1|]. split; [exact O2|]. split.
  - replace (mkC (- (1 / 16)) 0) with (mkC (- (dot3 (wavevector (v3 (1/4) 0 0) identity3 [1;1;1]%nat [0;0;0]%nat) (wavevector (v3 (1/4) 0 0) identity3 [1;1;1]%nat [0;0;0]%nat) / 1)) 0).
    + apply uniform_band; [reflexivity|exact O1|lra|inbt].
    + f_equal. unfold dot3, wavevector, identity3. cbn. field.
  - intro H. apply uniform_bands_only in H; [|reflexivity|exact O2|lra]. destruct H as (j & Hj & E). apply (f_equal cre) in E. cbn [cre] in E.
    rewrite (inb_single j Hj) in E. unfold dot3, wavevector, identity3 in E. cbn in E. lra.
Qed.
Print Assumptions C147_period_refuted.
Example C147_case : off_y_axis k0_case identity3 sh_case /\ nonzero_on sh_case (real_eps eps_case) /\
  (forall b, (b < 3)%nat -> Nat.even (dim [3; 1; 5]%nat b) = false) /\ off_y_axis k0_case identity3 [3; 1; 5]%nat /\
  opposite sh_case k0_case 0%nat = - (5 / 4) /\ mirrors sh_case [0; 0; 1]%nat = [1; 0; 0]%nat /\
  real_eps eps_case 0%nat [0; 0; 0]%nat <> real_eps eps_case 0%nat (shift_ix sh_case 0 1 [0; 0; 0]%nat).
Proof.
  split; [apply off_y, off_plane_case|]. split; [apply pos_nonzero; intros; apply eps_case_pos|]. split; [intros [|[|[|b]]] Hb; reflexivity || lia|].
  split; [apply off_y, off_plane_diagonal; try reflexivity; [unfold identity3; cbn; lra|exact quarter_not_int]|].
  split; [unfold opposite, k0_case; cbn; lra|]. split; [reflexivity|]. change (shift_ix sh_case 0 1 [0;0;0]%nat) with [1;0;0]%nat. intro X. apply (f_equal cre) in X. unfold real_eps, eps_case in X. cbn in X. lra.
Qed.
