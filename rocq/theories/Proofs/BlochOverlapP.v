(** Proofs about bloch.inner_product and trq. *)
From Coq Require Import Reals List Arith ZArith Lia Lra Psatz Field Bool.
From Verif.Lib Require Import Num Sums Idx RealF Dft.
From Verif.Model Require Import Ndarray BlochOverlap.
From Verif.Proofs Require Import EmeP.
Import ListNotations.
Local Open Scope R_scope.

Lemma csqrt_nz z : z <> c0 -> csqrt z <> c0.
Proof. intros N E. apply N. rewrite <- (csqrt_sq z), E. apply cpx_ext; cbn; ring. Qed.
Lemma csqrt_nz' z : csqrt z <> c0 -> z <> c0.
Proof.
  intros N E. apply N. subst z. pose proof (csqrt_sq c0) as S. destruct (fmul_integral CC _ _ S); assumption.
Qed.
Lemma csqrt_real_pos x : 0 <= x -> csqrt (mkC x 0) = mkC (sqrt x) 0.
Proof.
  intro P. unfold csqrt, cabs, cnrm. cbn. replace (x * x + 0 * 0) with (x * x) by ring. rewrite sqrt_square by exact P.
  replace ((x + x) / 2) with x by field. replace ((x - x) / 2) with 0 by field. rewrite sqrt_0. destruct Rle_dec; f_equal; lra.
Qed.
Lemma csqrt_1 : csqrt c1 = c1.
Proof. unfold c1. rewrite csqrt_real_pos by lra. now rewrite sqrt_1. Qed.
Lemma csqrt_m1 : csqrt (copp c1) = ci.
Proof.
  unfold csqrt, cabs, cnrm. cbn. replace (- (1) * - (1) + - 0 * - 0) with 1 by ring. rewrite sqrt_1.
  replace ((1 + - (1)) / 2) with 0 by field. replace ((1 - - (1)) / 2) with 1 by field. rewrite sqrt_0, sqrt_1.
  destruct Rle_dec as [_|N]; [reflexivity|]. exfalso. apply N. lra.
Qed.
Definition s2 := sqrt (1 / 2).
Lemma s2_sq : s2 * s2 = 1 / 2. Proof. apply sqrt_sqrt. lra. Qed.
Lemma s2_pos : 0 < s2. Proof. apply sqrt_lt_R0. lra. Qed.
Lemma csqrt_i : csqrt ci = mkC s2 s2.
Proof.
  unfold csqrt, cabs, cnrm. cbn. replace (0 * 0 + 1 * 1) with 1 by ring. rewrite sqrt_1.
  replace ((1 + 0) / 2) with (1 / 2) by field. replace ((1 - 0) / 2) with (1 / 2) by field. fold s2.
  destruct Rle_dec as [_|N]; [reflexivity|]. exfalso. apply N. lra.
Qed.
Lemma csqrt_mi : csqrt (copp ci) = mkC s2 (- s2).
Proof.
  unfold csqrt, cabs, cnrm. cbn. replace (- 0 * - 0 + - (1) * - (1)) with 1 by ring. rewrite sqrt_1.
  replace ((1 + - 0) / 2) with (1 / 2) by field. replace ((1 - - 0) / 2) with (1 / 2) by field. fold s2.
  destruct Rle_dec as [N|_]; [|reflexivity]. exfalso. lra.
Qed.
(** For a positive scale the principal root scales. *)
Lemma csqrt_scale c z : 0 < c -> csqrt (cmul (mkC (c * c) 0) z) = cmul (mkC c 0) (csqrt z).
Proof.
  intro P. assert (A : cabs (cmul (mkC (c * c) 0) z) = c * c * cabs z).
  { unfold cabs. replace (cnrm (cmul (mkC (c * c) 0) z)) with ((c * c) * (c * c) * cnrm z) by (unfold cnrm; cbn; ring).
    rewrite sqrt_mult_alt by nra. rewrite sqrt_square by nra. reflexivity. }
  unfold csqrt. rewrite A. destruct (cabs_bounds z) as [_ [L1 L2]].
  assert (S1 : sqrt ((c * c * cabs z + cre (cmul (mkC (c * c) 0) z)) / 2) = c * sqrt ((cabs z + cre z) / 2)).
  { replace ((c * c * cabs z + cre (cmul (mkC (c * c) 0) z)) / 2) with (c * c * ((cabs z + cre z) / 2)) by (cbn; field).
    rewrite sqrt_mult_alt by nra. now rewrite sqrt_square by lra. }
  assert (S2 : sqrt ((c * c * cabs z - cre (cmul (mkC (c * c) 0) z)) / 2) = c * sqrt ((cabs z - cre z) / 2)).
  { replace ((c * c * cabs z - cre (cmul (mkC (c * c) 0) z)) / 2) with (c * c * ((cabs z - cre z) / 2)) by (cbn; field).
    rewrite sqrt_mult_alt by nra. now rewrite sqrt_square by lra. }
  rewrite S1, S2. assert (I : cim (cmul (mkC (c * c) 0) z) = c * c * cim z) by (cbn; ring). rewrite I.
  assert (0 < c * c) by nra.
  destruct (Rle_dec 0 (c * c * cim z)), (Rle_dec 0 (cim z)); try nra; apply cpx_ext; cbn; ring.
Qed.

Section P.
  Variable sh : list nat.
  Lemma norm2_ext e h e' h' : (forall a j, inb sh j -> e a j = e' a j) -> (forall a j, inb sh j -> h a j = h' a j) -> norm2 sh e h = norm2 sh e' h'.
  Proof. intros A B. unfold norm2. f_equal. apply (gsum_ext (K := CC)). intros j Hj. now rewrite !A, !B. Qed.
  Lemma norm2_scale e h a b : norm2 sh (fun c j => cmul a (e c j)) (fun c j => cmul b (h c j)) = cmul (cmul a b) (norm2 sh e h).
  Proof.
    unfold norm2. transitivity (cdiv (cmul (cmul a b) (gsum (K := CC) sh (fun j => csub (cmul (e 1%nat j) (h 2%nat j)) (cmul (e 2%nat j) (h 1%nat j))))) (mkC 2 0)).
    { f_equal. refine (eq_trans _ (gsum_mul_l CC sh _ _)). apply (gsum_ext (K := CC)). intros. apply cpx_ext; cbn; ring. }
    unfold cdiv. cring.
  Qed.
  Lemma fscale_inv_mul s f a j : fscale_inv s f a j = cmul (cinv s) (f a j).
  Proof. unfold fscale_inv, cdiv. cring. Qed.

  (** The arguments are left with unit norm. *)
  Lemma ip_norms eL hL eR hR v eL' hL' eR' hR' : inner_product sh eL hL eR hR = Some (v, (eL', hL', eR', hR')) ->
    norm2 sh eL' hL' = c1 /\ norm2 sh eR' hR' = c1.
  Proof.
    unfold inner_product. destruct (cpx_dec (csqrt (norm2 sh eR hR)) c0) as [|NR]; [discriminate|].
    destruct (cpx_dec (csqrt (norm2 sh eL hL)) c0) as [|NL]; [discriminate|]. intro H. injection H as <- <- <- <- <-.
    assert (Q : forall e h, csqrt (norm2 sh e h) <> c0 -> norm2 sh (fscale_inv (csqrt (norm2 sh e h)) e) (fscale_inv (csqrt (norm2 sh e h)) h) = c1).
    { intros e h N. set (s := csqrt (norm2 sh e h)) in *.
      rewrite (norm2_ext _ _ (fun c j => cmul (cinv s) (e c j)) (fun c j => cmul (cinv s) (h c j))) by (intros; apply fscale_inv_mul).
      rewrite norm2_scale. rewrite <- (csqrt_sq (norm2 sh e h)). fold s. cfield. exact N. }
    split; now apply Q.
  Qed.
  Lemma ip_swap eL hL eR hR : option_map fst (inner_product sh eR hR eL hL) = option_map copp (option_map fst (inner_product sh eL hL eR hR)).
  Proof.
    unfold inner_product. destruct (cpx_dec (csqrt (norm2 sh eR hR)) c0), (cpx_dec (csqrt (norm2 sh eL hL)) c0); try reflexivity.
    cbn [option_map fst]. f_equal. set (x := gsum _ _). set (y := gsum _ _). clearbody x y. apply cpx_ext; cbn; ring.
  Qed.
  Definition rscale (c : R) (f : cfield) : cfield := fun a j => cmul (mkC c 0) (f a j).
  Lemma cross_x_ext e h e' h' : (forall a j, inb sh j -> e a j = e' a j) -> (forall a j, inb sh j -> h a j = h' a j) -> gsum (K := CC) sh (cross_x e h) = gsum (K := CC) sh (cross_x e' h').
  Proof. intros A B. apply (gsum_ext (K := CC)). intros j Hj. unfold cross_x. now rewrite !A, !B. Qed.
  Lemma ip_scale_R c eL hL eR hR : 0 < c ->
    option_map fst (inner_product sh eL hL (rscale c eR) (rscale c hR)) = option_map fst (inner_product sh eL hL eR hR).
  Proof.
    intro P. unfold inner_product.
    assert (E : norm2 sh (rscale c eR) (rscale c hR) = cmul (mkC (c * c) 0) (norm2 sh eR hR)).
    { unfold rscale. rewrite norm2_scale. apply cpx_ext; cbn; ring. }
    rewrite E, csqrt_scale by exact P. set (s := csqrt (norm2 sh eR hR)).
    assert (Nc : mkC c 0 <> c0) by (intro X; apply (f_equal cre) in X; cbn in X; lra).
    destruct (cpx_dec s c0) as [Z|Z].
    - rewrite Z. destruct (cpx_dec (cmul (mkC c 0) c0) c0) as [_|N]; [reflexivity|]. exfalso. apply N. apply cpx_ext; cbn; ring.
    - destruct (cpx_dec (cmul (mkC c 0) s) c0) as [X|_]; [destruct (fmul_integral CC _ _ X); contradiction|].
      destruct (cpx_dec (csqrt (norm2 sh eL hL)) c0); [reflexivity|]. cbn [option_map fst]. f_equal.
      assert (F : forall f a j, fscale_inv (cmul (mkC c 0) s) (rscale c f) a j = fscale_inv s f a j).
      { intros f a j. unfold fscale_inv, rscale. cfield. now split. }
      f_equal; apply cross_x_ext; intros; auto.
  Qed.
  Lemma ip_scale_L c eL hL eR hR : 0 < c ->
    option_map fst (inner_product sh (rscale c eL) (rscale c hL) eR hR) = option_map fst (inner_product sh eL hL eR hR).
  Proof.
    intro P. rewrite ip_swap. rewrite (ip_scale_R c eR hR eL hL P). rewrite <- ip_swap. reflexivity.
  Qed.

  (** ** Fields with one polarization *)
  Definition x_polarized (e h : cfield) : Prop := forall j, inb sh j -> e 2%nat j = c0 /\ h 1%nat j = c0.
  Definition scaled (f : cfield) (a : cpx) (f0 : cfield) : Prop := forall c j, inb sh j -> f c j = cmul a (f0 c j).
  Definition ehsum (e h : cfield) : cpx := gsum (K := CC) sh (fun j => cmul (e 1%nat j) (h 2%nat j)).
  Lemma scaled_refl f : scaled f c1 f.
  Proof. intros c j _. apply cpx_ext; cbn; ring. Qed.
  Lemma scaled_neg f a f0 : scaled f a f0 -> scaled (fneg f) (copp a) f0.
  Proof. intros H c j Hj. unfold fneg. rewrite (H c j Hj). apply cpx_ext; cbn; ring. Qed.
  Lemma scaled_div f a f0 s : scaled f a f0 -> scaled (fscale_inv s f) (cdiv a s) f0.
  Proof. intros H c j Hj. unfold fscale_inv. rewrite (H c j Hj). unfold cdiv. cring. Qed.
  Lemma norm2_pol e h e0 h0 a b : x_polarized e0 h0 -> scaled e a e0 -> scaled h b h0 -> norm2 sh e h = cmul (cmul a b) (cdiv (ehsum e0 h0) (mkC 2 0)).
  Proof.
    intros X Se Sh. unfold norm2.
    transitivity (cdiv (cmul (cmul a b) (ehsum e0 h0)) (mkC 2 0)).
    { f_equal. unfold ehsum. refine (eq_trans _ (gsum_mul_l CC sh _ _)). apply (gsum_ext (K := CC)). intros j Hj. rewrite !(Se _ _ Hj), !(Sh _ _ Hj).
      destruct (X j Hj) as [-> ->]. apply cpx_ext; cbn; ring. }
    unfold cdiv. cring.
  Qed.
  Lemma cross_pol e h e0 h0 a b : (forall j, inb sh j -> e0 2%nat j = c0) -> (forall j, inb sh j -> h0 1%nat j = c0) -> scaled e a e0 -> scaled h b h0 ->
    gsum (K := CC) sh (cross_x e h) = cmul (cmul a b) (ehsum e0 h0).
  Proof.
    intros X Y Se Sh. unfold ehsum. refine (eq_trans _ (gsum_mul_l CC sh _ _)). apply (gsum_ext (K := CC)). intros j Hj. unfold cross_x.
    rewrite !(Se _ _ Hj), !(Sh _ _ Hj), X, Y by exact Hj. apply cpx_ext; cbn; ring.
  Qed.
  Lemma ip_pol eL hL eR hR eO hO eI hI a b c d nO nI sL sR : cdiv (ehsum eO hO) (mkC 2 0) = nO -> cdiv (ehsum eI hI) (mkC 2 0) = nI ->
    csqrt (cmul (cmul a b) nO) = sL -> csqrt (cmul (cmul c d) nI) = sR -> x_polarized eO hO -> x_polarized eI hI ->
    scaled eL a eO -> scaled hL b hO -> scaled eR c eI -> scaled hR d hI ->
    sL <> c0 -> sR <> c0 ->
    exists v eL' hL' eR' hR', inner_product sh eL hL eR hR = Some (v, (eL', hL', eR', hR')) /\
      v = csub (cmul (cmul (cdiv c sR) (cdiv b sL)) (ehsum eI hO)) (cmul (cmul (cdiv a sL) (cdiv d sR)) (ehsum eO hI)) /\
      scaled eL' (cdiv a sL) eO /\ scaled hL' (cdiv b sL) hO /\ scaled eR' (cdiv c sR) eI /\ scaled hR' (cdiv d sR) hI.
  Proof.
    intros DO DI DL DR XO XI SL1 SL2 SR1 SR2 NL NR. unfold inner_product.
    rewrite (norm2_pol eR hR eI hI c d XI SR1 SR2), (norm2_pol eL hL eO hO a b XO SL1 SL2). rewrite DO, DI, DL, DR.
    destruct (cpx_dec sR c0); [contradiction|]. destruct (cpx_dec sL c0); [contradiction|].
    eexists _, _, _, _, _. split; [reflexivity|]. split; [|repeat split; now apply scaled_div].
    rewrite (cross_pol _ _ eI hO (cdiv c sR) (cdiv b sL)), (cross_pol _ _ eO hI (cdiv a sL) (cdiv d sR)); try (now apply scaled_div); try (intros j Hj; (apply XO || apply XI); exact Hj).
    reflexivity.
  Qed.
  Lemma ip_zero eL hL eR hR : csqrt (norm2 sh eL hL) = c0 \/ csqrt (norm2 sh eR hR) = c0 -> inner_product sh eL hL eR hR = None.
  Proof.
    intro H. unfold inner_product. destruct (cpx_dec (csqrt (norm2 sh eR hR)) c0); [reflexivity|].
    destruct (cpx_dec (csqrt (norm2 sh eL hL)) c0); [reflexivity|]. tauto.
  Qed.
End P.

Lemma c1nz : c1 <> c0. Proof. intro H. apply (f_equal cre) in H. cbn in H. lra. Qed.
Lemma cinz : ci <> c0. Proof. intro H. apply (f_equal cim) in H. cbn in H. lra. Qed.
Lemma cdiv_ex (x : cpx) : exists y, cdiv x (mkC 2 0) = y. Proof. eauto. Qed.
Lemma trq_pol sh eI hI eO hO : x_polarized sh eI hI -> x_polarized sh eO hO -> ~ exists t r, trq sh eI hI eO hO = Some (Some t, Some r).
Proof.
  intros XI XO (t & r & H). unfold trq in H.
  destruct (cdiv_ex (ehsum sh eI hI)) as [nI DI]. destruct (cdiv_ex (ehsum sh eO hO)) as [nO DO].
  assert (EI : norm2 sh eI hI = nI). { rewrite (norm2_pol sh eI hI eI hI c1 c1 XI (scaled_refl sh eI) (scaled_refl sh hI)). rewrite DI. apply cpx_ext; cbn; ring. }
  assert (EO : norm2 sh eO hO = nO). { rewrite (norm2_pol sh eO hO eO hO c1 c1 XO (scaled_refl sh eO) (scaled_refl sh hO)). rewrite DO. apply cpx_ext; cbn; ring. }
  destruct (cpx_dec (csqrt nI) c0) as [ZI|Na]. { rewrite ip_zero in H by (right; now rewrite EI). discriminate. }
  destruct (cpx_dec (csqrt nO) c0) as [ZO|Nb]. { rewrite ip_zero in H by (left; now rewrite EO). discriminate. }
  pose proof (csqrt_sq nI) as SqI. pose proof (csqrt_sq nO) as SqO.
  assert (U : forall z, cmul (cmul c1 c1) z = z) by (intro; apply cpx_ext; cbn; ring).
  (* first call *)
  destruct (ip_pol sh eO hO eI hI eO hO eI hI c1 c1 c1 c1 nO nI (csqrt nO) (csqrt nI) DO DI (f_equal csqrt (U nO)) (f_equal csqrt (U nI)) XO XI (scaled_refl sh _) (scaled_refl sh _) (scaled_refl sh _) (scaled_refl sh _))
    as (pp & eO1 & hO1 & eI1 & hI1 & E1 & V1 & P1 & P2 & P3 & P4); try assumption.
  set (a := csqrt nI) in *. set (b := csqrt nO) in *.
  rewrite E1 in H. cbn [obind] in H.
  set (P := cdiv (ehsum sh eI hO) (cmul a b)). set (Q := cdiv (ehsum sh eO hI) (cmul a b)).
  assert (W1 : pp = csub P Q). { rewrite V1. unfold P, Q. cfield. now split. }
  assert (RI : forall x y, cmul (cmul (cdiv x a) (cdiv y a)) nI = cmul x y). { intros. rewrite <- SqI. cfield; exact Na. }
  assert (RO : forall x y, cmul (cmul (cdiv x b) (cdiv y b)) nO = cmul x y). { intros. rewrite <- SqO. cfield; exact Nb. }
  (* second call *)
  assert (D2 : cmul (cmul (cdiv c1 a) (copp (cdiv c1 a))) nI = copp c1). { transitivity (copp (cmul (cmul (cdiv c1 a) (cdiv c1 a)) nI)); [cring|]. rewrite RI. apply cpx_ext; cbn; ring. }
  assert (L2 : cmul (cmul (cdiv c1 b) (cdiv c1 b)) nO = c1). { rewrite RO. apply cpx_ext; cbn; ring. }
  destruct (ip_pol sh eO1 hO1 eI1 (fneg hI1) eO hO eI hI (cdiv c1 b) (cdiv c1 b) (cdiv c1 a) (copp (cdiv c1 a)) nO nI c1 ci DO DI (eq_trans (f_equal csqrt L2) csqrt_1) (eq_trans (f_equal csqrt D2) csqrt_m1) XO XI P1 P2 P3 (scaled_neg sh _ _ _ P4))
    as (pn & eO2 & hO2 & eI2 & x2 & E2 & V2 & P5 & P6 & P7 & _); try exact c1nz; try exact cinz.
  rewrite E2 in H. cbn [obind] in H.
  assert (W2 : pn = cdiv (cadd P Q) ci). { rewrite V2. unfold P, Q. cfield. repeat split; first [exact Na|exact Nb|exact cinz|exact c1nz]. }
  (* third call *)
  assert (D3 : cmul (cmul (cdiv (cdiv c1 a) ci) (cdiv c1 a)) nI = copp ci).
  { transitivity (cdiv (cmul (cmul (cdiv c1 a) (cdiv c1 a)) nI) ci); [cfield; split; [exact Na|exact cinz]|]. rewrite RI. apply cpx_ext; cbn; unfold cnrm; cbn; field. }
  assert (L3 : cmul (cmul (cdiv (cdiv c1 b) c1) (copp (cdiv (cdiv c1 b) c1))) nO = copp c1).
  { transitivity (copp (cmul (cmul (cdiv c1 b) (cdiv c1 b)) nO)); [cfield; split; [exact Nb|exact c1nz]|]. rewrite RO. apply cpx_ext; cbn; ring. }
  set (th := mkC s2 (- s2)) in *. set (tv := mkC s2 s2) in *.
  pose proof s2_sq as Q2. pose proof s2_pos as P2'.
  assert (Nt : th <> c0) by (intro X; apply (f_equal cre) in X; cbn in X; lra).
  assert (Nv : tv <> c0) by (intro X; apply (f_equal cre) in X; cbn in X; lra).
  destruct (ip_pol sh eO2 (fneg hO2) eI2 hI1 eO hO eI hI (cdiv (cdiv c1 b) c1) (copp (cdiv (cdiv c1 b) c1)) (cdiv (cdiv c1 a) ci) (cdiv c1 a) nO nI ci th DO DI (eq_trans (f_equal csqrt L3) csqrt_m1) (eq_trans (f_equal csqrt D3) csqrt_mi) XO XI P5 (scaled_neg sh _ _ _ P6) P7 P4)
    as (np & eO3 & x3 & eI3 & hI3 & E3 & V3 & P8 & _ & P9 & P10); try exact cinz; try exact Nt.
  rewrite E3 in H. cbn [obind] in H.
  assert (W3 : np = cdiv (cadd P (cmul ci Q)) th).
  { rewrite V3. unfold P, Q.
    assert (I2 : cmul ci ci = copp c1) by (apply cpx_ext; cbn; ring).
    transitivity (cdiv (csub (copp (cdiv (cdiv (ehsum sh eI hO) (cmul a b)) (cmul ci ci))) (cdiv (cdiv (ehsum sh eO hI) (cmul a b)) ci)) th).
    { cfield. repeat split; first [exact Na|exact Nb|exact cinz|exact Nt|exact c1nz]. }
    rewrite I2. f_equal. set (x := cdiv (ehsum sh eI hO) (cmul a b)). set (y := cdiv (ehsum sh eO hI) (cmul a b)). clearbody x y. apply cpx_ext; cbn; unfold cnrm; cbn; field. }
  (* fourth call *)
  assert (D4 : cmul (cmul (cdiv (cdiv (cdiv c1 a) ci) th) (copp (cdiv (cdiv c1 a) th))) nI = copp c1).
  { transitivity (copp (cdiv (cmul (cmul (cdiv c1 a) (cdiv c1 a)) nI) (cmul ci (cmul th th)))).
    { cfield. repeat split; first [exact Na|exact cinz|exact Nt]. }
    rewrite RI. replace (cmul th th) with (copp ci) by (unfold th; apply cpx_ext; cbn; lra).
    apply cpx_ext; cbn; unfold cnrm; cbn; field. }
  assert (L4 : cmul (cmul (cdiv (cdiv (cdiv c1 b) c1) ci) (copp (cdiv (cdiv c1 b) c1))) nO = ci).
  { transitivity (copp (cdiv (cmul (cmul (cdiv c1 b) (cdiv c1 b)) nO) ci)).
    { cfield. repeat split; first [exact Nb|exact cinz|exact c1nz]. }
    rewrite RO. apply cpx_ext; cbn; unfold cnrm; cbn; field. }
  destruct (ip_pol sh eO3 (fneg hO2) eI3 (fneg hI3) eO hO eI hI _ _ _ _ nO nI tv ci DO DI (eq_trans (f_equal csqrt L4) csqrt_i) (eq_trans (f_equal csqrt D4) csqrt_m1) XO XI P8 (scaled_neg sh _ _ _ P6) P9 (scaled_neg sh _ _ _ P10))
    as (mm & eO4 & x4 & eI4 & x5 & E4 & V4 & _); try exact cinz; try exact Nv.
  rewrite E4 in H. cbn [obind] in H.
  assert (W4 : mm = csub P Q).
  { rewrite V4. unfold P, Q.
    assert (TV : cmul th tv = c1) by (unfold th, tv; apply cpx_ext; cbn; lra).
    assert (I2 : cmul ci ci = copp c1) by (apply cpx_ext; cbn; ring).
    transitivity (cdiv (cdiv (csub (cdiv (ehsum sh eO hI) (cmul a b)) (cdiv (ehsum sh eI hO) (cmul a b))) (cmul ci ci)) (cmul th tv)).
    { cfield. repeat split; first [exact Na|exact Nb|exact cinz|exact Nt|exact Nv|exact c1nz]. }
    rewrite TV, I2. set (x := cdiv (ehsum sh eI hO) (cmul a b)). set (y := cdiv (ehsum sh eO hI) (cmul a b)). clearbody x y. apply cpx_ext; cbn; unfold cnrm; cbn; field. }
  clearbody P Q. clear - H W1 W2 W3 W4 Q2 P2'.
  destruct (cpx_dec pp (copp mm)) as [A|]; [|discriminate]. destruct (cpx_dec pn (copp np)) as [B|]; [|discriminate].
  rewrite W1, W4 in A. rewrite W2, W3 in B.
  pose proof (f_equal cre A) as A1. pose proof (f_equal cim A) as A2. cbn in A1, A2.
  assert (PQ : P = Q) by (apply cpx_ext; lra). subst P.
  pose proof (f_equal cre B) as B1. pose proof (f_equal cim B) as B2. cbn in B1, B2. unfold cnrm in B1, B2. cbn in B1, B2.
  replace (s2 * s2 + - s2 * - s2) with 1 in B1, B2 by lra.
  assert (Z : Q = c0).
  { unfold Rdiv in B1, B2. replace (0 * 0 + 1 * 1) with 1 in B1, B2 by ring. rewrite Rinv_1 in B1, B2.
    assert (s2 < 1) by nra. set (u := cre Q) in *. set (v := cim Q) in *.
    assert (B1' : 2 * v = 2 * s2 * v) by lra. assert (B2' : 2 * u = 2 * s2 * u) by lra.
    apply cpx_ext; cbn; fold u v; nra. }
  assert (N0 : pn = c0). { rewrite W2, Z. apply cpx_ext; cbn; unfold cnrm; cbn; field. }
  rewrite N0 in H. cbn in H. destruct (cpx_dec c0 c0) as [_|X]; [|now apply X]. discriminate.
Qed.

(** ** The value of trq for unit fluxes *)
Section Value.
  Variable sh : list nat.
  Definition tot (f : list nat -> cpx) : cpx := gsum (K := CC) sh f.
  Definition overlap6 (x1 x2 x3 x4 : cpx) (eI hI eO hO : cfield) : cpx :=
    csub (csub (csub (cmul (cmul x3 x2) (tot (fun j => cmul (eI 1%nat j) (hO 2%nat j)))) (cmul x3 (tot (eI 2%nat)))) (cmul x2 (tot (hO 1%nat))))
         (csub (csub (cmul (cmul x1 x4) (tot (fun j => cmul (eO 1%nat j) (hI 2%nat j)))) (cmul x1 (tot (eO 2%nat)))) (cmul x4 (tot (hI 1%nat)))).
  Lemma tot_cross e h e0 h0 a b : scaled sh e a e0 -> scaled sh h b h0 ->
    gsum (K := CC) sh (cross_x e h)
    = csub (csub (cmul (cmul a b) (tot (fun j => cmul (e0 1%nat j) (h0 2%nat j)))) (cmul a (tot (e0 2%nat)))) (cmul b (tot (h0 1%nat))).
  Proof.
    intros Se Sh. unfold tot.
    rewrite <- (gsum_mul_l CC sh (cmul a b) (fun j => cmul (e0 1%nat j) (h0 2%nat j)) : _ = cmul (cmul a b) _).
    rewrite <- (gsum_mul_l CC sh a (e0 2%nat) : _ = cmul a _). rewrite <- (gsum_mul_l CC sh b (h0 1%nat) : _ = cmul b _).
    refine (eq_trans _ (f_equal (fun z => csub z _) (gsum_sub CC sh _ _))). refine (eq_trans _ (gsum_sub CC sh _ _)).
    apply (gsum_ext (K := CC)). intros j Hj. unfold cross_x. rewrite !(Se _ _ Hj), !(Sh _ _ Hj). apply cpx_ext; cbn; ring.
  Qed.
  Lemma norm2_scaled e h e0 h0 a b : scaled sh e a e0 -> scaled sh h b h0 -> norm2 sh e h = cmul (cmul a b) (norm2 sh e0 h0).
  Proof. intros Se Sh. rewrite <- norm2_scale. apply norm2_ext; assumption. Qed.
  Lemma ip_gen eL hL eR hR eO hO eI hI a b c d sL sR :
    norm2 sh eO hO = c1 -> norm2 sh eI hI = c1 -> csqrt (cmul a b) = sL -> csqrt (cmul c d) = sR ->
    scaled sh eL a eO -> scaled sh hL b hO -> scaled sh eR c eI -> scaled sh hR d hI -> sL <> c0 -> sR <> c0 ->
    exists v eL' hL' eR' hR', inner_product sh eL hL eR hR = Some (v, (eL', hL', eR', hR')) /\
      v = overlap6 (cdiv a sL) (cdiv b sL) (cdiv c sR) (cdiv d sR) eI hI eO hO /\
      scaled sh eL' (cdiv a sL) eO /\ scaled sh hL' (cdiv b sL) hO /\ scaled sh eR' (cdiv c sR) eI /\ scaled sh hR' (cdiv d sR) hI.
  Proof.
    intros NO NI DL DR SL1 SL2 SR1 SR2 ZL ZR. unfold inner_product.
    rewrite (norm2_scaled eR hR eI hI c d SR1 SR2), (norm2_scaled eL hL eO hO a b SL1 SL2), NO, NI.
    assert (U : forall z, cmul z c1 = z) by (intro; apply cpx_ext; cbn; ring). rewrite !U, DL, DR.
    destruct (cpx_dec sR c0); [contradiction|]. destruct (cpx_dec sL c0); [contradiction|].
    eexists _, _, _, _, _. split; [reflexivity|]. split; [|repeat split; now apply scaled_div].
    unfold overlap6. f_equal; apply tot_cross; now apply scaled_div.
  Qed.
End Value.

(** The four overlaps trq computes: with s = exp(i pi/4). *)
Lemma trq_calls sh eI hI eO hO : norm2 sh eI hI = c1 -> norm2 sh eO hO = c1 ->
  let s := mkC s2 s2 in let s' := mkC s2 (- s2) in
  let pp := overlap6 sh c1 c1 c1 c1 eI hI eO hO in
  let pn := overlap6 sh c1 c1 (copp ci) ci eI hI eO hO in
  let np := overlap6 sh (copp ci) ci s' s eI hI eO hO in
  let nn := overlap6 sh (copp s) (copp s') (copp s) (copp s') eI hI eO hO in
  trq sh eI hI eO hO =
    if cpx_dec pp (copp nn) then
      if cpx_dec pn (copp np) then
        Some (ndiv (nsub (Some np) (ndiv (Some (cmul nn pp)) (Some pn))) (Some (mkC 4 0)), nopp (ndiv (Some pp) (Some pn)))
      else None
    else None.
Proof.
  intros NI NO s s'. pose proof s2_sq as Q2. pose proof s2_pos as P2'.
  assert (Ns : s <> c0) by (intro X; apply (f_equal cre) in X; cbn in X; lra).
  assert (Ns' : s' <> c0) by (intro X; apply (f_equal cre) in X; cbn in X; lra).
  assert (Iv : cnrm s' = 1 /\ cnrm s = 1) by (unfold cnrm, s, s'; cbn; lra). destruct Iv as [Iv' Iv].
  assert (Dc1 : forall x, cdiv x c1 = x) by (intro; apply cpx_ext; cbn; unfold cnrm; cbn; field).
  assert (Dci : forall x, cdiv x ci = cmul x (copp ci)) by (intro; apply cpx_ext; cbn; unfold cnrm; cbn; field).
  assert (Ds : forall x, cdiv x s = cmul x s').
  { intro. unfold cdiv, cinv. rewrite Iv. apply cpx_ext; cbn; field. }
  assert (Ds' : forall x, cdiv x s' = cmul x s).
  { intro. unfold cdiv, cinv. rewrite Iv'. apply cpx_ext; cbn; field. }
  intros pp pn np nn. unfold trq.
  destruct (ip_gen sh eO hO eI hI eO hO eI hI c1 c1 c1 c1 c1 c1 NO NI) as (v1 & eO1 & hO1 & eI1 & hI1 & E1 & V1 & A1 & B1 & C1 & D1);
    [replace (cmul c1 c1) with c1 by (apply cpx_ext; cbn; ring); apply csqrt_1|replace (cmul c1 c1) with c1 by (apply cpx_ext; cbn; ring); apply csqrt_1
    |apply scaled_refl|apply scaled_refl|apply scaled_refl|apply scaled_refl|exact c1nz|exact c1nz|].
  rewrite !Dc1 in *. rewrite E1. cbn [obind].
  destruct (ip_gen sh eO1 hO1 eI1 (fneg hI1) eO hO eI hI c1 c1 c1 (copp c1) c1 ci NO NI) as (v2 & eO2 & hO2 & eI2 & x2 & E2 & V2 & A2 & B2 & C2 & _);
    [replace (cmul c1 c1) with c1 by (apply cpx_ext; cbn; ring); apply csqrt_1|replace (cmul c1 (copp c1)) with (copp c1) by (apply cpx_ext; cbn; ring); apply csqrt_m1
    |assumption|assumption|assumption|now apply scaled_neg|exact c1nz|exact cinz|].
  rewrite !Dc1 in *. rewrite !Dci in *. replace (cmul c1 (copp ci)) with (copp ci) in * by (apply cpx_ext; cbn; ring).
  replace (cmul (copp c1) (copp ci)) with ci in * by (apply cpx_ext; cbn; ring). rewrite E2. cbn [obind].
  destruct (ip_gen sh eO2 (fneg hO2) eI2 hI1 eO hO eI hI c1 (copp c1) (copp ci) c1 ci s' NO NI) as (v3 & eO3 & x3 & eI3 & hI3 & E3 & V3 & A3 & _ & C3 & D3);
    [replace (cmul c1 (copp c1)) with (copp c1) by (apply cpx_ext; cbn; ring); apply csqrt_m1|replace (cmul (copp ci) c1) with (copp ci) by (apply cpx_ext; cbn; ring); apply csqrt_mi
    |assumption|now apply scaled_neg|assumption|assumption|exact cinz|exact Ns'|].
  rewrite !Dci, !Ds' in *. replace (cmul c1 (copp ci)) with (copp ci) in * by (apply cpx_ext; cbn; ring).
  replace (cmul (copp c1) (copp ci)) with ci in * by (apply cpx_ext; cbn; ring).
  replace (cmul c1 s) with s in * by (apply cpx_ext; cbn; ring).
  replace (cmul (copp ci) s) with s' in * by (apply cpx_ext; cbn; ring).
  rewrite E3. cbn [obind].
  destruct (ip_gen sh eO3 (fneg hO2) eI3 (fneg hI3) eO hO eI hI (copp ci) (copp c1) s' (copp s) s ci NO NI) as (v4 & eO4 & x4 & eI4 & x5 & E4 & V4 & _);
    [replace (cmul (copp ci) (copp c1)) with ci by (apply cpx_ext; cbn; ring); apply csqrt_i
    |replace (cmul s' (copp s)) with (copp c1) by (apply cpx_ext; cbn; lra); apply csqrt_m1
    |assumption|now apply scaled_neg|assumption|now apply scaled_neg|exact Ns|exact cinz|].
  rewrite E4. cbn [obind]. rewrite !Dci, !Ds in V4.
  assert (W1 : v1 = pp) by exact V1. assert (W2 : v2 = pn) by exact V2.
  assert (W3 : v3 = np).
  { rewrite V3. unfold np. reflexivity. }
  assert (W4 : v4 = nn).
  { rewrite V4. unfold nn. f_equal; apply cpx_ext; cbn; ring. }
  rewrite W1, W2, W3, W4. reflexivity.
Qed.
