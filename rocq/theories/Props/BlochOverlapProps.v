(** Properties of inner_product and trq of meanas/fdfd/bloch.py. *)
From Coq Require Import Reals List Arith ZArith Lia Lra Psatz Bool Field.
From Verif.Lib Require Import Num Sums Idx RealF.
From Verif.Model Require Import Ndarray BlochOverlap.
From Verif.Proofs Require Import EmeP BlochOverlapP.
Import ListNotations.
Local Open Scope R_scope.

(** sum of (e x h)_x *)
Definition x_flux sh (e h : cfield) : cpx :=
  gsum (K := CC) sh (fun j => csub (cmul (e 1%nat j) (h 2%nat j)) (cmul (e 2%nat j) (h 1%nat j))).
Definition cscale (c : cpx) (f : cfield) : cfield := fun a j => cmul c (f a j).
(** The value inner_product returns. *)
Definition overlap sh eL hL eR hR : option cpx := option_map fst (inner_product sh eL hL eR hR).
(** A field of one cell. *)
Definition cell3 (x y z : R) : cfield := fun a _ => mkC (match a with O => x | 1%nat => y | _ => z end) 0.
Definition cell : list nat := [1%nat; 1%nat; 1%nat].

Lemma overlap_defined sh eL hL eR hR : x_flux sh eL hL <> c0 -> x_flux sh eR hR <> c0 -> exists r, inner_product sh eL hL eR hR = Some r.
Proof.
  intros NL NR. assert (D : forall z, z <> c0 -> csqrt (cdiv z (mkC 2 0)) <> c0).
  { intros z N. apply csqrt_nz. intro X. apply N. apply (f_equal (cmul (mkC 2 0))) in X.
    transitivity (cmul (mkC 2 0) (cdiv z (mkC 2 0))); [|rewrite X; apply cpx_ext; cbn; ring].
    cfield. intro Y. apply (f_equal cre) in Y. cbn in Y. lra. }
  unfold inner_product, norm2. fold (x_flux sh eL hL). fold (x_flux sh eR hR).
  destruct (cpx_dec _ c0) as [X|_]; [destruct (D _ NR X)|]. destruct (cpx_dec _ c0) as [X|_]; [destruct (D _ NL X)|]. eauto.
Qed.
Lemma case_flux : x_flux cell (cell3 0 1 0) (cell3 0 0 2) = mkC 2 0 /\ x_flux cell (cell3 0 1 0) (cell3 0 1 2) = mkC 2 0.
Proof. split; apply cpx_ext; cbn; ring. Qed.

(** ** C50 *)
Theorem C50_antisymmetric :
  forall sh eL hL eR hR, overlap sh eR hR eL hL = option_map copp (overlap sh eL hL eR hR).
Proof. intros. apply ip_swap. Qed.
Print Assumptions C50_antisymmetric.
Theorem C50_scale_invariant :
  forall sh c eL hL eR hR, 0 < c ->
    overlap sh eL hL (cscale (mkC c 0) eR) (cscale (mkC c 0) hR) = overlap sh eL hL eR hR /\
    overlap sh (cscale (mkC c 0) eL) (cscale (mkC c 0) hL) eR hR = overlap sh eL hL eR hR.
Proof. intros. split; [now apply ip_scale_R|now apply ip_scale_L]. Qed.
Print Assumptions C50_scale_invariant.
(** The result is defined for fields that carry power; the arguments are left with x_flux 2. *)
Theorem C50_defined_and_normalised :
  forall sh eL hL eR hR, x_flux sh eL hL <> c0 -> x_flux sh eR hR <> c0 ->
    exists v eL' hL' eR' hR', inner_product sh eL hL eR hR = Some (v, (eL', hL', eR', hR')) /\
      x_flux sh eL' hL' = mkC 2 0 /\ x_flux sh eR' hR' = mkC 2 0.
Proof.
  intros sh eL hL eR hR NL NR. destruct (overlap_defined sh eL hL eR hR NL NR) as ([v [[[eL' hL'] eR'] hR']] & E).
  exists v, eL', hL', eR', hR'. split; [exact E|]. destruct (ip_norms sh _ _ _ _ _ _ _ _ _ E) as [A B].
  assert (D : forall e h, norm2 sh e h = c1 -> x_flux sh e h = mkC 2 0).
  { intros e h X. unfold norm2 in X. fold (x_flux sh e h) in X. transitivity (cmul (mkC 2 0) (cdiv (x_flux sh e h) (mkC 2 0))).
    - cfield. intro Y. apply (f_equal cre) in Y. cbn in Y. lra.
    - rewrite X. apply cpx_ext; cbn; ring. }
  split; now apply D.
Qed.
Print Assumptions C50_defined_and_normalised.
Example C50_case : x_flux cell (cell3 0 1 0) (cell3 0 0 2) <> c0 /\ x_flux cell (cell3 0 1 0) (cell3 0 1 2) <> c0.
Proof. destruct case_flux as [-> ->]. split; intro X; apply (f_equal cre) in X; cbn in X; lra. Qed.

(** ** C92 *)
Lemma norm_case : csqrt (norm2 cell (cell3 0 1 0) (cell3 0 0 2)) = c1 /\ csqrt (norm2 cell (cell3 0 1 0) (cell3 0 1 2)) = c1.
Proof.
  assert (H : cdiv (mkC 2 0) (mkC 2 0) = c1) by (apply cpx_ext; cbn; unfold cnrm; cbn; field).
  unfold norm2. fold (x_flux cell (cell3 0 1 0) (cell3 0 0 2)). fold (x_flux cell (cell3 0 1 0) (cell3 0 1 2)). destruct case_flux as [-> ->]. rewrite H, csqrt_1. now split.
Qed.
Lemma fs1 f a j : fscale_inv c1 f a j = f a j.
Proof. unfold fscale_inv. apply cpx_ext; cbn; unfold cnrm; cbn; field. Qed.
Lemma value_case : overlap cell (cell3 0 1 0) (cell3 0 0 2) (cell3 0 1 0) (cell3 0 1 2) = Some c1.
Proof.
  unfold overlap, inner_product. destruct norm_case as [-> ->]. destruct (cpx_dec c1 c0) as [X|_]; [destruct (c1nz X)|].
  cbn [option_map fst]. f_equal. rewrite !(cross_x_ext cell (fscale_inv c1 _) (fscale_inv c1 _) _ _ (fun a j _ => fs1 _ a j) (fun a j _ => fs1 _ a j)).
  unfold cross_x. apply cpx_ext; cbn; ring.
Qed.
(** Multiplying one of the modes by -1 may change more than nothing: not invariant. *)
Theorem C92_scale_refuted :
  exists sh c eL hL eR hR, c <> c0 /\ x_flux sh eL hL <> c0 /\ x_flux sh eR hR <> c0 /\
    overlap sh eL hL (cscale c eR) (cscale c hR) <> overlap sh eL hL eR hR.
Proof.
  exists cell, (mkC (-1) 0), (cell3 0 1 0), (cell3 0 0 2), (cell3 0 1 0), (cell3 0 1 2).
  split; [intro X; apply (f_equal cre) in X; cbn in X; lra|]. split; [apply C50_case|]. split; [apply C50_case|]. rewrite value_case.
  unfold overlap, inner_product, cscale. rewrite (norm2_scale cell (cell3 0 1 0) (cell3 0 1 2) (mkC (-1) 0) (mkC (-1) 0)). replace (cmul (mkC (-1) 0) (mkC (-1) 0)) with c1 by (apply cpx_ext; cbn; ring).
  replace (cmul c1 (norm2 cell (cell3 0 1 0) (cell3 0 1 2))) with (norm2 cell (cell3 0 1 0) (cell3 0 1 2)) by cring.
  destruct norm_case as [-> ->]. destruct (cpx_dec c1 c0) as [X|_]; [destruct (c1nz X)|].
  cbn [option_map fst]. rewrite !(cross_x_ext cell (fscale_inv c1 _) (fscale_inv c1 _) _ _ (fun a j _ => fs1 _ a j) (fun a j _ => fs1 _ a j)).
  intro X. injection X as X _. cbn in X. lra.
Qed.
Print Assumptions C92_scale_refuted.
(** The caller's arrays are overwritten. *)
Theorem C92_arguments_refuted :
  exists sh eL hL eR hR v eL' hL' eR' hR' a j, inner_product sh eL hL eR hR = Some (v, (eL', hL', eR', hR')) /\ inb sh j /\ eR' a j <> eR a j.
Proof.
  assert (N : csqrt (norm2 cell (cell3 0 4 0) (cell3 0 0 2)) = mkC 2 0).
  { replace (norm2 cell (cell3 0 4 0) (cell3 0 0 2)) with (mkC 4 0) by (apply cpx_ext; cbn; unfold cnrm; cbn; field).
    rewrite csqrt_real_pos by lra. replace 4 with (2 * 2) by ring. now rewrite sqrt_square by lra. }
  assert (N2 : mkC 2 0 <> c0) by (intro X; apply (f_equal cre) in X; cbn in X; lra).
  eexists cell, (cell3 0 4 0), (cell3 0 0 2), (cell3 0 4 0), (cell3 0 0 2), _, _, _, _, _, 1%nat, [0; 0; 0]%nat. split; [|split].
  - unfold inner_product. rewrite N. destruct (cpx_dec (mkC 2 0) c0) as [X|_]; [destruct (N2 X)|]. reflexivity.
  - repeat (constructor; [lia|]); constructor.
  - intro X. apply (f_equal cre) in X. unfold fscale_inv in X. cbn in X. unfold cnrm in X. cbn in X. field_simplify in X. lra.
Qed.
Print Assumptions C92_arguments_refuted.

(** ** C93 *)
(** sum of (eR x hL - eL x hR)_x for the fields scaled to unit power *)
Definition reciprocity_overlap sh (eL hL eR hR : cfield) : cpx :=
  let s e h := csqrt (cdiv (x_flux sh e h) (mkC 2 0)) in
  cdiv (csub (x_flux sh eR hL) (x_flux sh eL hR)) (cmul (s eL hL) (s eR hR)).
Lemma x_flux_pol sh e h e0 h0 a b : (forall j, inb sh j -> e0 2%nat j = c0 /\ h0 1%nat j = c0) -> scaled sh e a e0 -> scaled sh h b h0 ->
  gsum (K := CC) sh (cross_x e h) = cmul (cmul a b) (x_flux sh e0 h0).
Proof.
  intros X Se Sh. unfold x_flux. refine (eq_trans _ (gsum_mul_l CC sh _ _)). apply (gsum_ext (K := CC)). intros j Hj. unfold cross_x.
  rewrite !(Se _ _ Hj), !(Sh _ _ Hj). destruct (X j Hj) as [-> ->]. apply cpx_ext; cbn; ring.
Qed.
(** Right if all fields have e_z = h_y = 0 .. *)
Theorem C93_polarized :
  forall sh eL hL eR hR,
    (forall j, inb sh j -> eL 2%nat j = c0 /\ hL 1%nat j = c0 /\ eR 2%nat j = c0 /\ hR 1%nat j = c0) ->
    x_flux sh eL hL <> c0 -> x_flux sh eR hR <> c0 ->
    overlap sh eL hL eR hR = Some (reciprocity_overlap sh eL hL eR hR).
Proof.
  intros sh eL hL eR hR P NL NR. destruct (overlap_defined sh eL hL eR hR NL NR) as (r & E). unfold overlap. revert E.
  unfold inner_product, reciprocity_overlap. unfold norm2. fold (x_flux sh eL hL). fold (x_flux sh eR hR).
  destruct (cpx_dec _ c0) as [|N1]; [discriminate|]. destruct (cpx_dec _ c0) as [|N2]; [discriminate|]. intros _. cbn [option_map fst]. f_equal.
  set (sR := csqrt (cdiv (x_flux sh eR hR) (mkC 2 0))) in *. set (sL := csqrt (cdiv (x_flux sh eL hL) (mkC 2 0))) in *.
  rewrite (x_flux_pol sh _ _ eR hL (cdiv c1 sR) (cdiv c1 sL)), (x_flux_pol sh _ _ eL hR (cdiv c1 sL) (cdiv c1 sR)).
  - cfield. now split.
  - intros j Hj. destruct (P j Hj) as (A & B & C & D). now split.
  - apply scaled_div, scaled_refl.
  - apply scaled_div, scaled_refl.
  - intros j Hj. destruct (P j Hj) as (A & B & C & D). now split.
  - apply scaled_div, scaled_refl.
  - apply scaled_div, scaled_refl.
Qed.
Print Assumptions C93_polarized.
Example C93_polarized_case : overlap cell (cell3 0 1 0) (cell3 0 0 2) (cell3 0 4 0) (cell3 0 0 2) <> None.
Proof.
  rewrite C93_polarized.
  - discriminate.
  - intros j _. repeat split.
  - apply C50_case.
  - intro X. apply (f_equal cre) in X. cbn in X. lra.
Qed.
(** .. wrong in general. *)
Theorem C93_reciprocity_refuted :
  exists sh eL hL eR hR, x_flux sh eL hL <> c0 /\ x_flux sh eR hR <> c0 /\
    overlap sh eL hL eR hR <> Some (reciprocity_overlap sh eL hL eR hR).
Proof.
  exists cell, (cell3 0 1 0), (cell3 0 0 2), (cell3 0 1 0), (cell3 0 1 2). split; [apply C50_case|]. split; [apply C50_case|].
  rewrite value_case. intro X0. assert (X : c1 = reciprocity_overlap cell (cell3 0 1 0) (cell3 0 0 2) (cell3 0 1 0) (cell3 0 1 2)) by congruence. clear X0.
  unfold reciprocity_overlap in X. cbv zeta in X. destruct norm_case as [N1 N2].
  unfold norm2 in N1, N2. fold (x_flux cell (cell3 0 1 0) (cell3 0 0 2)) in N1. fold (x_flux cell (cell3 0 1 0) (cell3 0 1 2)) in N2. rewrite N1, N2 in X.
  assert (Z : csub (x_flux cell (cell3 0 1 0) (cell3 0 0 2)) (x_flux cell (cell3 0 1 0) (cell3 0 1 2)) = c0) by (apply cpx_ext; cbn; ring).
  rewrite Z in X. apply (f_equal cre) in X. cbn in X. lra.
Qed.
Print Assumptions C93_reciprocity_refuted.

(** ** C94 *)
(** trq fails for all fields with e_z = h_y = 0: an assertion fails or the result is not finite. *)
Theorem C94_trq_never :
  forall sh eI hI eO hO, (forall j, inb sh j -> eI 2%nat j = c0 /\ hI 1%nat j = c0) -> (forall j, inb sh j -> eO 2%nat j = c0 /\ hO 1%nat j = c0) ->
    ~ exists t r, trq sh eI hI eO hO = Some (Some t, Some r).
Proof. intros. now apply trq_pol. Qed.
Print Assumptions C94_trq_never.
(** Even full transmission of a mode into itself. *)
Theorem C94_trq_refuted :
  exists sh e h, x_flux sh e h <> c0 /\ ~ exists t r, trq sh e h e h = Some (Some t, Some r).
Proof.
  exists cell, (cell3 0 1 0), (cell3 0 0 2). split; [apply C50_case|]. apply C94_trq_never; intros j _; now split.
Qed.
Print Assumptions C94_trq_refuted.
(** What trq computes for fields of unit flux.  Every call of inner_product rescales
    the fields by the root of their flux, which is -1, i or -i once a field has been
    negated, so the four overlaps are weighted by powers of s = exp(i pi/4). *)
Definition eighth : cpx := mkC (sqrt (1 / 2)) (sqrt (1 / 2)).
Theorem C94_trq_value :
  forall sh eI hI eO hO, x_flux sh eI hI = mkC 2 0 -> x_flux sh eO hO = mkC 2 0 ->
    let s := eighth in let s' := cconj eighth in
    let a := gsum (K := CC) sh (fun j => cmul (eI 1%nat j) (hO 2%nat j)) in let b := gsum (K := CC) sh (fun j => cmul (eO 1%nat j) (hI 2%nat j)) in
    let eIz := gsum (K := CC) sh (eI 2%nat) in let hOy := gsum (K := CC) sh (hO 1%nat) in let eOz := gsum (K := CC) sh (eO 2%nat) in let hIy := gsum (K := CC) sh (hI 1%nat) in
    let pp := csub (csub (csub a b) (csub eIz eOz)) (csub hOy hIy) in
    let pn := cadd (cmul ci (csub (cadd eIz hIy) (cadd a b))) (csub eOz hOy) in
    let np := csub (csub (cmul s (cadd a hIy)) (cmul s' (cadd b eIz))) (cmul ci (cadd hOy eOz)) in
    let nn := cadd (cadd (csub a b) (cmul s (csub eIz eOz))) (cmul s' (csub hOy hIy)) in
    forall t r, trq sh eI hI eO hO = Some (Some t, Some r) <->
      pp = copp nn /\ pn = copp np /\ pn <> c0 /\ r = copp (cdiv pp pn) /\ t = cdiv (csub np (cdiv (cmul nn pp) pn)) (mkC 4 0).
Proof.
  intros sh eI hI eO hO FI FO s s' a b eIz hOy eOz hIy pp pn np nn t r.
  assert (H2 : cdiv (mkC 2 0) (mkC 2 0) = c1) by (apply cpx_ext; cbn; unfold cnrm; cbn; field).
  assert (NI : norm2 sh eI hI = c1) by (unfold norm2; fold (x_flux sh eI hI); rewrite FI; exact H2).
  assert (NO : norm2 sh eO hO = c1) by (unfold norm2; fold (x_flux sh eO hO); rewrite FO; exact H2).
  rewrite (trq_calls sh eI hI eO hO NI NO). pose proof s2_sq as Q2.
  assert (W1 : overlap6 sh c1 c1 c1 c1 eI hI eO hO = pp).
  { unfold overlap6, tot. fold a b eIz hOy eOz hIy. unfold pp. clearbody a b eIz hOy eOz hIy. apply cpx_ext; cbn; ring. }
  assert (W2 : overlap6 sh c1 c1 (copp ci) ci eI hI eO hO = pn).
  { unfold overlap6, tot. fold a b eIz hOy eOz hIy. unfold pn. clearbody a b eIz hOy eOz hIy. apply cpx_ext; cbn; ring. }
  assert (W3 : overlap6 sh (copp ci) ci (mkC s2 (- s2)) (mkC s2 s2) eI hI eO hO = np).
  { unfold overlap6, tot. fold a b eIz hOy eOz hIy. unfold np, s, s', eighth. fold s2. clearbody a b eIz hOy eOz hIy. apply cpx_ext; cbn; ring. }
  assert (W4 : overlap6 sh (copp (mkC s2 s2)) (copp (mkC s2 (- s2))) (copp (mkC s2 s2)) (copp (mkC s2 (- s2))) eI hI eO hO = nn).
  { unfold overlap6, tot. fold a b eIz hOy eOz hIy. unfold nn, s, s', eighth. fold s2. clearbody a b eIz hOy eOz hIy.
    replace (cmul (copp (mkC s2 s2)) (copp (mkC s2 (- s2)))) with c1 by (apply cpx_ext; cbn; lra). apply cpx_ext; cbn; ring. }
  rewrite W1, W2, W3, W4. clear W1 W2 W3 W4. clearbody pp pn np nn. unfold ndiv, nopp.
  assert (H4 : mkC 4 0 <> c0) by (intro X; apply (f_equal cre) in X; cbn in X; lra).
  destruct (cpx_dec pp (copp nn)) as [E1|E1]; [|split; [discriminate|intros (X & _); contradiction]].
  destruct (cpx_dec pn (copp np)) as [E2|E2]; [|split; [discriminate|intros (_ & X & _); contradiction]].
  destruct (cpx_dec pn c0) as [E3|E3]; [split; [discriminate|intros (_ & _ & X & _); contradiction]|]. cbn [nsub option_map].
  destruct (cpx_dec (mkC 4 0) c0) as [E4|_]; [contradiction|]. split.
  - intro H. injection H as <- <-. repeat split; assumption || reflexivity.
  - intros (_ & _ & _ & -> & ->). reflexivity.
Qed.
Print Assumptions C94_trq_value.
(** When it returns, a mode sent into itself is not reflected, but the transmission
    may be any number; here it is (1 - sqrt 2 + i) / 2. *)
Definition self_e : cfield := fun a _ => match a with 1%nat => c1 | 2%nat => mkC (2 * sqrt (1 / 2)) (2 - 2 * sqrt (1 / 2)) | _ => c0 end.
Definition self_h : cfield := fun a _ => match a with 2%nat => mkC 2 0 | _ => c0 end.
Theorem C94_transmission_refuted :
  exists sh e h t, x_flux sh e h = mkC 2 0 /\ trq sh e h e h = Some (Some t, Some c0) /\ t <> c1.
Proof.
  exists cell, self_e, self_h, (mkC ((1 - 2 * sqrt (1 / 2)) / 2) (1 / 2)).
  assert (F : x_flux cell self_e self_h = mkC 2 0) by (apply cpx_ext; cbn; ring).
  split; [exact F|]. split.
  - apply (C94_trq_value cell self_e self_h self_e self_h F F). unfold eighth. fold s2. pose proof s2_sq as Q2. pose proof s2_pos as P2.
    assert (V1 : gsum (K := CC) cell (fun j => cmul (self_e 1%nat j) (self_h 2%nat j)) = mkC 2 0) by (apply cpx_ext; cbn; ring).
    assert (V2 : gsum (K := CC) cell (self_e 2%nat) = mkC (2 * s2) (2 - 2 * s2)) by (apply cpx_ext; cbn; fold s2; ring).
    assert (V3 : gsum (K := CC) cell (self_h 1%nat) = c0) by (apply cpx_ext; cbn; ring).
    rewrite V1, V2, V3.
    match goal with |- ?P = _ /\ _ => assert (Ep : P = c0) by (apply cpx_ext; cbn; ring) end. rewrite Ep.
    match goal with |- _ /\ ?P = _ /\ _ => assert (En : P = mkC (4 * s2 - 2) (- (2))) by (apply cpx_ext; cbn; ring) end. rewrite En.
    match goal with |- _ = copp ?P /\ _ => assert (Em : P = c0) by (apply cpx_ext; cbn; ring) end. rewrite Em.
    match goal with |- _ /\ _ = copp ?P /\ _ => assert (Eq : P = mkC (2 - 4 * s2) 2) by (apply cpx_ext; cbn; lra) end. rewrite Eq.
    assert (D0 : cdiv c0 (mkC (4 * s2 - 2) (- (2))) = c0) by (apply cpx_ext; cbn; unfold Rdiv; ring).
    replace (cmul c0 c0) with c0 by (apply cpx_ext; cbn; ring). rewrite D0.
    repeat split.
    + apply cpx_ext; cbn; ring.
    + apply cpx_ext; cbn; ring.
    + intro X. apply (f_equal cim) in X. cbn in X. lra.
    + apply cpx_ext; cbn; ring.
    + apply cpx_ext; cbn; unfold cnrm; cbn; field.
  - intro X. apply (f_equal cim) in X. cbn in X. lra.
Qed.
Print Assumptions C94_transmission_refuted.
