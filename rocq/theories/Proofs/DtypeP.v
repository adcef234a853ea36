(** Lemmas on kinds of arrays. *)
From Coq Require Import Reals List Arith ZArith Lia Lra Bool.
From Verif.Lib Require Import Num Sums Idx RealF.
From Verif.Model Require Import Fdmath Fdtd Fdfd Dtype.
From Verif.Spec Require Import Grid DtypeSpec.
Import ListNotations.
Local Open Scope R_scope.

Lemma Int_part_unique r z : IZR z <= r < IZR z + 1 -> Int_part r = z.
Proof.
  intro H. unfold Int_part. rewrite <- (tech_up r (z + 1)); [lia| |]; rewrite plus_IZR; lra.
Qed.
Lemma trunc_IZR z : trunc (IZR z) = z.
Proof.
  assert (I : forall q, Int_part (IZR q) = q).
  { intro q. apply Int_part_unique. lra. }
  unfold trunc. destruct (Rle_dec 0 (IZR z)); [apply I|]. rewrite <- opp_IZR, I. lia.
Qed.
Lemma trunc_frac x : 0 <= x < 1 -> trunc x = 0%Z.
Proof.
  intro H. unfold trunc. destruct (Rle_dec 0 x); [|lra]. apply Int_part_unique. change (IZR 0) with 0. lra.
Qed.

Lemma cast_fits k x : fits k x -> cast k x = x.
Proof.
  destruct k; cbn.
  - intros [z ->]. cbn. now rewrite trunc_IZR.
  - intro H. apply cpx_ext; cbn; [reflexivity|symmetry; exact H].
  - reflexivity.
Qed.
Lemma fits_mono a b x : kle a b = true -> fits a x -> fits b x.
Proof. destruct a, b; cbn; try discriminate; try tauto; intros _ [z ->]; reflexivity. Qed.
Lemma fits_sub k x y : fits k x -> fits k y -> fits k (csub x y).
Proof.
  destruct k; cbn; try tauto.
  - intros [a ->] [b ->]. exists (a - b)%Z. apply cpx_ext; cbn; [now rewrite minus_IZR|ring].
  - intros A B. rewrite A, B. ring.
Qed.
Lemma fits_add k x y : fits k x -> fits k y -> fits k (cadd x y).
Proof.
  destruct k; cbn; try tauto.
  - intros [a ->] [b ->]. exists (a + b)%Z. apply cpx_ext; cbn; [now rewrite plus_IZR|ring].
  - intros A B. rewrite A, B. ring.
Qed.
Lemma fits_mul k x y : fits k x -> fits k y -> fits k (cmul x y).
Proof.
  destruct k; cbn; try tauto.
  - intros [a ->] [b ->]. exists (a * b)%Z. apply cpx_ext; cbn; [rewrite mult_IZR; ring|ring].
  - intros A B. rewrite A, B. ring.
Qed.
Lemma fits_div k l x y : fits k x -> fits l y -> fits (kdiv k l) (cdiv x y).
Proof.
  intros X Y.
  assert (R : cim x = 0 -> cim y = 0 -> cim (cdiv x y) = 0).
  { intros A B. cbn. rewrite A, B. unfold Rdiv. ring. }
  destruct k, l; cbn in *; try exact I; apply R; first [assumption|now destruct X as [? ->]|now destruct Y as [? ->]].
Qed.
Lemma kmax_l a b : kle a (kmax a b) = true.
Proof. destruct a, b; reflexivity. Qed.
Lemma kmax_r a b : kle b (kmax a b) = true.
Proof. destruct a, b; reflexivity. Qed.
Lemma kle_refl a : kle a a = true.
Proof. destruct a; reflexivity. Qed.
Lemma kle_trans a b c : kle a b = true -> kle b c = true -> kle a c = true.
Proof. destruct a, b, c; cbn; auto. Qed.

Lemma fwd_fits sh w e a c idx : field_fits e -> widths_fit w ->
  fits (kderiv w (tk e)) (deriv_forward (K := CC) sh (wvals w) a (tv e c) idx).
Proof.
  intros F W. unfold deriv_forward, roll. destruct w as [[k v]|]; cbn [wvals option_map snd kderiv].
  - apply (fits_div (tk e) k); [apply fits_sub; apply F|apply W].
  - apply fits_sub; apply F.
Qed.
Lemma bck_fits sh w e a c idx : field_fits e -> widths_fit w ->
  fits (kderiv w (tk e)) (deriv_back (K := CC) sh (wvals w) a (tv e c) idx).
Proof.
  intros F W. unfold deriv_back, roll. destruct w as [[k v]|]; cbn [wvals option_map snd kderiv].
  - apply (fits_div (tk e) k); [apply fits_sub; apply F|apply W].
  - apply fits_sub; apply F.
Qed.

Lemma tcurl_value D dk e : kle dk (tk e) = true ->
  (forall a c idx, fits dk (D a (tv e c) idx)) ->
  exists out, tcurl_with D dk e = Ok out /\ tk out = tk e /\
    (forall c idx, tv out c idx = curl_of (K := CC) D (tv e) c idx) /\ field_fits out.
Proof.
  intros L F. unfold tcurl_with. rewrite L. eexists. split; [reflexivity|]. cbn [tk tv].
  assert (X : forall a c b d idx, cast (tk e) (csub (cast (tk e) (D a (tv e c) idx)) (D b (tv e d) idx)) = csub (D a (tv e c) idx) (D b (tv e d) idx)
                              /\ fits (tk e) (csub (D a (tv e c) idx) (D b (tv e d) idx))).
  { intros a c b d idx. rewrite (cast_fits (tk e) (D a (tv e c) idx)) by (apply (fits_mono dk); [exact L|apply F]).
    assert (Y : fits (tk e) (csub (D a (tv e c) idx) (D b (tv e d) idx))).
    { apply fits_sub; apply (fits_mono dk); try exact L; apply F. }
    split; [apply cast_fits; exact Y|exact Y]. }
  split; [reflexivity|]. split.
  - intros [|[|[|c]]] idx; [apply X|apply X|apply X|reflexivity].
  - intros [|[|[|c]]] idx; cbn [tk tv]; try (rewrite (proj1 (X _ _ _ _ _)); apply X).
    apply (fits_mono KInt); [destruct (tk e); reflexivity|exists 0%Z; reflexivity].
Qed.

Lemma kderiv_ok w k : kle (kderiv w k) k = true <-> ~ (exists kw v, w = Some (kw, v) /\ (k = KInt \/ k = KReal /\ kw = KComplex)).
Proof.
  destruct w as [[kw v]|]; cbn [kderiv].
  - split.
    + intros H (kw' & v' & E & C). injection E as E1 _; subst kw'. destruct C as [-> | [-> ->]]; [destruct kw; discriminate|discriminate].
    + intro H. destruct k, kw; try reflexivity; exfalso; apply H; eexists _, _; (split; [reflexivity|]); auto.
  - split; [|intros; apply kle_refl]. intros _ (kw & v & E & _). discriminate.
Qed.
Lemma tcurl_raise D dk e : tcurl_with D dk e = Raise <-> kle dk (tk e) = false.
Proof. unfold tcurl_with. destruct (kle dk (tk e)); split; congruence. Qed.
