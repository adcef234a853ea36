(** Properties that depend on the kind (integer, real, complex) of the arrays. *)
From Coq Require Import Reals List Arith ZArith Lia Lra Bool.
From Verif.Lib Require Import Num Sums Idx Mat RealF.
From Verif.Model Require Import Fdmath Fdtd Fdfd Dtype.
From Verif.Spec Require Import Grid DtypeSpec.
From Verif.Proofs Require Import DtypeP.
From Verif.Props Require Import FdmathProps.
Import ListNotations.
Local Open Scope R_scope.

(** ** C141: the curl functions return an array of the kind of their argument *)

(** They raise for integer fields on a grid with widths, and for real fields on
    a grid with complex widths (such as a stretched grid). *)
Theorem C141_curl_raises_iff :
  forall (sh : list nat) (w : twidths) (e : tfield),
    let narrow := exists kw v, w = Some (kw, v) /\ (tk e = KInt \/ tk e = KReal /\ kw = KComplex) in
    (tcurl_forward sh w e = Raise <-> narrow) /\ (tcurl_back sh w e = Raise <-> narrow).
Proof.
  intros sh w e narrow. unfold tcurl_forward, tcurl_back.
  assert (X : kle (kderiv w (tk e)) (tk e) = false <-> narrow).
  { pose proof (kderiv_ok w (tk e)) as O. destruct (kle (kderiv w (tk e)) (tk e)) eqn:L.
    - split; [discriminate|]. intro N. destruct (proj1 O eq_refl N).
    - split; [|reflexivity]. intros _. unfold narrow. destruct w as [[kw v]|]; [|cbn in L; rewrite kle_refl in L; discriminate].
      exists kw, v. split; [reflexivity|]. destruct (tk e), kw; try discriminate; auto. }
  split; rewrite tcurl_raise; exact X.
Qed.
Print Assumptions C141_curl_raises_iff.

(** Otherwise the result is the curl, in an array of the kind of the field. *)
Theorem C141_curl_value :
  forall (sh : list nat) (w : twidths) (e : tfield),
    field_fits e -> widths_fit w ->
    (forall out, tcurl_forward sh w e = Ok out ->
       tk out = tk e /\ field_fits out /\ forall c idx, tv out c idx = curl_next (K := CC) sh (wvals w) (tv e) c idx) /\
    (forall out, tcurl_back sh w e = Ok out ->
       tk out = tk e /\ field_fits out /\ forall c idx, tv out c idx = curl_prev (K := CC) sh (wvals w) (tv e) c idx).
Proof.
  intros sh w e F W. split; intros out H.
  - assert (L : kle (kderiv w (tk e)) (tk e) = true).
    { unfold tcurl_forward, tcurl_with in H. destruct (kle (kderiv w (tk e)) (tk e)); [reflexivity|discriminate]. }
    destruct (tcurl_value (deriv_forward (K := CC) sh (wvals w)) (kderiv w (tk e)) e L) as (o & E & K & V & Fo);
      [intros; apply fwd_fits; assumption|].
    unfold tcurl_forward in H. rewrite E in H. injection H as <-. split; [exact K|]. split; [exact Fo|exact V].
  - assert (L : kle (kderiv w (tk e)) (tk e) = true).
    { unfold tcurl_back, tcurl_with in H. destruct (kle (kderiv w (tk e)) (tk e)); [reflexivity|discriminate]. }
    destruct (tcurl_value (deriv_back (K := CC) sh (wvals w)) (kderiv w (tk e)) e L) as (o & E & K & V & Fo);
      [intros; apply bck_fits; assumption|].
    unfold tcurl_back in H. rewrite E in H. injection H as <-. split; [exact K|]. split; [exact Fo|exact V].
Qed.
Print Assumptions C141_curl_value.

(** On a stretched grid the curl of a real field exists as a function only after
    converting the field to complex numbers; the matrix form takes it as it is. *)
Theorem C141_functional_raises_refuted :
  exists (sh : list nat) (kw : kind) (w : widths CC) (e : tfield) (idx : list nat) (out : tfield),
    tk e = KReal /\ field_fits e /\ widths_fit (Some (kw, w)) /\ inb sh idx /\
    tcurl_forward sh (Some (kw, w)) e = Raise /\
    unvec sh (mv (3 * prodl sh) (curl_forward_mat sh w) (vec sh (tv e))) 0%nat idx = mkC (/ 2) (- / 2) /\
    tcurl_forward sh (Some (kw, w)) (as_complex e) = Ok out /\ tv out 0%nat idx = mkC (/ 2) (- / 2).
Proof.
  set (e := mkT KReal (fun c idx => mkC (if (Nat.eqb c 2 && Nat.eqb (coord idx 1) 1)%bool then 1 else 0) 0)).
  set (w := fun _ _ : nat => mkC 1 1 : CC).
  assert (V : curl_next (K := CC) [1; 2; 1]%nat (Some w) (tv e) 0%nat [0; 0; 0]%nat = mkC (/ 2) (- / 2)).
  { apply cpx_ext; cbn; unfold cnrm, w; change (Pos.to_nat 1) with 1%nat; cbn; field. }
  destruct (tcurl_forward [1; 2; 1]%nat (Some (KComplex, w)) (as_complex e)) as [out|] eqn:O; [|discriminate].
  exists [1; 2; 1]%nat, KComplex, w, e, [0; 0; 0]%nat, out.
  split; [reflexivity|]. split; [intros c idx; reflexivity|]. split; [intros a i; exact I|]. split; [repeat constructor|].
  split; [reflexivity|]. split.
  - rewrite (C01_curl_forward_agree CC [1; 2; 1]%nat w (tv e)) by (cbn; first [lia|reflexivity|repeat constructor]). exact V.
  - split; [exact O|].
    destruct (C141_curl_value [1; 2; 1]%nat (Some (KComplex, w)) (as_complex e)) as [Y _]; [intros c idx; exact I|intros a i; exact I|].
    destruct (Y out O) as (_ & _ & ->). exact V.
Qed.
Print Assumptions C141_functional_raises_refuted.

(** ** C142: Poynting vectors are stored in an array of the kind of E *)

(** What is stored for a real E is the real part, for an integer E the real part
    rounded towards zero, of what the same call gives for a complex copy of E. *)
Theorem C142_poynting_kind :
  forall (sh : list nat) (d : option (widths CC * widths CC)) (e h : tfield) (c : nat) (idx : list nat),
    let full := tv (tpoynting sh d (as_complex e) h) c idx in
    tk (tpoynting sh d e h) = tk e /\
    tv (tpoynting sh d e h) c idx
    = match tk e with KComplex => full | KReal => mkC (cre full) 0 | KInt => mkC (IZR (trunc (cre full))) 0 end.
Proof. intros. split; [reflexivity|]. cbn. destruct (tk e); reflexivity. Qed.
Print Assumptions C142_poynting_kind.

Lemma pf_mul0 a b : cim a = 0 -> cim b = 0 -> cim (fmul (f := CC) a b) = 0.
Proof. intros A B. cbn. rewrite A, B. ring. Qed.
Lemma pf_sub0 a b : cim a = 0 -> cim b = 0 -> cim (fsub (f := CC) a b) = 0.
Proof. intros A B. cbn. rewrite A, B. ring. Qed.

(** Nothing is lost if H and the widths are real as well. *)
Theorem C142_real_fields :
  forall (sh : list nat) (d : option (widths CC * widths CC)) (e h : tfield),
    tk e = KReal -> field_fits e -> (tk h = KInt \/ tk h = KReal) -> field_fits h ->
    match d with Some (we, wh) => forall a i, cim (we a i) = 0 /\ cim (wh a i) = 0 | None => True end ->
    forall c idx, tv (tpoynting sh d e h) c idx = tv (tpoynting sh d (as_complex e) h) c idx.
Proof.
  intros sh d e h K Fe Kh Fh W c idx.
  destruct (C142_poynting_kind sh d e h c idx) as [_ ->]. cbv zeta. rewrite K.
  set (full := tv (tpoynting sh d (as_complex e) h) c idx).
  assert (Z : cim full = 0); [|apply cpx_ext; cbn; [reflexivity|symmetry; exact Z]].
  assert (A : forall c idx, cim (tv e c idx) = 0).
  { intros q i. specialize (Fe q i). rewrite K in Fe. exact Fe. }
  assert (B : forall c idx, cim (tv h c idx) = 0).
  { intros q i. specialize (Fh q i). destruct Kh as [Y | Y]; rewrite Y in Fh; [destruct Fh as [z ->]; reflexivity|exact Fh]. }
  unfold full. cbn [tpoynting tv tk as_complex cast]. unfold poynting.
  destruct c as [|[|[|c]]]; [| | |reflexivity]; unfold roll; destruct d as [[we wh]|]; cbn [wat option_map fst snd];
    repeat (first [apply pf_sub0|apply pf_mul0]); first [apply A|apply B|apply W|reflexivity].
Qed.
Print Assumptions C142_real_fields.

(** The same call keeps or loses the imaginary part depending on whether E is
    stored as real or as complex numbers. *)
Theorem C142_imaginary_part_refuted :
  exists (sh : list nat) (d : widths CC * widths CC) (e h : tfield) (c : nat) (idx : list nat),
    tk e = KReal /\ field_fits e /\ field_fits h /\ inb sh idx /\ (c < 3)%nat /\
    tv (texh sh d e h) c idx = mkC 0 0 /\ tv (texh sh d (as_complex e) h) c idx = mkC 0 1.
Proof.
  exists [1; 1; 1]%nat, ((fun _ _ => mkC 1 0 : CC), (fun _ _ => mkC 1 0 : CC)),
    (mkT KReal (fun c _ => mkC (if Nat.eqb c 1 then 1 else 0) 0)), (mkT KComplex (fun c _ => mkC 0 (if Nat.eqb c 2 then 1 else 0))), 0%nat, [0; 0; 0]%nat.
  split; [reflexivity|]. split; [intros c idx; reflexivity|]. split; [intros c idx; exact I|].
  split; [repeat constructor|]. split; [lia|].
  split; apply cpx_ext; cbn; ring.
Qed.
Print Assumptions C142_imaginary_part_refuted.

Theorem C142_integer_field_refuted :
  exists (sh : list nat) (d : widths CC * widths CC) (e h : tfield) (c : nat) (idx : list nat),
    tk e = KInt /\ field_fits e /\ field_fits h /\ inb sh idx /\ (c < 3)%nat /\
    tv (tpoynting sh (Some d) e h) c idx = mkC 0 0 /\ tv (tpoynting sh (Some d) (as_complex e) h) c idx = mkC (/ 2) 0.
Proof.
  exists [1; 1; 1]%nat, ((fun _ _ => mkC 1 0 : CC), (fun _ _ => mkC 1 0 : CC)),
    (mkT KInt (fun c _ => mkC (if Nat.eqb c 1 then 1 else 0) 0)), (mkT KReal (fun c _ => mkC (if Nat.eqb c 2 then / 2 else 0) 0)), 0%nat, [0; 0; 0]%nat.
  split; [reflexivity|]. split; [intros c idx; cbn; exists (if Nat.eqb c 1 then 1%Z else 0%Z); destruct (Nat.eqb c 1); reflexivity|].
  split; [intros c idx; cbn; reflexivity|]. split; [repeat constructor|]. split; [lia|].
  split.
  - eapply eq_trans; [apply (proj2 (C142_poynting_kind _ _ _ _ _ _))|].
    cbv zeta. cbn [tk]. match goal with |- mkC (IZR (trunc (cre ?f))) 0 = _ => assert (V : cre f = / 2) by (cbn; field) end.
    rewrite V, trunc_frac by lra. reflexivity.
  - apply cpx_ext; cbn; field.
Qed.
Print Assumptions C142_integer_field_refuted.

(** ** C143: which arrays the FDTD updates and the wave operator accept *)

(** [maxwell_e] returns iff the curl of H exists and E can hold the increment,
    which is at least real; then E has the documented value. *)
Theorem C143_maxwell_e :
  forall (sh : list nat) (dt : R) (w : twidths) (e h eps : tfield),
    field_fits e -> field_fits h -> field_fits eps -> widths_fit w ->
    (tmaxwell_e sh dt w e h eps = Raise <->
       tcurl_back sh w h = Raise \/ tk e = KInt \/ tk e = KReal /\ (tk h = KComplex \/ tk eps = KComplex)) /\
    (forall out, tmaxwell_e sh dt w e h eps = Ok out ->
       tk out = tk e /\ forall c idx,
         tv out c idx = cadd (tv e c idx) (cdiv (cmul (mkC dt 0) (curl_prev (K := CC) sh (wvals w) (tv h) c idx)) (tv eps c idx))).
Proof.
  intros sh dt w e h eps Fe Fh Fp W. destruct (C141_curl_value sh w h Fh W) as [_ V]. unfold tmaxwell_e.
  destruct (tcurl_back sh w h) as [ch|] eqn:E.
  - destruct (V ch eq_refl) as (K & Fc & X). rewrite K. split.
    + destruct (kle (kdiv (kmax KReal (tk h)) (tk eps)) (tk e)) eqn:L.
      * split; [discriminate|]. intros [Y | Y]; [discriminate|]. destruct (tk h), (tk eps), (tk e); try discriminate; destruct Y as [Y | [Y [Z | Z]]]; discriminate.
      * split; [|reflexivity]. intros _. right. destruct (tk h), (tk eps), (tk e); try discriminate; auto.
    + intros out H. destruct (kle (kdiv (kmax KReal (tk h)) (tk eps)) (tk e)) eqn:L; [|discriminate].
      injection H as <-. cbn [tk tv]. split; [reflexivity|]. intros c idx. rewrite <- (X c idx). apply cast_fits.
      apply fits_add; [apply Fe|]. apply (fits_mono (kdiv (kmax KReal (tk h)) (tk eps))); [exact L|].
      apply fits_div; [|apply Fp]. apply fits_mul.
      * apply (fits_mono KReal); [apply kmax_l|reflexivity].
      * apply (fits_mono (tk ch)); [rewrite K; apply kmax_r|apply Fc].
  - split; [|discriminate]. split; auto.
Qed.
Print Assumptions C143_maxwell_e.

Theorem C143_maxwell_h :
  forall (sh : list nat) (dt : R) (w : twidths) (e h : tfield) (mu : option tfield),
    field_fits e -> field_fits h -> match mu with Some m => field_fits m | None => True end -> widths_fit w ->
    (tmaxwell_h sh dt w e h mu = Raise <->
       tcurl_forward sh w e = Raise \/ tk h = KInt \/
       tk h = KReal /\ (tk e = KComplex \/ match mu with Some m => tk m = KComplex | None => False end)) /\
    (forall out, tmaxwell_h sh dt w e h mu = Ok out ->
       tk out = tk h /\ forall c idx,
         let x := cmul (mkC dt 0) (curl_next (K := CC) sh (wvals w) (tv e) c idx) in
         tv out c idx = csub (tv h c idx) (match mu with Some m => cdiv x (tv m c idx) | None => x end)).
Proof.
  intros sh dt w e h mu Fe Fh Fm W. destruct (C141_curl_value sh w e Fe W) as [V _]. unfold tmaxwell_h.
  destruct (tcurl_forward sh w e) as [ce|] eqn:E.
  - destruct (V ce eq_refl) as (K & Fc & X). rewrite K.
    assert (P : forall c idx, fits (kmax KReal (tk e)) (cmul (mkC dt 0) (tv ce c idx))).
    { intros c idx. apply fits_mul; [apply (fits_mono KReal); [apply kmax_l|reflexivity]|].
      apply (fits_mono (tk ce)); [rewrite K; apply kmax_r|apply Fc]. }
    destruct mu as [m|].
    + split.
      * destruct (kle (kdiv (kmax KReal (tk e)) (tk m)) (tk h)) eqn:L.
        -- split; [discriminate|]. intros [Y | Y]; [discriminate|]. destruct (tk h), (tk m), (tk e); try discriminate; destruct Y as [Y | [Y [Z | Z]]]; discriminate.
        -- split; [|reflexivity]. intros _. right. destruct (tk h), (tk m), (tk e); try discriminate; auto.
      * intros out H. destruct (kle (kdiv (kmax KReal (tk e)) (tk m)) (tk h)) eqn:L; [|discriminate].
        injection H as <-. cbn [tk tv]. split; [reflexivity|]. intros c idx. cbv zeta. rewrite <- (X c idx). apply cast_fits.
        apply fits_sub; [apply Fh|]. apply (fits_mono (kdiv (kmax KReal (tk e)) (tk m))); [exact L|]. apply fits_div; [apply P|apply Fm].
    + split.
      * destruct (kle (kmax KReal (tk e)) (tk h)) eqn:L.
        -- split; [discriminate|]. intros [Y | Y]; [discriminate|]. destruct (tk h), (tk e); try discriminate; destruct Y as [Y | [Y [Z | Z]]]; solve [discriminate|destruct Z].
        -- split; [|reflexivity]. intros _. right. destruct (tk h), (tk e); try discriminate; auto.
      * intros out H. destruct (kle (kmax KReal (tk e)) (tk h)) eqn:L; [|discriminate].
        injection H as <-. cbn [tk tv]. split; [reflexivity|]. intros c idx. cbv zeta. rewrite <- (X c idx). apply cast_fits.
        apply fits_sub; [apply Fh|]. apply (fits_mono (kmax KReal (tk e))); [exact L|apply P].
  - split; [|discriminate]. split; auto.
Qed.
Print Assumptions C143_maxwell_h.

(** The wave operator as a function: for complex E it always returns, with the
    value of C17/C59; for real E it raises as soon as the E widths are complex. *)
Theorem C143_e_full :
  forall (sh : list nat) (ko : kind) (omega : cpx) (we wh : kind * widths CC) (eps e : tfield) (mu : option tfield),
    field_fits e -> widths_fit (Some we) -> widths_fit (Some wh) -> match mu with Some m => field_fits m | None => True end ->
    (te_full sh ko omega we wh eps mu e = Raise <->
       tk e = KInt \/
       tk e = KReal /\ (fst we = KComplex \/ fst wh = KComplex /\ match mu with Some m => tk m <> KComplex | None => True end)) /\
    (forall out, te_full sh ko omega we wh eps mu e = Ok out ->
       tk out = (if existsb (fun k => kle KComplex k) (ko :: tk eps :: tk e :: match mu with Some m => [tk m] | None => [] end) then KComplex else KReal) /\
       forall c idx,
         let ce := curl_next (K := CC) sh (Some (snd we)) (tv e) in
         tv out c idx =
           csub (curl_prev (K := CC) sh (Some (snd wh)) (match mu with Some m => fun c' i => cmul (tv m c' i) (ce c' i) | None => ce end) c idx)
                (cmul (cmul (cmul omega omega) (tv eps c idx)) (tv e c idx))).
Proof.
  intros sh ko omega [kwe we] [kwh wh] eps e mu Fe We Wh Fm. cbn [fst snd].
  destruct (C141_curl_value sh (Some (kwe, we)) e Fe We) as [V _].
  destruct (C141_curl_raises_iff sh (Some (kwe, we)) e) as [R _]. unfold te_full.
  destruct (tcurl_forward sh (Some (kwe, we)) e) as [ce|] eqn:E.
  2:{ split; [|discriminate]. split; [|reflexivity]. intros _. destruct (proj1 R eq_refl) as (kw & v & Q & Y).
      injection Q as <- <-. destruct Y as [Y | [Y Z]]; auto. }
  destruct (V ce eq_refl) as (K & Fc & X). cbn [wvals option_map snd] in X.
  assert (NR : ~ (tk e = KInt \/ tk e = KReal /\ kwe = KComplex)).
  { intro Y. assert (H : Ok ce = Raise); [|discriminate]. apply R. exists kwe, we. split; [reflexivity|exact Y]. }
  set (m := match mu with Some m => mkT (kmax (tk m) (tk ce)) (fun c idx => cmul (tv m c idx) (tv ce c idx)) | None => ce end).
  assert (Fmm : field_fits m).
  { unfold m. destruct mu as [u|]; [|exact Fc]. intros c idx. cbn [tk tv].
    apply fits_mul; [apply (fits_mono (tk u)); [apply kmax_l|apply Fm]|apply (fits_mono (tk ce)); [apply kmax_r|apply Fc]]. }
  assert (Km : tk m = match mu with Some u => kmax (tk u) (tk e) | None => tk e end).
  { unfold m. destruct mu; cbn [tk]; rewrite ?K; reflexivity. }
  destruct (C141_curl_value sh (Some (kwh, wh)) m Fmm Wh) as [_ V2].
  destruct (C141_curl_raises_iff sh (Some (kwh, wh)) m) as [_ R2].
  destruct (tcurl_back sh (Some (kwh, wh)) m) as [cc|] eqn:E2.
  - destruct (V2 cc eq_refl) as (Kc & _ & X2). cbn [wvals option_map snd] in X2. split.
    + split; [discriminate|]. intro Y. exfalso.
      assert (H : Ok cc = Raise); [|discriminate]. apply R2. exists kwh, wh. split; [reflexivity|]. rewrite Km.
      destruct Y as [Y | [Y [Z | [Z M]]]]; [exfalso; apply NR; auto|exfalso; apply NR; auto|].
      rewrite Y. destruct mu as [u|]; [destruct (tk u); cbn; auto; congruence|auto].
    + intros out H. injection H as <-. cbn [tk]. split.
      { rewrite Kc, Km. clear - NR. destruct mu as [u|]; [destruct (tk u)|]; destruct ko, (tk eps), (tk e); cbn; try reflexivity; exfalso; apply NR; now left. }
      intros c idx. cbn [tv]. cbv zeta. f_equal. rewrite X2.
      assert (G : forall c' i, tv m c' i = match mu with Some u => fun c' i => cmul (tv u c' i) (curl_next (K := CC) sh (Some we) (tv e) c' i) | None => curl_next (K := CC) sh (Some we) (tv e) end c' i).
      { intros c' i. unfold m. destruct mu; cbn [tv]; rewrite X; reflexivity. }
      unfold curl_prev, curl_of, diff_prev. destruct c as [|[|[|c]]]; [| | |reflexivity]; rewrite !G; reflexivity.
  - split; [|discriminate]. split; [|reflexivity]. intros _.
    destruct (proj1 R2 eq_refl) as (kw & v & Q & Y). injection Q as <- <-. rewrite Km in Y.
    destruct mu as [u|]; [|destruct Y as [Y | [Y Z]]; auto].
    destruct (tk u) eqn:U; cbn in Y.
    + destruct (tk e) eqn:T; cbn in Y; destruct Y as [Y | [Y Z]]; try discriminate; auto. right. split; [reflexivity|]. right. split; [exact Z|discriminate].
    + destruct (tk e) eqn:T; cbn in Y; destruct Y as [Y | [Y Z]]; try discriminate; auto. right. split; [reflexivity|]. right. split; [exact Z|discriminate].
    + destruct (tk e) eqn:T; cbn in Y; destruct Y as [Y | [Y Z]]; discriminate.
Qed.
Print Assumptions C143_e_full.

(** A real E with a complex permittivity cannot be updated; a complex copy can. *)
Example C143_example :
  let sh := [1; 2; 1]%nat in
  let e := mkT KReal (fun _ _ => mkC 1 0) in
  let h := mkT KReal (fun c idx => mkC (if Nat.eqb (coord idx 1) 1 then 1 else 0) 0) in
  let eps := mkT KComplex (fun _ _ => mkC 1 1) in
  tmaxwell_e sh 1 None e h eps = Raise /\
  exists out, tmaxwell_e sh 1 None (as_complex e) h eps = Ok out /\ tv out 0%nat [0; 1; 0]%nat = mkC (3 / 2) (- / 2).
Proof.
  intros sh e h eps. split; [reflexivity|].
  destruct (tmaxwell_e sh 1 None (as_complex e) h eps) as [out|] eqn:O; [|discriminate].
  exists out. split; [reflexivity|].
  destruct (C143_maxwell_e sh 1 None (as_complex e) h eps) as [_ Y]; try (intros c idx; first [reflexivity|exact I]); [exact I|].
  destruct (Y out O) as [_ ->]. apply cpx_ext; cbn; unfold cnrm; change (Pos.to_nat 1) with 1%nat; cbn; field.
Qed.
