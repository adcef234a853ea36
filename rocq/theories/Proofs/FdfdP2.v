(** Equivalence of the E/H and E-only systems, masks, TFSF and boundary
    sources, Poynting operators and the solver wrapper. *)
From Coq Require Import List Arith ZArith Lia Field Bool.
From Verif.Lib Require Import Num Sums Idx Mat.
From Verif.Model Require Import Fdmath Fdtd Fdfd.
From Verif.Spec Require Import Yee FdfdSpec.
From Verif.Proofs Require Import FdmathP FdmathP2 FdfdP.
Import ListNotations.
Local Open Scope fld_scope.

Ltac splits := repeat match goal with |- _ /\ _ => split end.

Section P2.
  Variable K : CFld.
  Add Field Kfield : (fth K).
  Implicit Types (x : vect K) (sh : list nat) (om : K) (d : dx2 K) (eps : vect K)
    (pec pmc : option (vect K)) (sqrt : K -> K).

  Lemma im_sq' : (im * im : K) = - (1).
  Proof. apply im_sq. Qed.

  Lemma iw_nz om : om <> 0 -> im * om <> (0 : K).
  Proof. intro H. apply fmul_nz; [apply im_nz|exact H]. Qed.

  Lemma iw_sq om : (im * om) * (im * om) = - (om * om) :> K.
  Proof.
    transitivity ((im * im) * (om * om) : K); [ring|]. rewrite im_sq'. ring.
  Qed.

  Lemma mv_const_mul n (A : mat K) (c : K) x i : mv n A (fun q => c * x q) i = c * mv n A x i.
  Proof. apply mv_lin_scale. Qed.

  (** Both systems, written as vector equations. *)
  Definition eh_eqs sh om d eps (mu : vect K) pec pmc (E H J M : vect K) : Prop :=
    let n := (3 * prodl sh)%nat in
    forall r, (r < n)%nat ->
      - (keep pec r * (im * om * (eps r * (keep pec r * E r))))
        + keep pec r * mv n (curl_back_mat sh (snd d)) (fun q => keep pmc q * H q) r = J r
      /\ keep pmc r * mv n (curl_forward_mat sh (fst d)) (fun q => keep pec q * E q) r
        + keep pmc r * (im * om * (mu r * (keep pmc r * H r))) = - M r.

  Lemma eh_eqs_iff sh om d eps mu pec pmc (E H J M : vect K) A :
    eh_full_mat sh om d eps (Some mu) pec pmc = Ok A ->
    let n := (3 * prodl sh)%nat in
    ((forall q, (q < 2 * n)%nat -> mv (2 * n) A (cat n E H) q = cat n J (fun r => - M r) q)
     <-> eh_eqs sh om d eps mu pec pmc E H J M).
  Proof.
    intros HA n. destruct (mv_eh_full K sh om d eps mu pec pmc E H) as (A' & HA' & EQ).
    rewrite HA in HA'. injection HA' as <-. cbv zeta in EQ. fold n in EQ. unfold eh_eqs. fold n. split.
    - intros S r Hr. destruct (EQ r Hr) as [E1 E2]. split.
      + rewrite <- E1. rewrite S by lia. now apply cat_l.
      + rewrite <- E2. rewrite S by lia. apply (cat_r K n J (fun r => - M r)).
    - intros S q Hq. destruct (Nat.lt_ge_cases q n) as [Hl|Hg].
      + rewrite cat_l by exact Hl. destruct (EQ q Hl) as [-> _]. now apply S.
      + replace q with (n + (q - n))%nat by lia.
        rewrite (cat_r K n J (fun r => - M r)). destruct (EQ (q - n)%nat ltac:(lia)) as [_ ->].
        apply S. lia.
  Qed.

  (** C25: E/H system <-> E-only system. *)
  Lemma eh_e_equiv sh om d eps mu pec pmc (E H J M : vect K) :
    om <> 0 -> (forall r, (r < 3 * prodl sh)%nat -> mu r <> 0) ->
    (eh_eqs sh om d eps mu pec pmc E H J M <->
     (forall r, (r < 3 * prodl sh)%nat ->
        (~ hidden pmc r ->
           H r = mv (3 * prodl sh) (e2h_mat sh om d (Some mu) None) (clear pec E) r
                 - M r / (im * om * mu r))
        /\ (hidden pmc r -> M r = 0)
        /\ mv (3 * prodl sh) (e_full_mat sh om d eps (Some mu) pec pmc) E r
           = - im * om * (J r + clear pec (mv (3 * prodl sh) (m2j_mat sh om d (Some mu)) M) r))).
  Proof.
    intros Hom Hmu. set (n := (3 * prodl sh)%nat) in *.
    set (ceE := mv n (curl_forward_mat sh (fst d)) (fun q => keep pec q * E q)).
    assert (CE : forall r, mv n (curl_forward_mat sh (fst d)) (clear pec E) r = ceE r).
    { intro r. apply mv_ext_v. intros. apply clear_keep. }
    assert (Hiw := iw_nz om Hom).
    assert (Hkey : (forall r, (r < n)%nat -> (~ hidden pmc r -> H r = - ceE r / (im * om * mu r) - M r / (im * om * mu r))
                              /\ (hidden pmc r -> M r = 0)) ->
       forall r, (r < n)%nat ->
         mv n (e_full_mat sh om d eps (Some mu) pec pmc) E r
          + im * om * clear pec (mv n (m2j_mat sh om d (Some mu)) M) r
         = - im * om * (- (keep pec r * (im * om * (eps r * (keep pec r * E r))))
        + keep pec r * mv n (curl_back_mat sh (snd d)) (fun q => keep pmc q * H q) r)).
    { intros HH r Hr. unfold n. rewrite mv_e_full by exact Hr. rewrite clear_keep, mv_m2j by exact Hr.
      fold n. cbn [minv]. change (mv n (curl_forward_mat sh (fst d)) (fun s => keep pec s * E s)) with ceE.
      rewrite (mv_ext_v K n (curl_back_mat sh (snd d)) (fun q => keep pmc q * H q)
         (fun q => - (1 / (im * om)) * (keep pmc q * (1 / mu q * ceE q) + 1 / mu q * M q)) r).
      2:{ intros q Hq. destruct (HH q Hq) as [H1 H2]. destruct (hidden_dec K pmc q) as [Hd|Hd].
          - rewrite keep_hidden by exact Hd. rewrite H2 by exact Hd. ring.
          - rewrite keep_shown by exact Hd. rewrite H1 by exact Hd. field; splits; first [apply im_nz | apply fopp_nz; apply im_nz | exact Hom | now apply Hmu]. }
      rewrite mv_const_mul, mv_lin_add.
      generalize (mv n (curl_back_mat sh (snd d)) (fun q => keep pmc q * (1 / mu q * ceE q)) r).
      generalize (mv n (curl_back_mat sh (snd d)) (fun q => 1 / mu q * M q) r). intros u v.
      transitivity (keep pec r * (v + u) + (im * om) * (im * om) * (keep pec r * (eps r * (keep pec r * E r)))).
      - rewrite iw_sq. field; splits; first [apply im_nz | apply fopp_nz; apply im_nz | exact Hom | now apply Hom].
      - field; splits; first [apply im_nz | apply fopp_nz; apply im_nz | exact Hom | now apply Hom]. }
    split.
    - intro S.
      assert (HH : forall r, (r < n)%nat -> (~ hidden pmc r -> H r = - ceE r / (im * om * mu r) - M r / (im * om * mu r))
                              /\ (hidden pmc r -> M r = 0)).
      { intros r Hr. destruct (S r Hr) as [_ E2]. fold n ceE in E2. split; intro Hd.
        - rewrite keep_shown in E2 by exact Hd.
          assert (HM : M r = - (ceE r) - im * om * mu r * H r).
          { transitivity (- (- M r)); [ring|]. rewrite <- E2. ring. }
          rewrite HM. field; splits; first [apply im_nz | apply fopp_nz; apply im_nz | exact Hom | now apply Hmu].
        - rewrite keep_hidden in E2 by exact Hd. transitivity (- (- M r)); [ring|]. rewrite <- E2. ring. }
      intros r Hr. specialize (Hkey HH r Hr). destruct (S r Hr) as [E1 _]. fold n in E1. rewrite E1 in Hkey.
      destruct (HH r Hr) as [H1 H2]. split; [|split].
      + intro Hd. rewrite (H1 Hd). unfold n. rewrite mv_e2h by exact Hr. fold n. rewrite CE. cbn [keep minv].
        field; splits; first [apply im_nz | apply fopp_nz; apply im_nz | exact Hom | now apply Hmu].
      + exact H2.
      + apply fsub_eq0.
        transitivity (mv n (e_full_mat sh om d eps (Some mu) pec pmc) E r
                      + im * om * clear pec (mv n (m2j_mat sh om d (Some mu)) M) r - - im * om * J r); [ring|].
        rewrite Hkey. ring.
    - intro S.
      assert (HH : forall r, (r < n)%nat -> (~ hidden pmc r -> H r = - ceE r / (im * om * mu r) - M r / (im * om * mu r))
                              /\ (hidden pmc r -> M r = 0)).
      { intros r Hr. destruct (S r Hr) as (H1 & H2 & _). split; [|exact H2]. intro Hd.
        rewrite (H1 Hd). unfold n. rewrite mv_e2h by exact Hr. fold n. rewrite CE. cbn [keep minv].
        field; splits; first [apply im_nz | apply fopp_nz; apply im_nz | exact Hom | now apply Hmu]. }
      intros r Hr. specialize (Hkey HH r Hr). destruct (S r Hr) as (_ & _ & H3). fold n. split.
      + rewrite H3 in Hkey. apply (fmul_cancel_l K (- im * om)).
        { intro E0. apply Hiw. transitivity (- (- im * om) : K); [ring|]. rewrite E0. ring. }
        rewrite <- Hkey. ring.
      + fold ceE. destruct (HH r Hr) as [H1 H2]. destruct (hidden_dec K pmc r) as [Hd|Hd].
        * rewrite keep_hidden by exact Hd. rewrite (H2 Hd). ring.
        * rewrite keep_shown by exact Hd. rewrite (H1 Hd). field; splits; first [apply im_nz | apply fopp_nz; apply im_nz | exact Hom | now apply Hmu].
  Qed.

  (** The dual: E/H system <-> H-only system. *)
  Lemma eh_h_equiv sh om d eps mu pec pmc (E H J M : vect K) :
    om <> 0 -> (forall r, (r < 3 * prodl sh)%nat -> eps r <> 0) ->
    (eh_eqs sh om d eps mu pec pmc E H J M <->
     (forall r, (r < 3 * prodl sh)%nat ->
        (~ hidden pec r ->
           E r = (mv (3 * prodl sh) (curl_back_mat sh (snd d)) (clear pmc H) r - J r) / (im * om * eps r))
        /\ (hidden pec r -> J r = 0)
        /\ mv (3 * prodl sh) (h_full_mat sh om d eps (Some mu) pec pmc) H r
           = - im * om * M r
             + clear pmc (mv (3 * prodl sh) (curl_forward_mat sh (fst d)) (fun q => J q / eps q)) r)).
  Proof.
    intros Hom Heps. set (n := (3 * prodl sh)%nat) in *.
    set (chH := mv n (curl_back_mat sh (snd d)) (fun q => keep pmc q * H q)).
    assert (CH : forall r, mv n (curl_back_mat sh (snd d)) (clear pmc H) r = chH r).
    { intro r. apply mv_ext_v. intros. apply clear_keep. }
    assert (Hiw := iw_nz om Hom).
    assert (Hkey : (forall r, (r < n)%nat -> (~ hidden pec r -> E r = (chH r - J r) / (im * om * eps r))
                              /\ (hidden pec r -> J r = 0)) ->
       forall r, (r < n)%nat ->
         mv n (h_full_mat sh om d eps (Some mu) pec pmc) H r
          - clear pmc (mv n (curl_forward_mat sh (fst d)) (fun q => J q / eps q)) r
         = im * om * (keep pmc r * mv n (curl_forward_mat sh (fst d)) (fun q => keep pec q * E q) r
        + keep pmc r * (im * om * (mu r * (keep pmc r * H r))))).
    { intros HH r Hr. unfold n. rewrite mv_h_full by exact Hr. rewrite clear_keep.
      fold n. cbn [mval]. change (mv n (curl_back_mat sh (snd d)) (fun s => keep pmc s * H s)) with chH.
      rewrite (mv_ext_v K n (curl_forward_mat sh (fst d)) (fun q => keep pec q * E q)
         (fun q => (1 / (im * om)) * (keep pec q * (1 / eps q * chH q) - J q / eps q)) r).
      2:{ intros q Hq. destruct (HH q Hq) as [H1 H2]. destruct (hidden_dec K pec q) as [Hd|Hd].
          - rewrite keep_hidden by exact Hd. rewrite H2 by exact Hd. rewrite !fdiv_def. ring.
          - rewrite keep_shown by exact Hd. rewrite H1 by exact Hd. field; splits; first [apply im_nz | apply fopp_nz; apply im_nz | exact Hom | now apply Heps]. }
      rewrite mv_const_mul, mv_lin_sub.
      generalize (mv n (curl_forward_mat sh (fst d)) (fun q => keep pec q * (1 / eps q * chH q)) r).
      generalize (mv n (curl_forward_mat sh (fst d)) (fun q => J q / eps q) r). intros u v.
      transitivity (keep pmc r * (v - u) + (im * om) * (im * om) * (keep pmc r * (mu r * (keep pmc r * H r)))).
      - rewrite iw_sq. ring.
      - field; splits; first [apply im_nz | apply fopp_nz; apply im_nz | exact Hom | now apply Hom]. }
    split.
    - intro S.
      assert (HH : forall r, (r < n)%nat -> (~ hidden pec r -> E r = (chH r - J r) / (im * om * eps r))
                              /\ (hidden pec r -> J r = 0)).
      { intros r Hr. destruct (S r Hr) as [E2 _]. fold n chH in E2. split; intro Hd.
        - rewrite keep_shown in E2 by exact Hd. rewrite <- E2.
          field; splits; first [apply im_nz | apply fopp_nz; apply im_nz | exact Hom | now apply Heps].
        - rewrite keep_hidden in E2 by exact Hd. rewrite <- E2. ring. }
      intros r Hr. specialize (Hkey HH r Hr). destruct (S r Hr) as [_ E1]. fold n in E1. rewrite E1 in Hkey.
      destruct (HH r Hr) as [H1 H2]. split; [|split].
      + intro Hd. rewrite CH. now apply H1.
      + exact H2.
      + apply fsub_eq0.
        transitivity (mv n (h_full_mat sh om d eps (Some mu) pec pmc) H r
                      - clear pmc (mv n (curl_forward_mat sh (fst d)) (fun q => J q / eps q)) r - - im * om * M r); [ring|].
        rewrite Hkey. ring.
    - intro S.
      assert (HH : forall r, (r < n)%nat -> (~ hidden pec r -> E r = (chH r - J r) / (im * om * eps r))
                              /\ (hidden pec r -> J r = 0)).
      { intros r Hr. destruct (S r Hr) as (H1 & H2 & _). split; [|exact H2]. intro Hd.
        rewrite <- CH. now apply H1. }
      intros r Hr. specialize (Hkey HH r Hr). destruct (S r Hr) as (_ & _ & H3). fold n. split.
      + fold chH. destruct (HH r Hr) as [H1 H2]. destruct (hidden_dec K pec r) as [Hd|Hd].
        * rewrite keep_hidden by exact Hd. rewrite (H2 Hd). ring.
        * rewrite keep_shown by exact Hd. rewrite (H1 Hd). field; splits; first [apply im_nz | apply fopp_nz; apply im_nz | exact Hom | now apply Heps].
      + rewrite H3 in Hkey. apply (fmul_cancel_l K (im * om)); [exact Hiw|].
        rewrite <- Hkey. ring.
  Qed.
End P2.
