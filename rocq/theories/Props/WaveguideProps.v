(** Properties of meanas/fdfd/waveguide_2d.py: eigenproblems and modes. *)
From Coq Require Import List Arith ZArith QArith Qcanon Lia Bool Field.
From Verif.Lib Require Import Num Sums Idx Mat.
From Verif.Model Require Import Fdmath Fdfd Waveguide2d.
From Verif.Spec Require Import Yee WaveguideSpec.
From Verif.Spec Require FdfdSpec.
From Verif.Proofs Require Import FdmathP FdfdP FdfdP2 WaveguideP WaveguideP2 WaveguideP3 WaveguideP4.
From Verif.Props Require Import FdfdProps.
From Verif.Proofs Require Import GridP.
Import ListNotations.
Local Open Scope fld_scope.

(** Every material value is non-zero; a missing [mu] is 1 everywhere. *)
Definition nonzero_materials {K : CFld} (sh : list nat) (eps : vect K) (mu : option (vect K)) : Prop :=
  (forall q, (q < 3 * prodl sh)%nat -> eps q <> 0) /\
  match mu with None => True | Some m => forall q, (q < 3 * prodl sh)%nat -> m q <> 0 end.
Definition mu_field {K : CFld} (sh : list nat) (mu : option (vect K)) : field K :=
  match mu with None => fun _ _ => 1 | Some m => unvec sh m end.

Lemma nm_ones {K : CFld} sh eps (mu : option (vect K)) : nonzero_materials sh eps mu ->
  forall q, (q < 3 * prodl sh)%nat -> or_ones mu q <> 0.
Proof. intros [_ H] q Hq. destruct mu; [now apply H|apply f1nz]. Qed.
Lemma mu_field_ones {K : CFld} sh (mu : option (vect K)) : mu_field sh mu = unvec sh (or_ones mu).
Proof. destruct mu; reflexivity. Qed.

(** ** C36 *)
Theorem C36_eigenvector_gives_mode :
  forall (K : CFld) (sh : list nat) (we wh : widths K) (om beta : K) (eps : vect K) (mu : option (vect K)) (e_xy : vect K),
    length sh = 2%nat -> om <> 0 -> beta <> 0 -> nonzero_materials sh eps mu ->
    let N := prodl sh in
    let e := mv (2 * N) (exy2e sh beta (we, wh) eps) e_xy in
    let h := mv (2 * N) (exy2h sh beta om (we, wh) eps mu) e_xy in
    veq (2 * N) (mv (2 * N) (operator_e sh om (we, wh) eps mu) e_xy) (fun q => beta * beta * e_xy q) ->
    is_mode sh we wh om beta (unvec sh eps) (mu_field sh mu) (unvec sh e) (unvec sh h) /\
    gauss_e sh wh beta (unvec sh eps) (unvec sh e) /\
    gauss_h sh we beta (mu_field sh mu) (unvec sh h) /\
    veq (2 * N) e e_xy.
Proof.
  intros K sh we wh om beta eps mu x HL Hom Hb Hm N e h H.
  pose proof (nm_ones sh eps mu Hm) as Nm. destruct Hm as [Ne _]. rewrite mu_field_ones.
  pose proof (fromE K sh HL we wh om beta eps mu Hom Hb Ne Nm x H) as M.
  split; [exact M|]. destruct (mode_gauss K sh HL we wh om beta eps mu Hom Hb Ne Nm _ _ _ _ M) as [G1 G2].
  split; [exact G1|]. split; [exact G2|].
  apply veq_unvec. intros c i Hc Hi. apply exy2e_xy; assumption.
Qed.
Print Assumptions C36_eigenvector_gives_mode.

Theorem C36_consistent_e2h_h2e_and_errors :
  forall (K : CFld) (sh : list nat) (we wh : widths K) (om beta : K) (eps : vect K) (mu : option (vect K)) (e_xy : vect K),
    length sh = 2%nat -> om <> 0 -> beta <> 0 -> nonzero_materials sh eps mu ->
    let N := prodl sh in
    let e := mv (2 * N) (exy2e sh beta (we, wh) eps) e_xy in
    let h := mv (2 * N) (exy2h sh beta om (we, wh) eps mu) e_xy in
    veq (2 * N) (mv (2 * N) (operator_e sh om (we, wh) eps mu) e_xy) (fun q => beta * beta * e_xy q) ->
    veq (3 * N) (mv (3 * N) (wg_e2h sh beta om (we, wh) mu) e) h /\
    veq (3 * N) (mv (3 * N) (wg_h2e sh beta om (we, wh) eps) h) e /\
    veq (3 * N) (e_err_op sh e beta om (we, wh) eps mu) (fun _ => 0) /\
    veq (3 * N) (h_err_op sh h beta om (we, wh) eps mu) (fun _ => 0).
Proof.
  intros K sh we wh om beta eps mu x HL Hom Hb Hm N e h H.
  pose proof (nm_ones sh eps mu Hm) as Nm. destruct Hm as [Ne _].
  pose proof (fromE K sh HL we wh om beta eps mu Hom Hb Ne Nm x H) as M.
  split; [|split; [|split]].
  - apply (proj1 (e2h_far K sh HL we wh om beta eps mu Hom Hb Ne Nm e h)). exact (proj1 M).
  - apply (proj1 (h2e_amp K sh HL we wh om beta eps mu Hom Hb Ne Nm e h)). exact (proj2 M).
  - apply (mode_e_err K sh HL we wh om beta eps mu Hom Hb Ne Nm e h M).
  - apply (mode_h_err K sh HL we wh om beta eps mu Hom Hb Ne Nm e h M).
Qed.
Print Assumptions C36_consistent_e2h_h2e_and_errors.

(** A 2 x 1 grid with unequal cells: dx_e = (1, 3), dx_h = (2, 2).  The
    eigenvector (ex, ey) = ((1, -1/3), (1, -1)) has wavenumber 2/3 at omega = 4/3. *)
Definition wx_sh : list nat := [2; 1]%nat.
Definition wx_we : widths GQC := fun a i => match a, i with 0%nat, 1%nat => gz 3 0 | _, _ => gz 1 0 end.
Definition wx_wh : widths GQC := fun a i => match a with 0%nat => gz 2 0 | _ => gz 1 0 end.
Definition wx_om : GQC := gq 4 3 0 1.
Definition wx_eps : vect GQC := fun _ => gz 1 0.
Definition wx_beta : GQC := gq 2 3 0 1.
Definition wx_e : vect GQC := fun q => match q with 0%nat => gz 1 0 | 1%nat => gq (-1) 3 0 1 | 2%nat => gz 1 0 | _ => gz (-1) 0 end.

Lemma wx_materials : nonzero_materials wx_sh wx_eps None.
Proof. split; [|exact I]. intros q _. apply gz_nz. lia. Qed.
Lemma wx_nz : wx_om <> 0 /\ wx_beta <> 0.
Proof. split; vm_compute; discriminate. Qed.
Lemma wx_cells i : inb wx_sh i -> i = [0; 0]%nat \/ i = [1; 0]%nat.
Proof.
  intro H. inversion H as [|x n l' l0 A B]; subst. inversion B as [|y n2 l2 l3 C D]; subst. inversion D; subst.
  assert (y = 0)%nat by lia. subst. assert (x = 0 \/ x = 1)%nat as [->| ->] by lia; [now left|now right].
Qed.
Lemma wx_eig : veq (2 * prodl wx_sh) (mv (2 * prodl wx_sh) (operator_e wx_sh wx_om (wx_we, wx_wh) wx_eps None) wx_e)
  (fun q => wx_beta * wx_beta * wx_e q).
Proof.
  apply veq_unvec. intros c i Hc Hi.
  destruct (operator_e_xy GQC wx_sh eq_refl wx_we wx_wh wx_om wx_eps None wx_e i Hi) as [E0 E1].
  destruct c as [|[|c]]; [rewrite E0|rewrite E1|lia]; destruct (wx_cells i Hi) as [-> | ->]; gq_refl.
Qed.

Example C36_example :
  length wx_sh = 2%nat /\ wx_om <> 0 /\ wx_beta <> 0 /\ nonzero_materials wx_sh wx_eps None /\
  veq (2 * prodl wx_sh) (mv (2 * prodl wx_sh) (operator_e wx_sh wx_om (wx_we, wx_wh) wx_eps None) wx_e)
    (fun q => wx_beta * wx_beta * wx_e q) /\
  unvec wx_sh (mv (2 * prodl wx_sh) (exy2e wx_sh wx_beta (wx_we, wx_wh) wx_eps) wx_e) 2%nat [0; 0]%nat = gz 0 (-1).
Proof.
  destruct wx_nz as [A B]. split; [reflexivity|]. split; [exact A|]. split; [exact B|]. split; [exact wx_materials|].
  split; [exact wx_eig|].
  pose proof (exy2e_z GQC wx_sh eq_refl wx_we wx_wh wx_beta wx_eps wx_e [0; 0]%nat ltac:(repeat constructor)) as E.
  rewrite E. gq_refl.
Qed.

(** ** C37 *)
Theorem C37_eigenvector_gives_mode :
  forall (K : CFld) (sh : list nat) (we wh : widths K) (om beta : K) (eps : vect K) (mu : option (vect K)) (h_xy : vect K),
    length sh = 2%nat -> om <> 0 -> beta <> 0 -> nonzero_materials sh eps mu ->
    let N := prodl sh in
    let h := mv (2 * N) (hxy2h sh beta (we, wh) mu) h_xy in
    let e := mv (2 * N) (hxy2e sh beta om (we, wh) eps mu) h_xy in
    veq (2 * N) (mv (2 * N) (operator_h sh om (we, wh) eps mu) h_xy) (fun q => beta * beta * h_xy q) ->
    is_mode sh we wh om beta (unvec sh eps) (mu_field sh mu) (unvec sh e) (unvec sh h) /\
    gauss_e sh wh beta (unvec sh eps) (unvec sh e) /\
    gauss_h sh we beta (mu_field sh mu) (unvec sh h) /\
    veq (3 * N) (e_err_op sh e beta om (we, wh) eps mu) (fun _ => 0) /\
    veq (3 * N) (h_err_op sh h beta om (we, wh) eps mu) (fun _ => 0) /\
    veq (2 * N) h h_xy.
Proof.
  intros K sh we wh om beta eps mu x HL Hom Hb Hm N h e H.
  pose proof (nm_ones sh eps mu Hm) as Nm. destruct Hm as [Ne _]. rewrite mu_field_ones.
  pose proof (fromH K sh HL we wh om beta eps mu Hom Hb Ne Nm x H) as M.
  split; [exact M|]. destruct (mode_gauss K sh HL we wh om beta eps mu Hom Hb Ne Nm _ _ _ _ M) as [G1 G2].
  split; [exact G1|]. split; [exact G2|].
  split; [apply (mode_e_err K sh HL we wh om beta eps mu Hom Hb Ne Nm e h M)|].
  split; [apply (mode_h_err K sh HL we wh om beta eps mu Hom Hb Ne Nm e h M)|].
  apply veq_unvec. intros c i Hc Hi. apply hxy2h_xy; assumption.
Qed.
Print Assumptions C37_eigenvector_gives_mode.

(** Any solution of the six curl equations comes from both eigenproblems, and
    the conversion operators recover all its components. *)
Theorem C37_mode_solves_both_eigenproblems :
  forall (K : CFld) (sh : list nat) (we wh : widths K) (om beta : K) (eps : vect K) (mu : option (vect K)) (e h : vect K),
    length sh = 2%nat -> om <> 0 -> beta <> 0 -> nonzero_materials sh eps mu ->
    let N := prodl sh in
    is_mode sh we wh om beta (unvec sh eps) (mu_field sh mu) (unvec sh e) (unvec sh h) ->
    (veq (2 * N) (mv (2 * N) (operator_e sh om (we, wh) eps mu) e) (fun q => beta * beta * e q) /\
     veq (3 * N) (mv (2 * N) (exy2e sh beta (we, wh) eps) e) e /\
     veq (3 * N) (mv (2 * N) (exy2h sh beta om (we, wh) eps mu) e) h) /\
    (veq (2 * N) (mv (2 * N) (operator_h sh om (we, wh) eps mu) h) (fun q => beta * beta * h q) /\
     veq (3 * N) (mv (2 * N) (hxy2h sh beta (we, wh) mu) h) h /\
     veq (3 * N) (mv (2 * N) (hxy2e sh beta om (we, wh) eps mu) h) e).
Proof.
  intros K sh we wh om beta eps mu e h HL Hom Hb Hm N M.
  pose proof (nm_ones sh eps mu Hm) as Nm. destruct Hm as [Ne _]. rewrite mu_field_ones in M. split.
  - exact (mode_opE K sh HL we wh om beta eps mu Hom Hb Ne Nm e h M).
  - exact (mode_opH K sh HL we wh om beta eps mu Hom Hb Ne Nm e h M).
Qed.
Print Assumptions C37_mode_solves_both_eigenproblems.

(** The two eigenproblems have the same wavenumbers. *)
Theorem C37_same_wavenumbers :
  forall (K : CFld) (sh : list nat) (we wh : widths K) (om beta : K) (eps : vect K) (mu : option (vect K)),
    length sh = 2%nat -> om <> 0 -> beta <> 0 -> nonzero_materials sh eps mu ->
    let N := prodl sh in
    (exists e_xy, (exists q, (q < 2 * N)%nat /\ e_xy q <> 0) /\
       veq (2 * N) (mv (2 * N) (operator_e sh om (we, wh) eps mu) e_xy) (fun q => beta * beta * e_xy q)) <->
    (exists h_xy, (exists q, (q < 2 * N)%nat /\ h_xy q <> 0) /\
       veq (2 * N) (mv (2 * N) (operator_h sh om (we, wh) eps mu) h_xy) (fun q => beta * beta * h_xy q)).
Proof.
  intros K sh we wh om beta eps mu HL Hom Hb Hm N.
  assert (Z : forall n r (A : mat K) y p, (p < r)%nat -> (forall q, (q < n)%nat -> y q = 0) -> mv n A y p = 0).
  { intros n r A y p _ H. now apply mv_zero_v. }
  assert (D : forall y : vect K, (exists q, (q < 2 * N)%nat /\ y q <> 0) \/ (forall q, (q < 2 * N)%nat -> y q = 0)).
  { intro y. generalize (2 * N)%nat as n. induction n as [|n [IH|IH]].
    - right. intros; lia.
    - left. destruct IH as (q & Hq & H). exists q. split; [lia|exact H].
    - destruct (feq_dec (y n) 0) as [E|E].
      + right. intros q Hq. destruct (Nat.eq_dec q n) as [->|]; [exact E|]. apply IH. lia.
      + left. exists n. split; [lia|exact E]. }
  split; intros (x & (q & Hq & Hx) & H).
  - destruct (C36_eigenvector_gives_mode K sh we wh om beta eps mu x HL Hom Hb Hm H) as (M & _ & _ & Ex).
    destruct (C37_mode_solves_both_eigenproblems K sh we wh om beta eps mu _ _ HL Hom Hb Hm M) as (_ & H1 & _ & H3).
    fold N in H1, H3, Ex. eexists. split; [|exact H1].
    destruct (D (mv (2 * N) (exy2h sh beta om (we, wh) eps mu) x)) as [?|A]; [assumption|].
    exfalso. apply Hx. rewrite <- Ex, <- H3 by lia. now apply (Z _ (3 * N)%nat); [lia|].
  - destruct (C37_eigenvector_gives_mode K sh we wh om beta eps mu x HL Hom Hb Hm H) as (M & _ & _ & _ & _ & Ex).
    destruct (C37_mode_solves_both_eigenproblems K sh we wh om beta eps mu _ _ HL Hom Hb Hm M) as ((H1 & _ & H3) & _).
    fold N in H1, H3, Ex. eexists. split; [|exact H1].
    destruct (D (mv (2 * N) (hxy2e sh beta om (we, wh) eps mu) x)) as [?|A]; [assumption|].
    exfalso. apply Hx. rewrite <- Ex, <- H3 by lia. now apply (Z _ (3 * N)%nat); [lia|].
Qed.
Print Assumptions C37_same_wavenumbers.

(** The same mode, from the H side: h_xy = exy2h @ e_xy. *)
Definition wx_h : vect GQC := fun q => match q with
  | 0%nat => gq (-1) 2 0 1 | 1%nat => gq 1 2 0 1 | 2%nat => gz 2 0 | _ => gq (-2) 3 0 1 end.
Example C37_example :
  veq (2 * prodl wx_sh) (mv (2 * prodl wx_sh) (operator_h wx_sh wx_om (wx_we, wx_wh) wx_eps None) wx_h)
    (fun q => wx_beta * wx_beta * wx_h q) /\
  unvec wx_sh (mv (2 * prodl wx_sh) (hxy2h wx_sh wx_beta (wx_we, wx_wh) None) wx_h) 2%nat [0; 0]%nat = gz 0 (-3) * gq 1 2 0 1.
Proof.
  split.
  - apply veq_unvec. intros c i Hc Hi.
    destruct (operator_h_xy GQC wx_sh eq_refl wx_we wx_wh wx_om wx_eps None wx_h i Hi) as [E0 E1].
    destruct c as [|[|c]]; [rewrite E0|rewrite E1|lia]; destruct (wx_cells i Hi) as [-> | ->]; gq_refl.
  - pose proof (hxy2h_z GQC wx_sh eq_refl wx_we wx_wh wx_beta None wx_h [0; 0]%nat (proj2 wx_nz) ltac:(repeat constructor)) as E.
    rewrite E. gq_refl.
Qed.

(** ** C38 *)
(** operator_h is the transpose of operator_e with respect to the flux
    E x H through the cross-section. *)
Theorem C38_operators_adjoint :
  forall (K : CFld) (sh : list nat) (we wh : widths K) (om : K) (eps : vect K) (mu : option (vect K)) (e h : vect K),
    length sh = 2%nat -> nzw sh we -> nzw sh wh ->
    let N := prodl sh in
    flux sh we wh (unvec sh (mv (2 * N) (operator_e sh om (we, wh) eps mu) e)) (unvec sh h)
    = flux sh we wh (unvec sh e) (unvec sh (mv (2 * N) (operator_h sh om (we, wh) eps mu) h)).
Proof. intros K sh we wh om eps mu e h HL A B N. now apply op_adjoint. Qed.
Print Assumptions C38_operators_adjoint.

(** Hence area-weighted (h_y, -h_x) of a mode is a left eigenvector of operator_e ... *)
Theorem C38_left_eigenvector :
  forall (K : CFld) (sh : list nat) (we wh : widths K) (om beta : K) (eps : vect K) (mu : option (vect K)) (e h : vect K),
    length sh = 2%nat -> nzw sh we -> nzw sh wh -> om <> 0 -> beta <> 0 -> nonzero_materials sh eps mu ->
    is_mode sh we wh om beta (unvec sh eps) (mu_field sh mu) (unvec sh e) (unvec sh h) ->
    let N := prodl sh in
    let left := FdfdSpec.cat N
      (flat sh (fun i => we 0%nat (coord i 0) * wh 1%nat (coord i 1) * unvec sh h 1%nat i))
      (flat sh (fun i => - (wh 0%nat (coord i 0) * we 1%nat (coord i 1) * unvec sh h 0%nat i))) in
    veq (2 * N) (mv (2 * N) (mtr (operator_e sh om (we, wh) eps mu)) left) (fun q => beta * beta * left q).
Proof.
  intros K sh we wh om beta eps mu e h HL Hwe Hwh Hom Hb Hm M N left.
  destruct (C37_mode_solves_both_eigenproblems K sh we wh om beta eps mu e h HL Hom Hb Hm M) as (_ & H & _).
  assert (P : forall x : vect K, dot (2 * N) left x = flux sh we wh (unvec sh x) (unvec sh h)).
  { intro x. unfold dot, N. replace (2 * prodl sh)%nat with (prodl sh + prodl sh)%nat by lia. rewrite sumN_app.
    unfold flux. rewrite gsum_sub, !gsum_flat. apply sumN_sub_add; intros p Hp; unfold left; match goal with |- context [FdfdSpec.cat ?n ?a ?b] => change (FdfdSpec.cat n a b) with (vcat n a b) end.
    - rewrite vcat_l by exact Hp. unfold flat, unvec. rewrite ravel_unravel by exact Hp. apply aux_w.
    - fold N. rewrite vcat_r. unfold flat, unvec. rewrite ravel_unravel by exact Hp. rewrite Nat.mul_1_l. apply aux_w2. }
  apply (left_of_dot K (2 * N)). intro x. rewrite !P.
  unfold N. rewrite op_adjoint by assumption.
  rewrite (flux_ext K sh HL we wh (unvec sh x) (unvec sh x) _ (fun c i => beta * beta * unvec sh h c i)).
  - apply flux_scale_r; assumption.
  - reflexivity.
  - intros c i Hc Hi. apply (proj2 (veq_unvec K sh 2 _ _) H c i Hc Hi).
Qed.
Print Assumptions C38_left_eigenvector.

(** ... and modes with different wavenumber^2 carry no mutual flux. *)
Theorem C38_modes_orthogonal :
  forall (K : CFld) (sh : list nat) (we wh : widths K) (om b1 b2 : K) (eps : vect K) (mu : option (vect K)) (e1 h1 e2 h2 : vect K),
    length sh = 2%nat -> nzw sh we -> nzw sh wh -> om <> 0 -> b1 <> 0 -> b2 <> 0 -> nonzero_materials sh eps mu ->
    is_mode sh we wh om b1 (unvec sh eps) (mu_field sh mu) (unvec sh e1) (unvec sh h1) ->
    is_mode sh we wh om b2 (unvec sh eps) (mu_field sh mu) (unvec sh e2) (unvec sh h2) ->
    b1 * b1 <> b2 * b2 ->
    flux sh we wh (unvec sh e1) (unvec sh h2) = 0.
Proof.
  intros K sh we wh om b1 b2 eps mu e1 h1 e2 h2 HL Hwe Hwh Hom Hb1 Hb2 Hm M1 M2 Hb.
  destruct (C37_mode_solves_both_eigenproblems K sh we wh om b1 eps mu e1 h1 HL Hom Hb1 Hm M1) as ((H1 & _) & _).
  destruct (C37_mode_solves_both_eigenproblems K sh we wh om b2 eps mu e2 h2 HL Hom Hb2 Hm M2) as (_ & H2 & _).
  exact (ortho_flux K sh HL we wh Hwe Hwh om (b1 * b1) (b2 * b2) eps mu e1 h2 H1 H2 Hb).
Qed.
Print Assumptions C38_modes_orthogonal.

(** inner_product is that flux (halved, with the phase factor) when the two
    width arrays agree and are real, so it vanishes there. *)
Theorem C38_inner_product_is_half_flux :
  forall (K : CFld) (sh : list nat) (w : widths K) (phase : K) (e h : vect K),
    (forall a i, conj (w a i) = w a i) ->
    inner_product sh e h (w, w) phase false = phase / 2 * flux sh w w (unvec sh e) (unvec sh h).
Proof.
  intros K sh w phase e h Hr. unfold inner_product, flux. cbv zeta. cbn [fst snd]. rewrite <- gsum_sub, <- !gsum_mul_l. apply gsum_ext.
  intros i Hi. unfold real_part. rewrite !Hr. apply aux_ip, f2nz.
Qed.
Print Assumptions C38_inner_product_is_half_flux.

Theorem C38_inner_product_orthogonal :
  forall (K : CFld) (sh : list nat) (w : widths K) (om b1 b2 phase : K) (eps : vect K) (mu : option (vect K)) (e1 h1 e2 h2 : vect K),
    length sh = 2%nat -> nzw sh w -> (forall a i, conj (w a i) = w a i) ->
    om <> 0 -> b1 <> 0 -> b2 <> 0 -> nonzero_materials sh eps mu ->
    is_mode sh w w om b1 (unvec sh eps) (mu_field sh mu) (unvec sh e1) (unvec sh h1) ->
    is_mode sh w w om b2 (unvec sh eps) (mu_field sh mu) (unvec sh e2) (unvec sh h2) ->
    b1 * b1 <> b2 * b2 ->
    inner_product sh e1 h2 (w, w) phase false = 0.
Proof.
  intros K sh w om b1 b2 phase eps mu e1 h1 e2 h2 HL Hw Hr Hom H1 H2 Hm M1 M2 Hb.
  rewrite C38_inner_product_is_half_flux by exact Hr.
  rewrite (C38_modes_orthogonal K sh w w om b1 b2 eps mu e1 h1 e2 h2) by assumption. apply aux_z.
Qed.
Print Assumptions C38_inner_product_orthogonal.

(** C67: on the grid above the two modes ey = (1, 1) and ey = (1, -1) have a
    non-zero inner_product: the function weights E_y H_x by dx_e where the flux
    needs dx_h. *)
Definition wy_e1 : vect GQC := fun q => match q with 2%nat | 3%nat => gz 1 0 | _ => 0 end.
Definition wy_h1 : vect GQC := fun q => match q with 0%nat | 1%nat => gz (-1) 0 | _ => 0 end.
Definition wy_e2 : vect GQC := fun q => match q with 2%nat => gz 1 0 | 3%nat => gz (-1) 0 | _ => 0 end.
Definition wy_h2 : vect GQC := fun q => match q with 0%nat => gq (-1) 2 0 1 | 1%nat => gq 1 2 0 1
  | 4%nat => gq 0 1 (-3) 2 | 5%nat => gq 0 1 1 2 | _ => 0 end.
Ltac gq_refl_all := first [gq_refl | repeat split; gq_refl].
Lemma wy_mode1 : is_mode wx_sh wx_we wx_wh wx_om wx_om (unvec wx_sh wx_eps) (mu_field wx_sh None) (unvec wx_sh wy_e1) (unvec wx_sh wy_h1).
Proof. split; intros i Hi; destruct (wx_cells i Hi) as [-> | ->]; (split; [|split]); gq_refl. Qed.
Lemma wy_mode2 : is_mode wx_sh wx_we wx_wh wx_om wx_beta (unvec wx_sh wx_eps) (mu_field wx_sh None) (unvec wx_sh wy_e2) (unvec wx_sh wy_h2).
Proof. split; intros i Hi; destruct (wx_cells i Hi) as [-> | ->]; (split; [|split]); gq_refl. Qed.

Lemma wx_nzw : nzw (K := GQC) wx_sh wx_we /\ nzw (K := GQC) wx_sh wx_wh.
Proof. split; intros a i _ _; [destruct a as [|a]; [destruct i as [|[|i]]|]|destruct a]; apply gz_nz; lia. Qed.

Theorem C67_inner_product_orthogonality_refuted :
  exists (sh : list nat) (we wh : widths GQC) (om b1 b2 : GQC) (eps e1 h1 e2 h2 : vect GQC),
    length sh = 2%nat /\ nzw sh we /\ nzw sh wh /\
    (forall a i, conj (we a i) = we a i /\ conj (wh a i) = wh a i) /\
    (* widths of the H grid are midpoint distances of the E grid *)
    (forall i, (i < dim sh 0)%nat -> wh 0%nat i + wh 0%nat i = we 0%nat i + we 0%nat (cyc (dim sh 0) (-1) i)) /\
    om <> 0 /\ b1 <> 0 /\ b2 <> 0 /\ nonzero_materials sh eps None /\
    is_mode sh we wh om b1 (unvec sh eps) (mu_field sh None) (unvec sh e1) (unvec sh h1) /\
    is_mode sh we wh om b2 (unvec sh eps) (mu_field sh None) (unvec sh e2) (unvec sh h2) /\
    b1 * b1 <> b2 * b2 /\
    inner_product sh e1 h2 (we, wh) 1 false <> 0 /\
    flux sh we wh (unvec sh e1) (unvec sh h2) = 0.
Proof.
  exists wx_sh, wx_we, wx_wh, wx_om, wx_om, wx_beta, wx_eps, wy_e1, wy_h1, wy_e2, wy_h2.
  destruct wx_nz as [A B]. destruct wx_nzw as [W1 W2].
  split; [reflexivity|]. split; [exact W1|]. split; [exact W2|].
  split; [intros a i; split; [destruct a as [|a]; [destruct i as [|[|i]]|]|destruct a]; gq_refl|].
  split. { intros i Hi. cbn in Hi. assert (i = 0 \/ i = 1)%nat as [-> | ->] by lia; gq_refl. }
  split; [exact A|]. split; [exact A|]. split; [exact B|]. split; [exact wx_materials|].
  split; [exact wy_mode1|]. split; [exact wy_mode2|].
  assert (D : wx_om * wx_om <> wx_beta * wx_beta) by (vm_compute; discriminate).
  split; [exact D|]. split; [vm_compute; discriminate|].
  exact (C38_modes_orthogonal GQC wx_sh wx_we wx_wh wx_om wx_om wx_beta wx_eps None wy_e1 wy_h1 wy_e2 wy_h2 eq_refl W1 W2 A A B wx_materials wy_mode1 wy_mode2 D).
Qed.
Print Assumptions C67_inner_product_orthogonality_refuted.

(** A unit-width version for which inner_product does vanish: modes ey = (1, 1)
    (beta = 5/2) and ey = (1, -1) (beta = 3/2) at omega = 5/2. *)
Definition wu_w : widths GQC := fun _ _ => gz 1 0.
Definition wu_om : GQC := gq 5 2 0 1.
Definition wu_b : GQC := gq 3 2 0 1.
Definition wu_h2 : vect GQC := fun q => match q with 0%nat => gq (-3) 5 0 1 | 1%nat => gq 3 5 0 1
  | 4%nat => gq 0 1 (-4) 5 | 5%nat => gq 0 1 4 5 | _ => 0 end.
Example C38_example :
  is_mode wx_sh wu_w wu_w wu_om wu_om (unvec wx_sh wx_eps) (mu_field wx_sh None) (unvec wx_sh wy_e1) (unvec wx_sh wy_h1) /\
  is_mode wx_sh wu_w wu_w wu_om wu_b (unvec wx_sh wx_eps) (mu_field wx_sh None) (unvec wx_sh wy_e2) (unvec wx_sh wu_h2) /\
  inner_product wx_sh wy_e2 wu_h2 (wu_w, wu_w) 1 false <> 0.
Proof.
  split; [|split; [|vm_compute; discriminate]]; split; intros i Hi; destruct (wx_cells i Hi) as [-> | ->]; (split; [|split]); gq_refl.
Qed.
