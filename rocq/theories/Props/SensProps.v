(** Properties of waveguide_2d.sensitivity. *)
From Coq Require Import Reals List Arith ZArith Lia Lra Bool Psatz.
From Verif.Lib Require Import Num Sums Idx Mat RealF.
From Verif.Model Require Import Fdmath Fdfd Waveguide2d WaveguideReal.
From Verif.Spec Require Import Yee WaveguideSpec SensSpec.
From Verif.Proofs Require Import FdmathP FdfdP WaveguideP WaveguideP2 WaveguideP3 WaveguideP4 WaveguideRealP WaveguideRealP2 SensP SensRealP Sens21.
From Verif.Props Require Import WaveguideProps WaveguideRealProps.
From Verif.Proofs Require Import GridP.
Import ListNotations.
Local Open Scope R_scope.

(** ** C40 *)
(** A uniform grid with real cell sizes [w 0] by [w 1]. *)
Definition uniform_grid (sh : list nat) (w : nat -> R) (we wh : widths CC) : Prop :=
  forall a k, (a < 2)%nat -> (k < dim sh a)%nat -> w a <> 0 /\ we a k = mkC (w a) 0 /\ wh a k = mkC (w a) 0.
(** A real (lossless) frequency and real materials. *)
Definition lossless (sh : list nat) (om : cpx) (eps : vect CC) (mu : option (vect CC)) : Prop :=
  cim om = 0 /\ (forall q, (q < 3 * prodl sh)%nat -> cim (eps q) = 0) /\
  match mu with None => True | Some m => forall q, (q < 3 * prodl sh)%nat -> cim (m q) = 0 end.
(** A family of eigenvectors [x s] and wavenumbers [beta s] of operator_e for
    the structure [eps s], for all [s] near [t], differentiable at [t]. *)
Definition mode_family (sh : list nat) (we wh : widths CC) (om : cpx) (mu : option (vect CC)) (eps x : R -> vect CC)
    (beta : R -> cpx) (t : R) (deps dx : vect CC) (dbeta : cpx) : Prop :=
  (exists delta, 0 < delta /\ forall s, Rabs (s - t) < delta ->
     veq (K := CC) (2 * prodl sh) (mv (2 * prodl sh) (operator_e (K := CC) sh om (we, wh) (eps s) mu) (x s))
       (fun q => cmul (cmul (beta s) (beta s)) (x s q))) /\
  (forall q, (q < 3 * prodl sh)%nat -> cderiv (fun s => eps s q) t (deps q)) /\
  (forall q, (q < 2 * prodl sh)%nat -> cderiv (fun s => x s q) t (dx q)) /\
  cderiv beta t dbeta.

Theorem C40_sensitivity_is_derivative :
  forall sh w we wh om mu eps x beta t deps dx dbeta e h f,
    length sh = 2%nat -> uniform_grid sh w we wh ->
    om <> c0 -> beta t <> c0 -> nonzero_materials (K := CC) sh (eps t) mu ->
    lossless sh om (eps t) mu -> cim (beta t) = 0 ->
    mode_family sh we wh om mu eps x beta t deps dx dbeta ->
    (* (e, h) is the mode at [t], in any normalization, carrying power *)
    is_mode (K := CC) sh we wh om (beta t) (unvec (K := CC) sh (eps t)) (mu_field (K := CC) sh mu)
      (unvec (K := CC) sh e) (unvec (K := CC) sh h) ->
    (forall q, (q < 2 * prodl sh)%nat -> e q = cmul (x t q) f) ->
    cre (inner_product (K := CC) sh e h (we, wh) c1 true) <> 0 ->
    dbeta = dot (K := CC) (3 * prodl sh) (sensitivity (K := CC) sh e h (beta t) om (we, wh) (eps t) mu) deps.
Proof.
  intros sh w we wh om mu eps x beta t deps dx dbeta e h f HL Hu Hom Hb Hm (Lo & Le & Lm) Lb ((dl & Hdl & He) & De & Dx & Db) M Ex P.
  assert (Lmu : forall q, (q < 3 * prodl sh)%nat -> cim (or_ones (K := CC) mu q) = 0).
  { intros q Hq. destruct mu as [m|]; [now apply Lm|reflexivity]. }
  assert (CR : forall z, cim z = 0 -> cconj z = z).
  { intros z Hz. apply cpx_ext; cbn; [reflexivity|]. rewrite Hz. ring. }
  assert (IX : forall c i, (c < 3)%nat -> inb sh i -> (c * prodl sh + ravel sh i < 3 * prodl sh)%nat).
  { intros c i Hc Hi. pose proof (ravel_lt sh i Hi). nia. }
  assert (IX2 : forall c i, (c < 2)%nat -> inb sh i -> (c * prodl sh + ravel sh i < 2 * prodl sh)%nat).
  { intros c i Hc Hi. pose proof (ravel_lt sh i Hi). nia. }
  set (wc := fun a => mkC (w a) 0 : CC).
  destruct (Nat.eq_dec (prodl sh) 0) as [Z0|Z0].
  { exfalso. apply P. unfold inner_product. cbv zeta. rewrite !gsum_flat, Z0. cbn. ring. }
  assert (W0 : forall a, (a < 2)%nat -> w a <> 0).
  { intros a Ha. apply (Hu a 0%nat Ha). pose proof (inb_unravel sh 0 ltac:(lia)) as I.
    pose proof (inb_dim_pos sh _ a I ltac:(lia)). lia. }
  assert (Hw : forall a k, (a < 2)%nat -> (k < dim sh a)%nat -> we a k = wc a /\ wh a k = wc a) by (intros a k Ha Hk; apply (Hu a k Ha Hk)).
  assert (Hnz : forall a, (a < 2)%nat -> wc a <> c0).
  { intros a Ha E. apply (f_equal cre) in E. cbn in E. now apply (W0 a Ha). }
  assert (Hre : forall a, (a < 2)%nat -> conj (wc a) = wc a) by (intros; now apply CR).
  destruct (C37_mode_solves_both_eigenproblems CC sh we wh om (beta t) (eps t) mu e h HL Hom Hb Hm M) as (_ & Hh & _ & _).
  pose (xd := fun q => cmul (dx q) f : CC).
  refine (sens_pert CC sh HL wc we wh Hw Hnz Hre om (beta t) (eps t) mu (CR _ Lo) (CR _ Lb) _ _ _ _ e h xd deps dbeta Hh _ Hb _).
  - intros c i Hc Hi. apply CR, Le, IX; assumption.
  - intros c i Hc Hi. apply CR, Lmu, IX; assumption.
  - intros c i Hc Hi. apply (proj1 Hm), IX; assumption.
  - intros c i Hc Hi. apply (nm_ones sh (eps t) mu Hm), IX; assumption.
  - pose (xs := fun s q => cmul (x s q) f : CC).
    assert (Dxs : forall c i, (c < 2)%nat -> inb sh i -> cderiv (fun s => unvec (K := CC) sh (xs s) c i) t (unvec (K := CC) sh xd c i)).
    { intros c i Hc Hi. unfold unvec, xs, xd. specialize (Dx _ (IX2 c i Hc Hi)).
      apply (k_ext (fun s => cmul f (x s (c * prodl sh + ravel sh i)%nat) : CC)); [intro; apply cpx_ext; cbn; ring|].
      replace (cmul (dx (c * prodl sh + ravel sh i)%nat) f) with (cmul f (dx (c * prodl sh + ravel sh i)%nat)) by (apply cpx_ext; cbn; ring).
      exact (cd_mul_l f _ t _ Dx). }
    assert (Dep : forall c i, (c < 3)%nat -> inb sh i -> cderiv (fun s => unvec (K := CC) sh (eps s) c i) t (unvec (K := CC) sh deps c i)).
    { intros c i Hc Hi. apply De, IX; assumption. }
    assert (Hz : forall i, inb sh i -> unvec (K := CC) sh (eps t) 2%nat i <> c0).
    { intros i Hi. apply (proj1 Hm), IX; [lia|exact Hi]. }
    assert (Xt : forall c i, (c < 2)%nat -> inb sh i -> unvec (K := CC) sh (xs t) c i = unvec (K := CC) sh e c i).
    { intros c i Hc Hi. unfold unvec, xs. symmetry. apply Ex. now apply IX2. }
    assert (Eig : forall s, Rabs (s - t) < dl -> veq (K := CC) (2 * prodl sh)
       (mv (2 * prodl sh) (operator_e (K := CC) sh om (we, wh) (eps s) mu) (xs s)) (fun q => cmul (cmul (beta s) (beta s)) (xs s q))).
    { intros s Hs q Hq. pose proof (He s Hs q Hq) as E. unfold xs.
      rewrite (mv_ext_v CC (2 * prodl sh) _ _ (fun q => @fmul CC f (x s q))) by (intros; apply cpx_ext; cbn; ring).
      rewrite mv_lin_scale, E. apply cpx_ext; cbn; ring. }
    assert (RHS : forall c i, (c < 2)%nat -> inb sh i ->
       cderiv (fun s => cmul (cmul (beta s) (beta s)) (unvec (K := CC) sh (xs s) c i)) t
         (cadd (cmul (cadd (cmul dbeta (beta t)) (cmul (beta t) dbeta)) (unvec (K := CC) sh (xs t) c i)) (cmul (cmul (beta t) (beta t)) (unvec (K := CC) sh xd c i)))).
    { intros c i Hc Hi. apply (cd_mul (fun s => cmul (beta s) (beta s)) (fun s => unvec (K := CC) sh (xs s) c i)); [now apply cd_mul|now apply Dxs]. }
    assert (EXT : forall i, inb sh i ->
       rawx CC sh we wh om (unvec (K := CC) sh (or_ones mu)) (unvec (K := CC) sh (eps t)) (unvec (K := CC) sh deps) (unvec (K := CC) sh (xs t) 0%nat) (unvec (K := CC) sh (xs t) 1%nat) (unvec (K := CC) sh xd 0%nat) (unvec (K := CC) sh xd 1%nat) i
       = cadd (cmul (cadd (cmul dbeta (beta t)) (cmul (beta t) dbeta)) (unvec (K := CC) sh (xs t) 0%nat i)) (cmul (cmul (beta t) (beta t)) (unvec (K := CC) sh xd 0%nat i)) /\
       rawy CC sh we wh om (unvec (K := CC) sh (or_ones mu)) (unvec (K := CC) sh (eps t)) (unvec (K := CC) sh deps) (unvec (K := CC) sh (xs t) 0%nat) (unvec (K := CC) sh (xs t) 1%nat) (unvec (K := CC) sh xd 0%nat) (unvec (K := CC) sh xd 1%nat) i
       = cadd (cmul (cadd (cmul dbeta (beta t)) (cmul (beta t) dbeta)) (unvec (K := CC) sh (xs t) 1%nat i)) (cmul (cmul (beta t) (beta t)) (unvec (K := CC) sh xd 1%nat i))).
    { intros i Hi. split.
      - refine (cd_uniq _ _ t _ _ dl Hdl _ (k_opx sh HL we wh om (unvec (K := CC) sh (or_ones mu)) (fun s => unvec (K := CC) sh (eps s)) (unvec (K := CC) sh deps) (fun s => unvec (K := CC) sh (xs s) 0%nat) (fun s => unvec (K := CC) sh (xs s) 1%nat) (unvec (K := CC) sh xd 0%nat) (unvec (K := CC) sh xd 1%nat) t Hz Dep (fun j Hj => Dxs 0%nat j ltac:(lia) Hj) (fun j Hj => Dxs 1%nat j ltac:(lia) Hj) i Hi) (RHS 0%nat i ltac:(lia) Hi)).
        intros s Hs. rewrite <- (proj1 (operator_e_xy CC sh HL we wh om (eps s) mu (xs s) i Hi)).
        exact (proj2 (veq_unvec CC sh 2 _ _) (Eig s Hs) 0%nat i ltac:(lia) Hi).
      - refine (cd_uniq _ _ t _ _ dl Hdl _ (k_opy sh HL we wh om (unvec (K := CC) sh (or_ones mu)) (fun s => unvec (K := CC) sh (eps s)) (unvec (K := CC) sh deps) (fun s => unvec (K := CC) sh (xs s) 0%nat) (fun s => unvec (K := CC) sh (xs s) 1%nat) (unvec (K := CC) sh xd 0%nat) (unvec (K := CC) sh xd 1%nat) t Hz Dep (fun j Hj => Dxs 0%nat j ltac:(lia) Hj) (fun j Hj => Dxs 1%nat j ltac:(lia) Hj) i Hi) (RHS 1%nat i ltac:(lia) Hi)).
        intros s Hs. rewrite <- (proj2 (operator_e_xy CC sh HL we wh om (eps s) mu (xs s) i Hi)).
        exact (proj2 (veq_unvec CC sh 2 _ _) (Eig s Hs) 1%nat i ltac:(lia) Hi). }
    intros i Hi. destruct (EXT i Hi) as [X1 X2].
    destruct (raw_split CC sh HL we wh om (unvec (K := CC) sh (or_ones mu)) (unvec (K := CC) sh (eps t)) (unvec (K := CC) sh deps)
      (unvec (K := CC) sh (xs t) 0%nat) (unvec (K := CC) sh (xs t) 1%nat) (unvec (K := CC) sh xd 0%nat) (unvec (K := CC) sh xd 1%nat) Hz i Hi) as [S1 S2].
    rewrite X1 in S1. rewrite X2 in S2. rewrite (Xt 0%nat i ltac:(lia) Hi) in S1. rewrite (Xt 1%nat i ltac:(lia) Hi) in S2.
    destruct (dop_ext CC sh HL we wh om (unvec (K := CC) sh (or_ones mu)) (unvec (K := CC) sh (eps t)) (unvec (K := CC) sh deps)
      (unvec (K := CC) sh (xs t) 0%nat) (unvec (K := CC) sh (xs t) 1%nat) (unvec (K := CC) sh e 0%nat) (unvec (K := CC) sh e 1%nat)
      (fun j Hj => Xt 0%nat j ltac:(lia) Hj) (fun j Hj => Xt 1%nat j ltac:(lia) Hj) i Hi) as [T1 T2].
    rewrite T1 in S1. rewrite T2 in S2. split.
    + etransitivity; [symmetry; exact S1|]. apply cpx_ext; cbn; ring.
    + etransitivity; [symmetry; exact S2|]. apply cpx_ext; cbn; ring.
  - intro F. apply P. change c1 with (@f1 CC). rewrite (ip_flux CC sh HL wc we wh Hw Hre e h). rewrite F. cbn. ring.
Qed.
Print Assumptions C40_sensitivity_is_derivative.

(** One entry of epsilon: the sensitivity is the partial derivative. *)
Theorem C40_single_entry_derivative :
  forall sh w we wh om mu eps x beta t q0 dx dbeta e h f,
    length sh = 2%nat -> uniform_grid sh w we wh ->
    om <> c0 -> beta t <> c0 -> nonzero_materials (K := CC) sh (eps t) mu ->
    lossless sh om (eps t) mu -> cim (beta t) = 0 ->
    (q0 < 3 * prodl sh)%nat ->
    mode_family sh we wh om mu eps x beta t (fun q => if Nat.eqb q q0 then c1 else c0) dx dbeta ->
    is_mode (K := CC) sh we wh om (beta t) (unvec (K := CC) sh (eps t)) (mu_field (K := CC) sh mu)
      (unvec (K := CC) sh e) (unvec (K := CC) sh h) ->
    (forall q, (q < 2 * prodl sh)%nat -> e q = cmul (x t q) f) ->
    cre (inner_product (K := CC) sh e h (we, wh) c1 true) <> 0 ->
    dbeta = sensitivity (K := CC) sh e h (beta t) om (we, wh) (eps t) mu q0.
Proof.
  intros sh w we wh om mu eps x beta t q0 dx dbeta e h f HL Hu Hom Hb Hm Lo Lb Hq F M Ex P.
  rewrite (C40_sensitivity_is_derivative sh w we wh om mu eps x beta t _ dx dbeta e h f HL Hu Hom Hb Hm Lo Lb F M Ex P).
  exact (sumN_ind_r CC (3 * prodl sh) q0 (sensitivity (K := CC) sh e h (beta t) om (we, wh) (eps t) mu) Hq).
Qed.
Print Assumptions C40_single_entry_derivative.

(** The documented pipeline: normalized_fields_e, then sensitivity. *)
Theorem C40_normalized_fields :
  forall sh w we wh om mu eps x beta t deps dx dbeta e h,
    length sh = 2%nat -> uniform_grid sh w we wh ->
    om <> c0 -> beta t <> c0 -> nonzero_materials (K := CC) sh (eps t) mu ->
    lossless sh om (eps t) mu -> cim (beta t) = 0 ->
    mode_family sh we wh om mu eps x beta t deps dx dbeta ->
    normalized_fields_e sh (x t) (beta t) om (we, wh) (eps t) mu c1 = Some (e, h) ->
    dbeta = dot (K := CC) (3 * prodl sh) (sensitivity (K := CC) sh e h (beta t) om (we, wh) (eps t) mu) deps.
Proof.
  intros sh w we wh om mu eps x beta t deps dx dbeta e h HL Hu Hom Hb Hm Lo Lb F Nf.
  pose proof F as ((dl & Hdl & He) & _). specialize (He t ltac:(replace (t - t) with 0 by ring; rewrite Rabs_R0; exact Hdl)).
  destruct (C39_normalized_mode sh we wh om (beta t) (eps t) mu (x t) c1 e h HL Hom Hb Hm He Nf) as [M P].
  destruct (C36_eigenvector_gives_mode CC sh we wh om (beta t) (eps t) mu (x t) HL Hom Hb Hm He) as (_ & _ & _ & X).
  unfold normalized_fields_e in Nf. destruct (nf_common_factor_and_sign _ _ _ _ _ _ _ _ Nf) as ((f & _ & E1 & _) & _).
  apply (C40_sensitivity_is_derivative sh w we wh om mu eps x beta t deps dx dbeta e h f HL Hu Hom Hb Hm Lo Lb F M).
  - intros q Hq. rewrite E1. f_equal. exact (X q Hq).
  - rewrite P. lra.
Qed.
Print Assumptions C40_normalized_fields.

(** Two cells of width 1, omega = 1, wavenumber b near 1, E_y = (1, s) with
    s = 2/(1+b^2), and epsilon_y of the first cell 2 + b^2 - 4/(1+b^2). *)
Definition rv4 (a b c d : R) : vect CC := vec4 CC (mkC a 0) (mkC b 0) (mkC c 0) (mkC d 0).
Definition rv6 (a b c d e f : R) : vect CC := vec6 CC (mkC a 0) (mkC b 0) (mkC c 0) (mkC d 0) (mkC e 0) (mkC f 0).
Definition ux_w : widths CC := fun _ _ => c1.
Definition ux_eps (b : R) : vect CC := rv6 1 1 (2 + b * b - 4 / (1 + b * b)) 1 1 1.
Definition ux_x (b : R) : vect CC := rv4 0 0 1 (2 / (1 + b * b)).
Definition ux_h : vect CC := rv6 (-1) (-1) 0 0 0 0.

Lemma sq_deriv c t : derivable_pt_lim (fun s => c + s * s) t (2 * t).
Proof.
  eapply dl_eq; [exact (derivable_pt_lim_plus _ _ t _ _ (derivable_pt_lim_const c t) (derivable_pt_lim_mult _ _ t _ _ (derivable_pt_lim_id t) (derivable_pt_lim_id t)))|].
  unfold id. ring.
Qed.
Lemma div_deriv k (f : R -> R) t l : f t <> 0 -> derivable_pt_lim f t l -> derivable_pt_lim (fun s => k / f s) t (- (k * l) / (f t * f t)).
Proof.
  intros Hf D. eapply dl_eq; [exact (derivable_pt_lim_div _ _ t _ _ (derivable_pt_lim_const k t) D Hf)|].
  unfold fct_cte, Rsqr. field. exact Hf.
Qed.
Lemma real_cd (f : R -> R) t l : derivable_pt_lim f t l -> cderiv (fun s => mkC (f s) 0) t (mkC l 0).
Proof. intro H. split; cbn [cre cim]; [exact H|apply derivable_pt_lim_const]. Qed.

Lemma rnz r : r <> 0 -> mkC r 0 <> c0.
Proof. intros H E. injection E as E. contradiction. Qed.
Lemma one_nz : c1 <> c0.
Proof. apply rnz. lra. Qed.

Ltac cdc := first [exact (cd_const (mkC 1 0) _) | exact (cd_const (mkC 0 0) _)].

Lemma ux_family : mode_family [2; 1]%nat ux_w ux_w c1 None ux_eps ux_x (fun b => mkC b 0) 1 (rv6 0 0 4 0 0 0) (rv4 0 0 0 (-1)) c1.
Proof.
  split; [|split; [|split]].
  - exists 1. split; [lra|]. intros b _.
    assert (Hb : 1 + b * b <> 0) by nra.
    pose proof (op21 CC ux_w ux_w (Logic.conj eq_refl eq_refl)) as O.
    specialize (O (Logic.conj one_nz (Logic.conj one_nz (Logic.conj one_nz one_nz))) c1 (mkC 1 0) (mkC (2 / (1 + b * b)) 0) (ux_eps b) (Logic.conj one_nz one_nz) (ux_x b) eq_refl eq_refl eq_refl eq_refl).
    intros q Hq. etransitivity; [exact (O q Hq)|]. cbn in Hq.
    do 4 (destruct q as [|q]; [apply cpx_ext; cbn; unfold cnrm; cbn; field; lra|]). lia.
  - intros q Hq. cbn in Hq.
    do 2 (destruct q as [|q]; [cdc|]). destruct q as [|q]; [|do 3 (destruct q as [|q]; [cdc|]); lia].
    refine (real_cd (fun b => 2 + b * b - 4 / (1 + b * b)) 1 4 _). eapply dl_eq; [exact (derivable_pt_lim_minus _ _ 1 _ _ (sq_deriv 2 1) (div_deriv 4 (fun b => 1 + b * b) 1 _ ltac:(cbv beta; lra) (sq_deriv 1 1)))|]. cbv beta. field.
  - intros q Hq. cbn in Hq. do 3 (destruct q as [|q]; [cdc|]). destruct q as [|q]; [|lia].
    refine (real_cd (fun b => 2 / (1 + b * b)) 1 (-1) _). eapply dl_eq; [exact (div_deriv 2 (fun b => 1 + b * b) 1 _ ltac:(cbv beta; lra) (sq_deriv 1 1))|]. cbv beta. field.
  - split; cbn [cre cim c1]; [apply derivable_pt_lim_id|apply derivable_pt_lim_const].
Qed.

Example C40_example :
  uniform_grid [2; 1]%nat (fun _ => 1) ux_w ux_w /\
  nonzero_materials (K := CC) [2; 1]%nat (ux_eps 1) None /\ lossless [2; 1]%nat c1 (ux_eps 1) None /\
  mode_family [2; 1]%nat ux_w ux_w c1 None ux_eps ux_x (fun b => mkC b 0) 1 (rv6 0 0 4 0 0 0) (rv4 0 0 0 (-1)) c1 /\
  is_mode (K := CC) [2; 1]%nat ux_w ux_w c1 c1 (unvec (K := CC) [2; 1]%nat (ux_eps 1)) (mu_field (K := CC) [2; 1]%nat None)
    (unvec (K := CC) [2; 1]%nat (rv6 0 0 1 1 0 0)) (unvec (K := CC) [2; 1]%nat ux_h) /\
  (forall q, (q < 4)%nat -> rv6 0 0 1 1 0 0 q = cmul (ux_x 1 q) c1) /\
  cre (inner_product (K := CC) [2; 1]%nat (rv6 0 0 1 1 0 0) ux_h (ux_w, ux_w) c1 true) <> 0.
Proof.
  split; [|split; [|split; [|split; [exact ux_family|split; [|split]]]]].
  - intros a k Ha Hk. split; [lra|]. split; reflexivity.
  - split; [|exact I]. intros q Hq. cbn in Hq.
    do 6 (destruct q as [|q]; [apply rnz; lra|]). lia.
  - split; [reflexivity|]. split; [|exact I]. intros q Hq. cbn in Hq. do 6 (destruct q as [|q]; [reflexivity|]). lia.
  - assert (E : forall q, (q < 6)%nat -> h21 CC ux_w c1 c1 c1 c1 q = ux_h q).
    { intros q Hq. do 6 (destruct q as [|q]; [apply cpx_ext; cbn; unfold cnrm; cbn; field|]). lia. }
    pose proof (mode21 CC ux_w ux_w (Logic.conj eq_refl eq_refl) (Logic.conj one_nz (Logic.conj one_nz (Logic.conj one_nz one_nz)))
      c1 c1 c1 (ux_eps 1) c1 one_nz) as M.
    refine (mode_scale_gen CC [2; 1]%nat ux_w ux_w c1 c1 _ _ _ _ _ _ c1 eq_refl (M _ _) _ _).
    + apply cpx_ext; cbn; unfold cnrm; cbn; field.
    + apply cpx_ext; cbn; unfold cnrm; cbn; field.
    + intros c i Hc Hi. unfold unvec. assert (c * 2 + ravel [2; 1]%nat i < 6)%nat as Hq by (pose proof (ravel_lt _ _ Hi) as Hr; cbn in Hr |- *; nia).
      cbn [prodl fold_right Nat.mul] in *. set (q := (c * _ + _)%nat) in *. clearbody q.
      do 6 (destruct q as [|q]; [apply cpx_ext; cbn; ring|]). lia.
    + intros c i Hc Hi. unfold unvec. assert (c * 2 + ravel [2; 1]%nat i < 6)%nat as Hq by (pose proof (ravel_lt _ _ Hi) as Hr; cbn in Hr |- *; nia).
      change (prodl [2; 1]%nat) with 2%nat. rewrite E by exact Hq. apply cpx_ext; cbn; ring.
  - intros q Hq. do 4 (destruct q as [|q]; [apply cpx_ext; cbn; field|]). lia.
  - unfold inner_product. cbn. unfold cmul, cdiv, cinv, cconj, cadd, copp, csub, cnrm; cbn. intro E. field_simplify in E. lra.
Qed.

(** ** C70: on a non-uniform grid *)
Definition positive_grid (sh : list nat) (we wh : widths CC) : Prop :=
  forall a k, (a < 2)%nat -> (k < dim sh a)%nat ->
    0 < cre (we a k) /\ cim (we a k) = 0 /\ 0 < cre (wh a k) /\ cim (wh a k) = 0.
(** Cells of width (1, 3) for dxes[0], (2, 2) for dxes[1]; omega = 4/3;
    wavenumber b near 2/3; s = 5/3 - 3/2 b^2; E_y = (1, -1/s). *)
Definition vx_we : widths CC := fun a k => match a, k with 0%nat, 0%nat => mkC 1 0 | 0%nat, _ => mkC 3 0 | _, _ => mkC 1 0 end.
Definition vx_wh : widths CC := fun a k => match a with 0%nat => mkC 2 0 | _ => mkC 1 0 end.
Definition vx_s (b : R) : R := 5 / 3 - 3 / 2 * (b * b).
Definition vx_eps (b : R) : vect CC := rv6 1 1 (1 + (3 / 8 / vx_s b - 3 / 8 * vx_s b)) 1 1 1.
Definition vx_x (b : R) : vect CC := rv4 0 0 1 (- 1 / vx_s b).
(** e = (0, 0, 1, -1, 0, 0), h = (-1/2, 1/2, 0, 0, -3i/2, i/2), see [vx_h_val]. *)
Definition vx_e : vect CC := e21 CC (mkC 1 0) (mkC (- 1) 0).
Definition vx_h : vect CC := h21 CC vx_we (mkC (4 / 3) 0) (mkC 1 0) (mkC (- 1) 0) (mkC (2 / 3) 0).
Lemma vx_h_val : forall q, (q < 6)%nat ->
  vx_h q = vec6 CC (mkC (- 1 / 2) 0) (mkC (1 / 2) 0) c0 c0 (mkC 0 (- 3 / 2)) (mkC 0 (1 / 2)) q.
Proof.
  intros q Hq. do 6 (destruct q as [|q]; [apply cpx_ext; cbn; unfold cnrm; cbn; field|]). lia.
Qed.

Lemma vx_sd : derivable_pt_lim vx_s (2 / 3) (-2).
Proof.
  unfold vx_s. eapply dl_eq; [exact (derivable_pt_lim_minus _ _ _ _ _ (derivable_pt_lim_const (5 / 3) (2 / 3))
    (derivable_pt_lim_mult _ _ _ _ _ (derivable_pt_lim_const (3 / 2) (2 / 3)) (derivable_pt_lim_mult _ _ _ _ _ (derivable_pt_lim_id (2 / 3)) (derivable_pt_lim_id (2 / 3)))))|].
  unfold fct_cte, id, mult_fct. field.
Qed.
Lemma vx_s1 : vx_s (2 / 3) = 1.
Proof. unfold vx_s. field. Qed.
Lemma vx_nz : vx_we 0%nat 0%nat <> c0 /\ vx_we 0%nat 1%nat <> c0 /\ vx_wh 0%nat 0%nat <> c0 /\ vx_wh 0%nat 1%nat <> c0.
Proof. repeat split; apply rnz; lra. Qed.

Lemma vx_family : mode_family [2; 1]%nat vx_we vx_wh (mkC (4 / 3) 0) None vx_eps vx_x (fun b => mkC b 0) (2 / 3)
  (rv6 0 0 (3 / 2) 0 0 0) (rv4 0 0 0 (-2)) c1.
Proof.
  split; [|split; [|split]].
  - exists (1 / 3). split; [lra|]. intros b Hb.
    assert (Hs : vx_s b <> 0).
    { apply Rabs_def2 in Hb. unfold vx_s. assert (b * b < 1) by nra. lra. }
    pose proof (op21 CC vx_we vx_wh (Logic.conj eq_refl eq_refl) vx_nz (mkC (4 / 3) 0) (mkC 1 0) (mkC (- 1 / vx_s b) 0) (vx_eps b) (Logic.conj one_nz one_nz) (vx_x b) eq_refl eq_refl eq_refl eq_refl) as O.
    intros q Hq. etransitivity; [exact (O q Hq)|]. cbn in Hq.
    assert (Hbb : b * b = (5 / 3 - vx_s b) * (2 / 3)) by (unfold vx_s; field).
    set (s := vx_s b) in *. unfold vx_eps, vx_x. fold s. clearbody s.
    assert (L : forall z : cpx, cmul (cmul (mkC b 0) (mkC b 0)) z = cmul (mkC ((5 / 3 - s) * (2 / 3)) 0) z).
    { intro z. rewrite <- Hbb. f_equal. apply cpx_ext; cbn; ring. }
    rewrite L.
    do 4 (destruct q as [|q]; [apply cpx_ext; cbn; unfold cnrm; cbn; field; lra|]). lia.
  - intros q Hq. cbn in Hq.
    do 2 (destruct q as [|q]; [cdc|]). destruct q as [|q]; [|do 3 (destruct q as [|q]; [cdc|]); lia].
    refine (real_cd (fun b => 1 + (3 / 8 / vx_s b - 3 / 8 * vx_s b)) (2 / 3) (3 / 2) _).
    assert (Hs : vx_s (2 / 3) <> 0) by (rewrite vx_s1; lra).
    eapply dl_eq; [exact (derivable_pt_lim_plus _ _ _ _ _ (derivable_pt_lim_const 1 (2 / 3)) (derivable_pt_lim_minus _ _ _ _ _ (div_deriv (3 / 8) vx_s (2 / 3) _ Hs vx_sd)
      (derivable_pt_lim_mult _ _ _ _ _ (derivable_pt_lim_const (3 / 8) (2 / 3)) vx_sd)))|].
    rewrite vx_s1. unfold fct_cte. field.
  - intros q Hq. cbn in Hq. do 3 (destruct q as [|q]; [cdc|]). destruct q as [|q]; [|lia].
    assert (Hs : vx_s (2 / 3) <> 0) by (rewrite vx_s1; lra).
    refine (real_cd (fun b => - 1 / vx_s b) (2 / 3) (-2) _). eapply dl_eq; [exact (div_deriv (- 1) vx_s (2 / 3) _ Hs vx_sd)|]. rewrite vx_s1. field.
  - split; cbn [cre cim c1]; [apply derivable_pt_lim_id|apply derivable_pt_lim_const].
Qed.
Lemma vx_eps0 : vx_eps (2 / 3) = rv6 1 1 1 1 1 1.
Proof. unfold vx_eps. rewrite vx_s1. f_equal. field. Qed.

Theorem C70_sensitivity_nonuniform_refuted :
  exists sh we wh om mu eps x beta t deps dx dbeta e h f,
    length sh = 2%nat /\ positive_grid sh we wh /\
    om <> c0 /\ beta t <> c0 /\ nonzero_materials (K := CC) sh (eps t) mu /\
    lossless sh om (eps t) mu /\ cim (beta t) = 0 /\
    mode_family sh we wh om mu eps x beta t deps dx dbeta /\
    is_mode (K := CC) sh we wh om (beta t) (unvec (K := CC) sh (eps t)) (mu_field (K := CC) sh mu)
      (unvec (K := CC) sh e) (unvec (K := CC) sh h) /\
    (forall q, (q < 2 * prodl sh)%nat -> e q = cmul (x t q) f) /\
    cre (inner_product (K := CC) sh e h (we, wh) c1 true) = 1 /\
    dbeta <> dot (K := CC) (3 * prodl sh) (sensitivity (K := CC) sh e h (beta t) om (we, wh) (eps t) mu) deps.
Proof.
  exists [2; 1]%nat, vx_we, vx_wh, (mkC (4 / 3) 0), None, vx_eps, vx_x, (fun b => mkC b 0), (2 / 3),
    (rv6 0 0 (3 / 2) 0 0 0), (rv4 0 0 0 (-2)), c1, vx_e, vx_h, c1.
  assert (Hom : mkC (4 / 3) 0 <> c0) by (apply rnz; lra).
  assert (Hb : mkC (2 / 3) 0 <> c0) by (apply rnz; lra).
  split; [reflexivity|]. split; [|split; [exact Hom|split; [exact Hb|split; [|split; [|split; [reflexivity|split; [exact vx_family|split; [|split; [|split]]]]]]]]].
  - intros a k Ha Hk. destruct a as [|[|a]]; [|destruct k; cbn; lra|lia].
    destruct k as [|k]; cbn; lra.
  - rewrite vx_eps0. split; [|exact I]. intros q Hq. cbn in Hq. do 6 (destruct q as [|q]; [apply rnz; lra|]). lia.
  - rewrite vx_eps0. split; [reflexivity|]. split; [|exact I]. intros q Hq. cbn in Hq. do 6 (destruct q as [|q]; [reflexivity|]). lia.
  - rewrite vx_eps0.
    pose proof (mode21 CC vx_we vx_wh (Logic.conj eq_refl eq_refl) vx_nz (mkC (4 / 3) 0) (mkC 1 0) (mkC (- 1) 0) (rv6 1 1 1 1 1 1) (mkC (2 / 3) 0) Hom) as M.
    refine (M _ _); apply cpx_ext; cbn; unfold cnrm; cbn; field.
  - intros q Hq. cbn in Hq. unfold vx_x. rewrite vx_s1. do 4 (destruct q as [|q]; [apply cpx_ext; cbn; field|]). lia.
  - unfold inner_product. cbn. unfold cmul, cdiv, cinv, cconj, cadd, copp, csub, cnrm; cbn. field.
  - rewrite vx_eps0.
    assert (ES : dot (K := CC) 6 (sensitivity (K := CC) [2; 1]%nat vx_e vx_h (mkC (2 / 3) 0) (mkC (4 / 3) 0) (vx_we, vx_wh) (rv6 1 1 1 1 1 1) None) (rv6 0 0 (3 / 2) 0 0 0) = mkC (1 / 2) 0).
    { pose proof (sens21 CC vx_we vx_wh (Logic.conj eq_refl eq_refl) vx_nz (mkC (4 / 3) 0) (mkC 1 0) (mkC (- 1) 0) (rv6 1 1 1 1 1 1)
        (Logic.conj one_nz one_nz) (mkC (2 / 3) 0) (mkC (3 / 2) 0)) as S. cbv zeta in S.
      etransitivity; [apply S; [exact Hb|]|].
      - intro E. apply (f_equal cre) in E. cbn in E. unfold cnrm in E. cbn in E. field_simplify in E. lra.
      - apply cpx_ext; cbn; unfold cmul, cdiv, cinv, cconj, cadd, copp, csub, cnrm; cbn; field. }
    intro E. assert (X : c1 = mkC (1 / 2) 0) by (rewrite E; exact ES). injection X as X. lra.
Qed.
Print Assumptions C70_sensitivity_nonuniform_refuted.
