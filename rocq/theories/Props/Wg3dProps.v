(** Properties of meanas/fdfd/waveguide_3d.py. *)
From Coq Require Import Reals List Arith ZArith Lia Lra Bool Field.
From Verif.Lib Require Import Num Sums Idx Mat RealF Cexp.
From Verif.Model Require Import Fdmath Fdfd Waveguide2d WaveguideReal Waveguide3d.
From Verif.Spec Require Import Grid Yee FdfdSpec WaveguideSpec Wg3dSpec.
From Verif.Proofs Require Import FdmathP FdfdP FdfdP3 WaveguideP WaveguideP2 WaveguideP3 WaveguideP4 WaveguideRealP WaveguideRealP2 Wg3dP Wg3dRealP.
From Verif.Props Require Import FdfdProps WaveguideProps WaveguideRealProps.
From Verif.Proofs Require Import GridP.
Import ListNotations.
Local Open Scope R_scope.

(** The contract of the 2D solver: what it returns is an eigenvector of
    [operator_e] with a non-zero wavenumber. *)
Definition solver_ok (solver : args_2d -> option (vect CC * cpx)) (p : args_2d) : Prop :=
  forall e_xy k2, solver p = Some (e_xy, k2) ->
    k2 <> c0 /\
    veq (K := CC) (2 * prodl (a_sh p))
      (mv (2 * prodl (a_sh p)) (operator_e (K := CC) (a_sh p) (a_omega p) (a_dxes p) (a_epsilon p) (Some (a_mu p))) e_xy)
      (fun q => cmul (cmul k2 k2) (e_xy q)).

(** e_full @ vec(F) at component [c] of cell [idx]. *)
Definition residual (sh : list nat) (omega : cpx) (dxes : dx2 CC) (eps : field CC) (mu : option (field CC)) (F : field CC)
    (c : nat) (idx : list nat) : cpx :=
  unvec (K := CC) sh (mv (3 * prodl sh) (e_full_mat (K := CC) sh omega dxes (vec (K := CC) sh eps) (vec_opt (K := CC) sh mu) None None)
    (vec (K := CC) sh F)) c idx.

Lemma residual_wave sh omega dxes eps mu F c idx : length sh = 3%nat -> (c < 3)%nat -> inb sh idx ->
  residual sh omega dxes eps mu F c idx = wave_e (K := CC) sh omega (fst dxes) (snd dxes) eps mu F c idx.
Proof. intros HL Hc Hi. exact (C23_operators_e_full CC sh omega dxes eps mu F HL c idx Hc Hi). Qed.

Lemma wave_e_ext_in (K : CFld) sh (om : K) (we wh : widths K) (eps : field K) mu (F G : field K) c idx :
  length sh = 3%nat -> (c < 3)%nat -> inb sh idx -> (forall c' i, (c' < 3)%nat -> inb sh i -> F c' i = G c' i) ->
  wave_e sh om we wh eps mu F c idx = wave_e sh om we wh eps mu G c idx.
Proof.
  intros HL Hc Hi E. unfold wave_e. to_model. rewrite (E c idx Hc Hi). f_equal.
  apply curl_back_ext3; try assumption. intros c' i Hc' Hi'. f_equal. now apply curl_forward_ext3.
Qed.

(** ** C42 *)
Theorem C42_wavenumber :
  forall sh omega dxes axis sl dx eps mu pol solver k k2 H E,
    waveguide_along sh axis sl dxes dx eps mu ->
    solve_mode_3d sh omega dxes axis pol sl solver eps mu = Some (k, k2, H, E) ->
    (exists e_xy, solver (problem_2d sh omega dxes axis sl eps mu) = Some (e_xy, k2)) /\
    cmul (mkC (2 / dx) 0) (csin (cmul k (mkC (dx / 2) 0))) = k2.
Proof.
  intros sh omega dxes axis sl dx eps mu pol solver k k2 H E W R. destruct W as [HL Hax HV HU Hdx Ie Im Ze Zm].
  destruct (solve_fields sh omega dxes axis sl HL Hax HV pol solver eps mu k k2 H E R) as (x & ve & vh & S & -> & _).
  split; [now exists x|].
  pose proof (dispersion sh dxes axis sl dx HL Hax HV HU Hdx k2) as D.
  set (k := corrected_wavenumber _ _ _ _ _) in *.
  replace (cmul k (mkC (dx / 2) 0)) with (cdiv (cmul k (mkC dx 0)) (mkC 2 0)).
  - rewrite D. apply cpx_ext; cbn; unfold cnrm; cbn; field; exact Hdx.
  - clearbody k. apply cpx_ext; cbn; unfold cnrm; cbn; field.
Qed.
Print Assumptions C42_wavenumber.

Lemma solve_mode_of sh omega dxes axis sl dx eps mu pol solver k k2 H E :
  waveguide_along sh axis sl dxes dx eps mu -> omega <> c0 ->
  let p := problem_2d sh omega dxes axis sl eps mu in solver_ok solver p ->
  solve_mode_3d sh omega dxes axis pol sl solver eps mu = Some (k, k2, H, E) ->
  k = corrected_wavenumber sh dxes axis sl k2 /\
  exists e h : field CC,
    is_mode (K := CC) (a_sh p) (fst (a_dxes p)) (snd (a_dxes p)) omega k2 (unvec (K := CC) (a_sh p) (a_epsilon p)) (unvec (K := CC) (a_sh p) (a_mu p)) e h /\
    (forall j, length j = 3%nat -> selected sl j = true ->
        let i := pr (ox axis) (fun b => start sl (ox axis b)) j in
        E (ox axis 0) j = e 0%nat i /\ E (ox axis 1) j = e 1%nat i /\
        E axis j = cmul (e 2%nat i) (half_step sh dxes axis pol sl k) /\
        H (ox axis 0) j = cmul (cmul (h 0%nat i) (mkC (IZR pol) 0)) (half_step sh dxes axis pol sl k) /\
        H (ox axis 1) j = cmul (cmul (h 1%nat i) (mkC (IZR pol) 0)) (half_step sh dxes axis pol sl k) /\
        H axis j = cmul (h 2%nat i) (mkC (IZR pol) 0)).
Proof.
  intros W Hom p Ok R. destruct W as [HL Hax HV HU Hdx Ie Im Ze Zm].
  destruct (solve_fields sh omega dxes axis sl HL Hax HV pol solver eps mu k k2 H E R) as (x & ve & vh & S & Hk & NF & F).
  split; [exact Hk|]. destruct (Ok x k2 S) as [Hk2 Eig].
  pose proof (materials_2d sh axis sl HL Hax HV eps mu Ze Zm) as NM.
  destruct (C39_normalized_mode (a_sh p) (fst (a_dxes p)) (snd (a_dxes p)) omega k2 (a_epsilon p) (Some (a_mu p)) x _ ve vh eq_refl Hom Hk2 NM Eig NF) as [M _].
  exists (unvec (K := CC) (a_sh p) ve), (unvec (K := CC) (a_sh p) vh). split; [exact M|exact F].
Qed.


Lemma mode_conclusions sh omega dxes axis sl dx eps mu pol k2 (e h E H : field CC) :
  waveguide_along sh axis sl dxes dx eps mu -> psign pol ->
  let p := problem_2d sh omega dxes axis sl eps mu in
  let k := corrected_wavenumber sh dxes axis sl k2 in
  is_mode (K := CC) (a_sh p) (fst (a_dxes p)) (snd (a_dxes p)) omega (cmul (mkC (IZR pol) 0) k2)
    (unvec (K := CC) (a_sh p) (a_epsilon p)) (unvec (K := CC) (a_sh p) (a_mu p)) e h ->
  (forall j, length j = 3%nat -> selected sl j = true ->
        let i := pr (ox axis) (fun b => start sl (ox axis b)) j in
        E (ox axis 0) j = e 0%nat i /\ E (ox axis 1) j = e 1%nat i /\
        E axis j = cmul (e 2%nat i) (half_step sh dxes axis pol sl k) /\
        H (ox axis 0) j = cmul (h 0%nat i) (half_step sh dxes axis pol sl k) /\
        H (ox axis 1) j = cmul (h 1%nat i) (half_step sh dxes axis pol sl k) /\
        H axis j = h 2%nat i) ->
  let F := expand_e sh dxes axis pol sl E k in
  forall c idx, (c < 3)%nat -> stencil_inside sh axis sl idx ->
    residual sh omega dxes eps mu F c idx = c0 /\
    (coord idx axis = start sl axis ->
       curl_next (K := CC) sh (Some (fst dxes)) F c idx = cmul (cmul (copp ci) omega) (cmul (permeability mu c idx) (H c idx))).
Proof.
  intros W Hpol p k M FF F c idx Hc Hs. destruct W as [HL Hax HV HU Hdx Ie Im Ze Zm].
  assert (HE : forall j, length j = 3%nat -> selected sl j = true ->
     E (ox axis 0) j = e 0%nat (pr (ox axis) (fun b => start sl (ox axis b)) j) /\ E (ox axis 1) j = e 1%nat (pr (ox axis) (fun b => start sl (ox axis b)) j) /\
     E axis j = cmul (e 2%nat (pr (ox axis) (fun b => start sl (ox axis b)) j)) (half_step sh dxes axis pol sl k)).
  { intros j L S. destruct (FF j L S) as (A & B & C & _). auto. }
  split.
  - rewrite residual_wave by (try assumption; apply Hs).
    exact (wave_inside sh omega dxes axis sl HL Hax HV pol eps mu dx k2 e h E Hpol HU Hdx Ie Im Zm M HE c idx Hc Hs).
  - intro Hst. unfold F, k. to_model.
    rewrite (faraday_inside sh omega dxes axis sl HL Hax HV pol eps mu dx k2 e h E Hpol HU Hdx Ie Im Zm M HE c idx Hc Hs).
    change (permeability mu c idx) with (mu_or_ones mu c idx). f_equal. f_equal.
    assert (Li : length idx = 3%nat) by (rewrite (inb_length _ _ (proj1 Hs)); exact HL).
    assert (Se : selected sl idx = true).
    { pose proof (sel_slice sh axis sl HL Hax HV idx (proj1 Hs) (win_of sh axis sl HL Hax HV idx Hs)) as X.
      rewrite <- Hst in X. rewrite upd_coord in X. exact X. }
    destruct (FF idx Li Se) as (_ & _ & _ & H0 & H1 & H2). cbv zeta in H0, H1, H2.
    destruct (HH3_at sh dxes axis sl HL Hax pol mu k2 e h E Zm HE idx) as (A0 & A1 & A2).
    destruct (ox_cover axis c Hax Hc) as [->|[->| ->]].
    + rewrite H0. refine (eq_trans A0 _). fold k. rewrite Hst, phase_start. set (a := half_step _ _ _ _ _ _). clearbody a. apply cpx_ext; cbn; ring.
    + rewrite H1. refine (eq_trans A1 _). fold k. rewrite Hst, phase_start. set (a := half_step _ _ _ _ _ _). clearbody a. apply cpx_ext; cbn; ring.
    + rewrite H2. refine (eq_trans A2 _). fold k. rewrite Hst, phase_start. apply cpx_ext; cbn; ring.
Qed.

(** Forward modes: the expanded field solves the 3D wave equation wherever the
    stencil stays inside, and the returned H is its curl on the slice. *)
Theorem C42_forward_mode :
  forall sh omega dxes axis sl dx eps mu solver k k2 H E,
    waveguide_along sh axis sl dxes dx eps mu -> omega <> c0 ->
    solver_ok solver (problem_2d sh omega dxes axis sl eps mu) ->
    solve_mode_3d sh omega dxes axis 1 sl solver eps mu = Some (k, k2, H, E) ->
    let F := expand_e sh dxes axis 1 sl E k in
    forall c idx, (c < 3)%nat -> stencil_inside sh axis sl idx ->
      residual sh omega dxes eps mu F c idx = c0 /\
      (coord idx axis = start sl axis ->
         curl_next (K := CC) sh (Some (fst dxes)) F c idx = cmul (cmul (copp ci) omega) (cmul (permeability mu c idx) (H c idx))).
Proof.
  intros sh omega dxes axis sl dx eps mu solver k k2 H E W Hom Ok R F c idx Hc Hs.
  destruct (solve_mode_of _ _ _ _ _ _ _ _ _ _ _ _ _ _ W Hom Ok R) as (Hk & e & h & M & FF). unfold F. subst k.
  refine (mode_conclusions sh omega dxes axis sl dx eps mu 1 k2 e h E H W (or_introl eq_refl) _ _ c idx Hc Hs).
  - replace (cmul (mkC (IZR 1) 0) k2) with k2 by (apply cpx_ext; cbn; ring). exact M.
  - intros j L S. destruct (FF j L S) as (A0 & A1 & A2 & B0 & B1 & B2).
    assert (T : forall x, cmul x (mkC (IZR 1) 0) = x) by (intro x; apply cpx_ext; cbn; ring).
    rewrite T in B0, B1, B2. intro i. auto 10.
Qed.
Print Assumptions C42_forward_mode.

(** ** C71: backward modes *)
Section Mirror.
  Variable K : CFld.
  Add Field Kmir : (fth K).
  Local Open Scope fld_scope.
  Lemma mode_mirror sh (we wh : widths K) (om beta : K) (eps mu e h : field K) :
    is_mode sh we wh om beta eps mu e h ->
    is_mode sh we wh om (- beta) eps mu (fun c i => if Nat.eqb c 2 then - e c i else e c i)
                                        (fun c i => if Nat.eqb c 2 then h c i else - h c i).
  Proof.
    intros [F A]. split; intros i Hi; cbn [Nat.eqb].
    - destruct (F i Hi) as (F0 & F1 & F2). to_model. unfold deriv_forward, roll in *. cbn in F0, F1, F2 |- *. repeat split.
      + transitivity (- (- im * om * (mu 0%nat i * h 0%nat i))); [ring|]. rewrite F0. rewrite !fdiv_def. ring.
      + transitivity (- (- im * om * (mu 1%nat i * h 1%nat i))); [ring|]. rewrite F1. rewrite !fdiv_def. ring.
      + exact F2.
    - destruct (A i Hi) as (F0 & F1 & F2). to_model. unfold deriv_back, roll in *. cbn in F0, F1, F2 |- *. repeat split.
      + rewrite F0. rewrite !fdiv_def. ring.
      + rewrite F1. rewrite !fdiv_def. ring.
      + transitivity (- (im * om * (eps 2%nat i * e 2%nat i))); [ring|]. rewrite F2. rewrite !fdiv_def. ring.
  Qed.
End Mirror.

(** For polarity -1 the fields become a mode only after the components along
    the axis of both E and H are negated ... *)
Theorem C71_backward_mode_corrected :
  forall sh omega dxes axis sl dx eps mu solver k k2 H E,
    waveguide_along sh axis sl dxes dx eps mu -> omega <> c0 ->
    solver_ok solver (problem_2d sh omega dxes axis sl eps mu) ->
    solve_mode_3d sh omega dxes axis (-1) sl solver eps mu = Some (k, k2, H, E) ->
    let F := expand_e sh dxes axis (-1) sl (flip_axis axis E) k in
    forall c idx, (c < 3)%nat -> stencil_inside sh axis sl idx ->
      residual sh omega dxes eps mu F c idx = c0 /\
      (coord idx axis = start sl axis ->
         curl_next (K := CC) sh (Some (fst dxes)) F c idx
         = cmul (cmul (copp ci) omega) (cmul (permeability mu c idx) (flip_axis axis H c idx))).
Proof.
  intros sh omega dxes axis sl dx eps mu solver k k2 H E W Hom Ok R F c idx Hc Hs.
  destruct (solve_mode_of _ _ _ _ _ _ _ _ _ _ _ _ _ _ W Hom Ok R) as (Hk & e & h & M & FF). unfold F. subst k.
  pose proof (mode_mirror CC _ _ _ _ _ _ _ _ _ M) as M'.
  refine (mode_conclusions sh omega dxes axis sl dx eps mu (-1) k2 _ _ _ _ W (or_intror eq_refl) _ _ c idx Hc Hs).
  - replace (cmul (mkC (IZR (-1)) 0) k2) with (copp k2) by (apply cpx_ext; cbn; ring). exact M'.
  - intros j L S. destruct (FF j L S) as (A0 & A1 & A2 & B0 & B1 & B2). intro i. fold i in A0, A1, A2, B0, B1, B2.
    pose proof (wa_axis _ _ _ _ _ _ _ W) as Hax.
    destruct (ox_ok axis 0 Hax ltac:(lia)) as [_ N0]. destruct (ox_ok axis 1 Hax ltac:(lia)) as [_ N1].
    unfold flip_axis. rewrite Nat.eqb_refl, (proj2 (Nat.eqb_neq _ _) N0), (proj2 (Nat.eqb_neq _ _) N1).
    cbn [Nat.eqb]. rewrite A0, A1, A2, B0, B1, B2. set (u := half_step _ _ _ _ _ _). clearbody u.
    repeat split; apply cpx_ext; cbn; ring.
Qed.
Print Assumptions C71_backward_mode_corrected.

(** ... so the returned E is right when it has no component along the axis. *)
Theorem C42_backward_mode_without_axial_field :
  forall sh omega dxes axis sl dx eps mu solver k k2 H E,
    waveguide_along sh axis sl dxes dx eps mu -> omega <> c0 ->
    solver_ok solver (problem_2d sh omega dxes axis sl eps mu) ->
    solve_mode_3d sh omega dxes axis (-1) sl solver eps mu = Some (k, k2, H, E) ->
    (forall idx, inb sh idx -> (forall a, (a < 3)%nat -> (start sl a <= coord idx a < stop sl a)%nat) -> E axis idx = c0) ->
    forall c idx, (c < 3)%nat -> stencil_inside sh axis sl idx ->
      residual sh omega dxes eps mu (expand_e sh dxes axis (-1) sl E k) c idx = c0.
Proof.
  intros sh omega dxes axis sl dx eps mu solver k k2 H E W Hom Ok R Z0 c idx Hc Hs.
  assert (Z : forall idx, inb sh idx -> selected sl idx = true -> E axis idx = c0).
  { intros i Hi S. apply Z0; [exact Hi|]. intros a Ha. unfold selected in S. rewrite forallb_forall in S.
    assert (Ia : In a [0; 1; 2]%nat) by (cbn; lia). specialize (S a Ia). apply andb_prop in S. destruct S as [S1 S2].
    apply Nat.leb_le in S1. apply Nat.ltb_lt in S2. lia. }
  destruct (C71_backward_mode_corrected _ _ _ _ _ _ _ _ _ _ _ _ _ W Hom Ok R c idx Hc Hs) as [X _].
  destruct W as [HL Hax HV HU Hdx Ie Im Ze Zm].
  rewrite <- X. rewrite !residual_wave by (try assumption; apply Hs).
  apply (wave_e_ext_in CC); try assumption; [apply Hs|]. intros c' i Hc' Hi. unfold expand_e. cbv zeta.
  destruct (selected _ i) eqn:S; [|reflexivity]. f_equal. unfold flip_axis. destruct (Nat.eqb_spec c' axis) as [->|]; [|reflexivity].
  assert (V : inb sh (upd axis (start sl axis) i)) by (apply inb_upd; [exact Hi|destruct (proj1 HV axis Hax); lia]).
  apply (sel_exp sh axis sl HL Hax HV i Hi) in S. rewrite (Z _ V (sel_slice sh axis sl HL Hax HV i Hi S)). apply cpx_ext; cbn; ring.
Qed.
Print Assumptions C42_backward_mode_without_axial_field.

(** A 2 x 1 x 3 grid, propagation along z with dx = 4/5, unit cells across,
    omega = 5/2.  The mode ex = (1, -1), ez = (-4i/3, 4i/3), hy = (5/3, -5/3)
    has the 2D wavenumber 3/2. *)
Definition m3_sh : list nat := [2; 1; 3]%nat.
Definition m3_w : widths CC := fun a _ => if Nat.eqb a 2 then mkC (4 / 5) 0 else c1.
Definition m3_d : dx2 CC := (m3_w, m3_w).
Definition m3_sl : slices := fun a => match a with 0 => (0, 2) | 1 => (0, 1) | _ => (1, 2) end%nat.
Definition m3_om : cpx := mkC (5 / 2) 0.
Definition m3_k2 : cpx := mkC (3 / 2) 0.
Definition m3_eps : field CC := fun _ _ => c1.
Definition m3_e : vect CC := fun q =>
  match q with 0 => c1 | 1 => mkC (-1) 0 | 4 => mkC 0 (- (4 / 3)) | 5 => mkC 0 (4 / 3) | _ => c0 end%nat.
Definition m3_h : vect CC := fun q => match q with 2 => mkC (5 / 3) 0 | 3 => mkC (- (5 / 3)) 0 | _ => c0 end%nat.
Definition m3_solver : args_2d -> option (vect CC * cpx) := fun _ => Some (m3_e, m3_k2).
Definition m3_p : args_2d := problem_2d m3_sh m3_om m3_d 2 m3_sl m3_eps None.

Lemma m3_waveguide : waveguide_along m3_sh 2 m3_sl m3_d (4 / 5) m3_eps None.
Proof.
  split.
  - reflexivity.
  - lia.
  - split; [|reflexivity]. intros [|[|[|a]]] Ha; try lia; vm_compute; lia.
  - intros m _. split; reflexivity.
  - lra.
  - intros c idx m _ _ _. reflexivity.
  - intros c idx m _ _ _. reflexivity.
  - intros c idx _ _ E. apply (f_equal cre) in E. cbn in E. lra.
  - intros c idx _ _ E. apply (f_equal cre) in E. cbn in E. lra.
Qed.
Lemma m3_mode : is_mode (K := CC) [2; 1]%nat (fst (a_dxes m3_p)) (snd (a_dxes m3_p)) m3_om m3_k2
  (unvec (K := CC) [2; 1]%nat (a_epsilon m3_p)) (mu_field (K := CC) [2; 1]%nat (Some (a_mu m3_p)))
  (unvec (K := CC) [2; 1]%nat m3_e) (unvec (K := CC) [2; 1]%nat m3_h).
Proof.
  split; intros i Hi; destruct (wx_cells i Hi) as [-> | ->]; repeat split;
    unfold deriv_forward, deriv_back, roll; cbn; change (Pos.to_nat 1) with 1%nat;
    apply cpx_ext; cbn; unfold cmul, cdiv, cinv, cconj, cadd, copp, csub, cnrm; cbn; field.
Qed.
Lemma m3_nz : m3_om <> c0 /\ m3_k2 <> c0.
Proof. split; intro E; apply (f_equal cre) in E; cbn in E; lra. Qed.
Lemma m3_materials : nonzero_materials (K := CC) [2; 1]%nat (a_epsilon m3_p) (Some (a_mu m3_p)).
Proof. split; intros q _ E; apply (f_equal cre) in E; cbn in E; lra. Qed.
Lemma m3_facts :
  solver_ok m3_solver m3_p /\
  veq (K := CC) 6 (mv (K := CC) 4 (exy2e (K := CC) [2; 1]%nat m3_k2 (a_dxes m3_p) (a_epsilon m3_p)) m3_e) m3_e /\
  veq (K := CC) 6 (mv (K := CC) 4 (exy2h (K := CC) [2; 1]%nat m3_k2 m3_om (a_dxes m3_p) (a_epsilon m3_p) (Some (a_mu m3_p))) m3_e) m3_h.
Proof.
  destruct m3_nz as [A B].
  destruct (C37_mode_solves_both_eigenproblems CC [2; 1]%nat (fst (a_dxes m3_p)) (snd (a_dxes m3_p)) m3_om m3_k2 (a_epsilon m3_p) (Some (a_mu m3_p))
    m3_e m3_h eq_refl A B m3_materials m3_mode) as ((E1 & E2 & E3) & _).
  split; [|split; [exact E2|exact E3]]. intros x k2 S. injection S as <- <-. split; [exact B|exact E1].
Qed.

Lemma m3_phase : exists r i, 0 < r /\ cexp (cmul (mkC 0 (1 / 2)) (cmul (dx_prop m3_sh m3_d 2 m3_sl) (corrected_wavenumber m3_sh m3_d 2 m3_sl m3_k2))) = mkC r i.
Proof.
  destruct m3_waveguide as [HL Hax HV HU Hdx _ _ _ _].
  unfold corrected_wavenumber. rewrite (dxp_eq m3_sh m3_d 2 m3_sl (4 / 5) HL Hax HV HU).
  replace (cdiv (cmul m3_k2 (mkC (4 / 5) 0)) (mkC 2 0)) with (mkC (3 / 5) 0) by (apply cpx_ext; cbn; unfold cnrm; cbn; field).
  set (z := mkC (3 / 5) 0).
  replace (cmul (mkC 0 (1 / 2)) (cmul (mkC (4 / 5) 0) (cmul (cdiv (mkC 2 0) (mkC (4 / 5) 0)) (casin z)))) with (cmul ci (casin z)).
  2:{ generalize (casin z). intro a. apply cpx_ext; cbn; unfold cnrm; cbn; field. }
  rewrite cexp_casin. exists (cre (casin_arg z)), (cim (casin_arg z)). split; [|now destruct (casin_arg z)].
  assert (NZ : cre (casin_arg z) <> 0).
  { unfold casin_arg. pose proof (csqrt_sq (csub c1 (cmul z z))) as Q. set (s := csqrt _) in *. clearbody s. intro Z.
    apply (f_equal cre) in Q. cbn in Q, Z. destruct s as [a b]. cbn in *. assert (a = 0) by lra. subst a. nra. }
  pose proof (casin_arg_re z). lra.
Qed.

Lemma m3_solved pol : exists k H E, solve_mode_3d m3_sh m3_om m3_d 2 pol m3_sl m3_solver m3_eps None = Some (k, m3_k2, H, E).
Proof.
  destruct m3_facts as (_ & Ve & Vh). destruct m3_phase as (r & i & Hr & Ph).
  unfold solve_mode_3d. fold m3_p. cbv zeta. change (m3_solver m3_p) with (Some (m3_e, m3_k2)). cbv iota beta. rewrite Ph.
  destruct (normalized_fields_e _ _ _ _ _ _ _ _) as [[ve vh]|] eqn:NF; [now repeat eexists|exfalso].
  unfold normalized_fields_e in NF. change (a_sh m3_p) with [2; 1]%nat in NF. change (a_omega m3_p) with m3_om in NF.
  change (2 * prodl [2; 1]%nat)%nat with 4%nat in NF.
  set (e1 := mv (K := CC) 4 (exy2e _ _ _ _) _) in *. set (h1 := mv (K := CC) 4 (exy2h _ _ _ _ _ _) _) in *.
  pose proof (Ve 0%nat ltac:(lia)) as E0. pose proof (Ve 1%nat ltac:(lia)) as E1. pose proof (Ve 2%nat ltac:(lia)) as E2.
  pose proof (Ve 3%nat ltac:(lia)) as E3. pose proof (Ve 4%nat ltac:(lia)) as E4. pose proof (Ve 5%nat ltac:(lia)) as E5.
  pose proof (Vh 0%nat ltac:(lia)) as H0. pose proof (Vh 1%nat ltac:(lia)) as H1. pose proof (Vh 2%nat ltac:(lia)) as H2.
  pose proof (Vh 3%nat ltac:(lia)) as H3. clear Ve Vh. cbn [m3_e m3_h] in *. clearbody e1 h1.
  assert (Ep : forall q, a_epsilon m3_p q = c1) by reflexivity. set (ep := a_epsilon m3_p) in *. clearbody ep.
  apply nf_raises in NF. destruct NF as [NF|(m & Hm & M1 & M2)].
  - assert (P : power [2; 1]%nat e1 h1 (a_dxes m3_p) (mkC r i) = 5 / 3 * r).
    { unfold power, inner_product. cbn. change (Pos.to_nat 1) with 1%nat. unfold unvec. cbn. rewrite E0, E1, E2, E3, H0, H1, H2, H3. unfold cnrm. cbn. field. }
    rewrite P in NF. lra.
  - assert (En : m = 4%nat \/ m = 5%nat).
    { specialize (M1 4%nat ltac:(cbn; lia)). cbn in Hm. unfold energy in M1. rewrite !Ep, E4 in M1.
      assert (Cm : (m = 0 \/ m = 1 \/ m = 2 \/ m = 3 \/ m = 4 \/ m = 5)%nat) by (clear - Hm; lia).
      destruct Cm as [-> |[-> |[-> |[-> |[-> | ->]]]]]; [exfalso; rewrite E0 in M1|exfalso; rewrite E1 in M1|exfalso; rewrite E2 in M1|exfalso; rewrite E3 in M1|left; reflexivity|right; reflexivity];
        clear - M1; cbn in M1; lra. }
    assert (U : unphase (e1 m) = mkC 0 1 \/ unphase (e1 m) = mkC 0 (-1)).
    { destruct En as [-> | ->]; [rewrite E4; left|rewrite E5; right]; unfold unphase.
      - destruct (cpx_dec _ _) as [X|_]; [apply (f_equal cim) in X; cbn in X; lra|].
        assert (C : cabs (mkC 0 (- (4 / 3))) = 4 / 3).
        { unfold cabs, cnrm. cbn [cre cim]. replace (0 * 0 + - (4 / 3) * - (4 / 3)) with (4 / 3 * (4 / 3)) by ring. apply sqrt_square. lra. }
        rewrite C. apply cpx_ext; cbn; field.
      - destruct (cpx_dec _ _) as [X|_]; [apply (f_equal cim) in X; cbn in X; lra|].
        assert (C : cabs (mkC 0 (4 / 3)) = 4 / 3).
        { unfold cabs, cnrm. cbn [cre cim]. replace (0 * 0 + (4 / 3) * (4 / 3)) with (4 / 3 * (4 / 3)) by ring. apply sqrt_square. lra. }
        rewrite C. apply cpx_ext; cbn; field. }
    unfold quadrant_sum, energy, unvec in M2. cbn in M2. rewrite !Ep, ?E0, ?E2, ?E4 in M2.
    destruct U as [U|U]; rewrite U in M2; cbn in M2; lra.
Qed.

Lemma m3_stencil : stencil_inside m3_sh 2 m3_sl [0; 0; 1]%nat.
Proof.
  split; [repeat constructor|]. split; [cbn; lia|]. split; [cbn; lia|].
  intros [|[|[|a]]] Ha Hn; try lia; left; split; reflexivity.
Qed.

Lemma m3_values pol : exists k H E f, solve_mode_3d m3_sh m3_om m3_d 2 pol m3_sl m3_solver m3_eps None = Some (k, m3_k2, H, E) /\
  k = corrected_wavenumber m3_sh m3_d 2 m3_sl m3_k2 /\ f <> c0 /\
  forall x, (x < 2)%nat -> E 0%nat [x; 0; 1]%nat = cmul (m3_e x) f /\ E 1%nat [x; 0; 1]%nat = c0 /\
    E 2%nat [x; 0; 1]%nat = cmul (cmul (m3_e (4 + x)%nat) f) (half_step m3_sh m3_d 2 pol m3_sl k).
Proof.
  destruct (m3_solved pol) as (k & H & E & R). exists k, H, E.
  destruct m3_waveguide as [HL Hax HV _ _ _ _ _ _].
  destruct (solve_fields _ _ _ _ _ HL Hax HV _ _ _ _ _ _ _ _ R) as (x0 & ve & vh & S & Hk & NF & F).
  fold m3_p in NF, S. injection S as <-.
  unfold normalized_fields_e in NF. destruct (nf_common_factor_and_sign _ _ _ _ _ _ _ _ NF) as ((f & Hf & Fe & _) & _).
  exists f. split; [exact R|]. split; [exact Hk|]. split.
  - intros ->. clear - Hf. unfold cnrm in Hf. cbn [cre cim c0] in Hf. rewrite !Rmult_0_l, Rplus_0_l, Rmult_0_l in Hf. lra.
  - destruct m3_facts as (_ & Ve & _).
    change (a_sh m3_p) with [2; 1]%nat in *. change (2 * prodl [2; 1]%nat)%nat with 4%nat in *.
    set (e1 := mv (K := CC) 4 (exy2e _ _ _ _) _) in *. clearbody e1. clear R NF Hf Hk.
    assert (Vv : forall q, (q < 6)%nat -> ve q = cmul (m3_e q) f) by (intros q Hq; now rewrite Fe, (Ve q Hq)).
    intros x Hx. destruct (F [x; 0; 1]%nat eq_refl) as (A0 & A1 & A2 & _).
    { destruct x as [|[|]]; [reflexivity|reflexivity|lia]. }
    clear F. set (hs := half_step _ _ _ _ _ _) in *. clearbody hs.
    change (ox 2 0) with 0%nat in *. change (ox 2 1) with 1%nat in *.
    change (slen m3_sh m3_sl 0) with 2%nat in *. change (slen m3_sh m3_sl 1) with 1%nat in *.
    change (pr (ox 2) (fun b : nat => start m3_sl (ox 2 b)) [x; 0; 1]%nat) with [(x - 0)%nat; 0%nat] in *. rewrite Nat.sub_0_r in *.
    unfold unvec in A0, A1, A2. rewrite A0, A1, A2.
    assert (Q : x = 0%nat \/ x = 1%nat) by lia.
    destruct Q as [-> | ->]; [change (ravel [2; 1] [0; 0])%nat with 0%nat|change (ravel [2; 1] [1; 0])%nat with 1%nat];
      change (prodl [2; 1]%nat) with 2%nat; cbn [Nat.mul Nat.add]; rewrite !Vv by lia; repeat split; apply cpx_ext; cbn; ring.
Qed.

Example C42_example :
  waveguide_along m3_sh 2 m3_sl m3_d (4 / 5) m3_eps None /\ m3_om <> c0 /\
  solver_ok m3_solver (problem_2d m3_sh m3_om m3_d 2 m3_sl m3_eps None) /\
  stencil_inside m3_sh 2 m3_sl [0; 0; 1]%nat /\
  exists k H E, solve_mode_3d m3_sh m3_om m3_d 2 1 m3_sl m3_solver m3_eps None = Some (k, m3_k2, H, E) /\
    expand_e m3_sh m3_d 2 1 m3_sl E k 0%nat [0; 0; 1]%nat <> c0.
Proof.
  split; [exact m3_waveguide|]. split; [exact (proj1 m3_nz)|]. split; [exact (proj1 m3_facts)|]. split; [exact m3_stencil|].
  destruct (m3_values 1) as (k & H & E & f & R & _ & Hf & V). exists k, H, E. split; [exact R|].
  destruct m3_waveguide as [HL Hax HV _ _ _ _ _ _].
  rewrite (expand_win m3_sh m3_d 2 1 m3_sl E k 0 [0; 0; 1]%nat Hax HL HV (proj1 m3_stencil) (win_of m3_sh 2 m3_sl HL Hax HV _ m3_stencil)).
  change (coord [0; 0; 1]%nat 2) with (start m3_sl 2). rewrite phase_start.
  change (upd 2 (start m3_sl 2) [0; 0; 1]%nat) with [0; 0; 1]%nat.
  destruct (V 0%nat ltac:(lia)) as (-> & _). intro Z. apply Hf. rewrite <- Z. cbn [m3_e]. apply cpx_ext; cbn; ring.
Qed.

Section Residue.
  Variable K : CFld.
  Add Field Kres : (fth K).
  Local Open Scope fld_scope.
  Lemma backward_residue (q r f D d om t : K) : r * q = 1 -> q - r = t -> d <> 0 ->
    - ((q * q * f - f) / d - q * D * f - ((f - r * r * f) / d - r * r * (q * D * f))) / d - om * om * f
    = (- (t * t) / (d * d) + t * D / d - om * om) * f.
  Proof.
    intros H1 H2 Hd.
    transitivity (- ((q - r) * (q - r) + 2 * (r * q - 1)) / (d * d) * f + (q - r * (r * q)) * D / d * f - om * om * f); [field; exact Hd|].
    rewrite H1. replace (q - r * 1) with (q - r) by ring. rewrite H2. field. exact Hd.
  Qed.
End Residue.

Theorem C71_backward_mode_refuted :
  exists sh omega dxes axis sl dx eps mu solver k k2 H E c idx,
    waveguide_along sh axis sl dxes dx eps mu /\ omega <> c0 /\
    solver_ok solver (problem_2d sh omega dxes axis sl eps mu) /\
    solve_mode_3d sh omega dxes axis (-1) sl solver eps mu = Some (k, k2, H, E) /\
    (c < 3)%nat /\ stencil_inside sh axis sl idx /\
    residual sh omega dxes eps mu (expand_e sh dxes axis (-1) sl E k) c idx <> c0.
Proof.
  destruct (m3_values (-1)) as (k & H & E & f & R & Hk & Hf & V).
  exists m3_sh, m3_om, m3_d, 2%nat, m3_sl, (4 / 5), m3_eps, None, m3_solver, k, m3_k2, H, E, 0%nat, [0; 0; 1]%nat.
  split; [exact m3_waveguide|]. split; [exact (proj1 m3_nz)|]. split; [exact (proj1 m3_facts)|]. split; [exact R|].
  split; [lia|]. split; [exact m3_stencil|]. rewrite residual_wave by (try reflexivity; try lia; exact (proj1 m3_stencil)).
  destruct m3_waveguide as [HL Hax HV HU Hdx _ _ _ _].
  pose proof (half_step_sq m3_sh m3_d 2 m3_sl (4 / 5) HL Hax HV HU Hdx (-1) m3_k2 (or_intror eq_refl)) as Q. cbv zeta in Q.
  rewrite <- Hk in Q.
  pose proof (phase_step m3_sh m3_d 2 m3_sl (4 / 5) HL Hax HV HU (-1) k 0 ltac:(cbn; lia)) as P0. cbv zeta in P0.
  pose proof (phase_step m3_sh m3_d 2 m3_sl (4 / 5) HL Hax HV HU (-1) k 1 ltac:(cbn; lia)) as P1. cbv zeta in P1.
  pose proof (phase_start m3_d 2 m3_sl (-1) k) as P2. change (start m3_sl 2) with 1%nat in P2. rewrite P2 in P0, P1.
  assert (X : forall c x m, (c < 3)%nat -> (x < 2)%nat -> (m < 3)%nat ->
     expand_e m3_sh m3_d 2 (-1) m3_sl E k c [x; 0; m]%nat = cmul (phase_at m3_d 2 m3_sl (-1) k m) (E c [x; 0; 1]%nat)).
  { intros c x m Hc Hx Hm. rewrite (expand_win m3_sh m3_d 2 (-1) m3_sl E k c [x; 0; m]%nat Hax HL HV).
    - reflexivity.
    - constructor; [exact Hx|constructor; [lia|constructor; [exact Hm|constructor]]].
    - apply (win_iff m3_sh 2 m3_sl HL Hax HV). intros a Ha Hn.
      assert (Qa : a = 0%nat \/ a = 1%nat) by lia. clear - Qa Hx. destruct Qa as [-> | ->]; cbn; lia. }
  set (q := half_step m3_sh m3_d 2 (-1) m3_sl k) in *. clearbody q.
  set (p0 := phase_at m3_d 2 m3_sl (-1) k 0) in *. set (p1 := phase_at m3_d 2 m3_sl (-1) k 1) in *. set (p2 := phase_at m3_d 2 m3_sl (-1) k 2) in *.
  assert (X0 : forall c x, (c < 3)%nat -> (x < 2)%nat -> expand_e m3_sh m3_d 2 (-1) m3_sl E k c [x; 0; 0]%nat = cmul p0 (E c [x; 0; 1]%nat)) by (intros; apply X; lia).
  assert (X1 : forall c x, (c < 3)%nat -> (x < 2)%nat -> expand_e m3_sh m3_d 2 (-1) m3_sl E k c [x; 0; 1]%nat = cmul p1 (E c [x; 0; 1]%nat)) by (intros; apply X; lia).
  assert (X2 : forall c x, (c < 3)%nat -> (x < 2)%nat -> expand_e m3_sh m3_d 2 (-1) m3_sl E k c [x; 0; 2]%nat = cmul p2 (E c [x; 0; 1]%nat)) by (intros; apply X; lia).
  clearbody p0 p1 p2. clear X R Hk.
  set (F := expand_e m3_sh m3_d 2 (-1) m3_sl E k) in *. clearbody F.
  destruct (V 0%nat ltac:(lia)) as (V0 & _ & Z0). destruct (V 1%nat ltac:(lia)) as (V1 & _ & Z1). clear V.
  pose (r := cmul p0 q).
  assert (G : wave_e (K := CC) m3_sh m3_om (fst m3_d) (snd m3_d) m3_eps None F 0%nat [0; 0; 1]%nat
    = let d := mkC (4 / 5) 0 in let D := mkC 0 (8 / 3) in
      @fsub CC (@fdiv CC (@fopp CC (@fsub CC (@fsub CC (@fdiv CC (@fsub CC (@fmul CC (@fmul CC q q) f) f) d) (@fmul CC (@fmul CC q D) f))
                       (@fsub CC (@fdiv CC (@fsub CC f (@fmul CC (@fmul CC r r) f)) d) (@fmul CC (@fmul CC r r) (@fmul CC (@fmul CC q D) f))))) d)
            (@fmul CC (@fmul CC m3_om m3_om) f)).
  { assert (P00 : p0 = cmul r r).
    { unfold r. transitivity (cmul p0 c1); [apply cpx_ext; cbn; ring|]. rewrite P0 at 1. apply cpx_ext; cbn; ring. }
    assert (RR : cmul p0 (cmul (mkC 1 0) q) = r) by (unfold r; apply cpx_ext; cbn; ring).
    clearbody r. cbv zeta.
    unfold wave_e. to_model. unfold curl_back, curl_with, curl_forward, curl_with, deriv_back, deriv_forward, roll.
    change (- (1))%Z with (-1)%Z. change (- (-1))%Z with 1%Z.
    change (shift_ix m3_sh 1 (-1) [0; 0; 1]%nat) with [0; 0; 1]%nat.
    change (shift_ix m3_sh 2 (-1) [0; 0; 1]%nat) with [0; 0; 0]%nat.
    change (shift_ix m3_sh 2 1 [0; 0; 1]%nat) with [0; 0; 2]%nat.
    change (shift_ix m3_sh 2 1 [0; 0; 0]%nat) with [0; 0; 1]%nat.
    change (shift_ix m3_sh 0 1 [0; 0; 1]%nat) with [1; 0; 1]%nat.
    change (shift_ix m3_sh 0 1 [0; 0; 0]%nat) with [1; 0; 0]%nat.
    rewrite !X0, !X1, !X2 by lia. rewrite V0, Z0, Z1, P1, P2, P00.
    set (u := @fmul CC (inv_at None 2%nat _) _). clearbody u. clear - f q r u.
    change (fst m3_d 0%nat _) with c1. change (fst m3_d 2%nat _) with (mkC (4 / 5) 0). change (snd m3_d 2%nat _) with (mkC (4 / 5) 0). change (snd m3_d 1%nat _) with c1.
    change (m3_e 0%nat) with c1. change (m3_e (4 + 0)%nat) with (mkC 0 (- (4 / 3))). change (m3_e (4 + 1)%nat) with (mkC 0 (4 / 3)).
    change (m3_eps 0%nat _) with c1. cbn [inv_at].
    apply cpx_ext; cbn; unfold cnrm; cbn; field. }
  assert (RQ : cmul r q = c1) by (unfold r; rewrite P0; apply cpx_ext; cbn; ring).
  clearbody r.
  assert (T : csub q r = mkC 0 (6 / 5)).
  { transitivity (cmul (csub (cmul q q) c1) r).
    - transitivity (csub (cmul q (cmul r q)) r); [rewrite RQ; apply cpx_ext; cbn; ring|apply cpx_ext; cbn; ring].
    - rewrite Q. transitivity (cmul (mkC 0 (6 / 5)) (cmul r q)); [|rewrite RQ; apply cpx_ext; cbn; ring].
      unfold m3_k2. apply cpx_ext; cbn; field. }
  assert (Hd : mkC (4 / 5) 0 <> c0) by (intro Z; apply (f_equal cre) in Z; cbn in Z; lra).
  rewrite G. cbv zeta.
  rewrite (backward_residue CC q r f (mkC 0 (8 / 3)) (mkC (4 / 5) 0) m3_om (mkC 0 (6 / 5)) RQ T Hd).
  intro Z. apply Hf.
  replace f with (cmul (mkC (- (1 / 8)) 0) (cmul (mkC (-8) 0) f)) by (apply cpx_ext; cbn; field).
  replace (cmul (mkC (-8) 0) f) with c0; [apply cpx_ext; cbn; ring|].
  rewrite <- Z at 1. unfold m3_om. apply cpx_ext; cbn; unfold cnrm; cbn; field.
Qed.
Print Assumptions C71_backward_mode_refuted.
