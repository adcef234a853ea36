From Coq Require Import List Arith ZArith Lia Bool Field.
From Verif.Lib Require Import Num Sums Idx Mat.
From Verif.Model Require Import Fdmath Fdfd Waveguide2d.
From Verif.Spec Require Import Yee WaveguideSpec.
From Verif.Proofs Require Import FdmathP FdfdP FdfdP2 WaveguideP WaveguideP2.
From Verif.Proofs Require Import GridP.
Import ListNotations.
Local Open Scope fld_scope.

Section Modes.
  Variable K : CFld.
  Add Field Kfield : (fth K).
  Variable sh : list nat.
  Hypothesis HL : length sh = 2%nat.
  Variables we wh : widths K.
  Let N := prodl sh.
  Notation dxes := (we, wh).
  Variables (om beta : K) (eps : vect K) (mu : option (vect K)).
  Hypothesis Hom : om <> 0.
  Hypothesis Hb : beta <> 0.
  Hypothesis Ne : forall q, (q < 3 * N)%nat -> eps q <> 0.
  Hypothesis Nm : forall q, (q < 3 * N)%nat -> or_ones mu q <> 0.
  Let m := or_ones mu.
  Set Default Proof Using "All".

  Lemma Ne' c i : (c < 3)%nat -> inb sh i -> unvec sh eps c i <> 0.
  Proof. intros Hc Hi. apply Ne. now apply pos3. Qed.
  Lemma Nm' c i : (c < 3)%nat -> inb sh i -> unvec sh (or_ones mu) c i <> 0.
  Proof. intros Hc Hi. apply Nm. now apply pos3. Qed.

  (** Faraday's law in vector form *)
  Lemma far_vec e h : faraday sh we om beta (unvec sh m) (unvec sh e) (unvec sh h) <->
    veq (3 * N) (mv (3 * N) (curl_e sh beta dxes) e) (fun q => - im * om * (m q * h q)).
  Proof.
    unfold N. rewrite <- veq_unvec. unfold faraday. to_model. cbv zeta. split.
    - intros H c i Hc Hi. destruct (H i Hi) as (H1 & H2 & H3). rewrite curl_e_act by assumption.
      destruct c as [|[|[|c]]]; [now rewrite <- H1|now rewrite <- H2|now rewrite <- H3|lia].
    - intros H i Hi.
      assert (X : forall c, (c < 3)%nat -> _) by (intros c Hc; exact (H c i Hc Hi)).
      pose proof (X 0%nat ltac:(lia)) as X0. pose proof (X 1%nat ltac:(lia)) as X1. pose proof (X 2%nat ltac:(lia)) as X2.
      rewrite curl_e_act in X0, X1, X2 by (try lia; assumption). cbv beta iota in X0, X1, X2.
      rewrite X0, X1, X2. repeat split; reflexivity.
  Qed.
  Lemma amp_vec e h : ampere sh wh om beta (unvec sh eps) (unvec sh e) (unvec sh h) <->
    veq (3 * N) (mv (3 * N) (curl_h sh beta dxes) h) (fun q => im * om * (eps q * e q)).
  Proof.
    unfold N. rewrite <- veq_unvec. unfold ampere. to_model. cbv zeta. split.
    - intros H c i Hc Hi. destruct (H i Hi) as (H1 & H2 & H3). rewrite curl_h_act by assumption.
      destruct c as [|[|[|c]]]; [now rewrite <- H1|now rewrite <- H2|now rewrite <- H3|lia].
    - intros H i Hi.
      assert (X : forall c, (c < 3)%nat -> _) by (intros c Hc; exact (H c i Hc Hi)).
      pose proof (X 0%nat ltac:(lia)) as X0. pose proof (X 1%nat ltac:(lia)) as X1. pose proof (X 2%nat ltac:(lia)) as X2.
      rewrite curl_h_act in X0, X1, X2 by (try lia; assumption). cbv beta iota in X0, X1, X2.
      rewrite X0, X1, X2. repeat split; reflexivity.
  Qed.

  Lemma nio_nz : - im * om <> (0 : K).
  Proof. apply fmul_nz; [apply fopp_nz, im_nz|exact Hom]. Qed.

  (** [h = e2h @ e] is Faraday's law *)
  Lemma e2h_far e h : faraday sh we om beta (unvec sh m) (unvec sh e) (unvec sh h) <->
    veq (3 * N) (mv (3 * N) (wg_e2h sh beta om dxes mu) e) h.
  Proof.
    rewrite far_vec. unfold N. rewrite <- !veq_unvec. split; intros H c i Hc Hi.
    - pose proof (e2h_act K sh HL we wh beta om mu e c i Hc Hi Hom Nm') as E.
      rewrite (H c i Hc Hi) in E. unfold unvec in E at 3. apply (fmul_cancel_l K) in E; [|apply nio_nz].
      apply (fmul_cancel_l K) in E; [exact E|]. now apply Nm'.
    - rewrite <- (e2h_act K sh HL we wh beta om mu e c i Hc Hi Hom Nm'). rewrite H by assumption. reflexivity.
  Qed.
  Lemma h2e_amp e h : ampere sh wh om beta (unvec sh eps) (unvec sh e) (unvec sh h) <->
    veq (3 * N) (mv (3 * N) (wg_h2e sh beta om dxes eps) h) e.
  Proof.
    rewrite amp_vec. unfold N. rewrite <- !veq_unvec. split; intros H c i Hc Hi.
    - pose proof (h2e_act K sh HL we wh beta om eps h c i Hc Hi Hom Ne') as E.
      rewrite (H c i Hc Hi) in E. unfold unvec in E at 3. apply (fmul_cancel_l K) in E; [|apply io_nz; exact Hom].
      apply (fmul_cancel_l K) in E; [exact E|]. now apply Ne'.
    - rewrite <- (h2e_act K sh HL we wh beta om eps h c i Hc Hi Hom Ne'). rewrite H by assumption. reflexivity.
  Qed.

  Lemma mode_e_err e h : is_mode sh we wh om beta (unvec sh eps) (unvec sh m) (unvec sh e) (unvec sh h) ->
    veq (3 * N) (e_err_op sh e beta om dxes eps mu) (fun _ => 0).
  Proof.
    intros [F A]. apply far_vec in F. apply amp_vec in A. intros q Hq.
    assert (E : mv (3 * N) (curl_h sh beta dxes) (fun p => - im * om * h p) q - om * om * (eps q * e q) = 0).
    { rewrite mv_lin_scale, A by exact Hq. transitivity (- (im * im) * om * om * (eps q * e q) - om * om * (eps q * e q)); [ring|].
      rewrite im_sq. ring. }
    rewrite <- E. unfold e_err_op. fold N. unfold m in F. destruct mu as [m0|]; cbn [or_ones] in F, Nm.
    - rewrite !mv_mm. f_equal. apply mv_ext_v. intros j Hj. rewrite mv_mdiag, F by exact Hj. field. now apply Nm.
    - rewrite !mv_mm. f_equal. apply mv_ext_v. intros j Hj. rewrite F by exact Hj. ring.
  Qed.
  Lemma mode_h_err e h : is_mode sh we wh om beta (unvec sh eps) (unvec sh m) (unvec sh e) (unvec sh h) ->
    veq (3 * N) (h_err_op sh h beta om dxes eps mu) (fun _ => 0).
  Proof.
    intros [F A]. apply far_vec in F. apply amp_vec in A. intros q Hq.
    assert (E : mv (3 * N) (mm (3 * N) (mm (3 * N) (curl_e sh beta dxes) (mdiag (fun q => 1 / eps q))) (curl_h sh beta dxes)) h q
      = om * om * (m q * h q)).
    { rewrite !mv_mm. transitivity (mv (3 * N) (curl_e sh beta dxes) (fun p => im * om * e p) q).
      - apply mv_ext_v. intros j Hj. rewrite mv_mdiag, A by exact Hj. field. now apply Ne.
      - rewrite mv_lin_scale, F by exact Hq. transitivity (- (im * im) * om * om * (m q * h q)); [ring|].
        rewrite im_sq. ring. }
    unfold h_err_op. fold N. unfold m in E. destruct mu as [m0|]; cbn [or_ones] in E; rewrite E; ring.
  Qed.

  (** A mode obeys both divergence conditions *)
  Lemma mode_gauss (ep M e h : field K) : is_mode sh we wh om beta ep M e h ->
    gauss_e sh wh beta ep e /\ gauss_h sh we beta M h.
  Proof.
    intros [F A]. split; intros i Hi.
    - exact (amp_dive K (inb sh) _ _ (lin_b K sh HL wh 0 ltac:(lia)) (lin_b K sh HL wh 1 ltac:(lia)) (comm_b K sh HL wh)
        om beta Hom _ _ _ _ _ _ _ _ _ A i Hi).
    - exact (far_divh K (inb sh) _ _ (lin_f K sh HL we 0 ltac:(lia)) (lin_f K sh HL we 1 ltac:(lia)) (comm_f K sh HL we)
        om beta Hom _ _ _ _ _ _ _ _ _ F i Hi).
  Qed.

  (** ** From operator_e *)
  Section FromE.
    Variable x : vect K.
    Let e := mv (2 * N) (exy2e sh beta dxes eps) x.
    Let h := mv (2 * N) (exy2h sh beta om dxes eps mu) x.
    Hypothesis Heig : veq (2 * N) (mv (2 * N) (operator_e sh om dxes eps mu) x) (fun q => beta * beta * x q).

    Lemma fromE : is_mode sh we wh om beta (unvec sh eps) (unvec sh m) (unvec sh e) (unvec sh h).
    Proof.
      assert (F : faraday sh we om beta (unvec sh m) (unvec sh e) (unvec sh h)).
      { apply e2h_far. intros q Hq. unfold h, exy2h. fold N. rewrite mv_mm. reflexivity. }
      split; [exact F|].
      assert (X0 : forall i, inb sh i -> unvec sh e 0%nat i = unvec sh x 0%nat i) by (intros; apply exy2e_xy; [lia|assumption]).
      assert (X1 : forall i, inb sh i -> unvec sh e 1%nat i = unvec sh x 1%nat i) by (intros; apply exy2e_xy; [lia|assumption]).
      refine (eig_amp K (inb sh) _ _ _ _ (lin_f K sh HL we 0 ltac:(lia)) (lin_f K sh HL we 1 ltac:(lia))
        (lin_b K sh HL wh 0 ltac:(lia)) (lin_b K sh HL wh 1 ltac:(lia)) (comm_b K sh HL wh) om beta Hom Hb
        _ _ _ _ _ _ _ _ _ _ _ _ _ _ _ _ F _ _).
      - intros; apply Ne'; [lia|assumption].
      - intros; apply Nm'; [lia|assumption].
      - intros; apply Nm'; [lia|assumption].
      - intros; apply Nm'; [lia|assumption].
      - intros i Hi. unfold e at 3. rewrite exy2e_z by assumption.
        rewrite (deriv_back_ext K sh (Some wh) 0 _ (fun j => unvec sh eps 0%nat j * unvec sh x 0%nat j) i) by (try lia; try exact Hi; intros; now rewrite X0).
        rewrite (deriv_back_ext K sh (Some wh) 1 _ (fun j => unvec sh eps 1%nat j * unvec sh x 1%nat j) i) by (try lia; try exact Hi; intros; now rewrite X1).
        field. splits; first [apply im_nz|exact Hb|apply Ne'; [lia|assumption]].
      - apply operator_e_eig; [exact HL|]. intros q Hq. fold N in Hq |- *.
        rewrite (mv_ext_v K (2 * N) _ e x).
        + rewrite Heig by exact Hq. f_equal. symmetry. revert q Hq. apply veq_unvec. intros; apply exy2e_xy; assumption.
        + apply veq_unvec. intros; apply exy2e_xy; assumption.
    Qed.
  End FromE.

  (** ** From operator_h *)
  Section FromH.
    Variable x : vect K.
    Let h := mv (2 * N) (hxy2h sh beta dxes mu) x.
    Let e := mv (2 * N) (hxy2e sh beta om dxes eps mu) x.
    Hypothesis Heig : veq (2 * N) (mv (2 * N) (operator_h sh om dxes eps mu) x) (fun q => beta * beta * x q).

    Lemma fromH : is_mode sh we wh om beta (unvec sh eps) (unvec sh m) (unvec sh e) (unvec sh h).
    Proof.
      assert (A : ampere sh wh om beta (unvec sh eps) (unvec sh e) (unvec sh h)).
      { apply h2e_amp. intros q Hq. unfold e, hxy2e. fold N. rewrite mv_mm. reflexivity. }
      split; [|exact A].
      assert (X0 : forall i, inb sh i -> unvec sh h 0%nat i = unvec sh x 0%nat i) by (intros; apply hxy2h_xy; [lia|assumption]).
      assert (X1 : forall i, inb sh i -> unvec sh h 1%nat i = unvec sh x 1%nat i) by (intros; apply hxy2h_xy; [lia|assumption]).
      pose proof (eig_amp K (inb sh) _ _ _ _ 
        (lin_b K sh HL wh 0 ltac:(lia)) (lin_b K sh HL wh 1 ltac:(lia)) (lin_f K sh HL we 0 ltac:(lia)) (lin_f K sh HL we 1 ltac:(lia)) 
        (comm_f K sh HL we) (- om) beta (fopp_nz K om Hom) Hb
        (unvec sh h 0%nat) (unvec sh h 1%nat) (unvec sh h 2%nat) (unvec sh e 0%nat) (unvec sh e 1%nat) (unvec sh e 2%nat)
        (unvec sh m 0%nat) (unvec sh m 1%nat) (unvec sh m 2%nat) (unvec sh eps 0%nat) (unvec sh eps 1%nat) (unvec sh eps 2%nat)) as E.
      assert (F : amp K (inb sh) (deriv_forward sh (Some we) 0) (deriv_forward sh (Some we) 1) (- om) beta
        (unvec sh h 0%nat) (unvec sh h 1%nat) (unvec sh h 2%nat) (unvec sh e 0%nat) (unvec sh e 1%nat) (unvec sh e 2%nat)
        (unvec sh m 0%nat) (unvec sh m 1%nat) (unvec sh m 2%nat)).
      { apply E; clear E.
        - intros; apply Nm'; [lia|assumption].
        - intros; apply Ne'; [lia|assumption].
        - intros; apply Ne'; [lia|assumption].
        - intros; apply Ne'; [lia|assumption].
        - intros i Hi. destruct (A i Hi) as (A1 & A2 & A3). to_model. rewrite <- A1, <- A2, <- A3. repeat split; ring.
        - intros i Hi. unfold h at 3. rewrite hxy2h_z by assumption.
          rewrite (deriv_forward_ext K sh (Some we) 0 _ (fun j => unvec sh m 0%nat j * unvec sh x 0%nat j) i) by (try lia; try exact Hi; intros; now rewrite X0).
          rewrite (deriv_forward_ext K sh (Some we) 1 _ (fun j => unvec sh m 1%nat j * unvec sh x 1%nat j) i) by (try lia; try exact Hi; intros; now rewrite X1).
          fold m. field. splits; first [apply im_nz|exact Hb|apply Nm'; [lia|assumption]].
        - apply operator_h_eig; [exact HL|]. intros q Hq. fold N in Hq |- *.
          rewrite (mv_ext_v K (2 * N) _ h x).
          + rewrite Heig by exact Hq. f_equal. symmetry. revert q Hq. apply veq_unvec. intros; apply hxy2h_xy; assumption.
          + apply veq_unvec. intros; apply hxy2h_xy; assumption. }
      intros i Hi. destruct (F i Hi) as (F1 & F2 & F3). to_model. rewrite <- F1, <- F2, <- F3. repeat split; ring.
    Qed.
  End FromH.

  (** ** From a mode *)
  Lemma mode_opE e h : is_mode sh we wh om beta (unvec sh eps) (unvec sh m) (unvec sh e) (unvec sh h) ->
    veq (2 * N) (mv (2 * N) (operator_e sh om dxes eps mu) e) (fun q => beta * beta * e q) /\
    veq (3 * N) (mv (2 * N) (exy2e sh beta dxes eps) e) e /\
    veq (3 * N) (mv (2 * N) (exy2h sh beta om dxes eps mu) e) h.
  Proof.
    intros M. pose proof (mode_gauss _ _ _ _ M) as [G _]. destruct M as [F A].
    assert (X : veq (3 * N) (mv (2 * N) (exy2e sh beta dxes eps) e) e).
    { apply veq_unvec. intros c i Hc Hi. destruct c as [|[|[|c]]]; [apply exy2e_xy; [lia|exact Hi]|apply exy2e_xy; [lia|exact Hi]| |lia].
      rewrite exy2e_z by assumption. specialize (G i Hi). apply fsub_eq0 in G. to_model. rewrite G.
      field. splits; first [apply im_nz|exact Hb|apply Ne'; [lia|assumption]]. }
    split; [|split; [exact X|]].
    - apply operator_e_eig; [exact HL|].
      refine (mode_eig K (inb sh) _ _ _ _ (lin_f K sh HL we 0 ltac:(lia)) (lin_f K sh HL we 1 ltac:(lia))
        (lin_b K sh HL wh 0 ltac:(lia)) (lin_b K sh HL wh 1 ltac:(lia)) (comm_b K sh HL wh) om beta Hom
        _ _ _ _ _ _ _ _ _ _ _ _ _ _ F A).
      + intros; apply Ne'; [lia|assumption].
      + intros; apply Nm'; [lia|assumption].
    - intros q Hq. unfold exy2h. fold N. rewrite mv_mm.
      rewrite (mv_ext_v K (3 * N) _ _ e q X). revert q Hq. now apply e2h_far.
  Qed.
  Lemma mode_opH e h : is_mode sh we wh om beta (unvec sh eps) (unvec sh m) (unvec sh e) (unvec sh h) ->
    veq (2 * N) (mv (2 * N) (operator_h sh om dxes eps mu) h) (fun q => beta * beta * h q) /\
    veq (3 * N) (mv (2 * N) (hxy2h sh beta dxes mu) h) h /\
    veq (3 * N) (mv (2 * N) (hxy2e sh beta om dxes eps mu) h) e.
  Proof.
    intros M. pose proof (mode_gauss _ _ _ _ M) as [_ G]. destruct M as [F A].
    assert (X : veq (3 * N) (mv (2 * N) (hxy2h sh beta dxes mu) h) h).
    { apply veq_unvec. intros c i Hc Hi. destruct c as [|[|[|c]]]; [apply hxy2h_xy; [lia|exact Hi]|apply hxy2h_xy; [lia|exact Hi]| |lia].
      rewrite hxy2h_z by assumption. specialize (G i Hi). apply fsub_eq0 in G. to_model. fold m. rewrite G.
      field. splits; first [apply im_nz|exact Hb|apply Nm'; [lia|assumption]]. }
    split; [|split; [exact X|]].
    - apply operator_h_eig; [exact HL|].
      refine (mode_eig K (inb sh) _ _ _ _ (lin_b K sh HL wh 0 ltac:(lia)) (lin_b K sh HL wh 1 ltac:(lia))
        (lin_f K sh HL we 0 ltac:(lia)) (lin_f K sh HL we 1 ltac:(lia)) (comm_f K sh HL we) (- om) beta (fopp_nz K om Hom)
        _ _ (unvec sh h 2%nat) (unvec sh e 0%nat) (unvec sh e 1%nat) (unvec sh e 2%nat) _ _ _ _ _ _ _ _ _ _).
      + intros; apply Nm'; [lia|assumption].
      + intros; apply Ne'; [lia|assumption].
      + intros i Hi. destruct (A i Hi) as (A1 & A2 & A3). to_model. rewrite <- A1, <- A2, <- A3. repeat split; ring.
      + intros i Hi. destruct (F i Hi) as (F1 & F2 & F3). to_model. fold m. rewrite <- F1, <- F2, <- F3. repeat split; ring.
    - intros q Hq. unfold hxy2e. fold N. rewrite mv_mm.
      rewrite (mv_ext_v K (3 * N) _ _ h q X). revert q Hq. now apply h2e_amp.
  Qed.
End Modes.
