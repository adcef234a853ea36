(** Property theorems for fdtd.misc.gaussian_beam (C110 - C112); standard-library
    reals. *)
From Coq Require Import Reals Lra List Arith ZArith Bool Lia Psatz.
From Verif.Lib Require Import Num Sums Idx RealF Cexp.
From Verif.Model Require Import Ndarray Beam.
From Verif.Spec Require Import SensSpec BeamSpec.
From Verif.Proofs Require Import SensRealP EmeP NdarrayP BeamP.
Import ListNotations.
Local Open Scope R_scope.

Lemma rot_x tilt xyz center idx : rotated tilt (offset xyz center idx) 0 = across_x tilt (point xyz idx) center.
Proof. unfold rotated, across_x, offset, point. cbn. ring. Qed.
Lemma rot_y tilt xyz center idx : rotated tilt (offset xyz center idx) 1 = across_y (point xyz idx) center.
Proof. unfold rotated, across_y, offset, point. cbn. ring. Qed.
Lemma rot_z tilt xyz center idx : rotated tilt (offset xyz center idx) 2 = along tilt (point xyz idx) center.
Proof. unfold rotated, along, offset, point. cbn. ring. Qed.


Lemma csqrt_real S : 0 <= S -> csqrt (mkC S 0) = mkC (sqrt S) 0.
Proof.
  intro H. unfold csqrt. cbn [cre cim]. destruct (Rle_dec 0 0) as [_|N]; [|lra].
  replace (cabs (mkC S 0)) with S.
  - apply cpx_ext; cbn [cre cim]; [f_equal; lra|]. replace ((S - S) / 2) with 0 by lra. apply sqrt_0.
  - unfold cabs, cnrm. cbn [cre cim]. replace (S * S + 0 * 0) with (S * S) by ring. symmetry. now apply sqrt_square.
Qed.
Lemma gsum_self_conj sh (v : list nat -> cpx) :
  gsum (K := CC) sh (fun i => cmul (v i) (cconj (v i))) = mkC (gsum (K := RF) sh (fun i => cnrm (v i))) 0.
Proof.
  revert v. induction sh as [|n sh IH]; intro v.
  - apply cpx_ext; unfold cnrm; cbn; ring.
  - cbn [gsum]. induction n as [|n IHn]; [reflexivity|].
    cbn [sumN]. rewrite IHn, (IH (fun i => v (n :: i))). apply cpx_ext; cbn; ring.
Qed.
Lemma all_finite_inv sh f g : all_finite sh f = Some g -> forall j, inb sh j -> f j = Some (g j).
Proof.
  unfold all_finite. destruct forallb eqn:F; [|discriminate]. intros E j Hj. injection E as <-. cbv beta.
  rewrite forallb_forall in F. specialize (F j (in_cells sh j Hj)). cbv beta in F. destruct (f j); [reflexivity|discriminate].
Qed.

(** The cell of the middle slice at position [ij] of the plane. *)
Definition middle (sh ij : list nat) : list nat := [coord ij 0; coord ij 1; (dim sh 2 / 2)%nat].

Section Beam.
  Variables (sh : list nat) (xyz : nat -> nat -> R) (center : nat -> R) (w0 wl tilt : R).
  Hypothesis HL : length sh = 3%nat.
  Hypothesis Hw : 0 < w0.
  Hypothesis Hl : 0 < wl.

  Notation z' idx := (along tilt (point xyz idx) center).
  Let G idx := let p := rotated tilt (offset xyz center idx) in gaussian w0 wl (p 0%nat) (p 1%nat) (p 2%nat).
  Let V idx := cmul (env w0 wl (across_x tilt (point xyz idx) center) (across_y (point xyz idx) center) (z' idx)) (cexp (mkC 0 (2 * PI / wl * z' idx))).
  Let plane := [dim sh 0; dim sh 1].
  Let norm := option_map (fun r => csqrt (gsum (K := CC) plane (fun ij => cmul (r ij) (cconj (r ij))))) (all_finite plane (fun ij => G (middle sh ij))).
  Let power := gsum (K := RF) plane (fun ij => cnrm (V (middle sh ij))).

  Lemma beam_def B : gaussian_beam sh xyz center w0 wl tilt = Some B -> dim sh 2 <> 0%nat /\ forall idx, B idx = ndiv (G idx) norm.
  Proof.
    unfold gaussian_beam. destruct (Nat.eqb_spec (dim sh 2) 0) as [E|E]; [discriminate|]. intro H. injection H as <-.
    split; [exact E|]. reflexivity.
  Qed.
  Lemma G_val idx : z' idx <> 0 -> G idx = Some (V idx).
  Proof. intro Hz. unfold G, V. cbv zeta. rewrite rot_x, rot_y, rot_z. now apply gaussian_val. Qed.
  Lemma G_none idx : z' idx = 0 -> G idx = None.
  Proof. intro Hz. unfold G. cbv zeta. rewrite rot_x, rot_y, rot_z, Hz. apply gaussian_waist. Qed.
  Lemma G_some idx v : G idx = Some v -> z' idx <> 0 /\ v = V idx.
  Proof.
    intro E. destruct (Req_EM_T (z' idx) 0) as [Z|Z]; [rewrite G_none in E by exact Z; discriminate|].
    split; [exact Z|]. rewrite G_val in E by exact Z. now injection E.
  Qed.
  Lemma V_nz idx : V idx <> c0.
  Proof.
    unfold V. pose proof (env_nz w0 wl (across_x tilt (point xyz idx) center) (across_y (point xyz idx) center) (z' idx)) as A.
    pose proof (cexp_nz (mkC 0 (2 * PI / wl * z' idx))) as B. exact (fmul_nz CC _ _ A B).
  Qed.
  Lemma in_plane idx : inb sh idx -> inb plane [coord idx 0; coord idx 1].
  Proof. intro Hi. unfold plane. repeat constructor; apply inb_coord; try exact Hi; lia. Qed.
  Lemma power_pos idx : inb sh idx -> 0 < power.
  Proof.
    intro Hi. pose proof (in_plane idx Hi) as Hp.
    eapply Rlt_le_trans; [|refine (gsum_ge_term plane _ _ Hp _)].
    - cbv beta. pose proof (cnrm_nz _ (V_nz (middle sh [coord idx 0; coord idx 1]))) as N. unfold cnrm in *. nra.
    - intros j _. cbv beta. unfold cnrm. nra.
  Qed.
  Lemma norm_val n : norm = Some n -> n = mkC (sqrt power) 0 /\ forall ij, inb plane ij -> z' (middle sh ij) <> 0.
  Proof.
    unfold norm. destruct all_finite as [r|] eqn:F; [|discriminate]. cbn [option_map]. intro E. injection E as <-.
    pose proof (all_finite_inv _ _ _ F) as A. split.
    - refine (eq_trans (f_equal csqrt (gsum_ext (K := CC) plane (fun ij => cmul (r ij) (cconj (r ij))) (fun ij => cmul (V (middle sh ij)) (cconj (V (middle sh ij)))) _)) _).
      + intros ij Hij. destruct (G_some _ _ (A ij Hij)) as [_ ->]. reflexivity.
      + refine (eq_trans (f_equal csqrt (gsum_self_conj plane (fun ij => V (middle sh ij)))) _). apply csqrt_real.
        apply gsum_nonneg. intros j _. cbv beta. unfold cnrm. nra.
    - intros ij Hij. exact (proj1 (G_some _ _ (A ij Hij))).
  Qed.
  Lemma norm_fin : (forall ij, inb plane ij -> z' (middle sh ij) <> 0) -> exists n, norm = Some n.
  Proof.
    intro H. unfold norm. destruct (all_finite_some plane (fun ij => G (middle sh ij)) (fun ij => V (middle sh ij))) as (r & -> & _).
    - intros j Hj. apply G_val. now apply H.
    - eexists. reflexivity.
  Qed.
  Lemma beam_some B idx v : gaussian_beam sh xyz center w0 wl tilt = Some B -> inb sh idx -> B idx = Some v ->
    v = cmul (mkC (/ sqrt power) 0) (V idx) /\ z' idx <> 0 /\ forall ij, inb plane ij -> z' (middle sh ij) <> 0.
  Proof.
    intros HB Hi E. destruct (beam_def B HB) as [_ D]. rewrite D in E.
    destruct (G idx) as [g|] eqn:EG; [|discriminate]. destruct norm as [n|] eqn:EN; [|discriminate].
    destruct (norm_val n EN) as [-> Z]. destruct (G_some _ _ EG) as [Z0 ->].
    unfold ndiv in E. destruct cpx_dec as [|N]; [discriminate|]. apply (f_equal (fun o => match o with Some x => x | None => c0 end)) in E. cbv iota beta in E. rewrite <- E. clear E. split; [|split; assumption].
    pose proof (sqrt_lt_R0 _ (power_pos idx Hi)) as P. set (s := sqrt power) in *. set (u := V idx). clearbody u s.
    apply cpx_ext; unfold cdiv, cinv, cmul, cnrm; cbn [cre cim]; field; lra.
  Qed.
  Lemma beam_finite B idx : gaussian_beam sh xyz center w0 wl tilt = Some B -> inb sh idx ->
    z' idx <> 0 -> (forall ij, inb plane ij -> z' (middle sh ij) <> 0) -> exists v, B idx = Some v.
  Proof.
    intros HB Hi Z0 Z. destruct (beam_def B HB) as [_ D]. destruct (norm_fin Z) as [n EN].
    rewrite D, EN, (G_val idx Z0). destruct (norm_val n EN) as [-> _]. cbn. destruct cpx_dec as [E|E].
    - apply (f_equal cre) in E. exfalso. exact (Rgt_not_eq _ _ (sqrt_lt_R0 _ (power_pos idx Hi)) E).
    - eexists. reflexivity.
  Qed.
End Beam.

(** ** C110: the beam solves the paraxial Helmholtz equation *)
(** All finite samples are values of one wave u exp(i k z') / N whose envelope u
    solves the paraxial equation and is exp(-r^2 / w0^2) at the waist, in coordinates
    rotated around y by the tilt. *)
Theorem C110_paraxial_beam :
  forall sh xyz center w0 wl tilt B,
    length sh = 3%nat -> 0 < w0 -> 0 < wl -> gaussian_beam sh xyz center w0 wl tilt = Some B ->
    let k := 2 * PI / wl in
    exists (u : R -> R -> R -> cpx) (N : R),
      paraxial k u /\ (forall x y, u x y 0 = mkC (exp (- (x * x + y * y) / (w0 * w0))) 0) /\ 0 < N /\
      forall idx v, inb sh idx -> B idx = Some v ->
        let p := point xyz idx in
        let z := along tilt p center in
        v = cmul (mkC (/ N) 0) (cmul (u (across_x tilt p center) (across_y p center) z) (cexp (mkC 0 (k * z)))).
Proof.
  intros sh xyz center w0 wl tilt B HL Hw Hl HB k.
  exists (env w0 wl).
  pose (W := gsum (K := RF) [dim sh 0; dim sh 1] (fun ij => cnrm (let idx := middle sh ij in
    cmul (env w0 wl (across_x tilt (point xyz idx) center) (across_y (point xyz idx) center) (along tilt (point xyz idx) center))
         (cexp (mkC 0 (2 * PI / wl * along tilt (point xyz idx) center)))))).
  exists (if Rlt_dec 0 W then sqrt W else 1).
  split; [exact (env_paraxial w0 wl Hw Hl)|]. split; [exact (env_waist w0 wl Hw Hl)|].
  split; [destruct (Rlt_dec 0 W); [now apply sqrt_lt_R0|lra]|].
  intros idx v Hi E p z. destruct (beam_some sh xyz center w0 wl tilt HL Hw Hl B idx v HB Hi E) as [-> _].
  pose proof (power_pos sh xyz center w0 wl tilt HL idx Hi) as P.
  destruct (Rlt_dec 0 W) as [_|N]; [reflexivity|]. elim N. exact P.
Qed.
Print Assumptions C110_paraxial_beam.

(** ** C111: samples in the waist plane *)
(** A sample is finite exactly when neither it nor any sample of the middle slice
    along z lies in the plane through the waist. *)
Theorem C111_finite_iff :
  forall sh xyz center w0 wl tilt B,
    length sh = 3%nat -> 0 < w0 -> 0 < wl -> gaussian_beam sh xyz center w0 wl tilt = Some B ->
    forall idx, inb sh idx ->
      (B idx <> None <->
       along tilt (point xyz idx) center <> 0 /\
       forall i j, (i < dim sh 0)%nat -> (j < dim sh 1)%nat -> along tilt (point xyz [i; j; (dim sh 2 / 2)%nat]) center <> 0).
Proof.
  intros sh xyz center w0 wl tilt B HL Hw Hl HB idx Hi. split.
  - intro N. destruct (B idx) as [v|] eqn:E; [|now elim N].
    destruct (beam_some sh xyz center w0 wl tilt HL Hw Hl B idx v HB Hi E) as (_ & Z0 & Z).
    split; [exact Z0|]. intros i j Hi' Hj. apply (Z [i; j]). repeat constructor; assumption.
  - intros [Z0 Z]. destruct (beam_finite sh xyz center w0 wl tilt HL Hw Hl B idx HB Hi Z0) as [v ->]; [|discriminate].
    intros ij Hij. pose proof (inb_coord _ _ 0 Hij ltac:(cbn; lia)) as A. pose proof (inb_coord _ _ 1 Hij ltac:(cbn; lia)) as C.
    apply Z; assumption.
Qed.
Print Assumptions C111_finite_iff.

(** So with the center on the middle sample along z and no tilt, every value of the
    result is NaN, wherever the other samples are. *)
Theorem C111_all_nan :
  forall sh xyz center w0 wl B,
    length sh = 3%nat -> 0 < w0 -> 0 < wl -> gaussian_beam sh xyz center w0 wl 0 = Some B ->
    center 2%nat = xyz 2%nat (dim sh 2 / 2)%nat ->
    forall idx, inb sh idx -> B idx = None.
Proof.
  intros sh xyz center w0 wl B HL Hw Hl HB Hc idx Hi.
  destruct (B idx) as [v|] eqn:E; [|reflexivity]. exfalso.
  assert (N : B idx <> None) by (rewrite E; discriminate).
  apply (C111_finite_iff sh xyz center w0 wl 0 B HL Hw Hl HB idx Hi) in N. destruct N as [_ N].
  apply (N (coord idx 0) (coord idx 1)); try (apply inb_coord; [exact Hi|lia]).
  unfold along, point. cbn [coord nth]. rewrite <- Hc, sin_0. ring.
Qed.
Print Assumptions C111_all_nan.

(** The expectation that a beam with a positive waist and wavelength has finite
    samples is false: a 1 x 1 x 3 grid around the waist. *)
Theorem C111_finite_refuted :
  exists sh xyz center w0 wl B,
    length sh = 3%nat /\ 0 < w0 /\ 0 < wl /\ gaussian_beam sh xyz center w0 wl 0 = Some B /\
    exists idx, inb sh idx /\ along 0 (point xyz idx) center <> 0 /\ B idx = None.
Proof.
  set (xyz := fun (j i : nat) => match j with 2%nat => INR i - 1 | _ => 0 end).
  destruct (gaussian_beam [1; 1; 3]%nat xyz (fun _ => 0) 1 1 0) as [B|] eqn:E; [|discriminate E].
  exists [1; 1; 3]%nat, xyz, (fun _ => 0), 1, 1, B. split; [reflexivity|]. split; [lra|]. split; [lra|]. split; [exact E|].
  exists [0; 0; 0]%nat. split; [repeat constructor|]. split.
  - unfold along, point, xyz. cbn [coord nth]. rewrite cos_0, sin_0. cbn [INR]. lra.
  - refine (C111_all_nan [1; 1; 3]%nat xyz (fun _ => 0) 1 1 B eq_refl _ _ E _ [0; 0; 0]%nat _); try lra; [|repeat constructor].
    unfold xyz, dim. cbn. lra.
Qed.
Print Assumptions C111_finite_refuted.

(** ** C112: normalisation and position *)
(** The squared magnitudes over the middle slice sum to 1 (if they are finite) ... *)
Theorem C112_middle_slice_power :
  forall sh xyz center w0 wl tilt B (v : list nat -> cpx),
    length sh = 3%nat -> 0 < w0 -> 0 < wl -> gaussian_beam sh xyz center w0 wl tilt = Some B ->
    (0 < dim sh 0)%nat -> (0 < dim sh 1)%nat ->
    (forall i j, (i < dim sh 0)%nat -> (j < dim sh 1)%nat ->
       B [i; j; (dim sh 2 / 2)%nat] = Some (v [i; j])) ->
    gsum (K := RF) [dim sh 0; dim sh 1] (fun ij => cnrm (v ij)) = 1.
Proof.
  intros sh xyz center w0 wl tilt B v HL Hw Hl HB H0 H1 Hv.
  assert (D2 : dim sh 2 <> 0%nat) by exact (proj1 (beam_def sh xyz center w0 wl tilt B HB)).
  assert (Lt : (dim sh 2 / 2 < dim sh 2)%nat) by (apply Nat.div_lt; lia).
  assert (In : forall i j, (i < dim sh 0)%nat -> (j < dim sh 1)%nat -> inb sh [i; j; (dim sh 2 / 2)%nat]).
  { intros i j Hi Hj. destruct sh as [|a [|b [|c [|]]]]; try discriminate HL. repeat constructor; assumption. }
  pose proof (power_pos sh xyz center w0 wl tilt HL _ (In 0%nat 0%nat H0 H1)) as P.
  set (W := gsum _ _) in P. pose proof (sqrt_lt_R0 _ P) as S. pose proof (sqrt_sqrt W ltac:(lra)) as SS.
  transitivity (/ W * W); [|apply Rinv_l; lra]. unfold W at 2.
  refine (eq_trans _ (gsum_mul_l RF _ (/ W) _)). apply gsum_ext. intros ij Hij.
  pose proof (inb_coord _ _ 0 Hij ltac:(cbn; lia)) as A. pose proof (inb_coord _ _ 1 Hij ltac:(cbn; lia)) as C.
  change (dim [dim sh 0; dim sh 1] 0) with (dim sh 0) in A. change (dim [dim sh 0; dim sh 1] 1) with (dim sh 1) in C.
  assert (Eij : ij = [coord ij 0; coord ij 1]).
  { pose proof (inb_length _ _ Hij) as L. destruct ij as [|i [|j [|]]]; try discriminate L. reflexivity. }
  destruct (beam_some sh xyz center w0 wl tilt HL Hw Hl B _ _ HB (In _ _ A C) (Hv _ _ A C)) as [EV _].
  rewrite <- Eij in EV. change [coord ij 0; coord ij 1; (dim sh 2 / 2)%nat] with (middle sh ij) in EV. fold W in EV. refine (eq_trans (f_equal cnrm EV) _).
  set (x := cmul (env _ _ _ _ _) _). clearbody x. unfold cnrm, cmul. cbn [cre cim fmul RF].
  set (s := sqrt W) in *. clearbody s. rewrite <- SS. change (@finv RF) with Rinv. field. lra.
Qed.
Print Assumptions C112_middle_slice_power.

(** ... and moving all samples and the center by the same vector changes nothing. *)
Theorem C112_translation :
  forall sh xyz center w0 wl tilt (s : nat -> R) B B',
    gaussian_beam sh xyz center w0 wl tilt = Some B ->
    gaussian_beam sh (fun j i => xyz j i + s j) (fun j => center j + s j) w0 wl tilt = Some B' ->
    forall idx, B idx = B' idx.
Proof.
  intros sh xyz center w0 wl tilt s B B' H H' idx.
  rewrite (proj2 (beam_def sh xyz center w0 wl tilt B H)), (proj2 (beam_def sh _ _ w0 wl tilt B' H')).
  assert (R : forall idx i, rotated tilt (offset (fun j i0 => xyz j i0 + s j) (fun j => center j + s j) idx) i = rotated tilt (offset xyz center idx) i).
  { intros j i. unfold rotated, offset. cbn. ring. }
  cbv zeta. rewrite !R. f_equal.
  match goal with |- option_map _ (all_finite _ ?a) = option_map _ (all_finite _ ?b) => set (f := a); set (f' := b) end.
  assert (E : forall j, f' j = f j) by (intro j; unfold f, f'; cbv zeta; now rewrite !R). clearbody f f'.
  destruct (all_finite _ f) as [r|] eqn:A; destruct (all_finite _ f') as [r'|] eqn:A'; cbn [option_map].
  - f_equal. f_equal. apply (gsum_ext (K := CC)). intros j Hj.
    pose proof (all_finite_inv _ _ _ A j Hj) as X. pose proof (all_finite_inv _ _ _ A' j Hj) as X'. rewrite E, X in X'. injection X' as <-. reflexivity.
  - destruct (all_finite_some [dim sh 0; dim sh 1] f' r) as (g & Eg & _); [|congruence]. intros j Hj. rewrite E. now apply (all_finite_inv _ _ _ A).
  - destruct (all_finite_some [dim sh 0; dim sh 1] f r') as (g & Eg & _); [|congruence]. intros j Hj. rewrite <- E. now apply (all_finite_inv _ _ _ A').
  - reflexivity.
Qed.
Print Assumptions C112_translation.

(** A case meeting the hypotheses of C110 and C112: two samples along z, waist
    between them. *)
Example C110_example :
  exists B v, gaussian_beam [1; 2; 2]%nat (fun j i => match j with 0%nat => 0 | _ => INR i end) (fun j => match j with 2%nat => /2 | _ => 0 end) 1 1 0 = Some B /\
    (forall i j, (i < 1)%nat -> (j < 2)%nat -> B [i; j; 1]%nat = Some (v [i; j])) /\ v [0; 0]%nat <> v [0; 1]%nat.
Proof.
  set (xyz := fun (j i : nat) => match j with 0%nat => 0 | _ => INR i end). set (ce := fun j : nat => match j with 2%nat => / 2 | _ => 0 end).
  destruct (gaussian_beam [1; 2; 2]%nat xyz ce 1 1 0) as [B|] eqn:E; [|discriminate E].
  exists B, (fun ij => match B [coord ij 0; coord ij 1; 1]%nat with Some x => x | None => c0 end). split; [reflexivity|].
  assert (F : forall i j, (i < 1)%nat -> (j < 2)%nat -> exists x, B [i; j; 1]%nat = Some x).
  { intros i j Hi Hj. apply (beam_finite [1; 2; 2]%nat xyz ce 1 1 0 eq_refl ltac:(lra) ltac:(lra) B _ E).
    - repeat (constructor; try lia).
    - unfold along, point, xyz, ce. cbn [coord nth]. rewrite cos_0, sin_0. cbn [INR]. lra.
    - intros ij _. unfold along, point, xyz, ce, middle. cbn [coord nth]. rewrite cos_0, sin_0. change (dim [1; 2; 2]%nat 2 / 2)%nat with 1%nat. cbn [INR]. lra. }
  split.
  - intros i j Hi Hj. cbn [coord nth]. destruct (F i j Hi Hj) as [x ->]. reflexivity.
  - cbn [coord nth]. destruct (F 0%nat 0%nat ltac:(lia) ltac:(lia)) as [x Ex]. destruct (F 0%nat 1%nat ltac:(lia) ltac:(lia)) as [y Ey].
    rewrite Ex, Ey. intro Q.
    destruct (beam_some [1; 2; 2]%nat xyz ce 1 1 0 eq_refl ltac:(lra) ltac:(lra) B [0; 0; 1]%nat x E ltac:(repeat constructor) Ex) as [Vx _].
    destruct (beam_some [1; 2; 2]%nat xyz ce 1 1 0 eq_refl ltac:(lra) ltac:(lra) B [0; 1; 1]%nat y E ltac:(repeat constructor) Ey) as [Vy _].
    pose proof (power_pos [1; 2; 2]%nat xyz ce 1 1 0 eq_refl [0; 0; 1]%nat ltac:(repeat constructor)) as P.
    pose proof (sqrt_lt_R0 _ P) as S. apply Rinv_0_lt_compat in S. set (s := / sqrt _) in *. clearbody s.
    assert (Ce : forall t, cnrm (cexp t) = exp (cre t) * exp (cre t)).
    { intro t. unfold cexp, cnrm. cbn [cre cim]. pose proof (sin2_cos2 (cim t)) as Z. unfold Rsqr in Z. nra. }
    assert (Cm : forall a b, cnrm (cmul a b) = cnrm a * cnrm b) by (intros; unfold cnrm, cmul; cbn [cre cim]; ring).
    assert (N : cnrm x = cnrm y) by now rewrite Q.
    rewrite Vx, Vy in N. rewrite !Cm in N. unfold env in N. rewrite !Cm, !Ce in N.
    replace (along 0 (point xyz [0; 0; 1]%nat) ce) with (/ 2) in N by (unfold along, point, xyz, ce; cbn [coord nth]; rewrite cos_0, sin_0; cbn [INR]; lra).
    replace (along 0 (point xyz [0; 1; 1]%nat) ce) with (/ 2) in N by (unfold along, point, xyz, ce; cbn [coord nth]; rewrite cos_0, sin_0; cbn [INR]; lra).
    replace (across_x 0 (point xyz [0; 0; 1]%nat) ce) with 0 in N by (unfold across_x, point, xyz, ce; cbn [coord nth]; rewrite cos_0, sin_0; cbn [INR]; lra).
    replace (across_x 0 (point xyz [0; 1; 1]%nat) ce) with 0 in N by (unfold across_x, point, xyz, ce; cbn [coord nth]; rewrite cos_0, sin_0; cbn [INR]; lra).
    replace (across_y (point xyz [0; 0; 1]%nat) ce) with 0 in N by (unfold across_y, point, xyz, ce; cbn [coord nth INR]; lra).
    replace (across_y (point xyz [0; 1; 1]%nat) ce) with 1 in N by (unfold across_y, point, xyz, ce; cbn [coord nth INR]; lra).
    set (q := cinv (bq 1 1 (/ 2))) in *.
    assert (Q0 : 0 < cre q).
    { unfold q, cinv, bq, cnrm. cbn [cre cim]. apply Rdiv_lt_0_compat; [lra|]. nra. }
    assert (Cn : 0 < cnrm q) by (unfold cnrm; nra).
    assert (Cs : 0 < cnrm (mkC s 0)) by (unfold cnrm; cbn [cre cim]; nra).
    cbn [cre cim cmul] in N. rewrite !exp_0 in N.
    replace (- (0 * 0 + 0 * 0) / (1 * 1) * cre q - 0 * cim q) with 0 in N by field.
    replace (- (0 * 0 + 1 * 1) / (1 * 1) * cre q - 0 * cim q) with (- cre q) in N by field.
    rewrite exp_0 in N.
    assert (L : exp (- cre q) < 1) by (rewrite <- exp_0; apply exp_increasing; lra).
    pose proof (exp_pos (- cre q)) as Lp. set (e := exp (- cre q)) in *. clearbody e.
    assert (M : cnrm (mkC s 0) * cnrm q * (1 - e * e) = 0) by nra.
    apply Rmult_integral in M as [M|M]; [apply Rmult_integral in M as [M|M]; lra|]. nra.
Qed.
