(** Properties of meanas/fdfd/farfield.py. *)
From Coq Require Import Reals List Arith ZArith Lia Lra Psatz Bool Field.
From Verif.Lib Require Import Num Sums Idx RealF Dft.
From Verif.Model Require Import Ndarray Bloch Farfield.
From Verif.Spec Require Import BlochSpec FarSpec.
From Verif.Proofs Require Import EmeP NdarrayP BlochP BlochP2 FarP FarP2 FarP3.
Import ListNotations.
Local Open Scope R_scope.

(** The content of the field at transform index q is an outgoing plane wave of a
    direction above the plane; or there is no content. *)
Definition propagates sh dx dy (E H : nat -> list nat -> cpx) q : Prop :=
  let kx := dft_k (dim sh 0) dx (coord q 0) in let ky := dft_k (dim sh 1) dy (coord q 1) in
  kx * kx + ky * ky < 2 * PI * (2 * PI) /\ outgoing kx ky (fftn sh (E 0%nat) q) (fftn sh (E 1%nat) q) (fftn sh (H 0%nat) q) (fftn sh (H 1%nat) q).
Definition vanishes sh (E H : nat -> list nat -> cpx) q : Prop := forall a, (a < 2)%nat -> fftn sh (E a) q = c0 /\ fftn sh (H a) q = c0.
(** q is a frequency on the edge of the propagating disc, or outside it. *)
Definition grazing sh dx dy q : Prop :=
  let kx := dft_k (dim sh 0) dx (coord q 0) in let ky := dft_k (dim sh 1) dy (coord q 1) in kx * kx + ky * ky = 2 * PI * (2 * PI).
Definition evanescent sh dx dy q : Prop :=
  let kx := dft_k (dim sh 0) dx (coord q 0) in let ky := dft_k (dim sh 1) dy (coord q 1) in 2 * PI * (2 * PI) < kx * kx + ky * ky.
(** What a padded size means: none given and all sizes powers of two, or the same size. *)
Lemma padded_same sh : padded sh (Some sh) = sh.
Proof. reflexivity. Qed.
Lemma padded_pow2 a b : padded [2 ^ a; 2 ^ b]%nat None = [2 ^ a; 2 ^ b]%nat.
Proof. cbn [padded map]. now rewrite !Nat.log2_up_pow2 by lia. Qed.

(** A plane wave exp(i (kx x + ky y)) on the grid. *)
Definition plane_wave (A : nat -> cpx) (kx ky dx dy : R) (a : nat) (idx : list nat) : cpx :=
  cmul (A a) (cis (kx * (INR (coord idx 0) * dx) + ky * (INR (coord idx 1) * dy))).
Lemma plane_wave_periods A n0 n1 dx dy z0 z1 a idx : (0 < n0)%nat -> (0 < n1)%nat -> 0 < dx -> 0 < dy ->
  plane_wave A (2 * PI * IZR z0 / (INR n0 * dx)) (2 * PI * IZR z1 / (INR n1 * dy)) dx dy a idx
  = cmul (A a) (cis (2 * PI * (IZR z0 * INR (coord idx 0) / INR n0 + IZR z1 * INR (coord idx 1) / INR n1))).
Proof.
  intros H0 H1 Px Py. apply (lt_INR 0) in H0. apply (lt_INR 0) in H1. cbn in H0, H1. unfold plane_wave. f_equal. f_equal. field. lra.
Qed.
Lemma outgoing_zero kx ky : outgoing kx ky c0 c0 c0 c0.
Proof. exists c0. repeat split; apply cpx_ext; cbn; ring. Qed.
Lemma outgoing_scale_r kx ky w Ex Ey Hx Hy : outgoing kx ky Ex Ey Hx Hy -> outgoing kx ky (cmul Ex w) (cmul Ey w) (cmul Hx w) (cmul Hy w).
Proof. intro O. apply (outgoing_scale _ _ w) in O. assert (M : forall z, cmul z w = cmul w z) by (intro z; apply cpx_ext; cbn; ring). rewrite !M. exact O. Qed.
Lemma wave_outgoing sh dx dy A B z0 z1 q : length sh = 2%nat -> inb sh q -> 0 < dx -> 0 < dy ->
  let kx0 := 2 * PI * IZR z0 / (INR (dim sh 0) * dx) in let ky0 := 2 * PI * IZR z1 / (INR (dim sh 1) * dy) in
  let E := plane_wave A kx0 ky0 dx dy in let H := plane_wave B kx0 ky0 dx dy in
  q <> [Z.to_nat (z0 mod Z.of_nat (dim sh 0)); Z.to_nat (z1 mod Z.of_nat (dim sh 1))] -> vanishes sh E H q.
Proof.
  intros Hsh Hq Px Py kx0 ky0 E H N a _. pose proof (inb_coord sh q 0 Hq ltac:(lia)). pose proof (inb_coord sh q 1 Hq ltac:(lia)).
  split.
  - rewrite (wave_spectrum sh (A a) z0 z1 q (E a) Hsh Hq) by (intros j Hj; apply plane_wave_periods; lia || assumption).
    destruct leqb eqn:L; [|reflexivity]. apply leqb_spec in L. congruence.
  - rewrite (wave_spectrum sh (B a) z0 z1 q (H a) Hsh Hq) by (intros j Hj; apply plane_wave_periods; lia || assumption).
    destruct leqb eqn:L; [|reflexivity]. apply leqb_spec in L. congruence.
Qed.
Lemma wave_content sh dx dy A z0 z1 q a : length sh = 2%nat -> inb sh q -> 0 < dx -> 0 < dy ->
  q = [Z.to_nat (z0 mod Z.of_nat (dim sh 0)); Z.to_nat (z1 mod Z.of_nat (dim sh 1))] ->
  fftn sh (plane_wave A (2 * PI * IZR z0 / (INR (dim sh 0) * dx)) (2 * PI * IZR z1 / (INR (dim sh 1) * dy)) dx dy a) q = cmul (A a) (mkC (INR (prodl sh)) 0).
Proof.
  intros Hsh Hq Px Py Q. pose proof (inb_coord sh q 0 Hq ltac:(lia)). pose proof (inb_coord sh q 1 Hq ltac:(lia)).
  rewrite (wave_spectrum sh (A a) z0 z1 q _ Hsh Hq) by (intros j Hj; apply plane_wave_periods; lia || assumption).
  rewrite <- Q. now rewrite (proj2 (leqb_spec q q) eq_refl).
Qed.

(** ** C51: the near field comes back *)
Theorem C51_round_trip n dx dy (E H : nat -> list nat -> cpx) ps :
  let sh := [n; n] in
  (2 <= n)%nat -> 0 < dx -> 0 < dy -> padded sh ps = sh ->
  (forall q, inb sh q -> propagates sh dx dy E H q \/ grazing sh dx dy q /\ vanishes sh E H q) ->
  exists F r, near_to_farfield sh E H dx dy ps = Some F /\
    far_to_nearfield sh (fE F) (fH F) (2 * PI / (INR n * dx)) (2 * PI / (INR n * dy)) ps = Some r /\
    (forall a idx, (a < 2)%nat -> inb sh idx -> nE r a idx = Some (E a idx) /\ nH r a idx = Some (H a idx)) /\
    ndx r = Some (mkC dx 0) /\ ndy r = Some (mkC dy 0).
Proof. exact (round_trip n dx dy E H ps). Qed.
Print Assumptions C51_round_trip.

(** A wave at sixty degrees from the normal, on a grid of two by two cells one wavelength wide. *)
Definition A_case : nat -> cpx := fun a => match a with O => c0 | _ => mkC 2 1 end.
Definition B_case : nat -> cpx := fun a => match a with O => rmul (- (sqrt 3 / 2)) (mkC 2 1) | _ => c0 end.
Lemma outgoing_case : outgoing (- PI) 0 (A_case 0) (A_case 1) (B_case 0) (B_case 1).
Proof.
  pose proof PI_RGT_0 as P. exists c0.
  assert (S : sqrt (2 * PI * (2 * PI) - (- PI * - PI + 0 * 0)) = sqrt 3 * PI).
  { replace (2 * PI * (2 * PI) - (- PI * - PI + 0 * 0)) with (3 * (PI * PI)) by ring. rewrite sqrt_mult by nra. rewrite sqrt_square by lra. reflexivity. }
  rewrite S. unfold A_case, B_case, rmul. split; [|split]; apply cpx_ext; cbn; field.
Qed.
Lemma dft_k_case i : (i < 2)%nat -> dft_k 2 1 i = if (i =? 0)%nat then 0 else - PI.
Proof. intro H. destruct i as [|[|i]]; [| |lia]; unfold dft_k, signed_freq; cbn; field. Qed.
Lemma inb2 a b q : inb [a; b] q -> exists i j, q = [i; j] /\ (i < a)%nat /\ (j < b)%nat.
Proof.
  intro H. inversion H as [|x n l s Hx Hl]; subst. inversion Hl as [|y n2 l2 s2 Hy Hl2]; subst. inversion Hl2; subst. eauto.
Qed.
Lemma waves_case : exists E H, (exists idx, inb [2; 2]%nat idx /\ E 1%nat idx <> c0) /\
  forall q, inb [2; 2]%nat q -> propagates [2; 2]%nat 1 1 E H q.
Proof.
  pose proof PI_RGT_0 as P.
  set (E := plane_wave A_case (2 * PI * IZR 1 / (INR 2 * 1)) (2 * PI * IZR 0 / (INR 2 * 1)) 1 1).
  set (H := plane_wave B_case (2 * PI * IZR 1 / (INR 2 * 1)) (2 * PI * IZR 0 / (INR 2 * 1)) 1 1).
  exists E, H. split.
  { exists [0; 0]%nat. split; [repeat constructor|]. unfold E, plane_wave. cbn [coord nth INR]. rewrite !Rmult_0_l, !Rmult_0_r, Rplus_0_r, cis_0.
    intro X. apply (f_equal cim) in X. cbn in X. lra. }
  intros q Hq. unfold propagates. cbn [dim nth]. destruct (inb2 _ _ _ Hq) as (i & j & -> & Hi & Hj). cbn [coord nth]. rewrite !dft_k_case by assumption.
  split; [destruct (i =? 0)%nat, (j =? 0)%nat; nra|].
  destruct (list_eq_dec Nat.eq_dec [i; j] [1; 0]%nat) as [Q|N].
  - injection Q as -> ->. cbn [Nat.eqb].
    assert (WE : forall a, fftn [2; 2]%nat (E a) [1; 0]%nat = cmul (A_case a) (mkC (INR (prodl [2; 2]%nat)) 0)) by (intro a; apply (wave_content [2; 2]%nat 1 1 A_case 1 0 [1; 0]%nat a); try exact Hq; try reflexivity; lra).
    assert (WH : forall a, fftn [2; 2]%nat (H a) [1; 0]%nat = cmul (B_case a) (mkC (INR (prodl [2; 2]%nat)) 0)) by (intro a; apply (wave_content [2; 2]%nat 1 1 B_case 1 0 [1; 0]%nat a); try exact Hq; try reflexivity; lra).
    rewrite !WE, !WH. apply outgoing_scale_r, outgoing_case.
  - assert (V : vanishes [2; 2]%nat E H [i; j]) by (apply (wave_outgoing [2; 2]%nat 1 1 A_case B_case 1 0 [i; j]); try exact Hq; try reflexivity; try lra; exact N).
    destruct (V 0%nat ltac:(lia)) as [-> ->]. destruct (V 1%nat ltac:(lia)) as [-> ->]. apply outgoing_zero.
Qed.
Example C51_case : exists E H ps, padded [2; 2]%nat ps = [2; 2]%nat /\ (exists idx, inb [2; 2]%nat idx /\ E 1%nat idx <> c0) /\
  forall q, inb [2; 2]%nat q -> propagates [2; 2]%nat 1 1 E H q \/ grazing [2; 2]%nat 1 1 q /\ vanishes [2; 2]%nat E H q.
Proof. destruct waves_case as (E & H & N & W). exists E, H, None. split; [exact (padded_pow2 1 1)|]. split; [exact N|]. intros q Hq. left. now apply W. Qed.

(** ** C95: the far field carries the power of the near field *)
Theorem C95_power sh E H dx dy ps : length sh = 2%nat -> (2 <= dim sh 0)%nat -> (0 < dim sh 1)%nat -> padded sh ps = sh -> 0 < dx -> 0 < dy ->
  (forall q, inb sh q -> propagates sh dx dy E H q) ->
  exists F e, near_to_farfield sh E H dx dy ps = Some F /\ (forall a idx, (a < 2)%nat -> inb sh idx -> fE F a idx = Some (e a idx)) /\
    let cos_phi idx := sqrt (2 * PI * (2 * PI) - (fkx F idx * fkx F idx + fky F idx * fky F idx)) / (2 * PI) in
    gsum (K := RF) sh (fun idx => (cnrm (e 0%nat idx) + cnrm (e 1%nat idx)) / (4 * cos_phi idx))
    = INR (prodl sh) * gsum (K := RF) sh (fun x => cre (csub (cmul (E 0%nat x) (cconj (H 1%nat x))) (cmul (E 1%nat x) (cconj (H 0%nat x))))).
Proof. exact (far_power sh E H dx dy ps). Qed.
Print Assumptions C95_power.
Example C95_case : exists E H, (exists idx, inb [2; 2]%nat idx /\ E 1%nat idx <> c0) /\ forall q, inb [2; 2]%nat q -> propagates [2; 2]%nat 1 1 E H q.
Proof. exact waves_case. Qed.

(** ** C96: theta and phi are the angles of the wavevector *)
Theorem C96_angles sh E H dx dy ps F idx : near_to_farfield sh E H dx dy ps = Some F ->
  fkx F idx * fkx F idx + fky F idx * fky F idx < 2 * PI * (2 * PI) ->
  exists th ph, ftheta F idx = Some (mkC th 0) /\ fphi F idx = Some (mkC ph 0) /\ - PI < th <= PI /\ 0 <= ph < PI / 2 /\
    fkx F idx = 2 * PI * sin ph * cos th /\ fky F idx = 2 * PI * sin ph * sin th.
Proof.
  intros EF L. assert (ET : ftheta F = theta (fkx F) (fky F) /\ fphi F = phi (fkx F) (fky F)).
  { unfold near_to_farfield in EF. cbv zeta in EF. destruct Nat.ltb; [discriminate|]. apply (f_equal (fun o => match o with Some x => x | None => F end)) in EF. cbn in EF. rewrite <- EF. split; reflexivity. }
  destruct ET as [-> ->]. exact (angles (fkx F) (fky F) idx L).
Qed.
Print Assumptions C96_angles.
Theorem C96_beyond sh E H dx dy ps F idx : near_to_farfield sh E H dx dy ps = Some F ->
  2 * PI * (2 * PI) <= fkx F idx * fkx F idx + fky F idx * fky F idx ->
  ftheta F idx = Some c0 /\ fphi F idx = Some c0 /\ forall a, fE F a idx = Some c0 /\ fH F a idx = Some c0.
Proof.
  intros EF L. unfold near_to_farfield in EF. cbv zeta in EF. destruct Nat.ltb; [discriminate|]. apply (f_equal (fun o => match o with Some x => x | None => F end)) in EF. cbn beta iota in EF. subst F.
  cbn [fkx fky ftheta fphi fE fH] in *. unfold theta, phi.
  match goal with |- context [invalid ?x ?y idx] => assert (I : invalid x y idx = true) by (apply invalid_true; exact L) end.
  rewrite !I. repeat split.
Qed.
Print Assumptions C96_beyond.
Example C96_case : exists F idx, near_to_farfield [2; 2]%nat (fun _ _ => c0) (fun _ _ => c0) 1 1 None = Some F /\ inb [2; 2]%nat idx /\
  fkx F idx = - PI /\ fky F idx = - PI.
Proof.
  destruct (near_eval [2; 2]%nat (fun _ _ => c0) (fun _ _ => c0) 1 1 None) as (F & EF & HK & _); try reflexivity; try lra.
  exists F, [0; 0]%nat. assert (Hi : inb [2; 2]%nat [0; 0]%nat) by (repeat constructor). split; [exact EF|]. split; [exact Hi|].
  destruct (HK _ Hi) as [-> ->]. split; exact (dft_k_case 1 ltac:(lia)).
Qed.

(** ** C97: where a plane wave appears *)
Lemma near_zero sh E H dx dy ps : length sh = 2%nat -> (2 <= dim sh 0)%nat -> padded sh ps = sh -> 0 < dx -> 0 < dy ->
  forall F idx a, near_to_farfield sh E H dx dy ps = Some F -> inb sh idx -> (a < 2)%nat -> vanishes sh E H (fwd sh idx) -> fE F a idx = Some c0 /\ fH F a idx = Some c0.
Proof.
  intros Hsh H2 Hps Px Py F idx a EF Hi Ha V. destruct (near_eval sh E H dx dy ps Hsh H2 Hps Px Py) as (F' & EF' & HK & HI & HV).
  assert (F' = F) by congruence. subst F'. destruct (invalid (fkx F) (fky F) idx) eqn:IV; [exact (HI idx Hi IV a)|].
  destruct (ang_val (fkx F) (fky F) idx) as (c & s & HC & HS & _).
  assert (LE : kxy2 (fkx F) (fky F) idx <= k_2pi * k_2pi) by (apply invalid_false in IV; lra).
  destruct (HV idx _ _ _ Hi IV (cos_phi_val _ _ _ LE) HC HS) as (Q0 & Q1 & Q2 & Q3).
  pose proof (fwd_inb sh Hsh idx Hi) as Hq. rewrite !(fftn_fftshift sh Hsh) in Q0, Q1, Q2, Q3 by exact Hq.
  destruct (V 0%nat ltac:(lia)) as [V0 V0']. destruct (V 1%nat ltac:(lia)) as [V1 V1']. rewrite V0, V0', V1, V1' in Q0, Q1, Q2, Q3.
  destruct a as [|[|a]]; [rewrite Q0, Q2|rewrite Q1, Q3|lia]; split; apply (f_equal Some); apply cpx_ext; cbn; ring.
Qed.
Theorem C97_direction sh dx dy ps A B q F :
  length sh = 2%nat -> (2 <= dim sh 0)%nat -> padded sh ps = sh -> 0 < dx -> 0 < dy -> inb sh q ->
  let kx := dft_k (dim sh 0) dx (coord q 0) in let ky := dft_k (dim sh 1) dy (coord q 1) in
  near_to_farfield sh (plane_wave A kx ky dx dy) (plane_wave B kx ky dx dy) dx dy ps = Some F ->
  (forall a idx, (a < 2)%nat -> inb sh idx -> fE F a idx = Some c0 /\ fH F a idx = Some c0 \/ fkx F idx = kx /\ fky F idx = ky) /\
  (kx * kx + ky * ky < 2 * PI * (2 * PI) -> outgoing kx ky (A 0%nat) (A 1%nat) (B 0%nat) (B 1%nat) ->
   exists idx e0 e1, inb sh idx /\ fkx F idx = kx /\ fky F idx = ky /\ fE F 0%nat idx = Some e0 /\ fE F 1%nat idx = Some e1 /\
     (cnrm e0 + cnrm e1) / (4 * (sqrt (2 * PI * (2 * PI) - (kx * kx + ky * ky)) / (2 * PI)))
     = INR (prodl sh) * INR (prodl sh) * cre (csub (cmul (A 0%nat) (cconj (B 1%nat))) (cmul (A 1%nat) (cconj (B 0%nat))))).
Proof.
  intros Hsh H2 Hps Px Py Hq kx ky EF. set (E := plane_wave A kx ky dx dy) in *. set (H := plane_wave B kx ky dx dy) in *.
  pose proof (inb_coord sh q 0 Hq ltac:(lia)) as L0. pose proof (inb_coord sh q 1 Hq ltac:(lia)) as L1.
  assert (Q : q = [Z.to_nat (signed_freq (dim sh 0) (coord q 0) mod Z.of_nat (dim sh 0)); Z.to_nat (signed_freq (dim sh 1) (coord q 1) mod Z.of_nat (dim sh 1))]).
  { rewrite !signed_mod by assumption. destruct sh as [|a [|b [|]]]; try discriminate. destruct (inb2 _ _ _ Hq) as (i & j & -> & _ & _). reflexivity. }
  destruct (near_eval sh E H dx dy ps Hsh H2 Hps Px Py) as (F' & EF' & HK & _ & HV). assert (F' = F) by congruence. subst F'.
  split.
  - intros a idx Ha Hi. destruct (list_eq_dec Nat.eq_dec (fwd sh idx) q) as [X|N].
    + right. destruct (HK idx Hi) as [-> ->]. rewrite X. split; reflexivity.
    + left. apply (near_zero sh E H dx dy ps Hsh H2 Hps Px Py F idx a EF Hi Ha).
      apply (wave_outgoing sh dx dy A B (signed_freq (dim sh 0) (coord q 0)) (signed_freq (dim sh 1) (coord q 1)) (fwd sh idx) Hsh (fwd_inb sh Hsh idx Hi) Px Py).
      rewrite <- Q. exact N.
  - intros Lt O. pose proof (bwd_inb sh Hsh q Hq) as Hi. set (idx := bwd sh q) in *.
    assert (X : fwd sh idx = q) by now apply fwd_bwd. destruct (HK idx Hi) as [Kx Ky]. rewrite X in Kx, Ky. change (fkx F idx = kx) in Kx. change (fky F idx = ky) in Ky.
    change (2 * PI) with k_2pi in *.
    assert (L' : kxy2 (fkx F) (fky F) idx < k_2pi * k_2pi) by (unfold kxy2; rewrite Kx, Ky; exact Lt).
    assert (LE : kxy2 (fkx F) (fky F) idx <= k_2pi * k_2pi) by lra.
    assert (IV : invalid (fkx F) (fky F) idx = false) by (apply invalid_false; exact L').
    destruct (ang_val (fkx F) (fky F) idx) as (c & s & HC & HS & U & Kx' & Ky').
    destruct (HV idx _ _ _ Hi IV (cos_phi_val _ _ _ LE) HC HS) as (E0 & E1 & _ & _). eexists idx, _, _. split; [exact Hi|]. split; [exact Kx|]. split; [exact Ky|]. split; [exact E0|]. split; [exact E1|].
    pose proof (cph_pos _ _ _ L') as Pc. pose proof (cph_sq _ _ _ LE) as Qc.
    replace (sqrt (k_2pi * k_2pi - (kx * kx + ky * ky)) / k_2pi) with (cph (fkx F) (fky F) idx) by (unfold cph, kxy2; rewrite Kx, Ky; reflexivity).
    set (cp := cph (fkx F) (fky F) idx) in *. clearbody cp.
    assert (WE : forall a, fftn sh (E a) q = cmul (A a) (mkC (INR (prodl sh)) 0)) by (intro a; exact (wave_content sh dx dy A _ _ q a Hsh Hq Px Py Q)).
    assert (WH : forall a, fftn sh (H a) q = cmul (B a) (mkC (INR (prodl sh)) 0)) by (intro a; exact (wave_content sh dx dy B _ _ q a Hsh Hq Px Py Q)).
    rewrite X. rewrite !(fftn_fftshift sh Hsh) by exact Hq. rewrite !WE, !WH.
    apply (outgoing_scale_r _ _ (mkC (INR (prodl sh)) 0)) in O. apply (outgoing_scale _ _ (phase sh q)) in O. rewrite <- Kx, <- Ky in O.
    destruct (outgoing_rt _ _ _ _ _ _ _ cp c s O Kx' Ky' U Pc) as [Ha Hb]; [rewrite Qc; unfold kxy2; ring|].
    refine (eq_trans (cell_power cp c s _ _ _ _ ltac:(lra) U Ha Hb) _).
    assert (PH : cre (phase sh q) * cre (phase sh q) + cim (phase sh q) * cim (phase sh q) = 1).
    { unfold phase, cis. cbn. set (t1 := 2 * PI * _). set (t2 := 2 * PI * _). pose proof (sin2_cos2 t1). pose proof (sin2_cos2 t2). unfold Rsqr in *.
      transitivity ((sin t1 * sin t1 + cos t1 * cos t1) * (sin t2 * sin t2 + cos t2 * cos t2)); [ring|]. rewrite H0, H1. ring. }
    set (w := phase sh q) in *. clearbody w. set (N := INR (prodl sh)). clearbody N.
    transitivity ((cre w * cre w + cim w * cim w) * (N * N * cre (csub (cmul (A 0%nat) (cconj (B 1%nat))) (cmul (A 1%nat) (cconj (B 0%nat)))))).
    + cbn. ring.
    + rewrite PH. ring.
Qed.
Print Assumptions C97_direction.
Example C97_case : let sh := [2; 1]%nat in inb sh [1; 0]%nat /\ padded sh None = sh /\
  let kx := dft_k (dim sh 0) 1 1 in let ky := dft_k (dim sh 1) 1 0 in
  kx = - PI /\ kx * kx + ky * ky < 2 * PI * (2 * PI) /\ outgoing kx ky (A_case 0) (A_case 1) (B_case 0) (B_case 1) /\
  0 < cre (csub (cmul (A_case 0) (cconj (B_case 1))) (cmul (A_case 1) (cconj (B_case 0)))).
Proof.
  pose proof PI_RGT_0 as P. cbv zeta. cbn [dim nth]. rewrite (dft_k_case 1) by lia. cbn [Nat.eqb].
  replace (dft_k 1 1 0) with 0 by (unfold dft_k, signed_freq; cbn; field).
  split; [repeat constructor|]. split; [reflexivity|]. split; [reflexivity|]. split; [nra|]. split; [apply outgoing_case|].
  cbn. pose proof (sqrt_lt_R0 3 ltac:(lra)). lra.
Qed.

(** ** C98: with the documented convention the directions are mirrored
    The documented factor exp(-i k r) belongs to waves exp(-i (kx x + ky y + kz z)). *)
Theorem C98_mirrored sh dx dy ps A B q F :
  length sh = 2%nat -> (2 <= dim sh 0)%nat -> padded sh ps = sh -> 0 < dx -> 0 < dy -> inb sh q ->
  (2 * coord q 0 <> dim sh 0)%nat -> (2 * coord q 1 <> dim sh 1)%nat ->
  let kx := dft_k (dim sh 0) dx (coord q 0) in let ky := dft_k (dim sh 1) dy (coord q 1) in
  near_to_farfield sh (plane_wave A (- kx) (- ky) dx dy) (plane_wave B (- kx) (- ky) dx dy) dx dy ps = Some F ->
  forall a idx, (a < 2)%nat -> inb sh idx -> fE F a idx = Some c0 /\ fH F a idx = Some c0 \/ fkx F idx = - kx /\ fky F idx = - ky.
Proof.
  intros Hsh H2 Hps Px Py Hq N0 N1 kx ky EF a idx Ha Hi.
  pose proof (inb_coord sh q 0 Hq ltac:(lia)) as L0. pose proof (inb_coord sh q 1 Hq ltac:(lia)) as L1.
  set (m n i := Z.to_nat ((- signed_freq n i) mod Z.of_nat n)).
  set (q' := [m (dim sh 0) (coord q 0); m (dim sh 1) (coord q 1)]).
  assert (Hq' : inb sh q').
  { pose proof (Z.mod_pos_bound (- signed_freq (dim sh 0) (coord q 0)) (Z.of_nat (dim sh 0)) ltac:(lia)). pose proof (Z.mod_pos_bound (- signed_freq (dim sh 1) (coord q 1)) (Z.of_nat (dim sh 1)) ltac:(lia)).
    unfold q', m. clear q' m. destruct sh as [|x [|y [|]]]; try discriminate. unfold dim in *. cbn [nth] in *. constructor; [lia|]. constructor; [lia|]. constructor. }
  assert (K : forall n d i, (i < n)%nat -> (2 * i <> n)%nat -> 0 < d -> dft_k n d (m n i) = - dft_k n d i).
  { intros n d i Hin Nn Pd. unfold dft_k, m. rewrite signed_opp by assumption. rewrite opp_IZR. assert (0 < INR n) by (apply (lt_INR 0); lia). field. lra. }
  assert (Kx : dft_k (dim sh 0) dx (coord q' 0) = - kx) by (apply K; assumption).
  assert (Ky : dft_k (dim sh 1) dy (coord q' 1) = - ky) by (apply K; assumption).
  rewrite <- Kx, <- Ky in *. destruct (C97_direction sh dx dy ps A B q' F Hsh H2 Hps Px Py Hq' EF) as [R _]. now apply R.
Qed.
Print Assumptions C98_mirrored.
Lemma k_quarter : dft_k 4 1 1 = PI / 2.
Proof. unfold dft_k, signed_freq. cbn. field. Qed.
Lemma outgoing_mirror kx ky Ex Ey Hx Hy : outgoing kx ky Ex Ey Hx Hy -> outgoing (- kx) (- ky) Ex Ey Hx Hy.
Proof.
  intros (Ez & A & B & C). exists (copp Ez). replace (- kx * - kx + - ky * - ky) with (kx * kx + ky * ky) by ring.
  split; [|split].
  - transitivity (copp (cadd (cadd (rmul kx Ex) (rmul ky Ey)) (rmul (sqrt (2 * PI * (2 * PI) - (kx * kx + ky * ky))) Ez))); [apply cpx_ext; cbn; ring|]. rewrite A. apply cpx_ext; cbn; ring.
  - rewrite B. apply cpx_ext; cbn; ring.
  - rewrite C. apply cpx_ext; cbn; ring.
Qed.
(** A wave towards +x leaves its far field at a negative kx, and none at its own. *)
Theorem C98_documented_convention_refuted : exists sh dx dy A B q F,
  let kx := dft_k (dim sh 0) dx (coord q 0) in let ky := dft_k (dim sh 1) dy (coord q 1) in
  inb sh q /\ 0 < kx /\ outgoing kx ky (A 0%nat) (A 1%nat) (B 0%nat) (B 1%nat) /\
  near_to_farfield sh (plane_wave A (- kx) (- ky) dx dy) (plane_wave B (- kx) (- ky) dx dy) dx dy None = Some F /\
  (forall a idx, (a < 2)%nat -> inb sh idx -> fkx F idx = kx -> fE F a idx = Some c0) /\
  exists idx e0 e1, inb sh idx /\ fkx F idx < 0 /\ fE F 0%nat idx = Some e0 /\ fE F 1%nat idx = Some e1 /\ cnrm e0 + cnrm e1 <> 0.
Proof.
  pose proof PI_RGT_0 as P.
  set (A := fun a : nat => match a with O => c0 | _ => c1 end). set (B := fun a : nat => match a with O => mkC (- (sqrt 15 / 4)) 0 | _ => c0 end).
  assert (O : outgoing (PI / 2) 0 (A 0%nat) (A 1%nat) (B 0%nat) (B 1%nat)).
  { exists c0. assert (S : sqrt (2 * PI * (2 * PI) - (PI / 2 * (PI / 2) + 0 * 0)) = sqrt 15 / 2 * PI).
    { replace (2 * PI * (2 * PI) - (PI / 2 * (PI / 2) + 0 * 0)) with (15 * (PI / 2 * (PI / 2))) by field. rewrite sqrt_mult by nra. rewrite sqrt_square by lra. field. }
    rewrite S. unfold A, B, rmul. split; [|split]; apply cpx_ext; cbn; field. }
  assert (D0 : dft_k 1 1 0 = 0) by (unfold dft_k, signed_freq; cbn; field).
  set (E := plane_wave A (- (PI / 2)) (- 0) 1 1). set (H := plane_wave B (- (PI / 2)) (- 0) 1 1).
  destruct (near_eval [4; 1]%nat E H 1 1 None) as (F & EF & _); try reflexivity; try lra; [cbn; lia|].
  exists [4; 1]%nat, 1, 1, A, B, [1; 0]%nat, F. cbn [dim coord nth]. rewrite k_quarter, D0.
  split; [constructor; [lia|]; constructor; [lia|constructor]|]. split; [lra|]. split; [exact O|]. split; [exact EF|].
  split.
  - intros a idx Ha Hi K. pose proof (C98_mirrored [4; 1]%nat 1 1 None A B [1; 0]%nat F) as M. cbn [dim coord nth] in M. rewrite k_quarter, D0 in M.
    destruct (M eq_refl ltac:(lia) eq_refl ltac:(lra) ltac:(lra) ltac:(constructor; [lia|]; constructor; [lia|constructor]) ltac:(lia) ltac:(lia) EF a idx Ha Hi) as [[Z _]|[Z _]]; [exact Z|lra].
  - pose proof (C97_direction [4; 1]%nat 1 1 None A B [3; 0]%nat F) as M. cbn [dim coord nth] in M.
    assert (K3 : dft_k 4 1 3 = - (PI / 2)) by (unfold dft_k, signed_freq; cbn; field). assert (D0' : dft_k 1 1 0 = - 0) by (rewrite D0; ring). rewrite K3, D0' in M.
    destruct (M eq_refl ltac:(lia) eq_refl ltac:(lra) ltac:(lra) ltac:(constructor; [lia|]; constructor; [lia|constructor]) EF) as [_ R].
    destruct (R ltac:(nra) (outgoing_mirror _ _ _ _ _ _ O)) as (idx & e0 & e1 & Hi & Kx & _ & E0 & E1 & Pw).
    exists idx, e0, e1. split; [exact Hi|]. split; [rewrite Kx; lra|]. split; [exact E0|]. split; [exact E1|].
    intro Z. rewrite Z in Pw. unfold Rdiv in Pw. rewrite Rmult_0_l in Pw. pose proof (sqrt_lt_R0 15 ltac:(lra)). cbn in Pw. lra.
Qed.
Print Assumptions C98_documented_convention_refuted.

(** ** C99: any evanescent grid frequency makes far_to_nearfield return NaN *)
Theorem C99_evanescent_nan n dx dy Ef Hf ps q : let sh := [n; n] in 0 < dx -> 0 < dy -> padded sh ps = sh -> inb sh q -> evanescent sh dx dy q ->
  exists r, far_to_nearfield sh Ef Hf (2 * PI / (INR n * dx)) (2 * PI / (INR n * dy)) ps = Some r /\ forall a idx, nE r a idx = None /\ nH r a idx = None.
Proof.
  intros sh Px Py Hps Hq L. pose proof (inb_coord sh q 1 Hq ltac:(cbn; lia)) as Pn. change (dim sh 1) with n in Pn. pose proof PI_RGT_0.
  assert (0 < INR n) by (apply (lt_INR 0); lia).
  assert (0 < 2 * PI / (INR n * dx)) by (apply Rdiv_lt_0_compat; nra). assert (0 < 2 * PI / (INR n * dy)) by (apply Rdiv_lt_0_compat; nra).
  apply (far_nan n Ef Hf _ _ ps q); try assumption; try lra.
  unfold evanescent in L. change (dim sh 0) with n in L. change (dim sh 1) with n in L.
  replace (IZR (signed_freq n (coord q 0)) * (2 * PI / (INR n * dx))) with (dft_k n dx (coord q 0)) by (unfold dft_k; field; lra).
  replace (IZR (signed_freq n (coord q 1)) * (2 * PI / (INR n * dy))) with (dft_k n dy (coord q 1)) by (unfold dft_k; field; lra).
  exact L.
Qed.
Print Assumptions C99_evanescent_nan.
(** Cells narrower than half a wavelength always have such frequencies (n even). *)
Theorem C99_fine_cells_nan h dx dy Ef Hf : let n := (2 * h)%nat in (0 < h)%nat -> 0 < dx < 1 / 2 -> 0 < dy ->
  exists r, far_to_nearfield [n; n] Ef Hf (2 * PI / (INR n * dx)) (2 * PI / (INR n * dy)) (Some [n; n]) = Some r /\ forall a idx, nE r a idx = None /\ nH r a idx = None.
Proof.
  intros n Hh Px Py. pose proof PI_RGT_0 as P. assert (Ph : 0 < INR h) by (apply (lt_INR 0); lia).
  apply (C99_evanescent_nan n dx dy Ef Hf (Some [n; n]) [h; 0]%nat); try lra; [reflexivity|constructor; [unfold n; lia|]; constructor; [unfold n; lia|constructor]|].
  unfold evanescent. cbn [dim coord nth].
  assert (K : dft_k n dx h = - (PI / dx)).
  { unfold dft_k, signed_freq, n. destruct (Nat.ltb_spec (2 * h) (2 * h)); [lia|]. replace (Z.of_nat h - Z.of_nat (2 * h))%Z with (- Z.of_nat h)%Z by lia.
    rewrite opp_IZR, <- INR_IZR_INZ, mult_INR. cbn [INR]. field. lra. }
  rewrite K. assert (Q : 2 * PI < PI / dx). { apply (Rmult_lt_reg_r dx); [lra|]. replace (PI / dx * dx) with PI by (field; lra). nra. }
  set (u := PI / dx) in *. clearbody u. set (v := dft_k n dy 0). clearbody v. assert (2 * PI * (2 * PI) < u * u) by nra. nra.
Qed.
Print Assumptions C99_fine_cells_nan.
Theorem C99_round_trip_refuted : exists dx dy E H F r, let sh := [2; 2]%nat in
  (forall q, inb sh q -> propagates sh dx dy E H q \/ vanishes sh E H q) /\ (forall idx, E 0%nat idx = c1) /\
  near_to_farfield sh E H dx dy None = Some F /\
  far_to_nearfield sh (fE F) (fH F) (2 * PI / (INR 2 * dx)) (2 * PI / (INR 2 * dy)) None = Some r /\
  forall a idx, nE r a idx = None /\ nH r a idx = None.
Proof.
  pose proof PI_RGT_0 as P.
  set (A := fun a : nat => match a with O => c1 | _ => c0 end). set (B := fun a : nat => match a with O => c0 | _ => c1 end).
  set (kx := 2 * PI * IZR 0 / (INR 2 * (1 / 4))).
  set (E := plane_wave A kx kx (1 / 4) (1 / 4)). set (H := plane_wave B kx kx (1 / 4) (1 / 4)).
  destruct (near_eval [2; 2]%nat E H (1 / 4) (1 / 4) None) as (F & EF & _); try reflexivity; try lra.
  destruct (C99_fine_cells_nan 1 (1 / 4) (1 / 4) (fE F) (fH F) ltac:(lia) ltac:(lra) ltac:(lra)) as (r & Er & HN).
  exists (1 / 4), (1 / 4), E, H, F, r. cbv zeta. split; [|split; [|split; [exact EF|]; split; [exact Er|exact HN]]].
  - intros q Hq. destruct (list_eq_dec Nat.eq_dec q [0; 0]%nat) as [->|N].
    + left. unfold propagates. cbn [dim coord nth]. assert (K : dft_k 2 (1 / 4) 0 = 0) by (unfold dft_k, signed_freq; cbn; field). rewrite K. split; [nra|].
      assert (WE : forall a, fftn [2; 2]%nat (E a) [0; 0]%nat = cmul (A a) (mkC (INR (prodl [2; 2]%nat)) 0)) by (intro a; apply (wave_content [2; 2]%nat (1 / 4) (1 / 4) A 0 0 [0; 0]%nat a); try exact Hq; try reflexivity; lra).
      assert (WH : forall a, fftn [2; 2]%nat (H a) [0; 0]%nat = cmul (B a) (mkC (INR (prodl [2; 2]%nat)) 0)) by (intro a; apply (wave_content [2; 2]%nat (1 / 4) (1 / 4) B 0 0 [0; 0]%nat a); try exact Hq; try reflexivity; lra).
      rewrite !WE, !WH. apply outgoing_scale_r. exists c0. rewrite Rmult_0_l, Rplus_0_l, Rminus_0_r. rewrite sqrt_square by lra. unfold A, B. repeat split; apply cpx_ext; cbn; ring.
    + right. apply (wave_outgoing [2; 2]%nat (1 / 4) (1 / 4) A B 0 0 q); try exact Hq; try reflexivity; try lra. exact N.
  - intro idx. unfold E, plane_wave, kx. replace (2 * PI * 0 / (INR 2 * (1 / 4)) * (INR (coord idx 0) * (1 / 4)) + 2 * PI * 0 / (INR 2 * (1 / 4)) * (INR (coord idx 1) * (1 / 4))) with 0 by (cbn; field).
    rewrite cis_0. apply cpx_ext; cbn; ring.
Qed.
Print Assumptions C99_round_trip_refuted.

(** ** C100: the steps dkx, dky *)
Theorem C100_steps sh E H dx dy ps : let p := padded sh ps in length p = 2%nat -> (2 <= dim p 0)%nat -> 0 < dx -> 0 < dy ->
  exists F, near_to_farfield sh E H dx dy ps = Some F /\ forall j, (j < dim p 1)%nat -> fdkx F j = 2 * PI / (INR (dim p 0) * dx) /\ fdky F j = 0.
Proof. intros p Hp H2 Px Py. exact (near_dk sh p E H dx dy ps Hp H2 eq_refl Px). Qed.
Print Assumptions C100_steps.
Theorem C100_zero_step sh Ef Hf dkx ps r : far_to_nearfield sh Ef Hf dkx 0 ps = Some r -> ndy r = None.
Proof.
  unfold far_to_nearfield. cbv zeta. destruct negb; [discriminate|]. intro X.
  apply (f_equal (fun o => match o with Some x => ndy x | None => ndy r end)) in X. cbn in X. rewrite <- X.
  unfold ndiv, rnum. destruct cpx_dec as [_|N]; [reflexivity|]. exfalso. apply N. apply cpx_ext; cbn; ring.
Qed.
Print Assumptions C100_zero_step.
Theorem C100_dky_refuted : exists sh E H dx dy F, near_to_farfield sh E H dx dy None = Some F /\ inb sh [0; 1]%nat /\
  fky F [0; 1]%nat - fky F [0; 0]%nat = PI /\ fdky F 0%nat = 0.
Proof.
  destruct (near_eval [2; 2]%nat (fun _ _ => c0) (fun _ _ => c0) 1 1 None) as (F & EF & HK & _); try reflexivity; try lra.
  destruct (C100_steps [2; 2]%nat (fun _ _ => c0) (fun _ _ => c0) 1 1 None) as (F' & EF' & HS); try reflexivity; try lra. assert (F' = F) by congruence. subst F'.
  exists [2; 2]%nat, (fun _ _ => c0), (fun _ _ => c0), 1, 1, F. split; [exact EF|].
  assert (I1 : inb [2; 2]%nat [0; 1]%nat) by (constructor; [lia|]; constructor; [lia|constructor]). assert (I0 : inb [2; 2]%nat [0; 0]%nat) by (constructor; [lia|]; constructor; [lia|constructor]).
  split; [exact I1|]. split; [|apply (HS 0%nat); cbn; lia].
  rewrite (proj2 (HK _ I1)), (proj2 (HK _ I0)). change (dft_k 2 1 0 - dft_k 2 1 1 = PI). rewrite !dft_k_case by lia. cbn [Nat.eqb]. lra.
Qed.
Print Assumptions C100_dky_refuted.

(** ** C101: far_to_nearfield on grids that are not square *)
Theorem C101_not_square sh Ef Hf dkx dky ps : dim sh 0 <> dim sh 1 -> far_to_nearfield sh Ef Hf dkx dky ps = None.
Proof. intro H. unfold far_to_nearfield. cbv zeta. apply Nat.eqb_neq in H. now rewrite H. Qed.
Print Assumptions C101_not_square.
Theorem C101_rectangular_refuted : exists sh E H dx dy F, near_to_farfield sh E H dx dy None = Some F /\
  forall dkx dky ps, far_to_nearfield sh (fE F) (fH F) dkx dky ps = None.
Proof.
  destruct (near_eval [4; 2]%nat (fun _ _ => c0) (fun _ _ => c0) 1 1 None) as (F & EF & _); try reflexivity; try lra; [cbn; lia|].
  exists [4; 2]%nat, (fun _ _ => c0), (fun _ _ => c0), 1, 1, F. split; [exact EF|]. intros. apply C101_not_square. cbn. lia.
Qed.
Print Assumptions C101_rectangular_refuted.

(** ** C102: far_to_nearfield overwrites its arguments *)
Theorem C102_overwrites n dx dy Ef Hf ps j : let sh := [n; n] in 0 < dx -> 0 < dy -> padded sh ps = sh -> inb sh j ->
  let q := fwd sh j in (evanescent sh dx dy q \/ grazing sh dx dy q) ->
  exists r, far_to_nearfield sh Ef Hf (2 * PI / (INR n * dx)) (2 * PI / (INR n * dy)) ps = Some r /\ forall a, argE r a j = Some c0 /\ argH r a j = Some c0.
Proof.
  intros sh Px Py Hps Hj q L. assert (Hsh : length sh = 2%nat) by reflexivity.
  pose proof (inb_coord sh j 1 Hj ltac:(lia)) as Pn. change (dim sh 1) with n in Pn. pose proof PI_RGT_0.
  assert (0 < INR n) by (apply (lt_INR 0); lia).
  assert (0 < 2 * PI / (INR n * dx)) by (apply Rdiv_lt_0_compat; nra). assert (0 < 2 * PI / (INR n * dy)) by (apply Rdiv_lt_0_compat; nra).
  destruct (far_unfold sh Ef Hf (2 * PI / (INR n * dx)) (2 * PI / (INR n * dy)) ps Hsh eq_refl ltac:(cbn; lia) Hps ltac:(lra) ltac:(lra)
    (fun idx => dft_k n dx (coord (fwd sh idx) 0)) (fun idx => dft_k n dy (coord (fwd sh idx) 1))) as (En & Hn & r & Er & _ & _ & _ & _ & RA & _).
  { intros idx _. unfold dft_k. change (dim sh 0) with n. field. lra. }
  { intros idx _. unfold dft_k. change (dim sh 1) with n. field. lra. }
  exists r. split; [exact Er|]. intro a. destruct (RA a j Hj) as [-> ->].
  assert (I : invalid (fun idx => dft_k n dx (coord (fwd sh idx) 0)) (fun idx => dft_k n dy (coord (fwd sh idx) 1)) j = true).
  { apply invalid_true. unfold kxy2, k_2pi. destruct L as [L|L]; unfold evanescent, grazing in L; change (dim sh 0) with n in L; change (dim sh 1) with n in L; fold q; lra. }
  rewrite I. split; reflexivity.
Qed.
Print Assumptions C102_overwrites.
Theorem C102_arguments_kept_refuted : exists sh Ef Hf dkx dky r a idx, far_to_nearfield sh Ef Hf dkx dky None = Some r /\ inb sh idx /\ argE r a idx <> Ef a idx.
Proof.
  pose proof PI_RGT_0.
  destruct (C102_overwrites 2 (1 / 4) (1 / 4) (fun _ _ => Some c1) (fun _ _ => Some c1) None [0; 0]%nat) as (r & Er & HA); try reflexivity; try lra; [repeat constructor| |].
  - left. unfold evanescent. change (2 * PI * (2 * PI) < dft_k 2 (1 / 4) 1 * dft_k 2 (1 / 4) 1 + dft_k 2 (1 / 4) 1 * dft_k 2 (1 / 4) 1).
    replace (dft_k 2 (1 / 4) 1) with (- (4 * PI)) by (unfold dft_k, signed_freq; cbn; field). nra.
  - do 5 eexists. exists r, 0%nat, [0; 0]%nat. split; [exact Er|]. split; [repeat constructor|]. rewrite (proj1 (HA _)). intro X. assert (Y : c0 = c1) by congruence. apply (f_equal cre) in Y. cbn in Y. lra.
Qed.
Print Assumptions C102_arguments_kept_refuted.

(** ** C103: padding
    The field of shape sh placed at an offset into zeros of shape p. *)
Definition embed (sh : list nat) (o0 o1 : nat) (f : list nat -> cpx) : list nat -> cpx := fun idx =>
  let i := coord idx 0 in let j := coord idx 1 in
  if ((o0 <=? i) && (i <? o0 + dim sh 0) && (o1 <=? j) && (j <? o1 + dim sh 1))%nat then f [i - o0; j - o1]%nat else c0.
Lemma quarter_phase j : (j < 4)%nat -> cis (- (2 * PI * turns [4; 1]%nat [1; 0]%nat [j; 0]%nat)) = match j with 0%nat => c1 | 1%nat => copp ci | 2%nat => copp c1 | _ => ci end.
Proof.
  intro H. replace (- (2 * PI * turns [4; 1]%nat [1; 0]%nat [j; 0]%nat)) with (- (PI / 2 * INR j)) by (cbn [turns INR]; field). rewrite cis_opp. unfold cis.
  destruct j as [|[|[|[|j]]]]; [| | | |lia].
  - cbn [INR]. rewrite Rmult_0_r, cos_0, sin_0. apply cpx_ext; cbn; ring.
  - cbn [INR]. rewrite Rmult_1_r, cos_PI2, sin_PI2. apply cpx_ext; cbn; ring.
  - replace (PI / 2 * INR 2) with PI by (cbn; field). rewrite cos_PI, sin_PI. apply cpx_ext; cbn; ring.
  - replace (PI / 2 * INR 3) with (3 * (PI / 2)) by (cbn; field). rewrite cos_3PI2, sin_3PI2. apply cpx_ext; cbn; ring.
Qed.
Lemma fft_4 f : fftn [4; 1]%nat f [1; 0]%nat = cadd (csub (f [0; 0]%nat) (f [2; 0]%nat)) (cmul ci (csub (f [3; 0]%nat) (f [1; 0]%nat))).
Proof.
  unfold fftn. cbn [gsum sumN]. rewrite !quarter_phase by lia.
  set (a := f [0; 0]%nat). set (b := f [1; 0]%nat). set (c := f [2; 0]%nat). set (d := f [3; 0]%nat). clearbody a b c d. apply cpx_ext; cbn; ring.
Qed.
Theorem C103_padding_refuted : exists sh p E H dx dy, (dim sh 0 <= dim p 0)%nat /\ (dim sh 1 <= dim p 1)%nat /\
  forall o0 o1, (o0 + dim sh 0 <= dim p 0)%nat -> (o1 + dim sh 1 <= dim p 1)%nat ->
  exists F F' idx e e', near_to_farfield sh E H dx dy (Some p) = Some F /\
    near_to_farfield p (fun a => embed sh o0 o1 (E a)) (fun a => embed sh o0 o1 (H a)) dx dy (Some p) = Some F' /\
    inb p idx /\ fE F 0%nat idx = Some e /\ fE F' 0%nat idx = Some e' /\ cnrm e <> cnrm e'.
Proof.
  pose proof PI_RGT_0 as P.
  set (E := fun a idx => match a with O => match coord idx 0 with O => c1 | _ => ci end | _ => c0 end). set (H := fun (a : nat) (_ : list nat) => c0).
  exists [2; 1]%nat, [4; 1]%nat, E, H, 1, 1. cbn [dim nth]. split; [lia|]. split; [lia|]. intros o0 o1 L0 L1.
  assert (o1 = 0)%nat by lia. subst o1.
  assert (Hi : inb [4; 1]%nat [3; 0]%nat) by (constructor; [lia|]; constructor; [lia|constructor]).
  assert (D0 : dft_k 1 1 0 = 0) by (unfold dft_k, signed_freq; cbn; field).
  assert (V : forall sh' E' H', (forall j, H' 0%nat j = c0) -> (forall j, H' 1%nat j = c0) -> (forall j, E' 1%nat j = c0) ->
    exists F e, near_to_farfield sh' E' H' 1 1 (Some [4; 1]%nat) = Some F /\ fE F 0%nat [3; 0]%nat = Some e /\
      cnrm e = cnrm (fftn [4; 1]%nat (pad_field sh' (fftshift sh' (E' 0%nat))) [1; 0]%nat)).
  { intros sh' E' H' HZ0 HZ1 EZ1. destruct (near_eval_pad sh' [4; 1]%nat E' H' 1 1 (Some [4; 1]%nat)) as (F & EF & HK & _ & HV); try reflexivity; try lra; [cbn; lia|].
    destruct (HK _ Hi) as [Kx Ky]. change (fkx F [3; 0]%nat = dft_k 4 1 1) in Kx. change (fky F [3; 0]%nat = dft_k 1 1 0) in Ky. rewrite k_quarter in Kx. rewrite D0 in Ky.
    assert (IV : invalid (fkx F) (fky F) [3; 0]%nat = false) by (apply invalid_false; unfold kxy2, k_2pi; rewrite Kx, Ky; set (pi := PI) in *; clearbody pi; nra).
    destruct (ang_val (fkx F) (fky F) [3; 0]%nat) as (c & s & HC & HS & U & Kx' & Ky').
    assert (LE : kxy2 (fkx F) (fky F) [3; 0]%nat <= k_2pi * k_2pi) by (apply invalid_false in IV; lra).
    destruct (HV _ _ _ _ Hi IV (cos_phi_val _ _ _ LE) HC HS) as (E0 & _). exists F. eexists. split; [exact EF|]. split; [exact E0|].
    change (fwd [4; 1]%nat [3; 0]%nat) with [1; 0]%nat.
    assert (Z : forall f, (forall j, f j = c0) -> fftn [4; 1]%nat (pad_field sh' (fftshift sh' f)) [1; 0]%nat = c0).
    { intros f Hf. rewrite fft_4. assert (G : forall j, pad_field sh' (fftshift sh' f) j = c0) by (intro j; unfold pad_field, fftshift; rewrite Hf; now destruct andb). rewrite !G. apply cpx_ext; cbn; ring. }
    rewrite (Z (H' 0%nat) HZ0), (Z (H' 1%nat) HZ1), (Z (E' 1%nat) EZ1). set (X := fftn _ _ _). clearbody X.
    assert (S0 : s = 0). { rewrite Ky in Ky'. assert (0 < sqrt (kxy2 (fkx F) (fky F) [3; 0]%nat)) by (apply sqrt_lt_R0; unfold kxy2; rewrite Kx, Ky; set (pi := PI) in *; clearbody pi; nra). symmetry in Ky'. apply Rmult_integral in Ky'. destruct Ky' as [Ky'|Ky']; [lra|exact Ky']. }
    subst s. transitivity (c * c * cnrm X); [unfold cnrm; cbn; ring|]. replace (c * c) with 1 by lra. ring. }
  destruct (V [2; 1]%nat E H) as (F & e & EF & Ee & Ce); [reflexivity..|].
  destruct (V [4; 1]%nat (fun a => embed [2; 1]%nat o0 0 (E a)) (fun a => embed [2; 1]%nat o0 0 (H a))) as (F' & e' & EF' & Ee' & Ce');
    [intro j; unfold embed; now destruct andb..|].
  exists F, F', [3; 0]%nat, e, e'. split; [exact EF|]. split; [exact EF'|]. split; [exact Hi|]. split; [exact Ee|]. split; [exact Ee'|].
  rewrite Ce, Ce'. rewrite !fft_4.
  change (cnrm (cadd (csub ci c0) (cmul ci (csub c0 c1))) <> cnrm (cadd (csub (pad_field [4; 1]%nat (fftshift [4; 1]%nat (embed [2; 1]%nat o0 0 (E 0%nat))) [0; 0]%nat)
    (pad_field [4; 1]%nat (fftshift [4; 1]%nat (embed [2; 1]%nat o0 0 (E 0%nat))) [2; 0]%nat))
    (cmul ci (csub (pad_field [4; 1]%nat (fftshift [4; 1]%nat (embed [2; 1]%nat o0 0 (E 0%nat))) [3; 0]%nat) (pad_field [4; 1]%nat (fftshift [4; 1]%nat (embed [2; 1]%nat o0 0 (E 0%nat))) [1; 0]%nat))))).
  destruct o0 as [|[|[|o0]]]; [| | |lia].
  - change (cnrm (cadd (csub ci c0) (cmul ci (csub c0 c1))) <> cnrm (cadd (csub c0 c1) (cmul ci (csub ci c0)))). unfold cnrm. cbn. lra.
  - change (cnrm (cadd (csub ci c0) (cmul ci (csub c0 c1))) <> cnrm (cadd (csub ci c0) (cmul ci (csub c1 c0)))). unfold cnrm. cbn. lra.
  - change (cnrm (cadd (csub ci c0) (cmul ci (csub c0 c1))) <> cnrm (cadd (csub c1 c0) (cmul ci (csub c0 ci)))). unfold cnrm. cbn. lra.
Qed.
Print Assumptions C103_padding_refuted.
