(** Plane waves, angles, NaN results and power for the far field. *)
From Coq Require Import Reals List Arith ZArith Lia Lra Psatz Field Bool.
From Verif.Lib Require Import Num Sums Idx RealF Dft.
From Verif.Model Require Import Ndarray Bloch Farfield.
From Verif.Spec Require Import BlochSpec FarSpec.
From Verif.Proofs Require Import EmeP NdarrayP BlochP BlochP2 FarP FarP2.
Import ListNotations.
Local Open Scope R_scope.

(** ** Plane waves *)
Lemma plane_spectrum sh A q0 q (f : list nat -> cpx) : inb sh q0 -> inb sh q ->
  (forall j, inb sh j -> f j = cmul A (cis (2 * PI * turns sh q0 j))) ->
  fftn sh f q = if leqb q0 q then cmul A (mkC (INR (prodl sh)) 0) else c0.
Proof.
  intros H0 Hq Hf. unfold fftn.
  transitivity (cmul A (gsum (K := CC) sh (fun k => cmul (cis (2 * PI * turns sh k q0)) (cis (- (2 * PI * turns sh k q)))))).
  - refine (eq_trans _ (gsum_mul_l CC sh _ _)). apply (gsum_ext (K := CC)). intros j Hj. rewrite Hf by exact Hj. rewrite (turns_sym sh q0 j), (turns_sym sh q j).
    set (x := cis _). set (y := cis _). clearbody x y. apply cpx_ext; cbn; ring.
  - rewrite phase_ortho by assumption. destruct leqb; [reflexivity|]. apply cpx_ext; cbn; ring.
Qed.
Lemma turn_mod n z i : (0 < n)%nat -> cis (2 * PI * (IZR z * INR i / INR n)) = cis (2 * PI * (INR (Z.to_nat (z mod Z.of_nat n)) * INR i / INR n)).
Proof.
  intro H. assert (Pn : 0 < INR n) by (apply (lt_INR 0); lia).
  pose proof (Z.mod_pos_bound z (Z.of_nat n) ltac:(lia)). pose proof (Z.div_mod z (Z.of_nat n) ltac:(lia)) as D.
  assert (E : IZR z = INR n * IZR (z / Z.of_nat n) + INR (Z.to_nat (z mod Z.of_nat n))).
  { rewrite !INR_IZR_INZ, Z2Nat.id by lia. rewrite <- mult_IZR, <- plus_IZR. f_equal. exact D. }
  rewrite E. replace (2 * PI * ((INR n * IZR (z / Z.of_nat n) + INR (Z.to_nat (z mod Z.of_nat n))) * INR i / INR n))
    with (2 * PI * IZR (z / Z.of_nat n * Z.of_nat i) + 2 * PI * (INR (Z.to_nat (z mod Z.of_nat n)) * INR i / INR n)).
  - rewrite cis_add, cis_Z. apply cpx_ext; cbn; ring.
  - rewrite mult_IZR, <- INR_IZR_INZ. field. lra.
Qed.
Lemma turns2 sh q j : length sh = 2%nat -> length q = 2%nat -> length j = 2%nat ->
  turns sh q j = INR (coord q 0) * INR (coord j 0) / INR (dim sh 0) + INR (coord q 1) * INR (coord j 1) / INR (dim sh 1).
Proof.
  destruct sh as [|a [|b [|]]]; try discriminate. destruct q as [|? [|? [|]]]; try discriminate. destruct j as [|? [|? [|]]]; try discriminate.
  intros _ _ _. cbn. ring.
Qed.
(** A wave with z0, z1 periods over the grid has its spectrum at that index. *)
Lemma wave_spectrum sh A z0 z1 q (f : list nat -> cpx) : length sh = 2%nat -> inb sh q ->
  (forall j, inb sh j -> f j = cmul A (cis (2 * PI * (IZR z0 * INR (coord j 0) / INR (dim sh 0) + IZR z1 * INR (coord j 1) / INR (dim sh 1))))) ->
  fftn sh f q = if leqb [Z.to_nat (z0 mod Z.of_nat (dim sh 0)); Z.to_nat (z1 mod Z.of_nat (dim sh 1))] q then cmul A (mkC (INR (prodl sh)) 0) else c0.
Proof.
  intros Hsh Hq Hf. pose proof (inb_coord sh q 0 Hq ltac:(lia)) as L0. pose proof (inb_coord sh q 1 Hq ltac:(lia)) as L1.
  pose proof (Z.mod_pos_bound z0 (Z.of_nat (dim sh 0)) ltac:(lia)). pose proof (Z.mod_pos_bound z1 (Z.of_nat (dim sh 1)) ltac:(lia)).
  assert (I0 : inb sh [Z.to_nat (z0 mod Z.of_nat (dim sh 0)); Z.to_nat (z1 mod Z.of_nat (dim sh 1))]).
  { destruct sh as [|a [|b [|]]]; try discriminate. unfold dim in *. cbn [nth] in *. constructor; [lia|]. constructor; [lia|]. constructor. }
  apply plane_spectrum; [exact I0|exact Hq|].
  intros j Hj. rewrite Hf by exact Hj. f_equal. rewrite turns2 by (try assumption; try reflexivity; rewrite (inb_length sh j Hj); assumption).
  cbn [coord nth]. rewrite !Rmult_plus_distr_l, !cis_add. rewrite !turn_mod by lia. reflexivity.
Qed.
Lemma signed_mod n i : (i < n)%nat -> Z.to_nat (signed_freq n i mod Z.of_nat n) = i.
Proof.
  intro H. unfold signed_freq. destruct Nat.ltb; [rewrite Z.mod_small; lia|].
  replace ((Z.of_nat i - Z.of_nat n) mod Z.of_nat n)%Z with (Z.of_nat i); [lia|]. apply Z.mod_unique with (q := (-1)%Z); lia.
Qed.
Lemma signed_opp n i : (i < n)%nat -> (2 * i <> n)%nat -> signed_freq n (Z.to_nat ((- signed_freq n i) mod Z.of_nat n)) = (- signed_freq n i)%Z.
Proof.
  intros H N. destruct (Nat.eq_dec i 0) as [->|NZ].
  { unfold signed_freq. destruct (Nat.ltb_spec (2 * 0) n); [|lia]. cbn [Z.of_nat]. cbn [Z.opp]. rewrite Zmod_0_l. cbn [Z.to_nat]. destruct (Nat.ltb_spec (2 * 0) n); lia. }
  assert (E : ((- signed_freq n i) mod Z.of_nat n = Z.of_nat n - Z.of_nat i)%Z).
  { unfold signed_freq. destruct Nat.ltb; symmetry; [apply Z.mod_unique with (q := (-1)%Z)|apply Z.mod_unique with (q := 0%Z)]; lia. }
  rewrite E. unfold signed_freq. destruct (Nat.ltb_spec (2 * i) n), (Nat.ltb_spec (2 * Z.to_nat (Z.of_nat n - Z.of_nat i)) n); lia.
Qed.

(** ** Angles *)
Lemma arctan2_spec x y : (x <> 0 \/ y <> 0) -> let r := sqrt (x * x + y * y) in
  - PI < arctan2 y x <= PI /\ x = r * cos (arctan2 y x) /\ y = r * sin (arctan2 y x).
Proof.
  intros N r. pose proof PI_RGT_0 as P. unfold arctan2.
  assert (G : x <> 0 -> sqrt (1 + (y / x)²) = r / Rabs x).
  { intro X. unfold r, Rsqr. replace (1 + y / x * (y / x)) with ((x * x + y * y) / (x * x)) by (field; exact X).
    rewrite sqrt_div by nra. f_equal. apply sqrt_Rsqr_abs. }
  assert (Pr : 0 < r) by (apply sqrt_lt_R0; destruct N; nra).
  destruct (Rlt_dec 0 x) as [X|X].
  { pose proof (atan_bound (y / x)). split; [lra|]. rewrite cos_atan, sin_atan, G by lra. rewrite Rabs_right by lra. split; field; lra. }
  destruct (Rlt_dec x 0) as [X'|X'].
  { assert (C : cos (atan (y / x)) = - x / r /\ sin (atan (y / x)) = - y / r).
    { rewrite cos_atan, sin_atan, G by lra. rewrite Rabs_left by lra. split; field; lra. }
    destruct C as [C S]. pose proof (atan_bound (y / x)) as B. destruct (Rle_dec 0 y) as [Y|Y].
    - rewrite neg_cos, neg_sin, C, S. split; [|split; field; lra].
      assert (atan (y / x) <= 0); [|lra].
      destruct (Rle_lt_or_eq_dec 0 y Y) as [Z|<-]; [|unfold Rdiv; rewrite Rmult_0_l, atan_0; lra].
      left. rewrite <- atan_0. apply atan_increasing. apply Ropp_lt_cancel. rewrite Ropp_0. replace (- (y / x)) with (y / - x) by (field; lra). apply Rdiv_lt_0_compat; lra.
    - assert (Q : 0 < atan (y / x)). { rewrite <- atan_0. apply atan_increasing. replace (y / x) with (- y / - x) by (field; lra). apply Rdiv_lt_0_compat; lra. }
      split; [lra|]. unfold Rminus. rewrite cos_plus, sin_plus, cos_neg, sin_neg, cos_PI, sin_PI, C, S. split; field; lra. }
  assert (x = 0) by lra. subst x. assert (R : r = Rabs y). { unfold r. rewrite Rmult_0_l, Rplus_0_l. apply sqrt_Rsqr_abs. }
  destruct (Rlt_dec 0 y) as [Y|Y].
  { rewrite cos_PI2, sin_PI2, R, Rabs_right by lra. repeat split; lra. }
  destruct (Rlt_dec y 0) as [Y'|Y'].
  { rewrite cos_neg, sin_neg, cos_PI2, sin_PI2, R, Rabs_left by lra. repeat split; lra. }
  exfalso. destruct N; lra.
Qed.
Lemma lt1 c K p : 0 < c -> 0 < K -> 0 < p -> c * c * K = K - p -> c < 1.
Proof. intros. destruct (Rlt_dec c 1); [assumption|exfalso]. assert (1 <= c * c) by nra. nra. Qed.
Lemma angles kx ky idx : kxy2 kx ky idx < k_2pi * k_2pi ->
  exists th ph, theta kx ky idx = rnum th /\ phi kx ky idx = rnum ph /\ - PI < th <= PI /\ 0 <= ph < PI / 2 /\
    kx idx = k_2pi * sin ph * cos th /\ ky idx = k_2pi * sin ph * sin th.
Proof.
  intro L. pose proof PI_RGT_0 as P. pose proof k2pos as Pk. unfold theta, phi. rewrite (proj2 (invalid_false kx ky idx) L).
  rewrite (cos_phi_val kx ky idx) by lra. cbn [cre].
  unfold at_0. destruct (Req_EM_T (kx idx) 0) as [X|X]; [destruct (Req_EM_T (ky idx) 0) as [Y|Y]|].
  1: { exists 0, 0. rewrite X, Y, sin_0, cos_0. repeat split; try lra; try reflexivity. }
  all: exists (arctan2 (ky idx) (kx idx)), (acos (cph kx ky idx)); split; [reflexivity|]; split; [reflexivity|];
    destruct (arctan2_spec (kx idx) (ky idx) ltac:(tauto)) as (B & C & S); split; [exact B|];
    pose proof (cph_pos kx ky idx L) as Pc; pose proof (cph_sq kx ky idx ltac:(lra)) as Qc; set (c := cph kx ky idx) in *; clearbody c;
    (assert (Kp : 0 < kxy2 kx ky idx) by (unfold kxy2; nra));
    (assert (Lc : c < 1) by (apply (lt1 c (k_2pi * k_2pi) (kxy2 kx ky idx)); [assumption|apply Rmult_lt_0_compat; exact Pk|assumption|assumption]));
    (assert (Si : k_2pi * sin (acos c) = sqrt (kx idx * kx idx + ky idx * ky idx));
      [rewrite sin_acos by lra; rewrite <- (sqrt_Rsqr k_2pi) by lra; rewrite <- sqrt_mult by (unfold Rsqr; nra); f_equal; unfold Rsqr, kxy2 in *; nra|]);
    split; [|rewrite !Rmult_assoc, <- !(Rmult_assoc k_2pi), Si; split; assumption].
  all: pose proof (acos_bound_lt c ltac:(lra)) as Bd; split; [lra|].
  all: destruct (Rlt_dec (acos c) (PI / 2)) as [|N]; [assumption|exfalso].
  all: pose proof (cos_le_0 (acos c) ltac:(lra) ltac:(lra)) as Q; rewrite cos_acos in Q by lra; lra.
Qed.

(** ** Evanescent grid frequencies *)
Lemma cos_phi_none kx ky idx : k_2pi * k_2pi < kxy2 kx ky idx -> cos_phi kx ky idx = None.
Proof. intro H. unfold cos_phi, kz. destruct Rle_dec; [lra|reflexivity]. Qed.
Lemma ndiv_none x : ndiv x None = None.
Proof. now destruct x. Qed.
Theorem far_nan n Ef Hf dkx dky ps q : let sh := [n; n] in dkx <> 0 -> dky <> 0 -> padded sh ps = sh -> inb sh q ->
  2 * PI * (2 * PI) < (IZR (signed_freq n (coord q 0)) * dkx) * (IZR (signed_freq n (coord q 0)) * dkx) + (IZR (signed_freq n (coord q 1)) * dky) * (IZR (signed_freq n (coord q 1)) * dky) ->
  exists r, far_to_nearfield sh Ef Hf dkx dky ps = Some r /\ forall a idx, nE r a idx = None /\ nH r a idx = None.
Proof.
  intros sh Nx Ny Hps Hq L. assert (Hsh : length sh = 2%nat) by reflexivity.
  assert (D0 : dim sh 0 = n) by reflexivity. assert (D1 : dim sh 1 = n) by reflexivity.
  pose proof (inb_coord sh q 1 Hq ltac:(lia)) as Pn.
  set (kx := fun idx => IZR (signed_freq (dim sh 0) (coord (fwd sh idx) 0)) * dkx).
  set (ky := fun idx => IZR (signed_freq (dim sh 1) (coord (fwd sh idx) 1)) * dky).
  destruct (far_unfold sh Ef Hf dkx dky ps Hsh ltac:(rewrite D0, D1; reflexivity) ltac:(lia) Hps Nx Ny kx ky) as (En & Hn & r & Er & RE & RH & _ & _ & _ & RC); [reflexivity..|].
  exists r. split; [exact Er|]. intros a idx. rewrite RE, RH. unfold far_back.
  assert (C : cos_phi kx ky (bwd sh q) = None).
  { apply cos_phi_none. unfold kxy2, kx, ky. rewrite fwd_bwd by assumption. rewrite D0, D1. exact L. }
  destruct (RC a (bwd sh q) (bwd_inb sh Hsh q Hq)) as [A B]. rewrite C in A, B. cbn [zero_at] in A, B.
  assert (CE : forall b e0 e1 ct st, cell_E b e0 e1 None ct st = None /\ cell_H b e0 e1 None ct st = None).
  { intros [|b] e0 e1 ct st; unfold cell_E, cell_H; cbv zeta; now rewrite !ndiv_none. }
  rewrite (proj1 (CE _ _ _ _ _)) in A. rewrite (proj2 (CE _ _ _ _ _)) in B.
  split; eapply (back_none sh Hsh); try (apply bwd_inb; eassumption); assumption.
Qed.

(** ** Power *)
Lemma cell_power C T S Ex Ey Hx Hy : C <> 0 -> T * T + S * S = 1 ->
  csub (rmul T Hy) (rmul S Hx) = cdiv (cadd (rmul T Ex) (rmul S Ey)) (mkC C 0) ->
  cadd (rmul T Hx) (rmul S Hy) = copp (rmul C (csub (rmul T Ey) (rmul S Ex))) ->
  let N0 := cadd (cmul (cmul (copp Hy) (mkC C 0)) (mkC T 0)) (cmul (cmul Hx (mkC C 0)) (mkC S 0)) in
  let N1 := cadd (cmul Hy (mkC S 0)) (cmul Hx (mkC T 0)) in
  let L0 := csub (cmul (cmul Ey (mkC C 0)) (mkC T 0)) (cmul (cmul Ex (mkC C 0)) (mkC S 0)) in
  let L1 := csub (cmul (copp Ey) (mkC S 0)) (cmul Ex (mkC T 0)) in
  let E0 := csub (copp L1) N0 in
  let E1 := csub L0 N1 in
  (cnrm E0 + cnrm E1) / (4 * C) = cre (csub (cmul Ex (cconj Hy)) (cmul Ey (cconj Hx))).
Proof.
  intros NC TS A B N0 N1 L0 L1 E0 E1.
  set (Er := cadd (rmul T Ex) (rmul S Ey)) in *. set (Et := csub (rmul T Ey) (rmul S Ex)) in *.
  assert (F0 : E0 = rmul 2 Er).
  { transitivity (cadd Er (rmul C (csub (rmul T Hy) (rmul S Hx)))). { unfold E0, L1, N0, Er, rmul. apply cpx_ext; cbn; ring. }
    rewrite A. apply cpx_ext; cbn; unfold cnrm; cbn; field; nra. }
  assert (F1 : E1 = rmul (2 * C) Et).
  { transitivity (csub (rmul C Et) (cadd (rmul T Hx) (rmul S Hy))). { unfold E1, L0, N1, Et, rmul. apply cpx_ext; cbn; ring. } rewrite B. apply cpx_ext; cbn; ring. }
  rewrite F0, F1.
  assert (X0 : csub (rmul T Er) (rmul S Et) = Ex). { transitivity (rmul (T * T + S * S) Ex). { unfold Er, Et. apply cpx_ext; cbn; ring. } rewrite TS. apply cpx_ext; cbn; ring. }
  assert (X1 : cadd (rmul S Er) (rmul T Et) = Ey). { transitivity (rmul (T * T + S * S) Ey). { unfold Er, Et. apply cpx_ext; cbn; ring. } rewrite TS. apply cpx_ext; cbn; ring. }
  assert (Y0 : csub (rmul T (copp (rmul C Et))) (rmul S (cdiv Er (mkC C 0))) = Hx).
  { rewrite <- B, <- A. transitivity (rmul (T * T + S * S) Hx); [apply cpx_ext; cbn; ring|]. rewrite TS. apply cpx_ext; cbn; ring. }
  assert (Y1 : cadd (rmul S (copp (rmul C Et))) (rmul T (cdiv Er (mkC C 0))) = Hy).
  { rewrite <- B, <- A. transitivity (rmul (T * T + S * S) Hy); [apply cpx_ext; cbn; ring|]. rewrite TS. apply cpx_ext; cbn; ring. }
  clear A B F0 F1 E0 E1 N0 N1 L0 L1. clearbody Er Et. subst Ex Ey Hx Hy.
  transitivity ((T * T + S * S) * (T * T + S * S) * ((cnrm Er + C * C * cnrm Et) / C)).
  - rewrite TS. unfold cnrm. cbn. field. exact NC.
  - replace ((T * T + S * S) * (T * T + S * S)) with (T * T + S * S) by (rewrite TS; ring). unfold cnrm. cbn. unfold cnrm. cbn. field. nra.
Qed.
Lemma sum_fwd (K : Fld) sh (f : list nat -> K) : length sh = 2%nat -> gsum sh (fun idx => f (fwd sh idx)) = gsum sh f.
Proof.
  intro Hsh. unfold fwd. rewrite <- (gsum_shift (K := K) sh 1 (- Z.of_nat (dim sh 1 / 2)) f) by lia.
  exact (gsum_shift (K := K) sh 0 (- Z.of_nat (dim sh 0 / 2)) (fun x => f (shift_ix sh 1 (- Z.of_nat (dim sh 1 / 2)) x)) ltac:(lia)).
Qed.
Definition val0 (x : num) : cpx := match x with Some z => z | None => c0 end.
Lemma parseval2 sh (u v : list nat -> cpx) : INR (prodl sh) <> 0 ->
  gsum (K := CC) sh (fun q => cmul (fftn sh u q) (cconj (fftn sh v q))) = rmul (INR (prodl sh)) (gsum (K := CC) sh (fun x => cmul (u x) (cconj (v x)))).
Proof.
  intro N. transitivity (gsum (K := CC) sh (fun j => cmul (cconj (fftn sh v j)) (fftn sh u j))).
  - apply (gsum_ext (K := CC)). intros. apply cpx_ext; cbn; ring.
  - rewrite (parseval sh _ _ N). unfold rmul. f_equal. apply (gsum_ext (K := CC)). intros x Hx. rewrite ifftn_fftn by exact Hx. apply cpx_ext; cbn; ring.
Qed.
Theorem far_power sh E H dx dy ps : length sh = 2%nat -> (2 <= dim sh 0)%nat -> (0 < dim sh 1)%nat -> padded sh ps = sh -> 0 < dx -> 0 < dy ->
  (forall q, inb sh q ->
     let kx := dft_k (dim sh 0) dx (coord q 0) in let ky := dft_k (dim sh 1) dy (coord q 1) in
     kx * kx + ky * ky < 2 * PI * (2 * PI) /\ outgoing kx ky (fftn sh (E 0%nat) q) (fftn sh (E 1%nat) q) (fftn sh (H 0%nat) q) (fftn sh (H 1%nat) q)) ->
  exists F e, near_to_farfield sh E H dx dy ps = Some F /\ (forall a idx, (a < 2)%nat -> inb sh idx -> fE F a idx = Some (e a idx)) /\
    gsum (K := RF) sh (fun idx => (cnrm (e 0%nat idx) + cnrm (e 1%nat idx)) / (4 * (sqrt (2 * PI * (2 * PI) - (fkx F idx * fkx F idx + fky F idx * fky F idx)) / (2 * PI))))
    = INR (prodl sh) * gsum (K := RF) sh (fun x => cre (csub (cmul (E 0%nat x) (cconj (H 1%nat x))) (cmul (E 1%nat x) (cconj (H 0%nat x))))).
Proof.
  intros Hsh H2 H1 Hps Px Py HW.
  destruct (near_eval sh E H dx dy ps Hsh H2 Hps Px Py) as (F & EF & HK & _ & HV).
  assert (NP : INR (prodl sh) <> 0).
  { apply (prodl_nz sh [0; 0]%nat). destruct sh as [|a [|b [|]]]; try discriminate. unfold dim in *. cbn [nth] in *. constructor; [lia|]. constructor; [lia|]. constructor. }
  assert (CELL : forall idx, inb sh idx -> exists e0 e1, fE F 0 idx = Some e0 /\ fE F 1 idx = Some e1 /\
     (cnrm e0 + cnrm e1) / (4 * (sqrt (2 * PI * (2 * PI) - (fkx F idx * fkx F idx + fky F idx * fky F idx)) / (2 * PI)))
     = cre (csub (cmul (fftn sh (fftshift sh (E 0%nat)) (fwd sh idx)) (cconj (fftn sh (fftshift sh (H 1%nat)) (fwd sh idx))))
                 (cmul (fftn sh (fftshift sh (E 1%nat)) (fwd sh idx)) (cconj (fftn sh (fftshift sh (H 0%nat)) (fwd sh idx)))))).
  { intros idx Hi. pose proof (fwd_inb sh Hsh idx Hi) as Hq. specialize (HW _ Hq). cbv zeta in HW.
    destruct (HK idx Hi) as [Kx Ky]. rewrite <- Kx, <- Ky in HW. change (2 * PI) with k_2pi in *. destruct HW as [Lt O].
    assert (LE : kxy2 (fkx F) (fky F) idx <= k_2pi * k_2pi) by (unfold kxy2; lra).
    assert (IV : invalid (fkx F) (fky F) idx = false) by (apply invalid_false; exact Lt).
    destruct (ang_val (fkx F) (fky F) idx) as (c & s & HC & HS & U & Kx' & Ky').
    destruct (HV idx _ _ _ Hi IV (cos_phi_val _ _ _ LE) HC HS) as (E0 & E1 & _ & _). eexists _, _. split; [exact E0|]. split; [exact E1|].
    pose proof (cph_pos _ _ _ Lt) as Pc. pose proof (cph_sq _ _ _ LE) as Qc.
    change (sqrt (k_2pi * k_2pi - (fkx F idx * fkx F idx + fky F idx * fky F idx)) / k_2pi) with (cph (fkx F) (fky F) idx).
    set (cp := cph (fkx F) (fky F) idx) in *. clearbody cp.
    rewrite !(fftn_fftshift sh Hsh) by exact Hq. apply (outgoing_scale _ _ (phase sh (fwd sh idx))) in O.
    destruct (outgoing_rt _ _ _ _ _ _ _ cp c s O Kx' Ky' U Pc) as [A B]; [rewrite Qc; unfold kxy2; ring|].
    apply cell_power; [lra|exact U|exact A|exact B]. }
  exists F, (fun a idx => val0 (fE F a idx)). split; [exact EF|]. split.
  { intros a idx Ha Hi. destruct (CELL idx Hi) as (e0 & e1 & Q0 & Q1 & _). destruct a as [|[|a]]; [now rewrite Q0|now rewrite Q1|lia]. }
  transitivity (gsum (K := RF) sh (fun idx => (fun q => cre (csub (cmul (fftn sh (fftshift sh (E 0%nat)) q) (cconj (fftn sh (fftshift sh (H 1%nat)) q)))
                 (cmul (fftn sh (fftshift sh (E 1%nat)) q) (cconj (fftn sh (fftshift sh (H 0%nat)) q))))) (fwd sh idx))).
  { apply (gsum_ext (K := RF)). intros idx Hi. destruct (CELL idx Hi) as (e0 & e1 & Q0 & Q1 & Q). rewrite Q0, Q1. exact Q. }
  refine (eq_trans (sum_fwd RF sh (fun q => cre (csub (cmul (fftn sh (fftshift sh (E 0%nat)) q) (cconj (fftn sh (fftshift sh (H 1%nat)) q)))
                 (cmul (fftn sh (fftshift sh (E 1%nat)) q) (cconj (fftn sh (fftshift sh (H 0%nat)) q))))) Hsh) _).
  refine (eq_trans _ (f_equal (Rmult (INR (prodl sh))) (sum_fwd RF sh (fun x => cre (csub (cmul (E 0%nat x) (cconj (H 1%nat x))) (cmul (E 1%nat x) (cconj (H 0%nat x))))) Hsh))).
  rewrite <- !cre_gsum.
  transitivity (cre (rmul (INR (prodl sh)) (gsum (K := CC) sh (fun idx => csub (cmul (E 0%nat (fwd sh idx)) (cconj (H 1%nat (fwd sh idx)))) (cmul (E 1%nat (fwd sh idx)) (cconj (H 0%nat (fwd sh idx)))))))).
  2:{ set (z := gsum _ _). change (INR (prodl sh) * cre z - 0 * cim z = INR (prodl sh) * cre z). ring. }
  f_equal.
  refine (eq_trans (gsum_sub CC sh _ _) _). rewrite !(parseval2 sh _ _ NP).
  set (P1 := gsum (K := CC) sh (fun x => cmul (E 0%nat (fwd sh x)) (cconj (H 1%nat (fwd sh x))))).
  set (P2 := gsum (K := CC) sh (fun x => cmul (E 1%nat (fwd sh x)) (cconj (H 0%nat (fwd sh x))))).
  transitivity (rmul (INR (prodl sh)) (csub P1 P2)).
  { change (csub (rmul (INR (prodl sh)) P1) (rmul (INR (prodl sh)) P2) = rmul (INR (prodl sh)) (csub P1 P2)). generalize (P1 : cpx) (P2 : cpx). intros z w. apply cpx_ext; cbn; ring. }
  f_equal. symmetry. exact (gsum_sub CC sh _ _).
Qed.
