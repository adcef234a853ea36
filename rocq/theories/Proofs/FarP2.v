(** Evaluation of near_to_farfield and far_to_nearfield. *)
From Coq Require Import Reals List Arith ZArith Lia Lra Psatz Field Bool.
From Verif.Lib Require Import Num Sums Idx RealF Dft.
From Verif.Model Require Import Ndarray Bloch Farfield.
From Verif.Spec Require Import BlochSpec FarSpec.
From Verif.Proofs Require Import EmeP NdarrayP BlochP BlochP2 FarP.
Import ListNotations.
Local Open Scope R_scope.

Lemma freq_k n d i : (i < n)%nat -> 0 < d ->
  2 * PI * shifted_freq n d i = dft_k n d (cyc n (- Z.of_nat (n / 2)) i).
Proof.
  intros H P. unfold shifted_freq, dft_k. rewrite fftfreq_signed by (apply cyc_lt; lia). assert (0 < INR n) by (apply (lt_INR 0); lia). field. lra.
Qed.
Lemma invalid_false kx ky idx : invalid kx ky idx = false <-> kxy2 kx ky idx < k_2pi * k_2pi.
Proof. unfold invalid. destruct Rle_dec; split; intro; try discriminate; try reflexivity; lra. Qed.
Lemma invalid_true kx ky idx : invalid kx ky idx = true <-> k_2pi * k_2pi <= kxy2 kx ky idx.
Proof. unfold invalid. destruct Rle_dec; split; intro; try discriminate; try reflexivity; lra. Qed.

Definition pad_field (sh : list nat) (f : list nat -> cpx) : list nat -> cpx := fun idx =>
  if (coord idx 0 <? dim sh 0)%nat && (coord idx 1 <? dim sh 1)%nat then f idx else c0.
Lemma spec_eval_pad sh p (f : list nat -> cpx) idx : length p = 2%nat -> inb p idx ->
  fftshift p (fft_of fftn p (resize sh (fun j => Some (fftshift sh f j)))) idx = Some (fftn p (pad_field sh (fftshift sh f)) (fwd p idx)).
Proof.
  intros Hp H. unfold fftshift at 1, fft_of.
  destruct (all_finite_some p (resize sh (fun j => Some (fftshift sh f j))) (pad_field sh (fftshift sh f))) as (g & -> & Hg).
  { intros j Hj. unfold resize, pad_field. now destruct andb. }
  apply (f_equal Some). apply fftn_ext. exact Hg.
Qed.
Section NearPad.
  Variables (sh p : list nat) (E H : nat -> list nat -> cpx) (dx dy : R) (ps : option (list nat)).
  Hypothesis Hp : length p = 2%nat.
  Hypothesis H2 : (2 <= dim p 0)%nat.
  Hypothesis Hps : padded sh ps = p.
  Hypothesis Pdx : 0 < dx.
  Hypothesis Pdy : 0 < dy.
  Lemma near_eval_pad : exists F, near_to_farfield sh E H dx dy ps = Some F /\
    (forall idx, inb p idx -> fkx F idx = dft_k (dim p 0) dx (coord (fwd p idx) 0) /\ fky F idx = dft_k (dim p 1) dy (coord (fwd p idx) 1)) /\
    (forall idx, inb p idx -> invalid (fkx F) (fky F) idx = true -> forall a, fE F a idx = rnum 0 /\ fH F a idx = rnum 0) /\
    (forall idx C T S, inb p idx -> invalid (fkx F) (fky F) idx = false ->
      cos_phi (fkx F) (fky F) idx = Some C -> cos_th (fkx F) (fky F) idx = Some T -> sin_th (fkx F) (fky F) idx = Some S ->
      let X a := fftn p (pad_field sh (fftshift sh (E a))) (fwd p idx) in
      let Y a := fftn p (pad_field sh (fftshift sh (H a))) (fwd p idx) in
      let N0 := cadd (cmul (cmul (copp (Y 1%nat)) C) T) (cmul (cmul (Y 0%nat) C) S) in
      let N1 := cadd (cmul (Y 1%nat) S) (cmul (Y 0%nat) T) in
      let L0 := csub (cmul (cmul (X 1%nat) C) T) (cmul (cmul (X 0%nat) C) S) in
      let L1 := csub (cmul (copp (X 1%nat)) S) (cmul (X 0%nat) T) in
      let E0 := csub (copp L1) N0 in
      let E1 := csub L0 N1 in
      fE F 0 idx = Some E0 /\ fE F 1 idx = Some E1 /\ fH F 0 idx = Some (copp E1) /\ fH F 1 idx = Some E0).
  Proof.
    unfold near_to_farfield. rewrite Hps. cbv zeta. rewrite (proj2 (Nat.ltb_ge _ _)) by exact H2.
    eexists. split; [reflexivity|]. cbn [fE fH fkx fky]. split; [|split].
    - intros idx Hi. rewrite fwd_coord0, fwd_coord1 by assumption. split; apply freq_k; try assumption; apply (inb_coord p); try assumption; lia.
    - intros idx Hi -> a. split; reflexivity.
    - intros idx C T S Hi -> HC HT HS. rewrite HC, HT, HS. rewrite !(spec_eval_pad sh p _ _ Hp) by exact Hi. cbn. auto.
  Qed.
  Lemma near_dk : exists F, near_to_farfield sh E H dx dy ps = Some F /\
    forall j, (j < dim p 1)%nat -> fdkx F j = 2 * PI / (INR (dim p 0) * dx) /\ fdky F j = 0.
  Proof.
    unfold near_to_farfield. rewrite Hps. cbv zeta. rewrite (proj2 (Nat.ltb_ge _ _)) by exact H2.
    eexists. split; [reflexivity|]. intros j Hj. cbn [fdkx fdky]. unfold coord. cbn [nth]. split; [|ring].
    rewrite !freq_k by (try assumption; lia). unfold dft_k. set (n := dim p 0) in *.
    assert (Pn : 0 < INR n) by (apply (lt_INR 0); lia).
    enough (Q : IZR (signed_freq n (cyc n (- Z.of_nat (n / 2)) 1)) - IZR (signed_freq n (cyc n (- Z.of_nat (n / 2)) 0)) = 1).
    { transitivity (2 * PI * (IZR (signed_freq n (cyc n (- Z.of_nat (n / 2)) 1)) - IZR (signed_freq n (cyc n (- Z.of_nat (n / 2)) 0))) / (INR n * dx)); [field; lra|]. rewrite Q. field. lra. }
    rewrite <- minus_IZR. apply (f_equal IZR (y := 1%Z)).
    assert (S : forall i, (i < n)%nat -> signed_freq n (cyc n (- Z.of_nat (n / 2)) i) = (Z.of_nat i - Z.of_nat (n / 2))%Z).
    { intros i Hi. pose proof (Nat.div_mod n 2 ltac:(lia)). pose proof (Nat.mod_upper_bound n 2 ltac:(lia)).
      unfold cyc, signed_freq. destruct (Nat.lt_ge_cases i (n / 2)) as [L|L].
      - replace ((Z.of_nat i + - Z.of_nat (n / 2)) mod Z.of_nat n)%Z with (Z.of_nat i - Z.of_nat (n / 2) + Z.of_nat n)%Z.
        + destruct (Nat.ltb_spec (2 * Z.to_nat (Z.of_nat i - Z.of_nat (n / 2) + Z.of_nat n)) n); lia.
        + apply Z.mod_unique with (q := (-1)%Z); lia.
      - rewrite Z.mod_small by lia. destruct (Nat.ltb_spec (2 * Z.to_nat (Z.of_nat i + - Z.of_nat (n / 2))) n); lia. }
    rewrite !S by lia. lia.
  Qed.
End NearPad.
Section Near.
  Variables (sh : list nat) (E H : nat -> list nat -> cpx) (dx dy : R) (ps : option (list nat)).
  Hypothesis Hsh : length sh = 2%nat.
  Hypothesis H2 : (2 <= dim sh 0)%nat.
  Hypothesis Hps : padded sh ps = sh.
  Hypothesis Pdx : 0 < dx.
  Hypothesis Pdy : 0 < dy.
  Lemma near_eval : exists F, near_to_farfield sh E H dx dy ps = Some F /\
    (forall idx, inb sh idx -> fkx F idx = dft_k (dim sh 0) dx (coord (fwd sh idx) 0) /\ fky F idx = dft_k (dim sh 1) dy (coord (fwd sh idx) 1)) /\
    (forall idx, inb sh idx -> invalid (fkx F) (fky F) idx = true -> forall a, fE F a idx = rnum 0 /\ fH F a idx = rnum 0) /\
    (forall idx C T S, inb sh idx -> invalid (fkx F) (fky F) idx = false ->
      cos_phi (fkx F) (fky F) idx = Some C -> cos_th (fkx F) (fky F) idx = Some T -> sin_th (fkx F) (fky F) idx = Some S ->
      let X a := fftn sh (fftshift sh (E a)) (fwd sh idx) in
      let Y a := fftn sh (fftshift sh (H a)) (fwd sh idx) in
      let N0 := cadd (cmul (cmul (copp (Y 1%nat)) C) T) (cmul (cmul (Y 0%nat) C) S) in
      let N1 := cadd (cmul (Y 1%nat) S) (cmul (Y 0%nat) T) in
      let L0 := csub (cmul (cmul (X 1%nat) C) T) (cmul (cmul (X 0%nat) C) S) in
      let L1 := csub (cmul (copp (X 1%nat)) S) (cmul (X 0%nat) T) in
      let E0 := csub (copp L1) N0 in
      let E1 := csub L0 N1 in
      fE F 0 idx = Some E0 /\ fE F 1 idx = Some E1 /\ fH F 0 idx = Some (copp E1) /\ fH F 1 idx = Some E0).
  Proof.
    destruct (near_eval_pad sh sh E H dx dy ps Hsh H2 Hps Pdx Pdy) as (F & EF & HK & HI & HV). exists F. split; [exact EF|]. split; [exact HK|]. split; [exact HI|].
    intros idx C T S Hi IV HC HT HS. specialize (HV idx C T S Hi IV HC HT HS). cbv zeta beta in HV |- *.
    assert (Q : forall f, fftn sh (pad_field sh f) (fwd sh idx) = fftn sh f (fwd sh idx)).
    { intro f. apply fftn_ext. intros j Hj. unfold pad_field. pose proof (inb_coord sh j 0 Hj ltac:(lia)). pose proof (inb_coord sh j 1 Hj ltac:(lia)).
      now rewrite !(proj2 (Nat.ltb_lt _ _)) by assumption. }
    rewrite !Q in HV. exact HV.
  Qed.
End Near.

Lemma ndiv_r a b : b <> 0 -> ndiv (rnum a) (rnum b) = rnum (a / b).
Proof.
  intro H. unfold ndiv, rnum. destruct cpx_dec as [X|_]; [exfalso; apply (f_equal cre) in X; cbn in X; lra|].
  f_equal. apply cpx_ext; cbn; unfold cnrm; cbn; field; nra.
Qed.

Section Far.
  Variables (sh : list nat) (Ef Hf : nat -> list nat -> num) (dkx dky : R) (ps : option (list nat)).
  Hypothesis Hsh : length sh = 2%nat.
  Hypothesis Hsq : dim sh 0 = dim sh 1.
  Hypothesis Hpos : (0 < dim sh 1)%nat.
  Hypothesis Hps : padded sh ps = sh.
  Hypothesis Ndx : dkx <> 0.
  Hypothesis Ndy : dky <> 0.
  Variables kx ky : list nat -> R.
  Hypothesis Hkx : forall idx, inb sh idx -> kx idx = IZR (signed_freq (dim sh 0) (coord (fwd sh idx) 0)) * dkx.
  Hypothesis Hky : forall idx, inb sh idx -> ky idx = IZR (signed_freq (dim sh 1) (coord (fwd sh idx) 1)) * dky.
  Definition far_back (f : list nat -> num) := ifftshift sh (fft_of ifftn sh (resize sh (ifftshift sh f))).
  Definition cell_E a (e0 e1 c ct st : num) : num :=
    let L0 := nmul (rnum (1 / 2)) e1 in
    let L1 := nmul (rnum (- (1 / 2))) e0 in
    match a with
    | O => ndiv (nopp (nadd (nmul L0 st) (nmul (nmul L1 c) ct))) c
    | _ => ndiv (nopp (nadd (nmul (nopp L0) ct) (nmul (nmul L1 c) st))) c end.
  Definition cell_H a (e0 e1 c ct st : num) : num :=
    let L0 := nmul (rnum (1 / 2)) e1 in
    let L1 := nmul (rnum (- (1 / 2))) e0 in
    match a with
    | O => ndiv (nadd (nmul L1 st) (nmul (nmul (nopp L0) c) ct)) c
    | _ => ndiv (nadd (nmul (nopp L1) ct) (nmul (nmul (nopp L0) c) st)) c end.
  Definition zero_at (c x : num) : num := match c with Some z => if cpx_dec z c0 then rnum 0 else x | None => x end.
  Lemma far_unfold : exists En Hn r, far_to_nearfield sh Ef Hf dkx dky ps = Some r /\
    (forall a, nE r a = far_back (En a)) /\ (forall a, nH r a = far_back (Hn a)) /\
    ndx r = rnum (2 * PI / (INR (dim sh 0) * dkx)) /\ ndy r = rnum (2 * PI / (INR (dim sh 1) * dky)) /\
    (forall a idx, inb sh idx -> argE r a idx = (if invalid kx ky idx then rnum 0 else Ef a idx) /\
                                 argH r a idx = (if invalid kx ky idx then rnum 0 else Hf a idx)) /\
    (forall a idx, inb sh idx ->
      let e a := if invalid kx ky idx then rnum 0 else Ef a idx in
      let c := cos_phi kx ky idx in let ct := cos_th kx ky idx in let st := sin_th kx ky idx in
      En a idx = zero_at c (cell_E a (e 0%nat) (e 1%nat) c ct st) /\
      Hn a idx = zero_at c (cell_H a (e 0%nat) (e 1%nat) c ct st)).
  Proof.
    unfold far_to_nearfield. rewrite Hps. cbv zeta. rewrite Hsq, Nat.eqb_refl. cbn [negb].
    destruct (Req_EM_T dkx 0) as [|_]; [contradiction|]. destruct (Req_EM_T dky 0) as [|_]; [contradiction|].
    assert (Pn : 0 < INR (dim sh 1)) by (apply (lt_INR 0); lia).
    set (gx := fun idx : list nat => IZR (fftfreq (dim sh 1) (cyc (dim sh 1) (- Z.of_nat (dim sh 1 / 2)) (coord idx 0))) * (1 / (INR (dim sh 1) * (1 / (INR (dim sh 1) * dkx))))).
    set (gy := fun idx : list nat => IZR (fftfreq (dim sh 1) (cyc (dim sh 1) (- Z.of_nat (dim sh 1 / 2)) (coord idx 1))) * (1 / (INR (dim sh 1) * (1 / (INR (dim sh 1) * dky))))).
    assert (X : forall idx, inb sh idx -> gx idx = kx idx).
    { intros idx Hi. rewrite Hkx by exact Hi. unfold gx. pose proof (inb_coord sh idx 0 Hi ltac:(lia)). rewrite fwd_coord0 by assumption. rewrite Hsq in *. rewrite fftfreq_signed by (apply cyc_lt; lia). field. repeat split; try assumption; lra. }
    assert (Y : forall idx, inb sh idx -> gy idx = ky idx).
    { intros idx Hi. rewrite Hky by exact Hi. unfold gy. pose proof (inb_coord sh idx 1 Hi ltac:(lia)). rewrite fwd_coord1 by assumption. rewrite fftfreq_signed by (apply cyc_lt; lia). field. repeat split; try assumption; lra. }
    eexists (fun a idx => zero_at (cos_phi gx gy idx) (cell_E a (if invalid gx gy idx then rnum 0 else Ef 0%nat idx) (if invalid gx gy idx then rnum 0 else Ef 1%nat idx) (cos_phi gx gy idx) (cos_th gx gy idx) (sin_th gx gy idx))),
            (fun a idx => zero_at (cos_phi gx gy idx) (cell_H a (if invalid gx gy idx then rnum 0 else Ef 0%nat idx) (if invalid gx gy idx then rnum 0 else Ef 1%nat idx) (cos_phi gx gy idx) (cos_th gx gy idx) (sin_th gx gy idx))), _.
    split; [reflexivity|]. cbn [nE nH ndx ndy argE argH]. split; [reflexivity|]. split; [reflexivity|].
    split; [apply ndiv_r; apply Rmult_integral_contrapositive_currified; lra|]. split; [apply ndiv_r; apply Rmult_integral_contrapositive_currified; lra|].
    split.
    - intros a idx Hi. destruct (dir_ext gx gy kx ky idx (X idx Hi) (Y idx Hi)) as (_ & _ & _ & ->). split; reflexivity.
    - intros a idx Hi. destruct (dir_ext gx gy kx ky idx (X idx Hi) (Y idx Hi)) as (-> & -> & -> & ->). split; reflexivity.
  Qed.
End Far.

Lemma cell_zero (x : num) : zero_at (Some c0) x = rnum 0.
Proof. unfold zero_at. destruct cpx_dec; congruence. Qed.
Lemma cell_nz c (x : num) : c <> c0 -> zero_at (Some c) x = x.
Proof. intro H. unfold zero_at. destruct cpx_dec; congruence. Qed.
Lemma ndiv_nz a b : b <> c0 -> ndiv (Some a) (Some b) = Some (cdiv a b).
Proof. intro H. unfold ndiv. destruct cpx_dec; congruence. Qed.

Theorem round_trip n dx dy (E H : nat -> list nat -> cpx) ps :
  let sh := [n; n] in
  (2 <= n)%nat -> 0 < dx -> 0 < dy -> padded sh ps = sh ->
  (forall q, inb sh q ->
     let kx := dft_k n dx (coord q 0) in let ky := dft_k n dy (coord q 1) in
     kx * kx + ky * ky < 2 * PI * (2 * PI) /\ outgoing kx ky (fftn sh (E 0%nat) q) (fftn sh (E 1%nat) q) (fftn sh (H 0%nat) q) (fftn sh (H 1%nat) q) \/
     kx * kx + ky * ky = 2 * PI * (2 * PI) /\ forall a, (a < 2)%nat -> fftn sh (E a) q = c0 /\ fftn sh (H a) q = c0) ->
  exists F r, near_to_farfield sh E H dx dy ps = Some F /\
    far_to_nearfield sh (fE F) (fH F) (2 * PI / (INR n * dx)) (2 * PI / (INR n * dy)) ps = Some r /\
    (forall a idx, (a < 2)%nat -> inb sh idx -> nE r a idx = Some (E a idx) /\ nH r a idx = Some (H a idx)) /\
    ndx r = rnum dx /\ ndy r = rnum dy.
Proof.
  intros sh H2 Px Py Hps HW.
  assert (Hsh : length sh = 2%nat) by reflexivity.
  assert (D0 : dim sh 0 = n) by reflexivity. assert (D1 : dim sh 1 = n) by reflexivity.
  assert (Pn : 0 < INR n) by (apply (lt_INR 0); lia). pose proof PI_RGT_0 as Ppi.
  destruct (near_eval sh E H dx dy ps Hsh ltac:(rewrite D0; exact H2) Hps Px Py) as (F & EF & HK & HI & HV). rewrite D0, D1 in HK.
  set (dkx := 2 * PI / (INR n * dx)). set (dky := 2 * PI / (INR n * dy)).
  assert (Nx : 0 < dkx) by (apply Rdiv_lt_0_compat; [lra|nra]). assert (Ny : 0 < dky) by (apply Rdiv_lt_0_compat; [lra|nra]).
  destruct (far_unfold sh (fE F) (fH F) dkx dky ps Hsh ltac:(rewrite D0, D1; reflexivity) ltac:(rewrite D1; lia) Hps ltac:(lra) ltac:(lra) (fkx F) (fky F)) as (En & Hn & r & Er & RE & RH & RX & RY & _ & RC).
  { intros idx Hi. rewrite D0. rewrite (proj1 (HK idx Hi)). unfold dft_k, dkx. field. lra. }
  { intros idx Hi. rewrite D1. rewrite (proj2 (HK idx Hi)). unfold dft_k, dky. field. lra. }
  exists F, r. split; [exact EF|]. split; [exact Er|]. split; [|rewrite RX, RY, D0, D1; split; [apply (f_equal rnum); unfold dkx|apply (f_equal rnum); unfold dky]; field; lra].
  assert (CELL : forall idx, inb sh idx -> forall a, (a < 2)%nat ->
     En a idx = Some (fftn sh (fftshift sh (E a)) (fwd sh idx)) /\ Hn a idx = Some (fftn sh (fftshift sh (H a)) (fwd sh idx))).
  { intros idx Hi a Ha. destruct (RC a idx Hi) as [-> ->]. pose proof (fwd_inb sh Hsh idx Hi) as Hq. specialize (HW _ Hq). cbv zeta in HW.
    destruct (HK idx Hi) as [Kx Ky]. rewrite <- Kx, <- Ky in HW. change (2 * PI) with k_2pi in HW.
    assert (LE : kxy2 (fkx F) (fky F) idx <= k_2pi * k_2pi) by (unfold kxy2; destruct HW as [[? _]|[? _]]; lra).
    rewrite (cos_phi_val _ _ _ LE). destruct HW as [[Lt O]|[Eq Z]].
    - assert (IV : invalid (fkx F) (fky F) idx = false) by (apply invalid_false; exact Lt). rewrite IV.
      destruct (ang_val (fkx F) (fky F) idx) as (c & s & HC & HS & U & Kx' & Ky').
      destruct (HV idx _ _ _ Hi IV (cos_phi_val _ _ _ LE) HC HS) as (-> & -> & _ & _). rewrite HC, HS.
      pose proof (cph_pos _ _ _ Lt) as Pc. pose proof (cph_sq _ _ _ LE) as Qc. set (cp := cph (fkx F) (fky F) idx) in *. clearbody cp.
      assert (NC : mkC cp 0 <> c0) by (intro W; apply (f_equal cre) in W; cbn in W; lra).
      rewrite !cell_nz by exact NC. rewrite !(fftn_fftshift sh Hsh) by exact Hq.
      apply (outgoing_scale _ _ (phase sh (fwd sh idx))) in O.
      destruct (outgoing_rt _ _ _ _ _ _ _ cp c s O Kx' Ky' U Pc) as [A B]; [rewrite Qc; unfold kxy2; ring|].
      set (X0 := cmul (phase sh (fwd sh idx)) (fftn sh (E 0%nat) (fwd sh idx))) in *. set (X1 := cmul (phase sh (fwd sh idx)) (fftn sh (E 1%nat) (fwd sh idx))) in *.
      set (Y0 := cmul (phase sh (fwd sh idx)) (fftn sh (H 0%nat) (fwd sh idx))) in *. set (Y1 := cmul (phase sh (fwd sh idx)) (fftn sh (H 1%nat) (fwd sh idx))) in *.
      assert (TS : cadd (cmul (mkC c 0) (mkC c 0)) (cmul (mkC s 0) (mkC s 0)) = c1) by (apply cpx_ext; cbn; [rewrite <- U|]; ring).
      destruct (wave_cell (mkC cp 0) (mkC c 0) (mkC s 0) X0 X1 Y0 Y1 NC TS A B) as (W0 & W1 & W2 & W3).
      destruct a as [|[|a]]; [| |lia]; unfold cell_E, cell_H, rnum, nmul, nadd, nopp, lift2, option_map; cbv zeta beta iota; rewrite !ndiv_nz by exact NC.
      + split; apply (f_equal Some); [exact W0|exact W2].
      + split; apply (f_equal Some); [exact W1|exact W3].
    - assert (C0 : mkC (cph (fkx F) (fky F) idx) 0 = c0).
      { apply cpx_ext; [|reflexivity]. unfold cph, kxy2. rewrite Eq, Rminus_diag_eq, sqrt_0 by reflexivity. cbn. unfold Rdiv. ring. }
      rewrite C0, !cell_zero. rewrite !(fftn_fftshift sh Hsh) by exact Hq. destruct (Z a Ha) as [-> ->]. unfold rnum. split; apply (f_equal Some); apply cpx_ext; cbn; ring. }
  intros a idx Ha Hi. rewrite RE, RH. unfold far_back.
  rewrite (back_eval sh Hsh (En a) (fftshift sh (E a)) idx Hi) by (intros j Hj; apply (CELL j Hj a Ha)).
  rewrite (back_eval sh Hsh (Hn a) (fftshift sh (H a)) idx Hi) by (intros j Hj; apply (CELL j Hj a Ha)).
  unfold fftshift. change (Some (E a (fwd sh (bwd sh idx))) = Some (E a idx) /\ Some (H a (fwd sh (bwd sh idx))) = Some (H a idx)).
  rewrite (fwd_bwd sh Hsh idx Hi). auto.
Qed.
