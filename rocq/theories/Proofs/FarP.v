(** Shifts of transforms and the algebra of near- and far-field components. *)
From Coq Require Import Reals List Arith ZArith Lia Lra Psatz Field Bool.
From Verif.Lib Require Import Num Sums Idx RealF Dft.
From Verif.Model Require Import Ndarray Bloch Farfield.
From Verif.Spec Require Import BlochSpec FarSpec.
From Verif.Proofs Require Import EmeP NdarrayP BlochP BlochP2.
Import ListNotations.
Local Open Scope R_scope.

Lemma cis_Z z : cis (2 * PI * IZR z) = c1.
Proof.
  destruct (Z_le_gt_dec 0 z) as [P|N].
  - replace (IZR z) with (INR (Z.to_nat z)); [apply cis_nat|]. rewrite INR_IZR_INZ, Z2Nat.id by lia. reflexivity.
  - replace (2 * PI * IZR z) with (- (2 * PI * INR (Z.to_nat (- z)))).
    + rewrite cis_opp, cis_nat. apply cpx_ext; cbn; ring.
    + rewrite INR_IZR_INZ, Z2Nat.id, opp_IZR by lia. ring.
Qed.
Lemma turns_upd sh q j a v : inb sh j -> length q = length sh -> (a < length sh)%nat ->
  turns sh q (upd a v j) = turns sh q j + INR (coord q a) * (INR v - INR (coord j a)) / INR (dim sh a).
Proof.
  intros H. revert q a. induction H as [|i n j ns Hi H IH]; intros q a Lq La; [cbn in La; lia|].
  destruct q as [|b q]; [discriminate|]. destruct a as [|a]; cbn [upd turns coord dim nth].
  - unfold Rdiv. ring.
  - rewrite IH by (cbn in *; lia). unfold coord, dim. ring.
Qed.
Lemma cyc_eq n d i : (0 < n)%nat -> exists z, INR (cyc n d i) = INR i + IZR d + INR n * IZR z.
Proof.
  intro H. exists (- ((Z.of_nat i + d) / Z.of_nat n))%Z. unfold cyc.
  pose proof (Z.mod_pos_bound (Z.of_nat i + d) (Z.of_nat n) ltac:(lia)).
  rewrite INR_IZR_INZ, Z2Nat.id by lia. rewrite !INR_IZR_INZ, <- mult_IZR, <- !plus_IZR. f_equal.
  pose proof (Z.div_mod (Z.of_nat i + d) (Z.of_nat n) ltac:(lia)). lia.
Qed.
(** The transform of a rolled array differs by a phase. *)
Lemma fftn_shift sh f a d q : inb sh q -> (a < length sh)%nat ->
  fftn sh (fun j => f (shift_ix sh a d j)) q = cmul (cis (2 * PI * (INR (coord q a) * IZR d / INR (dim sh a)))) (fftn sh f q).
Proof.
  intros Hq Ha. unfold fftn. set (n := dim sh a). set (c := cis _).
  assert (Hn : (0 < n)%nat) by (pose proof (inb_coord sh q a Hq Ha); unfold n; lia).
  assert (Pn : 0 < INR n) by (apply (lt_INR 0); exact Hn).
  refine (eq_trans _ (gsum_mul_l CC sh c _)).
  refine (eq_trans _ (gsum_shift (K := CC) sh a d _ Ha)).
  apply (gsum_ext (K := CC)). intros j Hj.
  unfold shift_ix at 3. rewrite turns_upd by (try assumption; now apply inb_length). fold n.
  destruct (cyc_eq n d (coord j a) Hn) as [z ->].
  set (F := f _). change (cmul F (cis (- (2 * PI * turns sh q j))) = cmul c (cmul F (cis (- (2 * PI * (turns sh q j + INR (coord q a) * (INR (coord j a) + IZR d + INR n * IZR z - INR (coord j a)) / INR n)))))).
  replace (- (2 * PI * (turns sh q j + INR (coord q a) * (INR (coord j a) + IZR d + INR n * IZR z - INR (coord j a)) / INR n)))
    with (- (2 * PI * turns sh q j) + (- (2 * PI * (INR (coord q a) * IZR d / INR n)) + 2 * PI * IZR (- (Z.of_nat (coord q a) * z)))).
  2:{ rewrite opp_IZR, mult_IZR, <- INR_IZR_INZ. field. lra. }
  rewrite !cis_add, cis_Z, (cis_opp (2 * PI * (INR (coord q a) * IZR d / INR n))).
  assert (U : cmul c (cconj c) = c1).
  { unfold c, cis. apply cpx_ext; cbn; [|ring]. set (t := 2 * PI * _). pose proof (sin2_cos2 t) as S. unfold Rsqr in S. lra. }
  change (cis (2 * PI * (INR (coord q a) * IZR d / INR n))) with c.
  set (w := cis (- (2 * PI * turns sh q j))). clearbody c w F.
  transitivity (cmul (cmul c (cconj c)) (cmul F w)); [rewrite U|]; apply cpx_ext; cbn; ring.
Qed.

Definition fwd sh idx := shift_ix sh 1 (- Z.of_nat (dim sh 1 / 2)) (shift_ix sh 0 (- Z.of_nat (dim sh 0 / 2)) idx).
Definition bwd sh idx := shift_ix sh 1 (Z.of_nat (dim sh 1 / 2)) (shift_ix sh 0 (Z.of_nat (dim sh 0 / 2)) idx).
Section Shifts.
  Variable sh : list nat.
  Hypothesis Hsh : length sh = 2%nat.
  Lemma fwd_inb idx : inb sh idx -> inb sh (fwd sh idx).
  Proof. intro H. unfold fwd. apply inb_shift; [apply inb_shift; [exact H|lia]|lia]. Qed.
  Lemma bwd_inb idx : inb sh idx -> inb sh (bwd sh idx).
  Proof. intro H. unfold bwd. apply inb_shift; [apply inb_shift; [exact H|lia]|lia]. Qed.
  Lemma fwd_bwd idx : inb sh idx -> fwd sh (bwd sh idx) = idx.
  Proof.
    intro H. unfold fwd, bwd. rewrite (shift_ix_comm sh _ 0 1) by lia. rewrite (shift_ix_inv sh idx 0) by (try lia; exact H). apply shift_ix_inv; [exact H|lia].
  Qed.
  Lemma bwd_fwd idx : inb sh idx -> bwd sh (fwd sh idx) = idx.
  Proof.
    intro H. unfold fwd, bwd. rewrite (shift_ix_comm sh _ 0 1) by lia. rewrite (shift_ix_inv' sh idx 0) by (try lia; exact H). apply shift_ix_inv'; [exact H|lia].
  Qed.
  Lemma fwd_coord0 idx : inb sh idx -> coord (fwd sh idx) 0 = cyc (dim sh 0) (- Z.of_nat (dim sh 0 / 2)) (coord idx 0).
  Proof. intro H. unfold fwd. rewrite coord_shift_other by lia. apply coord_shift_same; [exact H|lia]. Qed.
  Lemma fwd_coord1 idx : inb sh idx -> coord (fwd sh idx) 1 = cyc (dim sh 1) (- Z.of_nat (dim sh 1 / 2)) (coord idx 1).
  Proof. intro H. unfold fwd. rewrite coord_shift_same; [|apply inb_shift; [exact H|lia]|lia]. rewrite coord_shift_other by lia. reflexivity. Qed.
  Definition phase q := cmul (cis (2 * PI * (INR (coord q 1) * IZR (- Z.of_nat (dim sh 1 / 2)) / INR (dim sh 1))))
    (cis (2 * PI * (INR (coord q 0) * IZR (- Z.of_nat (dim sh 0 / 2)) / INR (dim sh 0)))).
  Lemma fftn_fftshift f q : inb sh q -> fftn sh (fftshift sh f) q = cmul (phase q) (fftn sh f q).
  Proof.
    intro Hq. unfold phase.
    transitivity (cmul (cis (2 * PI * (INR (coord q 0) * IZR (- Z.of_nat (dim sh 0 / 2)) / INR (dim sh 0)))) (fftn sh (fun j => f (shift_ix sh 1 (- Z.of_nat (dim sh 1 / 2)) j)) q)).
    - exact (fftn_shift sh (fun j => f (shift_ix sh 1 (- Z.of_nat (dim sh 1 / 2)) j)) 0 _ q Hq ltac:(lia)).
    - rewrite (fftn_shift sh f 1) by (try exact Hq; lia). set (x := cis _). set (y := cis _). set (z := fftn _ _ _). clearbody x y z. apply cpx_ext; cbn; ring.
  Qed.
  Lemma resize_id f idx : inb sh idx -> resize sh f idx = f idx.
  Proof.
    intro H. unfold resize. pose proof (inb_coord sh idx 0 H ltac:(lia)). pose proof (inb_coord sh idx 1 H ltac:(lia)).
    now rewrite !(proj2 (Nat.ltb_lt _ _)) by assumption.
  Qed.
  Lemma all_finite_val f g : (forall j, inb sh j -> f j = Some (g j)) -> exists g', all_finite sh f = Some g' /\ forall j, inb sh j -> g' j = g j.
  Proof. exact (all_finite_some sh f g). Qed.
  Lemma spec_eval (f : list nat -> cpx) idx : inb sh idx ->
    fftshift sh (fft_of fftn sh (resize sh (fun j => Some (fftshift sh f j)))) idx = Some (fftn sh (fftshift sh f) (fwd sh idx)).
  Proof.
    intro H. unfold fftshift at 1, fft_of.
    destruct (all_finite_val (resize sh (fun j => Some (fftshift sh f j))) (fftshift sh f)) as (g & -> & Hg).
    { intros j Hj. now rewrite resize_id. }
    f_equal. apply fftn_ext. exact Hg.
  Qed.
  Lemma back_eval (f : list nat -> num) (g : list nat -> cpx) idx : inb sh idx ->
    (forall j, inb sh j -> f j = Some (fftn sh g (fwd sh j))) ->
    ifftshift sh (fft_of ifftn sh (resize sh (ifftshift sh f))) idx = Some (g (bwd sh idx)).
  Proof.
    intros H F. unfold ifftshift at 1, fft_of.
    destruct (all_finite_val (resize sh (ifftshift sh f)) (fftn sh g)) as (g' & -> & Hg).
    { intros j Hj. rewrite resize_id by exact Hj. unfold ifftshift. change (f (bwd sh j) = Some (fftn sh g j)). rewrite F by now apply bwd_inb. now rewrite fwd_bwd. }
    f_equal. change (ifftn sh g' (bwd sh idx) = g (bwd sh idx)).
    rewrite (ifftn_ext sh g' (fftn sh g)) by exact Hg. apply ifftn_fftn. now apply bwd_inb.
  Qed.
  Lemma back_none (f : list nat -> num) j0 idx : inb sh j0 -> f j0 = None ->
    ifftshift sh (fft_of ifftn sh (resize sh (ifftshift sh f))) idx = None.
  Proof.
    intros H N. unfold ifftshift at 1, fft_of. rewrite (all_finite_none sh _ (fwd sh j0)); [reflexivity|now apply fwd_inb|].
    rewrite resize_id by now apply fwd_inb. unfold ifftshift. change (f (bwd sh (fwd sh j0)) = None). now rewrite bwd_fwd.
  Qed.
End Shifts.

(** ** Directions *)
Section Dir.
  Variables kx ky : list nat -> R.
  Variable idx : list nat.
  Hypothesis Hv : kxy2 kx ky idx <= k_2pi * k_2pi.
  Lemma k2pos : 0 < k_2pi. Proof. unfold k_2pi. pose proof PI_RGT_0. lra. Qed.
  Definition cph := sqrt (k_2pi * k_2pi - kxy2 kx ky idx) / k_2pi.
  Lemma cos_phi_val : cos_phi kx ky idx = Some (mkC cph 0).
  Proof.
    unfold cos_phi, kz. destruct Rle_dec as [_|N]; [|exfalso; lra]. unfold rnum, ndiv. destruct cpx_dec as [X|_].
    - exfalso. apply (f_equal cre) in X. cbn in X. pose proof k2pos. lra.
    - f_equal. pose proof k2pos. apply cpx_ext; cbn; unfold cnrm, cph; cbn; field; nra.
  Qed.
  Lemma cph_sq : cph * cph * (k_2pi * k_2pi) = k_2pi * k_2pi - kxy2 kx ky idx.
  Proof. pose proof k2pos. unfold cph. rewrite <- (sqrt_sqrt (k_2pi * k_2pi - kxy2 kx ky idx)) at 3 by lra. field. lra. Qed.
  Lemma cph_pos : kxy2 kx ky idx < k_2pi * k_2pi -> 0 < cph.
  Proof. intro L. pose proof k2pos. unfold cph. apply Rdiv_lt_0_compat; [apply sqrt_lt_R0; lra|lra]. Qed.
  Lemma cph_nonneg : 0 <= cph.
  Proof. unfold cph. pose proof k2pos. apply Rmult_le_pos; [apply sqrt_pos|left; apply Rinv_0_lt_compat; lra]. Qed.
End Dir.
Lemma ang_val kx ky idx : exists c s, cos_th kx ky idx = Some (mkC c 0) /\ sin_th kx ky idx = Some (mkC s 0) /\
  c * c + s * s = 1 /\ kx idx = sqrt (kxy2 kx ky idx) * c /\ ky idx = sqrt (kxy2 kx ky idx) * s.
Proof.
  unfold cos_th, sin_th, at_0. unfold kxy2. set (x := kx idx). set (y := ky idx). clearbody x y.
  assert (D : (x = 0 /\ y = 0) \/ 0 < x * x + y * y).
  { destruct (Req_EM_T x 0), (Req_EM_T y 0); [left; auto|right; nra..]. }
  destruct D as [[-> ->]|P].
  - destruct (Req_EM_T 0 0); [|contradiction]. exists 1, 0. repeat split; try ring. replace (0 * 0 + 0 * 0) with 0 by ring. rewrite sqrt_0. ring.
  - assert (Z : (if Req_EM_T x 0 then if Req_EM_T y 0 then true else false else false) = false).
    { destruct (Req_EM_T x 0), (Req_EM_T y 0); try reflexivity. exfalso. subst. lra. }
    rewrite Z. set (r := sqrt (x * x + y * y)). assert (R : 0 < r) by (apply sqrt_lt_R0; exact P).
    assert (Q : r * r = x * x + y * y) by (apply sqrt_sqrt; lra).
    exists (x / r), (y / r). unfold rnum, ndiv. destruct cpx_dec as [X|_]; [apply (f_equal cre) in X; cbn in X; lra|].
    repeat split.
    + f_equal. apply cpx_ext; cbn; unfold cnrm; cbn; field; nra.
    + f_equal. apply cpx_ext; cbn; unfold cnrm; cbn; field; nra.
    + replace (x / r * (x / r) + y / r * (y / r)) with ((x * x + y * y) / (r * r)) by (field; lra). rewrite Q. field. lra.
    + field. lra.
    + field. lra.
Qed.
Lemma dir_ext kx ky kx' ky' idx : kx idx = kx' idx -> ky idx = ky' idx ->
  cos_phi kx ky idx = cos_phi kx' ky' idx /\ cos_th kx ky idx = cos_th kx' ky' idx /\ sin_th kx ky idx = sin_th kx' ky' idx /\ invalid kx ky idx = invalid kx' ky' idx.
Proof. intros A B. unfold cos_phi, kz, cos_th, sin_th, invalid, at_0, kxy2. now rewrite A, B. Qed.

(** ** One plane wave *)
Lemma wave_cell C T S Ex Ey Hx Hy : C <> c0 -> cadd (cmul T T) (cmul S S) = c1 ->
  csub (cmul T Hy) (cmul S Hx) = cdiv (cadd (cmul T Ex) (cmul S Ey)) C ->
  cadd (cmul T Hx) (cmul S Hy) = copp (cmul C (csub (cmul T Ey) (cmul S Ex))) ->
  let N0 := cadd (cmul (cmul (copp Hy) C) T) (cmul (cmul Hx C) S) in
  let N1 := cadd (cmul Hy S) (cmul Hx T) in
  let L0 := csub (cmul (cmul Ey C) T) (cmul (cmul Ex C) S) in
  let L1 := csub (cmul (copp Ey) S) (cmul Ex T) in
  let E0 := csub (copp L1) N0 in
  let E1 := csub L0 N1 in
  let l0 := cmul (mkC (1 / 2) 0) E1 in
  let l1 := cmul (mkC (- (1 / 2)) 0) E0 in
  cdiv (copp (cadd (cmul l0 S) (cmul (cmul l1 C) T))) C = Ex /\
  cdiv (copp (cadd (cmul (copp l0) T) (cmul (cmul l1 C) S))) C = Ey /\
  cdiv (cadd (cmul l1 S) (cmul (cmul (copp l0) C) T)) C = Hx /\
  cdiv (cadd (cmul (copp l1) T) (cmul (cmul (copp l0) C) S)) C = Hy.
Proof.
  intros NC TS A B N0 N1 L0 L1 E0 E1 l0 l1.
  set (Er := cadd (cmul T Ex) (cmul S Ey)) in *. set (Et := csub (cmul T Ey) (cmul S Ex)) in *.
  assert (HC : cmul (mkC (1 / 2) 0) (cadd c1 c1) = c1) by (apply cpx_ext; cbn; field).
  assert (F0 : E0 = cmul (cadd c1 c1) Er).
  { transitivity (cadd Er (cmul C (csub (cmul T Hy) (cmul S Hx)))). { unfold E0, L1, N0, Er. cring. } rewrite A. cfield. exact NC. }
  assert (F1 : E1 = cmul (cadd c1 c1) (cmul C Et)).
  { transitivity (csub (cmul C Et) (cadd (cmul T Hx) (cmul S Hy))). { unfold E1, L0, N1, Et. cring. } rewrite B. cring. }
  assert (G0 : l0 = cmul C Et). { unfold l0. rewrite F1. transitivity (cmul (cmul (mkC (1 / 2) 0) (cadd c1 c1)) (cmul C Et)); [cring|]. rewrite HC. cring. }
  assert (G1 : l1 = copp Er). { unfold l1. rewrite F0. transitivity (copp (cmul (cmul (mkC (1 / 2) 0) (cadd c1 c1)) Er)); [apply cpx_ext; cbn; ring|]. rewrite HC. cring. }
  rewrite G0, G1. clear l0 l1 G0 G1 F0 F1 E0 E1 N0 N1 L0 L1 HC.
  assert (X0 : csub (cmul T Er) (cmul S Et) = Ex). { transitivity (cmul (cadd (cmul T T) (cmul S S)) Ex). { unfold Er, Et. cring. } rewrite TS. cring. }
  assert (X1 : cadd (cmul S Er) (cmul T Et) = Ey). { transitivity (cmul (cadd (cmul T T) (cmul S S)) Ey). { unfold Er, Et. cring. } rewrite TS. cring. }
  assert (Y0 : csub (cmul T (copp (cmul C Et))) (cmul S (cdiv Er C)) = Hx).
  { rewrite <- B, <- A. transitivity (cmul (cadd (cmul T T) (cmul S S)) Hx); [cring|]. rewrite TS. cring. }
  assert (Y1 : cadd (cmul S (copp (cmul C Et))) (cmul T (cdiv Er C)) = Hy).
  { rewrite <- B, <- A. transitivity (cmul (cadd (cmul T T) (cmul S S)) Hy); [cring|]. rewrite TS. cring. }
  clear A B. clearbody Er Et. subst Ex Ey Hx Hy.
  repeat split; cfield; exact NC.
Qed.
(** Components along and across the in-plane direction of an outgoing wave. *)
Lemma outgoing_rt kx ky Ex Ey Hx Hy (r c ct st : R) : outgoing kx ky Ex Ey Hx Hy -> kx = r * ct -> ky = r * st -> ct * ct + st * st = 1 ->
  0 < c -> c * c * (k_2pi * k_2pi) = k_2pi * k_2pi - (kx * kx + ky * ky) ->
  csub (rmul ct Hy) (rmul st Hx) = cdiv (cadd (rmul ct Ex) (rmul st Ey)) (mkC c 0) /\
  cadd (rmul ct Hx) (rmul st Hy) = copp (rmul c (csub (rmul ct Ey) (rmul st Ex))).
Proof.
  intros (Ez & A & B & D) Kx Ky U Pc Q. pose proof k2pos as Pk. fold k_2pi in *.
  assert (Z : sqrt (k_2pi * k_2pi - (kx * kx + ky * ky)) = c * k_2pi).
  { apply sqrt_of; [nra|]. rewrite <- Q. ring. }
  rewrite Z in *. assert (R2 : r * r = k_2pi * k_2pi * (1 - c * c)). { rewrite Kx, Ky in Q. nra. }
  subst kx ky. destruct Ex as [a a'], Ey as [b b'], Hx as [x x'], Hy as [y y'], Ez as [z z'].
  pose proof (f_equal cre A) as A1. pose proof (f_equal cim A) as A2. pose proof (f_equal cre B) as B1. pose proof (f_equal cim B) as B2.
  pose proof (f_equal cre D) as D1. pose proof (f_equal cim D) as D2. cbn in A1, A2, B1, B2, D1, D2. clear A B D.
  assert (G : forall a b x y z : R, r * ct * a + r * st * b + c * k_2pi * z = 0 -> k_2pi * x = r * st * z - c * k_2pi * b -> k_2pi * y = c * k_2pi * a - r * ct * z ->
    ct * y - st * x = (ct * a + st * b) / c /\ ct * x + st * y = - (c * (ct * b - st * a))).
  { clear - U Pc Pk R2. intros a b x y z A B D. split.
    - apply (Rmult_eq_reg_l (k_2pi * k_2pi * c)); [|assert (0 < k_2pi * k_2pi * c) by (apply Rmult_lt_0_compat; nra); lra].
      replace (k_2pi * k_2pi * c * ((ct * a + st * b) / c)) with (k_2pi * k_2pi * (ct * a + st * b)) by (field; lra).
      replace (k_2pi * k_2pi * c * (ct * y - st * x)) with (k_2pi * c * (ct * (k_2pi * y) - st * (k_2pi * x))) by ring.
      rewrite B, D. replace (k_2pi * c * (ct * (c * k_2pi * a - r * ct * z) - st * (r * st * z - c * k_2pi * b)))
        with (k_2pi * c * (c * k_2pi) * (ct * a + st * b) - r * (ct * ct + st * st) * (c * k_2pi * z)) by ring.
      rewrite U. replace (c * k_2pi * z) with (- (r * ct * a + r * st * b)) by lra.
      replace (k_2pi * c * (c * k_2pi) * (ct * a + st * b) - r * 1 * - (r * ct * a + r * st * b)) with ((k_2pi * k_2pi * c * c + r * r) * (ct * a + st * b)) by ring.
      rewrite R2. ring.
    - apply (Rmult_eq_reg_l k_2pi); [|lra]. replace (k_2pi * (ct * x + st * y)) with (ct * (k_2pi * x) + st * (k_2pi * y)) by ring. rewrite B, D. ring. }
  destruct (G a b x y z) as [G1 G2]; [lra..|]. destruct (G a' b' x' y' z') as [G3 G4]; [lra..|].
  split; apply cpx_ext; cbn; unfold cnrm; cbn.
  - replace (ct * y - 0 * y' - (st * x - 0 * x')) with (ct * y - st * x) by ring. rewrite G1. field. lra.
  - replace (ct * y' + 0 * y - (st * x' + 0 * x)) with (ct * y' - st * x') by ring. rewrite G3. field. lra.
  - replace (ct * x - 0 * x' + (st * y - 0 * y')) with (ct * x + st * y) by ring. rewrite G2. ring.
  - replace (ct * x' + 0 * x + (st * y' + 0 * y)) with (ct * x' + st * y') by ring. rewrite G4. ring.
Qed.
Lemma outgoing_scale kx ky w Ex Ey Hx Hy : outgoing kx ky Ex Ey Hx Hy -> outgoing kx ky (cmul w Ex) (cmul w Ey) (cmul w Hx) (cmul w Hy).
Proof.
  intros (Ez & A & B & C). exists (cmul w Ez). split; [|split].
  - transitivity (cmul w (cadd (cadd (rmul kx Ex) (rmul ky Ey)) (rmul (sqrt (2 * PI * (2 * PI) - (kx * kx + ky * ky))) Ez))); [unfold rmul; cring|]. rewrite A. apply cpx_ext; cbn; ring.
  - transitivity (cmul w (rmul (2 * PI) Hx)); [unfold rmul; cring|]. rewrite B. unfold rmul. cring.
  - transitivity (cmul w (rmul (2 * PI) Hy)); [unfold rmul; cring|]. rewrite C. unfold rmul. cring.
Qed.
