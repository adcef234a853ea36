(** How the bands of meanas/fdfd/bloch.py depend on the Bloch wavevector. *)
From Coq Require Import Reals List Arith ZArith Lia Lra Psatz Bool Field Sorted Permutation.
From Verif.Lib Require Import Num Sums Idx Mat RealF Dft BoxMin.
From Verif.Model Require Import Ndarray Bloch Eigensolvers BlochSolve.
From Verif.Spec Require Import BlochSpec BlochBandSpec EigenSpec BlochSolveSpec BandsSpec.
From Verif.Proofs Require Import EmeP NdarrayP BlochP BlochP2 BlochSolveP BlochSolveP2 BlochBandP SpectralP MinMaxP BandSlopeP.
From Verif.Props Require Import BlochProps BlochSolveProps BlochBandProps BandsProps.
Import ListNotations.
Local Open Scope R_scope.

(** G v *)
Definition lattice (G : nat -> nat -> R) (v : vec3) : vec3 := fun a => G a O * v O + G a 1%nat * v 1%nat + G a 2%nat * v 2%nat.
Definition length3 (v : vec3) : R := sqrt (dot3 v v).
Definition at_least sh lo (e : nat -> list nat -> R) : Prop := forall a j, (a < 3)%nat -> inb sh j -> lo <= e a j.

Lemma op_frame k0 G sh : length sh = 3%nat -> off_plane k0 G sh -> forall j, inb sh j -> transverse_basis (k_xyz k0 G sh j) (mv3 k0 G sh j) (getn k0 G sh j).
Proof.
  intros L Op q Hq. destruct (basis_ok k0 G sh q (op_kok k0 G sh L Op q Hq)) as (m & n & E1 & T). unfold mv3, getn. rewrite E1. exact T.
Qed.
Lemma form_d2 k0 G sh e h : length sh = 3%nat -> off_y_axis k0 G sh -> positive sh e ->
  form (2 * prodl sh) (band_op k0 G sh e) h = INR (prodl sh) * gsum (K := RF) sh (fun x => sumN (K := RF) 3 (fun a => d2 k0 G sh h a x * / e a x)).
Proof.
  intros L Oy Pf. destruct (C49_negative k0 G sh e h L Oy Pf) as (r & A & _). rewrite (form_gives k0 G sh e h r A). destruct A as (r0 & E & F).
  rewrite <- (quad_re k0 G sh L (op_fin k0 G sh L Oy) e h r0); [|intros a j Ha Hj X; pose proof (Pf a j Ha Hj); lra|exact E]. do 2 f_equal. apply hdot_ext; [reflexivity|]. intros p Hp. now rewrite (F p Hp).
Qed.
Lemma form_curl k0 G sh e h : length sh = 3%nat -> off_plane k0 G sh -> positive sh e ->
  form (2 * prodl sh) (band_op k0 G sh e) h = qform sh e (curlk sh (k_xyz k0 G sh) (mnfield sh (mv3 k0 G sh) (getn k0 G sh) h)).
Proof.
  intros L Op Pe. rewrite (form_d2 k0 G sh e h L (off_y _ _ _ Op) Pe). unfold qform. f_equal. apply (gsum_ext (K := RF)). intros x Hx. apply (sumN_ext RF). intros a Ha. unfold d2, curlk. do 2 f_equal.
  apply ifftn_ext. intros j Hj. unfold mnfield. rewrite (rcross_mn _ _ _ _ _ a (op_frame k0 G sh L Op j Hj) Ha). unfold dval, kk. now rewrite kk_norm.
Qed.
Lemma at_least_pos sh lo e : 0 < lo -> at_least sh lo e -> positive sh e.
Proof. intros Hlo He a j Ha Hj. pose proof (He a j Ha Hj). lra. Qed.

Lemma slope_le k0 k1 G sh e lo V V1 w w1 a : length sh = 3%nat -> off_plane k0 G sh -> off_plane k1 G sh -> 0 < lo -> at_least sh lo e ->
  bands (2 * prodl sh) (band_op k0 G sh e) V w -> bands (2 * prodl sh) (band_op k1 G sh e) V1 w1 -> (a < 2 * prodl sh)%nat ->
  sqrt (w1 a) <= sqrt (w a) + length3 (lattice G (fun b => k1 b - k0 b)) / sqrt lo.
Proof.
  intros L O0 O1 Hlo He HB HB1 Ha. pose proof (at_least_pos sh lo e Hlo He) as Pe. set (d := lattice G (fun b => k1 b - k0 b)).
  assert (Dp : 0 <= dot3 d d) by (unfold dot3; nra).
  unfold length3. rewrite <- sqrt_div by assumption. apply sqrt_young.
  - exact (band_pos k0 G sh e V w a L (off_y _ _ _ O0) Pe HB Ha).
  - apply Rmult_le_pos; [exact Dp|left; now apply Rinv_0_lt_compat].
  - intros t Ht.
    apply (slope_step sh e lo Hlo He (k_xyz k0 G sh) (k_xyz k1 G sh) (mv3 k0 G sh) (getn k0 G sh) (mv3 k1 G sh) (getn k1 G sh) d
      (op_frame k0 G sh L O0) (op_frame k1 G sh L O1)) with (op := band_op k0 G sh e) (op' := band_op k1 G sh e) (V := V) (V' := V1).
    + intros j b Hj Hb. unfold d, lattice, k_xyz. ring.
    + now apply band_herm; [|apply off_y|].
    + now apply band_herm; [|apply off_y|].
    + intro h. now apply form_curl.
    + intro h. now apply form_curl.
    + exact HB.
    + exact HB1.
    + exact Ht.
    + exact Ha.
Qed.
Lemma length3_sym G k0 k1 : length3 (lattice G (fun b => k1 b - k0 b)) = length3 (lattice G (fun b => k0 b - k1 b)).
Proof. unfold length3, dot3, lattice. f_equal. ring. Qed.

(** ** C160 *)
(** Frequencies change at most as fast as in a uniform medium of the least epsilon:
    no group velocity exceeds 1 / sqrt(eps). *)
Theorem C160_lipschitz :
  forall k0 k1 G sh e lo V V1 w w1, length sh = 3%nat -> off_plane k0 G sh -> off_plane k1 G sh -> 0 < lo -> at_least sh lo e ->
    bands (2 * prodl sh) (band_op k0 G sh e) V w -> bands (2 * prodl sh) (band_op k1 G sh e) V1 w1 ->
    forall a, (a < 2 * prodl sh)%nat -> Rabs (sqrt (w1 a) - sqrt (w a)) <= length3 (lattice G (fun b => k1 b - k0 b)) / sqrt lo.
Proof.
  intros k0 k1 G sh e lo V V1 w w1 L O0 O1 Hlo He HB HB1 a Ha.
  pose proof (slope_le k0 k1 G sh e lo V V1 w w1 a L O0 O1 Hlo He HB HB1 Ha) as A.
  pose proof (slope_le k1 k0 G sh e lo V1 V w1 w a L O1 O0 Hlo He HB1 HB Ha) as B. rewrite <- length3_sym in B.
  apply Rabs_le. lra.
Qed.
Print Assumptions C160_lipschitz.

(** If the band passes the frequency f between two wavevectors, then one between
    them has frequency f. *)
Definition between (k0 k1 : vec3) (t : R) : vec3 := fun b => k0 b + t * (k1 b - k0 b).
Theorem C160_crossing :
  forall k0 k1 G sh e lo V0 V1 w0 w1 a f, length sh = 3%nat -> (forall t, 0 <= t <= 1 -> off_plane (between k0 k1 t) G sh) -> 0 < lo -> at_least sh lo e ->
    bands (2 * prodl sh) (band_op (between k0 k1 0) G sh e) V0 w0 -> bands (2 * prodl sh) (band_op (between k0 k1 1) G sh e) V1 w1 ->
    (a < 2 * prodl sh)%nat -> sqrt (w0 a) <= f <= sqrt (w1 a) ->
    exists t V w, 0 <= t <= 1 /\ bands (2 * prodl sh) (band_op (between k0 k1 t) G sh e) V w /\ sqrt (w a) = f.
Proof.
  intros k0 k1 G sh e lo V0 V1 w0 w1 a f L Op Hlo He HB0 HB1 Ha Hf. set (N := (2 * prodl sh)%nat) in *.
  pose proof (at_least_pos sh lo e Hlo He) as Pe.
  set (c := length3 (lattice G (fun b => k1 b - k0 b)) / sqrt lo).
  assert (Sl : 0 < sqrt lo) by now apply sqrt_lt_R0.
  assert (Hc : 0 <= c) by (apply Rmult_le_pos; [apply sqrt_pos|left; now apply Rinv_0_lt_compat]).
  assert (Lip : forall s t Vs Vt ws wt, 0 <= s <= 1 -> 0 <= t <= 1 -> bands N (band_op (between k0 k1 s) G sh e) Vs ws -> bands N (band_op (between k0 k1 t) G sh e) Vt wt ->
    sqrt (wt a) <= sqrt (ws a) + c * Rabs (t - s)).
  { intros s t Vs Vt ws wt Hs Ht Bs Bt. pose proof (slope_le _ _ G sh e lo Vs Vt ws wt a L (Op s Hs) (Op t Ht) Hlo He Bs Bt Ha) as Q.
    replace (c * Rabs (t - s)) with (length3 (lattice G (fun b => between k0 k1 t b - between k0 k1 s b)) / sqrt lo); [exact Q|].
    unfold c, Rdiv. replace (length3 (lattice G (fun b => between k0 k1 t b - between k0 k1 s b))) with (length3 (lattice G (fun b => k1 b - k0 b)) * Rabs (t - s)); [ring|].
    unfold length3. rewrite <- (sqrt_Rsqr_abs (t - s)), <- sqrt_mult_alt by (unfold dot3; nra). f_equal. unfold dot3, lattice, between, Rsqr. ring. }
  assert (Ex : forall t, 0 <= t <= 1 -> exists V w, bands N (band_op (between k0 k1 t) G sh e) V w).
  { intros t Ht. apply bands_exist. now apply band_herm; [|apply off_y, Op|]. }
  set (E := fun t => 0 <= t <= 1 /\ exists V w, bands N (band_op (between k0 k1 t) G sh e) V w /\ sqrt (w a) <= f).
  destruct (completeness E) as (s & Ub & Lb).
  { exists 1. intros t (Ht & _). lra. }
  { exists 0. split; [lra|]. exists V0, w0. split; [exact HB0|lra]. }
  assert (Hs : 0 <= s <= 1). { split; [apply Ub; split; [lra|exists V0, w0; split; [exact HB0|lra]]|apply Lb; intros t (Ht & _); lra]. }
  destruct (Ex s Hs) as (V & w & HB). exists s, V, w. split; [exact Hs|]. split; [exact HB|].
  destruct (Rtotal_order (sqrt (w a)) f) as [Lt|[Eq|Gt]]; [|exact Eq|].
  - exfalso. set (g := f - sqrt (w a)). assert (Hg : 0 < g) by (unfold g; lra).
    destruct (Req_EM_T s 1) as [->|Ns].
    + pose proof (Lip 1 1 V V1 w w1 ltac:(lra) ltac:(lra) HB HB1) as Q. replace (1 - 1) with 0 in Q by ring. rewrite Rabs_R0 in Q. lra.
    + assert (Q : 0 < g / (c + 1)) by (apply Rdiv_lt_0_compat; lra). set (t := Rmin 1 (s + g / (c + 1))).
      assert (T : s < t <= 1 /\ t - s <= g / (c + 1)). { unfold t. pose proof (Rmin_l 1 (s + g / (c + 1))). pose proof (Rmin_r 1 (s + g / (c + 1))). split; [split; [apply Rmin_glb_lt; lra|lra]|lra]. }
      destruct T as (T1 & T2). destruct (Ex t ltac:(lra)) as (Vt & wt & Bt). pose proof (Lip s t V Vt w wt Hs ltac:(lra) HB Bt) as Lt'. rewrite Rabs_right in Lt' by lra.
      assert (X : c * (t - s) <= g). { apply Rle_trans with (c * (g / (c + 1))); [apply Rmult_le_compat_l; lra|]. replace (c * (g / (c + 1))) with (g - g / (c + 1)) by (field; lra). lra. }
      assert (In_t : E t). { split; [lra|]. exists Vt, wt. split; [exact Bt|unfold g in X; lra]. }
      pose proof (Ub t In_t). lra.
  - exfalso. set (g := sqrt (w a) - f). assert (Hg : 0 < g) by (unfold g; lra). assert (Q : 0 < g / (2 * (c + 1))) by (apply Rdiv_lt_0_compat; lra).
    assert (Nu : ~ (forall t, E t -> t <= s - g / (2 * (c + 1)))). { intro U. pose proof (Lb (s - g / (2 * (c + 1))) U). lra. }
    apply Nu. intros t (Ht & Vt & wt & Bt & Lf). apply Rnot_lt_le. intro T.
    assert (Ts : t <= s) by (apply Ub; split; [exact Ht|now exists Vt, wt]).
    pose proof (Lip t s Vt V wt w Ht Hs Bt HB) as Q2. rewrite Rabs_right in Q2 by lra.
    assert (X : c * (s - t) <= g / 2). { apply Rle_trans with (c * (g / (2 * (c + 1)))); [apply Rmult_le_compat_l; lra|]. replace (c * (g / (2 * (c + 1)))) with (g / 2 - g / (2 * (c + 1))) by (field; lra). lra. }
    unfold g in X. unfold g in Hg. lra.
Qed.
Print Assumptions C160_crossing.

(** find_k (bloch.py:453, :496) documents a tolerance for the frequency but uses it
    for the wavenumber.  A wavenumber x known to that accuracy gives the frequency to
    the accuracy |G u| / sqrt(lo) times the tolerance... *)
Theorem C160_tolerance :
  forall u G sh e lo x x' tol V V' w w' a, length sh = 3%nat -> let k t : vec3 := fun b => u b * t in
    off_plane (k x) G sh -> off_plane (k x') G sh -> 0 < lo -> at_least sh lo e ->
    bands (2 * prodl sh) (band_op (k x) G sh e) V w -> bands (2 * prodl sh) (band_op (k x') G sh e) V' w' -> (a < 2 * prodl sh)%nat ->
    Rabs (x' - x) <= tol -> Rabs (sqrt (w' a) - sqrt (w a)) <= length3 (lattice G u) / sqrt lo * tol.
Proof.
  intros u G sh e lo x x' tol V V' w w' a L k O0 O1 Hlo He HB HB1 Ha Ht.
  apply Rle_trans with (1 := C160_lipschitz (k x) (k x') G sh e lo V V' w w' L O0 O1 Hlo He HB HB1 a Ha).
  assert (Sl : 0 < sqrt lo) by now apply sqrt_lt_R0.
  replace (length3 (lattice G (fun b => k x' b - k x b))) with (length3 (lattice G u) * Rabs (x' - x)).
  - unfold Rdiv. replace (length3 (lattice G u) * Rabs (x' - x) * / sqrt lo) with (length3 (lattice G u) * / sqrt lo * Rabs (x' - x)) by ring.
    apply Rmult_le_compat_l; [|exact Ht]. apply Rmult_le_pos; [apply sqrt_pos|left; now apply Rinv_0_lt_compat].
  - unfold length3. rewrite <- (sqrt_Rsqr_abs (x' - x)), <- sqrt_mult_alt by (unfold dot3; nra). f_equal. unfold dot3, lattice, k, Rsqr. ring.
Qed.
Print Assumptions C160_tolerance.
Lemma one_cell_band k0 G V w a : off_y_axis k0 G [1; 1; 1]%nat -> bands 2 (band_op k0 G [1; 1; 1]%nat (fun _ _ => 1)) V w -> (a < 2)%nat -> w a = dot3 (lattice G k0) (lattice G k0).
Proof.
  intros Oy HB Ha.
  assert (Bl : by_length k0 G [1; 1; 1]%nat [[0; 0; 0]%nat]). { split; [reflexivity|]. repeat constructor. }
  pose proof (C156_between k0 G [1; 1; 1]%nat (fun _ _ => 1) 1 1 _ V w eq_refl Oy ltac:(lra) ltac:(intros ? ? ? ?; lra) Bl HB a Ha) as Q. cbv zeta in Q.
  replace (a / 2)%nat with 0%nat in Q by (destruct a as [|[|a]]; [reflexivity|reflexivity|lia]). cbn [nth] in Q.
  assert (E : forall b, wavevector k0 G [1; 1; 1]%nat [0; 0; 0]%nat b = lattice G k0 b). { intro b. unfold wavevector, lattice. cbn. ring. }
  unfold dot3 in *. rewrite !E in Q. lra.
Qed.
(** ... and not better: with reciprocal lattice vectors of length 2 the frequency is off
    by twice the tolerance. *)
Theorem C160_tolerance_refuted :
  forall tol, 0 < tol -> exists u G sh e x x' V V' w w', let k t : vec3 := fun b => u b * t in
    length sh = 3%nat /\ dot3 u u = 1 /\ at_least sh 1 e /\ off_plane (k x) G sh /\ off_plane (k x') G sh /\
    bands (2 * prodl sh) (band_op (k x) G sh e) V w /\ bands (2 * prodl sh) (band_op (k x') G sh e) V' w' /\
    Rabs (x' - x) <= tol /\ tol < Rabs (sqrt (w' 0%nat) - sqrt (w 0%nat)).
Proof.
  intros tol Ht. set (u := v3 1 0 0). set (G := fun a b : nat => if (a =? b)%nat then 2 else 0). set (sh := [1; 1; 1]%nat). set (e := fun (_ : nat) (_ : list nat) => 1).
  assert (Op : forall x, off_plane (fun b => u b * x) G sh). { intros x j Hj. right. rewrite (inb_single j Hj). unfold wavevector, G, u. cbn. ring. }
  assert (Ex : forall x, exists V w, bands (2 * prodl sh) (band_op (fun b => u b * x) G sh e) V w).
  { intro x. apply bands_exist. apply band_herm; [reflexivity|apply off_y, Op|]. intros ? ? ? ?. unfold e. lra. }
  destruct (Ex 1) as (V & w & HB). destruct (Ex (1 + tol)) as (V' & w' & HB').
  exists u, G, sh, e, 1, (1 + tol), V, V', w, w'. cbv zeta. split; [reflexivity|]. split; [unfold dot3, u; cbn; ring|]. split; [intros ? ? ? ?; unfold e; lra|].
  split; [apply Op|]. split; [apply Op|]. split; [exact HB|]. split; [exact HB'|]. split; [rewrite Rabs_right; lra|].
  rewrite (one_cell_band _ G V w 0%nat (off_y _ _ _ (Op 1)) HB ltac:(lia)), (one_cell_band _ G V' w' 0%nat (off_y _ _ _ (Op (1 + tol))) HB' ltac:(lia)).
  replace (dot3 (lattice G (fun b => u b * 1)) (lattice G (fun b => u b * 1))) with (2 * 2) by (unfold dot3, lattice, G, u; cbn; ring).
  replace (dot3 (lattice G (fun b => u b * (1 + tol))) (lattice G (fun b => u b * (1 + tol)))) with ((2 * (1 + tol)) * (2 * (1 + tol))) by (unfold dot3, lattice, G, u; cbn; ring).
  rewrite !sqrt_square by lra. rewrite Rabs_right; lra.
Qed.
Print Assumptions C160_tolerance_refuted.

Lemma ifftn_one f : ifftn [1; 1; 1]%nat f [0; 0; 0]%nat = f [0; 0; 0]%nat.
Proof.
  unfold ifftn. replace (gsum (K := CC) [1; 1; 1]%nat (fun k => cmul (f k) (cis (2 * PI * turns [1; 1; 1]%nat k [0; 0; 0]%nat)))) with (cmul (f [0; 0; 0]%nat) c1).
  - rewrite rdiv_r by (cbn; lra). apply cpx_ext; cbn; field.
  - change (cmul (f [0; 0; 0]%nat) c1 = cadd c0 (cadd c0 (cadd c0 (cmul (f [0; 0; 0]%nat) (cis (2 * PI * turns [1; 1; 1]%nat [0; 0; 0]%nat [0; 0; 0]%nat)))))).
    replace (2 * PI * turns [1; 1; 1]%nat [0; 0; 0]%nat [0; 0; 0]%nat) with 0 by (cbn; field). rewrite cis_0. apply cpx_ext; cbn; ring.
Qed.
Definition eps_jump (a : nat) (_ : list nat) : R := match a with 2%nat => 4 | _ => 1 end.
Lemma sum_one (f : list nat -> R) : gsum (K := RF) [1; 1; 1]%nat f = f [0; 0; 0]%nat.
Proof. change (0 + (0 + (0 + f [0; 0; 0]%nat)) = f [0; 0; 0]%nat). ring. Qed.
Lemma form_jump k0 h : off_y_axis k0 identity3 [1; 1; 1]%nat -> let D a := cabs2 (dval k0 identity3 [1; 1; 1]%nat (getn k0 identity3 [1; 1; 1]%nat) h a [0; 0; 0]%nat) in
  form 2 (band_op k0 identity3 [1; 1; 1]%nat eps_jump) h = D 0%nat + D 1%nat + D 2%nat / 4.
Proof.
  intros Oy D. refine (eq_trans (form_d2 k0 identity3 [1; 1; 1]%nat eps_jump h eq_refl Oy _) _).
  - intros a j Ha Hj. unfold eps_jump. destruct a as [|[|[|]]]; lra.
  - rewrite sum_one, sum3_eq. unfold d2. rewrite !ifftn_one. unfold D. set (z := getn _ _ _). cbn [prodl fold_right Nat.mul Nat.add INR eps_jump]. cbn. field.
Qed.
(** Wavevectors in the plane kx = 0 off the z axis, where m is not transverse (C86),
    have to be left out: for k = (0, 1, 1) in a medium with eps = (1, 1, 4) the lowest
    frequency is sqrt 2; at a distance of 1/10 from there it is at most 1.12. *)
Theorem C160_in_the_plane_refuted :
  exists k0 k1 G sh e V V1 w w1, length sh = 3%nat /\ off_y_axis k0 G sh /\ off_plane k1 G sh /\ at_least sh 1 e /\
    bands (2 * prodl sh) (band_op k0 G sh e) V w /\ bands (2 * prodl sh) (band_op k1 G sh e) V1 w1 /\
    length3 (lattice G (fun b => k1 b - k0 b)) < Rabs (sqrt (w1 0%nat) - sqrt (w 0%nat)).
Proof.
  set (k0 := v3 0 1 1). set (k1 := v3 (1 / 10) 1 1). set (sh := [1; 1; 1]%nat).
  assert (W : forall k b, (b < 3)%nat -> wavevector k identity3 sh [0; 0; 0]%nat b = k b).
  { intros k b Hb. destruct b as [|[|[|b]]]; [| | |lia]; unfold wavevector, identity3; cbn; ring. }
  assert (O0 : off_y_axis k0 identity3 sh). { intros j Hj. rewrite (inb_single j Hj), !W by lia. right. right. cbn. lra. }
  assert (O1 : off_plane k1 identity3 sh). { intros j Hj. rewrite (inb_single j Hj), !W by lia. left. cbn. lra. }
  assert (Pe : positive sh eps_jump). { intros a j _ _. unfold eps_jump. destruct a as [|[|[|]]]; lra. }
  assert (Kx : forall k b, (b < 3)%nat -> k_xyz k identity3 sh [0; 0; 0]%nat b = k b).
  { intros k b Hb. rewrite k_xyz_wavevector by (try reflexivity; inbt). now apply W. }
  destruct (bands_exist 2 (band_op k0 identity3 sh eps_jump) (band_herm k0 identity3 sh eps_jump eq_refl O0 Pe)) as (V & w & HB).
  destruct (bands_exist 2 (band_op k1 identity3 sh eps_jump) (band_herm k1 identity3 sh eps_jump eq_refl (off_y _ _ _ O1) Pe)) as (V1 & w1 & HB1).
  exists k0, k1, identity3, sh, eps_jump, V, V1, w, w1. split; [reflexivity|]. split; [exact O0|]. split; [exact O1|].
  split; [intros a j _ _; unfold eps_jump; destruct a as [|[|[|]]]; lra|]. split; [exact HB|]. split; [exact HB1|].
  (* the band in the plane *)
  assert (B0 : w 0%nat = 2).
  { rewrite <- (band_value 2 _ V w 0%nat (band_herm k0 identity3 sh eps_jump eq_refl O0 Pe) HB ltac:(lia)).
    pose proof (b_orth _ _ _ _ HB 0%nat 0%nat ltac:(lia) ltac:(lia)) as O2. cbn [Nat.eqb] in O2. rewrite hdot_self in O2. apply (f_equal cre) in O2. cbn in O2.
    refine (eq_trans (form_jump k0 (col V 0) O0) _). cbv zeta. set (h := col V 0) in *. clearbody h.
    assert (Q2 : norm3 (k_xyz k0 identity3 sh [0; 0; 0]%nat) * norm3 (k_xyz k0 identity3 sh [0; 0; 0]%nat) = 2) by (rewrite norm3_sq, !Kx by lia; cbn; ring).
    unfold dval, kk, mv3, getn. rewrite kk_norm. set (q := norm3 (k_xyz k0 identity3 [1; 1; 1]%nat [0; 0; 0]%nat)) in *. change (q * q = 2) in Q2.
    unfold generate_kmn. rewrite !Kx by lia. cbn [snd fst]. destruct (Req_EM_T (k0 0%nat) 0) as [_|X]; [|exfalso; apply X; reflexivity].
    assert (Z : k_is_0 (k_xyz k0 identity3 [1; 1; 1]%nat [0; 0; 0]%nat) = false).
    { destruct (k_is_0 _) eqn:E; [|reflexivity]. apply k_is_0_spec in E. rewrite !Kx in E by lia. cbn in E. lra. }
    rewrite Z. set (c := cross (k_xyz k0 identity3 [1; 1; 1]%nat [0; 0; 0]%nat) (v3 0 1 0)).
    assert (C0 : c 0%nat = -1) by (unfold c, cross, v3; rewrite ?Kx by lia; cbn; ring). assert (C1 : c 1%nat = 0) by (unfold c, cross, v3; rewrite ?Kx by lia; cbn; ring). assert (C2 : c 2%nat = 0) by (unfold c, cross, v3; rewrite ?Kx by lia; cbn; ring).
    assert (Nc : norm3 c = 1). { apply sqrt_of; [lra|]. rewrite C0, C1, C2. ring. }
    rewrite Nc. destruct (Req_EM_T 1 0) as [X|_]; [lra|]. unfold hm, hn. cbn [ravel prodl fold_right Nat.mul Nat.add]. rewrite C0, C1, C2. unfold cabs2, rmul. cbn in O2 |- *.
    set (p := cre (h 0%nat)) in *. set (p' := cim (h 0%nat)) in *. set (r := cre (h 1%nat)) in *. set (r' := cim (h 1%nat)) in *.
    transitivity (q * q * (p * p + p' * p' + r * r + r' * r')); [field|]. rewrite Q2. lra. }
  (* off the plane *)
  assert (B1 : w1 0%nat <= 5 / 4 + 1 / 400).
  { set (h := fun p : nat => if (0 =? p)%nat then c1 else c0).
    pose proof (band_least 2 _ (band_herm k1 identity3 sh eps_jump eq_refl (off_y _ _ _ O1) Pe) V1 w1 HB1 0%nat h ltac:(lia) ltac:(intros; lia)) as Q.
    replace (norm2 2 h) with 1 in Q by (unfold norm2, h; cbn; ring). rewrite Rmult_1_r in Q. refine (Rle_trans _ _ _ Q (Req_le _ _ _)). clear Q.
    refine (eq_trans (form_jump k1 h (off_y _ _ _ O1)) _). pose proof (op_frame k1 identity3 sh eq_refl O1 [0; 0; 0]%nat ltac:(inbt)) as T.
    assert (Dv : forall a, (a < 3)%nat -> dval k1 identity3 [1; 1; 1]%nat (getn k1 identity3 [1; 1; 1]%nat) h a [0; 0; 0]%nat = rcross (k_xyz k1 identity3 sh [0; 0; 0]%nat) (from_mn (mv3 k1 identity3 sh [0; 0; 0]%nat) (getn k1 identity3 sh [0; 0; 0]%nat) c1 c0) a).
    { intros a Ha. rewrite (rcross_mn _ _ _ _ _ a T Ha). unfold dval, kk. now rewrite kk_norm. }
    cbv zeta. rewrite !Dv by lia.
    assert (M : exists r, r * r = 101 / 100 /\ r <> 0 /\ mv3 k1 identity3 sh [0; 0; 0]%nat 0%nat = 1 / r /\ mv3 k1 identity3 sh [0; 0; 0]%nat 1%nat = - (1 / 10) / r /\ mv3 k1 identity3 sh [0; 0; 0]%nat 2%nat = 0).
    { unfold mv3, generate_kmn. cbn [fst snd]. rewrite Kx by lia. destruct (Req_EM_T (k1 0%nat) 0) as [X|_]; [exfalso; cbn in X; lra|].
      set (c := cross (k_xyz k1 identity3 sh [0; 0; 0]%nat) (v3 0 0 1)).
      assert (C0 : c 0%nat = 1) by (unfold c, cross, v3; rewrite ?Kx by lia; cbn; ring). assert (C1 : c 1%nat = - (1 / 10)) by (unfold c, cross, v3; rewrite ?Kx by lia; cbn; ring). assert (C2 : c 2%nat = 0) by (unfold c, cross, v3; rewrite ?Kx by lia; cbn; ring).
      exists (norm3 c). pose proof (norm3_sq c) as S. rewrite C0, C1, C2 in S |- *. assert (E : norm3 c * norm3 c = 101 / 100) by (rewrite S; field). assert (Nz : norm3 c <> 0) by (intro X; rewrite X in E; lra).
      repeat split; [exact E|exact Nz|]. field. exact Nz. }
    destruct M as (r & R2 & Rn & M0 & M1 & M2). generalize dependent (getn k1 identity3 sh [0; 0; 0]%nat). intros n _ _. unfold rcross, from_mn. rewrite !Kx by lia. rewrite M0, M1, M2.
    unfold cabs2, rmul, k1. cbn. transitivity ((1 / 100 + 1 + (101 / 100) * (101 / 100) / 4) / (r * r)); [field; exact Rn|]. rewrite R2. field. }
  assert (P1 : 0 <= w1 0%nat) by exact (band_pos k1 identity3 sh eps_jump V1 w1 0%nat eq_refl (off_y _ _ _ O1) Pe HB1 ltac:(cbn; lia)).
  assert (S1 : sqrt (w1 0%nat) <= 113 / 100). { rewrite <- (sqrt_square (113 / 100)) by lra. apply sqrt_le_1_alt. lra. }
  assert (S0 : 14 / 10 <= sqrt (w 0%nat)). { rewrite B0. rewrite <- (sqrt_square (14 / 10)) by lra. apply sqrt_le_1_alt. lra. }
  assert (Ld : length3 (lattice identity3 (fun b => k1 b - k0 b)) = 1 / 10).
  { unfold length3. apply sqrt_of; [lra|]. unfold dot3, lattice, identity3, k1, k0. cbn. field. }
  rewrite Ld, Rabs_left1 by lra. lra.
Qed.
Print Assumptions C160_in_the_plane_refuted.
Example C160_case :
  (forall t, 0 <= t <= 1 -> off_plane (between (v3 0 0 0) (v3 (1 / 2) 0 0) t) identity3 [2; 1; 1]%nat) /\ at_least [2; 1; 1]%nat 2 eps_case /\
  off_plane k0_case identity3 sh_case /\ off_plane (v3 (1 / 4) 0 0) identity3 sh_case /\ at_least sh_case 2 eps_case /\
  exists V w, bands 4 (band_op (between (v3 0 0 0) (v3 (1 / 2) 0 0) 0) identity3 [2; 1; 1]%nat eps_case) V w.
Proof.
  assert (O1 : forall t, 0 <= t <= 1 -> off_plane (between (v3 0 0 0) (v3 (1 / 2) 0 0) t) identity3 [2; 1; 1]%nat).
  { intros t Ht j Hj. right. inversion Hj as [|x n l s Hx Hl]; subst. inversion Hl as [|y n2 l2 s2 Hy Hl2]; subst. inversion Hl2 as [|z n3 l3 s3 Hz Hl3]; subst. inversion Hl3; subst.
    assert (y = 0%nat) by lia. assert (z = 0%nat) by lia. subst. unfold wavevector, identity3, between. cbn. ring. }
  assert (A : forall sh, at_least sh 2 eps_case). { intros sh a j Ha Hj. unfold eps_case. pose proof (pos_INR (coord j 0)). pose proof (pos_INR a). lra. }
  split; [exact O1|]. split; [apply A|]. split; [exact off_plane_case|]. split; [|split; [apply A|]].
  - apply off_plane_diagonal; try reflexivity; [|apply quarter_not_int]. unfold identity3. cbn. lra.
  - apply (bands_exist 4). apply (band_herm _ identity3 [2; 1; 1]%nat); [reflexivity|apply off_y, O1; lra|]. apply (at_least_pos _ 2); [lra|apply A].
Qed.
