(** Properties of meanas/fdfd/scpml.py. *)
From Coq Require Import Reals List Arith ZArith Lia Lra Bool QArith Qcanon.
From Verif.Lib Require Import Num Sums Idx RealF.
From Verif.Model Require Import Fdmath Fdfd Fdtd Pml FdtdReal Scpml.
From Verif.Spec Require Import CpmlSpec ScpmlSpec.
From Verif.Proofs Require Import FdtdRealP ScpmlP.
Import ListNotations.

(** ** C32: uniform_grid_scpml *)
Local Open Scope R_scope.

(** The widths, for layers that do not overlap: depth is linear in each layer,
    measured at [i] for dx_a and at [i + 1/2] for dx_b. *)
Theorem C32_widths :
  forall (shape th : nat -> nat) (om eps : R) (s : R -> R) (a i : nat),
    (i < shape a)%nat -> (2 * th a <= shape a)%nat ->
    let A := fst (uniform_grid_scpml shape th om eps s) a i in
    let B := snd (uniform_grid_scpml shape th om eps s) a i in
    let n := INR (shape a) in let t := INR (th a) in let x := INR i in
    let corr := sqrt eps * om in
    (th a = 0%nat -> A = mkC 1 0 /\ B = mkC 1 0) /\
    ((i < th a)%nat -> A = mkC 1 (s ((t - x) / t) / corr) /\ B = mkC 1 (s ((t - (x + / 2)) / t) / corr)) /\
    ((0 < th a)%nat -> (shape a - th a <= i)%nat ->
       A = mkC 1 (s ((x - (n - t)) / t) / corr) /\ B = mkC 1 (s ((x + / 2 - (n - t)) / t) / corr)) /\
    (s 0 = 0 -> (th a <= i)%nat -> (i <= shape a - th a)%nat -> A = mkC 1 0) /\
    (s 0 = 0 -> (th a <= i)%nat -> (i < shape a - th a)%nat -> B = mkC 1 0).
Proof.
  intros shape th om eps s a i Hi H2 A B n t x corr. unfold A, B, uniform_grid_scpml, uniform_axis. cbn [fst snd].
  fold n t corr x.
  assert (Hc : s 0 = 0 -> mkC 1 (s 0 / corr) = mkC 1 0) by (intros ->; f_equal; unfold Rdiv; ring).
  assert (Hx : forall p q, (p <= q)%nat -> INR p <= INR q) by (intros; now apply le_INR).
  assert (Hx' : forall p q, (p < q)%nat -> INR p + 1 <= INR q).
  { intros p q Hpq. rewrite <- S_INR. now apply le_INR. }
  assert (Hn : INR (shape a - th a) = n - t) by (unfold n, t; apply minus_INR; lia).
  assert (Hn2 : t <= n - t).
  { rewrite <- Hn. apply Hx. lia. }
  assert (Ht : (0 < th a)%nat -> 0 < t) by (intro; now apply lt_0_INR).
  assert (Q1 : (i < th a)%nat -> x + 1 <= t) by (intro; now apply Hx').
  assert (Q2 : (shape a - th a <= i)%nat -> n - t <= x) by (intro; rewrite <- Hn; now apply Hx).
  assert (Q3 : (th a <= i)%nat -> t <= x) by (intro; now apply Hx).
  assert (Q4 : (i <= shape a - th a)%nat -> x <= n - t) by (intro; rewrite <- Hn; now apply Hx).
  assert (Q5 : (i < shape a - th a)%nat -> x + 1 <= n - t) by (intro; rewrite <- Hn; now apply Hx').
  destruct (Nat.ltb_spec 0 (th a)) as [Hp|Hp]; cbn [fst snd].
  2:{ split; [intros _; split; reflexivity|]. split; [lia|]. split; [lia|]. split; intros; reflexivity. }
  specialize (Ht Hp). fold x. clearbody n t x corr.
  split; [lia|]. split; [|split; [|split]].
  - intro Hl. specialize (Q1 Hl). split; rewrite ll_front by lra; reflexivity.
  - intros _ Hl. specialize (Q2 Hl). split; rewrite ll_back by lra; reflexivity.
  - intros Hs H3 H4. specialize (Q3 H3). specialize (Q4 H4). rewrite ll_inside by lra. now apply Hc.
  - intros Hs H3 H4. specialize (Q3 H3). specialize (Q5 H4). rewrite ll_inside by lra. now apply Hc.
Qed.
Print Assumptions C32_widths.

(** The real part is 1 everywhere; mirror symmetry; the stretch never shrinks
    toward the nearer edge.  These hold for overlapping layers as well. *)
Theorem C32_shape :
  forall (shape th : nat -> nat) (om eps : R) (s : R -> R) (a : nat),
    let A := fst (uniform_grid_scpml shape th om eps s) a in
    let B := snd (uniform_grid_scpml shape th om eps s) a in
    let n := shape a in
    (forall i, cre (A i) = 1 /\ cre (B i) = 1) /\
    (forall i, (i <= n)%nat -> A (n - i)%nat = A i) /\
    (forall i, (i < n)%nat -> B (n - 1 - i)%nat = B i) /\
    ((forall x y, 0 <= x <= y -> Rabs (s x) <= Rabs (s y)) ->
     forall i j, (i <= j)%nat ->
       ((2 * j <= n)%nat -> Rabs (cim (A j)) <= Rabs (cim (A i))) /\
       ((2 * j + 1 <= n)%nat -> Rabs (cim (B j)) <= Rabs (cim (B i)))).
Proof.
  intros shape th om eps s a A B n. unfold A, B, uniform_grid_scpml, uniform_axis. cbn [fst snd]. fold n.
  destruct (Nat.ltb_spec 0 (th a)) as [Hp|Hp]; cbn [fst snd].
  2:{ split; [split; reflexivity|]. split; [reflexivity|]. split; [reflexivity|]. intros; split; intros; cbn; lra. }
  assert (Ht : 0 < INR (th a)) by (now apply lt_0_INR).
  split; [split; reflexivity|]. split; [|split].
  - intros i Hi. rewrite minus_INR by lia. now rewrite ll_sym.
  - intros i Hi. rewrite !minus_INR by lia. replace (INR n - INR 1 - INR i + / 2) with (INR n - (INR i + / 2)) by (cbn; lra).
    now rewrite ll_sym.
  - intros Hs i j Hij. pose proof (le_INR _ _ Hij) as Q.
    assert (G : forall u v, u <= v -> v <= INR n / 2 ->
       Rabs (s (ll v (INR n) (INR (th a))) / (sqrt eps * om)) <= Rabs (s (ll u (INR n) (INR (th a))) / (sqrt eps * om))).
    { intros u v Huv Hv. unfold Rdiv. rewrite !Rabs_mult. apply Rmult_le_compat_r; [apply Rabs_pos|].
      apply Hs. split; [now apply ll_nonneg|]. now apply ll_mono. }
    split; intro Hj; cbn [cim]; apply G.
    + exact Q.
    + apply le_INR in Hj. rewrite mult_INR in Hj. cbn in Hj. lra.
    + lra.
    + apply le_INR in Hj. rewrite plus_INR, mult_INR in Hj. cbn in Hj. lra.
Qed.
Print Assumptions C32_shape.

(** What prepare_s_function gives: zero at the inner edge, negative (absorbing)
    and growing in modulus for [ln_R <= 0], [m > 0]. *)
Theorem C32_prepare_s_function :
  forall (ln_R m : R), ln_R <= 0 -> 0 < m ->
    prepare_s_function ln_R m 0 = 0 /\
    prepare_s_function ln_R m 1 = (m + 1) * ln_R / 2 /\
    (forall x y, 0 <= x <= y -> prepare_s_function ln_R m y <= prepare_s_function ln_R m x <= 0) /\
    (forall x y, 0 <= x <= y -> Rabs (prepare_s_function ln_R m x) <= Rabs (prepare_s_function ln_R m y)).
Proof.
  intros L m HL Hm. unfold prepare_s_function.
  assert (G : forall x y, 0 <= x <= y ->
     (m + 1) * L / 2 * rpow y m <= (m + 1) * L / 2 * rpow x m <= 0).
  { intros x y [Hx Hxy]. pose proof (rpow_le x y m Hx Hxy Hm). pose proof (rpow_nonneg x m Hx).
    assert ((m + 1) * L / 2 <= 0) by nra. split; nra. }
  split; [rewrite rpow_zero by exact Hm; ring|]. split; [|split; [exact G|]].
  - unfold rpow. destruct (Req_EM_T 1 0); [lra|]. unfold Rpower. rewrite ln_1, Rmult_0_r, exp_0. ring.
  - intros x y H. destruct (G x y H) as [G1 G2].
    rewrite (Rabs_left1 _ G2), (Rabs_left1 ((m + 1) * L / 2 * rpow y m)) by lra. lra.
Qed.
Print Assumptions C32_prepare_s_function.

Example C32_example :
  fst (uniform_grid_scpml (fun _ => 6%nat) (fun _ => 2%nat) 1 1 (prepare_s_function (-16) 4)) 0%nat 0%nat = mkC 1 (-40).
Proof.
  destruct (C32_widths (fun _ => 6%nat) (fun _ => 2%nat) 1 1 (prepare_s_function (-16) 4) 0 0 ltac:(cbv; lia) ltac:(cbv; lia))
    as (_ & H & _). destruct H as [H _]; [cbv; lia|]. etransitivity; [exact H|]. rewrite sqrt_1.
  replace ((INR 2 - INR 0) / INR 2) with 1 by (cbn; field).
  destruct (C32_prepare_s_function (-16) 4 ltac:(lra) ltac:(lra)) as (_ & -> & _). f_equal. field.
Qed.

(** ** C33: stretch_with_scpml changes only the layer *)
Local Close Scope R_scope.
Local Open Scope fld_scope.

Theorem C33_stretch :
  forall (K : CFld) (sqrt : K -> K) (n : nat) (dxes : dx2 K) (axis : nat) (pol : Z) (om eps : K) (th : nat) (s : K -> K),
    (axis < 3)%nat -> (0 < th <= n)%nat ->
    let front := Z.ltb 0 pol in
    let w := fst dxes axis in
    let len := layer_len front n th w in
    let corr := sqrt eps * om in
    len <> 0 -> corr <> 0 ->
    exists out, stretch_with_scpml sqrt n dxes axis pol om eps th s = Fine out /\
      (forall b, b <> axis -> fst out b = fst dxes b /\ snd out b = snd dxes b) /\
      (forall i, (i < n)%nat -> in_layer front n th i ->
         fst out axis i = w i * stretch_factor s len corr (dist_mid front n th w i) /\
         snd out axis i = snd dxes axis i * stretch_factor s len corr (dist_edge front n th w i)) /\
      (forall i, (i < n)%nat -> ~ in_layer front n th i ->
         fst out axis i = w i /\ snd out axis i = snd dxes axis i).
Proof. intros. now apply stretch_ok. Qed.
Print Assumptions C33_stretch.

(** Real widths keep their real part. *)
Theorem C33_real_part :
  forall (K : CFld) (sqrt : K -> K) (n : nat) (dxes : dx2 K) (axis : nat) (pol : Z) (om eps : K) (th : nat) (s : K -> K)
         (out : dx2 K),
    (axis < 3)%nat -> (0 < th <= n)%nat ->
    layer_len (Z.ltb 0 pol) n th (fst dxes axis) <> 0 -> sqrt eps * om <> 0 ->
    (forall i, (i < n)%nat -> conj (fst dxes axis i) = fst dxes axis i /\ conj (snd dxes axis i) = snd dxes axis i) ->
    conj (sqrt eps * om) = sqrt eps * om -> (forall x, conj x = x -> conj (s x) = s x) ->
    stretch_with_scpml sqrt n dxes axis pol om eps th s = Fine out ->
    forall i, (i < n)%nat ->
      (fst out axis i + conj (fst out axis i)) / 2 = fst dxes axis i /\
      (snd out axis i + conj (snd out axis i)) / 2 = snd dxes axis i.
Proof.
  intros K sqrt n dxes axis pol om eps th s out Ha Hth Hl Hc Hr Hcr Hs E i Hi.
  destruct (stretch_ok K sqrt n dxes axis pol om eps th s Ha Hth Hl Hc) as (out' & E' & _ & F2 & F3).
  rewrite E in E'. injection E' as <-.
  set (front := Z.ltb 0 pol) in *. set (w := fst dxes axis) in *.
  assert (Hsp : forall lo hi, (hi <= n)%nat -> conj (span w lo hi) = span w lo hi).
  { intros lo hi H. unfold span. rewrite conj_sumN. apply sumN_ext. intros j Hj. apply Hr. lia. }
  assert (Hlen : conj (layer_len front n th w) = layer_len front n th w).
  { unfold layer_len. destruct front; apply Hsp; lia. }
  destruct (in_layer_dec front n th i) as [Hin|Hin].
  - destruct (F2 i Hi Hin) as [-> ->]. unfold stretch_factor.
    split; apply (factor_real K); try assumption; try (now apply Hr); apply Hs.
    + apply (conj_quot K); [exact Hl| |exact Hlen]. unfold dist_mid, in_layer in *.
      assert (H2 : conj (w i / 2) = w i / 2) by (apply (conj_half K); now apply Hr).
      destruct front; rewrite conj_add, H2, Hsp by lia; reflexivity.
    + apply (conj_quot K); [exact Hl| |exact Hlen]. unfold dist_edge, in_layer in *. destruct front; apply Hsp; lia.
  - destruct (F3 i Hi Hin) as [-> ->]. split; apply (self_half K); now apply Hr.
Qed.
Print Assumptions C33_real_part.

(** Thickness 0 at the front is a no-op; too thick a layer is an IndexError. *)
Theorem C33_edge_cases :
  forall (K : CFld) (sqrt : K -> K) (n : nat) (dxes : dx2 K) (axis : nat) (pol : Z) (om eps : K) (th : nat) (s : K -> K),
    ((axis < 3)%nat -> (0 < pol)%Z ->
      exists out, stretch_with_scpml sqrt n dxes axis pol om eps 0 s = Fine out /\
        forall b i, fst out b i = fst dxes b i /\ snd out b i = snd dxes b i)
    /\ ((n < th)%nat -> stretch_with_scpml sqrt n dxes axis pol om eps th s = IndexErr).
Proof.
  intros. split; [intros; now apply stretch_front_zero|].
  intro H. unfold stretch_with_scpml. destruct (negb (Nat.ltb axis 3)); [reflexivity|].
  destruct (Nat.ltb_spec n th); [reflexivity|lia].
Qed.
Print Assumptions C33_edge_cases.

(** A non-uniform grid of 4 cells with a back layer of 2. *)
Definition px_d : dx2 GQC := (fun a i => gz (Z.of_nat (1 + a + i * i)) 0, fun a i => gz (Z.of_nat (2 + a + i)) 0).
Example C33_example :
  match stretch_with_scpml (K := GQC) (fun x => x) 4 px_d 1 (-1) (gz 2 0) (gz 1 0) 2 (fun x => x) with
  | Fine o => fst o 1%nat 3%nat = gz 11 0 * (gz 1 0 + im * gq 23 34 0 1 / gz 34 0) /\ fst o 1%nat 1%nat = gz 3 0
  | _ => False
  end.
Proof. split; gq_refl. Qed.

(** ** C65: a layer of thickness 0 at the back *)
Theorem C65_zero_thickness_back_refuted :
  forall (K : CFld) (sqrt : K -> K) (n : nat) (dxes : dx2 K) (axis : nat) (pol : Z) (om eps : K) (s : K -> K),
    (axis < 3)%nat -> (pol <= 0)%Z -> (0 < n)%nat ->
    stretch_with_scpml sqrt n dxes axis pol om eps 0 s = NotFinite.
Proof. intros. now apply stretch_back_zero. Qed.
Print Assumptions C65_zero_thickness_back_refuted.

(** ** C34: independent layers commute *)
Theorem C34_commute :
  forall (K : CFld) (sqrt : K -> K) (n : nat -> nat) (dxes : dx2 K)
         (a1 a2 : nat) (p1 p2 : Z) (om1 om2 eps1 eps2 : K) (th1 th2 : nat) (s1 s2 : K -> K),
    (a1 < 3)%nat -> (a2 < 3)%nat -> (0 < th1 <= n a1)%nat -> (0 < th2 <= n a2)%nat ->
    let f1 := Z.ltb 0 p1 in let f2 := Z.ltb 0 p2 in
    layer_len f1 (n a1) th1 (fst dxes a1) <> 0 -> layer_len f2 (n a2) th2 (fst dxes a2) <> 0 ->
    sqrt eps1 * om1 <> 0 -> sqrt eps2 * om2 <> 0 ->
    (a1 <> a2 \/ (a1 = a2 /\ f1 <> f2 /\ (th1 + th2 <= n a1)%nat)) ->
    let L1 d := stretch_with_scpml sqrt (n a1) d a1 p1 om1 eps1 th1 s1 in
    let L2 d := stretch_with_scpml sqrt (n a2) d a2 p2 om2 eps2 th2 s2 in
    exists o1 o12 o2 o21, L1 dxes = Fine o1 /\ L2 o1 = Fine o12 /\ L2 dxes = Fine o2 /\ L1 o2 = Fine o21 /\
      forall b i, (i < n b)%nat -> fst o12 b i = fst o21 b i /\ snd o12 b i = snd o21 b i.
Proof.
  intros K sqrt n dxes a1 a2 p1 p2 om1 om2 eps1 eps2 th1 th2 s1 s2 H1 H2 H3 H4 f1 f2 L1 L2 C1 C2 HI l1 l2.
  exact (layers_commute K sqrt n (MkLayer K a1 p1 om1 eps1 th1 s1) (MkLayer K a2 p2 om2 eps2 th2 s2) dxes
           (Logic.conj H1 (Logic.conj H3 (Logic.conj L1 C1))) (Logic.conj H2 (Logic.conj H4 (Logic.conj L2 C2))) HI).
Qed.
Print Assumptions C34_commute.

(** Both ends of one axis of the grid above. *)
Example C34_example :
  layer_len true 4 2 (fst px_d 1%nat) <> 0 /\ layer_len false 4 2 (fst px_d 1%nat) <> 0 /\ (2 + 2 <= 4)%nat /\
  (Z.ltb 0 1 <> Z.ltb 0 (-1)).
Proof. split; [vm_compute; discriminate|]. split; [vm_compute; discriminate|]. split; [lia|discriminate]. Qed.

(** Overlapping layers do not commute. *)
Example C34_overlap_matters :
  match stretch_with_scpml (K := GQC) (fun x => x) 2 px_d 1 1 (gz 1 0) (gz 1 0) 2 (fun x => x) with
  | Fine o1 =>
      match stretch_with_scpml (K := GQC) (fun x => x) 2 o1 1 (-1) (gz 1 0) (gz 1 0) 2 (fun x => x),
            stretch_with_scpml (K := GQC) (fun x => x) 2 px_d 1 (-1) (gz 1 0) (gz 1 0) 2 (fun x => x) with
      | Fine o12, Fine o2 =>
          match stretch_with_scpml (K := GQC) (fun x => x) 2 o2 1 1 (gz 1 0) (gz 1 0) 2 (fun x => x) with
          | Fine o21 => fst o12 1%nat 0%nat <> fst o21 1%nat 0%nat
          | _ => False end
      | _, _ => False end
  | _ => False end.
Proof. vm_compute. discriminate. Qed.

(** ** C35: the two PML constructors *)
Local Open Scope R_scope.

(** Exact relation: the widths of uniform_grid_scpml are those of stretching a
    unit grid at both ends with the s function scaled by the thickness, with the
    roles of the two arrays exchanged. *)
Theorem C35_uniform_vs_stretch :
  forall (shape thk : nat -> nat) (om eps : R) (f : R -> R) (a : nat) (d : dx2 CC),
    (a < 3)%nat -> (0 < thk a)%nat -> (2 * thk a <= shape a)%nat -> sqrt eps * om <> 0 -> f 0 = 0 ->
    (forall i, fst d a i = mkC 1 0) -> (forall i, snd d a i = mkC 1 0) ->
    let s : CC -> CC := lift (fun x => INR (thk a) * f x) in
    exists o1 o2,
      stretch_with_scpml (K := CC) rsqrt (shape a) d a 1 (mkC om 0) (mkC eps 0) (thk a) s = Fine o1 /\
      stretch_with_scpml (K := CC) rsqrt (shape a) o1 a (-1) (mkC om 0) (mkC eps 0) (thk a) s = Fine o2 /\
      forall i, (i < shape a)%nat ->
        fst o2 a i = snd (uniform_grid_scpml shape thk om eps f) a i /\
        snd o2 a i = fst (uniform_grid_scpml shape thk om eps f) a i.
Proof.
  intros shape thk om eps f a d Ha Ht H2 Hc Hf D1 D2 s.
  destruct (unit_layers (shape a) (thk a) om eps (fun x => INR (thk a) * f x) a d Ha Ht H2 Hc D1 D2) as (o1 & o2 & E1 & E2 & X).
  exists o1, o2. split; [exact E1|]. split; [exact E2|]. intros i Hi. specialize (X i Hi). cbv zeta in X.
  destruct X as (X1 & X2 & X3).
  destruct (C32_widths shape thk om eps f a i Hi H2) as (_ & W1 & W2 & W3 & W4).
  assert (Tnz : INR (thk a) <> 0) by (apply not_0_INR; lia).
  assert (Q : forall y, mkC 1 (INR (thk a) * f y / (INR (thk a) * (sqrt eps * om))) = mkC 1 (f y / (sqrt eps * om))).
  { intro y. f_equal. field. repeat split; try assumption; intro Z; apply Hc; rewrite Z; ring. }
  destruct (lt_dec i (thk a)) as [L|L]; [|destruct (le_dec (shape a - thk a) i) as [L'|L']].
  - destruct (X1 L) as [-> ->]. destruct (W1 L) as [-> ->]. rewrite !Q. split; reflexivity.
  - destruct (X2 L') as [-> ->]. destruct (W2 Ht L') as [-> ->]. rewrite !Q. split; reflexivity.
  - destruct X3 as [-> ->]; [lia|lia|]. rewrite W3, W4 by (assumption || lia). split; reflexivity.
Qed.
Print Assumptions C35_uniform_vs_stretch.

(** Six cells, layers of two cells, the s function x |-> x: the first H width is
    the first E width of the stretched grid, 1 + 3i/4. *)
Example C35_example :
  let shape := fun _ : nat => 6%nat in let thk := fun _ : nat => 2%nat in
  (2 * thk 0 <= shape 0)%nat /\ sqrt 1 * 1 <> 0 /\
  snd (uniform_grid_scpml shape thk 1 1 (fun x => x)) 0%nat 0%nat = mkC 1 (3 / 4) /\
  exists o1 o2,
    stretch_with_scpml (K := CC) rsqrt 6 ((fun _ _ => mkC 1 0 : CC), (fun _ _ => mkC 1 0 : CC)) 0 1 (mkC 1 0) (mkC 1 0) 2 (lift (fun x => INR 2 * x)) = Fine o1 /\
    stretch_with_scpml (K := CC) rsqrt 6 o1 0 (-1) (mkC 1 0) (mkC 1 0) 2 (lift (fun x => INR 2 * x)) = Fine o2 /\
    fst o2 0%nat 0%nat = mkC 1 (3 / 4).
Proof.
  intros shape thk.
  assert (Q : sqrt 1 * 1 <> 0) by (rewrite sqrt_1; lra).
  assert (S : snd (uniform_grid_scpml shape thk 1 1 (fun x => x)) 0%nat 0%nat = mkC 1 (3 / 4)).
  { destruct (C32_widths shape thk 1 1 (fun x => x) 0 0 ltac:(unfold shape; lia) ltac:(unfold shape, thk; lia)) as (_ & W & _).
    destruct W as [_ ->]; [unfold thk; lia|]. unfold thk. f_equal. rewrite sqrt_1. cbn [INR]. field. }
  split; [unfold shape, thk; lia|]. split; [exact Q|]. split; [exact S|].
  destruct (C35_uniform_vs_stretch shape thk 1 1 (fun x => x) 0 ((fun _ _ => mkC 1 0 : CC), (fun _ _ => mkC 1 0 : CC)))
    as (o1 & o2 & E1 & E2 & X); [lia|unfold thk; lia|unfold thk, shape; lia|exact Q|reflexivity|reflexivity|reflexivity|].
  exists o1, o2. split; [exact E1|]. split; [exact E2|]. rewrite <- S. apply (X 0%nat). unfold shape. lia.
Qed.

(** ** C66: they are not the same PML *)

(** With the library's own s functions the first E-grid width always differs. *)
Theorem C66_uniform_equals_stretch_refuted :
  forall (shape thk : nat -> nat) (om eps ln_R m : R) (a : nat) (d : dx2 CC),
    (a < 3)%nat -> (0 < thk a)%nat -> (2 * thk a <= shape a)%nat -> sqrt eps * om <> 0 -> ln_R < 0 -> 0 < m ->
    (forall i, fst d a i = mkC 1 0) -> (forall i, snd d a i = mkC 1 0) ->
    let f := prepare_s_function ln_R m in
    exists o1 o2,
      stretch_with_scpml (K := CC) rsqrt (shape a) d a 1 (mkC om 0) (mkC eps 0) (thk a) (lift f) = Fine o1 /\
      stretch_with_scpml (K := CC) rsqrt (shape a) o1 a (-1) (mkC om 0) (mkC eps 0) (thk a) (lift f) = Fine o2 /\
      fst o2 a 0%nat <> fst (uniform_grid_scpml shape thk om eps f) a 0%nat.
Proof.
  intros shape thk om eps L m a d Ha Ht H2 Hc HL Hm D1 D2 f.
  destruct (unit_layers (shape a) (thk a) om eps f a d Ha Ht H2 Hc D1 D2) as (o1 & o2 & E1 & E2 & X).
  exists o1, o2. split; [exact E1|]. split; [exact E2|].
  destruct (X 0%nat ltac:(lia)) as ((-> & _) & _); [exact Ht|].
  destruct (C32_widths shape thk om eps f a 0 ltac:(lia) H2) as (_ & (-> & _) & _); [exact Ht|].
  intro E. apply (f_equal cim) in E. cbn [cim] in E. cbn [INR] in E.
  set (t := INR (thk a)) in *.
  assert (T1 : 1 <= t) by (apply (le_INR 1); lia).
  replace ((t - 0) / t) with 1 in E by (field; lra).
  destruct (C32_prepare_s_function L m ltac:(lra) Hm) as (_ & F1 & _ & _).
  unfold f in E. rewrite F1 in E. unfold prepare_s_function in E.
  set (y := (t - (0 + / 2)) / t) in *.
  assert (Y : 0 < y < 1).
  { unfold y. split; [apply Rdiv_lt_0_compat; lra|]. apply (Rmult_lt_reg_r t); [lra|]. unfold Rdiv.
    rewrite Rmult_assoc, Rinv_l by lra. lra. }
  assert (P : 0 < rpow y m < 1).
  { unfold rpow. destruct (Req_EM_T y 0); [lra|]. split; [apply exp_pos|]. unfold Rpower. rewrite <- exp_0.
    apply exp_increasing. assert (ln y < 0) by (rewrite <- ln_1; apply ln_increasing; lra). nra. }
  apply (f_equal (fun z => z * (t * (sqrt eps * om)))) in E.
  replace ((m + 1) * L / 2 * rpow y m / (t * (sqrt eps * om)) * (t * (sqrt eps * om))) with ((m + 1) * L / 2 * rpow y m) in E
    by (field; repeat split; try lra; intro Z; apply Hc; rewrite Z; ring).
  replace ((m + 1) * L / 2 / (sqrt eps * om) * (t * (sqrt eps * om))) with ((m + 1) * L / 2 * t) in E
    by (field; repeat split; try lra; intro Z; apply Hc; rewrite Z; ring).
  assert (N : (m + 1) * L / 2 <> 0) by nra.
  apply Rmult_eq_reg_l in E; [|exact N]. lra.
Qed.
Print Assumptions C66_uniform_equals_stretch_refuted.

(** ** C113: which side a polarity means *)
(** fdtd.cpml_params puts the layer on the side its polarity names. *)
Theorem C113_cpml_side :
  forall (axis pol : Z) (dt : R) (thickness : Z) (lnR ee me m ma ca : R) (a pp : nat) (L : Pml.layer RF) (sh idx : list nat),
    cpml_params axis pol dt thickness lnR ee me m ma ca = Ok (a, pp, L) ->
    inb sh idx -> (a < length sh)%nat ->
    inside sh a pp (lth L) idx = true <-> named_side pol (dim sh a) (Z.to_nat thickness) (coord idx a).
Proof.
  intros axis pol dt thickness lnR ee me m ma ca a pp L sh idx E Hi Ha.
  pose proof (inb_coord sh idx a Hi Ha) as B.
  unfold cpml_params in E. destruct (negb (Z.leb 0 axis && Z.ltb axis 3)); [discriminate|].
  destruct (negb (Z.eqb pol (-1) || Z.eqb pol 1)); [discriminate|]. destruct (Z.leb thickness 2); [discriminate|].
  destruct (Rle_dec ee 0); [discriminate|]. injection E as <- <- <-. unfold inside, named_side. cbn [lth].
  destruct (Z.ltb pol 0); cbn [Nat.eqb].
  - apply Nat.ltb_lt.
  - rewrite Nat.leb_le. lia.
Qed.
Print Assumptions C113_cpml_side.

Local Open Scope fld_scope.
(** fdfd.scpml.stretch_with_scpml stretches the other side: the layer its polarity
    names keeps its widths, the layer named by the opposite polarity is stretched. *)
Theorem C113_scpml_opposite_side :
  forall (K : CFld) (sqrt : K -> K) (n : nat) (dxes : dx2 K) (axis : nat) (pol : Z) (om eps : K) (th : nat) (s : K -> K),
    (axis < 3)%nat -> (0 < th)%nat -> (2 * th <= n)%nat -> pol <> 0%Z ->
    let front := Z.ltb 0 pol in
    let w := fst dxes axis in
    let len := layer_len front n th w in
    let corr := sqrt eps * om in
    len <> 0 -> corr <> 0 ->
    exists out, stretch_with_scpml sqrt n dxes axis pol om eps th s = Fine out /\
      (forall i, named_side pol n th i -> fst out axis i = w i /\ snd out axis i = snd dxes axis i) /\
      (forall i, named_side (- pol) n th i ->
         fst out axis i = w i * stretch_factor s len corr (dist_mid front n th w i) /\
         snd out axis i = snd dxes axis i * stretch_factor s len corr (dist_edge front n th w i)).
Proof.
  intros K sqrt n dxes axis pol om eps th s Ha Ht Hn Hp front w len corr Hl Hc.
  destruct (C33_stretch K sqrt n dxes axis pol om eps th s Ha ltac:(lia) Hl Hc) as (out & E & _ & A & B).
  exists out. split; [exact E|]. unfold named_side, in_layer in *. fold front w len corr in A, B. unfold front in *.
  destruct (Z.ltb_spec 0 pol); destruct (Z.ltb_spec pol 0); destruct (Z.ltb_spec (- pol) 0); try lia.
  - split; intros i Hi; [apply B; lia|apply A; lia].
  - split; intros i Hi; [apply B; lia|apply A; lia].
Qed.
Print Assumptions C113_scpml_opposite_side.

(** So the layer is not on the side the documentation says. *)
Theorem C113_documented_side_refuted :
  exists (n : nat) (dxes out : dx2 GQC) (axis th : nat) (pol : Z) (om eps : GQC) (sq s : GQC -> GQC) (i : nat),
    stretch_with_scpml sq n dxes axis pol om eps th s = Fine out
    /\ named_side pol n th (n - 1) /\ fst out axis (n - 1)%nat = fst dxes axis (n - 1)%nat
    /\ (i < n)%nat /\ ~ named_side pol n th i /\ fst out axis i <> fst dxes axis i.
Proof.
  destruct (C113_scpml_opposite_side GQC (fun x => x) 4 px_d 1 1 (gz 2 0) (gz 1 0) 2 (fun x => x)) as (out & E & A & B); try lia.
  - intro X. apply (f_equal (fun x => Qeq_bool (this (gre x)) 0)) in X. vm_compute in X. discriminate.
  - intro X. apply (f_equal (fun x => Qeq_bool (this (gre x)) 0)) in X. vm_compute in X. discriminate.
  - exists 4%nat, px_d, out, 1%nat, 2%nat, 1%Z, (gz 2 0), (gz 1 0), (fun x => x), (fun x => x), 0%nat.
    split; [exact E|]. assert (N : named_side 1 4 2 3) by (unfold named_side; cbn; lia).
    split; [exact N|]. split; [now apply A|]. split; [lia|]. split; [unfold named_side; cbn; lia|].
    destruct (B 0%nat) as [-> _]; [unfold named_side; cbn; lia|].
    intro X. apply (f_equal (fun x => Qeq_bool (this (gim x)) 0)) in X. vm_compute in X. discriminate.
Qed.
Print Assumptions C113_documented_side_refuted.
