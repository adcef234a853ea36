(** Properties of waveguide_2d.inner_product with [trapezoid=True]. *)
From Coq Require Import List Arith ZArith QArith Qcanon Lia Bool Field.
From Verif.Lib Require Import Num Sums Idx Mat.
From Verif.Model Require Import Fdmath Fdfd Waveguide2d Trapezoid.
From Verif.Spec Require Import TrapezoidSpec.
From Verif.Proofs Require Import TrapezoidP.
From Verif.Props Require Import FdfdProps.
Import ListNotations.
Local Open Scope fld_scope.

(** ** C114: the trapezoid option of inner_product *)
(** H as it enters the product. *)
Definition h_used {K : CFld} (sh : list nat) (h2 : vect K) (phase : K) (conj_h : bool) : field K :=
  fun c idx => if conj_h then conj (unvec sh h2 c idx * phase) else unvec sh h2 c idx * phase.
(** Real part of a width. *)
Definition rew {K : CFld} (w : nat -> K) : nat -> K := fun i => (w i + conj (w i)) / 2.

(** The call fails unless the cross-section is square or two cells wide. *)
Theorem C114_raises_iff :
  forall (K : CFld) (nx ny : nat) (e1 h2 : vect K) (dxes : dx2 K) (phase : K) (conj_h : bool),
    (0 < nx)%nat -> (0 < ny)%nat ->
    inner_product_trapezoid nx ny e1 h2 dxes phase conj_h = Raise
    <-> ~ (nx = ny \/ nx = 2 \/ ny = 2)%nat.
Proof.
  intros K nx ny e1 h2 dxes phase conj_h Hx Hy. unfold inner_product_trapezoid. cbv zeta.
  rewrite trapz2_eq.
  match goal with |- context [trapz2 nx ny nx ny ?a ?b ?f] => pose proof (trapz2_raise K nx ny nx ny a b f) as R; destruct (trapz2 nx ny nx ny a b f) as [v|] end.
  - split; [discriminate|]. intro N. exfalso. destruct R as [_ R]. unfold bcast in R.
    destruct (Nat.eqb_spec (nx - 1) (ny - 1)); [lia|]. destruct (Nat.eqb_spec (nx - 1) 1); [lia|].
    destruct (Nat.eqb_spec (ny - 1) 1); [lia|]. destruct (Nat.eqb_spec (ny - 1) (nx - 1)); [lia|]. discriminate (R eq_refl).
  - split; [|reflexivity]. intros _ N. destruct R as [R _]. specialize (R eq_refl). unfold bcast in R.
    destruct (Nat.eqb_spec (nx - 1) (ny - 1)); destruct (Nat.eqb_spec (ny - 1) (nx - 1)); destruct (Nat.eqb_spec (nx - 1) 1);
      destruct (Nat.eqb_spec (ny - 1) 1); cbn in R; try discriminate; lia.
Qed.
Print Assumptions C114_raises_iff.

(** On a square cross-section: the trapezoid rule for E_x H_y; for E_y H_x the widths
    of the two axes are exchanged (dxes[1][1] along x, dxes[0][0] along y). *)
Theorem C114_square_value :
  forall (K : CFld) (n : nat) (e1 h2 : vect K) (we wh : widths K) (phase : K) (conj_h : bool),
    let sh := [n; n] in
    let E := unvec sh e1 in
    let H := h_used sh h2 phase conj_h in
    inner_product_trapezoid n n e1 h2 (we, wh) phase conj_h
    = Ok (1 / 2 * (trapezoid_rule n n (rew (wh 0%nat)) (rew (we 1%nat)) (fun i => E 0%nat i * H 1%nat i)
                   - trapezoid_rule n n (rew (wh 1%nat)) (rew (we 0%nat)) (fun i => E 1%nat i * H 0%nat i))).
Proof.
  intros K n e1 h2 we wh phase conj_h sh E H. unfold inner_product_trapezoid. cbv zeta. rewrite !trapz2_eq. cbn [fst snd].
  reflexivity.
Qed.
Print Assumptions C114_square_value.

(** It is the trapezoid rule on the given grid when both axes have the same widths. *)
Theorem C114_equal_axes :
  forall (K : CFld) (n : nat) (e1 h2 : vect K) (we wh : widths K) (phase : K) (conj_h : bool),
    let sh := [n; n] in
    let E := unvec sh e1 in
    let H := h_used sh h2 phase conj_h in
    (forall i, (i < n)%nat -> we 0%nat i = wh 1%nat i) ->
    inner_product_trapezoid n n e1 h2 (we, wh) phase conj_h
    = Ok (1 / 2 * (trapezoid_rule n n (rew (wh 0%nat)) (rew (we 1%nat)) (fun i => E 0%nat i * H 1%nat i)
                   - trapezoid_rule n n (rew (we 0%nat)) (rew (wh 1%nat)) (fun i => E 1%nat i * H 0%nat i))).
Proof.
  intros K n e1 h2 we wh phase conj_h sh E H Hw. rewrite C114_square_value. cbv zeta. fold sh. fold E. fold H. do 3 f_equal.
  unfold trapezoid_rule, rew. apply sumN_ext. intros i Hi. apply sumN_ext. intros j Hj. now rewrite !Hw by lia.
Qed.
Print Assumptions C114_equal_axes.

(** Not in general. *)
Definition tx_we : widths GQC := fun a i => gz (Z.of_nat (1 + a + i)) 0.
Definition tx_e : vect GQC := fun q => if Nat.eqb q 11 then gz 1 0 else 0.
Definition tx_h : vect GQC := fun q => if Nat.eqb q 2 then gz 1 0 else 0.
Theorem C114_trapezoid_refuted :
  exists (n : nat) (e1 h2 : vect GQC) (we wh : widths GQC) (v : GQC),
    let sh := [n; n] in
    let E := unvec sh e1 in
    let H := h_used sh h2 1 false in
    inner_product_trapezoid n n e1 h2 (we, wh) 1 false = Ok v
    /\ v <> 1 / 2 * (trapezoid_rule n n (rew (wh 0%nat)) (rew (we 1%nat)) (fun i => E 0%nat i * H 1%nat i)
                     - trapezoid_rule n n (rew (we 0%nat)) (rew (wh 1%nat)) (fun i => E 1%nat i * H 0%nat i)).
Proof.
  exists 3%nat, tx_e, tx_h, tx_we, (fun a i => gz (Z.of_nat (1 + 3 * a + i)) 0).
  pose proof (C114_square_value GQC 3 tx_e tx_h tx_we (fun a i => gz (Z.of_nat (1 + 3 * a + i)) 0) 1 false) as V.
  cbv zeta in V |- *. eexists. split; [exact V|]. clear V.
  intro X. match type of X with ?a = ?b => assert (Y : (Qeq_bool (this (gre a)) (this (gre b)) = true)) by (rewrite X; apply Qeq_bool_iff, Qeq_refl) end.
  vm_compute in Y. discriminate.
Qed.
Print Assumptions C114_trapezoid_refuted.

(** A product that is constant over the cross-section is integrated over the area
    without the first row and the first column of cells. *)
Theorem C114_constant_product :
  forall (K : CFld) (n : nat) (e1 h2 : vect K) (we wh : widths K) (phase : K) (conj_h : bool) (c : K),
    let sh := [n; n] in
    (forall i j, (i < n)%nat -> (j < n)%nat -> unvec sh e1 0%nat [i; j] * h_used sh h2 phase conj_h 1%nat [i; j] = c) ->
    (forall i j, (i < n)%nat -> (j < n)%nat -> unvec sh e1 1%nat [i; j] * h_used sh h2 phase conj_h 0%nat [i; j] = 0) ->
    inner_product_trapezoid n n e1 h2 (we, wh) phase conj_h
    = Ok (c / 2 * (sumN (n - 1) (fun i => rew (wh 0%nat) (S i)) * sumN (n - 1) (fun j => rew (we 1%nat) (S j)))).
Proof.
  intros K n e1 h2 we wh phase conj_h c sh Ha Hb. rewrite C114_square_value. cbv zeta. fold sh. f_equal.
  rewrite (rule_const K n n _ _ c) by exact Ha. rewrite (rule_const K n n _ _ 0) by exact Hb. apply const_aux.
Qed.
Print Assumptions C114_constant_product.

Example C114_example :
  inner_product_trapezoid 3 4 tx_e tx_h (tx_we, tx_we) 1 false = Raise
  /\ inner_product_trapezoid 3 3 tx_e tx_h (tx_we, tx_we) 1 false = Ok (gq (-9) 8 0 1)
  /\ inner_product_trapezoid 2 5 tx_e tx_h (tx_we, tx_we) 1 false <> Raise.
Proof. split; [apply C114_raises_iff; lia|]. split; [|intro X; apply C114_raises_iff in X; lia]. rewrite C114_square_value. now f_equal. Qed.
