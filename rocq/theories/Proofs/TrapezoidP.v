(** The trapezoid branch of inner_product. *)
From Coq Require Import List Arith ZArith Lia Bool Field.
From Verif.Lib Require Import Num Sums Idx Mat.
From Verif.Model Require Import Fdmath Fdfd Waveguide2d Trapezoid.
From Verif.Spec Require Import TrapezoidSpec.
Import ListNotations.
Local Open Scope fld_scope.

Section P.
  Variable K : Fld.
  Add Field Kfield : (fth K).

  Lemma cumsum_diff (w : nat -> K) i : cumsum w (S i) - cumsum w i = w (S i).
  Proof. unfold cumsum. cbn [sumN]. ring. Qed.

  Lemma trapz_eq n (w y : nat -> K) : trapz n n (cumsum w) y = sumN (n - 1) (fun i => w (S i) * (y (S i) + y i) / 2).
  Proof.
    unfold trapz. destruct (Nat.eqb_spec (n - 1) 1) as [E|E].
    - rewrite E. cbn [sumN]. now rewrite cumsum_diff.
    - apply sumN_ext. intros i _. now rewrite cumsum_diff.
  Qed.

  Let H2 : (2 : K) <> 0 := f2nz K.

  Lemma trapz2_eq nx ny (w1 w0 : nat -> K) f :
    trapz2 nx ny ny nx w1 w0 f = Ok (trapezoid_rule nx ny w0 w1 f).
  Proof.
    unfold trapz2, bcast. rewrite !Nat.eqb_refl. cbn [orb andb]. f_equal. rewrite trapz_eq. unfold trapezoid_rule.
    apply sumN_ext. intros i _. rewrite !trapz_eq.
    rewrite <- (sumN_add K). transitivity (w0 (S i) / 2 * sumN (ny - 1) (fun j => w1 (S j) * (f [S i; S j] + f [S i; j]) / 2 + w1 (S j) * (f [i; S j] + f [i; j]) / 2)); [field; exact H2|].
    rewrite <- (sumN_mul_l K). apply sumN_ext. intros j _. field. split; [now apply fmul_nz|exact H2].
  Qed.
  Lemma trapz2_raise nx ny m1 m0 (w1 w0 : nat -> K) f :
    trapz2 nx ny m1 m0 w1 w0 f = Raise <-> bcast (m1 - 1) (ny - 1) && bcast (m0 - 1) (nx - 1) = false.
  Proof. unfold trapz2. destruct (bcast _ _ && bcast _ _); split; intro E; try discriminate; reflexivity. Qed.

  Lemma rule_const nx ny (w0 w1 : nat -> K) c f : (forall i j, (i < nx)%nat -> (j < ny)%nat -> f [i; j] = c) ->
    trapezoid_rule nx ny w0 w1 f = c * (sumN (nx - 1) (fun i => w0 (S i)) * sumN (ny - 1) (fun j => w1 (S j))).
  Proof.
    intro H. unfold trapezoid_rule. rewrite <- (sumN_mul_r K), <- (sumN_mul_l K). apply sumN_ext. intros i Hi.
    rewrite <- !(sumN_mul_l K). apply sumN_ext. intros j Hj. rewrite !H by lia. field. now apply fmul_nz.
  Qed.
End P.

Section C.
  Variable K : Fld.
  Add Field Kfield2 : (fth K).
  Lemma const_aux (c a b : K) : 1 / 2 * (c * a - 0 * b) = c / 2 * a.
  Proof. field. exact (f2nz K). Qed.
End C.
