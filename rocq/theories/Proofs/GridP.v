(** The differences and curls of the specification are the ones of the code. *)
From Coq Require Import List Arith ZArith.
From Verif.Lib Require Import Num Idx.
From Verif.Model Require Import Fdmath.
From Verif.Spec Require Import Grid.

Lemma diff_next_model : @diff_next = @deriv_forward.
Proof. reflexivity. Qed.
Lemma diff_prev_model : @diff_prev = @deriv_back.
Proof. reflexivity. Qed.
Lemma curl_next_model : @curl_next = @curl_forward.
Proof. reflexivity. Qed.
Lemma curl_prev_model : @curl_prev = @curl_back.
Proof. reflexivity. Qed.

Ltac to_model :=
  try change @diff_next with @deriv_forward in *; try change @diff_prev with @deriv_back in *;
  try change @curl_next with @curl_forward in *; try change @curl_prev with @curl_back in *.
