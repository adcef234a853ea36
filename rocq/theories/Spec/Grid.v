(** Finite differences and curls on a periodic grid, written out on cell indices
    (used in specifications instead of the transcription of the code). *)
From Coq Require Import List Arith ZArith.
From Verif.Lib Require Import Num Idx.
Import ListNotations.
Local Open Scope fld_scope.

Section Grid.
  Context {K : Fld}.

  (** Difference over a distance: divided by the width [w a i] at position [i] of
      axis [a], undivided if there are no widths. *)
  Definition over (w : option (nat -> nat -> K)) (a i : nat) (d : K) : K :=
    match w with Some v => d / v a i | None => d end.
  (** Next cell minus this cell along axis [a]. *)
  Definition diff_next (sh : list nat) (w : option (nat -> nat -> K)) (a : nat) (f : list nat -> K) : list nat -> K :=
    fun idx => over w a (coord idx a) (f (shift_ix sh a 1 idx) - f idx).
  (** This cell minus the previous cell along axis [a]. *)
  Definition diff_prev (sh : list nat) (w : option (nat -> nat -> K)) (a : nat) (f : list nat -> K) : list nat -> K :=
    fun idx => over w a (coord idx a) (f idx - f (shift_ix sh a (-1) idx)).

  (** Curl of a three-component field, with the two kinds of difference. *)
  Definition curl_of (D : nat -> (list nat -> K) -> list nat -> K) (F : nat -> list nat -> K) (c : nat) : list nat -> K :=
    match c with
    | 0%nat => fun idx => D 1%nat (F 2%nat) idx - D 2%nat (F 1%nat) idx
    | 1%nat => fun idx => D 2%nat (F 0%nat) idx - D 0%nat (F 2%nat) idx
    | 2%nat => fun idx => D 0%nat (F 1%nat) idx - D 1%nat (F 0%nat) idx
    | _ => fun _ => 0
    end.
  Definition curl_next (sh : list nat) (w : option (nat -> nat -> K)) := curl_of (diff_next sh w).
  Definition curl_prev (sh : list nat) (w : option (nat -> nat -> K)) := curl_of (diff_prev sh w).
End Grid.
