(** Independent specification pieces for the frequency-domain operators:
    Maxwell's equations on the staggered grid, written with the field curls, and
    masks as predicates. *)
From Coq Require Import List Arith ZArith.
From Verif.Lib Require Import Num Sums Idx Mat.
From Verif.Model Require Import Fdmath.
From Verif.Spec Require Import Grid.
From Verif.Spec Require Import Yee.
Import ListNotations.
Local Open Scope fld_scope.

Section Spec.
  Context {K : CFld}.

  (** Entry [q] is marked by the (optional) mask. *)
  Definition hidden (m : option (vect K)) (q : nat) : Prop :=
    match m with Some v => v q <> 0 | None => False end.
  (** The vector with marked entries set to zero. *)
  Definition clear (m : option (vect K)) (x : vect K) : vect K :=
    match m with Some v => fun q => if feqb (v q) 0 then x q else 0 | None => x end.

  (** [1/mu], 1 if there is no material. *)
  Definition inv_at (mu : option (field K)) (c : nat) (idx : list nat) : K :=
    match mu with Some m => 1 / m c idx | None => 1 end.

  (** curl (1/mu curl F) - omega^2 eps F at component [c] of cell [idx]. *)
  Definition wave_e (sh : list nat) (om : K) (we wh : widths K) (eps : field K)
      (mu : option (field K)) (F : field K) : field K :=
    fun c idx =>
      curl_prev sh (Some wh) (fun c' i' => inv_at mu c' i' * curl_next sh (Some we) F c' i') c idx
      - om * om * (eps c idx * F c idx).

  (** The cells whose field values the wave operator reads at [idx]. *)
  Definition stencil (sh : list nat) (idx i' : list nat) : Prop :=
    i' = idx
    \/ exists a b, (a < 3)%nat /\ (b < 3)%nat /\
         (i' = shift_ix sh a 1 idx \/ i' = shift_ix sh b (-1) idx
          \/ i' = shift_ix sh a 1 (shift_ix sh b (-1) idx)).

  (** [cat(vec(E), vec(H))] *)
  Definition cat (n : nat) (E H : vect K) : vect K :=
    fun q => if Nat.ltb q n then E q else H (q - n)%nat.

  (** Conjugate transpose. *)
  Definition hconj (A : mat K) : mat K := fun i j => conj (A j i).

  (** The neighbour [d] cells along axis [a]: wrapping around when [periodic],
      otherwise the cell itself if there is no such neighbour. *)
  Definition neighbour (sh : list nat) (periodic : bool) (a : nat) (d : Z) (idx : list nat) : list nat :=
    if periodic then shift_ix sh a d idx
    else
      let i := (Z.of_nat (coord idx a) + d)%Z in
      if andb (0 <=? i)%Z (i <? Z.of_nat (dim sh a))%Z then upd a (Z.to_nat i) idx else idx.

  (** Component [c] of cell [idx] is on an edge of the mask: a one-cell step
      along some axis (with more than one cell) changes the mask value. *)
  Definition on_edge (sh : list nat) (periodic : bool) (Q : field K) (c : nat) (idx : list nat) : Prop :=
    exists a d, (a < 3)%nat /\ (d = 1 \/ d = -1)%Z /\ dim sh a <> 1%nat /\
      Q c (neighbour sh periodic a d idx) <> Q c idx.
End Spec.
