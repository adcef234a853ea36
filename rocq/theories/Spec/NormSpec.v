(** What the normalisation of waveguide modes refers to. Cross-section fields are
    vectors of three components of nx * ny entries, y fastest. *)
From Coq Require Import Reals Arith.
From Verif.Lib Require Import Num RealF.
Local Open Scope R_scope.

(** Sum of the first [n] values. *)
Fixpoint total (n : nat) (f : nat -> R) : R := match n with O => 0 | S m => total m f + f m end.
(** Energy Re(eps) |e|^2 of an entry. *)
Definition stored (eps e : nat -> cpx) (q : nat) : R := cre (eps q) * cnrm (e q).
(** Sum over the lower quarter of the cross-section, at least one cell each way. *)
Definition quarter (nx ny : nat) (f : nat -> R) : R :=
  total 3 (fun c => total (Nat.max (nx / 2) 1) (fun x => total (Nat.max (ny / 2) 1) (fun y => f (c * (nx * ny) + (x * ny + y))%nat))).
(** The first of the largest of [n] values. *)
Definition strongest (n : nat) (f : nat -> R) (m : nat) : Prop :=
  (m < n)%nat /\ (forall q, (q < n)%nat -> f q <= f m) /\ (forall q, (q < m)%nat -> f q < f m).
(** The factor that turns [z] real and non-negative; 1 for z = 0. *)
Definition turns (z w : cpx) : Prop := cnrm w = 1 /\ cmul z w = mkC (sqrt (cnrm z)) 0 /\ (z = c0 -> w = c1).
