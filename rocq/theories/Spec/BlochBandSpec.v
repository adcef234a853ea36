(** Quantities used to describe the bands of the Bloch operator. *)
From Coq Require Import Reals List Arith ZArith.
From Verif.Lib Require Import Num Sums Idx RealF.
From Verif.Spec Require Import BlochSpec.
Import ListNotations.
Local Open Scope R_scope.

Definition cabs2 (z : cpx) : R := cre z * cre z + cim z * cim z.
(** sum over the plane waves of |k|^2 |h|^2; h has the two components of every
    plane wave, first all of one, then all of the other *)
Definition k2_weight (sh : list nat) (k : list nat -> nat -> R) (h : nat -> cpx) : R :=
  gsum (K := RF) sh (fun j => dot3 (k j) (k j) * (cabs2 (h (ravel sh j)) + cabs2 (h (prodl sh + ravel sh j)%nat))).
(** Index of the plane wave at the mirrored place of the list of frequencies: the
    frequencies of an axis of n points are -(n-1)/2 .. (n-1)/2 for odd n and
    -n/2 .. n/2-1 for even n. *)
Definition mirror (n i : nat) : nat := if Nat.even n then (n - 1 - i)%nat else if (i =? 0)%nat then 0%nat else (n - i)%nat.
Fixpoint mirrors (sh j : list nat) : list nat :=
  match sh, j with n :: ns, i :: is => mirror n i :: mirrors ns is | _, _ => [] end.
(** The middle of the frequencies of an axis is 0 for odd n and -1/2 for even n. *)
Definition opposite (sh : list nat) (k0 : nat -> R) (b : nat) : R := - k0 b - (if Nat.even (dim sh b) then 1 else 0).
