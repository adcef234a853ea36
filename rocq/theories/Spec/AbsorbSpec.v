(** A linearly polarised wave along one axis. *)
From Coq Require Import List Arith ZArith.
From Verif.Lib Require Import Num Idx.
From Verif.Model Require Import Fdmath.
From Verif.Spec Require Import HarmonicSpec.
Local Open Scope fld_scope.

(** Component [c] only, the factor [r] per cell along axis [a]. *)
Definition along_axis {K : Fld} (a c : nat) (r : K) : field K :=
  fun c' idx => if Nat.eqb c' c then zpow r (coord idx a) else 0.
