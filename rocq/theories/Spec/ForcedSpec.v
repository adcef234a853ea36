(** Harmonic currents for FDTD runs (C172). *)
From Coq Require Import Reals List Arith.
From Verif.Lib Require Import Num Sums Idx Mat RealF.
From Verif.Model Require Import Fdmath.
Local Open Scope R_scope.

(** The currents of the first N steps: J cos(m ph) at step m. *)
Definition harmonic_currents (J : field RF) (ph : R) (N : nat) : list (field RF) :=
  map (fun m => (fun c i => cos (INR m * ph) * J c i) : field RF) (seq 0 N).
