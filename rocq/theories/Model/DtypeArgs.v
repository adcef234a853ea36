(** Model of the kinds of arrays (integer, real, complex) that [gaussian_beam] and
    the eigensolvers accept: they update an array they were given, or one of its
    kind, in place. *)
From Coq Require Import Reals List Arith ZArith Bool.
From Verif.Lib Require Import Num Sums Idx Mat RealF.
From Verif.Model Require Import Ndarray Beam Eigensolvers Dtype.
Import ListNotations.
Local Open Scope R_scope.

(** fdtd/misc.py:117-166 with the kinds of the three position arrays and of the
    center.  [numpy.asarray(numpy.meshgrid(...))] has the common kind of the
    positions, [grids -= center] raises if the center is of a higher kind.
    Complex positions and centers are left out ([Beam.v] has real ones), so
    [kc] and [kx] are [KInt] or [KReal]. *)
Definition beam_of_kinds (kx : nat -> kind) (kc : kind) (sh : list nat) (xyz : nat -> nat -> R) (center : nat -> R) (w0 wl tilt : R)
    : option (list nat -> num) :=
  if kle kc (kmax (kx 0%nat) (kmax (kx 1%nat) (kx 2%nat))) then gaussian_beam sh xyz center w0 wl tilt else None.

(** eigensolvers.py:43-98 with the kind of the guess; [norm(v)] is real. *)
Definition rqi_of_kind (kg : kind) (n : nat) (A : mat CC) (tolerance : R) (solver : mat CC -> vect CC -> vect CC) (guess_vector : vect CC) (iterations : nat)
    : option (with_guess (option (cpx * vect CC))) :=
  if kle KReal kg then Some (rayleigh_quotient_iteration n A tolerance solver guess_vector iterations) else None.

(** eigensolvers.py:35-37: the kind of v after the loop *)
Fixpoint power_kind (ko : kind) (iterations : nat) (k : kind) : option kind :=
  match iterations with
  | O => Some k
  | S it => if kle KReal (kmax ko k) then power_kind ko it (kmax ko k) else None
  end.
(** eigensolvers.py:13-41 with the kinds of the operator and of the guess *)
Definition power_of_kinds (ko kg : kind) (n : nat) (A : mat CC) (guess_vector : vect CC) (iterations : nat) : option (with_guess (cpx * vect CC)) :=
  match power_kind ko iterations kg with
  | Some k => if kle KReal k then Some (power_iteration n A guess_vector iterations) else None
  | None => None
  end.
