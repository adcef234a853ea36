(** Plane waves of wavelength one leaving a plane, in units with impedance one. *)
From Coq Require Import Reals List Arith ZArith.
From Verif.Lib Require Import Num Sums Idx RealF Dft.
From Verif.Spec Require Import BlochSpec.
Import ListNotations.
Local Open Scope R_scope.

(** Angular wavenumber of output i of an n-point transform of samples d apart. *)
Definition dft_k (n : nat) (d : R) (i : nat) : R := 2 * PI * IZR (signed_freq n i) / (INR n * d).
(** Tangential fields of a plane wave with |k| = 2 pi that travels towards +z:
    E_z makes E transverse, and H is the unit vector along k times E. *)
Definition outgoing (kx ky : R) (Ex Ey Hx Hy : cpx) : Prop :=
  let kz := sqrt ((2 * PI) * (2 * PI) - (kx * kx + ky * ky)) in
  exists Ez, cadd (cadd (rmul kx Ex) (rmul ky Ey)) (rmul kz Ez) = c0 /\
    rmul (2 * PI) Hx = csub (rmul ky Ez) (rmul kz Ey) /\
    rmul (2 * PI) Hy = csub (rmul kz Ex) (rmul kx Ez).
