(** Model of the parts of meanas/fdfd/waveguide_cyl.py that need an order or
    square roots.  Complex numbers are [CC]. *)
From Coq Require Import Reals List Arith ZArith Bool.
From Verif.Lib Require Import Num Sums Idx Mat RealF.
From Verif.Model Require Import Fdmath Fdfd Waveguide2d WaveguideReal Cyl.
Import ListNotations.
Local Open Scope R_scope.

(** waveguide_cyl.py:251-258 for one mode.  Simplification: [dxes[0][0]] is
    real ([mode_radii] is a float array). *)
Definition mode_radius (sh : list nat) (e_xy eps : vect CC) (dr : nat -> R) (rmin : R) : R :=
  let grid_radii m := rmin + sumN (K := RF) (S m) dr in
  let energy c i := cre (cmul (cmul (unvec (K := CC) sh e_xy c i) (cconj (unvec (K := CC) sh e_xy c i))) (unvec (K := CC) sh eps c i)) in
  let energy_vs_x m := sumN (K := RF) 2 (fun c => sumN (K := RF) (dim sh 1) (fun j => energy c [m; j])) in
  sumN (K := RF) (dim sh 0) (fun m => grid_radii m * energy_vs_x m) / sumN (K := RF) (dim sh 0) energy_vs_x.
(** waveguide_cyl.py:224-261 for one mode. *)
Definition linear_wavenumber (sh : list nat) (e_xy : vect CC) (angular_wavenumber : cpx) (eps : vect CC) (dr : nat -> R) (rmin : R) : cpx :=
  cdiv angular_wavenumber (mkC (mode_radius sh e_xy eps dr rmin) 0).

(** waveguide_cyl.py:458-493: negates [h], then proceeds as
    waveguide_2d._normalized_fields ([rmin] is not used). *)
Definition cyl_normalized_fields (sh : list nat) (e h : vect CC) (dxes : dx2 CC) (eps : vect CC) (phase : cpx)
    : option (vect CC * vect CC) :=
  normalized_fields sh e (fun q => cmul (h q) (mkC (-1) 0)) dxes eps phase.
(** waveguide_cyl.py:420-455 *)
Definition cyl_normalized_fields_e (sh : list nat) (e_xy : vect CC) (angular_wavenumber omega : cpx) (dxes : dx2 CC) (rmin : cpx)
    (eps : vect CC) (mu : option (vect CC)) (phase : cpx) : option (vect CC * vect CC) :=
  let e := mv (2 * prodl sh) (cyl_exy2e (K := CC) sh angular_wavenumber omega dxes rmin eps) e_xy in
  let h := mv (2 * prodl sh) (cyl_exy2h (K := CC) sh angular_wavenumber omega dxes rmin eps mu) e_xy in
  cyl_normalized_fields sh e h dxes eps phase.
