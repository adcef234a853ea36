(** Model of [gaussian_beam] in meanas/fdtd/misc.py.  [None] as a value stands for
    NaN or infinity (see Ndarray.v). *)
From Coq Require Import Reals List Arith ZArith Bool.
From Verif.Lib Require Import Num Sums Idx RealF Cexp.
From Verif.Model Require Import Ndarray.
Import ListNotations.
Local Open Scope R_scope.

Definition rnum := option R.
Definition rlift2 (f : R -> R -> R) (a b : rnum) : rnum :=
  match a, b with Some x, Some y => Some (f x y) | _, _ => None end.
Definition radd := rlift2 Rplus.
Definition rmul := rlift2 Rmult.
Definition rsub := rlift2 Rminus.
(** x / 0 is not finite *)
Definition rdiv (a b : rnum) : rnum :=
  match a, b with Some x, Some y => if Req_EM_T y 0 then None else Some (x / y) | _, _ => None end.

(** misc.py:143-147 *)
Definition rot (tilt : R) (i j : nat) : R :=
  match i, j with
  | 0%nat, 0%nat => cos tilt | 0%nat, 2%nat => sin tilt
  | 1%nat, 1%nat => 1
  | 2%nat, 0%nat => - sin tilt | 2%nat, 2%nat => cos tilt
  | _, _ => 0
  end.

(** misc.py:149, the einsum at one sample point *)
Definition rotated (tilt : R) (g : nat -> R) (i : nat) : R := sumN (K := RF) 3 (fun j => rot tilt i j * g j).

(** misc.py:150-162 at one sample point *)
Definition gaussian (w0 wl xx yy zz : R) : num :=
  let r2 := xx * xx + yy * yy in
  let z2 := zz * zz in
  let zr := rdiv (Some (PI * w0 * w0)) (Some wl) in
  let zr2 := rmul zr zr in
  let wz2 := rmul (Some (w0 * w0)) (radd (Some 1) (rdiv (Some z2) zr2)) in
  let wz := option_map sqrt wz2 in
  let kk := rdiv (Some (2 * PI)) (Some wl) in
  let Rz := rmul (Some zz) (radd (Some 1) (rdiv zr2 (Some z2))) in
  let gouy := option_map atan (rdiv (Some zz) zr) in
  let amp := rmul (rdiv (Some w0) wz) (option_map exp (rdiv (Some (- r2)) wz2)) in
  let phase := rsub (radd (rmul kk (Some zz)) (rdiv (rdiv (rmul kk (Some r2)) (Some 2)) Rz)) gouy in
  nmul (option_map (fun a => mkC a 0) amp) (option_map (fun p => cexp (mkC 0 p)) phase).

(** misc.py:139-140: position of a sample relative to the center (the meshgrid of
    the three position lists, of lengths [sh], minus [center]). *)
Definition offset (xyz : nat -> nat -> R) (center : nat -> R) (idx : list nat) (j : nat) : R :=
  xyz j (coord idx j) - center j.

(** misc.py:117-166; [None] where it raises (no samples along z). *)
Definition gaussian_beam (sh : list nat) (xyz : nat -> nat -> R) (center : nat -> R) (w0 wl tilt : R)
    : option (list nat -> num) :=
  if Nat.eqb (dim sh 2) 0 then None
  else
    let g := fun idx => let p := rotated tilt (offset xyz center idx) in gaussian w0 wl (p 0%nat) (p 1%nat) (p 2%nat) in
    let plane := [dim sh 0; dim sh 1] in
    let row := fun ij => g [coord ij 0; coord ij 1; (dim sh 2 / 2)%nat] in
    let norm := option_map (fun r => csqrt (gsum (K := CC) plane (fun ij => cmul (r ij) (cconj (r ij))))) (all_finite plane row) in
    Some (fun idx => ndiv (g idx) norm).
