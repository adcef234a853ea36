(** The two-dimensional trapezoid rule. *)
From Coq Require Import List Arith ZArith.
From Verif.Lib Require Import Num Sums Idx.
From Verif.Model Require Import Fdmath.
Import ListNotations.
Local Open Scope fld_scope.

(** Points (i, j), i < nx, j < ny; the distance of the points i and i + 1 along x is
    [wx (i + 1)], along y [wy (j + 1)]: the mean of the four corners times the area,
    summed over the rectangles between the points. *)
Definition trapezoid_rule {K : Fld} (nx ny : nat) (wx wy : nat -> K) (f : arr K) : K :=
  sumN (nx - 1) (fun i => sumN (ny - 1) (fun j =>
    wx (S i) * wy (S j) * ((f [i; j] + f [S i; j] + f [i; S j] + f [S i; S j]) / (2 * 2)))).
