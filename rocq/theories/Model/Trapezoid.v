(** Model of meanas/fdfd/waveguide_2d.py, [inner_product] with [trapezoid=True]. *)
From Coq Require Import List Arith ZArith Bool.
From Verif.Lib Require Import Num Sums Idx Mat.
From Verif.Model Require Import Fdmath Fdfd Waveguide2d.
Import ListNotations.
Local Open Scope fld_scope.

Section Trapz.
  Context {K : Fld}.

  (** [numpy.cumsum(w)] *)
  Definition cumsum (w : nat -> K) : nat -> K := fun i => sumN (S i) w.

  (** [numpy.trapezoid(y, x)] for one-dimensional [x] with [m] entries, along the last
      axis of [y], which has [n] entries: [(diff(x) * (y[1:] + y[:-1]) / 2.0).sum(-1)].
      [diff(x)] has m - 1 entries and the other factor n - 1; numpy broadcasts if the
      two numbers are equal or one of them is 1, and raises ValueError otherwise. *)
  Definition bcast (a b : nat) : bool := Nat.eqb a b || Nat.eqb a 1 || Nat.eqb b 1.
  Definition trapz (m n : nat) (x y : nat -> K) : K :=
    let a := (m - 1)%nat in
    let b := (n - 1)%nat in
    let at_a := fun i => if Nat.eqb a 1 then 0%nat else i in
    let at_b := fun i => if Nat.eqb b 1 then 0%nat else i in
    sumN (if Nat.eqb a 1 then b else a)
      (fun i => (x (S (at_a i)) - x (at_a i)) * (y (S (at_b i)) + y (at_b i)) / 2).

  (** [numpy.trapezoid(numpy.trapezoid(f, cumsum(w1)), cumsum(w0))] for [f] of shape
      (nx, ny), [w1] with [m1] and [w0] with [m0] entries. *)
  Definition trapz2 (nx ny m1 m0 : nat) (w1 w0 : nat -> K) (f : arr K) : result K :=
    if bcast (m1 - 1) (ny - 1) && bcast (m0 - 1) (nx - 1)
    then Ok (trapz m0 nx (cumsum w0) (fun i => trapz m1 ny (cumsum w1) (fun j => f [i; j])))
    else Raise.
End Trapz.

Section Inner.
  Context {K : CFld}.

  (** waveguide_2d.py:924-953 with [trapezoid=True], for cross-sections with at least
      one cell.  [phase] is [exp(1j * prop_phase / 2)]. *)
  Definition inner_product_trapezoid (nx ny : nat) (e1 h2 : vect K) (dxes : dx2 K) (phase : K) (conj_h : bool) : result K :=
    let sh := [nx; ny] in
    let E1 := unvec sh e1 in
    let H2 := fun c idx => let v := unvec sh h2 c idx * phase in if conj_h then conj v else v in
    let rw (w : widths K) a i := real_part (w a i) in
    match trapz2 nx ny ny nx (rw (fst dxes) 1%nat) (rw (snd dxes) 0%nat) (fun idx => E1 0%nat idx * H2 1%nat idx) with
    | Raise => Raise
    | Ok Sz_a =>
        match trapz2 nx ny nx ny (rw (fst dxes) 0%nat) (rw (snd dxes) 1%nat) (fun idx => E1 1%nat idx * H2 0%nat idx) with
        | Raise => Raise
        | Ok Sz_b => Ok (1 / 2 * (Sz_a - Sz_b))
        end
    end.
End Inner.
