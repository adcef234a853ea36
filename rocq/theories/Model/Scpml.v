(** Model of meanas/fdfd/scpml.py. *)
From Coq Require Import Reals List Arith ZArith Bool.
From Verif.Lib Require Import Num Sums Idx RealF.
From Verif.Model Require Import Fdmath Fdfd FdtdReal.

Section Stretch.
  Context {K : CFld}.
  Local Open Scope fld_scope.

  (** Outcome of [stretch_with_scpml]: the new widths, an IndexError, or widths of
      which some are nan/inf because the code divides by zero. *)
  Inductive outcome (A : Type) : Type := Fine (a : A) | IndexErr | NotFinite.
  Arguments Fine {A}. Arguments IndexErr {A}. Arguments NotFinite {A}.

  (** [dxes[j][axis] = f] *)
  Definition set_axis (w : widths K) (axis : nat) (f : nat -> K) : widths K :=
    fun b => if Nat.eqb b axis then f else w b.

  (** scpml.py:98-167.  [n] is the number of cells along [axis], [s_function] the
      resolved function ([prepare_s_function()] if None was given), [sqrt] is
      numpy.sqrt, [re_omega] is numpy.real(omega).  [thickness >= 0].
      The code writes the result into its argument [dxes] and returns it. *)
  Definition stretch_with_scpml (sqrt : K -> K) (n : nat) (dxes : dx2 K) (axis : nat) (polarity : Z)
      (re_omega epsilon_effective : K) (thickness : nat) (s_function : K -> K) : outcome (dx2 K) :=
    if negb (Nat.ltb axis 3) then IndexErr else
    let dx_ai := fst dxes axis in
    let dx_bi := snd dxes axis in
    let pos := fun i => sumN i dx_ai in
    let pos_a := fun i => (pos i + pos (S i)) / 2 in
    let pos_b := pos in
    let s_correction := sqrt epsilon_effective * re_omega in
    if Nat.ltb n thickness then IndexErr else
    let front := Z.ltb 0 polarity in
    let bound := if front then pos thickness else pos (n - thickness)%nat in
    let d := if front then bound - pos 0%nat else pos n - bound in
    let l_d := fun x => if front then (bound - x) / (bound - pos 0%nat) else (x - bound) / (pos n - bound) in
    let slc := fun i => if front then Nat.ltb i thickness
                        else if Nat.eqb thickness 0 then true
                        else Nat.leb (n - thickness) i in
    if existsb slc (seq 0 n) && (feqb d 0 || feqb s_correction 0) then NotFinite else
    let stretched := fun (dx p : nat -> K) i =>
      if slc i then dx i * (1 + im * s_function (l_d (p i)) / d / s_correction) else dx i in
    Fine (set_axis (fst dxes) axis (stretched dx_ai pos_a),
          set_axis (snd dxes) axis (stretched dx_bi pos_b)).
End Stretch.
Arguments Fine {A}. Arguments IndexErr {A}. Arguments NotFinite {A}.

Local Open Scope R_scope.

(** scpml.py:18-38 *)
Definition prepare_s_function (ln_R m : R) (distance : R) : R :=
  (m + 1) * ln_R / 2 * rpow distance m.

(** scpml.py:73-75: [ll] *)
Definition ll (u n t : R) : R := (Rmax (t - u) 0 + Rmax (u - (n - t)) 0) / t.

(** scpml.py:41-95, one axis with [s] cells and thickness [th]: the two width
    arrays.  [omega] is real here (the code takes its real part). *)
Definition uniform_axis (s th : nat) (omega epsilon_effective : R) (s_function : R -> R)
    : (nat -> CC) * (nat -> CC) :=
  let s_correction := sqrt epsilon_effective * omega in
  if Nat.ltb 0 th then
    (fun i => mkC 1 (s_function (ll (INR i) (INR s) (INR th)) / s_correction),
     fun i => mkC 1 (s_function (ll (INR i + / 2) (INR s) (INR th)) / s_correction))
  else (fun _ => mkC 1 0, fun _ => mkC 1 0).

Definition uniform_grid_scpml (shape thicknesses : nat -> nat) (omega epsilon_effective : R)
    (s_function : R -> R) : dx2 CC :=
  (fun a => fst (uniform_axis (shape a) (thicknesses a) omega epsilon_effective s_function),
   fun a => snd (uniform_axis (shape a) (thicknesses a) omega epsilon_effective s_function)).
