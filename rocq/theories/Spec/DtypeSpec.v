(** Values that arrays of integers, reals and complex numbers can hold. *)
From Coq Require Import Reals List Arith ZArith.
From Verif.Lib Require Import Num Idx RealF.
From Verif.Model Require Import Fdmath Dtype.
Local Open Scope R_scope.

Definition fits (k : kind) (x : cpx) : Prop :=
  match k with KInt => exists z, x = mkC (IZR z) 0 | KReal => cim x = 0 | KComplex => True end.
Definition field_fits (e : tfield) : Prop := forall c idx, fits (tk e) (tv e c idx).
Definition widths_fit (w : twidths) : Prop := match w with None => True | Some (k, v) => forall a i, fits k (v a i) end.
(** The same values in an array of complex numbers. *)
Definition as_complex (e : tfield) : tfield := mkT KComplex (tv e).
