(** Coordinate stretching as a change of fields and materials. *)
From Coq Require Import List Arith ZArith.
From Verif.Lib Require Import Num Idx.
From Verif.Model Require Import Fdmath.
From Verif.Spec Require Import Yee.
Local Open Scope fld_scope.

Section S.
  Context {K : Fld}.
  (** New widths per old widths. *)
  Definition ratio (w' w : widths K) : widths K := fun a i => w' a i / w a i.
  Definition along (s : widths K) (a : nat) (idx : list nat) : K := s a (coord idx a).
  (** The two other axes. *)
  Definition ax1 (c : nat) : nat := match c with 0 => 1 | 1 => 2 | _ => 0 end%nat.
  Definition ax2 (c : nat) : nat := match c with 0 => 2 | 1 => 0 | _ => 1 end%nat.
  (** Field components times the stretch along their own axis. *)
  Definition own (s : widths K) (F : field K) : field K := fun c idx => along s c idx * F c idx.
  (** Values times the stretches of the face normal to the component. *)
  Definition face (t : widths K) (F : field K) : field K := fun c idx => along t (ax1 c) idx * along t (ax2 c) idx * F c idx.
  (** The absorber material: m t1 t2 / s. *)
  Definition uniaxial (s t : widths K) (m : field K) : field K := fun c idx => face t m c idx / along s c idx.
End S.
