(** Specification pieces relating time-domain and frequency-domain fields. *)
From Coq Require Import Reals List Arith ZArith.
From Verif.Lib Require Import Num Idx RealF.
From Verif.Model Require Import Fdmath.
From Verif.Spec Require Import Grid FdtdRun.
Local Open Scope fld_scope.

Section H.
  Context {K : Fld}.
  Fixpoint zpow (z : K) (n : nat) : K := match n with O => 1 | S m => z * zpow z m end.

  (** Time-harmonic fields with the factor [z] per half time step: E at the time of
      step [n], H half a step earlier. *)
  Definition harmonic (z : K) (E H : field K) (n : nat) : state K :=
    mkst (fun c i => zpow z (2 * n) * E c i) (fun c i => zpow z (2 * n) / z * H c i).

  (** The current as injected after step [n] (e += j / epsilon) for a current density
      J z^(2n+1), i.e. half-way between E at [n] and at [n + 1]. *)
  Definition injected (dt z : K) (J : field K) (n : nat) : field K :=
    fun c i => - (dt * (zpow z (2 * n) * z * J c i)).
End H.

(** Real widths and materials as complex numbers, and real fields oscillating with a
    complex amplitude: Re (F exp(i theta)). *)
Definition cw (w : widths RF) : widths CC := fun a i => mkC (w a i) 0.
Definition cf (m : field RF) : field CC := fun c i => mkC (m c i) 0.
Definition at_phase (F : field CC) (theta : R) : field RF :=
  fun c i => (cre (F c i) * cos theta - cim (F c i) * sin theta)%R.

(** Net flow out of a cell of a flux given on the upper faces of the cells. *)
Definition outflow {K : Fld} (sh : list nat) (S : field K) : arr K :=
  fun idx => diff_prev sh None 0 (S 0%nat) idx + diff_prev sh None 1 (S 1%nat) idx + diff_prev sh None 2 (S 2%nat) idx.

(** Widths (or other arrays by axis) that are real numbers. *)
Definition realw {K : CFld} (w : widths K) : Prop := forall a i, conj (w a i) = w a i.
(** The complex conjugate of a field, component by component. *)
Definition cjf {K : CFld} (F : field K) : field K := fun c i => conj (F c i).
