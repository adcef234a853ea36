(** Plane waves on a uniform periodic grid. *)
From Coq Require Import Reals List Arith ZArith.
From Verif.Lib Require Import Num Idx RealF Cexp.
From Verif.Model Require Import Fdmath.
From Verif.Spec Require Import HarmonicSpec.
Local Open Scope fld_scope.

Section Wave.
  Context {K : Fld}.
  (** The factor [p a] per cell along axis [a]. *)
  Definition ripple (p : nat -> K) : arr K := fun idx =>
    zpow (p 0%nat) (coord idx 0) * zpow (p 1%nat) (coord idx 1) * zpow (p 2%nat) (coord idx 2).
  (** A vector amplitude times that factor. *)
  Definition plane_wave (p : nat -> K) (e0 : nat -> K) : field K := fun c idx => e0 c * ripple p idx.
  (** It fits the periodic grid. *)
  Definition fits (sh : list nat) (p : nat -> K) : Prop := forall a, (a < 3)%nat -> p a <> 0 /\ zpow (p a) (dim sh a) = 1.
  (** The same width everywhere along an axis, the same material everywhere. *)
  Definition uniw (w : nat -> K) : widths K := fun a _ => w a.
  Definition unim (m : K) : field K := fun _ _ => m.
  (** What the forward and backward differences turn into. *)
  Definition fwd (p w : nat -> K) (a : nat) : K := (p a - 1) / w a.
  Definition bwd (p w : nat -> K) (a : nat) : K := (1 - 1 / p a) / w a.
  Definition dot3 (u v : nat -> K) : K := u 0%nat * v 0%nat + u 1%nat * v 1%nat + u 2%nat * v 2%nat.
  Definition cross3 (u v : nat -> K) (c : nat) : K :=
    match c with
    | 0%nat => u 1%nat * v 2%nat - u 2%nat * v 1%nat
    | 1%nat => u 2%nat * v 0%nat - u 0%nat * v 2%nat
    | 2%nat => u 0%nat * v 1%nat - u 1%nat * v 0%nat
    | _ => 0
    end.
End Wave.

Local Open Scope R_scope.
(** Factor per cell of the real wave vector [k] on cells of widths [w]. *)
Definition phases (k w : nat -> R) : nat -> CC := fun a => cexp (mkC 0 (k a * w a)).
Definition cv (u : nat -> R) : nat -> CC := fun a => mkC (u a) 0.
(** The wave vector fits the periods of the grid. *)
Definition commensurate (sh : list nat) (k w : nat -> R) : Prop :=
  forall a, (a < 3)%nat -> exists m : Z, k a * w a * INR (dim sh a) = 2 * PI * IZR m.
(** K_a = 2 sin(k_a w_a / 2) / w_a and K_x^2 + K_y^2 + K_z^2. *)
Definition grid_k (k w : nat -> R) (a : nat) : R := 2 * sin (k a * w a / 2) / w a.
Definition grid_k2 (k w : nat -> R) : R :=
  grid_k k w 0 * grid_k k w 0 + grid_k k w 1 * grid_k k w 1 + grid_k k w 2 * grid_k k w 2.
