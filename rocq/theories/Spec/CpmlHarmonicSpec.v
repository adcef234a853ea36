(** What a convolutional PML is to a field that grows by a fixed factor per time step. *)
From Coq Require Import List Arith ZArith Bool.
From Verif.Lib Require Import Num Idx.
From Verif.Model Require Import Fdmath Pml.
From Verif.Spec Require Import Yee FdtdRun CpmlSpec.
Import ListNotations.
Local Open Scope fld_scope.

Section S.
  Context {K : Fld}.
  Variable sh : list nat.
  Variable Ls : nat -> nat -> option (layer K).
  Variables p0 p1 p2 : layer K -> nat -> K.
  Variable Z : K.

  (** Coefficients of side [pp] of axis [a] at the coordinate [i], if a layer is there. *)
  Definition coef (p : layer K -> nat -> K) (a pp i : nat) : option K :=
    option_map (fun L => p L (depth sh a pp (lth L) [i; i; i])) (here sh Ls a pp [i; i; i]).
  Definition or1 (o : option K) : K := match o with Some x => x | None => 1 end.

  (** Sum of the geometric series p1 (1 + p0/Z + (p0/Z)^2 + ...) of a side. *)
  Definition resp (a pp i : nat) : K :=
    match coef p0 a pp i, coef p1 a pp i with
    | Some q0, Some q1 => q1 / (1 - q0 / Z)
    | _, _ => 0
    end.
  (** What the derivatives along [a] at coordinate [i] are multiplied by. *)
  Definition gain (a i : nat) : K :=
    let lo := or1 (coef p2 a 0 i) in
    let hi := or1 (coef p2 a 1 i) in
    lo * hi * (1 + resp a 1 i) + lo * resp a 0 i.
  (** The widths for which that is a plain difference quotient. *)
  Definition effective (w : widths K) : widths K := fun a i => w a i / gain a i.

  (** No memory has the growth factor itself as its decay factor; no gain vanishes. *)
  Definition regular : Prop :=
    forall a i, (a < 3)%nat -> (i < dim sh a)%nat ->
      gain a i <> 0 /\ forall pp q, (pp < 2)%nat -> coef p0 a pp i = Some q -> Z - q <> 0.
End S.

Section E.
  Context {K : Fld}.
  (** Equal fields on the grid and equal memories inside the layers. *)
  Definition peq (sh : list nat) (Ls : nat -> nat -> option (layer K)) (s t : pstate K) : Prop :=
    feq sh (pE_ s) (pE_ t) /\ feq sh (pH_ s) (pH_ t)
    /\ forall a pp k idx, (a < 3)%nat -> (pp < 2)%nat -> (k < 2)%nat -> inb sh idx -> here sh Ls a pp idx <> None ->
         psE s a pp k idx = psE t a pp k idx /\ psH s a pp k idx = psH t a pp k idx.
  (** Everything multiplied by a number. *)
  Definition times (x : K) (s : pstate K) : pstate K :=
    mkps (fun c i => x * pE_ s c i) (fun c i => x * pH_ s c i)
         (fun a pp k i => x * psE s a pp k i) (fun a pp k i => x * psH s a pp k i).
End E.

From Coq Require Import Reals.
From Verif.Lib Require Import RealF.
From Verif.Model Require Import FdtdReal.

(** A layer with real coefficients, used on complex fields. *)
Definition clayer (L : layer RF) : layer CC :=
  let c (f : nat -> R) : nat -> CC := fun i => mkC (f i) 0 in
  mkLayer (K := CC) (lth L) (c (lp0e L)) (c (lp1e L)) (c (lp2e L)) (c (lp0h L)) (c (lp1h L)) (c (lp2h L)).

(** What [cpml_params] returned for axis [a], side [pp] and time step [dt] and sensible
    arguments: a reflection below 1, a medium with refractive index at least 1, and
    non-negative exponents and shift. *)
Definition made_for (dt : R) (a pp : nat) (L : layer RF) : Prop :=
  exists (axis polarity thickness : Z) (ln_R epsilon_eff mu_eff m ma cfs_alpha : R),
    (ln_R < 0 /\ 1 <= epsilon_eff * mu_eff /\ 0 <= m /\ 0 <= ma /\ 0 <= cfs_alpha)%R
    /\ cpml_params axis polarity dt thickness ln_R epsilon_eff mu_eff m ma cfs_alpha = Ok (a, pp, L).

(** Is cell [i] of the [n] cells along an axis in the layer of [th] cells on side [pp]? *)
Definition covers (n pp th i : nat) : Prop := if Nat.eqb pp 0 then (i < th)%nat else (n - th <= i)%nat.

(** Layers made for their places, the two on an axis not overlapping. *)
Definition fitted (sh : list nat) (dt : R) (Lr : nat -> nat -> option (layer RF)) : Prop :=
  (forall a pp L, Lr a pp = Some L -> made_for dt a pp L)
  /\ (forall a L0 L1, Lr a 0%nat = Some L0 -> Lr a 1%nat = Some L1 -> (lth L0 + lth L1 <= dim sh a)%nat)
  /\ (forall a pp L, Lr a pp = Some L -> (lth L <= dim sh a)%nat).

From Verif.Lib Require Import Cexp.
(** Gain of a single layer with coefficients [q0 q1 q2] at the phase [theta] per step. *)
Definition one_gain (q0 q1 q2 theta : R) : cpx :=
  cmul (mkC q2 0) (cadd c1 (cdiv (mkC q1 0) (csub c1 (cdiv (mkC q0 0) (cexp (mkC 0 theta)))))).
(** Two complex numbers whose real and imaginary parts differ by less than [eta]. *)
Definition near (eta : R) (x y : cpx) : Prop := (Rabs (cre x - cre y) < eta /\ Rabs (cim x - cim y) < eta)%R.
