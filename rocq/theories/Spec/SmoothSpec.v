(** Smooth fields in space and their samples at the Yee positions (fdmath/__init__.py:
    "Grid description": every component at the middle of its edge or face). *)
From Coq Require Import Reals List Arith.
From Verif.Lib Require Import Num Idx RealF.
From Verif.Model Require Import Fdmath.
Local Open Scope R_scope.

Definition pt : Type := (R * R * R)%type.
(** The point moved by [t] along axis [a]. *)
Definition mvp (a : nat) (t : R) (p : pt) : pt :=
  let '(x, y, z) := p in
  match a with 0%nat => (x + t, y, z) | 1%nat => (x, y + t, z) | _ => (x, y, z + t) end.
(** [F'] is the partial derivative of [F] along [a]. *)
Definition pd (a : nat) (F F' : pt -> R) : Prop := forall p, derivable_pt_lim (fun t => F (mvp a t p)) 0 (F' p).
(** [F1] is the first derivative along [a], and the third is bounded by [M]. *)
Definition diff3 (a : nat) (F F1 : pt -> R) (M : R) : Prop :=
  exists F2 F3, pd a F F1 /\ pd a F1 F2 /\ pd a F2 F3 /\ forall p, Rabs (F3 p) <= M.

(** A complex vector field with periods [L], partial derivatives [D a c] of component [c]
    along axis [a], and third derivatives bounded by [M] (real and imaginary parts). *)
Definition smooth_field (L : nat -> R) (F : nat -> pt -> cpx) (D : nat -> nat -> pt -> cpx) (M : R) : Prop :=
  (forall c a p, (c < 3)%nat -> (a < 3)%nat -> F c (mvp a (L a) p) = F c p)
  /\ forall c a, (c < 3)%nat -> (a < 3)%nat ->
       diff3 a (fun p => cre (F c p)) (fun p => cre (D a c p)) M
       /\ diff3 a (fun p => cim (F c p)) (fun p => cim (D a c p)) M.
(** The curl. *)
Definition curl_of (D : nat -> nat -> pt -> cpx) (c : nat) (p : pt) : cpx :=
  match c with
  | 0%nat => csub (D 1%nat 2%nat p) (D 2%nat 1%nat p)
  | 1%nat => csub (D 2%nat 0%nat p) (D 0%nat 2%nat p)
  | _ => csub (D 0%nat 1%nat p) (D 1%nat 0%nat p)
  end.

(** Cell [idx] of a uniform grid of widths [w], offset by [o] cells. *)
Definition posn (o w : nat -> R) (idx : list nat) : pt :=
  ((INR (coord idx 0) + o 0%nat) * w 0%nat, (INR (coord idx 1) + o 1%nat) * w 1%nat, (INR (coord idx 2) + o 2%nat) * w 2%nat).
(** Component [c] of E: half a cell along [c]; of H: half a cell along the others. *)
Definition pos_e (w : nat -> R) (c : nat) : list nat -> pt := posn (fun a => if Nat.eqb a c then / 2 else 0) w.
Definition pos_h (w : nat -> R) (c : nat) : list nat -> pt := posn (fun a => if Nat.eqb a c then 0 else / 2) w.
Definition smp_e {A : Type} (w : nat -> R) (F : nat -> pt -> A) : nat -> list nat -> A := fun c i => F c (pos_e w c i).
Definition smp_h {A : Type} (w : nat -> R) (F : nat -> pt -> A) : nat -> list nat -> A := fun c i => F c (pos_h w c i).

(** A real vector field changing in time: periods [L], partial derivatives [D t a c],
    time derivative [Ft], third derivatives in space and time bounded by [M]. *)
Definition smooth_motion (L : nat -> R) (F : R -> nat -> pt -> R) (D : R -> nat -> nat -> pt -> R) (Ft : R -> nat -> pt -> R) (M : R) : Prop :=
  (forall t c a p, (c < 3)%nat -> (a < 3)%nat -> F t c (mvp a (L a) p) = F t c p)
  /\ (forall t c a, (c < 3)%nat -> (a < 3)%nat -> diff3 a (F t c) (D t a c) M)
  /\ forall c p, (c < 3)%nat -> exists f2 f3 : R -> R,
       (forall t, derivable_pt_lim (fun s => F s c p) t (Ft t c p)) /\ (forall t, derivable_pt_lim (fun s => Ft s c p) t (f2 t))
       /\ (forall t, derivable_pt_lim f2 t (f3 t)) /\ forall t, Rabs (f3 t) <= M.
Definition curl_re (D : nat -> nat -> pt -> R) (c : nat) (p : pt) : R :=
  match c with
  | 0%nat => D 1%nat 2%nat p - D 2%nat 1%nat p
  | 1%nat => D 2%nat 0%nat p - D 0%nat 2%nat p
  | _ => D 0%nat 1%nat p - D 1%nat 0%nat p
  end.
