(** Grids with unequal widths as described in fdmath/__init__.py, "Grid description":
    the base grid is cut by planes, E is at the middles of the cells and H at the planes
    in the directions across the component. *)
From Coq Require Import Reals List Arith Bool.
From Verif.Lib Require Import Num Idx RealF.
From Verif.Model Require Import Fdmath.
From Verif.Spec Require Import SmoothSpec.
Local Open Scope R_scope.

(** [X a i] and [X a (S i)] are the planes bounding cell [i] along axis [a]. *)
Definition planes : Type := nat -> nat -> R.
Definition middle (X : planes) (a i : nat) : R := (X a i + X a (S i)) / 2.
(** dx[i]: the widths of the base grid, between H planes, used for dH/dx. *)
Definition base_w (X : planes) : widths RF := fun a i => X a (S i) - X a i.
(** dx'[i] = (dx[i] + dx[i+1]) / 2, from middle to middle, used for dE/dx; periodic. *)
Definition derived_w (sh : list nat) (X : planes) : widths RF := fun a i =>
  (base_w X a i + base_w X a (if Nat.eqb (S i) (dim sh a) then 0%nat else S i)) / 2.
(** The period along axis [a]. *)
Definition span (sh : list nat) (X : planes) (a : nat) : R := X a (dim sh a) - X a 0%nat.

(** The point of cell [idx] that is at the middle along the axes in [o] and on the plane
    after the cell along the others. *)
Definition grid_pt (o : nat -> bool) (X : planes) (idx : list nat) : pt :=
  let x := fun a => if o a then middle X a (coord idx a) else X a (S (coord idx a)) in
  (x 0%nat, x 1%nat, x 2%nat).
Definition at_e (X : planes) (c : nat) : list nat -> pt := grid_pt (fun a => negb (Nat.eqb a c)) X.
Definition at_h (X : planes) (c : nat) : list nat -> pt := grid_pt (fun a => Nat.eqb a c) X.
Definition sam_e {A : Type} (X : planes) (F : nat -> pt -> A) : nat -> list nat -> A := fun c i => F c (at_e X c i).
Definition sam_h {A : Type} (X : planes) (F : nat -> pt -> A) : nat -> list nat -> A := fun c i => F c (at_h X c i).

(** [F1] and [F2] are the first and second derivatives along [a]; [F2] is bounded by [M2]
    and has derivatives bounded by [M] along all axes. *)
Definition diff23 (a : nat) (F F1 F2 : pt -> R) (M2 M : R) : Prop :=
  pd a F F1 /\ pd a F1 F2 /\ (forall p, Rabs (F2 p) <= M2)
  /\ forall b, (b < 3)%nat -> exists F3, pd b F2 F3 /\ forall p, Rabs (F3 p) <= M.
Definition smooth_field2 (L : nat -> R) (F : nat -> pt -> cpx) (D D2 : nat -> nat -> pt -> cpx) (M2 M : R) : Prop :=
  (forall c a p, (c < 3)%nat -> (a < 3)%nat -> F c (mvp a (L a) p) = F c p)
  /\ forall c a, (c < 3)%nat -> (a < 3)%nat ->
       diff23 a (fun p => cre (F c p)) (fun p => cre (D a c p)) (fun p => cre (D2 a c p)) M2 M
       /\ diff23 a (fun p => cim (F c p)) (fun p => cim (D a c p)) (fun p => cim (D2 a c p)) M2 M.

(** A real field changing in time as in [smooth_motion], with second derivatives [D2 t a c]
    in space bounded by [M2] that change in time with rates bounded by [M]. *)
Definition smooth_motion2 (L : nat -> R) (F : R -> nat -> pt -> R) (D D2 : R -> nat -> nat -> pt -> R) (Ft : R -> nat -> pt -> R) (M2 M : R) : Prop :=
  (forall t c a p, (c < 3)%nat -> (a < 3)%nat -> F t c (mvp a (L a) p) = F t c p)
  /\ (forall t c a, (c < 3)%nat -> (a < 3)%nat -> diff23 a (F t c) (D t a c) (D2 t a c) M2 M)
  /\ (forall c p, (c < 3)%nat -> exists f2 f3 : R -> R,
       (forall t, derivable_pt_lim (fun s => F s c p) t (Ft t c p)) /\ (forall t, derivable_pt_lim (fun s => Ft s c p) t (f2 t))
       /\ (forall t, derivable_pt_lim f2 t (f3 t)) /\ forall t, Rabs (f3 t) <= M)
  /\ forall c a p, (c < 3)%nat -> (a < 3)%nat -> exists g : R -> R,
       (forall t, derivable_pt_lim (fun s => D2 s a c p) t (g t)) /\ forall t, Rabs (g t) <= M.
