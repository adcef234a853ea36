(** Object-level model of the functions that write into their arguments:
    fdtd/base.py on arrays and on lists, and the lists of widths of
    fdfd/scpml.py.  Objects have addresses; two variables may name one object. *)
From Coq Require Import List Arith ZArith Bool.
From Verif.Lib Require Import Num Sums Idx.
From Verif.Model Require Import Fdmath Fdtd Fdfd Scpml.
Import ListNotations.
Local Open Scope fld_scope.

Definition upd {A : Type} (st : nat -> A) (a : nat) (x : A) : nat -> A := fun b => if Nat.eqb b a then x else st b.

Section Fields.
  Context {K : Fld}.

  (** A field as the caller holds it: one array of shape (3, *sh), or a list of
      arrays [[E_x, E_y, E_z]] (as in examples/fdtd.py:128-129). *)
  Inductive obj : Type := Arr (f : field K) | Lst (l : list (arr K)).
  (** Objects by address; addresses from [top] on are unused. *)
  Record heap : Type := mkHeap { objs : nat -> obj; top : nat }.

  Definition ncomp (o : obj) : nat := match o with Arr _ => 3%nat | Lst l => length l end.
  (** [o[c]] *)
  Definition comps (o : obj) : field K := match o with Arr f => f | Lst l => fun c => nth c l (fun _ => 0) end.
  Definition store (hp : heap) (a : nat) (o : obj) : heap := mkHeap (upd (objs hp) a o) (top hp).
  Definition alloc (hp : heap) (o : obj) : nat * heap := (top hp, mkHeap (upd (objs hp) (top hp) o) (S (top hp))).

  (** [a += X] for an array [X] of shape (3, *sh): numpy adds in place; a list is
      extended by the three components of [X] (list.__iadd__). *)
  Definition iadd (hp : heap) (a : nat) (X : field K) : heap :=
    store hp a (match objs hp a with
                | Arr f => Arr (fun c idx => f c idx + X c idx)
                | Lst l => Lst (l ++ [X 0%nat; X 1%nat; X 2%nat])
                end).
  (** [a -= X; return a]: numpy subtracts in place; a list has no __isub__, so
      [a - X] is a new array that only the local name refers to. *)
  Definition isub (hp : heap) (a : nat) (X : field K) : nat * heap :=
    match objs hp a with
    | Arr f => (a, store hp a (Arr (fun c idx => f c idx - X c idx)))
    | Lst l => alloc hp (Arr (fun c idx => comps (Lst l) c idx - X c idx))
    end.
  (** [a.copy()] (the caller's loop copies arrays). *)
  Definition copy (hp : heap) (a : nat) : nat * heap := alloc hp (objs hp a).

  (** base.py:51-65, [me_fun(e, h, epsilon)] for the objects at [e] and [h].
      numpy raises unless [h] has three components (the quotient by epsilon). *)
  Definition me_fun (sh : list nat) (dt : K) (dxes : dxes_t K) (e h : nat) (epsilon : field K) (hp : heap)
      : result (nat * heap) :=
    if Nat.eqb (ncomp (objs hp h)) 3 then
      Ok (e, iadd hp e (fun c idx => dt * curl_back sh (option_map snd dxes) (comps (objs hp h)) c idx / epsilon c idx))
    else Raise.
  (** base.py:105-123, [mh_fun(e, h, mu)].  Simplification: objects with other
      than three components are taken to make numpy raise (they do unless [e] and
      [h] have the same number of them). *)
  Definition mh_fun (sh : list nat) (dt : K) (dxes : dxes_t K) (e h : nat) (mu : option (field K)) (hp : heap)
      : result (nat * heap) :=
    if (Nat.eqb (ncomp (objs hp e)) 3 && Nat.eqb (ncomp (objs hp h)) 3)%bool then
      Ok (isub hp h (fun c idx => let d := dt * curl_forward sh (option_map fst dxes) (comps (objs hp e)) c idx in
                                  match mu with Some m => d / m c idx | None => d end))
    else Raise.
End Fields.
Arguments obj K : clear implicits.
Arguments heap K : clear implicits.

Section Lists.
  Context {K : CFld}.

  (** Width arrays and lists of (references to) width arrays, both by address;
      addresses of arrays from [free] on are unused. *)
  Record grids : Type := mkGrids { arrs : nat -> nat -> K; lists : nat -> nat -> nat; free : nat }.
  (** The widths a list holds. *)
  Definition held (g : grids) (l : nat) : widths K := fun a => arrs g (lists g l a).
  (** [l[axis] = x] for an array just made. *)
  Definition set_item (g : grids) (l axis : nat) (x : nat -> K) : grids :=
    mkGrids (upd (arrs g) (free g) x) (upd (lists g) l (upd (lists g l) axis (free g))) (S (free g)).

  (** scpml.py:98-167 for [dxes = [l0, l1]]: [astype] copies the two arrays of
      [axis], lines 164-165 store the stretched copies in the lists; the same
      [dxes] is returned. *)
  Definition stretch_lists (sqrt : K -> K) (n : nat) (l0 l1 axis : nat) (polarity : Z)
      (re_omega epsilon_effective : K) (thickness : nat) (s_function : K -> K) (g : grids) : outcome grids :=
    match stretch_with_scpml sqrt n (held g l0, held g l1) axis polarity re_omega epsilon_effective thickness s_function with
    | Fine out => Fine (set_item (set_item g l0 axis (fst out axis)) l1 axis (snd out axis))
    | IndexErr => IndexErr
    | NotFinite => NotFinite
    end.
End Lists.
Arguments grids K : clear implicits.
