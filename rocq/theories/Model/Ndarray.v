(** numpy arrays of complex numbers with their shape, broadcasting, and values
    that are not finite.  A value [None] stands for NaN or infinity: results
    computed from it are [None] too (numpy can get back from an infinity to a
    finite number only by dividing by it, which the modelled code does not do).
    Operations on whole arrays return [None] where numpy raises. *)
From Coq Require Import Reals List Arith ZArith Bool.
From Verif.Lib Require Import Num Sums Idx RealF Dft.
Import ListNotations.

Definition num := option cpx.
Definition lift2 (f : cpx -> cpx -> cpx) (a b : num) : num :=
  match a, b with Some x, Some y => Some (f x y) | _, _ => None end.
Definition nadd := lift2 cadd.
Definition nsub := lift2 csub.
Definition nmul := lift2 cmul.
(** x / 0 is not finite *)
Definition ndiv (a b : num) : num :=
  match a, b with Some x, Some y => if cpx_dec y c0 then None else Some (cdiv x y) | _, _ => None end.
Definition nopp (a : num) : num := option_map copp a.
Definition nre (x : R) : num := Some (mkC x 0).
Fixpoint nsum (n : nat) (f : nat -> num) : num :=
  match n with O => Some c0 | S m => nadd (nsum m f) (f m) end.

(** All values of a grid if every one is finite. *)
Definition cells (sh : list nat) : list (list nat) := map (unravel sh) (seq 0 (prodl sh)).
Definition finite (a : num) : bool := match a with Some _ => true | None => false end.
Definition all_finite (sh : list nat) (f : list nat -> num) : option (list nat -> cpx) :=
  if forallb (fun idx => finite (f idx)) (cells sh)
  then Some (fun idx => match f idx with Some x => x | None => c0 end) else None.

Record nd := mkNd { shp : list nat; val : list nat -> num }.
(** Shape of a broadcast result; shapes are aligned at the last axis. *)
Fixpoint bshape_rev (a b : list nat) : option (list nat) :=
  match a, b with
  | [], _ => Some b
  | _, [] => Some a
  | x :: a', y :: b' =>
      match bshape_rev a' b' with
      | Some r => if (x =? y)%nat then Some (x :: r) else if (x =? 1)%nat then Some (y :: r)
                  else if (y =? 1)%nat then Some (x :: r) else None
      | None => None
      end
  end.
Definition bshape (a b : list nat) : option (list nat) := option_map (@rev nat) (bshape_rev (rev a) (rev b)).
(** Index into an array of shape [sh] for index [idx] of the broadcast result. *)
Definition bix (sh idx : list nat) : list nat :=
  map (fun p => if (fst p =? 1)%nat then O else snd p) (combine sh (skipn (length idx - length sh) idx)).
Definition zipw (f : num -> num -> num) (A B : nd) : option nd :=
  match bshape (shp A) (shp B) with
  | Some s => Some (mkNd s (fun idx => f (val A (bix (shp A) idx)) (val B (bix (shp B) idx))))
  | None => None
  end.
(** A op= B *)
Definition izipw (f : num -> num -> num) (A B : nd) : option nd :=
  match zipw f A B with
  | Some C => if list_eq_dec Nat.eq_dec (shp C) (shp A) then Some C else None
  | None => None
  end.
Definition nmap (f : num -> num) (A : nd) : nd := mkNd (shp A) (fun idx => f (val A idx)).
(** fftn(A, axes=range(3)), ifftn(A, axes=range(3)) for T = fftn, ifftn *)
Definition fft3 (T : list nat -> (list nat -> cpx) -> list nat -> cpx) (A : nd) : nd :=
  mkNd (shp A) (fun idx =>
    let s := firstn 3 (shp A) in
    match all_finite s (fun j => val A (j ++ skipn 3 idx)) with
    | Some g => Some (T s g (firstn 3 idx))
    | None => None
    end).
(** numpy.sum(A, axis=3, keepdims=True) and numpy.sum(A, axis=3) *)
Definition sum3k (A : nd) : nd :=
  mkNd (firstn 3 (shp A) ++ [1] ++ skipn 4 (shp A))
       (fun idx => nsum (dim (shp A) 3) (fun j => val A (firstn 3 idx ++ [j] ++ skipn 4 idx))).
Definition sum3 (A : nd) : nd :=
  mkNd (firstn 3 (shp A) ++ skipn 4 (shp A))
       (fun idx => nsum (dim (shp A) 3) (fun j => val A (firstn 3 idx ++ [j] ++ skipn 3 idx))).
(** A[:, :, :, None] *)
Definition newaxis3 (A : nd) : nd :=
  mkNd (firstn 3 (shp A) ++ [1] ++ skipn 3 (shp A)) (fun idx => val A (firstn 3 idx ++ skipn 4 idx)).
(** numpy.concatenate((A, B), axis=None, out=h) for h of [size] elements *)
Definition concat_out (size : nat) (A B : nd) : option (nat -> num) :=
  let a := prodl (shp A) in
  if (a + prodl (shp B) =? size)%nat
  then Some (fun p => if (p <? a)%nat then val A (unravel (shp A) p) else val B (unravel (shp B) (p - a)))
  else None.

Definition obind {A B} (x : option A) (f : A -> option B) : option B := match x with Some a => f a | None => None end.
Notation "x <- e ;; f" := (obind e (fun x => f)) (at level 70, right associativity, e at level 60).
