(** Model of meanas/fdmath: vectorization.py, functional.py, operators.py. *)
From Coq Require Import List Arith ZArith.
From Verif.Lib Require Import Num Sums Idx Mat.
Import ListNotations.
Local Open Scope fld_scope.

(** A Python function either returns or raises. *)
Inductive result (A : Type) : Type :=
| Ok (a : A)
| Raise.
Arguments Ok {A} a.
Arguments Raise {A}.

(** A numpy array of shape [sh] is a function on multi-indices; only indices
    with [inb sh idx] are meaningful.  A field is indexed by component first. *)
Definition arr (K : Fld) := list nat -> K.
Definition field (K : Fld) := nat -> list nat -> K.
(** Cell widths: axis, then position along the axis ([[dx..], [dy..], [dz..]]). *)
Definition widths (K : Fld) := nat -> nat -> K.

Section Fdmath.
  Context {K : Fld}.

  (** *** fdmath/vectorization.py *)

  (** vectorization.py:51-68, [vec]: [numpy.ravel(f, order='C')] of an array of
      shape [(ncomp, *sh)]; the [None] case is in [vec_opt]. *)
  Definition vec (sh : list nat) (f : field K) : vect K :=
    fun p => f (p / prodl sh)%nat (unravel sh (p mod prodl sh)).

  Definition vec_opt (sh : list nat) (f : option (field K)) : option (vect K) :=
    option_map (vec sh) f.

  (** vectorization.py:103-125, [unvec]: [v.reshape((nvdim, *shape), order='C')]. *)
  Definition unvec (sh : list nat) (v : vect K) : field K :=
    fun c idx => v (c * prodl sh + ravel sh idx)%nat.

  (** [f.ravel(order='C')] for a scalar array of shape [sh]. *)
  Definition flat (sh : list nat) (f : arr K) : vect K := fun p => f (unravel sh p).

  (** Same with the size check of [reshape] ([v] has [len] entries) and [None].
      [reshape]'s "-1" placeholder sizes are not modelled (shape entries are
      cell counts). *)
  Definition unvec_checked (len : nat) (v : option (vect K)) (sh : list nat) (nvdim : nat)
    : result (option (field K)) :=
    match v with
    | None => Ok None
    | Some w => if Nat.eqb len (nvdim * prodl sh) then Ok (Some (unvec sh w)) else Raise
    end.

  (** *** fdmath/functional.py *)

  (** [numpy.roll(f, s, axis=a)]: result[i] = f[(i - s) mod n]. *)
  Definition roll (sh : list nat) (s : Z) (a : nat) (f : arr K) : arr K :=
    fun idx => f (shift_ix sh a (- s) idx).

  (** functional.py:30-37, [deriv_forward(dx_e)[a]]; [None] means no widths.
      The broadcast [dx_e[a][:, None, None]] is indexing by coordinate [a]. *)
  Definition deriv_forward (sh : list nat) (dx : option (widths K)) (a : nat) (f : arr K) : arr K :=
    fun idx =>
      let d := roll sh (-1) a f idx - f idx in
      match dx with
      | Some w => d / w a (coord idx a)
      | None => d
      end.

  (** functional.py:54-61, [deriv_back(dx_h)[a]]. *)
  Definition deriv_back (sh : list nat) (dx : option (widths K)) (a : nat) (f : arr K) : arr K :=
    fun idx =>
      let d := f idx - roll sh 1 a f idx in
      match dx with
      | Some w => d / w a (coord idx a)
      | None => d
      end.

  (** functional.py:83-91 and 112-120: the common body of [ce_fun]/[ch_fun],
      given the three derivatives. *)
  Definition curl_with (D : nat -> arr K -> arr K) (f : field K) : field K :=
    fun c =>
      match c with
      | 0%nat => fun idx => D 1%nat (f 2%nat) idx - D 2%nat (f 1%nat) idx
      | 1%nat => fun idx => D 2%nat (f 0%nat) idx - D 0%nat (f 2%nat) idx
      | 2%nat => fun idx => D 0%nat (f 1%nat) idx - D 1%nat (f 0%nat) idx
      | _ => fun _ => 0
      end.

  (** functional.py:67-93 *)
  Definition curl_forward (sh : list nat) (dx : option (widths K)) : field K -> field K :=
    curl_with (deriv_forward sh dx).
  (** functional.py:96-122 *)
  Definition curl_back (sh : list nat) (dx : option (widths K)) : field K -> field K :=
    curl_with (deriv_back sh dx).

  (** functional.py:130-133 and 143-146: the pair of terms for component [c]. *)
  Definition curl_parts_with (D : nat -> arr K -> arr K) (f : field K) (c : nat)
    : (arr K * arr K) :=
    match c with
    | 0%nat => (fun idx => - D 2%nat (f 1%nat) idx, fun idx => D 1%nat (f 2%nat) idx)
    | 1%nat => (fun idx => D 2%nat (f 0%nat) idx, fun idx => - D 0%nat (f 2%nat) idx)
    | 2%nat => (fun idx => - D 1%nat (f 0%nat) idx, fun idx => D 0%nat (f 1%nat) idx)
    | _ => (fun _ => 0, fun _ => 0)
    end.

  (** functional.py:125-135 *)
  Definition curl_forward_parts (sh : list nat) (dx : option (widths K)) :=
    curl_parts_with (deriv_forward sh dx).
  (** functional.py:138-148 *)
  Definition curl_back_parts (sh : list nat) (dx : option (widths K)) :=
    curl_parts_with (deriv_back sh dx).

  (** *** fdmath/operators.py *)

  (** Apply [g axis] to every coordinate of an index (numpy.meshgrid of
      per-axis index arrays, indexing='ij', read at one cell). *)
  Fixpoint mapc_from (b : nat) (g : nat -> nat -> nat) (idx : list nat) : list nat :=
    match idx with [] => [] | i :: is => g b i :: mapc_from (S b) g is end.
  Definition mapc (g : nat -> nat -> nat) (idx : list nat) : list nat := mapc_from 0 g idx.

  (** operators.py:31-34 / 71-74: shape and axis checks. *)
  Definition shape_ok (sh : list nat) : bool :=
    Nat.eqb (length sh) 2 || Nat.eqb (length sh) 3.
  Definition axis_ok (axis : Z) (sh : list nat) : bool :=
    (0 <=? axis)%Z && (axis <? Z.of_nat (length sh))%Z.

  (** operators.py:36-50, body of [shift_circ] (after the checks). *)
  Definition shift_circ_mat (a : nat) (sh : list nat) (d : Z) : mat K :=
    let s := Z.abs d in
    let j_ind p :=
      ravel sh (mapc (fun b i => cyc (dim sh b) (if Nat.eqb b a then s else 0) i) (unravel sh p)) in
    let m := mcoo (prodl sh) (fun _ => 1) (fun p => p) j_ind in
    if (d <? 0)%Z then mtr m else m.

  (** operators.py:15-52 *)
  Definition shift_circ (axis : Z) (sh : list nat) (d : Z) : result (mat K) :=
    if negb (shape_ok sh) then Raise
    else if negb (axis_ok axis sh) then Raise
    else Ok (shift_circ_mat (Z.to_nat axis) sh d).

  (** operators.py:78-82, [mirrored_range(n, s)[i]] (in Z, before any range check). *)
  Definition mirrored (n : nat) (s : Z) (i : nat) : Z :=
    let v := (Z.of_nat i + s)%Z in
    let v := if (Z.of_nat n <=? v)%Z then (2 * Z.of_nat n - v - 1)%Z else v in
    if (v <? 0)%Z then (- 1 - v)%Z else v.

  Definition mirror_shift (a : nat) (d : Z) (b : nat) : Z := if Nat.eqb b a then d else 0%Z.

  (** [numpy.ravel_multi_index] accepts the coordinates of cell [idx]. *)
  Fixpoint mirror_in_range (b : nat) (a : nat) (sh : list nat) (d : Z) (idx : list nat) : bool :=
    match sh, idx with
    | n :: ns, i :: is =>
        let v := mirrored n (mirror_shift a d b) i in
        (0 <=? v)%Z && (v <? Z.of_nat n)%Z && mirror_in_range (S b) a ns d is
    | _, _ => true
    end.

  (** operators.py:84-94, body of [shift_with_mirror] after the checks. *)
  Definition shift_mirror_mat (a : nat) (sh : list nat) (d : Z) : mat K :=
    let j_ind p :=
      ravel sh (mapc (fun b i => Z.to_nat (mirrored (dim sh b) (mirror_shift a d b) i)) (unravel sh p)) in
    mcoo (prodl sh) (fun _ => 1) (fun p => p) j_ind.

  (** operators.py:55-96.  The last test is [ravel_multi_index] raising
      ValueError when some mirrored coordinate is out of range. *)
  Definition shift_with_mirror (axis : Z) (sh : list nat) (d : Z) : result (mat K) :=
    if negb (shape_ok sh) then Raise
    else if negb (axis_ok axis sh) then Raise
    else if (Z.of_nat (dim sh (Z.to_nat axis)) <=? d)%Z then Raise
    else if forallb (fun p => mirror_in_range 0 (Z.to_nat axis) sh d (unravel sh p)) (seq 0 (prodl sh))
    then Ok (shift_mirror_mat (Z.to_nat axis) sh d)
    else Raise.

  (** [numpy.meshgrid( *dx, indexing='ij')[a].ravel(order='C')] *)
  Definition dx_flat (sh : list nat) (w : widths K) (a : nat) : vect K :=
    fun p => w a (coord (unravel sh p) a).

  (** operators.py:99-123, [deriv_forward(dx_e)[a]]; the shape is that of the
      width arrays.  ([shift_circ] raises unless there are 2 or 3 axes; here the
      matrix is given for any number of axes.) *)
  Definition deriv_forward_mat (sh : list nat) (w : widths K) (a : nat) : mat K :=
    mm (prodl sh) (mdiag (fun p => 1 / dx_flat sh w a p))
                  (msub (shift_circ_mat a sh 1) mid).

  (** operators.py:126-150, [deriv_back(dx_h)[a]]. *)
  Definition deriv_back_mat (sh : list nat) (w : widths K) (a : nat) : mat K :=
    mm (prodl sh) (mdiag (fun p => (- (1)) / dx_flat sh w a p))
                  (msub (shift_circ_mat a sh (-1)) mid).

  (** operators.py:153-171, [cross]; each block is [n] by [n]. *)
  Definition cross_mat (n : nat) (B : nat -> mat K) : mat K :=
    mblock n n (fun r c =>
      match r, c with
      | 0%nat, 1%nat => mopp (B 2%nat)
      | 0%nat, 2%nat => B 1%nat
      | 1%nat, 0%nat => B 2%nat
      | 1%nat, 2%nat => mopp (B 0%nat)
      | 2%nat, 0%nat => mopp (B 1%nat)
      | 2%nat, 1%nat => B 0%nat
      | _, _ => mzero
      end).

  (** operators.py:174-187, [vec_cross]; [numpy.split(b, 3)] for [3*n] entries. *)
  Definition vec_cross_mat (n : nat) (b : vect K) : mat K :=
    cross_mat n (fun c => mdiag (fun p => b (c * n + p)%nat)).

  (** operators.py:190-205 (the shape check is the one of [shift_circ]). *)
  Definition avg_forward_mat (a : nat) (sh : list nat) : mat K :=
    mscale (1 / 2) (madd mid (shift_circ_mat a sh 1)).
  (** operators.py:208-219 *)
  Definition avg_back_mat (a : nat) (sh : list nat) : mat K := mtr (avg_forward_mat a sh).

  (** operators.py:222-235 and 238-251 *)
  Definition curl_forward_mat (sh : list nat) (w : widths K) : mat K :=
    cross_mat (prodl sh) (deriv_forward_mat sh w).
  Definition curl_back_mat (sh : list nat) (w : widths K) : mat K :=
    cross_mat (prodl sh) (deriv_back_mat sh w).
End Fdmath.

Arguments curl_forward {K} sh dx f c%nat_scope idx : rename.
Arguments curl_back {K} sh dx f c%nat_scope idx : rename.
Arguments curl_with {K} D f c%nat_scope idx : rename.
