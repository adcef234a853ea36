(** Model of meanas/eigensolvers.py.  Vectors have [n] complex entries; an
    operator is an [n * n] matrix (a LinearOperator is represented by the matrix
    of its action).  numpy.linalg, scipy and user supplied solvers are parameters. *)
From Coq Require Import Reals List Arith ZArith Bool.
From Verif.Lib Require Import Num Sums Idx Mat RealF.
From Verif.Model Require Import WaveguideReal.
Import ListNotations.
Local Open Scope R_scope.

(** [x.conj() @ y] *)
Definition cdot (n : nat) (x y : vect CC) : cpx := sumN (K := CC) n (fun i => cmul (cconj (x i)) (y i)).
(** numpy.linalg.norm *)
Definition vnorm (n : nat) (x : vect CC) : R := sqrt (sumN (K := RF) n (fun i => cnrm (x i))).
(** [numpy.abs(v).sum()] *)
Definition vasum (n : nat) (x : vect CC) : R := sumN (K := RF) n (fun i => cabs (x i)).
(** [v / r] *)
Definition vdivr (x : vect CC) (r : R) : vect CC := fun i => cdiv (x i) (mkC r 0).
Definition normalize (n : nat) (x : vect CC) : vect CC := vdivr x (vnorm n x).
(** [norm(operator @ v - eigval * v)] *)
Definition residual (n : nat) (A : mat CC) (lam : cpx) (v : vect CC) : R :=
  vnorm n (fun i => csub (mv n A v i) (cmul lam (v i))).
(** [operator - shift(eigval)] *)
Definition mshift (A : mat CC) (lam : cpx) : mat CC := msub A (mscale (K := CC) lam mid).

(** The result of a function and the contents of the caller's array afterwards. *)
Record with_guess (T : Type) := { result : T; guess_after : vect CC }.
Arguments result {T}. Arguments guess_after {T}.

Section Rqi.
  Variables (n : nat) (A : mat CC) (tolerance : R) (solver : mat CC -> vect CC -> vect CC).
  (** eigensolvers.py:88-97: the loop; [last] is the variable [eigval], unbound
      before the first iteration.  Simplification: the array returned by
      [solver] is a fresh one. *)
  Fixpoint rqi_loop (iterations : nat) (last : option cpx) (v : vect CC) : option cpx * vect CC :=
    match iterations with
    | O => (last, v)
    | S it =>
        let eigval := cdot n v (mv n A v) in
        if Rlt_dec (residual n A eigval v) tolerance then (Some eigval, v)
        else rqi_loop it (Some eigval) (normalize n (solver (mshift A eigval) v))
    end.
  (** eigensolvers.py:43-98; [None] is an UnboundLocalError.  [numpy.squeeze]
      returns a view of [guess_vector], which [v /= norm(v)] overwrites. *)
  Definition rayleigh_quotient_iteration (guess_vector : vect CC) (iterations : nat) : with_guess (option (cpx * vect CC)) :=
    let v := normalize n guess_vector in
    let '(last, w) := rqi_loop iterations None v in
    {| result := match last with Some l => Some (l, w) | None => None end; guess_after := v |}.
End Rqi.

Section Power.
  Variables (n : nat) (A : mat CC).
  (** eigensolvers.py:35-37 *)
  Fixpoint power_loop (iterations : nat) (v : vect CC) : vect CC :=
    match iterations with
    | O => v
    | S it => let w := mv n A v in power_loop it (vdivr w (vasum n w))
    end.
  (** eigensolvers.py:13-41.  The first [v = operator @ v] makes a new array;
      without it [v /= norm(v)] overwrites the guess. *)
  Definition power_iteration (guess_vector : vect CC) (iterations : nat) : with_guess (cpx * vect CC) :=
    let v := normalize n (power_loop iterations guess_vector) in
    {| result := (cdot n v (mv n A v), v);
       guess_after := match iterations with O => v | S _ => guess_vector end |}.
End Power.

(** eigensolvers.py:101-142.  [lm_eigval] is the estimate returned by
    [power_iteration]; [eigs operator k ncv] is scipy.sparse.linalg.eigs with
    which='LM', [None] if it raises.  The result lists eigenvalues with their
    eigenvectors. *)
Definition signed_eigensolve (n : nat) (A : mat CC) (eigs : mat CC -> nat -> nat -> option (list (cpx * vect CC)))
    (lm_eigval : cpx) (how_many : nat) (negative : bool) : option (list (cpx * vect CC)) :=
  let shift := if negative then - cabs lm_eigval else cabs lm_eigval in
  let shifted_operator := madd A (mscale (K := CC) (mkC shift 0) mid) in
  match eigs shifted_operator how_many (2 * how_many + 50)%nat with
  | None => None
  | Some l => Some (argsorted (map (fun p => (csub (fst p) (mkC shift 0), snd p)) l))
  end.
