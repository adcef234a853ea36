(** Model of eigsolve and find_k of meanas/fdfd/bloch.py.  Functions of
    numpy.linalg, scipy and the random generator are parameters; [None] if they
    raise.  [None] also stands for a computation that is not finite. *)
From Coq Require Import Reals List Arith ZArith Bool.
From Verif.Lib Require Import Num Sums Idx Mat RealF.
From Verif.Model Require Import Ndarray Bloch Eigensolvers.
Import ListNotations.
Local Open Scope R_scope.

(** [Z.conj().T] *)
Definition mct (A : mat CC) : mat CC := fun i j => cconj (A j i).
(** [trace(A)] *)
Definition trace (k : nat) (A : mat CC) : cpx := sumN (K := CC) k (fun i => A i i).
(** scipy.linalg.norm of an n by k array *)
Definition fro (n k : nat) (A : mat CC) : R := sqrt (sumN (K := RF) n (fun i => sumN (K := RF) k (fun j => cnrm (A i j)))).
(** bloch.py:794-798 for n by k arrays *)
Definition rtrace_AtB (n k : nat) (A B : mat CC) : R :=
  cre (sumN (K := CC) n (fun i => sumN (K := CC) k (fun j => cmul (cconj (A i j)) (B i j)))).
(** bloch.py:800-801 *)
Definition symmetrize (A : mat CC) : mat CC := fun i j => cmul (cadd (A i j) (mct A i j)) (mkC (1 / 2) 0).
(** real number times array *)
Definition mscale_r (x : R) (A : mat CC) : mat CC := mscale (K := CC) (mkC x 0) A.

(** [LinearOperator @ X]: the function is applied to each of the k columns. *)
Fixpoint on_columns (op : vect CC -> option (vect CC)) (k : nat) (X : mat CC) : option (mat CC) :=
  match k with
  | O => Some (mzero (K := CC))
  | S j =>
      M <- on_columns op j X ;;
      y <- op (fun i => X i j) ;;
      Some (fun r c => if (c =? j)%nat then y r else M r c)
  end.

(** [numpy.argsort(numpy.abs(eigvals))] (order of equal keys not modelled) *)
Fixpoint insert_abs (p : cpx * vect CC) (l : list (cpx * vect CC)) : list (cpx * vect CC) :=
  match l with
  | [] => [p]
  | q :: r => if Rle_dec (cabs (fst p)) (cabs (fst q)) then p :: l else q :: insert_abs p r
  end.
Definition sort_abs (l : list (cpx * vect CC)) : list (cpx * vect CC) := fold_right insert_abs [] l.

(** Loop variables of bloch.py:606-736; ZtZ is the one computed last. *)
Record cg_state := mkCg { sZ : mat CC; sZtZ : mat CC; sD : mat CC; sprev_E : R; sd_scale : R; sprev_tr : R }.
(** One pass through the loop: left by break, or on to the next iteration. *)
Inductive cg_next := Stop (s : cg_state) | Next (s : cg_state).

(** [modes], [y0_after]: the result and the contents of the caller's y0
    afterwards.  [iterates] (last one first) and [converged] (the loop was left
    by break) only serve to state properties. *)
Record solved := mkSolved { modes : list (cpx * vect CC); y0_after : mat CC; iterates : list (mat CC); converged : bool }.

Section Eigsolve.
  (** size of h_mn, number of modes, maxwell_operator, inverse_maxwell_operator_approx *)
  Variables (N k : nat) (op iop : vect CC -> option (vect CC)).
  Variables (tolerance : R) (max_iters reset_iters : nat).
  (** numpy.linalg.inv, scipy.linalg.sqrtm, numpy.linalg.eig, scipy.optimize.minimize_scalar
      with bounds (0, pi), random arrays in the order they are drawn *)
  Variable inv : nat -> mat CC -> option (mat CC).
  Variable sqrtm : nat -> mat CC -> option (mat CC).
  Variable eig : nat -> mat CC -> option ((nat -> cpx) * mat CC).
  Variable minimize : (R -> option R) -> option R.
  Variable rng : nat -> mat CC.

  (** bloch.py:579-593.  [y] holds the contents of y0, which [Z *= ..]
      changes as long as Z is a view of it ([view]).  [None] also when [fuel]
      passes are not enough. *)
  Fixpoint start_loop (fuel draw : nat) (view : bool) (y Z : mat CC) : option (mat CC * mat CC * bool * mat CC) :=
    match fuel with
    | O => None
    | S f =>
        let nz := fro N k Z in
        if Req_EM_T nz 0 then None else
        let Z := mscale_r (INR k / nz) Z in
        let y := if view then mtr Z else y in
        let ZtZ := mm N (mct Z) Z in
        match inv k ZtZ with
        | None => start_loop f (S draw) false y (rng draw)
        | Some U =>
            if Rlt_dec (100000000 * INR k) (cre (trace k U)) then
              S <- sqrtm k U ;;
              start_loop f draw false y (mm k Z (mct S))
            else Some (Z, ZtZ, view, y)
        end
    end.

  (** bloch.py:660-680 *)
  Definition Qi_func (ZtZ DtD symZtD : mat CC) (theta : R) : option (mat CC) :=
    let c := cos theta in
    let s := sin theta in
    let Q := madd (madd (mscale_r (c * c) ZtZ) (mscale_r (s * s) DtD)) (mscale_r (2 * s * c) symZtD) in
    match inv k Q with
    | Some Qi => Some Qi
    | None =>
        let taylor (x y : R) (M : mat CC) :=
          Mi <- inv k M ;;
          Some (msub (mscale_r (/ (y * y)) Mi) (mscale_r (2 * x / (y * y * y)) (mm k Mi (mct (mm k Mi symZtD))))) in
        if Rlt_dec c (1 / 10000 * s) then if Req_EM_T c 0 then (if Rlt_dec s (1 / 10000 * c) then if Req_EM_T s 0 then None else taylor s c ZtZ else None) else taylor c s DtD
        else if Rlt_dec s (1 / 10000 * c) then if Req_EM_T s 0 then None else taylor s c ZtZ
        else None
    end.
  (** bloch.py:682-688 *)
  Definition trace_func (ZtZ DtD symZtD ZtAZ DtAD symZtAD : mat CC) (theta : R) : option R :=
    let c := cos theta in
    let s := sin theta in
    Qi <- Qi_func ZtZ DtD symZtD theta ;;
    let R := madd (madd (mscale_r (c * c) ZtAZ) (mscale_r (s * s) DtAD)) (mscale_r (2 * s * c) symZtAD) in
    Some (Rabs (rtrace_AtB k k R Qi)).

  (** bloch.py:598-736, iteration number [i].  [scipy_iop @ G] overwrites G
      with its result.  [new_E] and [prev_theta] are only logged. *)
  Definition cg_step (i : nat) (st : cg_state) : option cg_next :=
    let Z := sZ st in
    let Zt := mct Z in
    let ZtZ := mm N Zt Z in
    U <- inv k ZtZ ;;
    AZ <- on_columns op k Z ;;
    let ZtAZ := mm N Zt AZ in
    let ZtAZU := mm k ZtAZ U in
    let E_signed := cre (trace k ZtAZU) in
    let sgn := WaveguideReal.rsign E_signed in
    let E := Rabs E_signed in
    let G := mscale_r sgn (msub (mm k AZ U) (mm k (mm k Z U) ZtAZU)) in
    if ((0 <? i)%nat && (if Rlt_dec (Rabs (E - sprev_E st)) (tolerance * (1 / 2) * (E + sprev_E st + 1 / 10000000)) then true else false))%bool
    then Some (Stop (mkCg Z ZtZ (sD st) (sprev_E st) (sd_scale st) (sprev_tr st)))
    else
      KG <- on_columns iop k G ;;
      let G := KG in
      let traceGtKG := rtrace_AtB N k G KG in
      gamma <- (if Req_EM_T (sprev_tr st) 0 then Some 0
                else if (reset_iters =? 0)%nat then None
                else if (i mod reset_iters =? 0)%nat then Some 0
                else Some (traceGtKG / sprev_tr st)) ;;
      let D := madd (mscale_r (gamma / sd_scale st) (sD st)) KG in
      if Req_EM_T (fro N k D) 0 then None else
      let d_scale := INR k / fro N k D in
      let D := mscale_r d_scale D in
      AD <- on_columns op k D ;;
      let DtD := mm N (mct D) D in
      let DtAD := mm N (mct D) AD in
      let symZtD := symmetrize (mm N Zt D) in
      let symZtAD := symmetrize (mm N Zt AD) in
      theta <- minimize (trace_func ZtZ DtD symZtD ZtAZ DtAD symZtAD) ;;
      let Z := madd (mscale_r (cos theta) Z) (mscale_r (sin theta) D) in
      Some (Next (mkCg Z ZtZ D E d_scale traceGtKG)).

  (** [for i in range(max_iters)]; [fuel] iterations are left *)
  Fixpoint cg_loop (fuel i : nat) (st : cg_state) (its : list (mat CC)) : option (cg_state * list (mat CC) * bool) :=
    match fuel with
    | O => Some (st, its, false)
    | S f =>
        r <- cg_step i st ;;
        match r with
        | Stop s => Some (s, its, true)
        | Next s => cg_loop f (S i) s (sZ s :: its)
        end
    end.

  (** bloch.py:741-763 without the lines :756-760 that log the error of each mode,
      for which see [log_modes]. *)
  Definition recover (Z ZtZ : mat CC) : option (list (cpx * vect CC)) :=
    U <- inv k ZtZ ;;
    S <- sqrtm k U ;;
    let Y := mm k Z S in
    AY <- on_columns op k Y ;;
    let W := mm N (mct Y) AY in
    ev <- eig k W ;;
    let '(eigvals, W_eigvecs) := ev in
    let eigvecs := mm k Y W_eigvecs in
    if existsb (fun j => if Req_EM_T (vnorm N (fun i => eigvecs i j)) 0 then true else false) (seq 0 k) then None else
    Some (sort_abs (map (fun j => (eigvals j, normalize N (fun i => eigvecs i j))) (seq 0 k))).

  (** bloch.py:508-763; [fuel] bounds the number of passes of the first loop.
      y0, if given, is a complex array of k rows. *)
  Definition eigsolve (fuel : nat) (y0 : option (mat CC)) : option solved :=
    let '(draw, view, y, Z) := match y0 with
      | None => (1%nat, false, mzero (K := CC), rng 0)
      | Some y => (0%nat, true, y, mtr y) end in
    z <- start_loop fuel draw view y Z ;;
    let '(Z, ZtZ, view, y) := z in
    l <- cg_loop max_iters 0 (mkCg Z ZtZ (mzero (K := CC)) 0 1 0) [Z] ;;
    let '(st, its, conv) := l in
    ms <- recover (sZ st) (sZtZ st) ;;
    Some (mkSolved ms (if view then mtr (sZ st) else y) its conv).

  (** [a[:, 0]] for an array of [ndim] dimensions: IndexError if there is only one. *)
  Definition first_column {A : Type} (ndim : nat) (a : A) : option A := if (2 <=? ndim)%nat then Some a else None.
  (** bloch.py:756-760, for each mode.  [ndim] is the number of dimensions of
      [scipy_op @ v] for an array v of one dimension.  scipy gives it one, too
      (LinearOperator.matvec ends with [y.reshape(M)]). *)
  Fixpoint log_modes (ndim : nat) (l : list (cpx * vect CC)) : option unit :=
    match l with
    | [] => Some tt
    | (_, v) :: r => Av <- op v ;; _ <- first_column ndim Av ;; log_modes ndim r
    end.
  (** bloch.py:508-763 with these lines: the caller's y0 after the call, and what
      is returned.  [None]: an exception before the lines :756-760. *)
  Definition eigsolve_call (ndim : nat) (fuel : nat) (y0 : option (mat CC)) : option (mat CC * option (list (cpx * vect CC))) :=
    s <- eigsolve fuel y0 ;;
    Some (y0_after s, _ <- log_modes ndim (modes s) ;; Some (modes s)).
End Eigsolve.

(** All values if every one is finite. *)
Fixpoint finite_vec (n : nat) (f : nat -> num) : option (vect CC) :=
  match n with
  | O => Some (fun _ => c0)
  | S m => v <- finite_vec m f ;; x <- f m ;; Some (fun i => if (i =? m)%nat then x else v i)
  end.
(** bloch.py:552-559 *)
Definition bloch_op (k0 : vec3) (G : nat -> nat -> R) (sh : list nat) (epsilon : nat -> list nat -> cpx) (mu : option (nat -> list nat -> cpx)) (h : vect CC) : option (vect CC) :=
  r <- maxwell_operator k0 G sh epsilon mu h ;; finite_vec (2 * prodl sh) r.
Definition bloch_iop (k0 : vec3) (G : nat -> nat -> R) (sh : list nat) (epsilon : nat -> list nat -> cpx) (mu : option (nat -> list nat -> cpx)) (h : vect CC) : option (vect CC) :=
  r <- inverse_maxwell_operator_approx k0 G sh epsilon mu h ;; finite_vec (2 * prodl sh) r.

(** [float(a)] of an array with the given elements: only one element is allowed. *)
Definition py_float (a : list R) : option R := match a with [x] => Some x | _ => None end.
(** bloch.py:439-505.  [search]: scipy.optimize.minimize_scalar together with
    the calls of eigsolve it makes for k-vectors k0_mag * direction; gives x, fun and the last n, v. *)
Definition find_k {T : Type} (search : list R -> option (R * R * T)) (frequency : R) (direction : list R) : option (R * R * T) :=
  let norm := sqrt (fold_right Rplus 0 (map (fun x => x * x) direction)) in
  if Req_EM_T norm 0 then None else
  let direction := map (fun x => x / norm) direction in
  res <- search direction ;;
  let '(x, fn, nv) := res in
  k <- py_float (map (Rmult x) direction) ;;
  Some (k, fn + frequency, nv).
