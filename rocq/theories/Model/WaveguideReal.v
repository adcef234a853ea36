(** Model of the parts of meanas/fdfd/waveguide_2d.py that need square roots,
    angles or an order: _normalized_fields and the selection logic of
    solve_modes.  Complex numbers are [CC] (pairs of reals). *)
From Coq Require Import String Reals List Arith ZArith Bool.
From Verif.Lib Require Import Num Sums Idx Mat RealF.
From Verif.Model Require Import Fdmath Fdfd Waveguide2d.
Import ListNotations.
Local Open Scope R_scope.
Local Open Scope list_scope.

(** numpy.argmax of [f 0 .. f n]: the first index of the largest entry. *)
Fixpoint amax (f : nat -> R) (n : nat) : nat :=
  match n with
  | O => O
  | S m => let b := amax f m in if Rlt_dec (f b) (f n) then n else b
  end.
(** numpy.sign *)
Definition rsign (x : R) : R := if Rlt_dec 0 x then 1 else if Rlt_dec x 0 then -1 else 0.
(** [exp(1j * -angle(z))]: [angle(0) = 0].  Simplification: written with |z|
    instead of exp and arctan2. *)
Definition unphase (z : cpx) : cpx :=
  if cpx_dec z c0 then c1 else mkC (cre z / cabs z) (- cim z / cabs z).

(** waveguide_2d.py:420-421: real part of the conjugated [inner_product]. *)
Definition power (sh : list nat) (e h : vect CC) (dxes : dx2 CC) (phase : cpx) : R :=
  cre (inner_product (K := CC) sh e h dxes phase true).
(** waveguide_2d.py:423 *)
Definition energy (eps e : vect CC) (q : nat) : R := cre (cmul (cmul (eps q) (cconj (e q))) (e q)).

(** waveguide_2d.py:429-432: the real sum over the first quadrant. *)
Definition quadrant_sum (sh : list nat) (v : vect CC) : R :=
  sumN (K := RF) 3 (fun c => gsum (K := RF) [Nat.max (dim sh 0 / 2) 1; Nat.max (dim sh 1 / 2) 1]%nat
    (fun i => cre (unvec (K := CC) sh v c i))).

(** waveguide_2d.py:403-436; [None] where an assertion fails. *)
Definition normalized_fields (sh : list nat) (e h : vect CC) (dxes : dx2 CC) (eps : vect CC) (phase : cpx)
    : option (vect CC * vect CC) :=
  let Sz_tavg := power sh e h dxes phase in
  if Rlt_dec 0 Sz_tavg then
    let norm_amplitude := 1 / sqrt Sz_tavg in
    let u := unphase (e (amax (energy eps e) (3 * prodl sh - 1))) in
    let E_weighted := fun q => cmul (cmul (e q) (mkC (energy eps e q) 0)) u in
    let sign := rsign (quadrant_sum sh E_weighted) in
    if Req_EM_T sign 0 then None
    else
      let norm_factor := cmul (mkC (sign * norm_amplitude) 0) u in
      Some ((fun q => cmul (e q) norm_factor), (fun q => cmul (h q) norm_factor))
  else None.

(** waveguide_2d.py:333-367 *)
Definition normalized_fields_e (sh : list nat) (e_xy : vect CC) (wavenumber omega : cpx) (dxes : dx2 CC)
    (eps : vect CC) (mu : option (vect CC)) (phase : cpx) : option (vect CC * vect CC) :=
  let e := mv (2 * prodl sh) (exy2e (K := CC) sh wavenumber dxes eps) e_xy in
  let h := mv (2 * prodl sh) (exy2h (K := CC) sh wavenumber omega dxes eps mu) e_xy in
  normalized_fields sh e h dxes eps phase.
(** waveguide_2d.py:369-400 *)
Definition normalized_fields_h (sh : list nat) (h_xy : vect CC) (wavenumber omega : cpx) (dxes : dx2 CC)
    (eps : vect CC) (mu : option (vect CC)) (phase : cpx) : option (vect CC * vect CC) :=
  let e := mv (2 * prodl sh) (hxy2e (K := CC) sh wavenumber omega dxes eps mu) h_xy in
  let h := mv (2 * prodl sh) (hxy2h (K := CC) sh wavenumber dxes mu) h_xy in
  normalized_fields sh e h dxes eps phase.

(** numpy order of complex numbers: by real part, then imaginary part. *)
Definition cle (x y : cpx) : Prop := cre x < cre y \/ (cre x = cre y /\ cim x <= cim y).
Definition cle_dec (x y : cpx) : {cle x y} + {~ cle x y}.
Proof.
  destruct (Rlt_dec (cre x) (cre y)) as [H|H]; [left; now left|].
  destruct (Req_EM_T (cre x) (cre y)) as [E|E].
  - destruct (Rle_dec (cim x) (cim y)) as [L|L]; [left; now right|right; intros [?|[_ ?]]; contradiction].
  - right. intros [?|[? _]]; contradiction.
Defined.

Fixpoint nodupb (l : list string) : bool :=
  match l with
  | [] => true
  | x :: r => negb (existsb (String.eqb x) r) && nodupb r
  end.

Section SolveModes.
  Context {V : Type}.
  (** One entry of the pairing of wavenumbers with vectors. *)
  Fixpoint insert_mode (p : cpx * V) (l : list (cpx * V)) : list (cpx * V) :=
    match l with
    | [] => [p]
    | q :: r => if cle_dec (fst p) (fst q) then p :: l else q :: insert_mode p r
    end.
  (** [l] reordered by [argsort] of its keys (order of equal keys not modelled). *)
  Definition argsorted (l : list (cpx * V)) : list (cpx * V) := fold_right insert_mode [] l.

  (** waveguide_2d.py:893-894 *)
  Definition wavenumber_of (eigval : cpx) : cpx :=
    let k := csqrt eigval in cmul (mkC (rsign (cre k)) 0) k.

  (** [eigvecs[:, -(m + 1)]]; [None] is an IndexError. *)
  Definition from_end (l : list V) (m : nat) : option V := nth_error (rev l) m.
  Fixpoint pick_all (l : list V) (ms : list nat) : option (list V) :=
    match ms with
    | [] => Some []
    | m :: r => match from_end l m, pick_all l r with
                | Some v, Some vs => Some (v :: vs)
                | _, _ => None
                end
    end.

  (** waveguide_2d.py:846-900.  [guesses] are the eigenvectors returned by
      [signed_eigensolve] for the real operator, in its order, [rqi] is
      [rayleigh_quotient_iteration] on the full operator.  The result pairs
      each returned wavenumber with its vector. *)
  Definition solve_modes (guesses : list V) (rqi : V -> cpx * V) (mode_numbers : list nat) : option (list (cpx * V)) :=
    option_map (fun vs => rev (argsorted (map (fun v => let '(l, x) := rqi v in (wavenumber_of l, x)) vs)))
      (pick_all guesses mode_numbers).
  (** waveguide_2d.py:903-921 *)
  Definition solve_mode (guesses : list V) (rqi : V -> cpx * V) (mode_number : nat) : option (cpx * V) :=
    match solve_modes guesses rqi [mode_number] with Some (p :: _) => Some p | _ => None end.
  (** waveguide_cyl.py:143-200: as above, with the wavenumber multiplied by [rmin]. *)
  Definition solve_modes_cyl (rmin : R) (guesses : list V) (rqi : V -> cpx * V) (mode_numbers : list nat)
      : option (list (cpx * V)) :=
    option_map (fun vs => rev (argsorted (map (fun v => let '(l, x) := rqi v in (cmul (wavenumber_of l) (mkC rmin 0), x)) vs)))
      (pick_all guesses mode_numbers).
End SolveModes.

(** Python's binding of a call [f( *args, **kwargs)] to the parameter names
    [params] (no star parameters): [None] is a TypeError (too many positional
    arguments, an unknown keyword, or two values for one parameter). *)
Definition py_bind {A : Type} (params : list string) (args : list A) (kwargs : list (string * A)) : option (list (string * A)) :=
  let all := combine params args ++ kwargs in
  if (length params <? length args)%nat then None
  else if forallb (fun p => existsb (String.eqb (fst p)) params) kwargs then
    if nodupb (map fst all) then Some all else None
  else None.
(** waveguide_2d.py:846-854, waveguide_cyl.py:143-150 *)
Definition solve_modes_params : list string := ["mode_numbers"; "omega"; "dxes"; "epsilon"; "mu"; "mode_margin"]%string.
Definition solve_modes_cyl_params : list string := ["mode_numbers"; "omega"; "dxes"; "epsilon"; "rmin"; "mode_margin"]%string.
(** waveguide_2d.py:919-920, waveguide_cyl.py:220-221: the call made by
    [solve_mode(mode_number, *args, **kwargs)]; assigning to [kwargs] replaces
    an entry of that name. *)
Definition solve_mode_call {A : Type} (params : list string) (mode_numbers : A) (args : list A) (kwargs : list (string * A))
    : option (list (string * A)) :=
  py_bind params args (("mode_numbers"%string, mode_numbers) :: filter (fun p => negb (String.eqb (fst p) "mode_numbers")) kwargs).
