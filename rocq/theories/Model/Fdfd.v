(** Model of meanas/fdfd: functional.py, operators.py and solvers.py.

    [K] stands for the complex numbers ([CFld]).  [sh] is the grid shape
    ([[len(dx) for dx in dxes[0]]]), [dxes] the pair of width tables.  Masks are
    numeric vectors, non-zero meaning "present". *)
From Coq Require Import List Arith ZArith.
From Verif.Lib Require Import Num Sums Idx Mat.
From Verif.Model Require Import Fdmath.
Import ListNotations.
Local Open Scope fld_scope.

Definition dx2 (K : Fld) : Type := (widths K * widths K)%type.

Section Fdfd.
  Context {K : CFld}.

  (** *** fdfd/functional.py *)

  (** functional.py:18-50.  With [mu] the code multiplies by it (line 45). *)
  Definition e_full_f (sh : list nat) (omega : K) (dxes : dx2 K) (epsilon : field K)
      (mu : option (field K)) (e : field K) : field K :=
    let ch := curl_back sh (Some (snd dxes)) in
    let ce := curl_forward sh (Some (fst dxes)) in
    match mu with
    | None => fun c idx => ch (ce e) c idx - omega * omega * epsilon c idx * e c idx
    | Some m =>
        fun c idx => ch (fun c' i' => m c' i' * ce e c' i') c idx
                     - omega * omega * epsilon c idx * e c idx
    end.

  (** functional.py:53-86 *)
  Definition eh_full_f (sh : list nat) (omega : K) (dxes : dx2 K) (epsilon : field K)
      (mu : option (field K)) (e h : field K) : field K * field K :=
    let ch := curl_back sh (Some (snd dxes)) in
    let ce := curl_forward sh (Some (fst dxes)) in
    match mu with
    | None => (fun c idx => ch h c idx - im * omega * epsilon c idx * e c idx,
               fun c idx => ce e c idx + im * omega * h c idx)
    | Some m => (fun c idx => ch h c idx - im * omega * epsilon c idx * e c idx,
                 fun c idx => ce e c idx + im * omega * m c idx * h c idx)
    end.

  (** functional.py:89-117 *)
  Definition e2h_f (sh : list nat) (omega : K) (dxes : dx2 K) (mu : option (field K))
      (e : field K) : field K :=
    let ce := curl_forward sh (Some (fst dxes)) in
    match mu with
    | None => fun c idx => ce e c idx / (- im * omega)
    | Some m => fun c idx => ce e c idx / (- im * omega * m c idx)
    end.

  (** functional.py:120-151 *)
  Definition m2j_f (sh : list nat) (omega : K) (dxes : dx2 K) (mu : option (field K))
      (m : field K) : field K :=
    let ch := curl_back sh (Some (snd dxes)) in
    match mu with
    | None => fun c idx => ch m c idx / (- im * omega)
    | Some u => fun c idx => ch (fun c' i' => m c' i' / u c' i') c idx / (- im * omega)
    end.

  (** functional.py:154-184; [TF_region] is broadcast against the field, so it is
      a field here (component-independent when the array has the grid's shape). *)
  Definition e_tfsf_source_f (sh : list nat) (TF_region : field K) (omega : K) (dxes : dx2 K)
      (epsilon : field K) (mu : option (field K)) (e : field K) : field K :=
    let A := e_full_f sh omega dxes epsilon mu in
    fun c idx => (A (fun c' i' => TF_region c' i' * e c' i') c idx - TF_region c idx * A e c idx)
                 / (- im * omega).

  (** functional.py:187-221 *)
  Definition poynting_e_cross_h_f (sh : list nat) (dxes : dx2 K) (e h : field K) : field K :=
    let ex idx := e 0%nat idx * fst dxes 0%nat (coord idx 0) in
    let ey idx := e 1%nat idx * fst dxes 1%nat (coord idx 1) in
    let ez idx := e 2%nat idx * fst dxes 2%nat (coord idx 2) in
    let hx idx := h 0%nat idx * snd dxes 0%nat (coord idx 0) in
    let hy idx := h 1%nat idx * snd dxes 1%nat (coord idx 1) in
    let hz idx := h 2%nat idx * snd dxes 2%nat (coord idx 2) in
    fun c =>
      match c with
      | 0%nat => fun idx => roll sh (-1) 0 ey idx * hz idx - roll sh (-1) 0 ez idx * hy idx
      | 1%nat => fun idx => roll sh (-1) 1 ez idx * hx idx - roll sh (-1) 1 ex idx * hz idx
      | 2%nat => fun idx => roll sh (-1) 2 ex idx * hy idx - roll sh (-1) 2 ey idx * hx idx
      | _ => fun _ => 0
      end.

  (** *** fdfd/operators.py *)

  (** operators.py:78-86 etc.: [eye] if no mask, else [diags(where(mask, 0, 1))]. *)
  Definition keep (m : option (vect K)) : vect K :=
    match m with
    | None => fun _ => 1
    | Some v => fun p => if feqb (v p) 0 then 1 else 0
    end.
  Definition keep_mat (m : option (vect K)) : mat K :=
    match m with
    | None => mid
    | Some _ => mdiag (keep m)
    end.
  (** operators.py:90-93: [eye] if no material, else [diags(1 / mu)]. *)
  Definition div_mat (mu : option (vect K)) : mat K :=
    match mu with
    | None => mid
    | Some v => mdiag (fun p => 1 / v p)
    end.

  (** operators.py:40-96 *)
  Definition e_full_mat (sh : list nat) (omega : K) (dxes : dx2 K) (epsilon : vect K)
      (mu pec pmc : option (vect K)) : mat K :=
    let n := (3 * prodl sh)%nat in
    let pe := keep_mat pec in
    let pm := keep_mat pmc in
    let ch := curl_back_mat sh (snd dxes) in
    let ce := curl_forward_mat sh (fst dxes) in
    let e := mdiag epsilon in
    let m_div := div_mat mu in
    mm n (mm n pe (msub (mm n (mm n (mm n ch pm) m_div) ce) (mscale (omega * omega) e))) pe.

  (** operators.py:99-123; [sqrt] is numpy.sqrt on complex numbers.  Returns the
      diagonals of Pl and Pr. *)
  Definition p_squared (sh : list nat) (dxes : dx2 K) : vect K :=
    let N := prodl sh in
    let da := dx_flat sh (fst dxes) in
    let db := dx_flat sh (snd dxes) in
    fun q =>
      let p := (q mod N)%nat in
      match (q / N)%nat with
      | 0%nat => da 0%nat p * db 1%nat p * db 2%nat p
      | 1%nat => db 0%nat p * da 1%nat p * db 2%nat p
      | _ => db 0%nat p * db 1%nat p * da 2%nat p
      end.
  Definition e_full_preconditioners (sqrt : K -> K) (sh : list nat) (dxes : dx2 K) : mat K * mat K :=
    let p_vector q := sqrt (p_squared sh dxes q) in
    (mdiag p_vector, mdiag (fun q => 1 / p_vector q)).

  (** operators.py:126-180 *)
  Definition h_full_mat (sh : list nat) (omega : K) (dxes : dx2 K) (epsilon : vect K)
      (mu pec pmc : option (vect K)) : mat K :=
    let n := (3 * prodl sh)%nat in
    let pe := keep_mat pec in
    let pm := keep_mat pmc in
    let ch := curl_back_mat sh (snd dxes) in
    let ce := curl_forward_mat sh (fst dxes) in
    let e_div := mdiag (fun p => 1 / epsilon p) in
    let m := match mu with None => mid | Some v => mdiag v end in
    mm n (mm n pm (msub (mm n (mm n (mm n ce pe) e_div) ch) (mscale (omega * omega) m))) pm.

  (** operators.py:183-250.  With [mu = None], [iwm] is a scalar and
      [pm @ iwm] raises (scipy's [@] refuses scalars). *)
  Definition eh_full_mat (sh : list nat) (omega : K) (dxes : dx2 K) (epsilon : vect K)
      (mu pec pmc : option (vect K)) : result (mat K) :=
    let n := (3 * prodl sh)%nat in
    let pe := keep_mat pec in
    let pm := keep_mat pmc in
    match mu with
    | None => Raise
    | Some v =>
        let iwe := mm n (mm n pe (mscale (im * omega) (mdiag epsilon))) pe in
        let iwm := mm n (mm n pm (mscale (im * omega) (mdiag v))) pm in
        let A1 := mm n (mm n pe (curl_back_mat sh (snd dxes))) pm in
        let A2 := mm n (mm n pm (curl_forward_mat sh (fst dxes))) pe in
        Ok (mblock n n (fun r c =>
              match r, c with
              | 0%nat, 0%nat => mopp iwe
              | 0%nat, _ => A1
              | _, 0%nat => A2
              | _, _ => iwm
              end))
    end.

  (** operators.py:253-282 *)
  Definition e2h_mat (sh : list nat) (omega : K) (dxes : dx2 K) (mu pmc : option (vect K)) : mat K :=
    let n := (3 * prodl sh)%nat in
    let op := mscale (1 / (- im * omega)) (curl_forward_mat sh (fst dxes)) in
    let op := match mu with None => op | Some v => mm n (mdiag (fun p => 1 / v p)) op end in
    match pmc with None => op | Some _ => mm n (keep_mat pmc) op end.

  (** operators.py:285-307 *)
  Definition m2j_mat (sh : list nat) (omega : K) (dxes : dx2 K) (mu : option (vect K)) : mat K :=
    let n := (3 * prodl sh)%nat in
    let op := mscale (1 / (im * omega)) (curl_back_mat sh (snd dxes)) in
    match mu with None => op | Some v => mm n op (mdiag (fun p => 1 / v p)) end.

  (** [numpy.concatenate] of the three flattened width arrays. *)
  Definition dx_concat (sh : list nat) (w : widths K) : vect K :=
    fun q => dx_flat sh w (q / prodl sh)%nat (q mod prodl sh)%nat.
  (** [numpy.split(e, 3)[c] * dx] *)
  Definition split_dx (sh : list nat) (w : widths K) (e : vect K) (c : nat) : vect K :=
    fun p => e (c * prodl sh + p)%nat * dx_flat sh w c p.

  (** operators.py:310-336 *)
  Definition poynting_e_cross_mat (sh : list nat) (e : vect K) (dxes : dx2 K) : mat K :=
    let N := prodl sh in
    let f a := shift_circ_mat a sh 1 in
    let E := split_dx sh (fst dxes) e in
    let block_diags r c : option (vect K) :=
      match r, c with
      | 0%nat, 1%nat => Some (mv N (f 0%nat) (fun p => - E 2%nat p))
      | 0%nat, 2%nat => Some (mv N (f 0%nat) (E 1%nat))
      | 1%nat, 0%nat => Some (mv N (f 1%nat) (E 2%nat))
      | 1%nat, 2%nat => Some (mv N (f 1%nat) (fun p => - E 0%nat p))
      | 2%nat, 0%nat => Some (mv N (f 2%nat) (fun p => - E 1%nat p))
      | 2%nat, 1%nat => Some (mv N (f 2%nat) (E 0%nat))
      | _, _ => None
      end in
    let block_matrix :=
      mblock N N (fun r c => match block_diags r c with Some x => mdiag x | None => mzero end) in
    mm (3 * N) block_matrix (mdiag (dx_concat sh (snd dxes))).

  (** operators.py:339-363 *)
  Definition poynting_h_cross_mat (sh : list nat) (h : vect K) (dxes : dx2 K) : mat K :=
    let N := prodl sh in
    let f a := shift_circ_mat a sh 1 in
    let H c := mdiag (split_dx sh (snd dxes) h c) in
    let B := mblock N N (fun r c =>
      match r, c with
      | 0%nat, 1%nat => mm N (mopp (H 2%nat)) (f 0%nat)
      | 0%nat, 2%nat => mm N (H 1%nat) (f 0%nat)
      | 1%nat, 0%nat => mm N (H 2%nat) (f 1%nat)
      | 1%nat, 2%nat => mm N (mopp (H 0%nat)) (f 1%nat)
      | 2%nat, 0%nat => mm N (mopp (H 1%nat)) (f 2%nat)
      | 2%nat, 1%nat => mm N (H 0%nat) (f 2%nat)
      | _, _ => mzero
      end) in
    mm (3 * N) B (mdiag (dx_concat sh (fst dxes))).

  (** operators.py:366-394 *)
  Definition e_tfsf_source_mat (sh : list nat) (TF_region : vect K) (omega : K) (dxes : dx2 K)
      (epsilon : vect K) (mu : option (vect K)) : mat K :=
    let n := (3 * prodl sh)%nat in
    let A := e_full_mat sh omega dxes epsilon mu None None in
    let Q := mdiag TF_region in
    mscale (1 / (- im * omega)) (msub (mm n A Q) (mm n Q A)).

  (** operators.py:432-441: the loop over axes and polarities computing [jmask].
      [sparse.block_diag((r, r, r))] has [r] on the diagonal blocks. *)
  Definition block_diag3 (N : nat) (r : mat K) : mat K :=
    mblock N N (fun a b => if Nat.eqb a b then r else mzero).

  Definition jmask_step (sh : list nat) (periodic : bool) (mask : vect K)
      (acc : result (nat -> bool)) (ap : Z * Z) : result (nat -> bool) :=
    match acc with
    | Raise => Raise
    | Ok jm =>
        if Nat.eqb (dim sh (Z.to_nat (fst ap))) 1 then Ok jm
        else
          match (if periodic then shift_circ (fst ap) sh (snd ap)
                 else shift_with_mirror (fst ap) sh (snd ap)) with
          | Raise => Raise
          | Ok s =>
              let r3 := block_diag3 (prodl sh) (msub s mid) in
              Ok (fun q => orb (jm q) (negb (feqb (mv (3 * prodl sh) r3 mask q) 0)))
          end
    end.

  Definition jmask (sh : list nat) (periodic : bool) (mask : vect K) : result (nat -> bool) :=
    fold_left (jmask_step sh periodic mask)
              [(0, -1); (0, 1); (1, -1); (1, 1); (2, -1); (2, 1)]%Z (Ok (fun _ => false)).

  (** operators.py:397-450 *)
  Definition e_boundary_source_mat (sh : list nat) (mask : vect K) (omega : K) (dxes : dx2 K)
      (epsilon : vect K) (mu : option (vect K)) (periodic : bool) : result (mat K) :=
    match jmask sh periodic mask with
    | Raise => Raise
    | Ok jm => Ok (mm (3 * prodl sh) (mdiag (fun q => ind (jm q)))
                      (e_tfsf_source_mat sh mask omega dxes epsilon mu))
    end.

  (** *** fdfd/solvers.py *)

  (** Keyword options handed to the matrix solver: only the presence and value of
      ['x0'] and the other options (as an opaque value of type [O]) are kept. *)
  Record opts (O : Type) := MkOpts { opt_x0 : option (vect K); opt_rest : O }.

  (** solvers.py:66-141.  [hermitian] is the [.H] attribute of sparse arrays
      ([None]: no such attribute, reading it raises AttributeError).  The result
      is E together with the caller's dictionary after the call ([None] if the
      caller passed none, in which case a fresh dictionary [fresh] is used). *)
  Definition generic {O : Type} (hermitian : option (mat K -> mat K)) (sqrt : K -> K) (fresh : O)
      (sh : list nat) (omega : K) (dxes : dx2 K) (J epsilon : vect K)
      (mu pec pmc : option (vect K)) (adjoint : bool)
      (matrix_solver : mat K -> vect K -> opts O -> result (vect K))
      (matrix_solver_opts : option (opts O)) (E_guess : option (vect K))
      : result (vect K * option (opts O)) :=
    let n := (3 * prodl sh)%nat in
    let o0 := match matrix_solver_opts with Some o => o | None => MkOpts O None fresh end in
    let b0 : vect K := fun q => - im * omega * J q in
    let A0 := e_full_mat sh omega dxes epsilon mu pec pmc in
    let Pl := fst (e_full_preconditioners sqrt sh dxes) in
    let Pr := snd (e_full_preconditioners sqrt sh dxes) in
    let PAP := mm n (mm n Pl A0) Pr in
    let run A b Pguess Pout :=
      let o := match E_guess with
               | Some g => MkOpts O (Some (mv n Pguess g)) (opt_rest O o0)
               | None => o0
               end in
      match matrix_solver A b o with
      | Raise => Raise
      | Ok x => Ok (mv n Pout x, match matrix_solver_opts with Some _ => Some o | None => None end)
      end in
    if adjoint then
      match hermitian with
      | None => Raise
      | Some H => run (H PAP) (mv n (H Pr) b0) (H Pr) (H Pl)
      end
    else run PAP (mv n Pl b0) Pl Pr.

  (** [A.H]: the conjugate transpose. *)
  Definition conj_tr (A : mat K) : mat K := fun i j => conj (A j i).
End Fdfd.

Arguments MkOpts {K} {O}.
Arguments opt_x0 {K} {O}.
Arguments opt_rest {K} {O}.

(** solvers.py:41-57, the callback wiring of [_scipy_qmr].  [kwargs['callback']]
    is looked up in the (mutated) dictionary each time the wrapper is called.
    The call stack is limited ([depth]); [None] is Python's RecursionError.
    A completed call returns the events it produced. *)
Inductive cb := CbUser (id : nat) | CbAugmented | CbLog.
Inductive cb_event := EvLog | EvUser (id : nat).

(** Lines 50-57: the value stored under 'callback' before calling qmr. *)
Definition qmr_install (kw : option cb) : cb :=
  match kw with Some _ => CbAugmented | None => CbLog end.

(** Calling callback [c] when the dictionary holds [stored]. *)
Fixpoint qmr_call (depth : nat) (stored c : cb) : option (list cb_event) :=
  match depth with
  | O => None
  | S d =>
      match c with
      | CbUser id => Some [EvUser id]
      | CbLog => Some [EvLog]
      | CbAugmented =>
          match qmr_call d stored stored with
          | None => None
          | Some evs => Some (EvLog :: evs)
          end
      end
  end.
