(** Model of meanas/fdfd/waveguide_3d.py.

    [sh] is the 3D grid shape.  [slices[a]] is a pair (start, stop) of
    non-negative numbers ([slice(None)] and negative bounds are not modelled);
    as in numpy, [stop] is clipped to the size of the axis. *)
From Coq Require Import Reals List Arith ZArith Bool.
From Verif.Lib Require Import Num Sums Idx Mat RealF Cexp.
From Verif.Model Require Import Fdmath Fdfd Waveguide2d WaveguideReal.
Import ListNotations.
Local Open Scope R_scope.
Local Open Scope nat_scope.

Definition slices := nat -> nat * nat.
Definition start (sl : slices) (a : nat) : nat := fst (sl a).
Definition stop (sl : slices) (a : nat) : nat := snd (sl a).
(** Number of items selected along axis [a]. *)
Definition slen (sh : list nat) (sl : slices) (a : nat) : nat := Nat.min (stop sl a) (dim sh a) - start sl a.
(** Is the cell selected? *)
Definition selected (sl : slices) (idx : list nat) : bool :=
  forallb (fun a => (start sl a <=? coord idx a) && (coord idx a <? stop sl a)) [0; 1; 2].

(** [numpy.roll(range(3), s)] *)
Definition roll_range3 (s : Z) : list nat := map (cyc 3 (- s)) [0; 1; 2].
(** Position of [a] in a permutation. *)
Fixpoint index_of (a : nat) (l : list nat) : nat :=
  match l with [] => 0 | x :: r => if Nat.eqb a x then 0 else S (index_of a r) end.

Section Arrays.
  Context {K : Fld}.
  (** [f[slices]] *)
  Definition take_slices (sl : slices) (f : arr K) : arr K :=
    fun j => f (map (fun a => start sl a + coord j a) [0; 1; 2]).
  (** [f.transpose(axes)]: axis [j] of the result is axis [axes[j]] of [f]. *)
  Definition transpose3 (axes : list nat) (f : arr K) : arr K :=
    fun j => f (map (fun a => coord j (index_of a axes)) [0; 1; 2]).
  (** [zeros; z[slices] = g] *)
  Definition put_slices (sl : slices) (g : arr K) : arr K :=
    fun idx => if selected sl idx then g (map (fun a => coord idx a - start sl a) [0; 1; 2]) else f0.
End Arrays.

(** waveguide_3d.py:61-62 *)
Definition order (axis : nat) : list nat := roll_range3 (2 - Z.of_nat axis).
Definition reverse_order (axis : nat) : list nat := roll_range3 (Z.of_nat axis - 2).

(** The arguments of the 2D problem (waveguide_3d.py:69-74). *)
Record args_2d := MkArgs2d { a_sh : list nat; a_omega : cpx; a_dxes : dx2 CC; a_epsilon : vect CC; a_mu : vect CC }.

Section Wg3d.
  Variables (sh : list nat) (omega : cpx) (dxes : dx2 CC) (axis : nat) (polarity : Z) (sl : slices).

  (** waveguide_3d.py:52-53 *)
  Definition mu_or_ones (mu : option (field CC)) : field CC :=
    match mu with Some m => m | None => fun _ _ => c1 end.

  (** [vec([f[i][slices].transpose(order) for i in order])] *)
  Definition reduce_2d (f : field CC) : vect CC :=
    vec (K := CC) (map (slen sh sl) (order axis))
        (fun c => transpose3 (K := CC) (order axis) (take_slices (K := CC) sl (f (nth c (order axis) 0)))).
  Definition widths_2d (w : widths CC) : widths CC :=
    fun b k => w (nth b (order axis) 0) (start sl (nth b (order axis) 0) + k).
  Definition problem_2d (epsilon : field CC) (mu : option (field CC)) : args_2d :=
    MkArgs2d [slen sh sl (nth 0 (order axis) 0); slen sh sl (nth 1 (order axis) 0)] omega
      (widths_2d (fst dxes), widths_2d (snd dxes)) (reduce_2d epsilon) (reduce_2d (mu_or_ones mu)).

  (** waveguide_3d.py:65-66 *)
  Definition dx_prop : cpx :=
    let ax := nth 2 (order axis) 0 in
    let s (w : widths CC) := sumN (K := CC) (slen sh sl ax) (fun k => w ax (start sl ax + k)) in
    cmul (mkC (1 / 2) 0) (cadd (s (fst dxes)) (s (snd dxes))).

  (** waveguide_3d.py:82 *)
  Definition corrected_wavenumber (wavenumber_2d : cpx) : cpx :=
    cmul (cdiv (mkC 2 0) dx_prop) (casin (cdiv (cmul wavenumber_2d dx_prop) (mkC 2 0))).

  (** waveguide_3d.py:92-93: [exp(-1j * polarity * 0.5 * wavenumber * dx_prop)] *)
  Definition half_step (wavenumber : cpx) : cpx :=
    cexp (cmul (cmul (mkC 0 (- (IZR polarity * (1 / 2)))) wavenumber) dx_prop).

  (** waveguide_3d.py:17-110.  [solver] is waveguide_2d.solve_mode for the
      given mode number ([None] if it raises).  The result is
      (wavenumber, wavenumber_2d, H, E). *)
  Definition solve_mode_3d (solver : args_2d -> option (vect CC * cpx)) (epsilon : field CC) (mu : option (field CC))
      : option (cpx * cpx * field CC * field CC) :=
    let p := problem_2d epsilon mu in
    match solver p with
    | None => None
    | Some (e_xy, wavenumber_2d) =>
        let wavenumber := corrected_wavenumber wavenumber_2d in
        (* exp(1j * prop_phase / 2) with prop_phase = dx_prop * wavenumber *)
        let phase := cexp (cmul (mkC 0 (1 / 2)) (cmul dx_prop wavenumber)) in
        match normalized_fields_e (a_sh p) e_xy wavenumber_2d (a_omega p) (a_dxes p) (a_epsilon p) (Some (a_mu p)) phase with
        | None => None
        | Some (ve, vh) =>
            let e c j := let z := unvec (K := CC) (a_sh p) ve c j in
                         if Nat.eqb c 2 then cmul z (half_step wavenumber) else z in
            let h c j := let z := cmul (unvec (K := CC) (a_sh p) vh c j) (mkC (IZR polarity) 0) in
                         if Nat.ltb c 2 then cmul z (half_step wavenumber) else z in
            (* e[oo][:, :, None].transpose(reverse_order) *)
            let expand (f : field CC) : field CC := fun aa =>
              put_slices (K := CC) sl (transpose3 (K := CC) (reverse_order axis)
                (fun j => f (nth aa (reverse_order axis) 0) [coord j 0; coord j 1])) in
            Some (wavenumber, wavenumber_2d, expand h, expand e)
        end
    end.

  (** waveguide_3d.py:237: [numpy.real(dxes[0][axis]).cumsum()] *)
  Definition a_E (m : nat) : R := sumN (K := RF) (S m) (fun k => cre (fst dxes axis k)).
  (** waveguide_3d.py:206-252; [slices[axis]] selects one item (otherwise the
      subtraction on line 238 does not broadcast in general). *)
  Definition expand_e (E : field CC) (wavenumber : cpx) : field CC :=
    let iphi := cmul (mkC 0 (- IZR polarity)) wavenumber in
    let phase_E m := cexp (cmul iphi (mkC (a_E m - a_E (start sl axis)) 0)) in
    let sl_exp : slices := fun a => if Nat.eqb a axis then (0, dim sh axis) else sl a in
    fun c idx => if selected sl_exp idx
                 then cmul (phase_E (coord idx axis)) (E c (upd axis (start sl axis) idx))
                 else c0.

  (** Python's normalisation of a slice bound for an axis of [n] items. *)
  Definition py_bound (n : nat) (b : Z) : nat :=
    Z.to_nat (if (b <? 0)%Z then Z.max 0 (b + Z.of_nat n) else Z.min b (Z.of_nat n)).
  (** waveguide_3d.py:190-194 *)
  Definition overlap_slices : slices :=
    let s := Z.of_nat (start sl axis) in let t := (s - 2 * polarity)%Z in
    fun a => if Nat.eqb a axis then (py_bound (dim sh axis) (Z.min s t), py_bound (dim sh axis) (Z.max s t)) else sl a.
  (** [numpy.sum] of a (3, X, Y, Z) array. *)
  Definition sum_all (f : field CC) : cpx := sumN (K := CC) 3 (fun c => gsum (K := CC) sh (f c)).
  (** waveguide_3d.py:159-203; [None]: the normalisation is 0 and every entry
      of the result is NaN. *)
  Definition compute_overlap_e (E : field CC) (wavenumber : cpx) : option (field CC) :=
    let Ee := expand_e E wavenumber in
    let Etgt : field CC := fun c idx => if selected overlap_slices idx then Ee c idx else c0 in
    let norm := sum_all (fun c idx => cmul (cconj (Etgt c idx)) (Etgt c idx)) in
    if cpx_dec norm c0 then None else Some (fun c idx => cdiv (Etgt c idx) norm).

  (** waveguide_3d.py:113-156 *)
  Definition source_mask : field CC :=
    let sm : nat * nat := if (0 <? polarity)%Z then (start sl axis, dim sh axis) else (0, stop sl axis) in
    fun c idx => if (fst sm <=? coord idx axis) && (coord idx axis <? snd sm) then c1 else c0.
  Definition compute_source (E : field CC) (wavenumber : cpx) (epsilon : field CC) (mu : option (field CC)) : result (field CC) :=
    match e_boundary_source_mat (K := CC) sh (vec (K := CC) sh source_mask) omega dxes (vec (K := CC) sh epsilon) (vec_opt (K := CC) sh mu) false with
    | Raise => Raise
    | Ok m => Ok (unvec (K := CC) sh (mv (K := CC) (3 * prodl sh) m (vec (K := CC) sh (expand_e E wavenumber))))
    end.
End Wg3d.
