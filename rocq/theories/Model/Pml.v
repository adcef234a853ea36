(** Model of meanas/fdtd/pml.py: updates_with_cpml (cpml_params, which needs
    real exponentials, is in Model/PmlParams.v) and meanas/fdtd/boundaries.py. *)
From Coq Require Import List Arith ZArith Bool.
From Verif.Lib Require Import Num Sums Idx Mat.
From Verif.Model Require Import Fdmath Fdtd.
Import ListNotations.
Local Open Scope fld_scope.

Section Cpml.
  Context {K : Fld}.

  (** A dict returned by [cpml_params] (pml.py:89-93): layer thickness (the extent
      of ['region'] along the layer's axis) and the coefficient arrays, indexed
      from the start of the region.  The region is [slice(None, thickness)] for the
      low side ([pp = 0]) and [slice(-thickness, None)] for the high side
      ([pp = 1]) (pml.py:80-87).
      Simplification: [thickness] at most the number of cells (otherwise numpy's
      broadcasting raises in the update functions). *)
  Record layer := mkLayer {
    lth : nat;
    lp0e : nat -> K; lp1e : nat -> K; lp2e : nat -> K;
    lp0h : nat -> K; lp1h : nat -> K; lp2h : nat -> K
  }.

  (** Is a cell in the region of a layer on axis [a], side [pp]? *)
  Definition in_region (sh : list nat) (a pp : nat) (L : layer) (idx : list nat) : bool :=
    if Nat.eqb pp 0 then Nat.ltb (coord idx a) (lth L)
    else Nat.leb (dim sh a - lth L) (coord idx a).
  (** Offset into the coefficient arrays. *)
  Definition off (sh : list nat) (a pp : nat) (L : layer) (idx : list nat) : nat :=
    if Nat.eqb pp 0 then coord idx a else (coord idx a - (dim sh a - lth L))%nat.

  (** Working set of the loop body for one axis: the two derivative arrays
      [dHu], [dHv], the memory [psi] of each side, and the accumulated [pE].
      [psi pp 0] is [psi_Eu], [psi pp 1] is [psi_Ev]; they are stored as full-grid
      arrays, only the part inside the region is ever used. *)
  Record cst := mkcst { cU : arr K; cV : arr K; cPsi : nat -> nat -> arr K; cP : field K }.

  Definition setf (F : field K) (c : nat) (g : arr K) : field K :=
    fun c' => if Nat.eqb c' c then g else F c'.

  (** pml.py:163-179 (E) and 209-225 (H): one side [pp] of one axis.  The two
      functions have the same text; [p0 p1 p2] are the E or H coefficients of
      the layer, [u v] the transverse axes, [se] the sign [(-1, 1, -1)[axis]]. *)
  Definition layer_pass (sh : list nat) (a pp u v : nat) (se : K)
      (o : option layer) (p0 p1 p2 : layer -> nat -> K) (s : cst) : cst :=
    match o with
    | None => s
    | Some L =>
        let r := in_region sh a pp L in
        let k := off sh a pp L in
        let dU := fun idx => if r idx then cU s idx * p2 L (k idx) else cU s idx in
        let dV := fun idx => if r idx then cV s idx * p2 L (k idx) else cV s idx in
        let psiU := fun idx => if r idx then cPsi s pp 0%nat idx * p0 L (k idx) + p1 L (k idx) * dV idx
                               else cPsi s pp 0%nat idx in
        let psiV := fun idx => if r idx then cPsi s pp 1%nat idx * p0 L (k idx) + p1 L (k idx) * dU idx
                               else cPsi s pp 1%nat idx in
        let P1 := setf (cP s) u (fun idx => if r idx then cP s u idx + se * psiU idx else cP s u idx) in
        let P2 := setf P1 v (fun idx => if r idx then P1 v idx + - se * psiV idx else P1 v idx) in
        mkcst dU dV
          (fun q t => if Nat.eqb q pp then (if Nat.eqb t 0 then psiU else psiV) else cPsi s q t)
          P2
    end.

  (** pml.py:157-179 / 203-225: both sides of one axis. *)
  Definition axis_pass (sh : list nat) (a u v : nat) (se : K) (Ls : nat -> nat -> option layer)
      (p0 p1 p2 : layer -> nat -> K) (s : cst) : cst :=
    layer_pass sh a 1 u v se (Ls a 1%nat) p0 p1 p2
      (layer_pass sh a 0 u v se (Ls a 0%nat) p0 p1 p2 s).

  (** Memory of one update function: axis, side, slot. *)
  Definition psis := nat -> nat -> nat -> arr K.
  Definition psi0 : psis := fun _ _ _ _ => 0.

  (** pml.py:139-183: [update_E(e, h, epsilon)] with memory [ps]: the new memory
      and the new E.  [dxes1] is [dxes[1]] (pml.py:107). *)
  Definition update_E (sh : list nat) (Ls : nat -> nat -> option layer) (dt : K) (dxes1 : widths K)
      (ps : psis) (e h epsilon : field K) : psis * field K :=
    let D a c := deriv_back sh (Some dxes1) a (h c) in
    let s0 := axis_pass sh 0 1 2 (- (1)) Ls lp0e lp1e lp2e (mkcst (D 0%nat 1%nat) (D 0%nat 2%nat) (ps 0%nat) (fun _ _ => 0)) in
    let s1 := axis_pass sh 1 0 2 1 Ls lp0e lp1e lp2e (mkcst (D 1%nat 0%nat) (D 1%nat 2%nat) (ps 1%nat) (cP s0)) in
    let s2 := axis_pass sh 2 0 1 (- (1)) Ls lp0e lp1e lp2e (mkcst (D 2%nat 0%nat) (D 2%nat 1%nat) (ps 2%nat) (cP s1)) in
    let pE := cP s2 in
    let dxHy := cU s0 in let dxHz := cV s0 in
    let dyHx := cU s1 in let dyHz := cV s1 in
    let dzHx := cU s2 in let dzHy := cV s2 in
    (fun a => match a with 0%nat => cPsi s0 | 1%nat => cPsi s1 | _ => cPsi s2 end,
     fun c => match c with
       | 0%nat => fun i => e 0%nat i + dt / epsilon 0%nat i * (dyHz i - dzHy i + pE 0%nat i)
       | 1%nat => fun i => e 1%nat i + dt / epsilon 1%nat i * (dzHx i - dxHz i + pE 1%nat i)
       | 2%nat => fun i => e 2%nat i + dt / epsilon 2%nat i * (dxHy i - dyHx i + pE 2%nat i)
       | _ => e c
       end).

  (** pml.py:185-229: [update_H(e, h, mu)].  The forward derivatives are built from
      [dxes[1]] (pml.py:106), not [dxes[0]].  Default [mu] is [(1, 1, 1)]. *)
  Definition update_H (sh : list nat) (Ls : nat -> nat -> option layer) (dt : K) (dxes1 : widths K)
      (ps : psis) (e h mu : field K) : psis * field K :=
    let D a c := deriv_forward sh (Some dxes1) a (e c) in
    let s0 := axis_pass sh 0 1 2 (- (1)) Ls lp0h lp1h lp2h (mkcst (D 0%nat 1%nat) (D 0%nat 2%nat) (ps 0%nat) (fun _ _ => 0)) in
    let s1 := axis_pass sh 1 0 2 1 Ls lp0h lp1h lp2h (mkcst (D 1%nat 0%nat) (D 1%nat 2%nat) (ps 1%nat) (cP s0)) in
    let s2 := axis_pass sh 2 0 1 (- (1)) Ls lp0h lp1h lp2h (mkcst (D 2%nat 0%nat) (D 2%nat 1%nat) (ps 2%nat) (cP s1)) in
    let pH := cP s2 in
    let dxEy := cU s0 in let dxEz := cV s0 in
    let dyEx := cU s1 in let dyEz := cV s1 in
    let dzEx := cU s2 in let dzEy := cV s2 in
    (fun a => match a with 0%nat => cPsi s0 | 1%nat => cPsi s1 | _ => cPsi s2 end,
     fun c => match c with
       | 0%nat => fun i => h 0%nat i - dt / mu 0%nat i * (dyEz i - dzEy i + pH 0%nat i)
       | 1%nat => fun i => h 1%nat i - dt / mu 1%nat i * (dzEx i - dxEz i + pH 1%nat i)
       | 2%nat => fun i => h 2%nat i - dt / mu 2%nat i * (dxEy i - dyEx i + pH 2%nat i)
       | _ => h c
       end).

  (** The simulation loop: state with both memories, update_H then update_E,
      then [e += j / epsilon]. *)
  Record pstate := mkps { pE_ : field K; pH_ : field K; psE : psis; psH : psis }.
  Definition cpml_step (sh : list nat) (Ls : nat -> nat -> option layer) (dt : K) (dxes1 : widths K)
      (epsilon mu : field K) (j : field K) (s : pstate) : pstate :=
    let rh := update_H sh Ls dt dxes1 (psH s) (pE_ s) (pH_ s) mu in
    let re := update_E sh Ls dt dxes1 (psE s) (pE_ s) (snd rh) epsilon in
    mkps (fun c i => snd re c i + j c i / epsilon c i) (snd rh) (fst re) (fst rh).
  Definition cpml_run sh Ls dt dxes1 epsilon mu (js : list (field K)) (s : pstate) : pstate :=
    fold_left (fun st j => cpml_step sh Ls dt dxes1 epsilon mu j st) js s.
End Cpml.
Arguments layer K : clear implicits.
Arguments psis K : clear implicits.
Arguments pstate K : clear implicits.
Arguments cst K : clear implicits.

Section Boundary.
  Context {K : Fld}.

  (** [A[..., dst, ...] = f(A[..., src, ...])] along axis [a]. *)
  Definition set_plane (a dst : nat) (f : arr K) (A : arr K) : arr K :=
    fun idx => if Nat.eqb (coord idx a) dst then f idx else A idx.
  Definition plane (a src : nat) (A : arr K) : arr K := fun idx => A (upd a src idx).

  (** How numpy treats [A[l]] for a *list* [l] of slices and ints: as a tuple
      (numpy < 1.23), or as an attempt at fancy indexing, which raises IndexError
      (numpy >= 1.23; pyproject.toml:43 requires numpy >= 2.0). *)
  Inductive list_index := AsTuple | Rejected.

  (** boundaries.py:12-71, conducting_boundary(direction, polarity): [Raise], or the
      pair of updaters.  An updater raises if an index is out of bounds
      (fewer than 2 planes for polarity < 0, fewer than 3 for polarity > 0). *)
  Definition cb_others (direction : nat) : nat * nat :=
    match direction with 0%nat => (1%nat, 2%nat) | 1%nat => (0%nat, 2%nat) | _ => (0%nat, 1%nat) end.

  Definition cb_guard (li : list_index) (sh : list nat) (a need : nat) (r : field K) : result (field K) :=
    match li with
    | Rejected => Raise
    | AsTuple => if Nat.ltb (dim sh a) need then Raise else Ok r
    end.

  Definition upd_comp (c : nat) (g : arr K -> arr K) (F : field K) : field K :=
    fun c' => if Nat.eqb c' c then g (F c) else F c'.

  Definition conducting_boundary (li : list_index) (sh : list nat) (direction polarity : Z)
    : result ((field K -> result (field K)) * (field K -> result (field K))) :=
    if negb (Z.eqb direction 0 || Z.eqb direction 1 || Z.eqb direction 2) then Raise
    else
      let d := Z.to_nat direction in
      let '(u, v) := cb_others d in
      let n := dim sh d in
      if Z.ltb polarity 0 then
        (* lines 26-44 *)
        let zero0 := set_plane d 0 (fun _ => 0) in
        let copy0 A := set_plane d 0 (plane d 1 A) A in
        Ok (fun e => cb_guard li sh d 2 (upd_comp v copy0 (upd_comp u copy0 (upd_comp d zero0 e))),
            fun h => cb_guard li sh d 2 (upd_comp v zero0 (upd_comp u zero0 (upd_comp d copy0 h))))
      else if Z.ltb 0 polarity then
        (* lines 46-69 *)
        let mirror A := set_plane d (n - 1) (fun idx => - plane d (n - 3) A idx) A in
        let zero1 := set_plane d (n - 2) (fun _ => 0) in
        let copy1 A := set_plane d (n - 1) (plane d (n - 2) A) A in
        Ok (fun e => cb_guard li sh d 3
                       (upd_comp v copy1 (upd_comp u copy1 (upd_comp d zero1 (upd_comp d mirror e)))),
            fun h => cb_guard li sh d 3
                       (upd_comp v zero1 (upd_comp v mirror
                         (upd_comp u zero1 (upd_comp u mirror (upd_comp d copy1 h))))))
      else Raise.
End Boundary.
