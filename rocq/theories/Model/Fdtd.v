(** Model of meanas/fdtd: base.py, energy.py, boundaries.py (pml.py and misc.py
    are in their own files). *)
From Coq Require Import List Arith ZArith.
From Verif.Lib Require Import Num Sums Idx Mat.
From Verif.Model Require Import Fdmath.
Import ListNotations.
Local Open Scope fld_scope.

(** [dxes]: [dxes[0]] = widths used with E, [dxes[1]] = widths used with H; [None]
    when the caller passes no grid. *)
Definition dxes_t (K : Fld) := option (widths K * widths K).

Section Fdtd.
  Context {K : Fld}.

  (** *** fdtd/base.py *)

  (** base.py:41-65, [maxwell_e(dt, dxes)(e, h, epsilon)]: the new E
      ([e += dt * curl_h_fun(h) / epsilon]; the code updates [e] in place). *)
  Definition maxwell_e (sh : list nat) (dt : K) (dxes : dxes_t K)
      (e h : field K) (epsilon : field K) : field K :=
    fun c idx => e c idx + dt * curl_back sh (option_map snd dxes) h c idx / epsilon c idx.

  (** base.py:97-125, [maxwell_h(dt, dxes)(e, h, mu)]: the new H; [mu = None] means
      no division. *)
  Definition maxwell_h (sh : list nat) (dt : K) (dxes : dxes_t K)
      (e h : field K) (mu : option (field K)) : field K :=
    fun c idx =>
      let d := dt * curl_forward sh (option_map fst dxes) e c idx in
      h c idx - match mu with Some m => d / m c idx | None => d end.

  (** *** fdtd/energy.py *)

  (** [dxes[k][a][...]] broadcast at a cell; [numpy.ones(1)] when [dxes] is [None]
      (energy.py:73-74, 260-261, 283-284). *)
  Definition wat (w : option (widths K)) (a : nat) (idx : list nat) : K :=
    match w with Some t => t a (coord idx a) | None => 1 end.

  (** energy.py:10-87, [poynting(e, h, dxes)] (lines 73-86). *)
  Definition poynting (sh : list nat) (dxes : dxes_t K) (e h : field K) : field K :=
    let we := option_map fst dxes in
    let wh := option_map snd dxes in
    let ex idx := e 0%nat idx * wat we 0 idx in
    let ey idx := e 1%nat idx * wat we 1 idx in
    let ez idx := e 2%nat idx * wat we 2 idx in
    let hx idx := h 0%nat idx * wat wh 0 idx in
    let hy idx := h 1%nat idx * wat wh 1 idx in
    let hz idx := h 2%nat idx * wat wh 2 idx in
    fun c =>
      match c with
      | 0%nat => fun idx => roll sh (-1) 0 ey idx * hz idx - roll sh (-1) 0 ez idx * hy idx
      | 1%nat => fun idx => roll sh (-1) 1 ez idx * hx idx - roll sh (-1) 1 ex idx * hz idx
      | 2%nat => fun idx => roll sh (-1) 2 ex idx * hy idx - roll sh (-1) 2 ey idx * hx idx
      | _ => fun _ => 0
      end.

  (** energy.py:123-125: divergence of a given Poynting field (deriv_back() without widths). *)
  Definition divergence_of (sh : list nat) (s : field K) : arr K :=
    fun idx => deriv_back sh None 0 (s 0%nat) idx + deriv_back sh None 1 (s 1%nat) idx
               + deriv_back sh None 2 (s 2%nat) idx.

  (** energy.py:90-125, [poynting_divergence(s, e=, h=, dxes=)] with its asserts. *)
  Definition poynting_divergence (sh : list nat) (s e h : option (field K)) (dxes : dxes_t K)
    : result (arr K) :=
    match s with
    | Some s' => Ok (divergence_of sh s')
    | None =>
        match e, h, dxes with
        | Some e', Some h', Some d => Ok (divergence_of sh (poynting sh (Some d) e' h'))
        | _, _, _ => Raise
        end
    end.

  (** [x.sum(axis=0)] over the three components. *)
  Definition sum_axis0 (f : nat -> K) : K := f 0%nat + f 1%nat + f 2%nat.

  (** Optional material: 1 if [None] (energy.py:280-283). *)
  Definition or_one (m : option (field K)) (c : nat) (idx : list nat) : K :=
    match m with Some t => t c idx | None => 1 end.

  (** energy.py:273-295 *)
  Definition dxmul (ee hh : field K) (epsilon mu : option (field K)) (dxes : dxes_t K) : arr K :=
    let we := option_map fst dxes in
    let wh := option_map snd dxes in
    fun idx =>
      sum_axis0 (fun c => ee c idx * or_one epsilon c idx) * wat we 0 idx * wat we 1 idx * wat we 2 idx
      + sum_axis0 (fun c => hh c idx * or_one mu c idx) * wat wh 0 idx * wat wh 1 idx * wat wh 2 idx.

  (** energy.py:128-153 *)
  Definition energy_hstep (e0 h1 e2 : field K) (epsilon mu : option (field K)) (dxes : dxes_t K) : arr K :=
    dxmul (fun c idx => e0 c idx * e2 c idx) (fun c idx => h1 c idx * h1 c idx) epsilon mu dxes.
  (** energy.py:156-181 *)
  Definition energy_estep (h0 e1 h2 : field K) (epsilon mu : option (field K)) (dxes : dxes_t K) : arr K :=
    dxmul (fun c idx => e1 c idx * e1 c idx) (fun c idx => h0 c idx * h2 c idx) epsilon mu dxes.
  (** energy.py:184-214 *)
  Definition delta_energy_h2e (dt : K) (e0 h1 e2 h3 : field K) (epsilon mu : option (field K)) (dxes : dxes_t K) : arr K :=
    dxmul (fun c idx => e2 c idx * (e2 c idx - e0 c idx) / dt)
          (fun c idx => h1 c idx * (h3 c idx - h1 c idx) / dt) epsilon mu dxes.
  (** energy.py:217-247 *)
  Definition delta_energy_e2h (dt : K) (h0 e1 h2 e3 : field K) (epsilon mu : option (field K)) (dxes : dxes_t K) : arr K :=
    dxmul (fun c idx => e1 c idx * (e3 c idx - e1 c idx) / dt)
          (fun c idx => h2 c idx * (h2 c idx - h0 c idx) / dt) epsilon mu dxes.
  (** energy.py:250-270 *)
  Definition delta_energy_j (j0 e1 : field K) (dxes : dxes_t K) : arr K :=
    let we := option_map fst dxes in
    fun idx => sum_axis0 (fun c => j0 c idx * e1 c idx) * wat we 0 idx * wat we 1 idx * wat we 2 idx.
End Fdtd.
