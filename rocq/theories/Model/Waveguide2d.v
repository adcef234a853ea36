(** Model of meanas/fdfd/waveguide_2d.py.

    [sh = [nx; ny]] is the 2D grid shape, [N = nx * ny].  [e_xy] vectors have
    [2 * N] entries, slices [3 * N]. *)
From Coq Require Import List Arith ZArith Bool.
From Verif.Lib Require Import Num Sums Idx Mat.
From Verif.Model Require Import Fdmath Fdfd.
Import ListNotations.
Local Open Scope fld_scope.

Section Stack.
  Context {K : Fld}.
  (** [sparse.hstack((A, B))] with [A] having [cn] columns. *)
  Definition hstack2 (cn : nat) (A B : mat K) : mat K :=
    fun r s => if Nat.ltb s cn then A r s else B r (s - cn)%nat.
  (** [sparse.vstack((A, B))] with [A] having [rn] rows. *)
  Definition vstack2 (rn : nat) (A B : mat K) : mat K :=
    fun r s => if Nat.ltb r rn then A r s else B (r - rn)%nat s.
  (** [numpy.hstack((a, b))] with [a] having [n] entries. *)
  Definition vcat (n : nat) (a b : vect K) : vect K :=
    fun q => if Nat.ltb q n then a q else b (q - n)%nat.
  (** [numpy.split(v, 3)[c]] for [3 * n] entries. *)
  Definition part (n : nat) (v : vect K) (c : nat) : vect K := fun p => v (c * n + p)%nat.
End Stack.

Section Waveguide.
  Context {K : CFld}.

  (** waveguide_2d.py:244-245: [mu] defaults to ones. *)
  Definition or_ones (mu : option (vect K)) : vect K :=
    match mu with Some m => m | None => fun _ => 1 end.

  (** waveguide_2d.py:195-261 *)
  Definition operator_e (sh : list nat) (omega : K) (dxes : dx2 K) (epsilon : vect K)
      (mu : option (vect K)) : mat K :=
    let N := prodl sh in
    let mu := or_ones mu in
    let Dfx := deriv_forward_mat sh (fst dxes) 0 in
    let Dfy := deriv_forward_mat sh (fst dxes) 1 in
    let Dbx := deriv_back_mat sh (snd dxes) 0 in
    let Dby := deriv_back_mat sh (snd dxes) 1 in
    let eps_xy := mdiag (vcat N (part N epsilon 0) (part N epsilon 1)) in
    let eps_z_inv := mdiag (fun p => 1 / part N epsilon 2 p) in
    let mu_yx := mdiag (vcat N (part N mu 1) (part N mu 0)) in
    let mu_z_inv := mdiag (fun p => 1 / part N mu 2 p) in
    madd (madd
      (mm (2 * N) (mscale (omega * omega) mu_yx) eps_xy)
      (mm N (mm N (mm (2 * N) mu_yx (vstack2 N (mopp Dby) Dbx)) mu_z_inv) (hstack2 N (mopp Dfy) Dfx)))
      (mm (2 * N) (mm N (mm N (vstack2 N Dfx Dfy) eps_z_inv) (hstack2 N Dbx Dby)) eps_xy).

  (** waveguide_2d.py:264-330 *)
  Definition operator_h (sh : list nat) (omega : K) (dxes : dx2 K) (epsilon : vect K)
      (mu : option (vect K)) : mat K :=
    let N := prodl sh in
    let mu := or_ones mu in
    let Dfx := deriv_forward_mat sh (fst dxes) 0 in
    let Dfy := deriv_forward_mat sh (fst dxes) 1 in
    let Dbx := deriv_back_mat sh (snd dxes) 0 in
    let Dby := deriv_back_mat sh (snd dxes) 1 in
    let eps_yx := mdiag (vcat N (part N epsilon 1) (part N epsilon 0)) in
    let eps_z_inv := mdiag (fun p => 1 / part N epsilon 2 p) in
    let mu_xy := mdiag (vcat N (part N mu 0) (part N mu 1)) in
    let mu_z_inv := mdiag (fun p => 1 / part N mu 2 p) in
    madd (madd
      (mm (2 * N) (mscale (omega * omega) eps_yx) mu_xy)
      (mm N (mm N (mm (2 * N) eps_yx (vstack2 N (mopp Dfy) Dfx)) eps_z_inv) (hstack2 N (mopp Dby) Dbx)))
      (mm (2 * N) (mm N (mm N (vstack2 N Dbx Dby) mu_z_inv) (hstack2 N Dfx Dfy)) mu_xy).

  (** waveguide_2d.py:491-522 *)
  Definition hxy2h (sh : list nat) (wavenumber : K) (dxes : dx2 K) (mu : option (vect K)) : mat K :=
    let N := prodl sh in
    let Dfx := deriv_forward_mat sh (fst dxes) 0 in
    let Dfy := deriv_forward_mat sh (fst dxes) 1 in
    let hxy2hz := mscale (1 / (im * wavenumber)) (hstack2 N Dfx Dfy) in
    let hxy2hz :=
      match mu with
      | None => hxy2hz
      | Some m => mm (2 * N) (mm N (mdiag (fun p => 1 / part N m 2 p)) hxy2hz)
                     (mdiag (vcat N (part N m 0) (part N m 1)))
      end in
    vstack2 (2 * N) mid hxy2hz.

  (** waveguide_2d.py:525-583 ([epsilon] given) *)
  Definition exy2e (sh : list nat) (wavenumber : K) (dxes : dx2 K) (epsilon : vect K) : mat K :=
    let N := prodl sh in
    let Dbx := deriv_back_mat sh (snd dxes) 0 in
    let Dby := deriv_back_mat sh (snd dxes) 1 in
    let exy2ez := mscale (1 / (im * wavenumber)) (hstack2 N Dbx Dby) in
    let exy2ez := mm (2 * N) (mm N (mdiag (fun p => 1 / part N epsilon 2 p)) exy2ez)
                     (mdiag (vcat N (part N epsilon 0) (part N epsilon 1))) in
    vstack2 (2 * N) mid exy2ez.

  (** waveguide_2d.py:634-651 *)
  Definition curl_e (sh : list nat) (wavenumber : K) (dxes : dx2 K) : mat K :=
    cross_mat (prodl sh) (fun c => match c with
      | 0%nat => deriv_forward_mat sh (fst dxes) 0
      | 1%nat => deriv_forward_mat sh (fst dxes) 1
      | _ => mscale (- im * wavenumber) mid end).
  (** waveguide_2d.py:654-671 *)
  Definition curl_h (sh : list nat) (wavenumber : K) (dxes : dx2 K) : mat K :=
    cross_mat (prodl sh) (fun c => match c with
      | 0%nat => deriv_back_mat sh (snd dxes) 0
      | 1%nat => deriv_back_mat sh (snd dxes) 1
      | _ => mscale (- im * wavenumber) mid end).

  (** waveguide_2d.py:586-608 *)
  Definition wg_e2h (sh : list nat) (wavenumber omega : K) (dxes : dx2 K) (mu : option (vect K)) : mat K :=
    let op := mscale (1 / (- im * omega)) (curl_e sh wavenumber dxes) in
    match mu with
    | None => op
    | Some m => mm (3 * prodl sh) (mdiag (fun q => 1 / m q)) op
    end.
  (** waveguide_2d.py:611-631 *)
  Definition wg_h2e (sh : list nat) (wavenumber omega : K) (dxes : dx2 K) (epsilon : vect K) : mat K :=
    mm (3 * prodl sh) (mdiag (fun q => 1 / (im * omega * epsilon q))) (curl_h sh wavenumber dxes).

  (** waveguide_2d.py:439-462 *)
  Definition exy2h (sh : list nat) (wavenumber omega : K) (dxes : dx2 K) (epsilon : vect K)
      (mu : option (vect K)) : mat K :=
    mm (3 * prodl sh) (wg_e2h sh wavenumber omega dxes mu) (exy2e sh wavenumber dxes epsilon).
  (** waveguide_2d.py:465-488 *)
  Definition hxy2e (sh : list nat) (wavenumber omega : K) (dxes : dx2 K) (epsilon : vect K)
      (mu : option (vect K)) : mat K :=
    mm (3 * prodl sh) (wg_h2e sh wavenumber omega dxes epsilon) (hxy2h sh wavenumber dxes mu).

  (** waveguide_2d.py:674-706: the vector whose norm, divided by the norm of
      [h], is returned. *)
  Definition h_err_op (sh : list nat) (h : vect K) (wavenumber omega : K) (dxes : dx2 K) (epsilon : vect K)
      (mu : option (vect K)) : vect K :=
    let n := (3 * prodl sh)%nat in
    let ce := curl_e sh wavenumber dxes in
    let ch := curl_h sh wavenumber dxes in
    let r := mv n (mm n (mm n ce (mdiag (fun q => 1 / epsilon q))) ch) h in
    match mu with
    | None => fun q => r q - omega * omega * h q
    | Some m => fun q => r q - omega * omega * (m q * h q)
    end.
  (** waveguide_2d.py:709-740, likewise. *)
  Definition e_err_op (sh : list nat) (e : vect K) (wavenumber omega : K) (dxes : dx2 K) (epsilon : vect K)
      (mu : option (vect K)) : vect K :=
    let n := (3 * prodl sh)%nat in
    let ce := curl_e sh wavenumber dxes in
    let ch := curl_h sh wavenumber dxes in
    match mu with
    | None => fun q => mv n (mm n ch ce) e q - omega * omega * (epsilon q * e q)
    | Some m => fun q => mv n (mm n (mm n ch (mdiag (fun q => 1 / m q))) ce) e q
                         - omega * omega * (epsilon q * e q)
    end.

  (** numpy.real *)
  Definition real_part (z : K) : K := (z + conj z) / 2.

  (** waveguide_2d.py:924-953 with [trapezoid=False].  [phase] is
      [exp(1j * prop_phase / 2)]. *)
  Definition inner_product (sh : list nat) (e1 h2 : vect K) (dxes : dx2 K) (phase : K) (conj_h : bool) : K :=
    let E1 := unvec sh e1 in
    let H2 := fun c idx => let v := unvec sh h2 c idx * phase in if conj_h then conj v else v in
    let rw (w : widths K) a i := real_part (w a i) in
    let Sz_a := fun idx => E1 0%nat idx * H2 1%nat idx
                * rw (snd dxes) 0%nat (coord idx 0) * rw (fst dxes) 1%nat (coord idx 1) in
    let Sz_b := fun idx => E1 1%nat idx * H2 0%nat idx
                * rw (fst dxes) 0%nat (coord idx 0) * rw (snd dxes) 1%nat (coord idx 1) in
    1 / 2 * (gsum sh Sz_a - gsum sh Sz_b).

  (** waveguide_2d.py:743-843 *)
  Definition sensitivity (sh : list nat) (e_norm h_norm : vect K) (wavenumber omega : K) (dxes : dx2 K)
      (epsilon : vect K) (mu : option (vect K)) : vect K :=
    let N := prodl sh in
    let mu := or_ones mu in
    let Dfx := deriv_forward_mat sh (fst dxes) 0 in
    let Dfy := deriv_forward_mat sh (fst dxes) 1 in
    let Dbx := deriv_back_mat sh (snd dxes) 0 in
    let Dby := deriv_back_mat sh (snd dxes) 1 in
    let eps_xy := mdiag (vcat N (part N epsilon 0) (part N epsilon 1)) in
    let eps_z_inv := mdiag (fun p => 1 / part N epsilon 2 p) in
    let mu_yx := mdiag (vcat N (part N mu 1) (part N mu 0)) in
    let da_exxhyy := flat sh (fun i => snd dxes 0%nat (coord i 0) * fst dxes 1%nat (coord i 1)) in
    let da_eyyhxx := flat sh (fun i => snd dxes 1%nat (coord i 1) * fst dxes 0%nat (coord i 0)) in
    let ev_xy := fun q => e_norm q * vcat N da_exxhyy da_eyyhxx q in
    let hv := fun q => conj (vcat N (part N h_norm 1) (fun p => - part N h_norm 0 p) q) in
    (* [v @ M] for a vector [v] with [n] entries *)
    let vm n (v : vect K) (M : mat K) : vect K := mv n (mtr M) v in
    let V := vstack2 N Dfx Dfy in
    let H := hstack2 N Dbx Dby in
    let sens_xy1 := fun q => vm (2 * N)%nat hv (mscale (omega * omega) mu_yx) q * ev_xy q in
    let sens_xy2 := fun q => vm N (vm N (vm (2 * N)%nat hv V) eps_z_inv) H q * ev_xy q in
    let sens_z := fun p => vm N (vm (2 * N)%nat hv V) (mm N (mopp eps_z_inv) eps_z_inv) p
                           * mv (2 * N) (mm (2 * N) H eps_xy) ev_xy p in
    let nrm := dot (2 * N) hv ev_xy in
    fun q => vcat (2 * N) (fun q => sens_xy1 q + sens_xy2 q) sens_z q / (2 * wavenumber * nrm).
End Waveguide.
