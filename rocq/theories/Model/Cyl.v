(** Model of meanas/fdfd/waveguide_cyl.py.

    [sh = [nr; ny]] is the 2D grid shape.  The functions that start with
    [dxes2T] are split in two: the [_T] version takes the diagonals of [Ta] and
    [Tb] as arguments. *)
From Coq Require Import List Arith ZArith Bool.
From Verif.Lib Require Import Num Sums Idx Mat.
From Verif.Model Require Import Fdmath Fdfd Waveguide2d.
Import ListNotations.
Local Open Scope fld_scope.

Section Cyl.
  Context {K : CFld}.

  (** numpy.cumsum *)
  Definition cumsum (w : nat -> K) (m : nat) : K := sumN (S m) w.

  (** waveguide_cyl.py:395-417: the diagonals of [Ta] and [Tb]. *)
  Definition dxes2T (sh : list nat) (dxes : dx2 K) (rmin : K) : vect K * vect K :=
    let ra m := rmin + cumsum (fst dxes 0%nat) m in
    let rb m := rmin + fst dxes 0%nat m / 2 + cumsum (snd dxes 0%nat) m in
    (flat sh (fun i => ra (coord i 0) / rmin), flat sh (fun i => rb (coord i 0) / rmin)).

  Section T.
    Variables (sh : list nat) (ta tb : vect K).

    (** [sparse.block_diag((A, B))] with [n * n] blocks. *)
    Definition block_diag2 (n : nat) (A B : mat K) : mat K :=
      vstack2 n (hstack2 n A mzero) (hstack2 n mzero B).

    (** waveguide_cyl.py:120-140 *)
    Definition cylindrical_operator_T (omega : K) (dxes : dx2 K) (epsilon : vect K) : mat K :=
      let N := prodl sh in
      let Dfx := deriv_forward_mat sh (fst dxes) 0 in
      let Dfy := deriv_forward_mat sh (fst dxes) 1 in
      let Dbx := deriv_back_mat sh (snd dxes) 0 in
      let Dby := deriv_back_mat sh (snd dxes) 1 in
      let Ta := mdiag ta in let Tb := mdiag tb in
      let eps_x := mdiag (part N epsilon 0) in
      let eps_y := mdiag (part N epsilon 1) in
      let eps_z_inv := mdiag (fun p => 1 / part N epsilon 2 p) in
      let sq0 := mscale (omega * omega) (block_diag2 N (mm N (mm N Tb Tb) eps_x) (mm N (mm N Ta Ta) eps_y)) in
      let lin0 := mm N (mm N (vstack2 N (mm N (mopp Tb) Dby) (mm N Ta Dbx)) Tb) (hstack2 N (mopp Dfy) Dfx) in
      let lin1 := mm N (mm N (mm N (vstack2 N Dfx Dfy) Ta) eps_z_inv)
                       (hstack2 N (mm N (mm N Dbx Tb) eps_x) (mm N (mm N Dby Ta) eps_y)) in
      madd (madd sq0 lin0) lin1.

    (** waveguide_cyl.py:318-346; [wavenumber] is [angular_wavenumber / rmin]. *)
    Definition cyl_exy2e_T (wavenumber omega : K) (dxes : dx2 K) (epsilon : vect K) : mat K :=
      let N := prodl sh in
      let Dfx := deriv_forward_mat sh (fst dxes) 0 in
      let Dfy := deriv_forward_mat sh (fst dxes) 1 in
      let Dbx := deriv_back_mat sh (snd dxes) 0 in
      let Dby := deriv_back_mat sh (snd dxes) 1 in
      let Tb := mdiag tb in
      let Tai := mdiag (fun p => 1 / ta p) in
      let epsilon_x := mdiag (part N epsilon 0) in
      let epsilon_y := mdiag (part N epsilon 1) in
      let epsilon_z_inv := mdiag (fun p => 1 / part N epsilon 2 p) in
      let mu_z_inv := mdiag (fun _ => 1 / 1) in
      let exy2hz := mm N (mscale (1 / (- im * omega)) mu_z_inv) (hstack2 N Dfy (mopp Dfx)) in
      let hxy2ez := mm N (mscale (1 / (im * omega)) epsilon_z_inv) (hstack2 N Dby (mopp Dbx)) in
      let exy2hy := mm N (mscale (1 / (im * wavenumber)) Tb)
                      (msub (mscale (- im * omega) (hstack2 N epsilon_x mzero)) (mm N Dby exy2hz)) in
      let exy2hx := mm N (mscale (1 / (im * wavenumber)) Tb)
                      (msub (mscale (im * omega) (hstack2 N mzero epsilon_y)) (mm N (mm N (mm N Tai Dbx) Tb) exy2hz)) in
      let exy2ez := mm (2 * N) hxy2ez (vstack2 N exy2hx exy2hy) in
      vstack2 (2 * N) mid exy2ez.

    (** waveguide_cyl.py:380-392 *)
    Definition cyl_e2h_T (wavenumber omega : K) (dxes : dx2 K) (mu : option (vect K)) : mat K :=
      let N := prodl sh in
      let Dfx := deriv_forward_mat sh (fst dxes) 0 in
      let Dfy := deriv_forward_mat sh (fst dxes) 1 in
      let Tai := mdiag (fun p => 1 / ta p) in
      let Tbi := mdiag (fun p => 1 / tb p) in
      let jB := im * wavenumber in
      let op := mscale (1 / (- im * omega)) (mblock N N (fun r c =>
        match r, c with
        | 0%nat, 1%nat => mscale (- jB) Tai
        | 0%nat, 2%nat => mopp Dfy
        | 1%nat, 0%nat => mscale jB Tbi
        | 1%nat, 2%nat => mm N (mm N Tbi Dfx) (mdiag ta)
        | 2%nat, 0%nat => Dfy
        | 2%nat, 1%nat => mopp Dfx
        | _, _ => mzero
        end)) in
      match mu with
      | None => op
      | Some m => mm (3 * N) (mdiag (fun q => 1 / m q)) op
      end.
  End T.

  (** waveguide_cyl.py:79-140 *)
  Definition cylindrical_operator (sh : list nat) (omega : K) (dxes : dx2 K) (epsilon : vect K) (rmin : K) : mat K :=
    let '(ta, tb) := dxes2T sh dxes rmin in cylindrical_operator_T sh ta tb omega dxes epsilon.
  (** waveguide_cyl.py:293-346 *)
  Definition cyl_exy2e (sh : list nat) (angular_wavenumber omega : K) (dxes : dx2 K) (rmin : K) (epsilon : vect K) : mat K :=
    let '(ta, tb) := dxes2T sh dxes rmin in cyl_exy2e_T sh ta tb (angular_wavenumber / rmin) omega dxes epsilon.
  (** waveguide_cyl.py:349-392 *)
  Definition cyl_e2h (sh : list nat) (angular_wavenumber omega : K) (dxes : dx2 K) (rmin : K) (mu : option (vect K)) : mat K :=
    let '(ta, tb) := dxes2T sh dxes rmin in cyl_e2h_T sh ta tb (angular_wavenumber / rmin) omega dxes mu.
  (** waveguide_cyl.py:264-290 *)
  Definition cyl_exy2h (sh : list nat) (angular_wavenumber omega : K) (dxes : dx2 K) (rmin : K) (epsilon : vect K)
      (mu : option (vect K)) : mat K :=
    mm (3 * prodl sh) (cyl_e2h sh angular_wavenumber omega dxes rmin mu) (cyl_exy2e sh angular_wavenumber omega dxes rmin epsilon).
End Cyl.
