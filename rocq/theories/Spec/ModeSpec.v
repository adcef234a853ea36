(** Modes computed by waveguide_2d and the areas of the Yee cells in a cross-section. *)
From Coq Require Import List Arith.
From Verif.Lib Require Import Num Sums Idx Mat.
From Verif.Model Require Import Fdmath Fdfd Waveguide2d.
From Verif.Spec Require Import Yee.
Import ListNotations.
Local Open Scope fld_scope.

Section Area.
  Context {K : Fld}.
  (** Area of the cell around component [c] of E: E_x reaches over [we] along x and
      [wh] along y, E_y the other way round, E_z over [wh] along both.  For H the
      roles of the widths are exchanged. *)
  Definition area_e (we wh : widths K) (c : nat) (i : list nat) : K :=
    match c with
    | 0%nat => we 0%nat (coord i 0) * wh 1%nat (coord i 1)
    | 1%nat => wh 0%nat (coord i 0) * we 1%nat (coord i 1)
    | _ => wh 0%nat (coord i 0) * wh 1%nat (coord i 1)
    end.
  Definition area_h (we wh : widths K) (c : nat) (i : list nat) : K := area_e wh we c i.
End Area.

Section Spec.
  Context {K : CFld}.

  Definition conjf (F : field K) : field K := fun c i => conj (F c i).

  (** [x] is an eigenvector of operator_e for the wavenumber [beta], and [e], [h] are
      the fields that exy2e and exy2h complete it to. *)
  Definition computed_mode (sh : list nat) (we wh : widths K) (om beta : K) (eps : vect K) (mu : option (vect K))
      (x : vect K) (e h : field K) : Prop :=
    let N := prodl sh in
    veq (2 * N) (mv (2 * N) (operator_e sh om (we, wh) eps mu) x) (fun q => beta * beta * x q) /\
    e = unvec sh (mv (2 * N) (exy2e sh beta (we, wh) eps) x) /\
    h = unvec sh (mv (2 * N) (exy2h sh beta om (we, wh) eps mu) x).
End Spec.
