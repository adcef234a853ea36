(** What is needed to state reciprocity of runs with CPML layers (C173). *)
From Coq Require Import List Arith.
From Verif.Lib Require Import Num Idx.
From Verif.Model Require Import Fdmath Pml.
From Verif.Spec Require Import CpmlSpec CpmlHarmonicSpec.
Import ListNotations.
Local Open Scope fld_scope.

Section S.
  Context {K : Fld}.
  Variable sh : list nat.
  Variable Ls : nat -> nat -> option (layer K).

  (** What the derivatives along [a] at coordinate [i] are multiplied by at once (without
      the part of the memory that comes from earlier steps). *)
  Definition instant (p1 p2 : layer K -> nat -> K) (a i : nat) : K :=
    let or0 o := match o with Some x => x | None => 0 end in
    let lo := or1 (coef sh Ls p2 a 0 i) in
    let hi := or1 (coef sh Ls p2 a 1 i) in
    lo * hi * (1 + or0 (coef sh Ls p1 a 1 i)) + lo * or0 (coef sh Ls p1 a 0 i).
  (** It never vanishes. *)
  Definition responsive (p1 p2 : layer K -> nat -> K) : Prop :=
    forall a i, (a < 3)%nat -> (i < dim sh a)%nat -> instant p1 p2 a i <> 0.

  (** A current that does not flow in the layers. *)
  Definition source_outside (j : field K) : Prop :=
    forall c i a pp, (c < 3)%nat -> inb sh i -> (a < 3)%nat -> (pp < 2)%nat -> here sh Ls a pp i <> None -> j c i = 0.

  (** The run from zero fields and memories under the currents [j 0], [j 1], ... *)
  Definition cpml_after (dt : K) (w : widths K) (eps mu : field K) (j : nat -> field K) (n : nat) : pstate K :=
    cpml_run sh Ls dt w eps mu (map j (seq 0 n)) (mkps (fun _ _ => 0) (fun _ _ => 0) psi0 psi0).
End S.
