(** Derivative of a complex-valued function of a real parameter. *)
From Coq Require Import Reals.
From Verif.Lib Require Import RealF.

Definition cderiv (f : R -> cpx) (t : R) (d : cpx) : Prop :=
  derivable_pt_lim (fun s => cre (f s)) t (cre d) /\ derivable_pt_lim (fun s => cim (f s)) t (cim d).
