(** Specification pieces for FDTD: the time-stepping loop a user writes
    (as in meanas/test/test_fdtd.py:  maxwell_h, maxwell_e, e += j/epsilon),
    and Yee-weighted energies. *)
From Coq Require Import List Arith ZArith.
From Verif.Lib Require Import Num Sums Idx.
From Verif.Model Require Import Fdmath Fdtd.
From Verif.Spec Require Import Grid.
From Verif.Spec Require Import Yee.
Import ListNotations.
Local Open Scope fld_scope.

Section Run.
  Context {K : Fld}.
  Variable sh : list nat.
  Variable dt : K.
  Variable dxes : dxes_t K.
  Variable eps : field K.
  Variable mu : option (field K).

  Record state := mkst { sE : field K; sH : field K }.

  (** One time step: H update, E update, then inject the current [j]. *)
  Definition step (j : field K) (s : state) : state :=
    let h' := maxwell_h sh dt dxes (sE s) (sH s) mu in
    let e' := maxwell_e sh dt dxes (sE s) h' eps in
    mkst (fun c idx => e' c idx + j c idx / eps c idx) h'.

  Definition run (js : list (field K)) (s : state) : state := fold_left (fun st j => step j st) js s.

  Definition noj : field K := fun _ _ => 0.

  (** Divergences of epsilon*E (back) and mu*H (forward) on the grid. *)
  Definition div_b (F : field K) : arr K := fun idx =>
    diff_prev sh (option_map snd dxes) 0 (F 0%nat) idx
    + diff_prev sh (option_map snd dxes) 1 (F 1%nat) idx
    + diff_prev sh (option_map snd dxes) 2 (F 2%nat) idx.
  Definition div_f (F : field K) : arr K := fun idx =>
    diff_next sh (option_map fst dxes) 0 (F 0%nat) idx
    + diff_next sh (option_map fst dxes) 1 (F 1%nat) idx
    + diff_next sh (option_map fst dxes) 2 (F 2%nat) idx.
End Run.
Arguments mkst {K} sE sH.
Arguments sE {K} s.
Arguments sH {K} s.
Arguments state K : clear implicits.
Arguments step {K} sh dt dxes eps mu j s.
Arguments run {K} sh dt dxes eps mu js s.
Arguments noj {K} _ _.

(** Two states agree at all cells. *)
Definition seq_st {K : Fld} (sh : list nat) (s t : state K) : Prop :=
  feq sh (sE s) (sE t) /\ feq sh (sH s) (sH t).

(** Materials that may be divided by. *)
Definition nzm {K : Fld} (sh : list nat) (m : field K) : Prop :=
  forall c idx, (c < 3)%nat -> inb sh idx -> m c idx <> 0.
Definition nzm_opt {K : Fld} (sh : list nat) (m : option (field K)) : Prop :=
  match m with Some t => nzm sh t | None => True end.
Definition nzd {K : Fld} (sh : list nat) (d : dxes_t K) : Prop :=
  match d with Some (we, wh) => nzw sh we /\ nzw sh wh | None => True end.

(** Yee-weighted energy density: each component weighted by the volume of its
    own staggered cell. *)
Section YeeEnergy.
  Context {K : Fld}.
  Definition vol_e_d (d : dxes_t K) c idx := match d with Some (we, wh) => vol_e we wh c idx | None => 1 end.
  Definition vol_h_d (d : dxes_t K) c idx := match d with Some (we, wh) => vol_h we wh c idx | None => 1 end.
  Definition yee_energy (ee hh : field K) (epsilon mu : option (field K)) (d : dxes_t K) : arr K :=
    fun idx => csum (fun c => ee c idx * matl epsilon c idx * vol_e_d d c idx)
             + csum (fun c => hh c idx * matl mu c idx * vol_h_d d c idx).
End YeeEnergy.

(** E and H cell widths coincide (e.g. any uniform grid). *)
Definition same_widths {K : Fld} (sh : list nat) (d : dxes_t K) : Prop :=
  match d with
  | Some (we, wh) => forall a i, (a < 3)%nat -> (i < dim sh a)%nat -> we a i = wh a i
  | None => True
  end.

(** Work done by a current per cell, weighted by Yee volumes. *)
Definition yee_work {K : Fld} (j e : field K) (d : dxes_t K) : arr K :=
  fun idx => csum (fun c => j c idx * e c idx * vol_e_d d c idx).

(** Total work done by a sequence of injected currents along a run: each current
    acts on the E field before and after its own injection. *)
Section Work.
  Context {K : Fld}.
  Variable sh : list nat.
  Variable dt : K.
  Variable dxes : dxes_t K.
  Variable eps : field K.
  Variable mu : option (field K).
  Variable dj : field K -> field K -> arr K.
  Fixpoint work (js : list (field K)) (s : state K) : K :=
    match js with
    | [] => 0
    | j :: js' =>
        let s' := step sh dt dxes eps mu j s in
        gsum sh (dj j (sE s)) + gsum sh (dj j (sE s')) + work js' s'
    end.
End Work.

(** Cells within [n] cells of [idx] along every axis (periodically). *)
Definition within (sh : list nat) (n : nat) (idx idx' : list nat) : Prop :=
  length idx' = length idx /\
  forall a, (a < length sh)%nat ->
    exists t : Z, (Z.abs t <= Z.of_nat n)%Z /\ coord idx' a = cyc (dim sh a) t (coord idx a).
