(** Stretched coordinates as materials (C120). *)
From Coq Require Import List Arith ZArith Lia Field QArith Qcanon.
From Verif.Lib Require Import Num Sums Idx Mat.
From Verif.Model Require Import Fdmath Fdtd Fdfd Scpml.
From Verif.Spec Require Import Yee FdtdRun FdfdSpec ScpmlSpec StretchSpec.
From Verif.Proofs Require Import FdmathP FdtdP2 FdfdP HarmonicP GridP StretchP.
From Verif.Props Require Import FdfdProps ScpmlProps.
Import ListNotations.
Local Open Scope fld_scope.

(** ** C120: a grid with stretched widths is an unstretched grid with uniaxial materials *)
(** [we', wh']: stretched (possibly complex) widths, [we, wh]: any other widths. Fields
    solve Maxwell's equations on the stretched grid exactly when the fields times the
    stretch along their own axis solve them on the other grid with the material
    eps s1 s2 / s0, mu s1 s2 / s0 and the currents times s1 s2. *)
Theorem C120_maxwell :
  forall (K : CFld) (sh : list nat) (we we' wh wh' : widths K) (om : K) (eps : field K) (mu : option (field K)) (E H J M : field K),
    length sh = 3%nat -> nzw sh we -> nzw sh we' -> nzw sh wh -> nzw sh wh' ->
    let se := ratio we' we in
    let sg := ratio wh' wh in
    let out' := eh_full_f sh om (we', wh') eps mu E H in
    let out := eh_full_f sh om (we, wh) (uniaxial se sg eps) (Some (uniaxial sg se (matl mu))) (own se E) (own sg H) in
    (feq sh (fst out') J /\ feq sh (snd out') M) <-> (feq sh (fst out) (face sg J) /\ feq sh (snd out) (face se M)).
Proof.
  intros K sh we we' wh wh' om eps mu E H J M HL He He' Hh Hh' se sg out' out.
  assert (X : forall c idx, (c < 3)%nat -> inb sh idx -> fst out c idx = face sg (fst out') c idx /\ snd out c idx = face se (snd out') c idx)
    by (intros c idx Hc Hi; apply (eh_stretched K sh we we' wh wh' HL He He' Hh Hh' om eps mu E H c idx Hc Hi)).
  assert (A : forall c, (c < 3)%nat -> (ax1 c < 3)%nat /\ (ax2 c < 3)%nat) by (intros c Hc; destruct c as [|[|[|?]]]; cbn; lia).
  split; intros [P Q]; split; intros c idx Hc Hi; destruct (X c idx Hc Hi) as [X1 X2].
  - rewrite X1. unfold face. now rewrite (P c idx Hc Hi).
  - rewrite X2. unfold face. now rewrite (Q c idx Hc Hi).
  - specialize (P c idx Hc Hi). rewrite X1 in P. unfold face in P.
    apply (fmul_cancel_l K _ _ _ (fmul_nz K _ _ (ratio_nz K sh wh wh' HL Hh Hh' (ax1 c) idx (proj1 (A c Hc)) Hi) (ratio_nz K sh wh wh' HL Hh Hh' (ax2 c) idx (proj2 (A c Hc)) Hi)) P).
  - specialize (Q c idx Hc Hi). rewrite X2 in Q. unfold face in Q.
    apply (fmul_cancel_l K _ _ _ (fmul_nz K _ _ (ratio_nz K sh we we' HL He He' (ax1 c) idx (proj1 (A c Hc)) Hi) (ratio_nz K sh we we' HL He He' (ax2 c) idx (proj2 (A c Hc)) Hi)) Q).
Qed.
Print Assumptions C120_maxwell.

(** The same for the matrix of the driven problem. *)
Theorem C120_e_full :
  forall (K : CFld) (sh : list nat) (we we' wh wh' : widths K) (om : K) (eps : field K) (mu : option (field K)) (E : field K),
    length sh = 3%nat -> nzw sh we -> nzw sh we' -> nzw sh wh -> nzw sh wh' -> nzm_opt sh mu ->
    let se := ratio we' we in
    let sg := ratio wh' wh in
    let A' := e_full_mat sh om (we', wh') (vec sh eps) (option_map (vec sh) mu) None None in
    let A := e_full_mat sh om (we, wh) (vec sh (uniaxial se sg eps)) (Some (vec sh (uniaxial sg se (matl mu)))) None None in
    feq sh (unvec sh (mv (3 * prodl sh) A (vec sh (own se E))))
           (face sg (unvec sh (mv (3 * prodl sh) A' (vec sh E)))).
Proof.
  intros K sh we we' wh wh' om eps mu E HL He He' Hh Hh' Hm se sg A' A c idx Hc Hi. unfold face, unvec, A, A'.
  pose proof (e_full_wave K sh om (we, wh) (uniaxial se sg eps) (Some (uniaxial sg se (matl mu))) (own se E) c (ravel sh idx) HL Hc (ravel_lt sh idx Hi)) as P.
  pose proof (e_full_wave K sh om (we', wh') eps mu E c (ravel sh idx) HL Hc (ravel_lt sh idx Hi)) as Q.
  rewrite unravel_ravel in P, Q by exact Hi. cbn [option_map fst snd] in P. etransitivity; [exact P|]. cbn [fst snd] in Q. rewrite Q.
  exact (wave_stretched K sh we we' wh wh' HL He He' Hh Hh' om eps mu E c idx Hm Hc Hi).
Qed.
Print Assumptions C120_e_full.

(** For the widths made by [stretch_with_scpml]: the stretch is the SCPML factor in the
    layer and 1 elsewhere and along the other axes. *)
Theorem C120_scpml :
  forall (K : CFld) (sqrt : K -> K) (sh : list nat) (we wh : widths K) (axis : nat) (pol : Z) (om epsr : K) (th : nat) (s : K -> K),
    length sh = 3%nat -> (axis < 3)%nat -> (0 < th <= dim sh axis)%nat -> nzw sh we -> nzw sh wh ->
    let n := dim sh axis in
    let front := Z.ltb 0 pol in
    let w := we axis in
    let len := layer_len front n th w in
    let corr := sqrt epsr * om in
    len <> 0 -> corr <> 0 ->
    exists out, stretch_with_scpml sqrt n (we, wh) axis pol om epsr th s = Fine out /\
      forall b i, (b < 3)%nat -> (i < dim sh b)%nat ->
        (b = axis -> in_layer front n th i ->
           ratio (fst out) we b i = stretch_factor s len corr (dist_mid front n th w i) /\
           ratio (snd out) wh b i = stretch_factor s len corr (dist_edge front n th w i)) /\
        (b <> axis \/ ~ in_layer front n th i -> ratio (fst out) we b i = 1 /\ ratio (snd out) wh b i = 1).
Proof.
  intros K sqrt sh we wh axis pol om epsr th s HL Ha Ht He Hh n front w len corr Hl Hc.
  destruct (C33_stretch K sqrt n (we, wh) axis pol om epsr th s Ha Ht Hl Hc) as (out & E & A & B & C).
  exists out. split; [exact E|]. cbn [fst snd] in A, B, C. intros b i Hb Hi.
  pose proof (He b i ltac:(lia) Hi) as Ne. pose proof (Hh b i ltac:(lia) Hi) as Nh. unfold ratio. split.
  - intros -> L. destruct (B i Hi L) as [-> ->]. split; [now apply div_cancel_l|now apply div_cancel_l].
  - intros [N|N].
    + destruct (A b N) as [-> ->]. split; now apply div_self_f.
    + destruct (Nat.eq_dec b axis) as [->|Nb].
      * destruct (C i Hi N) as [-> ->]. split; now apply div_self_f.
      * destruct (A b Nb) as [-> ->]. split; now apply div_self_f.
Qed.
Print Assumptions C120_scpml.

(** Stretching x by 1 + i in the first of two cells: the hypotheses hold, eps_y is
    multiplied and eps_x divided by the stretch there. *)
Definition sx_w' : widths GQC := fun a i => if andb (Nat.eqb a 0) (Nat.eqb i 0) then gz 1 1 else gz 1 0.
Example C120_example :
  let w := fun _ _ => gz 1 0 in
  nzw (K := GQC) [2; 1; 1]%nat w /\ nzw (K := GQC) [2; 1; 1]%nat sx_w' /\
  uniaxial (ratio sx_w' w) (ratio sx_w' w) (fun _ _ => gz 2 0) 1%nat [0; 0; 0]%nat = gz 2 2 /\
  uniaxial (ratio sx_w' w) (ratio sx_w' w) (fun _ _ => gz 2 0) 0%nat [0; 0; 0]%nat = gz 1 (-1) /\
  uniaxial (ratio sx_w' w) (ratio sx_w' w) (fun _ _ => gz 2 0) 1%nat [1; 0; 0]%nat = gz 2 0.
Proof.
  cbv zeta.
  assert (N : gz 1 0 <> (0 : GQC)) by (intro X; apply (f_equal (fun x => Qeq_bool (this (gre x)) 0)) in X; vm_compute in X; discriminate).
  split; [intros a i _ _; exact N|]. split.
  - intros a i _ _. unfold sx_w'. destruct (andb (Nat.eqb a 0) (Nat.eqb i 0)); [|exact N].
    intro X. apply (f_equal (fun x => Qeq_bool (this (gre x)) 0)) in X. vm_compute in X. discriminate.
  - split; [gq_refl|]. split; gq_refl.
Qed.
