(** Property theorems for meanas.fdfd functional.py, operators.py and
    solvers.py (C23 - C31, C59 - C64).

    [K] is any field with an imaginary unit and conjugation ([CFld]); [d] is the
    pair dxes = (dx_e, dx_h); vectors are flat arrays of [3 * prodl sh] entries. *)
From Coq Require Import List Arith ZArith Lia Field QArith Qcanon Reals Lra.
From Verif.Lib Require Import Num Sums Idx Mat RealF.
From Verif.Model Require Import Fdmath Fdtd Fdfd.
From Verif.Spec Require Import Yee FdfdSpec.
From Verif.Proofs Require Import FdmathP FdmathP2 FdfdP FdfdP2 FdfdP3.
From Verif.Proofs Require Import GridP.
Import ListNotations.
Local Open Scope fld_scope.

(** A non-uniform 2x3x2 grid with complex data used by the examples. *)
Definition gx_sh : list nat := [2; 3; 2]%nat.
Definition gx_we : widths GQC := fun a i => gz (Z.of_nat (1 + a + 2 * i)) 0.
Definition gx_wh : widths GQC := fun a i => gz (Z.of_nat (2 + 2 * a + i)) (Z.of_nat a).
Definition gx_d : dx2 GQC := (gx_we, gx_wh).
Definition gx_om : GQC := gz 2 0.
Definition gx_eps : field GQC := fun c idx => gz (Z.of_nat (1 + c + coord idx 1)) 0.
Definition gx_mu : field GQC := fun c idx => gz (Z.of_nat (2 + c * coord idx 0)) 0.
Definition gx_E : field GQC := fun c idx => gz (Z.of_nat ((c + 1) * (ravel gx_sh idx + 1))) (Z.of_nat (coord idx 2)).
Definition gx_H : field GQC := fun c idx => gz (Z.of_nat (c + 2 * ravel gx_sh idx) - 7) 1.
Definition gx_pec : vect GQC := fun q => if Nat.eqb q 3 then gz 1 0 else 0.
Definition gx_pmc : vect GQC := fun q => if Nat.eqb q 17 then gz 1 0 else 0.

Lemma gz_nz a b : (a <> 0 \/ b <> 0)%Z -> gz a b <> (0 : GQC).
Proof.
  intros H E. unfold gz in E. destruct H as [H|H].
  - apply (qz_nz a H). exact (f_equal gre E).
  - apply (qz_nz b H). exact (f_equal gim E).
Qed.
Lemma gz_pos n b : (0 < n)%nat -> gz (Z.of_nat n) b <> (0 : GQC).
Proof. intro H. apply gz_nz. left. lia. Qed.
Lemma gx_hyps : nzw (K := GQC) gx_sh gx_we /\ nzw (K := GQC) gx_sh gx_wh /\ gx_om <> 0
  /\ (forall q, vec gx_sh gx_mu q <> 0) /\ (forall q, vec gx_sh gx_eps q <> 0).
Proof.
  split; [|split; [|split; [|split]]].
  - intros a i _ _. apply gz_nz. left. lia.
  - intros a i _ _. apply gz_nz. left. lia.
  - apply gz_nz. lia.
  - intro q. apply gz_pos. apply Nat.lt_0_succ.
  - intro q. apply gz_pos. apply Nat.lt_0_succ.
Qed.

(** ** C23: functional.py equals operators.py *)

(** e_full applies curl 1/mu curl - omega^2 eps ... *)
Theorem C23_operators_e_full :
  forall (K : CFld) (sh : list nat) (om : K) (d : dx2 K) (eps : field K) (mu : option (field K)) (F : field K),
    length sh = 3%nat ->
    feq sh (unvec sh (mv (3 * prodl sh)
              (e_full_mat sh om d (vec sh eps) (vec_opt sh mu) None None) (vec sh F)))
           (wave_e sh om (fst d) (snd d) eps mu F).
Proof.
  intros K sh om d eps mu F HL c idx Hc Hi. unfold unvec, vec_opt.
  rewrite e_full_wave by (try assumption; now apply ravel_lt). now rewrite unravel_ravel.
Qed.
Print Assumptions C23_operators_e_full.

(** ... and so does the functional version when there is no [mu]. *)
Theorem C23_functional_e_full :
  forall (K : CFld) (sh : list nat) (om : K) (d : dx2 K) (eps F : field K),
    length sh = 3%nat ->
    feq sh (e_full_f sh om d eps None F)
           (unvec sh (mv (3 * prodl sh) (e_full_mat sh om d (vec sh eps) None None None) (vec sh F))).
Proof.
  intros K sh om d eps F HL c idx Hc Hi.
  pose proof (C23_operators_e_full K sh om d eps None F HL c idx Hc Hi) as E.
  cbn [vec_opt option_map] in E. rewrite E. clear E.
  unfold e_full_f, wave_e. to_model. 
  rewrite (curl_back_ext3 K sh _ (fun c' i' => inv_at None c' i' * curl_forward sh (Some (fst d)) F c' i')
    (curl_forward sh (Some (fst d)) F)); [|exact HL|exact Hi|].
  - generalize (curl_back sh (Some (snd d)) (curl_forward sh (Some (fst d)) F) c idx). 
    intro u. apply (fsub_assoc_aux K).
  - intros. apply (fmul_1_l_aux K).
Qed.
Print Assumptions C23_functional_e_full.

Theorem C23_eh_full :
  forall (K : CFld) (sh : list nat) (om : K) (d : dx2 K) (eps mu E H : field K),
    length sh = 3%nat ->
    exists A, eh_full_mat sh om d (vec sh eps) (Some (vec sh mu)) None None = Ok A /\
      forall c idx, (c < 3)%nat -> inb sh idx ->
        let n := (3 * prodl sh)%nat in
        let out := mv (2 * n) A (cat n (vec sh E) (vec sh H)) in
        out (c * prodl sh + ravel sh idx)%nat = fst (eh_full_f sh om d eps (Some mu) E H) c idx
        /\ out (n + (c * prodl sh + ravel sh idx))%nat = snd (eh_full_f sh om d eps (Some mu) E H) c idx.
Proof.
  intros K sh om d eps mu E H HL.
  destruct (mv_eh_full K sh om d (vec sh eps) (vec sh mu) None None (vec sh E) (vec sh H)) as (A & HA & EQ).
  exists A. split; [exact HA|]. intros c idx Hc Hi n out.
  assert (Hr : (c * prodl sh + ravel sh idx < n)%nat) by (apply lt3; [exact Hc|now apply ravel_lt]).
  destruct (EQ _ Hr) as [E1 E2]. unfold out, n. rewrite E1, E2. cbn [keep]. 
  rewrite !(mv_ext_v K _ _ (fun q => 1 * vec sh H q) (vec sh H)) by (intros; apply (fmul_1_l_aux K)).
  rewrite !(mv_ext_v K _ _ (fun q => 1 * vec sh E q) (vec sh E)) by (intros; apply (fmul_1_l_aux K)).
  rewrite curl_back_agree, curl_forward_agree by (try assumption; now apply ravel_lt).
  rewrite !vec_offset, !unravel_ravel by exact Hi. cbn [eh_full_f fst snd].
  split; [apply (eh_aux1 K)|apply (eh_aux2 K)].
Qed.
Print Assumptions C23_eh_full.

Theorem C23_e2h :
  forall (K : CFld) (sh : list nat) (om : K) (d : dx2 K) (mu : option (field K)) (F : field K),
    length sh = 3%nat -> om <> 0 ->
    (forall m, mu = Some m -> forall c idx, (c < 3)%nat -> inb sh idx -> m c idx <> 0) ->
    feq sh (unvec sh (mv (3 * prodl sh) (e2h_mat sh om d (vec_opt sh mu) None) (vec sh F)))
           (e2h_f sh om d mu F).
Proof.
  intros K sh om d mu F HL Hom Hm c idx Hc Hi. unfold unvec.
  assert (Hp := ravel_lt sh idx Hi).
  rewrite mv_e2h by now apply lt3. unfold vec_opt. rewrite minv_vec by exact Hp.
  rewrite curl_forward_agree by assumption. rewrite unravel_ravel by exact Hi. cbn [keep].
  destruct mu as [m|]; cbn [inv_at e2h_f].
  - apply (e2h_aux1 K); [exact Hom|now apply (Hm m)].
  - apply (e2h_aux2 K). exact Hom.
Qed.
Print Assumptions C23_e2h.

Theorem C23_tfsf :
  forall (K : CFld) (sh : list nat) (Q : field K) (om : K) (d : dx2 K) (eps F : field K),
    length sh = 3%nat ->
    feq sh (unvec sh (mv (3 * prodl sh)
              (e_tfsf_source_mat sh (vec sh Q) om d (vec sh eps) None) (vec sh F)))
           (e_tfsf_source_f sh Q om d eps None F).
Proof.
  intros K sh Q om d eps F HL c idx Hc Hi. unfold unvec.
  assert (Hp := ravel_lt sh idx Hi).
  rewrite mv_tfsf by now apply lt3. rewrite vec_offset by exact Hi. unfold e_tfsf_source_f.
  rewrite !(C23_functional_e_full K sh om d eps _ HL c idx Hc Hi).
  reflexivity.
Qed.
Print Assumptions C23_tfsf.

Theorem C23_poynting :
  forall (K : CFld) (sh : list nat) (d : dx2 K) (e h : field K),
    length sh = 3%nat ->
    feq sh (unvec sh (mv (3 * prodl sh) (poynting_e_cross_mat sh (vec sh e) d) (vec sh h)))
           (poynting_e_cross_h_f sh d e h).
Proof.
  intros K sh d e h HL c idx Hc Hi. unfold unvec.
  rewrite poynting_e_cross_agree by (try assumption; now apply ravel_lt). now rewrite unravel_ravel.
Qed.
Print Assumptions C23_poynting.

Example C23_example :
  inb gx_sh [1; 2; 0]%nat /\
  e_full_f gx_sh gx_om gx_d gx_eps None gx_E 0%nat [1; 2; 0]%nat <> 0
  /\ e2h_f gx_sh gx_om gx_d (Some gx_mu) gx_E 0%nat [1; 2; 0]%nat <> 0
  /\ poynting_e_cross_h_f gx_sh gx_d gx_E gx_H 0%nat [1; 2; 0]%nat <> 0
  /\ fst (eh_full_f gx_sh gx_om gx_d gx_eps (Some gx_mu) gx_E gx_H) 0%nat [1; 2; 0]%nat <> 0.
Proof. split; [repeat constructor|]. repeat split; vm_compute; discriminate. Qed.

(** The TFSF current on fields. *)
Lemma C29_tfsf_field :
  forall (K : CFld) (sh : list nat) (Q : field K) (om : K) (d : dx2 K) (eps : field K)
         (mu : option (field K)) (F : field K) (c : nat) (idx : list nat),
    length sh = 3%nat -> (c < 3)%nat -> inb sh idx ->
    unvec sh (mv (3 * prodl sh) (e_tfsf_source_mat sh (vec sh Q) om d (vec sh eps) (vec_opt sh mu)) (vec sh F)) c idx
    = (wave_e sh om (fst d) (snd d) eps mu (fun c' i' => Q c' i' * F c' i') c idx
       - Q c idx * wave_e sh om (fst d) (snd d) eps mu F c idx) / (- im * om).
Proof.
  intros K sh Q om d eps mu F c idx HL Hc Hi.
  rewrite <- !(C23_operators_e_full K sh om d eps mu _ HL c idx Hc Hi). unfold unvec.
  rewrite mv_tfsf by (apply lt3; [exact Hc|now apply ravel_lt]). now rewrite vec_offset by exact Hi.
Qed.

(** ** C59: functional.e_full with mu *)

(** The functional version with [mu] is the documented operator with 1/mu ... *)
Theorem C59_functional_e_full_inverts_mu :
  forall (K : CFld) (sh : list nat) (om : K) (d : dx2 K) (eps mu F : field K),
    length sh = 3%nat -> (forall c idx, mu c idx <> 0) ->
    feq sh (e_full_f sh om d eps (Some mu) F)
           (unvec sh (mv (3 * prodl sh)
              (e_full_mat sh om d (vec sh eps) (Some (vec sh (fun c i => 1 / mu c i))) None None) (vec sh F))).
Proof.
  intros K sh om d eps mu F HL Hmu c idx Hc Hi.
  pose proof (C23_operators_e_full K sh om d eps (Some (fun c i => 1 / mu c i)) F HL c idx Hc Hi) as E.
  unfold vec_opt, option_map in E. rewrite E. clear E. unfold e_full_f, wave_e. to_model.
  rewrite (curl_back_ext3 K sh _ (fun c' i' => inv_at (Some (fun c i => 1 / mu c i)) c' i' * curl_forward sh (Some (fst d)) F c' i')
    (fun c' i' => mu c' i' * curl_forward sh (Some (fst d)) F c' i')); [|exact HL|exact Hi|].
  - generalize (curl_back sh (Some (snd d)) (fun c' i' => mu c' i' * curl_forward sh (Some (fst d)) F c' i') c idx).
    intro u. apply (fsub_assoc_aux K).
  - intros. unfold inv_at. f_equal. apply (inv_inv_aux K). apply Hmu.
Qed.
Print Assumptions C59_functional_e_full_inverts_mu.

(** ... so it does not equal operators.e_full; the TFSF source inherits this. *)
Theorem C59_functional_e_full_mu_refuted :
  exists (sh : list nat) (om : GQC) (d : dx2 GQC) (eps mu F : field GQC) (c : nat) (idx : list nat),
    length sh = 3%nat /\ (c < 3)%nat /\ inb sh idx /\ om <> 0 /\ (forall c i, mu c i <> 0) /\
    e_full_f sh om d eps (Some mu) F c idx
    <> unvec sh (mv (3 * prodl sh) (e_full_mat sh om d (vec sh eps) (Some (vec sh mu)) None None) (vec sh F)) c idx.
Proof.
  exists gx_sh, gx_om, gx_d, gx_eps, gx_mu, gx_E, 0%nat, [1; 2; 0]%nat.
  split; [reflexivity|]. split; [lia|]. split; [repeat constructor|].
  split; [apply gz_nz; lia|]. split; [intros; apply gz_pos; apply Nat.lt_0_succ|].
  pose proof (C23_operators_e_full GQC gx_sh gx_om gx_d gx_eps (Some gx_mu) gx_E eq_refl 0%nat [1; 2; 0]%nat
                ltac:(lia) ltac:(repeat constructor)) as E.
  cbn [vec_opt option_map] in E. rewrite E. clear E. vm_compute. discriminate.
Qed.
Print Assumptions C59_functional_e_full_mu_refuted.

Theorem C59_functional_tfsf_mu_refuted :
  exists (sh : list nat) (om : GQC) (d : dx2 GQC) (eps mu Q F : field GQC) (c : nat) (idx : list nat),
    length sh = 3%nat /\ (c < 3)%nat /\ inb sh idx /\ om <> 0 /\ (forall c i, mu c i <> 0) /\
    e_tfsf_source_f sh Q om d eps (Some mu) F c idx
    <> unvec sh (mv (3 * prodl sh) (e_tfsf_source_mat sh (vec sh Q) om d (vec sh eps) (Some (vec sh mu))) (vec sh F)) c idx.
Proof.
  exists gx_sh, gx_om, gx_d, gx_eps, gx_mu, (fun _ idx => gz (Z.of_nat (coord idx 0)) 0), gx_E, 1%nat, [1; 2; 0]%nat.
  split; [reflexivity|]. split; [lia|]. split; [repeat constructor|].
  split; [apply gz_nz; lia|]. split; [intros; apply gz_pos; apply Nat.lt_0_succ|].
  pose proof (C29_tfsf_field GQC gx_sh (fun _ idx => gz (Z.of_nat (coord idx 0)) 0) gx_om gx_d gx_eps (Some gx_mu)
                gx_E 1%nat [1; 2; 0]%nat eq_refl ltac:(lia) ltac:(repeat constructor)) as E.
  cbn [vec_opt option_map] in E. rewrite E. clear E. vm_compute. discriminate.
Qed.
Print Assumptions C59_functional_tfsf_mu_refuted.

(** ** C24: e_full is made symmetric by its preconditioners *)

(** For any function [sqrt] that returns a square root of the cell volumes. *)
Theorem C24_preconditioned_symmetric :
  forall (K : CFld) (sqrt : K -> K) (sh : list nat) (om : K) (d : dx2 K) (eps : vect K)
         (mu pec pmc : option (vect K)),
    length sh = 3%nat -> nzw sh (fst d) -> nzw sh (snd d) ->
    (forall c idx, (c < 3)%nat -> inb sh idx ->
       let v := vol_e (fst d) (snd d) c idx in sqrt v * sqrt v = v) ->
    let n := (3 * prodl sh)%nat in
    let Pl := fst (e_full_preconditioners sqrt sh d) in
    let Pr := snd (e_full_preconditioners sqrt sh d) in
    let PAP := mm n (mm n Pl (e_full_mat sh om d eps mu pec pmc)) Pr in
    meq n n (mtr PAP) PAP /\ meq n n (mm n Pl Pr) mid /\ meq n n (mm n Pr Pl) mid.
Proof.
  intros K sqrt sh om d eps mu pec pmc HL He Hh Hsq n Pl Pr PAP.
  assert (Hs : forall q, (q < 3 * prodl sh)%nat -> sqrt (p_squared sh d q) * sqrt (p_squared sh d q) = p_squared sh d q).
  { intros q Hq. destruct (flat3 (prodl sh) q Hq) as (c & p & Hc & Hp & ->).
    rewrite p_squared_at by assumption. apply Hsq; [exact Hc|now apply inb_unravel]. }
  split; [|split].
  - intros r s Hr Hs'. unfold mtr. symmetry.
    pose proof (precond_sym K sqrt sh om d eps mu pec pmc r s HL He Hh Hs Hr Hs') as X. exact X.
  - intros r s Hr Hs'. unfold Pl, Pr, e_full_preconditioners. cbn [fst snd]. rewrite mm_diag_l by exact Hr.
    apply (diag_inv_aux K). now apply (precond_inv K sqrt sh d).
  - intros r s Hr Hs'. unfold Pl, Pr, e_full_preconditioners. cbn [fst snd]. rewrite mm_diag_l by exact Hr.
    apply (diag_inv_aux2 K _ r s (fun q => sqrt (p_squared sh d q))); [now apply (precond_inv K sqrt sh d)|now intros <-].
Qed.
Print Assumptions C24_preconditioned_symmetric.

(** With the complex numbers and their principal square root no assumption on
    [sqrt] is left. *)
Theorem C24_preconditioned_symmetric_complex :
  forall (sh : list nat) (om : CC) (d : dx2 CC) (eps : vect CC) (mu pec pmc : option (vect CC)),
    length sh = 3%nat -> nzw (K := CC) sh (fst d) -> nzw (K := CC) sh (snd d) ->
    let n := (3 * prodl sh)%nat in
    let Pl := fst (e_full_preconditioners (K := CC) csqrt sh d) in
    let Pr := snd (e_full_preconditioners (K := CC) csqrt sh d) in
    let PAP := mm n (mm n Pl (e_full_mat sh om d eps mu pec pmc)) Pr in
    meq n n (mtr PAP) PAP /\ meq n n (mm n Pl Pr) mid /\ meq n n (mm n Pr Pl) mid.
Proof.
  intros. apply C24_preconditioned_symmetric; try assumption. intros. apply csqrt_sq.
Qed.
Print Assumptions C24_preconditioned_symmetric_complex.

(** A grid whose cell volumes are squares; e_full itself is not symmetric there. *)
Definition sx_we : widths GQC := fun a i => if Nat.eqb (a + i) 1 then gz 4 0 else gz 1 0.
Definition sx_wh : widths GQC := fun a i => if Nat.eqb i 2 then gz 4 0 else gz 1 0.
Definition sx_sqrt (x : GQC) : GQC :=
  if GQ_eq_dec x (gz 4 0) then gz 2 0 else if GQ_eq_dec x (gz 16 0) then gz 4 0
  else if GQ_eq_dec x (gz 64 0) then gz 8 0 else x.
Definition all_cells (sh : list nat) : list (list nat) := map (unravel sh) (seq 0 (prodl sh)).
Lemma all_cells_in sh idx : inb sh idx -> In idx (all_cells sh).
Proof.
  intro H. unfold all_cells. apply in_map_iff. exists (ravel sh idx). split; [now apply unravel_ravel|].
  apply in_seq. pose proof (ravel_lt sh idx H). lia.
Qed.
Example C24_example :
  nzw (K := GQC) gx_sh sx_we /\ nzw (K := GQC) gx_sh sx_wh /\
  (forall c idx, (c < 3)%nat -> inb gx_sh idx ->
     let v := vol_e (K := GQC) sx_we sx_wh c idx in sx_sqrt v * sx_sqrt v = v)
  /\ vol_e (K := GQC) sx_we sx_wh 0%nat [1; 2; 0]%nat = gz 16 0
  /\ (exists F G : field GQC, feq gx_sh F (fun c i => ind (Nat.eqb c 0 && Nat.eqb (ravel gx_sh i) 2)) /\
        feq gx_sh G (fun c i => ind (Nat.eqb c 0 && Nat.eqb (ravel gx_sh i) 4)) /\
        wave_e gx_sh gx_om sx_we sx_wh gx_eps None F 0%nat [0; 2; 0]%nat
        <> wave_e gx_sh gx_om sx_we sx_wh gx_eps None G 0%nat [0; 1; 0]%nat).
Proof.
  split; [|split; [|split; [|split]]].
  - intros a i _ _. unfold sx_we. destruct (Nat.eqb (a + i) 1); apply gz_nz; lia.
  - intros a i _ _. unfold sx_wh. destruct (Nat.eqb i 2); apply gz_nz; lia.
  - intros c idx Hc Hi.
    assert (T : forallb (fun i => forallb (fun c => let v := vol_e (K := GQC) sx_we sx_wh c i in
                 if GQ_eq_dec (sx_sqrt v * sx_sqrt v)%K v then true else false) [0; 1; 2]%nat) (all_cells gx_sh) = true)
      by (vm_compute; reflexivity).
    rewrite forallb_forall in T. specialize (T idx (all_cells_in _ _ Hi)). rewrite forallb_forall in T.
    assert (In c [0; 1; 2]%nat) as Hin by (destruct c as [|[|[|c]]]; cbn; try lia; tauto).
    specialize (T c Hin). cbv zeta in T |- *.
    destruct (GQ_eq_dec (sx_sqrt (vol_e sx_we sx_wh c idx) * sx_sqrt (vol_e sx_we sx_wh c idx))%K (vol_e sx_we sx_wh c idx)); [assumption|discriminate].
  - gq_refl.
  - eexists; eexists. split; [intros c i _ _; reflexivity|]. split; [intros c i _ _; reflexivity|].
    vm_compute. discriminate.
Qed.

(** ** C25: the E/H system and the single-field systems *)

(** [eh_full [E, H] = [J, -M]] holds exactly if H is the eliminated field on all
    components that are not PMC, M vanishes on PMC components, and E solves the
    E-only system driven by [J + m2j(M)] (restricted to non-PEC components). *)
Theorem C25_eh_iff_e :
  forall (K : CFld) (sh : list nat) (om : K) (d : dx2 K) (eps mu : vect K) (pec pmc : option (vect K))
         (A : mat K) (E H J M : vect K),
    om <> 0 -> (forall r, (r < 3 * prodl sh)%nat -> mu r <> 0) ->
    eh_full_mat sh om d eps (Some mu) pec pmc = Ok A ->
    let n := (3 * prodl sh)%nat in
    (veq (2 * n) (mv (2 * n) A (cat n E H)) (cat n J (fun r => - M r))
     <->
     forall r, (r < n)%nat ->
       (~ hidden pmc r -> H r = mv n (e2h_mat sh om d (Some mu) None) (clear pec E) r - M r / (im * om * mu r))
       /\ (hidden pmc r -> M r = 0)
       /\ mv n (e_full_mat sh om d eps (Some mu) pec pmc) E r
          = - im * om * (J r + clear pec (mv n (m2j_mat sh om d (Some mu)) M) r)).
Proof.
  intros K sh om d eps mu pec pmc A E H J M Hom Hmu HA n.
  pose proof (eh_eqs_iff K sh om d eps mu pec pmc E H J M A HA) as X. cbv zeta in X. fold n in X.
  unfold veq. rewrite X. now apply eh_e_equiv.
Qed.
Print Assumptions C25_eh_iff_e.

(** No magnetic current: H is e2h(E), E solves the plain E-only system. *)
Corollary C25_no_magnetic_current :
  forall (K : CFld) (sh : list nat) (om : K) (d : dx2 K) (eps mu : vect K) (A : mat K) (E H J : vect K),
    om <> 0 -> (forall r, (r < 3 * prodl sh)%nat -> mu r <> 0) ->
    eh_full_mat sh om d eps (Some mu) None None = Ok A ->
    let n := (3 * prodl sh)%nat in
    (veq (2 * n) (mv (2 * n) A (cat n E H)) (cat n J (fun r => - 0))
     <->
     veq n H (mv n (e2h_mat sh om d (Some mu) None) E)
     /\ veq n (mv n (e_full_mat sh om d eps (Some mu) None None) E) (fun r => - im * om * J r)).
Proof.
  intros K sh om d eps mu A E H J Hom Hmu HA n.
  pose proof (C25_eh_iff_e K sh om d eps mu None None A E H J (fun _ => 0) Hom Hmu HA) as X.
  cbv zeta in X. fold n in X. rewrite X. cbn [hidden clear].
  assert (Z : forall r, mv n (m2j_mat sh om d (Some mu)) (fun _ => 0) r = 0).
  { intro r. apply mv_zero_v. reflexivity. }
  split.
  - intro S. split; intros r Hr; destruct (S r Hr) as (S1 & _ & S3).
    + rewrite S1 by tauto. apply (sub_zero_div_aux K). apply fmul_nz; [now apply iw_nz|now apply Hmu].
    + rewrite S3, Z. apply (add_zero_aux K).
  - intros [S1 S2] r Hr. split; [|split; [tauto|]].
    + intros _. rewrite (S1 r Hr). symmetry. apply (sub_zero_div_aux K).
      apply fmul_nz; [now apply iw_nz|now apply Hmu].
    + rewrite (S2 r Hr), Z. symmetry. apply (add_zero_aux K).
Qed.
Print Assumptions C25_no_magnetic_current.

(** The dual statement with h_full. *)
Theorem C25_eh_iff_h :
  forall (K : CFld) (sh : list nat) (om : K) (d : dx2 K) (eps mu : vect K) (pec pmc : option (vect K))
         (A : mat K) (E H J M : vect K),
    om <> 0 -> (forall r, (r < 3 * prodl sh)%nat -> eps r <> 0) ->
    eh_full_mat sh om d eps (Some mu) pec pmc = Ok A ->
    let n := (3 * prodl sh)%nat in
    let ch := curl_back_mat sh (snd d) in
    let ce := curl_forward_mat sh (fst d) in
    (veq (2 * n) (mv (2 * n) A (cat n E H)) (cat n J (fun r => - M r))
     <->
     forall r, (r < n)%nat ->
       (~ hidden pec r -> E r = (mv n ch (clear pmc H) r - J r) / (im * om * eps r))
       /\ (hidden pec r -> J r = 0)
       /\ mv n (h_full_mat sh om d eps (Some mu) pec pmc) H r
          = - im * om * M r + clear pmc (mv n ce (fun q => J q / eps q)) r).
Proof.
  intros K sh om d eps mu pec pmc A E H J M Hom Heps HA n ch ce.
  pose proof (eh_eqs_iff K sh om d eps mu pec pmc E H J M A HA) as X. cbv zeta in X. fold n in X.
  unfold veq. rewrite X. now apply eh_h_equiv.
Qed.
Print Assumptions C25_eh_iff_h.

(** A solution of the masked system with currents on both fields. *)
Example C25_example :
  exists (A : mat GQC) (E H J M : vect GQC),
    eh_full_mat gx_sh gx_om gx_d (vec gx_sh gx_eps) (Some (vec gx_sh gx_mu)) (Some gx_pec) (Some gx_pmc) = Ok A
    /\ veq 72 (mv 72 A (cat 36 E H)) (cat 36 J (fun r => - M r))
    /\ hidden (Some gx_pec) 3 /\ hidden (Some gx_pmc) 17 /\ E 3%nat <> 0 /\ H 17%nat <> 0.
Proof.
  destruct (mv_eh_full GQC gx_sh gx_om gx_d (vec gx_sh gx_eps) (vec gx_sh gx_mu) (Some gx_pec) (Some gx_pmc)
              (vec gx_sh gx_E) (vec gx_sh gx_H)) as (A & HA & _).
  exists A, (vec gx_sh gx_E), (vec gx_sh gx_H),
    (fun q => mv 72 A (cat 36 (vec gx_sh gx_E) (vec gx_sh gx_H)) q),
    (fun q => - mv 72 A (cat 36 (vec gx_sh gx_E) (vec gx_sh gx_H)) (36 + q)%nat).
  split; [exact HA|]. split.
  - intros q Hq. unfold cat at 2. destruct (Nat.ltb_spec q 36); [reflexivity|].
    replace (36 + (q - 36))%nat with q by lia. symmetry. apply (opp_opp_aux GQC).
  - split; [|split; [|split]]; vm_compute; discriminate.
Qed.

(** ** C26: m2j *)

(** E driven by M alone in the coupled system is E driven by [operators.m2j(M)]. *)
Theorem C26_operators_m2j :
  forall (K : CFld) (sh : list nat) (om : K) (d : dx2 K) (eps mu : vect K) (A : mat K) (E H M : vect K),
    om <> 0 -> (forall r, (r < 3 * prodl sh)%nat -> mu r <> 0) ->
    eh_full_mat sh om d eps (Some mu) None None = Ok A ->
    let n := (3 * prodl sh)%nat in
    veq (2 * n) (mv (2 * n) A (cat n E H)) (cat n (fun _ => 0) (fun r => - M r)) ->
    veq n (mv n (e_full_mat sh om d eps (Some mu) None None) E)
          (fun r => - im * om * mv n (m2j_mat sh om d (Some mu)) M r).
Proof.
  intros K sh om d eps mu A E H M Hom Hmu HA n S r Hr.
  pose proof (C25_eh_iff_e K sh om d eps mu None None A E H (fun _ => 0) M Hom Hmu HA) as X. cbv zeta in X.
  pose proof (proj1 X S) as S'. clear S. rename S' into S. destruct (S r Hr) as (_ & _ & S3). fold n in S3. rewrite S3. cbn [clear]. apply (zero_add_aux K).
Qed.
Print Assumptions C26_operators_m2j.

(** Conversely, every solution of the E-only system extends to one of the
    coupled system. *)
Theorem C26_operators_m2j_converse :
  forall (K : CFld) (sh : list nat) (om : K) (d : dx2 K) (eps mu : vect K) (A : mat K) (E M : vect K),
    om <> 0 -> (forall r, (r < 3 * prodl sh)%nat -> mu r <> 0) ->
    eh_full_mat sh om d eps (Some mu) None None = Ok A ->
    let n := (3 * prodl sh)%nat in
    veq n (mv n (e_full_mat sh om d eps (Some mu) None None) E)
          (fun r => - im * om * mv n (m2j_mat sh om d (Some mu)) M r) ->
    exists H, veq (2 * n) (mv (2 * n) A (cat n E H)) (cat n (fun _ => 0) (fun r => - M r)).
Proof.
  intros K sh om d eps mu A E M Hom Hmu HA n S.
  exists (fun r => mv n (e2h_mat sh om d (Some mu) None) E r - M r / (im * om * mu r)).
  match goal with |- veq _ (mv _ _ (cat _ _ ?h)) _ =>
    pose proof (C25_eh_iff_e K sh om d eps mu None None A E h (fun _ => 0) M Hom Hmu HA) as X end.
  cbv zeta in X. refine (proj2 X _). fold n.
  intros r Hr. split; [reflexivity|]. split; [cbn; tauto|]. rewrite (S r Hr). cbn [clear].
  symmetry. apply (zero_add_aux K).
Qed.
Print Assumptions C26_operators_m2j_converse.

Section Alone.
  Variable K : CFld.
  Add Field Kfa : (fth K).
  Lemma one_mul_aux (x : K) : 1 * x = x. Proof. ring. Qed.
  Lemma m_alone_aux (a w m h : K) : 1 * a + 1 * (w * (m * (1 * h))) = - - (a + w * (m * h)). Proof. ring. Qed.
  Lemma e_alone_aux (a i w e : K) : i * w <> 0 -> e <> 0 -> - (1 * (i * w * (e * (1 * (a / (i * w * e)))))) + 1 * a = 0.
  Proof. intros H1 H2. pose proof (fmul_nz K _ _ H1 H2) as H3. generalize dependent (i * w). intros z H1 H3. field. split; assumption. Qed.
End Alone.
(** For any H there are an E and an M that solve the coupled system together; here both are
    not zero. *)
Lemma m_alone (K : CFld) sh (om : K) d eps mu (H : vect K) : om <> 0 -> (forall q, (q < 3 * prodl sh)%nat -> eps q <> 0) ->
  let n := (3 * prodl sh)%nat in let E := fun r => mv n (curl_back_mat sh (snd d)) H r / (im * om * eps r) in
  let M := fun r => - (mv n (curl_forward_mat sh (fst d)) E r + im * om * (mu r * H r)) in
  forall A, eh_full_mat sh om d eps (Some mu) None None = Ok A -> veq (2 * n) (mv (2 * n) A (cat n E H)) (cat n (fun _ => 0) (fun r => - M r)).
Proof.
  intros Ho He n E M A HA. refine (proj2 (eh_eqs_iff K sh om d eps mu None None E H (fun _ => 0) M A HA) _).
  intros r Hr. fold n. cbn [keep]. pose proof (He r Hr) as Ne. pose proof (iw_nz K om Ho) as No.
  rewrite (mv_ext_v K n (curl_back_mat sh (snd d)) (fun q => 1 * H q) H r), (mv_ext_v K n (curl_forward_mat sh (fst d)) (fun q => 1 * E q) E r) by (intros; apply (one_mul_aux K)).
  split; [|apply (m_alone_aux K)]. unfold E. apply (e_alone_aux K); assumption.
Qed.
Example C26_example :
  let H := vec gx_sh gx_H in let E : vect GQC := fun r => mv 36 (curl_back_mat gx_sh (snd gx_d)) H r / (im * gx_om * vec gx_sh gx_eps r) in
  gx_om <> 0 /\ (forall r, (r < 36)%nat -> vec gx_sh gx_mu r <> 0) /\ E 0%nat <> 0 /\
  exists A M, eh_full_mat gx_sh gx_om gx_d (vec gx_sh gx_eps) (Some (vec gx_sh gx_mu)) None None = Ok A /\
    veq 72 (mv 72 A (cat 36 E H)) (cat 36 (fun _ => 0) (fun r => - M r)) /\ M 0%nat <> 0.
Proof.
  intros H E. destruct gx_hyps as (_ & _ & Ho & Hm & He). split; [exact Ho|]. split; [intros r _; apply Hm|]. split; [vm_compute; discriminate|].
  destruct (mv_eh_full GQC gx_sh gx_om gx_d (vec gx_sh gx_eps) (vec gx_sh gx_mu) None None E H) as (A & HA & _).
  exists A, (fun r => - (mv 36 (curl_forward_mat gx_sh (fst gx_d)) E r + im * gx_om * (vec gx_sh gx_mu r * H r))).
  split; [exact HA|]. split; [exact (m_alone GQC gx_sh gx_om gx_d (vec gx_sh gx_eps) (vec gx_sh gx_mu) H Ho (fun q _ => He q) A HA)|].
  vm_compute; discriminate.
Qed.

(** ** C60: functional.m2j has the opposite sign *)
Theorem C60_functional_m2j_is_minus_operators :
  forall (K : CFld) (sh : list nat) (om : K) (d : dx2 K) (mu : option (field K)) (M : field K),
    length sh = 3%nat -> om <> 0 ->
    feq sh (m2j_f sh om d mu M)
           (fun c idx => - unvec sh (mv (3 * prodl sh) (m2j_mat sh om d (vec_opt sh mu)) (vec sh M)) c idx).
Proof.
  intros K sh om d mu M HL Hom c idx Hc Hi. unfold unvec.
  assert (Hp := ravel_lt sh idx Hi).
  rewrite mv_m2j by now apply lt3.
  rewrite curl_back_flat by assumption. rewrite unravel_ravel by exact Hi.
  destruct mu as [m|]; cbn [m2j_f].
  - rewrite (curl_back_ext3 K sh (Some (snd d)) (unvec sh _) (fun c' i' => M c' i' / m c' i') c idx HL Hi).
    + apply (m2j_aux K). exact Hom.
    + intros c' i' Hc' Hi'. unfold unvec, vec_opt, option_map.
      cbn [minv]. rewrite !vec_offset by exact Hi'. apply (div_aux K).
  - rewrite (curl_back_ext3 K sh (Some (snd d)) (unvec sh _) M c idx HL Hi).
    + apply (m2j_aux K). exact Hom.
    + intros c' i' Hc' Hi'. unfold unvec, vec_opt, option_map.
      cbn [minv]. rewrite !vec_offset by exact Hi'. apply (fmul_1_l_aux K).
Qed.
Print Assumptions C60_functional_m2j_is_minus_operators.

(** So the equivalent-current claim fails for it: whenever it is non-zero, the E
    field of the coupled system does not solve the system it gives. *)
Theorem C60_functional_m2j_not_equivalent :
  forall (K : CFld) (sh : list nat) (om : K) (d : dx2 K) (eps mu M : field K) (A : mat K) (E H : vect K)
         (c : nat) (idx : list nat),
    length sh = 3%nat -> om <> 0 -> (forall c idx, mu c idx <> 0) ->
    eh_full_mat sh om d (vec sh eps) (Some (vec sh mu)) None None = Ok A ->
    let n := (3 * prodl sh)%nat in
    veq (2 * n) (mv (2 * n) A (cat n E H)) (cat n (fun _ => 0) (fun r => - vec sh M r)) ->
    (c < 3)%nat -> inb sh idx -> m2j_f sh om d (Some mu) M c idx <> 0 ->
    unvec sh (mv n (e_full_mat sh om d (vec sh eps) (Some (vec sh mu)) None None) E) c idx
    <> - im * om * m2j_f sh om d (Some mu) M c idx.
Proof.
  intros K sh om d eps mu M A E H c idx HL Hom Hmu HA n S Hc Hi Hnz Heq.
  assert (S' := C26_operators_m2j K sh om d (vec sh eps) (vec sh mu) A E H (vec sh M) Hom
                  (fun r _ => Hmu _ _) HA S). clear S. rename S' into S. cbv zeta in S.
  specialize (S (c * prodl sh + ravel sh idx)%nat ltac:(apply lt3; [exact Hc|now apply ravel_lt])).
  cbv beta zeta in S. fold n in S. unfold unvec in Heq. rewrite Heq in S.
  pose proof (C60_functional_m2j_is_minus_operators K sh om d (Some mu) M HL Hom c idx Hc Hi) as F.
  unfold unvec in F. cbn [vec_opt option_map] in F. fold n in F. rewrite F in S, Hnz.
  revert S Hnz. generalize (mv n (m2j_mat sh om d (Some (vec sh mu))) (vec sh M) (c * prodl sh + ravel sh idx)%nat).
  intros u. now apply (sign_aux K).
Qed.
Print Assumptions C60_functional_m2j_not_equivalent.

Theorem C60_functional_m2j_sign_refuted :
  exists (sh : list nat) (om : GQC) (d : dx2 GQC) (mu M : field GQC) (c : nat) (idx : list nat),
    length sh = 3%nat /\ (c < 3)%nat /\ inb sh idx /\ om <> 0 /\ (forall c i, mu c i <> 0) /\
    m2j_f sh om d (Some mu) M c idx
    <> unvec sh (mv (3 * prodl sh) (m2j_mat sh om d (Some (vec sh mu))) (vec sh M)) c idx.
Proof.
  exists gx_sh, gx_om, gx_d, gx_mu, gx_H, 0%nat, [1; 2; 0]%nat.
  split; [reflexivity|]. split; [lia|]. split; [repeat constructor|].
  split; [apply gz_nz; lia|]. split; [intros; apply gz_pos; apply Nat.lt_0_succ|].
  pose proof (C60_functional_m2j_is_minus_operators GQC gx_sh gx_om gx_d (Some gx_mu) gx_H eq_refl
                ltac:(apply gz_nz; lia) 0%nat [1; 2; 0]%nat ltac:(lia) ltac:(repeat constructor)) as E.
  cbn [vec_opt option_map] in E.
  assert (E' : unvec gx_sh (mv (3 * prodl gx_sh) (m2j_mat gx_sh gx_om gx_d (Some (vec gx_sh gx_mu))) (vec gx_sh gx_H)) 0%nat [1; 2; 0]%nat
     = - m2j_f gx_sh gx_om gx_d (Some gx_mu) gx_H 0%nat [1; 2; 0]%nat).
  { rewrite E. symmetry. apply (opp_opp_aux GQC). }
  rewrite E'. vm_compute. discriminate.
Qed.
Print Assumptions C60_functional_m2j_sign_refuted.

(** ** C61: operators.eh_full without mu *)
Theorem C61_eh_full_default_mu_refuted :
  forall (K : CFld) (sh : list nat) (om : K) (d : dx2 K) (eps : vect K) (pec pmc : option (vect K)),
    eh_full_mat sh om d eps None pec pmc = Raise.
Proof. reflexivity. Qed.
Print Assumptions C61_eh_full_default_mu_refuted.

(** The functional version accepts it and means mu = 1; passing ones explicitly
    to the matrix version gives the same values. *)
Theorem C61_eh_full_ones :
  forall (K : CFld) (sh : list nat) (om : K) (d : dx2 K) (eps E H : field K),
    length sh = 3%nat ->
    exists A, eh_full_mat sh om d (vec sh eps) (Some (fun _ => 1)) None None = Ok A /\
      forall c idx, (c < 3)%nat -> inb sh idx ->
        let n := (3 * prodl sh)%nat in
        let out := mv (2 * n) A (cat n (vec sh E) (vec sh H)) in
        out (c * prodl sh + ravel sh idx)%nat = fst (eh_full_f sh om d eps None E H) c idx
        /\ out (n + (c * prodl sh + ravel sh idx))%nat = snd (eh_full_f sh om d eps None E H) c idx.
Proof.
  intros K sh om d eps E H HL.
  destruct (C23_eh_full K sh om d eps (fun _ _ => 1) E H HL) as (A & HA & EQ).
  exists A. split; [exact HA|]. intros c idx Hc Hi n out. destruct (EQ c idx Hc Hi) as [E1 E2].
  unfold out, n. rewrite E1, E2. split; [reflexivity|]. cbn [eh_full_f fst snd]. apply (one_mid_aux K).
Qed.
Print Assumptions C61_eh_full_ones.

(** ** C27: PEC and PMC masks *)
Theorem C27_masked_entries_zero :
  forall (K : CFld) (sh : list nat) (om : K) (d : dx2 K) (eps : vect K) (mu pec pmc : option (vect K)) (r s : nat),
    (r < 3 * prodl sh)%nat -> (s < 3 * prodl sh)%nat ->
    (hidden pec r -> e_full_mat sh om d eps mu pec pmc r s = 0 /\ e_full_mat sh om d eps mu pec pmc s r = 0)
    /\ (hidden pmc r -> h_full_mat sh om d eps mu pec pmc r s = 0 /\ h_full_mat sh om d eps mu pec pmc s r = 0).
Proof.
  intros K sh om d eps mu pec pmc r s Hr Hs. split; intro H; split.
  - apply e_full_hidden; tauto.
  - apply e_full_hidden; tauto.
  - apply h_full_hidden; tauto.
  - apply h_full_hidden; tauto.
Qed.
Print Assumptions C27_masked_entries_zero.

Theorem C27_eh_masked_entries_zero :
  forall (K : CFld) (sh : list nat) (om : K) (d : dx2 K) (eps mu : vect K) (pec pmc : option (vect K))
         (A : mat K) (r s : nat),
    eh_full_mat sh om d eps (Some mu) pec pmc = Ok A ->
    let n := (3 * prodl sh)%nat in
    (r < n)%nat -> (s < 2 * n)%nat ->
    (hidden pec r -> A r s = 0 /\ A s r = 0) /\ (hidden pmc r -> A (n + r)%nat s = 0 /\ A s (n + r)%nat = 0).
Proof. intros K sh om d eps mu pec pmc A r s HA n Hr Hs. now apply (eh_full_hidden K sh om d eps mu). Qed.
Print Assumptions C27_eh_masked_entries_zero.

(** Rows that are not PEC: Ampere's law for E cleared on PEC and H from
    Faraday's law, which is zero on PMC. *)
Theorem C27_unmasked_rows :
  forall (K : CFld) (sh : list nat) (om : K) (d : dx2 K) (eps : vect K) (mu pec pmc : option (vect K))
         (E : vect K) (r : nat),
    om <> 0 -> (r < 3 * prodl sh)%nat -> ~ hidden pec r ->
    let n := (3 * prodl sh)%nat in
    let H := mv n (e2h_mat sh om d mu pmc) (clear pec E) in
    mv n (e_full_mat sh om d eps mu pec pmc) E r
      = - im * om * (mv n (curl_back_mat sh (snd d)) H r - im * om * (eps r * E r))
    /\ (forall q, (q < n)%nat -> hidden pmc q -> H q = 0)
    /\ (forall q, (q < n)%nat -> ~ hidden pmc q -> H q = mv n (e2h_mat sh om d mu None) (clear pec E) q).
Proof.
  intros K sh om d eps mu pec pmc E r Hom Hr Hd n H. split; [now apply e_full_shown|]. split.
  - intros q Hq Hh. now apply e2h_hidden.
  - intros q Hq Hh. unfold H, n. rewrite !mv_e2h by exact Hq. rewrite keep_shown by exact Hh. reflexivity.
Qed.
Print Assumptions C27_unmasked_rows.

(** Hence the operator does not see the masked components of E. *)
Theorem C27_masked_E_irrelevant :
  forall (K : CFld) (sh : list nat) (om : K) (d : dx2 K) (eps : vect K) (mu pec pmc : option (vect K))
         (E E' : vect K),
    (forall q, (q < 3 * prodl sh)%nat -> ~ hidden pec q -> E q = E' q) ->
    veq (3 * prodl sh) (mv (3 * prodl sh) (e_full_mat sh om d eps mu pec pmc) E)
                       (mv (3 * prodl sh) (e_full_mat sh om d eps mu pec pmc) E').
Proof.
  intros K sh om d eps mu pec pmc E E' HE r Hr. unfold mv. apply sumN_ext. intros s Hs.
  destruct (hidden_dec K pec s) as [H|H].
  - rewrite (e_full_hidden K) by tauto. now rewrite !(zero_mul_aux K).
  - now rewrite HE.
Qed.
Print Assumptions C27_masked_E_irrelevant.

Example C27_example : hidden (Some gx_pec) 3 /\ ~ hidden (Some gx_pec) 4 /\ hidden (Some gx_pmc) 17.
Proof.
  split; [|split].
  - vm_compute. discriminate.
  - intro H. apply H. reflexivity.
  - vm_compute. discriminate.
Qed.

(** ** C28: Poynting operators *)
Theorem C28_poynting_agree :
  forall (K : CFld) (sh : list nat) (d : dx2 K) (e h : field K),
    length sh = 3%nat ->
    let n := (3 * prodl sh)%nat in
    feq sh (unvec sh (mv n (poynting_e_cross_mat sh (vec sh e) d) (vec sh h))) (poynting_e_cross_h_f sh d e h)
    /\ feq sh (unvec sh (mv n (poynting_h_cross_mat sh (vec sh h) d) (vec sh e)))
              (fun c idx => - poynting_e_cross_h_f sh d e h c idx)
    /\ feq sh (poynting_e_cross_h_f sh d e h) (poynting sh (Some d) e h).
Proof.
  intros K sh d e h HL n. split; [|split].
  - now apply C23_poynting.
  - intros c idx Hc Hi. unfold unvec.
    pose proof (poynting_h_cross_agree K sh d e h c (ravel sh idx) HL Hc (ravel_lt sh idx Hi)) as E.
    rewrite unravel_ravel in E by exact Hi. exact E.
  - intros c idx Hc Hi. destruct c as [|[|[|c]]]; try lia; reflexivity.
Qed.
Print Assumptions C28_poynting_agree.

Example C28_example : poynting gx_sh (Some gx_d) gx_E gx_H 2%nat [1; 2; 0]%nat <> 0.
Proof. vm_compute. discriminate. Qed.

(** ** C29: TFSF source *)
Theorem C29_masked_field_is_solution :
  forall (K : CFld) (sh : list nat) (Q : vect K) (om : K) (d : dx2 K) (eps : vect K) (mu : option (vect K)) (E : vect K),
    om <> 0 ->
    let n := (3 * prodl sh)%nat in
    let A := e_full_mat sh om d eps mu None None in
    veq n (mv n A E) (fun _ => 0) ->
    veq n (mv n A (fun q => Q q * E q))
          (fun r => - im * om * mv n (e_tfsf_source_mat sh Q om d eps mu) E r).
Proof. intros K sh Q om d eps mu E Hom n A HE r Hr. now apply tfsf_masked_solution. Qed.
Print Assumptions C29_masked_field_is_solution.

(** No current where the mask is constant over the stencil of the wave operator. *)
Theorem C29_no_current_inside :
  forall (K : CFld) (sh : list nat) (Q : field K) (om : K) (d : dx2 K) (eps : field K) (mu : option (field K))
         (F : field K) (c : nat) (idx : list nat),
    length sh = 3%nat -> (c < 3)%nat -> inb sh idx ->
    (forall c' i', (c' < 3)%nat -> stencil sh idx i' -> Q c' i' = Q c idx) ->
    unvec sh (mv (3 * prodl sh) (e_tfsf_source_mat sh (vec sh Q) om d (vec sh eps) (vec_opt sh mu)) (vec sh F)) c idx = 0.
Proof.
  intros K sh Q om d eps mu F c idx HL Hc Hi HQ. rewrite C29_tfsf_field by assumption.
  rewrite wave_e_const_mask by assumption. apply (sub_self_div_aux K).
Qed.
Print Assumptions C29_no_current_inside.

(** A constant mask gives no current anywhere. *)
Theorem C29_constant_mask :
  forall (K : CFld) (sh : list nat) (q : K) (om : K) (d : dx2 K) (eps : field K) (mu : option (field K)) (F : field K),
    length sh = 3%nat ->
    feq sh (unvec sh (mv (3 * prodl sh) (e_tfsf_source_mat sh (vec sh (fun _ _ => q)) om d (vec sh eps) (vec_opt sh mu)) (vec sh F)))
           (fun _ _ => 0).
Proof. intros K sh q om d eps mu F HL c idx Hc Hi. apply C29_no_current_inside; try assumption. reflexivity. Qed.
Print Assumptions C29_constant_mask.

(** A non-trivial solution of the wave equation: for a nowhere-zero field choose
    epsilon to balance the double curl. *)
Definition tx_eps : field GQC := fun c idx =>
  curl_back gx_sh (Some gx_wh) (curl_forward gx_sh (Some gx_we) gx_E) c idx / gx_E c idx.
Definition tx_Q : field GQC := fun _ idx => if Nat.eqb (coord idx 1) 1 then gz 1 0 else 0.
Example C29_example :
  veq 36 (mv 36 (e_full_mat gx_sh (gz 1 0) gx_d (vec gx_sh tx_eps) None None None) (vec gx_sh gx_E)) (fun _ => 0)
  /\ wave_e gx_sh (gz 1 0) gx_we gx_wh tx_eps None (fun c i => tx_Q c i * gx_E c i) 0%nat [0; 1; 0]%nat <> 0.
Proof.
  split.
  - intros q Hq. destruct (flat3 (prodl gx_sh) q Hq) as (c & p & Hc & Hp & ->).
    pose proof (e_full_wave GQC gx_sh (gz 1 0) gx_d tx_eps None gx_E c p eq_refl Hc Hp) as E.
    cbn [option_map] in E. etransitivity; [exact E|]. unfold wave_e. to_model. cbn [inv_at].
    rewrite (curl_back_ext3 GQC gx_sh _ _ (curl_forward gx_sh (Some gx_we) gx_E) c (unravel gx_sh p) eq_refl
               (inb_unravel gx_sh p Hp)) by (intros; apply (fmul_1_l_aux GQC)).
    unfold tx_eps. apply (tx_aux GQC); [gq_refl|]. apply gz_pos.
    apply Nat.mul_pos_pos; lia.
  - vm_compute. discriminate.
Qed.

(** ** C30: boundary source *)
Theorem C30_boundary_source_rows :
  forall (K : CFld) (sh : list nat) (Q : field K) (om : K) (d : dx2 K) (eps : vect K) (mu : option (vect K))
         (periodic : bool) (E : vect K),
    length sh = 3%nat -> (0 < prodl sh)%nat ->
    exists B, e_boundary_source_mat sh (vec sh Q) om d eps mu periodic = Ok B /\
      forall c idx, (c < 3)%nat -> inb sh idx ->
        let n := (3 * prodl sh)%nat in
        let J := unvec sh (mv n B E) c idx in
        (on_edge sh periodic Q c idx ->
           J = unvec sh (mv n (e_tfsf_source_mat sh (vec sh Q) om d eps mu) E) c idx)
        /\ (~ on_edge sh periodic Q c idx -> J = 0).
Proof.
  intros K sh Q om d eps mu per E HL HN. unfold e_boundary_source_mat.
  destruct (jmask_ok K sh per Q HL HN) as (jm & -> & HJ). eexists. split; [reflexivity|].
  intros c idx Hc Hi. unfold unvec.
  rewrite mdiag_row by (apply lt3; [exact Hc|now apply ravel_lt]). specialize (HJ c idx Hc Hi).
  destruct (jm (c * prodl sh + ravel sh idx)%nat) eqn:Ej.
  - split; [|tauto]. intros _. cbn [ind]. apply (fmul_1_l_aux K).
  - split; [|intros _; cbn [ind]; apply (zero_mul_aux K)]. intro He. apply HJ in He. congruence.
Qed.
Print Assumptions C30_boundary_source_rows.

Example C30_example :
  on_edge (K := GQC) gx_sh true tx_Q 0%nat [0; 0; 0]%nat /\ ~ on_edge (K := GQC) gx_sh true (fun _ _ => gz 1 0) 0%nat [0; 0; 0]%nat.
Proof.
  split.
  - exists 1%nat, 1%Z. split; [lia|]. split; [now left|]. split; [discriminate|]. vm_compute. discriminate.
  - intros (a & e & _ & _ & _ & Hne). now apply Hne.
Qed.

(** ** C62: the boundary source can drop TFSF current *)

(** With a mask that is the same for all components, the TFSF current can be
    non-zero at a cell none of whose neighbours differs in the mask (the wave
    operator also reads diagonal neighbours); the boundary source is zero there. *)
Definition bx_sh : list nat := [3; 3; 1]%nat.
Definition bx_Q : field GQC := fun _ idx => if andb (Nat.eqb (coord idx 0) 1) (Nat.eqb (coord idx 1) 0) then 0 else gz 1 0.
Definition bx_w : widths GQC := fun _ _ => gz 1 0.
Definition bx_E : field GQC := fun c idx => gz (Z.of_nat (1 + c + ravel bx_sh idx)) 0.
Theorem C62_boundary_source_drops_current_refuted :
  exists (sh : list nat) (Q F : field GQC) (om : GQC) (d : dx2 GQC) (eps : field GQC) (c : nat) (idx : list nat) (B : mat GQC),
    length sh = 3%nat /\ (c < 3)%nat /\ inb sh idx /\ om <> 0 /\ (forall c1 c2 i, Q c1 i = Q c2 i) /\
    e_boundary_source_mat sh (vec sh Q) om d (vec sh eps) None false = Ok B /\
    unvec sh (mv (3 * prodl sh) (e_tfsf_source_mat sh (vec sh Q) om d (vec sh eps) None) (vec sh F)) c idx <> 0 /\
    unvec sh (mv (3 * prodl sh) B (vec sh F)) c idx = 0.
Proof.
  destruct (C30_boundary_source_rows GQC bx_sh bx_Q (gz 1 0) (bx_w, bx_w) (vec bx_sh (fun _ _ => gz 1 0)) None false
              (vec bx_sh bx_E) eq_refl ltac:(cbn; lia)) as (B & HB & HR).
  exists bx_sh, bx_Q, bx_E, (gz 1 0), (bx_w, bx_w), (fun _ _ => gz 1 0), 0%nat, [0; 1; 0]%nat, B.
  split; [reflexivity|]. split; [lia|]. split; [repeat constructor|]. split; [apply gz_nz; lia|].
  split; [reflexivity|]. split; [exact HB|]. split.
  - pose proof (C29_tfsf_field GQC bx_sh bx_Q (gz 1 0) (bx_w, bx_w) (fun _ _ => gz 1 0) None bx_E 0%nat [0; 1; 0]%nat
                  eq_refl ltac:(lia) ltac:(repeat constructor)) as E.
    cbn [vec_opt option_map] in E. rewrite E. vm_compute. discriminate.
  - apply (HR 0%nat [0; 1; 0]%nat); [lia|repeat constructor|].
    intros (a & e & Ha & He & Hd & Hq). apply Hq.
    destruct He as [->| ->]; destruct a as [|[|[|a]]]; try lia; try reflexivity.
Qed.
Print Assumptions C62_boundary_source_drops_current_refuted.

(** ** C31: solvers.generic *)

Definition exact_solver {K : CFld} {O : Type} (n : nat)
    (solver : mat K -> vect K -> opts (K := K) O -> result (vect K)) : Prop :=
  forall A b o x, solver A b o = Ok x -> veq n (mv n A x) b.

Theorem C31_generic_solves :
  forall (K : CFld) (O : Type) (herm : option (mat K -> mat K)) (sqrt : K -> K) (fresh : O) (sh : list nat)
         (om : K) (d : dx2 K) (J eps : vect K) (mu pec pmc : option (vect K))
         (solver : mat K -> vect K -> opts (K := K) O -> result (vect K)) (mopts : option (opts (K := K) O))
         (guess : option (vect K)) (E : vect K) (mopts' : option (opts (K := K) O)),
    length sh = 3%nat -> nzw sh (fst d) -> nzw sh (snd d) ->
    (forall c idx, (c < 3)%nat -> inb sh idx ->
       let v := vol_e (fst d) (snd d) c idx in sqrt v * sqrt v = v) ->
    let n := (3 * prodl sh)%nat in
    exact_solver n solver ->
    generic herm sqrt fresh sh om d J eps mu pec pmc false solver mopts guess = Ok (E, mopts') ->
    veq n (mv n (e_full_mat sh om d eps mu pec pmc) E) (fun r => - im * om * J r).
Proof.
  intros K O herm sqrt fresh sh om d J eps mu pec pmc solver mopts guess E mopts' HL He Hh Hsq n Hx G.
  unfold generic in G. cbn [e_full_preconditioners fst snd] in G.
  match type of G with match solver ?A ?b ?o with _ => _ end = _ => destruct (solver A b o) as [x|] eqn:Es; [|discriminate] end.
  injection G as <- _. apply Hx in Es. fold n in Es |- *.
  intros r Hr.
  apply (precond_solve K n (e_full_mat sh om d eps mu pec pmc) (fun q => sqrt (p_squared sh d q)) (fun q => - im * om * J q) x).
  - apply (precond_inv K sqrt sh d HL He Hh). intros q Hq.
    destruct (flat3 (prodl sh) q Hq) as (c & p & Hc & Hp & ->).
    rewrite p_squared_at by assumption. apply Hsq; [exact Hc|now apply inb_unravel].
  - exact Es.
  - exact Hr.
Qed.
Print Assumptions C31_generic_solves.

(** The adjoint problem, provided sparse arrays have a [.H] (see C64). *)
Theorem C31_generic_solves_adjoint :
  forall (K : CFld) (O : Type) (sqrt : K -> K) (fresh : O) (sh : list nat)
         (om : K) (d : dx2 K) (J eps : vect K) (mu pec pmc : option (vect K))
         (solver : mat K -> vect K -> opts (K := K) O -> result (vect K)) (mopts : option (opts (K := K) O))
         (guess : option (vect K)) (E : vect K) (mopts' : option (opts (K := K) O)),
    length sh = 3%nat -> nzw sh (fst d) -> nzw sh (snd d) ->
    (forall c idx, (c < 3)%nat -> inb sh idx ->
       let v := vol_e (fst d) (snd d) c idx in sqrt v * sqrt v = v) ->
    let n := (3 * prodl sh)%nat in
    exact_solver n solver ->
    generic (Some hconj) sqrt fresh sh om d J eps mu pec pmc true solver mopts guess = Ok (E, mopts') ->
    veq n (mv n (hconj (e_full_mat sh om d eps mu pec pmc)) E) (fun r => - im * om * J r).
Proof.
  intros K O sqrt fresh sh om d J eps mu pec pmc solver mopts guess E mopts' HL He Hh Hsq n Hx G.
  unfold generic in G. cbn [e_full_preconditioners fst snd] in G.
  match type of G with match solver ?A ?b ?o with _ => _ end = _ => destruct (solver A b o) as [x|] eqn:Es; [|discriminate] end.
  injection G as <- _. apply Hx in Es. fold n in Es |- *.
  intros r Hr.
  apply (precond_solve_adj K n (e_full_mat sh om d eps mu pec pmc) (fun q => sqrt (p_squared sh d q)) (fun q => - im * om * J q) x).
  - apply (precond_inv K sqrt sh d HL He Hh). intros q Hq.
    destruct (flat3 (prodl sh) q Hq) as (c & p & Hc & Hp & ->).
    rewrite p_squared_at by assumption. apply Hsq; [exact Hc|now apply inb_unravel].
  - exact Es.
  - exact Hr.
Qed.
Print Assumptions C31_generic_solves_adjoint.

(** The initial guess reaches the solver in its own variables: a solver that
    just returns its ['x0'] makes [generic] return the guess itself. *)
Definition echo_solver {K : CFld} {O : Type} (A : mat K) (b : vect K) (o : opts (K := K) O) : result (vect K) :=
  match opt_x0 o with Some x => Ok x | None => Raise end.
Theorem C31_guess_reaches_solver :
  forall (K : CFld) (O : Type) (adjoint : bool) (sqrt : K -> K) (fresh : O) (sh : list nat)
         (om : K) (d : dx2 K) (J eps : vect K) (mu pec pmc : option (vect K))
         (mopts : option (opts (K := K) O)) (g : vect K),
    length sh = 3%nat -> nzw sh (fst d) -> nzw sh (snd d) ->
    (forall c idx, (c < 3)%nat -> inb sh idx ->
       let v := vol_e (fst d) (snd d) c idx in sqrt v * sqrt v = v) ->
    exists E mopts',
      generic (Some hconj) sqrt fresh sh om d J eps mu pec pmc adjoint echo_solver mopts (Some g) = Ok (E, mopts')
      /\ veq (3 * prodl sh) E g.
Proof.
  intros K O adj sqrt fresh sh om d J eps mu pec pmc mopts g HL He Hh Hsq.
  assert (NZ := precond_inv K sqrt sh d HL He Hh).
  assert (NZ' : forall q, (q < 3 * prodl sh)%nat -> sqrt (p_squared sh d q) <> 0).
  { apply NZ. intros q Hq.
    destruct (flat3 (prodl sh) q Hq) as (c & p & Hc & Hp & ->).
    rewrite p_squared_at by assumption. apply Hsq; [exact Hc|now apply inb_unravel]. }
  unfold generic, echo_solver. cbn [e_full_preconditioners fst snd opt_x0].
  destruct adj; eexists; eexists; (split; [reflexivity|]); intros r Hr.
  - change (@hconj K) with (@conj_tr K). rewrite !mv_conj_tr_diag by exact Hr. apply (conj_inv_aux K). now apply NZ'.
  - rewrite !mv_mdiag by exact Hr. apply (inv_mul_aux K). now apply NZ'.
Qed.
Print Assumptions C31_guess_reaches_solver.

(** Without a guess the caller's options are left alone. *)
Theorem C31_options_untouched_without_guess :
  forall (K : CFld) (O : Type) (herm : option (mat K -> mat K)) (adjoint : bool) (sqrt : K -> K) (fresh : O) (sh : list nat)
         (om : K) (d : dx2 K) (J eps : vect K) (mu pec pmc : option (vect K))
         (solver : mat K -> vect K -> opts (K := K) O -> result (vect K)) (mopts mopts' : option (opts (K := K) O)) (E : vect K),
    generic herm sqrt fresh sh om d J eps mu pec pmc adjoint solver mopts None = Ok (E, mopts') -> mopts' = mopts.
Proof.
  intros K O herm adj sqrt fresh sh om d J eps mu pec pmc solver mopts mopts' E G.
  unfold generic in G. destruct adj; [destruct herm as [h|]; [|discriminate]|];
    match type of G with match solver ?A ?b ?o with _ => _ end = _ => destruct (solver A b o) as [x|]; [|discriminate] end;
    injection G as _ <-; destruct mopts; reflexivity.
Qed.
Print Assumptions C31_options_untouched_without_guess.

Definition gx_sqrt_hyp := C24_example.
Example C31_example :
  exists (E : vect GQC) o, generic (Some hconj) sx_sqrt tt gx_sh gx_om (sx_we, sx_wh) (vec gx_sh gx_H) (vec gx_sh gx_eps) None None None
     true echo_solver None (Some (vec gx_sh gx_E)) = Ok (E, o) /\ E 5%nat = vec gx_sh gx_E 5%nat /\ E 5%nat <> 0.
Proof.
  destruct C24_example as (He & Hh & Hs & _).
  destruct (C31_guess_reaches_solver GQC unit true sx_sqrt tt gx_sh gx_om (sx_we, sx_wh) (vec gx_sh gx_H) (vec gx_sh gx_eps) None None None
              None (vec gx_sh gx_E) eq_refl He Hh Hs) as (E & o & G & V).
  exists E, o. split; [exact G|]. rewrite (V 5%nat) by (cbn; lia). split; [reflexivity|]. vm_compute. discriminate.
Qed.

(** ** C63: the caller's options are modified *)
Theorem C63_options_modified_refuted :
  exists (sh : list nat) (om : GQC) (d : dx2 GQC) (J eps : vect GQC) (g : vect GQC) (o : opts (K := GQC) unit) (E : vect GQC) (o' : opts (K := GQC) unit),
    generic (O := unit) (Some hconj) sx_sqrt tt sh om d J eps None None None false (fun _ b _ => Ok b) (Some o) (Some g) = Ok (E, Some o')
    /\ opt_x0 o = None /\ opt_x0 o' <> None.
Proof.
  eexists gx_sh, gx_om, (sx_we, sx_wh), (vec gx_sh gx_H), (vec gx_sh gx_eps), (vec gx_sh gx_E), (MkOpts None tt).
  eexists. eexists. split; [reflexivity|]. split; [reflexivity|]. discriminate.
Qed.
Print Assumptions C63_options_modified_refuted.

(** ** C64: adjoint solves and user callbacks *)

(** Sparse arrays (as opposed to sparse matrices) have no [.H]: every adjoint
    solve raises. *)
Theorem C64_adjoint_raises_refuted :
  forall (K : CFld) (O : Type) (sqrt : K -> K) (fresh : O) (sh : list nat)
         (om : K) (d : dx2 K) (J eps : vect K) (mu pec pmc : option (vect K))
         (solver : mat K -> vect K -> opts (K := K) O -> result (vect K)) (mopts : option (opts (K := K) O)) (guess : option (vect K)),
    generic None sqrt fresh sh om d J eps mu pec pmc true solver mopts guess = Raise.
Proof. reflexivity. Qed.
Print Assumptions C64_adjoint_raises_refuted.

(** A callback supplied by the user is never reached: the wrapper calls itself
    until the stack limit, whatever that limit is.  The default callback works. *)
Theorem C64_user_callback_recursion_refuted :
  forall (depth id : nat),
    qmr_call depth (qmr_install (Some (CbUser id))) (qmr_install (Some (CbUser id))) = None.
Proof. intros depth id. cbn [qmr_install]. induction depth as [|n IH]; [reflexivity|]. cbn [qmr_call]. now rewrite IH. Qed.
Print Assumptions C64_user_callback_recursion_refuted.

Theorem C64_default_callback :
  forall depth : nat, (0 < depth)%nat -> qmr_call depth (qmr_install None) (qmr_install None) = Some [EvLog].
Proof. intros [|n] H; [lia|reflexivity]. Qed.
Print Assumptions C64_default_callback.
