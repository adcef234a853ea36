(** Property theorems for meanas.fdtd base.py and energy.py (C10 - C16).

    [run sh dt dxes eps mu js s] iterates the usual loop body (H update, E
    update, [e += j / epsilon]) over the list [js] of injected currents; see
    Spec/FdtdRun.v.  A current density J corresponds to [j = -dt J]; a
    source-free run of n steps is [repeat noj n]. *)
From Coq Require Import List Arith ZArith Lia Field QArith Qcanon.
From Verif.Lib Require Import Num Sums Idx Mat.
From Verif.Model Require Import Fdmath Fdtd.
From Verif.Spec Require Import Yee FdtdRun.
From Verif.Proofs Require Import FdmathP FdmathP2 FdtdP FdtdP2.
From Verif.Proofs Require Import GridP.
Import ListNotations.
Local Open Scope fld_scope.

(** A non-uniform 2x3x2 grid used by the examples. *)
Definition fx_sh : list nat := [2; 3; 2]%nat.
Definition fx_we : widths QcF := fun a i => qz (Z.of_nat (1 + a + 2 * i)).
Definition fx_wh : widths QcF := fun a i => qz (Z.of_nat (2 + 2 * a + i)).
Definition fx_d : dxes_t QcF := Some (fx_we, fx_wh).
Definition fx_du : dxes_t QcF := Some (fx_we, fx_we).
Definition fx_eps : field QcF := fun c idx => qz (Z.of_nat (1 + c + coord idx 1)).
Definition fx_mu : field QcF := fun c idx => qz (Z.of_nat (2 + c * coord idx 0)).
Definition fx_F : field QcF := fun c idx => qz (Z.of_nat ((c + 1) * (ravel fx_sh idx + 1) * (ravel fx_sh idx + 2))).
Definition fx_G : field QcF := fun c idx => qz (Z.of_nat (c + 2 * ravel fx_sh idx) - 7).
Definition fx_s : state QcF := mkst fx_F fx_G.
Definition fx_j : field QcF := fun c idx => if Nat.eqb (ravel fx_sh idx) 5 then qz (Z.of_nat (c + 1)) else 0.

Lemma qz_pos_nz n : (0 < n)%nat -> qz (Z.of_nat n) <> (0 : QcF).
Proof. intro H. apply qz_nz. lia. Qed.
Lemma fx_hyps : nzd fx_sh fx_d /\ nzd fx_sh fx_du /\ same_widths fx_sh fx_du
  /\ nzm fx_sh fx_eps /\ nzm_opt fx_sh (Some fx_mu).
Proof.
  repeat split; repeat intro; try reflexivity;
    match goal with H : _ = _ |- _ => revert H end; apply qz_pos_nz; lia.
Qed.

(** ** C10: charge *)

(** The divergence of eps*E changes by the divergence of the injected currents
    and of nothing else; that of mu*H not at all. *)
Theorem C10_charge_run :
  forall (K : Fld) (sh : list nat) (dt : K) (d : dxes_t K) (eps : field K) (mu : option (field K))
         (js : list (field K)) (s : state K) (idx : list nat),
    length sh = 3%nat -> nzm sh eps -> nzm_opt sh mu -> inb sh idx ->
    let s' := run sh dt d eps mu js s in
    div_b sh d (fun c i => eps c i * sE s' c i) idx
      = div_b sh d (fun c i => eps c i * sE s c i) idx + fold_right (fun j acc => div_b sh d j idx + acc) 0 js
    /\ div_f sh d (fun c i => matl mu c i * sH s' c i) idx = div_f sh d (fun c i => matl mu c i * sH s c i) idx.
Proof. intros K sh dt d eps mu js s idx HL He Hm Hi. now apply charge_run. Qed.
Print Assumptions C10_charge_run.

Theorem C10_charge_source_free :
  forall (K : Fld) (sh : list nat) (dt : K) (d : dxes_t K) (eps : field K) (mu : option (field K))
         (n : nat) (s : state K) (idx : list nat),
    length sh = 3%nat -> nzm sh eps -> nzm_opt sh mu -> inb sh idx ->
    let s' := run sh dt d eps mu (repeat noj n) s in
    div_b sh d (fun c i => eps c i * sE s' c i) idx = div_b sh d (fun c i => eps c i * sE s c i) idx
    /\ div_f sh d (fun c i => matl mu c i * sH s' c i) idx = div_f sh d (fun c i => matl mu c i * sH s c i) idx.
Proof.
  intros K sh dt d eps mu n s idx HL He Hm Hi s'.
  destruct (charge_run K sh dt d eps mu (repeat noj n) HL He Hm s idx Hi) as [A B].
  split; [|exact B]. unfold s'. rewrite A.
  assert (Z : sumj K (repeat noj n) (fun j => div_b sh d j idx) = 0).
  { induction n as [|n IH]; [reflexivity|]. cbn [repeat sumj fold_right].
    fold (sumj K (repeat noj n) (fun j => div_b sh d j idx)). rewrite IH.
    - assert (E : div_b sh d noj idx = 0).
      { pose proof (div_b_scale K sh d 0 noj idx) as H.
        transitivity (div_b sh d (fun c i => 0 * noj c i) idx).
        - apply div_b_ext; try assumption. intros c i _ _. unfold noj. now rewrite (Rmul_0_r_of K).
        - rewrite H. apply (Rmul_0_l_of K). }
      rewrite E. apply (Radd_0_l_of K).
    - destruct (charge_run K sh dt d eps mu (repeat noj n) HL He Hm s idx Hi) as [A' _]. exact A'.
    - destruct (charge_run K sh dt d eps mu (repeat noj n) HL He Hm s idx Hi) as [_ B']. exact B'. }
  rewrite Z. apply (Radd_0_r_of K).
Qed.
Print Assumptions C10_charge_source_free.

(** With currents J_n entered as [e += -dt * J / epsilon]. *)
Theorem C10_charge_current :
  forall (K : Fld) (sh : list nat) (dt : K) (d : dxes_t K) (eps : field K) (mu : option (field K))
         (J : field K) (s : state K) (idx : list nat),
    length sh = 3%nat -> nzm sh eps -> nzm_opt sh mu -> inb sh idx ->
    let s' := step sh dt d eps mu (fun c i => - dt * J c i) s in
    div_b sh d (fun c i => eps c i * sE s' c i) idx
      = div_b sh d (fun c i => eps c i * sE s c i) idx - dt * div_b sh d J idx.
Proof.
  intros K sh dt d eps mu J s idx HL He Hm Hi s'.
  destruct (charge_step K sh dt d eps mu (fun c i => - dt * J c i) s idx HL Hi He Hm) as [A _].
  unfold s'. rewrite A, div_b_scale. now apply charge_opp.
Qed.
Print Assumptions C10_charge_current.

(** Non-trivial case: a run with a current on the non-uniform grid. *)
Example C10_example :
  let s' := run fx_sh (qq 1 2) fx_d fx_eps (Some fx_mu) [fx_j; noj] fx_s in
  div_b fx_sh fx_d (fun c i => fx_eps c i * sE s' c i) [0; 2; 1]%nat
    <> div_b fx_sh fx_d (fun c i => fx_eps c i * sE fx_s c i) [0; 2; 1]%nat
  /\ sE s' 0%nat [0; 2; 1]%nat <> sE fx_s 0%nat [0; 2; 1]%nat.
Proof. split; vm_compute; discriminate. Qed.

(** ** C11: Poynting's theorem per cell and half step *)

(** On grids whose E and H widths coincide, with the code's own functions. *)
Theorem C11_poynting_h_to_e :
  forall (K : Fld) (sh : list nat) (dt : K) (d : dxes_t K) (eps : field K) (mu : option (field K))
         (e0 h1 j : field K) (idx : list nat),
    length sh = 3%nat -> nzd sh d -> same_widths sh d -> nzm sh eps -> nzm_opt sh mu -> inb sh idx ->
    let e2 := fun c i => maxwell_e sh dt d e0 h1 eps c i + j c i / eps c i in
    let h3 := maxwell_h sh dt d e2 h1 mu in
    exists div, poynting_divergence sh (Some (poynting sh d e2 h1)) None None None = Ok div /\
      energy_estep h1 e2 h3 (Some eps) mu d idx - energy_hstep e0 h1 e2 (Some eps) mu d idx
      = - (dt * div idx) + delta_energy_j j e2 d idx.
Proof.
  intros K sh dt d eps mu e0 h1 j idx HL Hd Hs He Hm Hi e2 h3. eexists; split; [reflexivity|]. unfold energy_estep, energy_hstep.
  rewrite !(dxmul_yee K sh), (delta_j_yee K sh) by assumption. now apply half_h2e.
Qed.
Print Assumptions C11_poynting_h_to_e.

Theorem C11_poynting_e_to_h :
  forall (K : Fld) (sh : list nat) (dt : K) (d : dxes_t K) (eps : field K) (mu : option (field K))
         (h0 e1 j : field K) (idx : list nat),
    length sh = 3%nat -> nzd sh d -> same_widths sh d -> nzm sh eps -> nzm_opt sh mu -> inb sh idx ->
    let h2 := maxwell_h sh dt d e1 h0 mu in
    let e3 := fun c i => maxwell_e sh dt d e1 h2 eps c i + j c i / eps c i in
    exists div, poynting_divergence sh (Some (poynting sh d e1 h2)) None None None = Ok div /\
      energy_hstep e1 h2 e3 (Some eps) mu d idx - energy_estep h0 e1 h2 (Some eps) mu d idx
      = - (dt * div idx) + delta_energy_j j e1 d idx.
Proof.
  intros K sh dt d eps mu h0 e1 j idx HL Hd Hs He Hm Hi h2 e3. eexists; split; [reflexivity|]. unfold energy_estep, energy_hstep.
  rewrite !(dxmul_yee K sh), (delta_j_yee K sh) by assumption. now apply half_e2h.
Qed.
Print Assumptions C11_poynting_e_to_h.

(** On every grid, with each component weighted by its own Yee volume. *)
Theorem C11_poynting_yee :
  forall (K : Fld) (sh : list nat) (dt : K) (d : dxes_t K) (eps : field K) (mu : option (field K))
         (e0 h1 j : field K) (idx : list nat),
    length sh = 3%nat -> nzd sh d -> nzm sh eps -> nzm_opt sh mu -> inb sh idx ->
    let e2 := fun c i => maxwell_e sh dt d e0 h1 eps c i + j c i / eps c i in
    let h3 := maxwell_h sh dt d e2 h1 mu in
    let sq (u v : field K) : field K := fun c i => u c i * v c i in
    exists div1 div3,
      poynting_divergence sh (Some (poynting sh d e2 h1)) None None None = Ok div1 /\
      poynting_divergence sh (Some (poynting sh d e2 h3)) None None None = Ok div3 /\
      (yee_energy (sq e2 e2) (sq h1 h3) (Some eps) mu d idx - yee_energy (sq e0 e2) (sq h1 h1) (Some eps) mu d idx
       = - (dt * div1 idx) + yee_work j e2 d idx)
      /\ forall j', let e4 := fun c i => maxwell_e sh dt d e2 h3 eps c i + j' c i / eps c i in
         yee_energy (sq e2 e4) (sq h3 h3) (Some eps) mu d idx - yee_energy (sq e2 e2) (sq h1 h3) (Some eps) mu d idx
         = - (dt * div3 idx) + yee_work j' e2 d idx.
Proof.
  intros K sh dt d eps mu e0 h1 j idx HL Hd He Hm Hi e2 h3 sq. eexists _, _. split; [reflexivity|]. split; [reflexivity|]. split.
  - now apply half_h2e.
  - intros j'. now apply half_e2h.
Qed.
Print Assumptions C11_poynting_yee.

Example C11_example :
  let e2 := fun c i => maxwell_e fx_sh (qq 1 2) fx_du fx_F fx_G fx_eps c i + fx_j c i / fx_eps c i in
  let h3 := maxwell_h fx_sh (qq 1 2) fx_du e2 fx_G (Some fx_mu) in
  energy_estep fx_G e2 h3 (Some fx_eps) (Some fx_mu) fx_du [0; 2; 1]%nat
    <> energy_hstep fx_F fx_G e2 (Some fx_eps) (Some fx_mu) fx_du [0; 2; 1]%nat
  /\ divergence_of fx_sh (poynting fx_sh fx_du e2 fx_G) [0; 2; 1]%nat <> 0
  /\ delta_energy_j fx_j e2 fx_du [0; 2; 1]%nat <> 0.
Proof. repeat split; vm_compute; discriminate. Qed.

(** ** C52: the energy functions' weights on grids with unequal E and H widths *)

(** There is a source-free update on a grid with unequal E/H widths for which
    the half-step identity fails with the code's weights. *)
Definition w52 : widths QcF := fun _ _ => 1.
Definition w52h : widths QcF := fun a _ => if Nat.eqb a 2 then 1 + 1 else 1.
Definition d52 : dxes_t QcF := Some (w52, w52h).
Definition e52 : field QcF := fun c idx => if Nat.eqb c 1 then qz (Z.of_nat (1 + coord idx 0)) else 0.
Definition h52 : field QcF := fun c idx => if Nat.eqb c 2 then qz (3 - 2 * Z.of_nat (coord idx 0)) else 0.
Theorem C52_poynting_any_dxes_refuted :
  exists (sh : list nat) (dt : QcF) (d : dxes_t QcF) (eps e0 h1 : field QcF) (idx : list nat),
    length sh = 3%nat /\ nzd sh d /\ nzm sh eps /\ inb sh idx /\
    let e2 := maxwell_e sh dt d e0 h1 eps in
    let h3 := maxwell_h sh dt d e2 h1 None in
    exists div, poynting_divergence sh (Some (poynting sh d e2 h1)) None None None = Ok div /\
      energy_estep h1 e2 h3 (Some eps) None d idx - energy_hstep e0 h1 e2 (Some eps) None d idx
      <> - (dt * div idx).
Proof.
  exists [2; 1; 1]%nat, (qq 1 2), d52, (fun _ _ => 1), e52, h52, [1; 0; 0]%nat.
  split; [reflexivity|]. split.
  - split; intros a i _ _; unfold w52, w52h; try destruct (Nat.eqb a 2); vm_compute; discriminate.
  - split; [intros c i _ _; vm_compute; discriminate|].
    split; [repeat constructor|]. cbv zeta. eexists; split; [reflexivity|]. vm_compute. discriminate.
Qed.
Print Assumptions C52_poynting_any_dxes_refuted.

(** Consequently the total of [energy_estep] is not conserved on such grids. *)
Theorem C52_total_energy_any_dxes_refuted :
  exists (sh : list nat) (dt : QcF) (d : dxes_t QcF) (eps : field QcF) (s : state QcF),
    length sh = 3%nat /\ nzd sh d /\ nzm sh eps /\
    let E st := gsum sh (energy_estep (sH st) (sE st) (maxwell_h sh dt d (sE st) (sH st) None) (Some eps) None d) in
    E (run sh dt d eps None [noj] s) <> E s.
Proof.
  exists [2; 1; 1]%nat, (qq 1 2), d52, (fun _ _ => 1), (mkst e52 h52).
  split; [reflexivity|]. split.
  - split; intros a i _ _; unfold w52, w52h; try destruct (Nat.eqb a 2); vm_compute; discriminate.
  - split; [intros c i _ _; vm_compute; discriminate|].
    cbv zeta. vm_compute. discriminate.
Qed.
Print Assumptions C52_total_energy_any_dxes_refuted.

(** ** C12: total energy over runs *)

Theorem C12_energy_run :
  forall (K : Fld) (sh : list nat) (dt : K) (d : dxes_t K) (eps : field K) (mu : option (field K))
         (js : list (field K)) (s : state K),
    length sh = 3%nat -> nzd sh d -> same_widths sh d -> nzm sh eps -> nzm_opt sh mu ->
    let E st := gsum sh (energy_estep (sH st) (sE st) (maxwell_h sh dt d (sE st) (sH st) mu) (Some eps) mu d) in
    E (run sh dt d eps mu js s) = E s + work sh dt d eps mu (fun j e => delta_energy_j j e d) js s.
Proof. intros K sh dt d eps mu js s HL Hd Hs He Hm E. now apply code_E_run. Qed.
Print Assumptions C12_energy_run.

Theorem C12_energy_conserved :
  forall (K : Fld) (sh : list nat) (dt : K) (d : dxes_t K) (eps : field K) (mu : option (field K))
         (n : nat) (s : state K),
    length sh = 3%nat -> nzd sh d -> same_widths sh d -> nzm sh eps -> nzm_opt sh mu ->
    let E st := gsum sh (energy_estep (sH st) (sE st) (maxwell_h sh dt d (sE st) (sH st) mu) (Some eps) mu d) in
    let sn := run sh dt d eps mu (repeat noj n) s in
    let sn1 := step sh dt d eps mu noj sn in
    E sn = E s /\ gsum sh (energy_hstep (sE sn) (sH sn1) (sE sn1) (Some eps) mu d) = E s.
Proof.
  intros K sh dt d eps mu n s HL Hd Hs He Hm E sn sn1.
  assert (A : E sn = E s).
  { unfold sn, E. rewrite (C12_energy_run K sh dt d eps mu (repeat noj n) s) by assumption.
    rewrite (work_noj K) by (intros; apply delta_noj). apply (Radd_0_r_of K). }
  split; [exact A|]. rewrite <- A.
  pose proof (code_H_step K sh dt d eps mu noj sn HL Hd Hs He Hm) as B.
  unfold code_H in B. fold sn1 in B. rewrite B.
  rewrite (gsum_zero K sh) by (intros; apply delta_noj). apply (Radd_0_r_of K).
Qed.
Print Assumptions C12_energy_conserved.

(** Same on every grid with Yee volumes. *)
Theorem C12_energy_run_yee :
  forall (K : Fld) (sh : list nat) (dt : K) (d : dxes_t K) (eps : field K) (mu : option (field K))
         (js : list (field K)) (s : state K),
    length sh = 3%nat -> nzd sh d -> nzm sh eps -> nzm_opt sh mu ->
    let E st := gsum sh (yee_energy (fun c i => sE st c i * sE st c i)
                   (fun c i => sH st c i * maxwell_h sh dt d (sE st) (sH st) mu c i) (Some eps) mu d) in
    E (run sh dt d eps mu js s) = E s + work sh dt d eps mu (fun j e => yee_work j e d) js s.
Proof. intros K sh dt d eps mu js s HL Hd He Hm E. now apply yee_E_run. Qed.
Print Assumptions C12_energy_run_yee.

Example C12_example :
  let E st := gsum fx_sh (energy_estep (sH st) (sE st) (maxwell_h fx_sh 1 fx_du (sE st) (sH st) (Some fx_mu)) (Some fx_eps) (Some fx_mu) fx_du) in
  E fx_s <> 0 /\ work fx_sh 1 fx_du fx_eps (Some fx_mu) (fun j e => delta_energy_j j e fx_du) [fx_j] fx_s <> 0.
Proof. split; vm_compute; discriminate. Qed.

(** ** C13: delta_energy *)

Theorem C13_delta_energy :
  forall (K : Fld) (dt : K) (d : dxes_t K) (eps mu : option (field K)) (a b c' g : field K) (idx : list nat),
    dt <> 0 ->
    dt * delta_energy_h2e dt a b c' g eps mu d idx
      = energy_estep b c' g eps mu d idx - energy_hstep a b c' eps mu d idx
    /\ dt * delta_energy_e2h dt a b c' g eps mu d idx
      = energy_hstep b c' g eps mu d idx - energy_estep a b c' eps mu d idx.
Proof. intros K dt d eps mu a b c' g idx Hdt. now apply delta_energy_ok. Qed.
Print Assumptions C13_delta_energy.

Example C13_example :
  delta_energy_h2e (qq 1 2) fx_F fx_G fx_G fx_F (Some fx_eps) (Some fx_mu) fx_d [0; 2; 1]%nat <> 0
  /\ delta_energy_e2h (qq 1 2) fx_F fx_G fx_G fx_F (Some fx_eps) (Some fx_mu) fx_d [0; 2; 1]%nat <> 0.
Proof. split; vm_compute; discriminate. Qed.

(** ** C14: flux *)

Theorem C14_total_flux_zero :
  forall (K : Fld) (sh : list nat) (s : option (field K)) (e h : option (field K)) (d : dxes_t K) (r : arr K),
    length sh = 3%nat -> poynting_divergence sh s e h d = Ok r -> gsum sh r = 0.
Proof.
  intros K sh s e h d r HL H. unfold poynting_divergence in H.
  destruct s as [s|]; [|destruct e as [e|]; [|discriminate]; destruct h as [h|]; [|discriminate]; destruct d as [d|]; [|discriminate]];
    injection H as <-; now apply gsum_divergence.
Qed.
Print Assumptions C14_total_flux_zero.

(** Over any set [A] of cells: a face between [idx] and its next neighbour
    along an axis counts +flux if it leaves [A], -flux if it enters [A], and
    cancels if both sides are in (or out of) [A]. *)
Theorem C14_region_flux :
  forall (K : Fld) (sh : list nat) (s : field K) (A : list nat -> bool),
    length sh = 3%nat ->
    exists div, poynting_divergence sh (Some s) None None None = Ok div /\
      gsum sh (fun idx => if A idx then div idx else 0)
      = gsum sh (fun idx =>
          let face a := match A idx, A (shift_ix sh a 1 idx) with
                        | true, false => s a idx | false, true => - s a idx | _, _ => 0 end in
          face 0%nat + face 1%nat + face 2%nat).
Proof. intros K sh s A HL. eexists; split; [reflexivity|]. now apply region_flux. Qed.
Print Assumptions C14_region_flux.

Theorem C14_divergence_entry_points :
  forall (K : Fld) (sh : list nat) (e h : field K) (d : widths K * widths K) e' h' d',
    poynting_divergence sh None (Some e) (Some h) (Some d)
    = poynting_divergence sh (Some (poynting sh (Some d) e h)) e' h' d'
    /\ poynting_divergence sh None None (Some h) (Some d) = Raise
    /\ poynting_divergence sh None (Some e) None (Some d) = Raise
    /\ poynting_divergence sh None (Some e) (Some h) None = Raise.
Proof. intros. repeat split. Qed.
Print Assumptions C14_divergence_entry_points.

Example C14_example :
  let s := poynting fx_sh fx_d fx_F fx_G in
  let A idx := Nat.eqb (coord idx 0) 0 in
  gsum fx_sh (fun idx => if A idx then divergence_of fx_sh s idx else 0) <> 0.
Proof. vm_compute. discriminate. Qed.

(** ** C15: reversibility *)

(** Updates with -dt in reverse order (remove the current, E, then H), for the
    same currents in reverse order, recover the start. *)
Theorem C15_reverse_run :
  forall (K : Fld) (sh : list nat) (dt : K) (d : dxes_t K) (eps : field K) (mu : option (field K))
         (js : list (field K)) (s : state K),
    length sh = 3%nat ->
    let undo (j : field K) (st : state K) :=
      let e1 := fun c i => sE st c i - j c i / eps c i in
      let e0 := maxwell_e sh (- dt) d e1 (sH st) eps in
      mkst e0 (maxwell_h sh (- dt) d e0 (sH st) mu) in
    seq_st sh (fold_left (fun st j => undo j st) (rev js) (run sh dt d eps mu js s)) s.
Proof. intros K sh dt d eps mu js s HL undo. now apply unrun_run. Qed.
Print Assumptions C15_reverse_run.

(** Negating H at step n and iterating (E update, H update) forward in time
    passes through the same E (and negated H) at every earlier step. *)
Theorem C15_retrace :
  forall (K : Fld) (sh : list nat) (dt : K) (d : dxes_t K) (eps : field K) (mu : option (field K))
         (m n : nat) (s : state K),
    length sh = 3%nat ->
    let neg (st : state K) := mkst (sE st) (fun c i => - sH st c i) in
    let back (st : state K) :=
      let e' := maxwell_e sh dt d (sE st) (sH st) eps in mkst e' (maxwell_h sh dt d e' (sH st) mu) in
    seq_st sh (Nat.iter m back (neg (run sh dt d eps mu (repeat noj (n + m)) s)))
              (neg (run sh dt d eps mu (repeat noj n) s)).
Proof.
  intros K sh dt d eps mu m n s HL neg back.
  rewrite repeat_app. unfold run. rewrite fold_left_app. now apply retrace.
Qed.
Print Assumptions C15_retrace.

Example C15_example :
  sE (run fx_sh (qq 1 2) fx_d fx_eps (Some fx_mu) [fx_j; noj] fx_s) 0%nat [1; 1; 1]%nat <> sE fx_s 0%nat [1; 1; 1]%nat.
Proof. vm_compute. discriminate. Qed.

(** ** C16: superposition and domain of dependence *)

Theorem C16_superposition :
  forall (K : Fld) (sh : list nat) (dt : K) (d : dxes_t K) (eps : field K) (mu : option (field K))
         (a b : K) (js js' : list (field K)) (s t : state K),
    length sh = 3%nat -> length js = length js' ->
    let comb (F G : field K) : field K := fun c i => a * F c i + b * G c i in
    let comb_st (u v : state K) := mkst (comb (sE u) (sE v)) (comb (sH u) (sH v)) in
    seq_st sh (run sh dt d eps mu (map (fun p => comb (fst p) (snd p)) (combine js js')) (comb_st s t))
              (comb_st (run sh dt d eps mu js s) (run sh dt d eps mu js' t)).
Proof. intros K sh dt d eps mu a b js js' s t HL Hlen comb comb_st. now apply run_lin. Qed.
Print Assumptions C16_superposition.

(** After n steps a cell's fields depend only on initial fields and currents
    within n cells (along each axis, periodically). *)
Theorem C16_domain_of_dependence :
  forall (K : Fld) (sh : list nat) (dt : K) (d : dxes_t K) (eps : field K) (mu : option (field K))
         (js js' : list (field K)) (s t : state K) (idx : list nat),
    length sh = 3%nat -> inb sh idx -> length js = length js' ->
    let near (F G : field K) := forall c i, (c < 3)%nat -> within sh (length js) idx i -> F c i = G c i in
    near (sE s) (sE t) -> near (sH s) (sH t) -> Forall2 near js js' ->
    forall c, (c < 3)%nat ->
      sE (run sh dt d eps mu js s) c idx = sE (run sh dt d eps mu js' t) c idx
      /\ sH (run sh dt d eps mu js s) c idx = sH (run sh dt d eps mu js' t) c idx.
Proof. intros K sh dt d eps mu js js' s t idx HL Hi Hlen near He Hh Hj c Hc. now apply dep_cone. Qed.
Print Assumptions C16_domain_of_dependence.

(** The radius is sharp: one step on a line of 5 cells sees the next cell but
    not the one after it. *)
Example C16_example :
  let sh := [5; 1; 1]%nat in
  let pt k : field QcF := fun c idx => if Nat.eqb c 1 && Nat.eqb (coord idx 0) k then 1 else 0 in
  let z : field QcF := fun _ _ => 0 in
  let one k := sE (run sh 1 None (fun _ _ => 1) None [noj] (mkst (pt k) z)) 1%nat [2; 0; 0]%nat in
  one 3%nat = 1 /\ one 4%nat = 0.
Proof. cbv zeta. split; qc_refl. Qed.
