(** Properties relating meanas.fdfd to meanas.fdtd and to Poynting's and Lorentz'
    theorems (C115, C117, C118). *)
From Coq Require Import Reals Lra List Arith ZArith Lia Field QArith Qcanon.
From Verif.Lib Require Import Num Sums Idx Mat RealF Cexp.
From Verif.Model Require Import Fdmath Fdtd Fdfd.
From Verif.Spec Require Import Yee FdtdRun FdfdSpec HarmonicSpec.
From Verif.Proofs Require Import FdmathP FdtdP2 FdtdP FdfdP FdfdP2 HarmonicP HarmonicP2 HarmonicP3 HarmonicP4 GridP.
From Verif.Props Require Import FdfdProps.
Import ListNotations.
Local Open Scope fld_scope.

(** ** C115: frequency-domain solutions are harmonic time-domain runs *)
(** Fields solve the equations of fdfd at [om] with current [J] exactly when the
    fields with factor [z] per half step are a run of fdtd with that current, where
    i om = (z - 1/z) / dt. *)
Theorem C115_fdfd_iff_fdtd :
  forall (K : CFld) (sh : list nat) (dt om z : K) (d : dx2 K) (eps : field K) (mu : option (field K)) (E H J : field K),
    length sh = 3%nat -> dt <> 0 -> z <> 0 -> nzm sh eps -> nzm_opt sh mu ->
    im * om * dt = z - 1 / z ->
    (feq sh (fst (eh_full_f sh om d eps mu E H)) J /\ feq sh (snd (eh_full_f sh om d eps mu E H)) noj)
    <->
    forall N, seq_st sh (run sh dt (Some d) eps mu (map (injected dt z J) (seq 0 N)) (harmonic z E H 0))
                        (harmonic z E H N).
Proof.
  intros K sh dt om z d eps mu E H J HL Hdt Hz He Hm Ho. split.
  - intros [A B] N. now apply (harm_run K sh dt om z d eps mu).
  - intro R. specialize (R 1%nat). now apply (run_harm K sh dt om z d eps mu).
Qed.
Print Assumptions C115_fdfd_iff_fdtd.

(** The same from the E-only system [e_full E = -i om J] with H from [e2h]. *)
Theorem C115_from_e_full :
  forall (K : CFld) (sh : list nat) (dt om z : K) (d : dx2 K) (eps : field K) (mu : option (field K)) (E J : field K),
    length sh = 3%nat -> dt <> 0 -> z <> 0 -> om <> 0 -> nzm sh eps -> nzm_opt sh mu ->
    im * om * dt = z - 1 / z ->
    feq sh (unvec sh (mv (3 * prodl sh) (e_full_mat sh om d (vec sh eps) (option_map (vec sh) mu) None None) (vec sh E)))
           (fun c idx => - im * om * J c idx) ->
    forall N, seq_st sh (run sh dt (Some d) eps mu (map (injected dt z J) (seq 0 N)) (harmonic z E (e2h_f sh om d mu E) 0))
                        (harmonic z E (e2h_f sh om d mu E) N).
Proof.
  intros K sh dt om z d eps mu E J HL Hdt Hz Hom He Hm Ho Q.
  apply (C115_fdfd_iff_fdtd K sh dt om z d eps mu E _ J HL Hdt Hz He Hm Ho).
  now apply e_full_solution.
Qed.
Print Assumptions C115_from_e_full.

(** Real materials, widths and frequency: the fields Re(E exp(i omega t)),
    Re(H exp(i omega t)) are a run driven by -dt Re(J exp(i omega t)), when fdfd uses
    the frequency 2 sin(omega dt / 2) / dt. *)
Theorem C115_real_run :
  forall (sh : list nat) (we wh : widths RF) (dt omega : R) (eps : field RF) (mu : option (field RF)) (E H J : field CC),
    length sh = 3%nat -> nzw (K := RF) sh we -> nzw (K := RF) sh wh -> dt <> 0%R ->
    nzm (K := RF) sh eps -> nzm_opt (K := RF) sh mu ->
    let Om := mkC (2 * sin (omega * dt / 2) / dt)%R 0%R in
    let out := eh_full_f (K := CC) sh Om (cw we, cw wh) (cf eps) (option_map cf mu) E H in
    feq (K := CC) sh (fst out) J -> feq (K := CC) sh (snd out) noj ->
    forall N : nat,
      seq_st (K := RF) sh
        (run (K := RF) sh dt (Some (we, wh)) eps mu
           (map (fun n c i => - (dt * at_phase J (omega * ((INR n + / 2) * dt)) c i))%R (seq 0 N))
           (mkst (at_phase E 0) (at_phase H (- (omega * dt / 2)))%R))
        (mkst (at_phase E (omega * (INR N * dt))%R) (at_phase H (omega * ((INR N - / 2) * dt))%R)).
Proof.
  intros sh we wh dt omega eps mu E H J HL He Hh Hdt Heps Hmu Om out A B.
  set (z := cexp (mkC 0 (omega * dt / 2))).
  assert (Hz : z <> c0) by apply cexp_nz.
  assert (Zi : cdiv c1 z = cexp (mkC 0 (- (omega * dt / 2)))).
  { pose proof (cexp_opp (mkC 0 (omega * dt / 2))) as X. fold z in X.
    replace (copp (mkC 0 (omega * dt / 2))) with (mkC 0 (- (omega * dt / 2))) in X by (apply cpx_ext; cbn; ring).
    set (w := cexp (mkC 0 (- (omega * dt / 2)))) in *. rewrite <- X. apply (mul_div_l CC z w Hz). }
  assert (Ho : fmul (fmul (im (c := CC)) Om) (mkC dt 0) = fsub (f := CC) z (fdiv (f := CC) f1 z)).
  { change (fdiv (f := CC) f1 z) with (cdiv c1 z). rewrite Zi. unfold z, Om, cexp. cbn [cre cim]. rewrite exp_0, cos_neg, sin_neg.
    apply cpx_ext; cbn; field; exact Hdt. }
  assert (Dt : mkC dt 0 <> (0 : CC)) by (intro X; apply (f_equal cre) in X; exact (Hdt X)).
  assert (Ne : nzm (K := CC) sh (cf eps)) by (intros c i Hc Hi X; apply (f_equal cre) in X; exact (Heps c i Hc Hi X)).
  assert (Nm : nzm_opt (K := CC) sh (option_map cf mu)).
  { destruct mu as [m|]; [|exact I]. intros c i Hc Hi X; apply (f_equal cre) in X; exact (Hmu c i Hc Hi X). }
  (* real part of the harmonic state *)
  assert (SN : forall n, seq_st (K := RF) sh (re_st (harmonic (K := CC) z E H n))
      (mkst (at_phase E (omega * (INR n * dt))%R) (at_phase H (omega * ((INR n - / 2) * dt))%R))).
  { intro n. split; intros c i Hc Hi; cbn [re_st harmonic sE sH]; unfold re, at_phase.
    - unfold z. rewrite zpow_cexp. refine (eq_trans (re_phase _ _) _).
      replace (INR (2 * n) * (omega * dt / 2))%R with (omega * (INR n * dt))%R by (rewrite mult_INR; cbn [INR]; field). reflexivity.
    - assert (Q : fdiv (f := CC) (zpow (K := CC) z (2 * n)) z = cexp (mkC 0 (omega * ((INR n - / 2) * dt)))).
      { transitivity (cmul (zpow (K := CC) z (2 * n)) (cdiv c1 z)); [apply (div_as_mul CC)|].
        rewrite Zi. unfold z. rewrite zpow_cexp, <- cexp_add. f_equal. apply cpx_ext; cbn [cadd cre cim]; [ring|]. rewrite mult_INR. cbn [INR]. field. }
      rewrite Q. exact (re_phase _ _). }
  assert (JN : forall n, feq (K := RF) sh (re (injected (K := CC) (mkC dt 0) z J n))
      (fun c i => - (dt * at_phase J (omega * ((INR n + / 2) * dt)) c i))%R).
  { intros n c i Hc Hi. unfold re, injected, at_phase.
    assert (Q : fmul (f := CC) (zpow (K := CC) z (2 * n)) z = cexp (mkC 0 (omega * ((INR n + / 2) * dt)))).
    { unfold z. rewrite zpow_cexp. change (@fmul CC) with cmul. rewrite <- cexp_add. f_equal. apply cpx_ext; cbn [cadd cre cim]; [ring|]. rewrite mult_INR. cbn [INR]. field. }
    rewrite Q, <- re_phase. exact (re_neg_scale _ _). }
  intro N. induction N as [|N IH].
  - cbn [seq map run fold_left]. eapply seq_st_trans; [|apply SN]. apply seq_st_sym.
    eapply seq_st_trans; [apply SN|]. split; intros c i Hc Hi; cbn [sE sH INR].
    + replace (omega * (0 * dt))%R with 0%R by ring. reflexivity.
    + replace (omega * ((0 - / 2) * dt))%R with (- (omega * dt / 2))%R by field. reflexivity.
  - rewrite seq_S, map_app. unfold run. rewrite fold_left_app. cbn [map fold_left Nat.add].
    eapply seq_st_trans; [apply step_ext; [exact HL|exact IH]|].
    eapply seq_st_trans; [apply step_ext; [exact HL|]; apply seq_st_sym; apply SN|].
    eapply seq_st_trans; [apply step_ext_j; apply feq_sym; apply JN|].
    eapply seq_st_trans; [apply (re_step sh we wh dt eps mu HL He Hh Heps Hmu)|].
    eapply seq_st_trans; [|apply SN].
    destruct (harm_step CC sh (mkC dt 0) Om z (cw we, cw wh) (cf eps) (option_map cf mu) E H J HL Hz Ne Nm Ho N A B) as [QE QH].
    split; intros c i Hc Hi; cbn [re_st sE sH]; unfold re; f_equal; [now apply QE|now apply QH].
Qed.
Print Assumptions C115_real_run.

(** The time dependence exp(-i omega t) given in the documentation of fdfd and fdmath
    (z replaced by 1/z) is incompatible with the equations of the code: a solution
    without magnetic current then has H = 0, whatever current is injected. *)
Theorem C115_documented_phase :
  forall (K : CFld) (sh : list nat) (dt om z : K) (d : dx2 K) (eps : field K) (mu : option (field K)) (E H : field K),
    length sh = 3%nat -> z <> 0 -> z * z <> 1 -> nzm_opt sh mu ->
    im * om * dt = z - 1 / z ->
    feq sh (snd (eh_full_f sh om d eps mu E H)) noj ->
    (exists j, seq_st sh (step sh dt (Some d) eps mu j (harmonic (1 / z) E H 0)) (harmonic (1 / z) E H 1)) ->
    feq sh H noj.
Proof.
  intros K sh dt om z d eps mu E H HL Hz Hzz Hm Ho B [j [_ Q]].
  apply (opposite_phase K sh dt om z d eps mu E H j); try assumption. apply f2nz.
Qed.
Print Assumptions C115_documented_phase.

(** A concrete grid: z = (3 + 4i)/5, dt = 1, om = 8/5. *)
Definition hx_sh : list nat := [2; 1; 1]%nat.
Definition hx_z : GQC := gq 3 5 4 5.
Definition hx_om : GQC := gq 8 5 0 1.
Definition hx_d : dx2 GQC := (fun _ _ => gz 1 0, fun _ i => gz (Z.of_nat (1 + i)) 0).
Definition hx_eps : field GQC := fun c _ => gz (Z.of_nat (1 + c)) 0.
Definition hx_mu : field GQC := fun c _ => gz (Z.of_nat (2 + c)) 0.
Definition hx_E : field GQC := fun c idx => gz (Z.of_nat (c * coord idx 0)) 1.
Definition hx_H : field GQC := e2h_f hx_sh hx_om hx_d (Some hx_mu) hx_E.
Definition hx_J : field GQC := fst (eh_full_f hx_sh hx_om hx_d hx_eps (Some hx_mu) hx_E hx_H).

Lemma hx_eqs : feq hx_sh (fst (eh_full_f hx_sh hx_om hx_d hx_eps (Some hx_mu) hx_E hx_H)) hx_J
  /\ feq hx_sh (snd (eh_full_f hx_sh hx_om hx_d hx_eps (Some hx_mu) hx_E hx_H)) noj.
Proof.
  split; [intros c idx _ _; reflexivity|]. intros c idx Hc Hi.
  assert (In idx [[0; 0; 0]; [1; 0; 0]]%nat) as D.
  { unfold hx_sh in Hi. inversion Hi as [|? ? ? ? P1 R1]; subst. inversion R1 as [|? ? ? ? P2 R2]; subst.
    inversion R2 as [|? ? ? ? P3 R3]; subst. inversion R3; subst. cbn [In].
    assert (x0 = 0 /\ x1 = 0 /\ (x = 0 \/ x = 1))%nat as (-> & -> & [-> | ->]) by lia; auto. }
  destruct c as [|[|[|c]]]; [| | |lia]; (destruct D as [<-|[<-|[]]]; gq_refl).
Qed.

Theorem C115_documented_phase_refuted :
  exists (sh : list nat) (dt om z : GQC) (d : dx2 GQC) (eps : field GQC) (mu : field GQC) (E H J : field GQC),
    length sh = 3%nat /\ im * om * dt = z - 1 / z
    /\ feq sh (fst (eh_full_f sh om d eps (Some mu) E H)) J
    /\ feq sh (snd (eh_full_f sh om d eps (Some mu) E H)) noj
    /\ forall j, ~ seq_st sh (step sh dt (Some d) eps (Some mu) j (harmonic (1 / z) E H 0)) (harmonic (1 / z) E H 1).
Proof.
  exists hx_sh, (gz 1 0), hx_om, hx_z, hx_d, hx_eps, hx_mu, hx_E, hx_H, hx_J.
  split; [reflexivity|]. split; [gq_refl|]. split; [apply hx_eqs|]. split; [apply hx_eqs|].
  intros j Q.
  assert (N : hx_H 2%nat [0; 0; 0]%nat <> (0 : GQC)) by (intro X; apply (f_equal (fun x => Qeq_bool (this (gre x)) 0 && Qeq_bool (this (gim x)) 0)%bool) in X; vm_compute in X; discriminate).
  apply N. apply (C115_documented_phase GQC hx_sh (gz 1 0) hx_om hx_z hx_d hx_eps (Some hx_mu) hx_E hx_H).
  - reflexivity.
  - intro X. apply (f_equal (fun x => Qeq_bool (this (gre x)) 0)) in X. vm_compute in X. discriminate.
  - intro X. apply (f_equal (fun x => Qeq_bool (this (gim x)) 0)) in X. vm_compute in X. discriminate.
  - intros c i _ _. apply gz_pos. lia.
  - gq_refl.
  - apply hx_eqs.
  - now exists j.
  - lia.
  - repeat constructor.
Qed.
Print Assumptions C115_documented_phase_refuted.

Example C115_example :
  (forall N, seq_st hx_sh (run hx_sh (gz 1 0) (Some hx_d) hx_eps (Some hx_mu) (map (injected (gz 1 0) hx_z hx_J) (seq 0 N)) (harmonic hx_z hx_E hx_H 0))
                     (harmonic hx_z hx_E hx_H N))
  /\ hx_J 2%nat [0; 0; 0]%nat <> (0 : GQC).
Proof.
  split.
  - apply (C115_fdfd_iff_fdtd GQC hx_sh (gz 1 0) hx_om hx_z hx_d hx_eps (Some hx_mu) hx_E hx_H hx_J).
    + reflexivity.
    + apply gz_nz. lia.
    + intro X. apply (f_equal (fun x => Qeq_bool (this (gre x)) 0)) in X. vm_compute in X. discriminate.
    + intros c i _ _. apply gz_pos. lia.
    + intros c i _ _. apply gz_pos. lia.
    + gq_refl.
    + apply hx_eqs.
  - intro X. apply (f_equal (fun x => Qeq_bool (this (gre x)) 0 && Qeq_bool (this (gim x)) 0)%bool) in X. vm_compute in X. discriminate.
Qed.

(** ** C117: Poynting's theorem for frequency-domain fields *)
(** In every cell the flow of E x H* out of the cell is minus the work of the currents
    and the polarisation terms, each component weighted with its own Yee volume. *)
Theorem C117_complex_poynting :
  forall (K : CFld) (sh : list nat) (om : K) (we wh : widths K) (eps : field K) (mu : option (field K)) (E H J M : field K) (idx : list nat),
    length sh = 3%nat -> nzw sh we -> nzw sh wh -> realw wh -> inb sh idx ->
    feq sh (fst (eh_full_f sh om (we, wh) eps mu E H)) J ->
    feq sh (snd (eh_full_f sh om (we, wh) eps mu E H)) (fun c i => - M c i) ->
    outflow sh (poynting_e_cross_h_f sh (we, wh) E (cjf H)) idx
    = - csum (fun c => vol_e we wh c idx * (E c idx * conj (J c idx)))
      - csum (fun c => vol_h we wh c idx * (M c idx * conj (H c idx)))
      - csum (fun c => vol_e we wh c idx * (E c idx * conj (im * om * (eps c idx * E c idx))))
      - csum (fun c => vol_h we wh c idx * (im * om * (matl mu c idx * H c idx) * conj (H c idx))).
Proof.
  intros K sh om we wh eps mu E H J M idx HL He Hh Hr Hi A B.
  exact (complex_poynting K sh om (we, wh) eps mu E H J M idx HL He Hh Hr Hi A B).
Qed.
Print Assumptions C117_complex_poynting.

(** Real frequency and widths: the outgoing power per cell; gain where Im eps or Im mu
    is positive, loss where negative. *)
Theorem C117_power_balance :
  forall (sh : list nat) (we wh : widths RF) (om : R) (eps : field CC) (mu : option (field CC)) (E H J M : field CC) (idx : list nat),
    length sh = 3%nat -> nzw (K := RF) sh we -> nzw (K := RF) sh wh -> inb sh idx ->
    feq (K := CC) sh (fst (eh_full_f (K := CC) sh (mkC om 0) (cw we, cw wh) eps mu E H)) J ->
    feq (K := CC) sh (snd (eh_full_f (K := CC) sh (mkC om 0) (cw we, cw wh) eps mu E H)) (fun c i => copp (M c i)) ->
    (cre (outflow (K := CC) sh (poynting_e_cross_h_f (K := CC) sh (cw we, cw wh) E (cjf (K := CC) H)) idx)
    = - csum (K := RF) (fun c => vol_e (K := RF) we wh c idx * cre (cmul (E c idx) (cconj (J c idx))))
      - csum (K := RF) (fun c => vol_h (K := RF) we wh c idx * cre (cmul (M c idx) (cconj (H c idx))))
      + om * (csum (K := RF) (fun c => vol_e (K := RF) we wh c idx * (cim (eps c idx) * cnrm (E c idx)))
              + csum (K := RF) (fun c => vol_h (K := RF) we wh c idx * (cim (matl (K := CC) mu c idx) * cnrm (H c idx)))))%R.
Proof.
  intros sh we wh om eps mu E H J M idx HL He Hh Hi A B.
  exact (power_balance sh we wh om eps mu HL He Hh E H J M idx Hi A B).
Qed.
Print Assumptions C117_power_balance.

(** Summed over the (periodic) grid the flow cancels. *)
Theorem C117_total_power :
  forall (sh : list nat) (we wh : widths RF) (om : R) (eps : field CC) (mu : option (field CC)) (E H J M : field CC),
    length sh = 3%nat -> nzw (K := RF) sh we -> nzw (K := RF) sh wh ->
    feq (K := CC) sh (fst (eh_full_f (K := CC) sh (mkC om 0) (cw we, cw wh) eps mu E H)) J ->
    feq (K := CC) sh (snd (eh_full_f (K := CC) sh (mkC om 0) (cw we, cw wh) eps mu E H)) (fun c i => copp (M c i)) ->
    (fsum (K := RF) sh (fun c i => vol_e (K := RF) we wh c i * cre (cmul (E c i) (cconj (J c i))))
     + fsum (K := RF) sh (fun c i => vol_h (K := RF) we wh c i * cre (cmul (M c i) (cconj (H c i))))
     = om * (fsum (K := RF) sh (fun c i => vol_e (K := RF) we wh c i * (cim (eps c i) * cnrm (E c i)))
             + fsum (K := RF) sh (fun c i => vol_h (K := RF) we wh c i * (cim (matl (K := CC) mu c i) * cnrm (H c i)))))%R.
Proof.
  intros sh we wh om eps mu E H J M HL He Hh A B.
  exact (total_power sh we wh om eps mu HL He Hh E H J M A B).
Qed.
Print Assumptions C117_total_power.

Example C117_example :
  outflow hx_sh (poynting_e_cross_h_f hx_sh hx_d hx_E (cjf hx_H)) [0; 0; 0]%nat <> (0 : GQC)
  /\ nzw hx_sh (fst hx_d) /\ nzw hx_sh (snd hx_d) /\ realw (snd hx_d).
Proof.
  split; [|split; [|split]].
  - intro X. apply (f_equal (fun x => Qeq_bool (this (gre x)) 0 && Qeq_bool (this (gim x)) 0)%bool) in X. vm_compute in X. discriminate.
  - intros a i _ _. apply gz_nz. lia.
  - intros a i _ _. apply gz_pos. lia.
  - intros a i. unfold hx_d, gz. cbn [snd conj GQC]. apply gq_ext; [reflexivity|]. apply Qc_is_canon. reflexivity.
Qed.

(** ** C118: Lorentz reciprocity *)
(** Two currents and their fields, on the same grid with the same (complex) widths,
    materials and conductors: each current does the same work on the other's field. *)
Theorem C118_reciprocity :
  forall (K : CFld) (sh : list nat) (om : K) (we wh : widths K) (eps : vect K) (mu pec pmc : option (vect K)) (E1 E2 J1 J2 : field K),
    length sh = 3%nat -> nzw sh we -> nzw sh wh -> om <> 0 ->
    let A := e_full_mat sh om (we, wh) eps mu pec pmc in
    feq sh (unvec sh (mv (3 * prodl sh) A (vec sh E1))) (fun c i => - im * om * J1 c i) ->
    feq sh (unvec sh (mv (3 * prodl sh) A (vec sh E2))) (fun c i => - im * om * J2 c i) ->
    fsum sh (fun c i => vol_e we wh c i * (J1 c i * E2 c i))
    = fsum sh (fun c i => vol_e we wh c i * (J2 c i * E1 c i)).
Proof.
  intros K sh om we wh eps mu pec pmc E1 E2 J1 J2 HL He Hh Hom A Q1 Q2.
  assert (U : forall E J : field K, feq sh (unvec sh (mv (3 * prodl sh) A (vec sh E))) (fun c i => - im * om * J c i) ->
     forall q, (q < 3 * prodl sh)%nat -> mv (3 * prodl sh) A (vec sh E) q = - im * om * vec sh J q).
  { intros E J Q q Hq. destruct (split3 sh q Hq) as (c & p & -> & Hc & Hp).
    specialize (Q c (unravel sh p) Hc (inb_unravel sh p Hp)). unfold unvec in Q. rewrite ravel_unravel in Q by exact Hp.
    rewrite Q. now rewrite vec_at. }
  pose proof (reciprocity K sh om (we, wh) eps mu pec pmc (vec sh E1) (vec sh E2) (vec sh J1) (vec sh J2) HL He Hh Hom
     (U E1 J1 Q1) (U E2 J2 Q2)) as R.
  rewrite !fsum_flat in R.
  assert (V : forall F G : field K, fsum sh (unvec sh (fun q => p_squared sh (we, wh) q * (vec sh F q * vec sh G q)))
     = fsum sh (fun c i => vol_e we wh c i * (F c i * G c i))).
  { intros F G. unfold fsum. f_equal; [f_equal|]; apply gsum_ext; intros i Hi; unfold unvec;
      rewrite p_squared_idx, !vec_offset by (try assumption; lia); reflexivity. }
  rewrite !V in R. exact R.
Qed.
Print Assumptions C118_reciprocity.

(** Complex widths, a material, and both kinds of conductor. *)
Definition hx_we : widths GQC := fun a i => gz (Z.of_nat (1 + a)) (Z.of_nat i).
Definition hx_wh : widths GQC := fun a i => gz (Z.of_nat (1 + i)) 1.
Definition hx_pec : vect GQC := fun q => if Nat.eqb q 4 then gz 1 0 else 0.
Definition hx_pmc : vect GQC := fun q => if Nat.eqb q 3 then gz 1 0 else 0.
Definition hx_G : field GQC := fun c idx => gz (Z.of_nat c) (Z.of_nat (coord idx 0)).
Definition rx_A : mat GQC := e_full_mat hx_sh hx_om (hx_we, hx_wh) (vec hx_sh hx_eps) (Some (vec hx_sh hx_mu)) (Some hx_pec) (Some hx_pmc).
Definition rx_J (E : field GQC) : field GQC :=
  fun c i => unvec hx_sh (mv (3 * prodl hx_sh) rx_A (vec hx_sh E)) c i / (- im * hx_om).
Example C118_example :
  feq hx_sh (unvec hx_sh (mv (3 * prodl hx_sh) rx_A (vec hx_sh hx_E))) (fun c i => - im * hx_om * rx_J hx_E c i)
  /\ feq hx_sh (unvec hx_sh (mv (3 * prodl hx_sh) rx_A (vec hx_sh hx_G))) (fun c i => - im * hx_om * rx_J hx_G c i)
  /\ fsum hx_sh (fun c i => vol_e hx_we hx_wh c i * (rx_J hx_E c i * hx_G c i))
     = fsum hx_sh (fun c i => vol_e hx_we hx_wh c i * (rx_J hx_G c i * hx_E c i))
  /\ rx_J hx_E 2%nat [1; 0; 0]%nat <> 0 /\ hx_G 2%nat [1; 0; 0]%nat <> 0.
Proof.
  assert (N : - im * hx_om <> (0 : GQC)) by (intro X; apply (f_equal (fun x => Qeq_bool (this (gim x)) 0)) in X; vm_compute in X; discriminate).
  assert (Q : forall E, feq hx_sh (unvec hx_sh (mv (3 * prodl hx_sh) rx_A (vec hx_sh E))) (fun c i => - im * hx_om * rx_J E c i)).
  { intros E c i Hc Hi. unfold rx_J. symmetry. exact (div_back GQC _ _ N). }
  split; [apply Q|]. split; [apply Q|]. split.
  - apply (C118_reciprocity GQC hx_sh hx_om hx_we hx_wh (vec hx_sh hx_eps) (Some (vec hx_sh hx_mu)) (Some hx_pec) (Some hx_pmc) hx_E hx_G (rx_J hx_E) (rx_J hx_G)).
    + reflexivity.
    + intros a i _ _. apply gz_pos. lia.
    + intros a i _ _. apply gz_pos. lia.
    + intro X. apply (f_equal (fun x => Qeq_bool (this (gre x)) 0)) in X. vm_compute in X. discriminate.
    + apply Q.
    + apply Q.
  - split; [|apply gz_pos; lia]. intro X. apply (f_equal (fun x => Qeq_bool (this (gre x)) 0 && Qeq_bool (this (gim x)) 0)%bool) in X. vm_compute in X. discriminate.
Qed.

(** ** C121: with loss everywhere the driven problem has at most one solution *)
Theorem C121_unique_solution :
  forall (sh : list nat) (we wh : widths RF) (om : R) (eps : field CC) (mu : option (field CC)) (E E' : field CC),
    length sh = 3%nat -> (0 < om)%R ->
    (forall a i, (a < 3)%nat -> (i < dim sh a)%nat -> 0 < we a i /\ 0 < wh a i)%R ->
    (forall c i, (c < 3)%nat -> inb sh i -> cim (eps c i) < 0)%R ->
    (forall c i, (c < 3)%nat -> inb sh i -> cim (matl (K := CC) mu c i) <= 0)%R ->
    nzm_opt (K := CC) sh mu ->
    let A := e_full_mat (K := CC) sh (mkC om 0) (cw we, cw wh) (vec (K := CC) sh eps) (option_map (vec (K := CC) sh) mu) None None in
    feq (K := CC) sh (unvec (K := CC) sh (mv (K := CC) (3 * prodl sh) A (vec (K := CC) sh E)))
                     (unvec (K := CC) sh (mv (K := CC) (3 * prodl sh) A (vec (K := CC) sh E'))) ->
    feq (K := CC) sh E E'.
Proof.
  intros sh we wh om eps mu E E' HL Hom Hw Ie Im Hm A Q.
  set (D := fun c i => csub (E c i) (E' c i)).
  assert (Q0 : feq (K := CC) sh (unvec (K := CC) sh (mv (K := CC) (3 * prodl sh) A (vec (K := CC) sh D)))
                  (fun c i => fmul (f := CC) (fmul (f := CC) (fopp (f := CC) im) (mkC om 0)) (noj (K := CC) c i))).
  { intros c i Hc Hi. specialize (Q c i Hc Hi). unfold unvec in *.
    rewrite (mv_sub_aux CC _ A (vec (K := CC) sh E) (vec (K := CC) sh E') (vec (K := CC) sh D)) by reflexivity.
    rewrite Q. apply (zero_aux CC). }
  assert (On : mkC om 0 <> (0 : CC)) by (intro X; apply (f_equal cre) in X; cbn in X; lra).
  destruct (e_full_solution CC sh (mkC om 0) (cw we, cw wh) eps mu D (noj (K := CC)) HL On Hm Q0) as [P1 P2].
  assert (Z : feq (K := CC) sh D (noj (K := CC))).
  { apply (lossy_zero sh we wh om eps mu HL) with (H := e2h_f (K := CC) sh (mkC om 0) (cw we, cw wh) mu D); try assumption.
    - intros a i Ha Hi X. rewrite HL in Ha. destruct (Hw a i Ha Hi) as [Y _]. change (we a i = 0%R) in X. lra.
    - intros a i Ha Hi X. rewrite HL in Ha. destruct (Hw a i Ha Hi) as [_ Y]. change (wh a i = 0%R) in X. lra.
    - intros. now apply Hw.
    - intros. now apply Hw. }
  intros c i Hc Hi. specialize (Z c i Hc Hi). unfold D in Z.
  apply cpx_ext; [apply (f_equal cre) in Z|apply (f_equal cim) in Z]; cbn in Z |- *; lra.
Qed.
Print Assumptions C121_unique_solution.

(** A lossy medium on a non-uniform grid. *)
Definition ux_w : widths RF := fun a i => (1 + INR (a + i))%R.
Definition ux_eps : field CC := fun c i => mkC 2%R (- (1 + INR c))%R.
Definition ux_mu : field CC := fun c i => mkC 3%R (- INR (coord i 0))%R.
Example C121_example :
  (forall a i, (a < 3)%nat -> (i < dim [2; 1; 3]%nat a)%nat -> 0 < ux_w a i /\ 0 < ux_w a i)%R
  /\ (forall c i, (c < 3)%nat -> inb [2; 1; 3]%nat i -> cim (ux_eps c i) < 0)%R
  /\ (forall c i, (c < 3)%nat -> inb [2; 1; 3]%nat i -> cim (matl (K := CC) (Some ux_mu) c i) <= 0)%R
  /\ nzm_opt (K := CC) [2; 1; 3]%nat (Some ux_mu).
Proof.
  split; [|split; [|split]].
  - intros a i _ _. unfold ux_w. pose proof (pos_INR (a + i)). lra.
  - intros c i _ _. unfold ux_eps. cbn [cim]. pose proof (pos_INR c). lra.
  - intros c i _ _. unfold matl, ux_mu. cbn [cim]. pose proof (pos_INR (coord i 0)). lra.
  - intros c i _ _ X. apply (f_equal cre) in X. cbn in X. lra.
Qed.

(** Real fields of a real run, and the power balance for them: E along z varying with
    the cell, J from the equations. *)
Definition vx_E : field CC := fun c i => if Nat.eqb c 2 then mkC (INR (coord i 0)) 1 else c0.
Definition vx_one : field RF := fun _ _ => 1%R.
Definition vx_w : widths RF := fun _ _ => 1%R.
Definition vx_Om : cpx := mkC (2 * sin (1 * 1 / 2) / 1) 0.
Definition vx_H : field CC := e2h_f (K := CC) [2; 1; 1]%nat vx_Om (cw vx_w, cw vx_w) None vx_E.
Definition vx_J : field CC := fst (eh_full_f (K := CC) [2; 1; 1]%nat vx_Om (cw vx_w, cw vx_w) (cf vx_one) None vx_E vx_H).
Example C115_real_example :
  feq (K := CC) [2; 1; 1]%nat (snd (eh_full_f (K := CC) [2; 1; 1]%nat vx_Om (cw vx_w, cw vx_w) (cf vx_one) None vx_E vx_H)) noj
  /\ nzw (K := RF) [2; 1; 1]%nat vx_w /\ nzm (K := RF) [2; 1; 1]%nat vx_one
  /\ vx_E 2%nat [0; 0; 0]%nat <> vx_E 2%nat [1; 0; 0]%nat.
Proof.
  assert (S : (0 < sin (1 * 1 / 2))%R) by (apply sin_gt_0; [lra|]; pose proof PI_RGT_0; pose proof PI2_3_2; lra).
  assert (O : vx_Om <> (0 : CC)) by (intro X; apply (f_equal cre) in X; unfold vx_Om in X; cbn in X; lra).
  split; [|split; [|split]].
  - exact (e2h_no_m CC [2; 1; 1]%nat vx_Om (cw vx_w, cw vx_w) (cf vx_one) None vx_E O I).
  - intros a i _ _. exact R1_neq_R0.
  - intros a i _ _. exact R1_neq_R0.
  - intro X. apply (f_equal cre) in X. cbn in X. lra.
Qed.
