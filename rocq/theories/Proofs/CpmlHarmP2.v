(** Runs with CPML layers whose fields and memories grow by a fixed factor. *)
From Coq Require Import List Arith ZArith Lia Field Bool.
From Verif.Lib Require Import Num Sums Idx Mat.
From Verif.Model Require Import Fdmath Fdtd Fdfd Pml.
From Verif.Spec Require Import Yee FdtdRun FdfdSpec HarmonicSpec CpmlSpec CpmlHarmonicSpec.
From Verif.Proofs Require Import FdmathP FdmathP2 FdtdP FdtdP2 FdfdP HarmonicP PmlP CpmlHarmP.
Import ListNotations.
Local Open Scope nat_scope.

Section P.
  Variable K : CFld.
  Add Field Kfield : (fth K).
  Local Open Scope fld_scope.
  Variables (sh : list nat) (Ls : nat -> nat -> option (layer K)) (dt om z : K) (w : widths K) (eps mu E H J : field K).
  Hypothesis HL : length sh = 3%nat.
  Hypothesis Hz : z <> 0.
  Hypothesis Hw : nzw sh w.
  Hypothesis Heps : nzm sh eps.
  Hypothesis Hmu : nzm sh mu.
  Hypothesis Hom : im * om * dt = z - 1 / z.
  Hypothesis RE : regular sh Ls lp0e lp1e lp2e (z * z).
  Hypothesis RH : regular sh Ls lp0h lp1h lp2h (z * z).
  Let Zn : z * z <> 0 := fmul_nz K z z Hz Hz.
  Let wE := effective sh Ls lp0e lp1e lp2e (z * z) w.
  Let wH := effective sh Ls lp0h lp1h lp2h (z * z) w.
  Let stE (h : field K) := steady K sh Ls lp0e lp1e lp2e (z * z) (fun a b => deriv_back sh (Some w) a (h b)).
  Let stH (e : field K) := steady K sh Ls lp0h lp1h lp2h (z * z) (fun a b => deriv_forward sh (Some w) a (e b)).

  Lemma upd_H_steady ps e h : stH e ps ->
    feq sh (snd (update_H sh Ls dt w ps e h mu)) (maxwell_h sh dt (Some (wH, wE)) e h (Some mu)).
  Proof.
    intros S c idx Hc Hi. rewrite update_H_core by exact Hc.
    rewrite (core_forward K sh Ls lp0h lp1h lp2h (z * z) Zn RH HL w Hw) by assumption.
    unfold maxwell_h. cbn [option_map fst]. fold wH. field. now apply Hmu.
  Qed.
  Lemma upd_E_steady ps e h : stE h ps ->
    feq sh (snd (update_E sh Ls dt w ps e h eps)) (maxwell_e sh dt (Some (wH, wE)) e h eps).
  Proof.
    intros S c idx Hc Hi. rewrite update_E_core by exact Hc.
    rewrite (core_back K sh Ls lp0e lp1e lp2e (z * z) Zn RE HL w Hw) by assumption.
    unfold maxwell_e. cbn [option_map snd]. fold wE. field. now apply Heps.
  Qed.

  (** A step whose memories are steady is a plain step on the stretched grid. *)
  Lemma step_steady j st : stH (pE_ st) (psH st) ->
    stE (snd (update_H sh Ls dt w (psH st) (pE_ st) (pH_ st) mu)) (psE st) ->
    let st' := cpml_step sh Ls dt w eps mu j st in
    seq_st sh (mkst (pE_ st') (pH_ st')) (step sh dt (Some (wH, wE)) eps (Some mu) j (mkst (pE_ st) (pH_ st)))
    /\ forall a pp k idx, (a < 3)%nat -> (pp < 2)%nat -> (k < 2)%nat -> inb sh idx -> here sh Ls a pp idx <> None ->
         psE st' a pp k idx = z * z * psE st a pp k idx /\ psH st' a pp k idx = z * z * psH st a pp k idx.
  Proof.
    intros SH SE st'. pose proof (upd_H_steady _ _ (pH_ st) SH) as A.
    pose proof (upd_E_steady (psE st) (pE_ st) _ SE) as B.
    split; [split|].
    - intros c idx Hc Hi. unfold st', cpml_step. cbn [pE_ step sE sH].
      rewrite (B c idx Hc Hi). f_equal.
      apply (maxwell_e_ext K sh dt _ eps _ _ _ _ HL (feq_refl K sh (pE_ st)) A c idx Hc Hi).
    - intros c idx Hc Hi. unfold st', cpml_step. cbn [pH_ step sE sH]. apply (A c idx Hc Hi).
    - intros a pp k idx Ha Hp Hk Hi Hh. unfold st', cpml_step. cbn [psE psH]. split.
      + rewrite update_E_psi. now apply SE.
      + rewrite update_H_psi. now apply SH.
  Qed.

  (** ** From the frequency domain *)
  Definition memH : psis K := steady_mem K sh Ls lp0h lp1h lp2h (z * z) (fun a b => deriv_forward sh (Some w) a (E b)).
  Definition memE : psis K := steady_mem K sh Ls lp0e lp1e lp2e (z * z) (fun a b => deriv_back sh (Some w) a (fun i => z * H b i)).
  Definition start (PE PH : psis K) : pstate K := mkps E (fun c i => 1 / z * H c i) PE PH.

  Lemma one_step PE PH q st :
    stH E PH -> stE (fun c i => z * H c i) PE ->
    feq sh (fst (eh_full_f sh om (wH, wE) eps (Some mu) E H)) J -> feq sh (snd (eh_full_f sh om (wH, wE) eps (Some mu) E H)) noj ->
    peq sh Ls st (times (zpow z (2 * q)) (start PE PH)) ->
    peq sh Ls (cpml_step sh Ls dt w eps mu (injected dt z J q) st) (times (zpow z (2 * S q)) (start PE PH)).
  Proof.
    intros SH SE A B [QE [QH QM]]. set (x := zpow z (2 * q)) in *.
    assert (SH' : stH (pE_ st) (psH st)).
    { apply (steady_scale K sh Ls lp0h lp1h lp2h (z * z) HL x (fun a b => deriv_forward sh (Some w) a (E b)) _ PH _); [| |exact SH].
      - intros a c idx Ha Hc Hi. rewrite <- deriv_forward_scale. apply deriv_forward_ext; [lia|exact Hi|].
        intros i Hi'. now rewrite (QE c i Hc Hi').
      - intros a pp k idx Ha Hp Hk Hi Hh. now apply QM. }
    assert (Q0 : seq_st sh (mkst (pE_ st) (pH_ st)) (harmonic z E H q)).
    { split; intros c i Hc Hi; cbn [sE sH harmonic].
      - rewrite (QE c i Hc Hi). reflexivity.
      - rewrite (QH c i Hc Hi). cbn [times start pH_]. fold x. rewrite !(Fdiv_def (fth K)). ring. }
    pose proof (harm_step K sh dt om z (wH, wE) eps (Some mu) E H J HL Hz Heps Hmu Hom q A B) as N1.
    assert (QHn : feq sh (snd (update_H sh Ls dt w (psH st) (pE_ st) (pH_ st) mu)) (fun c i => x * (z * H c i))).
    { intros c i Hc Hi. rewrite (upd_H_steady _ _ (pH_ st) SH' c i Hc Hi).
      pose proof (proj2 (step_ext K sh dt (Some (wH, wE)) eps (Some mu) (noj (K := K)) _ _ HL Q0) c i Hc Hi) as X.
      pose proof (proj2 N1 c i Hc Hi) as Y. etransitivity; [exact X|]. etransitivity; [exact Y|]. cbn [harmonic sH]. rewrite zpow_SS. fold x.
      field. exact Hz. }
    assert (SE' : stE (snd (update_H sh Ls dt w (psH st) (pE_ st) (pH_ st) mu)) (psE st)).
    { apply (steady_scale K sh Ls lp0e lp1e lp2e (z * z) HL x (fun a b => deriv_back sh (Some w) a (fun i => z * H b i)) _ PE _); [| |exact SE].
      - intros a c idx Ha Hc Hi. rewrite <- deriv_back_scale. apply deriv_back_ext; [lia|exact Hi|].
        intros i Hi'. now rewrite (QHn c i Hc Hi').
      - intros a pp k idx Ha Hp Hk Hi Hh. now apply QM. }
    destruct (step_steady (injected dt z J q) st SH' SE') as [F M].
    assert (F2 : seq_st sh (mkst (pE_ (cpml_step sh Ls dt w eps mu (injected dt z J q) st)) (pH_ (cpml_step sh Ls dt w eps mu (injected dt z J q) st))) (harmonic z E H (S q))).
    { eapply seq_st_trans; [exact F|]. eapply seq_st_trans; [apply step_ext; [exact HL|exact Q0]|exact N1]. }
    destruct F2 as [F1 F2]. cbn [sE sH] in F1, F2. split; [|split].
    - intros c i Hc Hi. rewrite (F1 c i Hc Hi). reflexivity.
    - intros c i Hc Hi. rewrite (F2 c i Hc Hi). cbn [harmonic sH times start pH_]. rewrite !(Fdiv_def (fth K)). ring.
    - intros a pp k idx Ha Hp Hk Hi Hh. destruct (M a pp k idx Ha Hp Hk Hi Hh) as [M1 M2].
      destruct (QM a pp k idx Ha Hp Hk Hi Hh) as [M3 M4]. rewrite M1, M2, M3, M4. cbn [times start psE psH]. rewrite zpow_SS.
      fold x. split; ring.
  Qed.

  Lemma peq_start PE PH : peq sh Ls (start PE PH) (times (zpow z (2 * 0)) (start PE PH)).
  Proof.
    assert (Z0 : zpow z (2 * 0) = 1) by reflexivity. rewrite Z0. split; [|split].
    - intros c i _ _. cbn [times start pE_]. ring.
    - intros c i _ _. cbn [times start pH_]. ring.
    - intros. cbn [times start psE psH]. split; ring.
  Qed.

  Lemma run_peq PE PH N :
    stH E PH -> stE (fun c i => z * H c i) PE ->
    feq sh (fst (eh_full_f sh om (wH, wE) eps (Some mu) E H)) J -> feq sh (snd (eh_full_f sh om (wH, wE) eps (Some mu) E H)) noj ->
    peq sh Ls (cpml_run sh Ls dt w eps mu (map (injected dt z J) (seq 0 N)) (start PE PH)) (times (zpow z (2 * N)) (start PE PH)).
  Proof.
    intros SH SE A B. induction N as [|N IH]; [apply peq_start|].
    rewrite seq_S, map_app. unfold cpml_run. rewrite fold_left_app. cbn [map fold_left Nat.add].
    now apply one_step.
  Qed.

  Lemma to_run : feq sh (fst (eh_full_f sh om (wH, wE) eps (Some mu) E H)) J -> feq sh (snd (eh_full_f sh om (wH, wE) eps (Some mu) E H)) noj ->
    exists PE PH, forall N, peq sh Ls (cpml_run sh Ls dt w eps mu (map (injected dt z J) (seq 0 N)) (start PE PH)) (times (zpow z (2 * N)) (start PE PH)).
  Proof.
    intros A B. exists memE, memH. intro N. apply run_peq; try assumption.
    - exact (steady_mem_steady K sh Ls lp0h lp1h lp2h (z * z) RH HL _).
    - exact (steady_mem_steady K sh Ls lp0e lp1e lp2e (z * z) RE HL _).
  Qed.

  (** ** Back: one step is enough *)
  Lemma from_run PE PH : dt <> 0 ->
    peq sh Ls (cpml_step sh Ls dt w eps mu (injected dt z J 0) (start PE PH)) (times (zpow z (2 * 1)) (start PE PH)) ->
    feq sh (fst (eh_full_f sh om (wH, wE) eps (Some mu) E H)) J /\ feq sh (snd (eh_full_f sh om (wH, wE) eps (Some mu) E H)) noj.
  Proof.
    intros Hdt [QE [QH QM]].
    assert (Z2 : forall y : K, zpow z (2 * 1) * y = z * z * y) by (intro y; cbn [Nat.mul Nat.add zpow]; ring).
    assert (SH : stH (pE_ (start PE PH)) (psH (start PE PH))).
    { intros a pp k idx Ha Hp Hk Hi Hh. destruct (QM a pp k idx Ha Hp Hk Hi Hh) as [_ X].
      cbn [times psH] in X. rewrite Z2 in X. rewrite <- X. reflexivity. }
    assert (SE : stE (snd (update_H sh Ls dt w (psH (start PE PH)) (pE_ (start PE PH)) (pH_ (start PE PH)) mu)) (psE (start PE PH))).
    { intros a pp k idx Ha Hp Hk Hi Hh. destruct (QM a pp k idx Ha Hp Hk Hi Hh) as [X _].
      cbn [times psE] in X. rewrite Z2 in X. rewrite <- X. reflexivity. }
    destruct (step_steady (injected dt z J 0) (start PE PH) SH SE) as [F _].
    apply (run_harm K sh dt om z (wH, wE) eps (Some mu) E H J HL Hz Heps Hmu Hom Hdt).
    assert (Q0 : seq_st sh (harmonic z E H 0) (mkst (pE_ (start PE PH)) (pH_ (start PE PH)))).
    { assert (Z0 : zpow z (2 * 0) = 1) by reflexivity. split; intros c i Hc Hi; cbn [sE sH harmonic start pE_ pH_]; rewrite Z0; rewrite ?(Fdiv_def (fth K)); ring. }
    eapply seq_st_trans; [apply step_ext; [exact HL|exact Q0]|].
    eapply seq_st_trans; [apply seq_st_sym; exact F|].
    split; intros c i Hc Hi; cbn [sE sH].
    - rewrite (QE c i Hc Hi). reflexivity.
    - rewrite (QH c i Hc Hi). cbn [times start pH_ harmonic sH]. rewrite !(Fdiv_def (fth K)). ring.
  Qed.
End P.
