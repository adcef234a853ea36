(** Real parts of complex time-domain fields. *)
From Coq Require Import Reals Lra List Arith ZArith Lia Bool.
From Verif.Lib Require Import Num Sums Idx Mat RealF Cexp.
From Verif.Model Require Import Fdmath Fdtd Fdfd.
From Verif.Spec Require Import Yee FdtdRun HarmonicSpec.
From Verif.Proofs Require Import FdmathP FdtdP2 HarmonicP.
Import ListNotations.
Local Open Scope R_scope.

Lemma re_div_real x w : w <> 0 -> cre (cdiv x (mkC w 0)) = cre x / w.
Proof. intro H. unfold cdiv, cinv, cmul, cnrm. cbn [cre cim]. field. lra. Qed.

Section Re.
  Variable sh : list nat.
  Variables we wh : widths RF.
  Hypothesis HL : length sh = 3%nat.
  Hypothesis He : nzw (K := RF) sh we.
  Hypothesis Hh : nzw (K := RF) sh wh.

  Definition re (F : field CC) : field RF := fun c i => cre (F c i).

  Lemma re_deriv_forward a (f : arr CC) idx : (a < 3)%nat -> inb sh idx ->
    deriv_forward (K := RF) sh (Some we) a (fun i => cre (f i)) idx = cre (deriv_forward (K := CC) sh (Some (cw we)) a f idx).
  Proof.
    intros Ha Hi. symmetry. refine (re_div_real _ _ _). apply He; [lia|]. apply inb_coord; [exact Hi|lia].
  Qed.
  Lemma re_deriv_back a (f : arr CC) idx : (a < 3)%nat -> inb sh idx ->
    deriv_back (K := RF) sh (Some wh) a (fun i => cre (f i)) idx = cre (deriv_back (K := CC) sh (Some (cw wh)) a f idx).
  Proof.
    intros Ha Hi. symmetry. refine (re_div_real _ _ _). apply Hh; [lia|]. apply inb_coord; [exact Hi|lia].
  Qed.
  Lemma re_curl_forward F c idx : (c < 3)%nat -> inb sh idx ->
    curl_forward (K := RF) sh (Some we) (re F) c idx = cre (curl_forward (K := CC) sh (Some (cw we)) F c idx).
  Proof.
    intros Hc Hi. unfold curl_forward, curl_with, re.
    destruct c as [|[|[|c]]]; [| | |lia]; cbn [fsub RF]; rewrite !re_deriv_forward by (try assumption; lia); reflexivity.
  Qed.
  Lemma re_curl_back F c idx : (c < 3)%nat -> inb sh idx ->
    curl_back (K := RF) sh (Some wh) (re F) c idx = cre (curl_back (K := CC) sh (Some (cw wh)) F c idx).
  Proof.
    intros Hc Hi. unfold curl_back, curl_with, re.
    destruct c as [|[|[|c]]]; [| | |lia]; cbn [fsub RF]; rewrite !re_deriv_back by (try assumption; lia); reflexivity.
  Qed.
End Re.

Lemma zpow_cexp (t : R) n : zpow (K := CC) (cexp (mkC 0 t)) n = cexp (mkC 0 (INR n * t)).
Proof.
  induction n as [|n IH]; [cbn [zpow INR]; change (@f1 CC) with c1; rewrite <- cexp_0; f_equal; apply cpx_ext; cbn; ring|].
  cbn [zpow]. rewrite IH. change (@fmul CC) with cmul. rewrite <- cexp_add. f_equal. apply cpx_ext; [cbn; ring|].
  rewrite S_INR. cbn [cadd cim]. ring.
Qed.

Lemma re_phase x t : cre (cmul (cexp (mkC 0 t)) x) = cre x * cos t - cim x * sin t.
Proof. unfold cexp, cmul. cbn [cre cim]. rewrite exp_0. ring. Qed.

Lemma re_neg_scale x t : cre (copp (cmul (mkC t 0) x)) = - (t * cre x).
Proof. unfold copp, cmul. cbn [cre cim]. ring. Qed.

Section Run.
  Variable sh : list nat.
  Variables we wh : widths RF.
  Variables (dt : R) (eps : field RF) (mu : option (field RF)).
  Hypothesis HL : length sh = 3%nat.
  Hypothesis He : nzw (K := RF) sh we.
  Hypothesis Hh : nzw (K := RF) sh wh.
  Hypothesis Heps : nzm (K := RF) sh eps.
  Hypothesis Hmu : nzm_opt (K := RF) sh mu.

  Definition re_st (s : state CC) : state RF := mkst (re (sE s)) (re (sH s)).

  Lemma re_scaled x w c : w <> 0 -> cre (cdiv (cmul (mkC c 0) x) (mkC w 0)) = c * cre x / w.
  Proof. intro H. rewrite re_div_real by exact H. unfold cmul. cbn [cre cim]. f_equal. ring. Qed.

  Lemma re_step (j : field CC) (s : state CC) :
    seq_st sh (step (K := RF) sh dt (Some (we, wh)) eps mu (re j) (re_st s))
              (re_st (step (K := CC) sh (mkC dt 0) (Some (cw we, cw wh)) (cf eps) (option_map cf mu) j s)).
  Proof.
    assert (QH : feq (K := RF) sh (maxwell_h (K := RF) sh dt (Some (we, wh)) (re (sE s)) (re (sH s)) mu)
        (re (maxwell_h (K := CC) sh (mkC dt 0) (Some (cw we, cw wh)) (sE s) (sH s) (option_map cf mu)))).
    { intros c idx Hc Hi. unfold maxwell_h, re. cbn [option_map fst].
      change (fun (c : nat) (i : list nat) => cre (sE s c i)) with (re (sE s)). rewrite (re_curl_forward sh we HL He) by assumption.
      destruct mu as [m|]; cbn [option_map].
      - refine (eq_trans _ (f_equal (fun x => cre (sH s c idx) - x) (eq_sym (re_scaled _ _ _ _)))); [reflexivity|]. now apply Hmu.
      - cbn. ring. }
    split; [|exact QH]. intros c idx Hc Hi. cbn [step sE re_st].
    pose proof (maxwell_e_ext RF sh dt (Some (we, wh)) eps _ _ _ _ HL (feq_refl RF sh (re (sE s))) QH c idx Hc Hi) as Y.
    refine (eq_trans (f_equal (fun x => fadd x (fdiv (re j c idx) (eps c idx))) Y) _). clear Y.
    unfold maxwell_e. cbn [option_map snd].
    rewrite (re_curl_back sh wh HL Hh) by assumption.
    set (C := curl_back (K := CC) _ _ _ _ _).
    refine (eq_trans _ (f_equal2 Rplus (f_equal (fun x => cre (sE s c idx) + x) (eq_sym (re_scaled C (eps c idx) dt _)))
       (eq_sym (re_div_real (j c idx) (eps c idx) _)))); [reflexivity|now apply Heps|now apply Heps].
  Qed.
End Run.
