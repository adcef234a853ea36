From Coq Require Import List Arith ZArith Lia Field.
From Verif.Lib Require Import Num Sums Idx Mat.
From Verif.Model Require Import Fdmath Fdtd Fdfd.
From Verif.Spec Require Import Grid Yee FdtdRun FdfdSpec StretchSpec.
From Verif.Proofs Require Import FdmathP FdfdP HarmonicP.
Import ListNotations.
Local Open Scope fld_scope.

Section P.
  Variable K : CFld.
  Add Field Kfield : (fth K).
  Variables (sh : list nat) (w w' : widths K).
  Hypothesis HL : length sh = 3%nat.
  Hypothesis Hw : nzw sh w.
  Hypothesis Hw' : nzw sh w'.

  Lemma along_shift (s : widths K) a b d idx : a <> b -> along s a (shift_ix sh b d idx) = along s a idx.
  Proof. intro N. unfold along. rewrite coord_shift_other by lia. reflexivity. Qed.
  Lemma along_nz a idx : (a < 3)%nat -> inb sh idx -> w a (coord idx a) <> 0 /\ w' a (coord idx a) <> 0.
  Proof. intros Ha Hi. split; [apply Hw|apply Hw']; try lia; apply inb_coord; try assumption; lia. Qed.

  Lemma stretch_forward F c idx : (c < 3)%nat -> inb sh idx ->
    curl_forward sh (Some w) (own (ratio w' w) F) c idx = face (ratio w' w) (curl_forward sh (Some w') F) c idx.
  Proof.
    intros Hc Hi. unfold face.
    change (curl_forward sh (Some w)) with (Grid.curl_next sh (Some w)). change (curl_forward sh (Some w')) with (Grid.curl_next sh (Some w')).
    destruct (along_nz 0 idx ltac:(lia) Hi) as [A0 B0]. destruct (along_nz 1 idx ltac:(lia) Hi) as [A1 B1]. destruct (along_nz 2 idx ltac:(lia) Hi) as [A2 B2].
    destruct c as [|[|[|c]]]; [| | |lia]; cbn [ax1 ax2]; unfold Grid.curl_next, Grid.curl_of, Grid.diff_next, Grid.over, own;
      rewrite ?along_shift by lia; unfold along, ratio; field; repeat split; assumption.
  Qed.
  Lemma stretch_back F c idx : (c < 3)%nat -> inb sh idx ->
    curl_back sh (Some w) (own (ratio w' w) F) c idx = face (ratio w' w) (curl_back sh (Some w') F) c idx.
  Proof.
    intros Hc Hi. unfold face.
    change (curl_back sh (Some w)) with (Grid.curl_prev sh (Some w)). change (curl_back sh (Some w')) with (Grid.curl_prev sh (Some w')).
    destruct (along_nz 0 idx ltac:(lia) Hi) as [A0 B0]. destruct (along_nz 1 idx ltac:(lia) Hi) as [A1 B1]. destruct (along_nz 2 idx ltac:(lia) Hi) as [A2 B2].
    destruct c as [|[|[|c]]]; [| | |lia]; cbn [ax1 ax2]; unfold Grid.curl_prev, Grid.curl_of, Grid.diff_prev, Grid.over, own;
      rewrite ?along_shift by lia; unfold along, ratio; field; repeat split; assumption.
  Qed.
  Lemma ratio_nz a idx : (a < 3)%nat -> inb sh idx -> along (ratio w' w) a idx <> 0.
  Proof. intros Ha Hi. destruct (along_nz a idx Ha Hi) as [A B]. unfold along, ratio. rewrite fdiv_def. apply fmul_nz; [exact B|now apply finv_nz]. Qed.
End P.

Section Q.
  Variable K : CFld.
  Add Field Kfield2 : (fth K).
  Variables (sh : list nat) (we we' wh wh' : widths K).
  Hypothesis HL : length sh = 3%nat.
  Hypothesis He : nzw sh we.
  Hypothesis He' : nzw sh we'.
  Hypothesis Hh : nzw sh wh.
  Hypothesis Hh' : nzw sh wh'.
  Variables (om : K) (eps : field K) (mu : option (field K)).
  Let se := ratio we' we.
  Let sg := ratio wh' wh.
  Let eps' := uniaxial se sg eps.
  Let mu' := uniaxial sg se (matl mu).

  Lemma eh_stretched E H c idx : (c < 3)%nat -> inb sh idx ->
    fst (eh_full_f sh om (we, wh) eps' (Some mu') (own se E) (own sg H)) c idx
    = face sg (fst (eh_full_f sh om (we', wh') eps mu E H)) c idx /\
    snd (eh_full_f sh om (we, wh) eps' (Some mu') (own se E) (own sg H)) c idx
    = face se (snd (eh_full_f sh om (we', wh') eps mu E H)) c idx.
  Proof.
    intros Hc Hi.
    pose proof (ratio_nz K sh we we' HL He He' c idx Hc Hi) as N1. fold se in N1.
    pose proof (ratio_nz K sh wh wh' HL Hh Hh' c idx Hc Hi) as N2. fold sg in N2.
    pose proof (stretch_back K sh wh wh' HL Hh Hh' H c idx Hc Hi) as SB. fold sg in SB.
    pose proof (stretch_forward K sh we we' HL He He' E c idx Hc Hi) as SF. fold se in SF.
    split.
    - rewrite (amp_form K sh om (we, wh)). cbn [snd]. rewrite SB. unfold face. rewrite (amp_form K sh om (we', wh')). cbn [snd].
      unfold own, eps', uniaxial, face. field. assumption.
    - rewrite (far_form K sh om (we, wh)). cbn [fst]. rewrite SF. unfold face. rewrite (far_form K sh om (we', wh')). cbn [fst].
      cbn [matl]. unfold own, mu', uniaxial, face. field. assumption.
  Qed.

  Lemma wave_stretched F c idx : nzm_opt sh mu -> (c < 3)%nat -> inb sh idx ->
    wave_e sh om we wh eps' (Some mu') (own se F) c idx = face sg (wave_e sh om we' wh' eps mu F) c idx.
  Proof.
    intros Hm Hc Hi. pose proof (ratio_nz K sh we we' HL He He' c idx Hc Hi) as N1. fold se in N1.
    assert (X : curl_back sh (Some wh) (fun c' i' => inv_at (Some mu') c' i' * curl_forward sh (Some we) (own se F) c' i') c idx
              = face sg (curl_back sh (Some wh') (fun c' i' => inv_at mu c' i' * curl_forward sh (Some we') F c' i')) c idx).
    { pose proof (stretch_back K sh wh wh' HL Hh Hh' (fun c' i' => inv_at mu c' i' * curl_forward sh (Some we') F c' i') c idx Hc Hi) as SB.
      fold sg in SB. rewrite <- SB. apply curl_back_ext3; [exact HL|exact Hi|]. intros c' i' Hc' Hi'.
      pose proof (stretch_forward K sh we we' HL He He' F c' i' Hc' Hi') as SF. fold se in SF. rewrite SF.
      pose proof (ratio_nz K sh wh wh' HL Hh Hh' c' i' Hc' Hi') as N2. fold sg in N2.
      assert (A : (ax1 c' < 3)%nat /\ (ax2 c' < 3)%nat) by (destruct c' as [|[|[|?]]]; cbn; lia).
      pose proof (ratio_nz K sh we we' HL He He' (ax1 c') i' (proj1 A) Hi') as N3. fold se in N3.
      pose proof (ratio_nz K sh we we' HL He He' (ax2 c') i' (proj2 A) Hi') as N4. fold se in N4.
      unfold inv_at, mu', uniaxial, own, face, matl. destruct mu as [m|].
      - specialize (Hm c' i' Hc' Hi'). field. repeat split; assumption.
      - field. repeat split; try assumption. }
    unfold wave_e.
    change (Grid.curl_prev sh (Some wh)) with (curl_back sh (Some wh)). change (Grid.curl_next sh (Some we)) with (curl_forward sh (Some we)).
    rewrite X. unfold face.
    change (Grid.curl_prev sh (Some wh')) with (curl_back sh (Some wh')). change (Grid.curl_next sh (Some we')) with (curl_forward sh (Some we')).
    unfold own, eps', uniaxial, face. field. exact N1.
  Qed.
End Q.

Section R.
  Variable K : Fld.
  Add Field Kfield3 : (fth K).
  Lemma div_cancel_l (a b : K) : a <> 0 -> a * b / a = b.
  Proof. intro H. field. exact H. Qed.
  Lemma div_self_f (a : K) : a <> 0 -> a / a = 1.
  Proof. intro H. field. exact H. Qed.
End R.
