(** Time stepping and frequency-domain equations commute with motions of the grid. *)
From Coq Require Import List Arith ZArith Bool Lia Field.
From Verif.Lib Require Import Num Sums Idx Mat.
From Verif.Model Require Import Fdmath Fdtd Fdfd.
From Verif.Spec Require Import Grid Yee FdtdRun FdfdSpec SymmetrySpec.
From Verif.Proofs Require Import FdmathP FdtdP2 FdfdP GridP SymmetryP.
Import ListNotations.
Local Open Scope fld_scope.

Section T.
  Variable K : Fld.
  Add Field Kf : (fth K).
  Variables (sh : list nat) (m : motion K).
  Hypothesis HL : length sh = 3%nat.
  Hypothesis OK : ok K m sh.
  Let sh' := new_shape m.

  Definition moved_d (d : dxes_t K) : dxes_t K := option_map (fun p => (moved_we m (fst p), moved_wh m (snd p))) d.
  Definition moved_st (s : state K) : state K := mkst (moved_E m (sE s)) (moved_H m (sH s)).

  Lemma d_fst d : option_map fst (moved_d d) = option_map (moved_we m) (option_map fst d).
  Proof. destruct d as [[? ?]|]; reflexivity. Qed.
  Lemma d_snd d : option_map snd (moved_d d) = option_map (moved_wh m) (option_map snd d).
  Proof. destruct d as [[? ?]|]; reflexivity. Qed.

  Lemma h_moved dt d mu (E H E' H' : field K) : feq sh' E' (moved_E m E) -> feq sh' H' (moved_H m H) ->
    feq sh' (maxwell_h sh' dt (moved_d d) E' H' (option_map (moved_mu m) mu)) (moved_H m (maxwell_h sh dt d E H mu)).
  Proof.
    intros HE HH c idx Hc Hi. unfold maxwell_h. destruct OK as [L [_ [_ [CN _]]]].
    rewrite (HH c idx Hc Hi). rewrite d_fst.
    rewrite (curl_forward_ext K sh' _ E' (moved_E m E) c idx) by (try assumption; unfold sh'; lia).
    pose proof (CN (option_map fst d) E c idx Hc Hi) as X. fold sh' in X. to_model. rewrite X.
    unfold moved_H, moved_mu. destruct mu as [u|]; cbn [option_map]; rewrite ?fdiv_def; ring.
  Qed.
  Lemma e_moved dt d eps (E H E' H' : field K) : feq sh' E' (moved_E m E) -> feq sh' H' (moved_H m H) ->
    feq sh' (maxwell_e sh' dt (moved_d d) E' H' (moved_eps m eps)) (moved_E m (maxwell_e sh dt d E H eps)).
  Proof.
    intros HE HH c idx Hc Hi. unfold maxwell_e. destruct OK as [L [_ [_ [_ CP]]]].
    rewrite (HE c idx Hc Hi). rewrite d_snd.
    rewrite (curl_back_ext K sh' _ H' (moved_H m H) c idx) by (try assumption; unfold sh'; lia).
    pose proof (CP (option_map snd d) H c idx Hc Hi) as X. fold sh' in X. to_model. rewrite X.
    unfold moved_E, moved_eps. rewrite ?fdiv_def; ring.
  Qed.
  Lemma step_moved dt d eps mu j s s' : seq_st sh' s' (moved_st s) ->
    seq_st sh' (step sh' dt (moved_d d) (moved_eps m eps) (option_map (moved_mu m) mu) (moved_E m j) s') (moved_st (step sh dt d eps mu j s)).
  Proof.
    intros [HE HH]. pose proof (h_moved dt d mu (sE s) (sH s) _ _ HE HH) as A.
    split; [|exact A]. pose proof (e_moved dt d eps (sE s) _ _ _ HE A) as B.
    intros c idx Hc Hi. unfold step at 1. cbn [sE]. rewrite (B c idx Hc Hi). unfold step, moved_st, moved_E, moved_eps. cbn [sE]. rewrite ?fdiv_def. ring.
  Qed.
  Lemma run_moved dt d eps mu js : forall s s', seq_st sh' s' (moved_st s) ->
    seq_st sh' (run sh' dt (moved_d d) (moved_eps m eps) (option_map (moved_mu m) mu) (map (moved_E m) js) s') (moved_st (run sh dt d eps mu js s)).
  Proof.
    induction js as [|j js IH]; intros s s' H; [exact H|]. cbn [map run fold_left]. apply IH. now apply step_moved.
  Qed.
End T.

Section F.
  Variable K : CFld.
  Add Field Kc : (fth K).
  Variables (sh : list nat) (m : motion K).
  Hypothesis HL : length sh = 3%nat.
  Hypothesis OK : ok K m sh.
  Let sh' := new_shape m.

  Lemma eh_moved om we wh eps mu E H :
    let d' := (moved_we m we, moved_wh m wh) in
    let r' := eh_full_f sh' om d' (moved_eps m eps) (option_map (moved_mu m) mu) (moved_E m E) (moved_H m H) in
    let r := eh_full_f sh om (we, wh) eps mu E H in
    feq sh' (fst r') (moved_E m (fst r)) /\ feq sh' (snd r') (moved_H m (snd r)).
  Proof.
    destruct OK as [L [_ [_ [CN CP]]]].
    split; intros c idx Hc Hi.
    - pose proof (CP (Some wh) H c idx Hc Hi) as X. cbn [option_map] in X. to_model.
      unfold eh_full_f. destruct mu as [u|]; cbn [option_map fst snd]; unfold sh'; rewrite X; unfold moved_E, moved_eps; cbn [fst snd]; ring.
    - pose proof (CN (Some we) E c idx Hc Hi) as X. cbn [option_map] in X. to_model.
      unfold eh_full_f. destruct mu as [u|]; cbn [option_map fst snd]; unfold sh'; rewrite X; unfold moved_H, moved_mu; cbn [fst snd]; ring.
  Qed.

  Lemma wave_moved om we wh eps mu E :
    feq sh' (wave_e sh' om (moved_we m we) (moved_wh m wh) (moved_eps m eps) (option_map (moved_mu m) mu) (moved_E m E))
            (moved_E m (wave_e sh om we wh eps mu E)).
  Proof.
    destruct OK as [L [_ [_ [CN CP]]]]. intros c idx Hc Hi. unfold wave_e.
    pose proof (CP (Some wh) (fun c' i' => inv_at mu c' i' * curl_next sh (Some we) E c' i') c idx Hc Hi) as X. cbn [option_map] in X. fold sh' in X. to_model.
    etransitivity; [apply f_equal2; [|reflexivity]|].
    - apply (curl_back_ext3 K sh' _ _ (moved_H m (fun c' i' => inv_at mu c' i' * curl_forward sh (Some we) E c' i')) c idx L Hi).
      intros c' i' Hc' Hi'. pose proof (CN (Some we) E c' i' Hc' Hi') as Y. cbn [option_map] in Y. to_model. unfold sh'. rewrite Y.
      unfold moved_H, inv_at, moved_mu. destruct mu; cbn [option_map]; ring.
    - rewrite X. unfold moved_E, moved_eps. ring.
  Qed.
End F.
