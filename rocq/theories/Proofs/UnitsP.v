(** Change of units, and Gauss's law for frequency-domain solutions. *)
From Coq Require Import List Arith ZArith Bool Lia Field.
From Verif.Lib Require Import Num Sums Idx Mat.
From Verif.Model Require Import Fdmath Fdtd Fdfd.
From Verif.Spec Require Import Grid Yee FdtdRun FdfdSpec.
From Verif.Proofs Require Import FdmathP FdtdP2 FdfdP GridP.
Import ListNotations.
Local Open Scope fld_scope.

Section T.
  Variable K : Fld.
  Add Field Kf : (fth K).
  Variables (sh : list nat) (we wh : widths K) (eps : field K) (mu : option (field K)) (dt s a b : K).
  Hypothesis HL : length sh = 3%nat.
  Hypothesis He : nzw sh we.
  Hypothesis Hh : nzw sh wh.
  Hypothesis Heps : nzm sh eps.
  Hypothesis Hmu : nzm sh (matl mu).
  Hypothesis Hs : s <> 0.
  Hypothesis Ha : a <> 0.
  Hypothesis Hb : b <> 0.

  Let sw (w : widths K) : widths K := fun x i => s * w x i.
  Let sf (k : K) (F : field K) : field K := fun c i => k * F c i.

  Lemma deriv_f_scaled k f ax idx : (ax < 3)%nat -> inb sh idx ->
    deriv_forward sh (Some (sw we)) ax (fun i => k * f i) idx = k / s * deriv_forward sh (Some we) ax f idx.
  Proof.
    intros Hx Hi. assert (we ax (coord idx ax) <> 0) by (apply He; [lia|apply inb_coord; [exact Hi|lia]]).
    unfold deriv_forward, sw, roll. cbn. field. split; assumption.
  Qed.
  Lemma deriv_b_scaled k f ax idx : (ax < 3)%nat -> inb sh idx ->
    deriv_back sh (Some (sw wh)) ax (fun i => k * f i) idx = k / s * deriv_back sh (Some wh) ax f idx.
  Proof.
    intros Hx Hi. assert (wh ax (coord idx ax) <> 0) by (apply Hh; [lia|apply inb_coord; [exact Hi|lia]]).
    unfold deriv_back, sw, roll. cbn. field. split; assumption.
  Qed.
  Lemma curl_f_scaled k F c idx : (c < 3)%nat -> inb sh idx ->
    curl_forward sh (Some (sw we)) (sf k F) c idx = k / s * curl_forward sh (Some we) F c idx.
  Proof.
    intros Hc Hi. unfold curl_forward, curl_with, sf. destruct c as [|[|[|c]]]; [| | |lia]; rewrite !deriv_f_scaled by (assumption || lia); field; assumption.
  Qed.
  Lemma curl_b_scaled k F c idx : (c < 3)%nat -> inb sh idx ->
    curl_back sh (Some (sw wh)) (sf k F) c idx = k / s * curl_back sh (Some wh) F c idx.
  Proof.
    intros Hc Hi. unfold curl_back, curl_with, sf. destruct c as [|[|[|c]]]; [| | |lia]; rewrite !deriv_b_scaled by (assumption || lia); field; assumption.
  Qed.

  Let dt' := s * (a * b) * dt.
  Let d := Some (we, wh).
  Let d' := Some (sw we, sw wh).
  Let eps' := sf (a * a) eps.
  Let mu' := Some (sf (b * b) (matl mu)).
  Let st (x : state K) : state K := mkst (sE x) (sf (a / b) (sH x)).

  Lemma h_scaled (E H E' H' : field K) : feq sh E' E -> feq sh H' (sf (a / b) H) ->
    feq sh (maxwell_h sh dt' d' E' H' mu') (sf (a / b) (maxwell_h sh dt d E H mu)).
  Proof.
    intros HE HH c idx Hc Hi. unfold maxwell_h. rewrite (HH c idx Hc Hi). unfold d', d. cbn [option_map fst].
    rewrite (curl_forward_ext K sh _ E' (sf 1 E) c idx)
      by (first [lia|assumption|intros c' i' Hc' Hi'; rewrite (HE c' i' Hc' Hi'); unfold sf; ring]).
    rewrite curl_f_scaled by assumption. unfold sf. cbv beta. set (X := curl_forward sh (Some we) E c idx).
    pose proof (Hmu c idx Hc Hi) as N. unfold mu', sf, dt', matl in *. destruct mu as [u|]; cbv beta iota; field; repeat split; assumption.
  Qed.
  Lemma e_scaled (E H E' H' : field K) : feq sh E' E -> feq sh H' (sf (a / b) H) ->
    feq sh (maxwell_e sh dt' d' E' H' eps') (maxwell_e sh dt d E H eps).
  Proof.
    intros HE HH c idx Hc Hi. unfold maxwell_e. rewrite (HE c idx Hc Hi). unfold d', d. cbn [option_map snd].
    rewrite (curl_back_ext K sh _ H' (sf (a / b) H) c idx) by (try assumption; lia).
    rewrite curl_b_scaled by assumption. unfold sf. cbv beta. set (X := curl_back sh (Some wh) H c idx).
    pose proof (Heps c idx Hc Hi) as N. unfold eps', sf, dt'. field. repeat split; assumption.
  Qed.
  Lemma step_scaled j x x' : seq_st sh x' (st x) ->
    seq_st sh (step sh dt' d' eps' mu' (sf (a * a) j) x') (st (step sh dt d eps mu j x)).
  Proof.
    intros [HE HH]. pose proof (h_scaled (sE x) (sH x) _ _ HE HH) as A. split; [|exact A].
    pose proof (e_scaled (sE x) _ _ _ HE A) as B. intros c idx Hc Hi. unfold step at 1. cbn [sE]. rewrite (B c idx Hc Hi).
    pose proof (Heps c idx Hc Hi) as N. unfold step, st, eps', sf. cbn [sE]. field. repeat split; assumption.
  Qed.
  Lemma run_scaled js : forall x x', seq_st sh x' (st x) ->
    seq_st sh (run sh dt' d' eps' mu' (map (sf (a * a)) js) x') (st (run sh dt d eps mu js x)).
  Proof. induction js as [|j js IH]; intros x x' H; [exact H|]. cbn [map run fold_left]. apply IH. now apply step_scaled. Qed.
End T.

Section F.
  Variable K : CFld.
  Add Field Kc : (fth K).
  Variables (sh : list nat) (we wh : widths K) (eps : field K) (mu : option (field K)) (om : K).
  Hypothesis HL : length sh = 3%nat.
  Hypothesis He : nzw sh we.
  Hypothesis Hh : nzw sh wh.
  Hypothesis Hmu : nzm sh (matl mu).

  Lemma wave_scaled (s a b : K) F : s <> 0 -> a <> 0 -> b <> 0 ->
    feq sh (wave_e sh (om / (s * (a * b))) (fun x i => s * we x i) (fun x i => s * wh x i) (fun c i => a * a * eps c i) (Some (fun c i => b * b * matl mu c i)) F)
           (fun c i => wave_e sh om we wh eps mu F c i / (s * s * (b * b))).
  Proof.
    intros Hs Ha Hb c idx Hc Hi. unfold wave_e. to_model.
    rewrite (curl_back_ext3 K sh _ _ (fun c' i' => (1 / (b * b) / s) * (inv_at mu c' i' * curl_forward sh (Some we) F c' i')) c idx HL Hi).
    2:{ intros c' i' Hc' Hi'.
        rewrite (curl_forward_ext3 K sh _ F (fun c i => 1 * F c i) c' i' HL Hi') by (intros; ring).
        rewrite (curl_f_scaled K sh we wh eps s HL He Hs 1 F c' i' Hc' Hi'). pose proof (Hmu c' i' Hc' Hi') as N.
        unfold inv_at, matl in *. destruct mu as [u|]; field; repeat split; assumption. }
    rewrite (curl_b_scaled K sh wh eps s HL Hh Hs (1 / (b * b) / s) _ c idx Hc Hi). field. repeat split; assumption.
  Qed.

  Lemma gauss_e (J E : field K) : om <> 0 -> feq sh (wave_e sh om we wh eps mu E) (fun c i => - im * om * J c i) ->
    forall idx, inb sh idx -> div_b sh (Some (we, wh)) (fun c i => eps c i * E c i) idx = im / om * div_b sh (Some (we, wh)) J idx.
  Proof.
    intros No W idx Hi.
    pose proof (div_curl_back K sh (Some wh) (fun c' i' => inv_at mu c' i' * curl_forward sh (Some we) E c' i') idx) as D.
    set (C := curl_back sh (Some wh) _) in D.
    assert (X : forall c i, (c < 3)%nat -> inb sh i -> C c i = om * om * (eps c i * E c i) + - im * om * J c i).
    { intros c i Hc Hj. rewrite <- (W c i Hc Hj). unfold wave_e. to_model. fold C. ring. }
    unfold div_b. cbn [option_map snd]. to_model. unfold deriv_back, roll in *. cbv beta iota in *.
    rewrite !X in D by (try apply inb_shift; assumption || lia).
    assert (N : forall a, (a < 3)%nat -> wh a (coord idx a) <> 0) by (intros a Ha; apply Hh; [lia|apply inb_coord; [exact Hi|lia]]).
    pose proof (N 0%nat ltac:(lia)) as N0. pose proof (N 1%nat ltac:(lia)) as N1. pose proof (N 2%nat ltac:(lia)) as N2.
    match goal with |- ?L = ?R => assert (Q : om * om * (L - R) = 0) end.
    { rewrite <- D. field. repeat split; assumption. }
    match goal with |- ?L = ?R => assert (Z : L - R = 0) end.
    { match goal with |- ?Y = 0 => transitivity (om * om * Y / (om * om)); [field; repeat split; assumption|] end. rewrite Q. field. exact No. }
    match goal with |- ?L = ?R => transitivity (L - R + R); [ring|] end. rewrite Z. ring.
  Qed.

  Lemma gauss_h (E : field K) : om <> 0 -> forall idx, inb sh idx ->
    div_f sh (Some (we, wh)) (fun c i => matl mu c i * e2h_f sh om (we, wh) mu E c i) idx = 0.
  Proof.
    intros No idx Hi. assert (Ni : - (im : K) <> 0) by (intro Z; apply (im_nz K); transitivity (- - (im : K)); [ring|rewrite Z; ring]).
    pose proof (div_curl_forward K sh (Some we) E idx) as D.
    assert (X : forall c i, (c < 3)%nat -> inb sh i -> matl mu c i * e2h_f sh om (we, wh) mu E c i = curl_forward sh (Some we) E c i / (- im * om)).
    { intros c i Hc Hj. pose proof (Hmu c i Hc Hj) as N. unfold e2h_f, matl in *. destruct mu as [u|]; cbn [fst]; field; repeat split; assumption. }
    unfold div_f. cbn [option_map fst]. to_model. unfold deriv_forward, roll in *. cbv beta iota in *.
    rewrite !X by (try apply inb_shift; assumption || lia).
    assert (N : forall a, (a < 3)%nat -> we a (coord idx a) <> 0) by (intros a Ha; apply He; [lia|apply inb_coord; [exact Hi|lia]]).
    pose proof (N 0%nat ltac:(lia)) as N0. pose proof (N 1%nat ltac:(lia)) as N1. pose proof (N 2%nat ltac:(lia)) as N2.
    match type of D with ?Y = _ => transitivity (Y / (- im * om)) end; [field; repeat split; assumption|]. rewrite D. field. split; assumption.
  Qed.
End F.
