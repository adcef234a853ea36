From Coq Require Import List Arith ZArith Lia Field Bool.
From Verif.Lib Require Import Num Sums Idx Mat.
From Verif.Model Require Import Fdmath Fdtd Pml.
From Verif.Spec Require Import Yee FdtdRun CpmlSpec.
From Verif.Proofs Require Import FdmathP FdmathP2 FdtdP FdtdP2.
Import ListNotations.
Local Open Scope nat_scope.

Section P.
  Variable K : Fld.
  Add Field Kfield : (fth K).
  Local Open Scope fld_scope.

  Section Core.
    Variable sh : list nat.
    Variable Ls : nat -> nat -> option (layer K).
    Variables p0 p1 p2 : layer K -> nat -> K.

    Notation kfac := (kfac sh Ls p2).
    Notation scale_at := (scale_at sh Ls p2).
    Notation here := (here sh Ls).

    Lemma inside_region a pp (L : layer K) idx : inside sh a pp (lth L) idx = in_region sh a pp L idx.
    Proof. reflexivity. Qed.
    Lemma depth_off a pp (L : layer K) idx : depth sh a pp (lth L) idx = off sh a pp L idx.
    Proof. reflexivity. Qed.
    (** psi of one slot after one pass, given the (unscaled) derivative value *)
    Definition psi_next (a pp : nat) (idx : list nat) (old d : K) : K :=
      match here a pp idx with
      | Some L => let k := depth sh a pp (lth L) idx in old * p0 L k + p1 L k * (scale_at a pp idx * d)
      | None => old
      end.
    Definition memv (a pp : nat) (idx : list nat) (x : K) : K :=
      match here a pp idx with Some _ => x | None => 0 end.

    Lemma axis_pass_U a u v se s idx :
      cU (axis_pass sh a u v se Ls p0 p1 p2 s) idx = scale_at a 1 idx * cU s idx.
    Proof.
      unfold axis_pass, layer_pass, CpmlSpec.scale_at, CpmlSpec.kfac, CpmlSpec.here.
      destruct (Ls a 0%nat) as [L0|], (Ls a 1%nat) as [L1|]; cbn [cU cV cPsi cP];
        rewrite ?inside_region, ?depth_off; repeat match goal with |- context[in_region ?s ?b ?q ?l ?i] => destruct (in_region s b q l i) end; cbn beta iota; rewrite ?depth_off; ring.
    Qed.
    Lemma axis_pass_V a u v se s idx :
      cV (axis_pass sh a u v se Ls p0 p1 p2 s) idx = scale_at a 1 idx * cV s idx.
    Proof.
      unfold axis_pass, layer_pass, CpmlSpec.scale_at, CpmlSpec.kfac, CpmlSpec.here.
      destruct (Ls a 0%nat) as [L0|], (Ls a 1%nat) as [L1|]; cbn [cU cV cPsi cP];
        rewrite ?inside_region, ?depth_off; repeat match goal with |- context[in_region ?s ?b ?q ?l ?i] => destruct (in_region s b q l i) end; cbn beta iota; rewrite ?depth_off; ring.
    Qed.

    Lemma axis_pass_psi a u v se s pp slot idx : (pp < 2)%nat -> (slot < 2)%nat ->
      cPsi (axis_pass sh a u v se Ls p0 p1 p2 s) pp slot idx
      = psi_next a pp idx (cPsi s pp slot idx) (match slot with O => cV s idx | _ => cU s idx end).
    Proof.
      intros Hp Hs. unfold axis_pass, layer_pass, psi_next, CpmlSpec.scale_at, CpmlSpec.kfac, CpmlSpec.here.
      destruct pp as [|[|pp]]; [| |lia]; (destruct slot as [|[|slot]]; [| |lia]);
      destruct (Ls a 0%nat) as [L0|], (Ls a 1%nat) as [L1|]; cbn [cU cV cPsi cP Nat.eqb];
        rewrite ?inside_region, ?depth_off; repeat match goal with |- context[in_region ?s ?b ?q ?l ?i] => destruct (in_region s b q l i) end; cbn beta iota; rewrite ?depth_off; ring.
    Qed.

    Lemma axis_pass_P a u v se s c idx : u <> v ->
      let s' := axis_pass sh a u v se Ls p0 p1 p2 s in
      cP s' c idx = cP s c idx
        + (if Nat.eqb c u then se * (memv a 0 idx (cPsi s' 0%nat 0%nat idx) + memv a 1 idx (cPsi s' 1%nat 0%nat idx)) else 0)
        + (if Nat.eqb c v then - se * (memv a 0 idx (cPsi s' 0%nat 1%nat idx) + memv a 1 idx (cPsi s' 1%nat 1%nat idx)) else 0).
    Proof.
      intros Huv s'. unfold s', axis_pass, layer_pass, memv, CpmlSpec.here, setf.
      assert (Evu : Nat.eqb v u = false) by (apply Nat.eqb_neq; congruence).
      assert (Euv : Nat.eqb u v = false) by (apply Nat.eqb_neq; congruence).
      destruct (Nat.eqb_spec c u) as [->|Hcu]; [|destruct (Nat.eqb_spec c v) as [->|Hcv]];
      destruct (Ls a 0%nat) as [L0|], (Ls a 1%nat) as [L1|]; cbn [cU cV cPsi cP Nat.eqb];
        rewrite ?Nat.eqb_refl, ?Evu, ?Euv; 
        repeat match goal with H : ?x <> ?y |- context[Nat.eqb ?x ?y] => rewrite (proj2 (Nat.eqb_neq x y) H) end;
        rewrite ?inside_region, ?depth_off; repeat match goal with |- context[in_region ?s ?b ?q ?l ?i] => destruct (in_region s b q l i) end; cbn beta iota; rewrite ?depth_off; ring.
    Qed.

    (** One update's curl-like term and new memory, from a table of derivatives. *)
    Definition core (D : nat -> nat -> arr K) (ps : psis K) : psis K * field K :=
      let s0 := axis_pass sh 0 1 2 (- (1)) Ls p0 p1 p2 (mkcst (D 0%nat 1%nat) (D 0%nat 2%nat) (ps 0%nat) (fun _ _ => 0)) in
      let s1 := axis_pass sh 1 0 2 1 Ls p0 p1 p2 (mkcst (D 1%nat 0%nat) (D 1%nat 2%nat) (ps 1%nat) (cP s0)) in
      let s2 := axis_pass sh 2 0 1 (- (1)) Ls p0 p1 p2 (mkcst (D 2%nat 0%nat) (D 2%nat 1%nat) (ps 2%nat) (cP s1)) in
      let pE := cP s2 in
      (fun a => match a with 0%nat => cPsi s0 | 1%nat => cPsi s1 | _ => cPsi s2 end,
       fun c => match c with
         | 0%nat => fun i => cV s1 i - cV s2 i + pE 0%nat i
         | 1%nat => fun i => cU s2 i - cV s0 i + pE 1%nat i
         | _ => fun i => cU s0 i - cU s1 i + pE 2%nat i
         end).

    (** component differentiated for memory slot: slot 0 holds v, slot 1 holds u *)
    Definition slotc (a slot : nat) : nat :=
      match a, slot with
      | 0, 0 => 2 | 0, _ => 1 | 1, 0 => 2 | 1, _ => 0 | _, 0 => 1 | _, _ => 0
      end%nat.
    Definition slot_of (a c : nat) : nat :=
      match a, c with
      | 0, 2 => 0 | 0, _ => 1 | 1, 2 => 0 | 1, _ => 1 | _, 1 => 0 | _, _ => 1
      end%nat.

    Lemma core_psi D ps a pp slot idx : (a < 3)%nat -> (pp < 2)%nat -> (slot < 2)%nat ->
      fst (core D ps) a pp slot idx = psi_next a pp idx (ps a pp slot idx) (D a (slotc a slot) idx).
    Proof.
      intros Ha Hp Hs. unfold core. cbn [fst].
      destruct a as [|[|[|a]]]; [| | |lia]; rewrite axis_pass_psi by assumption;
        destruct slot as [|[|slot]]; try lia; reflexivity.
    Qed.

    (** the stretched derivative of component [c] along [a] *)
    Definition T (D : nat -> nat -> arr K) (ps : psis K) a c idx : K :=
      scale_at a 1 idx * D a c idx
      + memv a 0 idx (fst (core D ps) a 0%nat (slot_of a c) idx)
      + memv a 1 idx (fst (core D ps) a 1%nat (slot_of a c) idx).

    Lemma core_curl D ps c idx : (c < 3)%nat ->
      snd (core D ps) c idx
      = match c with
        | 0%nat => T D ps 1 2 idx - T D ps 2 1 idx
        | 1%nat => T D ps 2 0 idx - T D ps 0 2 idx
        | _ => T D ps 0 1 idx - T D ps 1 0 idx
        end.
    Proof.
      intro Hc. unfold T, core. cbv zeta. cbn [fst snd slot_of].
      destruct c as [|[|[|c]]]; [| | |lia];
        rewrite ?axis_pass_U, ?axis_pass_V; do 3 (rewrite axis_pass_P by lia; cbn [Nat.eqb cP cU cV]); ring.
    Qed.

    (** Memory after a history of derivative tables. *)
    Definition hist (Ds : list (nat -> nat -> arr K)) : psis K :=
      fold_left (fun ps D => fst (core D ps)) Ds psi0.

    Lemma fpow_S (x : K) n : fpow x (S n) = x * fpow x n. Proof. reflexivity. Qed.

    Lemma mem_alg (x a b c q : K) : x * (a * (b * c)) * q = q * x * (a * (b * c)). Proof. ring. Qed.

    Lemma hist_memory Ds a pp slot idx : (a < 3)%nat -> (pp < 2)%nat -> (slot < 2)%nat ->
      memv a pp idx (hist Ds a pp slot idx)
      = memory sh Ls p0 p1 p2 a pp idx (map (fun D => D a (slotc a slot) idx) Ds).
    Proof.
      intros Ha Hp Hs. unfold memv, memory. destruct (here a pp idx) as [L|] eqn:E; [|reflexivity].
      cbv zeta. rewrite map_length.
      induction Ds as [|D Ds IH] using rev_ind; [reflexivity|].
      unfold hist in *. rewrite fold_left_app. cbn [fold_left].
      rewrite core_psi by assumption. unfold psi_next. rewrite E, IH.
      rewrite map_app, app_length. cbn [length map]. rewrite Nat.add_1_r.
      cbn [sumN]. rewrite <- sumN_mul_r.
      set (k := depth sh a pp (lth L) idx).
      f_equal.
      - apply sumN_ext. intros i Hi. rewrite app_nth1 by (rewrite map_length; exact Hi).
        replace (S (length Ds) - 1 - i)%nat with (S (length Ds - 1 - i)) by lia. rewrite fpow_S. apply mem_alg.
      - rewrite app_nth2 by (rewrite map_length; lia). rewrite map_length, Nat.sub_diag. cbn [nth].
        replace (S (length Ds) - 1 - length Ds)%nat with 0%nat by lia. cbn [fpow]. ring.
    Qed.

    Lemma T_stretched D Ds a c idx : (a < 3)%nat -> (c < 3)%nat -> a <> c ->
      T D (hist Ds) a c idx = stretched sh Ls p0 p1 p2 a idx (map (fun X => X a c idx) (Ds ++ [D])).
    Proof.
      intros Ha Hc Hac. unfold T, stretched.
      assert (S : slotc a (slot_of a c) = c)
        by (destruct a as [|[|[|a]]]; try lia; destruct c as [|[|[|c]]]; try lia; reflexivity).
      assert (S2 : (slot_of a c < 2)%nat)
        by (destruct a as [|[|[|a]]]; try lia; destruct c as [|[|[|c]]]; try lia; cbn; lia).
      assert (H : forall q, fst (core D (hist Ds)) a q (slot_of a c) idx = hist (Ds ++ [D]) a q (slot_of a c) idx)
        by (intro q; unfold hist; rewrite fold_left_app; reflexivity).
      rewrite !H, !hist_memory by (assumption || lia). rewrite S.
      rewrite map_app. cbn [map]. rewrite last_last. reflexivity.
    Qed.

    (** nothing active: plain *)
    Lemma stretched_none a idx ds : (a < 3)%nat -> here a 0 idx = None -> here a 1 idx = None ->
      stretched sh Ls p0 p1 p2 a idx ds = last ds 0.
    Proof.
      intros Ha H0 H1. unfold stretched, memory, CpmlSpec.scale_at, CpmlSpec.kfac. rewrite H0, H1. ring.
    Qed.

    Lemma T_none D ps a c idx : here a 0 idx = None -> here a 1 idx = None -> T D ps a c idx = D a c idx.
    Proof.
      intros H0 H1. unfold T, memv, CpmlSpec.scale_at, CpmlSpec.kfac. rewrite H0, H1. ring.
    Qed.
  End Core.

  Lemma update_E_core sh Ls dt w ps (e h eps : field K) c idx : (c < 3)%nat ->
    snd (update_E sh Ls dt w ps e h eps) c idx
    = e c idx + dt / eps c idx * snd (core sh Ls lp0e lp1e lp2e (fun a b => deriv_back sh (Some w) a (h b)) ps) c idx.
  Proof. intro Hc. destruct c as [|[|[|c]]]; [| | |lia]; reflexivity. Qed.
  Lemma update_E_psi sh Ls dt w ps (e h eps : field K) :
    fst (update_E sh Ls dt w ps e h eps)
    = fst (core sh Ls lp0e lp1e lp2e (fun a b => deriv_back sh (Some w) a (h b)) ps).
  Proof. reflexivity. Qed.
  Lemma update_H_core sh Ls dt w ps (e h mu : field K) c idx : (c < 3)%nat ->
    snd (update_H sh Ls dt w ps e h mu) c idx
    = h c idx - dt / mu c idx * snd (core sh Ls lp0h lp1h lp2h (fun a b => deriv_forward sh (Some w) a (e b)) ps) c idx.
  Proof. intro Hc. destruct c as [|[|[|c]]]; [| | |lia]; reflexivity. Qed.
  Lemma update_H_psi sh Ls dt w ps (e h mu : field K) :
    fst (update_H sh Ls dt w ps e h mu)
    = fst (core sh Ls lp0h lp1h lp2h (fun a b => deriv_forward sh (Some w) a (e b)) ps).
  Proof. reflexivity. Qed.

  Lemma outside_E sh Ls dt w ps (e h eps : field K) (d0 : widths K) c idx : (c < 3)%nat ->
    (forall a pp, (a < 3)%nat -> (pp < 2)%nat -> here sh Ls a pp idx = None) ->
    snd (update_E sh Ls dt w ps e h eps) c idx = maxwell_e sh dt (Some (d0, w)) e h eps c idx.
  Proof.
    intros Hc H. rewrite update_E_core, core_curl by exact Hc.
    unfold maxwell_e, curl_back, curl_with. cbn [option_map snd].
    destruct c as [|[|[|c]]]; [| | |lia]; rewrite !T_none by (apply H; lia); rewrite !fdiv_def; ring.
  Qed.
  Lemma outside_H sh Ls dt w ps (e h mu : field K) (d1 : widths K) c idx : (c < 3)%nat ->
    (forall a pp, (a < 3)%nat -> (pp < 2)%nat -> here sh Ls a pp idx = None) ->
    snd (update_H sh Ls dt w ps e h mu) c idx = maxwell_h sh dt (Some (w, d1)) e h (Some mu) c idx.
  Proof.
    intros Hc H. rewrite update_H_core, core_curl by exact Hc.
    unfold maxwell_h, curl_forward, curl_with. cbn [option_map fst].
    destruct c as [|[|[|c]]]; [| | |lia]; rewrite !T_none by (apply H; lia); rewrite !fdiv_def; ring.
  Qed.

  Lemma finv_1 : / (1 : K) = 1.
  Proof. pose proof (finv_r K 1 (f1nz K)) as H. rewrite <- H at 2. ring. Qed.
  Lemma fdiv_1 (x : K) : x / 1 = x.
  Proof. rewrite fdiv_def, finv_1. ring. Qed.
  Lemma alg_zero (f g m : K) : 0 / m = (f * 0 + g * 0) / m.
  Proof. rewrite !fdiv_def. ring. Qed.
  Lemma alg_a (f g p q x : K) : f * (p * x) + g * (q * x) = (p * f + q * g) * x + (f + g) * 0.
  Proof. ring. Qed.
  Lemma alg_b (f g r x : K) : f * x + g * x = r * 0 + (f + g) * x.
  Proof. ring. Qed.
  Lemma sub_scaled_iff (h dt m x y : K) : dt <> 0 -> m <> 0 -> (h - dt * x / m = h - dt * y / m <-> x = y).
  Proof.
    intros Hd Hm. split; [|intros ->; reflexivity]. intro E.
    assert (A : dt * x / m = dt * y / m).
    { transitivity (h - (h - dt * x / m)); [ring|]. rewrite E. ring. }
    apply (fmul_cancel_l K (dt / m)).
    - rewrite fdiv_def. apply (fmul_nz K); [exact Hd|now apply finv_nz].
    - rewrite fdiv_def in *. transitivity (dt * x * / m); [ring|]. rewrite !fdiv_def in A. rewrite A. ring.
  Qed.
  Lemma here_none sh a pp idx : here (K:=K) sh (fun _ _ => None) a pp idx = None.
  Proof. reflexivity. Qed.

  Lemma cpml_run_none sh dt w (eps mu : field K) js : length sh = 3%nat -> forall ps qs (s : state K),
    let r := cpml_run sh (fun _ _ => None) dt w eps mu js (mkps (sE s) (sH s) ps qs) in
    seq_st sh (mkst (pE_ r) (pH_ r)) (run sh dt (Some (w, w)) eps (Some mu) js s).
  Proof.
    intro HL.
    assert (G : forall js (st : pstate K) (t : state K), seq_st sh (mkst (pE_ st) (pH_ st)) t ->
      let r := cpml_run sh (fun _ _ => None) dt w eps mu js st in
      seq_st sh (mkst (pE_ r) (pH_ r)) (run sh dt (Some (w, w)) eps (Some mu) js t)).
    { clear js. induction js as [|j js IH]; intros st t H; [exact H|].
      cbn [cpml_run run fold_left].
      fold (cpml_run sh (fun _ _ => None) dt w eps mu js (cpml_step sh (fun _ _ => None) dt w eps mu j st)).
      fold (run sh dt (Some (w, w)) eps (Some mu) js (step sh dt (Some (w, w)) eps (Some mu) j t)).
      apply IH.
      eapply seq_st_trans; [|apply step_ext; [exact HL|exact H]].
      unfold cpml_step, step, seq_st. cbn [pE_ pH_ sE sH].
      assert (A : feq sh (snd (update_H sh (fun _ _ => None) dt w (psH st) (pE_ st) (pH_ st) mu))
                         (maxwell_h sh dt (Some (w, w)) (pE_ st) (pH_ st) (Some mu))).
      { intros c idx Hc Hi. apply outside_H; [exact Hc|]. intros; apply here_none. }
      split; [|exact A].
      intros c idx Hc Hi. f_equal.
      rewrite (outside_E sh _ dt w _ _ _ eps w) by (try exact Hc; intros; apply here_none).
      apply maxwell_e_ext; try assumption. apply feq_refl. }
    intros ps qs s. apply G. destruct s. split; apply feq_refl.
  Qed.

  (** A run of update_E calls with fields [hs]: memory is the history's. *)
  Lemma hist_E sh Ls dt w (calls : list (field K * field K * field K)) :
    fold_left (fun ps c => fst (update_E sh Ls dt w ps (fst (fst c)) (snd (fst c)) (snd c))) calls psi0
    = hist sh Ls lp0e lp1e lp2e (map (fun c a b => deriv_back sh (Some w) a (snd (fst c) b)) calls).
  Proof.
    unfold hist. generalize (psi0 (K:=K)). induction calls as [|c calls IH]; intro ps; [reflexivity|].
    cbn [fold_left map]. rewrite update_E_psi. apply IH.
  Qed.
  Lemma hist_H sh Ls dt w (calls : list (field K * field K * field K)) :
    fold_left (fun ps c => fst (update_H sh Ls dt w ps (fst (fst c)) (snd (fst c)) (snd c))) calls psi0
    = hist sh Ls lp0h lp1h lp2h (map (fun c a b => deriv_forward sh (Some w) a (fst (fst c) b)) calls).
  Proof.
    unfold hist. generalize (psi0 (K:=K)). induction calls as [|c calls IH]; intro ps; [reflexivity|].
    cbn [fold_left map]. rewrite update_H_psi. apply IH.
  Qed.
End P.
