(** FDTD: total energy, reversibility, superposition, domain of dependence. *)
From Coq Require Import List Arith ZArith Lia Field Bool.
From Verif.Lib Require Import Num Sums Idx Mat.
From Verif.Model Require Import Fdmath Fdtd.
From Verif.Spec Require Import Yee FdtdRun.
From Verif.Proofs Require Import FdmathP FdmathP2 FdtdP.
Import ListNotations.
Local Open Scope nat_scope.

Section P.
  Variable K : Fld.
  Add Field Kfield : (fth K).
  Local Open Scope fld_scope.
  Implicit Types e h j F G : field K.
  Implicit Types d : dxes_t K.
  Implicit Types s t : state K.

  (** ** Total energy *)
  Definition yee_E sh dt d (eps : field K) mu s : K :=
    gsum sh (yee_energy (fun c i => sE s c i * sE s c i)
                        (fun c i => sH s c i * maxwell_h sh dt d (sE s) (sH s) mu c i) (Some eps) mu d).
  Definition yee_H sh dt d (eps : field K) mu j s : K :=
    let s' := step sh dt d eps mu j s in
    gsum sh (yee_energy (fun c i => sE s c i * sE s' c i)
                        (fun c i => sH s' c i * sH s' c i) (Some eps) mu d).

  Lemma gsum_half sh (u v dv w : arr K) dt : length sh = 3%nat ->
    (forall idx, inb sh idx -> u idx - v idx = - (dt * dv idx) + w idx) ->
    gsum sh dv = 0 -> gsum sh u = gsum sh v + gsum sh w.
  Proof.
    intros HL H H0.
    transitivity (gsum sh (fun idx => v idx + (- (dt * dv idx) + w idx))).
    { apply gsum_ext. intros idx Hi. rewrite <- (H idx Hi). ring. }
    rewrite !gsum_add, gsum_opp, gsum_mul_l, H0. ring.
  Qed.

  Lemma yee_H_step sh dt d eps mu j s : length sh = 3%nat -> nzd sh d -> nzm sh eps -> nzm_opt sh mu ->
    yee_H sh dt d eps mu j s = yee_E sh dt d eps mu s + gsum sh (yee_work j (sE s) d).
  Proof.
    intros HL Hd He Hm. unfold yee_H, yee_E, step. cbn [sE sH].
    apply (gsum_half sh _ _ (divergence_of sh (poynting sh d (sE s) (maxwell_h sh dt d (sE s) (sH s) mu))) _ dt HL).
    - intros idx Hi. apply (half_e2h K sh dt d eps mu (sH s) (sE s) j idx); assumption.
    - now apply gsum_divergence.
  Qed.

  Lemma yee_E_step sh dt d eps mu j s : length sh = 3%nat -> nzd sh d -> nzm sh eps -> nzm_opt sh mu ->
    let s' := step sh dt d eps mu j s in
    yee_E sh dt d eps mu s' = yee_H sh dt d eps mu j s + gsum sh (yee_work j (sE s') d).
  Proof.
    intros HL Hd He Hm s'. unfold yee_H, yee_E, s', step. cbn [sE sH].
    apply (gsum_half sh _ _ (divergence_of sh (poynting sh d (sE s') (sH s'))) _ dt HL).
    - intros idx Hi. unfold s', step. cbn [sE sH].
      apply (half_h2e K sh dt d eps mu (sE s) (maxwell_h sh dt d (sE s) (sH s) mu) j idx); assumption.
    - now apply gsum_divergence.
  Qed.

  Lemma yee_E_run sh dt d eps mu js : length sh = 3%nat -> nzd sh d -> nzm sh eps -> nzm_opt sh mu ->
    forall s, yee_E sh dt d eps mu (run sh dt d eps mu js s)
      = yee_E sh dt d eps mu s + work sh dt d eps mu (fun j e => yee_work j e d) js s.
  Proof.
    intros HL Hd He Hm. induction js as [|j js IH]; intro s.
    - cbn. ring.
    - cbn [run fold_left work]. fold (run sh dt d eps mu js (step sh dt d eps mu j s)).
      rewrite IH. rewrite (yee_E_step sh dt d eps mu j s HL Hd He Hm).
      rewrite (yee_H_step sh dt d eps mu j s HL Hd He Hm). ring.
  Qed.

  (** The code's energies, for equal widths. *)
  Definition code_E sh dt d (eps : field K) mu s : K :=
    gsum sh (energy_estep (sH s) (sE s) (maxwell_h sh dt d (sE s) (sH s) mu) (Some eps) mu d).
  Definition code_H sh dt d (eps : field K) mu j s : K :=
    let s' := step sh dt d eps mu j s in
    gsum sh (energy_hstep (sE s) (sH s') (sE s') (Some eps) mu d).

  Lemma code_E_yee sh dt d eps mu s : length sh = 3%nat -> same_widths sh d ->
    code_E sh dt d eps mu s = yee_E sh dt d eps mu s.
  Proof. intros HL Hs. apply gsum_ext. intros idx Hi. now apply (dxmul_yee K sh). Qed.
  Lemma code_H_yee sh dt d eps mu j s : length sh = 3%nat -> same_widths sh d ->
    code_H sh dt d eps mu j s = yee_H sh dt d eps mu j s.
  Proof. intros HL Hs. apply gsum_ext. intros idx Hi. now apply (dxmul_yee K sh). Qed.

  Lemma work_yee sh dt d eps mu js : length sh = 3%nat -> same_widths sh d -> forall s,
    work sh dt d eps mu (fun j e => delta_energy_j j e d) js s = work sh dt d eps mu (fun j e => yee_work j e d) js s.
  Proof.
    intros HL Hs. induction js as [|j js IH]; intro s; cbn [work]; [reflexivity|].
    rewrite IH. f_equal. f_equal; apply gsum_ext; intros idx Hi; now apply (delta_j_yee K sh).
  Qed.

  Lemma work_noj sh dt d eps mu (dj : field K -> field K -> arr K) n :
    (forall e idx, dj noj e idx = 0) -> forall s,
    work sh dt d eps mu dj (repeat noj n) s = 0.
  Proof.
    intro H. induction n as [|n IH]; intro s; cbn [repeat work]; [reflexivity|].
    rewrite IH. rewrite !(gsum_zero K sh) by (intros; apply H). ring.
  Qed.

  Lemma code_E_run sh dt d eps mu js : length sh = 3%nat -> nzd sh d -> same_widths sh d -> nzm sh eps -> nzm_opt sh mu ->
    forall s, code_E sh dt d eps mu (run sh dt d eps mu js s)
      = code_E sh dt d eps mu s + work sh dt d eps mu (fun j e => delta_energy_j j e d) js s.
  Proof.
    intros HL Hd Hs He Hm s. rewrite !code_E_yee, work_yee by assumption. now apply yee_E_run.
  Qed.

  Lemma code_H_step sh dt d eps mu j s : length sh = 3%nat -> nzd sh d -> same_widths sh d -> nzm sh eps -> nzm_opt sh mu ->
    code_H sh dt d eps mu j s = code_E sh dt d eps mu s + gsum sh (delta_energy_j j (sE s) d).
  Proof.
    intros HL Hd Hs He Hm. rewrite code_H_yee, code_E_yee by assumption.
    rewrite yee_H_step by assumption. f_equal. apply gsum_ext. intros idx Hi. symmetry. now apply (delta_j_yee K sh).
  Qed.

  (** ** Steps respect pointwise equality *)
  Lemma maxwell_e_ext sh dt d eps e e' h h' : length sh = 3%nat -> feq sh e e' -> feq sh h h' ->
    feq sh (maxwell_e sh dt d e h eps) (maxwell_e sh dt d e' h' eps).
  Proof.
    intros HL He Hh c idx Hc Hi. unfold maxwell_e. rewrite (He c idx Hc Hi).
    rewrite (curl_back_ext K sh _ h h') by (try assumption; lia). reflexivity.
  Qed.
  Lemma maxwell_h_ext sh dt d mu e e' h h' : length sh = 3%nat -> feq sh e e' -> feq sh h h' ->
    feq sh (maxwell_h sh dt d e h mu) (maxwell_h sh dt d e' h' mu).
  Proof.
    intros HL He Hh c idx Hc Hi. unfold maxwell_h. rewrite (Hh c idx Hc Hi).
    rewrite (curl_forward_ext K sh _ e e') by (try assumption; lia). reflexivity.
  Qed.

  Lemma feq_refl sh F : feq sh F F. Proof. intros c idx _ _. reflexivity. Qed.
  Lemma feq_sym sh F G : feq sh F G -> feq sh G F. Proof. intros H c idx Hc Hi. symmetry. now apply H. Qed.
  Lemma feq_trans sh F G (H : field K) : feq sh F G -> feq sh G H -> feq sh F H.
  Proof. intros H1 H2 c idx Hc Hi. rewrite H1 by assumption. now apply H2. Qed.

  Lemma step_ext sh dt d eps mu j s t : length sh = 3%nat -> seq_st sh s t ->
    seq_st sh (step sh dt d eps mu j s) (step sh dt d eps mu j t).
  Proof.
    intros HL [He Hh]. unfold step, seq_st. cbn [sE sH].
    assert (H1 : feq sh (maxwell_h sh dt d (sE s) (sH s) mu) (maxwell_h sh dt d (sE t) (sH t) mu))
      by now apply maxwell_h_ext.
    split; [|exact H1]. intros c idx Hc Hi. f_equal.
    now apply maxwell_e_ext.
  Qed.
  Lemma run_ext sh dt d eps mu js : length sh = 3%nat -> forall s t, seq_st sh s t ->
    seq_st sh (run sh dt d eps mu js s) (run sh dt d eps mu js t).
  Proof.
    intro HL. induction js as [|j js IH]; intros s t H; [exact H|].
    cbn [run fold_left]. apply IH. now apply step_ext.
  Qed.

  (** ** Reversibility *)
  (** Undo one step: take the current back out, E with -dt, then H with -dt. *)
  Definition unstep sh dt d eps mu j s : state K :=
    let e1 := fun c i => sE s c i - j c i / eps c i in
    let e0 := maxwell_e sh (- dt) d e1 (sH s) eps in
    mkst e0 (maxwell_h sh (- dt) d e0 (sH s) mu).
  Definition unrun sh dt d eps mu (js : list (field K)) s : state K :=
    fold_left (fun st j => unstep sh dt d eps mu j st) (rev js) s.

  Lemma unstep_step sh dt d eps mu j s : length sh = 3%nat ->
    seq_st sh (unstep sh dt d eps mu j (step sh dt d eps mu j s)) s.
  Proof.
    intros HL. unfold unstep, step, seq_st. cbn [sE sH].
    set (h' := maxwell_h sh dt d (sE s) (sH s) mu).
    assert (A : feq sh (maxwell_e sh (- dt) d
       (fun c i => maxwell_e sh dt d (sE s) h' eps c i + j c i / eps c i - j c i / eps c i) h' eps) (sE s)).
    { intros c idx Hc Hi. unfold maxwell_e. rewrite !fdiv_def. ring. }
    split; [exact A|].
    intros c idx Hc Hi.
    rewrite (maxwell_h_ext sh (- dt) d mu _ _ h' h' HL A (feq_refl sh h') c idx Hc Hi).
    unfold h', maxwell_h. destruct mu as [m|]; rewrite ?fdiv_def; ring.
  Qed.

  Lemma unstep_ext sh dt d eps mu j s t : length sh = 3%nat -> seq_st sh s t ->
    seq_st sh (unstep sh dt d eps mu j s) (unstep sh dt d eps mu j t).
  Proof.
    intros HL [He Hh]. unfold unstep, seq_st. cbn [sE sH].
    assert (A : feq sh (maxwell_e sh (- dt) d (fun c i => sE s c i - j c i / eps c i) (sH s) eps)
                       (maxwell_e sh (- dt) d (fun c i => sE t c i - j c i / eps c i) (sH t) eps)).
    { apply maxwell_e_ext; try assumption. intros c idx Hc Hi. now rewrite (He c idx Hc Hi). }
    split; [exact A|]. now apply maxwell_h_ext.
  Qed.

  Lemma seq_st_trans sh s t (u : state K) : seq_st sh s t -> seq_st sh t u -> seq_st sh s u.
  Proof. intros [A B] [C D]. split; eapply feq_trans; eassumption. Qed.

  Lemma unrun_ext sh dt d eps mu js : length sh = 3%nat -> forall s t, seq_st sh s t ->
    seq_st sh (fold_left (fun st j => unstep sh dt d eps mu j st) js s)
              (fold_left (fun st j => unstep sh dt d eps mu j st) js t).
  Proof.
    intro HL. induction js as [|j js IH]; intros s t H; [exact H|]. cbn [fold_left].
    apply IH. now apply unstep_ext.
  Qed.

  Lemma unrun_run sh dt d eps mu js : length sh = 3%nat -> forall s,
    seq_st sh (unrun sh dt d eps mu js (run sh dt d eps mu js s)) s.
  Proof.
    intro HL. unfold unrun. induction js as [|j js IH]; intro s.
    - cbn. split; apply feq_refl.
    - cbn [run fold_left rev]. fold (run sh dt d eps mu js (step sh dt d eps mu j s)).
      rewrite fold_left_app. cbn [fold_left].
      eapply seq_st_trans; [|apply unstep_step; exact HL].
      apply unstep_ext; [exact HL|]. apply IH.
  Qed.

  (** Time reversal by negating H: iterating E-then-H updates on (e, -h)
      retraces the history of H-then-E updates. *)
  Definition step_eh sh dt d eps mu s : state K :=
    let e' := maxwell_e sh dt d (sE s) (sH s) eps in
    mkst e' (maxwell_h sh dt d e' (sH s) mu).
  Definition flipH s : state K := mkst (sE s) (fun c i => - sH s c i).

  Lemma curl_back_opp sh dx F c idx :
    curl_back sh dx (fun k i => - F k i) c idx = - curl_back sh dx F c idx.
  Proof.
    pose proof (curl_back_lin K sh dx c (- (1)) 0 F F idx) as E.
    transitivity (curl_back sh dx (fun k i => - (1) * F k i + 0 * F k i) c idx).
    - unfold curl_back, curl_with, deriv_back, roll.
      destruct c as [|[|[|c]]]; destruct dx; rewrite ?fdiv_def; ring.
    - rewrite E. ring.
  Qed.

  Lemma step_eh_flip sh dt d eps mu s : length sh = 3%nat ->
    seq_st sh (step_eh sh dt d eps mu (flipH (step sh dt d eps mu noj s))) (flipH s).
  Proof.
    intro HL. unfold step_eh, flipH, step, seq_st, noj. cbn [sE sH].
    set (h' := maxwell_h sh dt d (sE s) (sH s) mu).
    assert (A : feq sh (maxwell_e sh dt d (fun c i => maxwell_e sh dt d (sE s) h' eps c i + 0 / eps c i)
                         (fun c i => - h' c i) eps) (sE s)).
    { intros c idx Hc Hi. unfold maxwell_e. rewrite curl_back_opp. rewrite !fdiv_def. ring. }
    split; [exact A|]. intros c idx Hc Hi.
    rewrite (maxwell_h_ext sh dt d mu _ _ _ _ HL A (feq_refl sh _) c idx Hc Hi).
    unfold h', maxwell_h. destruct mu; rewrite ?fdiv_def; ring.
  Qed.

  Lemma step_eh_ext sh dt d eps mu s t : length sh = 3%nat -> seq_st sh s t ->
    seq_st sh (step_eh sh dt d eps mu s) (step_eh sh dt d eps mu t).
  Proof.
    intros HL [He Hh]. unfold step_eh, seq_st. cbn [sE sH].
    assert (A : feq sh (maxwell_e sh dt d (sE s) (sH s) eps) (maxwell_e sh dt d (sE t) (sH t) eps))
      by now apply maxwell_e_ext.
    split; [exact A|]. now apply maxwell_h_ext.
  Qed.

  Lemma retrace sh dt d eps mu n : length sh = 3%nat -> forall s,
    seq_st sh (Nat.iter n (step_eh sh dt d eps mu) (flipH (run sh dt d eps mu (repeat noj n) s))) (flipH s).
  Proof.
    intro HL.
    assert (IX : forall n s t, seq_st sh s t ->
      seq_st sh (Nat.iter n (step_eh sh dt d eps mu) s) (Nat.iter n (step_eh sh dt d eps mu) t)).
    { clear n. induction n as [|n IH]; intros s t H; [exact H|]. cbn. apply step_eh_ext; [exact HL|]. now apply IH. }
    induction n as [|n IH]; intro s.
    - cbn. split; apply feq_refl.
    - cbn [repeat run fold_left]. fold (run sh dt d eps mu (repeat noj n) (step sh dt d eps mu noj s)).
      cbn [Nat.iter nat_rect].
      eapply seq_st_trans; [|apply step_eh_flip; exact HL].
      apply step_eh_ext; [exact HL|]. apply IH.
  Qed.

  (** ** Superposition *)
  Definition lin (a b : K) F G : field K := fun c i => a * F c i + b * G c i.
  Definition lin_st (a b : K) s t : state K := mkst (lin a b (sE s) (sE t)) (lin a b (sH s) (sH t)).

  Lemma step_lin sh dt d eps mu a b j j' s t : 
    seq_st sh (step sh dt d eps mu (lin a b j j') (lin_st a b s t))
              (lin_st a b (step sh dt d eps mu j s) (step sh dt d eps mu j' t)).
  Proof.
    assert (A : forall c idx, maxwell_h sh dt d (lin a b (sE s) (sE t)) (lin a b (sH s) (sH t)) mu c idx
       = lin a b (maxwell_h sh dt d (sE s) (sH s) mu) (maxwell_h sh dt d (sE t) (sH t) mu) c idx).
    { intros c idx. unfold maxwell_h, lin. rewrite curl_forward_lin.
      destruct mu; rewrite ?fdiv_def; ring. }
    unfold step, seq_st, lin_st. cbn [sE sH]. split; intros c idx Hc Hi; [|apply A].
    unfold maxwell_e.
    assert (B : curl_back sh (option_map snd d) (maxwell_h sh dt d (lin a b (sE s) (sE t)) (lin a b (sH s) (sH t)) mu) c idx
      = a * curl_back sh (option_map snd d) (maxwell_h sh dt d (sE s) (sH s) mu) c idx
      + b * curl_back sh (option_map snd d) (maxwell_h sh dt d (sE t) (sH t) mu) c idx).
    { rewrite <- curl_back_lin.
      unfold curl_back, curl_with, deriv_back, roll.
      destruct c as [|[|[|c]]]; rewrite ?A; reflexivity. }
    rewrite B. unfold lin. rewrite !fdiv_def. ring.
  Qed.

  Lemma run_lin sh dt d eps mu a b : length sh = 3%nat -> forall js js' s t, length js = length js' ->
    seq_st sh (run sh dt d eps mu (map (fun p => lin a b (fst p) (snd p)) (combine js js')) (lin_st a b s t))
              (lin_st a b (run sh dt d eps mu js s) (run sh dt d eps mu js' t)).
  Proof.
    intro HL. induction js as [|j js IH]; intros [|j' js'] s t Hlen; try discriminate Hlen.
    - cbn. split; apply feq_refl.
    - cbn [combine map run fold_left].
      fold (run sh dt d eps mu js (step sh dt d eps mu j s)).
      fold (run sh dt d eps mu js' (step sh dt d eps mu j' t)).
      eapply seq_st_trans; [|apply IH; now injection Hlen].
      apply (run_ext sh dt d eps mu (map (fun p => lin a b (fst p) (snd p)) (combine js js')) HL).
      apply step_lin.
  Qed.

  (** ** Domain of dependence *)
  Lemma within_refl sh n idx : inb sh idx -> within sh n idx idx.
  Proof.
    intro Hi. split; [reflexivity|]. intros a Ha. exists 0%Z. split; [lia|].
    symmetry. apply cyc_0. now apply inb_coord.
  Qed.

  Lemma within_box_inb sh n idx idx' : inb sh idx -> within sh n idx idx' -> inb sh idx'.
  Proof.
    intros Hi [HL H]. apply inb_iff. split; [rewrite HL; now apply inb_length|].
    intros a Ha. destruct (H a Ha) as [z [_ E]]. rewrite E. apply cyc_lt. now apply (inb_dim_pos sh idx).
  Qed.

  (** Agreement on a one-sided box. *)
  Definition wbox (sh : list nat) (lo hi : Z) (idx idx' : list nat) : Prop :=
    length idx' = length idx /\
    forall a, (a < length sh)%nat ->
      exists z : Z, (lo <= z <= hi)%Z /\ coord idx' a = cyc (dim sh a) z (coord idx a).

  Lemma wbox_shift sh lo hi a q idx idx' : inb sh idx -> (a < length sh)%nat ->
    wbox sh lo hi (shift_ix sh a q idx) idx' -> (Z.min 0 q <= 0)%Z ->
    wbox sh (lo + Z.min 0 q) (hi + Z.max 0 q) idx idx'.
  Proof.
    intros Hi Ha [HL H] _. split.
    - rewrite HL. unfold shift_ix. apply length_upd.
    - intros b Hb. destruct (H b Hb) as [z [Hz E]].
      destruct (Nat.eq_dec a b) as [->|Hne].
      + rewrite coord_shift_same, cyc_cyc in E by (try assumption; now apply (inb_dim_pos sh idx)).
        exists (z + q)%Z. split; [lia|exact E].
      + rewrite coord_shift_other in E by exact Hne. exists z. split; [lia|exact E].
  Qed.

  Lemma wbox_mono sh lo hi lo' hi' idx idx' : (lo' <= lo)%Z -> (hi <= hi')%Z -> wbox sh lo hi idx idx' -> wbox sh lo' hi' idx idx'.
  Proof. intros H1 H2 [HL H]. split; [exact HL|]. intros a Ha. destruct (H a Ha) as [z [Hz E]]. exists z. split; [lia|exact E]. Qed.

  Lemma wbox_refl sh lo hi idx : inb sh idx -> (lo <= 0 <= hi)%Z -> wbox sh lo hi idx idx.
  Proof.
    intros Hi Hz. split; [reflexivity|]. intros a Ha. exists 0%Z. split; [exact Hz|].
    symmetry. apply cyc_0. now apply inb_coord.
  Qed.

  (** [F] and [G] agree on the box around [idx]. *)
  Definition agree sh lo hi idx F G : Prop :=
    forall c i, (c < 3)%nat -> wbox sh lo hi idx i -> F c i = G c i.

  Lemma agree_shift sh lo hi a q idx F G : inb sh idx -> (a < length sh)%nat ->
    agree sh (lo + Z.min 0 q) (hi + Z.max 0 q) idx F G ->
    agree sh lo hi (shift_ix sh a q idx) F G.
  Proof.
    intros Hi Ha H c i Hc Hw. apply H; [exact Hc|]. apply (wbox_shift sh lo hi a q); try assumption. lia.
  Qed.

  Lemma agree_mono sh lo hi lo' hi' idx F G : (lo' <= lo)%Z -> (hi <= hi')%Z ->
    agree sh lo' hi' idx F G -> agree sh lo hi idx F G.
  Proof. intros H1 H2 H c i Hc Hw. apply H; [exact Hc|]. now apply (wbox_mono sh lo hi). Qed.

  Lemma curl_forward_local sh dx F G c idx : length sh = 3%nat -> inb sh idx ->
    (forall b, (b < 3)%nat -> F b idx = G b idx) ->
    (forall a b, (a < 3)%nat -> (b < 3)%nat -> F b (shift_ix sh a 1 idx) = G b (shift_ix sh a 1 idx)) ->
    curl_forward sh dx F c idx = curl_forward sh dx G c idx.
  Proof.
    intros HL Hi H0 H1. unfold curl_forward, curl_with, deriv_forward, roll.
    change (Z.opp (-1)) with 1%Z.
    destruct c as [|[|[|c]]]; try reflexivity; rewrite !H0, !H1 by lia; reflexivity.
  Qed.
  Lemma curl_back_local sh dx F G c idx : length sh = 3%nat -> inb sh idx ->
    (forall b, (b < 3)%nat -> F b idx = G b idx) ->
    (forall a b, (a < 3)%nat -> (b < 3)%nat -> F b (shift_ix sh a (-1) idx) = G b (shift_ix sh a (-1) idx)) ->
    curl_back sh dx F c idx = curl_back sh dx G c idx.
  Proof.
    intros HL Hi H0 H1. unfold curl_back, curl_with, deriv_back, roll.
    change (Z.opp 1) with (-1)%Z.
    destruct c as [|[|[|c]]]; try reflexivity; rewrite !H0, !H1 by lia; reflexivity.
  Qed.

  Lemma wbox_inb sh lo hi idx idx' : inb sh idx -> wbox sh lo hi idx idx' -> inb sh idx'.
  Proof.
    intros Hi [HL H]. apply inb_iff. split; [rewrite HL; now apply inb_length|].
    intros a Ha. destruct (H a Ha) as [z [_ E]]. rewrite E. apply cyc_lt. now apply (inb_dim_pos sh idx).
  Qed.

  Lemma wbox_trans_shift sh lo hi a q idx i : inb sh idx -> (a < length sh)%nat -> wbox sh lo hi idx i ->
    wbox sh (lo + Z.min 0 q) (hi + Z.max 0 q) idx (shift_ix sh a q i).
  Proof.
    intros Hi Ha Hw. pose proof (wbox_inb sh lo hi idx i Hi Hw) as Hin. destruct Hw as [HL H].
    split; [unfold shift_ix; rewrite length_upd; exact HL|].
    intros b Hb. destruct (H b Hb) as [z [Hz E]].
    destruct (Nat.eq_dec a b) as [->|Hne].
    - rewrite coord_shift_same by assumption. rewrite E, cyc_cyc by now apply (inb_dim_pos sh idx).
      exists (q + z)%Z. split; [lia|reflexivity].
    - rewrite coord_shift_other by exact Hne. exists z. split; [lia|exact E].
  Qed.

  Lemma maxwell_h_local sh dt d mu lo hi idx e e' h h' : length sh = 3%nat -> inb sh idx ->
    agree sh lo (hi + 1) idx e e' -> agree sh lo hi idx h h' ->
    agree sh lo hi idx (maxwell_h sh dt d e h mu) (maxwell_h sh dt d e' h' mu).
  Proof.
    intros HL Hi He Hh c i Hc Hw. unfold maxwell_h. rewrite (Hh c i Hc Hw).
    pose proof (wbox_inb sh lo hi idx i Hi Hw) as Hin.
    rewrite (curl_forward_local sh _ e e' c i HL Hin); [reflexivity| |].
    - intros b Hb. apply He; [exact Hb|]. apply (wbox_mono sh lo hi); [lia|lia|exact Hw].
    - intros a b Ha Hb. apply He; [exact Hb|].
      pose proof (wbox_trans_shift sh lo hi a 1 idx i Hi ltac:(lia) Hw) as W.
      now apply (wbox_mono sh _ _ lo (hi + 1)) in W; [|lia|lia].
  Qed.
  Lemma maxwell_e_local sh dt d eps lo hi idx e e' h h' : length sh = 3%nat -> inb sh idx ->
    agree sh lo hi idx e e' -> agree sh (lo - 1) hi idx h h' ->
    agree sh lo hi idx (maxwell_e sh dt d e h eps) (maxwell_e sh dt d e' h' eps).
  Proof.
    intros HL Hi He Hh c i Hc Hw. unfold maxwell_e. rewrite (He c i Hc Hw).
    pose proof (wbox_inb sh lo hi idx i Hi Hw) as Hin.
    rewrite (curl_back_local sh _ h h' c i HL Hin); [reflexivity| |].
    - intros b Hb. apply Hh; [exact Hb|]. apply (wbox_mono sh lo hi); [lia|lia|exact Hw].
    - intros a b Ha Hb. apply Hh; [exact Hb|].
      pose proof (wbox_trans_shift sh lo hi a (-1) idx i Hi ltac:(lia) Hw) as W.
      now apply (wbox_mono sh _ _ (lo - 1) hi) in W; [|lia|lia].
  Qed.

  Lemma step_local sh dt d eps mu j j' lo hi idx s t : length sh = 3%nat -> inb sh idx ->
    agree sh (lo - 1) (hi + 1) idx (sE s) (sE t) -> agree sh (lo - 1) (hi + 1) idx (sH s) (sH t) ->
    agree sh lo hi idx j j' ->
    agree sh lo hi idx (sE (step sh dt d eps mu j s)) (sE (step sh dt d eps mu j' t))
    /\ agree sh lo hi idx (sH (step sh dt d eps mu j s)) (sH (step sh dt d eps mu j' t)).
  Proof.
    intros HL Hi He Hh Hj. unfold step. cbn [sE sH].
    assert (A : agree sh (lo - 1) hi idx (maxwell_h sh dt d (sE s) (sH s) mu) (maxwell_h sh dt d (sE t) (sH t) mu)).
    { apply maxwell_h_local; try assumption. apply (agree_mono sh _ _ (lo - 1) (hi + 1)); [lia|lia|exact Hh]. }
    split.
    - intros c i Hc Hw. rewrite (Hj c i Hc Hw). f_equal.
      refine (maxwell_e_local sh dt d eps lo hi idx _ _ _ _ HL Hi _ A c i Hc Hw).
      apply (agree_mono sh _ _ (lo - 1) (hi + 1)); [lia|lia|exact He].
    - apply (agree_mono sh lo hi (lo - 1) hi); [lia|lia|exact A].
  Qed.

  (** Currents need only agree within the (shrinking) box; for simplicity we ask
      for agreement on the initial box. *)
  Lemma Forall2_weaken (R S : field K -> field K -> Prop) : (forall x y, R x y -> S x y) ->
    forall l l', Forall2 R l l' -> Forall2 S l l'.
  Proof. intros H l l' HF. induction HF; constructor; auto. Qed.

  Lemma run_local sh dt d eps mu idx : length sh = 3%nat -> inb sh idx ->
    forall js js' (r : Z) s t, (0 <= r)%Z -> length js = length js' ->
    let n := Z.of_nat (length js) in
    agree sh (- r - n) (r + n) idx (sE s) (sE t) -> agree sh (- r - n) (r + n) idx (sH s) (sH t) ->
    Forall2 (agree sh (- r - n) (r + n) idx) js js' ->
    agree sh (- r) r idx (sE (run sh dt d eps mu js s)) (sE (run sh dt d eps mu js' t))
    /\ agree sh (- r) r idx (sH (run sh dt d eps mu js s)) (sH (run sh dt d eps mu js' t)).
  Proof.
    intros HL Hi. induction js as [|j js IH]; intros [|j' js'] r s t Hr Hlen n He Hh Hj; try discriminate Hlen.
    - cbn in *. unfold n in *. replace (- r - 0)%Z with (- r)%Z in * by lia. replace (r + 0)%Z with r in * by lia.
      split; assumption.
    - cbn [run fold_left].
      fold (run sh dt d eps mu js (step sh dt d eps mu j s)).
      fold (run sh dt d eps mu js' (step sh dt d eps mu j' t)).
      inversion Hj as [|? ? ? ? Hj1 Hj2]; subst.
      assert (En : n = (Z.of_nat (length js) + 1)%Z) by (unfold n; cbn [length]; lia).
      set (m := Z.of_nat (length js)) in *.
      destruct (step_local sh dt d eps mu j j' (- r - m) (r + m) idx s t HL Hi) as [A B].
      + apply (agree_mono sh _ _ (- r - n) (r + n)); [lia|lia|exact He].
      + apply (agree_mono sh _ _ (- r - n) (r + n)); [lia|lia|exact Hh].
      + apply (agree_mono sh _ _ (- r - n) (r + n)); [lia|lia|exact Hj1].
      + apply IH; try assumption; [now injection Hlen|].
        eapply Forall2_weaken; [|exact Hj2]. intros F G HFG.
        apply (agree_mono sh _ _ (- r - n) (r + n)); [lia|lia|exact HFG].
  Qed.
End P.

(** Small algebra shared by the property statements. *)
Section Q.
  Variable K : Fld.
  Add Field Kfield2 : (fth K).
  Local Open Scope fld_scope.

  Lemma Radd_0_l_of (x : K) : 0 + x = x. Proof. ring. Qed.
  Lemma Radd_0_r_of (x : K) : x + 0 = x. Proof. ring. Qed.
  Lemma Rmul_0_l_of (x : K) : 0 * x = 0. Proof. ring. Qed.
  Lemma Rmul_0_r_of (x : K) : x * 0 = 0. Proof. ring. Qed.
  Lemma charge_opp (x dt y : K) : x + - dt * y = x - dt * y. Proof. ring. Qed.

  Lemma delta_noj (d : dxes_t K) (e : field K) idx : delta_energy_j noj e d idx = 0.
  Proof. unfold delta_energy_j, sum_axis0, noj. ring. Qed.

  Lemma delta_energy_ok (dt : K) (d : dxes_t K) (eps mu : option (field K)) (a b c' g : field K) idx :
    dt <> 0 ->
    dt * delta_energy_h2e dt a b c' g eps mu d idx
      = energy_estep b c' g eps mu d idx - energy_hstep a b c' eps mu d idx
    /\ dt * delta_energy_e2h dt a b c' g eps mu d idx
      = energy_hstep b c' g eps mu d idx - energy_estep a b c' eps mu d idx.
  Proof.
    intro Hdt. unfold delta_energy_h2e, delta_energy_e2h, energy_estep, energy_hstep, dxmul, sum_axis0.
    split; field; exact Hdt.
  Qed.

  Lemma region_flux sh (s : field K) (A : list nat -> bool) : length sh = 3%nat ->
    gsum sh (fun idx => if A idx then divergence_of sh s idx else 0)
    = gsum sh (fun idx =>
        let face a := match A idx, A (shift_ix sh a 1 idx) with
                      | true, false => s a idx | false, true => - s a idx | _, _ => 0 end in
        face 0%nat + face 1%nat + face 2%nat).
  Proof.
    intro HL.
    transitivity (gsum sh (fun idx => ind (A idx) * divergence_of sh s idx)).
    { apply gsum_ext. intros idx _. unfold ind. destruct (A idx); ring. }
    rewrite gsum_divergence_region by exact HL. apply gsum_ext. intros idx _. cbv zeta. unfold ind.
    destruct (A idx), (A (shift_ix sh 0 1 idx)), (A (shift_ix sh 1 1 idx)), (A (shift_ix sh 2 1 idx)); ring.
  Qed.

  Lemma within_wbox sh n idx i : wbox sh (- (0) - Z.of_nat n) (0 + Z.of_nat n) idx i <-> within sh n idx i.
  Proof.
    unfold wbox, within. split; intros [HL H]; (split; [exact HL|]); intros a Ha; destruct (H a Ha) as [z [Hz E]];
      exists z; (split; [lia|exact E]).
  Qed.

  Lemma dep_cone sh (dt : K) (d : dxes_t K) (eps : field K) (mu : option (field K))
         (js js' : list (field K)) (s t : state K) (idx : list nat) :
    length sh = 3%nat -> inb sh idx -> length js = length js' ->
    let near (F G : field K) := forall c i, (c < 3)%nat -> within sh (length js) idx i -> F c i = G c i in
    near (sE s) (sE t) -> near (sH s) (sH t) -> Forall2 near js js' ->
    forall c, (c < 3)%nat ->
      sE (run sh dt d eps mu js s) c idx = sE (run sh dt d eps mu js' t) c idx
      /\ sH (run sh dt d eps mu js s) c idx = sH (run sh dt d eps mu js' t) c idx.
  Proof.
    intros HL Hi Hlen near He Hh Hj c Hc.
    assert (N : forall F G : field K, near F G ->
      agree K sh (- (0) - Z.of_nat (length js)) (0 + Z.of_nat (length js)) idx F G).
    { intros F G H c' i Hc' Hw. apply H; [exact Hc'|]. now apply within_wbox. }
    destruct (run_local K sh dt d eps mu idx HL Hi js js' 0%Z s t) as [A B]; try assumption; try lia.
    - now apply N.
    - now apply N.
    - eapply Forall2_weaken; [exact N|exact Hj].
    - split; [apply A|apply B]; try assumption; now apply wbox_refl.
  Qed.
End Q.
