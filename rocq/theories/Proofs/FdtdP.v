(** Lemmas about the FDTD model. *)
From Coq Require Import List Arith ZArith Lia Field Bool.
From Verif.Lib Require Import Num Sums Idx Mat.
From Verif.Model Require Import Fdmath Fdtd.
From Verif.Spec Require Import Yee FdtdRun.
From Verif.Proofs Require Import FdmathP FdmathP2.
From Verif.Proofs Require Import GridP.
Import ListNotations.
Local Open Scope nat_scope.

Section P.
  Variable K : Fld.
  Add Field Kfield : (fth K).
  Local Open Scope fld_scope.
  Implicit Types e h j F G : field K.
  Implicit Types d : dxes_t K.

  (** ** The local Poynting identity, with Yee volumes *)
  Lemma local_poynting sh d e h idx : length sh = 3%nat -> inb sh idx -> nzd sh d ->
    csum (fun c => vol_e_d d c idx * (e c idx * curl_back sh (option_map snd d) h c idx))
    - csum (fun c => vol_h_d d c idx * (h c idx * curl_forward sh (option_map fst d) e c idx))
    = - divergence_of sh (poynting sh d e h) idx.
  Proof.
    intros HL Hi Hnz.
    unfold csum, divergence_of, poynting, curl_back, curl_forward, curl_with.
    unfold deriv_back at 4 5 6 7 8 9. unfold deriv_forward, deriv_back, roll.
    change (Z.opp (-1)) with 1%Z. change (Z.opp 1) with (-1)%Z.
    rewrite !(shift_ix_np sh idx) by (try exact Hi; lia).
    destruct d as [[we wh]|]; cbn [option_map fst snd vol_e_d vol_h_d wat vol_h vol_e].
    - destruct Hnz as [He Hh]. unfold vol3.
      rewrite !coord_shift_other by lia.
      assert (E : forall a, (a < 3)%nat -> we a (coord idx a) <> 0).
      { intros a Ha. apply He; [lia|]. apply inb_coord; [exact Hi|lia]. }
      assert (H : forall a, (a < 3)%nat -> wh a (coord idx a) <> 0).
      { intros a Ha. apply Hh; [lia|]. apply inb_coord; [exact Hi|lia]. }
      field; repeat split; (apply E || apply H); lia.
    - ring.
  Qed.

  (** ** Energy bookkeeping over half steps *)
  Lemma curl_scale_eps (x y z : K) : z <> 0 -> z * (x * y / z) = x * y.
  Proof. intro Hz. field. exact Hz. Qed.

  (** From the time of h1 to the time of e2. *)
  Lemma half_h2e sh dt d (eps : field K) (mu : option (field K)) e0 h1 j idx :
    length sh = 3%nat -> inb sh idx -> nzd sh d -> nzm sh eps -> nzm_opt sh mu ->
    let e2 := fun c i => maxwell_e sh dt d e0 h1 eps c i + j c i / eps c i in
    let h3 := maxwell_h sh dt d e2 h1 mu in
    yee_energy (fun c i => e2 c i * e2 c i) (fun c i => h1 c i * h3 c i) (Some eps) mu d idx
    - yee_energy (fun c i => e0 c i * e2 c i) (fun c i => h1 c i * h1 c i) (Some eps) mu d idx
    = - (dt * divergence_of sh (poynting sh d e2 h1) idx) + yee_work j e2 d idx.
  Proof.
    intros HL Hi Hnz Heps Hmu e2 h3.
    pose proof (local_poynting sh d e2 h1 idx HL Hi Hnz) as LP.
    transitivity (dt * (csum (fun c => vol_e_d d c idx * (e2 c idx * curl_back sh (option_map snd d) h1 c idx))
      - csum (fun c => vol_h_d d c idx * (h1 c idx * curl_forward sh (option_map fst d) e2 c idx)))
      + yee_work j e2 d idx).
    2:{ rewrite LP. ring. }
    clear LP.
    assert (A : forall c, (c < 3)%nat -> eps c idx * (e2 c idx - e0 c idx)
       = dt * curl_back sh (option_map snd d) h1 c idx + j c idx).
    { intros c Hc. unfold e2, maxwell_e. specialize (Heps c idx Hc Hi). field. exact Heps. }
    assert (B : forall c, (c < 3)%nat -> matl mu c idx * (h3 c idx - h1 c idx)
       = - (dt * curl_forward sh (option_map fst d) e2 c idx)).
    { intros c Hc. unfold h3, maxwell_h, matl. destruct mu as [m|].
      - specialize (Hmu c idx Hc Hi). field. exact Hmu.
      - ring. }
    unfold yee_energy, yee_work, csum. cbn [matl].
    transitivity (e2 0%nat idx * vol_e_d d 0 idx * (eps 0%nat idx * (e2 0%nat idx - e0 0%nat idx))
      + e2 1%nat idx * vol_e_d d 1 idx * (eps 1%nat idx * (e2 1%nat idx - e0 1%nat idx))
      + e2 2%nat idx * vol_e_d d 2 idx * (eps 2%nat idx * (e2 2%nat idx - e0 2%nat idx))
      + h1 0%nat idx * vol_h_d d 0 idx * (matl mu 0 idx * (h3 0%nat idx - h1 0%nat idx))
      + h1 1%nat idx * vol_h_d d 1 idx * (matl mu 1 idx * (h3 1%nat idx - h1 1%nat idx))
      + h1 2%nat idx * vol_h_d d 2 idx * (matl mu 2 idx * (h3 2%nat idx - h1 2%nat idx))).
    { ring. }
    rewrite !A, !B by lia. ring.
  Qed.

  (** From the time of e1 to the time of h2. *)
  Lemma half_e2h sh dt d (eps : field K) (mu : option (field K)) h0 e1 j idx :
    length sh = 3%nat -> inb sh idx -> nzd sh d -> nzm sh eps -> nzm_opt sh mu ->
    let h2 := maxwell_h sh dt d e1 h0 mu in
    let e3 := fun c i => maxwell_e sh dt d e1 h2 eps c i + j c i / eps c i in
    yee_energy (fun c i => e1 c i * e3 c i) (fun c i => h2 c i * h2 c i) (Some eps) mu d idx
    - yee_energy (fun c i => e1 c i * e1 c i) (fun c i => h0 c i * h2 c i) (Some eps) mu d idx
    = - (dt * divergence_of sh (poynting sh d e1 h2) idx) + yee_work j e1 d idx.
  Proof.
    intros HL Hi Hnz Heps Hmu h2 e3.
    pose proof (local_poynting sh d e1 h2 idx HL Hi Hnz) as LP.
    transitivity (dt * (csum (fun c => vol_e_d d c idx * (e1 c idx * curl_back sh (option_map snd d) h2 c idx))
      - csum (fun c => vol_h_d d c idx * (h2 c idx * curl_forward sh (option_map fst d) e1 c idx)))
      + yee_work j e1 d idx).
    2:{ rewrite LP. ring. }
    clear LP.
    assert (A : forall c, (c < 3)%nat -> eps c idx * (e3 c idx - e1 c idx)
       = dt * curl_back sh (option_map snd d) h2 c idx + j c idx).
    { intros c Hc. unfold e3, maxwell_e. specialize (Heps c idx Hc Hi). field. exact Heps. }
    assert (B : forall c, (c < 3)%nat -> matl mu c idx * (h2 c idx - h0 c idx)
       = - (dt * curl_forward sh (option_map fst d) e1 c idx)).
    { intros c Hc. unfold h2, maxwell_h, matl. destruct mu as [m|].
      - specialize (Hmu c idx Hc Hi). field. exact Hmu.
      - ring. }
    unfold yee_energy, yee_work, csum. cbn [matl].
    transitivity (e1 0%nat idx * vol_e_d d 0 idx * (eps 0%nat idx * (e3 0%nat idx - e1 0%nat idx))
      + e1 1%nat idx * vol_e_d d 1 idx * (eps 1%nat idx * (e3 1%nat idx - e1 1%nat idx))
      + e1 2%nat idx * vol_e_d d 2 idx * (eps 2%nat idx * (e3 2%nat idx - e1 2%nat idx))
      + h2 0%nat idx * vol_h_d d 0 idx * (matl mu 0 idx * (h2 0%nat idx - h0 0%nat idx))
      + h2 1%nat idx * vol_h_d d 1 idx * (matl mu 1 idx * (h2 1%nat idx - h0 1%nat idx))
      + h2 2%nat idx * vol_h_d d 2 idx * (matl mu 2 idx * (h2 2%nat idx - h0 2%nat idx))).
    { ring. }
    rewrite !A, !B by lia. ring.
  Qed.

  (** With equal E and H widths the code's weights are the Yee weights. *)
  Lemma dxmul_yee sh d ee hh (eps mu : option (field K)) idx : length sh = 3%nat -> inb sh idx -> same_widths sh d ->
    dxmul ee hh eps mu d idx = yee_energy ee hh eps mu d idx.
  Proof.
    intros HL Hi Hs. unfold dxmul, yee_energy, csum, sum_axis0. change (@or_one K) with (@matl K).
    destruct d as [[we wh]|]; cbn [option_map fst snd wat vol_e_d vol_h_d].
    - assert (E : forall a, (a < 3)%nat -> we a (coord idx a) = wh a (coord idx a)).
      { intros a Ha. apply Hs; [exact Ha|]. apply inb_coord; [exact Hi|lia]. }
      unfold vol_h, vol_e, vol3. rewrite (E 0%nat), (E 1%nat), (E 2%nat) by lia. ring.
    - ring.
  Qed.
  Lemma delta_j_yee sh d j e idx : length sh = 3%nat -> inb sh idx -> same_widths sh d ->
    delta_energy_j j e d idx = yee_work j e d idx.
  Proof.
    intros HL Hi Hs. unfold delta_energy_j, yee_work, csum, sum_axis0.
    destruct d as [[we wh]|]; cbn [option_map fst snd wat vol_e_d vol_h_d].
    - assert (E : forall a, (a < 3)%nat -> we a (coord idx a) = wh a (coord idx a)).
      { intros a Ha. apply Hs; [exact Ha|]. apply inb_coord; [exact Hi|lia]. }
      unfold vol_h, vol_e, vol3. rewrite (E 0%nat), (E 1%nat), (E 2%nat) by lia. ring.
    - ring.
  Qed.

  Lemma gsum_divergence sh (s : field K) : length sh = 3%nat -> gsum sh (divergence_of sh s) = 0.
  Proof.
    intro HL. unfold divergence_of. rewrite !gsum_add.
    rewrite !gsum_deriv_back0 by lia. ring.
  Qed.

  (** Net flux through the faces of an arbitrary set of cells. *)
  Lemma gsum_divergence_region sh (s : field K) (A : list nat -> bool) : length sh = 3%nat ->
    gsum sh (fun idx => ind (A idx) * divergence_of sh s idx)
    = gsum sh (fun idx => (ind (A idx) - ind (A (shift_ix sh 0 1 idx))) * s 0%nat idx
                        + (ind (A idx) - ind (A (shift_ix sh 1 1 idx))) * s 1%nat idx
                        + (ind (A idx) - ind (A (shift_ix sh 2 1 idx))) * s 2%nat idx).
  Proof.
    intro HL. rewrite !gsum_add. unfold divergence_of.
    rewrite (gsum_ext sh (fun idx => ind (A idx) * (deriv_back sh None 0 (s 0%nat) idx + deriv_back sh None 1 (s 1%nat) idx
               + deriv_back sh None 2 (s 2%nat) idx))
      (fun idx => ind (A idx) * deriv_back sh None 0 (s 0%nat) idx + ind (A idx) * deriv_back sh None 1 (s 1%nat) idx
               + ind (A idx) * deriv_back sh None 2 (s 2%nat) idx)) by (intros; ring).
    rewrite !gsum_add.
    assert (E : forall a, (a < 3)%nat ->
       gsum sh (fun idx => ind (A idx) * deriv_back sh None a (s a) idx)
       = gsum sh (fun idx => (ind (A idx) - ind (A (shift_ix sh a 1 idx))) * s a idx)).
    { intros a Ha.
      transitivity (- gsum sh (fun idx => s a idx * deriv_forward sh None a (fun i => ind (A i)) idx)).
      - rewrite (sum_by_parts_raw K sh a (fun i => ind (A i)) (s a)) by lia. ring.
      - rewrite <- gsum_opp. apply gsum_ext. intros idx _. unfold deriv_forward, roll.
        change (Z.opp (-1)) with 1%Z. ring. }
    rewrite !E by lia. reflexivity.
  Qed.

  (** ** Charge conservation *)
  Lemma div_b_ext sh d F G idx : length sh = 3%nat -> inb sh idx -> feq sh F G -> div_b sh d F idx = div_b sh d G idx.
  Proof.
    intros HL Hi H. unfold div_b. to_model.
    rewrite (deriv_back_ext K sh _ 0 (F 0%nat) (G 0%nat)), (deriv_back_ext K sh _ 1 (F 1%nat) (G 1%nat)),
      (deriv_back_ext K sh _ 2 (F 2%nat) (G 2%nat)); try reflexivity; try lia; try assumption; intros; apply H; (lia || assumption).
  Qed.
  Lemma div_f_ext sh d F G idx : length sh = 3%nat -> inb sh idx -> feq sh F G -> div_f sh d F idx = div_f sh d G idx.
  Proof.
    intros HL Hi H. unfold div_f. to_model.
    rewrite (deriv_forward_ext K sh _ 0 (F 0%nat) (G 0%nat)), (deriv_forward_ext K sh _ 1 (F 1%nat) (G 1%nat)),
      (deriv_forward_ext K sh _ 2 (F 2%nat) (G 2%nat)); try reflexivity; try lia; try assumption; intros; apply H; (lia || assumption).
  Qed.

  Lemma div_b_add sh d F G idx : div_b sh d (fun c i => F c i + G c i) idx = div_b sh d F idx + div_b sh d G idx.
  Proof. unfold div_b. to_model. rewrite !deriv_back_add. ring. Qed.
  Lemma div_b_scale sh d (k : K) F idx : div_b sh d (fun c i => k * F c i) idx = k * div_b sh d F idx.
  Proof. unfold div_b. to_model. rewrite !deriv_back_scale. ring. Qed.
  Lemma div_f_add sh d F G idx : div_f sh d (fun c i => F c i + G c i) idx = div_f sh d F idx + div_f sh d G idx.
  Proof. unfold div_f. to_model. rewrite !deriv_forward_add. ring. Qed.
  Lemma div_f_scale sh d (k : K) F idx : div_f sh d (fun c i => k * F c i) idx = k * div_f sh d F idx.
  Proof. unfold div_f. to_model. rewrite !deriv_forward_scale. ring. Qed.

  Lemma div_b_curl sh d F idx : div_b sh d (curl_back sh (option_map snd d) F) idx = 0.
  Proof. unfold div_b. to_model. apply div_curl_back. Qed.
  Lemma div_f_curl sh d F idx : div_f sh d (curl_forward sh (option_map fst d) F) idx = 0.
  Proof. unfold div_f. to_model. apply div_curl_forward. Qed.

  Lemma charge_step sh dt d eps mu j (s : state K) idx :
    length sh = 3%nat -> inb sh idx -> nzm sh eps -> nzm_opt sh mu ->
    let s' := step sh dt d eps mu j s in
    div_b sh d (fun c i => eps c i * sE s' c i) idx = div_b sh d (fun c i => eps c i * sE s c i) idx + div_b sh d j idx
    /\ div_f sh d (fun c i => matl mu c i * sH s' c i) idx = div_f sh d (fun c i => matl mu c i * sH s c i) idx.
  Proof.
    intros HL Hi Heps Hmu s'. split.
    - unfold s', step. cbn [sE sH]. set (h' := maxwell_h sh dt d (sE s) (sH s) mu).
      rewrite (div_b_ext sh d _ (fun c i => (eps c i * sE s c i + dt * curl_back sh (option_map snd d) h' c i) + j c i)); try assumption.
      + rewrite (div_b_add sh d (fun c i => eps c i * sE s c i + dt * curl_back sh (option_map snd d) h' c i) j).
        rewrite (div_b_add sh d (fun c i => eps c i * sE s c i) (fun c i => dt * curl_back sh (option_map snd d) h' c i)).
        rewrite div_b_scale, div_b_curl. ring.
      + intros c i Hc Hin. unfold maxwell_e. specialize (Heps c i Hc Hin). field. exact Heps.
    - unfold s', step. cbn [sE sH].
      rewrite (div_f_ext sh d _ (fun c i => matl mu c i * sH s c i + (- dt) * curl_forward sh (option_map fst d) (sE s) c i)); try assumption.
      + rewrite (div_f_add sh d (fun c i => matl mu c i * sH s c i) (fun c i => (- dt) * curl_forward sh (option_map fst d) (sE s) c i)).
        rewrite div_f_scale, div_f_curl. ring.
      + intros c i Hc Hin. unfold maxwell_h, matl. destruct mu as [m|].
        * specialize (Hmu c i Hc Hin). field. exact Hmu.
        * ring.
  Qed.

  Definition sumj (js : list (field K)) (f : field K -> K) : K := fold_right (fun j acc => f j + acc) 0 js.

  Lemma charge_run sh dt d eps mu js : length sh = 3%nat -> nzm sh eps -> nzm_opt sh mu ->
    forall (s : state K) idx, inb sh idx ->
    let s' := run sh dt d eps mu js s in
    div_b sh d (fun c i => eps c i * sE s' c i) idx
      = div_b sh d (fun c i => eps c i * sE s c i) idx + sumj js (fun j => div_b sh d j idx)
    /\ div_f sh d (fun c i => matl mu c i * sH s' c i) idx = div_f sh d (fun c i => matl mu c i * sH s c i) idx.
  Proof.
    intros HL Heps Hmu. induction js as [|j js IH]; intros s idx Hi s'.
    - cbn in s'. unfold s'. cbn [sumj fold_right]. split; [ring|reflexivity].
    - unfold s'. cbn [run fold_left]. fold (run sh dt d eps mu js (step sh dt d eps mu j s)).
      destruct (IH (step sh dt d eps mu j s) idx Hi) as [A B].
      destruct (charge_step sh dt d eps mu j s idx HL Hi Heps Hmu) as [A' B'].
      cbv zeta in *. rewrite A, B, A', B'. cbn [sumj fold_right]. fold (sumj js (fun j => div_b sh d j idx)).
      split; [ring|reflexivity].
  Qed.
End P.
