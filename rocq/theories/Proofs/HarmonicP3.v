(** Poynting's and Lorentz' theorems for the frequency-domain equations. *)
From Coq Require Import List Arith ZArith Lia Field Bool.
From Verif.Lib Require Import Num Sums Idx Mat.
From Verif.Model Require Import Fdmath Fdtd Fdfd.
From Verif.Spec Require Import Yee FdtdRun FdfdSpec HarmonicSpec.
From Verif.Proofs Require Import FdmathP FdmathP2 FdtdP2 FdtdP FdfdP HarmonicP.
From Verif.Proofs Require Import GridP.
Import ListNotations.
Local Open Scope nat_scope.

Section P.
  Variable K : CFld.
  Add Field Kfield : (fth K).
  Local Open Scope fld_scope.
  Implicit Types E H J M F G : field K.

  Lemma conj_curl_back sh (w : widths K) H c idx : length sh = 3%nat -> (c < 3)%nat -> inb sh idx ->
    nzw sh w -> realw w ->
    conj (curl_back sh (Some w) H c idx) = curl_back sh (Some w) (cjf H) c idx.
  Proof.
    intros HL Hc Hi Hw Hr.
    assert (N : forall a, (a < 3)%nat -> w a (coord idx a) <> 0).
    { intros a Ha. apply Hw; [lia|]. apply inb_coord; [exact Hi|lia]. }
    unfold curl_back, curl_with, deriv_back, roll, cjf.
    destruct c as [|[|[|c]]]; [| | |lia]; rewrite conj_sub, !conj_div, !conj_sub, !Hr by (apply N; lia); reflexivity.
  Qed.

  Lemma complex_poynting sh (om : K) (d : dx2 K) (eps : field K) (mu : option (field K)) E H J M idx :
    length sh = 3%nat -> nzw sh (fst d) -> nzw sh (snd d) -> realw (snd d) -> inb sh idx ->
    feq sh (fst (eh_full_f sh om d eps mu E H)) J ->
    feq sh (snd (eh_full_f sh om d eps mu E H)) (fun c i => - M c i) ->
    divergence_of sh (poynting sh (Some d) E (cjf H)) idx
    = - csum (fun c => vol_e (fst d) (snd d) c idx * (E c idx * conj (J c idx)))
      - csum (fun c => vol_h (fst d) (snd d) c idx * (M c idx * conj (H c idx)))
      - csum (fun c => vol_e (fst d) (snd d) c idx * (E c idx * conj (im * om * (eps c idx * E c idx))))
      - csum (fun c => vol_h (fst d) (snd d) c idx * (im * om * (matl mu c idx * H c idx) * conj (H c idx))).
  Proof.
    intros HL Hwe Hwh Hr Hi A B.
    assert (P : nzd sh (Some d)) by (destruct d; split; assumption).
    pose proof (local_poynting K sh (Some d) E (cjf H) idx HL Hi P) as L.
    cbn [option_map] in L.
    assert (CB : forall c, (c < 3)%nat -> curl_back sh (Some (snd d)) (cjf H) c idx = conj (J c idx) + conj (im * om * (eps c idx * E c idx))).
    { intros c Hc. rewrite <- conj_curl_back by assumption. rewrite <- conj_add. f_equal.
      specialize (A c idx Hc Hi). rewrite amp_form in A. rewrite <- A. ring. }
    assert (CF : forall c, (c < 3)%nat -> curl_forward sh (Some (fst d)) E c idx = - M c idx - im * om * (matl mu c idx * H c idx)).
    { intros c Hc. specialize (B c idx Hc Hi). rewrite far_form in B. cbv beta in B. rewrite <- B. ring. }
    unfold csum in *. rewrite !CB, !CF in L by lia. destruct d as [we wh]. cbn [vol_e_d vol_h_d fst snd] in *. unfold cjf in L at 1 2 3.
    set (D := divergence_of _ _ _) in *.
    transitivity (- (- D)); [ring|]. rewrite <- L. ring.
  Qed.

  (** Lorentz reciprocity. *)
  Lemma reciprocity sh (om : K) (d : dx2 K) eps mu pec pmc (E1 E2 J1 J2 : vect K) : length sh = 3%nat ->
    nzw sh (fst d) -> nzw sh (snd d) -> om <> 0 ->
    (forall q, (q < 3 * prodl sh)%nat -> mv (3 * prodl sh) (e_full_mat sh om d eps mu pec pmc) E1 q = - im * om * J1 q) ->
    (forall q, (q < 3 * prodl sh)%nat -> mv (3 * prodl sh) (e_full_mat sh om d eps mu pec pmc) E2 q = - im * om * J2 q) ->
    sumN (3 * prodl sh) (fun q => p_squared sh d q * (J1 q * E2 q))
    = sumN (3 * prodl sh) (fun q => p_squared sh d q * (J2 q * E1 q)).
  Proof.
    intros HL He Hh Hom A B. set (n := (3 * prodl sh)%nat) in *. set (L := e_full_mat sh om d eps mu pec pmc) in *.
    assert (I0 : im <> (0 : K)) by (intro X; pose proof (im_sq K) as Y; rewrite X in Y; apply (F_1_neq_0 (fth K)); transitivity (- - (1 : K)); [ring|]; rewrite <- Y; ring).
    assert (N : - im * om <> (0 : K)).
    { intro X. apply (fmul_nz K im om I0 Hom). transitivity (- (- im * om)); [ring|]. rewrite X. ring. }
    apply (fmul_cancel_l K (- im * om) _ _ N).
    rewrite <- !sumN_mul_l.
    transitivity (sumN n (fun q => p_squared sh d q * (mv n L E1 q * E2 q))).
    { apply sumN_ext. intros q Hq. rewrite A by exact Hq. ring. }
    transitivity (sumN n (fun q => p_squared sh d q * (mv n L E2 q * E1 q))).
    2:{ apply sumN_ext. intros q Hq. rewrite B by exact Hq. ring. }
    unfold mv.
    transitivity (sumN n (fun q => sumN n (fun j => p_squared sh d q * L q j * (E1 j * E2 q)))).
    { apply sumN_ext. intros q Hq. rewrite <- (sumN_mul_r K), <- sumN_mul_l. apply sumN_ext. intros. ring. }
    rewrite sumN_swap. apply sumN_ext. intros q Hq.
    rewrite <- (sumN_mul_r K), <- sumN_mul_l. apply sumN_ext. intros j Hj. unfold L.
    rewrite (e_full_weighted_sym K sh om d eps mu pec pmc j q HL He Hh Hj Hq). ring.
  Qed.
End P.
