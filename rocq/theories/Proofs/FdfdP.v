(** Lemmas about the fdfd model. *)
From Coq Require Import List Arith ZArith Lia Field Bool.
From Verif.Lib Require Import Num Sums Idx Mat.
From Verif.Model Require Import Fdmath Fdtd Fdfd.
From Verif.Spec Require Import Yee FdfdSpec.
From Verif.Proofs Require Import FdmathP FdmathP2.
From Verif.Proofs Require Import GridP.
Import ListNotations.
Local Open Scope fld_scope.

Lemma flat3 (N r : nat) : (r < 3 * N)%nat ->
  exists c p, (c < 3)%nat /\ (p < N)%nat /\ r = (c * N + p)%nat.
Proof.
  intro H. exists (r / N)%nat, (r mod N)%nat. assert (N <> 0)%nat by lia.
  split; [apply Nat.div_lt_upper_bound; lia|].
  split; [now apply Nat.mod_upper_bound|].
  rewrite (Nat.div_mod r N) at 1 by assumption. lia.
Qed.

Lemma lt3 (N c p : nat) : (c < 3)%nat -> (p < N)%nat -> (c * N + p < 3 * N)%nat.
Proof. intros. nia. Qed.

Section FdfdP.
  Variable K : CFld.
  Add Field Kfield : (fth K).
  Implicit Types (x : vect K) (sh : list nat) (om : K) (d : dx2 K) (eps : vect K)
    (pec pmc : option (vect K)) (sqrt : K -> K).

  (** Optional inverse material as a vector. *)
  Definition minv (mu : option (vect K)) : vect K :=
    match mu with None => fun _ => 1 | Some v => fun p => 1 / v p end.
  Definition mval (mu : option (vect K)) : vect K :=
    match mu with None => fun _ => 1 | Some v => v end.

  Lemma mv_keep n m x r : (r < n)%nat -> mv n (keep_mat m) x r = keep m r * x r.
  Proof.
    intro H. destruct m as [v|]; cbn [keep_mat].
    - now rewrite mv_mdiag.
    - rewrite mv_mid by exact H. cbn. ring.
  Qed.
  Lemma mv_div n mu x r : (r < n)%nat -> mv n (div_mat mu) x r = minv mu r * x r.
  Proof.
    intro H. destruct mu as [v|]; cbn [div_mat minv].
    - now rewrite mv_mdiag.
    - rewrite mv_mid by exact H. ring.
  Qed.
  Lemma keep_idem m r : keep (K := K) m r * keep m r = keep m r.
  Proof. destruct m as [v|]; cbn; [destruct (feqb (v r) 0)|]; ring. Qed.
  Lemma keep_01 m r : keep (K := K) m r = 1 \/ keep (K := K) m r = 0.
  Proof. destruct m as [v|]; cbn; [destruct (feqb (v r) 0)|]; auto. Qed.

  Lemma curl_back_flat sh w x c p : length sh = 3%nat -> (c < 3)%nat -> (p < prodl sh)%nat ->
    mv (3 * prodl sh) (curl_back_mat sh w) x (c * prodl sh + p)%nat
    = curl_back sh (Some w) (unvec sh x) c (unravel sh p).
  Proof.
    intros HL Hc Hp. rewrite <- (curl_back_agree K) by assumption.
    apply mv_ext_v. intros j Hj. symmetry. now apply (vec_unvec K sh 3).
  Qed.
  Lemma curl_forward_flat sh w x c p : length sh = 3%nat -> (c < 3)%nat -> (p < prodl sh)%nat ->
    mv (3 * prodl sh) (curl_forward_mat sh w) x (c * prodl sh + p)%nat
    = curl_forward sh (Some w) (unvec sh x) c (unravel sh p).
  Proof.
    intros HL Hc Hp. rewrite <- (curl_forward_agree K) by assumption.
    apply mv_ext_v. intros j Hj. symmetry. now apply (vec_unvec K sh 3).
  Qed.

  (** *** Actions of the operators on vectors *)
  Lemma mv_e_full sh om d eps mu pec pmc x r : (r < 3 * prodl sh)%nat ->
    mv (3 * prodl sh) (e_full_mat sh om d eps mu pec pmc) x r
    = keep pec r *
      (mv (3 * prodl sh) (curl_back_mat sh (snd d))
          (fun q => keep pmc q * (minv mu q *
             mv (3 * prodl sh) (curl_forward_mat sh (fst d)) (fun s => keep pec s * x s) q)) r
       - om * om * (eps r * (keep pec r * x r))).
  Proof.
    intro Hr. unfold e_full_mat.
    rewrite mv_mm. rewrite mv_mm. rewrite mv_keep by exact Hr. f_equal.
    rewrite mv_msub, mv_mscale, !mv_mm. f_equal.
    - apply mv_ext_v. intros q Hq. rewrite mv_keep by exact Hq. f_equal.
      rewrite mv_div by exact Hq. f_equal.
      apply mv_ext_v. intros s Hs. now apply mv_keep.
    - f_equal. rewrite mv_mdiag by exact Hr. f_equal. now apply mv_keep.
  Qed.

  Lemma mv_h_full sh om d eps mu pec pmc x r : (r < 3 * prodl sh)%nat ->
    mv (3 * prodl sh) (h_full_mat sh om d eps mu pec pmc) x r
    = keep pmc r *
      (mv (3 * prodl sh) (curl_forward_mat sh (fst d))
          (fun q => keep pec q * (1 / eps q *
             mv (3 * prodl sh) (curl_back_mat sh (snd d)) (fun s => keep pmc s * x s) q)) r
       - om * om * (mval mu r * (keep pmc r * x r))).
  Proof.
    intro Hr. unfold h_full_mat.
    rewrite mv_mm. rewrite mv_mm. rewrite mv_keep by exact Hr. f_equal.
    rewrite mv_msub, mv_mscale, !mv_mm. f_equal.
    - apply mv_ext_v. intros q Hq. rewrite mv_keep by exact Hq. f_equal.
      rewrite mv_mdiag by exact Hq. f_equal.
      apply mv_ext_v. intros s Hs. now apply mv_keep.
    - f_equal. destruct mu as [v|]; cbn [mval].
      + rewrite mv_mdiag by exact Hr. f_equal. now apply mv_keep.
      + rewrite mv_mid by exact Hr. rewrite mv_keep by exact Hr. ring.
  Qed.

  Lemma cat_l n (E H : vect K) q : (q < n)%nat -> cat n E H q = E q.
  Proof. intro Hq. unfold cat. apply Nat.ltb_lt in Hq. now rewrite Hq. Qed.
  Lemma cat_r n (E H : vect K) q : cat n E H (n + q)%nat = H q.
  Proof.
    unfold cat. replace (Nat.ltb (n + q) n) with false; [f_equal; lia|].
    symmetry. apply Nat.ltb_ge. lia.
  Qed.

  Lemma mv_eh_full sh om d eps mu pec pmc (E H : vect K) : exists M,
    eh_full_mat sh om d eps (Some mu) pec pmc = Ok M /\
    let n := (3 * prodl sh)%nat in
    forall r, (r < n)%nat ->
      mv (2 * n) M (cat n E H) r
        = - (keep pec r * (im * om * (eps r * (keep pec r * E r))))
          + keep pec r * mv n (curl_back_mat sh (snd d)) (fun q => keep pmc q * H q) r
      /\ mv (2 * n) M (cat n E H) (n + r)%nat
        = keep pmc r * mv n (curl_forward_mat sh (fst d)) (fun q => keep pec q * E q) r
          + keep pmc r * (im * om * (mu r * (keep pmc r * H r))).
  Proof.
    eexists. split; [reflexivity|]. intros n r Hr.
    assert (E1 : forall B (i : nat), mv (2 * n) (mblock n n B) (cat n E H) i
       = mv n (B (i / n)%nat 0%nat) E (i mod n)%nat + mv n (B (i / n)%nat 1%nat) H (i mod n)%nat).
    { intros B i. rewrite mv_mblock. cbn [sumN].
      transitivity (mv n (B (i / n)%nat 0%nat) (fun q => cat n E H (0 * n + q)%nat) (i mod n)%nat
                    + mv n (B (i / n)%nat 1%nat) (fun q => cat n E H (1 * n + q)%nat) (i mod n)%nat); [ring|].
      f_equal; apply mv_ext_v; intros q Hq.
      - now apply cat_l.
      - rewrite Nat.mul_1_l. apply cat_r. }
    split; fold n; rewrite E1.
    - rewrite Nat.div_small, Nat.mod_small by exact Hr. cbn iota.
      rewrite mv_mopp, !mv_mm. rewrite !mv_keep by exact Hr.
      rewrite mv_mscale, mv_mdiag, mv_keep by exact Hr. f_equal. f_equal.
      apply mv_ext_v. intros q Hq. now apply mv_keep.
    - assert (D : ((n + r) / n = 1)%nat).
      { rewrite <- (Nat.mul_1_l n) at 1. now apply block_div. }
      assert (M : ((n + r) mod n = r)%nat).
      { rewrite <- (Nat.mul_1_l n) at 1. now apply block_mod. }
      rewrite D, M. cbn iota.
      rewrite !mv_mm. rewrite !mv_keep by exact Hr.
      rewrite mv_mscale, mv_mdiag, mv_keep by exact Hr. f_equal. f_equal.
      apply mv_ext_v. intros q Hq. now apply mv_keep.
  Qed.

  Lemma mv_e2h sh om d mu pmc x r : (r < 3 * prodl sh)%nat ->
    mv (3 * prodl sh) (e2h_mat sh om d mu pmc) x r
    = keep pmc r * (minv mu r * (1 / (- im * om) * mv (3 * prodl sh) (curl_forward_mat sh (fst d)) x r)).
  Proof.
    intro Hr. unfold e2h_mat.
    destruct pmc as [v|], mu as [u|]; rewrite ?mv_mm, ?mv_keep, ?mv_mdiag, ?mv_mscale by exact Hr;
      cbn [keep minv]; rewrite ?mv_mm, ?mv_keep, ?mv_mdiag, ?mv_mscale by exact Hr; cbn; ring.
  Qed.
  Lemma mv_m2j sh om d mu x r : (r < 3 * prodl sh)%nat ->
    mv (3 * prodl sh) (m2j_mat sh om d mu) x r
    = 1 / (im * om) * mv (3 * prodl sh) (curl_back_mat sh (snd d)) (fun q => minv mu q * x q) r.
  Proof.
    intro Hr. unfold m2j_mat. destruct mu as [u|]; rewrite ?mv_mm, mv_mscale; f_equal;
      apply mv_ext_v; intros q Hq; cbn [minv].
    - now rewrite mv_mdiag.
    - ring.
  Qed.

  Lemma mv_tfsf sh Q om d eps mu x r : (r < 3 * prodl sh)%nat ->
    mv (3 * prodl sh) (e_tfsf_source_mat sh Q om d eps mu) x r
    = (mv (3 * prodl sh) (e_full_mat sh om d eps mu None None) (fun q => Q q * x q) r
       - Q r * mv (3 * prodl sh) (e_full_mat sh om d eps mu None None) x r) / (- im * om).
  Proof.
    intro Hr. unfold e_tfsf_source_mat. rewrite mv_mscale, mv_msub, !mv_mm, mv_mdiag by exact Hr.
    rewrite (mv_ext_v _ _ _ (mv (3 * prodl sh) (mdiag Q) x) (fun q => Q q * x q))
      by (intros; now apply mv_mdiag).
    rewrite !fdiv_def. ring.
  Qed.

  (** *** Agreement with functional.py *)
  Lemma minv_vec sh mu c p : (p < prodl sh)%nat ->
    minv (option_map (vec sh) mu) (c * prodl sh + p)%nat
    = inv_at mu c (unravel sh p).
  Proof. intro Hp. destruct mu as [m|]; cbn; [now rewrite vec_at|reflexivity]. Qed.

  Lemma unvec_ext_in sh x y c idx : inb sh idx -> (c < 3)%nat ->
    (forall q, (q < 3 * prodl sh)%nat -> x q = y q) -> unvec sh x c idx = unvec sh y c idx.
  Proof. intros Hi Hc H. unfold unvec. apply H. apply lt3; [exact Hc|now apply ravel_lt]. Qed.

  Lemma unvec_at sh x (F : field K) c idx : inb sh idx -> (c < 3)%nat ->
    (forall c' p, (c' < 3)%nat -> (p < prodl sh)%nat -> x (c' * prodl sh + p)%nat = F c' (unravel sh p)) ->
    unvec sh x c idx = F c idx.
  Proof.
    intros Hi Hc H. unfold unvec. rewrite H; [now rewrite unravel_ravel|exact Hc|now apply ravel_lt].
  Qed.

  Lemma curl_back_ext3 sh dx (F G : field K) c idx : length sh = 3%nat -> inb sh idx ->
    (forall c' i', (c' < 3)%nat -> inb sh i' -> F c' i' = G c' i') ->
    curl_back sh dx F c idx = curl_back sh dx G c idx.
  Proof.
    intros HL Hi H. unfold curl_back, curl_with.
    destruct c as [|[|[|c]]]; try reflexivity; f_equal;
      (apply deriv_back_ext; [lia|exact Hi|]); intros; apply H; try lia; assumption.
  Qed.
  Lemma curl_forward_ext3 sh dx (F G : field K) c idx : length sh = 3%nat -> inb sh idx ->
    (forall c' i', (c' < 3)%nat -> inb sh i' -> F c' i' = G c' i') ->
    curl_forward sh dx F c idx = curl_forward sh dx G c idx.
  Proof.
    intros HL Hi H. unfold curl_forward, curl_with.
    destruct c as [|[|[|c]]]; try reflexivity; f_equal;
      (apply deriv_forward_ext; [lia|exact Hi|]); intros; apply H; try lia; assumption.
  Qed.

  Lemma e_full_wave sh om d (eps : field K) (mu : option (field K)) F c p : length sh = 3%nat -> (c < 3)%nat -> (p < prodl sh)%nat ->
    mv (3 * prodl sh) (e_full_mat sh om d (vec sh eps) (option_map (vec sh) mu) None None) (vec sh F)
       (c * prodl sh + p)%nat
    = wave_e (K := K) sh om (fst d) (snd d) eps mu F c (unravel sh p).
  Proof.
    intros HL Hc Hp. rewrite mv_e_full by now apply lt3. cbn [keep].
    rewrite curl_back_flat by assumption. unfold wave_e. to_model. rewrite !vec_at by exact Hp.
    transitivity (curl_back sh (Some (snd d))
      (unvec sh (fun q => 1 * (minv (option_map (vec sh) mu) q *
         mv (3 * prodl sh) (curl_forward_mat sh (fst d)) (fun s => 1 * vec sh F s) q))) c (unravel sh p)
      - om * om * (eps c (unravel sh p) * F c (unravel sh p))); [ring|].
    f_equal. apply curl_back_ext3; [exact HL|now apply inb_unravel|]. intros c' i' Hc' Hi'.
    apply (unvec_at sh _ (fun c' i' => inv_at mu c' i' * curl_forward sh (Some (fst d)) F c' i'));
      [exact Hi'|exact Hc'|].
    intros c1 p1 Hc1 Hp1. rewrite minv_vec by exact Hp1.
    rewrite (mv_ext_v _ _ _ (fun s => 1 * vec sh F s) (vec sh F)) by (intros; ring).
    rewrite curl_forward_agree by assumption. ring.
  Qed.

  Lemma clear_keep m x q : clear m x q = keep m q * x q.
  Proof. destruct m as [v|]; cbn; [destruct (feqb (v q) 0)|]; ring. Qed.
  Lemma keep_hidden m q : hidden (K := K) m q -> keep m q = 0.
  Proof.
    destruct m as [v|]; cbn; [|tauto]. intro H. destruct (feqb (v q) 0) eqn:E; [|reflexivity].
    apply feqb_true in E. contradiction.
  Qed.
  Lemma keep_shown m q : ~ hidden (K := K) m q -> keep m q = 1.
  Proof.
    destruct m as [v|]; cbn; [|reflexivity]. intro H. destruct (feqb (v q) 0) eqn:E; [reflexivity|].
    apply feqb_false in E. contradiction.
  Qed.
  Lemma hidden_dec m q : {hidden (K := K) m q} + {~ hidden (K := K) m q}.
  Proof.
    destruct m as [v|]; cbn; [|right; tauto]. destruct (feq_dec (v q) 0) as [E|E]; [right|left]; tauto.
  Qed.

  (** *** Symmetry (C24) *)
  Lemma fsum_flat sh x : sumN (3 * prodl sh) x = fsum sh (unvec sh x).
  Proof.
    rewrite sumN_prod. unfold fsum. cbn [sumN].
    rewrite !(gsum_flat' K sh). unfold unvec.
    transitivity (gsum sh (fun idx => x (0 * prodl sh + ravel sh idx)%nat)
       + gsum sh (fun idx => x (1 * prodl sh + ravel sh idx)%nat)
       + gsum sh (fun idx => x (2 * prodl sh + ravel sh idx)%nat)); [ring|reflexivity].
  Qed.

  Lemma p_squared_at sh (d : dx2 K) c p : (c < 3)%nat -> (p < prodl sh)%nat ->
    p_squared sh d (c * prodl sh + p)%nat = vol_e (fst d) (snd d) c (unravel sh p).
  Proof.
    intros Hc Hp. unfold p_squared. rewrite block_div, block_mod by exact Hp.
    destruct c as [|[|[|c]]]; try lia; reflexivity.
  Qed.

  Lemma p_squared_idx sh (d : dx2 K) c idx : (c < 3)%nat -> inb sh idx ->
    p_squared sh d (c * prodl sh + ravel sh idx)%nat = vol_e (fst d) (snd d) c idx.
  Proof.
    intros Hc Hi. rewrite p_squared_at by (try assumption; now apply ravel_lt).
    now rewrite unravel_ravel.
  Qed.

  Lemma curl_adjoint_flat sh (d : dx2 K) (y h : vect K) : length sh = 3%nat ->
    nzw sh (fst d) -> nzw sh (snd d) ->
    sumN (3 * prodl sh) (fun r => p_squared sh d r * (y r * mv (3 * prodl sh) (curl_back_mat sh (snd d)) h r))
    = sumN (3 * prodl sh) (fun r => p_squared sh (snd d, fst d) r
                                    * (h r * mv (3 * prodl sh) (curl_forward_mat sh (fst d)) y r)).
  Proof.
    intros HL He Hh. rewrite !fsum_flat.
    transitivity (fsum sh (fun c idx => vol_e (fst d) (snd d) c idx
       * (unvec sh y c idx * curl_back sh (Some (snd d)) (unvec sh h) c idx))).
    - unfold fsum. f_equal; [f_equal|]; apply gsum_ext; intros idx Hi; unfold unvec at 1;
        rewrite p_squared_idx, curl_back_flat, unravel_ravel by (try lia; try assumption; now apply ravel_lt);
        reflexivity.
    - rewrite <- curl_adjoint by assumption.
      unfold fsum. f_equal; [f_equal|]; apply gsum_ext; intros idx Hi; symmetry; unfold unvec at 1;
        rewrite p_squared_idx, curl_forward_flat, unravel_ravel by (try lia; try assumption; now apply ravel_lt);
        reflexivity.
  Qed.

  Lemma mm_diag_l n (v : vect K) A i j : (i < n)%nat -> mm n (mdiag v) A i j = v i * A i j.
  Proof.
    intro Hi. change (mm n (mdiag v) A i j) with (mv n (mdiag v) (fun k => A k j) i).
    now rewrite mv_mdiag.
  Qed.
  Lemma mm_diag_r n (v : vect K) A i j : (j < n)%nat -> mm n A (mdiag v) i j = A i j * v j.
  Proof.
    intro Hj. unfold mm, mdiag.
    transitivity (sumN n (fun k => (A i k * v k) * ind (Nat.eqb k j))).
    - apply sumN_ext. intros. ring.
    - now apply (sumN_ind_r K n j (fun k => A i k * v k)).
  Qed.

  Lemma e_full_weighted_sym sh om d eps mu pec pmc r s : length sh = 3%nat ->
    nzw sh (fst d) -> nzw sh (snd d) -> (r < 3 * prodl sh)%nat -> (s < 3 * prodl sh)%nat ->
    p_squared sh d r * e_full_mat sh om d eps mu pec pmc r s
    = p_squared sh d s * e_full_mat sh om d eps mu pec pmc s r.
  Proof.
    intros HL He Hh.
    apply (sym_of_dot K (3 * prodl sh)
             (fun r s => p_squared sh d r * e_full_mat sh om d eps mu pec pmc r s)).
    intros x y.
    set (n := (3 * prodl sh)%nat). set (A := e_full_mat sh om d eps mu pec pmc).
    assert (R : forall z i, mv n (fun r0 s0 => p_squared sh d r0 * A r0 s0) z i = p_squared sh d i * mv n A z i).
    { intros z i. unfold mv. rewrite <- sumN_mul_l. apply sumN_ext. intros. ring. }
    (* both sides equal a form that is visibly symmetric *)
    assert (S : forall u v, dot n (mv n (fun r0 s0 => p_squared sh d r0 * A r0 s0) u) v
      = sumN n (fun q => p_squared sh (snd d, fst d) q *
           ((keep pmc q * (minv mu q * mv n (curl_forward_mat sh (fst d)) (fun s0 => keep pec s0 * u s0) q))
            * mv n (curl_forward_mat sh (fst d)) (fun s0 => keep pec s0 * v s0) q))
        - sumN n (fun q => p_squared sh d q * (om * om * (eps q * (keep pec q * u q)) * (keep pec q * v q)))).
    { intros u v. unfold n. rewrite <- curl_adjoint_flat by assumption. rewrite <- sumN_sub.
      unfold dot. apply sumN_ext. intros i Hi. fold n. rewrite R. unfold A, n. rewrite mv_e_full by exact Hi.
      ring. }
    rewrite (dot_comm _ n x), !S. f_equal; apply sumN_ext; intros; ring.
  Qed.

  Lemma precond_inv sqrt sh (d : dx2 K) : length sh = 3%nat -> nzw sh (fst d) -> nzw sh (snd d) ->
    (forall q, (q < 3 * prodl sh)%nat -> sqrt (p_squared sh d q) * sqrt (p_squared sh d q) = p_squared sh d q) ->
    forall q, (q < 3 * prodl sh)%nat -> sqrt (p_squared sh d q) <> 0.
  Proof.
    intros HL He Hh Hsq q Hq E. specialize (Hsq q Hq). rewrite E in Hsq.
    destruct (flat3 (prodl sh) q Hq) as (c & p & Hc & Hp & ->).
    rewrite p_squared_at in Hsq by assumption.
    assert (Hi := inb_unravel sh p Hp).
    assert (P : forall a, (a < 3)%nat ->
               fst d a (coord (unravel sh p) a) <> 0 /\ snd d a (coord (unravel sh p) a) <> 0).
    { intros a Ha. split; [apply He|apply Hh]; try lia; apply inb_coord; try assumption; lia. }
    destruct (P 0%nat), (P 1%nat), (P 2%nat); try lia.
    apply (fmul_nz K (vol_e (fst d) (snd d) c (unravel sh p)) 1); [|apply f1nz|rewrite <- Hsq; ring].
    destruct c as [|[|[|c]]]; try lia; cbn; repeat apply fmul_nz; assumption.
  Qed.

  Lemma precond_sym sqrt sh om d eps mu pec pmc r s : length sh = 3%nat ->
    nzw sh (fst d) -> nzw sh (snd d) ->
    (forall q, (q < 3 * prodl sh)%nat -> sqrt (p_squared sh d q) * sqrt (p_squared sh d q) = p_squared sh d q) ->
    (r < 3 * prodl sh)%nat -> (s < 3 * prodl sh)%nat ->
    let n := (3 * prodl sh)%nat in
    let (Pl, Pr) := e_full_preconditioners sqrt sh d in
    let PAP := mm n (mm n Pl (e_full_mat sh om d eps mu pec pmc)) Pr in
    PAP r s = PAP s r.
  Proof.
    intros HL He Hh Hsq Hr Hs n. unfold e_full_preconditioners. cbv zeta.
    rewrite !mm_diag_r, !mm_diag_l by assumption.
    pose proof (e_full_weighted_sym sh om d eps mu pec pmc r s HL He Hh Hr Hs) as W.
    rewrite <- (Hsq r Hr), <- (Hsq s Hs) in W.
    assert (NZ : forall q, (q < n)%nat -> sqrt (p_squared sh d q) <> 0).
    { now apply precond_inv. }
    generalize (NZ r Hr) (NZ s Hs) W.
    generalize (sqrt (p_squared sh d r)) (sqrt (p_squared sh d s)).
    generalize (e_full_mat sh om d eps mu pec pmc r s) (e_full_mat sh om d eps mu pec pmc s r).
    intros a b x y Hx Hy E.
    apply (fmul_cancel_l K (x * y)); [now apply fmul_nz|].
    transitivity (x * x * a); [field; assumption|]. rewrite E. field; assumption.
  Qed.
End FdfdP.
