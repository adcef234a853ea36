(** Completeness of the modes of operator_e (waveguide_2d.py:195-261, 333-436, 846-900). *)
From Coq Require Import List Arith ZArith Lia Bool Reals Lra Psatz.
From Verif.Lib Require Import Num Sums Idx Mat RealF BoxMin.
From Verif.Model Require Import Fdmath Fdfd Waveguide2d WaveguideReal.
From Verif.Spec Require Import Grid Yee WaveguideSpec HarmonicSpec ModeSpec.
From Verif.Proofs Require Import FdmathP FdfdP WaveguideP WaveguideP2 WaveguideP4 GridP ModeFluxP ModeRealP ComplexModeP SlabModesP.
From Verif.Props Require Import WaveguideProps ModeProps ComplexModeProps.
Import ListNotations.
Local Open Scope R_scope.

(** The combination of the columns [V 0 .. V (n-1)] (real vectors) with complex coefficients [c]. *)
Definition combination (n : nat) (V : nat -> nat -> R) (c : nat -> cpx) : vect CC := fun q => sumN (K := CC) n (fun a => cmul (c a) (mkC (V a q) 0)).

Section Slab.
  Variables (sh : list nat) (we wh : widths RF) (om : R) (eps : vect CC) (mu : option (vect CC)).
  Hypothesis HL : length sh = 2%nat.
  Hypothesis PW : positive_widths sh we wh.
  Hypothesis LS : lossless sh eps mu.
  Let N := prodl sh.
  Let M : mat CC := operator_e (K := CC) sh (mkC om 0) (cw we, cw wh) eps mu.
  Let unit (j : nat) : vect CC := fun q => if (q =? j)%nat then c1 else c0.

  Lemma mv_unit i j : (j < 2 * N)%nat -> mv (K := CC) (2 * N) M (unit j) i = M i j.
  Proof.
    intro Hj. unfold mv. refine (eq_trans (sumN_single CC (2 * N) _ j Hj _) _).
    - intros k Hk Nk. unfold unit. destruct (Nat.eqb_spec k j); [contradiction|]. apply cpx_ext; cbn; ring.
    - unfold unit. rewrite Nat.eqb_refl. apply cpx_ext; cbn; ring.
  Qed.
  Lemma entry_real i j : (i < 2 * N)%nat -> (j < 2 * N)%nat -> cim (M i j) = 0.
  Proof.
    intros Hi Hj. assert (E : veq (K := CC) (2 * N) (mv (K := CC) (2 * N) M (fun q => cconj (unit j q))) (fun q => cconj (mv (K := CC) (2 * N) M (unit j) q))).
    { apply (veq_unvec CC sh 2). intros c k Hc Hk. exact (op_conj sh we wh om eps mu (unit j) c k HL PW LS Hc Hk). }
    specialize (E i Hi). cbv beta in E. rewrite (mv_ext_v CC (2 * N) M _ (unit j) i) in E by (intros q Hq; unfold unit; destruct (q =? j)%nat; apply cpx_ext; cbn; ring).
    rewrite (mv_unit i j Hj) in E. apply (f_equal cim) in E. cbn in E. change (cim (M i j) = - cim (M i j)) in E. lra.
  Qed.
  Hypothesis D : dim sh 0 = 1%nat \/ dim sh 1 = 1%nat.
  Lemma entry_weight : exists w : nat -> R, (forall q, (q < 2 * N)%nat -> 0 < w q) /\
    forall i j, (i < 2 * N)%nat -> (j < 2 * N)%nat -> w i * cre (M i j) = w j * cre (M j i).
  Proof.
    destruct (slab_form sh we wh om eps mu HL D LS) as (A & SA & EA).
    destruct (slab_comp_weight sh we wh (A 0%nat) HL PW (SA 0%nat ltac:(lia))) as (W0 & P0 & S0).
    destruct (slab_comp_weight sh we wh (A 1%nat) HL PW (SA 1%nat ltac:(lia))) as (W1 & P1 & S1).
    set (W := fun c : nat => match c with O => W0 | _ => W1 end). set (w := vec (K := RF) sh W).
    assert (Wq : forall c i, inb sh i -> w (c * N + ravel sh i)%nat = W c i) by (intros c i Hi; exact (vec_offset RF sh W c i Hi)).
    assert (SW : forall c f g, (c < 2)%nat -> gsum (K := CC) sh (fun i => cmul (mkC (W c i) 0) (cmul (g i) (A c f i))) = gsum (K := CC) sh (fun i => cmul (mkC (W c i) 0) (cmul (f i) (A c g i))))
      by (intros [|[|c]] f g Hc; [apply S0|apply S1|lia]).
    assert (B : forall x y : vect CC, sumN (K := CC) (2 * N) (fun q => cmul (mkC (w q) 0) (cmul (y q) (mv (K := CC) (2 * N) M x q)))
      = sumN (K := CC) 2 (fun c => gsum (K := CC) sh (fun i => cmul (mkC (W c i) 0) (cmul (unvec (K := CC) sh y c i) (A c (unvec (K := CC) sh x c) i))))).
    { intros x y. refine (eq_trans (sumN_prod CC 2 N _) _). apply (sumN_ext CC). intros c Hc. refine (eq_trans (gsum_flat' CC sh _) _). apply (gsum_ext (K := CC)). intros i Hi.
      rewrite (Wq c i Hi). rewrite <- (EA x c i Hc Hi). reflexivity. }
    exists w. split.
    - intros q Hq. destruct (Nat.lt_ge_cases q N) as [L|L].
      + replace q with (0 * N + ravel sh (unravel sh q))%nat by (rewrite ravel_unravel by exact L; lia). rewrite Wq by (now apply inb_unravel). apply P0. now apply inb_unravel.
      + replace q with (1 * N + ravel sh (unravel sh (q - N)))%nat by (rewrite ravel_unravel by (unfold N in *; lia); lia).
        assert (I : inb sh (unravel sh (q - N))) by (apply inb_unravel; unfold N in *; lia). rewrite Wq by exact I. now apply P1.
    - intros i j Hi Hj.
      assert (S : sumN (K := CC) (2 * N) (fun q => cmul (mkC (w q) 0) (cmul (unit i q) (mv (K := CC) (2 * N) M (unit j) q))) = sumN (K := CC) (2 * N) (fun q => cmul (mkC (w q) 0) (cmul (unit j q) (mv (K := CC) (2 * N) M (unit i) q)))).
      { rewrite !B. apply (sumN_ext CC). intros c Hc. apply SW. exact Hc. }
      assert (U : forall i j, (i < 2 * N)%nat -> (j < 2 * N)%nat -> sumN (K := CC) (2 * N) (fun q => cmul (mkC (w q) 0) (cmul (unit i q) (mv (K := CC) (2 * N) M (unit j) q))) = cmul (mkC (w i) 0) (M i j)).
      { clear. intros i j Hi Hj. refine (eq_trans (sumN_single CC (2 * N) _ i Hi _) _).
        - intros k Hk Nk. unfold unit at 1. destruct (Nat.eqb_spec k i); [contradiction|]. set (X := mv _ _ _ _). clearbody X. apply cpx_ext; cbn; ring.
        - rewrite (mv_unit i j Hj). unfold unit. rewrite Nat.eqb_refl. generalize (M i j). intro X. apply cpx_ext; cbn; ring. }
      rewrite (U i j Hi Hj), (U j i Hj Hi) in S. apply (f_equal cre) in S. cbn in S.
      change (w i * cre (M i j) - 0 * cim (M i j) = w j * cre (M j i) - 0 * cim (M j i)) in S. lra.
  Qed.
End Slab.

(** On slabs (one cell along x or along y) of a lossless medium the modes are complete:
    there are [2 nx ny] real eigenvectors with real eigenvalues, the eigenvalues listed are
    all there are, and every transverse field is a combination of the modes with one set of
    coefficients. *)
Theorem C177_complete :
  forall (sh : list nat) (we wh : widths RF) (om : R) (eps : vect CC) (mu : option (vect CC)),
    length sh = 2%nat -> dim sh 0 = 1%nat \/ dim sh 1 = 1%nat -> positive_widths sh we wh -> lossless sh eps mu ->
    let n := (2 * prodl sh)%nat in
    exists (V : nat -> nat -> R) (lam : nat -> R),
      (forall a, (a < n)%nat -> eigenpair sh we wh om eps mu (mkC (lam a) 0) (fun q => mkC (V a q) 0)) /\
      (forall a b, (a <= b)%nat -> (b < n)%nat -> lam b <= lam a) /\
      (forall l x, eigenpair sh we wh om eps mu l x -> exists a, (a < n)%nat /\ l = mkC (lam a) 0) /\
      (forall x : vect CC, exists c, veq (K := CC) n x (combination n V c)) /\
      (forall c d : nat -> cpx, veq (K := CC) n (combination n V c) (combination n V d) -> forall a, (a < n)%nat -> c a = d a).
Proof.
  intros sh we wh om eps mu HL D PW LS n.
  pose proof (entry_real sh we wh om eps mu HL PW LS) as Hr.
  destruct (entry_weight sh we wh om eps mu HL PW LS D) as (w & Hw & Hs).
  destruct (real_complete n _ w Hw Hr Hs) as (V & lam & On & Ev & Mo & Co).
  exists V, lam.
  assert (CE : forall c (x : vect CC) a, (a < n)%nat -> veq (K := CC) n x (combination n V c) -> coefw n w V x a = c a)
    by (intros c x a Ha Hx; apply (coefw_comb n w V On c x a Ha); intros q Hq; exact (Hx q Hq)).
  split; [|split; [exact Mo|split; [|split]]].
  - intros a Ha. split; [|intros q Hq; exact (Ev a q Ha Hq)].
    assert (Z : ~ (forall q, (q < n)%nat -> V a q = 0)).
    { intro Z. pose proof (On a a Ha Ha) as O. rewrite Nat.eqb_refl in O. rewrite (rs_ext n _ (fun _ => 0)), rs_const in O by (intros q Hq; rewrite (Z q Hq); ring). lra. }
    assert (Dq : forall m, (exists q, (q < m)%nat /\ V a q <> 0) \/ (forall q, (q < m)%nat -> V a q = 0)).
    { induction m as [|m [(q & Hq & Nq)|IH]]; [right; intros; lia|left; exists q; split; [lia|exact Nq]|].
      destruct (Req_EM_T (V a m) 0) as [Y|Y]; [right|left; exists m; split; [lia|exact Y]]. intros q Hq. destruct (Nat.eq_dec q m) as [->|]; [exact Y|apply IH; lia]. }
    destruct (Dq n) as [(q & Hq & Nq)|C]; [|contradiction]. exists q. split; [exact Hq|]. intro C. apply Nq. now apply (f_equal cre) in C.
  - intros l x [(q & Hq & Nq) E].
    assert (P : forall a, (a < n)%nat -> cmul l (coefw n w V x a) = cmul (mkC (lam a) 0) (coefw n w V x a)).
    { intros a Ha. rewrite <- (coefw_op n _ w V lam Hr Hs Ev x a Ha). unfold coefw. refine (eq_trans (eq_sym (sumN_mul_l CC n _ _)) _). apply (sumN_ext CC). intros k Hk.
      refine (eq_trans _ (f_equal (cmul _) (eq_sym (E k Hk)))). apply cpx_ext; cbn; ring. }
    assert (Dq : forall m, (exists a, (a < m)%nat /\ coefw n w V x a <> c0) \/ (forall a, (a < m)%nat -> coefw n w V x a = c0)).
    { induction m as [|m [(k & Hk & Nk)|IH]]; [right; intros; lia|left; exists k; split; [lia|exact Nk]|].
      destruct (feq_dec (f := CC) (coefw n w V x m) c0) as [Y|Y]; [right|left; exists m; split; [lia|exact Y]]. intros k Hk. destruct (Nat.eq_dec k m) as [->|]; [exact Y|apply IH; lia]. }
    destruct (Dq n) as [(a & Ha & Na)|C].
    + exists a. split; [exact Ha|]. specialize (P a Ha). set (k := coefw n w V x a) in *. clearbody k.
      assert (Z : cmul (csub l (mkC (lam a) 0)) k = c0).
      { transitivity (csub (cmul l k) (cmul (mkC (lam a) 0) k)); [apply cpx_ext; cbn; ring|]. rewrite P. apply cpx_ext; cbn; ring. }
      destruct (fmul_integral CC _ _ Z) as [Y|Y]; [|contradiction]. apply cpx_ext; [apply (f_equal cre) in Y|apply (f_equal cim) in Y]; cbn in Y |- *; lra.
    + exfalso. apply Nq. rewrite (Co x q Hq). apply (sumN_zero CC). intros a Ha. rewrite (C a Ha). apply cpx_ext; cbn; ring.
  - intro x. exists (coefw n w V x). intros q Hq. exact (Co x q Hq).
  - intros c d H a Ha. rewrite <- (CE c (combination n V c) a Ha) by (intros q Hq; reflexivity). rewrite <- (CE d (combination n V c) a Ha); [reflexivity|exact H].
Qed.
Print Assumptions C177_complete.

(** In general they are not: a checkerboard of four cells in which two modes of
    operator_e have merged.  No sum of modes, of whatever eigenvalues, gives [jm_w]. *)
Definition jm_eps : vect CC := fun q => nth q [mkC (13/5) 0; mkC (38/5) 0; mkC (38/5) 0; mkC (13/5) 0; mkC (13/5) 0; mkC (38/5) 0; mkC (38/5) 0; mkC (13/5) 0] (mkC (18/5) 0).
Definition jm_x : vect CC := fun q => nth q [mkC 2 0; mkC (-1) 0; mkC 1 0; mkC (-2) 0; mkC 2 0; mkC 1 0; mkC (-1) 0; mkC (-2) 0] c0.
Definition jm_w : vect CC := fun q => nth q [c0; mkC (-9/10) 0; mkC (9/10) 0; c0; c0; mkC (9/10) 0; mkC (-9/10) 0; c0] c0.
Lemma four_cells i : inb [2; 2]%nat i -> i = [0; 0]%nat \/ i = [0; 1]%nat \/ i = [1; 0]%nat \/ i = [1; 1]%nat.
Proof.
  intro Hi. inversion Hi as [|a ? t ? Ha Ht]; subst. inversion Ht as [|b ? t' ? Hb Ht']; subst. inversion Ht'; subst.
  destruct a as [|[|a]]; [| |lia]; (destruct b as [|[|b]]; [| |lia]); auto.
Qed.
Lemma jm_eigen : eigenpair [2; 2]%nat cm_w cm_w 1 jm_eps None (mkC (4/15) 0) jm_x.
Proof.
  split; [exists 0%nat; split; [cbn; lia|intro C; apply (f_equal cre) in C; cbn in C; lra]|].
  apply (veq_unvec CC [2; 2]%nat 2). intros c i Hc Hi. destruct (operator_e_xy CC [2; 2]%nat eq_refl (cw cm_w) (cw cm_w) (mkC 1 0) jm_eps None jm_x i Hi) as [X Y].
  destruct c as [|[|c]]; [| |lia]; (etransitivity; [first [exact X|exact Y]|]); clear X Y; destruct (four_cells i Hi) as [->|[->|[->| ->]]]; apply cpx_ext; cbn; change (Pos.to_nat 1) with 1%nat; unfold cnrm, cm_w; cbn; field.
Qed.
Lemma jm_chain : veq (K := CC) 8 (mv (K := CC) 8 (operator_e (K := CC) [2; 2]%nat (mkC 1 0) (cw cm_w, cw cm_w) jm_eps None) jm_w) (fun q => cadd (cmul (mkC (4/15) 0) (jm_w q)) (jm_x q)).
Proof. 
  change 8%nat with (2 * prodl [2; 2])%nat. apply (veq_unvec CC [2; 2]%nat 2). intros c i Hc Hi. destruct (operator_e_xy CC [2; 2]%nat eq_refl (cw cm_w) (cw cm_w) (mkC 1 0) jm_eps None jm_w i Hi) as [X Y].
  destruct c as [|[|c]]; [| |lia]; (etransitivity; [first [exact X|exact Y]|]); clear X Y; destruct (four_cells i Hi) as [->|[->|[->| ->]]]; apply cpx_ext; cbn; change (Pos.to_nat 1) with 1%nat; unfold cnrm, cm_w; cbn; field.
Qed.
Theorem C177_complete_refuted :
  exists (sh : list nat) (we wh : widths RF) (om : R) (eps y : vect CC),
    length sh = 2%nat /\ positive_widths sh we wh /\ lossless sh eps None /\ 0 < om /\
    forall L : list (cpx * vect CC), (forall p, In p L -> eigenpair sh we wh om eps None (fst p) (snd p)) ->
      ~ forall q, (q < 2 * prodl sh)%nat -> y q = fold_right (fun p s => cadd (snd p q) s) c0 L.
Proof.
  exists [2; 2]%nat, cm_w, cm_w, 1, jm_eps, jm_w.
  split; [reflexivity|]. split; [intros a i _ _; unfold cm_w; lra|].
  split. { split; [|exact I]. intros q Hq. unfold jm_eps. do 12 (destruct q as [|q]; [cbn; lra|]). cbn in Hq; lia. }
  split; [lra|]. intros L HL C.
  destruct jm_eigen as [_ Ev].
  apply (chain_not_sum 8 _ L (mkC (4/15) 0) jm_x jm_w 0 ltac:(lia)) with (2 := Ev) (3 := jm_chain).
  - intro Z. apply (f_equal cre) in Z. cbn in Z. lra.
  - intros p Hp. exact (proj2 (HL p Hp)).
  - intros q Hq. rewrite (C q Hq). unfold total. clear. induction L as [|p L IH]; [reflexivity|]. cbn [fold_right csum]. now rewrite IH.
Qed.
Print Assumptions C177_complete_refuted.

(** What happens to the fields where modes merge, in any medium: the E x H flux of the
    merged mode, by which the overlaps with other modes are divided, vanishes. *)
Section Merged.
  Variable K : CFld.
  Add Field Kfield : (fth K).
  Local Open Scope fld_scope.
  Variables (sh : list nat) (we wh : widths K) (om : K) (eps : vect K) (mu : option (vect K)).
  Hypothesis HL : length sh = 2%nat.
  Hypothesis Hwe : nzw sh we.
  Hypothesis Hwh : nzw sh wh.
  Let N := prodl sh.
  Lemma merged_flux l w x h :
    veq (2 * N) (mv (2 * N) (operator_e sh om (we, wh) eps mu) w) (fun q => l * w q + x q) ->
    veq (2 * N) (mv (2 * N) (operator_h sh om (we, wh) eps mu) h) (fun q => l * h q) ->
    flux sh we wh (unvec sh x) (unvec sh h) = 0.
  Proof.
    intros Hx Hy. pose proof (op_adjoint K sh HL we wh Hwe Hwh om eps mu w h) as A.
    rewrite (flux_ext K sh HL we wh _ (fun c i => l * unvec sh w c i + unvec sh x c i) _ (unvec sh h)) in A.
    2:{ intros c i Hc Hi. apply (proj2 (veq_unvec K sh 2 _ _) Hx c i Hc Hi). } 2:{ reflexivity. }
    rewrite (flux_ext K sh HL we wh (unvec sh w) (unvec sh w) _ (fun c i => l * unvec sh h c i)) in A.
    2:{ reflexivity. } 2:{ intros c i Hc Hi. apply (proj2 (veq_unvec K sh 2 _ _) Hy c i Hc Hi). }
    rewrite flux_scale_r in A.
    assert (B : flux sh we wh (fun c i => l * unvec sh w c i + unvec sh x c i) (unvec sh h) = l * flux sh we wh (unvec sh w) (unvec sh h) + flux sh we wh (unvec sh x) (unvec sh h)).
    { unfold flux. rewrite <- gsum_mul_l, <- gsum_add. apply gsum_ext. intros i Hi. ring. }
    rewrite B in A. 
    set (p := flux sh we wh (unvec sh w) (unvec sh h)) in *. set (q := flux sh we wh (unvec sh x) (unvec sh h)) in *. clearbody p q.
    transitivity (l * p + q - l * p); [ring|]. rewrite A. ring.
  Qed.
  Lemma inner_conj (w : widths K) phase (e h : vect K) : (forall a i, conj (w a i) = w a i) ->
    inner_product sh e h (w, w) phase true = conj phase / (1 + 1) * flux sh w w (unvec sh e) (conjf (unvec sh h)).
  Proof.
    intro Hr. unfold inner_product, flux. cbv zeta. cbn [fst snd]. rewrite <- gsum_sub, <- !gsum_mul_l. apply gsum_ext.
    intros i Hi. unfold real_part, conjf. rewrite !Hr, !conj_mul. apply aux_ip, f2nz.
  Qed.
End Merged.

Theorem C177_merged :
  forall (K : CFld) (sh : list nat) (we wh : widths K) (om beta : K) (eps : vect K) (mu : option (vect K)) (w x : vect K) (e h : field K),
    length sh = 2%nat -> nzw sh we -> nzw sh wh -> om <> f0 -> beta <> f0 -> nonzero_materials sh eps mu ->
    computed_mode sh we wh om beta eps mu x e h ->
    veq (2 * prodl sh) (mv (2 * prodl sh) (operator_e sh om (we, wh) eps mu) w) (fun q => (beta * beta * w q + x q)%K) ->
    flux sh we wh e h = f0.
Proof.
  intros K sh we wh om beta eps mu w x e h HL NE NH Ho Hb NM C Ch.
  destruct (cm_mode K sh we wh om beta eps mu x e h HL Ho Hb NM C) as (M & _ & T). destruct C as (_ & -> & ->).
  destruct (C37_mode_solves_both_eigenproblems K sh we wh om beta eps mu _ _ HL Ho Hb NM M) as (_ & Hh & _).
  rewrite <- (merged_flux K sh we wh om eps mu HL NE NH _ w x _ Ch Hh).
  apply (flux_ext K sh HL); [exact T|reflexivity].
Qed.
Print Assumptions C177_merged.

Lemma chain_conj sh we wh om eps mu l w x : length sh = 2%nat -> positive_widths sh we wh -> lossless sh eps mu -> cim l = 0 ->
  veq (K := CC) (2 * prodl sh) (mv (K := CC) (2 * prodl sh) (operator_e (K := CC) sh (mkC om 0) (cw we, cw wh) eps mu) w) (fun q => cadd (cmul l (w q)) (x q)) ->
  veq (K := CC) (2 * prodl sh) (mv (K := CC) (2 * prodl sh) (operator_e (K := CC) sh (mkC om 0) (cw we, cw wh) eps mu) (fun q => cconj (w q))) (fun q => cadd (cmul l (cconj (w q))) (cconj (x q))).
Proof.
  intros HL PW LS Hl E. apply (veq_unvec CC sh 2). intros c i Hc Hi. pose proof (proj2 (veq_unvec CC sh 2 _ _) E c i Hc Hi) as Ec.
  refine (eq_trans (op_conj sh we wh om eps mu w c i HL PW LS Hc Hi) _). refine (eq_trans (f_equal cconj Ec) _). unfold unvec. apply cpx_ext; cbn; rewrite Hl; ring.
Qed.
Lemma lossless_nz sh eps mu : lossless sh eps mu -> nonzero_materials (K := CC) sh eps mu.
Proof.
  assert (P : forall v, positive_entries (3 * prodl sh) v -> forall q, (q < 3 * prodl sh)%nat -> v q <> c0)
    by (intros v H q Hq C; destruct (H q Hq) as [_ A]; rewrite C in A; cbn in A; lra).
  intros [PE PM]. split; [exact (P eps PE)|]. destruct mu as [m|]; [exact (P m PM)|exact I].
Qed.
(** The power: modes with complex wavenumbers, evanescent modes and merged modes of a
    lossless medium all carry none, so the assertion in _normalized_fields fails. *)
Theorem C177_not_normalised :
  forall (sh : list nat) (w : widths RF) (om : R) (beta : cpx) (eps : vect CC) (mu : option (vect CC)) (x : vect CC),
    length sh = 2%nat -> positive_widths sh w w -> om <> 0 -> beta <> c0 -> lossless sh eps mu ->
    eigenpair sh w w om eps mu (cmul beta beta) x ->
    let M := operator_e (K := CC) sh (mkC om 0) (cw w, cw w) eps mu in
    (cim beta <> 0 -> normalized_fields_e sh x beta (mkC om 0) (cw w, cw w) eps mu c1 = None) /\
    ((exists y, veq (K := CC) (2 * prodl sh) (mv (K := CC) (2 * prodl sh) M y) (fun q => cadd (cmul (cmul beta beta) (y q)) (x q))) ->
     cim beta = 0 -> forall phase, normalized_fields_e sh x beta (mkC om 0) (cw w, cw w) eps mu phase = None).
Proof.
  intros sh w om beta eps mu x HL PW Ho Hb LS [_ E] M.
  pose proof (lossless_nz _ _ _ LS) as NM. destruct (posw_nz sh w w HL PW) as [NE _].
  set (ev := mv (K := CC) (2 * prodl sh) (exy2e (K := CC) sh beta (cw w, cw w) eps) x).
  set (hv := mv (K := CC) (2 * prodl sh) (exy2h (K := CC) sh beta (mkC om 0) (cw w, cw w) eps mu) x).
  assert (CM : computed_mode (K := CC) sh (cw w) (cw w) (mkC om 0) beta eps mu x (unvec sh ev) (unvec sh hv)) by (split; [exact E|split; reflexivity]).
  assert (IP : forall phase, inner_product (K := CC) sh ev hv (cw w, cw w) phase true
    = cmul (cdiv (cconj phase) (cadd c1 c1)) (flux (K := CC) sh (cw w) (cw w) (unvec (K := CC) sh ev) (conjf (K := CC) (unvec (K := CC) sh hv))))
    by (intro phase; exact (inner_conj CC sh (cw w) phase ev hv (realw_cw w))).
  assert (None_of : forall phase, WaveguideReal.power sh ev hv (cw w, cw w) phase = 0 -> normalized_fields_e sh x beta (mkC om 0) (cw w, cw w) eps mu phase = None).
  { intros phase Z. unfold normalized_fields_e. fold ev hv. unfold normalized_fields. rewrite Z. destruct (Rlt_dec 0 0) as [C|_]; [lra|reflexivity]. }
  split.
  - intro Hi. apply None_of. unfold WaveguideReal.power. rewrite IP.
    destruct (C136_absorption sh w w om beta eps mu x _ _ HL PW Ho Hb NM CM) as (_ & A & _).
    assert (P : ModeProps.power sh w w (unvec (K := CC) sh ev) (unvec (K := CC) sh hv) = 0).
    { apply A; [|exact Hi]. intros c i Hc Hii. pose proof (lossless_ones _ _ _ LS) as PM. destruct LS as [PE _]. split.
      - exact (proj1 (PE _ (q_lt sh c i 3 Hc Hii))).
      - unfold mu_field. destruct mu as [m|]; [exact (proj1 (PM _ (q_lt sh c i 3 Hc Hii)))|reflexivity]. }
    unfold ModeProps.power in P. set (F := flux _ _ _ _ _) in *. clearbody F. change cpx in F. cbn. rewrite P. unfold cnrm. cbn. field.
  - intros (y & Hy) Hi phase. apply None_of. unfold WaveguideReal.power. rewrite IP.
    assert (Z : flux (K := CC) sh (cw w) (cw w) (unvec (K := CC) sh ev) (conjf (K := CC) (unvec (K := CC) sh hv)) = c0).
    { destruct (cm_mode CC sh (cw w) (cw w) (mkC om 0) beta eps mu x _ _ HL (mkC_nz om Ho) Hb NM CM) as (Md & _ & T).
      destruct (C37_mode_solves_both_eigenproblems CC sh (cw w) (cw w) (mkC om 0) beta eps mu ev hv HL (mkC_nz om Ho) Hb NM Md) as (_ & Hh & _).
      assert (Re : cim (cmul beta beta) = 0) by (cbn; rewrite Hi; ring).
      pose proof (merged_flux CC sh (cw w) (cw w) (mkC om 0) eps mu HL NE NE _ _ _ _ (chain_conj sh w w om eps mu _ y x HL PW LS Re Hy) Hh) as F.
      assert (G : cconj (flux (K := CC) sh (cw w) (cw w) (unvec (K := CC) sh ev) (conjf (K := CC) (unvec (K := CC) sh hv))) = c0).
      { rewrite <- ModeRealP.flux_conj. refine (eq_trans _ F). apply (flux_ext CC sh HL); [|reflexivity]. intros c i Hc Hii. exact (f_equal cconj (T c i Hc Hii)). }
      set (f := flux _ _ _ _ _) in *. clearbody f. change cpx in f. apply cpx_ext; [apply (f_equal cre) in G|apply (f_equal cim) in G]; cbn in G |- *; lra. }
    rewrite Z. cbn. ring.
Qed.
Print Assumptions C177_not_normalised.

(** The merged modes of the four cells: the hypotheses of C177_merged and C177_not_normalised. *)
Example C177_merged_case : positive_widths [2; 2]%nat cm_w cm_w /\ lossless [2; 2]%nat jm_eps None /\
  let beta := mkC (sqrt (4/15)) 0 in
  eigenpair [2; 2]%nat cm_w cm_w 1 jm_eps None (cmul beta beta) jm_x /\
  veq (K := CC) 8 (mv (K := CC) 8 (operator_e (K := CC) [2; 2]%nat (mkC 1 0) (cw cm_w, cw cm_w) jm_eps None) jm_w) (fun q => cadd (cmul (cmul beta beta) (jm_w q)) (jm_x q)) /\
  forall phase, normalized_fields_e [2; 2]%nat jm_x beta (mkC 1 0) (cw cm_w, cw cm_w) jm_eps None phase = None.
Proof.
  assert (PW : positive_widths [2; 2]%nat cm_w cm_w) by (intros a i _ _; unfold cm_w; lra).
  assert (LS : lossless [2; 2]%nat jm_eps None). { split; [|exact I]. intros q Hq. unfold jm_eps. do 12 (destruct q as [|q]; [cbn; lra|]). cbn in Hq; lia. }
  split; [exact PW|]. split; [exact LS|]. intro beta.
  assert (B : cmul beta beta = mkC (4/15) 0).
  { assert (S : sqrt (4/15) * sqrt (4/15) = 4/15) by (apply sqrt_sqrt; lra). unfold beta. apply cpx_ext; cbn; lra. }
  assert (Ep : eigenpair [2; 2]%nat cm_w cm_w 1 jm_eps None (cmul beta beta) jm_x) by (rewrite B; exact jm_eigen).
  assert (Hc : veq (K := CC) 8 (mv (K := CC) 8 (operator_e (K := CC) [2; 2]%nat (mkC 1 0) (cw cm_w, cw cm_w) jm_eps None) jm_w) (fun q => cadd (cmul (cmul beta beta) (jm_w q)) (jm_x q))) by (rewrite B; exact jm_chain).
  split; [exact Ep|]. split; [exact Hc|].
  assert (Nb : beta <> c0). { intro C. apply (f_equal cre) in C. cbn in C. assert (0 < sqrt (4/15)) by (apply sqrt_lt_R0; lra). lra. }
  destruct (C177_not_normalised [2; 2]%nat cm_w 1 beta jm_eps None jm_x eq_refl PW ltac:(lra) Nb LS Ep) as [_ A].
  apply A; [exists jm_w; exact Hc|reflexivity].
Qed.
(** The complex pair of C176 meets the other half. *)
Example C177_pair_case : exists beta, cim beta <> 0 /\ eigenpair [2; 2]%nat cm_w cm_w 1 cm_eps None (cmul beta beta) cm_x /\
  normalized_fields_e [2; 2]%nat cm_x beta (mkC 1 0) (cw cm_w, cw cm_w) cm_eps None c1 = None.
Proof.
  set (beta := csqrt (mkC (-2) 1)).
  assert (B : cmul beta beta = mkC (-2) 1) by (exact (csqrt_sq _)).
  assert (I : cim beta <> 0). { intro C. apply (f_equal cim) in B. cbn in B. change (cre beta * cim beta + cim beta * cre beta = 1) in B. rewrite C in B. lra. }
  exists beta. split; [exact I|].
  assert (Ep : eigenpair [2; 2]%nat cm_w cm_w 1 cm_eps None (cmul beta beta) cm_x) by (rewrite B; exact cm_eigen).
  split; [exact Ep|].
  assert (LS : lossless [2; 2]%nat cm_eps None). { split; [|exact Coq.Init.Logic.I]. intros q Hq. unfold cm_eps. do 12 (destruct q as [|q]; [cbn; lra|]). cbn in Hq; lia. }
  destruct (C177_not_normalised [2; 2]%nat cm_w 1 beta cm_eps None cm_x eq_refl) as [A _]; [|lra| |exact LS|exact Ep|exact (A I)].
  - intros a i _ _; unfold cm_w; lra.
  - intro C. apply I. now rewrite C.
Qed.
