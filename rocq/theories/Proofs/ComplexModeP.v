(** Eigenvalues of operator_e in lossless media: conjugate pairs, and slabs. *)
From Coq Require Import List Arith ZArith Lia Bool Reals Lra Psatz.
From Verif.Lib Require Import Num Sums Idx Mat RealF.
From Verif.Model Require Import Fdmath Fdfd Waveguide2d.
From Verif.Spec Require Import Grid Yee WaveguideSpec HarmonicSpec ModeSpec.
From Verif.Proofs Require Import FdmathP FdfdP WaveguideP WaveguideP2 WaveguideP4 GridP ModeFluxP.
Import ListNotations.
Local Open Scope R_scope.

Lemma toC_sumN n (f : nat -> R) : sumN (K := CC) n (fun i => mkC (f i) 0) = mkC (sumN (K := RF) n f) 0.
Proof. induction n as [|n IH]; [reflexivity|]. cbn [sumN]. rewrite IH. apply cpx_ext; cbn; ring. Qed.
Lemma toC_gsum sh (f : list nat -> R) : gsum (K := CC) sh (fun i => mkC (f i) 0) = mkC (gsum (K := RF) sh f) 0.
Proof.
  revert f. induction sh as [|n ns IH]; intro f; cbn [gsum]; [reflexivity|].
  rewrite <- toC_sumN. apply (sumN_ext CC). intros. apply IH.
Qed.

Lemma shift1 sh a d i : inb sh i -> (a < length sh)%nat -> dim sh a = 1%nat -> shift_ix sh a d i = i.
Proof.
  intros Hi Ha D. unfold shift_ix. replace (cyc (dim sh a) d (coord i a)) with (coord i a); [apply upd_coord|].
  pose proof (inb_coord sh i a Hi Ha) as L. pose proof (cyc_lt (dim sh a) d (coord i a) ltac:(lia)). lia.
Qed.
Lemma fwd1 sh (w : widths CC) a f i : inb sh i -> (a < length sh)%nat -> dim sh a = 1%nat -> deriv_forward (K := CC) sh (Some w) a f i = c0.
Proof. intros Hi Ha D. unfold deriv_forward, roll. rewrite shift1 by assumption. apply cpx_ext; cbn; unfold Rdiv; ring. Qed.
Lemma bwd1 sh (w : widths CC) a f i : inb sh i -> (a < length sh)%nat -> dim sh a = 1%nat -> deriv_back (K := CC) sh (Some w) a f i = c0.
Proof. intros Hi Ha D. unfold deriv_back, roll. rewrite shift1 by assumption. apply cpx_ext; cbn; unfold Rdiv; ring. Qed.

(** One axis [b] at a time. *)
Section Axis.
  Variable sh : list nat.
  Hypothesis HL : length sh = 2%nat.
  Variables we wh : widths RF.
  Hypothesis Pw : forall a i, (a < 2)%nat -> (i < dim sh a)%nat -> 0 < we a i /\ 0 < wh a i.
  Variable b : nat.
  Hypothesis Hb : (b < 2)%nat.
  Notation Fb := (deriv_forward (K := CC) sh (Some (cw we)) b).
  Notation Bb := (deriv_back (K := CC) sh (Some (cw wh)) b).
  Let NE : nzw (K := CC) sh (cw we).
  Proof. intros a i Ha Hi C. apply (f_equal cre) in C. cbn in C. destruct (Pw a i ltac:(lia) Hi). lra. Qed.
  Let NH : nzw (K := CC) sh (cw wh).
  Proof. intros a i Ha Hi C. apply (f_equal cre) in C. cbn in C. destruct (Pw a i ltac:(lia) Hi). lra. Qed.
  Let RE : realw (K := CC) (cw we).
  Proof. intros a i. apply cpx_ext; [reflexivity|apply Ropp_0]. Qed.
  Let RH : realw (K := CC) (cw wh).
  Proof. intros a i. apply cpx_ext; [reflexivity|apply Ropp_0]. Qed.
  Let wep i : inb sh i -> 0 < we b (coord i b).
  Proof. intro Hi. apply Pw; [exact Hb|]. apply inb_coord; [exact Hi|lia]. Qed.
  Let whp i : inb sh i -> 0 < wh b (coord i b).
  Proof. intro Hi. apply Pw; [exact Hb|]. apply inb_coord; [exact Hi|lia]. Qed.

  Lemma parts (f g : arr CC) :
    gsum (K := CC) sh (fun i => cmul (mkC (we b (coord i b)) 0) (cmul (g i) (Fb f i)))
    = copp (gsum (K := CC) sh (fun i => cmul (mkC (wh b (coord i b)) 0) (cmul (f i) (Bb g i)))).
  Proof.
    pose proof (sum_by_parts CC sh b (cw we) (cw wh) (fun _ => c1) f g ltac:(lia) (fun _ _ => eq_refl) (fun i => NE b i ltac:(lia)) (fun i => NH b i ltac:(lia))) as S.
    etransitivity; [|etransitivity; [exact S|]].
    - apply (gsum_ext (K := CC)). intros. apply cpx_ext; cbn; ring.
    - refine (f_equal copp _). apply (gsum_ext (K := CC)). intros. apply cpx_ext; cbn; ring.
  Qed.

  (** A real multiple of a positive sum is real. *)
  Lemma conclude (l : cpx) (s : list nat -> R) r (f : arr CC) i0 : (forall i, inb sh i -> 0 <= s i) -> inb sh i0 -> 0 < s i0 ->
    cmul l (mkC (gsum (K := RF) sh s) 0) = mkC r 0 -> cim l = 0.
  Proof.
    intros P Hi0 P0 E. apply (f_equal cim) in E. cbn in E.
    pose proof (gsum_ge_term sh s i0 Hi0 P) as G. cbn in G, E.
    assert (Q : cim l * gsum (K := RF) sh s = 0) by (cbn in E |- *; lra).
    destruct (Rmult_integral _ _ Q) as [H|H]; [exact H|]. rewrite H in G. lra.
  Qed.

  Lemma first_kind (l : cpx) (om : R) (m p z : list nat -> R) (f : arr CC) i0 :
    (forall i, inb sh i -> 0 < m i) -> (forall i, inb sh i -> z i <> 0) ->
    inb sh i0 -> f i0 <> c0 ->
    (forall i, inb sh i -> cmul l (f i) = cadd (cmul (mkC (om * m i * p i) 0) (f i)) (cmul (mkC (m i) 0) (Bb (fun j => cmul (mkC (/ z j) 0) (Fb f j)) i))) ->
    cim l = 0.
  Proof.
    intros Pm Nz Hi0 N0 H.
    assert (N : 0 < cnrm (f i0)).
    { unfold cnrm. destruct (Rtotal_order 0 (cre (f i0) * cre (f i0) + cim (f i0) * cim (f i0))) as [G|[G|G]]; [exact G| |nra].
      exfalso. apply N0. apply cpx_ext; cbn; nra. }
    set (g := fun j => cmul (mkC (/ z j) 0) (Fb f j)) in H.
    apply (conclude l (fun i => wh b (coord i b) / m i * cnrm (f i))
      (gsum (K := RF) sh (fun i => wh b (coord i b) * (om * p i) * cnrm (f i)) + - gsum (K := RF) sh (fun i => we b (coord i b) * (/ z i) * cnrm (Fb f i))) f i0).
    - intros i Hi. pose proof (whp i Hi). pose proof (Pm i Hi). unfold Rdiv. pose proof (Rinv_0_lt_compat _ H1).
      unfold cnrm. apply Rmult_le_pos; [apply Rmult_le_pos; lra|nra].
    - exact Hi0.
    - pose proof (whp i0 Hi0). pose proof (Pm i0 Hi0) as Q. unfold Rdiv. pose proof (Rinv_0_lt_compat _ Q). apply Rmult_lt_0_compat; [apply Rmult_lt_0_compat; lra|exact N].
    - rewrite <- toC_gsum.
      transitivity (cadd (mkC (gsum (K := RF) sh (fun i => wh b (coord i b) * (om * p i) * cnrm (f i))) 0)
        (gsum (K := CC) sh (fun i => cmul (mkC (wh b (coord i b)) 0) (cmul (cconj (f i)) (Bb g i))))).
      + rewrite <- toC_gsum. refine (eq_trans _ (gsum_add CC sh _ _)). refine (eq_trans (eq_sym (gsum_mul_l CC sh _ _)) _).
        apply (gsum_ext (K := CC)). intros i Hi.
        pose proof (H i Hi) as E. pose proof (Pm i Hi). pose proof (f_equal (fun t => cmul (mkC (wh b (coord i b) / m i) 0) (cmul (cconj (f i)) t)) E) as E2. cbv beta in E2.
        transitivity (cmul (mkC (wh b (coord i b) / m i) 0) (cmul (cconj (f i)) (cmul l (f i)))).
        { apply cpx_ext; cbn; unfold cnrm; ring. }
        rewrite E2. set (X := Bb g i). set (w := wh b (coord i b)). clearbody X w. change R in w. apply cpx_ext; cbn; unfold cnrm; field; lra.
      + assert (E : gsum (K := CC) sh (fun i => cmul (mkC (wh b (coord i b)) 0) (cmul (cconj (f i)) (Bb g i)))
          = copp (gsum (K := CC) sh (fun i => cmul (mkC (we b (coord i b)) 0) (cmul (g i) (Fb (fun j => cconj (f j)) i))))).
        { rewrite parts. apply cpx_ext; cbn; ring. }
        rewrite E. rewrite (gsum_ext (K := CC) sh _ (fun i => mkC (we b (coord i b) * (/ z i) * cnrm (Fb f i)) 0)).
        * rewrite toC_gsum. apply cpx_ext; cbn; ring.
        * intros i Hi. pose proof (conj_fwd CC sh HL (cw we) NE RE b f i Hb Hi) as C. change (cconj (Fb f i) = Fb (fun j => cconj (f j)) i) in C.
          rewrite <- C. unfold g. set (X := Fb f i). clearbody X. apply cpx_ext; cbn; unfold cnrm; ring.
  Qed.

  Lemma second_kind (l : cpx) (om : R) (m p z : list nat -> R) (f : arr CC) i0 :
    (forall i, inb sh i -> 0 < p i) -> (forall i, inb sh i -> z i <> 0) ->
    inb sh i0 -> f i0 <> c0 ->
    (forall i, inb sh i -> cmul l (f i) = cadd (cmul (mkC (om * m i * p i) 0) (f i)) (Fb (fun j => cmul (mkC (/ z j) 0) (Bb (fun k => cmul (mkC (p k) 0) (f k)) j)) i)) ->
    cim l = 0.
  Proof.
    intros Pp Nz Hi0 N0 H.
    assert (N : 0 < cnrm (f i0)).
    { unfold cnrm. destruct (Rtotal_order 0 (cre (f i0) * cre (f i0) + cim (f i0) * cim (f i0))) as [G|[G|G]]; [exact G| |nra].
      exfalso. apply N0. apply cpx_ext; cbn; nra. }
    set (u := fun k => cmul (mkC (p k) 0) (f k)) in H.
    set (g := fun j => cmul (mkC (/ z j) 0) (Bb u j)) in H.
    apply (conclude l (fun i => we b (coord i b) * p i * cnrm (f i))
      (gsum (K := RF) sh (fun i => we b (coord i b) * p i * (om * m i * p i) * cnrm (f i)) + - gsum (K := RF) sh (fun i => wh b (coord i b) * (/ z i) * cnrm (Bb u i))) f i0).
    - intros i Hi. pose proof (wep i Hi). pose proof (Pp i Hi). 
      unfold cnrm. apply Rmult_le_pos; [apply Rmult_le_pos; lra|nra].
    - exact Hi0.
    - pose proof (wep i0 Hi0). pose proof (Pp i0 Hi0) as Q. apply Rmult_lt_0_compat; [apply Rmult_lt_0_compat; lra|exact N].
    - rewrite <- toC_gsum.
      transitivity (cadd (mkC (gsum (K := RF) sh (fun i => we b (coord i b) * p i * (om * m i * p i) * cnrm (f i))) 0)
        (gsum (K := CC) sh (fun i => cmul (mkC (we b (coord i b)) 0) (cmul (cconj (u i)) (Fb g i))))).
      + rewrite <- toC_gsum. refine (eq_trans _ (gsum_add CC sh _ _)). refine (eq_trans (eq_sym (gsum_mul_l CC sh _ _)) _).
        apply (gsum_ext (K := CC)). intros i Hi.
        pose proof (H i Hi) as E. pose proof (f_equal (fun t => cmul (mkC (we b (coord i b) * p i) 0) (cmul (cconj (f i)) t)) E) as E2. cbv beta in E2.
        transitivity (cmul (mkC (we b (coord i b) * p i) 0) (cmul (cconj (f i)) (cmul l (f i)))).
        { apply cpx_ext; cbn; unfold cnrm; ring. }
        rewrite E2. set (X := Fb g i). clearbody X. unfold u. apply cpx_ext; cbn; unfold cnrm; ring.
      + rewrite parts. rewrite (gsum_ext (K := CC) sh _ (fun i => mkC (wh b (coord i b) * (/ z i) * cnrm (Bb u i)) 0)).
        * rewrite toC_gsum. apply cpx_ext; cbn; ring.
        * intros i Hi. pose proof (conj_bwd CC sh HL (cw wh) NH RH b u i Hb Hi) as C. change (cconj (Bb u i) = Bb (fun j => cconj (u j)) i) in C.
          rewrite <- C. unfold g. set (X := Bb u i). clearbody X. apply cpx_ext; cbn; unfold cnrm; ring.
  Qed.
End Axis.

(** The two kinds of one-component operators, and a weight that makes each symmetric. *)
Section Kinds.
  Variables (sh : list nat) (we wh : widths RF) (b : nat) (om : R) (m p z : list nat -> R).
  Definition kind1 (f : arr CC) : arr CC := fun i =>
    cadd (cmul (mkC (om * m i * p i) 0) (f i))
      (cmul (mkC (m i) 0) (deriv_back (K := CC) sh (Some (cw wh)) b (fun j => cmul (mkC (/ z j) 0) (deriv_forward (K := CC) sh (Some (cw we)) b f j)) i)).
  Definition kind2 (f : arr CC) : arr CC := fun i =>
    cadd (cmul (mkC (om * m i * p i) 0) (f i))
      (deriv_forward (K := CC) sh (Some (cw we)) b (fun j => cmul (mkC (/ z j) 0) (deriv_back (K := CC) sh (Some (cw wh)) b (fun k => cmul (mkC (p k) 0) (f k)) j)) i).
End Kinds.
Definition slab_comp (sh : list nat) (we wh : widths RF) (A : arr CC -> arr CC) : Prop :=
  exists b om m p z, (b < 2)%nat /\ (forall i, inb sh i -> 0 < m i /\ 0 < p i /\ 0 < z i) /\
    ((forall f, A f = kind1 sh we wh b om m p z f) \/ (forall f, A f = kind2 sh we wh b om m p z f)).

Lemma slab_comp_real sh we wh A l f i0 : length sh = 2%nat ->
  (forall a i, (a < 2)%nat -> (i < dim sh a)%nat -> 0 < we a i /\ 0 < wh a i) -> slab_comp sh we wh A ->
  inb sh i0 -> f i0 <> c0 -> (forall i, inb sh i -> cmul l (f i) = A f i) -> cim l = 0.
Proof.
  intros HL PW (b & om & m & p & z & Hb & Pos & [K|K]) Hi N E.
  - apply (first_kind sh HL we wh PW b Hb l om m p z f i0); [intros i H; now apply Pos|intros i H; destruct (Pos i H); lra|exact Hi|exact N|].
    intros i H. rewrite (E i H), K. reflexivity.
  - apply (second_kind sh HL we wh PW b Hb l om m p z f i0); [intros i H; now apply Pos|intros i H; destruct (Pos i H); lra|exact Hi|exact N|].
    intros i H. rewrite (E i H), K. reflexivity.
Qed.
Lemma slab_comp_weight sh we wh A : length sh = 2%nat ->
  (forall a i, (a < 2)%nat -> (i < dim sh a)%nat -> 0 < we a i /\ 0 < wh a i) -> slab_comp sh we wh A ->
  exists W : list nat -> R, (forall i, inb sh i -> 0 < W i) /\
    forall f g : arr CC, gsum (K := CC) sh (fun i => cmul (mkC (W i) 0) (cmul (g i) (A f i))) = gsum (K := CC) sh (fun i => cmul (mkC (W i) 0) (cmul (f i) (A g i))).
Proof.
  intros HL PW (b & om & m & p & z & Hb & Pos & [K|K]).
  - exists (fun i => wh b (coord i b) / m i). split.
    + intros i Hi. destruct (Pos i Hi) as (Pm & _). apply Rdiv_lt_0_compat; [|exact Pm]. apply PW; [exact Hb|]. apply inb_coord; [exact Hi|lia].
    + assert (E : forall f g : arr CC, gsum (K := CC) sh (fun i => cmul (mkC (wh b (coord i b) / m i) 0) (cmul (g i) (A f i)))
        = cadd (gsum (K := CC) sh (fun i => cmul (mkC (wh b (coord i b) * (om * p i)) 0) (cmul (g i) (f i))))
            (copp (gsum (K := CC) sh (fun i => cmul (mkC (we b (coord i b) * / z i) 0) (cmul (deriv_forward (K := CC) sh (Some (cw we)) b f i) (deriv_forward (K := CC) sh (Some (cw we)) b g i)))))).
      { intros f g. set (h := fun j => cmul (mkC (/ z j) 0) (deriv_forward (K := CC) sh (Some (cw we)) b f j)).
        transitivity (cadd (gsum (K := CC) sh (fun i => cmul (mkC (wh b (coord i b) * (om * p i)) 0) (cmul (g i) (f i))))
          (gsum (K := CC) sh (fun i => cmul (mkC (wh b (coord i b)) 0) (cmul (g i) (deriv_back (K := CC) sh (Some (cw wh)) b h i))))).
        - refine (eq_trans _ (gsum_add CC sh _ _)). apply (gsum_ext (K := CC)). intros i Hi. rewrite K. unfold kind1. fold h.
          destruct (Pos i Hi) as (Pm & _). set (X := deriv_back _ _ _ _ i). set (w := wh b (coord i b)). clearbody X w. change R in w. apply cpx_ext; cbn; field; lra.
        - refine (f_equal (cadd _) _). pose proof (parts sh HL we wh PW b Hb g h) as Q.
          apply (f_equal copp) in Q. transitivity (copp (copp (gsum (K := CC) sh (fun i => cmul (mkC (wh b (coord i b)) 0) (cmul (g i) (deriv_back (K := CC) sh (Some (cw wh)) b h i)))))); [apply cpx_ext; cbn; ring|].
          rewrite <- Q. refine (f_equal copp _). apply (gsum_ext (K := CC)). intros i Hi. unfold h. set (X := deriv_forward (K := CC) _ _ _ f i). set (Y := deriv_forward (K := CC) _ _ _ g i). clearbody X Y. apply cpx_ext; cbn; ring. }
      intros f g. rewrite !E. refine (f_equal2 cadd _ (f_equal copp _)); apply (gsum_ext (K := CC)); intros i Hi; [|set (X := deriv_forward (K := CC) _ _ _ f i); set (Y := deriv_forward (K := CC) _ _ _ g i); clearbody X Y]; apply cpx_ext; cbn; ring.
  - exists (fun i => we b (coord i b) * p i). split.
    + intros i Hi. destruct (Pos i Hi) as (_ & Pp & _). apply Rmult_lt_0_compat; [|exact Pp]. apply PW; [exact Hb|]. apply inb_coord; [exact Hi|lia].
    + assert (E : forall f g : arr CC, gsum (K := CC) sh (fun i => cmul (mkC (we b (coord i b) * p i) 0) (cmul (g i) (A f i)))
        = cadd (gsum (K := CC) sh (fun i => cmul (mkC (we b (coord i b) * p i * (om * m i * p i)) 0) (cmul (g i) (f i))))
            (copp (gsum (K := CC) sh (fun i => cmul (mkC (wh b (coord i b) * / z i) 0) (cmul (deriv_back (K := CC) sh (Some (cw wh)) b (fun k => cmul (mkC (p k) 0) (f k)) i) (deriv_back (K := CC) sh (Some (cw wh)) b (fun k => cmul (mkC (p k) 0) (g k)) i)))))).
      { intros f g. set (h := fun j => cmul (mkC (/ z j) 0) (deriv_back (K := CC) sh (Some (cw wh)) b (fun k => cmul (mkC (p k) 0) (f k)) j)).
        transitivity (cadd (gsum (K := CC) sh (fun i => cmul (mkC (we b (coord i b) * p i * (om * m i * p i)) 0) (cmul (g i) (f i))))
          (gsum (K := CC) sh (fun i => cmul (mkC (we b (coord i b)) 0) (cmul (cmul (mkC (p i) 0) (g i)) (deriv_forward (K := CC) sh (Some (cw we)) b h i))))).
        - refine (eq_trans _ (gsum_add CC sh _ _)). apply (gsum_ext (K := CC)). intros i Hi. rewrite K. unfold kind2. fold h.
          set (X := deriv_forward _ _ _ _ i). clearbody X. apply cpx_ext; cbn; ring.
        - refine (f_equal (cadd _) _). rewrite (parts sh HL we wh PW b Hb h (fun k => cmul (mkC (p k) 0) (g k))).
          refine (f_equal copp _). apply (gsum_ext (K := CC)). intros i Hi. unfold h. set (X := deriv_back _ _ _ _ i). set (Y := deriv_back (K := CC) _ _ _ (fun k => cmul _ (g k)) i). clearbody X Y. apply cpx_ext; cbn; ring. }
      intros f g. rewrite !E. refine (f_equal2 cadd _ (f_equal copp _)); apply (gsum_ext (K := CC)); intros i Hi; [|set (X := deriv_back _ _ _ _ i); set (Y := deriv_back (K := CC) _ _ _ (fun k => cmul _ (g k)) i); clearbody X Y]; apply cpx_ext; cbn; ring.
Qed.
