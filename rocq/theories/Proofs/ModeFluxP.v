(** Flux and energy of pairs of waveguide modes. *)
From Coq Require Import List Arith ZArith Lia Bool Field.
From Verif.Lib Require Import Num Sums Idx Mat.
From Verif.Model Require Import Fdmath Fdfd Waveguide2d.
From Verif.Spec Require Import Grid Yee WaveguideSpec HarmonicSpec ModeSpec.
From Verif.Proofs Require Import FdmathP FdfdP WaveguideP4 GridP.
Import ListNotations.
Local Open Scope fld_scope.

Section Flux.
  Variable K : CFld.
  Add Field Kfield2 : (fth K).
  Variable sh : list nat.
  Hypothesis HL : length sh = 2%nat.
  Variables we wh : widths K.
  Hypothesis Hwe : nzw sh we. Hypothesis Hwh : nzw sh wh.
  Notation Fx := (deriv_forward sh (Some we) 0). Notation Fy := (deriv_forward sh (Some we) 1).
  Notation Bx := (deriv_back sh (Some wh) 0). Notation By := (deriv_back sh (Some wh) 1).
  Notation ax w i := (w 0%nat (coord i 0)). Notation ay w i := (w 1%nat (coord i 1)).
  Notation Vex i := (ax we i * ay wh i). Notation Vey i := (ax wh i * ay we i). Notation Vez i := (ax wh i * ay wh i).
  Notation Vhx i := (ax wh i * ay we i). Notation Vhy i := (ax we i * ay wh i). Notation Vhz i := (ax we i * ay we i).

  Variables f g e h : field K.
  Variables be b : K.
  Variables P A P2 A2 : field K.   (* conj(om1 eps1), conj(om1 mu1), om2 eps2, om2 mu2 *)

  Hypothesis G1 : forall i, inb sh i ->
      im * (A 0%nat i * g 0%nat i) = Fy (f 2%nat) i - im * b * f 1%nat i /\
      im * (A 1%nat i * g 1%nat i) = im * b * f 0%nat i - Fx (f 2%nat) i /\
      im * (A 2%nat i * g 2%nat i) = Fx (f 1%nat) i - Fy (f 0%nat) i.
  Hypothesis G2 : forall i, inb sh i ->
      - im * (P 0%nat i * f 0%nat i) = By (g 2%nat) i - im * b * g 1%nat i /\
      - im * (P 1%nat i * f 1%nat i) = im * b * g 0%nat i - Bx (g 2%nat) i /\
      - im * (P 2%nat i * f 2%nat i) = Bx (g 1%nat) i - By (g 0%nat) i.
  Hypothesis M1 : forall i, inb sh i ->
      - im * (A2 0%nat i * h 0%nat i) = Fy (e 2%nat) i + im * be * e 1%nat i /\
      - im * (A2 1%nat i * h 1%nat i) = - im * be * e 0%nat i - Fx (e 2%nat) i /\
      - im * (A2 2%nat i * h 2%nat i) = Fx (e 1%nat) i - Fy (e 0%nat) i.
  Hypothesis M2 : forall i, inb sh i ->
      im * (P2 0%nat i * e 0%nat i) = By (h 2%nat) i + im * be * h 1%nat i /\
      im * (P2 1%nat i * e 1%nat i) = - im * be * h 0%nat i - Bx (h 2%nat) i /\
      im * (P2 2%nat i * e 2%nat i) = Bx (h 1%nat) i - By (h 0%nat) i.

  Definition we_sum (Q u v : field K) : K := gsum sh (fun i => Vex i * (Q 0%nat i * (u 0%nat i * v 0%nat i)) + Vey i * (Q 1%nat i * (u 1%nat i * v 1%nat i)) + Vez i * (Q 2%nat i * (u 2%nat i * v 2%nat i))).
  Definition wh_sum (Q u v : field K) : K := gsum sh (fun i => Vhx i * (Q 0%nat i * (u 0%nat i * v 0%nat i)) + Vhy i * (Q 1%nat i * (u 1%nat i * v 1%nat i)) + Vhz i * (Q 2%nat i * (u 2%nat i * v 2%nat i))).

  Lemma eqA : im * we_sum P2 f e = im * wh_sum A g h + im * (be - b) * flux sh we wh f h.
  Proof.
    transitivity (gsum sh (fun i => Vex i * (f 0%nat i * By (h 2%nat) i)) - gsum sh (fun i => Vey i * (f 1%nat i * Bx (h 2%nat) i))
      + gsum sh (fun i => Vez i * (f 2%nat i * Bx (h 1%nat) i)) - gsum sh (fun i => Vez i * (f 2%nat i * By (h 0%nat) i)) + im * be * flux sh we wh f h).
    - unfold we_sum, flux. rewrite <- !gsum_mul_l. rewrite <- gsum_sub, <- gsum_add, <- gsum_sub, <- gsum_add. apply gsum_ext. intros i Hi. destruct (M2 i Hi) as (X & Y & Z).
      transitivity (Vex i * (f 0%nat i * (im * (P2 0%nat i * e 0%nat i))) + Vey i * (f 1%nat i * (im * (P2 1%nat i * e 1%nat i))) + Vez i * (f 2%nat i * (im * (P2 2%nat i * e 2%nat i)))); [ring|].
      rewrite X, Y, Z. ring.
    - pose proof (sty K sh HL we wh Hwe Hwh (f 0%nat) (h 2%nat)) as S1. pose proof (stx K sh HL we wh Hwe Hwh (f 1%nat) (h 2%nat)) as S2.
      pose proof (sbx K sh HL we wh Hwe Hwh (f 2%nat) (h 1%nat)) as S3. pose proof (sby K sh HL we wh Hwe Hwh (f 2%nat) (h 0%nat)) as S4.
      transitivity (- gsum sh (fun i => Vhz i * (h 2%nat i * Fy (f 0%nat) i)) + gsum sh (fun i => Vhz i * (h 2%nat i * Fx (f 1%nat) i))
        - gsum sh (fun i => Vhy i * (h 1%nat i * Fx (f 2%nat) i)) + gsum sh (fun i => Vhx i * (h 0%nat i * Fy (f 2%nat) i)) + im * be * flux sh we wh f h).
      { rewrite S1, S2, S3, S4. ring. }
      unfold wh_sum, flux. rewrite <- !gsum_mul_l. rewrite <- gsum_opp, <- gsum_add, <- gsum_sub, <- gsum_add, <- gsum_add. rewrite <- gsum_add. apply gsum_ext. intros i Hi. destruct (G1 i Hi) as (X & Y & Z).
      transitivity (Vhx i * (h 0%nat i * (im * (A 0%nat i * g 0%nat i))) + Vhy i * (h 1%nat i * (im * (A 1%nat i * g 1%nat i))) + Vhz i * (h 2%nat i * (im * (A 2%nat i * g 2%nat i)))
         + im * (be - b) * (ax we i * ay wh i * (f 0%nat i * h 1%nat i) - ax wh i * ay we i * (f 1%nat i * h 0%nat i))); [|ring].
      rewrite X, Y, Z. ring.
  Qed.

  Lemma eqB : im * wh_sum A2 g h = im * we_sum P f e + im * (be - b) * flux sh we wh e g.
  Proof.
    transitivity (- (gsum sh (fun i => Vhx i * (g 0%nat i * Fy (e 2%nat) i)) - gsum sh (fun i => Vhy i * (g 1%nat i * Fx (e 2%nat) i))
      + gsum sh (fun i => Vhz i * (g 2%nat i * Fx (e 1%nat) i)) - gsum sh (fun i => Vhz i * (g 2%nat i * Fy (e 0%nat) i))) + im * be * flux sh we wh e g).
    - unfold wh_sum, flux. rewrite <- !gsum_mul_l. rewrite <- gsum_sub, <- gsum_add, <- gsum_sub, <- gsum_opp, <- gsum_add. apply gsum_ext. intros i Hi. destruct (M1 i Hi) as (X & Y & Z).
      transitivity (- (Vhx i * (g 0%nat i * (- im * (A2 0%nat i * h 0%nat i))) + Vhy i * (g 1%nat i * (- im * (A2 1%nat i * h 1%nat i))) + Vhz i * (g 2%nat i * (- im * (A2 2%nat i * h 2%nat i))))); [ring|].
      rewrite X, Y, Z. ring.
    - pose proof (sby K sh HL we wh Hwe Hwh (e 2%nat) (g 0%nat)) as S1. pose proof (sbx K sh HL we wh Hwe Hwh (e 2%nat) (g 1%nat)) as S2.
      pose proof (stx K sh HL we wh Hwe Hwh (e 1%nat) (g 2%nat)) as S3. pose proof (sty K sh HL we wh Hwe Hwh (e 0%nat) (g 2%nat)) as S4.
      rewrite S1, S2, S3, S4.
      transitivity (gsum sh (fun i => Vez i * (e 2%nat i * By (g 0%nat) i)) - gsum sh (fun i => Vez i * (e 2%nat i * Bx (g 1%nat) i))
        + gsum sh (fun i => Vey i * (e 1%nat i * Bx (g 2%nat) i)) - gsum sh (fun i => Vex i * (e 0%nat i * By (g 2%nat) i)) + im * be * flux sh we wh e g); [ring|].
      unfold we_sum, flux. rewrite <- !gsum_mul_l. rewrite <- gsum_sub, <- gsum_add, <- gsum_sub, <- gsum_add. rewrite <- gsum_add. apply gsum_ext. intros i Hi. destruct (G2 i Hi) as (X & Y & Z).
      transitivity (- (Vex i * (e 0%nat i * (- im * (P 0%nat i * f 0%nat i))) + Vey i * (e 1%nat i * (- im * (P 1%nat i * f 1%nat i))) + Vez i * (e 2%nat i * (- im * (P 2%nat i * f 2%nat i))))
         + im * (be - b) * (ax we i * ay wh i * (e 0%nat i * g 1%nat i) - ax wh i * ay we i * (e 1%nat i * g 0%nat i))); [|ring].
      rewrite X, Y, Z. ring.
  Qed.
End Flux.

Ltac cj H := repeat first [rewrite conj_sub in H|rewrite conj_add in H|rewrite conj_opp in H|rewrite conj_mul in H|rewrite conj_im in H].
(** Two modes, the first one conjugated. *)
Section Pair.
  Variable K : CFld.
  Add Field Kfield3 : (fth K).
  Variable sh : list nat.
  Hypothesis HL : length sh = 2%nat.
  Variables we wh : widths K.
  Hypothesis Hwe : nzw sh we. Hypothesis Hwh : nzw sh wh.
  Hypothesis Rwe : realw we. Hypothesis Rwh : realw wh.

  Lemma conj_fwd a f i : (a < 2)%nat -> inb sh i -> conj (deriv_forward sh (Some we) a f i) = deriv_forward sh (Some we) a (fun j => conj (f j)) i.
  Proof.
    intros Ha Hi. unfold deriv_forward, roll. rewrite conj_div, conj_sub, Rwe; [reflexivity|].
    apply Hwe; [lia|]. apply inb_coord; [exact Hi|lia].
  Qed.
  Lemma conj_bwd a f i : (a < 2)%nat -> inb sh i -> conj (deriv_back sh (Some wh) a f i) = deriv_back sh (Some wh) a (fun j => conj (f j)) i.
  Proof.
    intros Ha Hi. unfold deriv_back, roll. rewrite conj_div, conj_sub, Rwh; [reflexivity|].
    apply Hwh; [lia|]. apply inb_coord; [exact Hi|lia].
  Qed.

  Variables (om1 om2 b1 b2 : K) (eps1 mu1 eps2 mu2 e1 h1 e2 h2 : field K).
  Hypothesis D1 : is_mode sh we wh om1 b1 eps1 mu1 e1 h1.
  Hypothesis D2 : is_mode sh we wh om2 b2 eps2 mu2 e2 h2.

  Lemma opp_im (x y : K) : - im * x * y = - im * (x * y). Proof. ring. Qed.

  Lemma conj_G1 : forall i, inb sh i ->
      im * (conj (om1 * mu1 0%nat i) * conj (h1 0%nat i)) = deriv_forward sh (Some we) 1 (fun j => conj (e1 2%nat j)) i - im * conj b1 * conj (e1 1%nat i) /\
      im * (conj (om1 * mu1 1%nat i) * conj (h1 1%nat i)) = im * conj b1 * conj (e1 0%nat i) - deriv_forward sh (Some we) 0 (fun j => conj (e1 2%nat j)) i /\
      im * (conj (om1 * mu1 2%nat i) * conj (h1 2%nat i)) = deriv_forward sh (Some we) 0 (fun j => conj (e1 1%nat j)) i - deriv_forward sh (Some we) 1 (fun j => conj (e1 0%nat j)) i.
  Proof.
    intros i Hi. destruct D1 as [Fa _]. unfold faraday in Fa. specialize (Fa i Hi). change @diff_next with @deriv_forward in Fa.
    rewrite <- !conj_fwd by (assumption || lia). destruct Fa as (X & Y & Z).
    apply (f_equal conj) in X, Y, Z.
    cj X. cj Y. cj Z. rewrite ?conj_mul.
    split; [|split].
    - transitivity (- - im * conj om1 * (conj (mu1 0%nat i) * conj (h1 0%nat i))); [ring|]. rewrite X. ring.
    - transitivity (- - im * conj om1 * (conj (mu1 1%nat i) * conj (h1 1%nat i))); [ring|]. rewrite Y. ring.
    - transitivity (- - im * conj om1 * (conj (mu1 2%nat i) * conj (h1 2%nat i))); [ring|]. rewrite Z. ring.
  Qed.
  Lemma conj_G2 : forall i, inb sh i ->
      - im * (conj (om1 * eps1 0%nat i) * conj (e1 0%nat i)) = deriv_back sh (Some wh) 1 (fun j => conj (h1 2%nat j)) i - im * conj b1 * conj (h1 1%nat i) /\
      - im * (conj (om1 * eps1 1%nat i) * conj (e1 1%nat i)) = im * conj b1 * conj (h1 0%nat i) - deriv_back sh (Some wh) 0 (fun j => conj (h1 2%nat j)) i /\
      - im * (conj (om1 * eps1 2%nat i) * conj (e1 2%nat i)) = deriv_back sh (Some wh) 0 (fun j => conj (h1 1%nat j)) i - deriv_back sh (Some wh) 1 (fun j => conj (h1 0%nat j)) i.
  Proof.
    intros i Hi. destruct D1 as [_ Am]. unfold ampere in Am. specialize (Am i Hi). change @diff_prev with @deriv_back in Am.
    rewrite <- !conj_bwd by (assumption || lia). destruct Am as (X & Y & Z).
    apply (f_equal conj) in X, Y, Z.
    cj X. cj Y. cj Z. rewrite ?conj_mul.
    split; [|split].
    - transitivity (- im * conj om1 * (conj (eps1 0%nat i) * conj (e1 0%nat i))); [ring|]. rewrite X. ring.
    - transitivity (- im * conj om1 * (conj (eps1 1%nat i) * conj (e1 1%nat i))); [ring|]. rewrite Y. ring.
    - transitivity (- im * conj om1 * (conj (eps1 2%nat i) * conj (e1 2%nat i))); [ring|]. rewrite Z. ring.
  Qed.

  Notation S area Q u v := (fsum sh (fun c i => area we wh c i * (Q c i * (conj (u c i) * v c i)))).
  Notation P1 := (fun c i => conj (om1 * eps1 c i)). Notation A1 := (fun c i => conj (om1 * mu1 c i)).
  Notation P2 := (fun c i => om2 * eps2 c i). Notation A2 := (fun c i => om2 * mu2 c i).

  Lemma we_fsum Q u v : we_sum K sh we wh Q (conjf u) v = S area_e Q u v.
  Proof. unfold we_sum, fsum, area_e, conjf. rewrite <- !gsum_add. apply gsum_ext. intros. ring. Qed.
  Lemma wh_fsum Q u v : wh_sum K sh we wh Q (conjf u) v = S area_h Q u v.
  Proof. unfold wh_sum, fsum, area_h, area_e, conjf. rewrite <- !gsum_add. apply gsum_ext. intros. ring. Qed.

  Lemma im_nz : (im : K) <> 0.
  Proof. intro Z. pose proof (im_sq K) as Q. rewrite Z in Q. apply (f1nz K). transitivity (- (- (1 : K))); [ring|]. rewrite <- Q. ring. Qed.
  Lemma im_cancel (x y : K) : im * x = im * y -> x = y.
  Proof. intro E. transitivity (im * x / im); [field; apply im_nz|]. rewrite E. field. apply im_nz. Qed.

  Lemma pair_A : S area_e P2 e1 e2 = S area_h A1 h1 h2 + (b2 - conj b1) * flux sh we wh (conjf e1) h2.
  Proof.
    apply im_cancel. destruct D2 as [Fa Am]. unfold faraday, ampere in *. change @diff_next with @deriv_forward in Fa. change @diff_prev with @deriv_back in Am.
    pose proof (eqA K sh HL we wh Hwe Hwh (conjf e1) (conjf h1) e2 h2 b2 (conj b1) A1 P2 conj_G1) as E.
    rewrite <- we_fsum, <- wh_fsum. transitivity (im * wh_sum K sh we wh A1 (conjf h1) h2 + im * (b2 - conj b1) * flux sh we wh (conjf e1) h2); [|ring].
    apply E. intros i Hi. destruct (Am i Hi) as (X & Y & Z). rewrite <- X, <- Y, <- Z. split; [|split]; ring.
  Qed.
  Lemma pair_B : S area_h A2 h1 h2 = S area_e P1 e1 e2 + (b2 - conj b1) * flux sh we wh e2 (conjf h1).
  Proof.
    apply im_cancel. destruct D2 as [Fa Am]. unfold faraday, ampere in *. change @diff_next with @deriv_forward in Fa. change @diff_prev with @deriv_back in Am.
    pose proof (eqB K sh HL we wh Hwe Hwh (conjf e1) (conjf h1) e2 h2 b2 (conj b1) P1 A2 conj_G2) as E.
    rewrite <- we_fsum, <- wh_fsum. transitivity (im * we_sum K sh we wh P1 (conjf e1) e2 + im * (b2 - conj b1) * flux sh we wh e2 (conjf h1)); [|ring].
    apply E. intros i Hi. destruct (Fa i Hi) as (X & Y & Z). rewrite <- X, <- Y, <- Z. split; [|split]; ring.
  Qed.

  Lemma exchange : (b2 - conj b1) * (flux sh we wh (conjf e1) h2 + flux sh we wh e2 (conjf h1))
    = fsum sh (fun c i => area_e we wh c i * ((om2 * eps2 c i - conj (om1 * eps1 c i)) * (conj (e1 c i) * e2 c i)))
      + fsum sh (fun c i => area_h we wh c i * ((om2 * mu2 c i - conj (om1 * mu1 c i)) * (conj (h1 c i) * h2 c i))).
  Proof.
    transitivity ((S area_e P2 e1 e2 - S area_e P1 e1 e2) + (S area_h A2 h1 h2 - S area_h A1 h1 h2)).
    - rewrite pair_A, pair_B. ring.
    - unfold fsum. f_equal; [|].
      + transitivity ((gsum sh (fun i => area_e we wh 0 i * (P2 0%nat i * (conj (e1 0%nat i) * e2 0%nat i))) - gsum sh (fun i => area_e we wh 0 i * (P1 0%nat i * (conj (e1 0%nat i) * e2 0%nat i))))
          + (gsum sh (fun i => area_e we wh 1 i * (P2 1%nat i * (conj (e1 1%nat i) * e2 1%nat i))) - gsum sh (fun i => area_e we wh 1 i * (P1 1%nat i * (conj (e1 1%nat i) * e2 1%nat i))))
          + (gsum sh (fun i => area_e we wh 2 i * (P2 2%nat i * (conj (e1 2%nat i) * e2 2%nat i))) - gsum sh (fun i => area_e we wh 2 i * (P1 2%nat i * (conj (e1 2%nat i) * e2 2%nat i))))); [ring|].
        rewrite <- !gsum_sub. f_equal; [f_equal|]; apply gsum_ext; intros; ring.
      + transitivity ((gsum sh (fun i => area_h we wh 0 i * (A2 0%nat i * (conj (h1 0%nat i) * h2 0%nat i))) - gsum sh (fun i => area_h we wh 0 i * (A1 0%nat i * (conj (h1 0%nat i) * h2 0%nat i))))
          + (gsum sh (fun i => area_h we wh 1 i * (A2 1%nat i * (conj (h1 1%nat i) * h2 1%nat i))) - gsum sh (fun i => area_h we wh 1 i * (A1 1%nat i * (conj (h1 1%nat i) * h2 1%nat i))))
          + (gsum sh (fun i => area_h we wh 2 i * (A2 2%nat i * (conj (h1 2%nat i) * h2 2%nat i))) - gsum sh (fun i => area_h we wh 2 i * (A1 2%nat i * (conj (h1 2%nat i) * h2 2%nat i))))); [ring|].
        rewrite <- !gsum_sub. f_equal; [f_equal|]; apply gsum_ext; intros; ring.
  Qed.
End Pair.
