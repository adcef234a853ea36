From Coq Require Import List Arith ZArith Lia Bool Field.
From Verif.Lib Require Import Num Sums Idx Mat.
From Verif.Model Require Import Fdmath Fdfd Waveguide2d.
From Verif.Spec Require Import Yee WaveguideSpec.
From Verif.Proofs Require Import FdmathP FdfdP FdfdP2.
Import ListNotations.
Local Open Scope fld_scope.

(** ** Stacked matrices *)
Section Stk.
  Variable K : Fld.
  Add Field Kfield : (fth K).
  Implicit Types (A B : mat K) (x : vect K).

  Lemma mv_hstack2 n A B x r : mv (2 * n) (hstack2 n A B) x r = mv n A x r + mv n B (fun q => x (n + q)%nat) r.
  Proof.
    unfold mv. replace (2 * n)%nat with (n + n)%nat by lia. rewrite sumN_app. f_equal; apply sumN_ext; intros i Hi; unfold hstack2.
    - destruct (Nat.ltb_spec i n); [reflexivity|lia].
    - destruct (Nat.ltb_spec (n + i) n); [lia|]. do 2 f_equal. lia.
  Qed.
  Lemma mv_vstack2 rn n A B x r :
    mv n (vstack2 rn A B) x r = if Nat.ltb r rn then mv n A x r else mv n B x (r - rn)%nat.
  Proof. unfold mv, vstack2. destruct (Nat.ltb r rn); reflexivity. Qed.
  Lemma vcat_l n (a b : vect K) p : (p < n)%nat -> vcat n a b p = a p.
  Proof. intro H. unfold vcat. destruct (Nat.ltb_spec p n); [reflexivity|lia]. Qed.
  Lemma vcat_r n (a b : vect K) p : vcat n a b (n + p)%nat = b p.
  Proof. unfold vcat. destruct (Nat.ltb_spec (n + p) n); [lia|]. f_equal. lia. Qed.
End Stk.

(** ** The eigenproblem and the curl equations, for abstract commuting
    derivative operators *)
Section Abs.
  Variable K : CFld.
  Add Field Kfield2 : (fth K).
  Variable P : list nat -> Prop.
  Notation A := (arr K).

  Definition lin (D : A -> A) : Prop :=
    (forall f g p, (forall q, P q -> f q = g q) -> P p -> D f p = D g p) /\
    (forall a b f g p, P p -> D (fun q => a * f q + b * g q) p = a * D f p + b * D g p).

  Variables Fx Fy Bx By : A -> A.
  Hypothesis LFx : lin Fx. Hypothesis LFy : lin Fy.
  Hypothesis LBx : lin Bx. Hypothesis LBy : lin By.
  Hypothesis CF : forall f p, P p -> Fx (Fy f) p = Fy (Fx f) p.
  Hypothesis CB : forall f p, P p -> Bx (By f) p = By (Bx f) p.

  Lemma lin_comb D f g h a b p : lin D -> P p -> (forall q, P q -> f q = a * g q + b * h q) ->
    D f p = a * D g p + b * D h p.
  Proof.
    intros [E L] Hp H. rewrite <- L by exact Hp. apply E; [exact H|exact Hp].
  Qed.
  Lemma lin_scale D f g a p : lin D -> P p -> (forall q, P q -> f q = a * g q) -> D f p = a * D g p.
  Proof.
    intros HD Hp H. rewrite (lin_comb D f g g a 0 p HD Hp); [ring|]. intros q Hq. rewrite H by exact Hq. ring.
  Qed.

  Variables om beta : K.
  Hypothesis Hom : om <> 0. Hypothesis Hbeta : beta <> 0.
  Variables ex ey ez hx hy hz epx epy epz mux muy muz : A.
  Hypothesis Nez : forall q, P q -> epz q <> 0.
  Hypothesis Nmx : forall q, P q -> mux q <> 0.
  Hypothesis Nmy : forall q, P q -> muy q <> 0.
  Hypothesis Nmz : forall q, P q -> muz q <> 0.

  Definition far := forall i, P i ->
      - im * om * (mux i * hx i) = Fy ez i + im * beta * ey i /\
      - im * om * (muy i * hy i) = - im * beta * ex i - Fx ez i /\
      - im * om * (muz i * hz i) = Fx ey i - Fy ex i.
  Definition amp := forall i, P i ->
      im * om * (epx i * ex i) = By hz i + im * beta * hy i /\
      im * om * (epy i * ey i) = - im * beta * hx i - Bx hz i /\
      im * om * (epz i * ez i) = Bx hy i - By hx i.
  Definition dive := forall i, P i ->
      Bx (fun j => epx j * ex j) i + By (fun j => epy j * ey j) i - im * beta * (epz i * ez i) = 0.
  Definition divh := forall i, P i ->
      Fx (fun j => mux j * hx j) i + Fy (fun j => muy j * hy j) i - im * beta * (muz i * hz i) = 0.

  (** [operator_e] acting on [(ex, ey)]. *)
  Definition curlz : A := fun q => 1 / muz q * (Fx ey q - Fy ex q).
  Definition divz : A := fun q => 1 / epz q * (Bx (fun j => epx j * ex j) q + By (fun j => epy j * ey j) q).
  Definition opx : A := fun i => om * om * muy i * (epx i * ex i) + muy i * - By curlz i + Fx divz i.
  Definition opy : A := fun i => om * om * mux i * (epy i * ey i) + mux i * Bx curlz i + Fy divz i.
  Definition eig := forall i, P i -> opx i = beta * beta * ex i /\ opy i = beta * beta * ey i.

  Lemma ib_nz : im * beta <> (0 : K).
  Proof. apply fmul_nz; [apply im_nz|exact Hbeta]. Qed.
  Lemma io_nz : im * om <> (0 : K).
  Proof. apply fmul_nz; [apply im_nz|exact Hom]. Qed.

  Lemma divz_ez : dive -> forall q, P q -> divz q = im * beta * ez q.
  Proof.
    intros D q Hq. specialize (D q Hq). unfold divz.
    assert (E : Bx (fun j => epx j * ex j) q + By (fun j => epy j * ey j) q = im * beta * (epz q * ez q)).
    { apply fsub_eq0. exact D. }
    rewrite E. field. now apply Nez.
  Qed.
  Lemma curlz_hz : far -> forall q, P q -> curlz q = - im * om * hz q.
  Proof.
    intros F q Hq. destruct (F q Hq) as (_ & _ & F3). unfold curlz. rewrite <- F3. field. now apply Nmz.
  Qed.

  Lemma far_divh : far -> divh.
  Proof.
    intros F i Hi. apply (fmul_cancel_l K (im * om)); [apply io_nz|].
    assert (E1 : Fx (fun j => mux j * hx j) i = - (1 / (im * om)) * Fx (Fy ez) i + - (beta / om) * Fx ey i).
    { apply lin_comb; [exact LFx|exact Hi|]. intros q Hq. destruct (F q Hq) as (F1 & _ & _).
      apply (fmul_cancel_l K (- im * om)); [apply fmul_nz; [apply fopp_nz, im_nz|exact Hom]|]. rewrite F1.
      field. splits; first [apply im_nz|exact Hom]. }
    assert (E2 : Fy (fun j => muy j * hy j) i = (1 / (im * om)) * Fy (Fx ez) i + beta / om * Fy ex i).
    { apply lin_comb; [exact LFy|exact Hi|]. intros q Hq. destruct (F q Hq) as (_ & F2 & _).
      apply (fmul_cancel_l K (- im * om)); [apply fmul_nz; [apply fopp_nz, im_nz|exact Hom]|]. rewrite F2.
      field. splits; first [apply im_nz|exact Hom]. }
    destruct (F i Hi) as (_ & _ & F3). rewrite E1, E2, CF by exact Hi.
    transitivity (- im * beta * (Fx ey i - Fy ex i) - im * beta * (im * om * (muz i * hz i))).
    - field. splits; first [apply im_nz|exact Hom].
    - rewrite <- F3. ring.
  Qed.

  (** Six curl equations give the divergence condition and the eigenproblem. *)
  Lemma amp_dive : amp -> dive.
  Proof.
    intros F i Hi. apply (fmul_cancel_l K (im * om)); [apply io_nz|].
    assert (E1 : Bx (fun j => epx j * ex j) i = (1 / (im * om)) * Bx (By hz) i + beta / om * Bx hy i).
    { apply lin_comb; [exact LBx|exact Hi|]. intros q Hq. destruct (F q Hq) as (F1 & _ & _).
      apply (fmul_cancel_l K (im * om)); [apply io_nz|]. rewrite F1.
      field. splits; first [apply im_nz|exact Hom]. }
    assert (E2 : By (fun j => epy j * ey j) i = - (1 / (im * om)) * By (Bx hz) i + - (beta / om) * By hx i).
    { apply lin_comb; [exact LBy|exact Hi|]. intros q Hq. destruct (F q Hq) as (_ & F2 & _).
      apply (fmul_cancel_l K (im * om)); [apply io_nz|]. rewrite F2.
      field. splits; first [apply im_nz|exact Hom]. }
    destruct (F i Hi) as (_ & _ & F3). rewrite E1, E2, CB by exact Hi.
    transitivity (im * beta * (Bx hy i - By hx i) - im * beta * (im * om * (epz i * ez i))).
    - field. splits; first [apply im_nz|exact Hom].
    - rewrite <- F3. ring.
  Qed.

  Lemma mode_eig : far -> amp -> eig.
  Proof.
    intros F G i Hi. pose proof (amp_dive G) as D.
    destruct (F i Hi) as (F1 & F2 & _). destruct (G i Hi) as (G1 & G2 & _).
    assert (C1 : By curlz i = - im * om * By hz i) by (apply lin_scale; [exact LBy|exact Hi|now apply curlz_hz]).
    assert (C2 : Bx curlz i = - im * om * Bx hz i) by (apply lin_scale; [exact LBx|exact Hi|now apply curlz_hz]).
    assert (C3 : Fx divz i = im * beta * Fx ez i) by (apply lin_scale; [exact LFx|exact Hi|now apply divz_ez]).
    assert (C4 : Fy divz i = im * beta * Fy ez i) by (apply lin_scale; [exact LFy|exact Hi|now apply divz_ez]).
    assert (S : (im * im : K) = - (1)) by apply im_sq.
    split; unfold opx, opy; rewrite ?C1, ?C2, ?C3, ?C4.
    - assert (E1 : By hz i = im * om * (epx i * ex i) - im * beta * hy i) by (rewrite G1; ring).
      assert (E2 : Fx ez i = - im * beta * ex i + im * om * (muy i * hy i)).
      { transitivity (- im * beta * ex i - (- im * beta * ex i - Fx ez i)); [ring|]. rewrite <- F2. ring. }
      rewrite E1, E2.
      transitivity (om * om * muy i * epx i * ex i * (1 + im * im) - im * im * (beta * beta * ex i)); [ring|]. rewrite S. ring.
    - assert (E1 : Bx hz i = - im * beta * hx i - im * om * (epy i * ey i)) by (rewrite G2; ring).
      assert (E2 : Fy ez i = - im * om * (mux i * hx i) - im * beta * ey i) by (rewrite F1; ring).
      rewrite E1, E2.
      transitivity (om * om * mux i * epy i * ey i * (1 + im * im) - im * im * (beta * beta * ey i)); [ring|]. rewrite S. ring.
  Qed.

  (** Conversely the eigenproblem with Faraday's law and the divergence
      condition gives Ampere's law. *)
  Lemma eig_amp : far -> dive -> eig -> amp.
  Proof.
    intros F D E.
    assert (S : (im * im : K) = - (1)) by apply im_sq.
    assert (T : forall i, P i ->
      im * om * (epx i * ex i) = By hz i + im * beta * hy i /\
      im * om * (epy i * ey i) = - im * beta * hx i - Bx hz i).
    { intros i Hi. destruct (F i Hi) as (F1 & F2 & _). destruct (E i Hi) as (E1 & E2).
      assert (C1 : By curlz i = - im * om * By hz i) by (apply lin_scale; [exact LBy|exact Hi|now apply curlz_hz]).
      assert (C2 : Bx curlz i = - im * om * Bx hz i) by (apply lin_scale; [exact LBx|exact Hi|now apply curlz_hz]).
      assert (C3 : Fx divz i = im * beta * Fx ez i) by (apply lin_scale; [exact LFx|exact Hi|now apply divz_ez]).
      assert (C4 : Fy divz i = im * beta * Fy ez i) by (apply lin_scale; [exact LFy|exact Hi|now apply divz_ez]).
      unfold opx in E1. unfold opy in E2. rewrite C1, C3 in E1. rewrite C2, C4 in E2. split.
      - apply (fmul_cancel_l K (im * om * muy i)); [apply fmul_nz; [apply io_nz|now apply Nmy]|].
        assert (X : Fx ez i = - im * beta * ex i + im * om * (muy i * hy i)).
        { transitivity (- im * beta * ex i - (- im * beta * ex i - Fx ez i)); [ring|]. rewrite <- F2. ring. }
        rewrite X in E1.
        assert (Y : om * om * muy i * (epx i * ex i) + muy i * - (- im * om * By hz i) + im * im * om * beta * muy i * hy i = 0).
        { transitivity (om * om * muy i * (epx i * ex i) + muy i * - (- im * om * By hz i) + im * beta * (- im * beta * ex i + im * om * (muy i * hy i)) + im * im * (beta * beta * ex i)); [ring|].
          rewrite E1, S. ring. }
        transitivity (im * im * (om * om * muy i * (epx i * ex i))); [ring|]. rewrite S.
        transitivity (- (om * om * muy i * (epx i * ex i) + muy i * - (- im * om * By hz i) + im * im * om * beta * muy i * hy i) + (muy i * im * om * By hz i + im * im * om * beta * muy i * hy i)); [ring|].
        rewrite Y. ring.
      - apply (fmul_cancel_l K (im * om * mux i)); [apply fmul_nz; [apply io_nz|now apply Nmx]|].
        assert (X : Fy ez i = - im * om * (mux i * hx i) - im * beta * ey i) by (rewrite F1; ring).
        rewrite X in E2.
        assert (Y : om * om * mux i * (epy i * ey i) + mux i * (- im * om * Bx hz i) - im * im * om * beta * mux i * hx i = 0).
        { transitivity (om * om * mux i * (epy i * ey i) + mux i * (- im * om * Bx hz i) + im * beta * (- im * om * (mux i * hx i) - im * beta * ey i) + im * im * (beta * beta * ey i)); [ring|].
          rewrite E2, S. ring. }
        transitivity (im * im * (om * om * mux i * (epy i * ey i))); [ring|]. rewrite S.
        transitivity (- (om * om * mux i * (epy i * ey i) + mux i * (- im * om * Bx hz i) - im * im * om * beta * mux i * hx i) + (mux i * (- im * om * Bx hz i) - im * im * om * beta * mux i * hx i)); [ring|].
        rewrite Y. ring. }
    intros i Hi. destruct (T i Hi) as (T1 & T2). split; [exact T1|]. split; [exact T2|].
    apply (fmul_cancel_l K (im * beta)); [apply ib_nz|].
    assert (E1 : Bx hy i = om / beta * Bx (fun j => epx j * ex j) i + - (1 / (im * beta)) * Bx (By hz) i).
    { apply lin_comb; [exact LBx|exact Hi|]. intros q Hq. destruct (T q Hq) as (T1' & _).
      assert (Z : hy q = (im * om * (epx q * ex q) - By hz q) / (im * beta)).
      { rewrite T1'. field. splits; first [apply im_nz|exact Hbeta]. }
      rewrite Z. field. splits; first [apply im_nz|exact Hbeta]. }
    assert (E2 : By hx i = - (om / beta) * By (fun j => epy j * ey j) i + - (1 / (im * beta)) * By (Bx hz) i).
    { apply lin_comb; [exact LBy|exact Hi|]. intros q Hq. destruct (T q Hq) as (_ & T2').
      assert (Z : hx q = - (im * om * (epy q * ey q) + Bx hz q) / (im * beta)).
      { rewrite T2'. field. splits; first [apply im_nz|exact Hbeta]. }
      rewrite Z. field. splits; first [apply im_nz|exact Hbeta]. }
    rewrite E1, E2, CB by exact Hi.
    assert (Dq : Bx (fun j => epx j * ex j) i + By (fun j => epy j * ey j) i = im * beta * (epz i * ez i)).
    { apply fsub_eq0. exact (D i Hi). }
    transitivity (im * om * (Bx (fun j => epx j * ex j) i + By (fun j => epy j * ey j) i)).
    - rewrite Dq. ring.
    - field. splits; first [apply im_nz|exact Hbeta].
  Qed.
End Abs.
