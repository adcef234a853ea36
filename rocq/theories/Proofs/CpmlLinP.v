(** Linearity and locality of the CPML updates. *)
From Coq Require Import List Arith ZArith Lia Bool.
From Verif.Lib Require Import Num Sums Idx.
From Verif.Model Require Import Fdmath Fdtd Pml.
From Verif.Spec Require Import FdtdRun.
From Verif.Proofs Require Import FdtdP2.
Import ListNotations.

Section P.
  Variable K : Fld.
  Add Field Kfield : (fth K).
  Local Open Scope fld_scope.


  (** [s] is the combination of [x] and [y] at one cell. *)
  Definition clin (a b : K) (idx : list nat) (s x y : cst K) : Prop :=
    cU s idx = a * cU x idx + b * cU y idx /\ cV s idx = a * cV x idx + b * cV y idx /\
    (forall p t, cPsi s p t idx = a * cPsi x p t idx + b * cPsi y p t idx) /\
    (forall c, cP s c idx = a * cP x c idx + b * cP y c idx).

  Lemma layer_lin sh ax pp u v se o p0 p1 p2 a b idx s x y :
    clin a b idx s x y ->
    clin a b idx (layer_pass sh ax pp u v se o p0 p1 p2 s) (layer_pass sh ax pp u v se o p0 p1 p2 x) (layer_pass sh ax pp u v se o p0 p1 p2 y).
  Proof.
    intros (HU & HV & HP & HC). destruct o as [L|]; [|repeat split; assumption].
    unfold layer_pass, clin, setf. cbn [cU cV cPsi cP].
    destruct (in_region sh ax pp L idx) eqn:R.
    - split; [rewrite HU; ring|]. split; [rewrite HV; ring|]. split.
      + intros q t. destruct (Nat.eqb q pp), (Nat.eqb t 0); rewrite ?R, ?HU, ?HV, ?HP; ring.
      + intro c. destruct (Nat.eqb c v), (Nat.eqb c u), (Nat.eqb v u); rewrite ?R, ?HU, ?HV, ?HP, ?HC; ring.
    - split; [exact HU|]. split; [exact HV|]. split.
      + intros q t. destruct (Nat.eqb q pp), (Nat.eqb t 0); rewrite ?R; apply HP.
      + intro c. destruct (Nat.eqb c v), (Nat.eqb c u), (Nat.eqb v u); rewrite ?R; apply HC.
  Qed.
  Lemma axis_lin sh ax u v se Ls p0 p1 p2 a b idx s x y :
    clin a b idx s x y ->
    clin a b idx (axis_pass sh ax u v se Ls p0 p1 p2 s) (axis_pass sh ax u v se Ls p0 p1 p2 x) (axis_pass sh ax u v se Ls p0 p1 p2 y).
  Proof. intro H. unfold axis_pass. apply layer_lin, layer_lin, H. Qed.


  (** At one cell: given combinations there and at the neighbours. *)
  Lemma E_lin sh Ls (dt : K) w a b (rs ps qs : psis K) (e0 e e' h0 h h' eps : field K) idx :
    (forall x p t, (x < 3)%nat -> rs x p t idx = a * ps x p t idx + b * qs x p t idx) ->
    (forall c, (c < 3)%nat -> e0 c idx = a * e c idx + b * e' c idx) ->
    (forall c, (c < 3)%nat -> h0 c idx = a * h c idx + b * h' c idx) ->
    (forall x c, (x < 3)%nat -> (c < 3)%nat -> h0 c (shift_ix sh x (-1) idx) = a * h c (shift_ix sh x (-1) idx) + b * h' c (shift_ix sh x (-1) idx)) ->
    (forall x p t, (x < 3)%nat -> fst (update_E sh Ls dt w rs e0 h0 eps) x p t idx
       = a * fst (update_E sh Ls dt w ps e h eps) x p t idx + b * fst (update_E sh Ls dt w qs e' h' eps) x p t idx) /\
    (forall c, (c < 3)%nat -> snd (update_E sh Ls dt w rs e0 h0 eps) c idx
       = a * snd (update_E sh Ls dt w ps e h eps) c idx + b * snd (update_E sh Ls dt w qs e' h' eps) c idx).
  Proof.
    intros HP HE HH HS. unfold update_E. cbn [fst snd]. cbv zeta.
    set (s0 := axis_pass sh 0 1 2 _ Ls _ _ _ (mkcst _ _ (rs 0%nat) _)) in *.
    set (x0 := axis_pass sh 0 1 2 _ Ls _ _ _ (mkcst _ _ (ps 0%nat) _)) in *.
    set (y0 := axis_pass sh 0 1 2 _ Ls _ _ _ (mkcst _ _ (qs 0%nat) _)) in *.
    assert (D : forall x c, (x < 3)%nat -> (c < 3)%nat ->
      deriv_back sh (Some w) x (h0 c) idx = a * deriv_back sh (Some w) x (h c) idx + b * deriv_back sh (Some w) x (h' c) idx).
    { intros x c Hx Hc. unfold deriv_back, roll. change (Z.opp 1) with (-1)%Z. rewrite (HS x c Hx Hc), (HH c Hc), !fdiv_def. ring. }
    assert (C0 : clin a b idx s0 x0 y0).
    { apply axis_lin. split; [apply D; lia|]. split; [apply D; lia|]. split; [intros; apply HP; lia|]. intro c. cbn [cP]. ring. }
    set (s1 := axis_pass sh 1 0 2 _ Ls _ _ _ (mkcst _ _ (rs 1%nat) (cP s0))) in *.
    set (x1 := axis_pass sh 1 0 2 _ Ls _ _ _ (mkcst _ _ (ps 1%nat) (cP x0))) in *.
    set (y1 := axis_pass sh 1 0 2 _ Ls _ _ _ (mkcst _ _ (qs 1%nat) (cP y0))) in *.
    assert (C1 : clin a b idx s1 x1 y1).
    { apply axis_lin. split; [apply D; lia|]. split; [apply D; lia|]. split; [intros; apply HP; lia|]. intro c. cbn [cP]. apply C0. }
    set (s2 := axis_pass sh 2 0 1 _ Ls _ _ _ (mkcst _ _ (rs 2%nat) (cP s1))) in *.
    set (x2 := axis_pass sh 2 0 1 _ Ls _ _ _ (mkcst _ _ (ps 2%nat) (cP x1))) in *.
    set (y2 := axis_pass sh 2 0 1 _ Ls _ _ _ (mkcst _ _ (qs 2%nat) (cP y1))) in *.
    assert (C2 : clin a b idx s2 x2 y2).
    { apply axis_lin. split; [apply D; lia|]. split; [apply D; lia|]. split; [intros; apply HP; lia|]. intro c. cbn [cP]. apply C1. }
    clearbody s0 x0 y0 s1 x1 y1 s2 x2 y2.
    destruct C0 as (U0 & V0 & P0 & _), C1 as (U1 & V1 & P1 & _), C2 as (U2 & V2 & P2 & Q2).
    split.
    - intros [|[|[|x]]] p t Hx; [apply P0|apply P1|apply P2|lia].
    - intros [|[|[|c]]] Hc; [| | |lia]; rewrite ?U0, ?V0, ?U1, ?V1, ?U2, ?V2, Q2, HE, ?fdiv_def by lia; ring.
  Qed.

  (** At one cell: given combinations there and at the neighbours. *)
  Lemma H_lin sh Ls (dt : K) w a b (rs ps qs : psis K) (e0 e e' h0 h h' mu : field K) idx :
    (forall x p t, (x < 3)%nat -> rs x p t idx = a * ps x p t idx + b * qs x p t idx) ->
    (forall c, (c < 3)%nat -> e0 c idx = a * e c idx + b * e' c idx) ->
    (forall c, (c < 3)%nat -> h0 c idx = a * h c idx + b * h' c idx) ->
    (forall x c, (x < 3)%nat -> (c < 3)%nat -> e0 c (shift_ix sh x 1 idx) = a * e c (shift_ix sh x 1 idx) + b * e' c (shift_ix sh x 1 idx)) ->
    (forall x p t, (x < 3)%nat -> fst (update_H sh Ls dt w rs e0 h0 mu) x p t idx
       = a * fst (update_H sh Ls dt w ps e h mu) x p t idx + b * fst (update_H sh Ls dt w qs e' h' mu) x p t idx) /\
    (forall c, (c < 3)%nat -> snd (update_H sh Ls dt w rs e0 h0 mu) c idx
       = a * snd (update_H sh Ls dt w ps e h mu) c idx + b * snd (update_H sh Ls dt w qs e' h' mu) c idx).
  Proof.
    intros HP HE HH HS. unfold update_H. cbn [fst snd]. cbv zeta.
    set (s0 := axis_pass sh 0 1 2 _ Ls _ _ _ (mkcst _ _ (rs 0%nat) _)) in *.
    set (x0 := axis_pass sh 0 1 2 _ Ls _ _ _ (mkcst _ _ (ps 0%nat) _)) in *.
    set (y0 := axis_pass sh 0 1 2 _ Ls _ _ _ (mkcst _ _ (qs 0%nat) _)) in *.
    assert (D : forall x c, (x < 3)%nat -> (c < 3)%nat ->
      deriv_forward sh (Some w) x (e0 c) idx = a * deriv_forward sh (Some w) x (e c) idx + b * deriv_forward sh (Some w) x (e' c) idx).
    { intros x c Hx Hc. unfold deriv_forward, roll. change (Z.opp (-1)) with 1%Z. rewrite (HS x c Hx Hc), (HE c Hc), !fdiv_def. ring. }
    assert (C0 : clin a b idx s0 x0 y0).
    { apply axis_lin. split; [apply D; lia|]. split; [apply D; lia|]. split; [intros; apply HP; lia|]. intro c. cbn [cP]. ring. }
    set (s1 := axis_pass sh 1 0 2 _ Ls _ _ _ (mkcst _ _ (rs 1%nat) (cP s0))) in *.
    set (x1 := axis_pass sh 1 0 2 _ Ls _ _ _ (mkcst _ _ (ps 1%nat) (cP x0))) in *.
    set (y1 := axis_pass sh 1 0 2 _ Ls _ _ _ (mkcst _ _ (qs 1%nat) (cP y0))) in *.
    assert (C1 : clin a b idx s1 x1 y1).
    { apply axis_lin. split; [apply D; lia|]. split; [apply D; lia|]. split; [intros; apply HP; lia|]. intro c. cbn [cP]. apply C0. }
    set (s2 := axis_pass sh 2 0 1 _ Ls _ _ _ (mkcst _ _ (rs 2%nat) (cP s1))) in *.
    set (x2 := axis_pass sh 2 0 1 _ Ls _ _ _ (mkcst _ _ (ps 2%nat) (cP x1))) in *.
    set (y2 := axis_pass sh 2 0 1 _ Ls _ _ _ (mkcst _ _ (qs 2%nat) (cP y1))) in *.
    assert (C2 : clin a b idx s2 x2 y2).
    { apply axis_lin. split; [apply D; lia|]. split; [apply D; lia|]. split; [intros; apply HP; lia|]. intro c. cbn [cP]. apply C1. }
    clearbody s0 x0 y0 s1 x1 y1 s2 x2 y2.
    destruct C0 as (U0 & V0 & P0 & _), C1 as (U1 & V1 & P1 & _), C2 as (U2 & V2 & P2 & Q2).
    split.
    - intros [|[|[|x]]] p t Hx; [apply P0|apply P1|apply P2|lia].
    - intros [|[|[|c]]] Hc; [| | |lia]; rewrite ?U0, ?V0, ?U1, ?V1, ?U2, ?V2, Q2, HH, ?fdiv_def by lia; ring.
  Qed.

  (** [s] is the combination of [x] and [y] on the box around [idx]. *)
  Definition lbox sh lo hi idx (a b : K) (F G H : field K) : Prop :=
    forall c i, (c < 3)%nat -> wbox sh lo hi idx i -> F c i = a * G c i + b * H c i.
  Definition lpsi sh lo hi idx (a b : K) (F G H : psis K) : Prop :=
    forall x p t i, (x < 3)%nat -> wbox sh lo hi idx i -> F x p t i = a * G x p t i + b * H x p t i.
  Definition lst sh lo hi idx a b (s x y : pstate K) : Prop :=
    lbox sh lo hi idx a b (pE_ s) (pE_ x) (pE_ y) /\ lbox sh lo hi idx a b (pH_ s) (pH_ x) (pH_ y) /\
    lpsi sh lo hi idx a b (psE s) (psE x) (psE y) /\ lpsi sh lo hi idx a b (psH s) (psH x) (psH y).

  Lemma step_box sh Ls dt w eps mu a b lo hi idx j jx jy s x y : length sh = 3%nat -> inb sh idx ->
    lst sh (lo - 1) (hi + 1) idx a b s x y -> lbox sh lo hi idx a b j jx jy ->
    lst sh lo hi idx a b (cpml_step sh Ls dt w eps mu j s) (cpml_step sh Ls dt w eps mu jx x) (cpml_step sh Ls dt w eps mu jy y).
  Proof.
    intros HL Hi (BE & BH & PE & PH) BJ.
    assert (A : forall i, wbox sh (lo - 1) hi idx i ->
      (forall x' p t, (x' < 3)%nat -> fst (update_H sh Ls dt w (psH s) (pE_ s) (pH_ s) mu) x' p t i
         = a * fst (update_H sh Ls dt w (psH x) (pE_ x) (pH_ x) mu) x' p t i + b * fst (update_H sh Ls dt w (psH y) (pE_ y) (pH_ y) mu) x' p t i) /\
      (forall c, (c < 3)%nat -> snd (update_H sh Ls dt w (psH s) (pE_ s) (pH_ s) mu) c i
         = a * snd (update_H sh Ls dt w (psH x) (pE_ x) (pH_ x) mu) c i + b * snd (update_H sh Ls dt w (psH y) (pE_ y) (pH_ y) mu) c i)).
    { intros i Hw. assert (W : wbox sh (lo - 1) (hi + 1) idx i) by (apply (wbox_mono sh (lo - 1) hi); [lia|lia|exact Hw]).
      apply H_lin.
      - intros. now apply PH.
      - intros. now apply BE.
      - intros. now apply BH.
      - intros q c Hq Hc. apply BE; [exact Hc|].
        pose proof (wbox_trans_shift sh (lo - 1) hi q 1 idx i Hi ltac:(lia) Hw) as V.
        now apply (wbox_mono sh _ _ (lo - 1) (hi + 1)) in V; [|lia|lia]. }
    assert (B : forall i, wbox sh lo hi idx i ->
      let us := snd (update_H sh Ls dt w (psH s) (pE_ s) (pH_ s) mu) in
      let ux := snd (update_H sh Ls dt w (psH x) (pE_ x) (pH_ x) mu) in
      let uy := snd (update_H sh Ls dt w (psH y) (pE_ y) (pH_ y) mu) in
      (forall x' p t, (x' < 3)%nat -> fst (update_E sh Ls dt w (psE s) (pE_ s) us eps) x' p t i
         = a * fst (update_E sh Ls dt w (psE x) (pE_ x) ux eps) x' p t i + b * fst (update_E sh Ls dt w (psE y) (pE_ y) uy eps) x' p t i) /\
      (forall c, (c < 3)%nat -> snd (update_E sh Ls dt w (psE s) (pE_ s) us eps) c i
         = a * snd (update_E sh Ls dt w (psE x) (pE_ x) ux eps) c i + b * snd (update_E sh Ls dt w (psE y) (pE_ y) uy eps) c i)).
    { intros i Hw us ux uy. assert (W : wbox sh (lo - 1) (hi + 1) idx i) by (apply (wbox_mono sh lo hi); [lia|lia|exact Hw]).
      assert (W1 : wbox sh (lo - 1) hi idx i) by (apply (wbox_mono sh lo hi); [lia|lia|exact Hw]).
      apply E_lin.
      - intros. now apply PE.
      - intros. now apply BE.
      - intros. now apply (A i W1).
      - intros q c Hq Hc. apply A; [|exact Hc].
        pose proof (wbox_trans_shift sh lo hi q (-1) idx i Hi ltac:(lia) Hw) as V.
        now apply (wbox_mono sh _ _ (lo - 1) hi) in V; [|lia|lia]. }
    assert (M : forall i, wbox sh lo hi idx i -> wbox sh (lo - 1) hi idx i) by (intros i Hw; apply (wbox_mono sh lo hi); [lia|lia|exact Hw]).
    unfold cpml_step. split; [|split; [|split]]; cbn [pE_ pH_ psE psH].
    - intros c i Hc Hw. rewrite (proj2 (B i Hw) c Hc), (BJ c i Hc Hw), !fdiv_def. ring.
    - intros c i Hc Hw. apply (A i (M i Hw)). exact Hc.
    - intros q p t i Hq Hw. apply (B i Hw). exact Hq.
    - intros q p t i Hq Hw. apply (A i (M i Hw)). exact Hq.
  Qed.

  Lemma lbox_mono sh lo hi lo' hi' idx a b F G H : (lo' <= lo)%Z -> (hi <= hi')%Z ->
    lbox sh lo' hi' idx a b F G H -> lbox sh lo hi idx a b F G H.
  Proof. intros A B X c i Hc Hw. apply X; [exact Hc|]. now apply (wbox_mono sh lo hi). Qed.
  Lemma lst_mono sh lo hi lo' hi' idx a b s x y : (lo' <= lo)%Z -> (hi <= hi')%Z ->
    lst sh lo' hi' idx a b s x y -> lst sh lo hi idx a b s x y.
  Proof.
    intros A B (E & H & P & Q). split; [|split; [|split]].
    - now apply (lbox_mono sh lo hi lo' hi').
    - now apply (lbox_mono sh lo hi lo' hi').
    - intros q p t i Hq Hw. apply P; [exact Hq|]. now apply (wbox_mono sh lo hi).
    - intros q p t i Hq Hw. apply Q; [exact Hq|]. now apply (wbox_mono sh lo hi).
  Qed.

  Lemma run_box sh Ls dt w eps mu a b idx : length sh = 3%nat -> inb sh idx ->
    forall (js jx jy : list (field K)) (r : Z) s x y, (0 <= r)%Z -> length jx = length js -> length jy = length js ->
    let n := Z.of_nat (length js) in
    lst sh (- r - n) (r + n) idx a b s x y ->
    (forall k F G H, nth_error js k = Some F -> nth_error jx k = Some G -> nth_error jy k = Some H -> lbox sh (- r - n) (r + n) idx a b F G H) ->
    lst sh (- r) r idx a b (cpml_run sh Ls dt w eps mu js s) (cpml_run sh Ls dt w eps mu jx x) (cpml_run sh Ls dt w eps mu jy y).
  Proof.
    intros HL Hi. induction js as [|j js IH]; intros [|j1 jx] [|j2 jy] r s x y Hr L1 L2 n HS HJ; try discriminate.
    - cbn in *. unfold n in *. replace (- r - 0)%Z with (- r)%Z in * by lia. replace (r + 0)%Z with r in * by lia. exact HS.
    - unfold cpml_run. cbn [fold_left].
      fold (cpml_run sh Ls dt w eps mu js (cpml_step sh Ls dt w eps mu j s)).
      fold (cpml_run sh Ls dt w eps mu jx (cpml_step sh Ls dt w eps mu j1 x)).
      fold (cpml_run sh Ls dt w eps mu jy (cpml_step sh Ls dt w eps mu j2 y)).
      assert (En : n = (Z.of_nat (length js) + 1)%Z) by (unfold n; cbn [length]; lia).
      set (m := Z.of_nat (length js)) in *.
      apply IH; try assumption; [now injection L1|now injection L2| |].
      + apply step_box; try assumption.
        * fold m. apply (lst_mono sh _ _ (- r - n) (r + n)); [lia|lia|exact HS].
        * fold m. apply (lbox_mono sh _ _ (- r - n) (r + n)); [lia|lia|]. now apply (HJ 0%nat).
      + intros k F G H E1 E2 E3. fold m. apply (lbox_mono sh _ _ (- r - n) (r + n)); [lia|lia|]. now apply (HJ (S k)).
  Qed.
End P.
