(** Modes with only E_y on a 2 x 1 grid, used for the sensitivity examples. *)
From Coq Require Import List Arith ZArith Lia Bool Field.
From Verif.Lib Require Import Num Sums Idx Mat.
From Verif.Model Require Import Fdmath Fdfd Waveguide2d.
From Verif.Spec Require Import Yee WaveguideSpec.
From Verif.Proofs Require Import FdmathP FdfdP FdfdP2 WaveguideP WaveguideP2 WaveguideP3 WaveguideP4 SensP.
From Verif.Proofs Require Import GridP.
Import ListNotations.
Local Open Scope fld_scope.

Ltac evn := cbn; repeat (progress (change (Pos.to_nat 1) with 1%nat; cbn)).

Section S21.
  Variable K : CFld.
  Add Field Kfield : (fth K).
  Variables (we wh : widths K).
  Hypothesis Wy : we 1%nat 0%nat = 1 /\ wh 1%nat 0%nat = 1.
  Hypothesis Wx : we 0%nat 0%nat <> 0 /\ we 0%nat 1%nat <> 0 /\ wh 0%nat 0%nat <> 0 /\ wh 0%nat 1%nat <> 0.
  Variables (om p q : K) (eps : vect K).
  Hypothesis Hz : eps 4%nat <> 0 /\ eps 5%nat <> 0.
  Notation sh := [2; 1]%nat.
  Definition vec4 (a b c d : K) : vect K := fun k => nth k [a; b; c; d] 0.
  Definition vec6 (a b c d e f : K) : vect K := fun k => nth k [a; b; c; d; e; f] 0.
  Let dd : K := (q - p) / we 0%nat 0%nat - (p - q) / we 0%nat 1%nat.

  Lemma inb21 i : inb sh i -> i = [0; 0]%nat \/ i = [1; 0]%nat.
  Proof.
    intro H. pose proof (inb_length _ _ H) as L. destruct i as [|a [|b [|c i]]]; try discriminate.
    pose proof (inb_coord _ _ 0 H ltac:(cbn; lia)) as A. pose proof (inb_coord _ _ 1 H ltac:(cbn; lia)) as B. cbn in A, B.
    assert (b = 0%nat) by lia. subst. destruct a as [|[|a]]; [now left|now right|lia].
  Qed.

  Lemma op21 x : x 0%nat = 0 -> x 1%nat = 0 -> x 2%nat = p -> x 3%nat = q ->
    veq 4 (mv 4 (operator_e sh om (we, wh) eps None) x)
      (vec4 0 0 (om * om * eps 2%nat * p + dd / wh 0%nat 0%nat) (om * om * eps 3%nat * q - dd / wh 0%nat 1%nat)).
  Proof.
    intros X0 X1 X2 X3. destruct Wy as [Y1 Y2], Wx as (A & B & C & D), Hz as [Z1 Z2].
    apply (proj1 (veq_unvec K sh 2 _ _)). intros c i Hc Hi.
    destruct (operator_e_xy K sh eq_refl we wh om eps None x i Hi) as [E0 E1].
    unfold opx, opy, curlz, divz, deriv_forward, deriv_back, roll, unvec in E0, E1. cbn [or_ones] in E0, E1.
    destruct (inb21 i Hi) as [-> | ->]; destruct c as [|[|c]]; try lia; unfold unvec.
    - refine (eq_trans E0 _). evn. rewrite ?Y1, ?Y2, ?X0, ?X1, ?X2, ?X3. unfold dd. field. splits; assumption || apply f1nz.
    - refine (eq_trans E1 _). evn. rewrite ?Y1, ?Y2, ?X0, ?X1, ?X2, ?X3. unfold dd. field. splits; assumption || apply f1nz.
    - refine (eq_trans E0 _). evn. rewrite ?Y1, ?Y2, ?X0, ?X1, ?X2, ?X3. unfold dd. field. splits; assumption || apply f1nz.
    - refine (eq_trans E1 _). evn. rewrite ?Y1, ?Y2, ?X0, ?X1, ?X2, ?X3. unfold dd. field. splits; assumption || apply f1nz.
  Qed.

  (** The mode fields. *)
  Variable beta : K.
  Hypothesis Hom : om <> 0.
  Hypothesis E0 : om * om * eps 2%nat * p + dd / wh 0%nat 0%nat = beta * beta * p.
  Hypothesis E1 : om * om * eps 3%nat * q - dd / wh 0%nat 1%nat = beta * beta * q.
  Definition e21 : vect K := vec6 0 0 p q 0 0.
  Definition h21 : vect K := vec6 (- (beta / om) * p) (- (beta / om) * q) 0 0
    (im / om * ((q - p) / we 0%nat 0%nat)) (im / om * ((p - q) / we 0%nat 1%nat)).
  Lemma i_nz : (im : K) <> 0.
  Proof. apply im_nz. Qed.
  Lemma sq2 (x : K) : im * (im * x) = - x.
  Proof. transitivity (im * im * x); [ring|]. rewrite im_sq. ring. Qed.
  Lemma mode21 : is_mode sh we wh om beta (unvec sh eps) (fun _ _ => 1) (unvec sh e21) (unvec sh h21).
  Proof.
    destruct Wy as [Y1 Y2], Wx as (A & B & C & D).
    assert (P0 : om * eps 2%nat * p = (beta * beta * p - dd / wh 0%nat 0%nat) / om).
    { rewrite <- E0. field. splits; assumption. }
    assert (P1 : om * eps 3%nat * q = (beta * beta * q + dd / wh 0%nat 1%nat) / om).
    { rewrite <- E1. field. splits; assumption. }
    split.
    - intros i Hi. destruct (inb21 i Hi) as [-> | ->]; unfold deriv_forward, roll, unvec, e21, h21; evn; rewrite ?Y1;
      (split; [|split]).
      + field. splits; assumption || apply f1nz.
      + field. splits; assumption || apply f1nz.
      + transitivity (- (im * (im * ((q - p) / we 0%nat 0%nat)))); [field; splits; assumption|]. rewrite sq2. field. splits; assumption || apply f1nz.
      + field. splits; assumption || apply f1nz.
      + field. splits; assumption || apply f1nz.
      + transitivity (- (im * (im * ((p - q) / we 0%nat 1%nat)))); [field; splits; assumption|]. rewrite sq2. field. splits; assumption || apply f1nz.
    - intros i Hi. destruct (inb21 i Hi) as [-> | ->]; unfold deriv_back, roll, unvec, e21, h21; evn; rewrite ?Y2;
      (split; [|split]).
      + field. splits; assumption || apply f1nz.
      + transitivity (im * (om * eps 2%nat * p)); [ring|]. rewrite P0. unfold dd. field. splits; assumption.
      + field. splits; assumption || apply f1nz.
      + field. splits; assumption || apply f1nz.
      + transitivity (im * (om * eps 3%nat * q)); [ring|]. rewrite P1. unfold dd. field. splits; assumption.
      + field. splits; assumption || apply f1nz.
  Qed.

  Lemma sens21 d :
    let c0 := conj (- (- (beta / om) * p)) in let c1 := conj (- (- (beta / om) * q)) in
    let n := c0 * (p * we 0%nat 0%nat) + c1 * (q * we 0%nat 1%nat) in
    beta <> 0 -> n <> 0 ->
    dot 6 (sensitivity sh e21 h21 beta om (we, wh) eps None) (vec6 0 0 d 0 0 0)
    = c0 * (om * om * (d * (p * we 0%nat 0%nat))) / (2 * beta * n).
  Proof.
    intros c0 c1 n Hb Hn. destruct Wy as [Y1 Y2], Wx as (A & B & C & D), Hz as [Z1 Z2].
    assert (NR : sens_nrm K sh we wh e21 h21 = n).
    { unfold sens_nrm, unvec, e21, h21. evn. rewrite ?Y1, ?Y2. fold c0 c1. unfold n. ring. }
    assert (NM : sens_num K sh we wh e21 h21 om eps None (vec6 0 0 d 0 0 0) = c0 * (om * om * (d * (p * we 0%nat 0%nat)))).
    { unfold sens_num, dopx, dopy, dqz, deriv_forward, deriv_back, roll, unvec, e21, h21. evn. rewrite ?Y1, ?Y2. fold c0 c1.
      field. splits; assumption || apply f1nz. }
    rewrite <- NM, <- NR. apply (sens_dot K sh eq_refl).
    - intros i Hi. destruct (inb21 i Hi) as [-> | ->]; unfold unvec; evn; assumption.
    - rewrite NR. apply fmul_nz; [apply fmul_nz; [apply f2nz|exact Hb]|exact Hn].
  Qed.
End S21.
