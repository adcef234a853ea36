(** Which arrays the CPML updates accept (C144). *)
From Coq Require Import Reals List Arith ZArith Lia Lra Bool.
From Verif.Lib Require Import Num Sums Idx RealF.
From Verif.Model Require Import Fdmath Fdtd Pml Dtype DtypePml.
From Verif.Spec Require Import Grid DtypeSpec.
From Verif.Proofs Require Import DtypeP DtypePmlP.
Import ListNotations.
Local Open Scope R_scope.

Ltac kcase := cbn; split; (let Y := fresh "Y" in intro Y;
  first [discriminate Y | reflexivity
        | solve [left; reflexivity] | solve [right; reflexivity] | solve [right; split; [reflexivity|]; auto 6]
        | repeat match goal with H : _ \/ _ |- _ => destruct H | H : _ /\ _ |- _ => destruct H end; solve [discriminate|auto] ]).

(** ** C144 *)

(** An update raises iff some layer is thicker than the grid, or there is a layer
    whose memory (the [dtype] argument) cannot hold the derivatives, or the field
    cannot hold the increment.  Otherwise nothing is lost. *)
Theorem C144_update_E :
  forall (sh : list nat) (Ls : nat -> nat -> option (layer CC)) (dt : R) (kp : kind) (w : kind * widths CC) (ps : psis CC) (e h eps : tfield),
    (forall a pp L i, Ls a pp = Some L -> cim (lp0e L i) = 0 /\ cim (lp1e L i) = 0 /\ cim (lp2e L i) = 0 /\ cim (lp0h L i) = 0 /\ cim (lp1h L i) = 0 /\ cim (lp2h L i) = 0) ->
    field_fits e -> field_fits h -> field_fits eps -> widths_fit (Some w) -> (forall x p t i, fits kp (ps x p t i)) ->
    let complex_d := tk h = KComplex \/ fst w = KComplex in
    (tupdate_E sh Ls dt kp w ps e h eps = Raise <->
       (exists a pp L, (a < 3)%nat /\ (pp < 2)%nat /\ Ls a pp = Some L /\ ((dim sh a < lth L)%nat \/ kp = KInt \/ kp = KReal /\ complex_d)) \/
       tk e = KInt \/ tk e = KReal /\ (complex_d \/ kp = KComplex \/ tk eps = KComplex)) /\
    (forall ps' out, tupdate_E sh Ls dt kp w ps e h eps = Ok (ps', out) ->
       tk out = tk e /\ ps' = fst (update_E (K := CC) sh Ls (mkC dt 0 : CC) (snd w) ps (tv e) (tv h) (tv eps)) /\
       forall c idx, tv out c idx = snd (update_E (K := CC) sh Ls (mkC dt 0 : CC) (snd w) ps (tv e) (tv h) (tv eps)) c idx).
Proof.
  intros sh Ls dt kp [kw w] ps e h eps RL Fe Fh Fp Fw Fps cd. cbn [fst snd] in *. unfold tupdate_E. cbn [fst snd].
  pose proof (accepts_iff sh Ls (kdiv (tk h) kw) kp (tk eps) (tk e)) as A.
  assert (B1 : (kle KReal kp = false \/ kle (kdiv (tk h) kw) kp = false) <-> (kp = KInt \/ kp = KReal /\ cd)).
  { unfold cd. destruct (tk h), kw, kp; kcase. }
  assert (B2 : kle (kmax (kdiv KReal (tk eps)) (kmax (kdiv (tk h) kw) kp)) (tk e) = false <->
     (tk e = KInt \/ tk e = KReal /\ (cd \/ kp = KComplex \/ tk eps = KComplex))).
  { unfold cd. destruct (tk h), kw, kp, (tk eps), (tk e); kcase. }
  split.
  - rewrite <- B2. setoid_rewrite <- B1. rewrite <- A.
    destruct (cpml_accepts sh Ls (kdiv (tk h) kw) kp (tk eps) (tk e)); (split; intro Y; first [discriminate Y|reflexivity]).
  - intros ps' out H. destruct (cpml_accepts sh Ls (kdiv (tk h) kw) kp (tk eps) (tk e)) eqn:C; [|discriminate].
    injection H as <- <-. split; [reflexivity|]. split; [reflexivity|]. intros c idx. cbn [tv]. apply cast_fits.
    assert (G : kle (kmax (kdiv KReal (tk eps)) (kmax (kdiv (tk h) kw) kp)) (tk e) <> false) by (intro X; pose proof (proj2 A (or_intror X)) as Y; congruence).
    rewrite B2 in G. destruct (tk e) eqn:Ke; [exfalso; apply G; now left| |exact I].
    assert (N : ~ (cd \/ kp = KComplex \/ tk eps = KComplex)) by (intro X; apply G; right; split; [reflexivity|exact X]). unfold cd in N.
    assert (Z : forall k x, k <> KComplex -> fits k x -> cim x = 0).
    { intros k x Nk F. destruct k; [destruct F as [z ->]; reflexivity|exact F|congruence]. }
    cbn [fits]. apply update_E_im.
    + intros a pp L E i. exact (RL a pp L i E).
    + intros a i. apply (Z kw); [tauto|]. exact (Fw a i).
    + intros x p t i. apply (Z kp); [tauto|apply Fps].
    + intros c' i. apply (Z (tk e)); [congruence|apply Fe].
    + intros c' i. apply (Z (tk h)); [tauto|apply Fh].
    + intros c' i. apply (Z (tk eps)); [tauto|apply Fp].
Qed.
Print Assumptions C144_update_E.

Theorem C144_update_H :
  forall (sh : list nat) (Ls : nat -> nat -> option (layer CC)) (dt : R) (kp : kind) (w : kind * widths CC) (ps : psis CC) (e h mu : tfield),
    (forall a pp L i, Ls a pp = Some L -> cim (lp0e L i) = 0 /\ cim (lp1e L i) = 0 /\ cim (lp2e L i) = 0 /\ cim (lp0h L i) = 0 /\ cim (lp1h L i) = 0 /\ cim (lp2h L i) = 0) ->
    field_fits e -> field_fits h -> field_fits mu -> widths_fit (Some w) -> (forall x p t i, fits kp (ps x p t i)) ->
    let complex_d := tk e = KComplex \/ fst w = KComplex in
    (tupdate_H sh Ls dt kp w ps e h mu = Raise <->
       (exists a pp L, (a < 3)%nat /\ (pp < 2)%nat /\ Ls a pp = Some L /\ ((dim sh a < lth L)%nat \/ kp = KInt \/ kp = KReal /\ complex_d)) \/
       tk h = KInt \/ tk h = KReal /\ (complex_d \/ kp = KComplex \/ tk mu = KComplex)) /\
    (forall ps' out, tupdate_H sh Ls dt kp w ps e h mu = Ok (ps', out) ->
       tk out = tk h /\ ps' = fst (update_H (K := CC) sh Ls (mkC dt 0 : CC) (snd w) ps (tv e) (tv h) (tv mu)) /\
       forall c idx, tv out c idx = snd (update_H (K := CC) sh Ls (mkC dt 0 : CC) (snd w) ps (tv e) (tv h) (tv mu)) c idx).
Proof.
  intros sh Ls dt kp [kw w] ps e h mu RL Fe Fh Fp Fw Fps cd. cbn [fst snd] in *. unfold tupdate_H. cbn [fst snd].
  pose proof (accepts_iff sh Ls (kdiv (tk e) kw) kp (tk mu) (tk h)) as A.
  assert (B1 : (kle KReal kp = false \/ kle (kdiv (tk e) kw) kp = false) <-> (kp = KInt \/ kp = KReal /\ cd)).
  { unfold cd. destruct (tk e), kw, kp; kcase. }
  assert (B2 : kle (kmax (kdiv KReal (tk mu)) (kmax (kdiv (tk e) kw) kp)) (tk h) = false <->
     (tk h = KInt \/ tk h = KReal /\ (cd \/ kp = KComplex \/ tk mu = KComplex))).
  { unfold cd. destruct (tk e), kw, kp, (tk mu), (tk h); kcase. }
  split.
  - rewrite <- B2. setoid_rewrite <- B1. rewrite <- A.
    destruct (cpml_accepts sh Ls (kdiv (tk e) kw) kp (tk mu) (tk h)); (split; intro Y; first [discriminate Y|reflexivity]).
  - intros ps' out H. destruct (cpml_accepts sh Ls (kdiv (tk e) kw) kp (tk mu) (tk h)) eqn:C; [|discriminate].
    injection H as <- <-. split; [reflexivity|]. split; [reflexivity|]. intros c idx. cbn [tv]. apply cast_fits.
    assert (G : kle (kmax (kdiv KReal (tk mu)) (kmax (kdiv (tk e) kw) kp)) (tk h) <> false) by (intro X; pose proof (proj2 A (or_intror X)) as Y; congruence).
    rewrite B2 in G. destruct (tk h) eqn:Kh; [exfalso; apply G; now left| |exact I].
    assert (N : ~ (cd \/ kp = KComplex \/ tk mu = KComplex)) by (intro X; apply G; right; split; [reflexivity|exact X]). unfold cd in N.
    assert (Z : forall k x, k <> KComplex -> fits k x -> cim x = 0).
    { intros k x Nk F. destruct k; [destruct F as [z ->]; reflexivity|exact F|congruence]. }
    cbn [fits]. apply update_H_im.
    + intros a pp L E i. exact (RL a pp L i E).
    + intros a i. apply (Z kw); [tauto|]. exact (Fw a i).
    + intros x p t i. apply (Z kp); [tauto|apply Fps].
    + intros c' i. apply (Z (tk e)); [tauto|apply Fe].
    + intros c' i. apply (Z (tk h)); [congruence|apply Fh].
    + intros c' i. apply (Z (tk mu)); [tauto|apply Fp].
Qed.
Print Assumptions C144_update_H.

(** With the default [dtype] complex fields can be updated until a layer is added. *)
Theorem C144_complex_fields_refuted :
  exists (sh : list nat) (Ls : nat -> nat -> option (layer CC)) (dt : R) (w : kind * widths CC) (e h eps : tfield) (r : psis CC * tfield),
    field_fits e /\ field_fits h /\ field_fits eps /\ widths_fit (Some w) /\ (forall a pp L, Ls a pp = Some L -> (lth L <= dim sh a)%nat) /\
    tupdate_E sh (fun _ _ => None) dt KReal w psi0 e h eps = Ok r /\
    tupdate_E sh Ls dt KReal w psi0 e h eps = Raise.
Proof.
  set (one := fun _ : nat => mkC 1 0 : CC).
  set (L := mkLayer (K := CC) 3 one one one one one one).
  exists [8; 8; 8]%nat, (fun a pp => if (Nat.eqb a 0 && Nat.eqb pp 0)%bool then Some L else None), 1, (KReal, fun _ _ => mkC 1 0 : CC),
    (mkT KComplex (fun _ _ => mkC 0 1)), (mkT KComplex (fun _ _ => mkC 0 1)), (mkT KReal (fun _ _ => mkC 1 0)).
  eexists. split; [intros c i; exact I|]. split; [intros c i; exact I|]. split; [intros c i; reflexivity|]. split; [intros a i; reflexivity|].
  split; [intros a pp L' E; destruct a as [|a]; [|discriminate]; destruct pp; [|discriminate]; injection E as <-; cbn; lia|].
  split; reflexivity.
Qed.
Print Assumptions C144_complex_fields_refuted.
