(** Real arrays stay real in the CPML updates. *)
From Coq Require Import Reals List Arith ZArith Lia Bool.
From Verif.Lib Require Import Num Sums Idx RealF.
From Verif.Model Require Import Fdmath Fdtd Pml Dtype DtypePml.
From Verif.Spec Require Import DtypeSpec.
From Verif.Proofs Require Import DtypeP.
Import ListNotations.
Local Open Scope R_scope.

Lemma any_layer_iff Ls f : any_layer Ls f = true <-> exists a pp L, (a < 3)%nat /\ (pp < 2)%nat /\ Ls a pp = Some L /\ f a L = true.
Proof.
  unfold any_layer. rewrite existsb_exists. split.
  - intros ((a, pp) & I & H). cbn [fst snd] in H. destruct (Ls a pp) as [L|] eqn:E; [|discriminate].
    exists a, pp, L. cbn in I. repeat destruct I as [I | I]; try (injection I as <- <-; repeat split; [lia|lia|exact E|exact H]). destruct I.
  - intros (a & pp & L & A & P & E & H). exists (a, pp). cbn [fst snd]. rewrite E. split; [|exact H].
    destruct a as [|[|[|a]]], pp as [|[|pp]]; try lia; cbn; tauto.
Qed.

Lemma im_mul a b : cim a = 0 -> cim b = 0 -> cim (fmul (f := CC) a b) = 0.
Proof. intros A B. cbn. rewrite A, B. ring. Qed.
Lemma im_sub a b : cim a = 0 -> cim b = 0 -> cim (fsub (f := CC) a b) = 0.
Proof. intros A B. cbn. rewrite A, B. ring. Qed.
Lemma im_add a b : cim a = 0 -> cim b = 0 -> cim (fadd (f := CC) a b) = 0.
Proof. intros A B. cbn. rewrite A, B. ring. Qed.
Lemma im_opp a : cim a = 0 -> cim (fopp (f := CC) a) = 0.
Proof. intros A. cbn. rewrite A. ring. Qed.
Lemma im_div a b : cim a = 0 -> cim b = 0 -> cim (fdiv (f := CC) a b) = 0.
Proof. intros A B. cbn. rewrite A, B. unfold Rdiv. ring. Qed.

Definition cri (idx : list nat) (s : cst CC) : Prop :=
  cim (cU s idx) = 0 /\ cim (cV s idx) = 0 /\ (forall p t, cim (cPsi s p t idx) = 0) /\ (forall c, cim (cP s c idx) = 0).
Definition cr3 (p : layer CC -> nat -> CC) (o : option (layer CC)) : Prop := match o with Some L => forall i, cim (p L i) = 0 | None => True end.

Ltac imr := repeat first [assumption|reflexivity|apply im_div|apply im_sub|apply im_mul|apply im_add|apply im_opp|apply im_div].

Lemma layer_im sh ax pp u v se o p0 p1 p2 idx s : cim se = 0 -> cr3 p0 o -> cr3 p1 o -> cr3 p2 o ->
  cri idx s -> cri idx (layer_pass (K := CC) sh ax pp u v se o p0 p1 p2 s).
Proof.
  intros S R0 R1 R2 (HU & HV & HP & HC). destruct o as [L|]; [|repeat split; assumption]. cbn [cr3] in R0, R1, R2.
  unfold layer_pass, cri, setf. cbn [cU cV cPsi cP]. destruct (in_region sh ax pp L idx) eqn:R.
  - split; [imr; apply R2|]. split; [imr; apply R2|]. split.
    + intros q t. destruct (Nat.eqb q pp), (Nat.eqb t 0); rewrite ?R; imr; first [apply HP|apply R0|apply R1|apply R2].
    + intro c. destruct (Nat.eqb c v), (Nat.eqb c u), (Nat.eqb v u); rewrite ?R; imr; first [apply HP|apply HC|apply R0|apply R1|apply R2].
  - split; [exact HU|]. split; [exact HV|]. split.
    + intros q t. destruct (Nat.eqb q pp), (Nat.eqb t 0); rewrite ?R; apply HP.
    + intro c. destruct (Nat.eqb c v), (Nat.eqb c u), (Nat.eqb v u); rewrite ?R; apply HC.
Qed.
Lemma axis_im sh ax u v se Ls p0 p1 p2 idx s : cim se = 0 -> (forall pp, (pp < 2)%nat -> cr3 p0 (Ls ax pp) /\ cr3 p1 (Ls ax pp) /\ cr3 p2 (Ls ax pp)) ->
  cri idx s -> cri idx (axis_pass (K := CC) sh ax u v se Ls p0 p1 p2 s).
Proof.
  intros S R H. unfold axis_pass. destruct (R 0%nat ltac:(lia)) as (A & B & C), (R 1%nat ltac:(lia)) as (D & E & F).
  apply layer_im; try assumption. apply layer_im; assumption.
Qed.

(** The coefficient arrays of [cpml_params] are real. *)
Definition layer_im0 (L : layer CC) : Prop :=
  forall i, cim (lp0e L i) = 0 /\ cim (lp1e L i) = 0 /\ cim (lp2e L i) = 0 /\ cim (lp0h L i) = 0 /\ cim (lp1h L i) = 0 /\ cim (lp2h L i) = 0.

Section U.
  Variables (sh : list nat) (Ls : nat -> nat -> option (layer CC)) (dt : R) (w : widths CC) (ps : psis CC) (e h m : field CC).
  Hypothesis HL : forall a pp L, Ls a pp = Some L -> layer_im0 L.
  Hypothesis Hw : forall a i, cim (w a i) = 0.
  Hypothesis Hp : forall x p t i, cim (ps x p t i) = 0.
  Hypothesis He : forall c i, cim (e c i) = 0.
  Hypothesis Hh : forall c i, cim (h c i) = 0.
  Hypothesis Hm : forall c i, cim (m c i) = 0.

  Lemma RE a pp : (pp < 2)%nat -> cr3 lp0e (Ls a pp) /\ cr3 lp1e (Ls a pp) /\ cr3 lp2e (Ls a pp).
  Proof. intros _. destruct (Ls a pp) as [L|] eqn:E; [|repeat split]. repeat split; intro i; apply (HL a pp L E). Qed.
  Lemma RH a pp : (pp < 2)%nat -> cr3 lp0h (Ls a pp) /\ cr3 lp1h (Ls a pp) /\ cr3 lp2h (Ls a pp).
  Proof. intros _. destruct (Ls a pp) as [L|] eqn:E; [|repeat split]. repeat split; intro i; apply (HL a pp L E). Qed.
  Lemma db_im a f idx : (forall i, cim (f i) = 0) -> cim (deriv_back (K := CC) sh (Some w) a f idx) = 0.
  Proof. intro F. unfold deriv_back, roll. apply im_div; [apply im_sub; apply F|apply Hw]. Qed.
  Lemma df_im a f idx : (forall i, cim (f i) = 0) -> cim (deriv_forward (K := CC) sh (Some w) a f idx) = 0.
  Proof. intro F. unfold deriv_forward, roll. apply im_div; [apply im_sub; apply F|apply Hw]. Qed.

  Lemma update_E_im c idx : cim (snd (update_E (K := CC) sh Ls (mkC dt 0 : CC) w ps e h m) c idx) = 0.
  Proof.
    unfold update_E. cbn [snd]. cbv zeta.
    set (s0 := axis_pass sh 0 1 2 _ Ls _ _ _ (mkcst _ _ (ps 0%nat) _)) in *.
    assert (C0 : cri idx s0).
    { apply axis_im; [cbn; ring|intros; now apply RE|]. split; [apply db_im, Hh|]. split; [apply db_im, Hh|]. split; [intros; apply Hp|reflexivity]. }
    set (s1 := axis_pass sh 1 0 2 _ Ls _ _ _ (mkcst _ _ (ps 1%nat) (cP s0))) in *.
    assert (C1 : cri idx s1).
    { apply axis_im; [reflexivity|intros; now apply RE|]. split; [apply db_im, Hh|]. split; [apply db_im, Hh|]. split; [intros; apply Hp|apply C0]. }
    set (s2 := axis_pass sh 2 0 1 _ Ls _ _ _ (mkcst _ _ (ps 2%nat) (cP s1))) in *.
    assert (C2 : cri idx s2).
    { apply axis_im; [cbn; ring|intros; now apply RE|]. split; [apply db_im, Hh|]. split; [apply db_im, Hh|]. split; [intros; apply Hp|apply C1]. }
    clearbody s0 s1 s2. destruct C0 as (U0 & V0 & _), C1 as (U1 & V1 & _), C2 as (U2 & V2 & _ & Q2).
    destruct c as [|[|[|c]]]; [| | |apply He]; imr; first [apply He|apply Hm|apply Q2].
  Qed.
  Lemma update_H_im c idx : cim (snd (update_H (K := CC) sh Ls (mkC dt 0 : CC) w ps e h m) c idx) = 0.
  Proof.
    unfold update_H. cbn [snd]. cbv zeta.
    set (s0 := axis_pass sh 0 1 2 _ Ls _ _ _ (mkcst _ _ (ps 0%nat) _)) in *.
    assert (C0 : cri idx s0).
    { apply axis_im; [cbn; ring|intros; now apply RH|]. split; [apply df_im, He|]. split; [apply df_im, He|]. split; [intros; apply Hp|reflexivity]. }
    set (s1 := axis_pass sh 1 0 2 _ Ls _ _ _ (mkcst _ _ (ps 1%nat) (cP s0))) in *.
    assert (C1 : cri idx s1).
    { apply axis_im; [reflexivity|intros; now apply RH|]. split; [apply df_im, He|]. split; [apply df_im, He|]. split; [intros; apply Hp|apply C0]. }
    set (s2 := axis_pass sh 2 0 1 _ Ls _ _ _ (mkcst _ _ (ps 2%nat) (cP s1))) in *.
    assert (C2 : cri idx s2).
    { apply axis_im; [cbn; ring|intros; now apply RH|]. split; [apply df_im, He|]. split; [apply df_im, He|]. split; [intros; apply Hp|apply C1]. }
    clearbody s0 s1 s2. destruct C0 as (U0 & V0 & _), C1 as (U1 & V1 & _), C2 as (U2 & V2 & _ & Q2).
    destruct c as [|[|[|c]]]; [| | |apply Hh]; imr; first [apply Hh|apply Hm|apply Q2].
  Qed.
End U.

Lemma accepts_iff sh Ls kd kp km k :
  cpml_accepts sh Ls kd kp km k = false <->
  (exists a pp L, (a < 3)%nat /\ (pp < 2)%nat /\ Ls a pp = Some L /\
     ((dim sh a < lth L)%nat \/ kle KReal kp = false \/ kle kd kp = false)) \/
  kle (kmax (kdiv KReal km) (kmax kd kp)) k = false.
Proof.
  unfold cpml_accepts. rewrite !andb_false_iff, !negb_false_iff, !any_layer_iff. split.
  - intros [[(a & pp & L & A & P & E & H) | (a & pp & L & A & P & E & H)] | H].
    + left. exists a, pp, L. repeat split; try assumption. left. now apply Nat.ltb_lt.
    + left. exists a, pp, L. repeat split; try assumption. right. apply negb_true_iff, andb_false_iff in H. exact H.
    + right. exact H.
  - intros [(a & pp & L & A & P & E & [H | H]) | H].
    + left. left. exists a, pp, L. repeat split; try assumption. now apply Nat.ltb_lt.
    + left. right. exists a, pp, L. repeat split; try assumption. apply negb_true_iff, andb_false_iff. exact H.
    + right. exact H.
Qed.
