(** Derivatives and curls on the dual grid. *)
From Coq Require Import List Arith ZArith Lia Field.
From Verif.Lib Require Import Num Sums Idx Mat.
From Verif.Model Require Import Fdmath.
From Verif.Spec Require Import Grid Yee DualSpec.
From Verif.Proofs Require Import FdmathP.
Import ListNotations.
Local Open Scope nat_scope.

Lemma minus_lt n i : i < n -> minus n i < n.
Proof. intro H. apply Nat.mod_upper_bound. lia. Qed.
Lemma minus_val n i : i < n -> minus n i = if Nat.eqb i 0 then 0 else n - i.
Proof.
  intro H. unfold minus. destruct (Nat.eqb_spec i 0) as [->|N]; [rewrite Nat.sub_0_r; apply Nat.mod_same; lia|apply Nat.mod_small; lia].
Qed.
Lemma minus_minus n i : i < n -> minus n (minus n i) = i.
Proof. intro H. rewrite (minus_val n (minus n i)) by now apply minus_lt. rewrite (minus_val n i H). destruct (Nat.eqb_spec i 0) as [->|N]; [reflexivity|]. destruct (Nat.eqb_spec (n - i) 0); lia. Qed.
Lemma minus_succ n i : i < n -> minus n (cyc n 1 i) = cyc n (-1) (minus n i).
Proof.
  intro H. rewrite (minus_val n (cyc n 1 i)) by (apply cyc_lt; lia). rewrite (cyc_pred n (minus n i)) by now apply minus_lt. rewrite (cyc_succ n i H), (minus_val n i H).
  destruct (Nat.eqb_spec (S i) n) as [A|A]; destruct (Nat.eqb_spec i 0) as [B|B]; cbn [Nat.eqb]; try lia.
  - destruct (Nat.eqb_spec (n - i) 0); lia.
  - destruct (Nat.eqb_spec (n - i) 0); lia.
Qed.
Lemma minus_pred n i : i < n -> minus n (cyc n (-1) i) = cyc n 1 (minus n i).
Proof.
  intro H. pose proof (cyc_lt n (-1) i ltac:(lia)) as L. 
  rewrite <- (minus_minus n (cyc n 1 (minus n i))) by (apply cyc_lt; lia). rewrite minus_succ by now apply minus_lt. now rewrite minus_minus.
Qed.

Lemma opp_coord sh : forall idx a, inb sh idx -> a < length sh -> coord (opposite sh idx) a = minus (dim sh a) (coord idx a).
Proof.
  induction sh as [|n ns IH]; intros idx a Hi Ha; cbn in Ha; [lia|]. inversion Hi as [|i ? t ? A B]; subst. destruct a as [|a]; [reflexivity|].
  cbn. apply (IH t a B). lia.
Qed.
Lemma opp_inb sh : forall idx, inb sh idx -> inb sh (opposite sh idx).
Proof. induction sh as [|n ns IH]; intros idx Hi; inversion Hi as [|i ? t ? A B]; subst; cbn; constructor; [now apply minus_lt|now apply IH]. Qed.
Lemma opp_opp sh : forall idx, inb sh idx -> opposite sh (opposite sh idx) = idx.
Proof. induction sh as [|n ns IH]; intros idx Hi; inversion Hi as [|i ? t ? A B]; subst; cbn; [reflexivity|]. now rewrite minus_minus, IH. Qed.
Lemma opp_upd sh : forall idx a v, inb sh idx -> a < length sh -> opposite sh (upd a v idx) = upd a (minus (dim sh a) v) (opposite sh idx).
Proof.
  induction sh as [|n ns IH]; intros idx a v Hi Ha; cbn in Ha; [lia|]. inversion Hi as [|i ? t ? A B]; subst. destruct a as [|a]; [reflexivity|].
  cbn. now rewrite IH by (try assumption; lia).
Qed.
Lemma opp_next sh idx a : inb sh idx -> a < length sh -> opposite sh (shift_ix sh a 1 idx) = shift_ix sh a (-1) (opposite sh idx).
Proof. intros Hi Ha. unfold shift_ix. rewrite opp_upd by assumption. rewrite opp_coord by assumption. now rewrite minus_succ by now apply inb_coord. Qed.
Lemma opp_prev sh idx a : inb sh idx -> a < length sh -> opposite sh (shift_ix sh a (-1) idx) = shift_ix sh a 1 (opposite sh idx).
Proof. intros Hi Ha. unfold shift_ix. rewrite opp_upd by assumption. rewrite opp_coord by assumption. now rewrite minus_pred by now apply inb_coord. Qed.

Local Open Scope fld_scope.
Section D.
  Variable K : Fld.
  Add Field KfieldDual : (fth K).
  Variable sh : list nat.
  Implicit Types (w : widths K) (f : arr K) (F : field K).

  Lemma neg_div (x y z : K) : y / z = y * finv z /\ - (x / z) = - x / z.
  Proof. rewrite !(Fdiv_def (fth K)). split; [reflexivity|ring]. Qed.
  Lemma sub_div_flip (x y z : K) : (x - y) / z = - ((y - x) / z).
  Proof. rewrite !(Fdiv_def (fth K)). ring. Qed.

  Lemma fwd_dual w a f g i : (a < length sh)%nat -> inb sh i -> (forall j, inb sh j -> f j = g (opposite sh j)) ->
    deriv_forward sh (Some (dual_w sh w)) a f i = - deriv_back sh (Some w) a g (opposite sh i).
  Proof.
    intros Ha Hi E. unfold deriv_forward, deriv_back, roll, dual_w. rewrite (E i Hi), E by (now apply inb_shift). change (- -1)%Z with 1%Z. change (- (1))%Z with (-1)%Z.
    rewrite opp_next by assumption. rewrite opp_coord by assumption. apply sub_div_flip.
  Qed.
  Lemma bwd_dual w a f g i : (a < length sh)%nat -> inb sh i -> (forall j, inb sh j -> f j = g (opposite sh j)) ->
    deriv_back sh (Some (dual_w sh w)) a f i = - deriv_forward sh (Some w) a g (opposite sh i).
  Proof.
    intros Ha Hi E. unfold deriv_forward, deriv_back, roll, dual_w. rewrite (E i Hi), E by (now apply inb_shift). change (- -1)%Z with 1%Z. change (- (1))%Z with (-1)%Z.
    rewrite opp_prev by assumption. rewrite opp_coord by assumption. apply sub_div_flip.
  Qed.
  Lemma curl_with_dual D D' F G c i : (forall a f g, (a < 3)%nat -> (forall j, inb sh j -> f j = g (opposite sh j)) -> D a f i = - D' a g (opposite sh i)) ->
    (c < 3)%nat -> inb sh i -> (forall c j, (c < 3)%nat -> inb sh j -> F c j = G c (opposite sh j)) ->
    curl_with D F c i = - curl_with D' G c (opposite sh i).
  Proof.
    intros H Hc Hi E. destruct c as [|[|[|c]]]; [| | |lia]; cbn [curl_with];
      rewrite (H 0%nat (F 1%nat) (G 1%nat)) || idtac.
    - rewrite (H 1%nat (F 2%nat) (G 2%nat)), (H 2%nat (F 1%nat) (G 1%nat)) by (try lia; intros; apply E; lia || assumption). ring.
    - rewrite (H 2%nat (F 0%nat) (G 0%nat)), (H 0%nat (F 2%nat) (G 2%nat)) by (try lia; intros; apply E; lia || assumption). ring.
    - rewrite (H 1%nat (F 0%nat) (G 0%nat)) by (try lia; intros; apply E; lia || assumption). ring.
    - lia.
    - intros; apply E; [lia|assumption].
  Qed.
  Hypothesis HL : length sh = 3%nat.
  Lemma cf_dual w F G c i : (c < 3)%nat -> inb sh i -> (forall c j, (c < 3)%nat -> inb sh j -> F c j = G c (opposite sh j)) ->
    curl_forward sh (Some (dual_w sh w)) F c i = - curl_back sh (Some w) G c (opposite sh i).
  Proof. intros Hc Hi E. apply curl_with_dual; try assumption. intros a f g Ha Hf. apply fwd_dual; [lia|exact Hi|exact Hf]. Qed.
  Lemma cb_dual w F G c i : (c < 3)%nat -> inb sh i -> (forall c j, (c < 3)%nat -> inb sh j -> F c j = G c (opposite sh j)) ->
    curl_back sh (Some (dual_w sh w)) F c i = - curl_forward sh (Some w) G c (opposite sh i).
  Proof. intros Hc Hi E. apply curl_with_dual; try assumption. intros a f g Ha Hf. apply bwd_dual; [lia|exact Hi|exact Hf]. Qed.
End D.
