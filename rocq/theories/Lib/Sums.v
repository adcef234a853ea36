(** Finite sums [sumN n f = f 0 + ... + f (n-1)] over a field. *)
From Coq Require Import List Arith ZArith Lia Field.
From Verif.Lib Require Import Num.
Local Open Scope fld_scope.

Fixpoint sumN {K : Fld} (n : nat) (f : nat -> K) : K :=
  match n with
  | O => 0
  | S m => sumN m f + f m
  end.

(** Indicator: 1 if the test holds, else 0. *)
Definition ind {K : Fld} (b : bool) : K := if b then 1 else 0.

Section Sums.
  Variable K : Fld.
  Add Field Kfield : (fth K).
  Implicit Types f g : nat -> K.

  Lemma sumN_ext n f g : (forall i, (i < n)%nat -> f i = g i) -> sumN n f = sumN n g.
  Proof.
    induction n as [|n IH]; intro H; cbn [sumN]; [reflexivity|].
    rewrite IH by (intros; apply H; lia). rewrite H by lia. reflexivity.
  Qed.

  Lemma sumN_zero n f : (forall i, (i < n)%nat -> f i = 0) -> sumN n f = 0.
  Proof.
    induction n as [|n IH]; intro H; cbn [sumN]; [reflexivity|].
    rewrite IH by (intros; apply H; lia). rewrite H by lia. ring.
  Qed.

  Lemma sumN_add n f g : sumN n (fun i => f i + g i) = sumN n f + sumN n g.
  Proof. induction n as [|n IH]; cbn [sumN]; [ring|]. rewrite IH. ring. Qed.

  Lemma sumN_sub n f g : sumN n (fun i => f i - g i) = sumN n f - sumN n g.
  Proof. induction n as [|n IH]; cbn [sumN]; [ring|]. rewrite IH. ring. Qed.

  Lemma sumN_opp n f : sumN n (fun i => - f i) = - sumN n f.
  Proof. induction n as [|n IH]; cbn [sumN]; [ring|]. rewrite IH. ring. Qed.

  Lemma sumN_mul_l n c f : sumN n (fun i => c * f i) = c * sumN n f.
  Proof. induction n as [|n IH]; cbn [sumN]; [ring|]. rewrite IH. ring. Qed.

  Lemma sumN_mul_r n c f : sumN n (fun i => f i * c) = sumN n f * c.
  Proof. induction n as [|n IH]; cbn [sumN]; [ring|]. rewrite IH. ring. Qed.

  Lemma sumN_swap n m (f : nat -> nat -> K) :
    sumN n (fun i => sumN m (fun j => f i j)) = sumN m (fun j => sumN n (fun i => f i j)).
  Proof.
    induction n as [|n IH]; cbn [sumN].
    - symmetry. apply sumN_zero. reflexivity.
    - rewrite IH. symmetry. apply sumN_add.
  Qed.

  Lemma sumN_app n m f : sumN (n + m) f = sumN n f + sumN m (fun i => f (n + i)%nat).
  Proof.
    induction m as [|m IH].
    - rewrite Nat.add_0_r. cbn [sumN]. ring.
    - rewrite Nat.add_succ_r. cbn [sumN]. rewrite IH. ring.
  Qed.

  Lemma sumN_shift n f : sumN (S n) f = f O + sumN n (fun i => f (S i)).
  Proof.
    change (S n) with (1 + n)%nat. rewrite sumN_app. cbn [sumN plus]. ring.
  Qed.

  (** A sum with a single non-zero term. *)
  Lemma sumN_single n f k :
    (k < n)%nat -> (forall i, (i < n)%nat -> i <> k -> f i = 0) -> sumN n f = f k.
  Proof.
    induction n as [|n IH]; intros Hk H; [lia|]. cbn [sumN].
    destruct (Nat.eq_dec k n) as [->|Hne].
    - rewrite sumN_zero by (intros; apply H; lia). ring.
    - rewrite IH by (try lia; intros; apply H; lia). rewrite (H n) by lia. ring.
  Qed.

  Lemma sumN_ind_r n k f : (k < n)%nat ->
    sumN n (fun i => f i * ind (Nat.eqb i k)) = f k.
  Proof.
    intro Hk. rewrite (sumN_single n _ k Hk).
    - rewrite Nat.eqb_refl. cbn [ind]. ring.
    - intros i _ Hi. apply Nat.eqb_neq in Hi. rewrite Hi. cbn [ind]. ring.
  Qed.

  Lemma sumN_ind_l n k f : (k < n)%nat ->
    sumN n (fun i => ind (Nat.eqb i k) * f i) = f k.
  Proof.
    intro Hk. rewrite <- (sumN_ind_r n k f Hk). apply sumN_ext. intros. ring.
  Qed.

  Lemma sumN_ind_l' n k f : (k < n)%nat ->
    sumN n (fun i => ind (Nat.eqb k i) * f i) = f k.
  Proof.
    intro Hk. rewrite <- (sumN_ind_l n k f Hk). apply sumN_ext. intros.
    rewrite Nat.eqb_sym. reflexivity.
  Qed.

  Lemma sumN_prod n m (f : nat -> K) :
    sumN (n * m) f = sumN n (fun i => sumN m (fun j => f (i * m + j)%nat)).
  Proof.
    induction n as [|n IH]; [reflexivity|].
    replace (S n * m)%nat with (n * m + m)%nat by lia.
    rewrite sumN_app, IH. cbn [sumN]. reflexivity.
  Qed.

  (** Reindexing by a bijection given with its inverse. *)
  Lemma sumN_reindex n f (s t : nat -> nat) :
    (forall i, (i < n)%nat -> (s i < n)%nat) ->
    (forall i, (i < n)%nat -> (t i < n)%nat) ->
    (forall i, (i < n)%nat -> t (s i) = i) ->
    (forall i, (i < n)%nat -> s (t i) = i) ->
    sumN n (fun i => f (s i)) = sumN n f.
  Proof.
    intros Hs Ht Hts Hst.
    transitivity (sumN n (fun i => sumN n (fun j => ind (Nat.eqb (s i) j) * f j))).
    { apply sumN_ext. intros i Hi. symmetry. apply sumN_ind_l'. now apply Hs. }
    rewrite sumN_swap. apply sumN_ext. intros j Hj.
    transitivity (sumN n (fun i => ind (Nat.eqb i (t j)) * f j)).
    { apply sumN_ext. intros i Hi. f_equal. f_equal.
      destruct (Nat.eqb_spec (s i) j) as [E|E]; destruct (Nat.eqb_spec i (t j)) as [E'|E']; try reflexivity.
      - exfalso. apply E'. rewrite <- E. symmetry. now apply Hts.
      - exfalso. apply E. rewrite E'. now apply Hst. }
    rewrite (sumN_ind_l n (t j) (fun _ => f j)); [reflexivity|now apply Ht].
  Qed.

  Lemma sumN_telescope n f : sumN n (fun i => f (S i) - f i) = f n - f O.
  Proof. induction n as [|n IH]; cbn [sumN]; [ring|]. rewrite IH. ring. Qed.

End Sums.

Section CSums.
  Variable K : CFld.
  Lemma conj_sumN n (f : nat -> K) : conj (sumN n f) = sumN n (fun i => conj (f i)).
  Proof.
    induction n as [|n IH]; cbn [sumN]; [apply conj_zero|].
    rewrite conj_add, IH. reflexivity.
  Qed.
End CSums.
