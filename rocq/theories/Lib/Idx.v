(** Multi-indices, C-order (row-major) flattening, cyclic shifts of an index,
    and sums over a grid. *)
From Coq Require Import List Arith ZArith Lia Field.
From Coq Require Import ZifyBool ZifyNat.
From Verif.Lib Require Import Num Sums.
Import ListNotations.
Local Open Scope nat_scope.

Ltac Zify.zify_post_hook ::= Z.div_mod_to_equations.

(** Number of cells of a grid. *)
Fixpoint prodl (sh : list nat) : nat :=
  match sh with [] => 1 | n :: ns => n * prodl ns end.

(** [idx] is an in-range multi-index for [sh]. *)
Definition inb (sh idx : list nat) : Prop := Forall2 (fun i n => i < n) idx sh.

(** numpy's C order (last axis fastest), as in ravel(order='C') and
    ravel_multi_index(order='C'). *)
Fixpoint ravel (sh idx : list nat) : nat :=
  match sh, idx with
  | n :: ns, i :: is => i * prodl ns + ravel ns is
  | _, _ => 0
  end.

Fixpoint unravel (sh : list nat) (p : nat) : list nat :=
  match sh with
  | [] => []
  | n :: ns => (p / prodl ns) :: unravel ns (p mod prodl ns)
  end.

Fixpoint upd (a v : nat) (l : list nat) : list nat :=
  match l with
  | [] => []
  | x :: xs => match a with O => v :: xs | S a' => x :: upd a' v xs end
  end.

Definition dim (sh : list nat) (a : nat) : nat := nth a sh 0.
Definition coord (idx : list nat) (a : nat) : nat := nth a idx 0.

(** Coordinate [i] moved by [d] cells along an axis of [n] cells, periodically. *)
Definition cyc (n : nat) (d : Z) (i : nat) : nat :=
  Z.to_nat ((Z.of_nat i + d) mod Z.of_nat n).

Definition shift_ix (sh : list nat) (a : nat) (d : Z) (idx : list nat) : list nat :=
  upd a (cyc (dim sh a) d (coord idx a)) idx.

(** ** Facts about [cyc] *)
Lemma cyc_lt n d i : 0 < n -> cyc n d i < n.
Proof. intro H. unfold cyc. pose proof (Z.mod_pos_bound (Z.of_nat i + d) (Z.of_nat n)). lia. Qed.

Lemma cyc_0 n i : i < n -> cyc n 0 i = i.
Proof. intro H. unfold cyc. rewrite Z.add_0_r, Z.mod_small; lia. Qed.

Lemma cyc_cyc n d1 d2 i : 0 < n -> cyc n d1 (cyc n d2 i) = cyc n (d1 + d2) i.
Proof.
  intro H. unfold cyc. f_equal.
  rewrite Z2Nat.id by (apply Z.mod_pos_bound; lia).
  rewrite Z.add_mod_idemp_l by lia. f_equal. lia.
Qed.

Lemma cyc_period n k d i : 0 < n -> cyc n (d + k * Z.of_nat n) i = cyc n d i.
Proof.
  intro H. unfold cyc. f_equal.
  replace (Z.of_nat i + (d + k * Z.of_nat n))%Z with (Z.of_nat i + d + k * Z.of_nat n)%Z by lia.
  apply Z.mod_add. lia.
Qed.

Lemma cyc_inj n d i j : i < n -> j < n -> cyc n d i = cyc n d j -> i = j.
Proof.
  intros Hi Hj H.
  assert (E : cyc n (- d) (cyc n d i) = cyc n (- d) (cyc n d j)) by now rewrite H.
  rewrite !cyc_cyc in E by lia. replace (- d + d)%Z with 0%Z in E by lia.
  now rewrite !cyc_0 in E by assumption.
Qed.

Lemma cyc_succ n i : i < n -> cyc n 1 i = if Nat.eqb (S i) n then 0 else S i.
Proof.
  intro H. unfold cyc. destruct (Nat.eqb_spec (S i) n) as [E|E].
  - replace (Z.of_nat i + 1)%Z with (Z.of_nat n) by lia. rewrite Z.mod_same; lia.
  - rewrite Z.mod_small; lia.
Qed.

Lemma cyc_pred n i : i < n -> cyc n (-1) i = if Nat.eqb i 0 then n - 1 else i - 1.
Proof.
  intro H. unfold cyc. destruct (Nat.eqb_spec i 0) as [E|E].
  - subst i. replace (Z.of_nat 0 + -1)%Z with (Z.of_nat n - 1 + (-1) * Z.of_nat n)%Z by lia.
    rewrite Z.mod_add by lia. rewrite Z.mod_small; lia.
  - rewrite Z.mod_small; lia.
Qed.

(** ** Facts about [upd] *)
Lemma length_upd a v l : length (upd a v l) = length l.
Proof. revert a; induction l as [|x xs IH]; intros [|a]; cbn; congruence. Qed.

Lemma coord_upd_same a v l : a < length l -> coord (upd a v l) a = v.
Proof.
  unfold coord. revert a; induction l as [|x xs IH]; intros [|a]; cbn; intro H; try lia; try reflexivity.
  apply IH; lia.
Qed.

Lemma coord_upd_other a b v l : a <> b -> coord (upd a v l) b = coord l b.
Proof.
  unfold coord. revert a b; induction l as [|x xs IH]; intros [|a] [|b]; cbn; intro H; try lia; try reflexivity.
  apply IH; lia.
Qed.

Lemma upd_upd_same a v w l : upd a v (upd a w l) = upd a v l.
Proof. revert a; induction l as [|x xs IH]; intros [|a]; cbn; congruence. Qed.

Lemma upd_comm a b v w l : a <> b -> upd a v (upd b w l) = upd b w (upd a v l).
Proof.
  revert a b; induction l as [|x xs IH]; intros [|a] [|b]; cbn; intro H; try lia; try reflexivity.
  f_equal. apply IH. lia.
Qed.

Lemma upd_coord a l : upd a (coord l a) l = l.
Proof.
  unfold coord. revert a; induction l as [|x xs IH]; intros [|a]; cbn; try reflexivity.
  f_equal. apply IH.
Qed.

Lemma list_ext_coord (l m : list nat) : length l = length m ->
  (forall a, a < length l -> coord l a = coord m a) -> l = m.
Proof.
  intros HL H. apply (nth_ext l m 0 0 HL). exact H.
Qed.

(** ** Facts about [inb] *)
Lemma inb_length sh idx : inb sh idx -> length idx = length sh.
Proof. unfold inb. intro H. induction H; cbn; congruence. Qed.

Lemma inb_coord sh idx a : inb sh idx -> a < length sh -> coord idx a < dim sh a.
Proof.
  unfold inb, coord, dim. intro H. revert a.
  induction H as [|i n idx sh Hi H IH]; intros a Ha; cbn in *; [lia|].
  destruct a as [|a]; [exact Hi|]. apply IH. lia.
Qed.

Lemma inb_iff sh idx : inb sh idx <->
  (length idx = length sh /\ forall a, a < length sh -> coord idx a < dim sh a).
Proof.
  split.
  - intro H. split; [now apply inb_length|]. intros. now apply inb_coord.
  - intros [HL H]. unfold inb, coord, dim in *. revert idx HL H.
    induction sh as [|n ns IH]; intros [|i is]; cbn; intros HL H; try lia; constructor.
    + exact (H 0 ltac:(lia)).
    + apply IH; [lia|]. intros a Ha. exact (H (S a) ltac:(lia)).
Qed.

Lemma inb_upd sh idx a v : inb sh idx -> v < dim sh a -> inb sh (upd a v idx).
Proof.
  intros H Hv. apply inb_iff in H. destruct H as [HL H]. apply inb_iff.
  rewrite length_upd. split; [exact HL|]. intros b Hb.
  destruct (Nat.eq_dec a b) as [->|Hne].
  - rewrite coord_upd_same by lia. exact Hv.
  - rewrite coord_upd_other by exact Hne. now apply H.
Qed.

Lemma inb_dim_pos sh idx a : inb sh idx -> a < length sh -> 0 < dim sh a.
Proof. intros H Ha. pose proof (inb_coord sh idx a H Ha). lia. Qed.

(** ** Facts about [shift_ix] *)
Lemma inb_shift sh idx a d : inb sh idx -> a < length sh -> inb sh (shift_ix sh a d idx).
Proof.
  intros H Ha. apply inb_upd; [exact H|]. apply cyc_lt. now apply (inb_dim_pos sh idx).
Qed.

Lemma shift_ix_0 sh idx a : inb sh idx -> a < length sh -> shift_ix sh a 0 idx = idx.
Proof.
  intros H Ha. unfold shift_ix. rewrite cyc_0 by now apply inb_coord. apply upd_coord.
Qed.

Lemma shift_ix_add sh idx a d1 d2 : inb sh idx -> a < length sh ->
  shift_ix sh a d1 (shift_ix sh a d2 idx) = shift_ix sh a (d1 + d2) idx.
Proof.
  intros H Ha. unfold shift_ix. rewrite upd_upd_same.
  rewrite coord_upd_same by (rewrite (inb_length sh idx H); exact Ha).
  rewrite cyc_cyc; [reflexivity|]. now apply (inb_dim_pos sh idx).
Qed.

Lemma shift_ix_inv sh idx a d : inb sh idx -> a < length sh ->
  shift_ix sh a (- d) (shift_ix sh a d idx) = idx.
Proof.
  intros H Ha. rewrite shift_ix_add by assumption.
  replace (- d + d)%Z with 0%Z by lia. now apply shift_ix_0.
Qed.

Lemma shift_ix_inv' sh idx a d : inb sh idx -> a < length sh ->
  shift_ix sh a d (shift_ix sh a (- d) idx) = idx.
Proof.
  intros H Ha. rewrite shift_ix_add by assumption.
  replace (d + - d)%Z with 0%Z by lia. now apply shift_ix_0.
Qed.

Lemma shift_ix_pn sh idx a : inb sh idx -> a < length sh ->
  shift_ix sh a (-1) (shift_ix sh a 1 idx) = idx.
Proof. exact (shift_ix_inv sh idx a 1). Qed.

Lemma shift_ix_np sh idx a : inb sh idx -> a < length sh ->
  shift_ix sh a 1 (shift_ix sh a (-1) idx) = idx.
Proof. exact (shift_ix_inv' sh idx a 1). Qed.

Lemma shift_ix_comm sh idx a b d1 d2 : a <> b ->
  shift_ix sh a d1 (shift_ix sh b d2 idx) = shift_ix sh b d2 (shift_ix sh a d1 idx).
Proof.
  intro H. unfold shift_ix. rewrite !coord_upd_other by lia. apply upd_comm. exact H.
Qed.

Lemma coord_shift_same sh idx a d : inb sh idx -> a < length sh ->
  coord (shift_ix sh a d idx) a = cyc (dim sh a) d (coord idx a).
Proof.
  intros H Ha. unfold shift_ix. apply coord_upd_same. rewrite (inb_length sh idx H). exact Ha.
Qed.

Lemma coord_shift_other sh idx a b d : a <> b -> coord (shift_ix sh a d idx) b = coord idx b.
Proof. intro H. unfold shift_ix. now apply coord_upd_other. Qed.

(** ** Flattening *)
Lemma ravel_lt sh idx : inb sh idx -> ravel sh idx < prodl sh.
Proof.
  unfold inb. intro H. induction H as [|i n idx sh Hi H IH]; cbn; [lia|]. nia.
Qed.

Lemma unravel_ravel sh idx : inb sh idx -> unravel sh (ravel sh idx) = idx.
Proof.
  unfold inb. intro H. induction H as [|i n idx sh Hi H IH]; cbn; [reflexivity|].
  pose proof (ravel_lt sh idx H) as HL.
  rewrite Nat.div_add_l by lia. rewrite Nat.div_small by exact HL.
  rewrite (Nat.add_comm (i * prodl sh)), Nat.mod_add by lia. rewrite Nat.mod_small by exact HL.
  rewrite IH. f_equal. lia.
Qed.

Lemma inb_unravel sh p : p < prodl sh -> inb sh (unravel sh p).
Proof.
  unfold inb. revert p. induction sh as [|n ns IH]; intros p H; cbn in *; constructor.
  - apply Nat.div_lt_upper_bound; lia.
  - apply IH. apply Nat.mod_upper_bound. lia.
Qed.

Lemma ravel_unravel sh p : p < prodl sh -> ravel sh (unravel sh p) = p.
Proof.
  revert p. induction sh as [|n ns IH]; intros p H; cbn in *; [lia|].
  rewrite IH by (apply Nat.mod_upper_bound; lia).
  pose proof (Nat.div_mod p (prodl ns)). lia.
Qed.

Lemma ravel_inj sh i j : inb sh i -> inb sh j -> ravel sh i = ravel sh j -> i = j.
Proof.
  intros Hi Hj H. rewrite <- (unravel_ravel sh i Hi), <- (unravel_ravel sh j Hj). now rewrite H.
Qed.

Lemma length_unravel sh p : length (unravel sh p) = length sh.
Proof. revert p; induction sh; intros; cbn; congruence. Qed.

Lemma prodl_pos_inb sh idx : inb sh idx -> 0 < prodl sh.
Proof. intro H. pose proof (ravel_lt sh idx H). lia. Qed.

(** ** Sums over the grid *)
Fixpoint gsum {K : Fld} (sh : list nat) (f : list nat -> K) : K :=
  match sh with
  | [] => f []
  | n :: ns => sumN n (fun i => gsum ns (fun is => f (i :: is)))
  end.

Section GSum.
  Variable K : Fld.
  Add Field Kfield : (fth K).
  Implicit Types f g : list nat -> K.
  Local Open Scope fld_scope.

  Lemma gsum_ext sh f g : (forall idx, inb sh idx -> f idx = g idx) -> gsum sh f = gsum sh g.
  Proof.
    revert f g. induction sh as [|n ns IH]; intros f g H; cbn [gsum].
    - apply H. constructor.
    - apply sumN_ext. intros i Hi. apply IH. intros idx Hidx. apply H. now constructor.
  Qed.

  Lemma gsum_add sh f g : gsum sh (fun x => f x + g x) = gsum sh f + gsum sh g.
  Proof.
    revert f g. induction sh as [|n ns IH]; intros f g; cbn [gsum]; [reflexivity|].
    rewrite <- sumN_add. apply sumN_ext. intros i _.
    apply (IH (fun is => f (i :: is)) (fun is => g (i :: is))).
  Qed.

  Lemma gsum_mul_l sh c f : gsum sh (fun x => c * f x) = c * gsum sh f.
  Proof.
    revert f. induction sh as [|n ns IH]; intros f; cbn [gsum]; [reflexivity|].
    rewrite <- sumN_mul_l. apply sumN_ext. intros i _. apply (IH (fun is => f (i :: is))).
  Qed.

  Lemma gsum_opp sh f : gsum sh (fun x => - f x) = - gsum sh f.
  Proof.
    transitivity (gsum sh (fun x => (- (1)) * f x)).
    - apply gsum_ext. intros. ring.
    - rewrite gsum_mul_l. ring.
  Qed.

  Lemma gsum_sub sh f g : gsum sh (fun x => f x - g x) = gsum sh f - gsum sh g.
  Proof.
    transitivity (gsum sh (fun x => f x + - g x)); [apply gsum_ext; intros; ring|].
    rewrite gsum_add, gsum_opp. ring.
  Qed.

  Lemma gsum_zero sh f : (forall idx, inb sh idx -> f idx = 0) -> gsum sh f = 0.
  Proof.
    intro H. transitivity (gsum sh (fun _ => 0 * (1 : K))).
    - apply gsum_ext. intros. rewrite H by assumption. ring.
    - rewrite (gsum_mul_l sh 0 (fun _ => 1)). ring.
  Qed.

  Lemma gsum_flat sh f : gsum sh f = sumN (prodl sh) (fun p => f (unravel sh p)).
  Proof.
    revert f. induction sh as [|n ns IH]; intro f.
    - cbn. ring.
    - cbn [gsum prodl]. rewrite sumN_prod. apply sumN_ext. intros i Hi.
      rewrite IH. apply sumN_ext. intros p Hp. cbn [unravel]. do 2 f_equal.
      + rewrite Nat.div_add_l by lia. rewrite Nat.div_small by exact Hp. lia.
      + f_equal. rewrite Nat.add_comm, Nat.mod_add by lia. now rewrite Nat.mod_small.
  Qed.

  Lemma gsum_flat' sh (g : nat -> K) :
    sumN (prodl sh) g = gsum sh (fun idx => g (ravel sh idx)).
  Proof.
    rewrite gsum_flat. apply sumN_ext. intros p Hp. now rewrite ravel_unravel.
  Qed.

  (** Grid sums are invariant under cyclic shifts. *)
  Lemma gsum_shift sh a d f : (a < length sh)%nat ->
    gsum sh (fun idx => f (shift_ix sh a d idx)) = gsum sh f.
  Proof.
    intro Ha. rewrite !gsum_flat.
    set (s := fun p => ravel sh (shift_ix sh a d (unravel sh p))).
    set (t := fun p => ravel sh (shift_ix sh a (- d) (unravel sh p))).
    transitivity (sumN (prodl sh) (fun p => (fun q => f (unravel sh q)) (s p))).
    - apply sumN_ext. intros p Hp. cbv beta. unfold s. rewrite unravel_ravel; [reflexivity|].
      apply inb_shift; [now apply inb_unravel|exact Ha].
    - assert (Hin : forall p e, (p < prodl sh)%nat -> inb sh (shift_ix sh a e (unravel sh p))).
      { intros p e Hp. apply inb_shift; [now apply inb_unravel|exact Ha]. }
      apply (sumN_reindex K (prodl sh) (fun q => f (unravel sh q)) s t).
      + intros p Hp. apply ravel_lt. now apply Hin.
      + intros p Hp. apply ravel_lt. now apply Hin.
      + intros p Hp. unfold s, t. rewrite unravel_ravel by now apply Hin.
        rewrite shift_ix_inv by (try exact Ha; now apply inb_unravel). now apply ravel_unravel.
      + intros p Hp. unfold s, t. rewrite unravel_ravel by now apply Hin.
        rewrite shift_ix_inv' by (try exact Ha; now apply inb_unravel). now apply ravel_unravel.
  Qed.
End GSum.

Arguments gsum_ext {K} sh f g.
Arguments gsum_shift {K} sh a d f.
