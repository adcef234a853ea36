(** Lemmas about the fdmath model. *)
From Coq Require Import List Arith ZArith Lia Field Bool.
From Verif.Lib Require Import Num Sums Idx Mat.
From Verif.Model Require Import Fdmath.
Import ListNotations.
Local Open Scope nat_scope.

(** ** [mapc] *)
Lemma length_mapc_from b g idx : length (mapc_from b g idx) = length idx.
Proof. revert b; induction idx; intro b; cbn; congruence. Qed.

Lemma coord_mapc_from b g idx a : a < length idx ->
  coord (mapc_from b g idx) a = g (b + a) (coord idx a).
Proof.
  unfold coord. revert b a. induction idx as [|i is IH]; intros b a Ha; cbn in Ha; [lia|].
  destruct a as [|a]; cbn [mapc_from nth].
  - now rewrite Nat.add_0_r.
  - rewrite IH by lia. f_equal. lia.
Qed.

Lemma coord_mapc g idx a : a < length idx -> coord (mapc g idx) a = g a (coord idx a).
Proof. intro H. unfold mapc. rewrite coord_mapc_from by exact H. reflexivity. Qed.

Lemma mapc_shift sh a d idx : inb sh idx -> a < length sh ->
  mapc (fun b i => cyc (dim sh b) (if Nat.eqb b a then d else 0%Z) i) idx = shift_ix sh a d idx.
Proof.
  intros H Ha. pose proof (inb_length sh idx H) as HL.
  apply list_ext_coord.
  - unfold mapc, shift_ix. now rewrite length_mapc_from, length_upd.
  - intros b Hb. unfold mapc in Hb. rewrite length_mapc_from in Hb.
    rewrite coord_mapc by exact Hb.
    destruct (Nat.eqb_spec b a) as [->|Hne].
    + now rewrite coord_shift_same by assumption.
    + rewrite coord_shift_other by lia. apply cyc_0. apply inb_coord; [exact H|lia].
Qed.

Section P.
  Variable K : Fld.
  Add Field Kfield : (fth K).
  Local Open Scope fld_scope.
  Implicit Types x : vect K.
  Implicit Types f : arr K.
  Implicit Types F : field K.

  (** Flat-index version of [shift_ix]. *)
  Definition sflat (sh : list nat) (a : nat) (d : Z) (p : nat) : nat :=
    ravel sh (shift_ix sh a d (unravel sh p)).

  Lemma sflat_lt sh a d p : (a < length sh)%nat -> (p < prodl sh)%nat -> (sflat sh a d p < prodl sh)%nat.
  Proof. intros Ha Hp. apply ravel_lt. apply inb_shift; [now apply inb_unravel|exact Ha]. Qed.

  Lemma sflat_sflat sh a d e p : (a < length sh)%nat -> (p < prodl sh)%nat ->
    sflat sh a d (sflat sh a e p) = sflat sh a (d + e) p.
  Proof.
    intros Ha Hp. unfold sflat.
    rewrite unravel_ravel by (apply inb_shift; [now apply inb_unravel|exact Ha]).
    rewrite shift_ix_add; [reflexivity|now apply inb_unravel|exact Ha].
  Qed.

  Lemma sflat_0 sh a p : (a < length sh)%nat -> (p < prodl sh)%nat -> sflat sh a 0 p = p.
  Proof.
    intros Ha Hp. unfold sflat. rewrite shift_ix_0; [now apply ravel_unravel|now apply inb_unravel|exact Ha].
  Qed.

  Lemma shift_circ_entry sh a d i j : (a < length sh)%nat -> (i < prodl sh)%nat -> (j < prodl sh)%nat ->
    shift_circ_mat a sh d i j = (ind (Nat.eqb (sflat sh a d i) j) : K).
  Proof.
    intros Ha Hi Hj. unfold shift_circ_mat.
    destruct (Z.ltb_spec d 0) as [Hd|Hd].
    - unfold mtr. rewrite mcoo_row by exact Hj.
      rewrite mapc_shift; [|now apply inb_unravel|exact Ha].
      fold (sflat sh a (Z.abs d) j). rewrite Z.abs_neq by lia.
      replace (ind (Nat.eqb (sflat sh a (- d) j) i) : K) with (ind (Nat.eqb (sflat sh a d i) j) : K); [ring|].
      f_equal.
      destruct (Nat.eqb_spec (sflat sh a (- d) j) i) as [E|E];
        destruct (Nat.eqb_spec (sflat sh a d i) j) as [E'|E']; try reflexivity; exfalso.
      + apply E'. rewrite <- E, sflat_sflat by assumption.
        replace (d + - d)%Z with 0%Z by lia. now apply sflat_0.
      + apply E. rewrite <- E', sflat_sflat by assumption.
        replace (- d + d)%Z with 0%Z by lia. now apply sflat_0.
    - rewrite mcoo_row by exact Hi.
      rewrite mapc_shift; [|now apply inb_unravel|exact Ha].
      rewrite Z.abs_eq by exact Hd. fold (sflat sh a d i). ring.
  Qed.

  Lemma mv_shift_circ sh a d x p : (a < length sh)%nat -> (p < prodl sh)%nat ->
    mv (prodl sh) (shift_circ_mat a sh d) x p = x (sflat sh a d p).
  Proof.
    intros Ha Hp. unfold mv.
    rewrite (sumN_ext K _ _ (fun j => ind (Nat.eqb (sflat sh a d p) j) * x j)).
    - apply sumN_ind_l'. now apply sflat_lt.
    - intros j Hj. now rewrite shift_circ_entry.
  Qed.

  (** ** Derivative matrices *)
  Lemma mv_deriv_forward sh w a x p : (a < length sh)%nat -> (p < prodl sh)%nat ->
    mv (prodl sh) (deriv_forward_mat sh w a) x p
    = (x (sflat sh a 1 p) - x p) / w a (coord (unravel sh p) a).
  Proof.
    intros Ha Hp. unfold deriv_forward_mat.
    rewrite mv_mm, mv_mdiag by exact Hp.
    rewrite mv_msub, mv_mid, mv_shift_circ by assumption.
    unfold dx_flat. rewrite !fdiv_def. ring.
  Qed.

  Lemma mv_deriv_back sh w a x p : (a < length sh)%nat -> (p < prodl sh)%nat ->
    mv (prodl sh) (deriv_back_mat sh w a) x p
    = (x p - x (sflat sh a (-1) p)) / w a (coord (unravel sh p) a).
  Proof.
    intros Ha Hp. unfold deriv_back_mat.
    rewrite mv_mm, mv_mdiag by exact Hp.
    rewrite mv_msub, mv_mid, mv_shift_circ by assumption.
    unfold dx_flat. rewrite !fdiv_def. ring.
  Qed.

  Lemma deriv_forward_agree sh w a f p : (a < length sh)%nat -> (p < prodl sh)%nat ->
    mv (prodl sh) (deriv_forward_mat sh w a) (flat sh f) p = flat sh (deriv_forward sh (Some w) a f) p.
  Proof.
    intros Ha Hp. rewrite mv_deriv_forward by assumption.
    unfold flat, deriv_forward, roll, sflat. rewrite unravel_ravel; [reflexivity|].
    apply inb_shift; [now apply inb_unravel|exact Ha].
  Qed.

  Lemma deriv_back_agree sh w a f p : (a < length sh)%nat -> (p < prodl sh)%nat ->
    mv (prodl sh) (deriv_back_mat sh w a) (flat sh f) p = flat sh (deriv_back sh (Some w) a f) p.
  Proof.
    intros Ha Hp. rewrite mv_deriv_back by assumption.
    unfold flat, deriv_back, roll, sflat. rewrite unravel_ravel; [reflexivity|].
    apply inb_shift; [now apply inb_unravel|exact Ha].
  Qed.

  (** ** vec / unvec *)
  Lemma vec_at sh F c p : (p < prodl sh)%nat -> vec sh F (c * prodl sh + p)%nat = F c (unravel sh p).
  Proof. intro H. unfold vec. now rewrite block_div, block_mod. Qed.

  Lemma vec_offset sh F c idx : inb sh idx -> vec sh F (c * prodl sh + ravel sh idx)%nat = F c idx.
  Proof. intro H. rewrite vec_at by now apply ravel_lt. now rewrite unravel_ravel. Qed.

  Lemma unvec_vec sh F c idx : inb sh idx -> unvec sh (vec sh F) c idx = F c idx.
  Proof. apply vec_offset. Qed.

  Lemma vec_unvec sh nv x p : (p < nv * prodl sh)%nat -> vec sh (unvec sh x) p = x p.
  Proof.
    intro H. unfold vec, unvec.
    rewrite ravel_unravel by (apply Nat.mod_upper_bound; lia).
    f_equal. pose proof (Nat.div_mod p (prodl sh)). lia.
  Qed.

  (** ** Cross-product blocks *)
  Lemma mv_cross n (B : nat -> mat K) x c p : (c < 3)%nat -> (p < n)%nat ->
    mv (3 * n) (cross_mat n B) x (c * n + p)%nat
    = match c with
      | 0%nat => mv n (B 1%nat) (fun q => x (2 * n + q)%nat) p - mv n (B 2%nat) (fun q => x (1 * n + q)%nat) p
      | 1%nat => mv n (B 2%nat) (fun q => x (0 * n + q)%nat) p - mv n (B 0%nat) (fun q => x (2 * n + q)%nat) p
      | _ => mv n (B 0%nat) (fun q => x (1 * n + q)%nat) p - mv n (B 1%nat) (fun q => x (0 * n + q)%nat) p
      end.
  Proof.
    intros Hc Hp. unfold cross_mat. rewrite mv_mblock.
    rewrite block_div, block_mod by exact Hp.
    destruct c as [|[|[|c]]]; [| | |lia]; cbn [sumN];
      rewrite ?mv_mopp, ?mv_mzero; ring.
  Qed.

  Lemma curl_forward_agree sh w F c p : length sh = 3%nat -> (c < 3)%nat -> (p < prodl sh)%nat ->
    mv (3 * prodl sh) (curl_forward_mat sh w) (vec sh F) (c * prodl sh + p)%nat
    = curl_forward sh (Some w) F c (unravel sh p).
  Proof.
    intros HL Hc Hp. unfold curl_forward_mat. rewrite mv_cross by assumption.
    assert (E : forall a b, (a < 3)%nat ->
      mv (prodl sh) (deriv_forward_mat sh w a) (fun q => vec sh F (b * prodl sh + q)%nat) p
      = deriv_forward sh (Some w) a (F b) (unravel sh p)).
    { intros a b Ha. rewrite (mv_ext_v K _ _ _ (flat sh (F b))).
      - rewrite deriv_forward_agree by lia. reflexivity.
      - intros q Hq. now rewrite vec_at. }
    unfold curl_forward, curl_with.
    destruct c as [|[|[|c]]]; [| | |lia]; rewrite !E by lia; reflexivity.
  Qed.

  Lemma curl_back_agree sh w F c p : length sh = 3%nat -> (c < 3)%nat -> (p < prodl sh)%nat ->
    mv (3 * prodl sh) (curl_back_mat sh w) (vec sh F) (c * prodl sh + p)%nat
    = curl_back sh (Some w) F c (unravel sh p).
  Proof.
    intros HL Hc Hp. unfold curl_back_mat. rewrite mv_cross by assumption.
    assert (E : forall a b, (a < 3)%nat ->
      mv (prodl sh) (deriv_back_mat sh w a) (fun q => vec sh F (b * prodl sh + q)%nat) p
      = deriv_back sh (Some w) a (F b) (unravel sh p)).
    { intros a b Ha. rewrite (mv_ext_v K _ _ _ (flat sh (F b))).
      - rewrite deriv_back_agree by lia. reflexivity.
      - intros q Hq. now rewrite vec_at. }
    unfold curl_back, curl_with.
    destruct c as [|[|[|c]]]; [| | |lia]; rewrite !E by lia; reflexivity.
  Qed.

  (** ** Pointwise extensionality of the functional operators *)
  Lemma deriv_forward_ext sh dx a f g idx : (a < length sh)%nat -> inb sh idx ->
    (forall i, inb sh i -> f i = g i) -> deriv_forward sh dx a f idx = deriv_forward sh dx a g idx.
  Proof.
    intros Ha Hi H. unfold deriv_forward, roll.
    rewrite (H idx Hi), (H (shift_ix sh a (Z.opp (-1)) idx)) by now apply inb_shift. reflexivity.
  Qed.
  Lemma deriv_back_ext sh dx a f g idx : (a < length sh)%nat -> inb sh idx ->
    (forall i, inb sh i -> f i = g i) -> deriv_back sh dx a f idx = deriv_back sh dx a g idx.
  Proof.
    intros Ha Hi H. unfold deriv_back, roll.
    rewrite (H idx Hi), (H (shift_ix sh a (Z.opp 1) idx)) by now apply inb_shift. reflexivity.
  Qed.

  Lemma curl_forward_ext sh dx F G c idx : (2 < length sh)%nat -> inb sh idx ->
    (forall b i, (b < 3)%nat -> inb sh i -> F b i = G b i) ->
    curl_forward sh dx F c idx = curl_forward sh dx G c idx.
  Proof.
    intros HL Hi H. unfold curl_forward, curl_with.
    destruct c as [|[|[|c]]]; try reflexivity; f_equal; apply deriv_forward_ext; try lia; auto.
  Qed.
  Lemma curl_back_ext sh dx F G c idx : (2 < length sh)%nat -> inb sh idx ->
    (forall b i, (b < 3)%nat -> inb sh i -> F b i = G b i) ->
    curl_back sh dx F c idx = curl_back sh dx G c idx.
  Proof.
    intros HL Hi H. unfold curl_back, curl_with.
    destruct c as [|[|[|c]]]; try reflexivity; f_equal; apply deriv_back_ext; try lia; auto.
  Qed.

  (** ** Linearity *)
  Lemma deriv_forward_sub sh dx a f g idx :
    deriv_forward sh dx a (fun i => f i - g i) idx = deriv_forward sh dx a f idx - deriv_forward sh dx a g idx.
  Proof. unfold deriv_forward, roll. destruct dx; rewrite ?fdiv_def; ring. Qed.
  Lemma deriv_forward_add sh dx a f g idx :
    deriv_forward sh dx a (fun i => f i + g i) idx = deriv_forward sh dx a f idx + deriv_forward sh dx a g idx.
  Proof. unfold deriv_forward, roll. destruct dx; rewrite ?fdiv_def; ring. Qed.
  Lemma deriv_forward_scale sh dx a c f idx :
    deriv_forward sh dx a (fun i => c * f i) idx = c * deriv_forward sh dx a f idx.
  Proof. unfold deriv_forward, roll. destruct dx; rewrite ?fdiv_def; ring. Qed.
  Lemma deriv_back_sub sh dx a f g idx :
    deriv_back sh dx a (fun i => f i - g i) idx = deriv_back sh dx a f idx - deriv_back sh dx a g idx.
  Proof. unfold deriv_back, roll. destruct dx; rewrite ?fdiv_def; ring. Qed.
  Lemma deriv_back_add sh dx a f g idx :
    deriv_back sh dx a (fun i => f i + g i) idx = deriv_back sh dx a f idx + deriv_back sh dx a g idx.
  Proof. unfold deriv_back, roll. destruct dx; rewrite ?fdiv_def; ring. Qed.
  Lemma deriv_back_scale sh dx a c f idx :
    deriv_back sh dx a (fun i => c * f i) idx = c * deriv_back sh dx a f idx.
  Proof. unfold deriv_back, roll. destruct dx; rewrite ?fdiv_def; ring. Qed.

  Lemma curl_forward_lin sh dx c a b F G idx :
    curl_forward sh dx (fun k i => a * F k i + b * G k i) c idx
    = a * curl_forward sh dx F c idx + b * curl_forward sh dx G c idx.
  Proof.
    unfold curl_forward, curl_with.
    destruct c as [|[|[|c]]]; rewrite ?deriv_forward_add, ?deriv_forward_scale; ring.
  Qed.
  Lemma curl_back_lin sh dx c a b F G idx :
    curl_back sh dx (fun k i => a * F k i + b * G k i) c idx
    = a * curl_back sh dx F c idx + b * curl_back sh dx G c idx.
  Proof.
    unfold curl_back, curl_with.
    destruct c as [|[|[|c]]]; rewrite ?deriv_back_add, ?deriv_back_scale; ring.
  Qed.

  (** ** Derivatives along different axes commute *)
  Lemma deriv_forward_comm sh dx a b f idx : a <> b ->
    deriv_forward sh dx a (deriv_forward sh dx b f) idx = deriv_forward sh dx b (deriv_forward sh dx a f) idx.
  Proof.
    intro H. unfold deriv_forward, roll.
    rewrite !(coord_shift_other sh idx a b), !(coord_shift_other sh idx b a) by lia.
    rewrite !(shift_ix_comm sh idx a b) by exact H.
    destruct dx; rewrite ?fdiv_def; ring.
  Qed.
  Lemma deriv_back_comm sh dx a b f idx : a <> b ->
    deriv_back sh dx a (deriv_back sh dx b f) idx = deriv_back sh dx b (deriv_back sh dx a f) idx.
  Proof.
    intro H. unfold deriv_back, roll.
    rewrite !(coord_shift_other sh idx a b), !(coord_shift_other sh idx b a) by lia.
    rewrite !(shift_ix_comm sh idx a b) by exact H.
    destruct dx; rewrite ?fdiv_def; ring.
  Qed.
  Lemma deriv_fb_comm sh dx dx' a b f idx : a <> b ->
    deriv_forward sh dx a (deriv_back sh dx' b f) idx = deriv_back sh dx' b (deriv_forward sh dx a f) idx.
  Proof.
    intro H. unfold deriv_back, deriv_forward, roll.
    rewrite !(coord_shift_other sh idx a b), !(coord_shift_other sh idx b a) by lia.
    rewrite !(shift_ix_comm sh idx a b) by exact H.
    destruct dx, dx'; rewrite ?fdiv_def; ring.
  Qed.

  Lemma div_curl_forward sh dx F idx :
    deriv_forward sh dx 0 (curl_forward sh dx F 0) idx
    + deriv_forward sh dx 1 (curl_forward sh dx F 1) idx
    + deriv_forward sh dx 2 (curl_forward sh dx F 2) idx = 0.
  Proof.
    unfold curl_forward, curl_with. rewrite !deriv_forward_sub.
    rewrite (deriv_forward_comm sh dx 1 0), (deriv_forward_comm sh dx 2 0), (deriv_forward_comm sh dx 2 1) by lia.
    ring.
  Qed.
  Lemma div_curl_back sh dx F idx :
    deriv_back sh dx 0 (curl_back sh dx F 0) idx
    + deriv_back sh dx 1 (curl_back sh dx F 1) idx
    + deriv_back sh dx 2 (curl_back sh dx F 2) idx = 0.
  Proof.
    unfold curl_back, curl_with. rewrite !deriv_back_sub.
    rewrite (deriv_back_comm sh dx 1 0), (deriv_back_comm sh dx 2 0), (deriv_back_comm sh dx 2 1) by lia.
    ring.
  Qed.
  Lemma curl_grad_forward sh dx f c idx :
    curl_forward sh dx (fun a => deriv_forward sh dx a f) c idx = 0.
  Proof.
    unfold curl_forward, curl_with. destruct c as [|[|[|c]]]; try reflexivity.
    - rewrite (deriv_forward_comm sh dx 1 2) by lia. ring.
    - rewrite (deriv_forward_comm sh dx 2 0) by lia. ring.
    - rewrite (deriv_forward_comm sh dx 0 1) by lia. ring.
  Qed.
  Lemma curl_grad_back sh dx f c idx :
    curl_back sh dx (fun a => deriv_back sh dx a f) c idx = 0.
  Proof.
    unfold curl_back, curl_with. destruct c as [|[|[|c]]]; try reflexivity.
    - rewrite (deriv_back_comm sh dx 1 2) by lia. ring.
    - rewrite (deriv_back_comm sh dx 2 0) by lia. ring.
    - rewrite (deriv_back_comm sh dx 0 1) by lia. ring.
  Qed.

  (** ** Summation by parts *)
  (** Unweighted: sum g * (roll f - f) = - sum f * (g - roll g). *)
  Lemma sum_by_parts_raw sh a f g : (a < length sh)%nat ->
    gsum sh (fun idx => g idx * deriv_forward sh None a f idx)
    = - gsum sh (fun idx => f idx * deriv_back sh None a g idx).
  Proof.
    intro Ha. unfold deriv_forward, deriv_back, roll.
    rewrite <- gsum_opp.
    transitivity (gsum sh (fun idx => g idx * f (shift_ix sh a 1 idx)) - gsum sh (fun idx => g idx * f idx)).
    { rewrite <- gsum_sub. apply gsum_ext. intros idx _. change (Z.opp (-1)) with 1%Z. ring. }
    transitivity (gsum sh (fun idx => f idx * g (shift_ix sh a (-1) idx)) - gsum sh (fun idx => f idx * g idx)).
    2:{ rewrite <- gsum_sub. apply gsum_ext. intros idx _. change (Z.opp 1) with (-1)%Z. ring. }
    f_equal; [|apply gsum_ext; intros; ring].
    rewrite <- (gsum_shift sh a 1 (fun idx => f idx * g (shift_ix sh a (-1) idx))) by exact Ha.
    apply gsum_ext. intros idx Hi. rewrite (shift_ix_pn sh idx a Hi Ha). ring.
  Qed.

  (** Weighted by any per-cell weights that do not depend on coordinate [a]. *)
  Lemma sum_by_parts sh a (we wh : widths K) (W : arr K) f g : (a < length sh)%nat ->
    (forall idx, inb sh idx -> W (shift_ix sh a 1 idx) = W idx) ->
    (forall i, (i < dim sh a)%nat -> we a i <> 0) -> (forall i, (i < dim sh a)%nat -> wh a i <> 0) ->
    gsum sh (fun idx => W idx * we a (coord idx a) * (g idx * deriv_forward sh (Some we) a f idx))
    = - gsum sh (fun idx => W idx * wh a (coord idx a) * (f idx * deriv_back sh (Some wh) a g idx)).
  Proof.
    intros Ha HW He Hh.
    transitivity (gsum sh (fun idx => (W idx * g idx) * deriv_forward sh None a f idx)).
    { apply gsum_ext. intros idx Hi. unfold deriv_forward.
      specialize (He _ (inb_coord sh idx a Hi Ha)). field. exact He. }
    rewrite (sum_by_parts_raw sh a f (fun idx => W idx * g idx)) by exact Ha.
    f_equal. apply gsum_ext. intros idx Hi. unfold deriv_back, roll.
    specialize (Hh _ (inb_coord sh idx a Hi Ha)).
    assert (E : W (shift_ix sh a (-1) idx) = W idx).
    { rewrite <- (HW (shift_ix sh a (-1) idx)) by now apply inb_shift.
      rewrite (shift_ix_np sh idx a Hi Ha). reflexivity. }
    change (Z.opp 1) with (-1)%Z. rewrite E. field. exact Hh.
  Qed.

  (** The sum of a derivative (without widths) over the grid vanishes. *)
  Lemma gsum_deriv_back0 sh a f : (a < length sh)%nat ->
    gsum sh (deriv_back sh None a f) = 0.
  Proof.
    intro Ha. unfold deriv_back, roll. rewrite gsum_sub, gsum_shift by exact Ha. ring.
  Qed.
  Lemma gsum_deriv_forward0 sh a f : (a < length sh)%nat ->
    gsum sh (deriv_forward sh None a f) = 0.
  Proof.
    intro Ha. unfold deriv_forward, roll. rewrite gsum_sub, gsum_shift by exact Ha. ring.
  Qed.
End P.
