(** Masks, Poynting operators, TFSF and boundary sources, the solver wrapper. *)
From Coq Require Import List Arith ZArith Lia Field Bool.
From Verif.Lib Require Import Num Sums Idx Mat.
From Verif.Model Require Import Fdmath Fdtd Fdfd.
From Verif.Spec Require Import Yee FdfdSpec.
From Verif.Proofs Require Import FdmathP FdmathP2 FdfdP FdfdP2.
From Verif.Proofs Require Import GridP.
Import ListNotations.
Local Open Scope fld_scope.

Section P3.
  Variable K : CFld.
  Add Field Kfield : (fth K).
  Implicit Types (x : vect K) (sh : list nat) (om : K) (d : dx2 K) (eps : vect K)
    (pec pmc : option (vect K)) (sqrt : K -> K).

  (** *** Masks (C27) *)
  Lemma mv_zero_v n (A : mat K) x i : (forall q, (q < n)%nat -> x q = 0) -> mv n A x i = 0.
  Proof. intro H. unfold mv. apply sumN_zero. intros q Hq. rewrite H by exact Hq. ring. Qed.

  Lemma keep_unit m s q : hidden (K := K) m s -> keep m q * ind (Nat.eqb q s) = (0 : K).
  Proof.
    intro H. destruct (Nat.eqb_spec q s) as [->|Hne]; cbn [ind].
    - rewrite keep_hidden by exact H. ring.
    - unfold ind. ring.
  Qed.

  Lemma e_full_hidden sh om d eps mu pec pmc r s :
    (r < 3 * prodl sh)%nat -> (s < 3 * prodl sh)%nat -> hidden pec r \/ hidden pec s ->
    e_full_mat sh om d eps mu pec pmc r s = 0.
  Proof.
    intros Hr Hs H. rewrite <- (mv_unit K (3 * prodl sh) _ s r Hs). rewrite mv_e_full by exact Hr.
    destruct H as [H|H].
    - rewrite keep_hidden by exact H. ring.
    - rewrite (mv_zero_v _ (curl_back_mat sh (snd d))).
      + rewrite keep_unit by exact H. ring.
      + intros q Hq. rewrite (mv_zero_v _ (curl_forward_mat sh (fst d))); [ring|].
        intros t Ht. now apply keep_unit.
  Qed.

  Lemma h_full_hidden sh om d eps mu pec pmc r s :
    (r < 3 * prodl sh)%nat -> (s < 3 * prodl sh)%nat -> hidden pmc r \/ hidden pmc s ->
    h_full_mat sh om d eps mu pec pmc r s = 0.
  Proof.
    intros Hr Hs H. rewrite <- (mv_unit K (3 * prodl sh) _ s r Hs). rewrite mv_h_full by exact Hr.
    destruct H as [H|H].
    - rewrite keep_hidden by exact H. ring.
    - rewrite (mv_zero_v _ (curl_forward_mat sh (fst d))).
      + rewrite keep_unit by exact H. ring.
      + intros q Hq. rewrite (mv_zero_v _ (curl_back_mat sh (snd d))); [ring|].
        intros t Ht. now apply keep_unit.
  Qed.

  Lemma unit_cat_l n s q : (s < n)%nat -> (q < 2 * n)%nat ->
    ind (Nat.eqb q s) = cat (K := K) n (fun t => ind (Nat.eqb t s)) (fun _ => 0) q.
  Proof.
    intros Hs Hq. unfold cat. destruct (Nat.ltb_spec q n) as [Hl|Hg]; [reflexivity|].
    destruct (Nat.eqb_spec q s); [lia|reflexivity].
  Qed.
  Lemma unit_cat_r n s q : (s < n)%nat -> (q < 2 * n)%nat ->
    ind (Nat.eqb q (n + s)) = cat (K := K) n (fun _ => 0) (fun t => ind (Nat.eqb t s)) q.
  Proof.
    intros Hs Hq. unfold cat. destruct (Nat.ltb_spec q n) as [Hl|Hg].
    - destruct (Nat.eqb_spec q (n + s)); [lia|reflexivity].
    - destruct (Nat.eqb_spec q (n + s)), (Nat.eqb_spec (q - n) s); try lia; reflexivity.
  Qed.

  Lemma eh_full_hidden sh om d eps (mu : vect K) pec pmc A r s :
    eh_full_mat sh om d eps (Some mu) pec pmc = Ok A ->
    let n := (3 * prodl sh)%nat in
    (r < n)%nat -> (s < 2 * n)%nat ->
    (hidden pec r -> A r s = 0 /\ A s r = 0) /\ (hidden pmc r -> A (n + r)%nat s = 0 /\ A s (n + r)%nat = 0).
  Proof.
    intros HA n Hr Hs.
    assert (Row : forall x, exists E H, forall q, (q < 2 * n)%nat -> x q = cat n E H q).
    { intro x. exists x, (fun q => x (n + q)%nat). intros q Hq. unfold cat.
      destruct (Nat.ltb_spec q n); [reflexivity|]. f_equal. lia. }
    assert (EQ : forall E H i, (i < n)%nat -> 
        mv (2 * n) A (cat n E H) i
        = - (keep pec i * (im * om * (eps i * (keep pec i * E i))))
          + keep pec i * mv n (curl_back_mat sh (snd d)) (fun q => keep pmc q * H q) i
      /\ mv (2 * n) A (cat n E H) (n + i)%nat
        = keep pmc i * mv n (curl_forward_mat sh (fst d)) (fun q => keep pec q * E q) i
          + keep pmc i * (im * om * (mu i * (keep pmc i * H i)))).
    { intros E H i Hi. destruct (mv_eh_full K sh om d eps mu pec pmc E H) as (A' & HA' & EQ).
      rewrite HA in HA'. injection HA' as <-. now apply EQ. }
    split; intro Hh; split.
    - rewrite <- (mv_unit K (2 * n) A s r Hs).
      destruct (Row (fun k => ind (Nat.eqb k s))) as (E & H & X).
      rewrite (mv_ext_v K _ _ _ _ r X). destruct (EQ E H r Hr) as [-> _].
      rewrite keep_hidden by exact Hh. ring.
    - rewrite <- (mv_unit K (2 * n) A r s) by lia.
      rewrite (mv_ext_v K _ _ _ _ s (fun q Hq => unit_cat_l n r q Hr Hq)).
      destruct (Nat.lt_ge_cases s n) as [Hl|Hg].
      + destruct (EQ (fun t => ind (Nat.eqb t r)) (fun _ => 0) s Hl) as [-> _].
        rewrite keep_unit by exact Hh. rewrite mv_zero_v by (intros; ring). ring.
      + replace s with (n + (s - n))%nat by lia.
        destruct (EQ (fun t => ind (Nat.eqb t r)) (fun _ => 0) (s - n)%nat ltac:(lia)) as [_ ->].
        rewrite mv_zero_v by (intros; now apply keep_unit). ring.
    - rewrite <- (mv_unit K (2 * n) A s (n + r)%nat Hs).
      destruct (Row (fun k => ind (Nat.eqb k s))) as (E & H & X).
      rewrite (mv_ext_v K _ _ _ _ _ X). destruct (EQ E H r Hr) as [_ ->].
      rewrite keep_hidden by exact Hh. ring.
    - rewrite <- (mv_unit K (2 * n) A (n + r)%nat s) by lia.
      rewrite (mv_ext_v K _ _ _ _ s (fun q Hq => unit_cat_r n r q Hr Hq)).
      destruct (Nat.lt_ge_cases s n) as [Hl|Hg].
      + destruct (EQ (fun _ => 0) (fun t => ind (Nat.eqb t r)) s Hl) as [-> _].
        rewrite mv_zero_v by (intros; now apply keep_unit). ring.
      + replace s with (n + (s - n))%nat by lia.
        destruct (EQ (fun _ => 0) (fun t => ind (Nat.eqb t r)) (s - n)%nat ltac:(lia)) as [_ ->].
        rewrite keep_unit by exact Hh. rewrite mv_zero_v by (intros; ring). ring.
  Qed.

  (** Rows of components that are not PEC: Ampere's law with H from Faraday's
      law, H being zero on PMC and E zero on PEC. *)
  Lemma e_full_shown sh om d eps mu pec pmc E r : om <> 0 -> (r < 3 * prodl sh)%nat -> ~ hidden pec r ->
    mv (3 * prodl sh) (e_full_mat sh om d eps mu pec pmc) E r
    = - im * om * (mv (3 * prodl sh) (curl_back_mat sh (snd d))
                      (mv (3 * prodl sh) (e2h_mat sh om d mu pmc) (clear pec E)) r
                   - im * om * (eps r * E r)).
  Proof.
    intros Hom Hr Hd. rewrite mv_e_full by exact Hr. rewrite keep_shown by exact Hd.
    rewrite (mv_ext_v K _ (curl_back_mat sh (snd d)) (mv (3 * prodl sh) (e2h_mat sh om d mu pmc) (clear pec E))
      (fun q => (1 / (- im * om)) * (keep pmc q * (minv K mu q *
        mv (3 * prodl sh) (curl_forward_mat sh (fst d)) (fun s => keep pec s * E s) q)))).
    2:{ intros q Hq. rewrite mv_e2h by exact Hq.
        rewrite (mv_ext_v K _ (curl_forward_mat sh (fst d)) (clear pec E) (fun s => keep pec s * E s))
          by (intros; apply clear_keep). ring. }
    rewrite mv_lin_scale.
    generalize (mv (3 * prodl sh) (curl_back_mat sh (snd d))
     (fun q => keep pmc q * (minv K mu q * mv (3 * prodl sh) (curl_forward_mat sh (fst d))
           (fun s => keep pec s * E s) q)) r). intro u.
    transitivity (u + (im * om) * (im * om) * (eps r * E r)).
    - rewrite iw_sq. ring.
    - field; splits; first [apply im_nz | exact Hom | apply fopp_nz; apply im_nz].
  Qed.

  Lemma e2h_hidden sh om d mu pmc E r : (r < 3 * prodl sh)%nat -> hidden pmc r ->
    mv (3 * prodl sh) (e2h_mat sh om d mu pmc) E r = 0.
  Proof. intros Hr H. rewrite mv_e2h by exact Hr. rewrite keep_hidden by exact H. ring. Qed.

  (** *** Poynting operators (C28) *)
  Lemma dx_concat_at sh (w : widths K) c p : (p < prodl sh)%nat ->
    dx_concat sh w (c * prodl sh + p)%nat = w c (coord (unravel sh p) c).
  Proof. intro Hp. unfold dx_concat. now rewrite block_div, block_mod. Qed.

  Lemma split_dx_vec sh (w : widths K) F c p : (p < prodl sh)%nat ->
    split_dx sh w (vec sh F) c p = F c (unravel sh p) * w c (coord (unravel sh p) c).
  Proof. intro Hp. unfold split_dx. now rewrite vec_at. Qed.

  Lemma mv_blocks3 N (B : nat -> nat -> mat K) x c p : (c < 3)%nat -> (p < N)%nat ->
    mv (3 * N) (mblock N N B) x (c * N + p)%nat
    = mv N (B c 0%nat) (fun q => x (0 * N + q)%nat) p + mv N (B c 1%nat) (fun q => x (1 * N + q)%nat) p
      + mv N (B c 2%nat) (fun q => x (2 * N + q)%nat) p.
  Proof.
    intros Hc Hp. rewrite mv_mblock. rewrite block_div, block_mod by exact Hp. cbn [sumN]. ring.
  Qed.

  Lemma poynting_e_cross_agree sh d e h c p : length sh = 3%nat -> (c < 3)%nat -> (p < prodl sh)%nat ->
    mv (3 * prodl sh) (poynting_e_cross_mat sh (vec sh e) d) (vec sh h) (c * prodl sh + p)%nat
    = poynting_e_cross_h_f sh d e h c (unravel sh p).
  Proof.
    intros HL Hc Hp. unfold poynting_e_cross_mat. rewrite mv_mm, mv_blocks3 by assumption.
    assert (Hin := inb_unravel sh p Hp).
    assert (X : forall b q, (b < 3)%nat -> (q < prodl sh)%nat ->
        mv (3 * prodl sh) (mdiag (dx_concat sh (snd d))) (vec sh h) (b * prodl sh + q)%nat
        = snd d b (coord (unravel sh q) b) * h b (unravel sh q)).
    { intros b q Hb Hq. rewrite mv_mdiag by now apply lt3. now rewrite dx_concat_at, vec_at. }
    assert (Y : forall a b, (a < 3)%nat ->
        mv (prodl sh) (shift_circ_mat a sh 1) (split_dx sh (fst d) (vec sh e) b) p
        = roll sh (-1) a (fun idx => e b idx * fst d b (coord idx b)) (unravel sh p)).
    { intros a b Ha. rewrite mv_shift_circ by (try lia; assumption).
      rewrite split_dx_vec by (apply sflat_lt; [lia|exact Hp]).
      unfold sflat, roll. rewrite unravel_ravel by (apply inb_shift; [exact Hin|lia]). reflexivity. }
    assert (Z0 : forall a b, (a < 3)%nat ->
        mv (prodl sh) (shift_circ_mat a sh 1) (fun q => - split_dx sh (fst d) (vec sh e) b q) p
        = - roll sh (-1) a (fun idx => e b idx * fst d b (coord idx b)) (unravel sh p)).
    { intros a b Ha. rewrite mv_lin_opp. now rewrite Y. }
    destruct c as [|[|[|c]]]; try lia; cbn beta iota; rewrite ?mv_mzero, !(mv_mdiag K (prodl sh)) by exact Hp;
      rewrite ?Y, ?Z0, ?X by (try lia; assumption); unfold poynting_e_cross_h_f; cbv beta iota zeta; ring.
  Qed.

  Lemma poynting_h_cross_agree sh d e h c p : length sh = 3%nat -> (c < 3)%nat -> (p < prodl sh)%nat ->
    mv (3 * prodl sh) (poynting_h_cross_mat sh (vec sh h) d) (vec sh e) (c * prodl sh + p)%nat
    = - poynting_e_cross_h_f sh d e h c (unravel sh p).
  Proof.
    intros HL Hc Hp. unfold poynting_h_cross_mat. rewrite mv_mm, mv_blocks3 by assumption.
    assert (Hin := inb_unravel sh p Hp).
    assert (Y : forall a b, (a < 3)%nat -> (b < 3)%nat ->
        mv (prodl sh) (shift_circ_mat a sh 1)
           (fun q => mv (3 * prodl sh) (mdiag (dx_concat sh (fst d))) (vec sh e) (b * prodl sh + q)%nat) p
        = roll sh (-1) a (fun idx => e b idx * fst d b (coord idx b)) (unravel sh p)).
    { intros a b Ha Hb. rewrite mv_shift_circ by (try lia; assumption).
      assert (Hs : (sflat sh a 1 p < prodl sh)%nat) by (apply sflat_lt; [lia|exact Hp]).
      rewrite mv_mdiag by now apply lt3. rewrite dx_concat_at, vec_at by exact Hs.
      unfold sflat, roll. rewrite unravel_ravel by (apply inb_shift; [exact Hin|lia]). 
      match goal with |- ?u * ?v = _ => transitivity (v * u); [ring|reflexivity] end. }
    destruct c as [|[|[|c]]]; try lia; cbn beta iota; rewrite ?mv_mzero, !mv_mm, ?mv_mopp, !(mv_mdiag K (prodl sh)) by exact Hp;
      rewrite !split_dx_vec by exact Hp; rewrite ?Y by lia; unfold poynting_e_cross_h_f; cbv beta iota zeta; ring.
  Qed.

  (** *** TFSF source (C29) *)
  Lemma tfsf_masked_solution sh Q om d eps mu E : om <> 0 ->
    let n := (3 * prodl sh)%nat in
    let A := e_full_mat sh om d eps mu None None in
    (forall r, (r < n)%nat -> mv n A E r = 0) ->
    forall r, (r < n)%nat ->
      mv n A (fun q => Q q * E q) r = - im * om * mv n (e_tfsf_source_mat sh Q om d eps mu) E r.
  Proof.
    intros Hom n A HE r Hr. unfold n. rewrite mv_tfsf by exact Hr. fold n A. rewrite (HE r Hr).
    field; splits; first [apply im_nz | exact Hom | apply fopp_nz; apply im_nz].
  Qed.

  Lemma wave_e_const_mask sh om (we wh : widths K) (eps : field K) mu (Q F : field K) c idx : length sh = 3%nat ->
    inb sh idx -> (c < 3)%nat ->
    (forall c' i', (c' < 3)%nat -> stencil sh idx i' -> Q c' i' = Q c idx) ->
    wave_e sh om we wh eps mu (fun c' i' => Q c' i' * F c' i') c idx = Q c idx * wave_e sh om we wh eps mu F c idx.
  Proof.
    intros HL Hi Hc HQ.
    assert (Q0 : forall c', (c' < 3)%nat -> Q c' idx = Q c idx).
    { intros c' Hc'. apply HQ; [exact Hc'|now left]. }
    assert (Q1 : forall c' a, (c' < 3)%nat -> (a < 3)%nat -> Q c' (shift_ix sh a 1 idx) = Q c idx).
    { intros c' a Hc' Ha. apply HQ; [exact Hc'|right]. exists a, 0%nat. split; [exact Ha|]. split; [lia|]. now left. }
    assert (Q2 : forall c' a, (c' < 3)%nat -> (a < 3)%nat -> Q c' (shift_ix sh a (-1) idx) = Q c idx).
    { intros c' a Hc' Ha. apply HQ; [exact Hc'|right]. exists 0%nat, a. split; [lia|]. split; [exact Ha|]. right. now left. }
    assert (Q3 : forall c' a b, (c' < 3)%nat -> (a < 3)%nat -> (b < 3)%nat ->
              Q c' (shift_ix sh a 1 (shift_ix sh b (-1) idx)) = Q c idx).
    { intros c' a b Hc' Ha Hb. apply HQ; [exact Hc'|right]. exists a, b. split; [exact Ha|]. split; [exact Hb|]. right. now right. }
    generalize dependent (Q c idx). intros q0 HQ Q0 Q1 Q2 Q3.
    unfold wave_e. to_model. unfold curl_back, curl_forward, curl_with, deriv_back, deriv_forward, roll.
    change (- (1))%Z with (-1)%Z. change (- -1)%Z with 1%Z.
    destruct c as [|[|[|c]]]; try lia; cbn beta iota zeta; rewrite !fdiv_def;
      rewrite ?Q1, ?Q2, ?Q3 by lia; rewrite ?Q0 by lia; ring.
  Qed.

  (** *** Boundary source (C30) *)
  Lemma neighbour_in sh per a e idx : inb sh idx -> (a < length sh)%nat -> inb sh (neighbour sh per a e idx).
  Proof.
    intros Hi Ha. unfold neighbour. destruct per; [now apply inb_shift|].
    destruct (Z.leb_spec 0 (Z.of_nat (coord idx a) + e)), (Z.ltb_spec (Z.of_nat (coord idx a) + e) (Z.of_nat (dim sh a)));
      cbn [andb]; try exact Hi. apply inb_upd; [exact Hi|lia].
  Qed.

  Lemma mirror_neighbour sh a e idx : inb sh idx -> (a < length sh)%nat -> (e = 1 \/ e = -1)%Z ->
    upd a (Z.to_nat (mirrored (dim sh a) e (coord idx a))) idx = neighbour sh false a e idx.
  Proof.
    intros Hi Ha He. pose proof (inb_coord sh idx a Hi Ha) as Hc. unfold neighbour, mirrored.
    destruct (Z.leb_spec 0 (Z.of_nat (coord idx a) + e)) as [A1|A1],
             (Z.ltb_spec (Z.of_nat (coord idx a) + e) (Z.of_nat (dim sh a))) as [A2|A2]; cbn [andb].
    - destruct (Z.leb_spec (Z.of_nat (dim sh a)) (Z.of_nat (coord idx a) + e)); [lia|].
      destruct (Z.ltb_spec (Z.of_nat (coord idx a) + e) 0); [lia|reflexivity].
    - destruct (Z.leb_spec (Z.of_nat (dim sh a)) (Z.of_nat (coord idx a) + e)); [|lia].
      destruct (Z.ltb_spec (2 * Z.of_nat (dim sh a) - (Z.of_nat (coord idx a) + e) - 1) 0); [lia|].
      transitivity (upd a (coord idx a) idx); [f_equal; lia|apply upd_coord].
    - destruct (Z.leb_spec (Z.of_nat (dim sh a)) (Z.of_nat (coord idx a) + e)); [lia|].
      destruct (Z.ltb_spec (Z.of_nat (coord idx a) + e) 0); [|lia].
      transitivity (upd a (coord idx a) idx); [f_equal; lia|apply upd_coord].
    - lia.
  Qed.

  (** One step of the loop: the previous flag, or "the mask changes". *)
  Definition step_flag sh per (Q : field K) (ax e : Z) (c : nat) (idx : list nat) : bool :=
    negb (Nat.eqb (dim sh (Z.to_nat ax)) 1)
    && negb (feqb (Q c (neighbour sh per (Z.to_nat ax) e idx)) (Q c idx)).

  Lemma jmask_step_ok sh per (Q : field K) jm ax e : length sh = 3%nat -> (0 < prodl sh)%nat ->
    (forall a, (a < 3)%nat -> (0 < dim sh a)%nat) ->
    (0 <= ax < 3)%Z -> (e = 1 \/ e = -1)%Z ->
    exists jm', jmask_step sh per (vec sh Q) (Ok jm) (ax, e) = Ok jm' /\
      forall c idx, (c < 3)%nat -> inb sh idx ->
        jm' (c * prodl sh + ravel sh idx)%nat
        = jm (c * prodl sh + ravel sh idx)%nat || step_flag sh per Q ax e c idx.
  Proof.
    intros HL HN Hd Hax He. unfold jmask_step, step_flag. cbn [fst snd].
    destruct (Nat.eqb_spec (dim sh (Z.to_nat ax)) 1) as [E1|E1].
    { eexists. split; [reflexivity|]. intros. cbn [negb andb]. now rewrite orb_false_r. }
    cbn [negb andb].
    assert (Ha : (Z.to_nat ax < length sh)%nat) by lia.
    assert (Hn := Hd (Z.to_nat ax) ltac:(lia)).
    assert (S : exists s, (if per then shift_circ ax sh e else shift_with_mirror ax sh e) = Ok s /\
              forall x p, (p < prodl sh)%nat ->
                mv (prodl sh) s x p = x (ravel sh (neighbour sh per (Z.to_nat ax) e (unravel sh p)))).
    { destruct per.
      - eexists. split; [apply (shift_circ_ok K); lia|]. intros x p Hp.
        rewrite mv_shift_circ by assumption. reflexivity.
      - eexists. split; [apply (shift_mirror_ok K); lia|]. intros x p Hp.
        rewrite mv_shift_mirror by (try assumption; lia).
        rewrite mirror_neighbour by (try assumption; now apply inb_unravel). reflexivity. }
    destruct S as (s & -> & Hs). eexists. split; [reflexivity|]. intros c idx Hc Hi. cbv beta zeta.
    assert (Hp := ravel_lt sh idx Hi).
    assert (V : mv (3 * prodl sh) (block_diag3 (prodl sh) (msub s mid)) (vec sh Q) (c * prodl sh + ravel sh idx)%nat
                = Q c (neighbour sh per (Z.to_nat ax) e idx) - Q c idx).
    { unfold block_diag3. rewrite mv_blocks3 by assumption.
      assert (T : mv (prodl sh) (msub s mid) (fun q => vec sh Q (c * prodl sh + q)%nat) (ravel sh idx)
                  = Q c (neighbour sh per (Z.to_nat ax) e idx) - Q c idx).
      { rewrite mv_msub, mv_mid, Hs by exact Hp. rewrite unravel_ravel by exact Hi.
        rewrite !vec_offset; [reflexivity|exact Hi|now apply neighbour_in]. }
      destruct c as [|[|[|c]]]; try lia; cbn [Nat.eqb]; rewrite !mv_mzero, T; ring. }
    rewrite V. f_equal. f_equal. unfold feqb.
    destruct (feq_dec (Q c (neighbour sh per (Z.to_nat ax) e idx) - Q c idx) 0) as [Z0|Z0],
             (feq_dec (Q c (neighbour sh per (Z.to_nat ax) e idx)) (Q c idx)) as [Z1|Z1]; try reflexivity.
    - elim Z1. now apply fsub_eq0.
    - elim Z0. rewrite Z1. ring.
  Qed.

  Lemma prodl_dims sh a : (0 < prodl sh)%nat -> (a < length sh)%nat -> (0 < dim sh a)%nat.
  Proof.
    revert a. induction sh as [|n ns IH]; intros a; cbn; [lia|]. intros H Ha.
    destruct a as [|a]; cbn; [nia|]. apply IH; nia.
  Qed.

  Lemma jmask_ok sh per (Q : field K) : length sh = 3%nat -> (0 < prodl sh)%nat ->
    exists jm, jmask sh per (vec sh Q) = Ok jm /\
      forall c idx, (c < 3)%nat -> inb sh idx ->
        (jm (c * prodl sh + ravel sh idx)%nat = true <-> on_edge sh per Q c idx).
  Proof.
    intros HL HN.
    assert (Hd : forall a, (a < 3)%nat -> (0 < dim sh a)%nat) by (intros; apply prodl_dims; lia).
    unfold jmask. cbn [fold_left].
    destruct (jmask_step_ok sh per Q (fun _ => false) 0 (-1) HL HN Hd ltac:(lia) ltac:(lia)) as (j1 & E1 & F1).
    rewrite E1.
    destruct (jmask_step_ok sh per Q j1 0 1 HL HN Hd ltac:(lia) ltac:(lia)) as (j2 & E2 & F2). rewrite E2.
    destruct (jmask_step_ok sh per Q j2 1 (-1) HL HN Hd ltac:(lia) ltac:(lia)) as (j3 & E3 & F3). rewrite E3.
    destruct (jmask_step_ok sh per Q j3 1 1 HL HN Hd ltac:(lia) ltac:(lia)) as (j4 & E4 & F4). rewrite E4.
    destruct (jmask_step_ok sh per Q j4 2 (-1) HL HN Hd ltac:(lia) ltac:(lia)) as (j5 & E5 & F5). rewrite E5.
    destruct (jmask_step_ok sh per Q j5 2 1 HL HN Hd ltac:(lia) ltac:(lia)) as (j6 & E6 & F6).
    exists j6. split; [exact E6|]. intros c idx Hc Hi.
    rewrite F6, F5, F4, F3, F2, F1 by assumption. cbn [orb].
    unfold step_flag. change (Z.to_nat 0) with 0%nat. change (Z.to_nat 1) with 1%nat. change (Z.to_nat 2) with 2%nat.
    assert (S : forall a e, negb (Nat.eqb (dim sh a) 1) && negb (feqb (Q c (neighbour sh per a e idx)) (Q c idx)) = true
        <-> (dim sh a <> 1%nat /\ Q c (neighbour sh per a e idx) <> Q c idx)).
    { intros a e. rewrite andb_true_iff, !negb_true_iff, Nat.eqb_neq, feqb_false. tauto. }
    rewrite !orb_true_iff, !S. unfold on_edge. split.
    - intros [[[[[H|H]|H]|H]|H]|H]; destruct H as [Ha Hb];
        [exists 0%nat, (-1)%Z|exists 0%nat, 1%Z|exists 1%nat, (-1)%Z|exists 1%nat, 1%Z|exists 2%nat, (-1)%Z|exists 2%nat, 1%Z];
        (split; [lia|split; [lia|split; assumption]]).
    - intros (a & e & Ha & [He|He] & Hb & Hq); subst e; destruct a as [|[|[|a]]]; try lia; tauto.
  Qed.

  Lemma mdiag_row n (v : vect K) (A : mat K) x r : (r < n)%nat ->
    mv n (mm n (mdiag v) A) x r = v r * mv n A x r.
  Proof. intro Hr. now rewrite mv_mm, mv_mdiag. Qed.

  (** *** solvers.generic (C31) *)
  Lemma mv_conj_tr_diag n (v : vect K) x r : (r < n)%nat -> mv n (conj_tr (mdiag v)) x r = conj (v r) * x r.
  Proof.
    intro Hr. unfold mv, conj_tr, mdiag.
    transitivity (sumN n (fun j => ind (Nat.eqb r j) * (conj (v j) * x j))).
    - apply sumN_ext. intros j Hj. rewrite conj_mul.
      rewrite (Nat.eqb_sym j r). destruct (Nat.eqb r j); cbn [ind]; rewrite ?conj_one, ?conj_zero; ring.
    - now apply (sumN_ind_l' K n r (fun j => conj (v j) * x j)).
  Qed.

  Lemma conj_tr_mm n (A B : mat K) i j : conj_tr (mm n A B) i j = mm n (conj_tr B) (conj_tr A) i j.
  Proof.
    unfold conj_tr, mm. rewrite conj_sumN. apply sumN_ext. intros k Hk. rewrite conj_mul. ring.
  Qed.

  Lemma mv_zero_diag n (v x : vect K) i : (n <= i)%nat -> mv n (mdiag v) x i = 0.
  Proof.
    intro H. unfold mv, mdiag. apply sumN_zero. intros j Hj.
    destruct (Nat.eqb_spec i j); [lia|]. unfold ind. ring.
  Qed.

  (** Scaling rows and columns by invertible diagonals. *)
  Lemma precond_solve n (A : mat K) (p : vect K) (b x : vect K) : (forall q, (q < n)%nat -> p q <> 0) ->
    let Pl := mdiag p in let Pr := mdiag (fun q => 1 / p q) in
    (forall r, (r < n)%nat -> mv n (mm n (mm n Pl A) Pr) x r = mv n Pl b r) ->
    forall r, (r < n)%nat -> mv n A (mv n Pr x) r = b r.
  Proof.
    intros Hp Pl Pr H r Hr. specialize (H r Hr). rewrite !mv_mm in H. unfold Pl in H at 1 2.
    rewrite !mv_mdiag in H by exact Hr. now apply (fmul_cancel_l K (p r)); [apply Hp|].
  Qed.

  Lemma precond_solve_adj n (A : mat K) (p : vect K) (b x : vect K) : (forall q, (q < n)%nat -> p q <> 0) ->
    let Pl := mdiag p in let Pr := mdiag (fun q => 1 / p q) in
    (forall r, (r < n)%nat -> mv n (conj_tr (mm n (mm n Pl A) Pr)) x r = mv n (conj_tr Pr) b r) ->
    forall r, (r < n)%nat -> mv n (conj_tr A) (mv n (conj_tr Pl) x) r = b r.
  Proof.
    intros Hp Pl Pr H r Hr. specialize (H r Hr).
    assert (E : mv n (conj_tr (mm n (mm n Pl A) Pr)) x r
                = mv n (conj_tr Pr) (mv n (conj_tr A) (mv n (conj_tr Pl) x)) r).
    { assert (C : forall (X Y : mat K) z i, mv n (conj_tr (mm n X Y)) z i = mv n (conj_tr Y) (mv n (conj_tr X) z) i).
      { intros X Y z i. rewrite <- mv_mm. apply mv_ext; [|reflexivity]. intros; apply conj_tr_mm. }
      rewrite C. apply mv_ext_v. intros; apply C. }
    rewrite E in H. unfold Pr in H. rewrite !mv_conj_tr_diag in H by exact Hr.
    apply (fmul_cancel_l K (conj (1 / p r))); [|exact H].
    apply conj_nz. rewrite fdiv_def. apply fmul_nz; [apply f1nz|apply finv_nz; now apply Hp].
  Qed.
End P3.

(** Small field identities used by the property theorems. *)
Section Aux.
  Variable K : CFld.
  Add Field Kfield2 : (fth K).
  Lemma fsub_assoc_aux (u om e f : K) : u - om * om * e * f = u - om * om * (e * f).
  Proof. ring. Qed.
  Lemma fmul_1_l_aux (u : K) : 1 * u = u.
  Proof. ring. Qed.
  Lemma eh_aux1 (a om e f : K) : - (1 * (im * om * (e * (1 * f)))) + 1 * a = a - im * om * e * f.
  Proof. ring. Qed.
  Lemma eh_aux2 (a om e f : K) : 1 * a + 1 * (im * om * (e * (1 * f))) = a + im * om * e * f.
  Proof. ring. Qed.
  Lemma e2h_aux1 (a om m : K) : om <> 0 -> m <> 0 ->
    1 * (1 / m * (1 / (- im * om) * a)) = a / (- im * om * m).
  Proof. intros. field; splits; try assumption; first [apply im_nz | apply fopp_nz; apply im_nz]. Qed.
  Lemma e2h_aux2 (a om : K) : om <> 0 -> 1 * (1 * (1 / (- im * om) * a)) = a / (- im * om).
  Proof. intros. field; splits; try assumption; first [apply im_nz | apply fopp_nz; apply im_nz]. Qed.
  Lemma inv_inv_aux (m : K) : m <> 0 -> 1 / (1 / m) = m.
  Proof. intros. field; splits; try assumption. apply f1nz. Qed.
  Lemma diag_inv_aux (x : K) r s : x <> 0 -> x * (ind (Nat.eqb r s) * (1 / x)) = mid r s.
  Proof. intro. unfold mid. field. assumption. Qed.
  Lemma diag_inv_aux2 (x : K) r s (y : nat -> K) : x <> 0 -> (r = s -> y s = x) -> 1 / x * (ind (Nat.eqb r s) * y r) = mid r s.
  Proof. intros Hx H. unfold mid. destruct (Nat.eqb_spec r s) as [->|]; cbn [ind]; [rewrite H by reflexivity|]; field; assumption. Qed.
  Lemma sub_zero_div_aux (a b : K) : b <> 0 -> a - 0 / b = a.
  Proof. intro. field. assumption. Qed.
  Lemma add_zero_aux (a om : K) : - im * om * (a + 0) = - im * om * a.
  Proof. ring. Qed.
  Lemma zero_add_aux (a om : K) : - im * om * (0 + a) = - im * om * a.
  Proof. ring. Qed.
  Lemma opp_opp_aux (a : K) : - - a = a.
  Proof. ring. Qed.
  Lemma m2j_aux (a om : K) : om <> 0 -> a / (- im * om) = - (1 / (im * om) * a).
  Proof. intros. field; splits; try assumption; first [apply im_nz | apply fopp_nz; apply im_nz]. Qed.
  Lemma div_aux (a b : K) : 1 / b * a = a / b.
  Proof. rewrite !fdiv_def. ring. Qed.
  Lemma sign_aux (om u : K) : om <> 0 -> - im * om * - u = - im * om * u -> - u <> 0 -> False.
  Proof.
    intros Ho E Hu. apply Hu. assert (E2 : (2 * im * om) * u = 0).
    { transitivity (- im * om * - u - - im * om * u); [ring|]. rewrite E. ring. }
    destruct (fmul_integral K _ _ E2) as [H|H]; [|rewrite H; ring]. exfalso. revert H.
    apply fmul_nz; [apply fmul_nz; [apply f2nz|apply im_nz]|exact Ho].
  Qed.
  Lemma one_mid_aux (a om h : K) : a + im * om * 1 * h = a + im * om * h.
  Proof. ring. Qed.
  Lemma zero_mul_aux (a : K) : 0 * a = 0.
  Proof. ring. Qed.
  Lemma sub_self_div_aux (a b : K) : (a - a) / b = 0.
  Proof. rewrite fdiv_def. ring. Qed.
  Lemma tx_aux (c a o : K) : o = 1 -> a <> 0 -> c - o * o * (c / a * a) = 0.
  Proof. intros -> Ha. field. exact Ha. Qed.
  Lemma conj_inv_aux (p g : K) : p <> 0 -> conj p * (conj (1 / p) * g) = g.
  Proof.
    intro Hp. transitivity (conj (p * (1 / p)) * g); [rewrite conj_mul; ring|].
    replace (p * (1 / p)) with (1 : K) by (field; exact Hp). rewrite conj_one. ring.
  Qed.
  Lemma inv_mul_aux (p g : K) : p <> 0 -> 1 / p * (p * g) = g.
  Proof. intro. field. assumption. Qed.
End Aux.
