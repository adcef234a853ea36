(** The modes returned by eigsolve: independence, trace, comparison with the bands. *)
From Coq Require Import Reals List Arith ZArith Lia Lra Psatz Bool Field Sorted Permutation.
From Verif.Lib Require Import Num Sums Idx Mat RealF Elim BoxMin.
From Verif.Model Require Import Ndarray Bloch Eigensolvers BlochSolve.
From Verif.Spec Require Import BlochSpec EigenSpec BlochSolveSpec BandsSpec.
From Verif.Proofs Require Import EmeP EigensolversP BlochSolveP SpectralP MinMaxP MinMaxP2.
Import ListNotations.
Local Open Scope R_scope.

(** ** Independent lists of vectors *)
Lemma lincomb_app l l' i : lincomb (l ++ l') i = cadd (lincomb l i) (lincomb l' i).
Proof. induction l as [|(c & v) l IH]; cbn [lincomb app]; [apply cpx_ext; cbn; ring|]. rewrite IH. apply cpx_ext; cbn; ring. Qed.
Lemma lincomb_seq m (c : nat -> cpx) (f : nat -> vect CC) i : lincomb (map (fun j => (c j, f j)) (seq 0 m)) i = comb m (fun i j => f j i) c i.
Proof.
  induction m as [|m IH]; [reflexivity|]. rewrite seq_S, map_app, lincomb_app, IH. unfold comb. cbn [map lincomb sumN Nat.add]. apply cpx_ext; cbn; ring.
Qed.
Lemma lincomb_perm l l' i : Permutation l l' -> lincomb l i = lincomb l' i.
Proof.
  induction 1 as [|(c & v) l l' P IH|(c & v) (c' & v') l|l l' l'' P1 IH1 P2 IH2]; cbn [lincomb]; [reflexivity|now rewrite IH|apply cpx_ext; cbn; ring|congruence].
Qed.
Lemma independent_perm N vs vs' : Permutation vs vs' -> independent N vs -> independent N vs'.
Proof.
  intros P H l E Z p Hp. rewrite <- E in P. destruct (Permutation_map_inv _ _ P) as (l' & E' & P').
  apply (H l'); [now symmetry| |exact (Permutation_in _ P' Hp)]. intros i Hi. rewrite <- (lincomb_perm _ _ i P'). now apply Z.
Qed.
Lemma independent_seq N m f : independent N (map f (seq 0 m)) -> forall c, (forall i, (i < N)%nat -> comb m (fun i j => f j i) c i = c0) -> forall j, (j < m)%nat -> c j = c0.
Proof.
  intros H c Z j Hj. apply (H (map (fun j => (c j, f j)) (seq 0 m))) with (p := (c j, f j)).
  - now rewrite map_map.
  - intros i Hi. rewrite lincomb_seq. now apply Z.
  - apply in_map_iff. exists j. split; [reflexivity|]. apply in_seq. lia.
Qed.
Lemma list_seq {T : Type} (l : list T) d : l = map (fun j => nth j l d) (seq 0 (length l)).
Proof. induction l as [|x l IH]; [reflexivity|]. cbn [length map seq]. rewrite <- seq_shift, map_map. cbn [nth]. now f_equal. Qed.
Lemma seq_independent N m f : (forall c, (forall i, (i < N)%nat -> comb m (fun i j => f j i) c i = c0) -> forall j, (j < m)%nat -> c j = c0) -> independent N (map f (seq 0 m)).
Proof.
  intros H l E Z p Hp. assert (Lm : length l = m) by (rewrite <- (map_length snd), E, map_length; apply seq_length).
  set (d := (c0, fun _ => c0) : cpx * vect CC).
  assert (El : l = map (fun j => (fst (nth j l d), f j)) (seq 0 m)).
  { rewrite (list_seq l d) at 1. rewrite Lm. apply map_ext_in. intros j Hj. apply in_seq in Hj. rewrite (surjective_pairing (nth j l d)) at 1. f_equal.
    change (snd (nth j l d)) with (snd (nth j l d)). rewrite <- (map_nth snd), E. rewrite (nth_indep _ (snd d) (f O)) by (rewrite map_length, seq_length; lia).
    rewrite (map_nth f), seq_nth by lia. reflexivity. }
  set (c := fun j => fst (nth j l d)). assert (C : forall j, (j < m)%nat -> c j = c0).
  { apply H. intros i Hi. exact (eq_trans (eq_sym (lincomb_seq m c f i)) (eq_trans (f_equal (fun l => lincomb l i) (eq_sym El)) (Z i Hi))). }
  rewrite El in Hp. apply in_map_iff in Hp as (j & <- & Hj). apply in_seq in Hj. cbn [fst]. apply (C j). lia.
Qed.
Lemma fin_choice k (P : nat -> vect CC -> Prop) : (forall b, (b < k)%nat -> exists x, P b x) -> exists F : nat -> vect CC, forall b, (b < k)%nat -> P b (F b).
Proof.
  induction k as [|k IH]; intro H; [exists (fun _ _ => c0); intros; lia|]. destruct (IH (fun b Hb => H b ltac:(lia))) as (F & HF). destruct (H k ltac:(lia)) as (x & Hx).
  exists (fun b => if (b =? k)%nat then x else F b). intros b Hb. destruct (Nat.eqb_spec b k) as [->|]; [exact Hx|]. apply HF. lia.
Qed.
(** The trace is the sum of the eigenvalues. *)
Lemma trace_eig k (M V : mat CC) (lam : nat -> cpx) : (forall j, (j < k)%nat -> eigenpair k M (lam j) (col V j)) -> independent k (map (col V) (seq 0 k)) ->
  sumN (K := CC) k (fun i => M i i) = sumN (K := CC) k lam.
Proof.
  intros E Ind. pose proof (independent_seq k k (col V) Ind) as Inj.
  assert (Inj' : forall x, (forall i, (i < k)%nat -> mv (K := CC) k V x i = c0) -> forall j, (j < k)%nat -> x j = c0) by exact Inj.
  destruct (fin_choice k (fun b x => forall i, (i < k)%nat -> mv (K := CC) k V x i = if (i =? b)%nat then c1 else c0)) as (F & HF).
  { intros b Hb. exact (injective_surjective CC k V Inj' (fun i => if (i =? b)%nat then c1 else c0)). }
  set (R := (fun q i => F i q) : mat CC).
  assert (VR : forall i j, (i < k)%nat -> (j < k)%nat -> mm (K := CC) k V R i j = if (i =? j)%nat then c1 else c0) by (intros i j Hi Hj; exact (HF j Hj i Hi)).
  assert (RV : forall i j, (i < k)%nat -> (j < k)%nat -> mm (K := CC) k R V i j = if (i =? j)%nat then c1 else c0).
  { intros i j Hi Hj. apply csub_0. revert i Hi. apply (Inj' (fun i => csub (mm (K := CC) k R V i j) (if (i =? j)%nat then c1 else c0))). intros i Hi.
    transitivity (csub (mm (K := CC) k V (mm k R V) i j) (V i j)).
    - unfold mv. rewrite <- (delta_r k j (V i) Hj). refine (eq_trans _ (sumN_sub CC _ _ _)). apply (sumN_ext CC). intros. apply cpx_ext; cbn; ring.
    - rewrite <- (mm_assoc CC). assert (X : mm (K := CC) k (mm k V R) V i j = V i j).
      { unfold mm at 1. rewrite <- (delta_l k i (fun q => V q j) Hi). apply (sumN_ext CC). intros q Hq. now rewrite (VR i q Hi Hq). }
      rewrite X. apply cpx_ext; cbn; ring. }
  transitivity (sumN (K := CC) k (fun i => sumN (K := CC) k (fun q => cmul (cmul (lam q) (V i q)) (R q i)))).
  - apply (sumN_ext CC). intros i Hi. transitivity (mm (K := CC) k M (mm k V R) i i).
    + unfold mm at 1. rewrite <- (delta_r k i (M i) Hi). apply (sumN_ext CC). intros q Hq. now rewrite (VR q i Hq Hi).
    + rewrite <- (mm_assoc CC). unfold mm at 1. apply (sumN_ext CC). intros q Hq. exact (f_equal (fun t => cmul t (R q i)) (E q Hq i Hi)).
  - refine (eq_trans (sumN_swap CC _ _ _) _). apply (sumN_ext CC). intros q Hq. transitivity (cmul (lam q) (mm (K := CC) k R V q q)).
    + unfold mm. refine (eq_trans _ (sumN_mul_l CC _ _ _)). apply (sumN_ext CC). intros. apply cpx_ext; cbn; ring.
    + rewrite RV, Nat.eqb_refl by exact Hq. apply cpx_ext; cbn; ring.
Qed.

(** ** Ritz pairs and bands *)
Section RitzBands.
  Variables (N k : nat) (op : vect CC -> option (vect CC)) (Z : mat CC).
  Hypothesis HA : hermitian_op N op.
  Lemma ritz_cross l1 v1 l2 v2 : ritz_pair N k op Z l1 v1 -> ritz_pair N k op Z l2 v2 -> hdot N v1 (Af op v2) = cmul l2 (hdot N v1 v2).
  Proof.
    intros (_ & (c & S1) & _) (_ & _ & _ & A2 & E2 & _ & O2). unfold Af. rewrite E2. apply csub_0.
    rewrite <- hdot_scale_r, <- hdot_sub_r. rewrite (hdot_ext N v1 _ (comb k Z c) (fun i => csub (A2 i) (cmul l2 (v2 i)))) by (first [exact S1|intros; reflexivity]).
    rewrite hdot_comb_l. apply (sumN_zero CC). intros j Hj. rewrite (O2 j Hj). apply cpx_ext; cbn; ring.
  Qed.
  (** On combinations of Ritz vectors of values at least -t the form is at most t. *)
  Lemma ritz_form m (lam : nat -> cpx) (f : nat -> vect CC) t c : (forall j, (j < m)%nat -> ritz_pair N k op Z (lam j) (f j) /\ - cre (lam j) <= t) ->
    form N op (comb m (fun i j => f j i) c) <= t * norm2 N (comb m (fun i j => f j i) c).
  Proof.
    intro H. set (W := (fun i j => f j i) : mat CC). set (z := comb m W c). set (s := fun j => sqrt (t + cre (lam j))).
    assert (Ss : forall j, (j < m)%nat -> s j * s j = t + cre (lam j)). { intros j Hj. apply sqrt_sqrt. pose proof (proj2 (H j Hj)). lra. }
    pose proof (norm2_pos N (comb m W (fun j => cmul (rc (s j)) (c j)))) as P.
    assert (E : mkC (norm2 N (comb m W (fun j => cmul (rc (s j)) (c j)))) 0 = cadd (cmul (rc t) (hdot N z z)) (hdot N z (Af op z))).
    { rewrite <- hdot_self. rewrite (hdot_ext N z (Af op z) z (comb m (fun r j => Af op (col W j) r) c)) by (first [intros; reflexivity|intros; now apply (Af_comb N op HA)]).
      unfold z. rewrite !hdot_comb_l.
      transitivity (sumN (K := CC) m (fun j => cadd (cmul (rc t) (cmul (cconj (c j)) (hdot N (col W j) (comb m W c)))) (cmul (cconj (c j)) (hdot N (col W j) (comb m (fun r j => Af op (col W j) r) c))))).
      2:{ refine (eq_trans (sumN_add CC _ _ _) _). refine (f_equal2 cadd _ eq_refl). exact (sumN_mul_l CC _ _ _). }
      apply (sumN_ext CC). intros i Hi. rewrite !hdot_comb_r.
      set (X := sumN (K := CC) m (fun j => cmul (hdot N (col W i) (col W j)) (c j))). set (Y := sumN (K := CC) m (fun j => cmul (hdot N (col W i) (col (fun r j => Af op (col W j) r) j)) (c j))).
      transitivity (cmul (cconj (c i)) (cadd (cmul (rc t) X) Y)); [|apply cpx_ext; cbn; ring].
      transitivity (cmul (cconj (c i)) (sumN (K := CC) m (fun j => cmul (rc (s i)) (cmul (hdot N (col W i) (col W j)) (cmul (rc (s j)) (c j)))))).
      { rewrite (sumN_mul_l CC). cbn [fmul CC]. set (T := sumN _ _). apply cpx_ext; cbn; ring. }
      f_equal. unfold X, Y. rewrite <- (sumN_mul_l CC), <- (sumN_add CC). apply (sumN_ext CC). intros j Hj. cbn [fmul fadd CC].
      change (col (fun r j0 => Af op (col W j0) r) j) with (Af op (f j)). change (col W i) with (f i). change (col W j) with (f j).
      rewrite (ritz_cross (lam i) (f i) (lam j) (f j) (proj1 (H i Hi)) (proj1 (H j Hj))).
      destruct (cpx_dec (hdot N (f i) (f j)) c0) as [Z0|Nz]; [rewrite Z0; apply cpx_ext; cbn; ring|].
      assert (L : lam i = lam j). { destruct (cpx_dec (lam i) (lam j)) as [L|L]; [exact L|]. exfalso. apply Nz. exact (ritz_orthogonal N k op Z _ _ _ _ HA (proj1 (H i Hi)) (proj1 (H j Hj)) L). }
      assert (Ls : s i * s j = t + cre (lam j)). { unfold s at 1. rewrite L. fold (s j). now apply Ss. }
      assert (Il : cim (lam j) = 0) by apply (proj1 (H j Hj)). set (h := hdot N (f i) (f j)).
      transitivity (cmul (rc (s i * s j)) (cmul h (c j))); [apply cpx_ext; cbn; ring|]. rewrite Ls. apply cpx_ext; cbn; rewrite Il; ring. }
    apply (f_equal cre) in E. rewrite hdot_self in E. cbn in E. unfold form. fold z. lra.
  Qed.
  (** Each Ritz value bounds its band from above. *)
  Lemma ritz_above V w (ms : list (cpx * vect CC)) : bands N op V w -> (length ms <= N)%nat ->
    (forall p, In p ms -> ritz_pair N k op Z (fst p) (snd p)) -> StronglySorted (fun p q => - cre (fst p) <= - cre (fst q)) ms -> independent N (map snd ms) ->
    forall j p, nth_error ms j = Some p -> w j <= - cre (fst p).
  Proof.
    intros HB Lm HR So Ind a p Hp. set (d := (c0, fun _ => c0) : cpx * vect CC). set (q := fun j => nth j ms d).
    assert (La : (a < length ms)%nat) by (apply nth_error_Some; congruence). assert (Eq : q a = p) by (now apply nth_error_nth).
    assert (Es : map snd ms = map (fun j => snd (q j)) (seq 0 (length ms))).
    { rewrite (list_seq ms d) at 1. now rewrite map_map. }
    rewrite Es in Ind. pose proof (independent_seq N (length ms) (fun j => snd (q j)) Ind) as Inj.
    apply (courant N op HA V w HB a (fun i j => snd (q j) i)); [lia| |].
    - intros c Hc j Hj. assert (X : (if (j <? S a)%nat then c j else c0) = c0); [|destruct (Nat.ltb_spec j (S a)); [exact X|lia]].
      apply (Inj (fun j => if (j <? S a)%nat then c j else c0)); [|lia]. intros i Hi. refine (eq_trans _ (Hc i Hi)). unfold comb. replace (length ms) with (S a + (length ms - S a))%nat by lia. rewrite (sumN_app CC).
      match goal with |- fadd ?x ?y = _ => transitivity (cadd x c0); [refine (f_equal (cadd x) _); apply (sumN_zero CC)|] end.
      + intros l Hl. destruct (Nat.ltb_spec (S a + l) (S a)); [lia|]. apply cpx_ext; cbn; ring.
      + transitivity (sumN (K := CC) (S a) (fun j => cmul (snd (q j) i) (if (j <? S a)%nat then c j else c0))); [apply cpx_ext; cbn; ring|].
        apply (sumN_ext CC). intros l Hl. destruct (Nat.ltb_spec l (S a)); [reflexivity|lia].
    - intro c. rewrite <- Eq. apply (ritz_form (S a) (fun j => fst (q j)) (fun j => snd (q j))). intros j Hj. split.
      + apply HR. unfold q. apply nth_In. lia.
      + unfold q. clear - So La Hj. revert a j La Hj. induction So as [|x l Hs IH Hf]; intros a j La Hj; [cbn in La; lia|]. destruct a as [|a], j as [|j]; cbn [nth]; try lra; try lia.
        * rewrite Forall_forall in Hf. apply Hf. apply nth_In. cbn [length] in La. lia.
        * apply IH; cbn [length] in La; lia.
  Qed.
End RitzBands.

(** ** recover *)
Fixpoint lsum (l : list (cpx * vect CC)) : R := match l with [] => 0 | p :: r => cre (fst p) + lsum r end.
Lemma lsum_perm l l' : Permutation l l' -> lsum l = lsum l'.
Proof. induction 1; cbn [lsum]; lra. Qed.
Lemma lsum_app l l' : lsum (l ++ l') = lsum l + lsum l'.
Proof. induction l as [|p l IH]; cbn [lsum app]; [ring|rewrite IH; ring]. Qed.
Lemma lsum_seq k (f : nat -> cpx * vect CC) : lsum (map f (seq 0 k)) = rs k (fun j => cre (fst (f j))).
Proof. induction k as [|k IH]; [reflexivity|]. rewrite seq_S, map_app, lsum_app, IH. cbn [map lsum Nat.add]. change (rs (S k) (fun j => cre (fst (f j)))) with (rs k (fun j => cre (fst (f j))) + cre (fst (f k))). ring. Qed.
Lemma lsum_nth l d : lsum l = rs (length l) (fun j => cre (fst (nth j l d))).
Proof. rewrite (list_seq l d) at 1. apply (lsum_seq (length l) (fun j => nth j l d)). Qed.

Lemma recover_bands N k op inv sqrtm eig Z ms : hermitian_op N op -> inv_ok k inv -> sqrtm_ok k sqrtm -> eig_ok k eig -> eig_independent k eig ->
  recover N k op inv sqrtm eig Z (mm (K := CC) N (mct Z) Z) = Some ms ->
  independent N (map snd ms) /\ exists U, is_inverse k (fun i j => hdot N (col Z i) (col Z j)) U /\
    lsum ms = cre (sumN (K := CC) k (fun i => sumN (K := CC) k (fun j => cmul (hdot N (col Z i) (Af op (col Z j))) (U j i)))).
Proof.
  intros HA Hinv Hsq Heig Hind E. unfold recover in E.
  pose proof (Hinv (mm (K := CC) N (mct Z) Z)) as HI. destruct (inv k _) as [U|]; [|discriminate]. cbn [obind] in E.
  destruct (sqrtm k U) as [S|] eqn:ES; [|discriminate]. cbn [obind] in E. destruct (Hsq U S ES) as [HS SH]. specialize (SH (inverse_posdef N k Z U HI)).
  destruct (on_columns op k (mm k Z S)) as [AY|] eqn:EA; [|discriminate]. cbn [obind] in E. set (Y := mm (K := CC) k Z S) in *.
  destruct (eig k _) as [[lam V]|] eqn:EE; [|discriminate]. cbn [obind] in E. pose proof (Heig _ lam V EE) as HV.
  assert (Wv : forall i j, (i < k)%nat -> (j < k)%nat -> mm (K := CC) N (mct Y) AY i j = hdot N (col Y i) (Af op (col Y j))).
  { intros i j _ Hj. change (mm (K := CC) N (mct Y) AY i j) with (hdot N (col Y i) (col AY j)). apply hdot_ext; [reflexivity|]. intros q _. exact (on_columns_val N op HA k Y AY EA q j Hj). }
  assert (Vi : independent k (map (col V) (seq 0 k))).
  { apply (Hind _ lam V) with (2 := EE). intros i j Hi Hj. rewrite !Wv by assumption. rewrite (Af_herm N op HA). apply hdot_conj. }
  destruct (existsb _ _); [discriminate|]. injection E as <-. split.
  - apply (independent_perm N (map snd (map (fun j => (lam j, normalize N (fun i => mm k Y V i j))) (seq 0 k)))); [apply Permutation_map, sort_abs_perm|].
    rewrite map_map. cbn [snd]. apply seq_independent. intros c Hc.
    set (r := fun j => vnorm N (fun i => mm (K := CC) k Y V i j)).
    assert (Rp : forall j, (j < k)%nat -> 0 < r j) by (intros j Hj; exact (r_pos N k Z U S HI HS SH AY V lam HV j Hj)).
    assert (Y0 : forall q, (q < k)%nat -> comb k V (fun j => cmul (rc (/ r j)) (c j)) q = c0).
    { intros q Hq. set (u := comb k V (fun j => cmul (rc (/ r j)) (c j))).
      transitivity (hdot N (col Y q) (comb k Y u)).
      - rewrite hdot_comb_r. rewrite <- (delta_l k q u Hq). apply (sumN_ext CC). intros l Hl. now rewrite (Y_orthonormal N k Z U S HI HS SH q l Hq Hl : hdot N (col Y q) (col Y l) = _).
      - rewrite (hdot_ext N _ _ (col Y q) (fun _ => c0)); [apply hdot_zero_r|intros; reflexivity|]. intros i Hi. rewrite <- (Hc i Hi). unfold u. unfold comb at 1.
        transitivity (mm (K := CC) k (mm k Y V) (fun j _ => cmul (rc (/ r j)) (c j)) i O); [rewrite (mm_assoc CC); reflexivity|].
        unfold mm at 1, comb. apply (sumN_ext CC). intros j Hj.
        pose proof (v_scale N k Z U S HI HS SH AY V lam HV j Hj i : normalize N (fun i => mm (K := CC) k Y V i j) i = cmul (rc (/ r j)) (mm (K := CC) k Y V i j)) as Vs. rewrite Vs. set (m := mm (K := CC) k Y V i j). apply cpx_ext; cbn; ring. }
    intros j Hj. pose proof (independent_seq k k (col V) Vi (fun j => cmul (rc (/ r j)) (c j)) Y0 j Hj) as Q. cbv beta in Q. specialize (Rp j Hj).
    transitivity (cmul (rc (r j)) (cmul (rc (/ r j)) (c j))); [apply cpx_ext; cbn; field; lra|]. rewrite Q. apply cpx_ext; cbn; ring.
  - exists U. split; [exact HI|]. rewrite <- (lsum_perm _ _ (sort_abs_perm _)), lsum_seq. cbn [fst]. rewrite <- re_sum. f_equal.
    rewrite <- (trace_eig k _ V lam (fun j Hj => proj1 (HV j Hj)) Vi).
    transitivity (sumN (K := CC) k (fun i => sumN (K := CC) k (fun p => sumN (K := CC) k (fun q => cmul (cmul (S q i) (S i p)) (hdot N (col Z p) (Af op (col Z q))))))).
    + apply (sumN_ext CC). intros i Hi. rewrite (Wv i i Hi Hi).
      rewrite (hdot_ext N _ (Af op (col Y i)) (comb k Z (col S i)) (comb k (fun r j => Af op (col Z j) r) (col S i))).
      * rewrite hdot_comb_l. apply (sumN_ext CC). intros p Hp. rewrite hdot_comb_r. refine (eq_trans (eq_sym (sumN_mul_l CC _ _ _)) _). apply (sumN_ext CC). intros q Hq.
        change (cmul (cconj (S p i)) (cmul (hdot N (col Z p) (Af op (col Z q))) (S q i)) = cmul (cmul (S q i) (S i p)) (hdot N (col Z p) (Af op (col Z q)))). rewrite (SH i p Hi Hp). set (h := hdot N (col Z p) (Af op (col Z q))). apply cpx_ext; cbn; ring.
      * intros; reflexivity.
      * intros q Hq. exact (Af_comb N op HA k Z (col S i) q Hq).
    + refine (eq_trans (sumN_swap CC _ _ _) _). apply (sumN_ext CC). intros p Hp. refine (eq_trans (sumN_swap CC _ _ _) _). apply (sumN_ext CC). intros q Hq.
      rewrite <- (HS q p Hq Hp). refine (eq_trans _ (cmul_comm _ _)). refine (sumN_mul_r CC _ _ _).
Qed.
