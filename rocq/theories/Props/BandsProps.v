(** The bands of meanas/fdfd/bloch.py as a whole: completeness, order, dependence on
    epsilon, and what eigsolve computes of them. *)
From Coq Require Import Reals List Arith ZArith Lia Lra Psatz Bool Field Sorted Permutation.
From Verif.Lib Require Import Num Sums Idx Mat RealF Dft BoxMin.
From Verif.Model Require Import Ndarray Bloch Eigensolvers BlochSolve.
From Verif.Spec Require Import BlochSpec BlochBandSpec EigenSpec BlochSolveSpec BandsSpec.
From Verif.Proofs Require Import EmeP NdarrayP BlochP BlochP2 BlochSolveP BlochSolveP2 BlochBandP SpectralP MinMaxP MinMaxP2 MinMaxP3.
From Verif.Props Require Import BlochProps BlochSolveProps BlochBandProps.
Import ListNotations.
Local Open Scope R_scope.

Definition positive sh (e : nat -> list nat -> R) : Prop := forall a j, (a < 3)%nat -> inb sh j -> 0 < e a j.
(** The operator in eigsolve *)
Definition band_op k0 G sh e := bloch_op k0 G sh (real_eps e) None.

Lemma band_herm k0 G sh e : length sh = 3%nat -> off_y_axis k0 G sh -> positive sh e -> hermitian_op (2 * prodl sh) (band_op k0 G sh e).
Proof.
  intros L Oy He. unfold band_op, real_eps. apply bloch_op_hermitian; [exact L|exact (op_fin k0 G sh L Oy)|]. intros a j Ha Hj X. pose proof (He a j Ha Hj). lra.
Qed.
Lemma op_gives k0 G sh e h r : gives (2 * prodl sh) (maxwell_operator k0 G sh (real_eps e) None h) r ->
  exists Av, band_op k0 G sh e h = Some Av /\ forall p, (p < 2 * prodl sh)%nat -> Av p = r p.
Proof.
  intros (f & E & F). unfold band_op, bloch_op. rewrite E. cbn [obind].
  destruct (finite_vec_ok (2 * prodl sh) f) as (v & Ev & Vv); [intros p Hp; now rewrite (F p Hp)|]. exists v. split; [exact Ev|].
  intros p Hp. rewrite (Vv p Hp), (F p Hp). reflexivity.
Qed.
Lemma form_gives k0 G sh e h r : gives (2 * prodl sh) (maxwell_operator k0 G sh (real_eps e) None h) r -> form (2 * prodl sh) (band_op k0 G sh e) h = - cre (hdot (2 * prodl sh) h r).
Proof.
  intro H. destruct (op_gives _ _ _ _ _ _ H) as (Av & E & F). unfold form, Af. rewrite E. do 2 f_equal. now apply hdot_ext.
Qed.
Lemma form_mono k0 G sh e e' h : length sh = 3%nat -> off_y_axis k0 G sh -> (forall a j, (a < 3)%nat -> inb sh j -> 0 < e a j <= e' a j) ->
  form (2 * prodl sh) (band_op k0 G sh e') h <= form (2 * prodl sh) (band_op k0 G sh e) h.
Proof.
  intros L Oy He. destruct (C146_monotone k0 G sh e e' h L Oy He) as (r & r' & A & B & Q). now rewrite (form_gives _ _ _ _ _ _ A), (form_gives _ _ _ _ _ _ B).
Qed.
Lemma form_pos k0 G sh e h : length sh = 3%nat -> off_y_axis k0 G sh -> positive sh e -> 0 <= form (2 * prodl sh) (band_op k0 G sh e) h.
Proof.
  intros L Oy He. destruct (C49_negative k0 G sh e h L Oy He) as (r & A & _ & Q). rewrite (form_gives k0 G sh e h r A). lra.
Qed.
Lemma band_value N op V w a : hermitian_op N op -> bands N op V w -> (a < N)%nat -> form N op (col V a) = w a.
Proof.
  intros HA HB Ha. unfold form. rewrite (hdot_ext N _ (Af op (col V a)) (col V a) (fun i => cmul (rc (- w a)) (col V a i))) by (first [intros; reflexivity|intros; now apply (band_eig N op V w HB)]).
  rewrite hdot_scale_r, (b_orth _ _ _ _ HB a a Ha Ha), Nat.eqb_refl. cbn. ring.
Qed.
Lemma band_pos k0 G sh e V w a : length sh = 3%nat -> off_y_axis k0 G sh -> positive sh e -> bands (2 * prodl sh) (band_op k0 G sh e) V w -> (a < 2 * prodl sh)%nat -> 0 <= w a.
Proof.
  intros L Oy He HB Ha. rewrite <- (band_value _ _ V w a (band_herm k0 G sh e L Oy He) HB Ha). now apply form_pos.
Qed.

Lemma some_nonzero n (g : nat -> cpx) : ~ (forall i, (i < n)%nat -> g i = c0) -> exists a, (a < n)%nat /\ g a <> c0.
Proof.
  intro Nz. induction n as [|m IH]; [exfalso; apply Nz; intros; lia|].
  destruct (cpx_dec (g m) c0) as [E|E]; [|exists m; split; [lia|exact E]]. destruct IH as (a & Ha & Na); [|exists a; split; [lia|exact Na]]. intro Y. apply Nz. intros i Hi.
  destruct (Nat.eq_dec i m) as [->|]; [exact E|apply Y; lia].
Qed.

(** ** C155 *)
(** There are as many bands as unknowns; their fields are a basis. *)
Theorem C155_complete :
  forall k0 G sh e, length sh = 3%nat -> off_y_axis k0 G sh -> positive sh e ->
    let N := (2 * prodl sh)%nat in
    exists V w, bands N (band_op k0 G sh e) V w /\ (forall a, (a < N)%nat -> 0 <= w a) /\
      forall h i, (i < N)%nat -> h i = comb N V (fun a => hdot N (col V a) h) i.
Proof.
  intros k0 G sh e L Oy He N. pose proof (band_herm k0 G sh e L Oy He) as HA. destruct (bands_exist N _ HA) as (V & w & HB). exists V, w. split; [exact HB|]. split.
  - intros a Ha. exact (band_pos k0 G sh e V w a L Oy He HB Ha).
  - intros h i Hi. exact (on_complete N V (b_orth _ _ _ _ HB) h i Hi).
Qed.
Print Assumptions C155_complete.
(** Every eigenvalue is one of them, and the list does not depend on the choice of the fields. *)
Theorem C155_all :
  forall k0 G sh e V w lam, length sh = 3%nat -> off_y_axis k0 G sh -> positive sh e -> bands (2 * prodl sh) (band_op k0 G sh e) V w ->
    is_band k0 G sh (real_eps e) lam -> exists a, (a < 2 * prodl sh)%nat /\ lam = mkC (- w a) 0.
Proof.
  intros k0 G sh e V w lam L Oy He HB (h & r & Er & (p & Hp & Np) & Rl). set (N := (2 * prodl sh)%nat) in *. pose proof (band_herm k0 G sh e L Oy He) as HA. fold N in HA.
  destruct (op_gives _ _ _ _ _ _ Er) as (Av & EA & FA).
  assert (Q : forall a, (a < N)%nat -> cmul (rc (- w a)) (hdot N (col V a) h) = cmul lam (hdot N (col V a) h)).
  { intros a Ha. rewrite <- (band_coef N _ HA V w HB a h Ha), <- hdot_scale_r. apply hdot_ext; [reflexivity|]. intros i Hi. unfold Af. rewrite EA, FA by exact Hi. now apply Rl. }
  destruct (all_dec N (fun a => hdot N (col V a) h = c0)) as [Z|Nz].
  - intros a _. destruct (cpx_dec (hdot N (col V a) h) c0); auto.
  - exfalso. apply Np. rewrite (on_complete N V (b_orth _ _ _ _ HB) h p Hp). unfold comb. apply (sumN_zero CC). intros a Ha. rewrite (Z a Ha). apply cpx_ext; cbn; ring.
  - assert (X : exists a, (a < N)%nat /\ hdot N (col V a) h <> c0) by exact (some_nonzero N (fun a => hdot N (col V a) h) Nz).
    destruct X as (a & Ha & Na). exists a. split; [exact Ha|]. specialize (Q a Ha). set (z := hdot N (col V a) h) in *. clearbody z.
    transitivity (cdiv (cmul lam z) z); [symmetry; rewrite <- Q|]; rewrite <- ?Q; unfold cdiv.
    + transitivity (cmul lam (cmul z (cinv z))); [rewrite Q; apply cpx_ext; cbn; ring|]. rewrite (cinv_r z Na). apply cpx_ext; cbn; ring.
    + transitivity (cmul (rc (- w a)) (cmul z (cinv z))); [apply cpx_ext; cbn; ring|]. rewrite (cinv_r z Na). apply cpx_ext; cbn; ring.
Qed.
Print Assumptions C155_all.
Theorem C155_unique :
  forall N op V V' w w', hermitian_op N op -> bands N op V w -> bands N op V' w' -> forall a, (a < N)%nat -> w a = w' a.
Proof. exact bands_unique. Qed.
Print Assumptions C155_unique.
(** Band number a is the least t for which some a + 1 independent fields span a space
    on which the energy -<h, A h> is at most t <h, h>. *)
Theorem C155_min_max :
  forall N op V w a, hermitian_op N op -> bands N op V w -> (a < N)%nat ->
    let below t W := independent N (map (col W) (seq 0 (S a))) /\
      forall c Ah, let h := comb (S a) W c in op h = Some Ah -> - cre (hdot N h Ah) <= t * norm2 N h in
    (exists W, below (w a) W) /\ (forall t W, below t W -> w a <= t).
Proof.
  intros N op V w a HA HB Ha below. split.
  - exists V. split.
    + apply seq_independent. intro c. apply (on_independent N op V w HB). lia.
    + intros c Ah h E. pose proof (span_most N op HA V w HB a c Ha) as Q. unfold form, Af in Q. fold h in Q. now rewrite E in Q.
  - intros t W (Ind & F). apply (courant N op HA V w HB a W t Ha).
    + exact (independent_seq N (S a) (col W) Ind).
    + intro c. unfold form. exact (F c (Af op (comb (S a) W c)) (op_Af N op HA _)).
Qed.
Print Assumptions C155_min_max.

(** ** C156 *)
(** A larger epsilon, anywhere and for any component, lowers (or keeps) every band. *)
Theorem C156_monotone :
  forall k0 G sh e e' V V' w w', length sh = 3%nat -> off_y_axis k0 G sh -> (forall a j, (a < 3)%nat -> inb sh j -> 0 < e a j <= e' a j) ->
    bands (2 * prodl sh) (band_op k0 G sh e) V w -> bands (2 * prodl sh) (band_op k0 G sh e') V' w' ->
    forall a, (a < 2 * prodl sh)%nat -> w' a <= w a.
Proof.
  intros k0 G sh e e' V V' w w' L Oy He HB HB' a Ha.
  apply (bands_mono (2 * prodl sh) (band_op k0 G sh e) (band_op k0 G sh e') V V' w w'); [|  |exact HB|exact HB'| |exact Ha].
  - apply band_herm; [exact L|exact Oy|]. intros c j Hc Hj. now apply He.
  - apply band_herm; [exact L|exact Oy|]. intros c j Hc Hj. pose proof (He c j Hc Hj). lra.
  - intro z. now apply form_mono.
Qed.
Print Assumptions C156_monotone.
Lemma bands_dom N op op' V V' w w' c : hermitian_op N op -> hermitian_op N op' -> bands N op V w -> bands N op' V' w' -> 0 <= c ->
  (forall z, form N op' z <= c * form N op z) -> forall a, (a < N)%nat -> w' a <= c * w a.
Proof.
  intros HA HA' HB HB' Hc F a Ha. apply (courant N op' HA' V' w' HB' a V); [exact Ha| |].
  - intro x. apply (on_independent N op V w HB). lia.
  - intro x. pose proof (F (comb (S a) V x)) as P. pose proof (span_most N op HA V w HB a x Ha) as Q. nra.
Qed.
Lemma form_dom k0 G sh e e' h c : length sh = 3%nat -> off_y_axis k0 G sh -> positive sh e -> positive sh e' -> 0 < c -> (forall a j, (a < 3)%nat -> inb sh j -> e a j <= c * e' a j) ->
  form (2 * prodl sh) (band_op k0 G sh e') h <= c * form (2 * prodl sh) (band_op k0 G sh e) h.
Proof.
  intros L Oy P P' Hc He. pose proof (op_fin k0 G sh L Oy) as Hf.
  assert (Q : forall e, positive sh e -> form (2 * prodl sh) (band_op k0 G sh e) h = INR (prodl sh) * gsum (K := RF) sh (fun x => sumN (K := RF) 3 (fun a => d2 k0 G sh h a x * / e a x))).
  { intros f Pf. destruct (C49_negative k0 G sh f h L Oy Pf) as (r & A & _). rewrite (form_gives k0 G sh f h r A). destruct A as (r0 & E & F).
    rewrite <- (quad_re k0 G sh L Hf f h r0); [|intros a j Ha Hj X; pose proof (Pf a j Ha Hj); lra|exact E]. do 2 f_equal. apply hdot_ext; [reflexivity|]. intros p Hp. now rewrite (F p Hp). }
  rewrite (Q e P), (Q e' P'). rewrite <- Rmult_assoc, (Rmult_comm c), Rmult_assoc. apply Rmult_le_compat_l; [apply pos_INR|].
  refine (Rle_trans _ _ _ _ (Req_le _ _ (gsum_mul_l RF sh c _))). apply gsum_le. intros x Hx.
  refine (Rle_trans _ _ _ _ (Req_le _ _ (sumN_mul_l RF 3 c _))). apply sumN_le. intros a Ha.
  change (d2 k0 G sh h a x * / e' a x <= c * (d2 k0 G sh h a x * / e a x)). replace (c * (d2 k0 G sh h a x * / e a x)) with (d2 k0 G sh h a x * (c * / e a x)) by ring.
  apply Rmult_le_compat_l; [apply cabs2_nonneg|]. pose proof (P a x Ha Hx) as A. pose proof (P' a x Ha Hx) as B. pose proof (He a x Ha Hx) as D.
  apply Rmult_le_reg_l with (e' a x * e a x); [nra|]. replace (e' a x * e a x * / e' a x) with (e a x) by (field; lra). replace (e' a x * e a x * (c * / e a x)) with (c * e' a x) by (field; lra). exact D.
Qed.
(** epsilon known to a relative accuracy d fixes every band to that accuracy. *)
Theorem C156_perturbed :
  forall k0 G sh e e' V V' w w' d, length sh = 3%nat -> off_y_axis k0 G sh -> positive sh e -> 0 <= d < 1 ->
    (forall a j, (a < 3)%nat -> inb sh j -> (1 - d) * e a j <= e' a j <= (1 + d) * e a j) ->
    bands (2 * prodl sh) (band_op k0 G sh e) V w -> bands (2 * prodl sh) (band_op k0 G sh e') V' w' ->
    forall a, (a < 2 * prodl sh)%nat -> w a / (1 + d) <= w' a <= w a / (1 - d).
Proof.
  intros k0 G sh e e' V V' w w' d L Oy P Hd He HB HB' a Ha.
  assert (P' : positive sh e'). { intros c j Hc Hj. pose proof (He c j Hc Hj). pose proof (P c j Hc Hj). nra. }
  pose proof (band_herm k0 G sh e L Oy P) as HA. pose proof (band_herm k0 G sh e' L Oy P') as HA'. split.
  - assert (Q : w a <= (1 + d) * w' a).
    { apply (bands_dom _ _ _ V' V w' w (1 + d) HA' HA HB' HB); [lra| |exact Ha]. intro z. apply form_dom; try assumption; [lra|]. intros c j Hc Hj. apply (He c j Hc Hj). }
    apply Rmult_le_reg_l with (1 + d); [lra|]. replace ((1 + d) * (w a / (1 + d))) with (w a) by (field; lra). exact Q.
  - assert (Q : w' a <= / (1 - d) * w a).
    { apply (bands_dom _ _ _ V V' w w' (/ (1 - d)) HA HA' HB HB'); [apply Rlt_le, Rinv_0_lt_compat; lra| |exact Ha]. intro z. apply form_dom; try assumption; [apply Rinv_0_lt_compat; lra|].
      intros c j Hc Hj. destruct (He c j Hc Hj) as [A _]. apply Rmult_le_reg_l with (1 - d); [lra|]. replace ((1 - d) * (/ (1 - d) * e' c j)) with (e' c j) by (field; lra). exact A. }
    unfold Rdiv. lra.
Qed.
Print Assumptions C156_perturbed.

(** ** Bands of a uniform medium *)
(** The plane waves ordered by the length of their wavevectors *)
Definition by_length k0 G sh (s : list (list nat)) : Prop :=
  Permutation s (cells sh) /\ StronglySorted (fun i j => dot3 (wavevector k0 G sh i) (wavevector k0 G sh i) <= dot3 (wavevector k0 G sh j) (wavevector k0 G sh j)) s.
Lemma sort_exists {A} (f : A -> R) (l : list A) : exists s, Permutation s l /\ StronglySorted (fun x y => f x <= f y) s.
Proof.
  induction l as [|x l (s & P & So)]; [exists []; split; constructor|].
  assert (I : exists s', Permutation s' (x :: s) /\ StronglySorted (fun x y => f x <= f y) s').
  { clear P. induction So as [|y s So IH Fy]; [exists [x]; split; [reflexivity|repeat constructor]|].
    destruct (Rle_dec (f x) (f y)) as [Le|Gt].
    - exists (x :: y :: s). split; [reflexivity|]. constructor; [now constructor|]. constructor; [exact Le|]. eapply Forall_impl; [|exact Fy]. cbn. intros; lra.
    - destruct IH as (s' & P' & So'). exists (y :: s'). split; [rewrite P'; apply perm_swap|]. constructor; [exact So'|].
      apply Forall_forall. intros z Hz. apply (Permutation_in _ P') in Hz. destruct Hz as [<-|Hz]; [lra|]. exact (proj1 (Forall_forall _ _) Fy z Hz). }
  destruct I as (s' & P' & So'). exists s'. split; [now rewrite P', P|exact So'].
Qed.
Lemma by_length_exists k0 G sh : exists s, by_length k0 G sh s.
Proof. exact (sort_exists (fun j => dot3 (wavevector k0 G sh j) (wavevector k0 G sh j)) (cells sh)). Qed.
Lemma sorted_nth {A} (R : A -> A -> Prop) s d : (forall x, R x x) -> StronglySorted R s -> forall i j, (i <= j < length s)%nat -> R (nth i s d) (nth j s d).
Proof.
  intros Rr So. induction So as [|x s So IH F]; intros i j H; [cbn [length] in H; lia|]. cbn [length] in H. destruct j as [|j]; [replace i with O by lia; apply Rr|]. destruct i as [|i].
  - cbn. apply (proj1 (Forall_forall _ _) F). apply nth_In. lia.
  - cbn. apply IH. lia.
Qed.
Lemma cells_nodup sh : NoDup (cells sh).
Proof.
  unfold cells. assert (Q : forall l, NoDup l -> (forall p, In p l -> (p < prodl sh)%nat) -> NoDup (map (unravel sh) l)).
  { induction 1 as [|x l Nx Nl IH]; intro H; cbn; constructor.
    - intro X. apply in_map_iff in X. destruct X as (y & E & Hy). apply Nx. rewrite <- (ravel_unravel sh x) by (apply H; now left). rewrite <- E, ravel_unravel by (apply H; now right). exact Hy.
    - apply IH. intros p Hp. apply H. now right. }
  apply Q; [apply seq_NoDup|]. intros p Hp. apply in_seq in Hp. lia.
Qed.
Lemma div_mod_lt a n : (a < 2 * n)%nat -> (a / 2 < n)%nat. Proof. intro H. apply Nat.div_lt_upper_bound; lia. Qed.
(** the index of the unknown that belongs to band a *)
Definition place sh (s : list (list nat)) (a : nat) : nat := (if a mod 2 =? 0 then ravel sh (nth (a / 2) s []) else prodl sh + ravel sh (nth (a / 2) s []))%nat.
Lemma uniform_bands k0 G sh c s : length sh = 3%nat -> off_y_axis k0 G sh -> 0 < c -> by_length k0 G sh s ->
  bands (2 * prodl sh) (band_op k0 G sh (fun _ _ => c)) (fun i a => if (i =? place sh s a)%nat then c1 else c0)
    (fun a => let k := wavevector k0 G sh (nth (a / 2) s []) in dot3 k k / c).
Proof.
  intros L Oy Hc (P & So). set (N := (2 * prodl sh)%nat).
  assert (Ls : length s = prodl sh) by (rewrite (Permutation_length P); unfold cells; now rewrite map_length, seq_length).
  assert (In_s : forall i, (i < prodl sh)%nat -> inb sh (nth i s [])). { intros i Hi. apply cells_in. apply (Permutation_in _ P). apply nth_In. lia. }
  assert (Nd : NoDup s) by (apply (Permutation_NoDup (Permutation_sym P)), cells_nodup).
  assert (Pl : forall a, (a < N)%nat -> (place sh s a < N)%nat).
  { intros a Ha. pose proof (ravel_lt sh _ (In_s (a / 2)%nat (div_mod_lt a _ Ha))). unfold place, N. destruct (a mod 2 =? 0)%nat; lia. }
  assert (Inj : forall a b, (a < N)%nat -> (b < N)%nat -> place sh s a = place sh s b -> a = b).
  { intros a b Ha Hb E. pose proof (In_s (a / 2)%nat (div_mod_lt a _ Ha)) as Ia. pose proof (In_s (b / 2)%nat (div_mod_lt b _ Hb)) as Ib.
    pose proof (ravel_lt sh _ Ia) as Ra. pose proof (ravel_lt sh _ Ib) as Rb. unfold place in E.
    pose proof (Nat.div_mod a 2 ltac:(lia)) as Da. pose proof (Nat.div_mod b 2 ltac:(lia)) as Db. pose proof (Nat.mod_upper_bound a 2 ltac:(lia)) as Ma. pose proof (Nat.mod_upper_bound b 2 ltac:(lia)) as Mb.
    assert (Q : (a mod 2 = b mod 2)%nat /\ ravel sh (nth (a / 2) s []) = ravel sh (nth (b / 2) s [])).
    { destruct (Nat.eqb_spec (a mod 2) 0), (Nat.eqb_spec (b mod 2) 0); lia. }
    destruct Q as [Qm Qr]. apply (ravel_inj sh) in Qr; [|exact Ia|exact Ib].
    apply (proj1 (NoDup_nth s []) Nd) in Qr; [lia| |]; rewrite Ls; now apply div_mod_lt. }
  constructor.
  - intros a b Ha Hb. rewrite (hdot_ext N _ (col (fun i b => if (i =? place sh s b)%nat then c1 else c0) b) (fun i => if (place sh s a =? i)%nat then c1 else c0) (col (fun i b => if (i =? place sh s b)%nat then c1 else c0) b)) by (first [reflexivity|intros i _; unfold col; now rewrite Nat.eqb_sym]).
    rewrite (hdot_unit_l N (place sh s a)) by now apply Pl. unfold col.
    destruct (Nat.eqb_spec a b) as [->|Nab]; [now rewrite Nat.eqb_refl|]. destruct (Nat.eqb_spec (place sh s a) (place sh s b)) as [E|]; [|reflexivity]. exfalso. now apply Nab, Inj.
  - intros a Ha. set (j := nth (a / 2) s []). pose proof (In_s (a / 2)%nat (div_mod_lt a _ Ha)) as Ij. fold j in Ij.
    destruct (C49_uniform k0 G sh (real_eps (fun _ _ => c)) (mkC c 0) (col (fun i a => if (i =? place sh s a)%nat then c1 else c0) a) L Oy) as (r & Er & Vr).
    { intro X. apply (f_equal cre) in X. cbn in X. lra. } { reflexivity. }
    destruct (op_gives _ _ _ _ _ _ Er) as (Av & EA & FA). exists Av. split; [exact EA|]. intros i Hi. rewrite (FA i Hi).
    destruct (halves sh i Hi) as (q & Hq & Di).
    assert (T : r i = cmul (cdiv (mkC (- dot3 (wavevector k0 G sh q) (wavevector k0 G sh q)) 0) (mkC c 0)) (if (i =? place sh s a)%nat then c1 else c0)).
    { destruct (Vr q Hq) as [A B]. destruct Di as [-> | ->]; [exact A|exact B]. }
    rewrite T. destruct (Nat.eqb_spec i (place sh s a)) as [E|]; [|apply cpx_ext; cbn; ring].
    assert (q = j) as ->.
    { apply (ravel_inj sh); [exact Hq|exact Ij|]. pose proof (ravel_lt sh q Hq). pose proof (ravel_lt sh j Ij). unfold place in E. fold j in E. destruct (a mod 2 =? 0)%nat, Di as [-> | ->]; lia. }
    apply cpx_ext; cbn; unfold cnrm; cbn; field; lra.
  - intros a b Hab Hb. apply Rmult_le_compat_r; [apply Rlt_le, Rinv_0_lt_compat, Hc|].
    apply (sorted_nth (fun i j => dot3 (wavevector k0 G sh i) (wavevector k0 G sh i) <= dot3 (wavevector k0 G sh j) (wavevector k0 G sh j))); [intro; apply Rle_refl|exact So|].
    rewrite Ls. split; [apply Nat.div_le_mono; lia|now apply div_mod_lt].
Qed.
(** Uniform epsilon: two bands |k|^2 / eps for each plane wave. *)
Theorem C155_uniform :
  forall k0 G sh c s V w, length sh = 3%nat -> off_y_axis k0 G sh -> 0 < c -> by_length k0 G sh s ->
    bands (2 * prodl sh) (band_op k0 G sh (fun _ _ => c)) V w ->
    forall a, (a < 2 * prodl sh)%nat -> let k := wavevector k0 G sh (nth (a / 2) s []) in w a = dot3 k k / c.
Proof.
  intros k0 G sh c s V w L Oy Hc Hs HB a Ha k.
  exact (bands_unique _ _ V _ w _ (band_herm k0 G sh _ L Oy (fun _ _ _ _ => Hc)) HB (uniform_bands k0 G sh c s L Oy Hc Hs) a Ha).
Qed.
Print Assumptions C155_uniform.
(** Bounds on every band from the extremes of epsilon *)
Theorem C156_between :
  forall k0 G sh e lo hi s V w, length sh = 3%nat -> off_y_axis k0 G sh -> 0 < lo -> within sh lo hi e -> by_length k0 G sh s ->
    bands (2 * prodl sh) (band_op k0 G sh e) V w ->
    forall a, (a < 2 * prodl sh)%nat -> let k := wavevector k0 G sh (nth (a / 2) s []) in dot3 k k / hi <= w a <= dot3 k k / lo.
Proof.
  intros k0 G sh e lo hi s V w L Oy Hlo He Hs HB a Ha k.
  assert (Hhi : 0 < hi). { assert (0 < prodl sh)%nat by lia. pose proof (He 0%nat (unravel sh 0) ltac:(lia) (inb_unravel sh 0 H)). lra. }
  split.
  - apply (C156_monotone k0 G sh e (fun _ _ => hi) V _ w _ L Oy) with (3 := uniform_bands k0 G sh hi s L Oy Hhi Hs); [|exact HB|exact Ha]. intros c j Hc Hj. pose proof (He c j Hc Hj). lra.
  - apply (C156_monotone k0 G sh (fun _ _ => lo) e _ V _ w L Oy) with (2 := uniform_bands k0 G sh lo s L Oy Hlo Hs); [|exact HB|exact Ha]. intros c j Hc Hj. pose proof (He c j Hc Hj). lra.
Qed.
Print Assumptions C156_between.

(** ** C157: eigsolve *)
(** No trial block has a smaller objective than the sum of the k lowest bands .. *)
Theorem C157_objective :
  forall N k op V w Z E, hermitian_op N op -> bands N op V w -> objective N k op Z E -> (k <= N)%nat /\ lowest k w <= E.
Proof.
  intros N k op V w Z E HA HB HO. apply (objective_Af N k op HA) in HO. destruct HO as (U & HU & ->).
  destruct (ky_fan N k op V w HA HB Z U HU) as [Hk Q]. split; [exact Hk|]. eapply Rle_trans; [exact Q|]. rewrite <- Rabs_Ropp. apply Rle_abs.
Qed.
Print Assumptions C157_objective.
(** .. and the fields of these bands reach it. *)
Theorem C157_attained :
  forall N k op V w, hermitian_op N op -> bands N op V w -> (k <= N)%nat -> (forall a, (a < k)%nat -> 0 <= w a) -> objective N k op V (lowest k w).
Proof.
  intros N k op V w HA HB Hk Hw. apply (objective_Af N k op HA). exists (fun i j => if (i =? j)%nat then c1 else c0).
  assert (T : forall i j, (i < k)%nat -> (j < k)%nat -> hdot N (col V i) (col V j) = if (i =? j)%nat then c1 else c0) by (intros i j Hi Hj; apply (b_orth _ _ _ _ HB); lia).
  split.
  - intros i j Hi Hj. split.
    + rewrite (sumN_ext CC k _ (fun q => cmul (if (i =? q)%nat then c1 else c0) (if (q =? j)%nat then c1 else c0))) by (intros q Hq; now rewrite T).
      rewrite (sumN_single CC k _ i); [|exact Hi|]; [rewrite Nat.eqb_refl; destruct (i =? j)%nat; apply cpx_ext; cbn; ring|]. intros q Hq Nq. destruct (Nat.eqb_spec i q); [congruence|]. destruct (q =? j)%nat; apply cpx_ext; cbn; ring.
    + rewrite (sumN_ext CC k _ (fun q => cmul (if (i =? q)%nat then c1 else c0) (if (q =? j)%nat then c1 else c0))) by (intros q Hq; now rewrite T).
      rewrite (sumN_single CC k _ i); [|exact Hi|]; [rewrite Nat.eqb_refl; destruct (i =? j)%nat; apply cpx_ext; cbn; ring|]. intros q Hq Nq. destruct (Nat.eqb_spec i q); [congruence|]. destruct (q =? j)%nat; apply cpx_ext; cbn; ring.
  - rewrite (sumN_ext CC k _ (fun i => mkC (- w i) 0)).
    + rewrite (rs_CC k (fun i => - w i)). cbn [cre].
      assert (Q : rs k (fun i => - w i) = - rs k w). { transitivity (rs k (fun i => (-1) * w i)); [apply rs_ext; intros q _; change (- w q = -1 * w q); ring|]. refine (eq_trans (rs_scale k (-1) w) _). generalize (rs k w). intro x. change (-1 * x = - x). ring. }
      rewrite Q, Rabs_Ropp. symmetry. apply Rabs_right, Rle_ge, rs_nonneg, Hw.
    + intros i Hi. rewrite (sumN_single CC k _ i); [|exact Hi|].
      * rewrite Nat.eqb_refl. rewrite (hdot_ext N _ (Af op (col V i)) (col V i) (fun q => cmul (rc (- w i)) (col V i q))) by (first [intros; reflexivity|intros; apply (band_eig N op V w HB); [lia|assumption]]).
        rewrite hdot_scale_r, T, Nat.eqb_refl by exact Hi. apply cpx_ext; cbn; ring.
      * intros j Hj Nj. destruct (Nat.eqb_spec j i); [congruence|]. apply cpx_ext; cbn; ring.
Qed.
Print Assumptions C157_attained.
(** Sorted by magnitude and not positive: sorted by -lam *)
Lemma abs_le_neg ms : (forall p, In p ms -> cim (fst p) = 0 /\ cre (fst p) <= 0) -> StronglySorted abs_le ms -> StronglySorted (fun p q => - cre (fst p) <= - cre (fst q)) ms.
Proof.
  intros H So. induction So as [|p l So IH F]; constructor.
  - apply IH. intros q Hq. apply H. now right.
  - apply Forall_forall. intros q Hq. pose proof (proj1 (Forall_forall _ _) F q Hq) as A. unfold abs_le in A.
    assert (T : forall z, cim z = 0 -> cre z <= 0 -> cabs z = - cre z).
    { intros z Z1 Z2. unfold cabs, cnrm. rewrite Z1. replace (cre z * cre z + 0 * 0) with (Rsqr (- cre z)) by (unfold Rsqr; ring). apply sqrt_Rsqr. lra. }
    destruct (H p (or_introl eq_refl)) as [P1 P2]. destruct (H q (or_intror Hq)) as [Q1 Q2]. now rewrite (T _ P1 P2), (T _ Q1 Q2) in A.
Qed.
(** Mode number j of a converged run is not below band j.  Its excess is not more than
    the excess of the last objective above the sum of the k lowest bands. *)
Theorem C157_modes :
  forall k0 G sh e k tolerance max_iters reset_iters inv sqrtm eig minimize rng fuel y0 r V w,
    length sh = 3%nat -> off_y_axis k0 G sh -> positive sh e ->
    inv_ok k inv -> sqrtm_ok k sqrtm -> eig_ok k eig -> eig_independent k eig ->
    let op := band_op k0 G sh e in let N := (2 * prodl sh)%nat in
    bands N op V w ->
    eigsolve N k op (bloch_iop k0 G sh (real_eps e) None) tolerance max_iters reset_iters inv sqrtm eig minimize rng fuel y0 = Some r -> converged r = true ->
    exists Z rest E, iterates r = Z :: rest /\ objective N k op Z E /\ lowest k w <= E /\
      forall j lam v, nth_error (modes r) j = Some (lam, v) -> cim lam = 0 /\ w j <= - cre lam <= w j + (E - lowest k w).
Proof.
  intros k0 G sh e k tol mx reset inv sqrtm eig minimize rng fuel y0 r V w L Oy P HI HS HE HEi op N HB H C.
  pose proof (band_herm k0 G sh e L Oy P) as HA. fold op N in HA.
  destruct (C104_bloch k0 G sh e k tol mx reset inv sqrtm eig minimize rng fuel y0 r L Oy P HI HS HE H C) as (Ln & So & Z & rest & EI & Pm).
  change (bloch_op k0 G sh (fun a j => mkC (e a j) 0) None) with op in Pm. fold N in Pm.
  destruct (converged_gram _ _ _ _ _ _ _ _ _ _ _ _ _ _ _ HA HI H C) as (Z' & Zp & tl & E & Ep & EI' & Rv & O1 & _). rewrite EI in EI'. injection EI' as <- Er.
  destruct (recover_bands N k op inv sqrtm eig Z (modes r) HA HI HS HE HEi Rv) as (Ind & U & HU & Tr).
  destruct (C157_objective N k op V w Z E HA HB O1) as [Hk Low].
  exists Z, rest, E. split; [exact EI|]. split; [exact O1|]. split; [exact Low|].
  assert (Re : forall p, In p (modes r) -> cim (fst p) = 0 /\ cre (fst p) <= 0).
  { intros (lam & v) Hp. destruct (Pm lam v Hp) as ((_ & _ & Ci & _) & Cr). auto. }
  assert (Ab : forall j p, nth_error (modes r) j = Some p -> w j <= - cre (fst p)).
  { apply (ritz_above N k op Z HA V w (modes r) HB); [lia| |now apply abs_le_neg|exact Ind]. intros (lam & v) Hp. now apply (Pm lam v). }
  set (d := (c0, fun _ => c0) : cpx * vect CC).
  assert (OU : objective N k op Z (Rabs (lsum (modes r)))). { apply (objective_Af N k op HA). exists U. split; [exact HU|]. now rewrite Tr. }
  pose proof (objective_unique N k op HA Z _ _ O1 OU) as EE. rewrite (lsum_nth _ d), Ln in EE.
  assert (Nth : forall i, (i < k)%nat -> nth_error (modes r) i = Some (nth i (modes r) d)). { intros i Hi. apply nth_error_nth'. lia. }
  intros j lam v Hj. pose proof (nth_error_In _ _ Hj) as Hin. split; [now apply (Re (lam, v))|]. split; [exact (Ab j (lam, v) Hj)|].
  assert (Lj : (j < k)%nat) by (rewrite <- Ln; apply nth_error_Some; congruence).
  assert (T : - cre (fst (nth j (modes r) d)) - w j <= rs k (fun i => - cre (fst (nth i (modes r) d)) - w i)).
  { apply (rs_ge_term k (fun i => - cre (fst (nth i (modes r) d)) - w i) j Lj). intros i Hi. pose proof (Ab i _ (Nth i Hi)). lra. }
  assert (T2 : rs k (fun i => - cre (fst (nth i (modes r) d)) - w i) = - rs k (fun i => cre (fst (nth i (modes r) d))) - lowest k w).
  { refine (eq_trans (rs_sub k (fun i => - cre (fst (nth i (modes r) d))) w) _). unfold lowest. refine (f_equal (fun x => Rminus x (rs k w)) _).
    set (f := fun i => cre (fst (nth i (modes r) d))). transitivity (rs k (fun i => (-1) * f i)); [apply rs_ext; intros q _; change (- f q = -1 * f q); ring|].
    refine (eq_trans (rs_scale k (-1) f) _). generalize (rs k f). intro x. change (-1 * x = - x). ring. }
  rewrite T2 in T. rewrite (nth_error_nth _ _ d Hj) in T. cbn [fst] in T. set (x := rs k (fun i => cre (fst (nth i (modes r) d)))) in *.
  pose proof (Rle_abs (- x)) as A. rewrite Rabs_Ropp in A. change (E = Rabs x) in EE. lra.
Qed.
Print Assumptions C157_modes.

(** ** A concrete crystal *)
Lemma eig1_independent : eig_independent 1 eig1.
Proof.
  intros M lam V _ E. unfold eig1 in E. injection E as <- <-. apply seq_independent. intros c Z j Hj. replace j with O by lia. specialize (Z O ltac:(lia)).
  unfold comb in Z. cbn [sumN] in Z. apply (f_equal (fun z => z)) in Z. rewrite <- Z. apply cpx_ext; cbn; ring.
Qed.
Lemma eps1_positive : positive one eps1. Proof. intros a j _ _. apply eps1_pos. Qed.
Example C155_case : length one = 3%nat /\ off_y_axis k0_x id3 one /\ positive one eps1 /\ by_length k0_x id3 one [[0;0;0]%nat] /\
  bands 2 (band_op k0_x id3 one eps1) (fun i a => if (i + a =? 1)%nat then c1 else c0) (fun a => if (a =? 0)%nat then 1 / 16 else 1 / 5).
Proof.
  split; [reflexivity|]. split; [exact one_off_y|]. split; [exact eps1_positive|]. split; [split; [reflexivity|repeat constructor]|].
  constructor.
  - intros a b Ha Hb. destruct a as [|[|a]]; [| |lia]; (destruct b as [|[|b]]; [| |lia]); apply cpx_ext; cbn; ring.
  - intros a Ha. destruct (op_one (col (fun i a => if (i + a =? 1)%nat then c1 else c0) a)) as (y & E & Y0 & Y1). exists y. split; [exact E|].
    intros i Hi. destruct i as [|[|i]]; [| |lia]; (destruct a as [|[|a]]; [| |lia]); rewrite ?Y0, ?Y1; apply cpx_ext; cbn; ring.
  - intros a b Hab Hb. destruct b as [|[|b]]; [| |lia]; (destruct a as [|[|a]]; [| |lia]); first [exfalso; lia|cbn; lra].
Qed.
Example C156_case : exists V w V' w', bands 2 (band_op k0_x id3 one eps1) V w /\ bands 2 (band_op k0_x id3 one (fun a j => eps1 a j * (5 / 4))) V' w' /\
  (forall a j, (a < 3)%nat -> inb one j -> 0 < eps1 a j <= eps1 a j * (5 / 4)) /\
  (forall a j, (a < 3)%nat -> inb one j -> (1 - 1 / 4) * eps1 a j <= eps1 a j * (5 / 4) <= (1 + 1 / 4) * eps1 a j) /\ within one 1 16 eps1.
Proof.
  destruct (bands_exist 2 _ op1_hermitian) as (V & w & HB).
  destruct (bands_exist 2 (band_op k0_x id3 one (fun a j => eps1 a j * (5 / 4)))) as (V' & w' & HB'). { apply (band_herm k0_x id3 one); [reflexivity|exact one_off_y|]. intros a j _ _. pose proof (eps1_pos a j). lra. }
  exists V, w, V', w'. split; [exact HB|]. split; [exact HB'|]. split; [intros a j _ _; pose proof (eps1_pos a j); lra|]. split; [intros a j _ _; pose proof (eps1_pos a j); lra|].
  intros a j _ _. unfold eps1, eps_y, eps_z. destruct a as [|[|a]]; lra.
Qed.
Example C157_case : inv_ok 1 inv1 /\ sqrtm_ok 1 sqrtm1 /\ eig_ok 1 eig1 /\ eig_independent 1 eig1 /\
  exists V w r, bands 2 op1 V w /\ eigsolve 2 1 op1 iop1 1 2 100 inv1 sqrtm1 eig1 (better t1) no_rng 1 (Some y1) = Some r /\ converged r = true.
Proof.
  destruct C104_case as (_ & A & B & D & E & r & Er & Cr). split; [exact A|]. split; [exact B|]. split; [exact D|]. split; [exact eig1_independent|].
  destruct (bands_exist 2 _ E) as (V & w & HB). now exists V, w, r.
Qed.
