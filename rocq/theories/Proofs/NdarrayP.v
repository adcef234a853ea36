(** Evaluating array expressions on arrays of shape sh + (3,) and sh + (1,). *)
From Coq Require Import Reals List Arith ZArith Lia Lra Psatz Bool.
From Verif.Lib Require Import Num Sums Idx RealF Dft.
From Verif.Model Require Import Ndarray.
Import ListNotations.

Lemma bshape_rev_same l : bshape_rev l l = Some l.
Proof. induction l as [|x l IH]; [reflexivity|]. cbn. now rewrite IH, Nat.eqb_refl. Qed.
Lemma bshape_31 sh : bshape (sh ++ [3]) (sh ++ [1]) = Some (sh ++ [3]).
Proof. unfold bshape. rewrite !rev_app_distr. cbn. rewrite bshape_rev_same. cbn. now rewrite rev_involutive. Qed.
Lemma bshape_same s : bshape s s = Some s.
Proof. unfold bshape. rewrite bshape_rev_same. cbn. now rewrite rev_involutive. Qed.
Lemma inb_snoc sh j c a : inb sh j -> a < c -> inb (sh ++ [c]) (j ++ [a]).
Proof. intros H L. apply Forall2_app; [exact H|]. repeat constructor. exact L. Qed.
Lemma bix_same_len s idx : length idx = length s -> bix s idx = map (fun p => if (fst p =? 1)%nat then O else snd p) (combine s idx).
Proof. intro H. unfold bix. now rewrite H, Nat.sub_diag. Qed.
Lemma bix_id s idx : inb s idx -> bix s idx = idx.
Proof.
  intro H. rewrite bix_same_len by now apply inb_length. induction H as [|i n is ns L H IH]; [reflexivity|].
  cbn. rewrite IH. f_equal. destruct (Nat.eqb_spec n 1); [subst; lia|reflexivity].
Qed.
Lemma bix_1 sh j a : inb sh j -> bix (sh ++ [1]) (j ++ [a]) = j ++ [0].
Proof.
  intro H. rewrite bix_same_len by (rewrite !app_length, (inb_length sh j H); reflexivity).
  induction H as [|i n is ns L H IH]; [reflexivity|].
  cbn. rewrite IH. f_equal. destruct (Nat.eqb_spec n 1); [subst; lia|reflexivity].
Qed.

Section Eval.
  Variable sh : list nat.
  Hypothesis Hsh : length sh = 3.
  Definition is3 (A : nd) (u : nat -> list nat -> cpx) : Prop :=
    shp A = sh ++ [3] /\ forall j a, inb sh j -> a < 3 -> val A (j ++ [a]) = Some (u a j).
  Definition is1 (A : nd) (u : list nat -> cpx) : Prop :=
    shp A = sh ++ [1] /\ forall j, inb sh j -> val A (j ++ [0]) = Some (u j).

  Lemma zip33 f A B u v w : is3 A u -> is3 B v ->
    (forall a j, a < 3 -> inb sh j -> f (Some (u a j)) (Some (v a j)) = Some (w a j)) -> exists C, zipw f A B = Some C /\ is3 C w.
  Proof.
    intros [SA VA] [SB VB] H. unfold zipw. rewrite SA, SB, bshape_same. eexists. split; [reflexivity|].
    split; [reflexivity|]. intros j a Hj Ha. cbn. rewrite !bix_id by now apply inb_snoc. rewrite VA, VB by assumption. now apply H.
  Qed.
  Lemma zip31 f A B u v w : is3 A u -> is1 B v ->
    (forall a j, a < 3 -> inb sh j -> f (Some (u a j)) (Some (v j)) = Some (w a j)) -> exists C, zipw f A B = Some C /\ is3 C w.
  Proof.
    intros [SA VA] [SB VB] H. unfold zipw. rewrite SA, SB, bshape_31. eexists. split; [reflexivity|].
    split; [reflexivity|]. intros j a Hj Ha. cbn. rewrite bix_id by now apply inb_snoc. rewrite bix_1 by assumption. rewrite VA, VB by assumption. now apply H.
  Qed.
  Lemma zip11 f A B u v w : is1 A u -> is1 B v ->
    (forall j, inb sh j -> f (Some (u j)) (Some (v j)) = Some (w j)) -> exists C, zipw f A B = Some C /\ is1 C w.
  Proof.
    intros [SA VA] [SB VB] H. unfold zipw. rewrite SA, SB, bshape_same. eexists. split; [reflexivity|].
    split; [reflexivity|]. intros j Hj. cbn. rewrite !bix_id by (apply inb_snoc; [exact Hj|lia]). rewrite VA, VB by assumption. now apply H.
  Qed.
  Lemma izip33 f A B u v w : is3 A u -> is3 B v ->
    (forall a j, a < 3 -> inb sh j -> f (Some (u a j)) (Some (v a j)) = Some (w a j)) -> exists C, izipw f A B = Some C /\ is3 C w.
  Proof.
    intros HA HB H. destruct (zip33 f A B u v w HA HB H) as (C & E & HC). exists C. split; [|exact HC].
    unfold izipw. rewrite E. destruct list_eq_dec as [_|N]; [reflexivity|]. exfalso. apply N. now rewrite (proj1 HC), (proj1 HA).
  Qed.
  Lemma zip33v f A B : shp A = sh ++ [3] -> shp B = sh ++ [3] -> exists C, zipw f A B = Some C /\ shp C = sh ++ [3] /\
    forall j a, inb sh j -> a < 3 -> val C (j ++ [a]) = f (val A (j ++ [a])) (val B (j ++ [a])).
  Proof.
    intros SA SB. unfold zipw. rewrite SA, SB, bshape_same. eexists. split; [reflexivity|]. split; [reflexivity|].
    intros j a Hj Ha. cbn. now rewrite !bix_id by now apply inb_snoc.
  Qed.
  Lemma izip33v f A B : shp A = sh ++ [3] -> shp B = sh ++ [3] -> exists C, izipw f A B = Some C /\ shp C = sh ++ [3] /\
    forall j a, inb sh j -> a < 3 -> val C (j ++ [a]) = f (val A (j ++ [a])) (val B (j ++ [a])).
  Proof.
    intros SA SB. destruct (zip33v f A B SA SB) as (C & E & S & V). exists C. unfold izipw. rewrite E.
    destruct list_eq_dec as [_|N]; [auto|]. exfalso. apply N. now rewrite S, SA.
  Qed.
  Lemma zip31v f A B : shp A = sh ++ [3] -> shp B = sh ++ [1] -> exists C, zipw f A B = Some C /\ shp C = sh ++ [3] /\
    forall j a, inb sh j -> a < 3 -> val C (j ++ [a]) = f (val A (j ++ [a])) (val B (j ++ [0])).
  Proof.
    intros SA SB. unfold zipw. rewrite SA, SB, bshape_31. eexists. split; [reflexivity|]. split; [reflexivity|].
    intros j a Hj Ha. cbn. rewrite bix_id by now apply inb_snoc. now rewrite bix_1.
  Qed.
  Lemma zip11v f A B : shp A = sh ++ [1] -> shp B = sh ++ [1] -> exists C, zipw f A B = Some C /\ shp C = sh ++ [1] /\
    forall j, inb sh j -> val C (j ++ [0]) = f (val A (j ++ [0])) (val B (j ++ [0])).
  Proof.
    intros SA SB. unfold zipw. rewrite SA, SB, bshape_same. eexists. split; [reflexivity|]. split; [reflexivity|].
    intros j Hj. cbn. now rewrite !bix_id by (apply inb_snoc; [exact Hj|lia]).
  Qed.
  Lemma nmap1 f A u w : is1 A u -> (forall j, inb sh j -> f (Some (u j)) = Some (w j)) -> is1 (nmap f A) w.
  Proof. intros [SA VA] H. split; [exact SA|]. intros j Hj. cbn. rewrite VA by exact Hj. now apply H. Qed.
  Lemma firstn3 (j : list nat) a : inb sh j -> firstn 3 (j ++ [a]) = j.
  Proof. intro H. pose proof (inb_length sh j H) as L. rewrite firstn_app, L, Hsh, firstn_all2, app_nil_r by lia. reflexivity. Qed.
  Lemma skipn3 (j : list nat) a : inb sh j -> skipn 3 (j ++ [a]) = [a].
  Proof. intro H. pose proof (inb_length sh j H) as L. rewrite skipn_app, L, Hsh, skipn_all2 by lia. reflexivity. Qed.
  Lemma coord3 (j : list nat) a : inb sh j -> coord (j ++ [a]) 3 = a.
  Proof. intro H. pose proof (inb_length sh j H) as L. unfold coord. rewrite app_nth2 by lia. now rewrite L, Hsh. Qed.
  Lemma in_cells j : inb sh j -> In j (cells sh).
  Proof. clear Hsh. intro H. unfold cells. apply in_map_iff. exists (ravel sh j). split; [now apply unravel_ravel|]. apply in_seq. pose proof (ravel_lt sh j H). lia. Qed.
  Lemma cells_in j : In j (cells sh) -> inb sh j.
  Proof. clear Hsh. intro H. unfold cells in H. apply in_map_iff in H as (p & <- & H). apply in_seq in H. apply inb_unravel. lia. Qed.
  Lemma all_finite_some f g : (forall j, inb sh j -> f j = Some (g j)) ->
    exists g', all_finite sh f = Some g' /\ forall j, inb sh j -> g' j = g j.
  Proof.
    intro H. unfold all_finite. replace (forallb _ _) with true.
    - eexists. split; [reflexivity|]. intros j Hj. cbn. now rewrite H.
    - symmetry. apply forallb_forall. intros j Hj. rewrite H by now apply cells_in. reflexivity.
  Qed.
  Lemma all_finite_none f j : inb sh j -> f j = None -> all_finite sh f = None.
  Proof.
    intros Hj E. unfold all_finite. destruct forallb eqn:F; [|reflexivity].
    rewrite forallb_forall in F. specialize (F j (in_cells j Hj)). cbv beta in F. rewrite E in F. discriminate.
  Qed.
  Lemma fft3_is3 T A u : (forall f g k, (forall j, inb sh j -> f j = g j) -> T sh f k = T sh g k) ->
    is3 A u -> is3 (fft3 T A) (fun a => T sh (u a)).
  Proof.
    intros HT [SA VA]. split; [exact SA|]. intros j a Hj Ha. cbn [val fft3]. rewrite SA, skipn3 by exact Hj.
    replace (firstn 3 (sh ++ [3])) with sh by (rewrite firstn_app, Hsh, firstn_all2, app_nil_r by lia; reflexivity).
    rewrite firstn3 by exact Hj.
    destruct (all_finite_some (fun j0 => val A (j0 ++ [a])) (u a)) as (g & E & Hg).
    { intros j' Hj'. now apply VA. }
    rewrite E. f_equal. now apply HT.
  Qed.
  Lemma fft3_none T A j0 a : shp A = sh ++ [3] -> inb sh j0 -> val A (j0 ++ [a]) = None ->
    forall j, inb sh j -> val (fft3 T A) (j ++ [a]) = None.
  Proof.
    intros SA H0 E j Hj. cbn [val fft3]. rewrite SA, skipn3 by exact Hj.
    replace (firstn 3 (sh ++ [3])) with sh by (rewrite firstn_app, Hsh, firstn_all2, app_nil_r by lia; reflexivity).
    now rewrite (all_finite_none _ j0 H0 E).
  Qed.
  Lemma sum3k_shape A : shp A = sh ++ [3] -> shp (sum3k A) = sh ++ [1].
  Proof. intro SA. cbn [shp sum3k]. rewrite SA. rewrite firstn_app, Hsh, firstn_all2 by lia. rewrite skipn_app, Hsh, skipn_all2 by lia. cbn. now rewrite app_nil_r. Qed.
  Lemma sum3k_none A : shp A = sh ++ [3] -> (forall j a, inb sh j -> a < 3 -> val A (j ++ [a]) = None) ->
    forall j, inb sh j -> val (sum3k A) (j ++ [0]) = None.
  Proof.
    intros SA H j Hj. cbn [val sum3k]. rewrite SA. replace (dim (sh ++ [3]) 3) with 3 by (unfold dim; rewrite app_nth2, Hsh by lia; reflexivity).
    rewrite firstn3 by exact Hj. replace (skipn 4 (j ++ [0])) with (@nil nat) by (rewrite skipn_all2; [reflexivity|]; rewrite app_length, (inb_length sh j Hj), Hsh; cbn; lia).
    cbn [nsum app]. rewrite (H j 2) by (try exact Hj; lia). unfold nadd at 1, lift2. now destruct nadd.
  Qed.
  Lemma sum3k_is1 A u : is3 A u -> is1 (sum3k A) (fun j => cadd (cadd (cadd c0 (u 0 j)) (u 1 j)) (u 2 j)).
  Proof.
    intros [SA VA]. split.
    - cbn [shp sum3k]. rewrite SA. rewrite firstn_app, Hsh, firstn_all2 by lia. rewrite skipn_app, Hsh, skipn_all2 by lia. cbn. now rewrite app_nil_r.
    - intros j Hj. cbn [val sum3k]. rewrite SA. replace (dim (sh ++ [3]) 3) with 3 by (unfold dim; rewrite app_nth2, Hsh by lia; reflexivity).
      rewrite firstn3 by exact Hj. replace (skipn 4 (j ++ [0])) with (@nil nat) by (rewrite skipn_all2; [reflexivity|]; rewrite app_length, (inb_length sh j Hj), Hsh; cbn; lia).
      cbn [nsum app]. rewrite !VA by (try exact Hj; lia). reflexivity.
  Qed.
  Lemma prodl_snoc s c : prodl (s ++ [c]) = prodl s * c.
  Proof. induction s as [|n s IH]; cbn; [lia|]. rewrite IH. lia. Qed.
  Lemma ravel_snoc1 s j : inb s j -> ravel (s ++ [1]) (j ++ [0]) = ravel s j.
  Proof. intro H. induction H as [|i n is ns L H IH]; [reflexivity|]. cbn. rewrite IH, prodl_snoc. lia. Qed.
  Lemma concat_is1 A B u v : is1 A u -> is1 B v ->
    exists r, concat_out (2 * prodl sh) A B = Some r /\
      forall j, inb sh j -> r (ravel sh j) = Some (u j) /\ r (prodl sh + ravel sh j) = Some (v j).
  Proof.
    intros [SA VA] [SB VB]. unfold concat_out. rewrite SA, SB, prodl_snoc.
    replace (prodl sh * 1 + prodl sh * 1 =? 2 * prodl sh) with true by (symmetry; apply Nat.eqb_eq; lia).
    eexists. split; [reflexivity|]. intros j Hj. pose proof (ravel_lt sh j Hj) as L. cbv beta.
    assert (I : inb (sh ++ [1]) (j ++ [0])) by (apply inb_snoc; [exact Hj|lia]).
    assert (U : unravel (sh ++ [1]) (ravel sh j) = j ++ [0]) by (rewrite <- ravel_snoc1 by exact Hj; now apply unravel_ravel).
    split.
    - destruct (Nat.ltb_spec (ravel sh j) (prodl sh * 1)); [|lia]. rewrite U. now apply VA.
    - destruct (Nat.ltb_spec (prodl sh + ravel sh j) (prodl sh * 1)); [lia|].
      replace (prodl sh + ravel sh j - prodl sh * 1) with (ravel sh j) by lia. rewrite U. now apply VB.
  Qed.
  Lemma concat_none A B : shp A = sh ++ [1] -> shp B = sh ++ [1] -> (forall j, inb sh j -> val A (j ++ [0]) = None) -> (forall j, inb sh j -> val B (j ++ [0]) = None) ->
    exists r, concat_out (2 * prodl sh) A B = Some r /\ forall p, p < 2 * prodl sh -> r p = None.
  Proof.
    intros SA SB HA HB. unfold concat_out. rewrite SA, SB, prodl_snoc.
    replace (prodl sh * 1 + prodl sh * 1 =? 2 * prodl sh) with true by (symmetry; apply Nat.eqb_eq; lia).
    eexists. split; [reflexivity|]. intros p Hp. cbv beta.
    assert (U : forall q, q < prodl sh -> exists j, inb sh j /\ unravel (sh ++ [1]) q = j ++ [0]).
    { intros q Hq. exists (unravel sh q). pose proof (inb_unravel sh q Hq) as I. split; [exact I|].
      rewrite <- (ravel_unravel sh q Hq) at 1. rewrite <- ravel_snoc1 by exact I. apply unravel_ravel. apply inb_snoc; [exact I|lia]. }
    destruct (Nat.ltb_spec p (prodl sh * 1)).
    - destruct (U p) as (j & Hj & ->); [lia|]. now apply HA.
    - destruct (U (p - prodl sh * 1)) as (j & Hj & ->); [lia|]. now apply HB.
  Qed.
End Eval.
