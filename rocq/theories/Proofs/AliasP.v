(** Lemmas on objects. *)
From Coq Require Import List Arith ZArith Lia Bool Field.
From Verif.Lib Require Import Num Sums Idx.
From Verif.Model Require Import Fdmath Fdtd Alias.
From Verif.Spec Require Import FdtdRun AliasSpec.
Import ListNotations.
Local Open Scope fld_scope.

Lemma upd_same {A} (st : nat -> A) a x : upd st a x a = x.
Proof. unfold upd. now rewrite Nat.eqb_refl. Qed.
Lemma upd_other {A} (st : nat -> A) a b x : b <> a -> upd st a x b = st b.
Proof. intro N. unfold upd. destruct (Nat.eqb_spec b a); [contradiction|reflexivity]. Qed.

Section P.
  Context {K : Fld}.
  Variables (sh : list nat) (dt : K) (dxes : dxes_t K) (eps : field K) (mu : option (field K)).

  Lemma pass_arrays (copies : bool) (s : sim K) j E H :
    reads (mem s) (var_e s) E -> reads (mem s) (var_h s) H -> var_e s <> var_h s ->
    (var_e s < top (mem s))%nat -> (var_h s < top (mem s))%nat ->
    exists s', pass sh dt dxes eps mu copies s j = Ok s' /\
      reads (mem s') (var_e s') (sE (step sh dt dxes eps mu j (mkst E H))) /\
      reads (mem s') (var_h s') (sH (step sh dt dxes eps mu j (mkst E H))) /\
      var_e s' <> var_h s' /\ (var_e s' < top (mem s'))%nat /\ (var_h s' < top (mem s'))%nat /\
      es s' = es s ++ [var_e s'] /\ hs s' = hs s ++ [var_h s'] /\ (top (mem s) <= top (mem s'))%nat /\
      (if copies then forall a, (a < top (mem s))%nat -> objs (mem s') a = objs (mem s) a
       else var_e s' = var_e s /\ var_h s' = var_h s /\
            forall a, a <> var_e s -> a <> var_h s -> objs (mem s') a = objs (mem s) a).
  Proof.
    intros RE RH N LE LH. unfold reads in *. destruct s as [e h ls ks m]. cbn [var_e var_h mem es hs] in *.
    destruct copies; unfold pass; cbn [mem var_e var_h copy alloc].
    - unfold copy, alloc; cbn [objs top].
      set (m2 := mkHeap (upd (upd (objs m) (top m) (objs m e)) (S (top m)) (upd (objs m) (top m) (objs m e) h)) (S (S (top m)))).
      assert (O1 : objs m2 (top m) = Arr E).
      { unfold m2; cbn [objs]. rewrite upd_other by lia. rewrite upd_same. exact RE. }
      assert (O2 : objs m2 (S (top m)) = Arr H).
      { unfold m2; cbn [objs]. rewrite upd_same. rewrite upd_other by lia. exact RH. }
      unfold mh_fun, isub. rewrite O1, O2. cbn [ncomp Nat.eqb andb].
      set (H' := fun c idx => H c idx - _). unfold me_fun. cbn [store objs]. rewrite upd_same. cbn [ncomp Nat.eqb].
      eexists; split; [reflexivity|]. cbn [var_e var_h mem es hs].
      unfold iadd, store; cbn [objs top].
      assert (A1 : top m <> S (top m)) by lia.
      assert (A2 : S (top m) <> top m) by lia.
      repeat (first [rewrite upd_same|rewrite (upd_other _ _ _ _ A1)|rewrite (upd_other _ _ _ _ A2)]). rewrite O1. 
      repeat split; try reflexivity; try (cbn; lia).
      intros a La. rewrite !upd_other by lia. unfold m2; cbn [objs]. rewrite !upd_other by lia. reflexivity.
    - unfold mh_fun, isub. rewrite RE, RH. cbn [ncomp Nat.eqb andb].
      set (H' := fun c idx => H c idx - _). unfold me_fun. cbn [store objs]. rewrite upd_same. cbn [ncomp Nat.eqb].
      eexists; split; [reflexivity|]. cbn [var_e var_h mem es hs].
      unfold iadd, store; cbn [objs top].
      assert (A2 : h <> e) by congruence.
      repeat (first [rewrite upd_same|rewrite (upd_other _ _ _ _ N)|rewrite (upd_other _ _ _ _ A2)]). rewrite RE.
      repeat split; try reflexivity; try assumption.
      intros a N1 N2. rewrite !upd_other by assumption. reflexivity.
  Qed.

  Lemma passes_snoc copies js j s :
    passes sh dt dxes eps mu copies (js ++ [j]) s
    = match passes sh dt dxes eps mu copies js s with Ok s' => pass sh dt dxes eps mu copies s' j | Raise => Raise end.
  Proof.
    revert s. induction js as [|i js IH]; intro s; cbn [app passes].
    - destruct (pass sh dt dxes eps mu copies s j); reflexivity.
    - destruct (pass sh dt dxes eps mu copies s i); [apply IH|reflexivity].
  Qed.

  Lemma run_snoc js j (s : state K) : run sh dt dxes eps mu (js ++ [j]) s = step sh dt dxes eps mu j (run sh dt dxes eps mu js s).
  Proof. unfold run. now rewrite fold_left_app. Qed.

  Lemma passes_copies js (s : sim K) E H :
    reads (mem s) (var_e s) E -> reads (mem s) (var_h s) H -> var_e s <> var_h s ->
    (var_e s < top (mem s))%nat -> (var_h s < top (mem s))%nat -> es s = [] -> hs s = [] ->
    exists s', passes sh dt dxes eps mu true js s = Ok s' /\
      length (es s') = length js /\ length (hs s') = length js /\
      (forall k a, nth_error (es s') k = Some a -> (a < top (mem s'))%nat /\ reads (mem s') a (sE (run sh dt dxes eps mu (firstn (S k) js) (mkst E H)))) /\
      (forall k a, nth_error (hs s') k = Some a -> (a < top (mem s'))%nat /\ reads (mem s') a (sH (run sh dt dxes eps mu (firstn (S k) js) (mkst E H)))) /\
      (forall a, (a < top (mem s))%nat -> objs (mem s') a = objs (mem s) a) /\ (top (mem s) <= top (mem s'))%nat /\
      reads (mem s') (var_e s') (sE (run sh dt dxes eps mu js (mkst E H))) /\
      reads (mem s') (var_h s') (sH (run sh dt dxes eps mu js (mkst E H))) /\
      var_e s' <> var_h s' /\ (var_e s' < top (mem s'))%nat /\ (var_h s' < top (mem s'))%nat.
  Proof.
    intros RE RH N LE LH E0 H0. induction js as [|j js IH] using rev_ind.
    - exists s. cbn [passes]. rewrite E0, H0. do 3 (split; [reflexivity|]).
      do 2 (split; [intros k a X; destruct k; discriminate|]). repeat split; try assumption; try lia; reflexivity.
    - destruct IH as (s1 & P1 & L1 & L2 & S1 & S2 & F & T & R1 & R2 & N1 & B1 & B2).
      destruct (run sh dt dxes eps mu js (mkst E H)) as [E1 H1] eqn:RUN. cbn [sE sH] in R1, R2.
      destruct (pass_arrays true s1 j E1 H1 R1 R2 N1 B1 B2) as (s2 & P2 & Q1 & Q2 & Q3 & Q4 & Q5 & Q6 & Q7 & Q8 & Q9).
      exists s2. rewrite passes_snoc, P1, run_snoc, RUN. split; [exact P2|].
      rewrite Q6, Q7, !app_length. cbn [length]. split; [lia|]. split; [lia|].
      assert (X : forall (l : list nat) (v : nat) (proj : state K -> field K), length l = length js ->
        (forall k a, nth_error l k = Some a -> (a < top (mem s1))%nat /\ reads (mem s1) a (proj (run sh dt dxes eps mu (firstn (S k) js) (mkst E H)))) ->
        (v < top (mem s2))%nat -> reads (mem s2) v (proj (step sh dt dxes eps mu j (mkst E1 H1))) ->
        forall k a, nth_error (l ++ [v]) k = Some a -> (a < top (mem s2))%nat /\ reads (mem s2) a (proj (run sh dt dxes eps mu (firstn (S k) (js ++ [j])) (mkst E H)))).
      { intros l v proj Ll S Lv Rv k a X. destruct (lt_dec k (length l)) as [Lk|Lk].
        - rewrite nth_error_app1 in X by exact Lk. destruct (S k a X) as [A B]. split; [lia|].
          rewrite firstn_app. replace (Datatypes.S k - length js)%nat with 0%nat by lia. cbn [firstn]. rewrite app_nil_r.
          unfold reads in *. rewrite Q9 by exact A. exact B.
        - rewrite nth_error_app2 in X by lia. destruct (k - length l)%nat as [|q] eqn:D; cbn in X; [|destruct q; discriminate].
          injection X as <-. split; [exact Lv|].
          rewrite firstn_all2 by (rewrite app_length; cbn; lia). rewrite run_snoc, RUN. exact Rv. }
      split; [exact (X (es s1) (var_e s2) sE L1 S1 Q4 Q1)|]. split; [exact (X (hs s1) (var_h s2) sH L2 S2 Q5 Q2)|].
      split; [intros a La; rewrite Q9 by lia; apply F; exact La|]. split; [lia|]. repeat split; assumption.
  Qed.

  Lemma passes_in_place js (s : sim K) E H :
    reads (mem s) (var_e s) E -> reads (mem s) (var_h s) H -> var_e s <> var_h s ->
    (var_e s < top (mem s))%nat -> (var_h s < top (mem s))%nat -> es s = [] -> hs s = [] ->
    exists s', passes sh dt dxes eps mu false js s = Ok s' /\
      length (es s') = length js /\ length (hs s') = length js /\
      (forall a, In a (es s') -> a = var_e s) /\ (forall a, In a (hs s') -> a = var_h s) /\
      var_e s' = var_e s /\ var_h s' = var_h s /\
      reads (mem s') (var_e s) (sE (run sh dt dxes eps mu js (mkst E H))) /\
      reads (mem s') (var_h s) (sH (run sh dt dxes eps mu js (mkst E H))) /\
      (top (mem s) <= top (mem s'))%nat /\
      (forall a, a <> var_e s -> a <> var_h s -> objs (mem s') a = objs (mem s) a).
  Proof.
    intros RE RH N LE LH E0 H0. induction js as [|j js IH] using rev_ind.
    - exists s. cbn [passes]. rewrite E0, H0. repeat split; try assumption; try lia; try reflexivity; intros a [].
    - destruct IH as (s1 & P1 & L1 & L2 & S1 & S2 & V1 & V2 & R1 & R2 & T & F).
      destruct (run sh dt dxes eps mu js (mkst E H)) as [E1 H1] eqn:RUN. cbn [sE sH] in R1, R2.
      destruct (pass_arrays false s1 j E1 H1) as (s2 & P2 & Q1 & Q2 & Q3 & Q4 & Q5 & Q6 & Q7 & Q8 & Q9 & Q10 & Q11);
        [rewrite V1; exact R1|rewrite V2; exact R2|rewrite V1, V2; exact N|rewrite V1; lia|rewrite V2; lia|].
      exists s2. rewrite passes_snoc, P1, run_snoc, RUN. split; [exact P2|].
      rewrite Q6, Q7, !app_length. cbn [length]. split; [lia|]. split; [lia|].
      rewrite Q9, Q10, V1, V2 in *.
      split; [intros a X; apply in_app_or in X; destruct X as [X | [X | []]]; [apply S1; exact X|congruence]|].
      split; [intros a X; apply in_app_or in X; destruct X as [X | [X | []]]; [apply S2; exact X|congruence]|].
      split; [reflexivity|]. split; [reflexivity|]. split; [exact Q1|]. split; [exact Q2|]. split; [lia|].
      intros a A1 A2. rewrite Q11 by assumption. now apply F.
  Qed.
End P.

Section Delta.
  Context {K : Fld}.
  Add Field Kfield_alias : (fth K).
  Lemma delta_same (dt : K) (F G eps : field K) mu d idx : dt <> 0 ->
    delta_energy_h2e dt F G F G (Some eps) mu d idx = 0 /\ delta_energy_e2h dt G F G F (Some eps) mu d idx = 0.
  Proof.
    intro Hdt. unfold delta_energy_h2e, delta_energy_e2h, dxmul, sum_axis0, wat, or_one.
    split; destruct d as [[we wh]|], mu; cbn; field; exact Hdt.
  Qed.
End Delta.
