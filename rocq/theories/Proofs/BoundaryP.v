From Coq Require Import List Arith ZArith Lia Field Bool.
From Verif.Lib Require Import Num Sums Idx Mat.
From Verif.Model Require Import Fdmath Fdtd Pml.
Import ListNotations.
Local Open Scope nat_scope.

Section P.
  Variable K : Fld.
  Add Field Kfield : (fth K).
  Local Open Scope fld_scope.

  Lemma cb_others_ok d : (d < 3)%nat ->
    let '(u, v) := cb_others d in (u < 3 /\ v < 3 /\ u <> v /\ u <> d /\ v <> d)%nat.
  Proof. intro H. destruct d as [|[|[|d]]]; cbn; lia. Qed.

  (** Boundary rules: what one component looks like after the updater. *)
  Definition rule_zero0 (d : nat) (A : arr K) : arr K := fun idx => if Nat.eqb (coord idx d) 0 then 0 else A idx.
  Definition rule_copy0 (d : nat) (A : arr K) : arr K := fun idx => if Nat.eqb (coord idx d) 0 then A (upd d 1 idx) else A idx.
  Definition rule_mirror (n d : nat) (A : arr K) : arr K := fun idx =>
    if Nat.eqb (coord idx d) (n - 1) then - A (upd d (n - 3) idx)
    else if Nat.eqb (coord idx d) (n - 2) then 0 else A idx.
  Definition rule_copy1 (n d : nat) (A : arr K) : arr K := fun idx =>
    if Nat.eqb (coord idx d) (n - 1) then A (upd d (n - 2) idx) else A idx.

  Lemma mirror_zero n d A idx : (3 <= n)%nat ->
    set_plane d (n - 2) (fun _ => 0) (set_plane d (n - 1) (fun i => - plane d (n - 3) A i) A) idx = rule_mirror n d A idx.
  Proof.
    intro Hn. unfold set_plane, plane, rule_mirror.
    destruct (Nat.eqb_spec (coord idx d) (n - 2)), (Nat.eqb_spec (coord idx d) (n - 1)); try reflexivity. lia.
  Qed.

  Lemma cb_low sh d : (d < 3)%nat -> (2 <= dim sh d)%nat ->
    exists en hn, conducting_boundary (K := K) AsTuple sh (Z.of_nat d) (-1) = Ok (en, hn)
      /\ forall F, exists E H, en F = Ok E /\ hn F = Ok H /\
         forall c idx, (c < 3)%nat ->
           E c idx = (if Nat.eqb c d then rule_zero0 d (F c) idx else rule_copy0 d (F c) idx)
           /\ H c idx = (if Nat.eqb c d then rule_copy0 d (F c) idx else rule_zero0 d (F c) idx).
  Proof.
    intros Hd Hn. unfold conducting_boundary. rewrite Nat2Z.id.
    assert (G : (dim sh d <? 2)%nat = false) by (apply Nat.ltb_ge; lia).
    destruct d as [|[|[|d]]]; [| | |lia]; cbn [Z.eqb Z.of_nat orb negb cb_others Z.ltb Z.compare Pos.of_succ_nat Pos.succ Pos.eqb];
      unfold cb_guard; eexists; eexists; (split; [reflexivity|]); intro F; cbn beta; rewrite G;
      do 2 eexists; (split; [reflexivity|]); (split; [reflexivity|]);
      intros c idx Hc; destruct c as [|[|[|c]]]; try lia; cbn [Nat.eqb upd_comp]; split; reflexivity.
  Qed.

  Lemma cb_high sh d : (d < 3)%nat -> (3 <= dim sh d)%nat ->
    exists ep hp, conducting_boundary (K := K) AsTuple sh (Z.of_nat d) 1 = Ok (ep, hp)
      /\ forall F, exists E H, ep F = Ok E /\ hp F = Ok H /\
         forall c idx, (c < 3)%nat ->
           E c idx = (if Nat.eqb c d then rule_mirror (dim sh d) d (F c) idx else rule_copy1 (dim sh d) d (F c) idx)
           /\ H c idx = (if Nat.eqb c d then rule_copy1 (dim sh d) d (F c) idx else rule_mirror (dim sh d) d (F c) idx).
  Proof.
    intros Hd Hn. unfold conducting_boundary. rewrite Nat2Z.id.
    assert (G : (dim sh d <? 3)%nat = false) by (apply Nat.ltb_ge; lia).
    destruct d as [|[|[|d]]]; [| | |lia]; cbn [Z.eqb Z.of_nat orb negb cb_others Z.ltb Z.compare Pos.of_succ_nat Pos.succ Pos.eqb];
      unfold cb_guard; eexists; eexists; (split; [reflexivity|]); intro F; cbn beta; rewrite G;
      do 2 eexists; (split; [reflexivity|]); (split; [reflexivity|]);
      intros c idx Hc; destruct c as [|[|[|c]]]; try lia; cbn [Nat.eqb upd_comp]; split;
      solve [reflexivity | now apply mirror_zero].
  Qed.

  Lemma cb_sign sh li d p : conducting_boundary (K := K) li sh d p =
    conducting_boundary li sh d (Z.sgn p).
  Proof. unfold conducting_boundary. destruct p; reflexivity. Qed.

  Lemma cb_raise sh li (d p : Z) : conducting_boundary (K := K) li sh d p = Raise <->
    (d < 0 \/ 2 < d \/ p = 0)%Z.
  Proof.
    unfold conducting_boundary. 
    destruct (Z.eqb_spec d 0), (Z.eqb_spec d 1), (Z.eqb_spec d 2); subst; cbn [orb negb]; try lia;
    try (split; [intros _; lia|reflexivity]);
    cbn; destruct p as [|p|p]; cbn; split; intro H; try discriminate; try reflexivity; try lia.
  Qed.

  Lemma cb_rejected sh d p en hn : conducting_boundary (K := K) Rejected sh d p = Ok (en, hn) ->
    forall F, en F = Raise /\ hn F = Raise.
  Proof.
    unfold conducting_boundary. intros H F.
    destruct (negb _); [discriminate|]. destruct (cb_others _) as [u v].
    destruct (Z.ltb p 0); [injection H as <- <-; split; reflexivity|].
    destruct (Z.ltb 0 p); [injection H as <- <-; split; reflexivity|discriminate].
  Qed.
End P.
