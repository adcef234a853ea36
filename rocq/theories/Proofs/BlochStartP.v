(** Proofs about the first loop of bloch.eigsolve. *)
From Coq Require Import Reals List Arith ZArith Lia Lra Psatz Bool Field.
From Verif.Lib Require Import Num Sums Idx Mat RealF Dft.
From Verif.Model Require Import Ndarray Bloch Eigensolvers BlochSolve.
From Verif.Spec Require Import BlochSpec EigenSpec BlochSolveSpec BlochStartSpec.
From Verif.Proofs Require Import EmeP EigensolversP BlochP BlochP2 BlochSolveP.
Import ListNotations.
Local Open Scope R_scope.

Lemma norm2_nonneg n v : 0 <= norm2 n v.
Proof. unfold norm2. apply sumN_nonneg. intros. nra. Qed.
Lemma total2_nonneg N k Z : 0 <= total2 N k Z.
Proof. apply sumN_nonneg. intros. apply norm2_nonneg. Qed.
Lemma fro_sq N k Z : fro N k Z * fro N k Z = total2 N k Z.
Proof.
  unfold fro. rewrite sqrt_sqrt.
  - rewrite (sumN_swap RF). reflexivity.
  - apply sumN_nonneg. intros. apply sumN_nonneg. intros. unfold cnrm. nra.
Qed.
Lemma fro_nonneg N k Z : 0 <= fro N k Z.
Proof. apply sqrt_pos. Qed.
Lemma fro_of N k Z n : 0 <= n -> n * n = total2 N k Z -> fro N k Z = n.
Proof. intros Hn E. rewrite <- fro_sq in E. pose proof (fro_nonneg N k Z). nra. Qed.
Lemma norm2_scale_r N c (v : vect CC) : norm2 N (fun i => cmul (mkC c 0) (v i)) = c * c * norm2 N v.
Proof.
  unfold norm2. refine (eq_trans _ (sumN_mul_l RF N (c * c) _)). apply (sumN_ext RF). intros i _. cbn.
  match goal with |- ?a = ?b => change (a = b :> R) end. ring.
Qed.
Lemma total2_scale N k c Z : total2 N k (mscale_r c Z) = c * c * total2 N k Z.
Proof.
  unfold total2. refine (eq_trans _ (sumN_mul_l RF k (c * c) _)). apply (sumN_ext RF). intros j _. exact (norm2_scale_r N c (col Z j)).
Qed.
Lemma scaled_total2 N k Z : fro N k Z <> 0 -> total2 N k (mscale_r (INR k / fro N k Z) Z) = INR k * INR k.
Proof. intro H. rewrite total2_scale, <- fro_sq. field. exact H. Qed.

Section Start.
  Variables (N k : nat) (inv sqrtm : nat -> mat CC -> option (mat CC)).
  Hypothesis HI : inv_ok k inv.
  Notation loop rng := (start_loop N k inv sqrtm rng).

  Lemma accept_iff Z : (exists U, inv k (mm N (mct Z) Z) = Some U /\ ~ 100000000 * INR k < cre (trace k U)) <-> well_conditioned N k Z.
  Proof.
    split.
    - intros (U & E & L). pose proof (HI (mm N (mct Z) Z)) as H. rewrite E in H. exists U. split; [exact H|]. unfold re_trace, trace in *. lra.
    - intros (U & H & L). pose proof (HI (mm N (mct Z) Z)) as H'. destruct (inv k (mm N (mct Z) Z)) as [U'|].
      + exists U'. split; [reflexivity|]. unfold re_trace in L. unfold trace.
        assert (E : sumN (K := CC) k (fun i => U' i i) = sumN (K := CC) k (fun i => U i i)).
        { apply (sumN_ext CC). intros i Hi. refine (inv_unique k _ _ U' U _ H' H i i Hi Hi). reflexivity. }
        rewrite E. lra.
      + exfalso. exact (H' U H).
  Qed.
  (** One pass. *)
  Lemma pass rng f draw (view : bool) (y Z : mat CC) : fro N k Z <> 0 ->
    let Z1 := mscale_r (INR k / fro N k Z) Z in let y1 := if view then mtr Z1 else y in
    (well_conditioned N k Z1 -> loop rng (S f) draw view y Z = Some (Z1, mm N (mct Z1) Z1, view, y1)) /\
    ((forall U, ~ gram_inverse N k Z1 U) -> loop rng (S f) draw view y Z = loop rng f (S draw) false y1 (rng draw)) /\
    (forall U, gram_inverse N k Z1 U -> 100000000 * INR k < re_trace k U ->
       exists U', gram_inverse N k Z1 U' /\ loop rng (S f) draw view y Z = (S <- sqrtm k U' ;; loop rng f draw false y1 (mm k Z1 (mct S)))).
  Proof.
    intros Hz Z1 y1. cbn [start_loop]. cbv zeta. destruct (Req_EM_T (fro N k Z) 0) as [?|_]; [contradiction|]. fold Z1. fold y1.
    pose proof (HI (mm N (mct Z1) Z1)) as H. split; [|split].
    - intro W. destruct (proj2 (accept_iff Z1) W) as (U & -> & L). destruct (Rlt_dec _ _); [contradiction|reflexivity].
    - intro X. destruct (inv k _) as [U|]; [exfalso; exact (X U H)|reflexivity].
    - intros U HU L. destruct (inv k _) as [U'|]; [|exfalso; exact (H U HU)]. exists U'. split; [exact H|].
      assert (E : re_trace k U = cre (trace k U')).
      { unfold re_trace, trace. f_equal. apply (sumN_ext CC). intros i Hi. symmetry. refine (inv_unique k _ _ U' U _ H HU i i Hi Hi). reflexivity. }
      rewrite E in L. destruct (Rlt_dec _ _); [reflexivity|contradiction].
  Qed.
  Lemma accepted rng fuel : forall draw view y Z Z' G view' y', loop rng fuel draw view y Z = Some (Z', G, view', y') ->
    total2 N k Z' = INR k * INR k /\ well_conditioned N k Z'.
  Proof.
    induction fuel as [|f IH]; intros draw view y Z Z' G view' y' H; cbn [start_loop] in H; [discriminate|]. cbv zeta in H.
    destruct (Req_EM_T (fro N k Z) 0) as [|Hz]; [discriminate|]. destruct (inv k _) as [U|] eqn:E; [|exact (IH _ _ _ _ _ _ _ _ H)].
    destruct (Rlt_dec _ _) as [L|L]; [destruct (sqrtm k U); [exact (IH _ _ _ _ _ _ _ _ H)|discriminate]|].
    injection H as <- _ _ _. split; [now apply scaled_total2|]. apply accept_iff. exists U. now split.
  Qed.
  Lemma no_view rng fuel : forall draw y Z Z' G view' y', loop rng fuel draw false y Z = Some (Z', G, view', y') ->
    view' = false /\ y' = y /\ forall y2, loop rng fuel draw false y2 Z = Some (Z', G, false, y2).
  Proof.
    induction fuel as [|f IH]; intros draw y Z Z' G view' y' H; cbn [start_loop] in *; [discriminate|]. cbv zeta in *.
    destruct (Req_EM_T (fro N k Z) 0) as [|Hz]; [discriminate|]. destruct (inv k _) as [U|] eqn:E; [|exact (IH _ _ _ _ _ _ _ H)].
    destruct (Rlt_dec _ _) as [L|L]; [destruct (sqrtm k U); [exact (IH _ _ _ _ _ _ _ H)|discriminate]|].
    injection H as <- <- <- <-. repeat split.
  Qed.
  Lemma shift_rng rng fuel : forall draw view y Z, loop rng fuel (S draw) view y Z = loop (fun n => rng (S n)) fuel draw view y Z.
  Proof.
    induction fuel as [|f IH]; intros draw view y Z; cbn [start_loop]; [reflexivity|]. cbv zeta. destruct (Req_EM_T _ 0); [reflexivity|].
    destruct (inv k _) as [U|]; [|apply IH]. destruct (Rlt_dec _ _); [|reflexivity]. destruct (sqrtm k U); [apply IH|reflexivity].
  Qed.

  (** Z S^H with S^2 = (Z^H Z)^-1 has orthonormal columns. *)
  Hypothesis HQ : sqrtm_ok k sqrtm.
  Lemma root_orthonormal Z U S : gram_inverse N k Z U -> sqrtm k U = Some S ->
    let Y := mm (K := CC) k Z (mct S) in
    (forall i j, (i < k)%nat -> (j < k)%nat -> hdot N (col Y i) (col Y j) = if (i =? j)%nat then c1 else c0) /\
    (forall j, (j < k)%nat -> in_span N k Z (col Y j) /\ in_span N k Y (col Z j)).
  Proof.
    intros HU ES Y. destruct (HQ U S ES) as [Q1 Q2]. pose proof (Q2 (inverse_posdef N k Z U HU)) as SH. clear Q2.
    assert (EY : forall i j, (j < k)%nat -> Y i j = mm (K := CC) k Z S i j).
    { intros i j Hj. apply mm_ext; [reflexivity|]. intros q Hq. unfold mct. symmetry. now apply SH. }
    assert (HS : forall i j, (i < k)%nat -> (j < k)%nat -> mm (K := CC) k S S i j = U i j) by exact Q1.
    split.
    - intros i j Hi Hj. rewrite <- (Y_orthonormal N k Z U S HU HS SH i j Hi Hj). apply hdot_ext; intros r _; unfold col; now apply EY.
    - intros j Hj. split.
      + exists (col (mct S) j). intros i _. reflexivity.
      + exists (fun l => mm (K := CC) k S (mm (K := CC) N (mct Z) Z) l j). intros i _. rewrite (Z_of_Y N k Z U S HU HS j i Hj).
        unfold comb. apply (sumN_ext CC). intros q Hq. now rewrite (EY i q Hq).
  Qed.
  (** After that pass the next one ends the loop. *)
  Lemma orthonormal_pass rng f draw view y (Y : mat CC) : (0 < k)%nat ->
    (forall i j, (i < k)%nat -> (j < k)%nat -> hdot N (col Y i) (col Y j) = if (i =? j)%nat then c1 else c0) ->
    let Z1 := mscale_r (sqrt (INR k)) Y in
    (forall i j, (i < k)%nat -> (j < k)%nat -> hdot N (col Z1 i) (col Z1 j) = if (i =? j)%nat then mkC (INR k) 0 else c0) /\
    exists y1, loop rng (S f) draw view y Y = Some (Z1, mm N (mct Z1) Z1, view, y1).
  Proof.
    intros Hk HY Z1. assert (K0 : 0 < INR k) by now apply lt_0_INR.
    assert (T : total2 N k Y = INR k).
    { transitivity (sumN (K := RF) k (fun _ => 1)).
      - unfold total2. apply (sumN_ext RF). intros j Hj. pose proof (HY j j Hj Hj) as E. rewrite Nat.eqb_refl, hdot_self in E. exact (f_equal cre E).
      - clear. induction k as [|m IH]; [reflexivity|]. rewrite S_INR. change (sumN (K := RF) m (fun _ => 1) + 1 = INR m + 1). now rewrite IH.
    }
    assert (F : fro N k Y = sqrt (INR k)) by (apply fro_of; [apply sqrt_pos|rewrite sqrt_sqrt; lra]).
    assert (F0 : fro N k Y <> 0) by (rewrite F; apply Rgt_not_eq, sqrt_lt_R0; exact K0).
    assert (C : INR k / fro N k Y = sqrt (INR k)).
    { rewrite F. pose proof (sqrt_sqrt (INR k) ltac:(lra)) as Q. rewrite <- Q at 1. field. now rewrite <- F. }
    assert (G : forall i j, (i < k)%nat -> (j < k)%nat -> hdot N (col Z1 i) (col Z1 j) = if (i =? j)%nat then mkC (INR k) 0 else c0).
    { intros i j Hi Hj. change (col Z1 j) with (fun r => cmul (mkC (sqrt (INR k)) 0) (col Y j r)). rewrite hdot_scale_r.
      rewrite hdot_conj. change (col Z1 i) with (fun r => cmul (mkC (sqrt (INR k)) 0) (col Y i r)). rewrite hdot_scale_r, (HY j i Hj Hi). rewrite (Nat.eqb_sym j i).
      pose proof (sqrt_sqrt (INR k) ltac:(lra)) as Q. destruct (i =? j)%nat; apply cpx_ext; cbn; ring_simplify; nra. }
    split; [exact G|]. pose proof (proj1 (pass rng f draw view y Y F0)) as P. cbv zeta in P. rewrite C in P. fold Z1 in P. eexists. apply P.
    exists (fun i j => if (i =? j)%nat then mkC (/ INR k) 0 else c0). split.
    - intros i j Hi Hj. cbv beta. split.
      + refine (eq_trans _ (delta_l k i (fun q => if (q =? j)%nat then c1 else c0) Hi)). apply (sumN_ext CC).
        intros q Hq. rewrite (G i q Hi Hq). destruct (i =? q)%nat, (q =? j)%nat; apply cpx_ext; cbn; try ring; field; lra.
      + refine (eq_trans _ (delta_l k i (fun q => if (q =? j)%nat then c1 else c0) Hi)). apply (sumN_ext CC).
        intros q Hq. rewrite (G q j Hq Hj). destruct (i =? q)%nat, (q =? j)%nat; apply cpx_ext; cbn; try ring; field; lra.
    - assert (E : re_trace k (fun i j => if (i =? j)%nat then mkC (/ INR k) 0 else c0) = INR k * / INR k).
      { unfold re_trace. generalize (/ INR k) as x. intro x. clear. induction k as [|m IH]; [cbn; ring|]. rewrite S_INR.
        change (cre (cadd (sumN (K := CC) m (fun i => if (i =? i)%nat then mkC x 0 else c0)) (if (m =? m)%nat then mkC x 0 else c0)) = (INR m + 1) * x).
        rewrite Nat.eqb_refl. cbn [cadd cre]. rewrite IH. ring. }
      rewrite Rinv_r in E by lra. refine (Rle_trans _ _ _ (Req_le _ _ E) _). assert (1 <= INR k) by (apply (le_INR 1); lia). lra.
  Qed.
End Start.

(** The first iterate is the last of the list. *)
Lemma loop_grows N k op iop tol reset inv minimize fuel : forall i st its st' its' conv,
  cg_loop N k op iop tol reset inv minimize fuel i st its = Some (st', its', conv) -> exists rest, its' = rest ++ its.
Proof.
  induction fuel as [|f IH]; intros i st its st' its' conv H; cbn [cg_loop] in H; [injection H as _ <- _; now exists []|].
  destruct (cg_step _ _ _ _ _ _ _ _ i st) as [r|]; [|discriminate]. cbn [obind] in H. destruct r as [s|s].
  - injection H as _ <- _. now exists [].
  - destruct (IH _ _ _ _ _ _ H) as (rest & ->). exists (rest ++ [sZ s]). now rewrite <- app_assoc.
Qed.
