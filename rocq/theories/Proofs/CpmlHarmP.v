(** A CPML layer in the time-harmonic steady state is a stretched grid. *)
From Coq Require Import List Arith ZArith Lia Field Bool.
From Verif.Lib Require Import Num Sums Idx Mat.
From Verif.Model Require Import Fdmath Fdtd Fdfd Pml.
From Verif.Spec Require Import Yee FdtdRun FdfdSpec HarmonicSpec CpmlSpec CpmlHarmonicSpec.
From Verif.Proofs Require Import FdmathP FdmathP2 FdtdP FdtdP2 FdfdP HarmonicP PmlP.
Import ListNotations.
Local Open Scope nat_scope.

Lemma coord3 i a : a < 3 -> coord [i; i; i] a = i.
Proof. intro H. destruct a as [|[|[|a]]]; [reflexivity..|lia]. Qed.

Section P.
  Variable K : Fld.
  Add Field Kfield : (fth K).
  Local Open Scope fld_scope.
  Section Core.
    Variable sh : list nat.
    Variable Ls : nat -> nat -> option (layer K).
    Variables p0 p1 p2 : layer K -> nat -> K.
    Variable Z : K.
    Notation here := (here sh Ls).
    Notation scale_at := (scale_at sh Ls p2).

    Lemma here3 a pp idx : (a < 3)%nat -> here a pp [coord idx a; coord idx a; coord idx a] = here a pp idx.
    Proof. intro Ha. unfold CpmlSpec.here, inside. now rewrite coord3. Qed.
    Lemma depth3 a pp th idx : (a < 3)%nat -> depth sh a pp th [coord idx a; coord idx a; coord idx a] = depth sh a pp th idx.
    Proof. intro Ha. unfold depth. now rewrite coord3. Qed.
    Lemma coef_at p a pp idx : (a < 3)%nat ->
      coef sh Ls p a pp (coord idx a) = option_map (fun L => p L (depth sh a pp (lth L) idx)) (here a pp idx).
    Proof.
      intro Ha. unfold coef. rewrite here3 by exact Ha. destruct (here a pp idx) as [L|]; [|reflexivity].
      cbn [option_map]. now rewrite depth3.
    Qed.
    Lemma kfac_at a pp idx : (a < 3)%nat -> kfac sh Ls p2 a pp idx = or1 (coef sh Ls p2 a pp (coord idx a)).
    Proof. intro Ha. rewrite coef_at by exact Ha. unfold kfac. destruct (here a pp idx); reflexivity. Qed.

    Definition steady (D : nat -> nat -> arr K) (ps : psis K) : Prop :=
      forall a pp k idx, (a < 3)%nat -> (pp < 2)%nat -> (k < 2)%nat -> inb sh idx -> here a pp idx <> None ->
        fst (core K sh Ls p0 p1 p2 D ps) a pp k idx = Z * ps a pp k idx.

    Hypothesis Zn : Z <> 0.
    Hypothesis Reg : regular sh Ls p0 p1 p2 Z.
    Hypothesis HL : length sh = 3%nat.

    Lemma co_lt a idx : (a < 3)%nat -> inb sh idx -> (coord idx a < dim sh a)%nat.
    Proof. intros Ha Hi. apply inb_coord; [exact Hi|lia]. Qed.

    Lemma geom_alg (q0 q1 s d x : K) : Z - q0 <> 0 -> x * q0 + q1 * (s * d) = Z * x -> Z * x = s * (q1 / (1 - q0 / Z)) * d.
    Proof.
      intros Hn E. assert (X : x = q1 * (s * d) / (Z - q0)).
      { apply (fmul_cancel_l K (Z - q0) _ _ Hn). transitivity (q1 * (s * d)).
        - transitivity (Z * x - x * q0); [ring|]. rewrite <- E. ring.
        - field. exact Hn. }
      rewrite X. field. repeat split; assumption.
    Qed.

    Lemma psi_steady D ps a pp k idx : (a < 3)%nat -> (pp < 2)%nat -> (k < 2)%nat -> inb sh idx -> here a pp idx <> None ->
      fst (core K sh Ls p0 p1 p2 D ps) a pp k idx = Z * ps a pp k idx ->
      fst (core K sh Ls p0 p1 p2 D ps) a pp k idx
      = scale_at a pp idx * resp sh Ls p0 p1 Z a pp (coord idx a) * D a (slotc a k) idx.
    Proof.
      intros Ha Hp Hk Hi Hh S. destruct (Reg a (coord idx a) Ha (co_lt a idx Ha Hi)) as [_ R].
      rewrite S. rewrite core_psi in S by assumption. unfold psi_next in S. unfold resp. specialize (R pp).
      rewrite !coef_at in * by exact Ha. destruct (here a pp idx) as [L|]; [|contradiction].
      cbn [option_map] in *. apply geom_alg; [exact (R _ Hp eq_refl)|exact S].
    Qed.

    Lemma T_steady D ps a c idx : (a < 3)%nat -> (c < 3)%nat -> a <> c -> inb sh idx -> steady D ps ->
      T K sh Ls p0 p1 p2 D ps a c idx = gain sh Ls p0 p1 p2 Z a (coord idx a) * D a c idx.
    Proof.
      intros Ha Hc Hac Hi S. unfold T.
      assert (S1 : slotc a (slot_of a c) = c)
        by (destruct a as [|[|[|a]]]; try lia; destruct c as [|[|[|c]]]; try lia; reflexivity).
      assert (S2 : (slot_of a c < 2)%nat)
        by (destruct a as [|[|[|a]]]; try lia; destruct c as [|[|[|c]]]; try lia; cbn; lia).
      assert (M : forall pp, (pp < 2)%nat -> memv K sh Ls a pp idx (fst (core K sh Ls p0 p1 p2 D ps) a pp (slot_of a c) idx)
                  = scale_at a pp idx * resp sh Ls p0 p1 Z a pp (coord idx a) * D a c idx).
      { intros pp Hp. unfold memv. destruct (here a pp idx) as [L|] eqn:E.
        - rewrite psi_steady; try assumption; [now rewrite S1|congruence|].
          apply S; try assumption. congruence.
        - unfold resp. rewrite !coef_at by exact Ha. rewrite E. cbn [option_map]. ring. }
      rewrite !M by lia. unfold gain, CpmlSpec.scale_at. rewrite !kfac_at by exact Ha. ring.
    Qed.

    (** The memory that is steady. *)
    Definition steady_mem (D : nat -> nat -> arr K) : psis K := fun a pp k idx =>
      match here a pp idx with
      | Some L => let j := depth sh a pp (lth L) idx in p1 L j * (scale_at a pp idx * D a (slotc a k) idx) / (Z - p0 L j)
      | None => 0
      end.
    Lemma mem_alg2 (q0 q1 s d : K) : Z - q0 <> 0 -> q1 * (s * d) / (Z - q0) * q0 + q1 * (s * d) = Z * (q1 * (s * d) / (Z - q0)).
    Proof. intro Hn. field. exact Hn. Qed.
    Lemma steady_mem_steady D : steady D (steady_mem D).
    Proof.
      intros a pp k idx Ha Hp Hk Hi Hh. destruct (Reg a (coord idx a) Ha (co_lt a idx Ha Hi)) as [_ R].
      rewrite core_psi by assumption. unfold psi_next, steady_mem. specialize (R pp).
      rewrite coef_at in R by exact Ha. destruct (here a pp idx) as [L|]; [|contradiction]. cbn [option_map] in R.
      apply mem_alg2. exact (R _ Hp eq_refl).
    Qed.

    (** Steadiness only depends on the grid and scales. *)
    Lemma psi_next_scale a pp idx x o d : here a pp idx <> None -> psi_next K sh Ls p0 p1 p2 a pp idx (x * o) (x * d) = x * psi_next K sh Ls p0 p1 p2 a pp idx o d.
    Proof. intro H. unfold psi_next. destruct (here a pp idx); [|contradiction]. ring. Qed.
    Lemma steady_scale x D D' ps ps' :
      (forall a c idx, (a < 3)%nat -> (c < 3)%nat -> inb sh idx -> D' a c idx = x * D a c idx) ->
      (forall a pp k idx, (a < 3)%nat -> (pp < 2)%nat -> (k < 2)%nat -> inb sh idx -> here a pp idx <> None -> ps' a pp k idx = x * ps a pp k idx) ->
      steady D ps -> steady D' ps'.
    Proof.
      intros HD Hp S a pp k idx Ha Hpp Hk Hi Hh. specialize (S a pp k idx Ha Hpp Hk Hi Hh).
      rewrite core_psi in * by assumption. rewrite HD, (Hp a pp k idx Ha Hpp Hk Hi Hh); try assumption.
      - rewrite psi_next_scale, S by assumption. ring.
      - unfold slotc. destruct a as [|[|[|a]]]; destruct k as [|k]; lia.
    Qed.
    Lemma div_gain (x w g : K) : w <> 0 -> g <> 0 -> x / (w / g) = g * (x / w).
    Proof. intros. field. split; assumption. Qed.

    Variable w : widths K.
    Hypothesis Hw : nzw sh w.
    Lemma back_eff a f idx : (a < 3)%nat -> inb sh idx ->
      deriv_back sh (Some (effective sh Ls p0 p1 p2 Z w)) a f idx = gain sh Ls p0 p1 p2 Z a (coord idx a) * deriv_back sh (Some w) a f idx.
    Proof.
      intros Ha Hi. unfold deriv_back, effective. apply div_gain; [apply Hw; try lia|]; try apply Reg; try exact Ha; now apply co_lt.
    Qed.
    Lemma forward_eff a f idx : (a < 3)%nat -> inb sh idx ->
      deriv_forward sh (Some (effective sh Ls p0 p1 p2 Z w)) a f idx = gain sh Ls p0 p1 p2 Z a (coord idx a) * deriv_forward sh (Some w) a f idx.
    Proof.
      intros Ha Hi. unfold deriv_forward, effective. apply div_gain; [apply Hw; try lia|]; try apply Reg; try exact Ha; now apply co_lt.
    Qed.
    Lemma core_back (h : field K) ps c idx : (c < 3)%nat -> inb sh idx -> steady (fun a b => deriv_back sh (Some w) a (h b)) ps ->
      snd (core K sh Ls p0 p1 p2 (fun a b => deriv_back sh (Some w) a (h b)) ps) c idx = curl_back sh (Some (effective sh Ls p0 p1 p2 Z w)) h c idx.
    Proof.
      intros Hc Hi S. rewrite core_curl by exact Hc. unfold curl_back, curl_with.
      destruct c as [|[|[|c]]]; [| | |lia]; rewrite !T_steady by (assumption || lia); rewrite !back_eff by (assumption || lia); reflexivity.
    Qed.
    Lemma core_forward (h : field K) ps c idx : (c < 3)%nat -> inb sh idx -> steady (fun a b => deriv_forward sh (Some w) a (h b)) ps ->
      snd (core K sh Ls p0 p1 p2 (fun a b => deriv_forward sh (Some w) a (h b)) ps) c idx = curl_forward sh (Some (effective sh Ls p0 p1 p2 Z w)) h c idx.
    Proof.
      intros Hc Hi S. rewrite core_curl by exact Hc. unfold curl_forward, curl_with.
      destruct c as [|[|[|c]]]; [| | |lia]; rewrite !T_steady by (assumption || lia); rewrite !forward_eff by (assumption || lia); reflexivity.
    Qed.
  End Core.
End P.

Section T.
  Variable K : Fld.
  Add Field Kfield2 : (fth K).
  Local Open Scope fld_scope.
  (** A geometric history through a geometric memory. *)
  Lemma geom_sum (Z q c : K) n : Z - q <> 0 ->
    sumN (S n) (fun i => fpow q (n - i) * (c * fpow Z i)) = c * (fpow Z (S n) - fpow q (S n)) / (Z - q).
  Proof.
    intro Hn. induction n as [|n IH].
    - cbn [sumN Nat.sub fpow]. field. exact Hn.
    - change (sumN (S (S n)) ?f) with (sumN (S n) f + f (S n)).
      transitivity (q * (c * (fpow Z (S n) - fpow q (S n)) / (Z - q)) + c * fpow Z (S n)).
      + rewrite <- IH, <- sumN_mul_l. f_equal.
        * apply sumN_ext. intros i Hi. replace (S n - i)%nat with (S (n - i)) by lia. cbn [fpow]. ring.
        * rewrite Nat.sub_diag. cbn [fpow]. ring.
      + cbn [fpow]. field. exact Hn.
  Qed.

  Variable sh : list nat.
  Variable Ls : nat -> nat -> option (layer K).
  Variables p0 p1 p2 : layer K -> nat -> K.
  Variable Z : K.
  Definition rest (a pp i : nat) : K :=
    match coef sh Ls p0 a pp i with Some q => scale_at sh Ls p2 a pp [i; i; i] * resp sh Ls p0 p1 Z a pp i * q / Z | None => 0 end.
  Definition decay (a pp i : nat) : K := match coef sh Ls p0 a pp i with Some q => q | None => 0 end.

  Lemma mem_val (q0 q1 s d zn qn : K) : Z <> 0 -> Z - q0 <> 0 ->
    q1 * (s * d) * (Z * zn - q0 * qn) / (Z - q0) = zn * (s * (q1 / (1 - q0 / Z)) * d) - s * (q1 / (1 - q0 / Z)) * q0 / Z * d * qn.
  Proof. intros. field. repeat split; assumption. Qed.

  Lemma memory_geom a pp idx d N : (a < 3)%nat -> Z <> 0 -> (forall q, coef sh Ls p0 a pp (coord idx a) = Some q -> Z - q <> 0) ->
    memory sh Ls p0 p1 p2 a pp idx (map (fun n => fpow Z n * d) (seq 0 (S N)))
    = fpow Z N * (scale_at sh Ls p2 a pp idx * resp sh Ls p0 p1 Z a pp (coord idx a) * d)
      - rest a pp (coord idx a) * d * fpow (decay a pp (coord idx a)) N.
  Proof.
    intros Ha Zn R. unfold memory, rest, decay, resp. rewrite !coef_at in * by exact Ha.
    destruct (here sh Ls a pp idx) as [L|] eqn:Eh; cbn [option_map] in *; [|ring].
    specialize (R _ eq_refl). set (q0 := p0 L _) in *. set (q1 := p1 L _).
    assert (Sc : scale_at sh Ls p2 a pp [coord idx a; coord idx a; coord idx a] = scale_at sh Ls p2 a pp idx).
    { unfold scale_at. rewrite !kfac_at, !coord3 by exact Ha. reflexivity. }
    rewrite Sc. set (s := scale_at sh Ls p2 a pp idx).
    rewrite map_length, seq_length. cbv zeta.
    transitivity (sumN (S N) (fun i => fpow q0 (N - i) * (q1 * (s * d) * fpow Z i))).
    - apply sumN_ext. intros i Hi. replace (S N - 1 - i)%nat with (N - i)%nat by lia. f_equal.
      rewrite (nth_indep _ 0 ((fun n => fpow Z n * d) 0%nat)) by (rewrite map_length, seq_length; exact Hi).
      rewrite (map_nth (fun n => fpow Z n * d)), seq_nth by exact Hi. cbn [Nat.add]. ring.
    - rewrite geom_sum by exact R. cbn [fpow]. now apply mem_val.
  Qed.

  Lemma last_geom (d : K) N : last (map (fun n => fpow Z n * d) (seq 0 (S N))) 0 = fpow Z N * d.
  Proof. rewrite seq_S, map_app. cbn [map Nat.add]. now rewrite last_last. Qed.

  Lemma stretched_geom a idx d N : (a < 3)%nat -> Z <> 0 ->
    (forall pp q, (pp < 2)%nat -> coef sh Ls p0 a pp (coord idx a) = Some q -> Z - q <> 0) ->
    stretched sh Ls p0 p1 p2 a idx (map (fun n => fpow Z n * d) (seq 0 (S N)))
    = fpow Z N * (gain sh Ls p0 p1 p2 Z a (coord idx a) * d)
      - rest a 0 (coord idx a) * d * fpow (decay a 0 (coord idx a)) N - rest a 1 (coord idx a) * d * fpow (decay a 1 (coord idx a)) N.
  Proof.
    intros Ha Zn R. unfold stretched. rewrite last_geom, !memory_geom; try assumption.
    - unfold gain, CpmlSpec.scale_at. rewrite !kfac_at by exact Ha. ring.
    - intros q. apply R. lia.
    - intros q. apply R. lia.
  Qed.
End T.
