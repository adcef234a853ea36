(** Waves along one axis of a stretched grid. *)
From Coq Require Import Reals List Arith ZArith Lia Lra Field Bool.
From Verif.Lib Require Import Num Sums Idx Mat RealF Cexp.
From Verif.Model Require Import Fdmath Fdtd Fdfd.
From Verif.Spec Require Import Yee Grid FdtdRun FdfdSpec HarmonicSpec DispersionSpec AbsorbSpec.
From Verif.Proofs Require Import FdmathP FdtdP2 FdfdP HarmonicP GridP.
Import ListNotations.

Section P.
  Variable K : CFld.
  Add Field Kfield : (fth K).
  Local Open Scope fld_scope.
  Variables (sh : list nat) (om eps mu r : K) (we wh : widths K) (a c : nat) (idx : list nat).
  Hypothesis HL : length sh = 3%nat.
  Hypothesis Ha : (a < 3)%nat.
  Hypothesis Hc : (c < 3)%nat.
  Hypothesis Hac : a <> c.
  Hypothesis Hi : inb sh idx.
  Hypothesis Hlo : (0 < coord idx a)%nat.
  Hypothesis Hhi : (S (coord idx a) < dim sh a)%nat.
  Let i := coord idx a.
  Let F : field K := along_axis a c r.

  Lemma at_next b j : inb sh j -> (coord j a <= i)%nat -> (b < 3)%nat ->
    zpow r (coord (shift_ix sh b 1 j) a) = if Nat.eqb b a then zpow r (S (coord j a)) else zpow r (coord j a).
  Proof.
    intros Hj Hle Hb. destruct (Nat.eqb_spec b a) as [->|N].
    - unfold shift_ix. rewrite coord_upd_same by (rewrite (inb_length sh j Hj); lia).
      rewrite cyc_succ by (apply inb_coord; [exact Hj|lia]). destruct (Nat.eqb_spec (S (coord j a)) (dim sh a)); [unfold i in *; lia|reflexivity].
    - now rewrite coord_shift_other.
  Qed.
  Lemma prev_coord b : (b < 3)%nat -> coord (shift_ix sh b (-1) idx) a = if Nat.eqb b a then (i - 1)%nat else i.
  Proof.
    intros Hb. destruct (Nat.eqb_spec b a) as [->|N].
    - unfold shift_ix. rewrite coord_upd_same by (rewrite (inb_length sh idx Hi); lia).
      rewrite cyc_pred by (apply inb_coord; [exact Hi|lia]). destruct (Nat.eqb_spec (coord idx a) 0); [lia|reflexivity].
    - now rewrite coord_shift_other.
  Qed.

  (** the differences of the wave *)
  Definition up (j : nat) : K := (zpow r (S j) - zpow r j) / we a j.
  Lemma dn b c' j : inb sh j -> (coord j a <= i)%nat -> (b < 3)%nat ->
    diff_next sh (Some we) b (F c') j = if (Nat.eqb b a && Nat.eqb c' c)%bool then up (coord j a) else 0.
  Proof.
    intros Hj Hle Hb. unfold diff_next, over, F, along_axis, up. destruct (Nat.eqb_spec c' c) as [->|N].
    - rewrite at_next by assumption. destruct (Nat.eqb_spec b a) as [->|N]; cbn [andb]; [reflexivity|].
      rewrite fdiv_def. ring.
    - rewrite andb_false_r. rewrite fdiv_def. ring.
  Qed.

End P.

Section W.
  Variable K : CFld.
  Add Field Kfield2 : (fth K).
  Local Open Scope fld_scope.
  Lemma wave_line (sh : list nat) (om eps mu r : K) (we wh : widths K) (a c : nat) (idx : list nat) :
    length sh = 3%nat -> (a < 3)%nat -> (c < 3)%nat -> a <> c -> inb sh idx ->
    (0 < coord idx a)%nat -> (S (coord idx a) < dim sh a)%nat ->
    wave_e sh om we wh (unim eps) (Some (unim mu)) (along_axis a c r) c idx
    = - ((up K r we a (coord idx a) - up K r we a (coord idx a - 1)) / mu / wh a (coord idx a)) - om * om * (eps * zpow r (coord idx a)).
  Proof.
    intros HL Ha Hc Hac Hi Hlo Hhi.
    assert (P : forall b, (b < 3)%nat -> inb sh (shift_ix sh b (-1) idx)) by (intros b Hb; apply inb_shift; [exact Hi|lia]).
    assert (Pc : forall b, (b < 3)%nat -> coord (shift_ix sh b (-1) idx) a = if Nat.eqb b a then (coord idx a - 1)%nat else coord idx a).
    { intros b Hb. apply (prev_coord sh a c idx); assumption. }
    assert (Q : forall b, (b < 3)%nat -> (coord (shift_ix sh b (-1) idx) a <= coord idx a)%nat).
    { intros b Hb. rewrite Pc by exact Hb. destruct (Nat.eqb b a); lia. }
    assert (D : forall b c' j, inb sh j -> (coord j a <= coord idx a)%nat -> (b < 3)%nat ->
      diff_next sh (Some we) b (along_axis a c r c') j = if (Nat.eqb b a && Nat.eqb c' c)%bool then up K r we a (coord j a) else 0).
    { intros b c' j Hj Hle Hb. apply (dn K sh r we a c idx); assumption. }
    assert (FF : along_axis a c r c idx = zpow r (coord idx a)) by (unfold along_axis; now rewrite Nat.eqb_refl).
    unfold wave_e, curl_prev, curl_next, curl_of, inv_at. rewrite FF. unfold unim.
    destruct c as [|[|[|c']]]; [| | |lia]; (destruct a as [|[|[|a']]]; [| | |lia]); try congruence;
      unfold diff_prev, over;
      rewrite !D by (first [exact Hi | apply P; lia | apply Q; lia | lia ]);
      cbn [Nat.eqb andb]; rewrite !Pc by lia; cbn [Nat.eqb];
      rewrite !fdiv_def; ring.
  Qed.

  (** The same width ratio around the cell: a three-term recurrence. *)
  Lemma line_root (sh : list nat) (om eps mu r W : K) (we wh : widths K) (a c : nat) (idx : list nat) :
    length sh = 3%nat -> (a < 3)%nat -> (c < 3)%nat -> a <> c -> inb sh idx ->
    (0 < coord idx a)%nat -> (S (coord idx a) < dim sh a)%nat ->
    mu <> 0 -> W <> 0 -> r <> 0 ->
    we a (coord idx a) = W -> we a (coord idx a - 1)%nat = W -> wh a (coord idx a) = W ->
    (wave_e sh om we wh (unim eps) (Some (unim mu)) (along_axis a c r) c idx = 0
     <-> r + 1 / r = 1 + 1 - om * om * eps * mu * (W * W)).
  Proof.
    intros HL Ha Hc Hac Hi Hlo Hhi Hm HW Hr E1 E2 E3. rewrite wave_line by assumption. unfold up. rewrite E1, E2, E3.
    destruct (coord idx a) as [|i]; [lia|]. cbn [Nat.sub]. rewrite Nat.sub_0_r. cbn [zpow].
    pose proof (zpow_nz K r i Hr) as Hz. set (y := zpow r i) in *.
    split; intro H.
    - assert (X : - (mu * W * W / (r * y)) * (- (((r * (r * y) - r * y) / W - (r * y - y) / W) / mu / W) - om * om * (eps * (r * y))) = 0) by (rewrite H; ring).
      transitivity ((1 + 1 - om * om * eps * mu * (W * W)) + (- (mu * W * W / (r * y)) * (- (((r * (r * y) - r * y) / W - (r * y - y) / W) / mu / W) - om * om * (eps * (r * y))))).
      + field. repeat split; assumption.
      + rewrite X. ring.
    - transitivity (- (r * y / (mu * W * W)) * ((r + 1 / r) - (1 + 1 - om * om * eps * mu * (W * W)))).
      + field. repeat split; assumption.
      + rewrite H. ring.
  Qed.
End W.

Local Open Scope R_scope.
(** Which way a root points. *)
Lemma root_side (r : cpx) (B : R) : r <> c0 -> 0 < B -> cim (cadd r (cdiv c1 r)) = B ->
  cnrm r <> 1 /\ (cnrm r < 1 <-> cim r < 0).
Proof.
  intros Hr HB E. assert (Hn : 0 < cnrm r).
  { pose proof (cnrm_nz r Hr). assert (0 <= cnrm r) by (unfold cnrm; nra). lra. }
  assert (X : cim r * (1 - / cnrm r) = B).
  { rewrite <- E. unfold cadd, cdiv, cmul, cinv, c1. cbn [cre cim]. field. lra. }
  set (q := cnrm r) in *. set (y := cim r) in *.
  assert (Y : y * (q - 1) = B * q). { rewrite <- X. field. lra. }
  assert (BQ : 0 < B * q) by now apply Rmult_lt_0_compat.
  split; [intro Z; rewrite Z in Y; lra|]. split; intro Z.
  - destruct (Rlt_dec y 0) as [|N]; [assumption|exfalso]. assert (0 <= y * (1 - q)) by (apply Rmult_le_pos; lra). lra.
  - destruct (Rlt_dec q 1) as [|N]; [assumption|exfalso]. assert (0 <= - y * (q - 1)) by (apply Rmult_le_pos; lra). lra.
Qed.
