(** Curls commute with motions of the grid. *)
From Coq Require Import List Arith ZArith Bool Lia Field.
From Verif.Lib Require Import Num Sums Idx Mat.
From Verif.Model Require Import Fdmath Fdtd Fdfd.
From Verif.Spec Require Import Grid Yee FdtdRun FdfdSpec SymmetrySpec.
From Verif.Proofs Require Import FdmathP FdtdP2 FdfdP GridP.
Import ListNotations.
Local Open Scope fld_scope.

Lemma line_next n i : (i < n)%nat -> ((n - cyc n 1 i) mod n = n - 1 - i)%nat.
Proof.
  intro H. rewrite cyc_succ by exact H. destruct (Nat.eqb_spec (S i) n) as [E|E].
  - rewrite !Nat.sub_0_r, Nat.mod_same by lia. lia.
  - rewrite Nat.mod_small by lia. lia.
Qed.
Lemma line_this n i : (i < n)%nat -> ((n - i) mod n = cyc n 1 (n - 1 - i))%nat.
Proof.
  intro H. rewrite cyc_succ by lia. destruct (Nat.eqb_spec (S (n - 1 - i)) n) as [E|E].
  - replace (n - i)%nat with n by lia. apply Nat.mod_same. lia.
  - rewrite Nat.mod_small by lia. lia.
Qed.
Lemma between_prev n i : (i < n)%nat -> (n - 1 - cyc n (-1) i = (n - i) mod n)%nat.
Proof.
  intro H. rewrite cyc_pred by exact H. destruct (Nat.eqb_spec i 0) as [->|E].
  - rewrite !Nat.sub_0_r, Nat.mod_same by lia. lia.
  - rewrite Nat.mod_small by lia. lia.
Qed.
Lemma between_this n i : (i < n)%nat -> (n - 1 - i = cyc n (-1) ((n - i) mod n))%nat.
Proof.
  intro H. assert (X : ((n - i) mod n < n)%nat) by (apply Nat.mod_upper_bound; lia).
  rewrite cyc_pred by exact X. destruct (Nat.eqb_spec i 0) as [->|E].
  - rewrite !Nat.sub_0_r, Nat.mod_same by lia. cbn [Nat.eqb]. lia.
  - rewrite Nat.mod_small by lia. destruct (Nat.eqb_spec (n - i) 0); lia.
Qed.

Section P.
  Variable K : Fld.
  Add Field Kf : (fth K).

  Definition ok (m : motion K) (sh : list nat) : Prop :=
    length (new_shape m) = 3%nat
    /\ (forall c, (c < 3)%nat -> (axis_of m c < 3)%nat /\ sign_E m c * sign_E m c = 1 /\ sign_H m c * sign_H m c = 1)
    /\ (forall c idx, inb (new_shape m) idx -> inb sh (at_E m c idx) /\ inb sh (at_H m c idx))
    /\ (forall (w : option (widths K)) F c idx, (c < 3)%nat -> inb (new_shape m) idx ->
          curl_next (new_shape m) (option_map (moved_we m) w) (moved_E m F) c idx = moved_H m (curl_next sh w F) c idx)
    /\ (forall (w : option (widths K)) F c idx, (c < 3)%nat -> inb (new_shape m) idx ->
          curl_prev (new_shape m) (option_map (moved_wh m) w) (moved_H m F) c idx = moved_E m (curl_prev sh w F) c idx).

  Lemma ok_translation sh a d : length sh = 3%nat -> (a < 3)%nat -> ok (translation sh a d) sh.
  Proof.
    intros HL Ha.
    assert (Sh : forall b q idx, (b < 3)%nat -> inb sh idx -> shift_ix sh a d (shift_ix sh b q idx) = shift_ix sh b q (shift_ix sh a d idx)).
    { intros b q idx Hb Hi. destruct (Nat.eq_dec b a) as [->|N]; [|apply shift_ix_comm; congruence].
      rewrite !shift_ix_add by (assumption || lia). f_equal. lia. }
    assert (Co : forall b idx, (b < 3)%nat -> inb sh idx -> (if Nat.eqb b a then cyc (dim sh a) d (coord idx b) else coord idx b) = coord (shift_ix sh a d idx) b).
    { intros b idx Hb Hi. destruct (Nat.eqb_spec b a) as [->|N]; [rewrite coord_shift_same by (assumption || lia); reflexivity|rewrite coord_shift_other by congruence; reflexivity]. }
    split; [exact HL|]. split; [cbn; intros; repeat split; try lia; ring|].
    split; [intros c idx Hi; cbn [at_E at_H translation]; split; apply inb_shift; (assumption || lia)|].
    split; intros w F c idx Hc Hi; cbn [new_shape translation] in *;
      destruct c as [|[|[|c]]]; try lia; unfold curl_next, curl_prev, curl_of, moved_H, moved_E, diff_next, diff_prev, over; cbn [option_map axis_of at_E at_H sign_E sign_H translation];
      rewrite !Sh by (assumption || lia); destruct w as [w|]; cbn [option_map]; unfold moved_we, moved_wh; cbn [on_we on_wh axis_of translation];
      rewrite ?Co by (assumption || lia); rewrite ?fdiv_def; ring.
  Qed.

  Lemma inb3 (l : list nat) n0 n1 n2 : inb [n0; n1; n2] l <-> length l = 3%nat /\ (coord l 0 < n0)%nat /\ (coord l 1 < n1)%nat /\ (coord l 2 < n2)%nat.
  Proof.
    rewrite inb_iff. split.
    - intros [A B]. cbn [length] in *. split; [exact A|]. repeat split; [apply (B 0%nat)|apply (B 1%nat)|apply (B 2%nat)]; lia.
    - intros [A [B0 [B1 B2]]]. split; [exact A|]. intros a Ha. cbn [length] in Ha. destruct a as [|[|[|a]]]; try lia; assumption.
  Qed.

  Lemma ok_rotation sh : length sh = 3%nat -> ok (rotation sh) sh.
  Proof.
    intro HL. destruct sh as [|n0 [|n1 [|n2 [|? ?]]]]; try discriminate HL. clear HL.
    split; [reflexivity|]. split; [intros [|[|[|c]]] Hc; try lia; cbn; repeat split; try lia; ring|].
    split.
    { intros c idx Hi. cbn [new_shape rotation dim nth] in Hi. apply inb3 in Hi. cbn [at_E at_H rotation]. split; apply inb3; cbn [length coord nth]; unfold coord in *; tauto. }
    split; intros w F c idx Hc Hi; cbn [new_shape rotation dim nth] in *; apply inb3 in Hi; destruct Hi as [Hl Hi];
      destruct idx as [|i [|j [|k [|? ?]]]]; try discriminate Hl; 
      destruct c as [|[|[|c]]]; try lia; unfold curl_next, curl_prev, curl_of, moved_H, moved_E, diff_next, diff_prev, over; cbn [option_map axis_of at_E at_H sign_E sign_H rotation coord nth shift_ix upd dim];
      destruct w as [w|]; cbn [option_map]; unfold moved_we, moved_wh; cbn [on_we on_wh axis_of rotation]; rewrite ?fdiv_def; ring.
  Qed.
  Lemma ok_exchange sh : length sh = 3%nat -> ok (exchange sh) sh.
  Proof.
    intro HL. destruct sh as [|n0 [|n1 [|n2 [|? ?]]]]; try discriminate HL. clear HL.
    split; [reflexivity|]. split; [intros [|[|[|c]]] Hc; try lia; cbn; repeat split; try lia; ring|].
    split.
    { intros c idx Hi. cbn [new_shape exchange dim nth] in Hi. apply inb3 in Hi. cbn [at_E at_H exchange]. split; apply inb3; cbn [length coord nth]; unfold coord in *; tauto. }
    split; intros w F c idx Hc Hi; cbn [new_shape exchange dim nth] in *; apply inb3 in Hi; destruct Hi as [Hl Hi];
      destruct idx as [|i [|j [|k [|? ?]]]]; try discriminate Hl; 
      destruct c as [|[|[|c]]]; try lia; unfold curl_next, curl_prev, curl_of, moved_H, moved_E, diff_next, diff_prev, over; cbn [option_map axis_of at_E at_H sign_E sign_H exchange coord nth shift_ix upd dim];
      destruct w as [w|]; cbn [option_map]; unfold moved_we, moved_wh; cbn [on_we on_wh axis_of exchange]; rewrite ?fdiv_def; ring.
  Qed.

  Lemma ok_reflection sh a : length sh = 3%nat -> (a < 3)%nat -> ok (reflection sh a) sh.
  Proof.
    intros HL Ha. destruct sh as [|n0 [|n1 [|n2 [|? ?]]]]; try discriminate HL. clear HL.
    split; [reflexivity|].
    split; [intros [|[|[|c]]] Hc; try lia; destruct a as [|[|[|a]]]; try lia; cbn; repeat split; try lia; ring|].
    split.
    { intros c idx Hi. cbn [new_shape reflection] in Hi. cbn [at_E at_H reflection].
      assert (Hp := inb_coord _ idx a Hi Ha).
      split; apply inb_upd; try exact Hi; destruct (Nat.eqb c a); try lia; apply Nat.mod_upper_bound; lia. }
    split; intros w F c idx Hc Hi; cbn [new_shape reflection] in *; apply inb3 in Hi; destruct Hi as [Hl [H0 [H1 H2]]];
      destruct idx as [|i [|j [|k [|? ?]]]]; try discriminate Hl; cbn [coord nth] in H0, H1, H2;
      destruct c as [|[|[|c]]]; try lia; destruct a as [|[|[|a]]]; try lia;
      unfold curl_next, curl_prev, curl_of, moved_H, moved_E, diff_next, diff_prev, over;
      cbn [option_map axis_of at_E at_H sign_E sign_H reflection coord nth shift_ix upd dim Nat.eqb];
      rewrite ?line_next, ?between_prev by assumption;
      repeat match goal with
      | |- context [cyc ?n 1 (?n - 1 - ?i)%nat] => rewrite <- (line_this n i) by assumption
      | |- context [cyc ?n (-1) ((?n - ?i) mod ?n)%nat] => rewrite <- (between_this n i) by assumption
      end;
      destruct w as [w|]; cbn [option_map]; unfold moved_we, moved_wh; cbn [on_we on_wh axis_of reflection Nat.eqb dim nth]; rewrite ?fdiv_def; ring.
  Qed.

  Lemma motion_ok sh m : length sh = 3%nat -> grid_motion sh m -> ok m sh.
  Proof.
    intros HL [a d Ha| | |a Ha]; [now apply ok_translation|now apply ok_rotation|now apply ok_exchange|now apply ok_reflection].
  Qed.
End P.
