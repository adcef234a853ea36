(** Runs on two grids that look the same in a window (C175). *)
From Coq Require Import List Arith ZArith Lia Field.
From Verif.Lib Require Import Num Sums Idx Mat.
From Verif.Model Require Import Fdmath Fdtd.
From Verif.Spec Require Import Grid Yee FdtdRun WindowSpec.
From Verif.Proofs Require Import FdmathP GridP.
Import ListNotations.

Lemma idx3 x : length x = 3%nat -> x = [coord x 0; coord x 1; coord x 2].
Proof. destruct x as [|a [|b [|c [|? ?]]]]; try discriminate. reflexivity. Qed.
Lemma inb_dim W x : length W = 3%nat -> inb W x <-> length x = 3%nat /\ forall a, (a < 3)%nat -> (coord x a < dim W a)%nat.
Proof.
  intro HL. destruct W as [|w0 [|w1 [|w2 [|? ?]]]]; try discriminate. split.
  - intro H. inversion H as [|? ? ? ? A H1]; subst. inversion H1 as [|? ? ? ? B H2]; subst. inversion H2 as [|? ? ? ? C H3]; subst. inversion H3; subst.
    split; [reflexivity|]. intros [|[|[|a]]] Ha; unfold coord, dim; cbn; try assumption; lia.
  - intros (L & H). rewrite (idx3 x L). pose proof (H 0%nat ltac:(lia)). pose proof (H 1%nat ltac:(lia)). pose proof (H 2%nat ltac:(lia)). unfold dim in *. cbn in *. repeat constructor; assumption.
Qed.
Lemma coord_place o x a : (a < 3)%nat -> coord (place o x) a = (o a + coord x a)%nat.
Proof. destruct a as [|[|[|a]]]; [reflexivity..|lia]. Qed.
Lemma coord_eq x y : length x = 3%nat -> length y = 3%nat -> (forall a, (a < 3)%nat -> coord x a = coord y a) -> x = y.
Proof. intros X Y E. rewrite (idx3 x X), (idx3 y Y). now rewrite (E 0%nat), (E 1%nat), (E 2%nat) by lia. Qed.
Lemma place_inb sh W o full x : fits sh W o full -> inb W x -> inb sh (place o x).
Proof.
  intros (Ls & Lw & F) X. apply (inb_dim W x Lw) in X. destruct X as (_ & X). apply inb_dim; [exact Ls|]. split; [reflexivity|].
  intros a Ha. rewrite coord_place by exact Ha. specialize (F a Ha). specialize (X a Ha). destruct (full a); lia.
Qed.
Lemma upd_len a v (x : list nat) : length (upd a v x) = length x.
Proof. revert a. induction x as [|y x IH]; intros [|a]; cbn; congruence. Qed.
Lemma upd_coord a v x b : (a < length x)%nat -> coord (upd a v x) b = if (b =? a)%nat then v else coord x b.
Proof.
  unfold coord. revert a b. induction x as [|y x IH]; intros a b H; cbn in H; [lia|]. destruct a as [|a], b as [|b]; cbn; try reflexivity. apply IH. lia.
Qed.

(** The next cell is in the window as well or it is outside. *)
Lemma next_place sh W o full x a : fits sh W o full -> inb W x -> (a < 3)%nat ->
  (((full a = true \/ S (coord x a) < dim W a)%nat) /\ shift_ix sh a 1 (place o x) = place o (shift_ix W a 1 x)) \/
  (full a = false /\ S (coord x a) = dim W a /\ inb sh (shift_ix sh a 1 (place o x)) /\ forall y, inb W y -> shift_ix sh a 1 (place o x) <> place o y).
Proof.
  intros F X Ha. pose proof (place_inb sh W o full x F X) as Pi. pose proof F as (Ls & Lw & Fa). specialize (Fa a Ha).
  pose proof (proj1 (inb_dim W x Lw) X) as (Lx & Xa). specialize (Xa a Ha).
  assert (C : coord (place o x) a = (o a + coord x a)%nat) by now apply coord_place.
  assert (Cl : (o a + coord x a < dim sh a)%nat) by (destruct (full a); lia).
  assert (E : forall v u, v = (o a + u)%nat -> upd a v (place o x) = place o (upd a u x)).
  { intros v u ->. apply coord_eq; [now rewrite upd_len|reflexivity|]. intros b Hb. rewrite upd_coord by (cbn; lia). rewrite !coord_place by assumption. rewrite upd_coord by lia.
    destruct (Nat.eqb_spec b a) as [->|]; reflexivity. }
  unfold shift_ix. rewrite C. rewrite !cyc_succ by lia.
  destruct (full a) eqn:Fu.
  - left. split; [now left|]. apply E. destruct Fa as (-> & Fd). cbn [Nat.add]. rewrite Fd. destruct (Nat.eqb_spec (S (coord x a)) (dim sh a)); lia.
  - destruct (Nat.eq_dec (S (coord x a)) (dim W a)) as [Q|Q].
    + right. split; [reflexivity|]. split; [exact Q|]. split.
      * apply inb_dim; [exact Ls|]. split; [now rewrite upd_len|]. intros b Hb. rewrite upd_coord by (cbn; lia). destruct (Nat.eqb_spec b a) as [->|].
        -- destruct (Nat.eqb_spec (S (o a + coord x a)) (dim sh a)); lia.
        -- now apply (proj1 (inb_dim sh _ Ls) Pi).
      * intros y Y Eq. pose proof (proj2 (proj1 (inb_dim W y Lw) Y) a Ha) as Ya. assert (Eq' := f_equal (fun l => coord l a) Eq). cbv beta in Eq'. rewrite coord_place, upd_coord in Eq' by (cbn; lia). rewrite Nat.eqb_refl in Eq'.
        destruct (Nat.eqb_spec (S (o a + coord x a)) (dim sh a)); lia.
    + left. split; [right; lia|]. apply E. destruct (Nat.eqb_spec (S (o a + coord x a)) (dim sh a)), (Nat.eqb_spec (S (coord x a)) (dim W a)); lia.
Qed.
Lemma prev_place sh W o full x a : fits sh W o full -> inb W x -> (a < 3)%nat ->
  (((full a = true \/ 0 < coord x a)%nat) /\ shift_ix sh a (-1) (place o x) = place o (shift_ix W a (-1) x)) \/
  (full a = false /\ coord x a = 0%nat /\ inb sh (shift_ix sh a (-1) (place o x)) /\ forall y, inb W y -> shift_ix sh a (-1) (place o x) <> place o y).
Proof.
  intros F X Ha. pose proof (place_inb sh W o full x F X) as Pi. pose proof F as (Ls & Lw & Fa). specialize (Fa a Ha).
  pose proof (proj1 (inb_dim W x Lw) X) as (Lx & Xa). specialize (Xa a Ha).
  assert (C : coord (place o x) a = (o a + coord x a)%nat) by now apply coord_place.
  assert (Cl : (o a + coord x a < dim sh a)%nat) by (destruct (full a); lia).
  assert (E : forall v u, v = (o a + u)%nat -> upd a v (place o x) = place o (upd a u x)).
  { intros v u ->. apply coord_eq; [now rewrite upd_len|reflexivity|]. intros b Hb. rewrite upd_coord by (cbn; lia). rewrite !coord_place by assumption. rewrite upd_coord by lia.
    destruct (Nat.eqb_spec b a) as [->|]; reflexivity. }
  unfold shift_ix. rewrite C. rewrite !cyc_pred by lia.
  destruct (full a) eqn:Fu.
  - left. split; [now left|]. apply E. destruct Fa as (-> & Fd). cbn [Nat.add]. rewrite Fd. destruct (Nat.eqb_spec (coord x a) 0); lia.
  - destruct (Nat.eq_dec (coord x a) 0) as [Q|Q].
    + right. split; [reflexivity|]. split; [exact Q|]. split.
      * apply inb_dim; [exact Ls|]. split; [now rewrite upd_len|]. intros b Hb. rewrite upd_coord by (cbn; lia). destruct (Nat.eqb_spec b a) as [->|].
        -- destruct (Nat.eqb_spec (o a + coord x a) 0); lia.
        -- now apply (proj1 (inb_dim sh _ Ls) Pi).
      * intros y Y Eq. pose proof (proj2 (proj1 (inb_dim W y Lw) Y) a Ha) as Ya. assert (Eq' := f_equal (fun l => coord l a) Eq). cbv beta in Eq'. rewrite coord_place, upd_coord in Eq' by (cbn; lia). rewrite Nat.eqb_refl in Eq'.
        destruct (Nat.eqb_spec (o a + coord x a) 0); lia.
    + left. split; [right; lia|]. apply E. destruct (Nat.eqb_spec (o a + coord x a) 0), (Nat.eqb_spec (coord x a) 0); lia.
Qed.

Lemma shift_coord W a d x b : (a < length x)%nat -> coord (shift_ix W a d x) b = if (b =? a)%nat then cyc (dim W a) d (coord x a) else coord x b.
Proof. intro H. unfold shift_ix. now apply upd_coord. Qed.

Section Two.
  Variable K : Fld.
  Add Field Kfield : (fth K).
  Local Open Scope fld_scope.
  Variables (W sh sh' : list nat) (o o' : nat -> nat) (full : nat -> bool).
  Hypothesis F1 : fits sh W o full.
  Hypothesis F2 : fits sh' W o' full.

  (** Agreement away from the borders; zero outside. *)
  Definition AG (m M : nat) (F F' : field K) : Prop := forall c x, (c < 3)%nat -> deep W full m M x -> F c (place o x) = F' c (place o' x).
  Definition ZO (s : list nat) (p : nat -> nat) (F : field K) : Prop := forall c i, (c < 3)%nat -> inb s i -> (forall x, inb W x -> i <> place p x) -> F c i = 0.

  Lemma deep_mono m M m' M' x : (m <= m')%nat -> (M <= M')%nat -> deep W full m' M' x -> deep W full m M x.
  Proof. intros A B (X & D). split; [exact X|]. intros a Ha Fa. specialize (D a Ha Fa). lia. Qed.
  Lemma up_ok m M M1 F F' : AG m M F F' -> (M <= M1)%nat -> (S M <= M1)%nat \/ (M = 0%nat /\ ZO sh o F /\ ZO sh' o' F') ->
    forall a b x, (a < 3)%nat -> (b < 3)%nat -> deep W full m M1 x -> F b (shift_ix sh a 1 (place o x)) = F' b (shift_ix sh' a 1 (place o' x)).
  Proof.
    intros A Hm Z a b x Ha Hb D. pose proof D as (X & Dx). pose proof F1 as (L1 & Lw & _). pose proof (proj1 (inb_dim W x Lw) X) as (Lx & Xa).
    destruct (next_place sh W o full x a F1 X Ha) as [(C & E)|(Fu & C & I & N)], (next_place sh' W o' full x a F2 X Ha) as [(C' & E')|(Fu' & C' & I' & N')].
    - rewrite E, E'. apply A; [exact Hb|]. split; [apply inb_shift; [exact X|lia]|].
      intros a' Ha' Fa'. rewrite shift_coord by lia. specialize (Dx a' Ha' Fa'). destruct (Nat.eqb_spec a' a) as [->|]; [|lia].
      rewrite cyc_succ by (apply Xa; exact Ha). destruct (Nat.eqb_spec (S (coord x a)) (dim W a)) as [Q|Q].
      + exfalso. destruct C as [C|C]; [congruence|lia].
      + destruct Z as [Z|(Z & _)]; [lia|]. destruct C as [C|C]; [congruence|lia].
    - exfalso. destruct C as [C|C]; [congruence|lia].
    - exfalso. destruct C' as [C'|C']; [congruence|lia].
    - destruct Z as [Z|(_ & Z & Z')]; [specialize (Dx a Ha Fu); lia|]. rewrite (Z b _ Hb I N), (Z' b _ Hb I' N'). reflexivity.
  Qed.
  Lemma dn_ok m m1 M F F' : AG m M F F' -> (m <= m1)%nat -> (S m <= m1)%nat \/ (m = 0%nat /\ ZO sh o F /\ ZO sh' o' F') ->
    forall a b x, (a < 3)%nat -> (b < 3)%nat -> deep W full m1 M x -> F b (shift_ix sh a (-1) (place o x)) = F' b (shift_ix sh' a (-1) (place o' x)).
  Proof.
    intros A Hm Z a b x Ha Hb D. pose proof D as (X & Dx). pose proof F1 as (L1 & Lw & _). pose proof (proj1 (inb_dim W x Lw) X) as (Lx & Xa).
    destruct (prev_place sh W o full x a F1 X Ha) as [(C & E)|(Fu & C & I & N)], (prev_place sh' W o' full x a F2 X Ha) as [(C' & E')|(Fu' & C' & I' & N')].
    - rewrite E, E'. apply A; [exact Hb|]. split; [apply inb_shift; [exact X|lia]|].
      intros a' Ha' Fa'. rewrite shift_coord by lia. specialize (Dx a' Ha' Fa'). destruct (Nat.eqb_spec a' a) as [->|]; [|lia].
      rewrite cyc_pred by (apply Xa; exact Ha). destruct (Nat.eqb_spec (coord x a) 0) as [Q|Q].
      + exfalso. destruct C as [C|C]; [congruence|lia].
      + destruct Z as [Z|(Z & _)]; lia.
    - exfalso. destruct C as [C|C]; [congruence|lia].
    - exfalso. destruct C' as [C'|C']; [congruence|lia].
    - destruct Z as [Z|(_ & Z & Z')]; [specialize (Dx a Ha Fu); lia|]. rewrite (Z b _ Hb I N), (Z' b _ Hb I' N'). reflexivity.
  Qed.

  Variables (dt : K) (we wh we' wh' : widths K) (eps eps' : field K) (mu mu' : option (field K)).
  Hypothesis We : same_w W o o' we we'.
  Hypothesis Wh : same_w W o o' wh wh'.
  Hypothesis Ep : same_f W o o' eps eps'.
  Hypothesis Mu : same_f W o o' (matl mu) (matl mu').

  Lemma maxh_val (s : list nat) (d : dxes_t K) (e h : field K) (m : option (field K)) c i : maxwell_h s dt d e h m c i = h c i - dt * curl_forward s (option_map fst d) e c i / matl m c i.
  Proof. unfold maxwell_h. destruct m; cbn [matl]; [reflexivity|]. field. apply (F_1_neq_0 (fth K)). Qed.
  Lemma w_at (w w' : widths K) x a : same_w W o o' w w' -> inb W x -> (a < 3)%nat -> w a (coord (place o x) a) = w' a (coord (place o' x) a).
  Proof. intros S X Ha. rewrite !coord_place by exact Ha. apply S; [exact Ha|]. pose proof F1 as (_ & Lw & _). now apply (proj1 (inb_dim W x Lw) X). Qed.

  Lemma step_h m hm M hM M1 m1 E E' H H' : AG m M E E' -> AG hm hM H H' -> (m <= m1)%nat -> (hm <= m1)%nat -> (M <= M1)%nat -> (hM <= M1)%nat ->
    (S M <= M1)%nat \/ (M = 0%nat /\ ZO sh o E /\ ZO sh' o' E') ->
    forall c x, (c < 3)%nat -> deep W full m1 M1 x ->
      maxwell_h sh dt (Some (we, wh)) E H mu c (place o x) = maxwell_h sh' dt (Some (we', wh')) E' H' mu' c (place o' x).
  Proof.
    intros A B q1 q2 q3 q4 Z c x Hc D. pose proof D as (X & _).
    assert (U : forall a b, (a < 3)%nat -> (b < 3)%nat -> E b (shift_ix sh a 1 (place o x)) = E' b (shift_ix sh' a 1 (place o' x))).
    { intros a b Ha Hb. apply (up_ok m M M1 E E' A q3 Z a b x Ha Hb). exact (deep_mono m M1 m1 M1 x q1 (le_n _) D). }
    assert (V : forall b, (b < 3)%nat -> E b (place o x) = E' b (place o' x)) by (intros b Hb; apply A; [exact Hb|exact (deep_mono m M m1 M1 x q1 q3 D)]).
    rewrite !maxh_val. rewrite (B c x Hc (deep_mono hm hM m1 M1 x q2 q4 D)). rewrite (Mu c x Hc X). cbn [option_map fst].
    assert (Dv : forall a b, (a < 3)%nat -> (b < 3)%nat -> deriv_forward sh (Some we) a (E b) (place o x) = deriv_forward sh' (Some we') a (E' b) (place o' x)).
    { intros a b Ha Hb. unfold deriv_forward, roll. change (Z.opp (-1)) with 1%Z. rewrite (U a b Ha Hb), (V b Hb). now rewrite (w_at we we' x a We X Ha). }
    do 3 f_equal. unfold curl_forward, curl_with. destruct c as [|[|[|c]]]; [| | |lia]; rewrite !Dv by lia; reflexivity.
  Qed.
  Lemma step_e m hm M hM M1 m1 E E' H H' : AG m M E E' -> AG hm hM H H' -> (m <= m1)%nat -> (hm <= m1)%nat -> (M <= M1)%nat -> (hM <= M1)%nat ->
    (S hm <= m1)%nat \/ (hm = 0%nat /\ ZO sh o H /\ ZO sh' o' H') ->
    forall c x, (c < 3)%nat -> deep W full m1 M1 x ->
      maxwell_e sh dt (Some (we, wh)) E H eps c (place o x) = maxwell_e sh' dt (Some (we', wh')) E' H' eps' c (place o' x).
  Proof.
    intros A B q1 q2 q3 q4 Z c x Hc D. pose proof D as (X & _).
    assert (U : forall a b, (a < 3)%nat -> (b < 3)%nat -> H b (shift_ix sh a (-1) (place o x)) = H' b (shift_ix sh' a (-1) (place o' x))).
    { intros a b Ha Hb. apply (dn_ok hm m1 hM H H' B q2 Z a b x Ha Hb). exact (deep_mono m1 hM m1 M1 x (le_n _) q4 D). }
    assert (V : forall b, (b < 3)%nat -> H b (place o x) = H' b (place o' x)) by (intros b Hb; apply B; [exact Hb|exact (deep_mono hm hM m1 M1 x q2 q4 D)]).
    unfold maxwell_e. rewrite (A c x Hc (deep_mono m M m1 M1 x q1 q3 D)). rewrite (Ep c x Hc X). cbn [option_map snd].
    assert (Dv : forall a b, (a < 3)%nat -> (b < 3)%nat -> deriv_back sh (Some wh) a (H b) (place o x) = deriv_back sh' (Some wh') a (H' b) (place o' x)).
    { intros a b Ha Hb. unfold deriv_back, roll. change (Z.opp 1) with (-1)%Z. rewrite (U a b Ha Hb), (V b Hb). now rewrite (w_at wh wh' x a Wh X Ha). }
    do 3 f_equal. unfold curl_back, curl_with. destruct c as [|[|[|c]]]; [| | |lia]; rewrite !Dv by lia; reflexivity.
  Qed.

  (** Two sequences of fields that obey the update equations in the window; up to step
      [d] they vanish outside. *)
  Lemma window_core (N d : nat) (E H E' H' j j' : nat -> field K) :
    (forall n c x, (n < N)%nat -> (c < 3)%nat -> inb W x -> H (S n) c (place o x) = maxwell_h sh dt (Some (we, wh)) (E n) (H n) mu c (place o x)) ->
    (forall n c x, (n < N)%nat -> (c < 3)%nat -> inb W x -> E (S n) c (place o x) = maxwell_e sh dt (Some (we, wh)) (E n) (H (S n)) eps c (place o x) + j n c (place o x) / eps c (place o x)) ->
    (forall n c x, (n < N)%nat -> (c < 3)%nat -> inb W x -> H' (S n) c (place o' x) = maxwell_h sh' dt (Some (we', wh')) (E' n) (H' n) mu' c (place o' x)) ->
    (forall n c x, (n < N)%nat -> (c < 3)%nat -> inb W x -> E' (S n) c (place o' x) = maxwell_e sh' dt (Some (we', wh')) (E' n) (H' (S n)) eps' c (place o' x) + j' n c (place o' x) / eps' c (place o' x)) ->
    (forall n, (n < N)%nat -> same_f W o o' (j n) (j' n)) ->
    AG 0 0 (E 0%nat) (E' 0%nat) -> AG 0 0 (H 0%nat) (H' 0%nat) ->
    (forall n, (n <= N)%nat -> (n < d)%nat -> ZO sh o (E n) /\ ZO sh' o' (E' n)) ->
    (forall n, (n <= N)%nat -> (n <= d)%nat -> (0 < d)%nat -> ZO sh o (H n) /\ ZO sh' o' (H' n)) ->
    forall n, (n <= N)%nat -> AG (n - d) (n - d) (E n) (E' n) /\ AG (n - d - 1) (n - d) (H n) (H' n).
  Proof.
    intros UH UE UH' UE' J A0 B0 ZE ZH. induction n as [|n IH]; intro Hn; [now split|].
    destruct (IH ltac:(lia)) as (A & B).
    assert (B1 : AG (S n - d - 1) (S n - d) (H (S n)) (H' (S n))).
    { intros c x Hc D. pose proof D as (X & _). rewrite (UH n c x ltac:(lia) Hc X), (UH' n c x ltac:(lia) Hc X).
      apply (step_h (n - d) (n - d - 1) (n - d) (n - d) (S n - d) (S n - d - 1)); try assumption; try lia.
      destruct (Nat.lt_ge_cases n d) as [Q|Q]; [right|left; lia]. split; [lia|]. apply ZE; lia. }
    split; [|exact B1]. intros c x Hc D. pose proof D as (X & _). rewrite (UE n c x ltac:(lia) Hc X), (UE' n c x ltac:(lia) Hc X), (J n ltac:(lia) c x Hc X), (Ep c x Hc X). f_equal.
    apply (step_e (n - d) (S n - d - 1) (n - d) (S n - d) (S n - d) (S n - d)); try assumption; try lia.
    destruct (Nat.lt_ge_cases n d) as [Q|Q]; [right|left; lia]. split; [lia|]. apply ZH; lia.
  Qed.
End Two.
