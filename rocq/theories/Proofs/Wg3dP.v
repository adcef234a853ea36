(** A mode of the 2D cross-section, repeated along the third axis with a phase,
    satisfies the 3D Maxwell's equations. *)
From Coq Require Import List Arith ZArith Lia Bool Field.
From Verif.Lib Require Import Num Sums Idx Mat.
From Verif.Model Require Import Fdmath Fdfd.
From Verif.Spec Require Import Yee FdfdSpec WaveguideSpec.
From Verif.Proofs Require Import FdmathP FdfdP.
From Verif.Proofs Require Import GridP.
Import ListNotations.
Local Open Scope fld_scope.

Section Embed.
  Variable K : CFld.
  Add Field Kf3 : (fth K).
  Variables (sh : list nat) (axis : nat) (o s n : nat -> nat).
  Hypothesis HL : length sh = 3%nat.
  Hypothesis Hax : (axis < 3)%nat.
  Hypothesis Ho : forall b, (b < 2)%nat -> (o b < 3)%nat /\ o b <> axis.
  Hypothesis Ho01 : o 0%nat <> o 1%nat.
  Hypothesis Hfit : forall b, (b < 2)%nat -> (s b + n b <= dim sh (o b))%nat.

  Definition sh2 := [n 0%nat; n 1%nat].
  Definition pr (j : list nat) : list nat := [(coord j (o 0%nat) - s 0%nat)%nat; (coord j (o 1%nat) - s 1%nat)%nat].
  Definition win (j : list nat) : Prop :=
    forall b, (b < 2)%nat -> (s b <= coord j (o b))%nat /\ (coord j (o b) < s b + n b)%nat.
  Definition full (b : nat) : Prop := s b = 0%nat /\ n b = dim sh (o b).
  Definition fwd (b : nat) (j : list nat) : Prop := full b \/ (coord j (o b) + 1 < s b + n b)%nat.
  Definition bak (b : nat) (j : list nat) : Prop := full b \/ (s b < coord j (o b))%nat.

  Lemma inb_pr j : win j -> inb sh2 (pr j).
  Proof.
    intro W. destruct (W 0%nat ltac:(lia)), (W 1%nat ltac:(lia)). unfold sh2, pr. repeat constructor; lia.
  Qed.

  Lemma pr_upd b v j : (b < 2)%nat -> (o b < length j)%nat -> pr (upd (o b) v j) = upd b (v - s b)%nat (pr j).
  Proof.
    intros Hb Hj. unfold pr. destruct b as [|[|b]]; [| |lia].
    - rewrite coord_upd_same by exact Hj. rewrite coord_upd_other by exact Ho01. reflexivity.
    - rewrite coord_upd_same by exact Hj. rewrite coord_upd_other by (intro; now apply Ho01). reflexivity.
  Qed.
  Lemma win_upd b v j : (b < 2)%nat -> (o b < length j)%nat -> (s b <= v)%nat -> (v < s b + n b)%nat -> win j -> win (upd (o b) v j).
  Proof.
    intros Hb Hj H1 H2 W b' Hb'. destruct (Nat.eq_dec b' b) as [->|Hne]; [rewrite coord_upd_same by exact Hj; lia|].
    rewrite coord_upd_other; [now apply W|].
    destruct b as [|[|]], b' as [|[|]]; try lia; intro; now apply Ho01.
  Qed.
  Lemma coord_pr b j : (b < 2)%nat -> coord (pr j) b = (coord j (o b) - s b)%nat.
  Proof. destruct b as [|[|b]]; [reflexivity|reflexivity|lia]. Qed.
  Lemma dim2 b : (b < 2)%nat -> dim sh2 b = n b.
  Proof. destruct b as [|[|b]]; [reflexivity|reflexivity|lia]. Qed.

  Lemma win_fwd b j : (b < 2)%nat -> inb sh j -> win j -> fwd b j ->
    win (shift_ix sh (o b) 1 j) /\ pr (shift_ix sh (o b) 1 j) = shift_ix sh2 b 1 (pr j).
  Proof.
    intros Hb Hi W F. destruct (W b Hb) as [W1 W2]. pose proof (Hfit b Hb) as Hf.
    pose proof (inb_length _ _ Hi) as Hl. assert (Hj : (o b < length j)%nat) by (rewrite Hl, HL; now apply Ho).
    assert (Hc : (coord j (o b) < dim sh (o b))%nat) by (apply inb_coord; [exact Hi|rewrite HL; now apply Ho]).
    unfold shift_ix at 1 2. rewrite cyc_succ by exact Hc. rewrite pr_upd by assumption.
    unfold shift_ix. rewrite coord_pr, dim2, cyc_succ by (assumption || lia).
    assert (A : (s b <= (if Nat.eqb (S (coord j (o b))) (dim sh (o b)) then 0 else S (coord j (o b))) < s b + n b)%nat /\
      ((if Nat.eqb (S (coord j (o b))) (dim sh (o b)) then 0 else S (coord j (o b))) - s b = (if Nat.eqb (S (coord j (o b) - s b)) (n b) then 0 else S (coord j (o b) - s b)))%nat).
    { destruct F as [[F1 F2]|F].
      - destruct (Nat.eqb_spec (S (coord j (o b))) (dim sh (o b))), (Nat.eqb_spec (S (coord j (o b) - s b)) (n b)); lia.
      - destruct (Nat.eqb_spec (S (coord j (o b))) (dim sh (o b))); [lia|].
        destruct (Nat.eqb_spec (S (coord j (o b) - s b)) (n b)); lia. }
    destruct A as [[A1 A2] A3]. split; [now apply win_upd|now rewrite A3].
  Qed.
  Lemma win_bak b j : (b < 2)%nat -> inb sh j -> win j -> bak b j ->
    win (shift_ix sh (o b) (-1) j) /\ pr (shift_ix sh (o b) (-1) j) = shift_ix sh2 b (-1) (pr j).
  Proof.
    intros Hb Hi W F. destruct (W b Hb) as [W1 W2]. pose proof (Hfit b Hb) as Hf.
    pose proof (inb_length _ _ Hi) as Hl. assert (Hj : (o b < length j)%nat) by (rewrite Hl, HL; now apply Ho).
    assert (Hc : (coord j (o b) < dim sh (o b))%nat) by (apply inb_coord; [exact Hi|rewrite HL; now apply Ho]).
    unfold shift_ix at 1 2. rewrite cyc_pred by exact Hc. rewrite pr_upd by assumption.
    unfold shift_ix. rewrite coord_pr, dim2, cyc_pred by (assumption || lia).
    assert (A : (s b <= (if Nat.eqb (coord j (o b)) 0 then dim sh (o b) - 1 else coord j (o b) - 1) < s b + n b)%nat /\
      ((if Nat.eqb (coord j (o b)) 0 then dim sh (o b) - 1 else coord j (o b) - 1) - s b = (if Nat.eqb (coord j (o b) - s b) 0 then n b - 1 else coord j (o b) - s b - 1))%nat).
    { destruct F as [[F1 F2]|F].
      - destruct (Nat.eqb_spec (coord j (o b)) 0), (Nat.eqb_spec (coord j (o b) - s b) 0); lia.
      - destruct (Nat.eqb_spec (coord j (o b)) 0); [lia|].
        destruct (Nat.eqb_spec (coord j (o b) - s b) 0); lia. }
    destruct A as [[A1 A2] A3]. split; [now apply win_upd|now rewrite A3].
  Qed.
  Lemma win_ax d j : win j -> win (shift_ix sh axis d j) /\ pr (shift_ix sh axis d j) = pr j.
  Proof.
    intro W. destruct (Ho 0%nat ltac:(lia)), (Ho 1%nat ltac:(lia)). split.
    - intros b Hb. destruct (Ho b Hb). rewrite coord_shift_other by lia. now apply W.
    - unfold pr. now rewrite !coord_shift_other by lia.
  Qed.

  (** Transverse derivatives act on the cross-section. *)
  Lemma df_tr b (w w2 : widths K) (F : arr K) (a : nat -> K) (g : arr K) j :
    (b < 2)%nat -> inb sh j -> win j -> fwd b j ->
    (forall k, w2 b k = w (o b) (s b + k)%nat) ->
    (forall j, inb sh j -> win j -> F j = a (coord j axis) * g (pr j)) ->
    deriv_forward sh (Some w) (o b) F j = a (coord j axis) * deriv_forward sh2 (Some w2) b g (pr j).
  Proof.
    intros Hb Hi W Fw Hw HF. destruct (win_fwd b j Hb Hi W Fw) as [W' P]. destruct (Ho b Hb) as [Ho1 Ho2].
    unfold deriv_forward, roll. cbn [Z.opp]. rewrite !HF by (try apply inb_shift; try rewrite HL; assumption).
    rewrite P, coord_shift_other by exact Ho2. rewrite Hw, coord_pr by exact Hb.
    destruct (W b Hb). replace (s b + (coord j (o b) - s b))%nat with (coord j (o b)) by lia.
    rewrite !fdiv_def. ring.
  Qed.
  Lemma db_tr b (w w2 : widths K) (F : arr K) (a : nat -> K) (g : arr K) j :
    (b < 2)%nat -> inb sh j -> win j -> bak b j ->
    (forall k, w2 b k = w (o b) (s b + k)%nat) ->
    (forall j, inb sh j -> win j -> F j = a (coord j axis) * g (pr j)) ->
    deriv_back sh (Some w) (o b) F j = a (coord j axis) * deriv_back sh2 (Some w2) b g (pr j).
  Proof.
    intros Hb Hi W Fw Hw HF. destruct (win_bak b j Hb Hi W Fw) as [W' P]. destruct (Ho b Hb) as [Ho1 Ho2].
    unfold deriv_back, roll. change (Z.opp 1) with (-1)%Z. rewrite !HF by (try apply inb_shift; try rewrite HL; assumption).
    rewrite P, coord_shift_other by exact Ho2. rewrite Hw, coord_pr by exact Hb.
    destruct (W b Hb). replace (s b + (coord j (o b) - s b))%nat with (coord j (o b)) by lia.
    rewrite !fdiv_def. ring.
  Qed.
  (** Derivatives along the axis act on the phase. *)
  Lemma df_ax (w : widths K) (F : arr K) (a : nat -> K) (g : arr K) j :
    inb sh j -> win j -> (coord j axis + 1 < dim sh axis)%nat ->
    (forall j, inb sh j -> win j -> F j = a (coord j axis) * g (pr j)) ->
    deriv_forward sh (Some w) axis F j = (a (S (coord j axis)) - a (coord j axis)) / w axis (coord j axis) * g (pr j).
  Proof.
    intros Hi W Hm HF. destruct (win_ax 1 j W) as [W' P].
    assert (Hc : (coord j axis < dim sh axis)%nat) by lia.
    unfold deriv_forward, roll. cbn [Z.opp]. rewrite !HF by (try apply inb_shift; try rewrite HL; assumption).
    rewrite P, coord_shift_same by (try rewrite HL; assumption). rewrite cyc_succ by exact Hc.
    destruct (Nat.eqb_spec (S (coord j axis)) (dim sh axis)); [lia|]. rewrite !fdiv_def. ring.
  Qed.
  Lemma db_ax (w : widths K) (F : arr K) (a : nat -> K) (g : arr K) j :
    inb sh j -> win j -> (0 < coord j axis)%nat ->
    (forall j, inb sh j -> win j -> F j = a (coord j axis) * g (pr j)) ->
    deriv_back sh (Some w) axis F j = (a (coord j axis) - a (coord j axis - 1)%nat) / w axis (coord j axis) * g (pr j).
  Proof.
    intros Hi W Hm HF. destruct (win_ax (-1) j W) as [W' P].
    assert (Hc : (coord j axis < dim sh axis)%nat) by (apply inb_coord; [exact Hi|lia]).
    unfold deriv_back, roll. change (Z.opp 1) with (-1)%Z. rewrite !HF by (try apply inb_shift; try rewrite HL; assumption).
    rewrite P, coord_shift_same by (try rewrite HL; assumption). rewrite cyc_pred by exact Hc.
    destruct (Nat.eqb_spec (coord j axis) 0); [lia|]. rewrite !fdiv_def. ring.
  Qed.

  (** The axes are in cyclic order. *)
  Hypothesis Hcyc : (axis, o 0%nat, o 1%nat) = (0, 1, 2)%nat \/ (axis, o 0%nat, o 1%nat) = (1, 2, 0)%nat \/ (axis, o 0%nat, o 1%nat) = (2, 0, 1)%nat.
  Lemma curl_cyc (D : nat -> arr K -> arr K) (F : field K) j :
    curl_with D F (o 0%nat) j = D (o 1%nat) (F axis) j - D axis (F (o 1%nat)) j /\
    curl_with D F (o 1%nat) j = D axis (F (o 0%nat)) j - D (o 0%nat) (F axis) j /\
    curl_with D F axis j = D (o 0%nat) (F (o 1%nat)) j - D (o 1%nat) (F (o 0%nat)) j.
  Proof. destruct Hcyc as [E|[E|E]]; injection E as -> -> ->; repeat split. Qed.
  Lemma comp_cases c : (c < 3)%nat -> c = o 0%nat \/ c = o 1%nat \/ c = axis.
  Proof. destruct Hcyc as [E|[E|E]]; injection E as -> -> ->; lia. Qed.

  (** The mode and its 3D extension. *)
  Variables (we wh w2e w2h : widths K) (om beta dx p : K) (ph : nat -> K) (eps2 mu2 e h eps mu E H : field K).
  Hypothesis Hw2e : forall b k, (b < 2)%nat -> w2e b k = we (o b) (s b + k)%nat.
  Hypothesis Hw2h : forall b k, (b < 2)%nat -> w2h b k = wh (o b) (s b + k)%nat.
  Hypothesis Hwe : forall m, (m < dim sh axis)%nat -> we axis m = dx.
  Hypothesis Hwh : forall m, (m < dim sh axis)%nat -> wh axis m = dx.
  Hypothesis Hdx : dx <> 0.
  Hypothesis Hp0 : p <> 0.
  Hypothesis Hp : p * p - 1 = - im * beta * dx * p.
  Hypothesis Hph : forall m, (m + 1 < dim sh axis)%nat -> ph (S m) = ph m * (p * p).
  Hypothesis M : is_mode sh2 w2e w2h om beta eps2 mu2 e h.
  Hypothesis HE : forall j, inb sh j -> win j ->
    E (o 0%nat) j = ph (coord j axis) * e 0%nat (pr j) /\
    E (o 1%nat) j = ph (coord j axis) * e 1%nat (pr j) /\
    E axis j = ph (coord j axis) * p * e 2%nat (pr j).
  Hypothesis HH : forall j, inb sh j -> win j ->
    H (o 0%nat) j = ph (coord j axis) * p * h 0%nat (pr j) /\
    H (o 1%nat) j = ph (coord j axis) * p * h 1%nat (pr j) /\
    H axis j = ph (coord j axis) * h 2%nat (pr j).
  Hypothesis Heps : forall j, inb sh j -> win j ->
    eps (o 0%nat) j = eps2 0%nat (pr j) /\ eps (o 1%nat) j = eps2 1%nat (pr j) /\ eps axis j = eps2 2%nat (pr j).
  Hypothesis Hmu : forall j, inb sh j -> win j ->
    mu (o 0%nat) j = mu2 0%nat (pr j) /\ mu (o 1%nat) j = mu2 1%nat (pr j) /\ mu axis j = mu2 2%nat (pr j).

  Let a1 m := ph m.
  Let ap m := ph m * p.
  Lemma step_f m : (m + 1 < dim sh axis)%nat -> (ph (S m) - ph m) / we axis m = - im * beta * (ph m * p).
  Proof.
    intro Hm. rewrite Hwe, Hph by lia. rewrite fdiv_def.
    replace (ph m * (p * p) - ph m) with (ph m * (p * p - 1)) by ring. rewrite Hp. field; exact Hdx.
  Qed.
  Lemma step_b m : (0 < m)%nat -> (m < dim sh axis)%nat -> (ph m * p - ph (m - 1)%nat * p) / wh axis m = - im * beta * ph m.
  Proof.
    intros H0 Hm. rewrite Hwh by exact Hm. destruct m as [|m]; [lia|]. cbn [Nat.sub]. rewrite Nat.sub_0_r.
    rewrite Hph by lia. rewrite fdiv_def.
    replace (ph m * (p * p) * p - ph m * p) with (ph m * p * (p * p - 1)) by ring. rewrite Hp. field; exact Hdx.
  Qed.

  Lemma embed_faraday j c : (c < 3)%nat -> inb sh j -> win j -> (coord j axis + 1 < dim sh axis)%nat -> fwd 0 j -> fwd 1 j ->
    curl_forward sh (Some we) E c j = - im * om * (mu c j * H c j).
  Proof.
    intros Hc Hi W Hm F0 F1. unfold curl_forward. destruct (curl_cyc (deriv_forward sh (Some we)) E j) as (C0 & C1 & C2).
    destruct (HH j Hi W) as (H0 & H1 & H2). destruct (Hmu j Hi W) as (U0 & U1 & U2).
    destruct M as [MF _]. destruct (MF (pr j) (inb_pr j W)) as (M0 & M1 & M2). to_model.
    assert (E0 : forall j, inb sh j -> win j -> E (o 0%nat) j = a1 (coord j axis) * e 0%nat (pr j)) by (intros; now apply HE).
    assert (E1 : forall j, inb sh j -> win j -> E (o 1%nat) j = a1 (coord j axis) * e 1%nat (pr j)) by (intros; now apply HE).
    assert (E2 : forall j, inb sh j -> win j -> E axis j = ap (coord j axis) * e 2%nat (pr j)) by (intros; now apply HE).
    destruct (comp_cases c Hc) as [->|[->| ->]].
    - rewrite C0. rewrite (df_tr 1 we w2e _ _ _ j ltac:(lia) Hi W F1 (fun k => Hw2e 1%nat k ltac:(lia)) E2).
      rewrite (df_ax we _ _ _ j Hi W Hm E1). unfold a1. rewrite step_f by exact Hm. rewrite U0, H0. unfold ap.
      transitivity (ph (coord j axis) * p * (deriv_forward sh2 (Some w2e) 1 (e 2%nat) (pr j) + im * beta * e 1%nat (pr j))); [ring|].
      rewrite <- M0. ring.
    - rewrite C1. rewrite (df_tr 0 we w2e _ _ _ j ltac:(lia) Hi W F0 (fun k => Hw2e 0%nat k ltac:(lia)) E2).
      rewrite (df_ax we _ _ _ j Hi W Hm E0). unfold a1. rewrite step_f by exact Hm. rewrite U1, H1. unfold ap.
      transitivity (ph (coord j axis) * p * (- im * beta * e 0%nat (pr j) - deriv_forward sh2 (Some w2e) 0 (e 2%nat) (pr j))); [ring|].
      rewrite <- M1. ring.
    - rewrite C2. rewrite (df_tr 0 we w2e _ _ _ j ltac:(lia) Hi W F0 (fun k => Hw2e 0%nat k ltac:(lia)) E1).
      rewrite (df_tr 1 we w2e _ _ _ j ltac:(lia) Hi W F1 (fun k => Hw2e 1%nat k ltac:(lia)) E0). rewrite U2, H2. unfold a1.
      transitivity (ph (coord j axis) * (deriv_forward sh2 (Some w2e) 0 (e 1%nat) (pr j) - deriv_forward sh2 (Some w2e) 1 (e 0%nat) (pr j))); [ring|].
      rewrite <- M2. ring.
  Qed.

  Lemma embed_ampere j c : (c < 3)%nat -> inb sh j -> win j -> (0 < coord j axis)%nat -> bak 0 j -> bak 1 j ->
    curl_back sh (Some wh) H c j = im * om * (eps c j * E c j).
  Proof.
    intros Hc Hi W Hm F0 F1. unfold curl_back. destruct (curl_cyc (deriv_back sh (Some wh)) H j) as (C0 & C1 & C2).
    destruct (HE j Hi W) as (H0 & H1 & H2). destruct (Heps j Hi W) as (U0 & U1 & U2).
    assert (Hd : (coord j axis < dim sh axis)%nat) by (apply inb_coord; [exact Hi|lia]).
    destruct M as [_ MF]. destruct (MF (pr j) (inb_pr j W)) as (M0 & M1 & M2). to_model.
    assert (E0 : forall j, inb sh j -> win j -> H (o 0%nat) j = ap (coord j axis) * h 0%nat (pr j)) by (intros; now apply HH).
    assert (E1 : forall j, inb sh j -> win j -> H (o 1%nat) j = ap (coord j axis) * h 1%nat (pr j)) by (intros; now apply HH).
    assert (E2 : forall j, inb sh j -> win j -> H axis j = a1 (coord j axis) * h 2%nat (pr j)) by (intros; now apply HH).
    destruct (comp_cases c Hc) as [->|[->| ->]].
    - rewrite C0. rewrite (db_tr 1 wh w2h _ _ _ j ltac:(lia) Hi W F1 (fun k => Hw2h 1%nat k ltac:(lia)) E2).
      rewrite (db_ax wh _ _ _ j Hi W Hm E1). unfold ap. rewrite step_b by assumption. rewrite U0, H0. unfold a1.
      transitivity (ph (coord j axis) * (deriv_back sh2 (Some w2h) 1 (h 2%nat) (pr j) + im * beta * h 1%nat (pr j))); [ring|].
      rewrite <- M0. ring.
    - rewrite C1. rewrite (db_tr 0 wh w2h _ _ _ j ltac:(lia) Hi W F0 (fun k => Hw2h 0%nat k ltac:(lia)) E2).
      rewrite (db_ax wh _ _ _ j Hi W Hm E0). unfold ap. rewrite step_b by assumption. rewrite U1, H1. unfold a1.
      transitivity (ph (coord j axis) * (- im * beta * h 0%nat (pr j) - deriv_back sh2 (Some w2h) 0 (h 2%nat) (pr j))); [ring|].
      rewrite <- M1. ring.
    - rewrite C2. rewrite (db_tr 0 wh w2h _ _ _ j ltac:(lia) Hi W F0 (fun k => Hw2h 0%nat k ltac:(lia)) E1).
      rewrite (db_tr 1 wh w2h _ _ _ j ltac:(lia) Hi W F1 (fun k => Hw2h 1%nat k ltac:(lia)) E0). rewrite U2, H2. unfold ap.
      transitivity (ph (coord j axis) * p * (deriv_back sh2 (Some w2h) 0 (h 1%nat) (pr j) - deriv_back sh2 (Some w2h) 1 (h 0%nat) (pr j))); [ring|].
      rewrite <- M2. ring.
  Qed.

  Lemma deriv_back_ext_loc (w : option (widths K)) a (F G : arr K) j : F j = G j -> F (shift_ix sh a (-1) j) = G (shift_ix sh a (-1) j) ->
    deriv_back sh w a F j = deriv_back sh w a G j.
  Proof. intros A B. unfold deriv_back, roll. change (Z.opp 1) with (-1)%Z. now rewrite A, B. Qed.

  (** The wave equation where the stencil stays inside. *)
  Lemma embed_wave (muo : option (field K)) j c : (c < 3)%nat -> inb sh j -> win j ->
    (0 < coord j axis)%nat -> (coord j axis + 1 < dim sh axis)%nat ->
    (forall b, (b < 2)%nat -> full b \/ (s b < coord j (o b) /\ coord j (o b) + 1 < s b + n b)%nat) ->
    (forall c j, (c < 3)%nat -> inb sh j -> win j -> inv_at muo c j * mu c j = 1) ->
    wave_e sh om we wh eps muo E c j = 0.
  Proof.
    intros Hc Hi W Hm1 Hm2 FB HU. unfold wave_e. to_model.
    pose (G := fun c' i' => - im * om * H c' i').
    assert (FA : forall c' i', (c' < 3)%nat -> inb sh i' -> win i' -> (coord i' axis + 1 < dim sh axis)%nat -> fwd 0 i' -> fwd 1 i' ->
      inv_at muo c' i' * curl_forward sh (Some we) E c' i' = G c' i').
    { intros c' i' Hc' Hi' W' Hm' F0 F1. rewrite embed_faraday by assumption. unfold G.
      transitivity (- im * om * H c' i' * (inv_at muo c' i' * mu c' i')); [ring|]. rewrite HU by assumption. ring. }
    assert (CE : curl_back sh (Some wh) (fun c' i' => inv_at muo c' i' * curl_forward sh (Some we) E c' i') c j = curl_back sh (Some wh) G c j).
    { assert (DE : forall c' a, (c' < 3)%nat -> (a < 3)%nat ->
        deriv_back sh (Some wh) a (fun i' => inv_at muo c' i' * curl_forward sh (Some we) E c' i') j = deriv_back sh (Some wh) a (G c') j).
      { intros c' a Hc' Ha.
        assert (F : forall b, (b < 2)%nat -> fwd b j) by (intros b Hb; destruct (FB b Hb) as [?|[_ ?]]; [now left|now right]).
        assert (B : forall b, (b < 2)%nat -> bak b j) by (intros b Hb; destruct (FB b Hb) as [?|[? _]]; [now left|now right]).
        apply deriv_back_ext_loc; [apply FA; try assumption; apply F; lia|].
        assert (Hs : inb sh (shift_ix sh a (-1) j)) by (apply inb_shift; [exact Hi|lia]).
        assert (HW : win (shift_ix sh a (-1) j)).
        { destruct (comp_cases a Ha) as [->|[->| ->]]; [apply win_bak; auto|apply win_bak; auto|now apply win_ax]. }
        assert (HF : forall b, (b < 2)%nat -> fwd b (shift_ix sh a (-1) j)).
        { intros b Hb. destruct (FB b Hb) as [?|[F1 F2]]; [now left|right].
          destruct (Nat.eq_dec a (o b)) as [->|Hne]; [|now rewrite coord_shift_other].
          assert (Hd : (coord j (o b) < dim sh (o b))%nat) by (apply inb_coord; [exact Hi|lia]).
          rewrite coord_shift_same, cyc_pred by (try lia; assumption). destruct (Nat.eqb_spec (coord j (o b)) 0); lia. }
        apply FA; try assumption; [|apply HF; lia|apply HF; lia].
        destruct (Nat.eq_dec a axis) as [->|Hne]; [|now rewrite coord_shift_other].
        assert (Hd : (coord j axis < dim sh axis)%nat) by lia.
        rewrite coord_shift_same, cyc_pred by (try lia; assumption). destruct (Nat.eqb_spec (coord j axis) 0); lia. }
      unfold curl_back.
      destruct (curl_cyc (deriv_back sh (Some wh)) (fun c' i' => inv_at muo c' i' * curl_forward sh (Some we) E c' i') j) as (P0 & P1 & P2).
      destruct (curl_cyc (deriv_back sh (Some wh)) G j) as (Q0 & Q1 & Q2).
      destruct (Ho 0%nat ltac:(lia)), (Ho 1%nat ltac:(lia)).
      destruct (comp_cases c Hc) as [->|[->| ->]]; [rewrite P0, Q0|rewrite P1, Q1|rewrite P2, Q2]; f_equal; apply DE; assumption. }
    rewrite CE. unfold G.
    assert (SC : curl_back sh (Some wh) (fun c' i' => - im * om * H c' i') c j = - im * om * curl_back sh (Some wh) H c j).
    { unfold curl_back. destruct (curl_cyc (deriv_back sh (Some wh)) (fun c' i' => - im * om * H c' i') j) as (P0 & P1 & P2).
      destruct (curl_cyc (deriv_back sh (Some wh)) H j) as (Q0 & Q1 & Q2).
      destruct (comp_cases c Hc) as [->|[->| ->]]; [rewrite P0, Q0|rewrite P1, Q1|rewrite P2, Q2]; unfold deriv_back, roll; rewrite !fdiv_def; ring. }
    assert (B : forall b, (b < 2)%nat -> bak b j) by (intros b Hb; destruct (FB b Hb) as [?|[? _]]; [now left|now right]).
    rewrite SC. rewrite embed_ampere by (try assumption; apply B; lia).
    transitivity (- (om * om) * (im * im + 1) * (eps c j * E c j)); [ring|]. rewrite im_sq. ring.
  Qed.
End Embed.
