(** Reciprocity of runs with CPML layers (C173). *)
From Coq Require Import Reals List Arith ZArith Lia Lra Field QArith Qcanon.
From Verif.Lib Require Import Num Sums Idx Mat RealF BoxMin.
From Verif.Model Require Import Fdmath Fdtd Pml FdtdReal.
From Verif.Spec Require Import Yee FdtdRun CpmlSpec CpmlHarmonicSpec CpmlRecipSpec.
From Verif.Proofs Require Import FdmathP FdtdP2 CflP CpmlRealP ModesP CpmlRecipP.
From Verif.Props Require Import TimeReciprocityProps CpmlHarmonicProps.
Import ListNotations.
Local Open Scope R_scope.

Section G.
  Variable sh : list nat.
  Variable Ls : nat -> nat -> option (layer RF).
  Variable dt : R.
  Variable w : widths RF.
  Variables eps mu : field RF.
  Hypothesis HL : length sh = 3%nat.
  Hypothesis Hw : nzw (K := RF) sh w.
  Hypothesis He : nzm (K := RF) sh eps.
  Hypothesis Hm : nzm (K := RF) sh mu.
  Hypothesis RE : responsive (K := RF) sh Ls lp1e lp2e.
  Hypothesis RH : responsive (K := RF) sh Ls lp1h lp2h.
  Notation after j n := (cpml_after (K := RF) sh Ls dt w eps mu j n).
  Notation rc := (reaction (K := RF) sh w w).
  Notation out := (source_outside (K := RF) sh Ls).

  Lemma cp_recip (j1 j2 : nat -> field RF) n : (forall m, out (j1 m)) -> (forall m, out (j2 m)) ->
    rs n (fun m => rc (j1 m) (pE_ (after j2 (n - 1 - m)))) = rs n (fun m => rc (pE_ (after j1 m)) (j2 (n - 1 - m)%nat)).
  Proof.
    intros S1 S2. destruct n as [|k]; [reflexivity|]. replace (S k - 1)%nat with k by lia.
    pose proof (recip_coef sh Ls dt w eps mu HL Hw He Hm RE RH j1 j2 S1 S2 k) as Q. rewrite rs_sub in Q.
    rewrite (rs_ext (S k) _ (fun m => rx sh w (pE_ (after j2 (k - m))) (j1 m))) by (intros m _; apply (reaction_sym RF)).
    transitivity (rs (S k) (fun m => rx sh w (pE_ (after j1 (k - m))) (j2 m))); [lra|].
    refine (eq_trans (eq_sym (sumN_reindex RF (S k) _ (fun m => (k - m)%nat) (fun m => (k - m)%nat) _ _ _ _)) _); try (intros; lia).
    apply rs_ext. intros m Hk. cbv beta. replace (k - (k - m))%nat with m by lia. reflexivity.
  Qed.
  Lemma out_scale f p : out p -> forall m : nat, out (fun c i => f m * p c i).
  Proof. intros O m c i a pp Hc Hi Ha Hp Hh. rewrite (O c i a pp Hc Hi Ha Hp Hh). apply Rmult_0_r. Qed.
  Notation ds f p n := (after (fun m c i => f m * p c i) n).
  Lemma cp_conv (f g : nat -> R) (p q : field RF) n : out p -> out q ->
    rs (S n) (fun m => f m * rc p (pE_ (ds g q (n - m)%nat))) = rs (S n) (fun m => g (n - m)%nat * rc (pE_ (ds f p m)) q).
  Proof.
    intros Op Oq. pose proof (cp_recip (fun m c i => f m * p c i) (fun m c i => g m * q c i) (S n) (out_scale f p Op) (out_scale g q Oq)) as Q.
    replace (S n - 1)%nat with n in Q by lia.
    refine (eq_trans (eq_trans _ Q) _); apply rs_ext; intros m _; [symmetry; apply (reaction_scale_l RF)|apply (reaction_scale_r RF)].
  Qed.
  Notation pulse := (pulse RF).
  Lemma cp_exchange (f : nat -> R) (p q : field RF) n : out p -> out q -> rc q (pE_ (ds f p n)) = rc p (pE_ (ds f q n)).
  Proof.
    intros Op Oq.
    assert (A : rc p (pE_ (ds f q n)) = rs (S n) (fun m => f (n - m)%nat * rc (pE_ (ds pulse p m)) q)).
    { rewrite <- (cp_conv pulse f p q n Op Oq). refine (eq_sym (eq_trans (pulse_first RF n (fun m => rc p (pE_ (ds f q (n - m)%nat)))) _)). now rewrite Nat.sub_0_r. }
    assert (B : rc (pE_ (ds f p n)) q = rs (S n) (fun m => f m * rc p (pE_ (ds pulse q (n - m)%nat)))).
    { rewrite (cp_conv f pulse p q n Op Oq). exact (eq_sym (pulse_last RF n (fun m => rc (pE_ (ds f p m)) q))). }
    assert (C : forall k, rc p (pE_ (ds pulse q k)) = rc (pE_ (ds pulse p k)) q).
    { intro k. pose proof (cp_conv pulse pulse p q k Op Oq) as Q.
      transitivity (rs (S k) (fun m => pulse m * rc p (pE_ (ds pulse q (k - m)%nat)))).
      - refine (eq_sym (eq_trans (pulse_first RF k (fun m => rc p (pE_ (ds pulse q (k - m)%nat)))) _)). now rewrite Nat.sub_0_r.
      - refine (eq_trans Q _). exact (pulse_last RF k (fun m => rc (pE_ (ds pulse p m)) q)). }
    rewrite (reaction_sym RF), A, B.
    refine (eq_trans (eq_sym (sumN_reindex RF (S n) _ (fun m => (n - m)%nat) (fun m => (n - m)%nat) _ _ _ _)) _); try (intros; lia).
    apply rs_ext. intros m Hk. cbv beta. rewrite C. replace (n - (n - m))%nat with m by lia. reflexivity.
  Qed.
End G.

(** Layers made by cpml_params respond at once. *)
Lemma fitted_responsive sh dt Ls (p1 p2 : layer RF -> nat -> R) : 0 < dt -> fitted sh dt Ls ->
  (forall a pp L i, made_for dt a pp L -> (i < lth L)%nat -> -1 < p1 L i /\ 0 < p2 L i) -> responsive (K := RF) sh Ls p1 p2.
Proof.
  intros Hd (Made & No & Fit) H a i Ha Hi.
  assert (In : forall pp L, (pp < 2)%nat -> here (K := RF) sh Ls a pp [i; i; i] = Some L ->
     Ls a pp = Some L /\ covers (dim sh a) pp (lth L) i /\ -1 < p1 L (depth sh a pp (lth L) [i; i; i]) /\ 0 < p2 L (depth sh a pp (lth L) [i; i; i])).
  { intros pp L Hp Eh. unfold here in Eh. destruct (Ls a pp) as [L'|] eqn:EL; [|discriminate]. destruct (inside sh a pp (lth L') [i; i; i]) eqn:Ei; [|discriminate]. injection Eh as ->.
    pose proof (proj1 (inside_covers sh a pp (lth L) i Ha) Ei) as C. split; [reflexivity|]. split; [exact C|]. apply (H a pp L _ (Made a pp L EL)). pose proof (Fit a pp L EL) as Ft. unfold covers in C. unfold depth. rewrite (CpmlHarmP.coord3 i a Ha). destruct (Nat.eqb pp 0); lia. }
  unfold instant, coef. destruct (here (K := RF) sh Ls a 0 [i; i; i]) as [L0|] eqn:E0; destruct (here (K := RF) sh Ls a 1 [i; i; i]) as [L1|] eqn:E1; cbn [option_map or1].
  - exfalso. destruct (In 0%nat L0 ltac:(lia) E0) as (U0 & V0 & _). destruct (In 1%nat L1 ltac:(lia) E1) as (U1 & V1 & _). pose proof (No a L0 L1 U0 U1). unfold covers in *. cbn in *. lia.
  - destruct (In 0%nat L0 ltac:(lia) E0) as (_ & _ & P & Q). set (q1 := p1 L0 _) in *. set (q2 := p2 L0 _) in *. change (q2 * 1 * (1 + 0) + q2 * q1 <> 0). assert (0 < q2 * (1 + q1)) by (apply Rmult_lt_0_compat; lra). lra.
  - destruct (In 1%nat L1 ltac:(lia) E1) as (_ & _ & P & Q). set (q1 := p1 L1 _) in *. set (q2 := p2 L1 _) in *. change (1 * q2 * (1 + q1) + 1 * 0 <> 0). assert (0 < q2 * (1 + q1)) by (apply Rmult_lt_0_compat; lra). lra.
  - change (1 * 1 * (1 + 0) + 1 * 0 <> 0). lra.
Qed.
Lemma fitted_e sh dt Ls : 0 < dt -> fitted sh dt Ls -> responsive (K := RF) sh Ls lp1e lp2e.
Proof. intros Hd F. apply (fitted_responsive sh dt Ls lp1e lp2e Hd F). intros a pp L i M Hi. destruct (made_ranges dt a pp L i Hd M Hi) as (_ & (A & B & C & D) & _). split; [lra|exact D]. Qed.
Lemma fitted_h sh dt Ls : 0 < dt -> fitted sh dt Ls -> responsive (K := RF) sh Ls lp1h lp2h.
Proof. intros Hd F. apply (fitted_responsive sh dt Ls lp1h lp2h Hd F). intros a pp L i M Hi. destruct (made_ranges dt a pp L i Hd M Hi) as (_ & _ & (A & B & C & D)). split; [lra|exact D]. Qed.

(** With layers from cpml_params, on grids of any widths and materials: for any two
    histories of currents outside the layers, those of the first run react with the fields
    of the second, in reversed time, as those of the second with the first. *)
Theorem C173_time_reciprocity :
  forall (sh : list nat) (Ls : nat -> nat -> option (layer RF)) (dt : R) (w : widths RF) (eps mu : field RF) (j1 j2 : nat -> field RF) (n : nat),
    length sh = 3%nat -> 0 < dt -> fitted sh dt Ls -> nzw (K := RF) sh w -> nzm (K := RF) sh eps -> nzm (K := RF) sh mu ->
    (forall m, source_outside (K := RF) sh Ls (j1 m)) -> (forall m, source_outside (K := RF) sh Ls (j2 m)) ->
    sumN (K := RF) n (fun m => reaction (K := RF) sh w w (j1 m) (pE_ (cpml_after (K := RF) sh Ls dt w eps mu j2 (n - 1 - m))))
    = sumN (K := RF) n (fun m => reaction (K := RF) sh w w (pE_ (cpml_after (K := RF) sh Ls dt w eps mu j1 m)) (j2 (n - 1 - m)%nat)).
Proof.
  intros sh Ls dt w eps mu j1 j2 n HL Hd F Hw He Hm S1 S2.
  exact (cp_recip sh Ls dt w eps mu HL Hw He Hm (fitted_e sh dt Ls Hd F) (fitted_h sh dt Ls Hd F) j1 j2 n S1 S2).
Qed.
Print Assumptions C173_time_reciprocity.

(** Between two points outside the layers, source and detector may be exchanged at every
    step, whatever the waves do in the layers. *)
Theorem C173_points :
  forall (sh : list nat) (Ls : nat -> nat -> option (layer RF)) (dt : R) (w : widths RF) (eps mu : field RF) (f : nat -> R) (c1 c2 : nat) (i1 i2 : list nat) (n : nat),
    length sh = 3%nat -> 0 < dt -> fitted sh dt Ls -> nzw (K := RF) sh w -> nzm (K := RF) sh eps -> nzm (K := RF) sh mu ->
    (c1 < 3)%nat -> (c2 < 3)%nat -> inb sh i1 -> inb sh i2 ->
    (forall a pp, (a < 3)%nat -> (pp < 2)%nat -> here (K := RF) sh Ls a pp i1 = None /\ here (K := RF) sh Ls a pp i2 = None) ->
    vol_e (K := RF) w w c2 i2 * pE_ (cpml_after (K := RF) sh Ls dt w eps mu (fun m c i => f m * unit_at (K := RF) c1 i1 c i) n) c2 i2
    = vol_e (K := RF) w w c1 i1 * pE_ (cpml_after (K := RF) sh Ls dt w eps mu (fun m c i => f m * unit_at (K := RF) c2 i2 c i) n) c1 i1.
Proof.
  intros sh Ls dt w eps mu f c1 c2 i1 i2 n HL Hd F Hw He Hm Hc1 Hc2 Hi1 Hi2 O.
  refine (eq_trans (eq_sym (reaction_point RF sh w w c2 i2 _ Hc2 Hi2)) (eq_trans _ (reaction_point RF sh w w c1 i1 _ Hc1 Hi1))).
  assert (U : forall c i, (forall a pp, (a < 3)%nat -> (pp < 2)%nat -> here (K := RF) sh Ls a pp i = None) -> source_outside (K := RF) sh Ls (unit_at (K := RF) c i)).
  { intros c i H c' i' a pp _ _ Ha Hp Hh. unfold unit_at. destruct (c' =? c)%nat; [|reflexivity]. destruct (list_eq_dec Nat.eq_dec i' i) as [->|]; [|reflexivity]. destruct Hh. now apply H. }
  apply (cp_exchange sh Ls dt w eps mu HL Hw He Hm (fitted_e sh dt Ls Hd F) (fitted_h sh dt Ls Hd F)); apply U; intros a pp Ha Hp; apply (O a pp Ha Hp).
Qed.
Print Assumptions C173_points.

(** It holds for any coefficients whose instantaneous response does not vanish. *)
Theorem C173_any_coefficients :
  forall (sh : list nat) (Ls : nat -> nat -> option (layer RF)) (dt : R) (w : widths RF) (eps mu : field RF) (f : nat -> R) (p q : field RF) (n : nat),
    length sh = 3%nat -> responsive (K := RF) sh Ls lp1e lp2e -> responsive (K := RF) sh Ls lp1h lp2h ->
    nzw (K := RF) sh w -> nzm (K := RF) sh eps -> nzm (K := RF) sh mu -> source_outside (K := RF) sh Ls p -> source_outside (K := RF) sh Ls q ->
    reaction (K := RF) sh w w q (pE_ (cpml_after (K := RF) sh Ls dt w eps mu (fun m c i => f m * p c i) n))
    = reaction (K := RF) sh w w p (pE_ (cpml_after (K := RF) sh Ls dt w eps mu (fun m c i => f m * q c i) n)).
Proof. intros sh Ls dt w eps mu f p q n HL RE RH Hw He Hm Op Oq. now apply cp_exchange. Qed.
Print Assumptions C173_any_coefficients.

(** Not inside the layers: a pulse in the layer seen next to it is not the pulse next to the
    layer seen in it, on a grid of equal cells in vacuum. *)
Definition cr_L : layer QcF := mkLayer (K := QcF) 1 (fun _ => qz 0) (fun _ => qz 0) (fun _ => Q2Qc (1 # 2)) (fun _ => qz 0) (fun _ => qz 0) (fun _ => qz 1).
Definition cr_Ls : nat -> nat -> option (layer QcF) := fun a pp => if ((a =? 0) && (pp =? 0))%bool%nat then Some cr_L else None.
Definition cr_at (c1 : nat) (i1 : list nat) (c2 : nat) (i2 : list nat) (n : nat) : QcF :=
  pE_ (cpml_after (K := QcF) [3; 1; 1]%nat cr_Ls (qz 1) (fun _ _ => qz 1) (fun _ _ => qz 1) (fun _ _ => qz 1)
     (fun m c i => if ((m =? 0) && (c =? c1))%bool%nat then if list_eq_dec Nat.eq_dec i i1 then qz 1 else qz 0 else qz 0) n) c2 i2.
Theorem C173_inside_refuted : exists n, cr_at 1 [0; 0; 0]%nat 1 [1; 0; 0]%nat n <> cr_at 1 [1; 0; 0]%nat 1 [0; 0; 0]%nat n.
Proof.
  exists 2%nat. intro X. apply (f_equal (fun x : Qc => (Qnum (this x), Qden (this x)))) in X. vm_compute in X. discriminate X.
Qed.
Print Assumptions C173_inside_refuted.

(** The layers of C123 (8 of 20 cells at both ends of axis 1) and two points between them. *)
Example C173_case : exists Ls, fitted [20; 20; 20]%nat (/ 2) Ls /\ (exists L, Ls 1%nat 0%nat = Some L /\ lth L = 8%nat) /\
  (forall a pp, (a < 3)%nat -> (pp < 2)%nat -> here (K := RF) [20; 20; 20]%nat Ls a pp [0; 9; 3]%nat = None /\ here (K := RF) [20; 20; 20]%nat Ls a pp [7; 11; 0]%nat = None) /\
  here (K := RF) [20; 20; 20]%nat Ls 1 0 [0; 7; 3]%nat <> None.
Proof.
  assert (A : forall pol : Z, (pol = -1 \/ pol = 1)%Z -> exists L : layer RF,
     cpml_params 1 pol (/ 2) 8 (-16) 1 1 (7/2) 1 0 = Ok (1%nat, (if Z.ltb pol 0 then 0 else 1)%nat, L) /\ lth L = 8%nat).
  { intros pol Hp. unfold cpml_params. cbn [Z.leb Z.ltb Z.compare andb negb].
    destruct Hp as [-> | ->]; cbn [Z.eqb orb Pos.eqb negb Z.compare Pos.compare Pos.compare_cont]; (destruct (Rle_dec 1 0); [lra|]); eexists; split; reflexivity. }
  destruct (A (-1)%Z (or_introl eq_refl)) as [L0 [E0 T0]]. destruct (A 1%Z (or_intror eq_refl)) as [L1 [E1 T1]]. cbn [Z.ltb Z.compare] in E0, E1.
  exists (fun a pp => match a, pp with 1%nat, 0%nat => Some L0 | 1%nat, 1%nat => Some L1 | _, _ => None end).
  split; [split; [|split]|split; [exists L0; split; trivial|split]].
  - intros a pp L X. destruct a as [|[|a]]; try discriminate X. destruct pp as [|[|pp]]; try discriminate X; injection X as <-.
    + exists 1%Z, (-1)%Z, 8%Z, (-16), 1, 1, (7/2), 1, 0. split; [repeat split; lra|exact E0].
    + exists 1%Z, 1%Z, 8%Z, (-16), 1, 1, (7/2), 1, 0. split; [repeat split; lra|exact E1].
  - intros a K0 K1 X Y. destruct a as [|[|a]]; try discriminate X. injection X as <-. injection Y as <-. rewrite T0, T1. cbn. lia.
  - intros a pp L X. destruct a as [|[|a]]; try discriminate X. destruct pp as [|[|pp]]; try discriminate X; injection X as <-; rewrite ?T0, ?T1; cbn; lia.
  - intros a pp Ha Hp. unfold here, inside. destruct a as [|[|[|a]]]; try lia; (destruct pp as [|[|pp]]; [| |lia]); try (split; reflexivity); rewrite ?T0, ?T1; split; reflexivity.
  - unfold here, inside. rewrite T0. discriminate.
Qed.
