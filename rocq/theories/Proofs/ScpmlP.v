From Coq Require Import Reals List Arith ZArith Lia Bool Field Lra Psatz.
From Verif.Lib Require Import Num Sums Idx RealF.
From Verif.Model Require Import Fdmath Fdfd FdtdReal Scpml.
From Verif.Spec Require Import ScpmlSpec.
From Verif.Proofs Require Import FdfdP2.
Local Open Scope fld_scope.

Section P.
  Variable K : CFld.
  Add Field Kfield : (fth K).
  Implicit Types (w f : nat -> K) (s : K -> K).

  Lemma span_sub f lo hi : (lo <= hi)%nat -> sumN hi f - sumN lo f = span f lo hi.
  Proof.
    intro H. unfold span. replace hi with (lo + (hi - lo))%nat at 1 by lia. rewrite sumN_app. ring.
  Qed.
  Lemma span_ext f g lo hi : (forall i, (lo <= i < hi)%nat -> f i = g i) -> span f lo hi = span g lo hi.
  Proof. intro H. unfold span. apply sumN_ext. intros i Hi. apply H. lia. Qed.

  Lemma slc_nonempty (front : bool) n th : (th <= n)%nat -> (0 < th)%nat ->
    existsb (fun i => if front then Nat.ltb i th else if Nat.eqb th 0 then true else Nat.leb (n - th) i) (seq 0 n) = true.
  Proof.
    intros H1 H2. apply existsb_exists. destruct front.
    - exists 0%nat. split; [apply in_seq; lia|]. now apply Nat.ltb_lt.
    - exists (n - 1)%nat. split; [apply in_seq; lia|]. destruct (Nat.eqb_spec th 0); [reflexivity|]. apply Nat.leb_le. lia.
  Qed.

  Lemma mid_aux (a x b : K) : (a + (a + x)) / 2 = a + x / 2.
  Proof. field. apply f2nz. Qed.

  (** The layer, in terms of the independent description. *)
  Lemma stretch_ok sqrt n (dxes : dx2 K) axis pol om eps th s :
    (axis < 3)%nat -> (0 < th <= n)%nat ->
    let front := Z.ltb 0 pol in
    let len := layer_len front n th (fst dxes axis) in
    let corr := sqrt eps * om in
    len <> 0 -> corr <> 0 ->
    exists out, stretch_with_scpml sqrt n dxes axis pol om eps th s = Fine out /\
      (forall b, b <> axis -> fst out b = fst dxes b /\ snd out b = snd dxes b) /\
      (forall i, (i < n)%nat -> in_layer front n th i ->
         fst out axis i = fst dxes axis i * stretch_factor s len corr (dist_mid front n th (fst dxes axis) i) /\
         snd out axis i = snd dxes axis i * stretch_factor s len corr (dist_edge front n th (fst dxes axis) i)) /\
      (forall i, (i < n)%nat -> ~ in_layer front n th i ->
         fst out axis i = fst dxes axis i /\ snd out axis i = snd dxes axis i).
  Proof.
    intros Ha Hth front len corr Hl Hc. unfold stretch_with_scpml.
    destruct (Nat.ltb_spec axis 3); [|lia]. cbn [negb]. destruct (Nat.ltb_spec n th); [lia|].
    fold front corr. set (w := fst dxes axis) in *.
    assert (Hd : (if front then sumN th w - sumN 0 w else sumN n w - sumN (n - th) w) = len).
    { unfold len, layer_len. destruct front; apply span_sub; lia. }
    rewrite slc_nonempty by lia. cbn [andb].
    destruct (feqb _ 0) eqn:E1.
    { exfalso. apply feqb_true in E1. apply Hl. rewrite <- E1. rewrite <- Hd. now destruct front. }
    destruct (feqb corr 0) eqn:E2; [exfalso; apply Hc; now apply feqb_true|]. cbn [orb].
    eexists. split; [reflexivity|]. unfold set_axis. cbn [fst snd]. rewrite Nat.eqb_refl. clear E1 E2.
    assert (Hd' : (if front then (if front then sumN th w else sumN (n - th) w) - sumN 0 w
                   else sumN n w - (if front then sumN th w else sumN (n - th) w)) = len).
    { rewrite <- Hd. now destruct front. }
    split; [|split].
    - intros b Hb. destruct (Nat.eqb_spec b axis); [contradiction|]. split; reflexivity.
    - intros i Hi Hin. rewrite Hd'. unfold stretch_factor.
      assert (Hs : (if front then Nat.ltb i th else if Nat.eqb th 0 then true else Nat.leb (n - th) i) = true).
      { unfold in_layer in Hin. destruct front; [now apply Nat.ltb_lt|]. destruct (Nat.eqb_spec th 0); [reflexivity|].
        apply Nat.leb_le. lia. }
      rewrite Hs.
      assert (A : forall x y : K, x = y -> 1 + im * s (x / len) / len / corr = 1 + im * s (y / len) / (len * corr)).
      { intros x y ->. field. now split. }
      assert (G : forall x y, (if front then (if front then sumN th w else sumN (n - th) w) - x
                               else x - (if front then sumN th w else sumN (n - th) w)) = y ->
         (if front then ((if front then sumN th w else sumN (n - th) w) - x)
                          / ((if front then sumN th w else sumN (n - th) w) - sumN 0 w)
          else (x - (if front then sumN th w else sumN (n - th) w)) / (sumN n w - (if front then sumN th w else sumN (n - th) w)))
         = y / len).
      { intros x y <-. rewrite <- Hd'. now destruct front. }
      split; f_equal.
      + rewrite (G _ (dist_mid front n th w i)).
        * now apply A.
        * cbn [sumN]. unfold dist_mid, in_layer in *. rewrite mid_aux by exact 0. destruct front.
          -- rewrite <- (span_sub w (S i) th) by lia. cbn [sumN]. field. apply f2nz.
          -- rewrite <- (span_sub w (n - th) i) by lia. ring.
      + rewrite (G _ (dist_edge front n th w i)).
        * now apply A.
        * unfold dist_edge, in_layer in *. destruct front; apply span_sub; lia.
    - intros i Hi Hin.
      assert (Hs : (if front then Nat.ltb i th else if Nat.eqb th 0 then true else Nat.leb (n - th) i) = false).
      { unfold in_layer in Hin. destruct front; [apply Nat.ltb_ge; lia|]. destruct (Nat.eqb_spec th 0); [lia|].
        apply Nat.leb_gt. lia. }
      rewrite Hs. split; reflexivity.
  Qed.

  Lemma stretch_front_zero sqrt n (dxes : dx2 K) axis pol om eps s :
    (axis < 3)%nat -> (0 < pol)%Z ->
    exists out, stretch_with_scpml sqrt n dxes axis pol om eps 0 s = Fine out /\
      forall b i, fst out b i = fst dxes b i /\ snd out b i = snd dxes b i.
  Proof.
    intros Ha Hp. unfold stretch_with_scpml. destruct (Nat.ltb_spec axis 3); [|lia]. cbn [negb].
    destruct (Nat.ltb_spec n 0); [lia|]. destruct (Z.ltb_spec 0 pol); [|lia].
    assert (E : existsb (fun i => Nat.ltb i 0) (seq 0 n) = false).
    { destruct (existsb _ _) eqn:E; [|reflexivity]. apply existsb_exists in E. destruct E as (x & _ & E). discriminate E. }
    rewrite E. cbn [andb]. eexists. split; [reflexivity|]. intros b i. unfold set_axis. cbn [fst snd].
    destruct (Nat.eqb_spec b axis) as [->|]; split; reflexivity.
  Qed.

  Lemma stretch_back_zero sqrt n (dxes : dx2 K) axis pol om eps s :
    (axis < 3)%nat -> (pol <= 0)%Z -> (0 < n)%nat ->
    stretch_with_scpml sqrt n dxes axis pol om eps 0 s = NotFinite.
  Proof.
    intros Ha Hp Hn. unfold stretch_with_scpml. destruct (Nat.ltb_spec axis 3); [|lia]. cbn [negb].
    destruct (Nat.ltb_spec n 0); [lia|]. destruct (Z.ltb_spec 0 pol); [lia|].
    assert (E : existsb (fun _ : nat => true) (seq 0 n) = true).
    { apply existsb_exists. exists 0%nat. split; [apply in_seq; lia|reflexivity]. }
    rewrite Nat.eqb_refl. rewrite E. cbn [andb]. replace (n - 0)%nat with n by lia.
    replace (feqb (sumN n (fst dxes axis) - sumN n (fst dxes axis)) 0) with true; [reflexivity|].
    symmetry. apply feqb_true. ring.
  Qed.

  (** Real widths keep their real part. *)
  Lemma factor_real (x sv len corr : K) :
    conj x = x -> conj sv = sv -> conj len = len -> conj corr = corr -> len <> 0 -> corr <> 0 ->
    let y := x * (1 + im * sv / (len * corr)) in (y + conj y) / 2 = x.
  Proof.
    intros Hx Hs Hl Hc Ll Lc y. unfold y. rewrite conj_mul, conj_add, conj_one, conj_div by now apply fmul_nz.
    rewrite !conj_mul, conj_im, Hx, Hs, Hl, Hc. field. repeat (split; try assumption). apply f2nz.
  Qed.

  Lemma conj_two : conj (2 : K) = 2.
  Proof. rewrite conj_add, conj_one. reflexivity. Qed.
  Lemma conj_quot (x y : K) : y <> 0 -> conj x = x -> conj y = y -> conj (x / y) = x / y.
  Proof. intros Hy Ex Ey. rewrite conj_div by exact Hy. now rewrite Ex, Ey. Qed.
  Lemma conj_half (x : K) : conj x = x -> conj (x / 2) = x / 2.
  Proof. intro H. apply conj_quot; [apply f2nz|exact H|apply conj_two]. Qed.
  Lemma self_half (x : K) : conj x = x -> (x + conj x) / 2 = x.
  Proof. intros ->. field. apply f2nz. Qed.

  Lemma layer_len_ext front n th w w' : (th <= n)%nat ->
    (forall i, in_layer front n th i -> w i = w' i) -> layer_len front n th w = layer_len front n th w'.
  Proof. intros H0 H. unfold layer_len, in_layer in *. destruct front; apply span_ext; intros i Hi; apply H; lia. Qed.
  Lemma dist_mid_ext front n th w w' i : (th <= n)%nat -> in_layer front n th i ->
    (forall i, in_layer front n th i -> w i = w' i) -> dist_mid front n th w i = dist_mid front n th w' i.
  Proof.
    intros H0 Hi H. unfold dist_mid. rewrite (H i Hi). unfold in_layer in *.
    destruct front; rewrite (span_ext w w') by (intros; apply H; lia); reflexivity.
  Qed.
  Lemma dist_edge_ext front n th w w' i : (th <= n)%nat -> in_layer front n th i ->
    (forall i, in_layer front n th i -> w i = w' i) -> dist_edge front n th w i = dist_edge front n th w' i.
  Proof.
    intros H0 Hi H. unfold dist_edge, in_layer in *.
    destruct front; rewrite (span_ext w w') by (intros; apply H; lia); reflexivity.
  Qed.

  Lemma in_layer_dec front n th i : {in_layer front n th i} + {~ in_layer front n th i}.
  Proof.
    unfold in_layer. destruct front; [destruct (lt_dec i th); tauto|].
    destruct (le_dec (n - th) i); [destruct (lt_dec i n)|]; tauto.
  Qed.

  (** One layer: axis, polarity, parameters. *)
  Record layer := MkLayer { l_axis : nat; l_pol : Z; l_om : K; l_eps : K; l_th : nat; l_s : K -> K }.
  Definition l_front (l : layer) : bool := Z.ltb 0 (l_pol l).
  Definition apply_layer (sqrt : K -> K) (n : nat -> nat) (l : layer) (dxes : dx2 K) : outcome (dx2 K) :=
    stretch_with_scpml sqrt (n (l_axis l)) dxes (l_axis l) (l_pol l) (l_om l) (l_eps l) (l_th l) (l_s l).
  Definition l_ok (sqrt : K -> K) (n : nat -> nat) (l : layer) (dxes : dx2 K) : Prop :=
    (l_axis l < 3)%nat /\ (0 < l_th l <= n (l_axis l))%nat /\
    layer_len (l_front l) (n (l_axis l)) (l_th l) (fst dxes (l_axis l)) <> 0 /\
    sqrt (l_eps l) * l_om l <> 0.
  Definition indep (n : nat -> nat) (l1 l2 : layer) : Prop :=
    l_axis l1 <> l_axis l2 \/
    (l_axis l1 = l_axis l2 /\ l_front l1 <> l_front l2 /\ (l_th l1 + l_th l2 <= n (l_axis l1))%nat).

  Lemma indep_sym n l1 l2 : indep n l1 l2 -> indep n l2 l1.
  Proof. unfold indep. intros [H|(H1 & H2 & H3)]; [now left; auto|]. right. rewrite <- H1. split; [reflexivity|]. split; [auto|lia]. Qed.

  Definition member (n : nat -> nat) (l : layer) (b i : nat) : Prop :=
    b = l_axis l /\ in_layer (l_front l) (n b) (l_th l) i.

  Lemma indep_disjoint n l1 l2 b i : indep n l1 l2 -> (l_th l1 <= n (l_axis l1))%nat -> member n l1 b i -> ~ member n l2 b i.
  Proof.
    intros [H|(H1 & H2 & H3)] Ht (-> & H5) (E & H6); [congruence|].
    unfold in_layer in *. destruct (l_front l1), (l_front l2); try congruence; lia.
  Qed.

  Definition val_a sqrt n l (dxes : dx2 K) i : K :=
    let a := l_axis l in
    fst dxes a i * stretch_factor (l_s l) (layer_len (l_front l) (n a) (l_th l) (fst dxes a)) (sqrt (l_eps l) * l_om l)
       (dist_mid (l_front l) (n a) (l_th l) (fst dxes a) i).
  Definition val_b sqrt n l (dxes : dx2 K) i : K :=
    let a := l_axis l in
    snd dxes a i * stretch_factor (l_s l) (layer_len (l_front l) (n a) (l_th l) (fst dxes a)) (sqrt (l_eps l) * l_om l)
       (dist_edge (l_front l) (n a) (l_th l) (fst dxes a) i).

  Lemma apply_ok sqrt (n : nat -> nat) l dxes : l_ok sqrt n l dxes ->
    exists out, apply_layer sqrt n l dxes = Fine out /\
      (forall b i, (i < n b)%nat -> member n l b i -> fst out b i = val_a sqrt n l dxes i /\ snd out b i = val_b sqrt n l dxes i) /\
      (forall b i, (i < n b)%nat -> ~ member n l b i -> fst out b i = fst dxes b i /\ snd out b i = snd dxes b i).
  Proof.
    intros (H1 & H2 & H3 & H4).
    destruct (stretch_ok sqrt _ dxes _ (l_pol l) (l_om l) (l_eps l) (l_th l) (l_s l) H1 H2 H3 H4) as (out & E & F1 & F2 & F3).
    exists out. split; [exact E|]. split.
    - intros b i Hi (-> & Hm). apply F2; assumption.
    - intros b i Hi Hm. destruct (Nat.eq_dec b (l_axis l)) as [->|Hb].
      + apply F3; [exact Hi|]. intro Hin. apply Hm. now split.
      + destruct (F1 b Hb) as [-> ->]. split; reflexivity.
  Qed.

  Lemma member_dec n l b i : {member n l b i} + {~ member n l b i}.
  Proof.
    unfold member. destruct (Nat.eq_dec b (l_axis l)) as [->|]; [|tauto].
    destruct (in_layer_dec (l_front l) (n (l_axis l)) (l_th l) i); tauto.
  Qed.

  Lemma two_layers sqrt n l1 l2 dxes : l_ok sqrt n l1 dxes -> l_ok sqrt n l2 dxes -> indep n l1 l2 ->
    exists o1 o12, apply_layer sqrt n l1 dxes = Fine o1 /\ apply_layer sqrt n l2 o1 = Fine o12 /\
      forall b i, (i < n b)%nat ->
        (member n l1 b i -> fst o12 b i = val_a sqrt n l1 dxes i /\ snd o12 b i = val_b sqrt n l1 dxes i) /\
        (member n l2 b i -> fst o12 b i = val_a sqrt n l2 dxes i /\ snd o12 b i = val_b sqrt n l2 dxes i) /\
        (~ member n l1 b i -> ~ member n l2 b i -> fst o12 b i = fst dxes b i /\ snd o12 b i = snd dxes b i).
  Proof.
    intros K1 K2 HI. destruct (apply_ok sqrt n l1 dxes K1) as (o1 & E1 & A1 & B1).
    pose proof K1 as (P1 & P2 & P3 & P4). pose proof K2 as (Q1 & Q2 & Q3 & Q4).
    assert (Same : forall i, in_layer (l_front l2) (n (l_axis l2)) (l_th l2) i ->
              fst o1 (l_axis l2) i = fst dxes (l_axis l2) i /\ snd o1 (l_axis l2) i = snd dxes (l_axis l2) i).
    { intros i Hi. apply B1.
      - unfold in_layer in Hi. destruct (l_front l2); lia.
      - intro M. refine (indep_disjoint n l1 l2 (l_axis l2) i HI _ M _); [lia|now split]. }
    assert (L : layer_len (l_front l2) (n (l_axis l2)) (l_th l2) (fst o1 (l_axis l2))
              = layer_len (l_front l2) (n (l_axis l2)) (l_th l2) (fst dxes (l_axis l2))).
    { apply layer_len_ext; [lia|]. intros i Hi. now apply Same. }
    assert (K2' : l_ok sqrt n l2 o1).
    { split; [exact Q1|]. split; [exact Q2|]. split; [|exact Q4]. now rewrite L. }
    destruct (apply_ok sqrt n l2 o1 K2') as (o12 & E2 & A2 & B2).
    exists o1, o12. split; [exact E1|]. split; [exact E2|]. intros b i Hi. split; [|split].
    - intro M. assert (M2 : ~ member n l2 b i) by (apply (indep_disjoint n l1 l2 b i HI); [lia|exact M]).
      destruct (B2 b i Hi M2) as [-> ->]. now apply A1.
    - intro M. destruct (A2 b i Hi M) as [-> ->]. destruct M as [-> M].
      unfold val_a, val_b. cbv zeta. rewrite L. destruct (Same i M) as [-> ->].
      rewrite (dist_mid_ext (l_front l2) (n (l_axis l2)) (l_th l2) (fst o1 (l_axis l2)) (fst dxes (l_axis l2)) i)
        by first [lia | exact M | intros; now apply Same].
      rewrite (dist_edge_ext (l_front l2) (n (l_axis l2)) (l_th l2) (fst o1 (l_axis l2)) (fst dxes (l_axis l2)) i)
        by first [lia | exact M | intros; now apply Same].
      split; reflexivity.
    - intros M1 M2. destruct (B2 b i Hi M2) as [-> ->]. now apply B1.
  Qed.

  Lemma layers_commute sqrt n l1 l2 dxes : l_ok sqrt n l1 dxes -> l_ok sqrt n l2 dxes -> indep n l1 l2 ->
    exists o1 o12 o2 o21, apply_layer sqrt n l1 dxes = Fine o1 /\ apply_layer sqrt n l2 o1 = Fine o12 /\
      apply_layer sqrt n l2 dxes = Fine o2 /\ apply_layer sqrt n l1 o2 = Fine o21 /\
      forall b i, (i < n b)%nat -> fst o12 b i = fst o21 b i /\ snd o12 b i = snd o21 b i.
  Proof.
    intros K1 K2 HI. destruct (two_layers sqrt n l1 l2 dxes K1 K2 HI) as (o1 & o12 & E1 & E2 & X).
    destruct (two_layers sqrt n l2 l1 dxes K2 K1 (indep_sym n l1 l2 HI)) as (o2 & o21 & E3 & E4 & Y).
    exists o1, o12, o2, o21. split; [exact E1|]. split; [exact E2|]. split; [exact E3|]. split; [exact E4|].
    intros b i Hi. destruct (X b i Hi) as (X1 & X2 & X3). destruct (Y b i Hi) as (Y1 & Y2 & Y3).
    destruct (member_dec n l1 b i) as [M1|M1]; [|destruct (member_dec n l2 b i) as [M2|M2]].
    - destruct (X1 M1) as [-> ->]. destruct (Y2 M1) as [-> ->]. split; reflexivity.
    - destruct (X2 M2) as [-> ->]. destruct (Y1 M2) as [-> ->]. split; reflexivity.
    - destruct (X3 M1 M2) as [-> ->]. destruct (Y3 M2 M1) as [-> ->]. split; reflexivity.
  Qed.
End P.

(** ** uniform_grid_scpml (over R) *)
Local Open Scope R_scope.

Lemma ll_sym u n t : ll (n - u) n t = ll u n t.
Proof.
  unfold ll. replace (t - (n - u)) with (u - (n - t)) by ring. replace (n - u - (n - t)) with (t - u) by ring.
  now rewrite Rplus_comm.
Qed.
Lemma ll_front u n t : 0 < t -> u <= t -> u <= n - t -> ll u n t = (t - u) / t.
Proof. intros. unfold ll. rewrite Rmax_left, Rmax_right by lra. field. lra. Qed.
Lemma ll_back u n t : 0 < t -> t <= u -> n - t <= u -> ll u n t = (u - (n - t)) / t.
Proof. intros. unfold ll. rewrite Rmax_right, Rmax_left by lra. field. lra. Qed.
Lemma ll_inside u n t : 0 < t -> t <= u -> u <= n - t -> ll u n t = 0.
Proof. intros. unfold ll. rewrite !Rmax_right by lra. field. lra. Qed.
Lemma ll_nonneg u n t : 0 < t -> 0 <= ll u n t.
Proof.
  intro H. unfold ll. apply Rmult_le_pos; [|left; now apply Rinv_0_lt_compat].
  pose proof (Rmax_r (t - u) 0). pose proof (Rmax_r (u - (n - t)) 0). lra.
Qed.
(** Toward the nearer edge the depth never decreases. *)
Lemma ll_mono u v n t : 0 < t -> u <= v -> v <= n / 2 -> ll v n t <= ll u n t.
Proof.
  intros Ht Huv Hv. unfold ll. apply Rmult_le_compat_r; [left; now apply Rinv_0_lt_compat|].
  unfold Rmax. destruct (Rle_dec (t - u) 0), (Rle_dec (t - v) 0), (Rle_dec (u - (n - t)) 0), (Rle_dec (v - (n - t)) 0); lra.
Qed.

Lemma rpow_le x y m : 0 <= x -> x <= y -> 0 < m -> rpow x m <= rpow y m.
Proof.
  intros Hx Hxy Hm. unfold rpow. destruct (Req_EM_T x 0), (Req_EM_T y 0); destruct (Req_EM_T m 0); try lra.
  - left. apply exp_pos.
  - unfold Rpower. destruct (Req_dec x y) as [->|]; [lra|]. left. apply exp_increasing.
    apply Rmult_lt_compat_l; [exact Hm|]. apply ln_increasing; lra.
Qed.
Lemma rpow_zero m : 0 < m -> rpow 0 m = 0.
Proof. intro. unfold rpow. destruct (Req_EM_T 0 0); [|lra]. destruct (Req_EM_T m 0); lra. Qed.

(** Unit-width grids. *)
Definition ones : nat -> CC := fun _ => mkC 1 0.
Lemma sumN_ones n : @sumN CC n ones = mkC (INR n) 0.
Proof.
  induction n as [|n IH]; [apply cpx_ext; reflexivity|]. cbn [sumN]. rewrite IH. rewrite S_INR.
  apply cpx_ext; cbn; ring.
Qed.
Lemma span_ones (w : nat -> CC) lo hi : (forall i, (lo <= i < hi)%nat -> w i = mkC 1 0) ->
  span w lo hi = mkC (INR (hi - lo)) 0.
Proof. intro H. rewrite <- sumN_ones. unfold span. apply sumN_ext. intros i Hi. rewrite H by lia. reflexivity. Qed.

Definition lift (f : R -> R) : CC -> CC := fun z : cpx => mkC (f (cre z)) 0.
Definition rsqrt : CC -> CC := lift sqrt.

Lemma cnrm_real a : cnrm (mkC a 0) = a * a.
Proof. unfold cnrm. cbn. ring. Qed.
Lemma cdiv_real a b : b <> 0 -> @fdiv CC (mkC a 0) (mkC b 0) = mkC (a / b) 0.
Proof. intro H. apply cpx_ext; cbn; rewrite cnrm_real; field; exact H. Qed.

Lemma factor_unit (f : R -> R) (len corr x : R) : len <> 0 -> corr <> 0 ->
  @fmul CC (mkC 1 0) (stretch_factor (K := CC) (lift f) (mkC len 0) (mkC corr 0) (mkC x 0))
  = mkC 1 (f (x / len) / (len * corr)).
Proof.
  intros Hl Hc. unfold stretch_factor. rewrite cdiv_real by exact Hl. unfold lift. cbn [cre].
  assert (Hlc : len * corr <> 0) by (now apply Rmult_integral_contrapositive).
  change (cmul (mkC 1 0) (cadd (mkC 1 0) (cdiv (cmul (mkC 0 1) (mkC (f (x / len)) 0)) (cmul (mkC len 0) (mkC corr 0))))
          = mkC 1 (f (x / len) / (len * corr))).
  replace (cmul (mkC len 0) (mkC corr 0)) with (mkC (len * corr) 0) by (apply cpx_ext; cbn; ring).
  apply cpx_ext; cbn; rewrite cnrm_real; field; tauto.
Qed.

Lemma c_half (x : R) : @fdiv CC (mkC x 0) (@fadd CC (mkC 1 0) (mkC 1 0)) = mkC (x / 2) 0.
Proof.
  change (cdiv (mkC x 0) (cadd (mkC 1 0) (mkC 1 0)) = mkC (x / 2) 0).
  replace (cadd (mkC 1 0) (mkC 1 0)) with (mkC 2 0) by (apply cpx_ext; cbn; ring).
  apply (cdiv_real x 2). lra.
Qed.

(** The two layers of a unit grid. *)
Lemma unit_layers (n th : nat) (om eps : R) (f : R -> R) (a : nat) (d : dx2 CC) :
  (a < 3)%nat -> (0 < th)%nat -> (2 * th <= n)%nat -> sqrt eps * om <> 0 ->
  (forall i, fst d a i = mkC 1 0) -> (forall i, snd d a i = mkC 1 0) ->
  exists o1 o2,
    stretch_with_scpml (K := CC) rsqrt n d a 1 (mkC om 0) (mkC eps 0) th (lift f) = Fine o1 /\
    stretch_with_scpml (K := CC) rsqrt n o1 a (-1) (mkC om 0) (mkC eps 0) th (lift f) = Fine o2 /\
    forall i, (i < n)%nat ->
      let t := INR th in let corr := sqrt eps * om in
      ((i < th)%nat -> fst o2 a i = mkC 1 (f ((t - (INR i + / 2)) / t) / (t * corr))
                       /\ snd o2 a i = mkC 1 (f ((t - INR i) / t) / (t * corr))) /\
      ((n - th <= i)%nat -> fst o2 a i = mkC 1 (f ((INR i + / 2 - (INR n - t)) / t) / (t * corr))
                       /\ snd o2 a i = mkC 1 (f ((INR i - (INR n - t)) / t) / (t * corr))) /\
      ((th <= i)%nat -> (i < n - th)%nat -> fst o2 a i = mkC 1 0 /\ snd o2 a i = mkC 1 0).
Proof.
  intros Ha Ht Hn Hc D1 D2.
  set (l1 := MkLayer CC a 1 (mkC om 0) (mkC eps 0) th (lift f)).
  set (l2 := MkLayer CC a (-1) (mkC om 0) (mkC eps 0) th (lift f)).
  assert (Tnz : INR th <> 0) by (apply not_0_INR; lia).
  assert (C : @fmul CC (rsqrt (mkC eps 0)) (mkC om 0) = mkC (sqrt eps * om) 0).
  { apply cpx_ext; cbn; ring. }
  assert (L1 : layer_len true n th (fst d a) = mkC (INR th) 0).
  { unfold layer_len. rewrite span_ones by (intros; apply D1). now rewrite Nat.sub_0_r. }
  assert (L2 : layer_len false n th (fst d a) = mkC (INR th) 0).
  { unfold layer_len. rewrite span_ones by (intros; apply D1). now replace (n - (n - th))%nat with th by lia. }
  assert (NZ : forall r, r <> 0 -> (mkC r 0 : CC) <> @f0 CC).
  { intros r Hr E. apply Hr. now apply (f_equal cre) in E. }
  assert (K1 : l_ok CC rsqrt (fun _ => n) l1 d).
  { split; [exact Ha|]. split; [cbn; lia|]. split; [|].
    - change (layer_len true n th (fst d a) <> @f0 CC). rewrite L1. now apply NZ.
    - change (@fmul CC (rsqrt (mkC eps 0)) (mkC om 0) <> @f0 CC). rewrite C. now apply NZ. }
  assert (K2 : l_ok CC rsqrt (fun _ => n) l2 d).
  { split; [exact Ha|]. split; [cbn; lia|]. split; [|].
    - change (layer_len false n th (fst d a) <> @f0 CC). rewrite L2. now apply NZ.
    - change (@fmul CC (rsqrt (mkC eps 0)) (mkC om 0) <> @f0 CC). rewrite C. now apply NZ. }
  assert (I : indep CC (fun _ => n) l1 l2).
  { right. split; [reflexivity|]. split; [discriminate|]. cbn. lia. }
  destruct (two_layers CC rsqrt (fun _ => n) l1 l2 d K1 K2 I) as (o1 & o2 & E1 & E2 & X).
  exists o1, o2. split; [exact E1|]. split; [exact E2|]. intros i Hi t corr.
  destruct (X a i Hi) as (X1 & X2 & X3).
  assert (HH : forall x y : R, @fadd CC (mkC x 0) (mkC y 0) = mkC (x + y) 0).
  { intros. apply cpx_ext; cbn; ring. }
  split; [|split].
  - intro Hl. destruct X1 as [-> ->]; [split; [reflexivity|exact Hl]|].
    unfold val_a, val_b, l1, l_front. cbn [l_axis l_s l_eps l_om l_th l_pol]. change (Z.ltb 0 1) with true. cbv zeta.
    rewrite L1, C, D1, D2. unfold dist_mid, dist_edge. rewrite D1.
    rewrite !span_ones by (intros; apply D1).
    change (@fdiv CC (mkC 1 0) (@fadd CC (@f1 CC) (@f1 CC))) with (@fdiv CC (mkC 1 0) (@fadd CC (mkC 1 0) (mkC 1 0))).
    rewrite c_half, HH, !factor_unit by assumption.
    fold t corr. split; f_equal; f_equal; f_equal; f_equal; rewrite minus_INR by lia; rewrite ?S_INR; fold t; lra.
  - intro Hl. destruct X2 as [-> ->]; [split; [reflexivity|cbn; lia]|].
    unfold val_a, val_b, l2, l_front. cbn [l_axis l_s l_eps l_om l_th l_pol]. change (Z.ltb 0 (-1)) with false. cbv zeta.
    rewrite L2, C, D1, D2. unfold dist_mid, dist_edge. rewrite D1.
    rewrite !span_ones by (intros; apply D1).
    change (@fdiv CC (mkC 1 0) (@fadd CC (@f1 CC) (@f1 CC))) with (@fdiv CC (mkC 1 0) (@fadd CC (mkC 1 0) (mkC 1 0))).
    rewrite c_half, HH, !factor_unit by assumption.
    fold t corr. split; f_equal; f_equal; f_equal; f_equal; rewrite !minus_INR by lia; fold t; lra.
  - intros H1 H2. destruct X3 as [-> ->]; [| |now rewrite D1, D2].
    + intros [_ M]. cbn in M. lia.
    + intros [_ M]. cbn in M. lia.
Qed.
