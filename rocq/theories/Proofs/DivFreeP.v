(** Fields without divergence are curls plus uniform fields (C174). *)
From Coq Require Import List Arith ZArith Lia Field.
From Verif.Lib Require Import Num Sums Idx Mat Elim Dft.
From Verif.Model Require Import Fdmath Fdtd.
From Verif.Spec Require Import Grid Yee FdtdRun.
From Verif.Proofs Require Import FdmathP FdmathP2 GridP FdfdP HarmonicP PotentialP.
Import ListNotations.

Section Range.
  Variable K : Fld.
  Add Field Kfield : (fth K).
  Local Open Scope fld_scope.

  (** A x = b has a solution, or a combination of the rows of A vanishes and the one of b does not. *)
  Lemma range_or m : forall n (A : mat K) (b : vect K),
    (exists x, forall i, (i < m)%nat -> mv n A x i = b i) \/
    (exists y, (forall j, (j < n)%nat -> sumN m (fun i => y i * A i j) = 0) /\ sumN m (fun i => y i * b i) <> 0).
  Proof.
    induction m as [|m IH]; intros n A b.
    - left. exists (fun _ => 0). intros i Hi. lia.
    - destruct (zero_or_not K n (A m)) as [Z | (p & Hp & N)].
      + destruct (feq_dec (b m) 0) as [Eb|Eb].
        * destruct (IH n A b) as [(x & Hx)|(y & Y0 & Y1)].
          -- left. exists x. intros i Hi. destruct (Nat.eq_dec i m) as [->|]; [|apply Hx; lia].
             rewrite Eb. apply sumN_zero. intros j Hj. rewrite Z by exact Hj. ring.
          -- right. exists y. split.
             ++ intros j Hj. cbn [sumN]. rewrite (Y0 j Hj), (Z j Hj). ring.
             ++ cbn [sumN]. rewrite Eb. intro E. apply Y1. rewrite <- E. ring.
        * right. exists (fun i => ind (i =? m)%nat). split.
          -- intros j Hj. rewrite (sumN_ind_l K (S m) m (fun i => A i j)) by lia. apply Z, Hj.
          -- rewrite (sumN_ind_l K (S m) m b) by lia. exact Eb.
      + destruct n as [|n]; [lia|]. destruct (IH n (elim K p m A) (fun i => b i - A i p * b m / A m p)) as [(y & Y)|(y & Y0 & Y1)].
        * left. set (x := fun k => if (k =? p)%nat then (b m - sumN n (fun j => A m (skip p j) * y j)) / A m p else y (unskip p k)).
          assert (Xs : forall q, x (skip p q) = y q). { intro q. unfold x. destruct (Nat.eqb_spec (skip p q) p) as [Q|_]; [now apply skip_ne in Q|]. now rewrite unskip_skip. }
          assert (Xv : forall i, mv (S n) A x i = A i p * ((b m - sumN n (fun j => A m (skip p j) * y j)) / A m p) + sumN n (fun j => A i (skip p j) * y j)).
          { intro i. unfold mv. rewrite (sumN_skip K n p) by exact Hp. unfold x at 1. rewrite Nat.eqb_refl. f_equal. apply sumN_ext. intros j _. now rewrite Xs. }
          exists x. intros i Hi. rewrite Xv. destruct (Nat.eq_dec i m) as [->|Ni]; [field; exact N|].
          pose proof (Y i ltac:(lia)) as E. unfold mv, elim in E.
          rewrite (sumN_ext K n _ (fun j => A i (skip p j) * y j - (A i p / A m p) * (A m (skip p j) * y j))) in E by (intros; field; exact N).
          rewrite sumN_sub, sumN_mul_l in E.
          transitivity ((sumN n (fun j => A i (skip p j) * y j) - A i p / A m p * sumN n (fun j => A m (skip p j) * y j)) + A i p * b m / A m p); [field; exact N|].
          rewrite E. ring.
        * right. set (t := sumN m (fun i => y i * A i p)). exists (fun i => if (i =? m)%nat then - t / A m p else y i).
          assert (Sm : forall f : nat -> K, sumN (S m) (fun i => (if (i =? m)%nat then - t / A m p else y i) * f i) = sumN m (fun i => y i * f i) - t / A m p * f m).
          { intro f. cbn [sumN]. rewrite Nat.eqb_refl. rewrite (sumN_ext K m _ (fun i => y i * f i)); [field; exact N|]. intros i Hi. destruct (Nat.eqb_spec i m); [lia|reflexivity]. }
          assert (El : forall f g : nat -> K, (forall i, (i < m)%nat -> g i = f i - A i p * f m / A m p) -> sumN m (fun i => y i * f i) - t / A m p * f m = sumN m (fun i => y i * g i)).
          { intros f g G. rewrite (sumN_ext K m (fun i => y i * g i) (fun i => y i * f i - (y i * A i p) * (f m / A m p))) by (intros i Hi; rewrite (G i Hi); field; exact N).
            rewrite sumN_sub, sumN_mul_r. fold t. field. exact N. }
          split.
          -- intros j Hj. rewrite Sm. destruct (Nat.eq_dec j p) as [->|Nj]; [fold t; field; exact N|].
             rewrite (El (fun i => A i j) (fun i => elim K p m A i (unskip p j))); [apply Y0; now apply unskip_lt|].
             intros i Hi. unfold elim. now rewrite skip_unskip.
          -- rewrite Sm, (El b (fun i => b i - A i p * b m / A m p)); [exact Y1|reflexivity].
  Qed.

  Variable sh : list nat.
  Hypothesis HL : length sh = 3%nat.
  Notation n := (3 * prodl sh)%nat.

  Lemma unvec_flat (x : vect K) c i : (c < 3)%nat -> inb sh i -> unvec sh x c i = x (c * prodl sh + ravel sh i)%nat.
  Proof. reflexivity. Qed.
  Lemma fsum_flat (x : vect K) : sumN n x = fsum sh (unvec sh x).
  Proof.
    rewrite sumN_prod. unfold fsum. cbn [sumN].
    rewrite !(gsum_flat' K sh). unfold unvec.
    transitivity (gsum sh (fun idx => x (0 * prodl sh + ravel sh idx)%nat)
       + gsum sh (fun idx => x (1 * prodl sh + ravel sh idx)%nat)
       + gsum sh (fun idx => x (2 * prodl sh + ravel sh idx)%nat)); [ring|reflexivity].
  Qed.
  Lemma vol_e_nz (we wh : widths K) c i : nzw sh we -> nzw sh wh -> inb sh i -> vol_e we wh c i <> 0.
  Proof.
    intros Ne Nh Hi. assert (C : forall (w : widths K) a, nzw sh w -> (a < 3)%nat -> w a (coord i a) <> 0) by (intros w a Nw Ha; apply Nw; [lia|apply inb_coord; [exact Hi|lia]]).
    assert (M : forall x y : K, x <> 0 -> y <> 0 -> x * y <> 0). { intros x y X Y E. apply X. transitivity (x * y / y); [field; exact Y|]. rewrite E. field. exact Y. }
    destruct c as [|[|c]]; unfold vol_e, vol3; repeat apply M; apply C; (assumption || lia).
  Qed.

  Lemma sumN_unit (c : nat) i (Hc : (c < 3)%nat) (Hi : inb sh i) (f : field K) :
    fsum sh (fun c' i' => (if (c' =? c)%nat then ind (ravel sh i' =? ravel sh i)%nat else 0) * f c' i') = f c i.
  Proof.
    assert (G : forall c', gsum sh (fun i' => (if (c' =? c)%nat then ind (ravel sh i' =? ravel sh i)%nat else 0) * f c' i') = if (c' =? c)%nat then f c i else 0).
    { intro c'. destruct (Nat.eqb_spec c' c) as [->|].
      - rewrite (gsum_single K sh i); [rewrite Nat.eqb_refl; unfold ind; ring|exact Hi|]. intros i' Hi' Ne. destruct (Nat.eqb_spec (ravel sh i') (ravel sh i)) as [E|]; [|unfold ind; ring].
        exfalso. apply Ne. rewrite <- (unravel_ravel sh i' Hi'), E. now apply unravel_ravel.
      - apply gsum_zero. intros. ring. }
    unfold fsum. rewrite !G. destruct c as [|[|[|c]]]; cbn [Nat.eqb]; try lia; ring.
  Qed.

  (** Both curls at once: C and C' are adjoint for the weights v and v'. *)
  Lemma range_gen (C C' : field K -> field K) (M : mat K) (v v' : nat -> list nat -> K) (D : field K) :
    (forall F c p, (c < 3)%nat -> (p < prodl sh)%nat -> mv n M (vec sh F) (c * prodl sh + p)%nat = C F c (unravel sh p)) ->
    (forall E H : field K, fsum sh (fun c i => v c i * (E c i * C H c i)) = fsum sh (fun c i => v' c i * (H c i * C' E c i))) ->
    (forall c i, (c < 3)%nat -> inb sh i -> v c i <> 0) -> (forall c i, (c < 3)%nat -> inb sh i -> v' c i <> 0) ->
    (forall psi, feq sh (C' psi) (fun _ _ => 0) -> fsum sh (fun c i => v c i * (psi c i * D c i)) = 0) ->
    exists h, feq sh (C h) D.
  Proof.
    intros Ag Ad V V' O. destruct (range_or n n M (vec sh D)) as [(x & X)|(y & Y0 & Y1)].
    - exists (unvec sh x). intros c i Hc Hi. pose proof (ravel_lt sh i Hi) as Hr. pose proof (Ag (unvec sh x) c (ravel sh i) Hc Hr) as A. rewrite unravel_ravel in A by exact Hi.
      rewrite <- A. rewrite (mv_ext_v K n M (vec sh (unvec sh x)) x) by (intros j Hj; now apply (vec_unvec K sh 3)).
      rewrite X by nia. now apply vec_offset.
    - exfalso. apply Y1. set (psi := fun c i => unvec sh y c i / v c i).
      assert (P : forall H : field K, fsum sh (fun c i => v' c i * (H c i * C' psi c i)) = 0).
      { intro H. rewrite <- Ad. transitivity (sumN n (fun r => y r * mv n M (vec sh H) r)).
        - rewrite fsum_flat. unfold fsum. assert (G : forall c, (c < 3)%nat -> gsum sh (fun i => v c i * (psi c i * C H c i)) = gsum sh (unvec sh (fun r => y r * mv n M (vec sh H) r) c)).
          { intros c Hc. apply gsum_ext. intros i Hi. unfold psi. rewrite !unvec_flat by assumption. rewrite (Ag H c (ravel sh i) Hc (ravel_lt sh i Hi)), unravel_ravel by exact Hi. field. now apply V. }
          now rewrite !G by lia.
        - unfold mv. rewrite (sumN_ext K n _ (fun r => sumN n (fun j => y r * M r j * vec sh H j))) by (intros r _; rewrite <- sumN_mul_l; apply sumN_ext; intros; ring).
          rewrite sumN_swap. apply sumN_zero. intros j Hj. rewrite sumN_mul_r, (Y0 j Hj). ring. }
      assert (Z : feq sh (C' psi) (fun _ _ => 0)).
      { intros c i Hc Hi. pose proof (P (fun c' i' => if (c' =? c)%nat then ind (ravel sh i' =? ravel sh i)%nat else 0)) as Q.
        assert (E : v' c i * C' psi c i = 0).
        { rewrite <- Q. rewrite <- (sumN_unit c i Hc Hi (fun c i => v' c i * C' psi c i)). unfold fsum. f_equal; [f_equal|]; apply gsum_ext; intros; ring. }
        transitivity (v' c i * C' psi c i / v' c i); [field; now apply V'|]. rewrite E. field. now apply V'. }
      rewrite <- (O psi Z). rewrite fsum_flat. unfold fsum.
      assert (G : forall c, (c < 3)%nat -> gsum sh (unvec sh (fun i => y i * vec sh D i) c) = gsum sh (fun i => v c i * (psi c i * D c i))).
      { intros c Hc. apply gsum_ext. intros i Hi. unfold psi. rewrite !unvec_flat by assumption. rewrite (vec_offset K sh D c i Hi). field. now apply V. }
      now rewrite !G by lia.
  Qed.

  Variables we wh : widths K.
  (** The volume of the grid as a product. *)
  Lemma vol_total (w0 w1 w2 : widths K) : gsum sh (vol3 w0 w1 w2) = sumN (dim sh 0) (w0 0%nat) * sumN (dim sh 1) (w1 1%nat) * sumN (dim sh 2) (w2 2%nat).
  Proof.
    destruct sh as [|a [|b [|c [|? ?]]]]; try discriminate. cbn [gsum]. unfold vol3, coord. cbn [nth].
    rewrite (sumN_ext K a _ (fun i => w0 0%nat i * (sumN b (w1 1%nat) * sumN c (w2 2%nat)))).
    - rewrite sumN_mul_r. change (dim [a; b; c] 0) with a. change (dim [a; b; c] 1) with b. change (dim [a; b; c] 2) with c. ring.
    - intros i _. rewrite (sumN_ext K b _ (fun j => w1 1%nat j * (w0 0%nat i * sumN c (w2 2%nat)))); [rewrite sumN_mul_r; ring|].
      intros j _. rewrite (sumN_ext K c _ (fun l => w2 2%nat l * (w0 0%nat i * w1 1%nat j))) by (intros; ring). rewrite sumN_mul_r. ring.
  Qed.
  Lemma div_b_ext (F G : field K) i : inb sh i -> feq sh F G -> div_b sh (Some (we, wh)) F i = div_b sh (Some (we, wh)) G i.
  Proof.
    intros Hi E. unfold div_b. to_model. f_equal; [f_equal|]; apply deriv_back_ext; try lia; try exact Hi; intros; apply E; (lia || assumption).
  Qed.
  Lemma div_f_ext (F G : field K) i : inb sh i -> feq sh F G -> div_f sh (Some (we, wh)) F i = div_f sh (Some (we, wh)) G i.
  Proof.
    intros Hi E. unfold div_f. to_model. f_equal; [f_equal|]; apply deriv_forward_ext; try lia; try exact Hi; intros; apply E; (lia || assumption).
  Qed.

  Hypothesis Ne : nzw sh we.
  Hypothesis Nh : nzw sh wh.

  Lemma grad_sum_back (phi : arr K) (k : nat -> K) (D : field K) :
    fsum sh (fun c i => vol_e we wh c i * ((deriv_forward sh (Some we) c phi i + k c) * D c i))
    = - gsum sh (fun i => vol3 wh wh wh i * (phi i * div_b sh (Some (we, wh)) D i)) + csum (fun c => k c * gsum sh (fun i => vol_e we wh c i * D c i)).
  Proof.
    assert (P : forall c, (c < 3)%nat -> gsum sh (fun i => vol_e we wh c i * ((deriv_forward sh (Some we) c phi i + k c) * D c i))
      = - gsum sh (fun i => vol3 wh wh wh i * (phi i * deriv_back sh (Some wh) c (D c) i)) + k c * gsum sh (fun i => vol_e we wh c i * D c i)).
    { intros c Hc. set (W := fun i : list nat => match c with 0%nat => wh 1%nat (coord i 1) * wh 2%nat (coord i 2) | 1%nat => wh 0%nat (coord i 0) * wh 2%nat (coord i 2) | _ => wh 0%nat (coord i 0) * wh 1%nat (coord i 1) end).
      rewrite <- gsum_mul_l.
      transitivity (gsum sh (fun i => W i * we c (coord i c) * (D c i * deriv_forward sh (Some we) c phi i)) + gsum sh (fun x => k c * (vol_e we wh c x * D c x))).
      - rewrite <- gsum_add. apply gsum_ext. intros i _. unfold W, vol_e, vol3. destruct c as [|[|[|c]]]; [| | |lia]; ring.
      - f_equal. rewrite (sum_by_parts K sh c we wh W phi (D c) ltac:(lia)).
        + f_equal. apply gsum_ext. intros i _. unfold W, vol3. destruct c as [|[|[|c]]]; [| | |lia]; ring.
        + intros i _. unfold W. destruct c as [|[|[|c]]]; [| | |lia]; rewrite !coord_shift_other by lia; reflexivity.
        + intros i Hi. apply Ne; [lia|exact Hi].
        + intros i Hi. apply Nh; [lia|exact Hi]. }
    unfold fsum. rewrite !P by lia. unfold csum.
    rewrite (gsum_ext sh (fun i => vol3 wh wh wh i * (phi i * div_b sh (Some (we, wh)) D i)) (fun i => (vol3 wh wh wh i * (phi i * deriv_back sh (Some wh) 0 (D 0%nat) i) + vol3 wh wh wh i * (phi i * deriv_back sh (Some wh) 1 (D 1%nat) i)) + vol3 wh wh wh i * (phi i * deriv_back sh (Some wh) 2 (D 2%nat) i))).
    - rewrite !gsum_add. ring.
    - intros i _. unfold div_b. to_model. cbn [option_map snd]. ring.
  Qed.
  Lemma grad_sum_fwd (phi : arr K) (k : nat -> K) (D : field K) :
    fsum sh (fun c i => vol_h we wh c i * ((deriv_back sh (Some wh) c phi i + k c) * D c i))
    = - gsum sh (fun i => vol3 we we we i * (phi i * div_f sh (Some (we, wh)) D i)) + csum (fun c => k c * gsum sh (fun i => vol_h we wh c i * D c i)).
  Proof.
    assert (P : forall c, (c < 3)%nat -> gsum sh (fun i => vol_h we wh c i * ((deriv_back sh (Some wh) c phi i + k c) * D c i))
      = - gsum sh (fun i => vol3 we we we i * (phi i * deriv_forward sh (Some we) c (D c) i)) + k c * gsum sh (fun i => vol_h we wh c i * D c i)).
    { intros c Hc. set (W := fun i : list nat => match c with 0%nat => we 1%nat (coord i 1) * we 2%nat (coord i 2) | 1%nat => we 0%nat (coord i 0) * we 2%nat (coord i 2) | _ => we 0%nat (coord i 0) * we 1%nat (coord i 1) end).
      rewrite <- gsum_mul_l.
      transitivity (gsum sh (fun i => W i * wh c (coord i c) * (D c i * deriv_back sh (Some wh) c phi i)) + gsum sh (fun x => k c * (vol_h we wh c x * D c x))).
      - rewrite <- gsum_add. apply gsum_ext. intros i _. unfold W, vol_h, vol_e, vol3. destruct c as [|[|[|c]]]; [| | |lia]; ring.
      - f_equal. pose proof (sum_by_parts K sh c we wh W (D c) phi ltac:(lia)) as Q.
        transitivity (- - gsum sh (fun i => W i * wh c (coord i c) * (D c i * deriv_back sh (Some wh) c phi i))); [ring|]. rewrite <- Q.
        + f_equal. apply gsum_ext. intros i _. unfold W, vol3. destruct c as [|[|[|c]]]; [| | |lia]; ring.
        + intros i _. unfold W. destruct c as [|[|[|c]]]; [| | |lia]; rewrite !coord_shift_other by lia; reflexivity.
        + intros i Hi. apply Ne; [lia|exact Hi].
        + intros i Hi. apply Nh; [lia|exact Hi]. }
    unfold fsum. rewrite !P by lia. unfold csum.
    rewrite (gsum_ext sh (fun i => vol3 we we we i * (phi i * div_f sh (Some (we, wh)) D i)) (fun i => (vol3 we we we i * (phi i * deriv_forward sh (Some we) 0 (D 0%nat) i) + vol3 we we we i * (phi i * deriv_forward sh (Some we) 1 (D 1%nat) i)) + vol3 we we we i * (phi i * deriv_forward sh (Some we) 2 (D 2%nat) i))).
    - rewrite !gsum_add. ring.
    - intros i _. unfold div_f. to_model. cbn [option_map fst]. ring.
  Qed.

  Hypothesis Se : forall a, (a < 3)%nat -> sumN (dim sh a) (we a) <> 0.
  Hypothesis Sh : forall a, (a < 3)%nat -> sumN (dim sh a) (wh a) <> 0.

  Lemma uniform_curl_f (k : nat -> K) c i : curl_forward sh (Some we) (fun c _ => k c) c i = 0.
  Proof. unfold curl_forward, curl_with. destruct c as [|[|[|c]]]; unfold deriv_forward, roll; try reflexivity; rewrite !(Fdiv_def (fth K)); ring. Qed.
  Lemma uniform_curl_b (k : nat -> K) c i : curl_back sh (Some wh) (fun c _ => k c) c i = 0.
  Proof. unfold curl_back, curl_with. destruct c as [|[|[|c]]]; unfold deriv_back, roll; try reflexivity; rewrite !(Fdiv_def (fth K)); ring. Qed.

  Lemma curl_total_b (h : field K) c : (c < 3)%nat -> gsum sh (fun i => vol_e we wh c i * curl_back sh (Some wh) h c i) = 0.
  Proof.
    intro Hc. pose proof (curl_adjoint K sh we wh (fun c' _ => ind (c' =? c)%nat) h HL Ne Nh) as Q.
    assert (Z : fsum sh (fun c' i => vol_h we wh c' i * (h c' i * curl_forward sh (Some we) (fun c' _ => ind (c' =? c)%nat) c' i)) = 0).
    { unfold fsum. rewrite !gsum_zero; [ring| | |]; intros; rewrite (uniform_curl_f (fun c' => ind (c' =? c)%nat)); ring. }
    rewrite Z in Q. rewrite Q. unfold fsum.
    assert (G : forall c', gsum sh (fun i => vol_e we wh c' i * (ind (c' =? c)%nat * curl_back sh (Some wh) h c' i)) = if (c' =? c)%nat then gsum sh (fun i => vol_e we wh c i * curl_back sh (Some wh) h c i) else 0).
    { intro c'. destruct (Nat.eqb_spec c' c) as [->|]; [apply gsum_ext; intros; unfold ind; ring|apply gsum_zero; intros; unfold ind; ring]. }
    rewrite !G. destruct c as [|[|[|c]]]; [| | |lia]; cbn [Nat.eqb]; ring.
  Qed.
  Lemma curl_total_f (e : field K) c : (c < 3)%nat -> gsum sh (fun i => vol_h we wh c i * curl_forward sh (Some we) e c i) = 0.
  Proof.
    intro Hc. pose proof (curl_adjoint K sh we wh e (fun c' _ => ind (c' =? c)%nat) HL Ne Nh) as Q.
    assert (Z : fsum sh (fun c' i => vol_e we wh c' i * (e c' i * curl_back sh (Some wh) (fun c' _ => ind (c' =? c)%nat) c' i)) = 0).
    { unfold fsum. rewrite !gsum_zero; [ring| | |]; intros; rewrite (uniform_curl_b (fun c' => ind (c' =? c)%nat)); ring. }
    rewrite Z in Q. rewrite <- Q. unfold fsum.
    assert (G : forall c', gsum sh (fun i => vol_h we wh c' i * (ind (c' =? c)%nat * curl_forward sh (Some we) e c' i)) = if (c' =? c)%nat then gsum sh (fun i => vol_h we wh c i * curl_forward sh (Some we) e c i) else 0).
    { intro c'. destruct (Nat.eqb_spec c' c) as [->|]; [apply gsum_ext; intros; unfold ind; ring|apply gsum_zero; intros; unfold ind; ring]. }
    rewrite !G. destruct c as [|[|[|c]]]; [| | |lia]; cbn [Nat.eqb]; ring.
  Qed.

  Theorem range_back (D : field K) :
    (exists h, feq sh (curl_back sh (Some wh) h) D) <->
    (forall i, inb sh i -> div_b sh (Some (we, wh)) D i = 0) /\ (forall c, (c < 3)%nat -> gsum sh (fun i => vol_e we wh c i * D c i) = 0).
  Proof.
    split.
    - intros (h & E). split.
      + intros i Hi. rewrite <- (div_b_ext _ _ i Hi E). unfold div_b. to_model. cbn [option_map snd]. apply div_curl_back.
      + intros c Hc. rewrite <- (curl_total_b h c Hc). apply gsum_ext. intros i Hi. now rewrite (E c i Hc Hi).
    - intros (Dv & T). apply (range_gen (curl_back sh (Some wh)) (curl_forward sh (Some we)) (curl_back_mat sh wh) (vol_e we wh) (vol_h we wh) D).
      + intros F c p Hc Hp. now apply curl_back_agree.
      + intros E H. symmetry. now apply curl_adjoint.
      + intros. now apply vol_e_nz.
      + intros. now apply vol_e_nz.
      + intros psi P. destruct (no_curl_forward K sh HL we psi Ne Se P) as (phi & k & Q).
        transitivity (fsum sh (fun c i => vol_e we wh c i * ((deriv_forward sh (Some we) c phi i + k c) * D c i))).
        { unfold fsum. f_equal; [f_equal|]; apply gsum_ext; intros i Hi; rewrite Q by (lia || exact Hi); reflexivity. }
        rewrite grad_sum_back. unfold csum. rewrite !T by lia. rewrite gsum_zero; [ring|]. intros i Hi. rewrite (Dv i Hi). ring.
  Qed.
  Theorem range_fwd (B : field K) :
    (exists e, feq sh (curl_forward sh (Some we) e) B) <->
    (forall i, inb sh i -> div_f sh (Some (we, wh)) B i = 0) /\ (forall c, (c < 3)%nat -> gsum sh (fun i => vol_h we wh c i * B c i) = 0).
  Proof.
    split.
    - intros (h & E). split.
      + intros i Hi. rewrite <- (div_f_ext _ _ i Hi E). unfold div_f. to_model. cbn [option_map fst]. apply div_curl_forward.
      + intros c Hc. rewrite <- (curl_total_f h c Hc). apply gsum_ext. intros i Hi. now rewrite (E c i Hc Hi).
    - intros (Dv & T). apply (range_gen (curl_forward sh (Some we)) (curl_back sh (Some wh)) (curl_forward_mat sh we) (vol_h we wh) (vol_e we wh) B).
      + intros F c p Hc Hp. now apply curl_forward_agree.
      + intros H E. now apply curl_adjoint.
      + intros. now apply vol_e_nz.
      + intros. now apply vol_e_nz.
      + intros psi P. destruct (no_curl_back K sh HL wh psi Nh Sh P) as (phi & k & Q).
        transitivity (fsum sh (fun c i => vol_h we wh c i * ((deriv_back sh (Some wh) c phi i + k c) * B c i))).
        { unfold fsum. f_equal; [f_equal|]; apply gsum_ext; intros i Hi; rewrite Q by (lia || exact Hi); reflexivity. }
        rewrite grad_sum_fwd. unfold csum. rewrite !T by lia. rewrite gsum_zero; [ring|]. intros i Hi. rewrite (Dv i Hi). ring.
  Qed.

End Range.
