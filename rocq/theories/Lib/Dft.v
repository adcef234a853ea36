(** The discrete Fourier transform over an n-dimensional grid and its inverse
    (numpy.fft.fftn and ifftn with the default normalization). *)
From Coq Require Import Reals List Arith ZArith Lia Lra Psatz Field.
From Verif.Lib Require Import Num Sums Idx RealF.
Import ListNotations.
Local Open Scope R_scope.

Definition cis (t : R) : cpx := mkC (cos t) (sin t).
(** sum over the axes of k_a * j_a / n_a *)
Fixpoint turns (sh k j : list nat) : R :=
  match sh, k, j with
  | n :: ns, a :: k', b :: j' => INR a * INR b / INR n + turns ns k' j'
  | _, _, _ => 0
  end.
Definition fftn (sh : list nat) (f : list nat -> cpx) (k : list nat) : cpx :=
  gsum (K := CC) sh (fun j => cmul (f j) (cis (- (2 * PI * turns sh k j)))).
Definition ifftn (sh : list nat) (f : list nat -> cpx) (j : list nat) : cpx :=
  cdiv (gsum (K := CC) sh (fun k => cmul (f k) (cis (2 * PI * turns sh k j)))) (mkC (INR (prodl sh)) 0).

Lemma cis_add s t : cis (s + t) = cmul (cis s) (cis t).
Proof. apply cpx_ext; cbn; [rewrite cos_plus|rewrite sin_plus]; ring. Qed.
Lemma cis_0 : cis 0 = c1.
Proof. apply cpx_ext; cbn; [apply cos_0|apply sin_0]. Qed.
Lemma cis_opp t : cis (- t) = cconj (cis t).
Proof. apply cpx_ext; cbn; [apply cos_neg|apply sin_neg]. Qed.
Lemma cis_nat n : cis (2 * PI * INR n) = c1.
Proof.
  pose proof (cos_period 0 n) as C. pose proof (sin_period 0 n) as S. rewrite cos_0 in C. rewrite sin_0 in S.
  replace (0 + 2 * INR n * PI) with (2 * PI * INR n) in * by ring.
  apply cpx_ext; cbn; assumption.
Qed.
Lemma cis_not_1 t : t <> 0 -> - (2 * PI) < t < 2 * PI -> cis t <> c1.
Proof.
  intros N [L U] H. apply (f_equal cre) in H. cbn in H.
  replace t with (2 * (t / 2)) in H by field. rewrite cos_2a_sin in H.
  assert (S : sin (t / 2) = 0) by nra.
  destruct (Rlt_dec 0 t) as [P|P].
  - pose proof (sin_gt_0 (t / 2)). lra.
  - pose proof (sin_gt_0 (- (t / 2))) as Q. rewrite sin_neg in Q. lra.
Qed.
Lemma cis_geometric n t :
  cmul (csub (cis t) c1) (sumN (K := CC) n (fun k => cis (t * INR k))) = csub (cis (t * INR n)) c1.
Proof.
  induction n as [|n IH].
  - cbn [sumN]. change (INR 0) with 0. rewrite Rmult_0_r, cis_0. apply cpx_ext; cbn; ring.
  - cbn [sumN]. rewrite S_INR, Rmult_plus_distr_l, Rmult_1_r, cis_add.
    set (s := sumN (K := CC) n (fun k => cis (t * INR k))) in *. change (fadd s (cis (t * INR n))) with (cadd s (cis (t * INR n))).
    set (e := cis t) in *. set (w := cis (t * INR n)) in *. clearbody s e w.
    pose proof (f_equal cre IH) as A. pose proof (f_equal cim IH) as B. cbn in A, B.
    apply cpx_ext; cbn; lra.
Qed.
(** Orthogonality along one axis. *)
Lemma cis_ortho n a b : (a < n)%nat -> (b < n)%nat ->
  sumN (K := CC) n (fun k => cis (2 * PI * ((INR a - INR b) / INR n) * INR k)) = if (a =? b)%nat then mkC (INR n) 0 else c0.
Proof.
  intros Ha Hb. assert (Pn : 0 < INR n) by (apply (lt_INR 0); lia).
  destruct (Nat.eqb_spec a b) as [E|E].
  - subst b. transitivity (sumN (K := CC) n (fun _ => c1)).
    { apply (sumN_ext CC). intros k _. replace (2 * PI * ((INR a - INR a) / INR n) * INR k) with 0 by (field; lra). apply cis_0. }
    clear. induction n as [|n IH]; [reflexivity|]. cbn [sumN]. rewrite IH, S_INR. apply cpx_ext; cbn; ring.
  - set (t := 2 * PI * ((INR a - INR b) / INR n)).
    pose proof (cis_geometric n t) as G.
    assert (Z : csub (cis (t * INR n)) c1 = c0).
    { replace (t * INR n) with (2 * PI * INR a + - (2 * PI * INR b)) by (unfold t; field; lra).
      rewrite cis_add, cis_opp, !cis_nat. apply cpx_ext; cbn; ring. }
    rewrite Z in G.
    assert (N : csub (cis t) c1 <> c0).
    { assert (Q : cis t <> c1).
      { pose proof PI_RGT_0. apply lt_INR in Ha, Hb. pose proof (pos_INR a). pose proof (pos_INR b).
        assert (X : INR a - INR b <> 0). { intro X. apply E. apply INR_eq. lra. }
        assert (Y : (INR a - INR b) / INR n * INR n = INR a - INR b) by (field; lra).
        set (q := (INR a - INR b) / INR n) in *.
        assert (-1 < q < 1) by (split; nra). assert (q <> 0) by (intro Hq; apply X; rewrite <- Y, Hq; ring).
        apply cis_not_1; unfold t; [nra|split; nra]. }
      intro Q'. apply Q. apply (f_equal cre) in Q' as A. apply (f_equal cim) in Q' as B. cbn in A, B.
      apply cpx_ext; cbn; lra. }
    destruct (fmul_integral CC _ _ G) as [F|F]; [contradiction|exact F].
Qed.

Lemma gsum_mul_r (K : Fld) sh c (f : list nat -> K) : gsum sh (fun x => fmul (f x) c) = fmul (gsum sh f) c.
Proof.
  revert f. induction sh as [|n ns IH]; intro f; cbn [gsum]; [reflexivity|].
  rewrite <- sumN_mul_r. apply sumN_ext. intros. apply IH.
Qed.
Lemma gsum_swap (K : Fld) sh sh' (f : list nat -> list nat -> K) :
  gsum sh (fun x => gsum sh' (fun y => f x y)) = gsum sh' (fun y => gsum sh (fun x => f x y)).
Proof.
  rewrite gsum_flat. transitivity (sumN (prodl sh) (fun p => sumN (prodl sh') (fun q => f (unravel sh p) (unravel sh' q)))).
  { apply sumN_ext. intros. apply gsum_flat. }
  rewrite sumN_swap, gsum_flat. apply sumN_ext. intros. symmetry. apply gsum_flat.
Qed.
Fixpoint leqb (x y : list nat) : bool :=
  match x, y with [], [] => true | a :: x', b :: y' => (a =? b)%nat && leqb x' y' | _, _ => false end.
Lemma leqb_spec x y : leqb x y = true <-> x = y.
Proof.
  revert y. induction x as [|a x IH]; intros [|b y]; cbn; try (split; congruence).
  rewrite Bool.andb_true_iff, IH, Nat.eqb_eq. split; [intros [-> ->]; reflexivity|]. intro E. inversion E. auto.
Qed.

Lemma phase_ortho sh j j' : inb sh j -> inb sh j' ->
  gsum (K := CC) sh (fun k => cmul (cis (2 * PI * turns sh k j)) (cis (- (2 * PI * turns sh k j'))))
  = if leqb j j' then mkC (INR (prodl sh)) 0 else c0.
Proof.
  intro H. revert j'. induction H as [|a n j ns La H IH]; intros j' H'; inversion H' as [|b n' j2 ns' Lb H2]; subst.
  - cbn. rewrite Rmult_0_r, Ropp_0, cis_0. apply cpx_ext; cbn; ring.
  - cbn [gsum turns prodl leqb].
    transitivity (sumN (K := CC) n (fun k => cmul (cis (2 * PI * ((INR a - INR b) / INR n) * INR k))
      (gsum (K := CC) ns (fun k' => cmul (cis (2 * PI * turns ns k' j)) (cis (- (2 * PI * turns ns k' j2))))))).
    { apply (sumN_ext CC). intros k Hk. refine (eq_trans _ (gsum_mul_l CC ns _ _)). apply (gsum_ext (K := CC)). intros k' _.
      assert (Pn : 0 < INR n) by (apply (lt_INR 0); lia).
      change (cmul (cis (2 * PI * (INR k * INR a / INR n + turns ns k' j))) (cis (- (2 * PI * (INR k * INR b / INR n + turns ns k' j2))))
        = cmul (cis (2 * PI * ((INR a - INR b) / INR n) * INR k)) (cmul (cis (2 * PI * turns ns k' j)) (cis (- (2 * PI * turns ns k' j2))))).
      rewrite <- !cis_add. f_equal. field. lra. }
    rewrite (IH j2 H2). etransitivity; [apply (sumN_mul_r CC)|]. rewrite cis_ortho by assumption.
    destruct (a =? b)%nat, (leqb j j2); cbn [andb]; rewrite ?mult_INR; apply cpx_ext; cbn; ring.
Qed.
Lemma turns_sym sh k j : turns sh k j = turns sh j k.
Proof. revert k j. induction sh as [|n ns IH]; intros [|a k] [|b j]; cbn; try reflexivity. rewrite (IH k j). unfold Rdiv. ring. Qed.

Lemma gsum_single (K : Fld) sh j (f : list nat -> K) : inb sh j -> (forall i, inb sh i -> i <> j -> f i = f0) -> gsum sh f = f j.
Proof.
  intros Hj H. rewrite gsum_flat. rewrite (sumN_single K _ _ (ravel sh j)).
  - now rewrite unravel_ravel.
  - now apply ravel_lt.
  - intros p Hp Np. apply H; [now apply inb_unravel|]. intro E. apply Np. rewrite <- E. symmetry. now apply ravel_unravel.
Qed.
Lemma prodl_nz sh j : inb sh j -> INR (prodl sh) <> 0.
Proof.
  intro H. assert (0 < prodl sh)%nat. { induction H; cbn; nia. } apply (lt_INR 0) in H0. cbn in H0. lra.
Qed.

Lemma ifftn_fftn sh f j : inb sh j -> ifftn sh (fftn sh f) j = f j.
Proof.
  intro Hj. unfold ifftn, fftn.
  transitivity (cdiv (gsum (K := CC) sh (fun j' => cmul (f j') (if leqb j j' then mkC (INR (prodl sh)) 0 else c0))) (mkC (INR (prodl sh)) 0)).
  { f_equal.
    transitivity (gsum (K := CC) sh (fun k => gsum (K := CC) sh (fun j' => cmul (f j') (cmul (cis (2 * PI * turns sh k j)) (cis (- (2 * PI * turns sh k j'))))))).
    { apply (gsum_ext (K := CC)). intros k _. etransitivity; [symmetry; apply (gsum_mul_r CC)|]. apply (gsum_ext (K := CC)). intros j' _. apply cpx_ext; cbn; ring. }
    rewrite (gsum_swap CC). apply (gsum_ext (K := CC)). intros j' Hj'.
    etransitivity; [apply (gsum_mul_l CC)|]. rewrite (phase_ortho sh j j' Hj Hj'). reflexivity. }
  rewrite (gsum_single CC sh j); [|exact Hj|].
  - replace (leqb j j) with true by (symmetry; now apply leqb_spec).
    pose proof (prodl_nz sh j Hj). apply cpx_ext; cbn; unfold cnrm; cbn; field; nra.
  - intros i _ Ni. destruct (leqb j i) eqn:E; [apply leqb_spec in E; congruence|]. apply cpx_ext; cbn; ring.
Qed.
Lemma leqb_sym x y : leqb x y = leqb y x.
Proof. revert y. induction x as [|a x IH]; intros [|b y]; cbn; try reflexivity. now rewrite IH, Nat.eqb_sym. Qed.
Lemma fftn_ifftn sh f k : inb sh k -> fftn sh (ifftn sh f) k = f k.
Proof.
  intro Hk. unfold ifftn, fftn.
  transitivity (gsum (K := CC) sh (fun k' => cmul (f k') (cdiv (if leqb k' k then mkC (INR (prodl sh)) 0 else c0) (mkC (INR (prodl sh)) 0)))).
  { transitivity (gsum (K := CC) sh (fun j => gsum (K := CC) sh (fun k' => cmul (f k')
      (cmul (cmul (cis (2 * PI * turns sh j k')) (cis (- (2 * PI * turns sh j k)))) (cinv (mkC (INR (prodl sh)) 0)))))).
    { apply (gsum_ext (K := CC)). intros j _. unfold cdiv.
      transitivity (cmul (gsum (K := CC) sh (fun k' => cmul (f k') (cis (2 * PI * turns sh k' j)))) (cmul (cis (- (2 * PI * turns sh k j))) (cinv (mkC (INR (prodl sh)) 0)))).
      { set (x := gsum _ _). set (y := cis _). set (z := cinv _). clearbody x y z. apply cpx_ext; cbn; ring. }
      etransitivity; [symmetry; apply (gsum_mul_r CC)|]. apply (gsum_ext (K := CC)). intros k' _.
      rewrite (turns_sym sh j k'), (turns_sym sh j k).
      set (x := cis _). set (y := cis _). set (z := cinv _). clearbody x y z. apply cpx_ext; cbn; ring. }
    rewrite (gsum_swap CC). apply (gsum_ext (K := CC)). intros k' Hk'.
    etransitivity; [apply (gsum_mul_l CC)|]. unfold cdiv. refine (f_equal (cmul (f k')) _).
    refine (eq_trans (gsum_mul_r CC sh _ _) _). exact (f_equal (fun z => cmul z _) (phase_ortho sh k' k Hk' Hk)). }
  rewrite (gsum_single CC sh k); [|exact Hk|].
  - replace (leqb k k) with true by (symmetry; now apply leqb_spec).
    pose proof (prodl_nz sh k Hk). apply cpx_ext; cbn; unfold cnrm; cbn; field; nra.
  - intros i _ Ni. destruct (leqb i k) eqn:E; [apply leqb_spec in E; congruence|]. apply cpx_ext; cbn; ring.
Qed.
Lemma fftn_ext sh f g k : (forall j, inb sh j -> f j = g j) -> fftn sh f k = fftn sh g k.
Proof. intro H. apply (gsum_ext (K := CC)). intros j Hj. now rewrite H. Qed.
Lemma ifftn_ext sh f g k : (forall j, inb sh j -> f j = g j) -> ifftn sh f k = ifftn sh g k.
Proof. intro H. unfold ifftn. f_equal. apply (gsum_ext (K := CC)). intros j Hj. now rewrite H. Qed.
Lemma fftn_scale sh a f k : fftn sh (fun j => cmul a (f j)) k = cmul a (fftn sh f k).
Proof. unfold fftn. refine (eq_trans _ (gsum_mul_l CC sh a _)). apply (gsum_ext (K := CC)). intros. apply cpx_ext; cbn; ring. Qed.
Lemma ifftn_scale sh a f k : ifftn sh (fun j => cmul a (f j)) k = cmul a (ifftn sh f k).
Proof.
  unfold ifftn. transitivity (cdiv (cmul a (gsum (K := CC) sh (fun q => cmul (f q) (cis (2 * PI * turns sh q k))))) (mkC (INR (prodl sh)) 0)).
  - f_equal. refine (eq_trans _ (gsum_mul_l CC sh _ _)). apply (gsum_ext (K := CC)). intros. apply cpx_ext; cbn; ring.
  - unfold cdiv. set (x := gsum _ _). set (y := cinv _). clearbody x y. apply cpx_ext; cbn; ring.
Qed.
