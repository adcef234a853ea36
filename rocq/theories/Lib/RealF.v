(** The reals and the complex numbers as instances of [Fld] / [CFld].
    Uses the standard library's axiomatised reals. *)
From Coq Require Import Reals Lra List Arith ZArith Field Psatz.
From Verif.Lib Require Import Num Sums Idx.
Local Open Scope R_scope.

Lemma Rfield_th : field_theory 0 1 Rplus Rmult Rminus Ropp Rdiv Rinv (@eq R).
Proof.
  constructor.
  - constructor; intros; try ring.
  - apply R1_neq_R0.
  - reflexivity.
  - intros p Hp. now apply Rinv_l.
Qed.

Lemma R2nz : 1 + 1 <> 0. Proof. lra. Qed.

Definition RF : Fld :=
  MkFld R 0 1 Rplus Rmult Rminus Ropp Rdiv Rinv Rfield_th Req_EM_T R2nz.
Canonical RF.

(** Complex numbers as pairs. *)
Record cpx : Type := mkC { cre : R; cim : R }.
Definition c0 := mkC 0 0.
Definition c1 := mkC 1 0.
Definition cadd x y := mkC (cre x + cre y) (cim x + cim y).
Definition cmul x y := mkC (cre x * cre y - cim x * cim y) (cre x * cim y + cim x * cre y).
Definition copp x := mkC (- cre x) (- cim x).
Definition csub x y := mkC (cre x - cre y) (cim x - cim y).
Definition cnrm x : R := cre x * cre x + cim x * cim x.
Definition cinv x := mkC (cre x / cnrm x) (- cim x / cnrm x).
Definition cdiv x y := cmul x (cinv y).
Definition cconj x := mkC (cre x) (- cim x).
Definition ci := mkC 0 1.

Lemma cpx_ext x y : cre x = cre y -> cim x = cim y -> x = y.
Proof. destruct x, y; cbn; intros; now subst. Qed.

Lemma cnrm_nz x : x <> c0 -> cnrm x <> 0.
Proof.
  intros Hx H. apply Hx. destruct x as [a b]. unfold cnrm in H; cbn in H.
  apply cpx_ext; cbn; nra.
Qed.

Lemma cpx_th : field_theory c0 c1 cadd cmul csub copp cdiv cinv (@eq cpx).
Proof.
  constructor.
  - constructor; intros; apply cpx_ext; cbn; ring.
  - intro H. apply (f_equal cre) in H. cbn in H. lra.
  - reflexivity.
  - intros p Hp. pose proof (cnrm_nz p Hp) as Hn.
    apply cpx_ext; unfold cinv, cmul; cbn [cre cim c1]; unfold cnrm in *; field; exact Hn.
Qed.

Lemma cpx_dec (x y : cpx) : {x = y} + {x <> y}.
Proof.
  destruct x as [a b], y as [a' b'].
  destruct (Req_EM_T a a') as [Ea|Ea]; [destruct (Req_EM_T b b') as [Eb|Eb]|].
  - left. now subst.
  - right. intro H. now injection H.
  - right. intro H. now injection H.
Qed.

Lemma c2nz : cadd c1 c1 <> c0.
Proof. intro H. apply (f_equal cre) in H. cbn in H. lra. Qed.

Definition CF : Fld := MkFld cpx c0 c1 cadd cmul csub copp cdiv cinv cpx_th cpx_dec c2nz.

Definition CC : CFld.
Proof.
  refine (MkCFld CF ci cconj _ _ _ _ _ _).
  - apply cpx_ext; cbn; ring.
  - intros; apply cpx_ext; cbn; ring.
  - intros; apply cpx_ext; cbn; ring.
  - apply cpx_ext; cbn; ring.
  - intros; apply cpx_ext; cbn; ring.
  - apply cpx_ext; cbn; ring.
Defined.

(** Real sums. *)
Lemma sumN_nonneg n (f : nat -> RF) : (forall i, (i < n)%nat -> (0 <= f i)%R) -> (0 <= sumN n f)%R.
Proof.
  induction n as [|n IH]; intro H; cbn [sumN]; [cbn; lra|].
  specialize (IH (fun i Hi => H i (Nat.lt_lt_succ_r _ _ Hi))). specialize (H n (Nat.lt_succ_diag_r n)).
  change (0 <= sumN n f + f n)%R. lra.
Qed.
Lemma sumN_le n (f g : nat -> RF) : (forall i, (i < n)%nat -> (f i <= g i)%R) -> (sumN n f <= sumN n g)%R.
Proof.
  induction n as [|n IH]; intro H; cbn [sumN]; [apply Rle_refl|].
  specialize (IH (fun i Hi => H i (Nat.lt_lt_succ_r _ _ Hi))). specialize (H n (Nat.lt_succ_diag_r n)).
  change (sumN n f + f n <= sumN n g + g n)%R. lra.
Qed.

Lemma gsum_le sh (f g : list nat -> RF) : (forall idx, inb sh idx -> (f idx <= g idx)%R) -> (gsum sh f <= gsum sh g)%R.
Proof.
  intro H. rewrite !gsum_flat. apply sumN_le. intros p Hp. apply H. now apply inb_unravel.
Qed.
Lemma gsum_nonneg sh (f : list nat -> RF) : (forall idx, inb sh idx -> (0 <= f idx)%R) -> (0 <= gsum sh f)%R.
Proof.
  intro H. rewrite gsum_flat. apply sumN_nonneg. intros p Hp. apply H. now apply inb_unravel.
Qed.
Lemma gsum_ge_term sh (f : list nat -> RF) idx : inb sh idx ->
  (forall i, inb sh i -> (0 <= f i)%R) -> (f idx <= gsum sh f)%R.
Proof.
  intros Hi H. rewrite gsum_flat.
  assert (G : forall n k, (k < n)%nat -> (n <= prodl sh)%nat -> (f (unravel sh k) <= sumN n (fun p => f (unravel sh p)))%R).
  { induction n as [|n IH]; intros k Hk Hn; [lia|]. cbn [sumN].
    assert (P : (0 <= f (unravel sh n))%R) by (apply H, inb_unravel; lia).
    assert (Q : (0 <= sumN n (fun p => f (unravel sh p)))%R).
    { apply sumN_nonneg. intros i Hi'. apply H, inb_unravel. lia. }
    change (f (unravel sh k) <= sumN n (fun p => f (unravel sh p)) + f (unravel sh n))%R.
    destruct (Nat.eq_dec k n) as [->|Hne]; [lra|].
    specialize (IH k ltac:(lia) ltac:(lia)). lra. }
  specialize (G (prodl sh) (ravel sh idx) (ravel_lt sh idx Hi) (Nat.le_refl _)).
  now rewrite unravel_ravel in G.
Qed.

(** The principal complex square root (numpy.sqrt on complex input). *)
Definition cabs (z : cpx) : R := sqrt (cnrm z).
Definition csqrt (z : cpx) : cpx :=
  mkC (sqrt ((cabs z + cre z) / 2))
      (if Rle_dec 0 (cim z) then sqrt ((cabs z - cre z) / 2) else - sqrt ((cabs z - cre z) / 2)).

Lemma cabs_bounds z : cabs z * cabs z = cnrm z /\ (- cabs z <= cre z <= cabs z)%R.
Proof.
  unfold cabs. assert (H : (0 <= cnrm z)%R) by (unfold cnrm; nra).
  pose proof (sqrt_pos (cnrm z)) as Hp. pose proof (sqrt_sqrt (cnrm z) H) as E. split; [exact E|].
  assert (L : (cre z * cre z <= sqrt (cnrm z) * sqrt (cnrm z))%R) by (rewrite E; unfold cnrm; nra).
  split; nra.
Qed.

Lemma csqrt_sq z : cmul (csqrt z) (csqrt z) = z.
Proof.
  destruct (cabs_bounds z) as [E [L1 L2]].
  set (u := sqrt ((cabs z + cre z) / 2)). set (v := sqrt ((cabs z - cre z) / 2)).
  assert (Hu : u * u = (cabs z + cre z) / 2) by (apply sqrt_sqrt; lra).
  assert (Hv : v * v = (cabs z - cre z) / 2) by (apply sqrt_sqrt; lra).
  assert (Pu : 0 <= u) by apply sqrt_pos. assert (Pv : 0 <= v) by apply sqrt_pos.
  assert (S : (2 * u * v) * (2 * u * v) = cim z * cim z).
  { transitivity (4 * (u * u) * (v * v)); [ring|]. rewrite Hu, Hv. unfold cnrm in E. nra. }
  assert (P : 0 <= 2 * u * v) by nra.
  apply cpx_ext; unfold csqrt, cmul; cbn [cre cim]; fold u v; destruct (Rle_dec 0 (cim z)) as [H|H].
  - lra.
  - replace (u * u - - v * - v) with (u * u - v * v) by ring. lra.
  - assert (2 * u * v = cim z) by nra. lra.
  - assert (2 * u * v = - cim z) by nra. lra.
Qed.
