(** Limits of sequences of complex numbers and of matrices. *)
From Coq Require Import Reals Arith Lia Lra.
From Verif.Lib Require Import Num Sums Idx Mat RealF.
Local Open Scope R_scope.

Definition ccv (u : nat -> cpx) (l : cpx) : Prop :=
  Un_cv (fun n => cre (u n)) (cre l) /\ Un_cv (fun n => cim (u n)) (cim l).

Lemma cv_const c : Un_cv (fun _ => c) c.
Proof. intros e He. exists 0%nat. intros. unfold R_dist. rewrite Rminus_diag_eq, Rabs_R0 by reflexivity. exact He. Qed.
Lemma cv_ext_from u v l N : (forall n, (N <= n)%nat -> u n = v n) -> Un_cv u l -> Un_cv v l.
Proof.
  intros H U e He. destruct (U e He) as (M & HM). exists (Nat.max N M). intros n Hn. rewrite <- H by lia. apply HM. lia.
Qed.
Lemma cv_inv u l : l <> 0 -> Un_cv u l -> Un_cv (fun n => / u n) (/ l).
Proof.
  intros Hl U. apply (continuity_seq Rinv u l); [|exact U].
  apply (continuity_pt_inv (fun x => x) l); [|exact Hl]. apply derivable_continuous_pt, derivable_pt_id.
Qed.

Lemma ccv_const c : ccv (fun _ => c) c.
Proof. split; apply cv_const. Qed.
Lemma ccv_ext_from u v l N : (forall n, (N <= n)%nat -> u n = v n) -> ccv u l -> ccv v l.
Proof. intros H [A B]. split; [refine (cv_ext_from _ _ _ N _ A)|refine (cv_ext_from _ _ _ N _ B)]; intros n Hn; now rewrite H. Qed.
Lemma ccv_add u v a b : ccv u a -> ccv v b -> ccv (fun n => @fadd CC (u n) (v n)) (@fadd CC a b).
Proof. intros [A B] [C D]. split; cbn; now apply CV_plus. Qed.
Lemma ccv_opp u a : ccv u a -> ccv (fun n => @fopp CC (u n)) (@fopp CC a).
Proof. intros [A B]. split; cbn; now apply CV_opp. Qed.
Lemma ccv_sub u v a b : ccv u a -> ccv v b -> ccv (fun n => @fsub CC (u n) (v n)) (@fsub CC a b).
Proof. intros [A B] [C D]. split; cbn; now apply CV_minus. Qed.
Lemma ccv_mul u v a b : ccv u a -> ccv v b -> ccv (fun n => @fmul CC (u n) (v n)) (@fmul CC a b).
Proof.
  intros [A B] [C D]. split; cbn.
  - apply CV_minus; now apply CV_mult.
  - apply CV_plus; now apply CV_mult.
Qed.
Lemma ccv_inv v b : b <> c0 -> ccv v b -> ccv (fun n => cinv (v n)) (cinv b).
Proof.
  intros Hb [C D]. pose proof (cnrm_nz b Hb) as Nz.
  assert (E : Un_cv (fun n => / cnrm (v n)) (/ cnrm b)).
  { apply cv_inv; [exact Nz|]. unfold cnrm. apply CV_plus; now apply CV_mult. }
  split; cbn; unfold Rdiv; apply CV_mult; try exact E; [exact C|now apply CV_opp].
Qed.
Lemma ccv_div u v a b : b <> c0 -> ccv u a -> ccv v b -> ccv (fun n => @fdiv CC (u n) (v n)) (@fdiv CC a b).
Proof. intros Hb U V. apply (ccv_mul u (fun n => cinv (v n)) a (cinv b)); [exact U|now apply ccv_inv]. Qed.
Lemma ccv_sumN n (f : nat -> nat -> cpx) g : (forall j, ccv (fun k => f k j) (g j)) ->
  ccv (fun k => sumN (K := CC) n (f k)) (sumN (K := CC) n g).
Proof.
  intro H. induction n as [|n IH]; cbn [sumN]; [apply ccv_const|]. now apply ccv_add.
Qed.

Definition mcv (A : nat -> mat CC) (L : mat CC) : Prop := forall p q, ccv (fun n => A n p q) (L p q).
Definition vcv (v : nat -> vect CC) (l : vect CC) : Prop := forall p, ccv (fun n => v n p) (l p).

Lemma mcv_const A : mcv (fun _ => A) A. Proof. intros p q. apply ccv_const. Qed.
Lemma mcv_madd A B L M : mcv A L -> mcv B M -> mcv (fun n => madd (A n) (B n)) (madd L M).
Proof. intros H1 H2 p q. now apply ccv_add. Qed.
Lemma mcv_msub A B L M : mcv A L -> mcv B M -> mcv (fun n => msub (A n) (B n)) (msub L M).
Proof. intros H1 H2 p q. now apply ccv_sub. Qed.
Lemma mcv_mopp A L : mcv A L -> mcv (fun n => mopp (A n)) (mopp L).
Proof. intros H1 p q. now apply ccv_opp. Qed.
Lemma mcv_mscale c A d L : ccv c d -> mcv A L -> mcv (fun n => mscale (K := CC) (c n) (A n)) (mscale (K := CC) d L).
Proof. intros H1 H2 p q. unfold mscale. now apply ccv_mul. Qed.
Lemma mcv_mm k A B L M : mcv A L -> mcv B M -> mcv (fun n => mm k (A n) (B n)) (mm k L M).
Proof. intros H1 H2 p q. unfold mm. apply ccv_sumN. intro j. now apply ccv_mul. Qed.
Lemma mcv_mdiag v l : vcv v l -> mcv (fun n => mdiag (K := CC) (v n)) (mdiag (K := CC) l).
Proof. intros H p q. unfold mdiag. apply ccv_mul; [apply ccv_const|apply H]. Qed.
Lemma mcv_mblock r c (A : nat -> nat -> nat -> mat CC) L : (forall a b, mcv (fun n => A n a b) (L a b)) ->
  mcv (fun n => mblock (K := CC) r c (A n)) (mblock (K := CC) r c L).
Proof. intros H p q. unfold mblock. apply (H (p / r)%nat (q / c)%nat). Qed.
