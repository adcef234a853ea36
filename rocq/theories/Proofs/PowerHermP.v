(** Power iteration on Hermitian matrices, in eigenvectors. *)
From Coq Require Import Reals List Arith ZArith Lia Lra Psatz Bool.
From Verif.Lib Require Import Num Sums Idx Mat RealF BoxMin.
From Verif.Model Require Import Eigensolvers.
From Verif.Spec Require Import BlochSpec EigenSpec BlochSolveSpec BandsSpec.
From Verif.Proofs Require Import EmeP EigensolversP PowerP BlochSolveP SpectralP MinMaxP HermEigP.
Import ListNotations.
Local Open Scope R_scope.

Section Power.
  Variables (n : nat) (A : mat CC) (HA : hermitian n A) (V : mat CC) (t : nat -> R) (HV : eigenbasis n A V t).
  Variables (g gp gm : vect CC) (lam rho : R).
  Notation co x a := (hdot n (col V a) x).
  Hypothesis Hrho : 0 <= rho < lam * lam.
  Hypothesis Ht : forall a, (a < n)%nat -> t a = lam \/ t a = - lam \/ t a * t a <= rho.
  Hypothesis Ep : eigenpair n A (mkC lam 0) gp.
  Hypothesis Em : eigenpair n A (mkC (- lam) 0) gm.
  Hypothesis Or : forall x, eigenpair n A (mkC lam 0) x \/ eigenpair n A (mkC (- lam) 0) x -> hdot n x g = hdot n x (fun i => cadd (gp i) (gm i)).
  Lemma iter_coef k a : (a < n)%nat -> co (Nat.iter k (mv (K := CC) n A) g) a = cmul (rc (t a ^ k)) (co g a).
  Proof.
    intro Ha. induction k as [|k IH]; cbn [Nat.iter pow]; [apply cpx_ext; cbn; ring|].
    change (Nat.iter (S k) (mv (K := CC) n A) g) with (mv (K := CC) n A (Nat.iter k (mv (K := CC) n A) g)).
    rewrite (basis_coef n A HA V t HV a _ Ha), IH. apply cpx_ext; cbn; ring.
  Qed.
  Lemma part_coef x mu a : eigenpair n A (rc mu) x -> (a < n)%nat -> t a <> mu -> co x a = c0.
  Proof.
    intros Ex Ha Ne. pose proof (basis_coef n A HA V t HV a x Ha) as Q. rewrite (hdot_ext n _ (mv (K := CC) n A x) (col V a) (fun i => cmul (rc mu) (x i))) in Q by (first [intros; reflexivity|exact Ex]).
    rewrite hdot_scale_r in Q. pose proof (f_equal cre Q) as Q1. pose proof (f_equal cim Q) as Q2. cbn in Q1, Q2.
    apply cpx_ext; cbn; apply Rmult_eq_reg_l with (t a - mu); lra.
  Qed.
  Notation P a := (cnrm (co gp a)). Notation M a := (cnrm (co gm a)).
  Definition rest a : R := cnrm (co g a) - P a - M a.
  Lemma lam_nz : lam <> 0. Proof. intro Z. rewrite Z in Hrho. lra. Qed.
  Lemma split_coef a : (a < n)%nat -> (t a = lam \/ t a = - lam \/ (t a * t a <= rho /\ t a <> lam /\ t a <> - lam)) /\
    cnrm (co g a) = P a + M a + rest a /\ t a * P a = lam * P a /\ t a * M a = - lam * M a /\ (rest a = 0 \/ (0 <= rest a /\ t a * t a <= rho)).
  Proof.
    intro Ha. split; [|split; [unfold rest; ring|]].
    { destruct (Ht a Ha) as [H|[H|H]]; auto. right. right. split; [exact H|]. split; intro E; rewrite E in H; lra. }
    pose proof lam_nz as Nl. pose proof (proj2 HV a Ha) as Ev.
    assert (Z : cnrm c0 = 0) by (unfold cnrm; cbn; ring).
    assert (Ad : hdot n (col V a) (fun i => cadd (gp i) (gm i)) = cadd (co gp a) (co gm a)).
    { unfold hdot. refine (eq_trans _ (sumN_add CC n _ _)). apply (sumN_ext CC). intros i _. apply cpx_ext; cbn; ring. }
    destruct (Req_EM_T (t a) lam) as [E1|N1]; [|destruct (Req_EM_T (t a) (- lam)) as [E2|N2]].
    - assert (Cm : co gm a = c0) by (apply (part_coef gm (- lam)); [exact Em|exact Ha|lra]). rewrite E1 in Ev.
      assert (Cg : co g a = co gp a). { rewrite (Or (col V a) (or_introl Ev)), Ad, Cm. apply cpx_ext; cbn; ring. }
      unfold rest. rewrite Cg, Cm, Z, E1. split; [ring|]. split; [ring|]. left. ring.
    - assert (Cp : co gp a = c0) by (apply (part_coef gp lam); [exact Ep|exact Ha|lra]). rewrite E2 in Ev.
      assert (Cg : co g a = co gm a). { rewrite (Or (col V a) (or_intror Ev)), Ad, Cp. apply cpx_ext; cbn; ring. }
      unfold rest. rewrite Cg, Cp, Z, E2. split; [ring|]. split; [ring|]. left. ring.
    - rewrite (part_coef gp lam a Ep Ha N1), (part_coef gm (- lam) a Em Ha N2). unfold rest. rewrite (part_coef gp lam a Ep Ha N1), (part_coef gm (- lam) a Em Ha N2), Z.
      split; [ring|]. split; [ring|]. right. pose proof (cnrm_pos (co g a)). split; [lra|]. destruct (Ht a Ha) as [X|[X|X]]; [contradiction|contradiction|exact X].
  Qed.
  Lemma rest_pos a : (a < n)%nat -> 0 <= rest a.
  Proof. intro Ha. destruct (split_coef a Ha) as (_ & _ & _ & _ & [-> | [H _]]); lra. Qed.
  Lemma pow_part a k : (a < n)%nat -> (t a * t a) ^ k * P a = (lam * lam) ^ k * P a /\ (t a * t a) ^ k * M a = (lam * lam) ^ k * M a.
  Proof.
    intro Ha. destruct (split_coef a Ha) as (_ & _ & E1 & E2 & _). split; induction k as [|k IH]; cbn [pow]; try reflexivity.
    - transitivity ((t a * t a) * ((t a * t a) ^ k * P a)); [ring|]. rewrite IH. transitivity ((lam * lam) ^ k * (t a * (t a * P a))); [ring|]. rewrite E1. transitivity ((lam * lam) ^ k * (lam * (t a * P a))); [ring|]. rewrite E1. ring.
    - transitivity ((t a * t a) * ((t a * t a) ^ k * M a)); [ring|]. rewrite IH. transitivity ((lam * lam) ^ k * (t a * (t a * M a))); [ring|]. rewrite E2. transitivity (- (lam * lam) ^ k * (lam * (t a * M a))); [ring|]. rewrite E2. ring.
  Qed.
  Lemma pow_rest a k : (a < n)%nat -> 0 <= (t a * t a) ^ k * rest a <= rho ^ k * rest a.
  Proof.
    intro Ha. destruct (split_coef a Ha) as (_ & _ & _ & _ & [-> | [H1 H2]]); [lra|]. assert (0 <= t a * t a) by nra. split; [apply Rmult_le_pos; [now apply pow_le|exact H1]|].
    apply Rmult_le_compat_r; [exact H1|]. apply pow_incr. lra.
  Qed.
  Notation p := (norm2 n gp). Notation m := (norm2 n gm).
  Hypothesis Hpm : 0 < p + m.
  Lemma sum_P : rs n (fun a => P a) = p. Proof. symmetry. apply (parseval2 n V (proj1 HV)). Qed.
  Lemma sum_M : rs n (fun a => M a) = m. Proof. symmetry. apply (parseval2 n V (proj1 HV)). Qed.
  Lemma sum_rest : rs n rest <= norm2 n g.
  Proof. rewrite (parseval2 n V (proj1 HV) g). apply rs_le. intros a Ha. unfold rest. pose proof (cnrm_pos (co gp a)). pose proof (cnrm_pos (co gm a)). lra. Qed.
  (** squared norm after k steps *)
  Lemma iter_norm k : norm2 n (Nat.iter k (mv (K := CC) n A) g) = (lam * lam) ^ k * (p + m) + rs n (fun a => (t a * t a) ^ k * rest a).
  Proof.
    rewrite (parseval2 n V (proj1 HV)). transitivity (rs n (fun a => (lam * lam) ^ k * P a + ((lam * lam) ^ k * M a + (t a * t a) ^ k * rest a))).
    - apply rs_ext. intros a Ha. rewrite iter_coef by exact Ha. destruct (pow_part a k Ha) as [<- <-]. destruct (split_coef a Ha) as (_ & E & _).
      transitivity ((t a * t a) ^ k * cnrm (co g a)); [|rewrite E; set (x := P a); set (y := M a); clearbody x y; change ((t a * t a) ^ k * (x + y + rest a) = (t a * t a) ^ k * x + ((t a * t a) ^ k * y + (t a * t a) ^ k * rest a)); ring].
      rewrite cnrm_mul. unfold cnrm at 1. cbn [cre cim]. rewrite Rpow_mult_distr. change ((t a ^ k * t a ^ k + 0 * 0) * cnrm (co g a) = t a ^ k * t a ^ k * cnrm (co g a)). ring.
    - rewrite !rs_add, !rs_scale, sum_P, sum_M. generalize (rs n (fun a => (t a * t a) ^ k * rest a)). intro z. change ((lam * lam) ^ k * p + ((lam * lam) ^ k * m + z) = (lam * lam) ^ k * (p + m) + z). ring.
  Qed.
  Lemma iter_low k : (lam * lam) ^ k * (p + m) <= norm2 n (Nat.iter k (mv (K := CC) n A) g).
  Proof. rewrite iter_norm. pose proof (rs_nonneg n (fun a => (t a * t a) ^ k * rest a) (fun a Ha => proj1 (pow_rest a k Ha))). lra. Qed.
  Lemma lam2_pow k : 0 < (lam * lam) ^ k. Proof. apply pow_lt. lra. Qed.
  Lemma iter_nonzero k : nonzero_vec n (Nat.iter k (mv (K := CC) n A) g).
  Proof.
    destruct (all_dec n (fun i => Nat.iter k (mv (K := CC) n A) g i = c0)) as [Z|Nz]; [intros i _; destruct (cpx_dec (Nat.iter k (mv (K := CC) n A) g i) c0); auto| |exact (not_all_zero n _ Nz)].
    exfalso. pose proof (iter_low k) as L. pose proof (lam2_pow k).
    assert (Z0 : norm2 n (Nat.iter k (mv (K := CC) n A) g) = 0). { unfold norm2. apply (sumN_zero RF). intros i Hi. rewrite (Z i Hi). cbn. change (0 * 0 + 0 * 0 = 0). ring. }
    rewrite Z0 in L. nra.
  Qed.
  Variables (k : nat) (v : vect CC).
  Hypothesis Hv : unit_of n (Nat.iter k (mv (K := CC) n A) g) v.
  Notation nk := (norm2 n (Nat.iter k (mv (K := CC) n A) g)).
  Lemma nk_pos : 0 < nk. Proof. pose proof (iter_low k). pose proof (lam2_pow k). nra. Qed.
  Lemma v_weight a : (a < n)%nat -> cnrm (co v a) = ((lam * lam) ^ k * (P a + M a) + (t a * t a) ^ k * rest a) / nk.
  Proof.
    intro Ha. destruct Hv as (U & r & Hr & E).
    assert (Ck : co (Nat.iter k (mv (K := CC) n A) g) a = cmul (rc r) (co v a)). { rewrite <- hdot_scale_r. apply hdot_ext; [reflexivity|intros; apply E]. }
    assert (Nk : nk = r * r).
    { change (nrm2 n (Nat.iter k (mv (K := CC) n A) g) = r * r). rewrite (nrm2_ext n _ (fun i => cmul (rc r) (v i))) by (intros; apply E). rewrite nrm2_scale. change (nrm2 n v) with (norm2 n v). rewrite U. unfold cnrm. cbn. ring. }
    rewrite (iter_coef k a Ha) in Ck. apply (f_equal cnrm) in Ck. rewrite !cnrm_mul in Ck. unfold cnrm at 1 3 in Ck. cbn [cre cim] in Ck.
    destruct (split_coef a Ha) as (_ & Es & _). destruct (pow_part a k Ha) as [E1 E2]. rewrite Es in Ck. rewrite Nk.
    apply Rmult_eq_reg_l with (r * r); [|nra]. replace (r * r * (((lam * lam) ^ k * (P a + M a) + (t a * t a) ^ k * rest a) / (r * r))) with ((lam * lam) ^ k * P a + (lam * lam) ^ k * M a + (t a * t a) ^ k * rest a) by (field; lra).
    rewrite <- E1, <- E2. rewrite Rpow_mult_distr. lra.
  Qed.
  Definition limit : R := lam * (p - m) / (p + m).
  Lemma limit_le : Rabs limit <= Rabs lam.
  Proof.
    unfold limit. pose proof (norm2_pos n gp). pose proof (norm2_pos n gm). unfold Rdiv. rewrite Rmult_assoc, Rabs_mult. rewrite <- (Rmult_1_r (Rabs lam)) at 2. apply Rmult_le_compat_l; [apply Rabs_pos|].
    apply Rabs_le. split; apply Rmult_le_reg_r with (p + m); try lra; rewrite Rmult_assoc, Rinv_l by lra; lra.
  Qed.
  Lemma bound_pos : rs n (fun a => (t a * t a) ^ k * rest a) / nk <= norm2 n g / (p + m) * (rho / (lam * lam)) ^ k.
  Proof.
    pose proof (iter_low k) as L. pose proof (lam2_pow k) as Lp. pose proof nk_pos as Np.
    assert (S1 : rs n (fun a => (t a * t a) ^ k * rest a) <= rho ^ k * norm2 n g).
    { eapply Rle_trans; [apply rs_le; intros a Ha; exact (proj2 (pow_rest a k Ha))|]. rewrite rs_scale. apply Rmult_le_compat_l; [apply pow_le; lra|exact sum_rest]. }
    pose proof (rs_nonneg n (fun a => (t a * t a) ^ k * rest a) (fun a Ha => proj1 (pow_rest a k Ha))) as S0. set (s := rs n (fun a => (t a * t a) ^ k * rest a)) in *. clearbody s.
    unfold Rdiv at 3. rewrite Rpow_mult_distr, pow_inv by lra.
    apply Rle_trans with (s * / ((lam * lam) ^ k * (p + m))).
    - apply Rmult_le_compat_l; [exact S0|]. apply Rinv_le_contravar; [nra|exact L].
    - replace (norm2 n g / (p + m) * (rho ^ k * / (lam * lam) ^ k)) with (rho ^ k * norm2 n g * / ((lam * lam) ^ k * (p + m))) by (field; split; lra).
      apply Rmult_le_compat_r; [apply Rlt_le, Rinv_0_lt_compat; nra|exact S1].
  Qed.
  Lemma quotient_limit : cim (rayleigh_quotient n A v) = 0 /\
    Rabs (cre (rayleigh_quotient n A v) - limit) <= 2 * Rabs lam * (norm2 n g / (p + m) * (rho / (lam * lam)) ^ k).
  Proof.
    rewrite (quotient_sum n A HA V t HV v (proj1 Hv)). split; [reflexivity|]. cbn [cre].
    assert (E : rs n (fun a => t a * cnrm (co v a)) - limit = rs n (fun a => (t a - limit) * ((t a * t a) ^ k * rest a)) / nk).
    { pose proof (parseval2 n V (proj1 HV) v) as U1. rewrite (proj1 Hv) in U1.
      assert (E0 : rs n (fun a => t a * cnrm (co v a)) - limit = rs n (fun a => (t a - limit) * cnrm (co v a))).
      { transitivity (rs n (fun a => t a * cnrm (co v a)) - rs n (fun a => limit * cnrm (co v a))); [rewrite rs_scale, <- U1; generalize (rs n (fun a => t a * cnrm (co v a))); intro z; change (z - limit = z - limit * 1); ring|].
        rewrite <- rs_sub. apply rs_ext. intros a _. set (z := cnrm _). clearbody z. change (t a * z - limit * z = (t a - limit) * z). ring. }
      rewrite E0. clear E0.
      assert (E1 : rs n (fun a => (t a - limit) * cnrm (co v a)) = / nk * rs n (fun a => ((lam * lam) ^ k * lam - (lam * lam) ^ k * limit) * P a + ((- ((lam * lam) ^ k * lam) - (lam * lam) ^ k * limit) * M a + (t a - limit) * ((t a * t a) ^ k * rest a)))).
      { rewrite <- rs_scale. apply rs_ext. intros a Ha. rewrite (v_weight a Ha). destruct (split_coef a Ha) as (_ & _ & E1 & E2 & _). set (x := P a) in *. set (y := M a) in *. set (z := rest a). set (q := (lam * lam) ^ k). set (s := (t a * t a) ^ k). clearbody x y z q s. pose proof nk_pos as Np. set (nn := nk) in *. clearbody nn.
        transitivity (/ nn * (q * (t a * x) + q * (t a * y) - q * limit * x - q * limit * y + (t a - limit) * (s * z))); [unfold Rdiv; change ((t a - limit) * ((q * (x + y) + s * z) * / nn) = / nn * (q * (t a * x) + q * (t a * y) - q * limit * x - q * limit * y + (t a - limit) * (s * z))); ring|].
        rewrite E1, E2. change (/ nn * (q * (lam * x) + q * (- lam * y) - q * limit * x - q * limit * y + (t a - limit) * (s * z)) = / nn * ((q * lam - q * limit) * x + ((- (q * lam) - q * limit) * y + (t a - limit) * (s * z)))). ring. }
      rewrite E1, !rs_add, !rs_scale, sum_P, sum_M. set (w := rs n (fun a => (t a - limit) * ((t a * t a) ^ k * rest a))). clearbody w. unfold Rdiv. rewrite (Rmult_comm w). f_equal.
      assert (Q : limit * (p + m) = lam * (p - m)) by (unfold limit; field; lra). set (q := (lam * lam) ^ k). clearbody q.
      change ((q * lam - q * limit) * p + ((- (q * lam) - q * limit) * m + w) = w). transitivity (q * (lam * (p - m) - limit * (p + m)) + w); [ring|]. rewrite Q. ring. }
    rewrite E. pose proof nk_pos as Np. unfold Rdiv at 1. rewrite Rabs_mult, (Rabs_right (/ nk)) by (apply Rle_ge, Rlt_le, Rinv_0_lt_compat, Np).
    apply Rle_trans with (2 * Rabs lam * (rs n (fun a => (t a * t a) ^ k * rest a) / nk)); [|apply Rmult_le_compat_l; [pose proof (Rabs_pos lam); lra|exact bound_pos]].
    unfold Rdiv. rewrite <- Rmult_assoc. apply Rmult_le_compat_r; [apply Rlt_le, Rinv_0_lt_compat, Np|]. rewrite <- rs_scale.
    pose proof (rs_abs n (fun a => (t a - limit) * ((t a * t a) ^ k * rest a)) (fun _ => 0) (fun a => 2 * Rabs lam * ((t a * t a) ^ k * rest a))) as B.
    rewrite rs_const, Rmult_0_r, Rminus_0_r in B. apply B. intros a Ha. rewrite Rminus_0_r, Rabs_mult. destruct (pow_rest a k Ha) as [Z0 _]. rewrite (Rabs_right _ (Rle_ge _ _ Z0)). apply Rmult_le_compat_r; [exact Z0|].
    pose proof limit_le as Ll. assert (Tl : Rabs (t a) <= Rabs lam). { apply Rsqr_le_abs_0. unfold Rsqr. destruct (Ht a Ha) as [-> | [-> | H]]; lra. }
    eapply Rle_trans; [apply Rabs_triang|]. rewrite Rabs_Ropp. lra.
  Qed.
End Power.
