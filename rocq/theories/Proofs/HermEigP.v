(** Hermitian matrices: expansion of a vector, residual and Rayleigh quotient in eigenvectors. *)
From Coq Require Import Reals List Arith ZArith Lia Lra Psatz Bool.
From Verif.Lib Require Import Num Sums Idx Mat RealF BoxMin.
From Verif.Model Require Import Eigensolvers.
From Verif.Spec Require Import BlochSpec EigenSpec BlochSolveSpec BandsSpec.
From Verif.Proofs Require Import BlochSolveP BlochSolveP2 SpectralP MinMaxP.
Import ListNotations.
Local Open Scope R_scope.

Definition as_op n (A : mat CC) : vect CC -> option (vect CC) := fun v => Some (mv (K := CC) n A v).
Lemma as_op_herm n A : hermitian n A -> hermitian_op n (as_op n A).
Proof. intros H x y. exists (mv (K := CC) n A x), (mv (K := CC) n A y). split; [reflexivity|]. split; [reflexivity|]. symmetry. exact (eq_sym (herm_hdot n A H x y)). Qed.

Lemma not_all_zero n (g : nat -> cpx) : ~ (forall i, (i < n)%nat -> g i = c0) -> exists a, (a < n)%nat /\ g a <> c0.
Proof.
  intro Nz. induction n as [|m IH]; [exfalso; apply Nz; intros; lia|].
  destruct (cpx_dec (g m) c0) as [E|E]; [|exists m; split; [lia|exact E]]. destruct IH as (a & Ha & Na); [|exists a; split; [lia|exact Na]]. intro Y. apply Nz. intros i Hi.
  destruct (Nat.eq_dec i m) as [->|]; [exact E|apply Y; lia].
Qed.
Section Expand.
  Variables (n : nat) (A : mat CC).
  Hypothesis HA : hermitian n A.
  (** orthonormal eigenvectors with eigenvalues t *)
  Definition eigenbasis (V : mat CC) (t : nat -> R) : Prop :=
    (forall a b, (a < n)%nat -> (b < n)%nat -> hdot n (col V a) (col V b) = if (a =? b)%nat then c1 else c0) /\
    forall a, (a < n)%nat -> eigenpair n A (mkC (t a) 0) (col V a).
  Lemma eigenbasis_exists : exists V t, eigenbasis V t.
  Proof.
    destruct (bands_exist n (as_op n A) (as_op_herm n A HA)) as (V & w & HB). exists V, (fun a => - w a). split; [exact (b_orth _ _ _ _ HB)|].
    intros a Ha i Hi. exact (band_eig n (as_op n A) V w HB a i Ha Hi).
  Qed.
  Variables (V : mat CC) (t : nat -> R).
  Hypothesis HV : eigenbasis V t.
  Lemma basis_coef a z : (a < n)%nat -> hdot n (col V a) (mv (K := CC) n A z) = cmul (rc (t a)) (hdot n (col V a) z).
  Proof.
    intro Ha. transitivity (hdot n (mv (K := CC) n A (col V a)) z); [exact (herm_hdot n A HA (col V a) z)|].
    rewrite (hdot_ext n _ z (fun i => cmul (rc (t a)) (col V a i)) z); [|intros i Hi; exact (proj2 HV a Ha i Hi)|reflexivity].
    rewrite hdot_conj, hdot_scale_r, (hdot_conj n z (col V a)) at 1. rewrite (hdot_conj n (col V a) z). apply cpx_ext; cbn; ring.
  Qed.
  Lemma residual_sum l z : residual2 n A l z = rs n (fun a => cnrm (csub (rc (t a)) l) * cnrm (hdot n (col V a) z)).
  Proof.
    unfold residual2. rewrite (parseval2 n V (proj1 HV)). apply rs_ext. intros a Ha.
    assert (E : hdot n (col V a) (fun i => csub (mv (K := CC) n A z i) (cmul l (z i))) = cmul (csub (rc (t a)) l) (hdot n (col V a) z)).
    { transitivity (csub (hdot n (col V a) (mv (K := CC) n A z)) (cmul l (hdot n (col V a) z))).
      - rewrite <- hdot_scale_r. unfold hdot. refine (eq_trans _ (sumN_sub CC n _ _)). apply (sumN_ext CC). intros i _. apply cpx_ext; cbn; ring.
      - rewrite basis_coef by exact Ha. apply cpx_ext; cbn; ring. }
    rewrite E. unfold cnrm. cbn. ring.
  Qed.
  Lemma quotient_sum z : norm2 n z = 1 -> rayleigh_quotient n A z = rc (rs n (fun a => t a * cnrm (hdot n (col V a) z))).
  Proof.
    intro U. unfold rayleigh_quotient. rewrite U. change (sumN (K := CC) n (fun i => cmul (cconj (z i)) (mv (K := CC) n A z i))) with (hdot n z (mv (K := CC) n A z)).
    rewrite (parseval n V (proj1 HV)). rewrite (sumN_ext CC n _ (fun a => rc (t a * cnrm (hdot n (col V a) z)))).
    - rewrite rs_CC. apply cpx_ext; cbn; unfold cnrm; cbn; field.
    - intros a Ha. rewrite basis_coef by exact Ha. unfold cnrm. apply cpx_ext; cbn; ring.
  Qed.
  Lemma basis_nonzero a : (a < n)%nat -> nonzero_vec n (col V a).
  Proof.
    intro Ha. pose proof (proj1 HV a a Ha Ha) as E. rewrite Nat.eqb_refl in E.
    destruct (all_dec n (fun i => col V a i = c0)) as [Z|Nz].
    - intros i _. destruct (cpx_dec (col V a i) c0); auto.
    - exfalso. rewrite (hdot_ext n _ _ (col V a) (fun _ => c0)) in E by (first [intros; reflexivity|exact Z]). rewrite hdot_zero_r in E. apply (f_equal cre) in E. cbn in E. lra.
    - exact (not_all_zero n (col V a) Nz).
  Qed.
  (** A real or complex eigenvalue is one of the t. *)
  Lemma basis_all mu x : eigenpair n A mu x -> nonzero_vec n x -> exists a, (a < n)%nat /\ mu = rc (t a) /\ hdot n (col V a) x <> c0.
  Proof.
    intros Ex (p & Hp & Np).
    destruct (all_dec n (fun a => hdot n (col V a) x = c0)) as [Z|Nz].
    - intros a _. destruct (cpx_dec (hdot n (col V a) x) c0); auto.
    - exfalso. apply Np. rewrite (on_complete n V (proj1 HV) x p Hp). unfold comb. apply (sumN_zero CC). intros a Ha. rewrite (Z a Ha). apply cpx_ext; cbn; ring.
    - pose proof (not_all_zero n (fun a => hdot n (col V a) x) Nz) as X.
      destruct X as (a & Ha & Na). exists a. split; [exact Ha|]. split; [|exact Na].
      pose proof (basis_coef a x Ha) as Q. rewrite (hdot_ext n _ (mv (K := CC) n A x) (col V a) (fun i => cmul mu (x i))) in Q by (first [intros; reflexivity|exact Ex]).
      rewrite hdot_scale_r in Q. set (z := hdot n (col V a) x) in *. clearbody z.
      transitivity (cmul (cmul mu z) (cinv z)).
      + transitivity (cmul mu (cmul z (cinv z))); [rewrite (cinv_r z Na)|]; apply cpx_ext; cbn; ring.
      + rewrite Q. transitivity (cmul (rc (t a)) (cmul z (cinv z))); [|rewrite (cinv_r z Na)]; apply cpx_ext; cbn; ring.
  Qed.
End Expand.
