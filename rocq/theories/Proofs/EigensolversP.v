(** Lemmas for meanas/eigensolvers.py. *)
From Coq Require Import Reals List Arith ZArith Lia Lra Bool.
From Verif.Lib Require Import Num Sums Idx Mat RealF.
From Verif.Model Require Import WaveguideReal Eigensolvers.
Import ListNotations.
Local Open Scope R_scope.

Definition nrm2 (n : nat) (x : vect CC) : R := sumN (K := RF) n (fun i => cnrm (x i)).
Lemma nrm2_pos n x : 0 <= nrm2 n x.
Proof. apply sumN_nonneg. intros i _. unfold cnrm. nra. Qed.
Lemma vnorm_sq n x : vnorm n x * vnorm n x = nrm2 n x.
Proof. apply sqrt_sqrt, nrm2_pos. Qed.
Lemma vnorm_pos n x : 0 <= vnorm n x. Proof. apply sqrt_pos. Qed.
Lemma vdivr_at x r i : r <> 0 -> cre (vdivr x r i) = cre (x i) / r /\ cim (vdivr x r i) = cim (x i) / r.
Proof. intro H. unfold vdivr, cdiv, cinv, cmul, cnrm. cbn. split; field; exact H. Qed.
Lemma nrm2_vdivr n x r : r <> 0 -> nrm2 n (vdivr x r) = nrm2 n x / (r * r).
Proof.
  intro H. unfold nrm2. induction n as [|n IH]; [cbn; field; exact H|]. cbn [sumN].
  change (sumN (K := RF) n (fun i => cnrm (vdivr x r i)) + cnrm (vdivr x r n) = (sumN (K := RF) n (fun i => cnrm (x i)) + cnrm (x n)) / (r * r)).
  rewrite IH. destruct (vdivr_at x r n H) as (A & B). set (s := sumN (K := RF) n (fun i => cnrm (x i))). unfold cnrm. rewrite A, B. field. exact H.
Qed.
Lemma normalize_unit n x : vnorm n x <> 0 -> vnorm n (normalize n x) = 1.
Proof.
  intro H. unfold vnorm. change (sqrt (nrm2 n (normalize n x)) = 1). unfold normalize. rewrite nrm2_vdivr by exact H.
  rewrite vnorm_sq. assert (N : nrm2 n x <> 0) by (rewrite <- vnorm_sq; nra). unfold Rdiv. rewrite Rinv_r by exact N. apply sqrt_1.
Qed.
Lemma vnorm_ext n x y : (forall i, (i < n)%nat -> x i = y i) -> vnorm n x = vnorm n y.
Proof. intro H. unfold vnorm. f_equal. apply sumN_ext. intros i Hi. now rewrite H. Qed.
Lemma cdot_ext n x y x' y' : (forall i, (i < n)%nat -> x i = x' i) -> (forall i, (i < n)%nat -> y i = y' i) -> cdot n x y = cdot n x' y'.
Proof. intros H G. unfold cdot. apply (sumN_ext CC). intros i Hi. now rewrite H, G. Qed.
Lemma cdot_self n x : cdot n x x = mkC (nrm2 n x) 0.
Proof.
  unfold cdot, nrm2. induction n as [|n IH]; [reflexivity|]. cbn [sumN]. rewrite IH.
  set (s := sumN (K := RF) n _). clearbody s. apply cpx_ext; cbn; unfold cnrm; ring.
Qed.
Lemma cdot_scale n x c y : cdot n x (fun i => cmul c (y i)) = cmul c (cdot n x y).
Proof.
  unfold cdot. refine (eq_trans _ (sumN_mul_l CC n c (fun i => cmul (cconj (x i)) (y i)))). apply (sumN_ext CC). intros i _. apply cpx_ext; cbn; ring.
Qed.
Lemma vnorm_zero n x : (forall i, (i < n)%nat -> x i = c0) -> vnorm n x = 0.
Proof.
  intro H. rewrite (vnorm_ext n x (fun _ => c0) H). unfold vnorm. rewrite sumN_zero; [apply sqrt_0|]. intros. unfold cnrm, c0. cbn. ring.
Qed.
Lemma mv_vdivr n A x r i : r <> 0 -> mv n A (vdivr x r) i = vdivr (mv n A x) r i.
Proof.
  intro H. assert (E : forall j, vdivr x r j = cmul (mkC (/ r) 0) (x j)).
  { intro j. destruct (vdivr_at x r j H) as (P & Q). apply cpx_ext; [rewrite P|rewrite Q]; cbn; field; exact H. }
  transitivity (mv n A (fun j => @fmul CC (mkC (/ r) 0) (x j)) i); [apply mv_ext_v; intros; apply E|]. rewrite mv_lin_scale.
  destruct (vdivr_at (mv n A x) r i H) as (P & Q). apply cpx_ext; [rewrite P|rewrite Q]; cbn; field; exact H.
Qed.

(** ** The Rayleigh quotient gives the smallest residual. *)
Lemma nrm2_comb n (y v : vect CC) mu : nrm2 n v = 1 ->
  nrm2 n (fun i => csub (y i) (cmul mu (v i)))
  = nrm2 n y - 2 * cre (cmul (cconj mu) (cdot n v y)) + cnrm mu.
Proof.
  intro H. transitivity (nrm2 n y - 2 * cre (cmul (cconj mu) (cdot n v y)) + cnrm mu * nrm2 n v); [|rewrite H; ring]. clear H.
  unfold nrm2, cdot. induction n as [|n IH]; [cbn; ring|]. cbn [sumN].
  set (s1 := sumN (K := RF) n (fun i => cnrm (csub _ _))) in *. set (s2 := sumN (K := RF) n (fun i => cnrm (y i))) in *.
  set (s3 := sumN (K := CC) n _) in *. set (s4 := sumN (K := RF) n (fun i => cnrm (v i))) in *.
  clearbody s1 s2 s3 s4. unfold cnrm in *. cbn in *. lra.
Qed.
Lemma rq_optimal n A v mu : nrm2 n v = 1 -> residual n A (cdot n v (mv n A v)) v <= residual n A mu v.
Proof.
  intro H. unfold residual, vnorm. apply sqrt_le_1_alt.
  change (nrm2 n (fun i => csub (mv n A v i) (cmul (cdot n v (mv n A v)) (v i))) <= nrm2 n (fun i => csub (mv n A v i) (cmul mu (v i)))).
  rewrite !nrm2_comb by exact H. set (d := cdot n v _). clearbody d. generalize (nrm2 n (mv n A v)). intro Y. unfold cnrm. cbn.
  pose proof (Rle_0_sqr (cre mu - cre d)) as P1. pose proof (Rle_0_sqr (cim mu - cim d)) as P2. unfold Rsqr in *. lra.
Qed.

From Verif.Spec Require Import EigenSpec.

Lemma norm2_eq n v : norm2 n v = nrm2 n v. Proof. reflexivity. Qed.
Lemma residual_sq n A lam v : residual n A lam v * residual n A lam v = residual2 n A lam v.
Proof. apply vnorm_sq. Qed.
Lemma residual_pos n A lam v : 0 <= residual n A lam v. Proof. apply vnorm_pos. Qed.
Lemma rq_unit n A v : norm2 n v = 1 -> cdot n v (mv n A v) = rayleigh_quotient n A v.
Proof. intro H. unfold rayleigh_quotient. rewrite H. fold (cdot n v (mv n A v)). apply cpx_ext; cbn; unfold cnrm; cbn; field. Qed.
Lemma nonzero_norm n v : nonzero_vec n v -> vnorm n v <> 0.
Proof.
  intros (i & Hi & H) Z. assert (S : nrm2 n v = 0) by (rewrite <- vnorm_sq, Z; ring).
  assert (G : cnrm (v i) <= nrm2 n v).
  { clear - Hi. unfold nrm2. induction n as [|n IH]; [lia|]. change (cnrm (v i) <= sumN (K := RF) n (fun i => cnrm (v i)) + cnrm (v n)).
    pose proof (nrm2_pos n v) as P. unfold nrm2 in P. assert (0 <= cnrm (v n)) by (unfold cnrm; nra).
    destruct (Nat.eq_dec i n) as [->|Ne]; [lra|]. specialize (IH ltac:(lia)). lra. }
  apply (cnrm_nz _ H). pose proof (nrm2_pos n v). assert (0 <= cnrm (v i)) by (unfold cnrm; nra). lra.
Qed.
Lemma normalize_unit_of n v : nonzero_vec n v -> unit_of n v (normalize n v).
Proof.
  intro H. apply nonzero_norm in H. split.
  - rewrite norm2_eq, <- vnorm_sq, normalize_unit by exact H. ring.
  - exists (vnorm n v). pose proof (vnorm_pos n v). split; [lra|]. intro i. destruct (vdivr_at v (vnorm n v) i H) as (A & B).
    unfold normalize. apply cpx_ext; cbn [cre cim cmul]; rewrite A, B; field; exact H.
Qed.
Lemma unit_nonzero n v : norm2 n v = 1 -> nonzero_vec n v.
Proof.
  intro H. unfold nonzero_vec. destruct (Classical_Prop.classic (exists i, (i < n)%nat /\ v i <> c0)) as [E|E]; [exact E|exfalso].
  assert (Z : norm2 n v = 0).
  { rewrite norm2_eq, <- vnorm_sq, vnorm_zero; [ring|]. intros i Hi. destruct (cpx_dec (v i) c0) as [Q|Q]; [exact Q|]. exfalso. apply E. now exists i. }
  lra.
Qed.
