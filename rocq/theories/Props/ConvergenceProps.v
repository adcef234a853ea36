(** Convergence of the iterative eigensolvers in meanas/eigensolvers.py. *)
From Coq Require Import Reals List Arith ZArith Lia Lra Bool.
From Verif.Lib Require Import Num Sums Idx Mat RealF.
From Verif.Model Require Import Eigensolvers.
From Verif.Spec Require Import EigenSpec.
From Verif.Proofs Require Import FdfdP2 EigensolversP PowerP.
From Verif.Props Require Import EigenProps.
Import ListNotations.
Local Open Scope R_scope.

(** ** C130 *)
(** power_iteration converges.  The guess is an eigenvector w, with eigenvalue
    lam, plus eigenvectors whose eigenvalues are smaller in magnitude: their
    squared magnitudes are at most rho < |lam|^2.  Then the returned eigenvalue
    tends to lam, the residual to 0 and the returned vector to a multiple of w;
    the squared errors decrease like (rho / |lam|^2)^iterations. *)
Theorem C130_power_iteration_converges :
  forall (n : nat) (A : mat CC) (guess : vect CC) (lam : cpx) (w : vect CC) (m : nat) (mu : nat -> cpx) (y : nat -> vect CC) (rho : R),
    nonzero_vec n w -> eigenpair n A lam w ->
    (forall k, (k < m)%nat -> eigenpair n A (mu k) (y k) /\ cnrm (mu k) <= rho) ->
    0 <= rho < cnrm lam ->
    (forall i, (i < n)%nat -> guess i = cadd (w i) (sumN (K := CC) m (fun k => y k i))) ->
    exists (C : R) (N : nat), forall iterations, (N <= iterations)%nat ->
      let '(l, v) := result (power_iteration n A guess iterations) in
      norm2 n v = 1 /\
      cnrm (csub l lam) <= C * (rho / cnrm lam) ^ iterations /\
      residual2 n A lam v <= C * (rho / cnrm lam) ^ iterations /\
      exists p, norm2 n (fun i => csub (v i) (cmul p (w i))) <= C * (rho / cnrm lam) ^ iterations.
Proof.
  intros n A g lam w m mu y rho Hw Ew Hy (R0 & R1) Hg.
  destruct (converges n A lam w m mu y rho Hw Ew (fun k Hk => proj1 (Hy k Hk)) (fun k Hk => proj2 (Hy k Hk)) R1 g Hg ltac:(lra)) as (C & N & C0 & H).
  rewrite (Rmax_left rho 0) in H by exact R0.
  exists C, N. intros t Ht. destruct (H t Ht) as (Nz & V).
  pose proof (C48_power_iteration n A g t Nz) as T. destruct (result (power_iteration n A g t)) as [l v]. destruct T as (U & -> & _).
  destruct (V v U) as (V1 & V2). split; [apply U|]. split; [|split; assumption].
  eapply Rle_trans; [|exact V1]. apply rq_close, U.
Qed.
Print Assumptions C130_power_iteration_converges.

(** The matrix diag(2, 1) with the guess (1, 1): w = (1, 0), the rest is (0, 1). *)
Definition e_at (k : nat) : vect CC := fun i => if Nat.eqb i k then c1 else c0.
Example C130_case :
  let A := rdiag [2; 1] in
  nonzero_vec 2 (e_at 0) /\ eigenpair 2 A (mkC 2 0) (e_at 0) /\
  (forall k, (k < 1)%nat -> eigenpair 2 A c1 (e_at 1) /\ cnrm c1 <= 1) /\
  0 <= 1 < cnrm (mkC 2 0) /\
  (forall i, (i < 2)%nat -> c1 = cadd (e_at 0 i) (sumN (K := CC) 1 (fun k => e_at 1 i))).
Proof.
  intro A. split; [|split; [|split; [|split]]].
  - exists 0%nat. split; [lia|]. intro Z. injection Z. lra.
  - intros i Hi. refine (eq_trans (mv_rdiag 2 [2; 1] _ i Hi) _). destruct i as [|[|i]]; [| |lia]; apply cpx_ext; cbn; ring.
  - intros k _. split; [|unfold cnrm; cbn; lra].
    intros i Hi. refine (eq_trans (mv_rdiag 2 [2; 1] _ i Hi) _). destruct i as [|[|i]]; [| |lia]; apply cpx_ext; cbn; ring.
  - unfold cnrm. cbn. lra.
  - intros i Hi. destruct i as [|[|i]]; [| |lia]; apply cpx_ext; cbn; ring.
Qed.

(** ** C131 *)
(** rayleigh_quotient_iteration on a normal operator (|A x| = |A^H x|, for
    instance a Hermitian one) with a solver that solves the shifted systems: the
    residual of the returned pair is at most that of the guess with its own
    Rayleigh quotient, and further iterations never make it larger. *)
Theorem C131_rayleigh_residual :
  forall (n : nat) (A : mat CC) (tol : R) (solver : mat CC -> vect CC -> vect CC) (guess : vect CC) (few many : nat),
    0 <= tol -> nonzero_vec n guess -> normal_op n A ->
    (forall b, norm2 n b = 1 -> tol * tol <= residual2 n A (rayleigh_quotient n A b) b ->
       forall i, (i < n)%nat -> mv (K := CC) n (shifted A (rayleigh_quotient n A b)) (solver (shifted A (rayleigh_quotient n A b)) b) i = b i) ->
    (0 < few <= many)%nat ->
    exists l v l' v',
      result (rayleigh_quotient_iteration n A tol solver guess few) = Some (l, v) /\
      result (rayleigh_quotient_iteration n A tol solver guess many) = Some (l', v') /\
      norm2 n v = 1 /\ norm2 n v' = 1 /\
      residual2 n A l' v' <= residual2 n A l v /\
      residual2 n A l v * norm2 n guess <= residual2 n A (rayleigh_quotient n A guess) guess.
Proof.
  intros n A tol solver g few many Ht Hg N HS (H0 & H1).
  destruct (normalize_unit_of n g Hg) as (U & r & Hr & D). set (u := normalize n g) in *.
  destruct few as [|a]; [lia|]. destruct many as [|b]; [lia|].
  destruct (loop_mono n A tol solver N Ht HS a b None u ltac:(lia) U) as (l & w & l' & w' & E1 & E2 & L).
  destruct (loop_res n A tol solver N Ht HS a None u U) as (l1 & w1 & F1 & UF1 & L1). rewrite E1 in F1. injection F1 as <- <-.
  destruct (loop_res n A tol solver N Ht HS b None u U) as (l2 & w2 & F2 & UF2 & L2). rewrite E2 in F2. injection F2 as <- <-.
  exists l, w, l', w'. unfold rayleigh_quotient_iteration. fold u. rewrite E1, E2. splits; try reflexivity; try assumption.
  assert (Ng : norm2 n g = r * r).
  { change (nrm2 n g = r * r). rewrite (nrm2_ext n g (fun i => cmul (mkC r 0) (u i))) by (intros; apply D). rewrite nrm2_scale. change (nrm2 n u) with (norm2 n u). rewrite U. unfold cnrm. cbn. ring. }
  assert (Mg : forall i, mv (K := CC) n A g i = cmul (mkC r 0) (mv (K := CC) n A u i)).
  { intro i. refine (eq_trans (mv_ext_v CC n A g (fun j => @fmul CC (mkC r 0) (u j)) i (fun j _ => D j)) _). apply (mv_lin_scale CC). }
  assert (Q : rayleigh_quotient n A g = cdot n u (mv n A u)).
  { unfold rayleigh_quotient. rewrite Ng. fold (cdot n g (mv (K := CC) n A g)).
    assert (G : cdot n g (mv (K := CC) n A g) = cmul (mkC (r * r) 0) (cdot n u (mv (K := CC) n A u))).
    { unfold cdot. rewrite <- (sumN_mul_l CC). apply (sumN_ext CC). intros i _. rewrite Mg, (D i). apply cpx_ext; cbn; ring. }
    rewrite G. set (d := cdot n u (mv (K := CC) n A u)). clearbody d. apply cpx_ext; cbn; unfold cnrm; cbn; field; lra. }
  rewrite Q, Ng. set (d := cdot n u (mv (K := CC) n A u)) in *.
  assert (Rg : residual2 n A d g = r * r * residual2 n A d u).
  { unfold residual2. change (nrm2 n (fun i => csub (mv (K := CC) n A g i) (cmul d (g i))) = r * r * nrm2 n (fun i => csub (mv (K := CC) n A u i) (cmul d (u i)))).
    rewrite (nrm2_ext n _ (fun i => cmul (mkC r 0) (csub (mv (K := CC) n A u i) (cmul d (u i))))).
    - rewrite nrm2_scale. unfold cnrm at 1. cbn. ring.
    - intros i _. rewrite Mg, (D i). apply cpx_ext; cbn; ring. }
  rewrite Rg, Rmult_comm. apply Rmult_le_compat_l; [|exact L1]. apply Rmult_le_pos; lra.
Qed.
Print Assumptions C131_rayleigh_residual.

(** diag(0, 1) is normal, its shifted systems are solved by division and
    the guess (3/5, 4/5) is no eigenvector. *)
Example C131_case :
  nonzero_vec 2 guess34 /\ normal_op 2 A01 /\
  (forall b, norm2 2 b = 1 -> 1 / 10 * (1 / 10) <= residual2 2 A01 (rayleigh_quotient 2 A01 b) b ->
     forall i, (i < 2)%nat -> mv (K := CC) 2 (shifted A01 (rayleigh_quotient 2 A01 b)) (diag_solver (shifted A01 (rayleigh_quotient 2 A01 b)) b) i = b i).
Proof.
  split; [|split].
  - apply C48_rayleigh_quotient_iteration_case.
  - intro x. apply (sumN_ext RF). intros i Hi.
    assert (E : mv (K := CC) 2 (fun i j => cconj (A01 j i)) x i = mv (K := CC) 2 A01 x i).
    { unfold mv. apply (sumN_ext CC). intros j Hj. f_equal. destruct i as [|[|i]]; [| |lia]; destruct j as [|[|j]]; try lia; apply cpx_ext; cbn; ring. }
    now rewrite E.
  - intros b U R i Hi. destruct (A01_solver_nz b U R) as (Z0 & Z1 & _). exact (A01_solve _ b i Z0 Z1 Hi).
Qed.
