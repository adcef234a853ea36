(** Properties of the last loop of eigsolve of meanas/fdfd/bloch.py, which logs the error of each mode. *)
From Coq Require Import Reals List Arith ZArith Lia Lra Psatz Bool Permutation.
From Verif.Lib Require Import Num Sums Idx Mat RealF.
From Verif.Model Require Import Ndarray Bloch Eigensolvers BlochSolve.
From Verif.Spec Require Import BlochSpec EigenSpec BlochSolveSpec.
From Verif.Proofs Require Import EmeP EigensolversP BlochP BlochP2 BlochSolveP BlochSolveP2.
From Verif.Props Require Import BlochProps BlochSolveProps.
Import ListNotations.
Local Open Scope R_scope.

(** ** C148 *)

Lemma recover_length N k op inv sqrtm eig Z G ms : recover N k op inv sqrtm eig Z G = Some ms -> length ms = k.
Proof.
  unfold recover. intro H. destruct (inv k G); [|discriminate]. cbn [obind] in H. destruct (sqrtm k _); [|discriminate]. cbn [obind] in H.
  destruct (on_columns _ _ _); [|discriminate]. cbn [obind] in H. destruct (eig k _) as [[l W]|]; [|discriminate]. cbn [obind] in H.
  destruct (existsb _ _); [discriminate|]. injection H as <-. rewrite <- (Permutation_length (sort_abs_perm _)), map_length, seq_length. reflexivity.
Qed.
Lemma eigsolve_length N k op iop tol mx reset inv sqrtm eig minimize rng fuel y0 r :
  eigsolve N k op iop tol mx reset inv sqrtm eig minimize rng fuel y0 = Some r -> length (modes r) = k.
Proof. intro H. destruct (run_parts _ _ _ _ _ _ _ _ _ _ _ _ _ _ _ H) as (Z0 & st & v & y & _ & Rv & _). exact (recover_length _ _ _ _ _ _ _ _ _ Rv). Qed.
Lemma log_modes_two op l : (forall v, op v <> None) -> log_modes op 2 l = Some tt.
Proof.
  intro T. induction l as [|[lam v] l IH]; [reflexivity|]. cbn [log_modes]. destruct (op v) as [Av|] eqn:E; [|now destruct (T v)]. exact IH.
Qed.
Lemma log_modes_one op l : l <> [] -> log_modes op 1 l = None.
Proof. destruct l as [|[lam v] l]; [congruence|]. intros _. cbn [log_modes]. destruct (op v); reflexivity. Qed.

(** With scipy's [@], no call for one mode or more returns: if the search itself
    does not raise, [[:, 0]] does.  By then the caller's y0 has been replaced. *)
Theorem C148_raises :
  forall N k op iop tolerance max_iters reset_iters inv sqrtm eig minimize rng fuel y0 y result, (1 <= k)%nat ->
    eigsolve_call N k op iop tolerance max_iters reset_iters inv sqrtm eig minimize rng 1 fuel y0 = Some (y, result) -> result = None.
Proof.
  intros N k op iop tol mx reset inv sqrtm eig minimize rng fuel y0 y result Hk H. unfold eigsolve_call in H.
  destruct (eigsolve _ _ _ _ _ _ _ _ _ _ _ _ _ _) as [r|] eqn:E; [|discriminate]. cbn [obind] in H. injection H as _ <-.
  rewrite log_modes_one; [reflexivity|]. intro Q. pose proof (eigsolve_length _ _ _ _ _ _ _ _ _ _ _ _ _ _ _ E) as L. rewrite Q in L. cbn in L. lia.
Qed.
Print Assumptions C148_raises.
(** The expected claim, that a search which converges returns its modes, is false. *)
Theorem C148_returns_refuted :
  exists N k op iop tolerance max_iters reset_iters inv sqrtm eig minimize rng fuel y0 r,
    hermitian_op N op /\ inv_ok k inv /\ sqrtm_ok k sqrtm /\ eig_ok k eig /\
    eigsolve N k op iop tolerance max_iters reset_iters inv sqrtm eig minimize rng fuel y0 = Some r /\ converged r = true /\ length (modes r) = 1%nat /\
    eigsolve_call N k op iop tolerance max_iters reset_iters inv sqrtm eig minimize rng 1 fuel y0 = Some (y0_after r, None).
Proof.
  destruct C104_case as (_ & HI & HS & HE & HA & r & E & C). do 14 eexists. exists r. split; [exact HA|]. split; [exact HI|]. split; [exact HS|]. split; [exact HE|].
  split; [exact E|]. split; [exact C|]. pose proof (eigsolve_length _ _ _ _ _ _ _ _ _ _ _ _ _ _ _ E) as L. split; [exact L|].
  unfold eigsolve_call. rewrite E. cbn [obind]. rewrite log_modes_one; [reflexivity|]. intro Q. rewrite Q in L. discriminate.
Qed.
Print Assumptions C148_returns_refuted.
(** If [scipy_op @ v] had two dimensions, as the line expects, the loop would not
    change anything: the result is that of the computation without it. *)
Theorem C148_two_dimensions :
  forall N k op iop tolerance max_iters reset_iters inv sqrtm eig minimize rng fuel y0 y result, (forall v, op v <> None) ->
    (eigsolve_call N k op iop tolerance max_iters reset_iters inv sqrtm eig minimize rng 2 fuel y0 = Some (y, result) <->
     exists r, eigsolve N k op iop tolerance max_iters reset_iters inv sqrtm eig minimize rng fuel y0 = Some r /\ y = y0_after r /\ result = Some (modes r)).
Proof.
  intros N k op iop tol mx reset inv sqrtm eig minimize rng fuel y0 y result T. unfold eigsolve_call.
  destruct (eigsolve _ _ _ _ _ _ _ _ _ _ _ _ _ _) as [r|]; cbn [obind].
  - rewrite (log_modes_two op _ T). cbn [obind]. split.
    + intro H. injection H as <- <-. now exists r.
    + intros (r' & E & -> & ->). injection E as <-. reflexivity.
  - split; [discriminate|]. intros (r & E & _). discriminate.
Qed.
Print Assumptions C148_two_dimensions.
Example C148_case : (forall v, op1 v <> None) /\ exists y l, eigsolve_call 2 1 op1 iop1 1 2 100 inv1 sqrtm1 eig1 (better t1) no_rng 2 1 (Some y1) = Some (y, Some l) /\ length l = 1%nat.
Proof.
  assert (T : forall v, op1 v <> None) by (intros v Q; destruct (op_one v) as (w & E & _); rewrite (E : op1 v = Some w) in Q; discriminate).
  split; [exact T|]. destruct C104_case as (_ & _ & _ & _ & _ & r & E & C). exists (y0_after r), (modes r). split.
  - apply (C148_two_dimensions 2 1 op1 iop1); [exact T|]. now exists r.
  - exact (eigsolve_length _ _ _ _ _ _ _ _ _ _ _ _ _ _ _ E).
Qed.
