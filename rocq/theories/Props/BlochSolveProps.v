(** Properties of eigsolve and find_k of meanas/fdfd/bloch.py. *)
From Coq Require Import Reals List Arith ZArith Lia Lra Psatz Bool Field Sorted.
From Verif.Lib Require Import Num Sums Idx Mat RealF Dft.
From Verif.Model Require Import Ndarray Bloch Eigensolvers BlochSolve WaveguideReal.
From Verif.Spec Require Import BlochSpec EigenSpec BlochSolveSpec.
From Verif.Proofs Require Import EmeP EigensolversP BlochP BlochP2 BlochSolveP BlochSolveP2.
From Verif.Props Require Import BlochProps.
Import ListNotations.
Local Open Scope R_scope.

(** ** C104: Ritz pairs *)

Lemma its_head N k op iop tol reset inv minimize fuel : forall i st its st' its' conv,
  cg_loop N k op iop tol reset inv minimize fuel i st its = Some (st', its', conv) -> (exists tl, its = sZ st :: tl) -> exists tl, its' = sZ st' :: tl.
Proof.
  induction fuel as [|f IH]; intros i st its st' its' conv H (tl & Hd); cbn [cg_loop] in H; [injection H as <- <- _; now exists tl|].
  destruct (cg_step _ _ _ _ _ _ _ _ i st) as [r|] eqn:Es; [|discriminate]. cbn [obind] in H. destruct r as [s|s]; [|apply (IH _ _ _ _ _ _ H); now exists its].
  injection H as <- <- _. exists tl. rewrite Hd. f_equal. clear - Es. unfold cg_step in Es. cbv zeta in Es.
  destruct (inv k _); [|discriminate]. cbn [obind] in Es. destruct (on_columns op k _); [|discriminate]. cbn [obind] in Es.
  destruct (_ && _)%bool; [injection Es as <-; reflexivity|]. exfalso. revert Es.
  repeat match goal with |- obind ?o _ = _ -> _ => destruct o; [cbn [obind]|discriminate] end.
  destruct (Req_EM_T _ _); [discriminate|]. repeat match goal with |- obind ?o _ = _ -> _ => destruct o; [cbn [obind]|discriminate] end. discriminate.
Qed.
(** The parts of a run. *)
Lemma run_parts N k op iop tol mx reset inv sqrtm eig minimize rng fuel y0 r :
  eigsolve N k op iop tol mx reset inv sqrtm eig minimize rng fuel y0 = Some r ->
  exists Z0 st view y, cg_loop N k op iop tol reset inv minimize mx 0 (mkCg Z0 (mm N (mct Z0) Z0) (mzero (K := CC)) 0 1 0) [Z0] = Some (st, iterates r, converged r) /\
    recover N k op inv sqrtm eig (sZ st) (sZtZ st) = Some (modes r) /\ (y0_after r = if view : bool then mtr (sZ st) else y) /\
    (fuel = 1%nat -> y0 <> None -> view = true).
Proof.
  unfold eigsolve. intro H.
  assert (G : forall draw view y Z, obind (start_loop N k inv sqrtm rng fuel draw view y Z) (fun z => let '(Z, ZtZ, view, y) := z in
      obind (cg_loop N k op iop tol reset inv minimize mx 0 (mkCg Z ZtZ (mzero (K := CC)) 0 1 0) [Z]) (fun l => let '(st, its, conv) := l in
      obind (recover N k op inv sqrtm eig (sZ st) (sZtZ st)) (fun ms => Some (mkSolved ms (if view then mtr (sZ st) else y) its conv)))) = Some r ->
    exists Z0 st view' y', cg_loop N k op iop tol reset inv minimize mx 0 (mkCg Z0 (mm N (mct Z0) Z0) (mzero (K := CC)) 0 1 0) [Z0] = Some (st, iterates r, converged r) /\
    recover N k op inv sqrtm eig (sZ st) (sZtZ st) = Some (modes r) /\ (y0_after r = if view' : bool then mtr (sZ st) else y') /\ (fuel = 1%nat -> view' = view)).
  { intros draw view y Z H'. destruct (start_loop N k inv sqrtm rng fuel draw view y Z) as [[[[Z0 G] v'] y']|] eqn:S; [|discriminate]. cbn [obind] in H'.
    pose proof (start_loop_gram _ _ _ _ _ _ _ _ _ _ _ _ _ _ S) as ->.
    destruct (cg_loop _ _ _ _ _ _ _ _ _ _ _ _) as [[[st its] conv]|] eqn:L; [|discriminate]. cbn [obind] in H'.
    destruct (recover _ _ _ _ _ _ _ _) as [ms|] eqn:Rv; [|discriminate]. cbn [obind] in H'. injection H' as <-. exists Z0, st, v', y'. cbn. repeat split; auto.
    intros ->. clear - S. cbn [start_loop] in S. cbv zeta in S. destruct (Req_EM_T _ 0); [discriminate|]. destruct (inv k _); [|discriminate].
    destruct (Rlt_dec _ _); [destruct (sqrtm k _); discriminate|]. congruence. }
  destruct y0 as [y|].
  - destruct (G _ _ _ _ H) as (Z0 & st & v & y' & A & B & C & D). exists Z0, st, v, y'. auto.
  - destruct (G _ _ _ _ H) as (Z0 & st & v & y' & A & B & C & D). exists Z0, st, v, y'. repeat split; auto.
Qed.
Lemma converged_gram N k op iop tol mx reset inv sqrtm eig minimize rng fuel y0 r : hermitian_op N op -> inv_ok k inv ->
  eigsolve N k op iop tol mx reset inv sqrtm eig minimize rng fuel y0 = Some r -> converged r = true ->
  exists Z Zp tl E Ep, iterates r = Z :: Zp :: tl /\ recover N k op inv sqrtm eig Z (mm N (mct Z) Z) = Some (modes r) /\
    objective N k op Z E /\ objective N k op Zp Ep /\ Rabs (E - Ep) < tol * (1 / 2) * (E + Ep + 1 / 10000000).
Proof.
  intros HA HI H C. destruct (run_parts _ _ _ _ _ _ _ _ _ _ _ _ _ _ _ H) as (Z0 & st & v & y & L & Rv & _). rewrite C in L.
  destruct (loop_converged N k op iop tol reset inv minimize HA HI _ _ _ _ _ _ L) as (G & Zp & tl & E & Ep & EI & O1 & O2 & Lt).
  - cbn. now exists [].
  - intro; lia.
  - rewrite G in Rv. exists (sZ st), Zp, tl, E, Ep. auto.
Qed.

(** A run that converges returns num_modes pairs, ordered by magnitude.  Each one
    is a unit vector in the span of the last iterate, with a real eigenvalue equal
    to its Rayleigh quotient and a residual orthogonal to the last iterate.
    Vectors with different eigenvalues are orthogonal. *)
Theorem C104_ritz :
  forall N k op iop tolerance max_iters reset_iters inv sqrtm eig minimize rng fuel y0 r,
    hermitian_op N op -> inv_ok k inv -> sqrtm_ok k sqrtm -> eig_ok k eig ->
    eigsolve N k op iop tolerance max_iters reset_iters inv sqrtm eig minimize rng fuel y0 = Some r -> converged r = true ->
    exists Z rest, iterates r = Z :: rest /\ length (modes r) = k /\ StronglySorted abs_le (modes r) /\
      (forall lam v, In (lam, v) (modes r) -> ritz_pair N k op Z lam v) /\
      (forall lam1 v1 lam2 v2, In (lam1, v1) (modes r) -> In (lam2, v2) (modes r) -> lam1 <> lam2 -> hdot N v1 v2 = c0).
Proof.
  intros N k op iop tol mx reset inv sqrtm eig minimize rng fuel y0 r HA HI HS HE H C.
  destruct (converged_gram _ _ _ _ _ _ _ _ _ _ _ _ _ _ _ HA HI H C) as (Z & Zp & tl & _ & _ & EI & Rv & _).
  destruct (recover_ok N k op inv sqrtm eig Z (modes r) HA HI HS HE Rv) as (Ln & So & P). exists Z, (Zp :: tl). split; [exact EI|]. split; [exact Ln|]. split; [exact So|].
  split; [intros lam v Hi; exact (P _ Hi)|]. intros l1 v1 l2 v2 H1 H2 N12. exact (ritz_orthogonal N k op Z l1 v1 l2 v2 HA (P _ H1) (P _ H2) N12).
Qed.
Print Assumptions C104_ritz.
(** If the operator maps the span of the last iterate to itself, they are eigenpairs. *)
Theorem C104_exact :
  forall N k op iop tolerance max_iters reset_iters inv sqrtm eig minimize rng fuel y0 r Z rest,
    hermitian_op N op -> inv_ok k inv -> sqrtm_ok k sqrtm -> eig_ok k eig ->
    eigsolve N k op iop tolerance max_iters reset_iters inv sqrtm eig minimize rng fuel y0 = Some r -> converged r = true ->
    iterates r = Z :: rest -> (forall j y, (j < k)%nat -> op (col Z j) = Some y -> in_span N k Z y) ->
    forall lam v, In (lam, v) (modes r) -> exists Av, op v = Some Av /\ forall i, (i < N)%nat -> Av i = cmul lam (v i).
Proof.
  intros N k op iop tol mx reset inv sqrtm eig minimize rng fuel y0 r Z rest HA HI HS HE H C EI Hinv lam v Hv.
  destruct (C104_ritz _ _ _ _ _ _ _ _ _ _ _ _ _ _ _ HA HI HS HE H C) as (Z' & rest' & EI' & _ & _ & P & _). rewrite EI in EI'. injection EI' as <- <-.
  pose proof (P lam v Hv) as Q. exists (Af op v). split; [apply (op_Af N op HA)|].
  apply (ritz_exact N k op Z lam v HA (fun j Hj y E => Hinv j y Hj E) Q). apply (op_Af N op HA).
Qed.
Print Assumptions C104_exact.
(** eigsolve with the operators it builds: the eigenvalues are also not positive. *)
Theorem C104_bloch :
  forall k0 G sh (eps : nat -> list nat -> R) k tolerance max_iters reset_iters inv sqrtm eig minimize rng fuel y0 r,
    length sh = 3%nat -> off_y_axis k0 G sh -> (forall a j, (a < 3)%nat -> inb sh j -> 0 < eps a j) ->
    inv_ok k inv -> sqrtm_ok k sqrtm -> eig_ok k eig ->
    let op := bloch_op k0 G sh (fun a j => mkC (eps a j) 0) None in
    let N := (2 * prodl sh)%nat in
    eigsolve N k op (bloch_iop k0 G sh (fun a j => mkC (eps a j) 0) None) tolerance max_iters reset_iters inv sqrtm eig minimize rng fuel y0 = Some r -> converged r = true ->
    length (modes r) = k /\ StronglySorted abs_le (modes r) /\
    exists Z rest, iterates r = Z :: rest /\ forall lam v, In (lam, v) (modes r) -> ritz_pair N k op Z lam v /\ cre lam <= 0.
Proof.
  intros k0 G sh eps k tol mx reset inv sqrtm eig minimize rng fuel y0 r L Oy He HI HS HE op N H C. pose proof (op_fin k0 G sh L Oy) as Hf.
  assert (He0 : forall a j, (a < 3)%nat -> inb sh j -> eps a j <> 0) by (intros a j Ha Hj X; pose proof (He a j Ha Hj); lra).
  assert (HA : hermitian_op N op) by (apply bloch_op_hermitian; assumption).
  destruct (C104_ritz _ _ _ _ _ _ _ _ _ _ _ _ _ _ _ HA HI HS HE H C) as (Z & rest & EI & Ln & So & P & _). split; [exact Ln|]. split; [exact So|]. exists Z, rest. split; [exact EI|].
  intros lam v Hv. specialize (P lam v Hv). split; [exact P|]. destruct P as (_ & _ & _ & Av & EA & <- & _). unfold op, bloch_op in EA.
  assert (He' : forall a j, (a < 3)%nat -> inb sh j -> mkC (eps a j) 0 <> c0) by (intros; now apply mkC_nz, He0).
  destruct (mop_value k0 G sh L Hf _ He' v) as (rv & Er & Fr & _). rewrite Er in EA. cbn [obind] in EA. destruct (finite_vec_ok _ rv Fr) as (w & Ew & Vw). rewrite Ew in EA. injection EA as <-.
  unfold N. rewrite (hdot_ext _ v w v (fun p => value (rv p)) ltac:(reflexivity) Vw). exact (mop_negative k0 G sh eps v rv L Hf He Er).
Qed.
Print Assumptions C104_bloch.
(** One cell, one mode: the second pass through the loop ends it. *)
Lemma one_off_y : off_y_axis k0_x id3 one.
Proof. intros j Hj. rewrite (inb_one j Hj). left. unfold wavevector, k0_x, id3. cbn. lra. Qed.
Lemma eps1_pos a j : 0 < eps1 a j.
Proof. unfold eps1, eps_y, eps_z. destruct a as [|[|a]]; lra. Qed.
Notation op1 := (bloch_op k0_x id3 one (fun a j => mkC (eps1 a j) 0) None).
Notation iop1 := (bloch_iop k0_x id3 one (fun a j => mkC (eps1 a j) 0) None).
Lemma op1_hermitian : hermitian_op 2 op1.
Proof. apply (bloch_op_hermitian k0_x id3 one eps1 eq_refl fin_one). intros. apply eps1_nz. Qed.
Definition no_rng (_ : nat) : mat CC := mzero (K := CC).
Example C104_case : off_y_axis k0_x id3 one /\ inv_ok 1 inv1 /\ sqrtm_ok 1 sqrtm1 /\ eig_ok 1 eig1 /\ hermitian_op 2 op1 /\
  exists r, eigsolve 2 1 op1 iop1 1 2 100 inv1 sqrtm1 eig1 (better t1) no_rng 1 (Some y1) = Some r /\ converged r = true.
Proof.
  split; [exact one_off_y|]. split; [exact inv1_ok|]. split; [exact sqrtm1_ok|]. split; [exact eig1_ok|]. split; [exact op1_hermitian|].
  exact (run2 op1 iop1 op_one iop_one 100 no_rng).
Qed.

(** ** C105: the objective *)

(** If the line search is not worse than its start, |trace(Z^H A Z inv(Z^H Z))|
    never grows from an iterate to a later one ([iterates] has the last one first). *)
Theorem C105_descends :
  forall N k op iop tolerance max_iters reset_iters inv sqrtm eig minimize rng fuel y0 r,
    hermitian_op N op -> inv_ok k inv -> no_worse minimize ->
    eigsolve N k op iop tolerance max_iters reset_iters inv sqrtm eig minimize rng fuel y0 = Some r ->
    ForallOrdPairs (fun Z' Z => forall E E', objective N k op Z E -> objective N k op Z' E' -> E' <= E) (iterates r).
Proof.
  intros N k op iop tol mx reset inv sqrtm eig minimize rng fuel y0 r HA HI NW H. destruct (run_parts _ _ _ _ _ _ _ _ _ _ _ _ _ _ _ H) as (Z0 & st & v & y & L & _).
  apply (loop_descends N k op iop tol reset inv minimize HA HI mx NW _ _ _ _ _ _ L); [cbn; now exists []|]. repeat constructor.
Qed.
Print Assumptions C105_descends.
(** The test that ends the loop compares the objectives of the last two iterates. *)
Theorem C105_stop :
  forall N k op iop tolerance max_iters reset_iters inv sqrtm eig minimize rng fuel y0 r,
    hermitian_op N op -> inv_ok k inv ->
    eigsolve N k op iop tolerance max_iters reset_iters inv sqrtm eig minimize rng fuel y0 = Some r -> converged r = true ->
    exists Z Zp rest E Ep, iterates r = Z :: Zp :: rest /\ objective N k op Z E /\ objective N k op Zp Ep /\
      Rabs (E - Ep) < tolerance / 2 * (E + Ep + 1 / 10000000).
Proof.
  intros N k op iop tol mx reset inv sqrtm eig minimize rng fuel y0 r HA HI H C.
  destruct (converged_gram _ _ _ _ _ _ _ _ _ _ _ _ _ _ _ HA HI H C) as (Z & Zp & tl & E & Ep & EI & _ & O1 & O2 & Lt). exists Z, Zp, tl, E, Ep.
  replace (tol / 2) with (tol * (1 / 2)) by field. auto.
Qed.
Print Assumptions C105_stop.
Example C105_case : hermitian_op 2 op1 /\ inv_ok 1 inv1 /\ no_worse (better t1) /\
  exists r, eigsolve 2 1 op1 iop1 1 2 100 inv1 sqrtm1 eig1 (better t1) no_rng 1 (Some y1) = Some r /\ converged r = true.
Proof. split; [exact op1_hermitian|]. split; [exact inv1_ok|]. split; [exact (better_ok t1)|]. exact (run2 op1 iop1 op_one iop_one 100 no_rng). Qed.

(** ** C106: max_iters exhausted *)

Lemma loop_stale N k op iop tol reset inv minimize fuel : hermitian_op N op -> inv_ok k inv -> forall i st its st' its',
  cg_loop N k op iop tol reset inv minimize fuel i st its = Some (st', its', false) -> (0 < fuel)%nat -> (exists tl, its = sZ st :: tl) ->
  exists Zp tl, its' = sZ st' :: Zp :: tl /\ sZtZ st' = mm N (mct Zp) Zp.
Proof.
  intros HA HI. induction fuel as [|f IH]; intros i st its st' its' H Hf (tl & Hd); cbn [cg_loop] in H; [lia|].
  destruct (cg_step _ _ _ _ _ _ _ _ i st) as [r|] eqn:Es; [|discriminate]. cbn [obind] in H.
  destruct (step_E N k op iop tol reset inv minimize HA HI st i r Es) as (E & _ & C). destruct r as [s|s]; [discriminate|]. destruct C as (_ & EG & _).
  destruct f as [|f].
  - cbn [cg_loop] in H. injection H as <- <-. exists (sZ st), tl. rewrite Hd. auto.
  - apply (IH _ _ _ _ _ H); [lia|]. now exists its.
Qed.
(** One mode, loop not left by break: the eigenvalue is the Rayleigh quotient of
    the returned vector times |Z|^2 / |Zp|^2, Z and Zp the last two iterates. *)
Theorem C106_stale :
  forall N op iop tolerance max_iters reset_iters inv sqrtm eig minimize rng fuel y0 r,
    hermitian_op N op -> inv_ok 1 inv -> sqrtm_ok 1 sqrtm -> eig_ok 1 eig -> (0 < max_iters)%nat ->
    eigsolve N 1 op iop tolerance max_iters reset_iters inv sqrtm eig minimize rng fuel y0 = Some r -> converged r = false ->
    exists Z Zp rest lam v Av, iterates r = Z :: Zp :: rest /\ modes r = [(lam, v)] /\ norm2 N v = 1 /\ in_span N 1 Z v /\ op v = Some Av /\
      rmul (norm2 N (col Zp 0)) lam = rmul (norm2 N (col Z 0)) (hdot N v Av).
Proof.
  intros N op iop tol mx reset inv sqrtm eig minimize rng fuel y0 r HA HI HS HE Hm H C. destruct (run_parts _ _ _ _ _ _ _ _ _ _ _ _ _ _ _ H) as (Z0 & st & v & y & L & Rv & _). rewrite C in L.
  destruct (loop_stale N 1 op iop tol reset inv minimize mx HA HI _ _ _ _ _ L Hm) as (Zp & tl & EI & EG); [cbn; now exists []|]. rewrite EG in Rv.
  destruct (recover_one N op inv sqrtm eig (sZ st) Zp (modes r) HA HI HS HE Rv) as (lam & w & Aw & EM & A & B & D & F). exists (sZ st), Zp, tl, lam, w, Aw. auto 8.
Qed.
Print Assumptions C106_stale.
(** One cell, k = (1, 0, 0), epsilon 16 along y and 5 along z, y0 = (3/5, 4/5), one
    iteration with an exact line search: the vector is an eigenvector for -1/16,
    but the eigenvalue returned is -98/1073. *)
Theorem C106_max_iters_refuted :
  exists k0 G sh eps tolerance reset_iters inv sqrtm eig minimize rng y0 r lam v Av,
    length sh = 3%nat /\ off_y_axis k0 G sh /\ (forall a j, 0 < eps a j) /\ inv_ok 1 inv /\ sqrtm_ok 1 sqrtm /\ eig_ok 1 eig /\ no_worse minimize /\
    let op := bloch_op k0 G sh (fun a j => mkC (eps a j) 0) None in
    eigsolve (2 * prodl sh) 1 op (bloch_iop k0 G sh (fun a j => mkC (eps a j) 0) None) tolerance 1 reset_iters inv sqrtm eig minimize rng 1 (Some y0) = Some r /\
    modes r = [(lam, v)] /\ norm2 (2 * prodl sh) v = 1 /\ op v = Some Av /\ (forall i, (i < 2 * prodl sh)%nat -> Av i = cmul (mkC (- (1 / 16)) 0) (v i)) /\
    lam = mkC (- (98 / 1073)) 0.
Proof.
  destruct (run1 op1 iop1 op_one iop_one (1 / 10000000) 100 no_rng) as (r & Z' & Z & H & C & EI & HZ & HZ' & _).
  destruct (C106_stale 2 op1 iop1 _ 1 100 inv1 sqrtm1 eig1 _ no_rng 1 _ r op1_hermitian inv1_ok sqrtm1_ok eig1_ok ltac:(lia) H C) as (Za & Zb & rest & lam & v & Av & EI' & EM & Nv & (c & Sv) & EA & EL).
  rewrite EI in EI'. injection EI' as <- <- <-.
  assert (P : 0 < sqrt 2146) by (apply sqrt_lt_R0; lra). pose proof (sqrt_sqrt 2146 ltac:(lra)) as Q.
  assert (V0 : v O = c0). { rewrite (Sv O ltac:(lia)). unfold comb. cbn [sumN]. rewrite (proj1 HZ'). apply cpx_ext; cbn; ring. }
  destruct (op_one v) as (w & Ew & W0 & W1).  rewrite EA in Ew. injection Ew as <-.
  assert (HAv : forall i, (i < 2)%nat -> Av i = cmul (mkC (- (1 / 16)) 0) (v i)).
  { intros i Hi. destruct i as [|[|i]]; [rewrite W0, V0; apply cpx_ext; cbn; ring|exact W1|lia]. }
  exists k0_x, id3, one, eps1, (1 / 10000000), 100%nat, inv1, sqrtm1, eig1, (better t1), no_rng, y1, r, lam, v, Av.
  split; [reflexivity|]. split; [exact one_off_y|]. split; [exact eps1_pos|]. split; [exact inv1_ok|]. split; [exact sqrtm1_ok|]. split; [exact eig1_ok|]. split; [exact (better_ok t1)|].
  cbv zeta. change (2 * prodl one)%nat with 2%nat. split; [exact H|]. split; [exact EM|]. split; [exact Nv|]. split; [exact EA|]. split; [exact HAv|].
  rewrite (hdot_ext 2 v Av v (fun i => cmul (mkC (- (1 / 16)) 0) (v i)) ltac:(reflexivity) HAv), hdot_scale_r, hdot_self, Nv in EL.
  assert (N0 : norm2 2 (col Z 0) = 1). { unfold norm2, col. cbn [sumN]. destruct HZ as [-> ->]. cbn. field. }
  assert (N1 : norm2 2 (col Z' 0) = 1568 / 1073).
  { unfold norm2, col. cbn [sumN]. destruct HZ' as [-> ->]. cbn. set (q := sqrt 2146) in *. clearbody q. replace (1568 / 1073) with (3136 / 2146) by field. rewrite <- Q. field. lra. }
  rewrite N0, N1 in EL. transitivity (rmul 1 lam); [apply cpx_ext; cbn; ring|]. rewrite EL. apply cpx_ext; cbn; field.
Qed.
Print Assumptions C106_max_iters_refuted.
Example C106_case : hermitian_op 2 op1 /\ exists r, eigsolve 2 1 op1 iop1 (1 / 10000000) 1 100 inv1 sqrtm1 eig1 (better t1) no_rng 1 (Some y1) = Some r /\ converged r = false.
Proof. split; [exact op1_hermitian|]. destruct (run1 op1 iop1 op_one iop_one (1 / 10000000) 100 no_rng) as (r & Z' & Z & H & C & _). now exists r. Qed.

(** ** C107: y0 is overwritten *)

(** If the starting vectors pass the first test ([fuel] 1), the caller's y0 holds
    the last iterate afterwards. *)
Theorem C107_y0_overwritten :
  forall N k op iop tolerance max_iters reset_iters inv sqrtm eig minimize rng y0 r,
    eigsolve N k op iop tolerance max_iters reset_iters inv sqrtm eig minimize rng 1 (Some y0) = Some r ->
    exists Z rest, iterates r = Z :: rest /\ forall i j, y0_after r i j = Z j i.
Proof.
  intros N k op iop tol mx reset inv sqrtm eig minimize rng y0 r H. destruct (run_parts _ _ _ _ _ _ _ _ _ _ _ _ _ _ _ H) as (Z0 & st & v & y & L & _ & Y & V).
  rewrite (V eq_refl ltac:(discriminate)) in Y. destruct (its_head _ _ _ _ _ _ _ _ _ _ _ _ _ _ _ L) as (tl & EI); [cbn; now exists []|].
  exists (sZ st), tl. split; [exact EI|]. intros i j. now rewrite Y.
Qed.
Print Assumptions C107_y0_overwritten.
Theorem C107_y0_kept_refuted :
  exists k0 G sh eps tolerance reset_iters inv sqrtm eig minimize rng y0 r,
    length sh = 3%nat /\ off_y_axis k0 G sh /\ (forall a j, 0 < eps a j) /\ inv_ok 1 inv /\ sqrtm_ok 1 sqrtm /\ eig_ok 1 eig /\ no_worse minimize /\
    eigsolve (2 * prodl sh) 1 (bloch_op k0 G sh (fun a j => mkC (eps a j) 0) None) (bloch_iop k0 G sh (fun a j => mkC (eps a j) 0) None)
      tolerance 1 reset_iters inv sqrtm eig minimize rng 1 (Some y0) = Some r /\
    y0 O O = mkC (3 / 5) 0 /\ y0_after r O O = c0.
Proof.
  destruct (run1 op1 iop1 op_one iop_one (1 / 10000000) 100 no_rng) as (r & Z' & Z & H & C & EI & HZ & HZ' & Y).
  exists k0_x, id3, one, eps1, (1 / 10000000), 100%nat, inv1, sqrtm1, eig1, (better t1), no_rng, y1, r.
  split; [reflexivity|]. split; [exact one_off_y|]. split; [exact eps1_pos|]. split; [exact inv1_ok|]. split; [exact sqrtm1_ok|]. split; [exact eig1_ok|]. split; [exact (better_ok t1)|].
  cbv zeta. change (2 * prodl one)%nat with 2%nat. split; [exact H|]. split; [reflexivity|]. rewrite Y. exact (proj1 HZ').
Qed.
Print Assumptions C107_y0_kept_refuted.

(** ** C108: find_k *)

(** float() of the three components of the wavevector always raises. *)
Theorem C108_find_k_raises :
  forall (T : Type) (search : list R -> option (R * R * T)) frequency direction, length direction = 3%nat -> find_k search frequency direction = None.
Proof.
  intros T search frequency direction L. destruct direction as [|a [|b [|c [|]]]]; try discriminate. unfold find_k. cbv zeta. destruct (Req_EM_T _ 0); [reflexivity|]. cbn [map].
  destruct (search _) as [[[x fn] nv]|]; reflexivity.
Qed.
Print Assumptions C108_find_k_raises.
(** A search that finds k = 2 along x, where the mode has the wanted frequency. *)
Theorem C108_find_k_refuted :
  exists (search : list R -> option (R * R * unit)) frequency direction x,
    search direction = Some (x, 0, tt) /\ length direction = 3%nat /\ find_k search frequency direction = None.
Proof. exists (fun _ => Some (2, 0, tt)), 1, [1; 0; 0], 2. repeat split. now apply C108_find_k_raises. Qed.
Print Assumptions C108_find_k_refuted.
(** It returns only for one component: the search then runs along the unit vector u
    of the given sign, and the results are the wavenumber it finds times u and the
    frequency it finds, counted from 0. *)
Theorem C108_find_k_result :
  forall (T : Type) (search : list R -> option (R * R * T)) frequency direction k found (nv : T),
    find_k search frequency direction = Some (k, found, nv) <->
    exists d u x fn, direction = [d] /\ 0 < u * d /\ u * u = 1 /\ search [u] = Some (x, fn, nv) /\ k = x * u /\ found = fn + frequency.
Proof.
  intros T search frequency direction k found nv. unfold find_k. cbv zeta. split.
  - set (norm := sqrt _). destruct (Req_EM_T norm 0) as [E|E]; [discriminate|]. destruct (search _) as [[[x fn] nv']|] eqn:Es; [|discriminate].
    cbn [obind]. destruct direction as [|d [|]]; [discriminate| |discriminate]. cbn [map py_float obind]. intro H. injection H as <- <- <-.
    cbn [map fold_right] in norm. assert (P : 0 < d * d + 0).
    { destruct (Rlt_dec 0 (d * d + 0)) as [P|P]; [exact P|]. exfalso. apply E. unfold norm. apply sqrt_neg_0. lra. }
    assert (Q : norm * norm = d * d) by (unfold norm; rewrite sqrt_sqrt; lra).
    assert (Np : 0 < norm) by (unfold norm; now apply sqrt_lt_R0).
    exists d, (d / norm), x, fn. split; [reflexivity|]. split; [|split; [|split; [exact Es|split; reflexivity]]].
    + unfold Rdiv. replace (d * / norm * d) with (d * d * / norm) by ring. apply Rmult_lt_0_compat; [lra|now apply Rinv_0_lt_compat].
    + replace (d / norm * (d / norm)) with (d * d / (norm * norm)) by (field; lra). rewrite Q. field. intro Z. subst d. lra.
  - intros (d & u & x & fn & -> & P & Q & Es & -> & ->). cbn [map fold_right].
    assert (Ed : d = Rabs d * u).
    { assert (U : u = 1 \/ u = -1) by (assert (X : (u - 1) * (u + 1) = 0) by (ring_simplify; lra); apply Rmult_integral in X; lra).
      destruct U as [-> | ->]; [rewrite Rabs_right by lra|rewrite Rabs_left by lra]; ring. }
    assert (En : sqrt (d * d + 0) = Rabs d) by (rewrite Rplus_0_r; apply sqrt_Rsqr_abs).
    rewrite En. assert (D : Rabs d <> 0) by (intro Z; rewrite Z in Ed; rewrite Ed in P; lra).
    destruct (Req_EM_T (Rabs d) 0) as [Z|_]; [contradiction|].
    assert (Eu : d / Rabs d = u) by (rewrite Ed at 1; field; exact D).
    rewrite Eu, Es. reflexivity.
Qed.
Print Assumptions C108_find_k_result.
Example C108_case : find_k (fun u => match u with [a] => Some (3, a, tt) | _ => None end) 5 [-7] = Some (-3, 4, tt).
Proof.
  apply C108_find_k_result. exists (-7), (-1), 3, (-1). repeat split; try lra; f_equal; try f_equal; lra.
Qed.

(** ** C109: the conjugate gradient coefficient *)

(** [_rtrace_AtB(G, KG)] is computed after [scipy_iop @ G] has replaced G by KG:
    its value is the sum of |KG_j|^2. *)
Lemma on_columns_col op k : forall X M, on_columns op k X = Some M -> forall j, (j < k)%nat -> exists y, op (col X j) = Some y /\ forall i, M i j = y i.
Proof.
  induction k as [|k IH]; intros X M H j Hj; [lia|]. cbn [on_columns] in H. destruct (on_columns op k X) as [M'|] eqn:E; [|discriminate]. cbn [obind] in H.
  destruct (op (fun i => X i k)) as [y|] eqn:Ey; [|discriminate]. cbn [obind] in H. injection H as <-. destruct (Nat.eq_dec j k) as [->|N].
  - exists y. split; [exact Ey|]. intro i. now rewrite Nat.eqb_refl.
  - destruct (IH X M' E j ltac:(lia)) as (y' & E' & V). exists y'. split; [exact E'|]. intro i. destruct (Nat.eqb_spec j k); [contradiction|apply V].
Qed.
Lemma rsign_abs x : Rabs x = rsign x * x /\ (rsign x = 1 \/ rsign x = -1 \/ rsign x = 0).
Proof.
  unfold rsign. destruct (Rlt_dec 0 x); [split; [rewrite Rabs_right by lra; ring|auto]|]. destruct (Rlt_dec x 0); [split; [rewrite Rabs_left by lra; ring|auto]|].
  split; [|auto]. replace x with 0 by lra. rewrite Rabs_R0. ring.
Qed.
Lemma direction_ok N k op iop (Z U AZ KG : mat CC) :
  hermitian_op N op -> is_inverse k (mm N (mct Z) Z) U -> on_columns op k Z = Some AZ ->
  let ZtAZ := mm (K := CC) N (mct Z) AZ in
  let sg := rsign (cre (trace k (mm k ZtAZ U))) in
  let G := mscale_r sg (msub (mm k AZ U) (mm k (mm k Z U) (mm k ZtAZ U))) in
  on_columns iop k G = Some KG ->
  is_direction N k op Z (fun j => col G j) /\
  (forall j, (j < k)%nat -> iop (col G j) = Some (Af iop (col G j)) /\ forall r, KG r j = Af iop (col G j) r) /\
  rtrace_AtB N k KG KG = sumN (K := RF) k (fun j => norm2 N (Af iop (col G j))).
Proof.
  intros HA HU EA ZtAZ sg G EK. pose proof (on_columns_val N op HA k Z AZ EA) as VA. split; [|split].
  - exists (fun j => Af op (col Z j)), U, sg. split; [intros; apply (op_Af N op HA)|]. split; [exact HU|].
    assert (EZ : forall a b, (b < k)%nat -> ZtAZ a b = hdot N (col Z a) (Af op (col Z b))).
    { intros a b Hb. unfold ZtAZ, mm, mct, hdot, col. apply (sumN_ext CC). intros q _. now rewrite (VA q b Hb). }
    cbv zeta. replace (sumN (K := CC) k (fun a => sumN (K := CC) k (fun j => cmul (hdot N (col Z a) (Af op (col Z j))) (U j a)))) with (trace k (mm k ZtAZ U)).
    2:{ unfold trace, mm at 1. apply (sumN_ext CC). intros a _. apply (sumN_ext CC). intros b Hb. now rewrite (EZ a b Hb). }
    destruct (rsign_abs (cre (trace k (mm k ZtAZ U)))) as [A B]. split; [exact A|]. split; [exact B|]. intros j Hj.
    assert (EG : forall r, col G j r = csub (cmul (mkC sg 0) (comb k AZ (col U j) r)) (comb k Z (fun q => cmul (mkC sg 0) (mm (K := CC) k U (mm k ZtAZ U) q j)) r)).
    { intro r. unfold col at 1, G, mscale_r, mscale, msub. rewrite (mm_assoc CC). unfold comb.
      transitivity (csub (cmul (mkC sg 0) (mm (K := CC) k AZ U r j)) (cmul (mkC sg 0) (mm (K := CC) k Z (mm k U (mm k ZtAZ U)) r j))); [apply cpx_ext; cbn; ring|].
      f_equal. unfold mm at 1. refine (eq_trans (eq_sym (sumN_mul_l CC _ _ _)) _). apply (sumN_ext CC). intros. apply cpx_ext; cbn; ring. }
    split.
    + intros l Hl. rewrite (hdot_ext N (col Z l) (col G j) (col Z l) _ ltac:(reflexivity) (fun r _ => EG r)). rewrite hdot_sub_r, hdot_scale_r, !hdot_comb_r.
      transitivity (csub (cmul (mkC sg 0) (mm (K := CC) k ZtAZ U l j)) (cmul (mkC sg 0) (mm (K := CC) k (mm N (mct Z) Z) (mm k U (mm k ZtAZ U)) l j))).
      { f_equal. refine (eq_trans _ (sumN_mul_l CC _ _ _)). apply (sumN_ext CC). intros q Hq. change (mm (K := CC) N (mct Z) Z l q) with (hdot N (col Z l) (col Z q)).
        set (a := hdot N (col Z l) (col Z q)). set (b := mm (K := CC) k U (mm k ZtAZ U) q j). clearbody a b. apply cpx_ext; cbn; ring. }
      rewrite <- (mm_assoc CC).
      assert (EI : mm (K := CC) k (mm k (mm N (mct Z) Z) U) (mm k ZtAZ U) l j = mm (K := CC) k ZtAZ U l j).
      { rewrite <- (delta_l k l (fun q => mm (K := CC) k ZtAZ U q j) Hl). unfold mm at 1. apply (sumN_ext CC). intros q Hq. refine (f_equal2 cmul _ eq_refl). now apply inv_r. }
      rewrite EI. set (a := mm (K := CC) k ZtAZ U l j). clearbody a. apply cpx_ext; cbn; ring.
    + exists (fun q => cmul (mkC sg 0) (mm (K := CC) k U (mm k ZtAZ U) q j)). intros r _. rewrite EG.
      replace (comb k (fun r q => Af op (col Z q) r) (col U j) r) with (comb k AZ (col U j) r) by (unfold comb; apply (sumN_ext CC); intros q Hq; now rewrite (VA r q Hq)).
      set (a := comb k AZ (col U j) r). set (b := comb k Z _ r). clearbody a b. apply cpx_ext; cbn; ring.
  - intros j Hj. destruct (on_columns_col iop k G KG EK j Hj) as (y & Ey & Vy). unfold Af. rewrite Ey. split; [reflexivity|exact Vy].
  - unfold rtrace_AtB. rewrite (sumN_swap CC). rewrite cre_sumN. apply (sumN_ext RF). intros j Hj. rewrite cre_sumN. unfold norm2. apply (sumN_ext RF). intros r _.
    destruct (on_columns_col iop k G KG EK j Hj) as (y & Ey & Vy). unfold Af. rewrite Ey, (Vy r). cbn. ring.
Qed.
Lemma step_search :
  forall N k op iop tolerance reset_iters inv minimize i st s,
    hermitian_op N op -> inv_ok k inv -> cg_step N k op iop tolerance reset_iters inv minimize i st = Some (Next s) ->
    exists (G KG : nat -> vect CC) (gamma theta : R), is_direction N k op (sZ st) G /\ (forall j, (j < k)%nat -> iop (G j) = Some (KG j)) /\
      sprev_tr s = sumN (K := RF) k (fun j => norm2 N (KG j)) /\
      (if Req_EM_T (sprev_tr st) 0 then Some 0 else if (reset_iters =? 0)%nat then None
       else if (i mod reset_iters =? 0)%nat then Some 0 else Some (sprev_tr s / sprev_tr st)) = Some gamma /\
      (forall j r, (j < k)%nat -> sD s r j = cmul (mkC (sd_scale s) 0) (cadd (cmul (mkC (gamma / sd_scale st) 0) (sD st r j)) (KG j r))) /\
      sumN (K := RF) k (fun j => norm2 N (fun r => sD s r j)) = INR k * INR k /\
      (forall j r, sZ s r j = cadd (cmul (mkC (cos theta) 0) (sZ st r j)) (cmul (mkC (sin theta) 0) (sD s r j))).
Proof.
  intros N k op iop tol reset inv minimize i st s HA HI H. unfold cg_step in H. cbv zeta in H. set (Z := sZ st) in *.
  pose proof (HI (mm N (mct Z) Z)) as HU. destruct (inv k _) as [U|]; [|discriminate]. cbn [obind] in H.
  destruct (on_columns op k Z) as [AZ|] eqn:EA; [|discriminate]. cbn [obind] in H.
  destruct (_ && _)%bool; [discriminate|].
  match type of H with obind (on_columns iop k ?g) _ = _ => destruct (on_columns iop k g) as [KG|] eqn:EK; [|discriminate] end. cbn [obind] in H.
  destruct (direction_ok N k op iop Z U AZ KG HA HU EA EK) as (Dr & Vk & TK). match type of EK with on_columns iop k ?g = _ => set (G := g) in * end.
  match type of H with obind ?g _ = _ => destruct g as [gamma|] eqn:EG0; [|discriminate] end. cbn [obind] in H. destruct (Req_EM_T (fro N k _) 0) as [|Nf]; [discriminate|].
  match type of H with obind ?g _ = _ => destruct g as [AD|]; [|discriminate] end. cbn [obind] in H. match type of H with obind ?g _ = _ => destruct g as [t|]; [|discriminate] end. cbn [obind] in H. injection H as <-. cbn [sprev_tr sD sd_scale sZ].
  set (D0 := madd (mscale_r (gamma / sd_scale st) (sD st)) KG) in *.
  exists (fun j => col G j), (fun j => Af iop (col G j)), gamma, t. split; [exact Dr|split; [intros; now apply Vk|split; [exact TK|split; [exact EG0|split; [|split]]]]].
  - intros j r Hj. unfold D0, mscale_r, mscale, madd. rewrite (proj2 (Vk j Hj) r). reflexivity.
  - change (sumN (K := RF) k (fun j => norm2 N (fun r => cmul (mkC (INR k / fro N k D0) 0) (D0 r j))) = INR k * INR k). clearbody D0. set (c := INR k / fro N k D0).
    transitivity (c * c * sumN (K := RF) N (fun i => sumN (K := RF) k (fun j => cnrm (D0 i j)))).
    + rewrite (sumN_swap RF N k). symmetry. refine (eq_trans (eq_sym (sumN_mul_l RF k (c * c) _)) _). apply (sumN_ext RF). intros j _.
      refine (eq_trans (eq_sym (sumN_mul_l RF N (c * c) _)) _). unfold norm2. apply (sumN_ext RF). intros r _. unfold mscale_r, mscale, cnrm. cbn [fmul CC CF cmul cre cim]. match goal with |- ?a = ?b => change (a = b :> R) end. cbn. set (x := D0 r j). clearbody x c. ring.
    + assert (F : fro N k D0 * fro N k D0 = sumN (K := RF) N (fun i => sumN (K := RF) k (fun j => cnrm (D0 i j)))).
      { apply sqrt_sqrt. apply sumN_nonneg. intros r _. apply sumN_nonneg. intros j _. unfold cnrm. nra. }
      rewrite <- F. unfold c. match goal with |- ?a = ?b => change (a = b :> R) end. field. exact Nf.
  - intros j r. reflexivity.
Qed.
Theorem C109_rtrace_is_norm :
  forall N k op iop tolerance reset_iters inv minimize i st s,
    hermitian_op N op -> inv_ok k inv -> cg_step N k op iop tolerance reset_iters inv minimize i st = Some (Next s) ->
    exists G KG : nat -> vect CC, is_direction N k op (sZ st) G /\ (forall j, (j < k)%nat -> iop (G j) = Some (KG j)) /\
      sprev_tr s = sumN (K := RF) k (fun j => norm2 N (KG j)).
Proof.
  intros N k op iop tol reset inv minimize i st s HA HI H. destruct (step_search N k op iop tol reset inv minimize i st s HA HI H) as (G & KG & g & t & A & B & C & _). exists G, KG. split; [exact A|split; assumption].
Qed.
Print Assumptions C109_rtrace_is_norm.
(** The same run: the value is not the sum of Re <G_j, KG_j>. *)
Theorem C109_rtrace_refuted :
  exists k0 G sh eps tolerance reset_iters inv minimize st s (g Kg : nat -> vect CC),
    length sh = 3%nat /\ off_y_axis k0 G sh /\ (forall a j, 0 < eps a j) /\ inv_ok 1 inv /\ no_worse minimize /\
    let op := bloch_op k0 G sh (fun a j => mkC (eps a j) 0) None in
    let iop := bloch_iop k0 G sh (fun a j => mkC (eps a j) 0) None in
    cg_step (2 * prodl sh) 1 op iop tolerance reset_iters inv minimize 0 st = Some (Next s) /\
    is_direction (2 * prodl sh) 1 op (sZ st) g /\ iop (g O) = Some (Kg O) /\
    sprev_tr s = 184041 / 390625 /\ cre (hdot (2 * prodl sh) (g O) (Kg O)) = 15246 / 390625.
Proof.
  set (Z := mtr y1). assert (HZ : rc Z (3 / 5) (4 / 5)) by (split; reflexivity).
  destruct (step_first op1 iop1 op_one iop_one (1 / 10000000) 100 Z (mm 2 (mct Z) Z) HZ) as (s & H & _ & _ & _ & T).
  destruct (C109_rtrace_is_norm 2 1 op1 iop1 _ _ _ _ _ _ s op1_hermitian inv1_ok H) as (g & Kg & Hg & HK & _).
  exists k0_x, id3, one, eps1, (1 / 10000000), 100%nat, inv1, (better t1), (mkCg Z (mm 2 (mct Z) Z) (mzero (K := CC)) 0 1 0), s, g, Kg.
  split; [reflexivity|]. split; [exact one_off_y|]. split; [exact eps1_pos|]. split; [exact inv1_ok|]. split; [exact (better_ok t1)|].
  cbv zeta. change (2 * prodl one)%nat with 2%nat. split; [exact H|]. split; [exact Hg|]. split; [exact (HK O ltac:(lia))|]. split; [exact T|].
  (* g is determined *)
  destruct Hg as (AZ & U & sg & EA & HU & Esg & Csg & D). cbn [sZ] in EA, HU, Esg, D. destruct (D O ltac:(lia)) as (D1 & (c & D2)). specialize (D1 O ltac:(lia)). specialize (EA O ltac:(lia)).
  destruct (op_one (col Z 0)) as (w & Ew & W0 & W1).  rewrite EA in Ew. injection Ew as <-.
  pose proof (inverse1 _ _ HU) as U1. unfold hdot in U1. cbn [sumN] in U1. unfold col in U1, W0, W1. destruct HZ as [Z0 Z1]. rewrite Z0, Z1 in U1. rewrite Z0 in W0. rewrite Z1 in W1.
  assert (EU : U O O = c1). { apply cpx_ext; [apply (f_equal cre) in U1|apply (f_equal cim) in U1]; cbn in U1 |- *; lra. }
  assert (Es : sg = -1).
  { unfold hdot, col in Esg. cbn [sumN] in Esg. rewrite Z0, Z1, W0, W1, EU in Esg. cbn in Esg.
    match type of Esg with Rabs ?x = _ => replace x with (- (14 / 125)) in Esg by field end. rewrite Rabs_left in Esg by lra. lra. }
  pose proof (D2 O ltac:(lia)) as E0. pose proof (D2 1%nat ltac:(lia)) as E1. unfold comb, col in E0, E1. cbn [sumN] in E0, E1. rewrite Z0, W0, EU, Es in E0. rewrite Z1, W1, EU, Es in E1.
  unfold hdot in D1. cbn [sumN] in D1. unfold col in D1. rewrite Z0, Z1 in D1.
  destruct (iop_one (g O)) as (v & Ev & V0 & V1).  rewrite (HK O ltac:(lia)) in Ev. injection Ev as <-.
  unfold hdot. cbn [sumN]. rewrite V0, V1.
  pose proof (f_equal cre E0) as E0r. pose proof (f_equal cim E0) as E0i. pose proof (f_equal cre E1) as E1r. pose proof (f_equal cim E1) as E1i.
  pose proof (f_equal cre D1) as D1r. pose proof (f_equal cim D1) as D1i. cbn in E0r, E0i, E1r, E1i, D1r, D1i.
  assert (G0r : cre (g O O) = 33 / 625) by lra. assert (G1r : cre (g O 1%nat) = - (99 / 2500)) by lra.
  assert (G0i : cim (g O O) = 0) by lra. assert (G1i : cim (g O 1%nat) = 0) by lra.
  cbn. rewrite G0r, G0i, G1r, G1i. field.
Qed.
Print Assumptions C109_rtrace_refuted.
Example C109_case : hermitian_op 2 op1 /\ inv_ok 1 inv1 /\ exists st s, cg_step 2 1 op1 iop1 (1 / 10000000) 100 inv1 (better t1) 0 st = Some (Next s).
Proof.
  split; [exact op1_hermitian|]. split; [exact inv1_ok|]. assert (HZ : rc (mtr y1) (3 / 5) (4 / 5)) by (split; reflexivity).
  destruct (step_first op1 iop1 op_one iop_one (1 / 10000000) 100 (mtr y1) (mm 2 (mct (mtr y1)) (mtr y1)) HZ) as (s & H & _). eexists _, s. exact H.
Qed.

(** ** C132 *)
(** An iteration of eigsolve that goes on moves from Z towards a direction D: the
    preconditioned gradient KG plus gamma times the previous direction (as it was
    before scaling), scaled to Frobenius norm num_modes; the new Z is
    cos(theta) Z + sin(theta) D.  gamma is zero, so that D is a multiple of KG, if
    the previous trace was zero or the iteration number is a multiple of
    reset_iters; otherwise it is the ratio of the traces. *)
Theorem C132_search_direction :
  forall N k op iop tolerance reset_iters inv minimize i st s,
    hermitian_op N op -> inv_ok k inv -> cg_step N k op iop tolerance reset_iters inv minimize i st = Some (Next s) ->
    exists (G KG : nat -> vect CC) (gamma theta : R),
      is_direction N k op (sZ st) G /\ (forall j, (j < k)%nat -> iop (G j) = Some (KG j)) /\
      ((sprev_tr st = 0 \/ Nat.divide reset_iters i) -> gamma = 0) /\
      (sprev_tr st <> 0 -> ~ Nat.divide reset_iters i -> gamma = sumN (K := RF) k (fun j => norm2 N (KG j)) / sprev_tr st) /\
      (forall j r, (j < k)%nat -> sD s r j = cmul (mkC (sd_scale s) 0) (cadd (cmul (mkC (gamma / sd_scale st) 0) (sD st r j)) (KG j r))) /\
      sumN (K := RF) k (fun j => norm2 N (fun r => sD s r j)) = INR k * INR k /\
      (forall j r, sZ s r j = cadd (cmul (mkC (cos theta) 0) (sZ st r j)) (cmul (mkC (sin theta) 0) (sD s r j))).
Proof.
  intros N k op iop tol reset inv minimize i st s HA HI H. destruct (step_search N k op iop tol reset inv minimize i st s HA HI H) as (G & KG & g & t & A & B & C & E & F1 & F2 & F3).
  exists G, KG, g, t. split; [exact A|]. split; [exact B|]. split; [|split; [|split; [exact F1|split; [exact F2|exact F3]]]].
  - destruct (Req_EM_T (sprev_tr st) 0) as [Z|Z]; [intros _; now injection E as <-|]. intros [?|Dv]; [contradiction|].
    destruct (Nat.eqb_spec reset 0) as [?|R0]; [discriminate|]. rewrite (proj2 (Nat.mod_divide i reset R0) Dv) in E. cbn in E. now injection E as <-.
  - intros Z Dv. destruct (Req_EM_T (sprev_tr st) 0) as [?|_]; [contradiction|]. destruct (Nat.eqb_spec reset 0) as [?|R0]; [discriminate|].
    destruct (Nat.eqb_spec (i mod reset) 0) as [M|M]; [exfalso; apply Dv, Nat.mod_divide; assumption|]. injection E as <-. now rewrite C.
Qed.
Print Assumptions C132_search_direction.

(** With reset_iters = 1 every iteration is one of steepest descent. *)
Corollary C132_steepest_descent :
  forall N k op iop tolerance inv minimize i st s,
    hermitian_op N op -> inv_ok k inv -> cg_step N k op iop tolerance 1 inv minimize i st = Some (Next s) ->
    exists (G KG : nat -> vect CC), is_direction N k op (sZ st) G /\
      forall j, (j < k)%nat -> iop (G j) = Some (KG j) /\ forall r, sD s r j = cmul (mkC (sd_scale s) 0) (KG j r).
Proof.
  intros N k op iop tol inv minimize i st s HA HI H. destruct (C132_search_direction N k op iop tol 1 inv minimize i st s HA HI H) as (G & KG & g & t & A & B & C & _ & D & _).
  exists G, KG. split; [exact A|]. intros j Hj. split; [now apply B|]. intro r. rewrite (D j r Hj), (C (or_intror (Nat.divide_1_l i))).
  f_equal. unfold Rdiv. rewrite Rmult_0_l. apply cpx_ext; cbn; ring.
Qed.
Print Assumptions C132_steepest_descent.

(** An iteration whose operators, inverse of Z^H Z and minimizer do not fail only
    fails when the search direction is zero, or in i % 0 with reset_iters = 0. *)
Theorem C132_step_fails :
  forall N k op iop tolerance reset_iters inv minimize i st,
    hermitian_op N op -> inv_ok k inv ->
    (forall x, iop x <> None) -> inv k (fun a b => hdot N (col (sZ st) a) (col (sZ st) b)) <> None -> (forall f, minimize f <> None) ->
    cg_step N k op iop tolerance reset_iters inv minimize i st = None ->
    (reset_iters = 0%nat /\ sprev_tr st <> 0) \/
    exists (G KG : nat -> vect CC) (gamma : R),
      is_direction N k op (sZ st) G /\ (forall j, (j < k)%nat -> iop (G j) = Some (KG j)) /\
      ((sprev_tr st = 0 \/ Nat.divide reset_iters i) -> gamma = 0) /\
      (sprev_tr st <> 0 -> ~ Nat.divide reset_iters i -> gamma = sumN (K := RF) k (fun j => norm2 N (KG j)) / sprev_tr st) /\
      forall j r, (j < k)%nat -> (r < N)%nat -> cadd (cmul (mkC (gamma / sd_scale st) 0) (sD st r j)) (KG j r) = c0.
Proof.
  intros N k op iop tol reset inv minimize i st HA HI Ti Tv Tm H. unfold cg_step in H. cbv zeta in H.
  assert (OC : forall o, (forall x, o x <> None) -> forall k' X, exists M, on_columns o k' X = Some M).
  { intros o Ho k'. induction k' as [|k' IH]; intro X; [eexists; reflexivity|]. cbn [on_columns]. destruct (IH X) as (M & ->). cbn [obind]. destruct (o (fun q => X q k')) as [y|] eqn:E; [eexists; reflexivity|]. exfalso. exact (Ho _ E). }
  assert (To : forall x, op x <> None) by (intro x; rewrite (op_Af N op HA x); discriminate).
  pose proof (HI (mm N (mct (sZ st)) (sZ st))) as HU.
  destruct (inv k (mm N (mct (sZ st)) (sZ st))) as [U|] eqn:EU; [|exfalso; exact (Tv EU)]. cbn [obind] in H.
  destruct (OC op To k (sZ st)) as (AZ & EA). rewrite EA in H. cbn [obind] in H. destruct (_ && _)%bool; [discriminate|].
  match type of H with obind (on_columns iop k ?g) _ = _ => destruct (OC iop Ti k g) as (KG & EK) end. rewrite EK in H. cbn [obind] in H.
  destruct (direction_ok N k op iop (sZ st) U AZ KG HA HU EA EK) as (Dr & Vk & TK). match type of EK with on_columns iop k ?g = _ => set (G := g) in * end.
  match type of H with obind ?g _ = _ => destruct g as [gamma|] eqn:EG end.
  - right. cbn [obind] in H. match type of H with (if Req_EM_T (fro N k ?d) 0 then _ else _) = _ => set (D0 := d) in * end.
    destruct (Req_EM_T (fro N k D0) 0) as [Z|Z].
    + exists (fun j => col G j), (fun j => Af iop (col G j)), gamma. split; [exact Dr|]. split; [intros; now apply Vk|]. split; [|split].
      * destruct (Req_EM_T (sprev_tr st) 0) as [Z0|Z0]; [intros _; now injection EG as <-|]. intros [?|Dv]; [contradiction|].
        destruct (Nat.eqb_spec reset 0) as [?|R0]; [discriminate|]. rewrite (proj2 (Nat.mod_divide i reset R0) Dv) in EG. cbn in EG. now injection EG as <-.
      * intros Z0 Dv. destruct (Req_EM_T (sprev_tr st) 0) as [?|_]; [contradiction|]. destruct (Nat.eqb_spec reset 0) as [?|R0]; [discriminate|].
        destruct (Nat.eqb_spec (i mod reset) 0) as [M|M]; [exfalso; apply Dv, Nat.mod_divide; assumption|]. injection EG as <-. now rewrite TK.
      * intros j r Hj Hr. rewrite <- (proj2 (Vk j Hj) r). change (D0 r j = c0).
        assert (F : sumN (K := RF) N (fun i => sumN (K := RF) k (fun j => cnrm (D0 i j))) = 0).
        { apply sqrt_eq_0; [|exact Z]. apply sumN_nonneg. intros. apply sumN_nonneg. intros. unfold cnrm. nra. }
        assert (S0 : forall n (f : nat -> R), (forall q, (q < n)%nat -> 0 <= f q) -> sumN (K := RF) n f = 0 -> forall q, (q < n)%nat -> f q = 0).
        { induction n as [|n IH]; intros f Hf S q Hq; [lia|]. change (sumN (K := RF) n f + f n = 0) in S. pose proof (sumN_nonneg n f (fun q Hq => Hf q ltac:(lia))) as P. pose proof (Hf n ltac:(lia)).
          destruct (Nat.eq_dec q n) as [->|]; [lra|]. apply (IH f (fun q Hq => Hf q ltac:(lia)) ltac:(lra) q). lia. }
        assert (CP : forall z, 0 <= cnrm z) by (intro z; unfold cnrm; nra).
        pose proof (S0 N _ (fun q _ => sumN_nonneg k _ (fun q' _ => CP _)) F r Hr) as F1. cbv beta in F1. pose proof (S0 k _ (fun q _ => CP _) F1 j Hj) as F2. cbv beta in F2.
        destruct (cpx_dec (D0 r j) c0) as [E|E]; [exact E|]. exfalso. exact (cnrm_nz _ E F2).
    + exfalso. match type of H with obind (on_columns op k ?g) _ = _ => destruct (OC op To k g) as (AD & ED) end. rewrite ED in H. cbn [obind] in H.
      match type of H with obind (minimize ?f) _ = _ => destruct (minimize f) as [t|] eqn:EM; [discriminate|exact (Tm _ EM)] end.
  - left. destruct (Req_EM_T (sprev_tr st) 0); [discriminate|]. destruct (Nat.eqb_spec reset 0); [now split|]. destruct (_ =? 0)%nat; discriminate.
Qed.
Print Assumptions C132_step_fails.
(** ... where it always fails, unless it stops. *)
Theorem C132_reset_zero :
  forall N k op iop tolerance inv minimize i st,
    sprev_tr st <> 0 -> forall s, cg_step N k op iop tolerance 0 inv minimize i st <> Some (Next s).
Proof.
  intros N k op iop tol inv minimize i st Hp s H. unfold cg_step in H. cbv zeta in H.
  destruct (inv k _) as [U|]; [|discriminate]. cbn [obind] in H. destruct (on_columns op k (sZ st)) as [AZ|]; [|discriminate]. cbn [obind] in H.
  destruct (_ && _)%bool; [discriminate|]. match type of H with obind ?g _ = _ => destruct g as [KG|]; [|discriminate] end. cbn [obind] in H.
  destruct (Req_EM_T (sprev_tr st) 0) as [|_]; [contradiction|]. cbn in H. discriminate.
Qed.
Print Assumptions C132_reset_zero.
Example C132_case :
  let st t := mkCg (mtr y1) (mm 2 (mct (mtr y1)) (mtr y1)) (mzero (K := CC)) 0 1 t in
  hermitian_op 2 op1 /\ inv_ok 1 inv1 /\ (forall x, iop1 x <> None) /\ (forall f, better t1 f <> None) /\
  inv1 1%nat (fun a b => hdot 2 (col (mtr y1) a) (col (mtr y1) b)) <> None /\
  (exists s, cg_step 2 1 op1 iop1 (1 / 10000000) 1 inv1 (better t1) 0 (st 0) = Some (Next s)) /\
  cg_step 2 1 op1 iop1 (1 / 10000000) 0 inv1 (better t1) 0 (st 1) = None.
Proof.
  intro st. split; [exact op1_hermitian|]. split; [exact inv1_ok|]. split; [intro x; destruct (iop_one x) as (y & E & _); intro Q; rewrite (E : iop1 x = Some y) in Q; discriminate|].
  split. { intro f. unfold better. destruct (f 0); [|discriminate]. destruct (f t1); [|discriminate]. destruct (Rle_dec _ _); discriminate. }
  split. { unfold inv1. destruct (cpx_dec _ _) as [Z|_]; [|discriminate]. apply (f_equal cre) in Z. cbn in Z. lra. }
  split. { assert (HZ : rc (mtr y1) (3 / 5) (4 / 5)) by (split; reflexivity). destruct (step_first op1 iop1 op_one iop_one (1 / 10000000) 1 (mtr y1) (mm 2 (mct (mtr y1)) (mtr y1)) HZ) as (s & H & _). exists s. exact H. }
  destruct (cg_step 2 1 op1 iop1 (1 / 10000000) 0 inv1 (better t1) 0 (st 1)) as [[s|s]|] eqn:E; [exfalso|exfalso|reflexivity].
  - unfold cg_step in E. cbv zeta in E. destruct (inv1 1 _); [|discriminate]. cbn [obind] in E. destruct (on_columns op1 1 _); [|discriminate]. cbn [obind Nat.ltb Nat.leb andb] in E.
    destruct (on_columns iop1 1 _); [|discriminate]. cbn [obind st sprev_tr] in E. destruct (Req_EM_T 1 0); [lra|]. discriminate.
  - apply (C132_reset_zero 2 1 op1 iop1 (1 / 10000000) inv1 (better t1) 0 (st 1) ltac:(cbn; lra) s E).
Qed.
