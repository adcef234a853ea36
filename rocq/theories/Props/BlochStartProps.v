(** Properties of the starting vectors of eigsolve of meanas/fdfd/bloch.py. *)
From Coq Require Import Reals List Arith ZArith Lia Lra Psatz Bool Field.
From Verif.Lib Require Import Num Sums Idx Mat RealF Dft.
From Verif.Model Require Import Ndarray Bloch Eigensolvers BlochSolve.
From Verif.Spec Require Import BlochSpec EigenSpec BlochSolveSpec BlochStartSpec.
From Verif.Proofs Require Import EmeP EigensolversP BlochP BlochP2 BlochSolveP BlochOverlapP BlochStartP.
From Verif.Props Require Import BlochSolveProps.
Import ListNotations.
Local Open Scope R_scope.

(** ** C133 *)
Lemma eigsolve_parts N k op iop tol mx reset inv sqrtm eig minimize rng fuel y0 r :
  eigsolve N k op iop tol mx reset inv sqrtm eig minimize rng fuel y0 = Some r ->
  exists Z0 view y st, start_loop N k inv sqrtm rng fuel (match y0 with None => 1 | _ => 0 end)%nat (match y0 with None => false | _ => true end)
      (match y0 with None => mzero (K := CC) | Some y => y end) (match y0 with None => rng O | Some y => mtr y end) = Some (Z0, mm N (mct Z0) Z0, view, y) /\
    cg_loop N k op iop tol reset inv minimize mx 0 (mkCg Z0 (mm N (mct Z0) Z0) (mzero (K := CC)) 0 1 0) [Z0] = Some (st, iterates r, converged r) /\
    recover N k op inv sqrtm eig (sZ st) (sZtZ st) = Some (modes r) /\ y0_after r = if view then mtr (sZ st) else y.
Proof.
  unfold eigsolve. intro H.
  assert (G : forall draw view y Z, obind (start_loop N k inv sqrtm rng fuel draw view y Z) (fun z => let '(Z, ZtZ, view, y) := z in
      obind (cg_loop N k op iop tol reset inv minimize mx 0 (mkCg Z ZtZ (mzero (K := CC)) 0 1 0) [Z]) (fun l => let '(st, its, conv) := l in
      obind (recover N k op inv sqrtm eig (sZ st) (sZtZ st)) (fun ms => Some (mkSolved ms (if view then mtr (sZ st) else y) its conv)))) = Some r ->
    exists Z0 view' y' st, start_loop N k inv sqrtm rng fuel draw view y Z = Some (Z0, mm N (mct Z0) Z0, view', y') /\
      cg_loop N k op iop tol reset inv minimize mx 0 (mkCg Z0 (mm N (mct Z0) Z0) (mzero (K := CC)) 0 1 0) [Z0] = Some (st, iterates r, converged r) /\
      recover N k op inv sqrtm eig (sZ st) (sZtZ st) = Some (modes r) /\ y0_after r = if view' : bool then mtr (sZ st) else y').
  { intros draw view y Z H'. destruct (start_loop N k inv sqrtm rng fuel draw view y Z) as [[[[Z0 G] v'] y']|] eqn:S; [|discriminate]. cbn [obind] in H'.
    pose proof (start_loop_gram _ _ _ _ _ _ _ _ _ _ _ _ _ _ S) as ->.
    destruct (cg_loop _ _ _ _ _ _ _ _ _ _ _ _) as [[[st its] conv]|] eqn:L; [|discriminate]. cbn [obind] in H'.
    destruct (recover _ _ _ _ _ _ _ _) as [ms|] eqn:Rv; [|discriminate]. cbn [obind] in H'. injection H' as <-. exists Z0, v', y', st. cbn. repeat split; auto. }
  destruct y0 as [y|]; exact (G _ _ _ _ H).
Qed.
Lemma eigsolve_of N k op iop tol mx reset inv sqrtm eig minimize rng fuel y0 Z0 view y st its conv ms :
  start_loop N k inv sqrtm rng fuel (match y0 with None => 1 | _ => 0 end)%nat (match y0 with None => false | _ => true end)
      (match y0 with None => mzero (K := CC) | Some y => y end) (match y0 with None => rng O | Some y => mtr y end) = Some (Z0, mm N (mct Z0) Z0, view, y) ->
  cg_loop N k op iop tol reset inv minimize mx 0 (mkCg Z0 (mm N (mct Z0) Z0) (mzero (K := CC)) 0 1 0) [Z0] = Some (st, its, conv) ->
  recover N k op inv sqrtm eig (sZ st) (sZtZ st) = Some ms ->
  eigsolve N k op iop tol mx reset inv sqrtm eig minimize rng fuel y0 = Some (mkSolved ms (if view then mtr (sZ st) else y) its conv).
Proof. intros A B C. unfold eigsolve. destruct y0 as [y'|]; cbn [obind] in *; rewrite A; cbn [obind]; rewrite B; cbn [obind]; rewrite C; reflexivity. Qed.

(** Every run begins with an array of Frobenius norm k that is well conditioned. *)
Theorem C133_first_iterate :
  forall N k op iop tolerance max_iters reset_iters inv sqrtm eig minimize rng fuel y0 r,
    inv_ok k inv -> eigsolve N k op iop tolerance max_iters reset_iters inv sqrtm eig minimize rng fuel y0 = Some r ->
    exists rest Z0, iterates r = rest ++ [Z0] /\ total2 N k Z0 = INR k * INR k /\ well_conditioned N k Z0.
Proof.
  intros N k op iop tol mx reset inv sqrtm eig minimize rng fuel y0 r HI H.
  destruct (eigsolve_parts _ _ _ _ _ _ _ _ _ _ _ _ _ _ _ H) as (Z0 & v & y & st & S & L & _).
  destruct (loop_grows _ _ _ _ _ _ _ _ _ _ _ _ _ _ _ L) as (rest & E). exists rest, Z0. split; [exact E|]. exact (accepted N k inv sqrtm HI _ _ _ _ _ _ _ _ _ _ S).
Qed.
Print Assumptions C133_first_iterate.

(** Given starting vectors (rows of y0) that are well conditioned once scaled are
    used as they are; y0 then receives every iterate. *)
Theorem C133_usable_start :
  forall N k op iop tolerance max_iters reset_iters inv sqrtm eig minimize rng fuel y0 r n,
    inv_ok k inv -> 0 < n -> n * n = total2 N k (from_rows 1 y0) -> well_conditioned N k (from_rows (INR k / n) y0) ->
    eigsolve N k op iop tolerance max_iters reset_iters inv sqrtm eig minimize rng fuel (Some y0) = Some r ->
    exists rest Z0 Z tl, iterates r = rest ++ [Z0] /\ (forall i j, Z0 i j = cmul (mkC (INR k / n) 0) (y0 j i)) /\
      iterates r = Z :: tl /\ forall i j, y0_after r i j = Z j i.
Proof.
  intros N k op iop tol mx reset inv sqrtm eig minimize rng fuel y0 r n HI Hn En W H.
  destruct (eigsolve_parts _ _ _ _ _ _ _ _ _ _ _ _ _ _ _ H) as (Z0 & v & y & st & S & L & _ & Y).
  assert (F : fro N k (mtr y0) = n).
  { apply fro_of; [lra|]. rewrite En. apply (sumN_ext RF). intros j _. unfold norm2. apply (sumN_ext RF). intros i _. unfold col, from_rows, mtr. cbn.
    match goal with |- ?a = ?b => change (a = b :> R) end. ring. }
  destruct fuel as [|f]; [discriminate|].
  pose proof (proj1 (pass N k inv sqrtm HI rng f 0 true y0 (mtr y0) ltac:(lra))) as P. cbv zeta in P. rewrite F in P. specialize (P W).
  rewrite P in S. injection S as <- _ <- <-.
  destruct (loop_grows _ _ _ _ _ _ _ _ _ _ _ _ _ _ _ L) as (rest & E). destruct (its_head _ _ _ _ _ _ _ _ _ _ _ _ _ _ _ L) as (tl & EI); [cbn; now exists []|].
  exists rest, (mscale_r (INR k / n) (mtr y0)), (sZ st), tl. split; [exact E|]. split; [reflexivity|]. split; [exact EI|]. intros i j. now rewrite Y.
Qed.
Print Assumptions C133_usable_start.

Lemma from_rows_fro N k (y0 : mat CC) n : 0 < n -> n * n = total2 N k (from_rows 1 y0) -> fro N k (mtr y0) = n.
Proof.
  intros Hn En. apply fro_of; [lra|]. rewrite En. apply (sumN_ext RF). intros j _. unfold norm2. apply (sumN_ext RF). intros i _. unfold col, from_rows, mtr. cbn.
  match goal with |- ?a = ?b => change (a = b :> R) end. ring.
Qed.
(** Other starting vectors are only scaled. *)
Theorem C133_unusable_start :
  forall N k op iop tolerance max_iters reset_iters inv sqrtm eig minimize rng fuel y0 r n,
    inv_ok k inv -> 0 < n -> n * n = total2 N k (from_rows 1 y0) -> ~ well_conditioned N k (from_rows (INR k / n) y0) ->
    eigsolve N k op iop tolerance max_iters reset_iters inv sqrtm eig minimize rng fuel (Some y0) = Some r ->
    forall i j, y0_after r i j = cmul (mkC (INR k / n) 0) (y0 i j).
Proof.
  intros N k op iop tol mx reset inv sqrtm eig minimize rng fuel y0 r n HI Hn En W H i j.
  destruct (eigsolve_parts _ _ _ _ _ _ _ _ _ _ _ _ _ _ _ H) as (Z0 & v & y & st & S & L & _ & Y).
  pose proof (from_rows_fro N k y0 n Hn En) as F. destruct fuel as [|f]; [discriminate|].
  cbn [start_loop] in S. cbv zeta in S. rewrite F in S. destruct (Req_EM_T n 0) as [|_]; [discriminate|].
  set (Z1 := mscale_r (INR k / n) (mtr y0)) in *.
  assert (G : forall draw Z, start_loop N k inv sqrtm rng f draw false (mtr Z1) Z = Some (Z0, mm N (mct Z0) Z0, v, y) -> v = false /\ y = mtr Z1).
  { intros draw Z S'. destruct (no_view N k inv sqrtm rng f _ _ _ _ _ _ _ S') as (-> & -> & _). now split. }
  destruct (inv k _) as [U|] eqn:EU.
  - destruct (Rlt_dec _ _) as [Lt|Lt].
    + destruct (sqrtm k U) as [Q|]; [|discriminate]. cbn [obind] in S. destruct (G _ _ S) as [-> ->]. rewrite Y. reflexivity.
    + exfalso. apply W. apply (proj1 (accept_iff N k inv HI Z1)). exists U. now split.
  - destruct (G _ _ S) as [-> ->]. rewrite Y. reflexivity.
Qed.
Print Assumptions C133_unusable_start.

(** Linearly dependent columns *)
Definition dependent (N k : nat) (Z : mat CC) : Prop := exists x, nonzero_vec k x /\ forall i, (i < N)%nat -> comb k Z x i = c0.
Lemma dependent_singular N k Z c : dependent N k Z -> forall U, ~ gram_inverse N k (mscale_r c Z) U.
Proof.
  intros (x & (i & Hi & Nx) & Hx) U HU. apply Nx. set (Z1 := mscale_r c Z) in *.
  assert (Hz : forall q, (q < N)%nat -> comb k Z1 x q = c0).
  { intros q Hq. transitivity (cmul (mkC c 0) (comb k Z x q)); [|rewrite (Hx q Hq); apply cpx_ext; cbn; ring].
    unfold comb. refine (eq_trans _ (sumN_mul_l CC k _ _)). apply (sumN_ext CC). intros j _. unfold Z1, mscale_r, mscale. apply cpx_ext; cbn; ring. }
  assert (M : forall a, (a < k)%nat -> mv (K := CC) k (mm N (mct Z1) Z1) x a = c0).
  { intros a Ha. transitivity (hdot N (col Z1 a) (comb k Z1 x)); [rewrite hdot_comb_r; reflexivity|].
    unfold hdot. apply (sumN_zero CC). intros q Hq. rewrite (Hz q Hq). apply cpx_ext; cbn; ring. }
  transitivity (mv (K := CC) k U (mv (K := CC) k (mm N (mct Z1) Z1) x) i).
  - rewrite <- (mv_mm (K := CC)). refine (eq_trans (eq_sym (delta_l k i x Hi)) _). unfold mv. apply (sumN_ext CC). intros q Hq. refine (f_equal2 cmul _ eq_refl). symmetry.
    exact (inv_l k _ U i q HU Hi Hq).
  - apply (sumN_zero CC). intros q Hq. refine (eq_trans (f_equal (cmul _) (M q Hq)) _). apply cpx_ext; cbn; ring.
Qed.

(** Linearly dependent starting vectors are replaced by random ones: the results
    are those of a run without y0 .. *)
Theorem C133_dependent_start :
  forall N k op iop tolerance max_iters reset_iters inv sqrtm eig minimize rng fuel y0 r,
    inv_ok k inv -> dependent N k (from_rows 1 y0) ->
    eigsolve N k op iop tolerance max_iters reset_iters inv sqrtm eig minimize rng (S fuel) (Some y0) = Some r ->
    exists r', eigsolve N k op iop tolerance max_iters reset_iters inv sqrtm eig minimize rng fuel None = Some r' /\
      modes r' = modes r /\ iterates r' = iterates r /\ converged r' = converged r.
Proof.
  intros N k op iop tol mx reset inv sqrtm eig minimize rng fuel y0 r HI D H.
  destruct (eigsolve_parts _ _ _ _ _ _ _ _ _ _ _ _ _ _ _ H) as (Z0 & v & y & st & S & L & Rv & Y).
  assert (D' : dependent N k (mtr y0)).
  { destruct D as (x & Nx & Hx). exists x. split; [exact Nx|]. intros i Hi. rewrite <- (Hx i Hi). unfold comb. apply (sumN_ext CC). intros j _. unfold from_rows, mtr.
    apply cpx_ext; cbn; ring. }
  destruct (Req_EM_T (fro N k (mtr y0)) 0) as [F|F].
  { cbn [start_loop] in S. cbv zeta in S. destruct (Req_EM_T (fro N k (mtr y0)) 0); [discriminate|contradiction]. }
  pose proof (proj1 (proj2 (pass N k inv sqrtm HI rng fuel 0 true y0 (mtr y0) F))) as P. cbv zeta in P.
  rewrite (P (dependent_singular N k _ _ D')) in S.
  destruct (no_view N k inv sqrtm rng _ _ _ _ _ _ _ _ S) as (_ & _ & S').
  eexists. split; [exact (eigsolve_of N k op iop tol mx reset inv sqrtm eig minimize rng fuel None _ _ _ _ _ _ _ (S' _) L Rv)|]. repeat split.
Qed.
Print Assumptions C133_dependent_start.
(** .. and random arrays with dependent columns are drawn again. *)
Theorem C133_redraw :
  forall N k op iop tolerance max_iters reset_iters inv sqrtm eig minimize rng fuel,
    inv_ok k inv -> dependent N k (rng O) -> total2 N k (rng O) <> 0 ->
    eigsolve N k op iop tolerance max_iters reset_iters inv sqrtm eig minimize rng (S fuel) None =
    eigsolve N k op iop tolerance max_iters reset_iters inv sqrtm eig minimize (fun n => rng (S n)) fuel None.
Proof.
  intros N k op iop tol mx reset inv sqrtm eig minimize rng fuel HI D T. unfold eigsolve.
  assert (F : fro N k (rng O) <> 0) by (intro Z; apply T; rewrite <- fro_sq, Z; ring).
  pose proof (proj1 (proj2 (pass N k inv sqrtm HI rng fuel 1 false (mzero (K := CC)) (rng O) F)) (dependent_singular N k _ _ D)) as P. cbv zeta in P.
  rewrite P, shift_rng. reflexivity.
Qed.
Print Assumptions C133_redraw.

(** Badly conditioned vectors are orthonormalised within their span, whatever their
    scale: Z^H Z is then k times the identity. *)
Theorem C133_orthonormalised :
  forall N k op iop tolerance max_iters reset_iters inv sqrtm eig minimize rng fuel y0 r n U,
    inv_ok k inv -> sqrtm_ok k sqrtm -> 0 < n -> n * n = total2 N k (from_rows 1 y0) ->
    gram_inverse N k (from_rows (INR k / n) y0) U -> 100000000 * INR k < re_trace k U ->
    eigsolve N k op iop tolerance max_iters reset_iters inv sqrtm eig minimize rng fuel (Some y0) = Some r ->
    exists rest Z0, iterates r = rest ++ [Z0] /\
      (forall i j, (i < k)%nat -> (j < k)%nat -> hdot N (col Z0 i) (col Z0 j) = if (i =? j)%nat then mkC (INR k) 0 else c0) /\
      (forall j, (j < k)%nat -> in_span N k (from_rows 1 y0) (col Z0 j) /\ in_span N k Z0 (y0 j)).
Proof.
  intros N k op iop tol mx reset inv sqrtm eig minimize rng fuel y0 r n U HI HQ Hn En HU Lt H.
  destruct (eigsolve_parts _ _ _ _ _ _ _ _ _ _ _ _ _ _ _ H) as (Z0 & v & y & st & S & L & _ & Y).
  pose proof (from_rows_fro N k y0 n Hn En) as F. destruct fuel as [|f]; [discriminate|].
  assert (Hk : (0 < k)%nat) by (destruct k; [exfalso; unfold re_trace in Lt; cbn in Lt; lra|lia]).
  assert (K0 : 0 < INR k) by now apply lt_0_INR.
  destruct (proj2 (proj2 (pass N k inv sqrtm HI rng f 0 true y0 (mtr y0) ltac:(lra))) U) as (U' & HU' & P); [rewrite F; exact HU|exact Lt|].
  rewrite P in S. clear P. set (Z1 := mscale_r (INR k / fro N k (mtr y0)) (mtr y0)) in *.
  assert (EZ : forall i q, Z1 i q = cmul (mkC (INR k / n) 0) (y0 q i)) by (intros i q; unfold Z1; rewrite F; reflexivity). clearbody Z1.
  destruct (sqrtm k U') as [Q|] eqn:EQ; [|discriminate]. cbn [obind] in S.
  destruct (root_orthonormal N k sqrtm HQ Z1 U' Q HU' EQ) as [O1 O2].
  cbv zeta in O1, O2. match type of S with start_loop _ _ _ _ _ _ _ _ _ ?w = _ => change w with (mm (K := CC) k Z1 (mct Q)) in S; set (W := mm (K := CC) k Z1 (mct Q)) in * end. clearbody W.
  destruct f as [|f]; [discriminate|].
  destruct (orthonormal_pass N k inv sqrtm HI rng f 0 false (mtr Z1) _ Hk O1) as (G & y1 & P). cbv beta in S. rewrite P in S. injection S as <- _ _.
  destruct (loop_grows _ _ _ _ _ _ _ _ _ _ _ _ _ _ _ L) as (rest & E). eexists rest, _. split; [exact E|]. split; [exact G|].
  pose proof (sqrt_lt_R0 (INR k) K0) as Sk.
  intros j Hj. destruct (O2 j Hj) as [(c & Hc) (d & Hd)]. split.
  - exists (fun q => cmul (mkC (sqrt (INR k) * (INR k / n)) 0) (c q)). intros i Hi. unfold col, mscale_r, mscale.
    refine (eq_trans (f_equal (cmul (mkC (sqrt (INR k)) 0)) (Hc i Hi)) _). unfold comb. refine (eq_trans (eq_sym (sumN_mul_l CC k _ _)) _). apply (sumN_ext CC). intros q Hq.
    rewrite (EZ i q). unfold from_rows. apply cpx_ext; cbn; ring.
  - exists (fun q => cmul (mkC (/ (sqrt (INR k) * (INR k / n))) 0) (d q)). intros i Hi.
    transitivity (cmul (mkC (/ (INR k / n)) 0) (col Z1 j i)).
    + unfold col. rewrite (EZ i j). apply cpx_ext; cbn; field; split; lra.
    + rewrite (Hd i Hi). unfold comb. refine (eq_trans (eq_sym (sumN_mul_l CC k _ _)) _). apply (sumN_ext CC). intros q Hq.
      unfold mscale_r, mscale. set (w := W i q) in *. set (e := d q) in *. clearbody w e. apply cpx_ext; cbn; field; repeat split; lra.
Qed.
Print Assumptions C133_orthonormalised.

(** Two modes of two components, no iterations; the given vectors (1, 0) and
    (0, b), or twice (1, 0). *)
Definition inv2 (_ : nat) (M : mat CC) : option (mat CC) :=
  let d := csub (cmul (M 0 0)%nat (M 1 1)%nat) (cmul (M 0 1)%nat (M 1 0)%nat) in
  if cpx_dec d c0 then None else Some (fun i j => match i, j with
    | O, O => cdiv (M 1 1)%nat d | O, _ => cdiv (copp (M 0 1)%nat) d | _, O => cdiv (copp (M 1 0)%nat) d | _, _ => cdiv (M 0 0)%nat d end).
Definition off_diag (M : mat CC) : bool := if cpx_dec (M 0 1)%nat c0 then if cpx_dec (M 1 0)%nat c0 then false else true else true.
Definition sqrtm2 (_ : nat) (M : mat CC) : option (mat CC) :=
  if off_diag M then None else Some (fun i j => if (i =? j)%nat then csqrt (M i i) else c0).
Definition eig2 (_ : nat) (M : mat CC) : option ((nat -> cpx) * mat CC) :=
  if off_diag M then None else Some (fun i => M i i, fun i j => if (i =? j)%nat then c1 else c0).
Definition diag2 (a b : R) : mat CC := fun i j => if (i =? j)%nat then mkC (if (i =? 0)%nat then a else b) 0 else c0.
Definition twice : mat CC := fun i j => if (j =? 0)%nat then c1 else c0.
Definition some_op (x : vect CC) : option (vect CC) := Some x.
Definition solve2 rng fuel y0 := eigsolve 2 2 some_op some_op (1 / 10) 0 100 inv2 sqrtm2 eig2 (fun _ => None) rng fuel y0.
Lemma off_diag_false M : off_diag M = false <-> M 0%nat 1%nat = c0 /\ M 1%nat 0%nat = c0.
Proof. unfold off_diag. destruct (cpx_dec _ _) as [A|A]; [destruct (cpx_dec _ _) as [B|B]; [tauto|]|]; (split; [discriminate|tauto]). Qed.
Lemma two i : (i < 2)%nat -> i = 0%nat \/ i = 1%nat. Proof. lia. Qed.
Lemma inv2_ok : inv_ok 2 inv2.
Proof.
  intro M. unfold inv2. cbv zeta. set (d := csub _ _). destruct (cpx_dec d c0) as [E|E].
  - intros U H. destruct (H 0%nat 0%nat ltac:(lia) ltac:(lia)) as [A1 _]. destruct (H 0%nat 1%nat ltac:(lia) ltac:(lia)) as [A2 _].
    destruct (H 1%nat 0%nat ltac:(lia) ltac:(lia)) as [A3 _]. destruct (H 1%nat 1%nat ltac:(lia) ltac:(lia)) as [A4 _].
    change (cadd (cadd c0 (cmul (M 0 0)%nat (U 0 0)%nat)) (cmul (M 0 1)%nat (U 1 0)%nat) = c1) in A1. change (cadd (cadd c0 (cmul (M 0 0)%nat (U 0 1)%nat)) (cmul (M 0 1)%nat (U 1 1)%nat) = c0) in A2.
    change (cadd (cadd c0 (cmul (M 1 0)%nat (U 0 0)%nat)) (cmul (M 1 1)%nat (U 1 0)%nat) = c0) in A3. change (cadd (cadd c0 (cmul (M 1 0)%nat (U 0 1)%nat)) (cmul (M 1 1)%nat (U 1 1)%nat) = c1) in A4.
    assert (X : cmul d (csub (cmul (U 0 0)%nat (U 1 1)%nat) (cmul (U 0 1)%nat (U 1 0)%nat)) = csub (cmul c1 c1) (cmul c0 c0)).
    { match type of A1 with ?a = _ => match type of A2 with ?b = _ => match type of A3 with ?e = _ => match type of A4 with ?f = _ =>
        transitivity (csub (cmul a f) (cmul b e)); [unfold d; generalize (M 0 0)%nat (M 0 1)%nat (M 1 0)%nat (M 1 1)%nat (U 0 0)%nat (U 0 1)%nat (U 1 0)%nat (U 1 1)%nat; intros; apply cpx_ext; cbn; ring|now rewrite A1, A2, A3, A4] end end end end. }
    rewrite E in X. apply (f_equal cre) in X. cbn in X. lra.
  - intros i j Hi Hj. destruct (two i Hi) as [-> | ->], (two j Hj) as [-> | ->]; cbn [Nat.eqb]; split;
      match goal with |- sumN _ ?f = ?r => change (cadd (cadd c0 (f 0%nat)) (f 1%nat) = r) end; cbv beta iota;
      unfold d; cfield; exact E.
Qed.

Lemma sqrtm2_ok : sqrtm_ok 2 sqrtm2.
Proof.
  intros M S H. unfold sqrtm2 in H. destruct (off_diag M) eqn:E; [discriminate|]. injection H as <-. apply off_diag_false in E. destruct E as [E1 E2]. split.
  - intros i j Hi Hj. destruct (two i Hi) as [-> | ->], (two j Hj) as [-> | ->];
      match goal with |- sumN _ ?f = ?r => change (cadd (cadd c0 (f 0%nat)) (f 1%nat) = r) end; cbv beta; cbn [Nat.eqb]; rewrite ?E1, ?E2.
    + refine (eq_trans _ (csqrt_sq (M 0 0)%nat)). generalize (csqrt (M 0 0)%nat). intro; apply cpx_ext; cbn; ring.
    + generalize (csqrt (M 0 0)%nat) (csqrt (M 1 1)%nat). intros; apply cpx_ext; cbn; ring.
    + generalize (csqrt (M 0 0)%nat) (csqrt (M 1 1)%nat). intros; apply cpx_ext; cbn; ring.
    + refine (eq_trans _ (csqrt_sq (M 1 1)%nat)). generalize (csqrt (M 1 1)%nat). intro; apply cpx_ext; cbn; ring.
  - intros [P1 P2] i j Hi Hj.
    assert (D : forall a, (a < 2)%nat -> csqrt (M a a) = cconj (csqrt (M a a))).
    { intros a Ha. pose proof (f_equal cim (P1 a a Ha Ha)) as I. cbn in I. set (m := M a a) in *.
      assert (Rp : 0 <= cre m).
      { pose proof (P2 (fun q => if (q =? a)%nat then c1 else c0)) as Q. assert (Nz : nonzero_vec 2 (fun q => if (q =? a)%nat then c1 else c0)).
        { exists a. split; [exact Ha|]. rewrite Nat.eqb_refl. intro X. apply (f_equal cre) in X. cbn in X. lra. }
        specialize (Q Nz). unfold m. destruct (two a Ha) as [-> | ->]; cbn in Q; lra. }
      replace m with (mkC (cre m) 0) by (apply cpx_ext; cbn; lra). rewrite csqrt_real_pos by exact Rp. apply cpx_ext; cbn; ring. }
    rewrite (Nat.eqb_sym j i). destruct (Nat.eqb_spec i j) as [<-|_]; [now apply D|apply cpx_ext; cbn; ring].
Qed.
Definition is_diag (Z : mat CC) (a b : R) : Prop := forall i j, (i < 2)%nat -> (j < 2)%nat -> Z i j = diag2 a b i j.
Lemma mm_diag A B a b c d : is_diag A a b -> is_diag B c d -> is_diag (mm (K := CC) 2 A B) (a * c) (b * d).
Proof.
  intros HA HB i j Hi Hj. unfold mm. change (cadd (cadd c0 (cmul (A i 0%nat) (B 0%nat j))) (cmul (A i 1%nat) (B 1%nat j)) = diag2 (a * c) (b * d) i j).
  rewrite !HA, !HB by lia. destruct (two i Hi) as [-> | ->], (two j Hj) as [-> | ->]; apply cpx_ext; cbn; ring.
Qed.
Lemma mct_diag A a b : is_diag A a b -> is_diag (mct A) a b.
Proof. intros HA i j Hi Hj. unfold mct. rewrite HA by assumption. destruct (two i Hi) as [-> | ->], (two j Hj) as [-> | ->]; apply cpx_ext; cbn; ring. Qed.
Lemma scale_diag c A a b : is_diag A a b -> is_diag (mscale_r c A) (c * a) (c * b).
Proof. intros HA i j Hi Hj. unfold mscale_r, mscale. rewrite HA by assumption. destruct (two i Hi) as [-> | ->], (two j Hj) as [-> | ->]; apply cpx_ext; cbn; ring. Qed.
Lemma inv2_diag M a b : is_diag M a b -> 0 < a -> 0 < b -> exists U, inv2 2 M = Some U /\ is_diag U (/ a) (/ b).
Proof.
  intros HM Ha Hb. unfold inv2. cbv zeta.
  assert (E : csub (cmul (M 0 0)%nat (M 1 1)%nat) (cmul (M 0 1)%nat (M 1 0)%nat) = mkC (a * b) 0) by (rewrite !HM by lia; apply cpx_ext; cbn; ring).
  rewrite E. assert (P : 0 < a * b) by now apply Rmult_lt_0_compat. destruct (cpx_dec _ _) as [X|_]; [apply (f_equal cre) in X; cbn in X; lra|].
  eexists. split; [reflexivity|]. intros i j Hi Hj. destruct (two i Hi) as [-> | ->], (two j Hj) as [-> | ->]; rewrite HM by lia; apply cpx_ext; cbn; unfold cnrm; cbn; field; nra.
Qed.
Lemma sqrtm2_diag M a b : is_diag M a b -> 0 < a -> 0 < b -> exists S, sqrtm2 2 M = Some S /\ is_diag S (sqrt a) (sqrt b).
Proof.
  intros HM Ha Hb. unfold sqrtm2. rewrite (proj2 (off_diag_false M)) by (rewrite !HM by lia; now split). eexists. split; [reflexivity|].
  intros i j Hi Hj. destruct (two i Hi) as [-> | ->], (two j Hj) as [-> | ->]; cbn [Nat.eqb]; rewrite ?HM by lia; cbn; try reflexivity; rewrite csqrt_real_pos by lra; reflexivity.
Qed.
Lemma recover_diag Z a b : is_diag Z a b -> 0 < a -> 0 < b -> exists ms, recover 2 2 some_op inv2 sqrtm2 eig2 Z (mm 2 (mct Z) Z) = Some ms.
Proof.
  intros HZ Ha Hb. unfold recover. pose proof (mm_diag _ _ _ _ _ _ (mct_diag _ _ _ HZ) HZ) as G.
  assert (Pa : 0 < a * a) by now apply Rmult_lt_0_compat. assert (Pb : 0 < b * b) by now apply Rmult_lt_0_compat.
  destruct (inv2_diag _ _ _ G Pa Pb) as (U & -> & HU). cbn [obind].
  pose proof (Rinv_0_lt_compat _ Pa) as Ia. pose proof (Rinv_0_lt_compat _ Pb) as Ib.
  destruct (sqrtm2_diag _ _ _ HU Ia Ib) as (S & -> & HS). cbn [obind]. pose proof (mm_diag _ _ _ _ _ _ HZ HS) as HY.
  set (Y := mm (K := CC) 2 Z S) in *. clearbody Y. unfold on_columns, some_op. cbn [obind].
  set (AY := fun r c : nat => _). assert (HAY : is_diag AY (a * sqrt (/ (a * a))) (b * sqrt (/ (b * b)))).
  { intros i j Hi Hj. unfold AY. destruct (two j Hj) as [-> | ->]; cbn [Nat.eqb]; now apply HY. }
  clearbody AY. pose proof (mm_diag _ _ _ _ _ _ (mct_diag _ _ _ HY) HAY) as HW. set (W := mm (K := CC) 2 (mct Y) AY) in *. clearbody W.
  unfold eig2. rewrite (proj2 (off_diag_false W)) by (rewrite !HW by lia; now split). cbn [obind].
  match goal with |- exists ms, (if ?e then _ else _) = _ => destruct e eqn:Ex end; [exfalso|eexists; reflexivity].
  apply existsb_exists in Ex. destruct Ex as (j & Hj & Ej). apply in_seq in Hj. destruct (Req_EM_T _ 0) as [E|]; [|discriminate].
  set (I2 := fun i j : nat => if (i =? j)%nat then c1 else c0) in *.
  assert (HI2 : is_diag I2 1 1) by (intros i q Hi Hq; unfold I2, diag2; destruct (i =? q)%nat; [destruct (i =? 0)%nat|]; reflexivity).
  pose proof (mm_diag _ _ _ _ _ _ HY HI2) as HV. set (V := mm (K := CC) 2 Y I2) in *. clearbody V.
  pose proof (sqrt_lt_R0 _ Ia) as Sa. pose proof (sqrt_lt_R0 _ Ib) as Sb.
  pose proof (vnorm_sq 2 (fun i => V i j)) as Q. rewrite E in Q. unfold nrm2 in Q.
  set (pa := a * sqrt (/ (a * a)) * 1) in *. set (pb := b * sqrt (/ (b * b)) * 1) in *.
  assert (0 < pa) by (unfold pa; rewrite Rmult_1_r; now apply Rmult_lt_0_compat). assert (0 < pb) by (unfold pb; rewrite Rmult_1_r; now apply Rmult_lt_0_compat).
  destruct (two j ltac:(lia)) as [-> | ->].
  - change (0 * 0 = 0 + cnrm (V 0%nat 0%nat) + cnrm (V 1%nat 0%nat)) in Q. rewrite (HV 0%nat 0%nat), (HV 1%nat 0%nat) in Q by lia. unfold cnrm in Q. cbn in Q. nra.
  - change (0 * 0 = 0 + cnrm (V 0%nat 1%nat) + cnrm (V 1%nat 1%nat)) in Q. rewrite (HV 0%nat 1%nat), (HV 1%nat 1%nat) in Q by lia. unfold cnrm in Q. cbn in Q. nra.
Qed.
Lemma diag_total a b Z : is_diag Z a b -> total2 2 2 Z = a * a + b * b.
Proof. intro H. unfold total2, norm2, col. cbn. rewrite !H by lia. cbn. ring. Qed.
Lemma diag_gram Z a b : is_diag Z a b -> 0 < a -> 0 < b -> exists U, gram_inverse 2 2 Z U /\ re_trace 2 U = / (a * a) + / (b * b).
Proof.
  intros H Ha Hb. pose proof (mm_diag _ _ _ _ _ _ (mct_diag _ _ _ H) H) as G.
  destruct (inv2_diag _ _ _ G ltac:(nra) ltac:(nra)) as (U & E & HU). exists U. split.
  - pose proof (inv2_ok (mm 2 (mct Z) Z)) as X. rewrite E in X. exact X.
  - unfold re_trace. cbn. rewrite !HU by lia. cbn. ring.
Qed.
Lemma solve2_run rng fuel y0 Z0 view y a b :
  start_loop 2 2 inv2 sqrtm2 rng fuel (match y0 with None => 1 | _ => 0 end)%nat (match y0 with None => false | _ => true end)
      (match y0 with None => mzero (K := CC) | Some y => y end) (match y0 with None => rng O | Some y => mtr y end) = Some (Z0, mm 2 (mct Z0) Z0, view, y) ->
  is_diag Z0 a b -> 0 < a -> 0 < b -> exists r, solve2 rng fuel y0 = Some r.
Proof.
  intros S HZ Ha Hb. destruct (recover_diag Z0 a b HZ Ha Hb) as (ms & Rv). eexists.
  refine (eigsolve_of 2 2 some_op some_op (1 / 10) 0 100 inv2 sqrtm2 eig2 (fun _ => None) rng fuel y0 Z0 view y (mkCg Z0 (mm 2 (mct Z0) Z0) (mzero (K := CC)) 0 1 0) [Z0] false ms S eq_refl Rv).
Qed.
Lemma diag_start rng fuel draw view y Z a b : is_diag Z a b -> 0 < a -> 0 < b ->
  let n2 := a * a + b * b in n2 / (4 * (a * a)) + n2 / (4 * (b * b)) <= 200000000 ->
  exists Z0 y1 c, 0 < c /\ start_loop 2 2 inv2 sqrtm2 rng (S fuel) draw view y Z = Some (Z0, mm 2 (mct Z0) Z0, view, y1) /\ is_diag Z0 (c * a) (c * b) /\ well_conditioned 2 2 Z0 /\
    c = 2 / sqrt n2.
Proof.
  intros H Ha Hb n2 L. assert (P : 0 < n2) by (unfold n2; nra). pose proof (sqrt_lt_R0 n2 P) as Sp. pose proof (sqrt_sqrt n2 ltac:(lra)) as Sq.
  assert (F : fro 2 2 Z = sqrt n2) by (apply fro_of; [lra|]; rewrite (diag_total a b Z H); exact Sq).
  set (c := 2 / sqrt n2). assert (C : 0 < c) by (unfold c; apply Rmult_lt_0_compat; [lra|now apply Rinv_0_lt_compat]).
  assert (CC2 : c * c = 4 / n2) by (unfold c; replace (2 / sqrt n2 * (2 / sqrt n2)) with (4 / (sqrt n2 * sqrt n2)) by (field; lra); now rewrite Sq).
  assert (E : INR 2 / fro 2 2 Z = c) by (rewrite F; reflexivity).
  pose proof (scale_diag c Z a b H) as D. destruct (diag_gram _ _ _ D ltac:(nra) ltac:(nra)) as (U & G & T).
  assert (W : well_conditioned 2 2 (mscale_r c Z)).
  { exists U. split; [exact G|]. rewrite T. replace (100000000 * INR 2) with 200000000 by (cbn; ring). refine (Rle_trans _ _ _ (Req_le _ _ _) L).
    replace (c * a * (c * a)) with (c * c * (a * a)) by ring. replace (c * b * (c * b)) with (c * c * (b * b)) by ring. rewrite CC2. field. repeat split; lra. }
  pose proof (proj1 (pass 2 2 inv2 sqrtm2 inv2_ok rng fuel draw view y Z ltac:(rewrite F; lra))) as Q. cbv zeta in Q. rewrite E in Q. specialize (Q W).
  eexists _, _, c. split; [exact C|]. split; [exact Q|]. split; [exact D|]. split; [exact W|reflexivity].
Qed.
Definition fixed (n : nat) : mat CC := diag2 1 1.
Lemma twice_dependent : dependent 2 2 (from_rows 1 twice) /\ dependent 2 2 (mtr twice).
Proof.
  split; (exists (fun i => if (i =? 0)%nat then c1 else copp c1); split;
    [exists 0%nat; split; [lia|]; cbn; intro X; apply (f_equal cre) in X; cbn in X; lra|
     intros i Hi; destruct (two i Hi) as [-> | ->]; apply cpx_ext; cbn; ring]).
Qed.
Definition thin : R := 1 / 100000.
Example C133_case : inv_ok 2 inv2 /\ sqrtm_ok 2 sqrtm2 /\
  (sqrt 2 * sqrt 2 = total2 2 2 (from_rows 1 (diag2 1 1)) /\ well_conditioned 2 2 (from_rows (INR 2 / sqrt 2) (diag2 1 1)) /\
   exists r, solve2 fixed 1 (Some (diag2 1 1)) = Some r) /\
  (dependent 2 2 (from_rows 1 twice) /\ exists r, solve2 fixed 2 (Some twice) = Some r) /\
  (let rng n := match n with O => mtr twice | _ => diag2 1 1 end in
   dependent 2 2 (rng O) /\ total2 2 2 (rng O) <> 0 /\ exists r, solve2 rng 2 None = Some r) /\
  (let n := sqrt (1 + thin * thin) in n * n = total2 2 2 (from_rows 1 (diag2 1 thin)) /\
   (exists U, gram_inverse 2 2 (from_rows (INR 2 / n) (diag2 1 thin)) U /\ 100000000 * INR 2 < re_trace 2 U) /\
   exists r, solve2 fixed 2 (Some (diag2 1 thin)) = Some r).
Proof.
  split; [exact inv2_ok|]. split; [exact sqrtm2_ok|]. destruct twice_dependent as [D1 D2].
  assert (S0 : 0 < sqrt 2) by (apply sqrt_lt_R0; lra).
  assert (Tr : forall a b, is_diag (mtr (diag2 a b)) a b) by (intros a b i j Hi Hj; destruct (two i Hi) as [-> | ->], (two j Hj) as [-> | ->]; reflexivity).
  assert (Fr : forall c a b, is_diag (from_rows c (diag2 a b)) (c * a) (c * b)) by (intros c a b; exact (scale_diag c _ _ _ (Tr a b))).
  assert (T2 : total2 2 2 (mtr twice) = 2) by (unfold total2, norm2, col; cbn; ring).
  assert (F : fro 2 2 (mtr twice) <> 0) by (intro Z; pose proof (fro_sq 2 2 (mtr twice)) as Q; rewrite Z, T2 in Q; lra).
  split; [|split; [|split]].
  - split; [rewrite (diag_total _ _ _ (Fr 1 1 1)), sqrt_sqrt; lra|].
    destruct (diag_start fixed 0 0 true (diag2 1 1) (mtr (diag2 1 1)) 1 1 (Tr 1 1) ltac:(lra) ltac:(lra) ltac:(cbv zeta; lra)) as (Z0 & y1 & c & C & E & D & W & Ec). split.
    + destruct (diag_gram _ _ _ (Fr (INR 2 / sqrt 2) 1 1)) as (U & G & T); [| |exists U; split; [exact G|]].
      * cbn. rewrite Rmult_1_r. apply Rmult_lt_0_compat; [lra|now apply Rinv_0_lt_compat].
      * cbn. rewrite Rmult_1_r. apply Rmult_lt_0_compat; [lra|now apply Rinv_0_lt_compat].
      * rewrite T. pose proof (sqrt_sqrt 2 ltac:(lra)) as Q. replace (INR 2 / sqrt 2 * 1 * (INR 2 / sqrt 2 * 1)) with 2; [cbn; lra|]. replace (INR 2) with 2 by (cbn; ring). replace (2 / sqrt 2) with (sqrt 2 * sqrt 2 / sqrt 2) by now rewrite Q. replace (sqrt 2 * sqrt 2 / sqrt 2) with (sqrt 2) by (field; lra). lra.
    + refine (solve2_run fixed 1 (Some (diag2 1 1)) Z0 true y1 _ _ E D _ _); lra.
  - split; [exact D1|]. pose proof (proj1 (proj2 (pass 2 2 inv2 sqrtm2 inv2_ok fixed 1 0 true twice (mtr twice) F)) (dependent_singular 2 2 _ _ D2)) as P. cbv zeta in P.
    destruct (diag_start fixed 0 1 false (mtr (mscale_r (INR 2 / fro 2 2 (mtr twice)) (mtr twice))) (fixed 0%nat) 1 1 ltac:(intros i j _ _; reflexivity) ltac:(lra) ltac:(lra) ltac:(cbv zeta; lra)) as (Z0 & y1 & c & C & E & D & W & Ec).
    refine (solve2_run fixed 2 (Some twice) Z0 false y1 _ _ _ D _ _); [|lra|lra]. rewrite <- E. exact P.
  - intro rng. split; [exact D2|]. split; [cbn [rng]; rewrite T2; lra|].
    pose proof (proj1 (proj2 (pass 2 2 inv2 sqrtm2 inv2_ok rng 1 1 false (mzero (K := CC)) (mtr twice) F)) (dependent_singular 2 2 _ _ D2)) as P. cbv zeta in P.
    destruct (diag_start rng 0 2 false (mzero (K := CC)) (rng 1%nat) 1 1 ltac:(intros i j _ _; reflexivity) ltac:(lra) ltac:(lra) ltac:(cbv zeta; lra)) as (Z0 & y1 & c & C & E & D & W & Ec).
    refine (solve2_run rng 2 None Z0 false y1 _ _ _ D _ _); [|lra|lra]. rewrite <- E. exact P.
  - intro n. assert (Tp : 0 < thin) by (unfold thin; lra). assert (Np : 0 < 1 + thin * thin) by nra. pose proof (sqrt_lt_R0 _ Np) as Sn. fold n in Sn. pose proof (sqrt_sqrt (1 + thin * thin) ltac:(lra)) as Sq. fold n in Sq.
    assert (En : n * n = total2 2 2 (from_rows 1 (diag2 1 thin))) by (rewrite (diag_total _ _ _ (Fr 1 1 thin)), Sq; ring).
    split; [exact En|]. assert (Cn : 0 < INR 2 / n) by (apply Rmult_lt_0_compat; [cbn; lra|now apply Rinv_0_lt_compat]).
    destruct (diag_gram _ _ _ (Fr (INR 2 / n) 1 thin) ltac:(nra) ltac:(nra)) as (U & G & T).
    assert (Big : 100000000 * INR 2 < re_trace 2 U).
    { rewrite T. replace (INR 2 / n * thin * (INR 2 / n * thin)) with (4 * (thin * thin) / (n * n)) by (cbn; field; lra).
      replace (INR 2 / n * 1 * (INR 2 / n * 1)) with (4 / (n * n)) by (cbn; field; lra). rewrite Sq. unfold thin. cbn. lra. }
    split; [now exists U|]. pose proof (from_rows_fro 2 2 _ n Sn En) as Fn.
    destruct (proj2 (proj2 (pass 2 2 inv2 sqrtm2 inv2_ok fixed 1 0 true (diag2 1 thin) (mtr (diag2 1 thin)) ltac:(lra))) U) as (U' & HU' & P); [rewrite Fn; exact G|exact Big|].
    set (Z1 := mscale_r (INR 2 / fro 2 2 (mtr (diag2 1 thin))) (mtr (diag2 1 thin))) in *.
    assert (DZ : is_diag Z1 (INR 2 / n * 1) (INR 2 / n * thin)) by (unfold Z1; rewrite Fn; apply scale_diag, Tr). clearbody Z1.
    set (p := INR 2 / n * 1) in *. set (q := INR 2 / n * thin) in *. assert (Pp : 0 < p) by (unfold p; lra). assert (Pq : 0 < q) by (unfold q; nra).
    assert (DU : is_diag U' (/ (p * p)) (/ (q * q))).
    { destruct (inv2_diag _ _ _ (mm_diag _ _ _ _ _ _ (mct_diag _ _ _ DZ) DZ) ltac:(nra) ltac:(nra)) as (U2 & E2 & H2). intros i j Hi Hj. rewrite <- (H2 i j Hi Hj).
      pose proof (inv2_ok (mm 2 (mct Z1) Z1)) as X. rewrite E2 in X. refine (inv_unique 2 _ _ U' U2 _ HU' X i j Hi Hj). reflexivity. }
    destruct (sqrtm2_diag _ _ _ DU ltac:(apply Rinv_0_lt_compat; nra) ltac:(apply Rinv_0_lt_compat; nra)) as (Q & EQ & HQ). rewrite EQ in P. cbn [obind] in P.
    destruct (root_orthonormal 2 2 sqrtm2 sqrtm2_ok Z1 U' Q HU' EQ) as [O1 _]. cbv zeta in O1.
    destruct (orthonormal_pass 2 2 inv2 sqrtm2 inv2_ok fixed 0 0 false (mtr Z1) _ ltac:(lia) O1) as (_ & y1 & P2). rewrite P2 in P.
    clearbody p q. refine (solve2_run fixed 2 (Some (diag2 1 thin)) _ false y1 _ _ P (scale_diag _ _ _ _ (mm_diag _ _ _ _ _ _ DZ (mct_diag _ _ _ HQ))) _ _).
    + repeat apply Rmult_lt_0_compat; try (apply sqrt_lt_R0; try apply Rinv_0_lt_compat; cbn; nra); exact Pp.
    + repeat apply Rmult_lt_0_compat; try (apply sqrt_lt_R0; try apply Rinv_0_lt_compat; cbn; nra); exact Pq.
Qed.
