(** meanas/eigensolvers.py on Hermitian operators: how far the results are from
    the exact eigenvalues and eigenvectors, and when power iteration converges. *)
From Coq Require Import Reals List Arith ZArith Lia Lra Psatz Bool FunctionalExtensionality.
From Verif.Lib Require Import Num Sums Idx Mat RealF BoxMin.
From Verif.Model Require Import Eigensolvers.
From Verif.Spec Require Import BlochSpec EigenSpec BlochSolveSpec BandsSpec.
From Verif.Proofs Require Import EmeP EigensolversP PowerP BlochSolveP SpectralP MinMaxP HermEigP PowerHermP.
From Verif.Props Require Import EigenProps ConvergenceProps.
Import ListNotations.
Local Open Scope R_scope.

(** an eigenvalue: some vector other than zero belongs to it *)
Definition eigenvalue n A mu : Prop := exists x, eigenpair n A mu x /\ nonzero_vec n x.
(** All eigenvalues other than lam are at least d away from l. *)
Definition others_apart n A lam (l : cpx) d : Prop := forall mu, eigenvalue n A mu -> mu <> lam -> d * d <= cnrm (csub mu l).

(** ** C158 *)
(** Some eigenvalue is not farther away than the residual. *)
Theorem C158_near_an_eigenvalue :
  forall n A l v, hermitian n A -> norm2 n v = 1 -> exists mu, eigenvalue n A mu /\ cim mu = 0 /\ cnrm (csub mu l) <= residual2 n A l v.
Proof.
  intros n A l v HA U. destruct (eigenbasis_exists n A HA) as (V & t & HV). set (r := residual2 n A l v).
  destruct (all_dec n (fun a => r < cnrm (csub (rc (t a)) l))) as [Far|Near].
  - intros a _. destruct (Rlt_dec r (cnrm (csub (rc (t a)) l))); auto.
  - exfalso. pose proof (residual_sum n A HA V t HV l v) as E. fold r in E. pose proof (parseval2 n V (proj1 HV) v) as P. rewrite U in P.
    assert (Le : 0 <= rs n (fun a => (cnrm (csub (rc (t a)) l) - r) * cnrm (hdot n (col V a) v))).
    { apply rs_nonneg. intros a Ha. pose proof (Far a Ha). apply Rmult_le_pos; [lra|apply cnrm_pos]. }
    assert (Z : rs n (fun a => (cnrm (csub (rc (t a)) l) - r) * cnrm (hdot n (col V a) v)) = 0).
    { transitivity (rs n (fun a => cnrm (csub (rc (t a)) l) * cnrm (hdot n (col V a) v)) - rs n (fun a => r * cnrm (hdot n (col V a) v))).
      - rewrite <- rs_sub. apply rs_ext. intros a _. set (x := cnrm (csub _ _)). set (y := cnrm (hdot _ _ _)). clearbody x y. change ((x - r) * y = x * y - r * y). ring.
      - rewrite rs_scale, <- E, <- P. change (r - r * 1 = 0). ring. }
    assert (C0 : forall a, (a < n)%nat -> cnrm (hdot n (col V a) v) = 0).
    { intros a Ha. pose proof (rs_ge_term n (fun a => (cnrm (csub (rc (t a)) l) - r) * cnrm (hdot n (col V a) v)) a Ha) as T.
      rewrite Z in T. cbn beta in T. pose proof (Far a Ha). pose proof (cnrm_pos (hdot n (col V a) v)).
      assert ((cnrm (csub (rc (t a)) l) - r) * cnrm (hdot n (col V a) v) <= 0). { apply T. intros b Hb. pose proof (Far b Hb). apply Rmult_le_pos; [lra|apply cnrm_pos]. } nra. }
    rewrite (rs_ext n _ (fun _ => 0)) in P by exact C0. rewrite rs_const in P. rewrite Rmult_0_r in P. lra.
  - assert (X : exists a, (a < n)%nat /\ ~ r < cnrm (csub (rc (t a)) l)).
    { clearbody r. clear - Near. induction n as [|m IH]; [exfalso; apply Near; intros; lia|].
      destruct (Rlt_dec r (cnrm (csub (rc (t m)) l))) as [E|E]; [|exists m; split; [lia|exact E]]. destruct IH as (a & Ha & Na); [|exists a; split; [lia|exact Na]]. intro Y. apply Near. intros i Hi.
      destruct (Nat.eq_dec i m) as [->|]; [exact E|apply Y; lia]. }
    destruct X as (a & Ha & Na). exists (rc (t a)). split; [exists (col V a); split; [exact (proj2 HV a Ha)|exact (basis_nonzero n A V t HV a Ha)]|]. split; [reflexivity|]. lra.
Qed.
Print Assumptions C158_near_an_eigenvalue.

(** rayleigh_quotient_iteration that stops before its iterations are used up has
    an eigenvalue within the tolerance. *)
Theorem C158_stopped :
  forall n A tol solver guess iterations, hermitian n A -> 0 <= tol -> nonzero_vec n guess ->
    (forall b, norm2 n b = 1 -> tol * tol <= residual2 n A (rayleigh_quotient n A b) b -> nonzero_vec n (solver (shifted A (rayleigh_quotient n A b)) b)) ->
    (0 < iterations)%nat ->
    exists (u : nat -> vect CC) k l,
      result (rayleigh_quotient_iteration n A tol solver guess iterations) = Some (l, u k) /\ unit_of n guess (u 0%nat) /\
      (forall j, (j < k)%nat -> unit_of n (solver (shifted A (rayleigh_quotient n A (u j))) (u j)) (u (S j))) /\ (k <= iterations)%nat /\
      ((k < iterations)%nat -> exists mu, eigenvalue n A mu /\ cim mu = 0 /\ cabs (csub mu l) < tol).
Proof.
  intros n A tol solver guess its HA Ht Hg Hs Hi. destruct (C48_rayleigh_quotient_iteration n A tol solver guess its Ht Hg Hs Hi) as (u & k & l & E & U0 & Un & St & _ & D).
  exists u, k, l. split; [exact E|]. split; [exact U0|]. split; [exact St|]. split; [destruct D as [(H & _)|(-> & _)]; lia|].
  intro Hk. destruct D as [(_ & _ & Rs)|(H & _)]; [|lia]. destruct (C158_near_an_eigenvalue n A l (u k) HA (Un k (le_n k))) as (mu & Em & I0 & Le). exists mu. split; [exact Em|]. split; [exact I0|].
  unfold cabs. rewrite <- (sqrt_Rsqr tol Ht). apply sqrt_lt_1_alt. split; [apply cnrm_pos|unfold Rsqr; lra].
Qed.
Print Assumptions C158_stopped.
(** The Rayleigh quotient is closer: quadratic in the residual, divided by the gap. *)
Theorem C158_quadratic :
  forall n A v lam d, hermitian n A -> norm2 n v = 1 -> 0 <= d ->
    let l := rayleigh_quotient n A v in
    others_apart n A (mkC lam 0) l d -> Rabs (lam - cre l) <= d ->
    cim l = 0 /\ d * Rabs (lam - cre l) <= residual2 n A l v.
Proof.
  intros n A v lam d HA U Hd l Ap Cl. destruct (eigenbasis_exists n A HA) as (V & t & HV).
  assert (El : l = rc (rs n (fun a => t a * cnrm (hdot n (col V a) v)))) by exact (quotient_sum n A HA V t HV v U).
  split; [now rewrite El|]. set (x := cre l) in *. assert (Lx : l = rc x) by (unfold x; rewrite El; reflexivity).
  assert (Ex : x = rs n (fun a => t a * cnrm (hdot n (col V a) v))) by (unfold x; now rewrite El).
  pose proof (parseval2 n V (proj1 HV) v) as P. rewrite U in P.
  assert (Ga : forall a, (a < n)%nat -> t a = lam \/ d <= Rabs (t a - x)).
  { intros a Ha. destruct (Req_EM_T (t a) lam) as [E|Ne]; [now left|right].
    assert (Q : d * d <= cnrm (csub (rc (t a)) l)).
    { apply Ap; [exists (col V a); split; [exact (proj2 HV a Ha)|exact (basis_nonzero n A V t HV a Ha)]|]. intro X. apply Ne. now injection X. }
    rewrite Lx in Q. unfold cnrm in Q. cbn [csub cre cim] in Q. apply Rsqr_incr_0_var; [|apply Rabs_pos]. rewrite <- Rsqr_abs. unfold Rsqr. nra. }
  (* s = 1 or -1: the side on which lam lies *)
  assert (Main : forall s, s * s = 1 -> 0 <= s * (x - lam) <= d -> d * (s * (x - lam)) <= residual2 n A l v).
  { intros s Hs Hx. rewrite (residual_sum n A HA V t HV l v).
    assert (Q : 0 <= rs n (fun a => (s * (t a - lam)) * (s * (t a - x) - d) * cnrm (hdot n (col V a) v))).
    { apply rs_nonneg. intros a Ha. apply Rmult_le_pos; [|apply cnrm_pos]. destruct (Ga a Ha) as [-> | G]; [replace (lam - lam) with 0 by ring; rewrite Rmult_0_r, Rmult_0_l; apply Rle_refl|].
      assert (G' : d <= s * (t a - x) \/ s * (t a - x) <= - d).
      { assert (D : s = 1 \/ s = -1) by (assert ((s - 1) * (s + 1) = 0) by (ring_simplify; simpl in Hs; nra); destruct (Rmult_integral _ _ H) as [W|W]; [left|right]; lra).
        destruct D as [-> | ->]; unfold Rabs in G; destruct (Rcase_abs (t a - x)); lra. }
      assert (E : s * (t a - lam) = s * (t a - x) + s * (x - lam)) by ring. rewrite E. set (y := s * (t a - x)) in *. set (z := s * (x - lam)) in *. clearbody y z.
      destruct G'; [apply Rmult_le_pos; lra|]. replace ((y + z) * (y - d)) with ((- y - z) * (d - y)) by ring. apply Rmult_le_pos; lra. }
    assert (E : rs n (fun a => (s * (t a - lam)) * (s * (t a - x) - d) * cnrm (hdot n (col V a) v))
              = rs n (fun a => cnrm (csub (rc (t a)) l) * cnrm (hdot n (col V a) v)) + ((x - lam - s * d) * rs n (fun a => t a * cnrm (hdot n (col V a) v)) + (s * d * lam - x * (x - lam) ) * rs n (fun a => cnrm (hdot n (col V a) v)))).
    { rewrite <- !rs_scale, <- !rs_add. apply rs_ext. intros a _. rewrite Lx. set (y := cnrm (hdot _ _ _)). clearbody y. unfold cnrm. cbn [csub cre cim].
      change (s * (t a - lam) * (s * (t a - x) - d) * y = ((t a - x) * (t a - x) + (0 - 0) * (0 - 0)) * y + ((x - lam - s * d) * (t a * y) + (s * d * lam - x * (x - lam)) * y)).
      transitivity ((s * s * (t a - lam) * (t a - x) - s * d * (t a - lam)) * y); [ring|]. rewrite Hs. ring. }
    rewrite E, <- Ex, <- P in Q. lra. }
  unfold Rabs in *. destruct (Rcase_abs (lam - x)) as [Ng|Ps].
  - pose proof (Main 1 ltac:(lra) ltac:(lra)) as M. lra.
  - pose proof (Main (-1) ltac:(lra) ltac:(lra)) as M. lra.
Qed.
Print Assumptions C158_quadratic.
(** The returned vector is within residual / gap of an eigenvector. *)
Theorem C158_vector :
  forall n A l v lam d, hermitian n A -> others_apart n A lam l d ->
    exists x, eigenpair n A lam x /\ d * d * norm2 n (fun i => csub (v i) (x i)) <= residual2 n A l v.
Proof.
  intros n A l v lam d HA Ap. destruct (eigenbasis_exists n A HA) as (V & t & HV).
  set (c := fun a => hdot n (col V a) v). set (cx := fun a => if cpx_dec (rc (t a)) lam then c a else c0). exists (comb n V cx). split.
  - intros i Hi. unfold comb. rewrite (mv_sum n A (fun a j => cmul (V j a) (cx a)) i n). refine (eq_trans _ (sumN_mul_l CC n lam _)). apply (sumN_ext CC). intros a Ha.
    transitivity (cmul (cx a) (mv (K := CC) n A (col V a) i)).
    + refine (eq_trans _ (mv_lin_scale CC n A (cx a) (col V a) i)). apply (mv_ext_v CC). intros q _. change (cmul (V q a) (cx a) = cmul (cx a) (V q a)). generalize (V q a) (cx a). intros y z. apply cpx_ext; cbn; ring.
    + rewrite (proj2 HV a Ha i Hi). unfold cx. destruct (cpx_dec (rc (t a)) lam) as [<-|]; apply cpx_ext; cbn; unfold col; ring.
  - rewrite (residual_sum n A HA V t HV l v), (parseval2 n V (proj1 HV)), <- rs_scale. apply rs_le. intros a Ha.
    assert (E : hdot n (col V a) (fun i => csub (v i) (comb n V cx i)) = csub (c a) (cx a)).
    { transitivity (csub (hdot n (col V a) v) (hdot n (col V a) (comb n V cx))).
      - unfold hdot. refine (eq_trans _ (sumN_sub CC n _ _)). apply (sumN_ext CC). intros i _. apply cpx_ext; cbn; ring.
      - now rewrite (on_coef n V (proj1 HV) n cx a (le_n n) Ha). }
    rewrite E. fold (c a). unfold cx. destruct (cpx_dec (rc (t a)) lam) as [<-|Ne].
    + replace (cnrm (csub (c a) (c a))) with 0 by (unfold cnrm; cbn; ring). rewrite Rmult_0_r. apply Rmult_le_pos; apply cnrm_pos.
    + replace (csub (c a) c0) with (c a) by (apply cpx_ext; cbn; ring). apply Rmult_le_compat_r; [apply cnrm_pos|]. apply Ap; [|exact Ne]. exists (col V a). split; [exact (proj2 HV a Ha)|exact (basis_nonzero n A V t HV a Ha)].
Qed.
Print Assumptions C158_vector.
(** Not so for other operators: the residual is below the tolerance, but every
    eigenvalue is sqrt(tolerance/2) away. *)
Definition lop (s : R) : mat CC := fun i j => match i, j with O, 1%nat => c1 | 1%nat, O => mkC s 0 | _, _ => c0 end.
Lemma normalize_e0 : normalize 2 (e_at 0) = e_at 0.
Proof.
  assert (Nv : vnorm 2 (e_at 0) = 1).
  { unfold vnorm. cbn [sumN]. change (sqrt (0 + cnrm (e_at 0 0%nat) + cnrm (e_at 0 1%nat)) = 1). replace (0 + cnrm (e_at 0 0%nat) + cnrm (e_at 0 1%nat)) with 1 by (unfold cnrm, e_at; cbn; ring). exact sqrt_1. }
  apply functional_extensionality. intro i. unfold normalize, vdivr. rewrite Nv. unfold e_at. destruct (i =? 0)%nat; apply cpx_ext; cbn; unfold cnrm; cbn; field.
Qed.
Lemma lop_eigenvalue s mu : 0 < s -> eigenvalue 2 (lop s) mu -> cnrm mu = s.
Proof.
  intros Hs (x & E & Nz). pose proof (E 0%nat ltac:(lia)) as E0. pose proof (E 1%nat ltac:(lia)) as E1. unfold mv in E0, E1. cbn [sumN lop] in E0, E1.
  set (a := x O) in *. set (b := x 1%nat) in *.
  assert (B : b = cmul mu a) by (rewrite <- E0; apply cpx_ext; cbn; ring).
  assert (C : cmul (mkC s 0) a = cmul mu b) by (rewrite <- E1; apply cpx_ext; cbn; ring).
  assert (Na : 0 < cnrm a).
  { assert (a <> c0). { intro Z. destruct Nz as (i & Hi & Ni). apply Ni. destruct i as [|[|i]]; [exact Z| |lia]. change (b = c0). rewrite B, Z. apply cpx_ext; cbn; ring. }
    pose proof (cnrm_nz _ H). pose proof (cnrm_pos a). lra. }
  rewrite B in C. apply (f_equal cnrm) in C. rewrite !cnrm_mul in C. replace (cnrm (mkC s 0)) with (s * s) in C by (unfold cnrm; cbn; ring).
  pose proof (cnrm_pos mu) as Pm. set (y := cnrm mu) in *. set (z := cnrm a) in *. clearbody y z.
  assert (s * s = y * y). { apply Rmult_eq_reg_r with z; [|lra]. rewrite C. ring. } nra.
Qed.
Theorem C158_not_normal_refuted :
  forall tol, 0 < tol < 1 -> exists A guess, forall solver iterations, (0 < iterations)%nat ->
    exists l v, result (rayleigh_quotient_iteration 2 A tol solver guess iterations) = Some (l, v) /\ norm2 2 v = 1 /\ residual2 2 A l v < tol * tol /\
      (exists mu, eigenvalue 2 A mu) /\ forall mu, eigenvalue 2 A mu -> cnrm (csub mu l) = tol / 2.
Proof.
  intros tol Ht. exists (lop (tol / 2)), (e_at 0). intros solver its Hi. destruct its as [|its]; [lia|]. exists c0, (e_at 0).
  assert (M : forall i, (i < 2)%nat -> csub (mv 2 (lop (tol / 2)) (e_at 0) i) (cmul c0 (e_at 0 i)) = if (i =? 1)%nat then mkC (tol / 2) 0 else c0).
  { intros i Hi'. destruct i as [|[|i]]; [| |lia]; unfold mv; cbn [sumN lop]; apply cpx_ext; cbn; ring. }
  assert (L0 : cdot 2 (e_at 0) (mv 2 (lop (tol / 2)) (e_at 0)) = c0) by (unfold cdot, mv; cbn [sumN lop]; apply cpx_ext; cbn; ring).
  assert (R2 : residual2 2 (lop (tol / 2)) c0 (e_at 0) = tol / 2 * (tol / 2)).
  { unfold residual2. unfold norm2. cbn [sumN]. rewrite !M by lia. cbn. change (0 + (0 * 0 + 0 * 0) + (tol / 2 * (tol / 2) + 0 * 0) = tol / 2 * (tol / 2)). ring. }
  split; [|split; [|split; [|split]]].
  - unfold rayleigh_quotient_iteration. rewrite normalize_e0. cbn [rqi_loop]. rewrite L0. destruct (Rlt_dec (residual 2 (lop (tol / 2)) c0 (e_at 0)) tol) as [Y|Nn]; [reflexivity|]. exfalso. apply Nn.
    pose proof (residual_sq 2 (lop (tol / 2)) c0 (e_at 0)) as Q. rewrite R2 in Q. pose proof (residual_pos 2 (lop (tol / 2)) c0 (e_at 0)). nra.
  - unfold norm2. cbn [sumN]. change (0 + (1 * 1 + 0 * 0) + (0 * 0 + 0 * 0) = 1). ring.
  - rewrite R2. nra.
  - exists (mkC (sqrt (tol / 2)) 0), (fun i => if (i =? 0)%nat then c1 else mkC (sqrt (tol / 2)) 0). pose proof (sqrt_sqrt (tol / 2) ltac:(lra)) as Q. set (y := sqrt (tol / 2)) in *. split.
    + intros i Hi'. destruct i as [|[|i]]; [| |lia]; unfold mv; cbn [sumN lop]; apply cpx_ext; cbn; nra.
    + exists 0%nat. split; [lia|]. intro Z. apply (f_equal cre) in Z. cbn in Z. lra.
  - intros mu E. replace (csub mu c0) with mu by (apply cpx_ext; cbn; ring). apply lop_eigenvalue; [lra|exact E].
Qed.
Print Assumptions C158_not_normal_refuted.

(** ** C159: power_iteration on Hermitian operators *)
(** The eigenvalues +-lam are larger in magnitude than all others.  gp and gm are the
    parts of the guess that belong to them: what is left is orthogonal to their
    eigenvectors.  The estimate tends to lam (|gp|^2 - |gm|^2) / (|gp|^2 + |gm|^2). *)
Definition dominant n A lam rho : Prop := 0 <= rho < lam * lam /\ forall mu, eigenvalue n A mu -> mu = mkC lam 0 \/ mu = mkC (- lam) 0 \/ cnrm mu <= rho.
Definition parts n A lam (g gp gm : vect CC) : Prop :=
  eigenpair n A (mkC lam 0) gp /\ eigenpair n A (mkC (- lam) 0) gm /\
  forall x, eigenpair n A (mkC lam 0) x \/ eigenpair n A (mkC (- lam) 0) x -> hdot n x g = hdot n x (fun i => cadd (gp i) (gm i)).
Lemma dominant_basis n A lam rho V t : dominant n A lam rho -> eigenbasis n A V t -> forall a, (a < n)%nat -> t a = lam \/ t a = - lam \/ t a * t a <= rho.
Proof.
  intros (_ & D) HV a Ha. destruct (D (mkC (t a) 0)) as [E|[E|E]].
  - exists (col V a). split; [exact (proj2 HV a Ha)|exact (basis_nonzero n A V t HV a Ha)].
  - left. now injection E.
  - right; left. now injection E.
  - right; right. unfold cnrm in E. cbn in E. lra.
Qed.
Theorem C159_limit :
  forall n A g gp gm lam rho iterations, hermitian n A -> dominant n A lam rho -> parts n A lam g gp gm ->
    let p := norm2 n gp in let m := norm2 n gm in 0 < p + m ->
    let '(l, v) := result (power_iteration n A g iterations) in
    norm2 n v = 1 /\ cim l = 0 /\
    Rabs (cre l - lam * (p - m) / (p + m)) <= 2 * Rabs lam * (norm2 n g / (p + m) * (rho / (lam * lam)) ^ iterations).
Proof.
  intros n A g gp gm lam rho its HA D (Ep & Em & Or) p m Hpm. destruct (eigenbasis_exists n A HA) as (V & t & HV). pose proof (dominant_basis n A lam rho V t D HV) as Ht. destruct D as (Hr & _).
  pose proof (C48_power_iteration n A g its (fun k _ => iter_nonzero n A HA V t HV g gp gm lam rho Hr Ht Ep Em Or Hpm k)) as T.
  destruct (result (power_iteration n A g its)) as [l v]. destruct T as (U & -> & _). split; [apply U|].
  exact (quotient_limit n A HA V t HV g gp gm lam rho Hr Ht Ep Em Or Hpm its v U).
Qed.
Print Assumptions C159_limit.
(** With one sign only, the estimate is right in the limit, and so is the vector. *)
Theorem C159_converges :
  forall n A g gp lam rho iterations, hermitian n A -> dominant n A lam rho -> parts n A lam g gp (fun _ => c0) -> nonzero_vec n gp ->
    let bound := norm2 n g / norm2 n gp * (rho / (lam * lam)) ^ iterations in
    let '(l, v) := result (power_iteration n A g iterations) in
    norm2 n v = 1 /\ cim l = 0 /\ Rabs (cre l - lam) <= 2 * Rabs lam * bound /\
    exists x, eigenpair n A (mkC lam 0) x /\ norm2 n (fun i => csub (v i) (x i)) <= bound.
Proof.
  intros n A g gp lam rho its HA D Pa Nz bound.
  assert (Z0 : norm2 n (fun _ => c0) = 0) by (apply (sumN_zero RF); intros i _; change (0 * 0 + 0 * 0 = 0); ring).
  assert (Hp : 0 < norm2 n gp). { pose proof (norm2_pos n gp). destruct (Req_EM_T (norm2 n gp) 0) as [Z|]; [|lra]. exfalso. destruct Nz as (i & Hi & Ni). apply Ni. exact (norm2_zero n gp Z i Hi). }
  pose proof (C159_limit n A g gp (fun _ => c0) lam rho its HA D Pa) as T. cbn zeta in T. rewrite Z0, Rplus_0_r in T. specialize (T Hp).
  destruct (eigenbasis_exists n A HA) as (V & t & HV). pose proof (dominant_basis n A lam rho V t D HV) as Ht. destruct D as (Hr & _). destruct Pa as (Ep & Em & Or).
  assert (Hpm : 0 < norm2 n gp + norm2 n (fun _ => c0)) by (rewrite Z0; lra).
  pose proof (C48_power_iteration n A g its (fun k _ => iter_nonzero n A HA V t HV g gp _ lam rho Hr Ht Ep Em Or Hpm k)) as T2.
  destruct (result (power_iteration n A g its)) as [l v]. destruct T2 as (U & _ & _). destruct T as (T1 & T2 & T3). split; [exact T1|]. split; [exact T2|]. split.
  { replace lam with (lam * (norm2 n gp - 0) / norm2 n gp) at 1 by (field; lra). exact T3. }
  set (cx := fun a => if Req_EM_T (t a) lam then hdot n (col V a) v else c0). exists (comb n V cx). split.
  - intros i Hi. unfold comb. rewrite (mv_sum n A (fun a j => cmul (V j a) (cx a)) i n). refine (eq_trans _ (sumN_mul_l CC n (mkC lam 0) _)). apply (sumN_ext CC). intros a Ha.
    transitivity (cmul (cx a) (mv (K := CC) n A (col V a) i)).
    + refine (eq_trans _ (mv_lin_scale CC n A (cx a) (col V a) i)). apply (mv_ext_v CC). intros q _. change (cmul (V q a) (cx a) = cmul (cx a) (V q a)). generalize (V q a) (cx a). intros y z. apply cpx_ext; cbn; ring.
    + rewrite (proj2 HV a Ha i Hi). unfold cx. destruct (Req_EM_T (t a) lam) as [<-|]; apply cpx_ext; cbn; unfold col; ring.
  - pose proof (bound_pos n A HA V t HV g gp _ lam rho Hr Ht Ep Em Or Hpm its) as B. rewrite Z0, Rplus_0_r in B. eapply Rle_trans; [|exact B].
    pose proof (nk_pos n A HA V t HV g gp _ lam rho Hr Ht Ep Em Or Hpm its) as Np.
    rewrite (parseval2 n V (proj1 HV)). unfold Rdiv. rewrite Rmult_comm, <- rs_scale. apply rs_le. intros a Ha.
    assert (E : hdot n (col V a) (fun i => csub (v i) (comb n V cx i)) = csub (hdot n (col V a) v) (cx a)).
    { transitivity (csub (hdot n (col V a) v) (hdot n (col V a) (comb n V cx))).
      - unfold hdot. refine (eq_trans _ (sumN_sub CC n _ _)). apply (sumN_ext CC). intros i _. apply cpx_ext; cbn; ring.
      - now rewrite (on_coef n V (proj1 HV) n cx a (le_n n) Ha). }
    rewrite E. pose proof (pow_rest n A HA V t HV g gp _ lam rho Hr Ht Ep Em Or a its Ha) as [Z _]. unfold cx. destruct (Req_EM_T (t a) lam) as [Ea|Na].
    + replace (cnrm (csub (hdot n (col V a) v) (hdot n (col V a) v))) with 0 by (unfold cnrm; cbn; ring). apply Rmult_le_pos; [apply Rlt_le, Rinv_0_lt_compat, Np|exact Z].
    + replace (csub (hdot n (col V a) v) c0) with (hdot n (col V a) v) by (apply cpx_ext; cbn; ring).
      rewrite (v_weight n A HA V t HV g gp _ lam rho Hr Ht Ep Em Or its v U a Ha). rewrite (part_coef n A HA V t HV gp lam a Ep Ha Na).
      assert (Cz : hdot n (col V a) (fun _ => c0) = c0) by apply hdot_zero_r. rewrite Cz. replace (cnrm c0) with 0 by (unfold cnrm; cbn; ring). unfold Rdiv. rewrite Rplus_0_r, Rmult_0_r, Rplus_0_l. rewrite Rmult_comm. apply Rle_refl.
Qed.
Print Assumptions C159_converges.
(** The estimate is never larger in magnitude than all eigenvalues. *)
Theorem C159_not_above :
  forall n A g iterations, hermitian n A -> (forall k, (k <= iterations)%nat -> nonzero_vec n (Nat.iter k (mv n A) g)) ->
    let '(l, v) := result (power_iteration n A g iterations) in exists mu, eigenvalue n A mu /\ cabs l <= cabs mu.
Proof.
  intros n A g its HA Nz. pose proof (C48_power_iteration n A g its Nz) as T. destruct (result (power_iteration n A g its)) as [l v]. destruct T as ((U & _) & -> & _).
  destruct (eigenbasis_exists n A HA) as (V & t & HV). rewrite (quotient_sum n A HA V t HV v U). set (x := rs n (fun a => t a * cnrm (hdot n (col V a) v))).
  assert (Cr : forall y, cabs (rc y) = Rabs y). { intro y. unfold cabs, cnrm. cbn [cre cim]. replace (y * y + 0 * 0) with (Rsqr y) by (unfold Rsqr; ring). apply sqrt_Rsqr_abs. }
  pose proof (parseval2 n V (proj1 HV) v) as P. rewrite U in P.
  destruct (all_dec n (fun a => Rabs (t a) < Rabs x)) as [Sm|Big].
  - intros a _. destruct (Rlt_dec (Rabs (t a)) (Rabs x)); auto.
  - exfalso.
    assert (C0 : forall a, (a < n)%nat -> cnrm (hdot n (col V a) v) = 0).
    { assert (Le : Rabs x <= rs n (fun a => Rabs (t a) * cnrm (hdot n (col V a) v))).
      { pose proof (rs_abs n (fun a => t a * cnrm (hdot n (col V a) v)) (fun _ => 0) (fun a => Rabs (t a) * cnrm (hdot n (col V a) v))) as B. rewrite rs_const, Rmult_0_r, Rminus_0_r in B. apply B.
        intros a _. rewrite Rminus_0_r, Rabs_mult, (Rabs_right (cnrm _)) by (apply Rle_ge, cnrm_pos). apply Rle_refl. }
      assert (D : rs n (fun a => (Rabs x - Rabs (t a)) * cnrm (hdot n (col V a) v)) <= 0).
      { replace (rs n (fun a => (Rabs x - Rabs (t a)) * cnrm (hdot n (col V a) v))) with (Rabs x * 1 - rs n (fun a => Rabs (t a) * cnrm (hdot n (col V a) v))); [lra|].
        rewrite P, <- rs_scale, <- rs_sub. apply rs_ext. intros a _. set (z := cnrm _). clearbody z. change (Rabs x * z - Rabs (t a) * z = (Rabs x - Rabs (t a)) * z). ring. }
      intros a Ha. assert (Po : forall b, (b < n)%nat -> 0 <= (Rabs x - Rabs (t b)) * cnrm (hdot n (col V b) v)) by (intros b Hb; pose proof (Sm b Hb); apply Rmult_le_pos; [lra|apply cnrm_pos]).
      pose proof (rs_ge_term n (fun a => (Rabs x - Rabs (t a)) * cnrm (hdot n (col V a) v)) a Ha Po) as Q. cbn beta in Q. pose proof (Sm a Ha). pose proof (cnrm_pos (hdot n (col V a) v)). nra. }
    rewrite (rs_ext n _ (fun _ => 0)) in P by exact C0. rewrite rs_const, Rmult_0_r in P. lra.
  - assert (X : exists a, (a < n)%nat /\ ~ Rabs (t a) < Rabs x).
    { clearbody x. clear - Big. induction n as [|m IH]; [exfalso; apply Big; intros; lia|].
      destruct (Rlt_dec (Rabs (t m)) (Rabs x)) as [E|E]; [|exists m; split; [lia|exact E]]. destruct IH as (a & Ha & Na); [|exists a; split; [lia|exact Na]]. intro Y. apply Big. intros i Hi.
      destruct (Nat.eq_dec i m) as [->|]; [exact E|apply Y; lia]. }
    destruct X as (a & Ha & Na). exists (rc (t a)). split; [exists (col V a); split; [exact (proj2 HV a Ha)|exact (basis_nonzero n A V t HV a Ha)]|]. rewrite !Cr. lra.
Qed.
Print Assumptions C159_not_above.
(** Eigenvalues of both signs with the largest magnitude: the estimate need not
    come near an eigenvalue, however many iterations are made. *)
Lemma rdiag_hermitian n l : hermitian n (rdiag l).
Proof. intros i j Hi Hj. unfold rdiag. destruct (Nat.eqb_spec i j) as [->|]; [rewrite Nat.eqb_refl|destruct (Nat.eqb_spec j i); [congruence|]]; apply cpx_ext; cbn; ring. Qed.
Lemma rdiag_pair n l k : (k < n)%nat -> eigenpair n (rdiag l) (mkC (nth k l 0) 0) (e_at k).
Proof. intros Hk i Hi. refine (eq_trans (mv_rdiag n l _ i Hi) _). unfold e_at. destruct (Nat.eqb_spec i k) as [->|]; apply cpx_ext; cbn; ring. Qed.
Lemma rdiag_eigenvalue n l mu : eigenvalue n (rdiag l) mu -> exists k, (k < n)%nat /\ mu = mkC (nth k l 0) 0.
Proof.
  intros (x & E & k & Hk & Nk). exists k. split; [exact Hk|]. pose proof (E k Hk) as Q. rewrite (mv_rdiag n l x k Hk) in Q.
  set (z := x k) in *. set (y := nth k l 0) in *. clearbody z y.
  transitivity (cmul (cmul mu z) (cinv z)).
  - transitivity (cmul mu (cmul z (cinv z))); [rewrite (BlochSolveP2.cinv_r z Nk)|]; apply cpx_ext; cbn; ring.
  - rewrite <- Q. transitivity (cmul (mkC y 0) (cmul z (cinv z))); [|rewrite (BlochSolveP2.cinv_r z Nk)]; apply cpx_ext; cbn; ring.
Qed.
Definition ones2 : vect CC := fun _ => c1.
Lemma norm_e_at n k : (k < n)%nat -> norm2 n (e_at k) = 1.
Proof.
  intro Hk. unfold norm2. refine (eq_trans (sumN_single RF n _ k Hk _) _); [|unfold e_at; rewrite Nat.eqb_refl; change (1 * 1 + 0 * 0 = 1); ring].
  intros i Hi Ni. unfold e_at. destruct (Nat.eqb_spec i k); [contradiction|]. change (0 * 0 + 0 * 0 = 0). ring.
Qed.
Theorem C159_two_signs_refuted :
  exists n A g, hermitian n A /\ nonzero_vec n g /\ (forall mu, eigenvalue n A mu -> cnrm mu = 1) /\
    forall iterations, (0 < iterations)%nat -> let '(l, v) := result (power_iteration n A g iterations) in l = c0.
Proof.
  exists 2%nat, (rdiag [1; -1]), ones2. split; [apply rdiag_hermitian|]. split; [exists 0%nat; split; [lia|]; intro Z; apply (f_equal cre) in Z; cbn in Z; lra|].
  assert (Ev : forall mu, eigenvalue 2 (rdiag [1; -1]) mu -> mu = mkC 1 0 \/ mu = mkC (-1) 0).
  { intros mu E. destruct (rdiag_eigenvalue 2 _ mu E) as (k & Hk & ->). destruct k as [|[|k]]; [now left|now right|lia]. }
  split; [intros mu E; destruct (Ev mu E) as [-> | ->]; unfold cnrm; cbn; ring|].
  intros its Hi. pose proof (C159_limit 2 (rdiag [1; -1]) ones2 (e_at 0) (e_at 1) 1 0 its (rdiag_hermitian 2 _)) as T.
  cbn zeta in T. rewrite !norm_e_at in T by lia.
  assert (D : dominant 2 (rdiag [1; -1]) 1 0). { split; [lra|]. intros mu E. destruct (Ev mu E) as [-> | ->]; auto. }
  assert (Pa : parts 2 (rdiag [1; -1]) 1 ones2 (e_at 0) (e_at 1)).
  { split; [exact (rdiag_pair 2 [1; -1] 0 ltac:(lia))|]. split; [exact (rdiag_pair 2 [1; -1] 1 ltac:(lia))|]. intros x _. apply hdot_ext; [reflexivity|]. intros i Hi'. destruct i as [|[|i]]; [| |lia]; apply cpx_ext; cbn; ring. }
  specialize (T D Pa ltac:(lra)). destruct (result (power_iteration 2 (rdiag [1; -1]) ones2 its)) as [l v]. destruct T as (_ & I0 & B).
  replace ((0 / (1 * 1)) ^ its) with 0 in B by (replace (0 / (1 * 1)) with 0 by field; rewrite pow_i; [reflexivity|exact Hi]).
  replace (1 * (1 - 1) / (1 + 1)) with 0 in B by field. rewrite !Rmult_0_r in B. rewrite Rminus_0_r in B. apply cpx_ext; [|exact I0]. cbn.
  pose proof (Rabs_pos (cre l)). destruct (Req_EM_T (cre l) 0) as [|Ne]; [assumption|]. pose proof (Rabs_pos_lt _ Ne). lra.
Qed.
Print Assumptions C159_two_signs_refuted.

(** ** Concrete cases: diag(2, 1) *)
Example C158_case : hermitian 2 (rdiag [2; 1]) /\ norm2 2 (e_at 0) = 1 /\ rayleigh_quotient 2 (rdiag [2; 1]) (e_at 0) = mkC 2 0 /\ others_apart 2 (rdiag [2; 1]) (mkC 2 0) (mkC 2 0) 1 /\ eigenvalue 2 (rdiag [2; 1]) (mkC 1 0).
Proof.
  split; [apply rdiag_hermitian|]. split; [apply norm_e_at; lia|]. split; [|split].
  - unfold rayleigh_quotient. rewrite (norm_e_at 2 0) by lia. cbn [sumN]. rewrite !(mv_rdiag 2 [2; 1]) by lia. apply cpx_ext; cbn; unfold cnrm; cbn; field.
  - intros mu E Ne. destruct (rdiag_eigenvalue 2 _ mu E) as (k & Hk & ->). destruct k as [|[|k]]; [now elim Ne| |lia]. unfold cnrm. cbn. lra.
  - exists (e_at 1). split; [exact (rdiag_pair 2 [2; 1] 1 ltac:(lia))|]. exists 1%nat. split; [lia|]. intro Z. apply (f_equal cre) in Z. cbn in Z. lra.
Qed.
Example C159_case : hermitian 2 (rdiag [2; 1]) /\ dominant 2 (rdiag [2; 1]) 2 1 /\ parts 2 (rdiag [2; 1]) 2 ones2 (e_at 0) (fun _ => c0) /\ nonzero_vec 2 (e_at 0).
Proof.
  split; [apply rdiag_hermitian|]. split; [|split].
  - split; [lra|]. intros mu E. destruct (rdiag_eigenvalue 2 _ mu E) as (k & Hk & ->). destruct k as [|[|k]]; [now left| |lia]. right; right. unfold cnrm. cbn. lra.
  - split; [exact (rdiag_pair 2 [2; 1] 0 ltac:(lia))|]. split.
    + intros i Hi. rewrite (mv_rdiag 2 [2; 1]) by exact Hi. apply cpx_ext; cbn; ring.
    + intros x [E|E].
      * pose proof (E 1%nat ltac:(lia)) as Q. rewrite (mv_rdiag 2 [2; 1]) in Q by lia. assert (x 1%nat = c0). { pose proof (f_equal cre Q) as Q1. pose proof (f_equal cim Q) as Q2. cbn in Q1, Q2. apply cpx_ext; cbn; lra. }
        unfold hdot. cbn [sumN]. rewrite H. apply cpx_ext; cbn; ring.
      * pose proof (E 1%nat ltac:(lia)) as Q. rewrite (mv_rdiag 2 [2; 1]) in Q by lia. assert (x 1%nat = c0). { pose proof (f_equal cre Q) as Q1. pose proof (f_equal cim Q) as Q2. cbn in Q1, Q2. apply cpx_ext; cbn; lra. }
        unfold hdot. cbn [sumN]. rewrite H. apply cpx_ext; cbn; ring.
  - exists 0%nat. split; [lia|]. intro Z. apply (f_equal cre) in Z. cbn in Z. lra.
Qed.
