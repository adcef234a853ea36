(** Cubic convergence of rayleigh_quotient_iteration (meanas/eigensolvers.py) on
    Hermitian operators (C165). *)
From Coq Require Import Reals List Arith ZArith Lia Lra Psatz Bool.
From Verif.Lib Require Import Num Sums Idx Mat RealF BoxMin.
From Verif.Model Require Import Eigensolvers.
From Verif.Spec Require Import BlochSpec EigenSpec BlochSolveSpec BandsSpec.
From Verif.Proofs Require Import EmeP EigensolversP PowerP BlochSolveP SpectralP MinMaxP HermEigP PowerHermP.
From Verif.Props Require Import EigenProps ConvergenceProps HermEigProps.
Import ListNotations.
Local Open Scope R_scope.

Lemma rqi_real n (t p w : nat -> R) lam x g r :
  0 < g -> 0 < r -> (forall a, (a < n)%nat -> t a = lam \/ g <= Rabs (t a - lam)) -> Rabs (lam - x) <= g / 2 ->
  (forall a, (a < n)%nat -> 0 <= w a) -> (forall a, (a < n)%nat -> p a = (t a - x) * (t a - x) * (r * r * w a)) ->
  rs n p = 1 -> rs n w = 1 ->
  let R := rs n (fun a => (t a - x) * (t a - x) * p a) in
  12 * R <= g * g -> g / 2 * Rabs (lam - x) <= R ->
  g * g * (g * g) * rs n (fun a => (t a - lam) * (t a - lam) * w a) <= 96 * (R * R * R).
Proof.
  intros Hg Hr Hgap Hx Hw Hp Sp Sw R HR Hd.
  set (in_l := fun a => if Req_EM_T (t a) lam then 1 else 0).
  set (C := rs n (fun a => in_l a * p a)). set (S := rs n (fun a => (1 - in_l a) * p a)).
  assert (P0 : forall a, (a < n)%nat -> 0 <= p a).
  { intros a Ha. rewrite (Hp a Ha). apply Rmult_le_pos; [apply Rle_0_sqr|]. apply Rmult_le_pos; [apply Rle_0_sqr|now apply Hw]. }
  assert (CS : C + S = 1). { rewrite <- Sp. unfold C, S. rewrite <- rs_add. apply rs_ext. intros a _. cbn beta. set (y := in_l a). clearbody y. change (y * p a + (1 - y) * p a = p a). ring. }
  assert (Far : forall a, (a < n)%nat -> t a <> lam -> g / 2 <= Rabs (t a - x) /\ Rabs (t a - lam) <= 2 * Rabs (t a - x)).
  { intros a Ha Ne. destruct (Hgap a Ha) as [E|G]; [contradiction|].
    pose proof (Rabs_triang (t a - x) (x - lam)) as T. replace (t a - x + (x - lam)) with (t a - lam) in T by ring. rewrite (Rabs_minus_sym x lam) in T. lra. }
  assert (SR : g * g / 4 * S <= R).
  { unfold S, R. rewrite <- rs_scale. apply rs_le. intros a Ha. unfold in_l. destruct (Req_EM_T (t a) lam) as [E|Ne].
    - replace (g * g / 4 * ((1 - 1) * p a)) with 0 by ring. apply Rmult_le_pos; [apply Rle_0_sqr|now apply P0].
    - destruct (Far a Ha Ne) as [F _]. replace (g * g / 4 * ((1 - 0) * p a)) with (g / 2 * (g / 2) * p a) by field. apply Rmult_le_compat_r; [now apply P0|].
      replace ((t a - x) * (t a - x)) with (Rabs (t a - x) * Rabs (t a - x)) by (rewrite <- Rabs_mult; apply Rabs_right, Rle_ge, Rle_0_sqr). apply Rmult_le_compat; lra. }
  assert (gg : 0 < g * g) by now apply Rmult_lt_0_compat.
  assert (S0 : 0 <= S). { apply rs_nonneg. intros a Ha. apply Rmult_le_pos; [unfold in_l; destruct (Req_EM_T (t a) lam); lra|now apply P0]. }
  assert (R0 : 0 <= R). { apply rs_nonneg. intros a Ha. apply Rmult_le_pos; [apply Rle_0_sqr|now apply P0]. }
  assert (S13 : S <= / 3). { apply (Rmult_le_reg_l (g * g / 4)); [lra|]. lra. }
  assert (C23 : 2 / 3 <= C) by lra.
  set (dl := (lam - x) * (lam - x)).
  assert (Cr : C <= dl * (r * r)).
  { unfold C. apply Rle_trans with (rs n (fun a => dl * (r * r) * w a)).
    - apply rs_le. intros a Ha. unfold in_l. destruct (Req_EM_T (t a) lam) as [E|Ne].
      + rewrite (Hp a Ha), E. unfold dl. right. ring.
      + rewrite Rmult_0_l. apply Rmult_le_pos; [|now apply Hw]. apply Rmult_le_pos; apply Rle_0_sqr.
    - rewrite rs_scale, Sw. right. ring. }
  set (Q := rs n (fun a => (t a - lam) * (t a - lam) * w a)).
  assert (Qr : r * r * Q <= 4 * S).
  { unfold Q, S. rewrite <- !rs_scale. apply rs_le. intros a Ha. unfold in_l. destruct (Req_EM_T (t a) lam) as [E|Ne].
    - rewrite E. right. ring.
    - rewrite (Hp a Ha). destruct (Far a Ha Ne) as [_ F].
      assert (T : (t a - lam) * (t a - lam) <= 4 * ((t a - x) * (t a - x))).
      { replace ((t a - x) * (t a - x)) with (Rabs (t a - x) * Rabs (t a - x)) by (rewrite <- Rabs_mult; apply Rabs_right, Rle_ge, Rle_0_sqr).
        replace ((t a - lam) * (t a - lam)) with (Rabs (t a - lam) * Rabs (t a - lam)) by (rewrite <- Rabs_mult; apply Rabs_right, Rle_ge, Rle_0_sqr).
        pose proof (Rabs_pos (t a - lam)). replace (4 * (Rabs (t a - x) * Rabs (t a - x))) with ((2 * Rabs (t a - x)) * (2 * Rabs (t a - x))) by ring. apply Rmult_le_compat; lra. }
      apply (Rmult_le_compat_r (r * r * w a)) in T; [|apply Rmult_le_pos; [apply Rle_0_sqr|now apply Hw]]. lra. }
  assert (Q0 : 0 <= Q). { apply rs_nonneg. intros a Ha. apply Rmult_le_pos; [apply Rle_0_sqr|now apply Hw]. }
  assert (D : g * g / 4 * dl <= R * R).
  { unfold dl. replace ((lam - x) * (lam - x)) with (Rabs (lam - x) * Rabs (lam - x)) by (rewrite <- Rabs_mult; apply Rabs_right, Rle_ge, Rle_0_sqr).
    replace (g * g / 4 * (Rabs (lam - x) * Rabs (lam - x))) with (g / 2 * Rabs (lam - x) * (g / 2 * Rabs (lam - x))) by field.
    pose proof (Rabs_pos (lam - x)). assert (0 <= g / 2 * Rabs (lam - x)) by (apply Rmult_le_pos; lra). apply Rmult_le_compat; lra. }
  assert (dl0 : 0 <= dl) by apply Rle_0_sqr. assert (rr : 0 < r * r) by now apply Rmult_lt_0_compat.
  clearbody C S Q R dl. clear - gg S0 SR CS C23 Cr Qr Q0 D dl0 rr R0 S13.
  (* 2/3 Q <= dl r^2 Q <= 4 dl S *)
  assert (A1 : 2 / 3 * Q <= dl * (4 * S)).
  { apply Rle_trans with (C * Q); [apply Rmult_le_compat_r; lra|]. apply Rle_trans with (dl * (r * r) * Q); [apply Rmult_le_compat_r; lra|].
    rewrite Rmult_assoc. apply Rmult_le_compat_l; lra. }
  assert (A2 : g * g / 4 * dl * (g * g / 4 * S) <= R * R * R).
  { apply Rmult_le_compat; [apply Rmult_le_pos; lra|apply Rmult_le_pos; lra|exact D|exact SR]. }
  set (G := g * g) in *. assert (A3 : G * G * (2 / 3 * Q) <= G * G * (dl * (4 * S))) by (apply Rmult_le_compat_l; [apply Rle_0_sqr|exact A1]).
  lra.
Qed.

Lemma unit_coef n (V : mat CC) y v r a : 0 < r -> (forall i, y i = cmul (mkC r 0) (v i)) -> cnrm (hdot n (col V a) y) = r * r * cnrm (hdot n (col V a) v).
Proof.
  intros Hr E. rewrite (hdot_ext n (col V a) y (col V a) (fun i => cmul (mkC r 0) (v i))) by (first [intros; reflexivity|intros; apply E]).
  rewrite hdot_scale_r. unfold cnrm. cbn. ring.
Qed.
Lemma mv_shifted n A l y i : (i < n)%nat -> mv (K := CC) n (shifted A l) y i = csub (mv (K := CC) n A y i) (cmul l (y i)).
Proof.
  intro Hi. transitivity (csub (mv (K := CC) n A y i) (cmul l (mv (K := CC) n (mid (K := CC)) y i))).
  - unfold mv. change (cmul l (sumN (K := CC) n (fun k => fmul (mid (K := CC) i k) (y k)))) with (fmul (f := CC) l (sumN (K := CC) n (fun k => fmul (mid (K := CC) i k) (y k)))).
    rewrite <- (sumN_mul_l CC). refine (eq_trans _ (sumN_sub CC n _ _)). apply (sumN_ext CC). intros k _. unfold shifted, mid. destruct (Nat.eqb i k); apply cpx_ext; cbn; ring.
  - f_equal. f_equal. exact (mv_mid CC n y i Hi).
Qed.

(** One iteration. *)
Lemma rqi_step n A v y v' lam g : hermitian n A -> norm2 n v = 1 -> unit_of n y v' -> 0 < g ->
  others_apart n A (mkC lam 0) (mkC lam 0) g ->
  let l := rayleigh_quotient n A v in
  let R := residual2 n A l v in
  (forall i, (i < n)%nat -> mv (K := CC) n (shifted A l) y i = v i) ->
  Rabs (lam - cre l) <= g / 2 -> 12 * R <= g * g ->
  let l' := rayleigh_quotient n A v' in
  g * g * (g * g) * residual2 n A l' v' <= 96 * (R * R * R) /\ Rabs (lam - cre l') <= g / 2 /\ 12 * residual2 n A l' v' <= g * g.
Proof.
  intros HA Uv (Uv' & r & Hr & Er) Hg Ap l R Hy Hx HR l'. destruct (eigenbasis_exists n A HA) as (V & t & HV).
  assert (El : l = rc (rs n (fun a => t a * cnrm (hdot n (col V a) v)))) by exact (quotient_sum n A HA V t HV v Uv).
  assert (El' : l' = rc (rs n (fun a => t a * cnrm (hdot n (col V a) v')))) by exact (quotient_sum n A HA V t HV v' Uv').
  set (x := cre l) in *. assert (Lx : l = rc x) by (unfold x; rewrite El; reflexivity).
  pose proof (parseval2 n V (proj1 HV) v) as Pv. rewrite Uv in Pv. pose proof (parseval2 n V (proj1 HV) v') as Pv'. rewrite Uv' in Pv'.
  assert (Ga : forall a, (a < n)%nat -> t a = lam \/ g <= Rabs (t a - lam)).
  { intros a Ha. destruct (Req_EM_T (t a) lam) as [E|Ne]; [now left|right].
    assert (Q : g * g <= cnrm (csub (rc (t a)) (mkC lam 0))).
    { apply Ap; [exists (col V a); split; [exact (proj2 HV a Ha)|exact (basis_nonzero n A V t HV a Ha)]|]. intro X. apply Ne. now injection X. }
    unfold cnrm in Q. cbn [csub cre cim] in Q. apply Rsqr_incr_0_var; [|apply Rabs_pos]. rewrite <- Rsqr_abs. unfold Rsqr. nra. }
  assert (ApX : others_apart n A (mkC lam 0) l (g / 2)).
  { intros mu Em Nm. destruct Em as (z & Ez & Nz). destruct (basis_all n A HA V t HV mu z Ez Nz) as (a & Ha & -> & _).
    assert (Na : t a <> lam) by (intro X; apply Nm; rewrite X; reflexivity). destruct (Ga a Ha) as [E|G]; [contradiction|].
    rewrite Lx. unfold cnrm. cbn [csub cre cim]. replace ((t a - x) * (t a - x) + (0 - 0) * (0 - 0)) with (Rabs (t a - x) * Rabs (t a - x)) by (rewrite <- Rabs_mult; rewrite Rabs_right by (apply Rle_ge, Rle_0_sqr); ring).
    pose proof (Rabs_triang (t a - x) (x - lam)) as T. replace (t a - x + (x - lam)) with (t a - lam) in T by ring. rewrite (Rabs_minus_sym x lam) in T. apply Rmult_le_compat; lra. }
  pose proof (C158_quadratic n A v lam (g / 2) HA Uv ltac:(lra) ApX Hx) as [_ Qd]. fold l in Qd. fold x in Qd. fold R in Qd.
  set (p := fun a => cnrm (hdot n (col V a) v)). set (w := fun a => cnrm (hdot n (col V a) v')).
  assert (Hp : forall a, (a < n)%nat -> p a = (t a - x) * (t a - x) * (r * r * w a)).
  { intros a Ha. unfold p, w. rewrite <- (unit_coef n V y v' r a Hr Er).
    rewrite (hdot_ext n (col V a) v (col V a) (fun i => csub (mv (K := CC) n A y i) (cmul l (y i)))) by (first [intros; reflexivity|intros i Hi; rewrite <- (mv_shifted n A l y i Hi); symmetry; now apply Hy]).
    assert (E : hdot n (col V a) (fun i => csub (mv (K := CC) n A y i) (cmul l (y i))) = cmul (csub (rc (t a)) l) (hdot n (col V a) y)).
    { transitivity (csub (hdot n (col V a) (mv (K := CC) n A y)) (cmul l (hdot n (col V a) y))).
      - rewrite <- hdot_scale_r. unfold hdot. refine (eq_trans _ (sumN_sub CC n _ _)). apply (sumN_ext CC). intros i _. apply cpx_ext; cbn; ring.
      - rewrite (basis_coef n A HA V t HV a y Ha). generalize (hdot n (col V a) y). intro z. apply cpx_ext; cbn; ring. }
    rewrite E, Lx. unfold cnrm. cbn. ring. }
  assert (ER : R = rs n (fun a => (t a - x) * (t a - x) * p a)).
  { unfold R. rewrite (residual_sum n A HA V t HV l v). apply rs_ext. intros a _. fold (p a). rewrite Lx. unfold cnrm. cbn [csub cre cim]. cbn [fmul RF]. match goal with |- ?u = ?z => change (u = z :> Rdefinitions.R) end; ring. }
  pose proof (rqi_real n t p w lam x g r Hg Hr Ga Hx ltac:(intros; apply cnrm_pos) Hp (eq_sym Pv) (eq_sym Pv')) as K. cbv zeta in K. rewrite <- ER in K.
  specialize (K HR Qd). set (Q := rs n (fun a => (t a - lam) * (t a - lam) * w a)) in *.
  assert (EQ : residual2 n A (mkC lam 0) v' = Q).
  { rewrite (residual_sum n A HA V t HV (mkC lam 0) v'). apply rs_ext. intros a _. fold (w a). unfold cnrm at 1. cbn [csub cre cim]. cbn [fmul RF]. match goal with |- ?u = ?z => change (u = z :> Rdefinitions.R) end; ring. }
  pose proof (C48_rayleigh_quotient_optimal n A v' (mkC lam 0) Uv') as Op. fold l' in Op. rewrite EQ in Op.
  assert (gg : 0 < g * g) by now apply Rmult_lt_0_compat. assert (gg2 : 0 < g * g * (g * g)) by now apply Rmult_lt_0_compat.
  assert (R0 : 0 <= R). { rewrite ER. apply rs_nonneg. intros a Ha. apply Rmult_le_pos; [apply Rle_0_sqr|apply cnrm_pos]. }
  assert (K2 : 12 * Q <= g * g).
  { apply (Rmult_le_reg_l (g * g * (g * g))); [exact gg2|]. set (G := g * g) in *.
    assert (12 * R * (12 * R) <= G * G) by (apply Rmult_le_compat; lra). assert (12 * R * (12 * R) * (12 * R) <= G * G * G) by (apply Rmult_le_compat; [apply Rmult_le_pos; lra|lra|assumption|lra]).
    clearbody G Q. clear - K H0 gg R0. assert (0 <= R * R * R) by (repeat apply Rmult_le_pos; lra). lra. }
  split; [|split].
  - apply Rle_trans with (g * g * (g * g) * Q); [apply Rmult_le_compat_l; lra|exact K].
  - assert (J : (lam - cre l') * (lam - cre l') <= Q).
    { assert (Ec : cre l' = rs n (fun a => t a * w a)) by (rewrite El'; reflexivity). set (z := cre l') in *.
      assert (X : rs n (fun a => (t a - lam) * (t a - lam) * w a) = rs n (fun a => (t a - z) * (t a - z) * w a) + (lam - z) * (lam - z)).
      { transitivity (rs n (fun a => (t a - z) * (t a - z) * w a + (2 * (z - lam) * (t a * w a) + (lam * lam - z * z) * w a))).
        - apply rs_ext. intros a _. match goal with |- ?u = ?z => change (u = z :> Rdefinitions.R) end; ring.
        - rewrite rs_add, rs_add, !rs_scale, <- Ec. change (rs n w) with (rs n (fun a => cnrm (hdot n (col V a) v'))). rewrite <- Pv'. match goal with |- ?u = ?z => change (u = z :> Rdefinitions.R) end; ring. }
      unfold Q. rewrite X. assert (0 <= rs n (fun a => (t a - z) * (t a - z) * w a)) by (apply rs_nonneg; intros; apply Rmult_le_pos; [apply Rle_0_sqr|apply cnrm_pos]). lra. }
    apply Rsqr_incr_0_var; [|lra]. rewrite <- Rsqr_abs. unfold Rsqr. lra.
  - lra.
Qed.

Lemma guess_scale n A g u : unit_of n g u ->
  0 < norm2 n g /\ rayleigh_quotient n A g = rayleigh_quotient n A u /\
  residual2 n A (rayleigh_quotient n A g) g = norm2 n g * residual2 n A (rayleigh_quotient n A u) u.
Proof.
  intros (U & r & Hr & D).
  assert (Ng : norm2 n g = r * r).
  { change (nrm2 n g = r * r). rewrite (nrm2_ext n g (fun i => cmul (mkC r 0) (u i))) by (intros; apply D). rewrite nrm2_scale. change (nrm2 n u) with (norm2 n u). rewrite U. unfold cnrm. cbn. ring. }
  assert (Mg : forall i, mv (K := CC) n A g i = cmul (mkC r 0) (mv (K := CC) n A u i)).
  { intro i. refine (eq_trans (mv_ext_v CC n A g (fun j => @fmul CC (mkC r 0) (u j)) i (fun j _ => D j)) _). apply (mv_lin_scale CC). }
  assert (Q : rayleigh_quotient n A g = rayleigh_quotient n A u).
  { rewrite <- (rq_unit n A u U). unfold rayleigh_quotient. rewrite Ng. fold (cdot n g (mv (K := CC) n A g)).
    assert (G : cdot n g (mv (K := CC) n A g) = cmul (mkC (r * r) 0) (cdot n u (mv (K := CC) n A u))).
    { unfold cdot. rewrite <- (sumN_mul_l CC). apply (sumN_ext CC). intros i _. rewrite Mg, (D i). apply cpx_ext; cbn; ring. }
    rewrite G. set (d := cdot n u (mv (K := CC) n A u)). clearbody d. apply cpx_ext; cbn; unfold cnrm; cbn; field; lra. }
  split; [rewrite Ng; now apply Rmult_lt_0_compat|]. split; [exact Q|]. rewrite Q, Ng. set (d := rayleigh_quotient n A u). clearbody d.
  unfold residual2. change (nrm2 n (fun i => csub (mv (K := CC) n A g i) (cmul d (g i))) = r * r * nrm2 n (fun i => csub (mv (K := CC) n A u i) (cmul d (u i)))).
  rewrite (nrm2_ext n _ (fun i => cmul (mkC r 0) (csub (mv (K := CC) n A u i) (cmul d (u i))))).
  - rewrite nrm2_scale. f_equal. unfold cnrm. cbn. ring.
  - intros i _. rewrite Mg, (D i). apply cpx_ext; cbn; ring.
Qed.

Lemma pow3 X k : (X ^ (3 ^ k)) * (X ^ (3 ^ k)) * (X ^ (3 ^ k)) = X ^ (3 ^ (S k)).
Proof. rewrite <- !pow_add. f_equal. cbn. lia. Qed.
Lemma pow_le1 X a b : 0 <= X <= 1 -> (a <= b)%nat -> X ^ b <= X ^ a.
Proof.
  intros HX L. replace b with (a + (b - a))%nat by lia. rewrite pow_add. rewrite <- (Rmult_1_r (X ^ a)) at 2. apply Rmult_le_compat_l; [apply pow_le; lra|].
  generalize (b - a)%nat. intro m. induction m as [|m IH]; cbn; [lra|]. apply Rle_trans with (1 * 1); [apply Rmult_le_compat; try lra; apply pow_le; lra|lra].
Qed.

(** ** C165: cubic convergence *)
(** A is Hermitian, its other eigenvalues are at least [g] from [lam], and the solver
    solves the shifted systems.  If the quotient of the guess is within g/2 of [lam]
    and its relative residual is at most g / sqrt 12, then the ratio
    12 |A v - l v|^2 / g^2 is at least cubed in every iteration. *)
Theorem C165_cubic :
  forall n A tol solver guess lam g iterations,
    hermitian n A -> 0 <= tol -> nonzero_vec n guess -> 0 < g -> others_apart n A (mkC lam 0) (mkC lam 0) g ->
    (forall b, norm2 n b = 1 -> tol * tol <= residual2 n A (rayleigh_quotient n A b) b ->
       let l := rayleigh_quotient n A b in forall i, (i < n)%nat -> mv (K := CC) n (shifted A l) (solver (shifted A l) b) i = b i) ->
    (0 < iterations)%nat ->
    let X := 12 * residual2 n A (rayleigh_quotient n A guess) guess / (norm2 n guess * (g * g)) in
    Rabs (lam - cre (rayleigh_quotient n A guess)) <= g / 2 -> X <= 1 ->
    exists l v k, result (rayleigh_quotient_iteration n A tol solver guess iterations) = Some (l, v) /\ norm2 n v = 1 /\ (k <= iterations)%nat /\
      12 * residual2 n A (rayleigh_quotient n A v) v / (g * g) <= X ^ (3 ^ k) /\
      Rabs (lam - cre l) <= g / 6 * X ^ (3 ^ (k - 1)) /\
      ((k < iterations)%nat -> l = rayleigh_quotient n A v /\ residual2 n A l v < tol * tol /\ g * Rabs (lam - cre l) <= 2 * residual2 n A l v) /\
      forall j, (j < k)%nat -> tol * tol <= g * g / 12 * X ^ (3 ^ j).
Proof.
  intros n A tol solver guess lam g its HA Ht Hg G0 Ap HS Hi X HX X1.
  assert (Snz : forall b, norm2 n b = 1 -> tol * tol <= residual2 n A (rayleigh_quotient n A b) b -> nonzero_vec n (solver (shifted A (rayleigh_quotient n A b)) b)).
  { intros b U B. pose proof (HS b U B) as Q. cbv zeta in Q. set (y := solver (shifted A (rayleigh_quotient n A b)) b) in *.
    destruct (all_dec n (fun i => y i = c0)) as [Z|Nz]; [intros i _; destruct (cpx_dec (y i) c0); auto| |exact (not_all_zero n y Nz)].
    exfalso. assert (B0 : norm2 n b = 0); [|lra]. unfold norm2. apply (sumN_zero RF). intros i Hi'. rewrite <- (Q i Hi').
    assert (M0 : mv (K := CC) n (shifted A (rayleigh_quotient n A b)) y i = c0). { unfold mv. apply (sumN_zero CC). intros k Hk. rewrite (Z k Hk). apply cpx_ext; cbn; ring. }
    rewrite M0. cbn. ring. }
  destruct (C48_rayleigh_quotient_iteration n A tol solver guess its Ht Hg Snz Hi) as (u & k & l & E & U0 & Un & St & Big & Dj).
  destruct (guess_scale n A guess (u 0%nat) U0) as (Np & Eq & Er). rewrite Eq in HX.
  assert (gg : 0 < g * g) by now apply Rmult_lt_0_compat.
  set (Rk := fun j => residual2 n A (rayleigh_quotient n A (u j)) (u j)).
  assert (EX : X = 12 * Rk 0%nat / (g * g)). { unfold X. rewrite Er. fold (Rk 0%nat). field. split; lra. }
  assert (R0 : forall j, 0 <= Rk j). { intro j. unfold Rk, residual2. change (0 <= nrm2 n (fun i => csub (mv n A (u j) i) (cmul (rayleigh_quotient n A (u j)) (u j i)))). apply nrm2_pos. }
  assert (X0 : 0 <= X). { rewrite EX. apply Rmult_le_pos; [pose proof (R0 0%nat); lra|left; now apply Rinv_0_lt_compat]. }
  assert (Inv : forall j, (j <= k)%nat -> Rabs (lam - cre (rayleigh_quotient n A (u j))) <= g / 2 /\ 12 * Rk j <= g * g /\ 12 * Rk j / (g * g) <= X ^ (3 ^ j)).
  { induction j as [|j IH]; intro Hj.
    - split; [exact HX|]. split; [|cbn [Nat.pow]; rewrite pow_1, EX; lra].
      rewrite EX in X1. apply (Rmult_le_compat_r (g * g)) in X1; [|lra]. replace (12 * Rk 0%nat / (g * g) * (g * g)) with (12 * Rk 0%nat) in X1 by (field; lra). lra.
    - destruct (IH ltac:(lia)) as (I1 & I2 & I3).
      destruct (rqi_step n A (u j) _ (u (S j)) lam g HA (Un j ltac:(lia)) (St j ltac:(lia)) G0 Ap (HS (u j) (Un j ltac:(lia)) (Big j ltac:(lia))) I1 I2) as (S1 & S2 & S3).
      split; [exact S2|]. split; [exact S3|]. fold (Rk (S j)) in S1. fold (Rk j) in S1.
      rewrite <- pow3. set (z := X ^ (3 ^ j)) in *. assert (Q0 : 0 <= 12 * Rk j / (g * g)) by (apply Rmult_le_pos; [pose proof (R0 j); lra|left; now apply Rinv_0_lt_compat]).
      apply Rle_trans with ((12 * Rk j / (g * g)) * (12 * Rk j / (g * g)) * (12 * Rk j / (g * g))).
      + apply (Rmult_le_reg_r (g * g * (g * g) * (g * g))); [repeat apply Rmult_lt_0_compat; lra|].
        replace (12 * Rk j / (g * g) * (12 * Rk j / (g * g)) * (12 * Rk j / (g * g)) * (g * g * (g * g) * (g * g))) with (1728 * (Rk j * Rk j * Rk j)) by (field; lra).
        replace (12 * Rk (S j) / (g * g) * (g * g * (g * g) * (g * g))) with (12 * (g * g * (g * g) * Rk (S j))) by (field; lra).
        assert (0 <= Rk j * Rk j * Rk j) by (pose proof (R0 j); repeat apply Rmult_le_pos; lra). lra.
      + apply Rmult_le_compat; [apply Rmult_le_pos; lra|lra| |lra]. apply Rmult_le_compat; lra. }
  assert (Close : forall j, (j <= k)%nat -> g * Rabs (lam - cre (rayleigh_quotient n A (u j))) <= 2 * Rk j).
  { intros j Hj. destruct (Inv j Hj) as (I1 & _ & _). set (q := rayleigh_quotient n A (u j)) in *.
    assert (ApX : others_apart n A (mkC lam 0) q (g / 2)).
    { destruct (eigenbasis_exists n A HA) as (V & t & HV). intros mu Em Nm. pose proof (Ap mu Em Nm) as Q. destruct Em as (z & Ez & Nz). destruct (basis_all n A HA V t HV mu z Ez Nz) as (a & Ha & -> & _).
      assert (Q1 : g <= Rabs (t a - lam)). { apply Rsqr_incr_0_var; [|apply Rabs_pos]. rewrite <- Rsqr_abs. unfold Rsqr. unfold cnrm in Q. cbn [csub cre cim] in Q. lra. }
      pose proof (Rabs_triang (t a - cre q) (cre q - lam)) as T. replace (t a - cre q + (cre q - lam)) with (t a - lam) in T by ring. rewrite (Rabs_minus_sym (cre q) lam) in T.
      unfold cnrm. cbn [csub cre cim]. apply Rle_trans with (Rabs (t a - cre q) * Rabs (t a - cre q)); [apply Rmult_le_compat; lra|].
      rewrite <- Rabs_mult, Rabs_right by (apply Rle_ge, Rle_0_sqr). pose proof (Rle_0_sqr (0 - cim q)). unfold Rsqr in *. lra. }
    destruct (C158_quadratic n A (u j) lam (g / 2) HA (Un j Hj) ltac:(lra) ApX I1) as [_ Q]. fold q in Q. unfold Rk. fold q. lra. }
  exists l, (u k), k. split; [exact E|]. split; [now apply Un|]. split; [destruct Dj as [(H & _)|(-> & _)]; lia|].
  split; [now apply Inv|].
  assert (Cl : forall j, (j <= k)%nat -> Rabs (lam - cre (rayleigh_quotient n A (u j))) <= g / 6 * X ^ (3 ^ j)).
  { intros j Hj. pose proof (Close j Hj) as C. destruct (Inv j Hj) as (_ & _ & I). apply (Rmult_le_reg_l g); [exact G0|].
    apply (Rmult_le_compat_r (g * g)) in I; [|lra]. replace (12 * Rk j / (g * g) * (g * g)) with (12 * Rk j) in I by (field; lra). lra. }
  split; [|split].
  - destruct Dj as [(H & -> & _)|(H & ->)].
    + eapply Rle_trans; [now apply Cl|]. apply Rmult_le_compat_l; [lra|]. apply pow_le1; [lra|]. apply Nat.pow_le_mono_r; lia.
    + apply Cl. lia.
  - intro Hk. destruct Dj as [(H & -> & Rs)|(H & _)]; [|lia]. split; [reflexivity|]. split; [exact Rs|]. apply Close. lia.
  - intros j Hj. destruct (Inv j ltac:(lia)) as (_ & _ & I). eapply Rle_trans; [apply Big; exact Hj|]. fold (Rk j).
    apply (Rmult_le_compat_r (g * g)) in I; [|lra]. replace (12 * Rk j / (g * g) * (g * g)) with (12 * Rk j) in I by (field; lra). lra.
Qed.
Print Assumptions C165_cubic.

(** So as soon as m allows (g^2/12) X^(3^m) < tol^2, more than m iterations return a pair
    within the tolerance, and its eigenvalue is within 2 tol^2 / g of [lam]. *)
Theorem C165_enough :
  forall n A tol solver guess lam g iterations m,
    hermitian n A -> 0 <= tol -> nonzero_vec n guess -> 0 < g -> others_apart n A (mkC lam 0) (mkC lam 0) g ->
    (forall b, norm2 n b = 1 -> tol * tol <= residual2 n A (rayleigh_quotient n A b) b ->
       let l := rayleigh_quotient n A b in forall i, (i < n)%nat -> mv (K := CC) n (shifted A l) (solver (shifted A l) b) i = b i) ->
    let X := 12 * residual2 n A (rayleigh_quotient n A guess) guess / (norm2 n guess * (g * g)) in
    Rabs (lam - cre (rayleigh_quotient n A guess)) <= g / 2 -> X <= 1 -> g * g / 12 * X ^ (3 ^ m) < tol * tol -> (m < iterations)%nat ->
    exists l v, result (rayleigh_quotient_iteration n A tol solver guess iterations) = Some (l, v) /\ norm2 n v = 1 /\
      residual2 n A l v < tol * tol /\ g * Rabs (lam - cre l) < 2 * (tol * tol).
Proof.
  intros n A tol solver guess lam g its m HA Ht Hg G0 Ap HS X HX X1 Hm Hi.
  destruct (C165_cubic n A tol solver guess lam g its HA Ht Hg G0 Ap HS ltac:(lia) HX X1) as (l & v & k & E & U & Hk & _ & _ & Cv & Big). fold X in Big.
  assert (Km : (k <= m)%nat). { destruct (Nat.leb_spec k m) as [L|L]; [exact L|]. pose proof (Big m L). lra. }
  destruct (Cv ltac:(lia)) as (_ & Rs & Cl). exists l, v. split; [exact E|]. split; [exact U|]. split; [exact Rs|]. lra.
Qed.
Print Assumptions C165_enough.

(** diag(0, 1), guess (10, 1), tolerance 10^-6: three iterations are enough. *)
Definition two : mat CC := fun i j => if (Nat.eqb i j && Nat.eqb i 1)%bool then c1 else c0.
Definition ten : vect CC := fun i => if Nat.eqb i 0 then mkC 10 0 else c1.
Definition diag_solve : mat CC -> vect CC -> vect CC := fun M b i => cdiv (b i) (M i i).
Lemma two_quotient b : norm2 2 b = 1 -> rayleigh_quotient 2 two b = mkC (cnrm (b 1%nat)) 0 /\ residual2 2 two (mkC (cnrm (b 1%nat)) 0) b = cnrm (b 1%nat) * (1 - cnrm (b 1%nat)) /\ cnrm (b 0%nat) = 1 - cnrm (b 1%nat).
Proof.
  intro U. assert (E : cnrm (b 0%nat) = 1 - cnrm (b 1%nat)).
  { unfold norm2 in U. cbn [sumN] in U. change (0 + cnrm (b 0%nat) + cnrm (b 1%nat) = 1) in U. lra. }
  split; [|split; [|exact E]].
  - unfold rayleigh_quotient. rewrite U. unfold mv, cnrm. cbn [sumN two]. apply cpx_ext; cbn; unfold cnrm; cbn; field.
  - unfold residual2, norm2, mv. cbn [sumN]. set (q := cnrm (b 1%nat)) in *.
    transitivity (q * q * cnrm (b 0%nat) + (1 - q) * (1 - q) * cnrm (b 1%nat)); [unfold cnrm; cbn; ring|]. rewrite E. fold q. ring.
Qed.
Lemma cnrm_0_inv z : cnrm z = 0 -> z = c0.
Proof. unfold cnrm. intro E. destruct (Rplus_sqr_eq_0 (cre z) (cim z) E) as [A B]. apply cpx_ext; cbn; assumption. Qed.
Example C165_case :
  let tol := / 1000000 in
  hermitian 2 two /\ nonzero_vec 2 ten /\ others_apart 2 two (mkC 0 0) (mkC 0 0) 1 /\
  (forall b, norm2 2 b = 1 -> tol * tol <= residual2 2 two (rayleigh_quotient 2 two b) b ->
     let l := rayleigh_quotient 2 two b in forall i, (i < 2)%nat -> mv (K := CC) 2 (shifted two l) (diag_solve (shifted two l) b) i = b i) /\
  let X := 12 * residual2 2 two (rayleigh_quotient 2 two ten) ten / (norm2 2 ten * (1 * 1)) in
  Rabs (0 - cre (rayleigh_quotient 2 two ten)) <= 1 / 2 /\ X <= / 8 /\ 1 * 1 / 12 * X ^ (3 ^ 3) < tol * tol.
Proof.
  assert (N : norm2 2 ten = 101) by (unfold norm2; cbn; match goal with |- ?u = ?z => change (u = z :> R) end; ring).
  assert (Q : rayleigh_quotient 2 two ten = mkC (/ 101) 0).
  { unfold rayleigh_quotient. rewrite N. unfold mv. cbn [sumN]. apply cpx_ext; cbn; unfold cnrm; cbn; field. }
  assert (Rs : residual2 2 two (mkC (/ 101) 0) ten = 100 / 101).
  { unfold residual2, norm2, mv. cbn. match goal with |- ?u = ?z => change (u = z :> R) end. field. }
  cbv zeta. rewrite Q, Rs, N. clear Q Rs N.
  assert (X : 12 * (100 / 101) / (101 * (1 * 1)) <= / 8) by lra.
  split; [|split; [|split; [|split; [|split; [|split]]]]].
  - intros i j Hi Hj. destruct i as [|[|i]]; destruct j as [|[|j]]; try lia; apply cpx_ext; cbn; ring.
  - exists 0%nat. split; [lia|]. intro E. apply (f_equal cre) in E. cbn in E. lra.
  - intros mu (x & Ex & (i & Hi & Nx)) Nm.
    assert (E0 := Ex 0%nat ltac:(lia)). assert (E1 := Ex 1%nat ltac:(lia)). unfold mv in E0, E1. cbn [sumN] in E0, E1.
    assert (F0 : cmul mu (x 0%nat) = c0) by (rewrite <- E0; apply cpx_ext; cbn; ring).
    assert (F1 : cmul mu (x 1%nat) = x 1%nat) by (rewrite <- E1; apply cpx_ext; cbn; ring).
    assert (Mn : cnrm mu <> 0). { intro Z. apply Nm. exact (cnrm_0_inv mu Z). }
    assert (Y0 : x 0%nat = c0).
    { assert (Z : cnrm mu * cnrm (x 0%nat) = 0). { transitivity (cnrm (cmul mu (x 0%nat))); [unfold cnrm; cbn; ring|]. rewrite F0. unfold cnrm. cbn. ring. }
      apply Rmult_integral in Z. destruct Z as [Z|Z]; [contradiction|]. exact (cnrm_0_inv _ Z). }
    assert (Y1 : cnrm (x 1%nat) <> 0). { intro Z. apply Nx. destruct i as [|[|i]]; [exact Y0| |lia]. exact (cnrm_0_inv _ Z). }
    assert (Z : cnrm (csub mu c1) * cnrm (x 1%nat) = 0).
    { transitivity (cnrm (csub (cmul mu (x 1%nat)) (x 1%nat))); [unfold cnrm; cbn; ring|]. rewrite F1. unfold cnrm. cbn. ring. }
    apply Rmult_integral in Z. destruct Z as [Z|Z]; [|contradiction].
    assert (mu = c1) as -> by (apply cnrm_0_inv in Z; pose proof (f_equal cre Z) as Z1; pose proof (f_equal cim Z) as Z2; cbn in Z1, Z2; apply cpx_ext; cbn; lra). unfold cnrm. cbn. lra.
  - intros b U B i Hi. destruct (two_quotient b U) as (Q & Rr & _). rewrite Q in *. rewrite Rr in B. set (q := cnrm (b 1%nat)) in *. clearbody q.
    assert (q0 : q <> 0) by (intros ->; lra). assert (q1 : 1 - q <> 0) by (intro Z; rewrite Z in B; lra).
    rewrite mv_shifted by exact Hi. unfold mv, diag_solve, shifted. cbn [sumN].
    destruct i as [|[|i]]; [| |lia]; apply cpx_ext; cbn; unfold cnrm; cbn; field; lra.
  - cbn [cre]. rewrite Rminus_0_l, Rabs_Ropp, Rabs_right; lra.
  - exact X.
  - apply Rle_lt_trans with (1 * 1 / 12 * (/ 8) ^ 27).
    + apply Rmult_le_compat_l; [lra|]. change (3 ^ 3)%nat with 27%nat. apply pow_incr. lra.
    + cbn [pow]. lra.
Qed.
