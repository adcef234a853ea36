(** Complex exponential and inverse sine. *)
From Coq Require Import Reals Lra Psatz.
From Verif.Lib Require Import Num RealF.
Local Open Scope R_scope.

Definition cexp (z : cpx) : cpx := mkC (exp (cre z) * cos (cim z)) (exp (cre z) * sin (cim z)).
(** (exp(iz) - exp(-iz)) / 2i *)
Definition csin (z : cpx) : cpx :=
  cdiv (csub (cexp (cmul ci z)) (cexp (copp (cmul ci z)))) (cmul (mkC 2 0) ci).
(** The principal value: -i log(iz + sqrt(1 - z^2)); the argument of the
    logarithm has a non-negative real part, so its angle is an arcsine. *)
Definition casin_arg (z : cpx) : cpx := cadd (cmul ci z) (csqrt (csub c1 (cmul z z))).
Definition casin (z : cpx) : cpx :=
  let u := casin_arg z in mkC (asin (cim u / cabs u)) (- ln (cabs u)).

Lemma cexp_add x y : cexp (cadd x y) = cmul (cexp x) (cexp y).
Proof.
  apply cpx_ext; cbn; rewrite exp_plus; [rewrite cos_plus|rewrite sin_plus]; ring.
Qed.
Lemma cexp_0 : cexp c0 = c1.
Proof. apply cpx_ext; cbn; rewrite exp_0, ?cos_0, ?sin_0; ring. Qed.
Lemma cexp_opp x : cmul (cexp x) (cexp (copp x)) = c1.
Proof.
  rewrite <- cexp_add. replace (cadd x (copp x)) with c0; [apply cexp_0|]. apply cpx_ext; cbn; ring.
Qed.
Lemma cexp_nz x : cexp x <> c0.
Proof.
  intro H. pose proof (cexp_opp x) as E. rewrite H in E. apply (f_equal cre) in E. cbn in E. lra.
Qed.

Lemma cabs_pos z : z <> c0 -> 0 < cabs z.
Proof.
  intro H. unfold cabs. apply sqrt_lt_R0. pose proof (cnrm_nz z H).
  assert (0 <= cnrm z) by (unfold cnrm; nra). lra.
Qed.
Lemma cabs_nonneg z : 0 <= cabs z. Proof. apply sqrt_pos. Qed.

(** u and its partner multiply to 1. *)
Lemma casin_arg_partner z : cmul (casin_arg z) (csub (csqrt (csub c1 (cmul z z))) (cmul ci z)) = c1.
Proof.
  unfold casin_arg. pose proof (csqrt_sq (csub c1 (cmul z z))) as E. set (s := csqrt _) in *. clearbody s.
  pose proof (f_equal cre E) as E1. pose proof (f_equal cim E) as E2. cbn in E1, E2.
  apply cpx_ext; cbn; nra.
Qed.
Lemma casin_arg_nz z : casin_arg z <> c0.
Proof.
  intro H. pose proof (casin_arg_partner z) as E. rewrite H in E. apply (f_equal cre) in E. cbn in E. lra.
Qed.
Lemma casin_arg_re z : 0 <= cre (casin_arg z).
Proof.
  unfold casin_arg. set (w := csub c1 (cmul z z)).
  destruct (cabs_bounds w) as [EW [L1 L2]].
  assert (Hs : cre (csqrt w) = sqrt ((cabs w + cre w) / 2)) by reflexivity.
  set (s := csqrt w) in *. change (0 <= (0 * cre z - 1 * cim z) + cre s).
  assert (Ps : 0 <= cre s) by (rewrite Hs; apply sqrt_pos).
  assert (Qs : cre s * cre s = (cabs w + cre w) / 2) by (rewrite Hs; apply sqrt_sqrt; lra).
  assert (Ew : cre w = 1 - (cre z * cre z - cim z * cim z)) by reflexivity.
  assert (Ev : cim w = 0 - (cre z * cim z + cim z * cre z)) by reflexivity.
  set (a := cre z) in *. set (b := cim z) in *.
  assert (A : a * a + b * b - 1 <= cabs w).
  { destruct (Rle_dec (a * a + b * b - 1) 0) as [H|H]; [pose proof (cabs_nonneg w); lra|].
    assert (Q : (a * a + b * b - 1) * (a * a + b * b - 1) <= cabs w * cabs w).
    { rewrite EW. unfold cnrm. rewrite Ew, Ev. nra. }
    pose proof (cabs_nonneg w). nra. }
  assert (B : b * b <= cre s * cre s) by lra.
  clearbody a b s. destruct (Rle_dec b 0) as [H|H]; [lra|]. nra.
Qed.

Lemma cexp_casin z : cexp (cmul ci (casin z)) = casin_arg z.
Proof.
  unfold casin. set (u := casin_arg z). pose proof (casin_arg_nz z : u <> c0) as Hu. pose proof (casin_arg_re z : 0 <= cre u) as Hr.
  pose proof (cabs_pos u Hu) as Hp. destruct (cabs_bounds u) as [E _].
  set (r := cabs u) in *. unfold cnrm in E.
  assert (B : -1 <= cim u / r <= 1).
  { assert (cim u * cim u <= r * r) by nra. assert (- r <= cim u <= r) by (split; nra).
    split; [apply Rmult_le_reg_r with r|apply Rmult_le_reg_r with r]; try exact Hp;
      unfold Rdiv; rewrite Rmult_assoc, Rinv_l by lra; lra. }
  assert (S : sin (asin (cim u / r)) = cim u / r) by (apply sin_asin; exact B).
  assert (C : cos (asin (cim u / r)) = cre u / r).
  { rewrite cos_asin by exact B. replace (1 - Rsqr (cim u / r)) with (Rsqr (cre u / r)).
    - apply sqrt_Rsqr. apply Rmult_le_pos; [exact Hr|]. left. now apply Rinv_0_lt_compat.
    - unfold Rsqr. field_simplify; [|lra|lra]. f_equal. nra. }
  apply cpx_ext; unfold cexp; cbn [cre cim ci cmul].
  - replace (0 * asin (cim u / r) - 1 * - ln r) with (ln r) by ring.
    replace (0 * - ln r + 1 * asin (cim u / r)) with (asin (cim u / r)) by ring. rewrite exp_ln by exact Hp. rewrite C. field. lra.
  - replace (0 * asin (cim u / r) - 1 * - ln r) with (ln r) by ring.
    replace (0 * - ln r + 1 * asin (cim u / r)) with (asin (cim u / r)) by ring. rewrite exp_ln by exact Hp. rewrite S. field. lra.
Qed.

(** [casin] is a right inverse of the sine. *)
Lemma csin_casin z : csin (casin z) = z.
Proof.
  unfold csin. rewrite cexp_casin.
  assert (E : cexp (copp (cmul ci (casin z))) = csub (csqrt (csub c1 (cmul z z))) (cmul ci z)).
  { pose proof (cexp_opp (cmul ci (casin z))) as E1. rewrite cexp_casin in E1. pose proof (casin_arg_partner z) as E2.
    pose proof (casin_arg_nz z) as Hn. set (u := casin_arg z) in *. set (x := cexp _) in *. set (y := csub _ _) in *.
    apply (fmul_cancel_l CC u); [exact Hn|]. change (cmul u x = cmul u y). congruence. }
  rewrite E. unfold casin_arg. set (s := csqrt _). apply cpx_ext; cbn; unfold cnrm; cbn; field.
Qed.
