(** When the driven problem of meanas.fdfd has solutions (C151).  The first part is over any field. *)
From Coq Require Import Reals Lra List Arith ZArith Lia Field QArith Qcanon.
From Verif.Lib Require Import Num Sums Idx Mat Elim RealF Cexp.
From Verif.Model Require Import Fdmath Fdtd Fdfd.
From Verif.Spec Require Import Yee FdtdRun FdfdSpec HarmonicSpec SolvableSpec.
From Verif.Proofs Require Import FdmathP FdtdP2 FdtdP FdfdP FdfdP2 FdfdP3 HarmonicP HarmonicP2 HarmonicP3 HarmonicP4 GridP.
From Verif.Props Require Import FdfdProps HarmonicProps.
Import ListNotations.
Local Open Scope fld_scope.

(** ** C151 *)

Section Aux.
  Variable K : CFld.
  Add Field Kfield : (fth K).

  (** e_full at two frequencies *)
  Lemma e_full_freq sh (om : K) d eps mu pmc x r : (r < 3 * prodl sh)%nat ->
    mv (3 * prodl sh) (e_full_mat sh om d eps mu None pmc) x r =
    mv (3 * prodl sh) (e_full_mat sh 0 d eps mu None pmc) x r - om * om * (eps r * x r).
  Proof. intro Hr. rewrite !mv_e_full by exact Hr. cbn [keep]. ring. Qed.
  Lemma minus_zero (a b : K) : a - b = 0 -> a = b.
  Proof. intro H. transitivity (a - b + b); [ring|]. rewrite H. ring. Qed.
  Lemma drive_zero (a : K) : - im * a * 0 = 0.
  Proof. ring. Qed.
  Lemma sub_zero_eq (a b c : K) : a = b -> a - b = 0.
  Proof. intros ->. ring. Qed.
  Lemma mask_aux (a k x : K) : a + (x - k * x) = a + (1 - k) * x.
  Proof. ring. Qed.
  Lemma masked_sum (a b : K) : 0 + (1 - 0) * b = b /\ a + (1 - 1) * b = a.
  Proof. split; ring. Qed.
  Lemma a_0_r (a : K) : a + 0 = a. Proof. ring. Qed.
  Lemma a_0_l (a : K) : 0 + a = a. Proof. ring. Qed.
  Lemma m_0_r (a : K) : a * 0 = 0. Proof. ring. Qed.
  Lemma a_cancel (a b : K) : a + b = a -> b = 0.
  Proof. intro H. transitivity (a + b - a); [ring|]. rewrite H. ring. Qed.
  Lemma drive_nz (om j : K) : om <> 0 -> j <> 0 -> - im * om * j <> 0.
  Proof.
    intros Ho Hj E. apply Hj. pose proof (im_sq K) as Q. transitivity (- (im * im) * j); [rewrite Q; ring|].
    transitivity (- im * om * j * (im / om)); [field; exact Ho|]. rewrite E. field. exact Ho.
  Qed.
End Aux.

(** Either there is a field without sources, or for every current exactly one solution. *)
Theorem C151_alternative :
  forall (K : CFld) (sh : list nat) (om : K) (d : dx2 K) (eps : vect K) (mu pec pmc : option (vect K)),
    let n := (3 * prodl sh)%nat in
    let A := e_full_mat sh om d eps mu pec pmc in
    singular n A \/ forall J : vect K, exactly_one n A (fun r => - im * om * J r).
Proof.
  intros K sh om d eps mu pec pmc n A. destruct (alternative K n A) as [(x & Nx & S)|U]; [left; now exists x|right]. intro J. apply U.
Qed.
Print Assumptions C151_alternative.

(** Without PEC, at most n = 3 Nx Ny Nz values of om^2 are resonances of given
    materials and widths: among more than n frequencies with different squares,
    there is one at which every current has exactly one solution. *)
Theorem C151_all_but_finitely_many :
  forall (K : CFld) (sh : list nat) (d : dx2 K) (eps : vect K) (mu pmc : option (vect K)) (m : nat) (om : nat -> K),
    let n := (3 * prodl sh)%nat in
    (forall q, (q < n)%nat -> eps q <> 0) ->
    (n < m)%nat -> (forall a b, (a < m)%nat -> (b < m)%nat -> a <> b -> om a * om a <> om b * om b) ->
    exists a, (a < m)%nat /\ forall J : vect K, exactly_one n (e_full_mat sh (om a) d eps mu None pmc) (fun r => - im * om a * J r).
Proof.
  intros K sh d eps mu pmc m om n He Hm Ho.
  destruct (eigen_bound K n (e_full_mat sh 0 d eps mu None pmc) eps m (fun a => om a * om a) He Hm Ho) as (a & Ha & I).
  exists a. split; [exact Ha|]. intro J.
  destruct (C151_alternative K sh (om a) d eps mu None pmc) as [(x & (q & Hq & Nq) & S)|U]; [exfalso|apply U].
  apply Nq. apply (I x); [|exact Hq]. intros i Hi. specialize (S i Hi). unfold n in *. rewrite e_full_freq in S by exact Hi. now apply minus_zero in S.
Qed.
Print Assumptions C151_all_but_finitely_many.

(** With a PEC anywhere the matrix is singular, whatever the rest.  A current in
    the PEC makes the system unsolvable; otherwise it has none or several solutions. *)
Theorem C151_pec_singular :
  forall (K : CFld) (sh : list nat) (om : K) (d : dx2 K) (eps : vect K) (mu pec pmc : option (vect K)) (q : nat),
    let n := (3 * prodl sh)%nat in
    let A := e_full_mat sh om d eps mu pec pmc in
    (q < n)%nat -> hidden pec q ->
    singular n A
    /\ (forall J : vect K, ~ exactly_one n A (fun r => - im * om * J r))
    /\ (forall (J E : vect K), om <> 0 -> J q <> 0 -> ~ veq n (mv n A E) (fun r => - im * om * J r)).
Proof.
  intros K sh om d eps mu pec pmc q n A Hq Hh.
  set (u := fun k => if (k =? q)%nat then (1 : K) else 0).
  assert (N1 : (1 : K) <> 0) by apply (F_1_neq_0 (fth K)).
  assert (Z : forall x, veq n (mv n A (fun k => x k + u k)) (mv n A x)).
  { intro x. apply (C27_masked_E_irrelevant K sh om d eps mu pec pmc). intros k Hk Hs. unfold u. destruct (Nat.eqb_spec k q) as [->|]; [contradiction|]. apply (a_0_r K). }
  split; [|split].
  - exists u. split; [exists q; split; [exact Hq|]; unfold u; now rewrite Nat.eqb_refl|]. intros r Hr. transitivity (mv n A (fun k => 0 + u k) r).
    + apply mv_ext_v. intros. symmetry. apply (a_0_l K).
    + rewrite (Z (fun _ => 0) r Hr). apply sumN_zero. intros. apply (m_0_r K).
  - intros J (x & Ex & U). assert (E2 : veq n (mv n A (fun k => x k + u k)) (fun r => - im * om * J r)).
    { intros r Hr. rewrite (Z x r Hr). now apply Ex. }
    pose proof (U _ E2 q Hq) as V. cbv beta in V. unfold u in V. rewrite Nat.eqb_refl in V. apply N1. apply (a_cancel K _ _ V).
  - intros J E Ho HJ S. specialize (S q Hq). unfold A, n in S. rewrite mv_e_full in S by exact Hq. rewrite keep_hidden in S by exact Hh.
    rewrite (zero_mul_aux K) in S. exact (drive_nz K om (J q) Ho HJ (eq_sym S)).
Qed.
Print Assumptions C151_pec_singular.

(** What holds with a PEC: either a field that vanishes in the PEC has no sources,
    or for every current outside the PEC exactly one solution vanishes in the PEC. *)
Theorem C151_pec_alternative :
  forall (K : CFld) (sh : list nat) (om : K) (d : dx2 K) (eps : vect K) (mu pec pmc : option (vect K)),
    let n := (3 * prodl sh)%nat in
    let A := e_full_mat sh om d eps mu pec pmc in
    let outside (x : vect K) := forall q, (q < n)%nat -> hidden pec q -> x q = 0 in
    (exists E, outside E /\ (exists q, (q < n)%nat /\ E q <> 0) /\ veq n (mv n A E) (fun _ => 0)) \/
    (forall J, outside J -> exists E, outside E /\ veq n (mv n A E) (fun r => - im * om * J r) /\
       forall E', outside E' -> veq n (mv n A E') (fun r => - im * om * J r) -> veq n E' E).
Proof.
  intros K sh om d eps mu pec pmc n A outside.
  set (B := madd A (msub mid (mdiag (keep pec)))).
  assert (MB : forall x r, (r < n)%nat -> mv n B x r = mv n A x r + (1 - keep pec r) * x r).
  { intros x r Hr. unfold B. rewrite mv_madd, mv_msub, mv_mid, mv_mdiag by exact Hr. apply (mask_aux K). }
  assert (MA : forall x r, (r < n)%nat -> hidden pec r -> mv n A x r = 0).
  { intros x r Hr Hh. unfold A, n. rewrite mv_e_full by exact Hr. rewrite keep_hidden by exact Hh. apply (zero_mul_aux K). }
  assert (BH : forall x r, (r < n)%nat -> hidden pec r -> mv n B x r = x r).
  { intros x r Hr Hh. rewrite MB, (MA x r Hr Hh), keep_hidden by assumption. apply (masked_sum K (x r)). }
  assert (BS : forall x r, (r < n)%nat -> ~ hidden pec r -> mv n B x r = mv n A x r).
  { intros x r Hr Hs. rewrite MB, keep_shown by assumption. apply (masked_sum K). }
  destruct (alternative K n B) as [(x & Nx & S)|U].
  - left. exists x. split; [intros q Hq Hh; rewrite <- (BH x q Hq Hh); now apply S|]. split; [exact Nx|]. intros r Hr.
    destruct (hidden_dec K pec r) as [Hh|Hs]; [now apply MA|]. rewrite <- (BS x r Hr Hs). now apply S.
  - right. intros J OJ. destruct (U (fun r => - im * om * J r)) as (x & Ex & Ux).
    assert (T : forall y, outside y -> veq n (mv n A y) (fun r => - im * om * J r) -> veq n (mv n B y) (fun r => - im * om * J r)).
    { intros y Oy Ey r Hr. destruct (hidden_dec K pec r) as [Hh|Hs]; [|rewrite BS by assumption; now apply Ey]. rewrite BH by assumption. rewrite (Oy r Hr Hh), (OJ r Hr Hh). symmetry. apply drive_zero. }
    exists x. split; [|split].
    + intros q Hq Hh. rewrite <- (BH x q Hq Hh), (Ex q Hq), (OJ q Hq Hh). apply drive_zero.
    + intros r Hr. destruct (hidden_dec K pec r) as [Hh|Hs]; [|rewrite <- (BS x r Hr Hs); now apply Ex]. rewrite MA by assumption. rewrite (OJ r Hr Hh). symmetry. apply drive_zero.
    + intros y Oy Ey. apply Ux. now apply T.
Qed.
Print Assumptions C151_pec_alternative.

(** ** With loss everywhere *)
Section Lossy.
  Variables (sh : list nat) (we wh : widths RF) (om : R) (eps : field CC) (mu : option (field CC)).
  Hypothesis HL : length sh = 3%nat.
  Hypothesis Hom : (0 < om)%R.
  Hypothesis Hw : (forall a i, (a < 3)%nat -> (i < dim sh a)%nat -> 0 < we a i /\ 0 < wh a i)%R.
  Hypothesis Ie : (forall c i, (c < 3)%nat -> inb sh i -> cim (eps c i) < 0)%R.
  Hypothesis Im : (forall c i, (c < 3)%nat -> inb sh i -> cim (matl (K := CC) mu c i) <= 0)%R.
  Hypothesis Hm : nzm_opt (K := CC) sh mu.
  Notation A := (e_full_mat (K := CC) sh (mkC om 0) (cw we, cw wh) (vec (K := CC) sh eps) (option_map (vec (K := CC) sh) mu) None None).
  Notation n := (3 * prodl sh)%nat.

  Lemma lossy_injective (x : vect CC) : solves0 CC n n A x -> forall j, (j < n)%nat -> x j = c0.
  Proof.
    intros S. assert (V : forall y : vect CC, veq n (mv (K := CC) n A (vec (K := CC) sh (unvec (K := CC) sh y))) (mv (K := CC) n A y)).
    { intros y r Hr. apply mv_ext_v. intros k Hk. exact (vec_unvec CC sh 3 y k Hk). }
    assert (P : feq (K := CC) sh (unvec (K := CC) sh x) (unvec (K := CC) sh (fun _ => c0))).
    { apply (C121_unique_solution sh we wh om eps mu _ _ HL Hom Hw Ie Im Hm). intros c i Hc Hi. unfold unvec at 1 3.
      assert (Q : (c * prodl sh + ravel sh i < n)%nat) by (pose proof (ravel_lt sh i Hi); nia).
      rewrite (V x _ Q), (V (fun _ => c0) _ Q), (S _ Q). symmetry. apply sumN_zero. intros k Hk. apply (m_0_r CC). }
    intros j Hj. rewrite <- (vec_unvec CC sh 3 x j Hj). unfold vec.
    assert (Z : (0 < prodl sh)%nat) by (destruct (prodl sh); lia).
    apply P; [apply Nat.div_lt_upper_bound; lia|apply inb_unravel; apply Nat.mod_upper_bound; lia].
  Qed.
End Lossy.

(** every current has exactly one solution, *)
Theorem C151_lossy :
  forall (sh : list nat) (we wh : widths RF) (om : R) (eps : field CC) (mu : option (field CC)) (J : vect CC),
    length sh = 3%nat -> (0 < om)%R ->
    (forall a i, (a < 3)%nat -> (i < dim sh a)%nat -> 0 < we a i /\ 0 < wh a i)%R ->
    (forall c i, (c < 3)%nat -> inb sh i -> cim (eps c i) < 0)%R ->
    (forall c i, (c < 3)%nat -> inb sh i -> cim (matl (K := CC) mu c i) <= 0)%R ->
    nzm_opt (K := CC) sh mu ->
    let A := e_full_mat (K := CC) sh (mkC om 0) (cw we, cw wh) (vec (K := CC) sh eps) (option_map (vec (K := CC) sh) mu) None None in
    exactly_one (K := CC) (3 * prodl sh) A (fun r => cmul (cmul (copp ci) (mkC om 0)) (J r)).
Proof.
  intros sh we wh om eps mu J HL Hom Hw Ie Im Hm A.
  destruct (alternative CC (3 * prodl sh) A) as [(x & (q & Hq & Nq) & S)|U]; [exfalso|apply U].
  apply Nq. exact (lossy_injective sh we wh om eps mu HL Hom Hw Ie Im Hm x S q Hq).
Qed.
Print Assumptions C151_lossy.
(** so that two calls of generic agree, whatever the solvers (as long as they solve
    the system they are given), the options and the guesses. *)
Theorem C151_generic_agrees :
  forall (sh : list nat) (we wh : widths RF) (om : R) (eps : field CC) (mu : option (field CC)) (J : vect CC) (O : Type)
         (herm herm' : option (mat CC -> mat CC)) (sqrt : CC -> CC) (fresh fresh' : O)
         (solver solver' : mat CC -> vect CC -> opts (K := CC) O -> result (vect CC)) mopts mopts' guess guess' E E' o o',
    length sh = 3%nat -> (0 < om)%R ->
    (forall a i, (a < 3)%nat -> (i < dim sh a)%nat -> 0 < we a i /\ 0 < wh a i)%R ->
    (forall c i, (c < 3)%nat -> inb sh i -> cim (eps c i) < 0)%R ->
    (forall c i, (c < 3)%nat -> inb sh i -> cim (matl (K := CC) mu c i) <= 0)%R ->
    nzm_opt (K := CC) sh mu ->
    (forall c idx, (c < 3)%nat -> inb sh idx -> let v := vol_e (K := CC) (cw we) (cw wh) c idx in cmul (sqrt v) (sqrt v) = v) ->
    exact_solver (3 * prodl sh) solver -> exact_solver (3 * prodl sh) solver' ->
    let call h f s m g := generic (K := CC) h sqrt f sh (mkC om 0) (cw we, cw wh) J (vec (K := CC) sh eps) (option_map (vec (K := CC) sh) mu) None None false s m g in
    call herm fresh solver mopts guess = Ok (E, o) -> call herm' fresh' solver' mopts' guess' = Ok (E', o') ->
    veq (3 * prodl sh) E E'.
Proof.
  intros sh we wh om eps mu J O herm herm' sqrt fresh fresh' solver solver' mopts mopts' guess guess' E E' o o' HL Hom Hw Ie Im Hm Hs Hx Hx' call G G'.
  assert (He : nzw (K := CC) sh (cw we)). { intros a i Ha Hi X. rewrite HL in Ha. destruct (Hw a i Ha Hi) as [Y _]. apply (f_equal cre) in X. cbn in X. lra. }
  assert (Hh : nzw (K := CC) sh (cw wh)). { intros a i Ha Hi X. rewrite HL in Ha. destruct (Hw a i Ha Hi) as [_ Y]. apply (f_equal cre) in X. cbn in X. lra. }
  pose proof (C31_generic_solves CC O herm sqrt fresh sh (mkC om 0) (cw we, cw wh) J _ _ None None solver mopts guess E o HL He Hh Hs Hx G) as S.
  pose proof (C31_generic_solves CC O herm' sqrt fresh' sh (mkC om 0) (cw we, cw wh) J _ _ None None solver' mopts' guess' E' o' HL He Hh Hs Hx' G') as S'.
  destruct (C151_lossy sh we wh om eps mu J HL Hom Hw Ie Im Hm) as (x & _ & U). intros q Hq. rewrite (U E S q Hq). symmetry. exact (U E' S' q Hq).
Qed.
Print Assumptions C151_generic_agrees.
(** The expected claim, that loss makes every problem solvable, is false with a PEC. *)
Theorem C151_pec_refuted :
  exists (sh : list nat) (we wh : widths RF) (om : R) (eps : field CC) (pec J : vect CC),
    length sh = 3%nat /\ (0 < om)%R /\ (forall a i, 0 < we a i /\ 0 < wh a i)%R /\ (forall c i, cim (eps c i) < 0)%R /\
    forall E, ~ veq (3 * prodl sh) (mv (K := CC) (3 * prodl sh) (e_full_mat (K := CC) sh (mkC om 0) (cw we, cw wh) (vec (K := CC) sh eps) None (Some pec) None) E)
                    (fun r => cmul (cmul (copp ci) (mkC om 0)) (J r)).
Proof.
  exists [2; 1; 3]%nat, ux_w, ux_w, 1%R, ux_eps, (fun q => if (q =? 0)%nat then c1 else c0), (fun _ => c1).
  assert (N : c1 <> c0) by (intro X; apply (f_equal cre) in X; cbn in X; lra).
  split; [reflexivity|]. split; [lra|]. split; [intros a i; unfold ux_w; pose proof (pos_INR (a + i)); lra|]. split; [intros c i; unfold ux_eps; cbn [cim]; pose proof (pos_INR c); lra|].
  intro E. apply (C151_pec_singular CC [2; 1; 3]%nat (mkC 1 0) (cw ux_w, cw ux_w) _ None (Some _) None 0%nat).
  - cbn. lia.
  - exact N.
  - exact N.
  - exact N.
Qed.
Print Assumptions C151_pec_refuted.
(** Six cells, n = 18: among the frequencies 1, 2, ..., 19 one is no resonance of vacuum.
    [C121_example] meets the hypotheses with loss. *)
Example C151_case : (forall q, (q < 3 * prodl [2; 1; 3]%nat)%nat -> (fun _ => c1) q <> c0) /\ (3 * prodl [2; 1; 3]%nat < 19)%nat /\
  (forall a b : nat, (a < 19)%nat -> (b < 19)%nat -> a <> b -> cmul (mkC (1 + INR a) 0) (mkC (1 + INR a) 0) <> cmul (mkC (1 + INR b) 0) (mkC (1 + INR b) 0)).
Proof.
  split; [intros q _ X; apply (f_equal cre) in X; cbn in X; lra|]. split; [cbn; lia|]. intros a b _ _ N E. apply N. apply INR_eq.
  apply (f_equal cre) in E. cbn [cmul cre cim] in E. pose proof (pos_INR a). pose proof (pos_INR b).
  assert (Z : ((INR a - INR b) * (2 + INR a + INR b) = 0)%R) by lra. apply Rmult_integral in Z as [Z|Z]; lra.
Qed.
