(** Properties of meanas/fdfd/waveguide_cyl.py: straight limit, radii,
    normalisation. *)
From Coq Require Import Reals List Arith ZArith Lia Lra Bool Field.
From Verif.Lib Require Import Num Sums Idx Mat RealF Limits.
From Verif.Model Require Import Fdmath Fdfd Waveguide2d WaveguideReal Cyl CylReal.
From Verif.Spec Require Import Yee WaveguideSpec CylSpec.
From Verif.Proofs Require Import FdmathP FdfdP FdfdP2 WaveguideP WaveguideP2 WaveguideP3 WaveguideP4 WaveguideRealP WaveguideRealP2 CylP.
From Verif.Props Require Import FdfdProps WaveguideProps WaveguideRealProps CylProps.
From Verif.Proofs Require Import GridP.
Import ListNotations.
Local Open Scope R_scope.

(** ** C46: the straight waveguide *)
Section Straight.
  Variable K : CFld.
  Add Field Kst : (fth K).
  Local Open Scope fld_scope.
  Variables (sh : list nat) (we wh : widths K) (om beta : K) (eps : vect K).
  Hypothesis HL : length sh = 2%nat.
  Hypothesis Hom : om <> 0. Hypothesis Hb : beta <> 0.
  Hypothesis Ne : forall q, (q < 3 * prodl sh)%nat -> eps q <> 0.
  Let N := prodl sh.
  Let ones : vect K := fun _ => 1.
  Notation Fx := (deriv_forward sh (Some we) 0). Notation Fy := (deriv_forward sh (Some we) 1).
  Notation Bx := (deriv_back sh (Some wh) 0). Notation By := (deriv_back sh (Some wh) 1).

  Lemma st_op : meq (2 * N) (2 * N) (cylindrical_operator_T sh ones ones om (we, wh) eps) (operator_e sh om (we, wh) eps None).
  Proof.
    apply meq_of_mv. intro x. apply veq_unvec. intros c i Hc Hi.
    assert (Nz : forall i, inb sh i -> unvec sh eps 2%nat i <> 0) by (intros j Hj; apply Ne; pose proof (ravel_lt _ _ Hj); lia).
    refine (eq_trans (cyl_op_act K sh HL we wh (fun _ => 1) (fun _ => 1) (fun _ _ => f1nz K) (fun _ _ => f1nz K) om eps x Nz c i Hc Hi) _).
    assert (A : forall ep m c, (c < 2)%nat -> unvec sh (mv (2 * prodl sh) (operator_e sh om (we, wh) ep m) x) c i = match c with
      | 0%nat => opx K Fx Fy Bx By om (unvec sh x 0%nat) (unvec sh x 1%nat) (unvec sh ep 0%nat) (unvec sh ep 1%nat) (unvec sh ep 2%nat) (unvec sh (or_ones m) 1%nat) (unvec sh (or_ones m) 2%nat) i
      | _ => opy K Fx Fy Bx By om (unvec sh x 0%nat) (unvec sh x 1%nat) (unvec sh ep 0%nat) (unvec sh ep 1%nat) (unvec sh ep 2%nat) (unvec sh (or_ones m) 0%nat) (unvec sh (or_ones m) 2%nat) i
      end).
    { intros ep m c' Hc'. refine (wg_op_act K sh (deriv_forward_mat sh we 0) (deriv_forward_mat sh we 1) (deriv_back_mat sh wh 0) (deriv_back_mat sh wh 1)
          Fx Fy Bx By _ _ _ _ _ _ _ _ om ep (or_ones m) x c' i Hc' Hi).
      all: try (intros y j Hj; first [apply dfN|apply dbN]; [exact HL|lia|exact Hj]).
      all: first [apply lin_f|apply lin_b]; [exact HL|lia]. }
    rewrite !A by exact Hc. cbn [or_ones].
    assert (E1 : forall c j, inb sh j -> unvec sh (mu_s K sh (fun _ => 1) (fun _ => 1)) c j = 1).
    { intros c' j Hj. unfold mu_s. rewrite unvec_vec by exact Hj. destruct c' as [|[|c']]; try reflexivity. field. apply f1nz. }
    assert (E2 : forall c j, inb sh j -> (c < 3)%nat -> unvec sh (eps_s K sh (fun _ => 1) (fun _ => 1) eps) c j = unvec sh eps c j).
    { intros c' j Hj Hc'. unfold eps_s. rewrite unvec_vec by exact Hj. destruct c' as [|[|[|c']]]; [ring|ring|field; apply f1nz|lia]. }
    assert (Q : forall d, unvec sh (fun _ : nat => (1 : K)) d = fun _ => 1) by reflexivity. rewrite !Q.
    assert (Cz : forall j, inb sh j -> curlz K Fx Fy (unvec sh x 0%nat) (unvec sh x 1%nat) (unvec sh (mu_s K sh (fun _ => 1) (fun _ => 1)) 2%nat) j
       = curlz K Fx Fy (unvec sh x 0%nat) (unvec sh x 1%nat) (fun _ => 1) j).
    { intros j Hj. unfold curlz. now rewrite E1. }
    assert (Dz : forall j, inb sh j -> divz K Bx By (unvec sh x 0%nat) (unvec sh x 1%nat) (unvec sh (eps_s K sh (fun _ => 1) (fun _ => 1) eps) 0%nat)
         (unvec sh (eps_s K sh (fun _ => 1) (fun _ => 1) eps) 1%nat) (unvec sh (eps_s K sh (fun _ => 1) (fun _ => 1) eps) 2%nat) j
       = divz K Bx By (unvec sh x 0%nat) (unvec sh x 1%nat) (unvec sh eps 0%nat) (unvec sh eps 1%nat) (unvec sh eps 2%nat) j).
    { intros j Hj. unfold divz. rewrite E2 by (try lia; exact Hj). f_equal. f_equal; apply deriv_back_ext; try lia; try exact Hj; intros q Hq; rewrite E2 by (try lia; exact Hq); reflexivity. }
    destruct c as [|[|c]]; [| |lia]; unfold opx, opy; rewrite !E1, !E2 by (try lia; exact Hi).
    - rewrite (deriv_back_ext K sh (Some wh) 1 _ _ i ltac:(lia) Hi Cz), (deriv_forward_ext K sh (Some we) 0 _ _ i ltac:(lia) Hi Dz). reflexivity.
    - rewrite (deriv_back_ext K sh (Some wh) 0 _ _ i ltac:(lia) Hi Cz), (deriv_forward_ext K sh (Some we) 1 _ _ i ltac:(lia) Hi Dz). reflexivity.
  Qed.

  Lemma st_exy2e : meq (3 * N) (2 * N) (cyl_exy2e_T sh ones ones beta om (we, wh) eps) (exy2e sh beta (we, wh) eps).
  Proof.
    apply meq_of_mv. intro x. apply veq_unvec. intros c i Hc Hi.
    assert (Nz : unvec sh eps 2%nat i <> 0) by (apply Ne; pose proof (ravel_lt _ _ Hi); lia).
    destruct (Nat.lt_ge_cases c 2) as [C|C].
    { refine (eq_trans (cyl_exy2e_xy K sh we wh (fun _ => 1) (fun _ => 1) beta om eps x c i C Hi) _). symmetry. now apply exy2e_xy. }
    assert (E : c = 2%nat) by lia. subst c.
    refine (eq_trans (cyl_exy2e_z K sh HL we wh (fun _ => 1) (fun _ => 1) beta om eps x i Hi) _).
    rewrite (exy2e_z K sh HL) by exact Hi.
    set (hz := hz1 K sh we om x).
    set (ex := fun j => unvec sh eps 0%nat j * unvec sh x 0%nat j). set (ey := fun j => unvec sh eps 1%nat j * unvec sh x 1%nat j).
    assert (P1 : 1 / (1 : K) = 1) by (field; apply f1nz).
    assert (X : By (hx1 K sh we wh (fun _ => 1) (fun _ => 1) beta om eps x) i
        = 1 / (im * beta) * (im * om) * By ey i + - (1 / (im * beta)) * By (Bx hz) i).
    { refine (lin_comb K (inb sh) By _ ey (Bx hz) _ _ i (lin_b K sh HL wh 1 ltac:(lia)) Hi _). intros q Hq. unfold hx1. rewrite P1.
      rewrite (deriv_back_ext K sh (Some wh) 0 (fun k => 1 * hz1 K sh we om x k) hz q) by (try lia; try exact Hq; intros; unfold hz; ring). unfold ey. ring. }
    assert (Y : Bx (hy1 K sh we wh (fun _ => 1) beta om eps x) i
        = - (1 / (im * beta) * (im * om)) * Bx ex i + - (1 / (im * beta)) * Bx (By hz) i).
    { refine (lin_comb K (inb sh) Bx _ ex (By hz) _ _ i (lin_b K sh HL wh 0 ltac:(lia)) Hi _). intros q Hq. unfold hy1, ex, hz. ring. }
    rewrite X, Y. rewrite (deriv_back_comm K sh (Some wh) 0 1 hz i) by lia. field. splits; first [apply im_nz|exact Hb|exact Hom|exact Nz].
  Qed.

  Lemma st_e2h mu : (forall q, (q < 3 * prodl sh)%nat -> or_ones mu q <> 0) ->
    meq (3 * N) (3 * N) (cyl_e2h_T sh ones ones beta om (we, wh) mu) (mopp (wg_e2h sh beta om (we, wh) mu)).
  Proof.
    intro Nm. apply meq_of_mv. intro x. apply veq_unvec. intros c i Hc Hi.
    assert (Nz : forall b j, (b < 3)%nat -> inb sh j -> unvec sh (or_ones mu) b j <> 0) by (intros b j Hb' Hj; apply Nm; pose proof (ravel_lt _ _ Hj); nia).
    apply (fmul_cancel_l K (- im * om * unvec sh (or_ones mu) c i)).
    { apply fmul_nz; [apply fmul_nz; [apply fopp_nz, im_nz|exact Hom]|now apply Nz]. }
    transitivity (- im * om * (unvec sh (or_ones mu) c i * unvec sh (mv (3 * N) (cyl_e2h_T sh ones ones beta om (we, wh) mu) x) c i)); [unfold N; ring|].
    refine (eq_trans (cyl_e2h_act K sh HL we wh (fun _ => 1) (fun _ => 1) beta om mu x c i Hc Hi Hom Nz) _).
    transitivity (- (- im * om * (unvec sh (or_ones mu) c i * unvec sh (mv (3 * N) (wg_e2h sh beta om (we, wh) mu) x) c i))).
    2:{ unfold unvec. rewrite mv_mopp. unfold N. ring. }
    unfold N. rewrite (e2h_act K sh HL we wh) by assumption. rewrite (curl_e_act K sh HL) by assumption.
    assert (P1 : 1 / (1 : K) = 1) by (field; apply f1nz). rewrite P1.
    destruct c as [|[|[|c]]]; [ring| |ring|lia].
    rewrite (deriv_forward_ext K sh (Some we) 0 (fun j => 1 * unvec sh x 2%nat j) (unvec sh x 2%nat) i) by (try lia; try exact Hi; intros; ring). ring.
  Qed.
End Straight.

(** With radius ratio 1 everywhere the three cylindrical operators are the
    straight ones (e2h with the opposite sign, which _normalized_fields undoes). *)
Theorem C46_unit_ratio_is_straight :
  forall (K : CFld) (sh : list nat) (we wh : widths K) (om beta : K) (eps : vect K) (mu : option (vect K)),
    length sh = 2%nat -> om <> f0 -> beta <> f0 -> nonzero_materials sh eps mu ->
    let N := prodl sh in let ones : vect K := fun _ => f1 in
    meq (2 * N) (2 * N) (cylindrical_operator_T sh ones ones om (we, wh) eps) (operator_e sh om (we, wh) eps None) /\
    meq (3 * N) (2 * N) (cyl_exy2e_T sh ones ones beta om (we, wh) eps) (exy2e sh beta (we, wh) eps) /\
    meq (3 * N) (3 * N) (cyl_e2h_T sh ones ones beta om (we, wh) mu) (mopp (wg_e2h sh beta om (we, wh) mu)).
Proof.
  intros K sh we wh om beta eps mu HL Hom Hb Hm N ones.
  destruct Hm as (Ne & Hm).
  splits; [now apply st_op|now apply st_exy2e|apply (st_e2h K sh we wh om beta eps); try assumption].
  intros q Hq. destruct mu as [m|]; [now apply Hm|apply f1nz].
Qed.
Print Assumptions C46_unit_ratio_is_straight.

(** *** Large radius *)
Section Lim.
  Variables (sh : list nat) (we wh : widths CC) (r : nat -> R).
  Hypothesis Hr : cv_infty r.

  Lemma lim_ratio (s : cpx) : ccv (fun n => @fdiv CC (@fadd CC (mkC (r n) 0) s) (mkC (r n) 0)) c1.
  Proof.
    destruct (Hr 0) as (N0 & H0).
    assert (I : Un_cv (fun n => / r n) 0).
    { intros e He. destruct (Hr (/ e)) as (M & HM). exists M. intros n Hn. specialize (HM n Hn).
      pose proof (Rinv_0_lt_compat e He) as Ie. unfold R_dist. rewrite Rminus_0_r, Rabs_right by (apply Rle_ge, Rlt_le, Rinv_0_lt_compat; lra).
      rewrite <- (Rinv_inv e). apply Rinv_lt_contravar; [apply Rmult_lt_0_compat; lra|exact HM]. }
    refine (ccv_ext_from (fun n => @fadd CC c1 (@fmul CC s (mkC (/ r n) 0))) _ _ N0 _ _).
    - intros n Hn. specialize (H0 n Hn). apply cpx_ext; cbn; unfold cnrm; cbn; field; lra.
    - pose proof (ccv_add (fun _ => c1) (fun n => @fmul CC s (mkC (/ r n) 0)) c1 (@fmul CC s (mkC 0 0)) (ccv_const c1)) as A.
      refine (eq_ind _ (ccv _) (A _) c1 _); [|apply cpx_ext; cbn; ring].
      apply ccv_mul; [apply ccv_const|]. split; cbn; [exact I|apply cv_const].
  Qed.
  Lemma lim_beta (b : cpx) : ccv (fun n => @fdiv CC (@fmul CC b (mkC (r n) 0)) (mkC (r n) 0)) b.
  Proof.
    destruct (Hr 0) as (N0 & H0). refine (ccv_ext_from (fun _ => b) _ _ N0 _ (ccv_const b)).
    intros n Hn. specialize (H0 n Hn). apply cpx_ext; cbn; unfold cnrm; cbn; field; lra.
  Qed.
  Definition Tan n := fst (dxes2T (K := CC) sh (we, wh) (mkC (r n) 0)).
  Definition Tbn n := snd (dxes2T (K := CC) sh (we, wh) (mkC (r n) 0)).
  Lemma lim_a : vcv Tan (fun _ => c1).
  Proof. intro p. unfold Tan, dxes2T. cbn [fst]. unfold flat. apply lim_ratio. Qed.
  Lemma lim_b : vcv Tbn (fun _ => c1).
  Proof.
    intro p. unfold Tbn, dxes2T. cbn [fst snd]. unfold flat.
    refine (ccv_ext_from (fun n => @fdiv CC (@fadd CC (mkC (r n) 0)
      (@fadd CC (@fdiv CC (we 0%nat (coord (unravel sh p) 0)) (@fadd CC f1 f1)) (cumsum (K := CC) (wh 0%nat) (coord (unravel sh p) 0)))) (mkC (r n) 0)) _ _ 0 _ (lim_ratio _)).
    intros n _. f_equal. cbn [fst snd]. set (z := @fdiv CC _ _). set (y := cumsum _ _). clearbody y z. apply cpx_ext; cbn; ring.
  Qed.
  Lemma lim_ai : vcv (fun n p => @fdiv CC f1 (Tan n p)) (fun p => @fdiv CC f1 f1).
  Proof. intro p. apply ccv_div; [apply (f1nz CC)|apply ccv_const|apply lim_a]. Qed.
  Lemma lim_bi : vcv (fun n p => @fdiv CC f1 (Tbn n p)) (fun p => @fdiv CC f1 f1).
  Proof. intro p. apply ccv_div; [apply (f1nz CC)|apply ccv_const|apply lim_b]. Qed.
End Lim.

Lemma mcv_h k A B L M : mcv A L -> mcv B M -> mcv (fun n => hstack2 k (A n) (B n)) (hstack2 k L M).
Proof. intros H1 H2 p q. unfold hstack2. destruct (Nat.ltb q k); [apply H1|apply H2]. Qed.
Lemma mcv_v k A B L M : mcv A L -> mcv B M -> mcv (fun n => vstack2 k (A n) (B n)) (vstack2 k L M).
Proof. intros H1 H2 p q. unfold vstack2. destruct (Nat.ltb p k); [apply H1|apply H2]. Qed.
Ltac mcv_step := first
  [ apply mcv_const | apply mcv_madd | apply mcv_msub | apply mcv_mopp | apply mcv_mscale | apply mcv_mm
  | apply mcv_h | apply mcv_v | apply mcv_mdiag | apply ccv_const ].

(** As the bend radius grows, with the wavenumber per length [beta] fixed, every
    entry of the bent-waveguide operators tends to the entry of the straight
    ones. *)
Theorem C46_large_radius_limit :
  forall (sh : list nat) (we wh : widths CC) (om beta : cpx) (eps : vect CC) (mu : option (vect CC)) (r : nat -> R),
    length sh = 2%nat -> om <> c0 -> beta <> c0 -> nonzero_materials (K := CC) sh eps mu -> cv_infty r ->
    let N := prodl sh in
    let rmin n := mkC (r n) 0 in
    let k n := cmul beta (rmin n) in
    (forall p q, (p < 2 * N)%nat -> (q < 2 * N)%nat ->
       ccv (fun n => cylindrical_operator (K := CC) sh om (we, wh) eps (rmin n) p q) (operator_e (K := CC) sh om (we, wh) eps None p q)) /\
    (forall p q, (p < 3 * N)%nat -> (q < 2 * N)%nat ->
       ccv (fun n => cyl_exy2e (K := CC) sh (k n) om (we, wh) (rmin n) eps p q) (exy2e (K := CC) sh beta (we, wh) eps p q)) /\
    (forall p q, (p < 3 * N)%nat -> (q < 3 * N)%nat ->
       ccv (fun n => cyl_e2h (K := CC) sh (k n) om (we, wh) (rmin n) mu p q) (copp (wg_e2h (K := CC) sh beta om (we, wh) mu p q))).
Proof.
  intros sh we wh om beta eps mu r HL Hom Hb Hm Hr N rmin k.
  destruct (C46_unit_ratio_is_straight CC sh we wh om beta eps mu HL Hom Hb Hm) as (S1 & S2 & S3). cbv zeta in *.
  pose proof (lim_a sh we wh r Hr) as LA. pose proof (lim_b sh we wh r Hr) as LB.
  pose proof (lim_ai sh we wh r Hr) as LAi. pose proof (lim_bi sh we wh r Hr) as LBi. pose proof (lim_beta r Hr beta) as Lb.
  splits; intros p q Hp Hq.
  - rewrite <- S1 by assumption. revert p q Hp Hq.
    enough (M : mcv (fun n => cylindrical_operator_T (K := CC) sh (Tan sh we wh r n) (Tbn sh we wh r n) om (we, wh) eps)
      (cylindrical_operator_T (K := CC) sh (fun _ => c1) (fun _ => c1) om (we, wh) eps)) by (intros; apply M).
    unfold cylindrical_operator_T, block_diag2. cbv zeta.
    repeat mcv_step; first [exact LA|exact LB].
  - rewrite <- S2 by assumption. revert p q Hp Hq.
    enough (M : mcv (fun n => cyl_exy2e_T (K := CC) sh (Tan sh we wh r n) (Tbn sh we wh r n) (@fdiv CC (k n) (rmin n)) om (we, wh) eps)
      (cyl_exy2e_T (K := CC) sh (fun _ => c1) (fun _ => c1) beta om (we, wh) eps)) by (intros; apply M).
    assert (Li : ccv (fun n => @fdiv CC f1 (@fmul CC im (@fdiv CC (k n) (rmin n)))) (@fdiv CC f1 (@fmul CC im beta))).
    { apply ccv_div; [apply (fmul_nz CC); [apply im_nz|exact Hb]|apply ccv_const|]. apply ccv_mul; [apply ccv_const|exact Lb]. }
    unfold cyl_exy2e_T. cbv zeta. repeat mcv_step; first [exact LA|exact LB|exact LAi|exact LBi|exact Li].
  - refine (eq_ind _ (ccv _) _ _ (S3 p q Hp Hq)). revert p q Hp Hq.
    enough (M : mcv (fun n => cyl_e2h_T (K := CC) sh (Tan sh we wh r n) (Tbn sh we wh r n) (@fdiv CC (k n) (rmin n)) om (we, wh) mu)
      (cyl_e2h_T (K := CC) sh (fun _ => c1) (fun _ => c1) beta om (we, wh) mu)) by (intros; apply M).
    assert (Li : ccv (fun n => @fmul CC im (@fdiv CC (k n) (rmin n))) (@fmul CC im beta)) by (apply ccv_mul; [apply ccv_const|exact Lb]).
    unfold cyl_e2h_T. cbv zeta.
    assert (M : mcv (fun n => mblock (K := CC) (prodl sh) (prodl sh) (fun a b => match a, b with
        | 0%nat, 1%nat => mscale (@fopp CC (@fmul CC im (@fdiv CC (k n) (rmin n)))) (mdiag (fun p => @fdiv CC f1 (Tan sh we wh r n p)))
        | 0%nat, 2%nat => mopp (deriv_forward_mat sh (fst (we, wh)) 1)
        | 1%nat, 0%nat => mscale (@fmul CC im (@fdiv CC (k n) (rmin n))) (mdiag (fun p => @fdiv CC f1 (Tbn sh we wh r n p)))
        | 1%nat, 2%nat => mm (prodl sh) (mm (prodl sh) (mdiag (fun p => @fdiv CC f1 (Tbn sh we wh r n p))) (deriv_forward_mat sh (fst (we, wh)) 0)) (mdiag (Tan sh we wh r n))
        | 2%nat, 0%nat => deriv_forward_mat sh (fst (we, wh)) 1
        | 2%nat, 1%nat => mopp (deriv_forward_mat sh (fst (we, wh)) 0)
        | _, _ => mzero
        end))
      (mblock (K := CC) (prodl sh) (prodl sh) (fun a b => match a, b with
        | 0%nat, 1%nat => mscale (@fopp CC (@fmul CC im beta)) (mdiag (fun p => @fdiv CC f1 f1))
        | 0%nat, 2%nat => mopp (deriv_forward_mat sh (fst (we, wh)) 1)
        | 1%nat, 0%nat => mscale (@fmul CC im beta) (mdiag (fun p => @fdiv CC f1 f1))
        | 1%nat, 2%nat => mm (prodl sh) (mm (prodl sh) (mdiag (fun p => @fdiv CC f1 f1)) (deriv_forward_mat sh (fst (we, wh)) 0)) (mdiag (fun _ => @f1 CC))
        | 2%nat, 0%nat => deriv_forward_mat sh (fst (we, wh)) 1
        | 2%nat, 1%nat => mopp (deriv_forward_mat sh (fst (we, wh)) 0)
        | _, _ => mzero
        end))).
    { apply mcv_mblock. intros a b. destruct a as [|[|[|a]]], b as [|[|[|b]]]; repeat mcv_step; first [exact LA|exact LB|exact LAi|exact LBi|exact Li|apply ccv_opp, Li]. }
    destruct mu as [m|]; [apply mcv_mm; [apply mcv_const|]|]; apply mcv_mscale; try apply ccv_const; exact M.
Qed.
Print Assumptions C46_large_radius_limit.

(** *** Radius ratios *)
Lemma sumN_real n (x : nat -> R) : sumN (K := CC) n (fun m => mkC (x m) 0) = mkC (sumN (K := RF) n x) 0.
Proof. induction n as [|n IH]; [reflexivity|]. cbn [sumN]. rewrite IH. apply cpx_ext; cbn; ring. Qed.
Lemma sumN_pos n (x : nat -> R) : (forall m, (m <= n)%nat -> 0 < x m) -> 0 < sumN (K := RF) (S n) x.
Proof.
  intro H. cbn [sumN]. pose proof (sumN_nonneg n x ltac:(intros i Hi; left; apply H; lia)) as A. specialize (H n ltac:(lia)).
  change (0 < sumN (K := RF) n x + x n). lra.
Qed.
Definition real_widths (x : nat -> R) : widths CC := fun _ m => mkC (x m) 0.

Theorem C46_ratios_above_one_and_increasing :
  forall (we wh : nat -> R) (rmin : R) (m : nat),
    0 < rmin -> (forall k, (k <= S m)%nat -> 0 < we k /\ 0 < wh k) ->
    let A k := t_int (K := CC) (real_widths we) (mkC rmin 0) k in
    let B k := t_half (K := CC) (real_widths we) (real_widths wh) (mkC rmin 0) k in
    cim (A m) = 0 /\ cim (B m) = 0 /\ 1 < cre (A m) /\ 1 < cre (B m) /\ cre (A m) < cre (A (S m)) /\
    (wh (S m) = (we m + we (S m)) / 2 -> cre (B m) < cre (B (S m))).
Proof.
  intros we wh rmin m Hr Hw A B.
  assert (EA : forall k, A k = mkC ((rmin + sumN (K := RF) (S k) we) / rmin) 0).
  { intro k. unfold A, t_int, real_widths. rewrite sumN_real. generalize (sumN (K := RF) (S k) we). intro s. apply cpx_ext; cbn; unfold cnrm; cbn; field; lra. }
  assert (EB : forall k, B k = mkC ((rmin + we k / 2 + sumN (K := RF) (S k) wh) / rmin) 0).
  { intro k. unfold B, t_half, real_widths. rewrite sumN_real. generalize (sumN (K := RF) (S k) wh). intro s. apply cpx_ext; cbn; unfold cnrm; cbn; field; lra. }
  rewrite (EA m), (EB m), (EA (S m)), (EB (S m)). cbn [cre cim].
  pose proof (sumN_pos m we ltac:(intros k Hk; apply Hw; lia)) as Sa. pose proof (sumN_pos m wh ltac:(intros k Hk; apply Hw; lia)) as Sb.
  destruct (Hw m ltac:(lia)) as (W1 & _). destruct (Hw (S m) ltac:(lia)) as (W2 & W3).
  change (sumN (K := RF) (S (S m)) we) with (sumN (K := RF) (S m) we + we (S m)).
  change (sumN (K := RF) (S (S m)) wh) with (sumN (K := RF) (S m) wh + wh (S m)).
  set (a := sumN (K := RF) (S m) we) in *. set (b := sumN (K := RF) (S m) wh) in *. clearbody a b.
  pose proof (Rinv_0_lt_compat rmin Hr) as Ir.
  assert (D : forall x y, x < y -> x / rmin < y / rmin) by (intros x y H; unfold Rdiv; now apply Rmult_lt_compat_r).
  assert (One : rmin / rmin = 1) by (field; lra).
  splits; try reflexivity.
  - rewrite <- One. apply D. lra.
  - rewrite <- One. apply D. lra.
  - apply D. lra.
  - intro E. apply D. lra.
Qed.
Print Assumptions C46_ratios_above_one_and_increasing.

(** *** linear_wavenumbers *)
Lemma wmean n (g w : nat -> R) lo hi : (forall m, (m < n)%nat -> 0 <= w m /\ lo <= g m <= hi) -> 0 < sumN (K := RF) n w ->
  lo <= sumN (K := RF) n (fun m => g m * w m) / sumN (K := RF) n w <= hi.
Proof.
  intros H P.
  assert (E : lo * sumN (K := RF) n w <= sumN (K := RF) n (fun m => g m * w m) <= hi * sumN (K := RF) n w).
  { clear P. induction n as [|n IH]; [cbn; lra|]. cbn [sumN]. destruct (IH ltac:(intros m Hm; apply H; lia)) as (A & B). destruct (H n ltac:(lia)) as (W & G1 & G2).
    change (lo * (sumN (K := RF) n w + w n) <= sumN (K := RF) n (fun m => g m * w m) + g n * w n <= hi * (sumN (K := RF) n w + w n)). nra. }
  split; apply (Rmult_le_reg_r (sumN (K := RF) n w)); try exact P; unfold Rdiv; rewrite Rmult_assoc, Rinv_l, Rmult_1_r by lra; apply E.
Qed.

(** For a lossless structure with positive epsilon and a non-zero field, the
    linear wavenumber is the angular one divided by a radius between that of the
    first and of the last grid plane. *)
Theorem C46_linear_wavenumber_radius :
  forall (nr ny : nat) (e_xy eps : vect CC) (k : cpx) (dr : nat -> R) (rmin : R),
    let sh := [nr; ny] in
    0 < rmin -> (forall m, (m < nr)%nat -> 0 < dr m) ->
    (forall q, (q < 2 * prodl sh)%nat -> 0 < cre (eps q) /\ cim (eps q) = 0) ->
    (exists q, (q < 2 * prodl sh)%nat /\ e_xy q <> c0) ->
    exists r, linear_wavenumber sh e_xy k eps dr rmin = cdiv k (mkC r 0) /\
      rmin + dr 0%nat <= r <= rmin + sumN (K := RF) nr dr /\ 0 < r.
Proof.
  intros nr ny x eps k dr rmin sh Hr Hd He (q & Hq & Nz).
  exists (mode_radius sh x eps dr rmin). split; [reflexivity|].
  assert (HN : prodl sh = (nr * ny)%nat) by (cbn; lia).
  assert (Hn : (0 < nr)%nat) by (apply Nat.neq_0_lt_0; intro Z; rewrite HN, Z in Hq; lia).
  enough (B : rmin + dr 0%nat <= mode_radius sh x eps dr rmin <= rmin + sumN (K := RF) nr dr) by (specialize (Hd 0%nat Hn); split; [exact B|lra]).
  unfold mode_radius. set (En := fun m => sumN (K := RF) 2 _).
  assert (Rv : forall c m j, (c < 2)%nat -> (m < nr)%nat -> (j < ny)%nat -> (c * prodl sh + ravel sh [m; j] < 2 * prodl sh)%nat).
  { intros c m j Hc Hm Hj. pose proof (ravel_lt sh [m; j] ltac:(repeat constructor; assumption)). nia. }
  assert (T : forall c m j, (c < 2)%nat -> (m < nr)%nat -> (j < ny)%nat ->
     0 <= cre (cmul (cmul (unvec (K := CC) sh x c [m; j]) (cconj (unvec (K := CC) sh x c [m; j]))) (unvec (K := CC) sh eps c [m; j]))).
  { intros c m j Hc Hm Hj. destruct (He _ (Rv c m j Hc Hm Hj)) as (P & Z). unfold unvec. set (z := x _). set (ep := eps _) in *. clearbody z ep. cbn. rewrite Z. nra. }
  assert (Tn : forall m, (m < nr)%nat -> 0 <= En m).
  { intros m Hm. unfold En. apply sumN_nonneg. intros c Hc. apply sumN_nonneg. intros j Hj. now apply T. }
  apply wmean.
  - intros m Hm. change (m < nr)%nat in Hm. split; [now apply Tn|]. split.
    + assert (L : dr 0%nat <= sumN (K := RF) (S m) dr).
      { clear - Hd Hm. induction m as [|m IH]; [cbn; lra|]. specialize (IH ltac:(lia)). specialize (Hd (S m) ltac:(lia)).
        change (dr 0%nat <= sumN (K := RF) (S m) dr + dr (S m)). lra. }
      lra.
    + apply Rplus_le_compat_l.
      assert (L : forall p, (m < p <= nr)%nat -> sumN (K := RF) (S m) dr <= sumN (K := RF) p dr).
      { intros p Hp. induction p as [|p IH]; [lia|]. destruct (Nat.eq_dec p m) as [->|Ne]; [apply Rle_refl|].
        specialize (IH ltac:(lia)). specialize (Hd p ltac:(lia)). change (sumN (K := RF) (S m) dr <= sumN (K := RF) p dr + dr p). lra. }
      apply L. lia.
  - (* the cell with a non-zero field *)
    set (c := (q / prodl sh)%nat). set (p := (q mod prodl sh)%nat).
    assert (HP : prodl sh <> 0%nat) by lia.
    assert (Hp : (p < prodl sh)%nat) by (now apply Nat.mod_upper_bound).
    assert (Hc : (c < 2)%nat) by (apply Nat.div_lt_upper_bound; lia).
    assert (Hqe : q = (c * prodl sh + p)%nat) by (unfold c, p; rewrite Nat.mul_comm; now apply Nat.div_mod).
    assert (Ge : forall n (f : nat -> R) i, (forall j, (j < n)%nat -> 0 <= f j) -> (i < n)%nat -> f i <= sumN (K := RF) n f).
    { intros n f i Hf Hi. induction n as [|n IH]; [lia|]. change (f i <= sumN (K := RF) n f + f n).
      pose proof (sumN_nonneg n f ltac:(intros; apply Hf; lia)). destruct (Nat.eq_dec i n) as [->|Ne]; [lra|]. specialize (IH ltac:(intros; apply Hf; lia) ltac:(lia)). specialize (Hf n ltac:(lia)). lra. }
    pose proof (inb_unravel sh p Hp) as Hi. remember (unravel sh p) as i eqn:Ei.
    assert (Ri : ravel sh i = p) by (rewrite Ei; now apply ravel_unravel).
    pose proof (inb_length _ _ Hi) as Li. destruct i as [|m [|j [|? ?]]]; try discriminate Li.
    assert (Hm : (m < nr)%nat) by (exact (inb_coord sh _ 0 Hi ltac:(cbn; lia))).
    assert (Hj : (j < ny)%nat) by (exact (inb_coord sh _ 1 Hi ltac:(cbn; lia))).
    apply Rlt_le_trans with (En m); [|apply (Ge nr En m Tn Hm)].
    unfold En. eapply Rlt_le_trans; [|apply (Ge 2%nat _ c); [|exact Hc]].
    2:{ intros c' Hc'. apply sumN_nonneg. intros j' Hj'. now apply T. }
    eapply Rlt_le_trans; [|apply (Ge ny _ j); [|exact Hj]].
    2:{ intros j' Hj'. now apply T. }
    cbv beta. unfold unvec. rewrite Ri, <- Hqe. destruct (He q Hq) as (Pe & Ze).
    assert (Pz : 0 < cnrm (x q)) by (pose proof (cnrm_nz _ Nz); unfold cnrm in *; nra).
    unfold cnrm in Pz. cbn. rewrite Ze. nra.
Qed.
Print Assumptions C46_linear_wavenumber_radius.

(** A single TE-like cell row: radii 2, 3, 4 around rmin = 1; the field sits in
    the middle plane. *)
Example C46_example :
  (let e : vect CC := fun q => if Nat.eqb q 1 then c1 else c0 in
   let eps : vect CC := fun _ => mkC 2 0 in let dr : nat -> R := fun _ => 1 in
   (forall q, (q < 2 * prodl [3; 1])%nat -> 0 < cre (eps q) /\ cim (eps q) = 0) /\
   (exists q, (q < 2 * prodl [3; 1])%nat /\ e q <> c0) /\
   linear_wavenumber [3; 1]%nat e (mkC 6 0) eps dr 1 = mkC 2 0) /\
  cv_infty (fun n => INR n).
Proof.
  split.
  - split; [|split].
    + intros q _. cbn. split; [lra|reflexivity].
    + exists 1%nat. split; [cbn; lia|]. cbn. intro H. injection H as H. lra.
    + unfold linear_wavenumber, mode_radius. cbn. apply cpx_ext; cbn; unfold cnrm; cbn; field; lra.
  - intro M. assert (U : exists n, M < INR n).
    { destruct (archimed (Rabs M)) as (A & _). exists (Z.to_nat (up (Rabs M))). pose proof (Rle_abs M). pose proof (Rabs_pos M).
      rewrite INR_IZR_INZ, Z2Nat.id by (apply le_IZR; lra). lra. }
    destruct U as (n & Hn). exists n. intros m Hm. apply Rlt_le_trans with (INR n); [exact Hn|now apply le_INR].
Qed.

(** ** C76: radii on non-uniform grids *)
Section Radii.
  Variable K : CFld.
  Add Field Krad : (fth K).
  Local Open Scope fld_scope.
  Lemma ta_at sh (we wh : widths K) rmin i : inb sh i -> rmin <> 0 -> rmin * fst (dxes2T sh (we, wh) rmin) (ravel sh i) = rmin + sumN (S (coord i 0)) (we 0%nat).
  Proof. intros Hi Hr. unfold dxes2T, flat, cumsum. cbn [fst snd]. rewrite unravel_ravel by exact Hi. field. exact Hr. Qed.
  Lemma tb_at sh (we wh : widths K) rmin i : inb sh i -> rmin <> 0 -> rmin * snd (dxes2T sh (we, wh) rmin) (ravel sh i) = rmin + we 0%nat (coord i 0) / 2 + sumN (S (coord i 0)) (wh 0%nat).
  Proof. intros Hi Hr. unfold dxes2T, flat, cumsum. cbn [fst snd]. rewrite unravel_ravel by exact Hi. field. splits; first [exact Hr|apply f2nz]. Qed.
  Lemma radii_step sh (we wh : widths K) rmin m j : inb sh [S m; j] -> inb sh [m; j] -> rmin <> 0 ->
    rmin * fst (dxes2T sh (we, wh) rmin) (ravel sh [S m; j]) - rmin * fst (dxes2T sh (we, wh) rmin) (ravel sh [m; j]) = we 0%nat (S m).
  Proof. intros H1 H2 Hr. rewrite !ta_at by assumption. cbn [coord nth]. set (k := S m). cbn [sumN]. ring. Qed.
  Lemma radii_half sh (we wh : widths K) rmin m j w : inb sh [m; j] -> rmin <> 0 -> (forall k, (k <= m)%nat -> we 0%nat k = w /\ wh 0%nat k = w) ->
    rmin * snd (dxes2T sh (we, wh) rmin) (ravel sh [m; j]) - rmin * fst (dxes2T sh (we, wh) rmin) (ravel sh [m; j]) = w / 2.
  Proof.
    intros H1 Hr Hu. rewrite ta_at, tb_at by assumption. change (coord [m; j] 0) with m.
    assert (E : sumN (S m) (we 0%nat) = sumN (S m) (wh 0%nat)) by (apply sumN_ext; intros k Hk; destruct (Hu k ltac:(lia)) as (-> & ->); reflexivity).
    rewrite E. destruct (Hu m ltac:(lia)) as (-> & _). ring.
  Qed.
End Radii.

(** On a uniform grid the radii match the grid: neighbouring E_y planes are one
    cell apart and E_x planes lie half a cell further out. *)
Theorem C76_uniform_radii :
  forall (K : CFld) (sh : list nat) (we wh : widths K) (w rmin : K) (m j : nat),
    inb sh [m; j] -> rmin <> f0 -> (forall k, we 0%nat k = w /\ wh 0%nat k = w) ->
    let ra i := fmul rmin (fst (dxes2T sh (we, wh) rmin) (ravel sh i)) in
    let rb i := fmul rmin (snd (dxes2T sh (we, wh) rmin) (ravel sh i)) in
    ra [m; j] = fadd rmin (sumN (S m) (we 0%nat)) /\
    (inb sh [S m; j] -> fsub (ra [S m; j]) (ra [m; j]) = we 0%nat m) /\
    fsub (rb [m; j]) (ra [m; j]) = fdiv (we 0%nat m) (fadd f1 f1).
Proof.
  intros K sh we wh w rmin m j Hi Hr Hu ra rb. splits.
  - now apply ta_at.
  - intro H1. unfold ra. rewrite radii_step by assumption. now rewrite !(proj1 (Hu _)).
  - rewrite (proj1 (Hu m)). apply (radii_half K); try assumption. intros; apply Hu.
Qed.
Print Assumptions C76_uniform_radii.

(** Expected: the distance between neighbouring E_y planes is the cell width
    dx_e[m] that deriv_forward divides by, and the E_x plane lies half a cell
    further out.  Widths 1, 2, 3, ... with dx_h the mean of neighbours. *)
Definition rx_e : widths GQC := fun _ m => gz (1 + Z.of_nat m) 0.
Definition rx_h : widths GQC := fun _ m => match m with O => gz 1 0 | S k => fdiv (fadd (rx_e 0%nat k) (rx_e 0%nat (S k))) (fadd f1 f1) end.
Theorem C76_nonuniform_radii_refuted :
  exists (sh : list nat) (we wh : widths GQC) (rmin : GQC) (m j : nat),
    length sh = 2%nat /\ inb sh [m; j] /\ inb sh [S m; j] /\ rmin <> f0 /\
    (forall k, wh 0%nat (S k) = fdiv (fadd (we 0%nat k) (we 0%nat (S k))) (fadd f1 f1)) /\
    let ra i := fmul rmin (fst (dxes2T sh (we, wh) rmin) (ravel sh i)) in
    let rb i := fmul rmin (snd (dxes2T sh (we, wh) rmin) (ravel sh i)) in
    fsub (ra [S m; j]) (ra [m; j]) = we 0%nat (S m) /\
    fsub (ra [S m; j]) (ra [m; j]) <> we 0%nat m /\
    fsub (rb [m; j]) (ra [m; j]) <> fdiv (we 0%nat m) (fadd f1 f1).
Proof.
  exists [3; 1]%nat, rx_e, rx_h, (gz 1 0), 1%nat, 0%nat.
  split; [reflexivity|]. split; [repeat constructor|]. split; [repeat constructor|]. split; [vm_compute; discriminate|].
  split; [reflexivity|]. cbv zeta. split; [gq_refl|]. split; vm_compute; discriminate.
Qed.
Print Assumptions C76_nonuniform_radii_refuted.

(** ** C77: normalisation of cylindrical modes *)
Lemma cyl_mode_scale (K : CFld) sh (we wh : widths K) ta tb (om beta : K) eps (e h e' h' : field K) f : length sh = 2%nat ->
  (forall m, (m < dim sh 0)%nat -> ta m <> f0) -> (forall m, (m < dim sh 0)%nat -> tb m <> f0) ->
  is_cyl_mode sh ta tb we wh om beta (unvec sh eps) e h ->
  (forall c i, (c < 3)%nat -> inb sh i -> e' c i = fmul (e c i) f) -> (forall c i, (c < 3)%nat -> inb sh i -> h' c i = fmul (h c i) f) ->
  is_cyl_mode sh ta tb we wh om beta (unvec sh eps) e' h'.
Proof.
  intros HL A B M E H. apply (mode_equiv K sh HL we wh ta tb A B). apply (mode_equiv K sh HL we wh ta tb A B) in M.
  pose proof (Field_theory.F_R (fth K)) as RT. refine (mode_scale_gen K sh we wh om beta _ _ _ _ _ _ f HL M _ _); intros c i Hc Hi; unfold lift; rewrite ?(E c i), ?(H c i) by assumption;
    destruct (Nat.eqb c 2); try reflexivity; apply (Ring_theory.Rmul_assoc RT).
Qed.

(** The result of normalized_fields_e has unit power; E and H are the fields of
    exy2e and minus those of exy2h times one non-zero factor. *)
Theorem C77_unit_power_and_common_factor :
  forall sh (e_xy : vect CC) (k om : cpx) dxes rmin eps mu phase e' h',
    cyl_normalized_fields_e sh e_xy k om dxes rmin eps mu phase = Some (e', h') ->
    let e := mv (2 * prodl sh) (cyl_exy2e (K := CC) sh k om dxes rmin eps) e_xy in
    let h := mv (2 * prodl sh) (cyl_exy2h (K := CC) sh k om dxes rmin eps mu) e_xy in
    cre (inner_product (K := CC) sh e' h' dxes phase true) = 1 /\
    exists f : cpx, f <> c0 /\ (forall q, e' q = cmul (e q) f) /\ (forall q, h' q = cmul (copp (h q)) f).
Proof.
  intros sh x k om dxes rmin eps mu phase e' h' H e h. unfold cyl_normalized_fields_e, cyl_normalized_fields in H. fold e h in H. split.
  - now apply C39_unit_power in H.
  - destruct (nf_common_factor_and_sign _ _ _ _ _ _ _ _ H) as ((f & F & E1 & E2) & _). exists f. split; [|split; [exact E1|]].
    + intros ->. unfold cnrm, c0 in F. cbn [cre cim] in F. rewrite !Rmult_0_l, Rplus_0_r, Rmult_0_l in F. lra.
    + intro q. rewrite E2. f_equal. apply cpx_ext; cbn; ring.
Qed.
Print Assumptions C77_unit_power_and_common_factor.

(** So whenever exy2e completes the eigenvector to a mode, in particular on
    grids with a single row, the result is a mode too. *)
Theorem C77_single_row_mode :
  forall sh (we wh : widths CC) (om k rmin : cpx) (eps e_xy : vect CC) phase e' h',
    length sh = 2%nat -> om <> c0 -> k <> c0 -> cyl_nondegenerate (K := CC) sh we wh rmin eps -> dim sh 1 = 1%nat ->
    veq (K := CC) (2 * prodl sh) (mv (2 * prodl sh) (cylindrical_operator (K := CC) sh om (we, wh) eps rmin) e_xy)
      (fun q => cmul (cmul (cdiv k rmin) (cdiv k rmin)) (e_xy q)) ->
    cyl_normalized_fields_e sh e_xy k om (we, wh) rmin eps None phase = Some (e', h') ->
    is_cyl_mode (K := CC) sh (t_int we rmin) (t_half we wh rmin) we wh om (cdiv k rmin) (unvec (K := CC) sh eps) (unvec (K := CC) sh e') (unvec (K := CC) sh h').
Proof.
  intros sh we wh om k rmin eps x phase e' h' HL Hom Hk Nd D1 H R.
  destruct (C45_eigenvector_gives_mode CC sh we wh om k rmin eps x HL Hom Hk Nd H) as (e & Ee & M & _).
  destruct (C77_unit_power_and_common_factor _ _ _ _ _ _ _ _ _ _ _ R) as (_ & f & _ & E1 & E2). cbv zeta in *.
  assert (X : forall c i, (c < 2)%nat -> inb sh i -> unvec (K := CC) sh x c i = unvec (K := CC) sh e c i)
    by (intros c i Hc Hi; symmetry; exact (proj2 (veq_unvec CC sh 2 e x) Ee c i Hc Hi)).
  pose proof (C75_exy2e_single_row CC sh we wh om k rmin eps x _ _ HL Hom Hk Nd D1 M X) as S. cbv zeta in S.
  refine (cyl_mode_scale CC sh we wh _ _ om _ eps _ _ _ _ f HL (cna CC sh we wh rmin eps Nd) (cnb CC sh we wh rmin eps Nd) M _ _);
    intros c i Hc Hi; destruct (S c i Hc Hi) as (S1 & S2).
  - rewrite <- S1. apply E1.
  - rewrite <- S2. apply E2.
Qed.
Print Assumptions C77_single_row_mode.

(** One cell of unit size at radius 2 (E_y) and 5/2 (E_x), rmin = 1: the wave
    e_r = 1 with wavenumber 5 at omega = 2 can be normalized. *)
Section C77Example.
  Let sh := [1; 1]%nat. Let w : widths CC := fun _ _ => c1. Let om := mkC 2 0. Let k := mkC 5 0. Let rmin := c1.
  Let eps : vect CC := fun _ => c1. Let e_xy : vect CC := fun q => if Nat.eqb q 0 then c1 else c0.
  Let ef : field CC := fun c _ => if Nat.eqb c 0 then c1 else c0. Let hf : field CC := fun c _ => if Nat.eqb c 1 then c1 else c0.
  Lemma c77_in i : inb sh i -> i = [0; 0]%nat.
  Proof.
    intro Hi. pose proof (inb_length _ _ Hi) as L. destruct i as [|a [|b [|? ?]]]; try discriminate L.
    pose proof (inb_coord sh _ 0 Hi ltac:(cbn; lia)) as A. pose proof (inb_coord sh _ 1 Hi ltac:(cbn; lia)) as B. cbn in A, B.
    assert (a = 0)%nat by lia. assert (b = 0)%nat by lia. now subst.
  Qed.
  Lemma c77_t : t_int w rmin 0%nat = mkC 2 0 /\ t_half w w rmin 0%nat = mkC (5 / 2) 0.
  Proof. unfold t_int, t_half, w, rmin. split; apply cpx_ext; cbn; unfold cnrm; cbn; field; lra. Qed.
  Lemma c77_nd : cyl_nondegenerate (K := CC) sh w w rmin eps.
  Proof.
    destruct c77_t as (T1 & T2). split; [intro H; injection H; lra|]. split.
    - intros m Hm. assert (m = 0%nat) as -> by (cbn in Hm; lia). rewrite T1, T2. split; intro H; injection H; lra.
    - intros q _ H. injection H. lra.
  Qed.
  Lemma c77_mode : is_cyl_mode (K := CC) sh (t_int w rmin) (t_half w w rmin) w w om (cdiv k rmin) (unvec (K := CC) sh eps) ef hf.
  Proof.
    destruct c77_t as (T1 & T2).
    split; intros i Hi; rewrite (c77_in i Hi); cbv zeta; change (coord [0; 0]%nat 0) with 0%nat; rewrite T1, T2; unfold om, k, rmin, ef, hf;
      splits; apply cpx_ext; cbn; unfold cnrm; cbn; field; lra.
  Qed.
  Example C77_example :
    length sh = 2%nat /\ om <> c0 /\ k <> c0 /\ cyl_nondegenerate (K := CC) sh w w rmin eps /\ dim sh 1 = 1%nat /\
    veq (K := CC) (2 * prodl sh) (mv (2 * prodl sh) (cylindrical_operator (K := CC) sh om (w, w) eps rmin) e_xy)
      (fun q => cmul (cmul (cdiv k rmin) (cdiv k rmin)) (e_xy q)) /\
    cyl_normalized_fields_e sh e_xy k om (w, w) rmin eps None c1 <> None.
  Proof.
    assert (No : om <> c0) by (intro H; injection H; lra). assert (Nk : k <> c0) by (intro H; injection H; lra).
    assert (Ex : forall c i, (c < 2)%nat -> inb sh i -> unvec (K := CC) sh e_xy c i = ef c i).
    { intros c i Hc Hi. rewrite (c77_in i Hi). destruct c as [|[|c]]; [reflexivity|reflexivity|lia]. }
    splits; try reflexivity; try assumption; [exact c77_nd| |].
    - destruct (C45_mode_gives_eigenvector CC sh w w om k rmin eps (fun q => if Nat.eqb q 0 then c1 else c0) hf eq_refl No Nk c77_nd) as (E & _); [|exact E].
      refine (cyl_mode_scale CC sh w w _ _ om _ eps _ _ _ _ c1 eq_refl (cna CC sh w w rmin eps c77_nd) (cnb CC sh w w rmin eps c77_nd) c77_mode _ _);
        intros c i Hc Hi; rewrite ?(c77_in i Hi); destruct c as [|[|[|c]]]; try lia; apply cpx_ext; cbn; ring.
    - unfold cyl_normalized_fields_e, cyl_normalized_fields.
      pose proof (C75_exy2e_single_row CC sh w w om k rmin eps e_xy ef hf eq_refl No Nk c77_nd eq_refl c77_mode Ex) as S. cbv zeta in S.
      set (e := mv _ (cyl_exy2e _ _ _ _ _ _) _) in *. set (h := mv _ (cyl_exy2h _ _ _ _ _ _ _) _) in *.
      assert (I0 : inb sh [0; 0]%nat) by (repeat constructor).
      assert (E : e 0%nat = c1 /\ e 1%nat = c0 /\ e 2%nat = c0).
      { destruct (S 0%nat _ ltac:(lia) I0) as (A & _). destruct (S 1%nat _ ltac:(lia) I0) as (B & _). destruct (S 2%nat _ ltac:(lia) I0) as (C & _).
        splits; [exact A|exact B|exact C]. }
      assert (H : copp (h 0%nat) = c0 /\ copp (h 1%nat) = c1).
      { destruct (S 0%nat _ ltac:(lia) I0) as (_ & A). destruct (S 1%nat _ ltac:(lia) I0) as (_ & B). split; [exact A|exact B]. }
      clearbody e h. clear S. destruct E as (E0 & E1 & E2). destruct H as (H0 & H1).
      assert (K0 : h 0%nat = c0) by (apply (f_equal copp) in H0; rewrite <- (cpx_ext (copp (copp (h 0%nat))) (h 0%nat)); [rewrite H0; apply cpx_ext; cbn; lra|cbn; lra|cbn; lra]).
      assert (K1 : h 1%nat = mkC (-1) 0) by (apply (f_equal copp) in H1; rewrite <- (cpx_ext (copp (copp (h 1%nat))) (h 1%nat)); [rewrite H1; apply cpx_ext; cbn; lra|cbn; lra|cbn; lra]).
      intro N. apply nf_raises in N. destruct N as [N|(m & Hm & M1 & M2)].
      + unfold power, inner_product, unvec in N. cbn in N. rewrite K0, K1, E0, E1 in N. cbn in N. unfold cnrm in N. cbn in N. lra.
      + assert (m = 0%nat) as ->.
        { specialize (M1 0%nat ltac:(cbn; lia)). unfold energy, eps in M1. cbn in Hm. destruct m as [|[|[|m]]]; [reflexivity| | |lia];
            rewrite E0, ?E1, ?E2 in M1; cbn in M1; lra. }
        rewrite E0 in M2. pose proof (unphase_self c1) as U. destruct (unphase c1) as [a b].
        unfold cabs, cnrm in U. cbn [cre cim c1] in U. replace (1 * 1 + 0 * 0) with (1 * 1) in U by ring.
        rewrite sqrt_square in U by lra. injection U as U1 U2. assert (A1 : a = 1) by lra. assert (B1 : b = 0) by lra. subst a b.
        unfold quadrant_sum, energy, unvec, eps in M2. cbn in M2. rewrite E0, E1, E2 in M2. cbn in M2. lra.
  Qed.
End C77Example.
