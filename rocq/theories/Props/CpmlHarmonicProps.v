(** CPML layers in the steady state (C122 - C125). *)
From Coq Require Import Reals List Arith ZArith Lia Lra Field QArith Qcanon.
From Verif.Lib Require Import Num Sums Idx Mat RealF Cexp.
From Verif.Model Require Import Fdmath Fdtd Fdfd Pml FdtdReal Scpml.
From Verif.Spec Require Import Yee Grid FdtdRun FdfdSpec HarmonicSpec DispersionSpec CpmlSpec CpmlHarmonicSpec AbsorbSpec PulseSpec.
From Verif.Proofs Require Import FdmathP FdtdP2 FdfdP FdtdRealP HarmonicP PmlP CpmlHarmP CpmlHarmP2 CpmlRealP CfsLimitP AbsorbP.
From Verif.Props Require Import FdfdProps ScpmlProps FdtdRealProps.
Import ListNotations.
Local Open Scope fld_scope.

(** ** C122: harmonic runs with CPML layers are frequency-domain solutions on a stretched grid *)
(** Amplitudes solve the fdfd equations on the widths [effective ... w] exactly when some
    memory makes them a run of the CPML updates in which fields and memories all grow by
    z^2 per step. *)
Theorem C122_cpml_iff_stretched :
  forall (K : CFld) (sh : list nat) (Ls : nat -> nat -> option (layer K)) (dt om z : K) (w : widths K) (eps mu E H J : field K),
    length sh = 3%nat -> dt <> 0 -> z <> 0 -> nzw sh w -> nzm sh eps -> nzm sh mu ->
    im * om * dt = z - 1 / z ->
    regular sh Ls lp0e lp1e lp2e (z * z) -> regular sh Ls lp0h lp1h lp2h (z * z) ->
    let d := (effective sh Ls lp0h lp1h lp2h (z * z) w, effective sh Ls lp0e lp1e lp2e (z * z) w) in
    (feq sh (fst (eh_full_f sh om d eps (Some mu) E H)) J /\ feq sh (snd (eh_full_f sh om d eps (Some mu) E H)) noj)
    <->
    exists PE PH : psis K,
      let st := mkps E (fun c i => 1 / z * H c i) PE PH in
      forall N, peq sh Ls (cpml_run sh Ls dt w eps mu (map (injected dt z J) (seq 0 N)) st) (times (zpow z (2 * N)) st).
Proof.
  intros K sh Ls dt om z w eps mu E H J HL Hdt Hz Hw He Hm Ho RE RH d. split.
  - intros [A B]. exact (to_run K sh Ls dt om z w eps mu E H J HL Hz Hw He Hm Ho RE RH A B).
  - intros [PE [PH R]]. apply (from_run K sh Ls dt om z w eps mu E H J HL Hz Hw He Hm Ho RE RH PE PH Hdt (R 1%nat)).
Qed.
Print Assumptions C122_cpml_iff_stretched.

(** From empty memory: under a derivative growing by [Z] per call, the stretched derivative
    differs from the steady one by terms shrinking like the powers of the decay factors. *)
Theorem C122_transient :
  forall (K : Fld) (sh : list nat) (Ls : nat -> nat -> option (layer K)) (p0 p1 p2 : layer K -> nat -> K) (Z d : K) (a : nat) (idx : list nat),
    (a < 3)%nat -> Z <> 0 ->
    let q pp := match coef sh Ls p0 a pp (coord idx a) with Some x => x | None => 0 end in
    (forall pp x, (pp < 2)%nat -> coef sh Ls p0 a pp (coord idx a) = Some x -> Z - x <> 0) ->
    exists A B : K, forall N,
      stretched sh Ls p0 p1 p2 a idx (map (fun n => fpow Z n * d) (seq 0 (S N)))
      = gain sh Ls p0 p1 p2 Z a (coord idx a) * (fpow Z N * d) - A * fpow (q 0%nat) N - B * fpow (q 1%nat) N.
Proof.
  intros K sh Ls p0 p1 p2 Z d a idx Ha Hz q R.
  exists (rest K sh Ls p0 p1 p2 Z a 0 (coord idx a) * d), (rest K sh Ls p0 p1 p2 Z a 1 (coord idx a) * d). intro N.
  rewrite stretched_geom by assumption. unfold q, decay. f_equal. f_equal.
  rewrite !(F_R (fth K)).(Rmul_assoc). f_equal. apply (F_R (fth K)).(Rmul_comm).
Qed.
Print Assumptions C122_transient.

(** A layer at the low end of axis 0 of a 3x1x1 grid, z = (3 + 4i)/5. *)
Definition ch_L : layer GQC := mkLayer (K := GQC) 2 (fun i => gq 1 (Pos.of_nat (2 + i)) 0 1) (fun _ => gq (-1) 4 0 1) (fun _ => gq 1 3 0 1)
                                        (fun _ => gq 1 5 0 1) (fun i => gq (-1) (Pos.of_nat (3 + i)) 0 1) (fun _ => gq 1 2 0 1).
Definition ch_Ls : nat -> nat -> option (layer GQC) := fun a pp => if (Nat.eqb a 0 && Nat.eqb pp 0)%bool then Some ch_L else None.
Definition ch_z : GQC := gq 3 5 4 5.
Definition ch_sh : list nat := [3; 1; 1]%nat.
Ltac gnz := let X := fresh in intro X; apply (f_equal (fun x => (Qeq_bool (this (gre x)) 0 && Qeq_bool (this (gim x)) 0)%bool)) in X; vm_compute in X; discriminate.
Example C122_example :
  regular ch_sh ch_Ls lp0e lp1e lp2e (ch_z * ch_z) /\ regular ch_sh ch_Ls lp0h lp1h lp2h (ch_z * ch_z)
  /\ gain ch_sh ch_Ls lp0e lp1e lp2e (ch_z * ch_z) 0 0 <> 1
  /\ gain ch_sh ch_Ls lp0e lp1e lp2e (ch_z * ch_z) 0 2 = 1.
Proof.
  split; [|split; [|split]].
  - intros a i Ha Hi. split.
    + destruct a as [|[|[|a]]]; [| | |lia]; cbn in Hi; [destruct i as [|[|[|i]]]|destruct i|destruct i]; try lia; gnz.
    + intros pp q Hp. destruct a as [|[|[|a]]]; [| | |lia]; cbn in Hi; (destruct pp as [|[|pp]]; [| |lia]); try discriminate.
      destruct i as [|[|[|i]]]; try lia; try discriminate; (intro X; injection X as <-; gnz).
  - intros a i Ha Hi. split.
    + destruct a as [|[|[|a]]]; [| | |lia]; cbn in Hi; [destruct i as [|[|[|i]]]|destruct i|destruct i]; try lia; gnz.
    + intros pp q Hp. destruct a as [|[|[|a]]]; [| | |lia]; cbn in Hi; (destruct pp as [|[|pp]]; [| |lia]); try discriminate.
      destruct i as [|[|[|i]]]; try lia; try discriminate; (intro X; injection X as <-; gnz).
  - intro X. apply (f_equal (fun x => Qeq_bool (this (gim x)) 0)) in X. vm_compute in X. discriminate.
  - gq_refl.
Qed.

(** ** C123: that stretch is passive *)
Local Open Scope R_scope.
(** Layers from [cpml_params], at every frequency the time step resolves (phase per step
    strictly between 0 and pi): the stretch is well defined, has a positive real part and a
    negative imaginary part inside the layers, and is 1 outside. *)
Theorem C123_passive :
  forall (sh : list nat) (Lr : nat -> nat -> option (layer RF)) (dt theta : R),
    0 < dt -> 0 < theta < PI -> fitted sh dt Lr ->
    let Ls := fun a pp => option_map clayer (Lr a pp) in
    let Z : CC := cexp (mkC 0 theta) in
    regular sh Ls lp0e lp1e lp2e Z /\ regular sh Ls lp0h lp1h lp2h Z /\
    forall (w : widths RF) (a i : nat), (a < 3)%nat -> (i < dim sh a)%nat ->
      let in_layer := exists pp L, (pp < 2)%nat /\ Lr a pp = Some L /\ covers (dim sh a) pp (lth L) i in
      forall W : widths CC, W = effective sh Ls lp0e lp1e lp2e Z (cw w) \/ W = effective sh Ls lp0h lp1h lp2h Z (cw w) ->
      exists s : cpx, W a i = cmul (mkC (w a i) 0) s /\ 0 < cre s /\ (in_layer -> cim s < 0) /\ (~ in_layer -> s = c1).
Proof.
  intros sh Lr dt th Hd Hth Fit Ls Z.
  assert (Re : forall a pp L i, made_for dt a pp L -> (i < lth L)%nat ->
    (0 < (lp0e L i : R) < 1) /\ (-1 <= (lp1e L i : R) < 0) /\ (lp0e L i : R) - lp1e L i <= 1 /\ 0 < (lp2e L i : R)).
  { intros a pp L i M Hi. exact (proj1 (proj2 (made_ranges dt a pp L i Hd M Hi))). }
  assert (Rh : forall a pp L i, made_for dt a pp L -> (i < lth L)%nat ->
    (0 < (lp0h L i : R) < 1) /\ (-1 <= (lp1h L i : R) < 0) /\ (lp0h L i : R) - lp1h L i <= 1 /\ 0 < (lp2h L i : R)).
  { intros a pp L i M Hi. exact (proj2 (proj2 (made_ranges dt a pp L i Hd M Hi))). }
  split; [|split].
  - exact (regular_fit sh Lr dt th Hth Fit lp0e lp1e lp2e lp0e lp1e lp2e (fun _ _ => eq_refl) (fun _ _ => eq_refl) (fun _ _ => eq_refl) Re).
  - exact (regular_fit sh Lr dt th Hth Fit lp0h lp1h lp2h lp0h lp1h lp2h (fun _ _ => eq_refl) (fun _ _ => eq_refl) (fun _ _ => eq_refl) Rh).
  - intros w a i Ha Hi in_layer W HW.
    assert (No : ~ in_layer -> forall pp L, (pp < 2)%nat -> Lr a pp = Some L -> ~ covers (dim sh a) pp (lth L) i).
    { intros N pp L Hp E C. apply N. exists pp, L. tauto. }
    destruct HW as [-> | ->].
    + destruct (eff_value sh Lr dt th Hth Fit lp0e lp1e lp2e lp0e lp1e lp2e (fun _ _ => eq_refl) (fun _ _ => eq_refl) (fun _ _ => eq_refl) Re w a i Ha Hi)
        as [s [S1 [S2 [S3 S4]]]]. exists s. repeat split; try assumption. intro N. apply S4, No, N.
    + destruct (eff_value sh Lr dt th Hth Fit lp0h lp1h lp2h lp0h lp1h lp2h (fun _ _ => eq_refl) (fun _ _ => eq_refl) (fun _ _ => eq_refl) Rh w a i Ha Hi)
        as [s [S1 [S2 [S3 S4]]]]. exists s. repeat split; try assumption. intro N. apply S4, No, N.
Qed.
Print Assumptions C123_passive.

(** So C122 applies to all such layers at every resolved real frequency, with
    om = 2 sin(theta/2) / dt in the frequency-domain equations. *)
Theorem C123_harmonic :
  forall (sh : list nat) (Lr : nat -> nat -> option (layer RF)) (dt theta : R) (w : widths RF) (eps mu : field RF) (E H J : field CC),
    length sh = 3%nat -> 0 < dt -> 0 < theta < PI -> fitted sh dt Lr ->
    nzw sh w -> nzm sh eps -> nzm sh mu ->
    let Ls := fun a pp => option_map clayer (Lr a pp) in
    let z : CC := cexp (mkC 0 (theta / 2)) in
    let Z : CC := cexp (mkC 0 theta) in
    let cf (f : field RF) : field CC := fun c i => mkC (f c i) 0 in
    let om : CC := mkC (2 * sin (theta / 2) / dt) 0 in
    let d := (effective sh Ls lp0h lp1h lp2h Z (cw w), effective sh Ls lp0e lp1e lp2e Z (cw w)) in
    (feq sh (fst (eh_full_f (K := CC) sh om d (cf eps) (Some (cf mu)) E H)) J /\ feq sh (snd (eh_full_f (K := CC) sh om d (cf eps) (Some (cf mu)) E H)) noj)
    <->
    exists PE PH : psis CC,
      let st := mkps (K := CC) E (fun c i => cmul (cdiv c1 z) (H c i)) PE PH in
      forall N, peq sh Ls (cpml_run sh Ls (mkC dt 0 : CC) (cw w) (cf eps) (cf mu) (map (injected (K := CC) (mkC dt 0) z J) (seq 0 N)) st) (times (zpow z (2 * N)) st).
Proof.
  intros sh Lr dt th w eps mu E H J HL Hd Hth Fit Hw He Hm Ls z Z cf om d.
  destruct (C123_passive sh Lr dt th Hd Hth Fit) as [RE [RH _]]. fold Ls Z in RE, RH.
  assert (NZ : forall x : R, x <> 0 -> (mkC x 0 : CC) <> f0) by (intros x Hx X; apply Hx; exact (f_equal cre X)).
  assert (ZZ : fmul (f := CC) z z = Z). { unfold z, Z. change (cmul (cexp (mkC 0 (th / 2))) (cexp (mkC 0 (th / 2))) = cexp (mkC 0 th)). rewrite <- cexp_add. f_equal. apply cpx_ext; cbn; lra. }
  unfold d. rewrite <- ZZ. rewrite <- ZZ in RE, RH.
  refine (C122_cpml_iff_stretched CC sh Ls (mkC dt 0) om z (cw w) (cf eps) (cf mu) E H J HL _ _ _ _ _ _ RE RH).
  - apply NZ. lra.
  - apply cexp_nz.
  - intros a i Ha Hi. apply NZ. exact (Hw a i Ha Hi).
  - intros c i Hc Hi. apply NZ. exact (He c i Hc Hi).
  - intros c i Hc Hi. apply NZ. exact (Hm c i Hc Hi).
  - change (cmul (cmul ci om) (mkC dt 0) = csub z (cdiv c1 z)).
    assert (I : cdiv c1 z = cexp (mkC 0 (- (th / 2)))).
    { assert (P : cmul z (cexp (mkC 0 (- (th / 2)))) = c1).
      { unfold z. rewrite <- cexp_add. replace (cadd (mkC 0 (th / 2)) (mkC 0 (- (th / 2)))) with c0 by (apply cpx_ext; cbn; lra). apply cexp_0. }
      set (y := cexp (mkC 0 (- (th / 2)))) in *.
      transitivity (cmul (cmul (cinv z) z) y); [|rewrite (Finv_l cpx_th z (cexp_nz (mkC 0 (th / 2)))); apply cpx_ext; cbn; ring].
      transitivity (cmul (cinv z) (cmul z y)); [rewrite P; unfold cdiv; set (x := cinv z); apply cpx_ext; cbn; ring|].
      set (x := cinv z). apply cpx_ext; cbn; ring. }
    rewrite I. unfold z, om, cexp, csub, cmul, ci, cadd, copp. cbn [cre cim]. rewrite exp_0, sin_neg, cos_neg. apply cpx_ext; cbn; field; lra.
Qed.
Print Assumptions C123_harmonic.

(** The SCPML of fdfd has the same signs: widths 1 - i |...| in the layers. *)
Theorem C123_scpml_same_sign :
  forall (shape th : nat -> nat) (om eps ln_R m : R) (a i : nat),
    0 < om -> 0 < eps -> ln_R < 0 -> 0 < m -> (0 < th a)%nat -> (2 * th a <= shape a)%nat -> (i < shape a)%nat ->
    let d := uniform_grid_scpml shape th om eps (prepare_s_function ln_R m) in
    cre (fst d a i) = 1 /\ cre (snd d a i) = 1
    /\ ((i < th a)%nat \/ (shape a - th a < i)%nat -> cim (fst d a i) < 0)
    /\ ((i < th a)%nat \/ (shape a - th a <= i)%nat -> cim (snd d a i) < 0).
Proof.
  intros shape th om eps ln_R m a i Ho He HR Hm Ht H2 Hi d.
  destruct (C32_widths shape th om eps (prepare_s_function ln_R m) a i Hi H2) as [_ [Lo [Hg _]]].
  destruct (C32_shape shape th om eps (prepare_s_function ln_R m) a) as [Re _]. destruct (Re i) as [R1 R2].
  split; [exact R1|]. split; [exact R2|].
  assert (T : 0 < INR (th a)) by now apply lt_0_INR.
  assert (C : 0 < sqrt eps * om) by (apply Rmult_lt_0_compat; [now apply sqrt_lt_R0|exact Ho]).
  assert (N : forall x, 0 < x -> prepare_s_function ln_R m x / (sqrt eps * om) < 0).
  { intros x Hx. unfold prepare_s_function. pose proof (rpow_pos x m Hx) as P.
    assert (Q : 0 < rpow x m * (- ln_R) * (m + 1) * / 2 * / (sqrt eps * om)).
    { repeat apply Rmult_lt_0_compat; try lra. now apply Rinv_0_lt_compat. }
    unfold Rdiv. lra. }
  assert (Le : forall p q, (p < q)%nat -> INR p + 1 <= INR q) by (intros p q Hpq; rewrite <- S_INR; now apply le_INR).
  assert (Sub : INR (shape a - th a) = INR (shape a) - INR (th a)) by (apply minus_INR; lia).
  split; intros [X|X].
  - unfold d. rewrite (proj1 (Lo X)). cbn [cim]. apply N. pose proof (Le _ _ X). apply Rmult_lt_0_compat; [lra|now apply Rinv_0_lt_compat].
  - unfold d. rewrite (proj1 (Hg Ht ltac:(lia))). cbn [cim]. apply N. pose proof (Le _ _ X). apply Rmult_lt_0_compat; [lra|now apply Rinv_0_lt_compat].
  - unfold d. rewrite (proj2 (Lo X)). cbn [cim]. apply N. pose proof (Le _ _ X). apply Rmult_lt_0_compat; [lra|now apply Rinv_0_lt_compat].
  - unfold d. rewrite (proj2 (Hg Ht X)). cbn [cim]. apply N. pose proof (le_INR _ _ X). apply Rmult_lt_0_compat; [lra|now apply Rinv_0_lt_compat].
Qed.
Print Assumptions C123_scpml_same_sign.

(** Two layers of eight cells on an axis of twenty. *)
Example C123_example : exists Lr, fitted [20; 20; 20]%nat (/ 2) Lr /\ (exists L, Lr 1%nat 0%nat = Some L /\ lth L = 8%nat) /\ exists L, Lr 1%nat 1%nat = Some L /\ lth L = 8%nat.
Proof.
  assert (A : forall pol : Z, (pol = -1 \/ pol = 1)%Z -> exists L : layer RF,
     cpml_params 1 pol (/ 2) 8 (-16) 1 1 (7/2) 1 0 = Ok (1%nat, (if Z.ltb pol 0 then 0 else 1)%nat, L) /\ lth L = 8%nat).
  { intros pol Hp. unfold cpml_params. cbn [Z.leb Z.ltb Z.compare andb negb].
    destruct Hp as [-> | ->]; cbn [Z.eqb orb Pos.eqb negb Z.compare Pos.compare Pos.compare_cont]; (destruct (Rle_dec 1 0); [lra|]); eexists; split; reflexivity. }
  destruct (A (-1)%Z (or_introl eq_refl)) as [L0 [E0 T0]]. destruct (A 1%Z (or_intror eq_refl)) as [L1 [E1 T1]]. cbn [Z.ltb Z.compare] in E0, E1.
  exists (fun a pp => match a, pp with 1%nat, 0%nat => Some L0 | 1%nat, 1%nat => Some L1 | _, _ => None end).
  split; [split; [|split]|split; [exists L0|exists L1]; split; trivial].
  - intros a pp L X. destruct a as [|[|a]]; try discriminate X. destruct pp as [|[|pp]]; try discriminate X; injection X as <-.
    + exists 1%Z, (-1)%Z, 8%Z, (-16), 1, 1, (7/2), 1, 0. split; [repeat split; lra|exact E0].
    + exists 1%Z, 1%Z, 8%Z, (-16), 1, 1, (7/2), 1, 0. split; [repeat split; lra|exact E1].
  - intros a K0 K1 X Y. destruct a as [|[|a]]; try discriminate X. injection X as <-. injection Y as <-. rewrite T0, T1. cbn. lia.
  - intros a pp L X. destruct a as [|[|a]]; try discriminate X. destruct pp as [|[|pp]]; try discriminate X; injection X as <-; rewrite ?T0, ?T1; cbn; lia.
Qed.

(** ** C124: waves decay the way they travel *)
(** A linearly polarised wave with the factor [r] per cell along an axis, on cells whose
    widths are stretched by [s] with positive real and negative imaginary part, uniform
    lossless medium, real frequency: if it satisfies e_full at a cell away from the ends of
    the grid, then it decays or grows, and it decays upwards ([|r| < 1]) exactly when its
    phase falls upwards ([Im r < 0]), that is, when it travels upwards in time exp(i om t). *)
Theorem C124_decays_forward :
  forall (sh : list nat) (om eps mu w : R) (s r : cpx) (we wh : widths CC) (a c : nat) (idx : list nat),
    length sh = 3%nat -> (a < 3)%nat -> (c < 3)%nat -> a <> c -> inb sh idx ->
    (0 < coord idx a)%nat -> (S (coord idx a) < dim sh a)%nat ->
    0 < om -> 0 < eps -> 0 < mu -> 0 < w -> 0 < cre s -> cim s < 0 -> r <> c0 ->
    (forall i, (coord idx a - 1 <= i <= coord idx a)%nat -> we a i = cmul (mkC w 0) s /\ wh a i = cmul (mkC w 0) s) ->
    unvec sh (mv (K := CC) (3 * prodl sh) (e_full_mat (K := CC) sh (mkC om 0) (we, wh) (vec sh (unim (K := CC) (mkC eps 0))) (Some (vec sh (unim (K := CC) (mkC mu 0)))) None None)
             (vec sh (along_axis (K := CC) a c r))) c idx = c0 ->
    cnrm r <> 1 /\ (cnrm r < 1 <-> cim r < 0).
Proof.
  intros sh om eps mu w s r we wh a c idx HL Ha Hc Hac Hi Hlo Hhi Hom He Hm Hw Hs1 Hs2 Hr W E.
  unfold unvec in E.
  pose proof (e_full_wave CC sh (mkC om 0) (we, wh) (unim (K := CC) (mkC eps 0)) (Some (unim (K := CC) (mkC mu 0))) (along_axis (K := CC) a c r) c (ravel sh idx) HL Hc (ravel_lt sh idx Hi)) as Q.
  cbn [option_map fst snd] in Q. rewrite unravel_ravel in Q by exact Hi.
  pose proof (eq_trans (eq_sym Q) E) as E'. clear Q E.
  set (WW := cmul (mkC w 0) s) in *.
  assert (Mn : (mkC mu 0 : CC) <> f0) by (intro X; apply (f_equal cre) in X; cbn in X; lra).
  assert (Wn : (WW : CC) <> f0) by (intro X; apply (f_equal cim) in X; cbn in X; assert (w * cim s < 0) by nra; lra).
  destruct (W (coord idx a) ltac:(lia)) as [W1 W3]. destruct (W (coord idx a - 1)%nat ltac:(lia)) as [W2 _].
  apply (line_root CC sh (mkC om 0) (mkC eps 0) (mkC mu 0) r WW we wh a c idx HL Ha Hc Hac Hi Hlo Hhi Mn Wn Hr W1 W2 W3) in E'.
  change (cadd r (cdiv c1 r) = csub (cadd c1 c1) (cmul (cmul (cmul (cmul (mkC om 0) (mkC om 0)) (mkC eps 0)) (mkC mu 0)) (cmul WW WW))) in E'.
  apply (root_side r (2 * (om * om * eps * mu) * (w * w) * (cre s * - cim s)) Hr).
  - repeat apply Rmult_lt_0_compat; lra.
  - rewrite E'. unfold WW, csub, cadd, cmul, c1. cbn [cre cim]. ring.
Qed.
Print Assumptions C124_decays_forward.

(** There are such waves for every stretch. *)
Example C124_example : forall (om eps mu w : R) (s : cpx), exists r : cpx, r <> c0
  /\ cadd r (cdiv c1 r) = csub (cadd c1 c1) (cmul (cmul (cmul (cmul (mkC om 0) (mkC om 0)) (mkC eps 0)) (mkC mu 0)) (cmul (cmul (mkC w 0) s) (cmul (mkC w 0) s))).
Proof.
  intros om eps mu w s. set (b := csub (cadd c1 c1) _).
  set (hb := cmul (mkC (/ 2) 0) b). set (q := csqrt (csub (cmul hb hb) c1)).
  assert (Q : cmul q q = csub (cmul hb hb) c1) by apply csqrt_sq.
  assert (Hr : cmul (cadd hb q) (csub hb q) = c1).
  { transitivity (csub (cmul hb hb) (cmul q q)); [apply cpx_ext; cbn; ring|]. rewrite Q. apply cpx_ext; cbn; ring. }
  exists (cadd hb q).
  assert (N : cadd hb q <> c0). { intro X. rewrite X in Hr. apply (f_equal cre) in Hr. cbn in Hr. lra. }
  split; [exact N|].
  assert (I : cdiv c1 (cadd hb q) = csub hb q).
  { transitivity (cmul (cmul (cinv (cadd hb q)) (cadd hb q)) (csub hb q)).
    - transitivity (cmul (cinv (cadd hb q)) (cmul (cadd hb q) (csub hb q))); [rewrite Hr; unfold cdiv; apply cpx_ext; cbn; ring|].
      set (y := cinv _). apply cpx_ext; cbn; ring.
    - rewrite (Finv_l cpx_th _ N). apply cpx_ext; cbn; ring. }
  rewrite I. transitivity (cadd hb hb); [apply cpx_ext; cbn; ring|]. unfold hb. apply cpx_ext; cbn [cadd cmul cre cim]; field.
Qed.

(** ** C125: the stretch for a vanishing time step *)
(** As dt -> 0 the stretch of every cell of a layer tends to kappa + sigma / (alpha + i omega). *)
Theorem C125_cfs_limit :
  forall (axis polarity thickness : Z) (ln_R epsilon_eff mu_eff m ma cfs_alpha omega eta : R),
    ln_R < 0 -> 1 <= epsilon_eff * mu_eff -> 0 <= m -> 0 <= ma -> 0 <= cfs_alpha -> 0 < omega -> 0 < eta ->
    exists delta, 0 < delta /\ forall (dt : R) (a pp : nat) (L : layer RF), 0 < dt < delta ->
      cpml_params axis polarity dt thickness ln_R epsilon_eff mu_eff m ma cfs_alpha = Ok (a, pp, L) ->
      let t := INR (lth L) in
      let sigma x := power (x / t) m * (- ln_R / 2 * (m + 1)) in
      let kappa x := 1 + power (x / t) m * (sqrt (epsilon_eff * mu_eff) - 1) in
      let alpha x := power (1 - x / t) ma * cfs_alpha in
      let cfs x := cadd (mkC (kappa x) 0) (cdiv (mkC (sigma x) 0) (mkC (alpha x) omega)) in
      forall i, (i < lth L)%nat ->
        let xe := if Z.ltb 0 polarity then INR i + 1/2 else t - INR i in
        let xh := if Z.ltb 0 polarity then INR i + 1 else t - INR i - 1/2 in
        near eta (cdiv c1 (one_gain (lp0e L i) (lp1e L i) (lp2e L i) (omega * dt))) (cfs xe)
        /\ near eta (cdiv c1 (one_gain (lp0h L i) (lp1h L i) (lp2h L i) (omega * dt))) (cfs xh).
Proof.
  intros axis pol thick lnR ee me m ma ca om eta HR Hk Hm Hma Ha Hom He.
  set (t := Z.to_nat thick).
  destruct (Nat.lt_decidable 0 t) as [Ht|Ht].
  2:{ exists 1. split; [lra|]. intros dt a pp L _ E. exfalso. unfold cpml_params in E.
      destruct (negb _); [discriminate E|]. destruct (negb _); [discriminate E|]. destruct (Z.leb_spec thick 2); [discriminate E|]. unfold t in Ht. lia. }
  assert (P : forall x, 0 < x <= INR t -> exists d, 0 < d /\ forall dt, 0 < dt < d ->
    near eta (cdiv c1 (one_gain (cp_p0 dt lnR ee me m ma ca t x) (cp_p1 dt lnR ee me m ma ca t x) (cp_p2 ee me m t x) (om * dt)))
             (tgt (cp_sigma lnR m t x) (cp_kappa ee me m t x) (cp_alpha ma ca t x) om)).
  { intros x Hx. apply cfs_point; [now apply sg_pos|now apply kp_ge1|now apply al_nonneg|exact Hom|exact He]. }
  destruct (Z.eq_dec pol (-1)) as [Hp|Hp]; [|destruct (Z.eq_dec pol 1) as [Hp1|Hp1]].
  3:{ exists 1. split; [lra|]. intros dt a pp L _ E. exfalso. unfold cpml_params in E.
      destruct (negb _); [discriminate E|]. destruct (Z.eqb_spec pol (-1)), (Z.eqb_spec pol 1); cbn [orb negb] in E; try discriminate E; lia. }
  all: assert (Hpp : (pol = -1 \/ pol = 1)%Z) by lia.
  all: destruct (finite_delta (fun i dt =>
      near eta (cdiv c1 (one_gain (cp_p0 dt lnR ee me m ma ca t (cp_xe pol t i)) (cp_p1 dt lnR ee me m ma ca t (cp_xe pol t i)) (cp_p2 ee me m t (cp_xe pol t i)) (om * dt)))
             (tgt (cp_sigma lnR m t (cp_xe pol t i)) (cp_kappa ee me m t (cp_xe pol t i)) (cp_alpha ma ca t (cp_xe pol t i)) om)) t) as [d1 [D1 Q1]];
    [intros i Hi; apply P; exact (proj1 (xe_range pol t i Hpp Hi))|].
  all: destruct (finite_delta (fun i dt =>
      near eta (cdiv c1 (one_gain (cp_p0 dt lnR ee me m ma ca t (cp_xh pol t i)) (cp_p1 dt lnR ee me m ma ca t (cp_xh pol t i)) (cp_p2 ee me m t (cp_xh pol t i)) (om * dt)))
             (tgt (cp_sigma lnR m t (cp_xh pol t i)) (cp_kappa ee me m t (cp_xh pol t i)) (cp_alpha ma ca t (cp_xh pol t i)) om)) t) as [d2 [D2 Q2]];
    [intros i Hi; apply P; exact (proj2 (xe_range pol t i Hpp Hi))|].
  all: exists (Rmin d1 d2); split; [now apply Rmin_pos|].
  all: intros dt a pp L [B1 B2] E T sigma kappa alpha cfs i Hi xe xh.
  all: assert (Lt : lth L = t) by (unfold cpml_params in E; destruct (negb _); [discriminate E|]; destruct (negb _); [discriminate E|];
        destruct (Z.leb_spec thick 2); [discriminate E|]; destruct (Rle_dec ee 0); [discriminate E|]; injection E as _ _ <-; reflexivity).
  all: assert (Xe : cp_xe pol t i = xe) by (unfold cp_xe, xe, T; rewrite <- Lt; destruct (Z.ltb 0 pol); [rewrite plus_INR; cbn; lra|now rewrite minus_INR by lia]).
  all: assert (Xh : cp_xh pol t i = xh) by (unfold cp_xh, xh, T; rewrite <- Lt; destruct (Z.ltb 0 pol); [rewrite plus_INR; cbn; lra|now rewrite minus_INR by lia]).
  all: pose proof (Rmin_l d1 d2); pose proof (Rmin_r d1 d2); rewrite Lt in Hi.
  all: specialize (Q1 dt ltac:(lra) i Hi); specialize (Q2 dt ltac:(lra) i Hi); rewrite Xe in Q1; rewrite Xh in Q2.
  all: assert (Tt : T = INR t) by (unfold T; now rewrite Lt).
  all: assert (Ce : forall x, tgt (cp_sigma lnR m t x) (cp_kappa ee me m t x) (cp_alpha ma ca t x) om = cfs x) by (intro x; unfold cfs, sigma, kappa, alpha; rewrite Tt; reflexivity).
  all: rewrite Ce in Q1, Q2.
  all: destruct (C20_profile axis pol dt thick lnR ee me m ma ca a pp L E i ltac:(rewrite Lt; exact Hi)) as (F1 & F2 & F3 & F4 & F5 & F6).
  all: fold T xe xh in F1, F2, F3, F4, F5, F6.
  all: rewrite F1, F2, F3, F4, F5, F6.
  all: rewrite Tt; split; [exact Q1|exact Q2].
Qed.
Print Assumptions C125_cfs_limit.

(** The widths of C122 in a layer are the given ones over that gain. *)
Theorem C125_effective :
  forall (sh : list nat) (Lr : nat -> nat -> option (layer RF)) (dt theta : R) (w : widths RF) (a pp i : nat) (L : layer RF),
    0 < dt -> fitted sh dt Lr -> (a < 3)%nat -> (pp < 2)%nat -> (i < dim sh a)%nat -> Lr a pp = Some L -> covers (dim sh a) pp (lth L) i ->
    let Ls := fun a pp => option_map clayer (Lr a pp) in
    let Z : CC := cexp (mkC 0 theta) in
    let j := if Nat.eqb pp 0 then i else (i - (dim sh a - lth L))%nat in
    effective sh Ls lp0e lp1e lp2e Z (cw w) a i = cdiv (mkC (w a i) 0) (one_gain (lp0e L j) (lp1e L j) (lp2e L j) theta)
    /\ effective sh Ls lp0h lp1h lp2h Z (cw w) a i = cdiv (mkC (w a i) 0) (one_gain (lp0h L j) (lp1h L j) (lp2h L j) theta).
Proof.
  intros sh Lr dt th w a pp i L Hd Fit Ha Hp Hi E C Ls Z j.
  assert (Jd : j = depth sh a pp (lth L) [i; i; i]).
  { unfold j, depth. destruct a as [|[|[|a]]]; [| | |lia]; destruct pp as [|[|pp]]; try lia; reflexivity. }
  assert (Re : forall a pp (L : layer RF) i, made_for dt a pp L -> (i < lth L)%nat ->
    (0 < (lp0e L i : R) < 1) /\ (-1 <= (lp1e L i : R) < 0) /\ (lp0e L i : R) - lp1e L i <= 1 /\ 0 < (lp2e L i : R)).
  { intros a' pp' L' i' M Hi'. exact (proj1 (proj2 (made_ranges dt a' pp' L' i' Hd M Hi'))). }
  assert (Rh : forall a pp (L : layer RF) i, made_for dt a pp L -> (i < lth L)%nat ->
    (0 < (lp0h L i : R) < 1) /\ (-1 <= (lp1h L i : R) < 0) /\ (lp0h L i : R) - lp1h L i <= 1 /\ 0 < (lp2h L i : R)).
  { intros a' pp' L' i' M Hi'. exact (proj2 (proj2 (made_ranges dt a' pp' L' i' Hd M Hi'))). }
  rewrite Jd. unfold effective. split.
  - exact (f_equal (fun g => fdiv (f := CC) (cw w a i) g) (gain_in sh Lr dt th Fit lp0e lp1e lp2e lp0e lp1e lp2e (fun _ _ => eq_refl) (fun _ _ => eq_refl) (fun _ _ => eq_refl) Re a pp L i Ha Hp Hi E C)).
  - exact (f_equal (fun g => fdiv (f := CC) (cw w a i) g) (gain_in sh Lr dt th Fit lp0h lp1h lp2h lp0h lp1h lp2h (fun _ _ => eq_refl) (fun _ _ => eq_refl) (fun _ _ => eq_refl) Rh a pp L i Ha Hp Hi E C)).
Qed.
Print Assumptions C125_effective.

(** Parameters as in the tests: eight cells, reflection exp(-16). *)
Example C125_example : exists a pp L, cpml_params 1 (-1) (/ 2) 8 (-16) 1 1 (7/2) 1 0 = Ok (a, pp, L) /\ lth L = 8%nat
  /\ (-16 < 0 /\ 1 <= 1 * 1 /\ 0 <= 7/2 /\ 0 <= 1 /\ 0 <= 0).
Proof.
  unfold cpml_params. cbn [Z.leb Z.ltb Z.eqb Z.compare andb orb negb Pos.eqb].
  destruct (Rle_dec 1 0); [lra|]. do 3 eexists. split; [reflexivity|]. split; [reflexivity|lra].
Qed.
