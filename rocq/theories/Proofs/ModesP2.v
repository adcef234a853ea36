(** Modes: the matrix of the code, driven solutions. *)
From Coq Require Import Reals List Arith ZArith Lia Lra Psatz Bool Field.
From Verif.Lib Require Import Num Sums Idx Mat RealF Elim BoxMin.
From Verif.Model Require Import Fdmath Fdtd Fdfd.
From Verif.Spec Require Import Grid Yee FdtdRun FdfdSpec HarmonicSpec SolvableSpec ModesSpec.
From Verif.Proofs Require Import FdmathP FdmathP2 FdtdP2 FdfdP GridP HarmonicP HarmonicP2 HarmonicP4 SpectralP ModesP.
Import ListNotations.
Local Open Scope R_scope.

Lemma rc_diff (x y w : R) : w <> 0 -> cdiv (csub (mkC x 0) (mkC y 0)) (mkC w 0) = mkC ((x - y) / w) 0.
Proof. intro H. unfold cdiv, cinv, cmul, cnrm. apply cpx_ext; cbn [cre cim csub cadd copp]; field; lra. Qed.

Section Fl.
  Variable K : Fld.
  Add Field Kf : (fth K).
  Lemma fdiv_mul (x y : K) : (y <> 0 -> x / y * y = x)%K.
  Proof. intro. field. assumption. Qed.
  Lemma fmul_div (x y : K) : (y <> 0 -> x * y / y = x)%K.
  Proof. intro. field. assumption. Qed.
End Fl.
Lemma cdiv_mul (x y : cpx) : y <> c0 -> cmul (cdiv x y) y = x.
Proof. exact (fdiv_mul CC x y). Qed.
Lemma cmul_div (x y : cpx) : y <> c0 -> cdiv (cmul x y) y = x.
Proof. exact (fmul_div CC x y). Qed.
Lemma dec_ex m (P : nat -> Prop) : (forall a, {P a} + {~ P a}) -> (exists a, (a < m)%nat /\ P a) \/ ~ (exists a, (a < m)%nat /\ P a).
Proof.
  intro D. induction m as [|m IH]; [right; intros (a & Ha & _); lia|]. destruct IH as [(a & Ha & Pa)|N]; [left; exists a; split; [lia|exact Pa]|].
  destruct (D m) as [Pm|Nm]; [left; exists m; split; [lia|exact Pm]|]. right. intros (a & Ha & Pa). destruct (Nat.eq_dec a m) as [->|]; [contradiction|]. apply N. exists a. split; [lia|exact Pa].
Qed.

Section M.
  Variables (sh : list nat) (we wh : widths RF) (eps : field RF) (mu : option (field RF)).
  Hypothesis LL : lossless sh we wh eps mu.
  Notation n := (3 * prodl sh)%nat.
  Notation pd := (e_dot sh we wh eps).
  Notation cd := (c_dot sh we wh mu).
  Notation wv := (wv sh we wh mu).
  Notation A := (e_full_at sh we wh eps mu).
  Notation cs := (sumN (K := CC)).
  Notation fc := (fsum (K := CC) sh).
  Notation ap om F := (unvec (K := CC) sh (mv (K := CC) n (A om) (vec (K := CC) sh F))).

  Lemma cf_curl_forward F c i : (c < 3)%nat -> inb sh i -> curl_forward (K := CC) sh (Some (cw we)) (cf F) c i = mkC (curl_forward (K := RF) sh (Some we) F c i) 0.
  Proof.
    intros Hc Hi. assert (W : forall a, (a < 3)%nat -> we a (coord i a) <> 0).
    { intros a Ha. apply (nz_e sh we wh eps mu LL); [rewrite (len3 sh we wh eps mu LL); exact Ha|apply inb_coord; [exact Hi|rewrite (len3 sh we wh eps mu LL); exact Ha]]. }
    unfold curl_forward, curl_with, deriv_forward, cf, cw, roll.
    destruct c as [|[|[|c]]]; [| | |lia]; change (@fdiv CC) with cdiv; change (@fsub CC) with csub; rewrite !rc_diff by (apply W; lia); apply cpx_ext; cbn; ring.
  Qed.
  Lemma cf_curl_back F c i : (c < 3)%nat -> inb sh i -> curl_back (K := CC) sh (Some (cw wh)) (cf F) c i = mkC (curl_back (K := RF) sh (Some wh) F c i) 0.
  Proof.
    intros Hc Hi. assert (W : forall a, (a < 3)%nat -> wh a (coord i a) <> 0).
    { intros a Ha. apply (nz_h sh we wh eps mu LL); [rewrite (len3 sh we wh eps mu LL); exact Ha|apply inb_coord; [exact Hi|rewrite (len3 sh we wh eps mu LL); exact Ha]]. }
    unfold curl_back, curl_with, deriv_back, cf, cw, roll.
    destruct c as [|[|[|c]]]; [| | |lia]; change (@fdiv CC) with cdiv; change (@fsub CC) with csub; rewrite !rc_diff by (apply W; lia); apply cpx_ext; cbn; ring.
  Qed.
  Lemma curl_back_ext (K : Fld) (w : widths K) (F G : field K) c i : length sh = 3%nat -> (c < 3)%nat -> inb sh i -> feq sh F G -> curl_back sh (Some w) F c i = curl_back sh (Some w) G c i.
  Proof.
    intros HL Hc Hi E. rewrite <- (unravel_ravel sh i Hi). rewrite <- !(curl_back_agree K sh w _ c _ HL Hc (ravel_lt sh i Hi)). apply (mv_ext_v K). intros q Hq.
    destruct (split3 sh q Hq) as (c' & p & -> & Hc' & Hp). rewrite !(vec_at K) by exact Hp. apply E; [exact Hc'|now apply inb_unravel].
  Qed.
  (** e_full on a real field *)
  Lemma ap_cf om F : feq (K := CC) sh (ap om (cf F)) (fun c i => csub (mkC (wv F c i) 0) (cmul (cmul om om) (mkC (eps c i * F c i) 0))).
  Proof.
    intros c i Hc Hi. unfold unvec, e_full_at. pose proof (len3 sh we wh eps mu LL) as HL.
    assert (Eo : option_map (fun m => vec (K := CC) sh (cf m)) mu = option_map (vec (K := CC) sh) (option_map cf mu)) by (destruct mu; reflexivity). rewrite Eo.
    rewrite (e_full_wave CC sh om (cw we, cw wh) (cf eps) (option_map cf mu) (cf F) c (ravel sh i) HL Hc (ravel_lt sh i Hi)), unravel_ravel by exact Hi.
    unfold wave_e. cbn [fst snd]. unfold ModesP.wv. to_model. 
    rewrite (curl_back_ext CC (cw wh) _ (cf (fun c i => / matl (K := RF) mu c i * curl_forward (K := RF) sh (Some we) F c i)) c i HL Hc Hi).
    - rewrite cf_curl_back by assumption. unfold cf. apply cpx_ext; cbn; ring.
    - intros c' i' Hc' Hi'. rewrite cf_curl_forward by assumption. pose proof (mu_pos sh we wh eps mu LL c' i' Hc' Hi') as P. unfold cf, inv_at, matl in *. destruct mu as [m|]; cbn [option_map].
      + change (@fdiv CC) with cdiv; change (@fmul CC) with cmul; change (@f1 CC) with c1. unfold cdiv, cinv, cmul, cnrm, c1. apply cpx_ext; cbn [cre cim]; field; cbn in P; lra.
      + cbn. apply cpx_ext; cbn; field.
  Qed.
  (** Linearity. *)
  Lemma ap_sum om m (k : nat -> CC) (V : nat -> field CC) : feq (K := CC) sh (ap om (fun c i => cs m (fun a => cmul (k a) (V a c i)))) (fun c i => cs m (fun a => cmul (k a) (ap om (V a) c i))).
  Proof.
    intros c i Hc Hi. unfold unvec. induction m as [|m IH].
    - refine (eq_trans (sumN_zero CC _ _ _) eq_refl). intros q _. unfold vec. apply cpx_ext; cbn; ring.
    - cbn [sumN]. rewrite <- IH. rewrite <- (mv_lin_scale CC). rewrite <- (mv_lin_add CC). apply (mv_ext_v CC). intros q _. reflexivity.
  Qed.

  (** Complex sums of real fields *)
  Definition kd (V : field RF) (F : field CC) : CC := mkC (pd V (fun c i => cre (F c i))) (pd V (fun c i => cim (F c i))).
  Lemma kd_ext V F G : feq (K := CC) sh F G -> kd V F = kd V G.
  Proof. intro E. unfold kd. f_equal; apply pd_ext; try (intros c i _ _; reflexivity); intros c i Hc Hi; now rewrite (E c i Hc Hi). Qed.
  Lemma kd_sum V m (k : nat -> CC) (U : nat -> field RF) : kd V (fun c i => cs m (fun a => cmul (k a) (cf (U a) c i))) = cs m (fun a => cmul (k a) (mkC (pd V (U a)) 0)).
  Proof.
    unfold kd. apply cpx_ext; cbn [cre cim].
    - rewrite re_sum. rewrite (rs_ext m _ (fun a => cre (k a) * pd V (U a))) by (intros; cbn; ring). rewrite <- pd_sum. apply pd_ext; [intros c i _ _; reflexivity|]. intros c i _ _. rewrite re_sum. apply rs_ext. intros. unfold cf. cbn. ring.
    - rewrite im_sum. rewrite (rs_ext m _ (fun a => cim (k a) * pd V (U a))) by (intros; cbn; ring). rewrite <- pd_sum. apply pd_ext; [intros c i _ _; reflexivity|]. intros c i _ _. rewrite im_sum. apply rs_ext. intros. unfold cf. cbn. ring.
  Qed.

  Lemma modes_exist : exists V lam, modes sh we wh eps mu V lam.
  Proof.
    destruct (real_modes sh we wh eps mu LL) as (V & lam & On & Ev & Mn & So & Cp). exists V, lam. split; try assumption.
    - intros a om Ha c i Hc Hi. rewrite (ap_cf om (V a) c i Hc Hi), (Ev a Ha c i Hc Hi). apply cpx_ext; cbn; ring.
    - intros a Ha. pose proof (cd_nonneg sh we wh eps mu LL (V a)) as P. rewrite (cd_wv sh we wh eps mu LL) in P.
      rewrite (fs_ext sh _ (fun c i => lam a * (vol_e (K := RF) we wh c i * (eps c i * (V a c i * V a c i))))) in P by (intros c i Hc Hi; rewrite (Ev a Ha c i Hc Hi); ring).
      rewrite fs_scale in P. change (0 <= lam a * pd (V a) (V a)) in P. rewrite (On a a Ha Ha), Nat.eqb_refl in P. lra.
  Qed.

  Variables (V : nat -> field RF) (lam : nat -> R).
  Hypothesis Mo : modes sh we wh eps mu V lam.

  Lemma m_wv a : (a < n)%nat -> feq (K := RF) sh (wv (V a)) (fun c i => lam a * (eps c i * V a c i)).
  Proof.
    intros Ha c i Hc Hi. pose proof (m_wave _ _ _ _ _ _ _ Mo a c0 Ha c i Hc Hi) as E. rewrite (ap_cf c0 (V a) c i Hc Hi) in E.
    apply (f_equal cre) in E. cbn in E. lra.
  Qed.
  Lemma m_cd a F : (a < n)%nat -> cd (V a) F = lam a * pd (V a) F.
  Proof.
    intro Ha. rewrite (cd_sym sh we wh mu), (cd_wv sh we wh eps mu LL). unfold e_dot. rewrite <- fs_scale. apply fs_ext. intros c i Hc Hi. rewrite (m_wv a Ha c i Hc Hi). ring.
  Qed.
  Lemma m_cbasis F : feq (K := CC) sh F (fun c i => cs n (fun a => cmul (kd (V a) F) (cf (V a) c i))).
  Proof.
    intros c i Hc Hi. apply cpx_ext; [rewrite re_sum|rewrite im_sum].
    - rewrite (m_basis _ _ _ _ _ _ _ Mo (fun c i => cre (F c i)) c i Hc Hi) at 1. apply rs_ext. intros. unfold kd, cf. cbn. ring.
    - rewrite (m_basis _ _ _ _ _ _ _ Mo (fun c i => cim (F c i)) c i Hc Hi) at 1. apply rs_ext. intros. unfold kd, cf. cbn. ring.
  Qed.
  Lemma m_kd k a : (a < n)%nat -> kd (V a) (fun c i => cs n (fun b => cmul (k b) (cf (V b) c i))) = k a.
  Proof.
    intro Ha. rewrite kd_sum. transitivity (cs n (fun b => fmul (f := CC) (ind (Nat.eqb b a)) (k b))); [|exact (sumN_ind_l CC n a k Ha)].
    apply (sumN_ext CC). intros b Hb. rewrite (m_orth _ _ _ _ _ _ _ Mo a b Ha Hb), (Nat.eqb_sym b a). destruct (a =? b)%nat; apply cpx_ext; cbn; ring.
  Qed.
  Lemma ap_ext om F G : feq (K := CC) sh F G -> feq (K := CC) sh (ap om F) (ap om G).
  Proof.
    intros E c i Hc Hi. unfold unvec. apply (mv_ext_v CC). intros q Hq. destruct (split3 sh q Hq) as (c' & p & -> & Hc' & Hp). rewrite !(vec_at CC) by exact Hp. apply E; [exact Hc'|now apply inb_unravel].
  Qed.
  Lemma ap_modes om k : feq (K := CC) sh (ap om (fun c i => cs n (fun a => cmul (k a) (cf (V a) c i))))
    (fun c i => cmul (mkC (eps c i) 0) (cs n (fun a => cmul (cmul (k a) (csub (mkC (lam a) 0) (cmul om om))) (cf (V a) c i)))).
  Proof.
    intros c i Hc Hi. rewrite (ap_sum om n k (fun a => cf (V a)) c i Hc Hi). refine (eq_trans _ (sumN_mul_l CC _ _ _)). apply (sumN_ext CC). intros a Ha.
    rewrite (m_wave _ _ _ _ _ _ _ Mo a om Ha c i Hc Hi). unfold cf. apply cpx_ext; cbn; ring.
  Qed.
  Lemma ap_coef om F b a : (a < n)%nat -> feq (K := CC) sh (ap om F) (fun c i => cmul (mkC (eps c i) 0) (b c i)) -> cmul (kd (V a) F) (csub (mkC (lam a) 0) (cmul om om)) = kd (V a) b.
  Proof.
    intros Ha E. rewrite <- (m_kd (fun a => cmul (kd (V a) F) (csub (mkC (lam a) 0) (cmul om om))) a Ha). apply kd_ext. intros c i Hc Hi.
    pose proof (eps_pos sh we wh eps mu LL c i Hc Hi) as P. pose proof (ap_modes om (fun a => kd (V a) F) c i Hc Hi) as Q. cbv beta in Q.
    rewrite <- (ap_ext om F _ (m_cbasis F) c i Hc Hi), (E c i Hc Hi) in Q. symmetry.
    apply cpx_ext; [apply (f_equal cre) in Q|apply (f_equal cim) in Q]; cbn [cmul cre cim] in Q; apply (Rmult_eq_reg_l (eps c i)); lra.
  Qed.

  Notation drive om J := (fun c i => cmul (cmul (copp ci) om) (J c i)).
  (** the coefficients of the driven field *)
  Definition coef (om : CC) (J : field CC) (a : nat) : CC :=
    cdiv (cmul (cmul (copp ci) om) (fc (fun c i => cmul (vol_e (K := CC) (cw we) (cw wh) c i) (cmul (cf (V a) c i) (J c i))))) (csub (mkC (lam a) 0) (cmul om om)).
  Lemma fc_re f : cre (fc f) = fsum (K := RF) sh (fun c i => cre (f c i)).
  Proof. unfold fsum. rewrite !(gsum_flat CC), !(gsum_flat RF). change (@fadd CC) with cadd. cbn [cadd cre]. rewrite !re_sum. reflexivity. Qed.
  Lemma fc_im f : cim (fc f) = fsum (K := RF) sh (fun c i => cim (f c i)).
  Proof. unfold fsum. rewrite !(gsum_flat CC), !(gsum_flat RF). change (@fadd CC) with cadd. cbn [cadd cim]. rewrite !im_sum. reflexivity. Qed.
  Lemma cvol c i : vol_e (K := CC) (cw we) (cw wh) c i = mkC (vol_e (K := RF) we wh c i) 0.
  Proof. destruct c as [|[|c]]; unfold vol_e, vol3, cw; apply cpx_ext; cbn; ring. Qed.
  Lemma kd_over G F : kd G (fun c i => cdiv (F c i) (mkC (eps c i) 0)) = fc (fun c i => cmul (vol_e (K := CC) (cw we) (cw wh) c i) (cmul (cf G c i) (F c i))).
  Proof.
    unfold kd, e_dot. apply cpx_ext; cbn [cre cim]; [rewrite fc_re|rewrite fc_im]; apply fs_ext; intros c i Hc Hi; rewrite cvol; pose proof (eps_pos sh we wh eps mu LL c i Hc Hi);
      unfold cf, cdiv, cinv, cmul, cnrm; cbn [cre cim]; field; lra.
  Qed.
  Lemma kd_scale G k F : kd G (fun c i => cmul k (F c i)) = cmul k (kd G F).
  Proof.
    unfold kd. apply cpx_ext; cbn [cre cim cmul].
    - rewrite (pd_ext sh we wh eps G _ G (fun c i => cre k * cre (F c i) + - cim k * cim (F c i))) by (intros c i _ _; first [reflexivity | rring]).
      rewrite (pd_add sh we wh eps G (fun c i => cre k * cre (F c i)) (fun c i => - cim k * cim (F c i))), !pd_scale. ring.
    -
      rewrite (pd_add sh we wh eps G (fun c i => cre k * cim (F c i)) (fun c i => cim k * cre (F c i))), !pd_scale. ring.
  Qed.
  Lemma eps_over F : feq (K := CC) sh F (fun c i => cmul (mkC (eps c i) 0) (cdiv (F c i) (mkC (eps c i) 0))).
  Proof. intros c i Hc Hi. pose proof (eps_pos sh we wh eps mu LL c i Hc Hi). unfold cdiv, cinv, cmul, cnrm. apply cpx_ext; cbn [cre cim]; field; lra. Qed.
  Lemma csub_nz (x y : cpx) : x <> y -> csub x y <> c0.
  Proof. intros N E. apply N. apply cpx_ext; [apply (f_equal cre) in E|apply (f_equal cim) in E]; cbn in E; lra. Qed.
  Lemma driven om J : (forall a, (a < n)%nat -> cmul om om <> mkC (lam a) 0) ->
    feq (K := CC) sh (ap om (fun c i => cs n (fun a => cmul (coef om J a) (cf (V a) c i)))) (drive om J) /\
    forall E, feq (K := CC) sh (ap om E) (drive om J) -> feq (K := CC) sh E (fun c i => cs n (fun a => cmul (coef om J a) (cf (V a) c i))).
  Proof.
    intro Hn. assert (Nz : forall a, (a < n)%nat -> csub (mkC (lam a) 0) (cmul om om) <> c0) by (intros a Ha; apply csub_nz; intro X; now apply (Hn a Ha)).
    assert (Ck : forall a, (a < n)%nat -> cmul (coef om J a) (csub (mkC (lam a) 0) (cmul om om)) = kd (V a) (fun c i => cdiv (drive om J c i) (mkC (eps c i) 0))).
    { intros a Ha. unfold coef. rewrite cdiv_mul by now apply Nz. rewrite <- kd_over, <- kd_scale. apply kd_ext. intros c i _ _. unfold cdiv. apply cpx_ext; cbn; ring. }
    split.
    - intros c i Hc Hi. rewrite (ap_modes om _ c i Hc Hi). rewrite (eps_over (drive om J) c i Hc Hi) at 1. refine (f_equal (cmul (mkC (eps c i) 0)) _).
      rewrite (m_cbasis (fun c i => cdiv (drive om J c i) (mkC (eps c i) 0)) c i Hc Hi). apply (sumN_ext CC). intros a Ha. now rewrite (Ck a Ha).
    - intros E HE c i Hc Hi. rewrite (m_cbasis E c i Hc Hi). apply (sumN_ext CC). intros a Ha. refine (f_equal (fun t => cmul t (cf (V a) c i)) _).
      pose proof (ap_coef om E (fun c i => cdiv (drive om J c i) (mkC (eps c i) 0)) a Ha) as Q.
      specialize (Q (fun c i Hc Hi => eq_trans (HE c i Hc Hi) (eps_over (drive om J) c i Hc Hi))). cbv beta in Q. rewrite <- (Ck a Ha) in Q.
      apply (f_equal (fun t => cdiv t (csub (mkC (lam a) 0) (cmul om om)))) in Q. rewrite !cmul_div in Q by now apply Nz. exact Q.
  Qed.
  Lemma resonant om : singular (K := CC) n (A om) <-> exists a, (a < n)%nat /\ cmul om om = mkC (lam a) 0.
  Proof.
    split.
    - intros (x & (q & Hq & Nq) & S0).
      set (E := unvec (K := CC) sh x). assert (HE : feq (K := CC) sh (ap om E) (fun c i => cmul (mkC (eps c i) 0) c0)).
      { intros c i Hc Hi. unfold unvec at 1. assert (Hr : (c * prodl sh + ravel sh i < n)%nat) by (apply lt3; [exact Hc|now apply ravel_lt]).
        rewrite (mv_ext_v CC n (A om) _ x) by (intros; now apply (vec_unvec CC sh 3)). rewrite (S0 _ Hr). apply cpx_ext; cbn; ring. }
      destruct (split3 sh q Hq) as (c & p & -> & Hc & Hp). pose proof (inb_unravel sh p Hp) as Hi.
      destruct (dec_ex n (fun a => cmul om om = mkC (lam a) 0)) as [Y|N]; [intro; apply cpx_dec|exact Y|exfalso].
      apply Nq. assert (X : x (c * prodl sh + p)%nat = E c (unravel sh p)) by (unfold E, unvec; now rewrite ravel_unravel).
      rewrite X, (m_cbasis E c _ Hc Hi). apply (sumN_zero CC). intros a Ha.
      pose proof (ap_coef om E (fun _ _ => c0) a Ha HE) as Q.
      assert (Z : kd (V a) (fun _ _ => c0) = c0). { unfold kd, e_dot. cbn [cre cim c0]. rewrite !(fs_ext sh (fun c i => vol_e (K := RF) we wh c i * (eps c i * (V a c i * 0))) (fun _ _ => 0)) by (intros; ring). rewrite !fs_zero. reflexivity. }
      rewrite Z in Q. assert (Nz : csub (mkC (lam a) 0) (cmul om om) <> c0) by (apply csub_nz; intro Y; apply N; exists a; split; [exact Ha|now symmetry]).
      apply (f_equal (fun t => cdiv t (csub (mkC (lam a) 0) (cmul om om)))) in Q. rewrite cmul_div in Q by exact Nz. rewrite Q. unfold cdiv. apply cpx_ext; cbn; ring.
    - intros (a & Ha & Eo). exists (vec (K := CC) sh (cf (V a))). split.
      + destruct (dec_ex n (fun q => vec (K := CC) sh (cf (V a)) q <> c0)) as [(q & Hq & Nq)|N]; [intro q; destruct (cpx_dec (vec (K := CC) sh (cf (V a)) q) c0); [right; tauto|now left]|now exists q|exfalso].
        pose proof (m_orth _ _ _ _ _ _ _ Mo a a Ha Ha) as O. rewrite Nat.eqb_refl in O. unfold e_dot in O. rewrite (fs_ext sh _ (fun _ _ => 0)) in O; [rewrite fs_zero in O; lra|].
        intros c i Hc Hi. assert (Z : V a c i = 0).
        { destruct (Req_EM_T (V a c i) 0) as [|Nz]; [assumption|exfalso]. apply N. exists (c * prodl sh + ravel sh i)%nat. split; [apply lt3; [exact Hc|now apply ravel_lt]|].
          rewrite (vec_offset CC) by exact Hi. intro X. apply Nz. now apply (f_equal cre) in X. }
        rewrite Z. ring.
      + intros q Hq. destruct (split3 sh q Hq) as (c & p & -> & Hc & Hp). pose proof (m_wave _ _ _ _ _ _ _ Mo a om Ha c (unravel sh p) Hc (inb_unravel sh p Hp)) as W.
        unfold unvec at 1 in W. rewrite ravel_unravel in W by exact Hp. rewrite W, Eo. apply cpx_ext; cbn; ring.
  Qed.
End M.
