(** Bounds on driven frequency-domain fields with loss, and convergence of the
    frequency-domain method (C163). *)
From Coq Require Import Reals Lra List Arith ZArith Lia Bool Psatz.
From Verif.Lib Require Import Num Sums Idx Mat RealF BoxMin.
From Verif.Model Require Import Fdmath Fdtd Fdfd.
From Verif.Spec Require Import Yee FdtdRun FdfdSpec HarmonicSpec DispersionSpec SmoothSpec.
From Verif.Proofs Require Import FdmathP FdtdP2 FdtdP BlochP2 DrivenP HarmonicP HarmonicP3 HarmonicP4 LossyP NumDispP TaylorP.
Import ListNotations.
Local Open Scope R_scope.

(** ** C163: second-order convergence in lossy media *)
(** With Im epsilon <= - d < 0 everywhere, fields that satisfy both curl equations are
    bounded by the electric and magnetic currents, whatever the grid. *)
Theorem C163_bounded :
  forall (sh : list nat) (we wh : widths RF) (om : R) (eps : field CC) (mu : option (field CC)) (d e1 m0 : R) (E H J M : field CC),
    length sh = 3%nat -> 0 < om -> (forall a i, (a < 3)%nat -> (i < dim sh a)%nat -> 0 < we a i /\ 0 < wh a i) ->
    0 < d -> 0 <= e1 -> 0 < m0 ->
    (forall c i, (c < 3)%nat -> inb sh i -> cim (eps c i) <= - d /\ cre (eps c i) <= e1) ->
    (forall c i, (c < 3)%nat -> inb sh i -> cim (matl (K := CC) mu c i) <= 0 /\ m0 <= cre (matl (K := CC) mu c i)) ->
    feq (K := CC) sh (fst (eh_full_f (K := CC) sh (mkC om 0) (cw we, cw wh) eps mu E H)) J ->
    feq (K := CC) sh (snd (eh_full_f (K := CC) sh (mkC om 0) (cw we, cw wh) eps mu E H)) (fun c i => copp (M c i)) ->
    let k := (1 / d + (e1 / d + 1) / m0) / om in
    fsum (K := RF) sh (fun c i => vol_e (K := RF) we wh c i * cnrm (E c i)) + fsum (K := RF) sh (fun c i => vol_h (K := RF) we wh c i * cnrm (H c i))
    <= k * k * (fsum (K := RF) sh (fun c i => vol_e (K := RF) we wh c i * cnrm (J c i)) + fsum (K := RF) sh (fun c i => vol_h (K := RF) we wh c i * cnrm (M c i))).
Proof.
  intros sh we wh om eps mu d e1 m0 E H J M HL Hom Hw Hd He1 Hm0 He Hm A B.
  exact (bounded sh we wh om eps mu HL Hom Hw d e1 m0 Hd He1 Hm0 He Hm E H J M A B).
Qed.
Print Assumptions C163_bounded.

Lemma fsum_const sh b : fsum (K := RF) sh (fun _ _ => b) = 3 * INR (prodl sh) * b.
Proof.
  unfold fsum. rewrite !(gsum_flat RF). pose proof (rs_const (prodl sh) b) as Q. change (sumN (K := RF) (prodl sh) (fun _ => b) = INR (prodl sh) * b) in Q. rewrite Q. cbn [fadd RF]. lra.
Qed.
Lemma mu_nz sh (mu : field CC) m0 : 0 < m0 -> (forall c i, (c < 3)%nat -> inb sh i -> m0 <= cre (mu c i)) -> nzm_opt (K := CC) sh (Some mu).
Proof. intros P H c i Hc Hi X. pose proof (H c i Hc Hi). apply (f_equal cre) in X. cbn in X. lra. Qed.

(** Smooth periodic fields that satisfy Maxwell's equations with the current [J], the
    current and materials sampled at the Yee positions of a uniform grid: the solution of
    e_full, and the H of e2h, differ from the samples of the fields by at most
    k M (w_x^2 + w_y^2 + w_z^2) / sqrt 48 in the mean square, with M a bound on third
    derivatives and k from C163_bounded: no constant depends on the grid. *)
Theorem C163_second_order :
  forall (sh : list nat) (w : nat -> R) (om : R) (eps mu J E H : nat -> pt -> cpx) (DE DH : nat -> nat -> pt -> cpx) (M d e1 m0 : R) (e : field CC),
    length sh = 3%nat -> 0 < om -> (forall a, (a < 3)%nat -> 0 < w a) ->
    0 < d -> 0 <= e1 -> 0 < m0 ->
    (forall c p, (c < 3)%nat -> cim (eps c p) <= - d /\ cre (eps c p) <= e1) ->
    (forall c p, (c < 3)%nat -> cim (mu c p) <= 0 /\ m0 <= cre (mu c p)) ->
    smooth_field (fun a => INR (dim sh a) * w a) E DE M -> smooth_field (fun a => INR (dim sh a) * w a) H DH M ->
    (forall c p, (c < 3)%nat -> curl_of DE c p = copp (cmul (cmul (cmul ci (mkC om 0)) (mu c p)) (H c p))) ->
    (forall c p, (c < 3)%nat -> curl_of DH c p = cadd (cmul (cmul (cmul ci (mkC om 0)) (eps c p)) (E c p)) (J c p)) ->
    let W := cw (uniw (K := RF) w) in
    feq (K := CC) sh
      (unvec (K := CC) sh (mv (K := CC) (3 * prodl sh)
        (e_full_mat (K := CC) sh (mkC om 0) (W, W) (vec (K := CC) sh (smp_e w eps)) (Some (vec (K := CC) sh (smp_h w mu))) None None) (vec (K := CC) sh e)))
      (fun c i => cmul (cmul (copp ci) (mkC om 0)) (smp_e w J c i)) ->
    let h := e2h_f (K := CC) sh (mkC om 0) (W, W) (Some (smp_h w mu)) e in
    let k := (1 / d + (e1 / d + 1) / m0) / om in
    let S := w 0%nat * w 0%nat + w 1%nat * w 1%nat + w 2%nat * w 2%nat in
    (fsum (K := RF) sh (fun c i => cnrm (csub (e c i) (smp_e w E c i))) + fsum (K := RF) sh (fun c i => cnrm (csub (h c i) (smp_h w H c i)))) / INR (prodl sh)
    <= (k * M * S) * (k * M * S) / 48.
Proof.
  intros sh w om eps mu J E H DE DH M d e1 m0 e HL Hom Hw Hd He1 Hm0 He Hm HE HH MxE MxH W Q h k S.
  set (W' := uniw (K := RF) w) in *.
  assert (Nz : nzm_opt (K := CC) sh (Some (smp_h w mu))) by (apply (mu_nz sh _ m0 Hm0); intros; now apply Hm).
  assert (On : mkC om 0 <> f0 (f := CC)) by (intro X; apply (f_equal cre) in X; cbn in X; lra).
  destruct (e_full_solution CC sh (mkC om 0) (W, W) (smp_e w eps) (Some (smp_h w mu)) e (smp_e w J) HL On Nz Q) as [A B]. fold h in A, B.
  set (m1 := mkC (-1) 0). set (de := fun c i => cadd (cmul c1 (e c i)) (cmul m1 (smp_e w E c i)) : CC). set (dh := fun c i => cadd (cmul c1 (h c i)) (cmul m1 (smp_h w H c i)) : CC).
  set (RJ := fst (eh_full_f (K := CC) sh (mkC om 0) (W, W) (smp_e w eps) (Some (smp_h w mu)) de dh)).
  set (RM := fun c i => copp (snd (eh_full_f (K := CC) sh (mkC om 0) (W, W) (smp_e w eps) (Some (smp_h w mu)) de dh) c i)).
  pose proof (bounded sh W' W' om (smp_e w eps) (Some (smp_h w mu)) HL Hom ltac:(intros a i Ha _; split; now apply Hw) d e1 m0 Hd He1 Hm0
    ltac:(intros; now apply He) ltac:(intros; now apply Hm) de dh RJ RM ltac:(intros c i _ _; reflexivity) ltac:(intros c i _ _; unfold RM; apply cpx_ext; cbn [cre cim copp]; symmetry; apply Ropp_involutive)) as Bd.
  cbv zeta in Bd. fold k in Bd. set (b := M * S / 24).
  assert (BJ : forall c i, (c < 3)%nat -> inb sh i -> cnrm (RJ c i) <= 2 * (b * b)).
  { intros c i Hc Hi. pose proof (curl_b_close sh w HL Hw H DH M HH c i Hc Hi) as X. apply close_nrm in X. fold S in X. fold b in X.
    replace (cnrm (RJ c i)) with (cnrm (csub (curl_back (K := CC) sh (Some W) (smp_h w H) c i) (curl_of DH c (pos_e w c i)))); [exact X|].
    rewrite (MxH c (pos_e w c i) Hc). pose proof (A c i Hc Hi) as A1. unfold RJ, eh_full_f in *. cbn [fst snd] in *.
    unfold dh, de at 1. pose proof (curl_back_lin CC sh (Some W) c c1 m1 h (smp_h w H) i) as Y.
    set (z := curl_back (K := CC) sh (Some W) (smp_h w H) c i) in *. set (y := curl_back (K := CC) sh (Some W) h c i) in *.
    refine (eq_trans _ (f_equal (fun t => cnrm (csub t (cmul (cmul (cmul ci (mkC om 0)) (smp_e w eps c i)) (de c i)))) (eq_sym Y))).
    assert (Ey : y = cadd (smp_e w J c i) (cmul (cmul (cmul ci (mkC om 0)) (smp_e w eps c i)) (e c i))).
    { rewrite <- A1. change (y = cadd (csub y (cmul (cmul (cmul ci (mkC om 0)) (smp_e w eps c i)) (e c i))) (cmul (cmul (cmul ci (mkC om 0)) (smp_e w eps c i)) (e c i))). generalize (cmul (cmul (cmul ci (mkC om 0)) (smp_e w eps c i)) (e c i)). intro t. apply cpx_ext; cbn [cre cim cadd csub]; ring. }
    rewrite Ey. clearbody z. unfold de, m1, smp_e, cnrm. cbn. ring. }
  assert (BM : forall c i, (c < 3)%nat -> inb sh i -> cnrm (RM c i) <= 2 * (b * b)).
  { intros c i Hc Hi. pose proof (curl_f_close sh w HL Hw E DE M HE c i Hc Hi) as X. apply close_nrm in X. fold S in X. fold b in X.
    replace (cnrm (RM c i)) with (cnrm (csub (curl_forward (K := CC) sh (Some W) (smp_e w E) c i) (curl_of DE c (pos_h w c i)))); [exact X|].
    rewrite (MxE c (pos_h w c i) Hc). pose proof (B c i Hc Hi) as B1. unfold RM, eh_full_f in *. cbn [fst snd] in *.
    pose proof (curl_forward_lin CC sh (Some W) c c1 m1 e (smp_e w E) i) as Y.
    set (z := curl_forward (K := CC) sh (Some W) (smp_e w E) c i) in *. set (y := curl_forward (K := CC) sh (Some W) e c i) in *.
    refine (eq_trans _ (f_equal (fun t => cnrm (copp (cadd t (cmul (cmul (cmul ci (mkC om 0)) (smp_h w mu c i)) (dh c i))))) (eq_sym Y))).
    assert (Ey : y = copp (cmul (cmul (cmul ci (mkC om 0)) (smp_h w mu c i)) (h c i))).
    { assert (B2 : cadd y (cmul (cmul (cmul ci (mkC om 0)) (smp_h w mu c i)) (h c i)) = c0) by exact B1. revert B2. generalize (cmul (cmul (cmul ci (mkC om 0)) (smp_h w mu c i)) (h c i)). intros t B2.
      pose proof (f_equal cre B2) as P1. pose proof (f_equal cim B2) as P2. cbn [cre cim cadd c0] in P1, P2. apply cpx_ext; cbn [cre cim copp]; lra. }
    rewrite Ey. clearbody z. unfold dh, m1, smp_h, cnrm. cbn. ring. }
  set (v := w 0%nat * w 1%nat * w 2%nat). assert (V : 0 < v) by (unfold v; repeat apply Rmult_lt_0_compat; apply Hw; lia).
  assert (Ve : forall c i, vol_e (K := RF) W' W' c i = v) by (intros c i; destruct c as [|[|c]]; reflexivity).
  assert (Vh : forall c i, vol_h (K := RF) W' W' c i = v) by (intros c i; apply Ve).
  assert (T : forall (f : nat -> list nat -> R), fsum (K := RF) sh (fun c i => vol_e (K := RF) W' W' c i * f c i) = v * fsum (K := RF) sh f).
  { intro f. rewrite <- fsum_mul_r. apply fsum_ext_r. intros c i _ _. now rewrite Ve. }
  assert (T' : forall (f : nat -> list nat -> R), fsum (K := RF) sh (fun c i => vol_h (K := RF) W' W' c i * f c i) = v * fsum (K := RF) sh f) by (intro f; apply T).
  rewrite ?T, ?T' in Bd.
  assert (FJ : fsum (K := RF) sh (fun c i => cnrm (RJ c i)) <= 3 * INR (prodl sh) * (2 * (b * b))) by (rewrite <- fsum_const; apply fsum_le_r; exact BJ).
  assert (FM : fsum (K := RF) sh (fun c i => cnrm (RM c i)) <= 3 * INR (prodl sh) * (2 * (b * b))) by (rewrite <- fsum_const; apply fsum_le_r; exact BM).
  assert (Fe : fsum (K := RF) sh (fun c i => cnrm (de c i)) = fsum (K := RF) sh (fun c i => cnrm (csub (e c i) (smp_e w E c i)))).
  { apply fsum_ext_r. intros c i _ _. unfold de, m1, cnrm. cbn. ring. }
  assert (Fh : fsum (K := RF) sh (fun c i => cnrm (dh c i)) = fsum (K := RF) sh (fun c i => cnrm (csub (h c i) (smp_h w H c i)))).
  { apply fsum_ext_r. intros c i _ _. unfold dh, m1, cnrm. cbn. ring. }
  rewrite Fe, Fh in Bd.
  set (X := fsum (K := RF) sh (fun c i => cnrm (csub (e c i) (smp_e w E c i)))) in *. set (Y := fsum (K := RF) sh (fun c i => cnrm (csub (h c i) (smp_h w H c i)))) in *.
  set (U := fsum (K := RF) sh (fun c i => cnrm (RJ c i))) in *. set (Z := fsum (K := RF) sh (fun c i => cnrm (RM c i))) in *. clearbody X Y U Z.
  assert (Bd2 : X + Y <= k * k * (U + Z)). { apply (Rmult_le_reg_l v); [exact V|]. lra. }
  assert (Bd3 : X + Y <= INR (prodl sh) * (k * k * (12 * (b * b)))).
  { apply Rle_trans with (k * k * (U + Z)); [exact Bd2|]. assert (0 <= k * k) by apply Rle_0_sqr. apply Rle_trans with (k * k * (3 * INR (prodl sh) * (2 * (b * b)) + 3 * INR (prodl sh) * (2 * (b * b)))); [apply Rmult_le_compat_l; lra|]. right. ring. }
  replace (k * M * S * (k * M * S) / 48) with (k * k * (12 * (b * b))) by (unfold b; field).
  destruct (Nat.eq_dec (prodl sh) 0) as [Z0|Z0].
  - rewrite Z0 in *. cbn [INR]. unfold Rdiv at 1. rewrite Rinv_0, Rmult_0_r. apply Rmult_le_pos; [apply Rle_0_sqr|]. pose proof (Rle_0_sqr b). unfold Rsqr in *. lra.
  - assert (P : 0 < INR (prodl sh)) by (apply lt_0_INR; lia). apply (Rmult_le_reg_r (INR (prodl sh))); [exact P|]. unfold Rdiv. rewrite Rmult_assoc, Rinv_l, Rmult_1_r by lra. lra.
Qed.
Print Assumptions C163_second_order.

Lemma smooth_field_ext L L' F D M : (forall a, (a < 3)%nat -> L a = L' a) -> smooth_field L F D M -> smooth_field L' F D M.
Proof. intros E [P Q]. split; [|exact Q]. intros c a p Hc Ha. rewrite <- (E a Ha). now apply P. Qed.

(** So on ever finer grids of a fixed domain the computed fields tend to the exact ones. *)
Theorem C163_converges :
  forall (L : nat -> R) (om : R) (eps mu J E H : nat -> pt -> cpx) (DE DH : nat -> nat -> pt -> cpx) (M d e1 m0 : R),
    (forall a, (a < 3)%nat -> 0 < L a) -> 0 < om -> 0 < d -> 0 <= e1 -> 0 < m0 ->
    (forall c p, (c < 3)%nat -> cim (eps c p) <= - d /\ cre (eps c p) <= e1) ->
    (forall c p, (c < 3)%nat -> cim (mu c p) <= 0 /\ m0 <= cre (mu c p)) ->
    smooth_field L E DE M -> smooth_field L H DH M ->
    (forall c p, (c < 3)%nat -> curl_of DE c p = copp (cmul (cmul (cmul ci (mkC om 0)) (mu c p)) (H c p))) ->
    (forall c p, (c < 3)%nat -> curl_of DH c p = cadd (cmul (cmul (cmul ci (mkC om 0)) (eps c p)) (E c p)) (J c p)) ->
    forall eta : R, 0 < eta ->
    exists n0 : nat, forall (sh : list nat) (e : field CC),
      length sh = 3%nat -> (forall a, (a < 3)%nat -> (n0 <= dim sh a)%nat) ->
      let w := fun a => L a / INR (dim sh a) in
      let W := cw (uniw (K := RF) w) in
      feq (K := CC) sh
        (unvec (K := CC) sh (mv (K := CC) (3 * prodl sh)
          (e_full_mat (K := CC) sh (mkC om 0) (W, W) (vec (K := CC) sh (smp_e w eps)) (Some (vec (K := CC) sh (smp_h w mu))) None None) (vec (K := CC) sh e)))
        (fun c i => cmul (cmul (copp ci) (mkC om 0)) (smp_e w J c i)) ->
      let h := e2h_f (K := CC) sh (mkC om 0) (W, W) (Some (smp_h w mu)) e in
      (fsum (K := RF) sh (fun c i => cnrm (csub (e c i) (smp_e w E c i))) + fsum (K := RF) sh (fun c i => cnrm (csub (h c i) (smp_h w H c i)))) / INR (prodl sh) <= eta.
Proof.
  intros L om eps mu J E H DE DH M d e1 m0 HL Hom Hd He1 Hm0 He Hm HE HH MxE MxH eta Heta.
  set (k := (1 / d + (e1 / d + 1) / m0) / om). set (Q := L 0%nat * L 0%nat + L 1%nat * L 1%nat + L 2%nat * L 2%nat).
  set (x := k * M * Q * (k * M * Q) / 48). assert (X0 : 0 <= x). { unfold x. apply Rmult_le_pos; [apply Rle_0_sqr|lra]. }
  assert (Ar : exists n : nat, x < INR n * eta).
  { exists (Z.to_nat (up (x / eta))). destruct (archimed (x / eta)) as (A & _).
    assert (P : 0 <= x / eta) by (apply Rmult_le_pos; [exact X0|left; now apply Rinv_0_lt_compat]).
    assert (Z0 : (0 <= up (x / eta))%Z) by (apply le_IZR; lra). rewrite INR_IZR_INZ, Z2Nat.id by exact Z0.
    apply Rgt_lt in A. apply (Rmult_lt_compat_r eta) in A; [|exact Heta]. replace (x / eta * eta) with x in A by (field; lra). exact A. }
  destruct Ar as (n & Hn). exists (S n). intros sh e HS Hdim w W Hsol h.
  assert (N : forall a, (a < 3)%nat -> INR (S n) <= INR (dim sh a)) by (intros a Ha; apply le_INR; now apply Hdim).
  assert (N1 : 1 <= INR (S n)) by (rewrite S_INR; pose proof (pos_INR n); lra).
  assert (Hw : forall a, (a < 3)%nat -> 0 < w a) by (intros a Ha; apply Rdiv_lt_0_compat; [now apply HL|pose proof (N a Ha); lra]).
  assert (EL : forall a, (a < 3)%nat -> L a = INR (dim sh a) * w a) by (intros a Ha; unfold w; pose proof (N a Ha); field; lra).
  pose proof (C163_second_order sh w om eps mu J E H DE DH M d e1 m0 e HS Hom Hw Hd He1 Hm0 He Hm (smooth_field_ext _ _ _ _ _ EL HE) (smooth_field_ext _ _ _ _ _ EL HH) MxE MxH Hsol) as B.
  cbv zeta in B. fold k in B. fold h in B. eapply Rle_trans; [exact B|].
  set (s := w 0%nat * w 0%nat + w 1%nat * w 1%nat + w 2%nat * w 2%nat).
  assert (Ws : forall a, (a < 3)%nat -> w a * w a * INR (S n) <= L a * L a).
  { intros a Ha. rewrite (EL a Ha). pose proof (Hw a Ha) as P. pose proof (N a Ha) as P1. set (y := INR (dim sh a)) in *. set (z := INR (S n)) in *.
    replace (y * w a * (y * w a)) with (w a * w a * (y * y)) by ring. apply Rmult_le_compat_l; [apply Rle_0_sqr|]. apply Rle_trans with (y * 1); [lra|apply Rmult_le_compat_l; lra]. }
  assert (Ss : s * INR (S n) <= Q). { unfold s, Q. pose proof (Ws 0%nat ltac:(lia)). pose proof (Ws 1%nat ltac:(lia)). pose proof (Ws 2%nat ltac:(lia)). lra. }
  assert (S0 : 0 <= s) by (unfold s; pose proof (Rle_0_sqr (w 0%nat)); pose proof (Rle_0_sqr (w 1%nat)); pose proof (Rle_0_sqr (w 2%nat)); unfold Rsqr in *; lra).
  assert (E1 : k * M * s * (k * M * s) / 48 * INR (S n) <= x).
  { unfold x. set (z := INR (S n)) in *. assert (Y : s * s * z <= Q * Q). { assert (s * s * z <= (s * z) * (s * z)); [|assert (0 <= s * z) by (apply Rmult_le_pos; lra); apply Rle_trans with (s * z * (s * z)); [assumption|apply Rmult_le_compat; lra]]. assert (s * s * z <= s * s * (z * z)); [|lra]. apply Rmult_le_compat_l; [apply Rle_0_sqr|]. apply Rle_trans with (z * 1); [lra|apply Rmult_le_compat_l; lra]. }
    replace (k * M * s * (k * M * s) / 48 * z) with (k * M * (k * M) / 48 * (s * s * z)) by field. replace (k * M * Q * (k * M * Q) / 48) with (k * M * (k * M) / 48 * (Q * Q)) by field.
    apply Rmult_le_compat_l; [|exact Y]. apply Rmult_le_pos; [apply Rle_0_sqr|lra]. }
  apply (Rmult_le_reg_r (INR (S n))); [lra|]. eapply Rle_trans; [exact E1|].
  rewrite Rmult_comm in Hn.
  rewrite S_INR. lra.
Qed.
Print Assumptions C163_converges.

(** E_y = sin x and H_z = i cos x with J_y = - sin x in a medium of permittivity 1 - i, on a
    domain of period 2 pi. *)
Lemma along_x (g g1 g2 g3 : R -> R) a : (forall t, derivable_pt_lim g t (g1 t)) -> (forall t, derivable_pt_lim g1 t (g2 t)) -> (forall t, derivable_pt_lim g2 t (g3 t)) ->
  (forall t, Rabs (g3 t) <= 1) -> (a < 3)%nat ->
  diff3 a (fun p => g (fst (fst p))) (fun p => if Nat.eqb a 0 then g1 (fst (fst p)) else 0) 1.
Proof.
  intros D1 D2 D3 B Ha. assert (T : forall f f' : R -> R, (forall t, derivable_pt_lim f t (f' t)) -> pd 0 (fun p => f (fst (fst p))) (fun p => f' (fst (fst p)))).
  { intros f f' D [[x y] z] eps He. destruct (D x eps He) as (dl & Q). exists dl. intros h Hn Hl. cbn [mvp fst]. rewrite Rplus_0_l, Rplus_0_r. now apply Q. }
  assert (C : forall (f : R -> R), a <> 0%nat -> pd a (fun p => f (fst (fst p))) (fun _ => 0)).
  { intros f N [[x y] z]. apply (d_ext (fct_cte (f x))); [|apply derivable_pt_lim_const]. intro t. destruct a as [|[|a]]; [contradiction| |]; reflexivity. }
  destruct a as [|a].
  - exists (fun p => g2 (fst (fst p))), (fun p => g3 (fst (fst p))). cbn [Nat.eqb]. repeat split; try (now apply T). intro p. apply B.
  - exists (fun _ => 0), (fun _ => 0). cbn [Nat.eqb]. split; [apply (C g); lia|]. split; [apply (C (fun _ => 0)); lia|]. split; [apply (C (fun _ => 0)); lia|]. intro p. rewrite Rabs_R0. lra.
Qed.
Lemma flat a : (a < 3)%nat -> diff3 a (fun _ => 0) (fun _ => 0) 1.
Proof.
  intro Ha. assert (Z : pd a (fun _ => 0) (fun _ => 0)). { intro p. apply (d_ext (fct_cte 0)); [reflexivity|apply derivable_pt_lim_const]. }
  exists (fun _ => 0), (fun _ => 0). repeat split; try exact Z. intro. rewrite Rabs_R0. lra.
Qed.
Lemma diff3_ext a F G F1 G1 M : (forall p, F p = G p) -> (forall p, F1 p = G1 p) -> diff3 a F F1 M -> diff3 a G G1 M.
Proof.
  intros E1 E2 (F2 & F3 & A & B & C & Bd). exists F2, F3. split; [|split; [|split; assumption]].
  - intro p. rewrite <- E2. apply (d_ext (fun t => F (mvp a t p))); [intro; apply E1|apply A].
  - intro p. apply (d_ext (fun t => F1 (mvp a t p))); [intro; apply E2|apply B].
Qed.
Example C163_case :
  let L := fun a : nat => if Nat.eqb a 0 then 2 * PI else 1 in
  let xof := fun p : pt => fst (fst p) in
  let E := fun c p => if Nat.eqb c 1 then mkC (sin (xof p)) 0 else c0 in
  let H := fun c p => if Nat.eqb c 2 then mkC 0 (cos (xof p)) else c0 in
  let DE := fun a c p => if Nat.eqb a 0 && Nat.eqb c 1 then mkC (cos (xof p)) 0 else c0 in
  let DH := fun a c p => if Nat.eqb a 0 && Nat.eqb c 2 then mkC 0 (- sin (xof p)) else c0 in
  let J := fun c p => if Nat.eqb c 1 then mkC (- sin (xof p)) 0 else c0 in
  let eps := fun (_ : nat) (_ : pt) => mkC 1 (-1) in
  let mu := fun (_ : nat) (_ : pt) => c1 in
  smooth_field L E DE 1 /\ smooth_field L H DH 1
  /\ (forall c p, (c < 3)%nat -> curl_of DE c p = copp (cmul (cmul (cmul ci (mkC 1 0)) (mu c p)) (H c p)))
  /\ (forall c p, (c < 3)%nat -> curl_of DH c p = cadd (cmul (cmul (cmul ci (mkC 1 0)) (eps c p)) (E c p)) (J c p))
  /\ (forall c p, (c < 3)%nat -> cim (eps c p) <= - (1) /\ cre (eps c p) <= 1)
  /\ (forall c p, (c < 3)%nat -> cim (mu c p) <= 0 /\ 1 <= cre (mu c p)).
Proof.
  cbv zeta.
  assert (Ds : forall t, derivable_pt_lim sin t (cos t)) by (intro; apply derivable_pt_lim_sin).
  assert (Dc : forall t, derivable_pt_lim cos t (- sin t)) by (intro; apply derivable_pt_lim_cos).
  assert (Dns : forall t, derivable_pt_lim (fun s => - sin s) t (- cos t)) by (intro; apply derivable_pt_lim_opp; apply Ds).
  assert (Dnc : forall t, derivable_pt_lim (fun s => - cos s) t (- - sin t)) by (intro; apply derivable_pt_lim_opp; apply Dc).
  assert (Bs : forall t, Rabs (- cos t) <= 1) by (intro t; rewrite Rabs_Ropp; apply Rabs_le; pose proof (COS_bound t); lra).
  assert (Bc : forall t, Rabs (- - sin t) <= 1) by (intro t; rewrite Ropp_involutive; apply Rabs_le; pose proof (SIN_bound t); lra).
  split; [|split; [|split; [|split; [|split]]]].
  - split.
    + intros c a [[x y] z] Hc Ha. destruct a as [|[|a]]; cbn [Nat.eqb mvp fst]; try reflexivity. destruct (Nat.eqb c 1); [|reflexivity]. f_equal. now rewrite (sin_period x 1%nat) || (replace (x + 2 * PI) with (x + 2 * INR 1 * PI) by (cbn; ring); apply sin_period).
    + intros c a Hc Ha. destruct (Nat.eqb_spec c 1) as [->|N].
      * split; [|eapply diff3_ext; [| |apply (flat a Ha)]; intro p; destruct (Nat.eqb a 0); reflexivity].
        eapply diff3_ext; [| |apply (along_x sin cos (fun s => - sin s) (fun s => - cos s) a); try assumption]; intro p; [reflexivity|]. destruct (Nat.eqb a 0); reflexivity.
      * split; (eapply diff3_ext; [| |apply (flat a Ha)]; intro p; rewrite ?andb_false_r; try reflexivity; destruct (Nat.eqb a 0); reflexivity).
  - split.
    + intros c a [[x y] z] Hc Ha. destruct a as [|[|a]]; cbn [Nat.eqb mvp fst]; try reflexivity. destruct (Nat.eqb c 2); [|reflexivity]. f_equal. replace (x + 2 * PI) with (x + 2 * INR 1 * PI) by (cbn; ring). apply cos_period.
    + intros c a Hc Ha. destruct (Nat.eqb_spec c 2) as [->|N].
      * split; [eapply diff3_ext; [| |apply (flat a Ha)]; intro p; destruct (Nat.eqb a 0); reflexivity|].
        eapply diff3_ext; [| |apply (along_x cos (fun s => - sin s) (fun s => - cos s) (fun s => - - sin s) a); try assumption]; intro p; [reflexivity|]. destruct (Nat.eqb a 0); reflexivity.
      * split; (eapply diff3_ext; [| |apply (flat a Ha)]; intro p; rewrite ?andb_false_r; try reflexivity; destruct (Nat.eqb a 0); reflexivity).
  - intros c p Hc. destruct c as [|[|[|c]]]; [| | |lia]; apply cpx_ext; cbn; ring.
  - intros c p Hc. destruct c as [|[|[|c]]]; [| | |lia]; apply cpx_ext; cbn; ring.
  - intros c p Hc. cbn. lra.
  - intros c p Hc. cbn. lra.
Qed.
