(** Errors of FDTD runs as runs driven by the truncation errors. *)
From Coq Require Import List Arith ZArith Lia Field Bool Reals Lra Psatz.
From Verif.Lib Require Import Num Sums Idx Mat RealF.
From Verif.Model Require Import Fdmath Fdtd.
From Verif.Spec Require Import Yee FdtdRun HarmonicSpec DispersionSpec SmoothSpec.
From Verif.Proofs Require Import FdmathP FdmathP2 FdtdP FdtdP2 CflP DrivenP HarmonicP2 LossyP NumDispP TaylorP.
Import ListNotations.
Local Open Scope R_scope.

Section R.
  Variable sh : list nat.
  Variables we wh : widths RF.
  Variables d0 d1 d2 : R.
  Hypothesis HL : length sh = 3%nat.
  Hypothesis Hd0 : 0 < d0.
  Hypothesis Hd1 : 0 < d1.
  Hypothesis Hd2 : 0 < d2.
  Hypothesis Hw : forall a i, (a < 3)%nat -> (i < dim sh a)%nat -> dmin d0 d1 d2 a <= we a i /\ dmin d0 d1 d2 a <= wh a i.
  Variable dt : R.
  Variable eps : field RF.
  Variable mu : option (field RF).
  Variables eps0 mu0 : R.
  Hypothesis Heps0 : 0 < eps0.
  Hypothesis Hmu0 : 0 < mu0.
  Hypothesis Heps : forall c idx, (c < 3)%nat -> inb sh idx -> eps0 <= eps c idx.
  Hypothesis Hmu : forall c idx, (c < 3)%nat -> inb sh idx -> mu0 <= matl mu c idx.
  Let d : dxes_t RF := Some (we, wh).
  Notation q0 := (q d0 d1 d2 dt eps0 mu0).
  Hypothesis Hq : q0 < 1.
  Notation U s := (yee_E RF sh dt d eps mu s).
  Notation nH g := (nrmH sh we wh mu g).

  Definition kicked (g : field RF) (s : state RF) : state RF := mkst (sE s) (fun c i => sH s c i + g c i).

  Lemma U_split s : U s = nrmE sh we wh eps (sE s) + mid2 sh we wh dt mu (sE s) (sH s) - dt * dt / 4 * curl1 sh we wh mu (sE s).
  Proof. exact (gsum_split_E sh we wh HL dt eps mu eps0 mu0 Hmu0 Heps Hmu s). Qed.
  Lemma U_pos s : 0 <= U s.
  Proof. exact (proj2 (ee_U sh we wh d0 d1 d2 HL Hd0 Hd1 Hd2 Hw dt eps mu eps0 mu0 Heps0 Hmu0 Heps Hmu Hq s)). Qed.
  Lemma U_kick g s : exists B, forall t, U (kicked (fun c i => t * g c i) s) = U s + 2 * t * B + t * t * nH g.
  Proof.
    exists (fsum (K := RF) sh (fun c i => vol_h we wh c i * (matl mu c i * ((sH s c i - dt * curl_forward sh (Some we) (sE s) c i / (2 * matl mu c i)) * g c i)))).
    intro t. rewrite !U_split. cbn [kicked sE sH]. unfold mid2 at 1. cbn [kicked sH].
    match goal with |- _ + ?a - _ = _ => replace a with (mid2 sh we wh dt mu (sE s) (sH s)
      + (2 * t * fsum (K := RF) sh (fun c i => vol_h we wh c i * (matl mu c i * ((sH s c i - dt * curl_forward sh (Some we) (sE s) c i / (2 * matl mu c i)) * g c i)))
         + t * t * nH g)); [match goal with |- ?u = ?v => change (u = v :> R) end; ring|] end.
    unfold mid2, nrmH. rewrite <- !fsum_mul_r. rewrite <- fsum_add_r. rewrite <- (fsum_add_r sh).
    apply fsum_ext_r. intros c i Hc Hi. pose proof (Hmu c i Hc Hi). cbn [fadd fmul fsub fdiv RF] in *. match goal with |- ?a = ?b => change (a = b :> R) end. ring.
  Qed.
  Lemma nH_pos g : 0 <= nH g.
  Proof.
    apply fsum_nonneg_r. intros c i Hc Hi. pose proof (Hmu c i Hc Hi). pose proof (vol_h_pos sh we wh d0 d1 d2 HL Hd0 Hd1 Hd2 Hw c i Hi).
    apply Rmult_le_pos; [lra|]. apply Rmult_le_pos; [lra|apply Rle_0_sqr].
  Qed.
  Lemma kick g s : sqrt (U (kicked g s)) <= sqrt (U s) + sqrt (nH g).
  Proof.
    destruct (U_kick g s) as (B & Q).
    assert (C : B * B <= U s * nH g).
    { apply quad_cs; [|apply nH_pos]. intro t. pose proof (Q (- t)) as X. pose proof (U_pos (kicked (fun c i => (- t) * g c i) s)) as P. rewrite X in P. lra. }
    assert (E : U (kicked g s) = U s + 2 * B + nH g).
    { transitivity (U (kicked (fun c i => 1 * g c i) s)); [|rewrite Q; match goal with |- ?u = ?v => change (u = v :> R) end; ring]. rewrite !U_split. cbn [kicked sE sH]. f_equal. f_equal. unfold mid2. apply fsum_ext_r. intros c i _ _. cbn. now rewrite Rmult_1_l. }
    rewrite E. pose proof (sqrt_sqrt _ (U_pos s)) as S1. pose proof (sqrt_sqrt _ (nH_pos g)) as S2. pose proof (sqrt_pos (U s)) as P1. pose proof (sqrt_pos (nH g)) as P2.
    set (x := sqrt (U s)) in *. set (y := sqrt (nH g)) in *.
    assert (Bxy : B <= x * y). { apply Rsqr_incr_0_var; [|now apply Rmult_le_pos]. unfold Rsqr. replace (x * y * (x * y)) with (x * x * (y * y)) by ring. rewrite S1, S2. exact C. }
    rewrite <- (sqrt_square (x + y)) by lra. apply sqrt_le_1_alt. rewrite <- S1, <- S2. clear - Bxy. nra.
  Qed.
  Lemma U_ext s s' : seq_st sh s s' -> U s = U s'.
  Proof.
    intros [A B].
    assert (Cu : forall c i, (c < 3)%nat -> inb sh i -> curl_forward sh (Some we) (sE s) c i = curl_forward sh (Some we) (sE s') c i).
    { intros c i Hc Hi. apply (curl_forward_ext RF); [lia|assumption|]. intros k j Hk Hj. now apply A. }
    rewrite !U_split. f_equal; [f_equal|f_equal].
    - unfold nrmE. apply fsum_ext_r. intros c i Hc Hi. now rewrite (A c i Hc Hi).
    - unfold mid2. apply fsum_ext_r. intros c i Hc Hi. now rewrite (B c i Hc Hi), (Cu c i Hc Hi).
    - unfold curl1. apply fsum_ext_r. intros c i Hc Hi. now rewrite (Cu c i Hc Hi).
  Qed.

  (** A sequence of states with a kick of H and a current in every step. *)
  Lemma conv_run (a : nat -> state RF) (g j : nat -> field RF) (bg bj : R) N :
    (forall n, (n < N)%nat -> seq_st sh (a (S n)) (step sh dt d eps mu (j n) (kicked (g n) (a n)))) ->
    (forall n, (n < N)%nat -> sqrt (nH (g n)) <= bg) -> (forall n, (n < N)%nat -> sqrt (jj sh we wh eps (j n)) <= bj) ->
    sqrt (U (a N)) <= sqrt (U (a 0%nat)) + INR N * (bg + bj / sqrt (1 - q0)).
  Proof.
    induction N as [|N IH]; intros Hs Hg Hj; [cbn; lra|].
    assert (I : sqrt (U (a N)) <= sqrt (U (a 0%nat)) + INR N * (bg + bj / sqrt (1 - q0))) by (apply IH; intros; [apply Hs|apply Hg|apply Hj]; lia).
    rewrite (U_ext _ _ (Hs N ltac:(lia))).
    pose proof (driven_step sh we wh d0 d1 d2 HL Hd0 Hd1 Hd2 Hw dt eps mu eps0 mu0 Heps0 Hmu0 Heps Hmu Hq (j N) (kicked (g N) (a N))) as D. fold d in D.
    pose proof (kick (g N) (a N)) as K. pose proof (Hg N ltac:(lia)) as G. pose proof (Hj N ltac:(lia)) as J.
    assert (Qp : 0 < sqrt (1 - q0)) by (apply sqrt_lt_R0; lra).
    assert (J2 : sqrt (jj sh we wh eps (j N)) / sqrt (1 - q0) <= bj / sqrt (1 - q0)) by (unfold Rdiv; apply Rmult_le_compat_r; [left; now apply Rinv_0_lt_compat|exact J]).
    rewrite S_INR. lra.
  Qed.
End R.

(** Truncation errors of the two curls and of the time differences. *)
Lemma shift_lim f f' t0 t : derivable_pt_lim f (t0 + t) (f' (t0 + t)) -> derivable_pt_lim (fun s => f (t0 + s)) t (f' (t0 + t)).
Proof.
  intro D. intros e He. destruct (D e He) as (dl & Q). exists dl. intros h Hn Hl. rewrite <- Rplus_assoc. now apply Q.
Qed.
Lemma central_t f f1 f2 f3 M h t : (forall t, derivable_pt_lim f t (f1 t)) -> (forall t, derivable_pt_lim f1 t (f2 t)) -> (forall t, derivable_pt_lim f2 t (f3 t)) ->
  (forall t, Rabs (f3 t) <= M) -> 0 < h -> Rabs (f (t + h / 2) - f (t - h / 2) - h * f1 t) <= h * (M * (h * h) / 24).
Proof.
  intros D1 D2 D3 B Hh.
  pose proof (central (fun s => f (t + s)) (fun s => f1 (t + s)) (fun s => f2 (t + s)) (fun s => f3 (t + s)) M h
    ltac:(intro s; apply (shift_lim f f1); apply D1) ltac:(intro s; apply (shift_lim f1 f2); apply D2) ltac:(intro s; apply (shift_lim f2 f3); apply D3) ltac:(intro s; apply B) Hh) as C.
  cbv beta in C. rewrite Rplus_0_r in C. change (t - h / 2) with (t + - (h / 2)).
  replace (f (t + h / 2) - f (t + - (h / 2)) - h * f1 t) with (h * ((f (t + h / 2) - f (t + - (h / 2))) / h - f1 t)) by (field; lra).
  rewrite Rabs_mult, (Rabs_right h) by lra. apply Rmult_le_compat_l; [lra|exact C].
Qed.

Lemma diff3_M a F F1 M : diff3 a F F1 M -> 0 <= M.
Proof. intros (F2 & F3 & _ & _ & _ & B). pose proof (B (0, 0, 0)). pose proof (Rabs_pos (F3 (0, 0, 0))). lra. Qed.
Lemma flatM a M : 0 <= M -> diff3 a (fun _ => 0) (fun _ => 0) M.
Proof.
  intro Ha. assert (Z : pd a (fun _ => 0) (fun _ => 0)). { intro p. apply (d_ext (fct_cte 0)); [reflexivity|apply derivable_pt_lim_const]. }
  exists (fun _ => 0), (fun _ => 0). repeat split; try exact Z. intro. now rewrite Rabs_R0.
Qed.

Section B.
  Variable sh : list nat.
  Variable w : nat -> R.
  Hypothesis HL : length sh = 3%nat.
  Hypothesis Hw : forall a, (a < 3)%nat -> 0 < w a.
  Let W := uniw (K := RF) w.
  Let S2 := w 0%nat * w 0%nat + w 1%nat * w 1%nat + w 2%nat * w 2%nat.
  Lemma nzW : nzw (K := RF) sh W.
  Proof. intros a i Ha Hi. unfold W, uniw. pose proof (Hw a ltac:(lia)). cbn. lra. Qed.

  Section C.
    Variable F : nat -> pt -> R.
    Variable D : nat -> nat -> pt -> R.
    Variable M : R.
    Hypothesis Per : forall c a p, (c < 3)%nat -> (a < 3)%nat -> F c (mvp a (INR (dim sh a) * w a) p) = F c p.
    Hypothesis Dif : forall c a, (c < 3)%nat -> (a < 3)%nat -> diff3 a (F c) (D a c) M.
    Let Fc := fun c p => mkC (F c p) 0.
    Let Dc := fun a c p => mkC (D a c p) 0.
    Lemma lift_smooth : smooth_field (fun a => INR (dim sh a) * w a) Fc Dc M.
    Proof.
      split.
      - intros c a p Hc Ha. unfold Fc. f_equal. now apply Per.
      - intros c a Hc Ha. split; [exact (Dif c a Hc Ha)|]. apply (flatM a). exact (diff3_M _ _ _ _ (Dif c a Hc Ha)).
    Qed.
    Lemma curl_lift c p : (c < 3)%nat -> cre (curl_of Dc c p) = curl_re D c p.
    Proof. intro Hc. destruct c as [|[|[|c]]]; [| | |lia]; reflexivity. Qed.
    Lemma fwd_re c i : (c < 3)%nat -> inb sh i -> Rabs (curl_forward (K := RF) sh (Some W) (smp_e w F) c i - curl_re D c (pos_h w c i)) <= M * S2 / 24.
    Proof.
      intros Hc Hi. destruct (curl_f_close sh w HL Hw Fc Dc M lift_smooth c i Hc Hi) as [A _].
      rewrite (curl_lift c _ Hc) in A. pose proof (re_curl_forward sh W HL nzW (smp_e w Fc) c i Hc Hi) as E.
      refine (Rle_trans _ _ _ (Req_le _ _ _) A). f_equal. f_equal. exact E.
    Qed.
    Lemma back_re c i : (c < 3)%nat -> inb sh i -> Rabs (curl_back (K := RF) sh (Some W) (smp_h w F) c i - curl_re D c (pos_e w c i)) <= M * S2 / 24.
    Proof.
      intros Hc Hi. destruct (curl_b_close sh w HL Hw Fc Dc M lift_smooth c i Hc Hi) as [A _].
      rewrite (curl_lift c _ Hc) in A. pose proof (re_curl_back sh W HL nzW (smp_h w Fc) c i Hc Hi) as E.
      refine (Rle_trans _ _ _ (Req_le _ _ _) A). f_equal. f_equal. exact E.
    Qed.
  End C.
End B.
