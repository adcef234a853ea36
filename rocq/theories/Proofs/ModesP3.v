(** Modes: time-domain runs, and how resonances depend on the materials. *)
From Coq Require Import Reals List Arith ZArith Lia Lra Psatz Bool Field.
From Verif.Lib Require Import Num Sums Idx Mat RealF Elim BoxMin.
From Verif.Model Require Import Fdmath Fdtd Fdfd.
From Verif.Spec Require Import Grid Yee FdtdRun FdfdSpec HarmonicSpec ModesSpec.
From Verif.Proofs Require Import FdmathP FdmathP2 FdtdP2 FdfdP GridP CflP HarmonicP SpectralP ModesP ModesP2.
Import ListNotations.
Local Open Scope R_scope.

(** ** Two-term recurrences *)
Lemma pair_rec (f : nat -> R) (P : nat -> Prop) : P 0%nat -> P 1%nat -> (forall N, P N -> P (S N) -> P (S (S N))) -> forall N, P N.
Proof. intros A B C N. enough (P N /\ P (S N)) by tauto. induction N as [|N IH]; [tauto|]. split; [tauto|]. now apply C. Qed.
Lemma osc (c : nat -> R) (k th : R) : 2 - 2 * cos th = k -> sin th <> 0 ->
  (forall N, c (S (S N)) - 2 * c (S N) + c N = - k * c (S N)) ->
  forall N, c N = c 0%nat * cos (INR N * th) + (c 1%nat - c 0%nat * cos th) / sin th * sin (INR N * th).
Proof.
  intros Ek Hs Hc. apply (pair_rec c).
  - cbn [INR]. rewrite Rmult_0_l, cos_0, sin_0. ring.
  - cbn [INR]. rewrite Rmult_1_l. field. exact Hs.
  - intros N H0 H1. replace (c (S (S N))) with ((2 - k) * c (S N) - c N) by (specialize (Hc N); lra).
    replace (2 - k) with (2 * cos th) by lra.
    set (x := (c 1%nat - c 0%nat * cos th) / sin th) in *. rewrite H0, H1. rewrite !S_INR.
    replace ((INR N + 1 + 1) * th) with ((INR N + 1) * th + th) by ring. replace (INR N * th) with ((INR N + 1) * th - th) by ring.
    rewrite cos_plus, cos_minus, sin_plus, sin_minus. ring.
Qed.
Lemma grow (c : nat -> R) (k : R) : 4 <= k -> c 0%nat = 1 -> c 1%nat = 1 - k -> (forall N, c (S (S N)) - 2 * c (S N) + c N = - k * c (S N)) ->
  forall N, 1 + 2 * INR N <= (-1) ^ N * c N.
Proof.
  intros Hk H0 H1 Hc. enough (Q : forall N, 1 + 2 * INR N <= (-1) ^ N * c N /\ 2 <= (-1) ^ (S N) * c (S N) - (-1) ^ N * c N) by (intro N; apply Q).
  induction N as [|N (A & B)]; [rewrite H0, H1; cbn; lra|].
  assert (A' : 1 + 2 * INR (S N) <= (-1) ^ S N * c (S N)) by (rewrite S_INR; lra). split; [exact A'|].
  replace (c (S (S N))) with ((2 - k) * c (S N) - c N) by (specialize (Hc N); lra). pose proof (pos_INR (S N)). cbn [pow] in *. set (p := (-1) ^ N) in *. nra.
Qed.

Lemma above (x : R) : exists N, x < INR N.
Proof.
  exists (Z.to_nat (up x)). destruct (archimed x) as (A & _). destruct (Z_le_gt_dec 0 (up x)) as [P|P].
  - rewrite INR_IZR_INZ, Z2Nat.id by exact P. lra.
  - assert (IZR (up x) <= 0) by (apply IZR_le; lia). pose proof (pos_INR (Z.to_nat (up x))). lra.
Qed.
Lemma finite_min m (f : nat -> R) : (forall i, (i < m)%nat -> 0 < f i) -> exists d, 0 < d /\ forall i, (i < m)%nat -> d <= f i.
Proof.
  induction m as [|m IH]; intro H; [exists 1; split; [lra|intros; lia]|]. destruct (IH ltac:(intros; apply H; lia)) as (d & Hd & Hm). exists (Rmin d (f m)). split; [apply Rmin_pos; [exact Hd|apply H; lia]|].
  intros i Hi. destruct (Nat.eq_dec i m) as [->|]; [apply Rmin_r|]. eapply Rle_trans; [apply Rmin_l|]. apply Hm. lia.
Qed.
Lemma field_min sh (f : field RF) : (forall c i, (c < 3)%nat -> inb sh i -> 0 < f c i) -> exists d, 0 < d /\ forall c i, (c < 3)%nat -> inb sh i -> d <= f c i.
Proof.
  intro H. destruct (finite_min (3 * prodl sh) (vec (K := RF) sh f)) as (d & Hd & Hm).
  - intros q Hq. destruct (split3 sh q Hq) as (c & p & -> & Hc & Hp). rewrite (vec_at RF) by exact Hp. apply H; [exact Hc|now apply inb_unravel].
  - exists d. split; [exact Hd|]. intros c i Hc Hi. rewrite <- (vec_offset RF sh f c i Hi). apply Hm. apply lt3; [exact Hc|now apply ravel_lt].
Qed.

Section M.
  Variables (sh : list nat) (we wh : widths RF) (eps : field RF) (mu : option (field RF)).
  Hypothesis LL : lossless sh we wh eps mu.
  Notation n := (3 * prodl sh)%nat.
  Notation fs := (fsum (K := RF) sh).
  Notation pd := (e_dot sh we wh eps).
  Notation cd := (c_dot sh we wh mu).
  Notation cn := (curl_next (K := RF) sh (Some we)).

  Variables (V : nat -> field RF) (lam : nat -> R).
  Hypothesis Mo : modes sh we wh eps mu V lam.
  Variable dt : R.
  Notation stp := (step (K := RF) sh dt (Some (we, wh)) eps mu).
  Notation rn := (run (K := RF) sh dt (Some (we, wh)) eps mu).

  Definition gh (a : nat) (H : field RF) : R := fs (fun c i => vol_h (K := RF) we wh c i * (H c i * cn (V a) c i)).
  Definition jd (a : nat) (J : field RF) : R := fs (fun c i => vol_e (K := RF) we wh c i * (V a c i * J c i)).
  Lemma gh_step a j s : (a < n)%nat -> gh a (sH (stp j s)) = gh a (sH s) - dt * lam a * pd (V a) (sE s).
  Proof.
    intro Ha. unfold step. cbn [sH]. assert (E : dt * lam a * pd (V a) (sE s) = dt * cd (V a) (sE s)) by (rewrite (m_cd sh we wh eps mu LL V lam Mo a (sE s) Ha); rring).
    rewrite E. unfold gh, c_dot. rewrite <- fs_scale. to_model.
    assert (Q : forall f g h, (forall c i, (c < 3)%nat -> inb sh i -> f c i = g c i + -1 * h c i) -> fs f = fs g - fs h).
    { intros f g h Hf. rewrite (fs_ext sh f (fun c i => g c i + -1 * h c i)) by exact Hf. rewrite fs_add, fs_scale. rring. }
    apply Q. intros c i Hc Hi. pose proof (mu_pos sh we wh eps mu LL c i Hc Hi) as P. unfold maxwell_h, matl in *. cbn [option_map fst]. to_model. destruct mu as [m|]; cbn [fmul fsub fdiv f1 RF] in *.
    - set (x := curl_forward _ _ (V a) c i). set (y := curl_forward _ _ (sE s) c i). req. field. lra.
    - set (x := curl_forward _ _ (V a) c i). set (y := curl_forward _ _ (sE s) c i). req. field.
  Qed.
  Lemma pd_step a j s : pd (V a) (sE (stp j s)) = pd (V a) (sE s) + dt * gh a (sH (stp j s)) + jd a j.
  Proof.
    unfold step. cbn [sE sH]. set (h := maxwell_h sh dt (Some (we, wh)) (sE s) (sH s) mu).
    pose proof (curl_adjoint RF sh we wh (V a) h (len3 sh we wh eps mu LL) (nz_e sh we wh eps mu LL) (nz_h sh we wh eps mu LL)) as Ad.
    unfold gh. to_model. change (fs (fun c i => vol_h (K := RF) we wh c i * (h c i * curl_forward (K := RF) sh (Some we) (V a) c i)) = fs (fun c i => vol_e (K := RF) we wh c i * (V a c i * curl_back (K := RF) sh (Some wh) h c i))) in Ad. rewrite Ad.
    rewrite <- fs_scale. unfold e_dot, jd. rewrite <- !fs_add. apply fs_ext. intros c i Hc Hi. pose proof (eps_pos sh we wh eps mu LL c i Hc Hi) as P. unfold maxwell_e. cbn [option_map snd fadd fmul fdiv RF].
    set (x := curl_back _ _ h c i). req. field. cbn in P. lra.
  Qed.
  Lemma rec2 a j1 j2 s : (a < n)%nat ->
    pd (V a) (sE (stp j2 (stp j1 s))) - 2 * pd (V a) (sE (stp j1 s)) + pd (V a) (sE s) = - (dt * dt * lam a) * pd (V a) (sE (stp j1 s)) + jd a j2 - jd a j1.
  Proof. intro Ha. rewrite (pd_step a j2), (gh_step a j2 _ Ha). rewrite (pd_step a j1 s). rring. Qed.
  Lemma run_S j N s : rn (repeat j (S N)) s = stp j (rn (repeat j N) s).
  Proof. rewrite <- (Nat.add_1_r N), repeat_app. unfold run. now rewrite fold_left_app. Qed.
  Lemma jd_noj a : jd a (noj (K := RF)) = 0.
  Proof. unfold jd. rewrite (fs_ext sh _ (fun _ _ => 0)); [apply fs_zero|]. intros. unfold noj. cbn. rring. Qed.

  Notation ce a N s := (pd (V a) (sE (rn (repeat (noj (K := RF)) N) s))).
  Lemma free_rec a s N : (a < n)%nat -> ce a (S (S N)) s - 2 * ce a (S N) s + ce a N s = - (dt * dt * lam a) * ce a (S N) s.
  Proof. intro Ha. rewrite !run_S, (rec2 a _ _ _ Ha), jd_noj. rring. Qed.
  Lemma static_curl a c i : (a < n)%nat -> lam a = 0 -> (c < 3)%nat -> inb sh i -> cn (V a) c i = 0.
  Proof.
    intros Ha Z Hc Hi. pose proof (m_cd sh we wh eps mu LL V lam Mo a (V a) Ha) as E. rewrite Z, Rmult_0_l in E.
    assert (NN : forall c i, (c < 3)%nat -> inb sh i -> 0 <= vol_h (K := RF) we wh c i * (cn (V a) c i * cn (V a) c i / matl (K := RF) mu c i)).
    { intros c' i' Hc' Hi'. pose proof (vh_pos sh we wh eps mu LL c' i' Hi'). pose proof (mu_pos sh we wh eps mu LL c' i' Hc' Hi'). apply Rmult_le_pos; [lra|].
      apply Rmult_le_pos; [apply Rle_0_sqr|]. left. now apply Rinv_0_lt_compat. }
    pose proof (fs_point sh (fun c i => vol_h (K := RF) we wh c i * (cn (V a) c i * cn (V a) c i / matl (K := RF) mu c i)) c i NN Hc Hi) as P. cbv beta in P. unfold c_dot in E. rewrite E in P.
    pose proof (vh_pos sh we wh eps mu LL c i Hi) as Pv. pose proof (mu_pos sh we wh eps mu LL c i Hc Hi) as Pm. 
    set (x := cn (V a) c i) in *. destruct (Req_EM_T x 0) as [|N]; [assumption|exfalso].
    assert (0 < vol_h (K := RF) we wh c i * (x * x / matl (K := RF) mu c i)); [|lra]. apply Rmult_lt_0_compat; [exact Pv|]. apply Rmult_lt_0_compat; [|now apply Rinv_0_lt_compat]. exact (Rlt_0_sqr x N).
  Qed.
  Lemma static_step a j s : (a < n)%nat -> lam a = 0 -> pd (V a) (sE (stp j s)) = pd (V a) (sE s) + jd a j.
  Proof.
    intros Ha Z. rewrite pd_step. assert (G : gh a (sH (stp j s)) = 0); [|rewrite G; rring]. unfold gh. rewrite (fs_ext sh _ (fun _ _ => 0)); [apply fs_zero|]. intros c i Hc Hi. rewrite (static_curl a c i Ha Z Hc Hi). rring.
  Qed.

  (** Rayleigh quotients *)
  Lemma pd_parseval F : pd F F = rs n (fun a => pd (V a) F * pd (V a) F).
  Proof.
    rewrite (pd_ext sh we wh eps F F F (fun c i => rs n (fun a => pd (V a) F * V a c i))); [|intros c i _ _; reflexivity|exact (m_basis _ _ _ _ _ _ _ Mo F)].
    rewrite pd_sum. apply rs_ext. intros a Ha. now rewrite (pd_sym sh we wh eps F (V a)).
  Qed.
  Lemma cd_parseval F : cd F F = rs n (fun a => lam a * (pd (V a) F * pd (V a) F)).
  Proof.
    rewrite (cd_wv sh we wh eps mu LL).
    rewrite (fs_ext sh _ (fun c i => rs n (fun a => pd (V a) F * (vol_e (K := RF) we wh c i * (V a c i * wv sh we wh mu F c i))))).
    - rewrite fs_sum. apply rs_ext. intros a Ha. rewrite fs_scale. rewrite <- (cd_wv sh we wh eps mu LL), (m_cd sh we wh eps mu LL V lam Mo a F Ha). rring.
    - intros c i Hc Hi. rewrite (m_basis _ _ _ _ _ _ _ Mo F c i Hc Hi) at 1.
      rewrite (Rmult_comm (sumN _ _)), <- Rmult_assoc. refine (eq_trans (eq_sym (rs_scale n _ _)) _). apply rs_ext. intros. rring.
  Qed.

  Hypothesis Hdt : forall a, (a < n)%nat -> dt * dt * lam a < 4.
  Lemma q_bound : exists q, 0 <= q < 1 /\ forall F, dt * dt / 4 * cd F F <= q * pd F F.
  Proof.
    assert (Z : exists q, 0 <= q < 1 /\ forall a, (a < n)%nat -> dt * dt / 4 * lam a <= q).
    { destruct (Nat.eq_dec n 0) as [E|N]; [exists 0; split; [lra|]; intros; lia|]. exists (dt * dt / 4 * lam (n - 1)%nat).
      pose proof (Hdt (n - 1)%nat ltac:(lia)). pose proof (m_pos _ _ _ _ _ _ _ Mo (n - 1)%nat ltac:(lia)).
      assert (0 <= dt * dt) by apply Rle_0_sqr. split; [split; [apply Rmult_le_pos; lra|lra]|]. intros a Ha. apply Rmult_le_compat_l; [lra|]. apply (m_sorted _ _ _ _ _ _ _ Mo); lia. }
    destruct Z as (q & Hq & Hl). exists q. split; [exact Hq|]. intro F. rewrite cd_parseval, pd_parseval, <- !rs_scale. apply rs_le. intros a Ha. specialize (Hl a Ha).
    pose proof (Rle_0_sqr (pd (V a) F)) as S2. unfold Rsqr in S2. nra.
  Qed.
  Lemma stable_bound s : exists B, forall N, let s' := rn (repeat (noj (K := RF)) N) s in
    pd (sE s') (sE s') <= B /\ fs (fun c i => vol_h (K := RF) we wh c i * (matl (K := RF) mu c i * (sH s' c i * sH s' c i))) <= B.
  Proof.
    pose proof LL as (HL & Hw & Hm).
    destruct (field_min sh (matl (K := RF) mu)) as (mu0 & Pm & Lm); [intros; now apply Hm|].
    destruct (field_min sh eps) as (eps0 & Pe & Le); [intros; now apply Hm|].
    assert (Ds : forall a, (a < 3)%nat -> exists d, 0 < d /\ forall i, (i < dim sh a)%nat -> d <= we a i /\ d <= wh a i).
    { intros a Ha. destruct (finite_min (dim sh a) (we a)) as (x & Px & Lx); [intros; now apply Hw|]. destruct (finite_min (dim sh a) (wh a)) as (y & Py & Ly); [intros; now apply Hw|].
      exists (Rmin x y). split; [now apply Rmin_pos|]. intros i Hi. specialize (Lx i Hi). specialize (Ly i Hi). pose proof (Rmin_l x y). pose proof (Rmin_r x y). lra. }
    destruct (Ds 0%nat ltac:(lia)) as (d0 & P0 & L0). destruct (Ds 1%nat ltac:(lia)) as (d1 & P1 & L1). destruct (Ds 2%nat ltac:(lia)) as (d2 & P2 & L2).
    assert (Hd : forall a i, (a < 3)%nat -> (i < dim sh a)%nat -> dmin d0 d1 d2 a <= we a i /\ dmin d0 d1 d2 a <= wh a i).
    { intros a i Ha Hi. destruct a as [|[|[|a]]]; [now apply L0|now apply L1|now apply L2|lia]. }
    destruct q_bound as (q & Hq & Qb). set (d := Some (we, wh) : dxes_t RF). set (T := yee_E RF sh dt d eps mu s).
    exists (Rmax (T / (1 - q)) (2 * T + 4 * (q * (T / (1 - q))))). intros N s'.
    assert (ET : yee_E RF sh dt d eps mu s' = T).
    { unfold s', T. rewrite yee_E_run; [|exact HL|exact (Coq.Init.Logic.conj (nz_e sh we wh eps mu LL) (nz_h sh we wh eps mu LL))|exact (eps_nz sh eps eps0 Pe Le)|exact (mu_nz sh mu mu0 Pm Lm)].
      rewrite work_noj; [apply Rplus_0_r|]. intros e idx. unfold yee_work, csum, noj. cbn [fadd fmul f0 RF]. req. rring. }
    pose proof (gsum_split_E sh we wh HL dt eps mu eps0 mu0 Pm Le Lm s') as Sp. fold d in Sp. rewrite ET in Sp.
    pose proof (mid2_nonneg sh we wh d0 d1 d2 HL P0 P1 P2 Hd dt eps mu eps0 mu0 Pm Le Lm (sE s') (sH s')) as M0.
    pose proof (nrmH_bound sh we wh d0 d1 d2 HL P0 P1 P2 Hd dt eps mu eps0 mu0 Pm Le Lm (sE s') (sH s')) as NH.
    pose proof (Qb (sE s')) as Q. pose proof (pd_nonneg sh we wh eps mu LL (sE s')) as X0. change (pd (sE s') (sE s')) with (nrmE sh we wh eps (sE s')) in *. change (cd (sE s') (sE s')) with (curl1 sh we wh mu (sE s')) in Q.
    change (fs (fun c i => vol_h (K := RF) we wh c i * (matl (K := RF) mu c i * (sH s' c i * sH s' c i)))) with (nrmH sh we wh mu (sH s')).
    set (X := nrmE sh we wh eps (sE s')) in *. set (Y := mid2 sh we wh dt mu (sE s') (sH s')) in *. set (Z := dt * dt / 4 * curl1 sh we wh mu (sE s')) in *. set (NN := nrmH sh we wh mu (sH s')) in *. clearbody X Y Z NN T.
    assert (Xb : X <= T / (1 - q)).
    { apply Rmult_le_reg_r with (1 - q); [lra|]. unfold Rdiv. rewrite Rmult_assoc, Rinv_l by lra. lra. }
    split; [eapply Rle_trans; [exact Xb|apply Rmax_l]|]. eapply Rle_trans; [|apply Rmax_r].
    assert (q * X <= q * (T / (1 - q))) by (apply Rmult_le_compat_l; lra).
    lra.
  Qed.
  (** cell by cell *)
  Lemma sq_point f g B : (forall c i, (c < 3)%nat -> inb sh i -> 0 < f c i) -> exists M, forall F : field RF,
    fs (fun c i => f c i * (g c i * (F c i * F c i))) <= B -> (forall c i, (c < 3)%nat -> inb sh i -> 0 < g c i) -> forall c i, (c < 3)%nat -> inb sh i -> f c i * g c i * Rabs (F c i) <= M.
  Proof.
    intros Hf. exists (fs (fun c i => f c i * g c i) + B). intros F HB Hg c i Hc Hi.
    assert (P1 : 0 < f c i * g c i) by (apply Rmult_lt_0_compat; [now apply Hf|now apply Hg]).
    pose proof (fs_point sh (fun c i => f c i * g c i) c i) as A1. pose proof (fs_point sh (fun c i => f c i * (g c i * (F c i * F c i))) c i) as A2. cbv beta in A1, A2.
    assert (G1 : f c i * g c i <= fs (fun c i => f c i * g c i)).
    { apply A1; [|exact Hc|exact Hi]. intros c' i' Hc' Hi'. left. apply Rmult_lt_0_compat; [now apply Hf|now apply Hg]. }
    assert (G2 : f c i * (g c i * (F c i * F c i)) <= fs (fun c i => f c i * (g c i * (F c i * F c i)))).
    { apply A2; [|exact Hc|exact Hi]. intros c' i' Hc' Hi'. apply Rmult_le_pos; [left; now apply Hf|]. apply Rmult_le_pos; [left; now apply Hg|apply Rle_0_sqr]. }
    assert (Ab : Rabs (F c i) <= 1 + F c i * F c i). { unfold Rabs. destruct (Rcase_abs (F c i)); nra. }
    assert (f c i * g c i * Rabs (F c i) <= f c i * g c i * (1 + F c i * F c i)) by (apply Rmult_le_compat_l; lra). lra.
  Qed.
  Lemma stable_cells s : exists M, forall N c i, (c < 3)%nat -> inb sh i -> let s' := rn (repeat (noj (K := RF)) N) s in Rabs (sE s' c i) <= M /\ Rabs (sH s' c i) <= M.
  Proof.
    destruct (stable_bound s) as (B & HB).
    destruct (sq_point (vol_e (K := RF) we wh) eps B) as (M1 & H1); [intros; now apply (ve_pos sh we wh eps mu LL)|].
    destruct (sq_point (vol_h (K := RF) we wh) (matl (K := RF) mu) B) as (M2 & H2); [intros; now apply (vh_pos sh we wh eps mu LL)|].
    destruct (field_min sh (fun c i => vol_e (K := RF) we wh c i * eps c i)) as (m1 & P1 & L1).
    { intros c i Hc Hi. apply Rmult_lt_0_compat; [now apply (ve_pos sh we wh eps mu LL)|now apply (eps_pos sh we wh eps mu LL)]. }
    destruct (field_min sh (fun c i => vol_h (K := RF) we wh c i * matl (K := RF) mu c i)) as (m2 & P2 & L2).
    { intros c i Hc Hi. apply Rmult_lt_0_compat; [now apply (vh_pos sh we wh eps mu LL)|now apply (mu_pos sh we wh eps mu LL)]. }
    exists (Rmax (M1 / m1) (M2 / m2)). intros N c i Hc Hi s'. destruct (HB N) as (B1 & B2). fold s' in B1, B2.
    assert (D : forall v m M x, 0 < m -> m <= v -> 0 <= x -> v * x <= M -> x <= M / m).
    { intros v m M x Pm Lm Px Hx. apply Rmult_le_reg_r with m; [exact Pm|]. unfold Rdiv. rewrite Rmult_assoc, Rinv_l by lra. assert (m * x <= v * x) by (apply Rmult_le_compat_r; lra). lra. }
    split.
    - eapply Rle_trans; [|apply Rmax_l]. apply (D (vol_e (K := RF) we wh c i * eps c i)); [exact P1|now apply L1|apply Rabs_pos|]. apply (H1 (sE s') B1); try assumption. intros; now apply (eps_pos sh we wh eps mu LL).
    - eapply Rle_trans; [|apply Rmax_r]. apply (D (vol_h (K := RF) we wh c i * matl (K := RF) mu c i)); [exact P2|now apply L2|apply Rabs_pos|]. apply (H2 (sH s') B2); try assumption. intros; now apply (mu_pos sh we wh eps mu LL).
  Qed.
End M.

Section U.
  Variables (sh : list nat) (we wh : widths RF) (eps : field RF) (mu : option (field RF)).
  Hypothesis LL : lossless sh we wh eps mu.
  Variables (V : nat -> field RF) (lam : nat -> R).
  Hypothesis Mo : modes sh we wh eps mu V lam.
  Notation n := (3 * prodl sh)%nat.
  Notation fs := (fsum (K := RF) sh).
  Notation pd := (e_dot sh we wh eps).
  Variable dt : R.
  Notation rn := (run (K := RF) sh dt (Some (we, wh)) eps mu).
  Lemma fs_abs f : Rabs (fs f) <= fs (fun c i => Rabs (f c i)).
  Proof.
    apply Rabs_le. split.
    - replace (- fs (fun c i => Rabs (f c i))) with (-1 * fs (fun c i => Rabs (f c i))) by rring. rewrite <- fs_scale. apply fs_le. intros c i _ _. unfold Rabs. destruct (Rcase_abs (f c i)); lra.
    - apply fs_le. intros c i _ _. apply Rle_abs.
  Qed.
  Lemma unstable_cells a : (a < n)%nat -> 4 <= dt * dt * lam a ->
    forall M, exists N c i, (c < 3)%nat /\ inb sh i /\ M < Rabs (sE (rn (repeat (noj (K := RF)) N) (mkst (V a) (noj (K := RF)))) c i).
  Proof.
    intros Ha Hk M. set (s := mkst (V a) (noj (K := RF))). set (ce := fun N => pd (V a) (sE (rn (repeat (noj (K := RF)) N) s))).
    pose proof (m_orth _ _ _ _ _ _ _ Mo a a Ha Ha) as O. rewrite Nat.eqb_refl in O.
    assert (G : forall N, 1 + 2 * INR N <= (-1) ^ N * ce N).
    { apply (grow ce (dt * dt * lam a) Hk); [exact O| |intro N; exact (free_rec sh we wh eps mu LL V lam Mo dt a s N Ha)].
      unfold ce. change (repeat (noj (K := RF)) 1) with [noj (K := RF)]. unfold run. cbn [fold_left].
      rewrite (pd_step sh we wh eps mu LL V dt), (gh_step sh we wh eps mu LL V lam Mo dt a _ s Ha), jd_noj. cbn [sE sH s]. rewrite O.
      assert (Z : gh sh we wh V a (noj (K := RF)) = 0). { unfold gh. rewrite (fs_ext sh _ (fun _ _ => 0)); [apply fs_zero|]. intros. unfold noj. cbn [f0 RF]. rring. }
      rewrite Z. rring. }
    set (W := fs (fun c i => vol_e (K := RF) we wh c i * (eps c i * Rabs (V a c i)))).
    destruct (above (W * Rabs M)) as (N & HN). exists N. set (E := sE (rn (repeat (noj (K := RF)) N) s)).
    destruct (dec_ex n (fun q => M < Rabs (vec (K := RF) sh E q))) as [(q & Hq & Lq)|No]; [intro; apply Rlt_dec| |].
    - destruct (split3 sh q Hq) as (c & p & -> & Hc & Hp). rewrite (vec_at RF) in Lq by exact Hp. exists c, (unravel sh p). split; [exact Hc|]. split; [now apply inb_unravel|exact Lq].
    - exfalso. specialize (G N). assert (B : Rabs (ce N) <= W * Rabs M).
      { unfold ce. fold E. eapply Rle_trans; [apply fs_abs|]. unfold W. rewrite Rmult_comm, <- fs_scale. apply fs_le. intros c i Hc Hi.
        pose proof (ve_pos sh we wh eps mu LL c i Hi). pose proof (eps_pos sh we wh eps mu LL c i Hc Hi).
        assert (Le : Rabs (E c i) <= Rabs M).
        { destruct (Rlt_dec M (Rabs (E c i))) as [L|L]; [exfalso; apply No|pose proof (Rle_abs M); lra]. exists (c * prodl sh + ravel sh i)%nat. split; [apply lt3; [exact Hc|now apply ravel_lt]|]. now rewrite (vec_offset RF). }
        rewrite !Rabs_mult, (Rabs_pos_eq (vol_e (K := RF) we wh c i)), (Rabs_pos_eq (eps c i)) by lra.
        replace (Rabs M * (vol_e (K := RF) we wh c i * (eps c i * Rabs (V a c i)))) with (vol_e (K := RF) we wh c i * (eps c i * (Rabs (V a c i) * Rabs M))) by rring.
        apply Rmult_le_compat_l; [lra|]. apply Rmult_le_compat_l; [lra|]. apply Rmult_le_compat_l; [apply Rabs_pos|exact Le]. }
      assert (Pw : (-1) ^ N * ce N <= Rabs (ce N)).
      { eapply Rle_trans; [apply Rle_abs|]. rewrite Rabs_mult, pow_1_abs. lra. }
      pose proof (pos_INR N). lra.
  Qed.
End U.

(** ** Comparison of two structures on the same grid *)
Section Cmp.
  Variables (sh : list nat) (we wh : widths RF) (eps eps' : field RF) (mu mu' : option (field RF)).
  Hypothesis LL : lossless sh we wh eps mu.
  Hypothesis LL' : lossless sh we wh eps' mu'.
  Hypothesis Ge : forall c i, (c < 3)%nat -> inb sh i -> eps c i <= eps' c i.
  Hypothesis Gm : forall c i, (c < 3)%nat -> inb sh i -> matl (K := RF) mu c i <= matl (K := RF) mu' c i.
  Variables (V V' : nat -> field RF) (lam lam' : nat -> R).
  Hypothesis Mo : modes sh we wh eps mu V lam.
  Hypothesis Mo' : modes sh we wh eps' mu' V' lam'.
  Notation n := (3 * prodl sh)%nat.
  Notation fs := (fsum (K := RF) sh).
  Lemma cd_mu F : c_dot sh we wh mu' F F <= c_dot sh we wh mu F F.
  Proof.
    apply fs_le. intros c i Hc Hi. pose proof (vh_pos sh we wh eps mu LL c i Hi). pose proof (mu_pos sh we wh eps mu LL c i Hc Hi). pose proof (Gm c i Hc Hi).
    apply Rmult_le_compat_l; [lra|]. apply Rmult_le_compat_l; [apply Rle_0_sqr|]. apply Rinv_le_contravar; lra.
  Qed.
  Lemma pd_eps F : e_dot sh we wh eps F F <= e_dot sh we wh eps' F F.
  Proof.
    apply fs_le. intros c i Hc Hi. pose proof (ve_pos sh we wh eps mu LL c i Hi). pose proof (Ge c i Hc Hi).
    apply Rmult_le_compat_l; [lra|]. apply Rmult_le_compat_r; [apply Rle_0_sqr|lra].
  Qed.
  Lemma compare a : (a < n)%nat -> lam' a <= lam a.
  Proof.
    intro Ha.
    destruct (underdetermined RF a (S a) (fun b j => e_dot sh we wh eps' (V' b) (V j)) ltac:(lia)) as (x & (k & Hk & Nk) & Ox).
    set (F := fun c i => rs (S a) (fun j => x j * V j c i)).
    assert (OF : forall b, (b < a)%nat -> e_dot sh we wh eps' (V' b) F = 0).
    { intros b Hb. unfold F. rewrite pd_sum. refine (eq_trans _ (Ox b Hb)). apply rs_ext. intros. cbn. req. apply Rmult_comm. }
    pose proof (m_least _ _ _ _ _ _ _ Mo' a F Ha OF) as L.
    assert (Cb : forall b, (b < n)%nat -> e_dot sh we wh eps (V b) F = if (b <=? a)%nat then x b else 0).
    { intros b Hb. unfold F. rewrite pd_sum. destruct (Nat.leb_spec b a).
      - rewrite (rs_single (S a) b); [rewrite (m_orth _ _ _ _ _ _ _ Mo b b Hb Hb), Nat.eqb_refl; rring|lia|]. intros j Hj Nj. rewrite (m_orth _ _ _ _ _ _ _ Mo b j Hb ltac:(lia)). destruct (Nat.eqb_spec b j); [lia|rring].
      - rewrite (rs_ext (S a) _ (fun _ => 0)); [rewrite rs_const; rring|]. intros j Hj. rewrite (m_orth _ _ _ _ _ _ _ Mo b j Hb ltac:(lia)). destruct (Nat.eqb_spec b j); [lia|rring]. }
    assert (U : c_dot sh we wh mu F F <= lam a * e_dot sh we wh eps F F).
    { rewrite (cd_parseval sh we wh eps mu LL V lam Mo), (pd_parseval sh we wh eps mu V lam Mo), <- rs_scale. apply rs_le. intros b Hb. rewrite (Cb b Hb). destruct (Nat.leb_spec b a); [|lra].
      apply Rmult_le_compat_r; [apply Rle_0_sqr|]. now apply (m_sorted _ _ _ _ _ _ _ Mo). }
    assert (P : 0 < e_dot sh we wh eps F F).
    { rewrite (pd_parseval sh we wh eps mu V lam Mo). apply Rlt_le_trans with (x k * x k); [exact (Rlt_0_sqr (x k) Nk)|].
      pose proof (rs_ge_term n (fun a => e_dot sh we wh eps (V a) F * e_dot sh we wh eps (V a) F) k ltac:(lia) (fun i _ => Rle_0_sqr _)) as Q. cbv beta in Q. rewrite (Cb k ltac:(lia)) in Q. destruct (Nat.leb_spec k a); [exact Q|lia]. }
    pose proof (cd_mu F). pose proof (pd_eps F). pose proof (m_pos _ _ _ _ _ _ _ Mo' a Ha).
    set (p := e_dot sh we wh eps F F) in *. set (p' := e_dot sh we wh eps' F F) in *. set (c := c_dot sh we wh mu F F) in *. set (c' := c_dot sh we wh mu' F F) in *. clearbody p p' c c'.
    apply Rmult_le_reg_r with p; [exact P|]. assert (lam' a * p <= lam' a * p') by (apply Rmult_le_compat_l; lra). lra.
  Qed.
End Cmp.
