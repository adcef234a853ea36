(** Modes of a closed lossless box. *)
From Coq Require Import Reals List Arith ZArith Lia Lra Psatz Bool Field.
From Verif.Lib Require Import Num Sums Idx Mat RealF Elim BoxMin.
From Verif.Model Require Import Fdmath Fdtd Fdfd.
From Verif.Spec Require Import Grid Yee FdtdRun FdfdSpec HarmonicSpec ModesSpec.
From Verif.Proofs Require Import FdmathP FdmathP2 FdtdP2 FdfdP GridP HarmonicP HarmonicP2 HarmonicP4 SpectralP.
Import ListNotations.
Local Open Scope R_scope.
Ltac req := match goal with |- @eq _ ?x ?y => change (@eq R x y) end.
Ltac rring := req; ring.

(** ** Real grid sums *)
Section FS.
  Variable sh : list nat.
  Notation fs := (fsum (K := RF) sh).
  Lemma fs_ext (f g : nat -> list nat -> R) : (forall c i, (c < 3)%nat -> inb sh i -> f c i = g c i) -> fs f = fs g.
  Proof.
    intro H. unfold fsum. rewrite (gsum_ext (K := RF) sh (f 0%nat) (g 0%nat)) by (intros i Hi; apply H; [lia|exact Hi]).
    rewrite (gsum_ext (K := RF) sh (f 1%nat) (g 1%nat)) by (intros i Hi; apply H; [lia|exact Hi]).
    rewrite (gsum_ext (K := RF) sh (f 2%nat) (g 2%nat)) by (intros i Hi; apply H; [lia|exact Hi]). reflexivity.
  Qed.
  Lemma fs_add f g : fs (fun c i => f c i + g c i) = fs f + fs g.
  Proof. unfold fsum. rewrite !(gsum_add RF sh). cbn. ring. Qed.
  Lemma fs_scale k f : fs (fun c i => k * f c i) = k * fs f.
  Proof. unfold fsum. rewrite !(gsum_mul_l RF sh k). cbn. ring. Qed.
  Lemma fs_zero : fs (fun _ _ => 0) = 0.
  Proof. transitivity (fs (fun _ _ => 0 * 0)); [apply fs_ext; intros; lra|]. refine (eq_trans (fs_scale 0 (fun _ _ => 0)) _). apply Rmult_0_l. Qed.
  Lemma fs_sum m (f : nat -> nat -> list nat -> R) : fs (fun c i => rs m (fun a => f a c i)) = rs m (fun a => fs (f a)).
  Proof. induction m as [|m IH]; [exact fs_zero|]. cbn [sumN]. rewrite <- IH. exact (fs_add _ _). Qed.
  Lemma fs_flat (x : nat -> R) : rs (3 * prodl sh) x = fs (unvec (K := RF) sh x).
  Proof.
    rewrite sumN_prod. unfold fsum. cbn [sumN]. rewrite !(gsum_flat' RF sh). unfold unvec.
    change (0 + gsum (K := RF) sh (fun idx => x (0 * prodl sh + ravel sh idx)%nat) + gsum (K := RF) sh (fun idx => x (1 * prodl sh + ravel sh idx)%nat) + gsum (K := RF) sh (fun idx => x (2 * prodl sh + ravel sh idx)%nat)
      = gsum (K := RF) sh (fun idx => x (0 * prodl sh + ravel sh idx)%nat) + gsum (K := RF) sh (fun idx => x (1 * prodl sh + ravel sh idx)%nat) + gsum (K := RF) sh (fun idx => x (2 * prodl sh + ravel sh idx)%nat)). ring.
  Qed.
  Lemma fs_le f g : (forall c i, (c < 3)%nat -> inb sh i -> f c i <= g c i) -> fs f <= fs g.
  Proof.
    intro H. rewrite <- (fs_ext (unvec (K := RF) sh (vec (K := RF) sh f)) f) by (intros; now apply (unvec_vec RF)).
    rewrite <- (fs_ext (unvec (K := RF) sh (vec (K := RF) sh g)) g) by (intros; now apply (unvec_vec RF)). rewrite <- !fs_flat. apply rs_le.
    intros q Hq. destruct (split3 sh q Hq) as (c & p & -> & Hc & Hp). rewrite !(vec_at RF) by exact Hp. apply H; [exact Hc|now apply inb_unravel].
  Qed.
  Lemma fs_nonneg f : (forall c i, (c < 3)%nat -> inb sh i -> 0 <= f c i) -> 0 <= fs f.
  Proof. intro H. rewrite <- fs_zero. now apply fs_le. Qed.
  Lemma fs_point f c i : (forall c i, (c < 3)%nat -> inb sh i -> 0 <= f c i) -> (c < 3)%nat -> inb sh i -> f c i <= fs f.
  Proof.
    intros H Hc Hi. rewrite <- (fs_ext (unvec (K := RF) sh (vec (K := RF) sh f)) f) by (intros; now apply (unvec_vec RF)). rewrite <- fs_flat.
    replace (f c i) with (vec (K := RF) sh f (c * prodl sh + ravel sh i)%nat) by (now apply (vec_offset RF)).
    apply (rs_ge_term (3 * prodl sh) (vec (K := RF) sh f)); [apply lt3; [exact Hc|now apply ravel_lt]|].
    intros q Hq. destruct (split3 sh q Hq) as (c' & p & -> & Hc' & Hp). rewrite (vec_at RF) by exact Hp. apply H; [exact Hc'|now apply inb_unravel].
  Qed.
End FS.

Section M.
  Variables (sh : list nat) (we wh : widths RF) (eps : field RF) (mu : option (field RF)).
  Hypothesis LL : lossless sh we wh eps mu.
  Notation n := (3 * prodl sh)%nat.
  Notation fs := (fsum (K := RF) sh).
  Notation cn := (curl_next (K := RF) sh (Some we)).
  Notation cp := (curl_prev (K := RF) sh (Some wh)).
  Notation mt := (matl (K := RF) mu).
  Notation pd := (e_dot sh we wh eps).
  Notation cd := (c_dot sh we wh mu).

  Lemma len3 : length sh = 3%nat. Proof. exact (proj1 LL). Qed.
  Lemma nz_e : nzw (K := RF) sh we.
  Proof. intros a i Ha Hi E. rewrite len3 in Ha. destruct LL as (_ & Hw & _). destruct (Hw a i Ha Hi). cbn in E. lra. Qed.
  Lemma nz_h : nzw (K := RF) sh wh.
  Proof. intros a i Ha Hi E. rewrite len3 in Ha. destruct LL as (_ & Hw & _). destruct (Hw a i Ha Hi). cbn in E. lra. Qed.
  Lemma eps_pos c i : (c < 3)%nat -> inb sh i -> 0 < eps c i. Proof. intros Hc Hi. destruct LL as (_ & _ & H). now apply H. Qed.
  Lemma mu_pos c i : (c < 3)%nat -> inb sh i -> 0 < mt c i. Proof. intros Hc Hi. destruct LL as (_ & _ & H). now apply H. Qed.
  Lemma ve_pos c i : inb sh i -> 0 < vol_e (K := RF) we wh c i.
  Proof.
    intro Hi. pose proof LL as (HL & Hw & _). assert (W : forall a, (a < 3)%nat -> 0 < we a (coord i a) /\ 0 < wh a (coord i a)) by (intros a Ha; apply Hw; [exact Ha|apply inb_coord; [exact Hi|lia]]).
    destruct (W 0%nat ltac:(lia)), (W 1%nat ltac:(lia)), (W 2%nat ltac:(lia)). unfold vol_e, vol3. destruct c as [|[|c]]; cbn [fmul RF]; repeat (apply Rmult_lt_0_compat; try assumption).
  Qed.
  Lemma vh_pos c i : inb sh i -> 0 < vol_h (K := RF) we wh c i.
  Proof.
    intro Hi. pose proof LL as (HL & Hw & _). assert (W : forall a, (a < 3)%nat -> 0 < we a (coord i a) /\ 0 < wh a (coord i a)) by (intros a Ha; apply Hw; [exact Ha|apply inb_coord; [exact Hi|lia]]).
    destruct (W 0%nat ltac:(lia)), (W 1%nat ltac:(lia)), (W 2%nat ltac:(lia)). unfold vol_h, vol_e, vol3. destruct c as [|[|c]]; cbn [fmul RF]; repeat (apply Rmult_lt_0_compat; try assumption).
  Qed.

  (** the wave operator *)
  Definition wv (F : field RF) : field RF := cp (fun c i => / mt c i * cn F c i).
  Lemma cd_wv F G : cd F G = fs (fun c i => vol_e (K := RF) we wh c i * (F c i * wv G c i)).
  Proof.
    unfold wv. to_model. refine (eq_trans _ (curl_adjoint RF sh we wh F (fun c i => / mt c i * curl_forward (K := RF) sh (Some we) G c i) len3 nz_e nz_h)).
    unfold c_dot. to_model. apply fs_ext. intros c i Hc Hi. pose proof (mu_pos c i Hc Hi). unfold Rdiv. cbn [fmul RF]. ring.
  Qed.
  Lemma cd_sym F G : cd F G = cd G F.
  Proof. unfold c_dot. apply fs_ext. intros. unfold Rdiv. ring. Qed.
  Lemma pd_sym F G : pd F G = pd G F.
  Proof. unfold e_dot. apply fs_ext. intros. ring. Qed.
  Lemma pd_ext F G F' G' : feq (K := RF) sh F F' -> feq (K := RF) sh G G' -> pd F G = pd F' G'.
  Proof. intros A B. unfold e_dot. apply fs_ext. intros c i Hc Hi. now rewrite (A c i Hc Hi), (B c i Hc Hi). Qed.
  Lemma pd_add F G1 G2 : pd F (fun c i => G1 c i + G2 c i) = pd F G1 + pd F G2.
  Proof. unfold e_dot. rewrite <- fs_add. apply fs_ext. intros. ring. Qed.
  Lemma pd_scale F k G : pd F (fun c i => k * G c i) = k * pd F G.
  Proof. unfold e_dot. rewrite <- fs_scale. apply fs_ext. intros. ring. Qed.
  Lemma pd_sum F m (k : nat -> R) (G : nat -> field RF) : pd F (fun c i => rs m (fun a => k a * G a c i)) = rs m (fun a => k a * pd F (G a)).
  Proof.
    unfold e_dot. rewrite (rs_ext m _ (fun a => fs (fun c i => k a * (vol_e (K := RF) we wh c i * (eps c i * (F c i * G a c i)))))) by (intros; now rewrite fs_scale).
    rewrite <- fs_sum. apply fs_ext. intros c i _ _. rewrite <- !rs_scale. apply rs_ext. intros. ring.
  Qed.
  Lemma pd_nonneg F : 0 <= pd F F.
  Proof. apply fs_nonneg. intros c i Hc Hi. pose proof (ve_pos c i Hi). pose proof (eps_pos c i Hc Hi). apply Rmult_le_pos; [lra|]. apply Rmult_le_pos; [lra|]. apply Rle_0_sqr. Qed.
  Lemma cd_nonneg F : 0 <= cd F F.
  Proof.
    apply fs_nonneg. intros c i Hc Hi. pose proof (vh_pos c i Hi). pose proof (mu_pos c i Hc Hi). apply Rmult_le_pos; [lra|].
    apply Rmult_le_pos; [apply Rle_0_sqr|]. left. now apply Rinv_0_lt_compat.
  Qed.

  (** as a matrix *)
  Definition wmat : nat -> nat -> R := fun q r =>
    vec (K := RF) sh (vol_e (K := RF) we wh) q * mm (K := RF) n (curl_back_mat (K := RF) sh wh) (mm (K := RF) n (mdiag (K := RF) (vec (K := RF) sh (fun c i => / mt c i))) (curl_forward_mat (K := RF) sh we)) q r.
  Lemma wmat_mv x q : (q < n)%nat -> rs n (fun r => wmat q r * x r) = vec (K := RF) sh (vol_e (K := RF) we wh) q * vec (K := RF) sh (wv (unvec (K := RF) sh x)) q.
  Proof.
    intro Hq. unfold wmat. rewrite (rs_ext n _ (fun r => vec (K := RF) sh (vol_e (K := RF) we wh) q * (mm (K := RF) n (curl_back_mat (K := RF) sh wh) (mm (K := RF) n (mdiag (K := RF) (vec (K := RF) sh (fun c i => / mt c i))) (curl_forward_mat (K := RF) sh we)) q r * x r))) by (intros; ring).
    rewrite rs_scale. f_equal.
    change (mv (K := RF) n (mm (K := RF) n (curl_back_mat (K := RF) sh wh) (mm (K := RF) n (mdiag (K := RF) (vec (K := RF) sh (fun c i => / mt c i))) (curl_forward_mat (K := RF) sh we))) x q = vec (K := RF) sh (wv (unvec (K := RF) sh x)) q).
    rewrite (mv_mm (K := RF)). destruct (split3 sh q Hq) as (c & p & -> & Hc & Hp). rewrite (vec_at RF) by exact Hp. unfold wv. to_model.
    rewrite <- (curl_back_agree RF sh wh _ c p len3 Hc Hp). apply (mv_ext_v RF). intros r Hr. rewrite (mv_mm (K := RF)), (mv_mdiag RF) by exact Hr.
    destruct (split3 sh r Hr) as (c' & p' & -> & Hc' & Hp'). rewrite !(vec_at RF) by exact Hp'. 
    rewrite <- (curl_forward_agree RF sh we _ c' p' len3 Hc' Hp'). refine (f_equal (Rmult (/ mt c' (unravel sh p'))) _). apply (mv_ext_v RF). intros k Hk. symmetry. now apply (vec_unvec RF sh 3).
  Qed.
  Lemma wmat_form x y : rs n (fun q => rs n (fun r => wmat q r * (x q * y r))) = cd (unvec (K := RF) sh x) (unvec (K := RF) sh y).
  Proof.
    rewrite cd_wv. rewrite (rs_ext n _ (fun q => x q * (vec (K := RF) sh (vol_e (K := RF) we wh) q * vec (K := RF) sh (wv (unvec (K := RF) sh y)) q))).
    2:{ intros q Hq. rewrite <- (wmat_mv y q Hq), <- rs_scale. apply rs_ext. intros. ring. }
    rewrite fs_flat. apply fs_ext. intros c i Hc Hi. unfold unvec at 1. rewrite !(vec_offset RF) by exact Hi. unfold unvec at 2. ring.
  Qed.
  Lemma wmat_sym q r : (q < n)%nat -> (r < n)%nat -> wmat q r = wmat r q.
  Proof.
    intros Hq Hr. set (u k := fun j => if (j =? k)%nat then 1 else 0).
    assert (E : forall a b, (a < n)%nat -> (b < n)%nat -> wmat a b = cd (unvec (K := RF) sh (u a)) (unvec (K := RF) sh (u b))).
    { intros a b Ha Hb. rewrite <- wmat_form. rewrite (rs_single n a); [|exact Ha|].
      - rewrite (rs_single n b); [|exact Hb|]; unfold u; rewrite ?Nat.eqb_refl; [rring|]. intros k _ Nk. destruct (Nat.eqb_spec k b); [contradiction|rring].
      - intros k _ Nk. rewrite (rs_ext n _ (fun _ => 0)); [rewrite rs_const; rring|]. intros. unfold u. destruct (Nat.eqb_spec k a); [contradiction|rring]. }
    rewrite (E q r Hq Hr), (E r q Hr Hq). apply cd_sym.
  Qed.

  Lemma real_modes : exists V lam,
    (forall a b, (a < n)%nat -> (b < n)%nat -> pd (V a) (V b) = if (a =? b)%nat then 1 else 0) /\
    (forall a, (a < n)%nat -> feq (K := RF) sh (wv (V a)) (fun c i => lam a * (eps c i * V a c i))) /\
    (forall a F, (a < n)%nat -> (forall b, (b < a)%nat -> pd (V b) F = 0) -> lam a * pd F F <= cd F F) /\
    (forall a b, (a <= b)%nat -> (b < n)%nat -> lam a <= lam b) /\
    (forall F, feq (K := RF) sh F (fun c i => rs n (fun a => pd (V a) F * V a c i))).
  Proof.
    set (w := vec (K := RF) sh (fun c i => vol_e (K := RF) we wh c i * eps c i)).
    destruct (weighted_spectral n w wmat) as (U & lam & On & Ev & Mn & So & Cp).
    - intros q Hq. destruct (split3 sh q Hq) as (c & p & -> & Hc & Hp). unfold w. rewrite (vec_at RF) by exact Hp. pose proof (inb_unravel sh p Hp) as Hi. apply Rmult_lt_0_compat; [now apply ve_pos|now apply eps_pos].
    - exact wmat_sym.
    - assert (Pf : forall x y, rs n (fun q => w q * (x q * y q)) = pd (unvec (K := RF) sh x) (unvec (K := RF) sh y)).
      { intros x y. rewrite fs_flat. apply fs_ext. intros c i Hc Hi. unfold unvec at 1. unfold w. rewrite (vec_offset RF) by exact Hi. unfold unvec. ring. }
      assert (Un : forall F : field RF, feq (K := RF) sh (unvec (K := RF) sh (vec (K := RF) sh F)) F) by (intros F c i Hc Hi; now apply (unvec_vec RF)).
      assert (Pv : forall x F, rs n (fun q => w q * (x q * vec (K := RF) sh F q)) = pd (unvec (K := RF) sh x) F).
      { intros x F. rewrite Pf. apply pd_ext; [intros c i _ _; reflexivity|apply Un]. }
      exists (fun a => unvec (K := RF) sh (fun q => U q a)), lam. split; [|split; [|split; [|split]]].
      + intros a b Ha Hb. rewrite <- Pf. now apply On.
      + intros a Ha c i Hc Hi. assert (Hq : (c * prodl sh + ravel sh i < n)%nat) by (apply lt3; [exact Hc|now apply ravel_lt]).
        pose proof (Ev a _ Ha Hq) as E. rewrite (wmat_mv (fun q => U q a) _ Hq) in E. unfold w in E. rewrite !(vec_offset RF) in E by exact Hi.
        pose proof (ve_pos c i Hi). apply (Rmult_eq_reg_l (vol_e (K := RF) we wh c i)); [|lra]. rewrite E. unfold unvec. ring.
      + intros a F Ha HF. assert (E1 : rs n (fun q => w q * (vec (K := RF) sh F q * vec (K := RF) sh F q)) = pd F F) by (rewrite Pv; apply pd_ext; [apply Un|intros c i _ _; reflexivity]).
        rewrite <- E1. eapply Rle_trans; [apply Mn; [exact Ha|]|].
        * intros b Hb. rewrite Pv. now apply HF.
        * right. rewrite wmat_form. unfold c_dot. apply fs_ext. intros c i Hc Hi.
          assert (X : cn (unvec (K := RF) sh (vec (K := RF) sh F)) c i = cn F c i); [|now rewrite X]. to_model.
          rewrite <- (unravel_ravel sh i Hi). rewrite <- !(curl_forward_agree RF sh we _ c _ len3 Hc (ravel_lt sh i Hi)). apply (mv_ext_v RF). intros k Hk. now apply (vec_unvec RF sh 3).
      + exact So.
      + intros F c i Hc Hi. assert (Hq : (c * prodl sh + ravel sh i < n)%nat) by (apply lt3; [exact Hc|now apply ravel_lt]).
        pose proof (Cp (vec (K := RF) sh F) _ Hq) as E. rewrite (vec_offset RF) in E by exact Hi. rewrite E. apply rs_ext. intros a _. rewrite Pv. reflexivity.
  Qed.
End M.
