(** Modes at zero frequency, and the decomposition of a field into a static part and a curl. *)
From Coq Require Import Reals List Arith ZArith Lia Lra.
From Verif.Lib Require Import Num Sums Idx Mat RealF Elim BoxMin.
From Verif.Model Require Import Fdmath Fdtd.
From Verif.Spec Require Import Grid Yee FdtdRun ModesSpec.
From Verif.Proofs Require Import FdmathP FdmathP2 GridP ModesP ModesP2 ModesP3 PotentialP.
Import ListNotations.
Local Open Scope R_scope.

Ltac rr := first [ring | req; ring].
Lemma div_back_mul (x l e v : R) : l <> 0 -> x / l * (l * (e * v)) = e * ((x - 0) * v).
Proof. intro H. field. exact H. Qed.
Lemma mul_div_l (e x : R) : e <> 0 -> x = e * x / e.
Proof. intro H. field. exact H. Qed.
Lemma finite_choice {A : Type} (d : A) m (P : nat -> A -> Prop) : (forall b, (b < m)%nat -> exists x, P b x) -> exists f : nat -> A, forall b, (b < m)%nat -> P b (f b).
Proof.
  induction m as [|m IH]; intro H; [exists (fun _ => d); intros; lia|]. destruct IH as (f & F); [intros b Hb; apply H; lia|]. destruct (H m ltac:(lia)) as (x & X).
  exists (fun b => if (b =? m)%nat then x else f b). intros b Hb. destruct (Nat.eqb_spec b m) as [->|]; [exact X|apply F; lia].
Qed.
(** A linear function of finitely many numbers. *)
Lemma linear_rep m (L : (nat -> R) -> R) : (forall p q, (forall j, (j < m)%nat -> p j = q j) -> L p = L q) ->
  (forall p q, L (fun j => p j + q j) = L p + L q) -> (forall k p, L (fun j => k * p j) = k * L p) ->
  forall p, L p = rs m (fun q => L (fun j => if (j =? q)%nat then 1 else 0) * p q).
Proof.
  intros X A Sc p.
  assert (G : forall l, (l <= m)%nat -> L (fun j => if (j <? l)%nat then p j else 0) = rs l (fun q => L (fun j => if (j =? q)%nat then 1 else 0) * p q)).
  { induction l as [|l IH]; intro Hl.
    - cbn [sumN]. rewrite (X _ (fun j => 0 * p j)) by (intros j _; cbn; rr). rewrite Sc. cbn. rr.
    - cbn [sumN]. rewrite <- IH by lia. cbn [fadd RF fmul]. rewrite <- (Rmult_comm (p l)), <- Sc, <- A. apply X. intros j _.
      destruct (Nat.ltb_spec j (S l)), (Nat.ltb_spec j l), (Nat.eqb_spec j l); try lia; subst; rr. }
  rewrite <- (G m (le_n m)). apply X. intros j Hj. destruct (Nat.ltb_spec j m); [reflexivity|lia].
Qed.

Section Static.
  Variables (sh : list nat) (we wh : widths RF) (eps : field RF) (mu : option (field RF)).
  Hypothesis LL : lossless sh we wh eps mu.
  Hypothesis HN : (0 < prodl sh)%nat.
  Notation N := (prodl sh).
  Notation cn := (curl_next (K := RF) sh (Some we)).
  Notation dn := (diff_next (K := RF) sh (Some we)).
  Notation pd := (e_dot sh we wh eps).
  Notation cd := (c_dot sh we wh mu).

  Lemma dims b : (b < 3)%nat -> (0 < dim sh b)%nat.
  Proof.
    pose proof (len3 sh we wh eps mu LL) as HL. destruct sh as [|a [|b' [|c [|? ?]]]]; try discriminate. cbn in HN. intro Hb.
    destruct b as [|[|[|b]]]; cbn; try lia; destruct a, b', c; cbn in *; lia.
  Qed.
  Lemma span_e a : (a < 3)%nat -> sumN (K := RF) (dim sh a) (we a) <> 0.
  Proof.
    intros Ha E. pose proof LL as (_ & Hw & _). destruct (dim sh a) as [|d] eqn:D; [pose proof (dims a Ha); lia|].
    assert (P : 0 < rs (S d) (we a)); [|rewrite E in P; lra]. clear E. assert (W : forall i, (i < S d)%nat -> 0 < we a i) by (intros i Hi; apply Hw; [exact Ha|rewrite D; exact Hi]).
    clear D. induction d as [|d IH]; [cbn; pose proof (W 0%nat ltac:(lia)); lra|]. cbn [sumN] in *. pose proof (IH ltac:(intros; apply W; lia)). pose proof (W (S d) ltac:(lia)). cbn [fadd RF] in *. lra.
  Qed.
  Lemma zero_idx : inb sh [0; 0; 0]%nat.
  Proof. apply inb3'; [exact (len3 sh we wh eps mu LL)| | |]; apply dims; lia. Qed.
  Lemma ravel_zero : ravel sh [0; 0; 0]%nat = 0%nat.
  Proof. pose proof (len3 sh we wh eps mu LL) as HL. destruct sh as [|a [|b [|c [|? ?]]]]; try discriminate. reflexivity. Qed.

  (** ** The static fields: a potential that vanishes in cell 0 and a uniform part *)
  Definition phi_of (p : nat -> R) : arr RF := fun i => match ravel sh i with 0%nat => 0 | S q => p q end.
  Definition stat (p : nat -> R) : field RF := fun c i => dn c (phi_of p) i + p (N - 1 + c)%nat.
  Lemma stat_lin a b p q c i : stat (fun j => a * p j + b * q j) c i = a * stat p c i + b * stat q c i.
  Proof.
    unfold stat, diff_next, over, phi_of, Rdiv. cbn [fsub fdiv RF]. unfold Rdiv. destruct (ravel sh (shift_ix sh c 1 i)), (ravel sh i); rr.
  Qed.
  Lemma stat_ext p q : (forall j, (j < N + 2)%nat -> p j = q j) -> feq (K := RF) sh (stat p) (stat q).
  Proof.
    intros E c i Hc Hi. unfold stat. rewrite (E (N - 1 + c)%nat) by lia. f_equal. unfold diff_next, over. f_equal.
    assert (P : forall i, inb sh i -> phi_of p i = phi_of q i).
    { intros j Hj. unfold phi_of. pose proof (ravel_lt sh j Hj). destruct (ravel sh j); [reflexivity|apply E; lia]. }
    rewrite (P i Hi), (P (shift_ix sh c 1 i)); [reflexivity|]. apply inb_shift; [exact Hi|]. rewrite (len3 sh we wh eps mu LL). lia.
  Qed.
  Lemma grad_const_curl (phi : arr RF) (k : nat -> R) c i : (c < 3)%nat -> cn (fun c i => dn c phi i + k c) c i = 0.
  Proof.
    intro Hc. pose proof (curl_grad_forward RF sh (Some we) phi c i) as G. to_model. unfold curl_forward, curl_with in *. cbn [fsub RF f0] in *.
    destruct c as [|[|[|c]]]; [| | |lia]; unfold deriv_forward, roll in *; cbn [fsub fdiv RF] in *; rewrite <- G; unfold Rdiv; rr.
  Qed.
  Lemma stat_curl p c i : (c < 3)%nat -> cn (stat p) c i = 0.
  Proof. intro Hc. exact (grad_const_curl (phi_of p) (fun c => p (N - 1 + c)%nat) c i Hc). Qed.
  Lemma stat_onto (phi : arr RF) (k : nat -> R) F : feq (K := RF) sh F (fun c i => dn c phi i + k c) -> exists p, feq (K := RF) sh F (stat p).
  Proof.
    intro E. exists (fun j => if (j <? N - 1)%nat then phi (unravel sh (S j)) - phi [0; 0; 0]%nat else k (j - (N - 1))%nat). intros c i Hc Hi. rewrite (E c i Hc Hi). unfold stat.
    destruct (Nat.ltb_spec (N - 1 + c) (N - 1)); [lia|]. replace (N - 1 + c - (N - 1))%nat with c by lia. f_equal.
    match goal with |- context [phi_of ?p] => set (pp := p) end.
    assert (P : forall j, inb sh j -> phi_of pp j = phi j - phi [0; 0; 0]%nat).
    { intros j Hj. unfold phi_of, pp. pose proof (ravel_lt sh j Hj) as L. pose proof (unravel_ravel sh j Hj) as U. destruct (ravel sh j) as [|q] eqn:Q.
      - rewrite <- ravel_zero in Q. apply (ravel_inj sh) in Q; [subst j; lra|exact Hj|exact zero_idx].
      - destruct (Nat.ltb_spec q (N - 1)); [|lia]. rewrite U. reflexivity. }
    unfold diff_next, over. rewrite (P i Hi), (P (shift_ix sh c 1 i)) by (apply inb_shift; [exact Hi|rewrite (len3 sh we wh eps mu LL); lia]). cbn [fsub fdiv RF]. unfold Rdiv. rr.
  Qed.
  Lemma stat_free F : (forall c i, (c < 3)%nat -> inb sh i -> cn F c i = 0) -> exists p, feq (K := RF) sh F (stat p).
  Proof.
    intro C. destruct (no_curl_forward RF sh (len3 sh we wh eps mu LL) we F (nz_e sh we wh eps mu LL) span_e) as (phi & k & P); [exact C|]. exact (stat_onto phi k F P).
  Qed.
  Lemma stat_inj p : feq (K := RF) sh (stat p) (fun _ _ => 0) -> forall j, (j < N + 2)%nat -> p j = 0.
  Proof.
    intros Z. pose proof (len3 sh we wh eps mu LL) as HL.
    assert (W : forall c i, (c < 3)%nat -> inb sh i -> we c (coord i c) <> 0) by (intros c i Hc Hi; apply (nz_e sh we wh eps mu LL); [lia|apply inb_coord; [exact Hi|lia]]).
    assert (Z' : forall c i, (c < 3)%nat -> inb sh i -> phi_of p (shift_ix sh c 1 i) - phi_of p i + p (N - 1 + c)%nat * we c (coord i c) = 0).
    { intros c i Hc Hi. pose proof (Z c i Hc Hi) as E. unfold stat, diff_next, over in E. cbn [fsub fdiv RF] in E. pose proof (W c i Hc Hi) as V. apply (f_equal (fun x => x * we c (coord i c))) in E. rewrite Rmult_0_l in E. rewrite <- E. field. exact V. }
    assert (U : forall c, (c < 3)%nat -> p (N - 1 + c)%nat = 0).
    { intros c Hc. apply (loop_const RF sh HL we (phi_of p) (p (N - 1 + c)%nat) c Hc dims (span_e c Hc)). intros i Hi. exact (Z' c i Hc Hi). }
    assert (P : forall i, inb sh i -> phi_of p i = phi_of p [0; 0; 0]%nat).
    { apply (pot_constant RF sh HL (phi_of p)). intros c i Hc Hi. pose proof (Z' c i Hc Hi) as E. rewrite (U c Hc) in E. lra. }
    intros j Hj. destruct (le_lt_dec (N - 1) j) as [L|L].
    - replace j with (N - 1 + (j - (N - 1)))%nat by lia. apply U. lia.
    - pose proof (P (unravel sh (S j)) (inb_unravel sh (S j) ltac:(lia))) as E. unfold phi_of in E. rewrite ravel_zero, ravel_unravel in E by lia. exact E.
  Qed.

  Lemma pd_pos F : ~ feq (K := RF) sh F (fun _ _ => 0) -> 0 < pd F F.
  Proof.
    intro Nz. destruct (Rle_lt_or_eq_dec 0 (pd F F) (pd_nonneg sh we wh eps mu LL F)) as [|E]; [assumption|]. exfalso. apply Nz. intros c i Hc Hi.
    assert (T : forall c i, (c < 3)%nat -> inb sh i -> 0 <= vol_e (K := RF) we wh c i * (eps c i * (F c i * F c i))).
    { intros c' i' Hc' Hi'. pose proof (ve_pos sh we wh eps mu LL c' i' Hi'). pose proof (eps_pos sh we wh eps mu LL c' i' Hc' Hi'). apply Rmult_le_pos; [lra|]. apply Rmult_le_pos; [lra|]. apply Rle_0_sqr. }
    pose proof (fs_point sh _ c i T Hc Hi) as L. unfold e_dot in E. cbv beta in L. rewrite <- E in L.
    pose proof (ve_pos sh we wh eps mu LL c i Hi) as V. pose proof (eps_pos sh we wh eps mu LL c i Hc Hi) as Ep.
    destruct (Req_dec (F c i) 0) as [|X]; [assumption|exfalso]. pose proof (Rsqr_pos_lt _ X) as Sq. unfold Rsqr in Sq.
    pose proof (Rmult_lt_0_compat _ _ V (Rmult_lt_0_compat _ _ Ep Sq)). lra.
  Qed.
  Lemma cd_free F G : (forall c i, (c < 3)%nat -> inb sh i -> cn F c i = 0) -> cd F G = 0.
  Proof. intro C. unfold c_dot. rewrite <- (fs_zero sh). apply fs_ext. intros c i Hc Hi. rewrite (C c i Hc Hi). unfold Rdiv. rr. Qed.

  Section Mo.
    Variables (V : nat -> field RF) (lam : nat -> R).
    Hypothesis Mo : modes sh we wh eps mu V lam.
    Lemma low a : (a < N + 2)%nat -> (a < 3 * N)%nat -> lam a = 0.
    Proof.
      intros Ha Hn. set (u := fun q j : nat => if (j =? q)%nat then 1 else 0).
      destruct (underdetermined RF a (N + 2) (fun b q => pd (V b) (stat (u q))) Ha) as (p & (j & Hj & Nj) & So).
      assert (O : forall b, (b < a)%nat -> pd (V b) (stat p) = 0).
      { intros b Hb. pose proof (So b Hb) as E. unfold mv in E. cbn [f0 RF] in E. rewrite <- E.
        refine (linear_rep (N + 2) (fun p => pd (V b) (stat p)) _ _ _ p).
        - intros p1 p2 E'. apply pd_ext; [intros c i _ _; reflexivity|now apply stat_ext].
        - intros p1 p2. rewrite <- pd_add. apply pd_ext; [intros c i _ _; reflexivity|]. intros c i _ _. pose proof (stat_lin 1 1 p1 p2 c i) as S1. rewrite !Rmult_1_l in S1. rewrite <- S1.
          unfold stat, diff_next, over, phi_of. cbn [fsub fdiv RF]. destruct (ravel sh (shift_ix sh c 1 i)), (ravel sh i); rewrite ?Rmult_1_l; reflexivity.
        - intros k p1. rewrite <- pd_scale. apply pd_ext; [intros c i _ _; reflexivity|]. intros c i _ _. pose proof (stat_lin k 0 p1 p1 c i) as S1. rewrite Rmult_0_l, Rplus_0_r in S1. rewrite <- S1.
          unfold stat, diff_next, over, phi_of. cbn [fsub fdiv RF]. destruct (ravel sh (shift_ix sh c 1 i)), (ravel sh i); unfold Rdiv; rr. }
      assert (P : 0 < pd (stat p) (stat p)).
      { apply pd_pos. intro Z. apply Nj. exact (stat_inj p Z j Hj). }
      pose proof (m_least _ _ _ _ _ _ _ Mo a (stat p) Hn O) as L. rewrite cd_free in L by (intros c i Hc Hi; exact (stat_curl p c i Hc)).
      pose proof (m_pos _ _ _ _ _ _ _ Mo a Hn) as Q. destruct (Req_dec (lam a) 0) as [|X]; [assumption|]. assert (0 < lam a * pd (stat p) (stat p)) by (apply Rmult_lt_0_compat; lra). lra.
    Qed.
    Lemma high a : (a < 3 * N)%nat -> lam a = 0 -> (a < N + 2)%nat.
    Proof.
      intros Hn Z. destruct (le_lt_dec (N + 2) a) as [L|]; [exfalso|assumption].
      assert (Zb : forall b, (b < N + 3)%nat -> lam b = 0).
      { intros b Hb. pose proof (m_sorted _ _ _ _ _ _ _ Mo b a ltac:(lia) Hn). pose proof (m_pos _ _ _ _ _ _ _ Mo b ltac:(lia)). lra. }
      destruct (finite_choice (fun _ => 0) (N + 3) (fun b p => feq (K := RF) sh (V b) (stat p))) as (P & HP).
      { intros b Hb. apply stat_free. intros c i Hc Hi. exact (static_curl sh we wh eps mu LL V lam Mo b c i ltac:(lia) (Zb b Hb) Hc Hi). }
      destruct (underdetermined RF (N + 2) (N + 3) (fun j b => P b j) ltac:(lia)) as (x & (b0 & Hb0 & Nx) & So).
      assert (S0 : forall m, feq (K := RF) sh (stat (fun j => rs m (fun b => P b j * x b))) (fun c i => rs m (fun b => x b * stat (P b) c i))).
      { induction m as [|m IH]; intros c i Hc Hi.
        - pose proof (stat_lin 0 0 x x c i) as S1. rewrite !Rmult_0_l, Rplus_0_r in S1. cbn [sumN f0 RF]. rewrite <- S1 at 1.
          apply stat_ext; [|exact Hc|exact Hi]. intros j _. rr.
        - cbn [sumN]. rewrite <- (IH c i Hc Hi). pose proof (stat_lin 1 (x m) (fun j => rs m (fun b => P b j * x b)) (P m) c i) as S1. rewrite Rmult_1_l in S1. cbn [fadd fmul RF]. rewrite <- S1.
          apply stat_ext; [|exact Hc|exact Hi]. intros j _. cbn [fadd fmul RF]. rr. }
      assert (Zs : feq (K := RF) sh (fun c i => rs (N + 3) (fun b => x b * V b c i)) (fun _ _ => 0)).
      { intros c i Hc Hi. rewrite (rs_ext (N + 3) _ (fun b => x b * stat (P b) c i)) by (intros b Hb; now rewrite (HP b Hb c i Hc Hi)). rewrite <- (S0 (N + 3)%nat c i Hc Hi).
        pose proof (stat_lin 0 0 x x c i) as S1. rewrite !Rmult_0_l, Rplus_0_r in S1. rewrite <- S1. apply stat_ext; [|exact Hc|exact Hi]. intros j Hj. rewrite Rmult_0_l, Rplus_0_r. exact (So j Hj). }
      apply Nx. cbn [f0 RF]. transitivity (pd (V b0) (fun c i => rs (N + 3) (fun b => x b * V b c i))).
      - rewrite pd_sum. symmetry. rewrite (rs_ext (N + 3) _ (fun b => ind (K := RF) (Nat.eqb b b0) * x b)); [exact (sumN_ind_l RF (N + 3) b0 x Hb0)|].
        intros b Hb. rewrite (m_orth _ _ _ _ _ _ _ Mo b0 b ltac:(lia) ltac:(lia)), (Nat.eqb_sym b b0). destruct (b0 =? b)%nat; cbn; rr.
      - rewrite (pd_ext sh we wh eps (V b0) _ (V b0) (fun c i => 0 * V b0 c i)); [rewrite pd_scale; rr|intros c i _ _; reflexivity|]. intros c i Hc Hi. rewrite (Zs c i Hc Hi). rr.
    Qed.

    (** ** Decomposition *)
    Lemma curl_sum m (k : nat -> R) (G : nat -> field RF) c i : cn (fun c i => rs m (fun a => k a * G a c i)) c i = rs m (fun a => k a * cn (G a) c i).
    Proof.
      induction m as [|m IH].
      - to_model. unfold curl_forward, curl_with. cbn [sumN]. destruct c as [|[|[|c]]]; try reflexivity; unfold deriv_forward, roll; cbn [fsub fdiv f0 RF]; unfold Rdiv; rr.
      - cbn [sumN]. rewrite <- IH. to_model. cbn [fadd fmul RF]. unfold curl_forward, curl_with. destruct c as [|[|[|c]]]; [| | |cbn; rr]; unfold deriv_forward, roll; cbn [fsub fdiv RF]; unfold Rdiv; rr.
    Qed.
    Lemma wv_sum m (k : nat -> R) (G : nat -> field RF) c i : (c < 3)%nat -> inb sh i -> wv sh we wh mu (fun c i => rs m (fun a => k a * G a c i)) c i = rs m (fun a => k a * wv sh we wh mu (G a) c i).
    Proof.
      intros Hc Hi. unfold wv.
      assert (Q : forall m (H : nat -> field RF), curl_prev (K := RF) sh (Some wh) (fun c i => rs m (fun a => k a * H a c i)) c i = rs m (fun a => k a * curl_prev (K := RF) sh (Some wh) (H a) c i)).
      { clear m. intros m H. induction m as [|m IH].
        - to_model. unfold curl_back, curl_with. cbn [sumN]. destruct c as [|[|[|c]]]; try reflexivity; unfold deriv_back, roll; cbn [fsub fdiv f0 RF]; unfold Rdiv; rr.
        - cbn [sumN]. rewrite <- IH. to_model. cbn [fadd fmul RF]. unfold curl_back, curl_with. destruct c as [|[|[|c]]]; [| | |lia]; unfold deriv_back, roll; cbn [fsub fdiv RF]; unfold Rdiv; rr. }
      rewrite <- Q. to_model. apply (FdmathP.curl_back_ext RF); [rewrite (len3 sh we wh eps mu LL); lia|exact Hi|]. intros b j Hb Hj.
      pose proof (curl_sum m k G b j) as E. to_model. rewrite E. refine (eq_trans (eq_sym (sumN_mul_l RF m (/ matl (K := RF) mu b j) _)) _). apply rs_ext. intros a _. cbn [fmul finv RF]. rr.
    Qed.
    Lemma decompose F : exists (phi : arr RF) (k : nat -> R) (h : field RF),
      feq (K := RF) sh F (fun c i => (dn c phi i + k c) + curl_prev (K := RF) sh (Some wh) h c i / eps c i).
    Proof.
      set (co := fun a => pd (V a) F).
      set (st := fun a => if Req_EM_T (lam a) 0 then co a else 0). set (re := fun a => if Req_EM_T (lam a) 0 then 0 else co a / lam a).
      set (Fs := fun c i => rs (3 * N) (fun a => st a * V a c i)). set (G := fun c i => rs (3 * N) (fun a => re a * V a c i)).
      assert (C : forall c i, (c < 3)%nat -> inb sh i -> cn Fs c i = 0).
      { intros c i Hc Hi. unfold Fs. rewrite curl_sum. refine (sumN_zero RF _ _ _). intros a Ha. unfold st. cbn [f0 RF]. destruct (Req_EM_T (lam a) 0) as [Z|]; [|rr].
        rewrite (static_curl sh we wh eps mu LL V lam Mo a c i Ha Z Hc Hi). cbn. rr. }
      destruct (no_curl_forward RF sh (len3 sh we wh eps mu LL) we Fs (nz_e sh we wh eps mu LL) span_e C) as (phi & k & P).
      exists phi, k, (fun c i => / matl (K := RF) mu c i * cn G c i). intros c i Hc Hi. pose proof (P c i Hc Hi) as E1. cbn [fadd RF] in E1. to_model. rewrite <- E1.
      change (curl_back (K := RF) sh (Some wh) (fun c i => / matl (K := RF) mu c i * curl_forward (K := RF) sh (Some we) G c i) c i) with (wv sh we wh mu G c i).
      unfold G. rewrite (wv_sum (3 * N) re V c i Hc Hi). pose proof (eps_pos sh we wh eps mu LL c i Hc Hi) as Ep.
      rewrite (rs_ext (3 * N) (fun a => re a * wv sh we wh mu (V a) c i) (fun a => eps c i * ((co a - st a) * V a c i))).
      2:{ intros a Ha. rewrite (m_wv sh we wh eps mu LL V lam Mo a Ha c i Hc Hi). unfold re, st. destruct (Req_EM_T (lam a) 0) as [Z|Z]; [rr|exact (div_back_mul _ _ _ _ Z)]. }
      match goal with |- _ = ?x => transitivity (rs (3 * N) (fun a => st a * V a c i) + rs (3 * N) (fun a => (co a - st a) * V a c i)) end.
      - rewrite (m_basis _ _ _ _ _ _ _ Mo F c i Hc Hi) at 1. fold co. refine (eq_trans _ (sumN_add RF _ _ _)). apply rs_ext. intros a _. cbn [fadd fmul RF]. unfold co. rr.
      - unfold Fs. f_equal. pose proof (sumN_mul_l RF (3 * N) (eps c i) (fun a => (co a - st a) * V a c i)) as M. cbn [fmul RF] in M. rewrite M. refine (mul_div_l _ _ _). lra.
    Qed.
  End Mo.

  (** Static fields are orthogonal to curls. *)
  Lemma static_curl_orth S0 (h : field RF) : (forall c i, (c < 3)%nat -> inb sh i -> cn S0 c i = 0) ->
    pd S0 (fun c i => curl_prev (K := RF) sh (Some wh) h c i / eps c i) = 0.
  Proof.
    intro C. unfold e_dot. transitivity (fsum (K := RF) sh (fun c i => vol_e (K := RF) we wh c i * (S0 c i * curl_prev (K := RF) sh (Some wh) h c i))).
    - apply fs_ext. intros c i Hc Hi. pose proof (eps_pos sh we wh eps mu LL c i Hc Hi). field. lra.
    - to_model. refine (eq_trans (eq_sym (curl_adjoint RF sh we wh S0 h (len3 sh we wh eps mu LL) (nz_e sh we wh eps mu LL) (nz_h sh we wh eps mu LL))) _).
      rewrite <- (fs_zero sh). apply fs_ext. intros c i Hc Hi. rewrite (C c i Hc Hi). cbn. rr.
  Qed.
  Lemma decompose_unique phi k (h : field RF) phi' k' (h' : field RF) :
    feq (K := RF) sh (fun c i => (dn c phi i + k c) + curl_prev (K := RF) sh (Some wh) h c i / eps c i) (fun c i => (dn c phi' i + k' c) + curl_prev (K := RF) sh (Some wh) h' c i / eps c i) ->
    feq (K := RF) sh (fun c i => dn c phi i + k c) (fun c i => dn c phi' i + k' c).
  Proof.
    intro E. set (D := fun c i => dn c (fun j => phi j - phi' j) i + (k c - k' c)).
    assert (Dd : forall c i, D c i = (dn c phi i + k c) - (dn c phi' i + k' c)).
    { intros c i. unfold D, diff_next, over. cbn [fsub fdiv RF]. unfold Rdiv. rr. }
    assert (X : feq (K := RF) sh D (fun c i => curl_prev (K := RF) sh (Some wh) (fun c i => h' c i - h c i) c i / eps c i)).
    { intros c i Hc Hi. rewrite Dd. pose proof (E c i Hc Hi) as E'. cbv beta in E'. transitivity ((curl_prev (K := RF) sh (Some wh) h' c i - curl_prev (K := RF) sh (Some wh) h c i) / eps c i); [unfold Rdiv in *; lra|].
      f_equal. to_model. unfold curl_back, curl_with. destruct c as [|[|[|c]]]; [| | |lia]; unfold deriv_back, roll; cbn [fsub fdiv RF]; unfold Rdiv; rr. }
    assert (Z : feq (K := RF) sh D (fun _ _ => 0)).
    { assert (P0 : pd D D = 0).
      { rewrite (pd_ext sh we wh eps D D D _ (fun c i _ _ => eq_refl) X). apply static_curl_orth. intros c i Hc _. exact (grad_const_curl (fun j => phi j - phi' j) (fun c => k c - k' c) c i Hc). }
      intros c i Hc Hi. destruct (Req_dec (D c i) 0) as [|Nz]; [assumption|exfalso]. assert (Y : 0 < pd D D); [|lra]. apply pd_pos. intro Q. apply Nz. exact (Q c i Hc Hi). }
    intros c i Hc Hi. pose proof (Z c i Hc Hi) as Q. rewrite Dd in Q. lra.
  Qed.

  (** A field without curl, charge and total flux vanishes. *)
  Lemma determined F : (forall c i, (c < 3)%nat -> inb sh i -> cn F c i = 0) ->
    (forall i, inb sh i -> div_b (K := RF) sh (Some (we, wh)) (fun c i => eps c i * F c i) i = 0) ->
    (forall c, (c < 3)%nat -> gsum (K := RF) sh (fun i => vol_e (K := RF) we wh c i * (eps c i * F c i)) = 0) ->
    feq (K := RF) sh F (fun _ _ => 0).
  Proof.
    intros C Dv Fl. pose proof (len3 sh we wh eps mu LL) as HL. pose proof (nz_e sh we wh eps mu LL) as NE. pose proof (nz_h sh we wh eps mu LL) as NH.
    destruct (no_curl_forward RF sh HL we F NE span_e C) as (phi & k & P).
    assert (By : forall c, (c < 3)%nat -> gsum (K := RF) sh (fun i => vol_e (K := RF) we wh c i * (eps c i * (F c i * F c i)))
      = - gsum (K := RF) sh (fun i => vol3 (K := RF) wh wh wh i * (phi i * diff_prev (K := RF) sh (Some wh) c (fun i => eps c i * F c i) i))).
    { intros c Hc. transitivity (gsum (K := RF) sh (fun i => vol_e (K := RF) we wh c i * ((eps c i * F c i) * dn c phi i)) + k c * gsum (K := RF) sh (fun i => vol_e (K := RF) we wh c i * (eps c i * F c i))).
      - rewrite <- (gsum_mul_l RF sh (k c)). refine (eq_trans _ (gsum_add RF sh _ _)). apply (gsum_ext (K := RF)). intros i Hi. pose proof (P c i Hc Hi) as E. to_model. cbn [fadd fmul RF] in *.
        transitivity (vol_e (K := RF) we wh c i * (eps c i * F c i) * F c i); [rr|]. rewrite E at 2. rr.
      - rewrite (Fl c Hc). transitivity (gsum (K := RF) sh (fun i => vol_e (K := RF) we wh c i * ((eps c i * F c i) * dn c phi i))); [cbn; rr|]. to_model.
        set (W := fun i : list nat => match c with 0%nat => wh 1%nat (coord i 1) * wh 2%nat (coord i 2) | 1%nat => wh 0%nat (coord i 0) * wh 2%nat (coord i 2) | _ => wh 0%nat (coord i 0) * wh 1%nat (coord i 1) end).
        pose proof (sum_by_parts RF sh c we wh W phi (fun i => eps c i * F c i) ltac:(lia)) as Q. cbn [fmul fopp RF] in Q.
        transitivity (gsum (K := RF) sh (fun i => W i * we c (coord i c) * (eps c i * F c i * deriv_forward (K := RF) sh (Some we) c phi i))).
        { apply (gsum_ext (K := RF)). intros i _. unfold W, vol_e, vol3. destruct c as [|[|[|c]]]; [| | |lia]; cbn [fmul RF]; rr. }
        rewrite Q.
        + f_equal. apply (gsum_ext (K := RF)). intros i _. unfold W, vol3. destruct c as [|[|[|c]]]; [| | |lia]; cbn [fmul RF]; rr.
        + intros i _. unfold W. destruct c as [|[|[|c]]]; [| | |lia]; rewrite !coord_shift_other by lia; reflexivity.
        + intros i Hi. apply NE; [lia|exact Hi].
        + intros i Hi. apply NH; [lia|exact Hi]. }
    assert (Z : pd F F = 0).
    { unfold e_dot, fsum. rewrite (By 0%nat), (By 1%nat), (By 2%nat) by lia. cbn [fadd RF].
      transitivity (- gsum (K := RF) sh (fun i => vol3 (K := RF) wh wh wh i * (phi i * div_b (K := RF) sh (Some (we, wh)) (fun c i => eps c i * F c i) i))).
      - transitivity (- ((gsum (K := RF) sh (fun i => vol3 (K := RF) wh wh wh i * (phi i * diff_prev (K := RF) sh (Some wh) 0 (fun i => eps 0%nat i * F 0%nat i) i))
          + gsum (K := RF) sh (fun i => vol3 (K := RF) wh wh wh i * (phi i * diff_prev (K := RF) sh (Some wh) 1 (fun i => eps 1%nat i * F 1%nat i) i)))
          + gsum (K := RF) sh (fun i => vol3 (K := RF) wh wh wh i * (phi i * diff_prev (K := RF) sh (Some wh) 2 (fun i => eps 2%nat i * F 2%nat i) i)))); [rr|]. f_equal.
        refine (eq_trans (f_equal2 Rplus (eq_sym (gsum_add RF sh _ _)) eq_refl) _). refine (eq_trans (eq_sym (gsum_add RF sh _ _)) _). apply (gsum_ext (K := RF)). intros i _. unfold div_b. cbn [option_map snd fadd fmul RF]. rr.
      - rewrite (gsum_ext (K := RF) sh _ (fun i => 0 * 0)); [rewrite (gsum_mul_l RF sh 0); cbn; rr|]. intros i Hi. rewrite (Dv i Hi). cbn. rr. }
    intros c i Hc Hi. destruct (Req_dec (F c i) 0) as [|Nz]; [assumption|exfalso]. assert (Y : 0 < pd F F); [|lra]. apply pd_pos. intro Q. apply Nz. exact (Q c i Hc Hi).
  Qed.
End Static.
