(** Fields without curl: potentials, steady states, static modes (C169). *)
From Coq Require Import Reals List Arith ZArith Lia Lra Field QArith Qcanon.
From Verif.Lib Require Import Num Sums Idx Mat RealF.
From Verif.Model Require Import Fdmath Fdtd.
From Verif.Spec Require Import Grid Yee FdtdRun ModesSpec.
From Verif.Proofs Require Import FdmathP GridP ModesP PotentialP CurlFreeP.
From Verif.Props Require Import ModesProps.
Import ListNotations.

Section Gen.
  Variable K : Fld.
  Add Field Kfield : (fth K).
  Local Open Scope fld_scope.
  Lemma fw_grad_const sh (w : widths K) (phi : arr K) (k : nat -> K) c i : (c < 3)%nat -> curl_forward sh (Some w) (fun c i => diff_next sh (Some w) c phi i + k c) c i = 0.
  Proof.
    intro Hc. pose proof (curl_grad_forward K sh (Some w) phi c i) as G. to_model. unfold curl_forward, curl_with in *.
    destruct c as [|[|[|c]]]; [| | |lia]; unfold deriv_forward, roll in *; rewrite <- G, !fdiv_def; ring.
  Qed.
  Lemma bk_grad_const sh (w : widths K) (phi : arr K) (k : nat -> K) c i : (c < 3)%nat -> curl_back sh (Some w) (fun c i => diff_prev sh (Some w) c phi i + k c) c i = 0.
  Proof.
    intro Hc. pose proof (curl_grad_back K sh (Some w) phi c i) as G. to_model. unfold curl_back, curl_with in *.
    destruct c as [|[|[|c]]]; [| | |lia]; unfold deriv_back, roll in *; rewrite <- G, !fdiv_def; ring.
  Qed.
  Lemma fw_iff sh (w : widths K) (e : field K) : length sh = 3%nat -> nzw sh w -> (forall a, (a < 3)%nat -> sumN (dim sh a) (w a) <> 0) ->
    (feq sh (curl_forward sh (Some w) e) (fun _ _ => 0) <-> exists (phi : arr K) (k : nat -> K), feq sh e (fun c i => diff_next sh (Some w) c phi i + k c)).
  Proof.
    intros HL Nz Sp. split.
    - intro C. exact (no_curl_forward K sh HL w e Nz Sp C).
    - intros (phi & k & E) c i Hc Hi. rewrite (curl_forward_ext K sh (Some w) e _ c i ltac:(lia) Hi E). now apply fw_grad_const.
  Qed.
  Lemma bk_iff sh (w : widths K) (e : field K) : length sh = 3%nat -> nzw sh w -> (forall a, (a < 3)%nat -> sumN (dim sh a) (w a) <> 0) ->
    (feq sh (curl_back sh (Some w) e) (fun _ _ => 0) <-> exists (phi : arr K) (k : nat -> K), feq sh e (fun c i => diff_prev sh (Some w) c phi i + k c)).
  Proof.
    intros HL Nz Sp. split.
    - intro C. exact (no_curl_back K sh HL w e Nz Sp C).
    - intros (phi & k & E) c i Hc Hi. rewrite (curl_back_ext K sh (Some w) e _ c i ltac:(lia) Hi E). now apply bk_grad_const.
  Qed.
  Lemma fw_uniq sh (w : widths K) (phi phi' : arr K) (k k' : nat -> K) : length sh = 3%nat -> nzw sh w -> (forall a, (a < 3)%nat -> sumN (dim sh a) (w a) <> 0) ->
    feq sh (fun c i => diff_next sh (Some w) c phi i + k c) (fun c i => diff_next sh (Some w) c phi' i + k' c) ->
    (forall c, (c < 3)%nat -> k c = k' c) /\ exists s, forall i, inb sh i -> phi i = phi' i + s.
  Proof.
    intros HL Nz Sp E. set (d := fun i => phi i - phi' i).
    assert (W : forall c i, (c < 3)%nat -> inb sh i -> w c (coord i c) <> 0) by (intros c i Hc Hi; apply Nz; [lia|apply inb_coord; [exact Hi|lia]]).
    assert (D : forall c i, (c < 3)%nat -> inb sh i -> d (shift_ix sh c 1 i) - d i + (k c - k' c) * w c (coord i c) = 0).
    { intros c i Hc Hi. pose proof (E c i Hc Hi) as X. pose proof (W c i Hc Hi) as V. unfold diff_next, over in X.
      transitivity (((phi (shift_ix sh c 1 i) - phi i) / w c (coord i c) + k c - ((phi' (shift_ix sh c 1 i) - phi' i) / w c (coord i c) + k' c)) * w c (coord i c)); [unfold d; field; exact V|rewrite X; ring]. }
    assert (U : forall c, (c < 3)%nat -> k c - k' c = 0).
    { intros c Hc. apply (loop_const K sh HL w d _ c Hc (span_dim K sh HL w Sp) (Sp c Hc)). intros i Hi. now apply D. }
    split; [intros c Hc; apply (sub_eq K), U, Hc|]. exists (d [0; 0; 0]%nat). intros i Hi.
    rewrite <- (pot_constant K sh HL d) with (idx := i); [unfold d; ring| |exact Hi]. intros c j Hc Hj. pose proof (D c j Hc Hj) as X. rewrite (U c Hc) in X. apply (sub_eq K). rewrite <- X. ring.
  Qed.
  Lemma steady_iff sh (we wh : widths K) (dt : K) (eps : field K) (mu : option (field K)) (s : state K) : length sh = 3%nat -> dt <> 0 -> nzm sh eps -> nzm_opt sh mu ->
    (seq_st sh (step sh dt (Some (we, wh)) eps mu noj s) s <-> feq sh (curl_forward sh (Some we) (sE s)) (fun _ _ => 0) /\ feq sh (curl_back sh (Some wh) (sH s)) (fun _ _ => 0)).
  Proof.
    intros HL Hd Ne Nm. unfold seq_st, step. cbn [sE sH].
    assert (A : feq sh (maxwell_h sh dt (Some (we, wh)) (sE s) (sH s) mu) (sH s) <-> feq sh (curl_forward sh (Some we) (sE s)) (fun _ _ => 0)).
    { unfold maxwell_h. cbn [option_map fst]. split; intros H c i Hc Hi; pose proof (H c i Hc Hi) as X; cbv beta in X.
      - destruct mu as [m|].
        + pose proof (Nm c i Hc Hi) as Q. transitivity ((sH s c i - (sH s c i - dt * curl_forward sh (Some we) (sE s) c i / m c i)) * m c i / dt); [field; auto|rewrite X; field; auto].
        + transitivity ((sH s c i - (sH s c i - dt * curl_forward sh (Some we) (sE s) c i)) / dt); [field; auto|rewrite X; field; auto].
      - rewrite X. destruct mu as [m|]; [rewrite fdiv_def|]; ring. }
    split.
    - intros (E & H). pose proof (proj1 A H) as CE. split; [exact CE|]. intros c i Hc Hi. pose proof (E c i Hc Hi) as X. unfold maxwell_e, noj in X. cbn [option_map snd] in X.
      rewrite (curl_back_ext K sh (Some wh) _ (sH s) c i ltac:(lia) Hi H) in X. pose proof (Ne c i Hc Hi) as Q.
      transitivity ((sE s c i + dt * curl_back sh (Some wh) (sH s) c i / eps c i + 0 / eps c i - sE s c i) * eps c i / dt); [field; auto|rewrite X; field; auto].
    - intros (CE & CH). pose proof (proj2 A CE) as H. split; [|exact H]. intros c i Hc Hi. unfold maxwell_e, noj. cbn [option_map snd].
      rewrite (curl_back_ext K sh (Some wh) _ (sH s) c i ltac:(lia) Hi H), (CH c i Hc Hi), !fdiv_def. ring.
  Qed.
End Gen.

(** ** C169 *)
(** A field has no curl (as the code takes it) exactly if it is a gradient plus a uniform
    field. *)
Theorem C169_curl_free :
  forall (K : Fld) (sh : list nat) (w : widths K) (e : field K),
    length sh = 3%nat -> nzw sh w -> (forall a, (a < 3)%nat -> sumN (dim sh a) (w a) <> 0%K) ->
    (feq sh (curl_forward sh (Some w) e) (fun _ _ => 0%K) <->
     exists (phi : arr K) (k : nat -> K), feq sh e (fun c i => (diff_next sh (Some w) c phi i + k c)%K)) /\
    (feq sh (curl_back sh (Some w) e) (fun _ _ => 0%K) <->
     exists (phi : arr K) (k : nat -> K), feq sh e (fun c i => (diff_prev sh (Some w) c phi i + k c)%K)).
Proof. intros K sh w e HL Nz Sp. split; [now apply fw_iff|now apply bk_iff]. Qed.
Print Assumptions C169_curl_free.

(** The uniform field is unique, and the potential up to a constant. *)
Theorem C169_unique :
  forall (K : Fld) (sh : list nat) (w : widths K) (phi phi' : arr K) (k k' : nat -> K),
    length sh = 3%nat -> nzw sh w -> (forall a, (a < 3)%nat -> sumN (dim sh a) (w a) <> 0%K) ->
    feq sh (fun c i => (diff_next sh (Some w) c phi i + k c)%K) (fun c i => (diff_next sh (Some w) c phi' i + k' c)%K) ->
    (forall c, (c < 3)%nat -> k c = k' c) /\ exists s, forall i, inb sh i -> phi i = (phi' i + s)%K.
Proof. exact fw_uniq. Qed.
Print Assumptions C169_unique.

(** A time step without currents leaves a state as it is exactly if both fields are of
    that form; then so does every run. *)
Theorem C169_steady :
  forall (K : Fld) (sh : list nat) (we wh : widths K) (dt : K) (eps : field K) (mu : option (field K)) (s : state K),
    length sh = 3%nat -> nzw sh we -> nzw sh wh ->
    (forall a, (a < 3)%nat -> sumN (dim sh a) (we a) <> 0%K) -> (forall a, (a < 3)%nat -> sumN (dim sh a) (wh a) <> 0%K) ->
    dt <> 0%K -> nzm sh eps -> nzm_opt sh mu ->
    (seq_st sh (step sh dt (Some (we, wh)) eps mu noj s) s <->
     exists (phi psi : arr K) (k l : nat -> K),
       feq sh (sE s) (fun c i => (diff_next sh (Some we) c phi i + k c)%K) /\
       feq sh (sH s) (fun c i => (diff_prev sh (Some wh) c psi i + l c)%K)) /\
    (seq_st sh (step sh dt (Some (we, wh)) eps mu noj s) s ->
     forall n, seq_st sh (run sh dt (Some (we, wh)) eps mu (repeat noj n) s) s).
Proof.
  intros K sh we wh dt eps mu s HL Ne Nh Se Sh Hd Nep Nm. split.
  - rewrite (steady_iff K sh we wh dt eps mu s HL Hd Nep Nm), (fw_iff K sh we (sE s) HL Ne Se), (bk_iff K sh wh (sH s) HL Nh Sh). split.
    + intros ((phi & k & A) & (psi & l & B)). exists phi, psi, k, l. split; assumption.
    + intros (phi & psi & k & l & A & B). split; [exists phi, k; exact A|exists psi, l; exact B].
  - intro S0. pose proof (proj1 (steady_iff K sh we wh dt eps mu s HL Hd Nep Nm) S0) as (CE & CH).
    assert (G : forall n t, seq_st sh t s -> seq_st sh (run sh dt (Some (we, wh)) eps mu (repeat noj n) t) s).
    { induction n as [|n IH]; intros t T; [exact T|]. cbn [repeat]. unfold run. cbn [fold_left]. apply IH.
      assert (X : seq_st sh (step sh dt (Some (we, wh)) eps mu noj t) t).
      { apply (steady_iff K sh we wh dt eps mu t HL Hd Nep Nm). destruct T as (TE & TH). split; intros c i Hc Hi.
        - rewrite (curl_forward_ext K sh (Some we) (sE t) (sE s) c i ltac:(lia) Hi TE). now apply CE.
        - rewrite (curl_back_ext K sh (Some wh) (sH t) (sH s) c i ltac:(lia) Hi TH). now apply CH. }
      destruct X as (XE & XH), T as (TE & TH). split; intros c i Hc Hi; [rewrite (XE c i Hc Hi); now apply TE|rewrite (XH c i Hc Hi); now apply TH]. }
    intro n. apply G. split; intros c i _ _; reflexivity.
Qed.
Print Assumptions C169_steady.

Local Open Scope R_scope.
(** Of the 3N resonances of a box of N cells, N + 2 are at zero frequency, whatever the
    materials and widths. *)
Theorem C169_static_modes :
  forall (sh : list nat) (we wh : widths RF) (eps : field RF) (mu : option (field RF)) V lam a,
    lossless sh we wh eps mu -> (0 < prodl sh)%nat -> modes sh we wh eps mu V lam -> (a < 3 * prodl sh)%nat ->
    (lam a = 0 <-> (a < prodl sh + 2)%nat).
Proof.
  intros sh we wh eps mu V lam a LL HN Mo Ha. split.
  - exact (high sh we wh eps mu LL HN V lam Mo a Ha).
  - intro H. exact (low sh we wh eps mu LL HN V lam Mo a H Ha).
Qed.
Print Assumptions C169_static_modes.

(** Every field is a static one (a gradient plus a uniform field) plus a curl over the
    permittivity; the static part is unique and orthogonal to the curls. *)
Theorem C169_helmholtz :
  forall (sh : list nat) (we wh : widths RF) (eps : field RF) (mu : option (field RF)),
    lossless sh we wh eps mu -> (0 < prodl sh)%nat ->
    let static phi k : field RF := fun c i => diff_next (K := RF) sh (Some we) c phi i + k c in
    let rot h : field RF := fun c i => curl_prev (K := RF) sh (Some wh) h c i / eps c i in
    (forall F, exists phi k h, feq (K := RF) sh F (fun c i => static phi k c i + rot h c i)) /\
    (forall phi k h phi' k' h', feq (K := RF) sh (fun c i => static phi k c i + rot h c i) (fun c i => static phi' k' c i + rot h' c i) ->
       feq (K := RF) sh (static phi k) (static phi' k') /\ feq (K := RF) sh (rot h) (rot h')) /\
    (forall phi k h, e_dot sh we wh eps (static phi k) (rot h) = 0).
Proof.
  intros sh we wh eps mu LL HN static rot. split; [|split].
  - intro F. destruct (C152_modes sh we wh eps mu LL) as (V & lam & Mo). exact (decompose sh we wh eps mu LL HN V lam Mo F).
  - intros phi k h phi' k' h' E. assert (A : feq (K := RF) sh (static phi k) (static phi' k')) by exact (decompose_unique sh we wh eps mu LL HN phi k h phi' k' h' E).
    split; [exact A|]. intros c i Hc Hi. pose proof (E c i Hc Hi) as X. cbv beta in X. rewrite (A c i Hc Hi) in X. exact (Rplus_eq_reg_l _ _ _ X).
  - intros phi k h. apply (static_curl_orth sh we wh eps mu LL). intros c i Hc _. exact (grad_const_curl sh we HN phi k c i Hc).
Qed.
Print Assumptions C169_helmholtz.

(** The curl, the charges and the three totals of the displacement determine a field. *)
Theorem C169_determined :
  forall (sh : list nat) (we wh : widths RF) (eps : field RF) (mu : option (field RF)) (F G : field RF),
    lossless sh we wh eps mu -> (0 < prodl sh)%nat ->
    let displ (E : field RF) : field RF := fun c i => eps c i * E c i in
    let total E c := gsum (K := RF) sh (fun i => vol_e (K := RF) we wh c i * displ E c i) in
    feq (K := RF) sh (curl_forward (K := RF) sh (Some we) F) (curl_forward (K := RF) sh (Some we) G) ->
    (forall i, inb sh i -> div_b (K := RF) sh (Some (we, wh)) (displ F) i = div_b (K := RF) sh (Some (we, wh)) (displ G) i) ->
    (forall c, (c < 3)%nat -> total F c = total G c) ->
    feq (K := RF) sh F G.
Proof.
  intros sh we wh eps mu F G LL HN displ total C Dv T.
  assert (Z : feq (K := RF) sh (fun c i => F c i - G c i) (fun _ _ => 0)).
  { apply (determined sh we wh eps mu LL HN).
    - intros c i Hc Hi. pose proof (C c i Hc Hi) as X. to_model. transitivity (curl_forward (K := RF) sh (Some we) F c i - curl_forward (K := RF) sh (Some we) G c i); [|rewrite X; apply Rminus_diag_eq; reflexivity].
      unfold curl_forward, curl_with. destruct c as [|[|[|c]]]; [| | |lia]; unfold deriv_forward, roll; cbn [fsub fdiv RF]; unfold Rdiv; req; ring.
    - intros i Hi. pose proof (Dv i Hi) as X. transitivity (div_b (K := RF) sh (Some (we, wh)) (displ F) i - div_b (K := RF) sh (Some (we, wh)) (displ G) i); [|rewrite X; apply Rminus_diag_eq; reflexivity].
      unfold div_b, displ, diff_prev, over. cbn [option_map snd fadd fsub fdiv RF]. unfold Rdiv. req. ring.
    - intros c Hc. pose proof (T c Hc) as X. transitivity (total F c - total G c); [|rewrite X; apply Rminus_diag_eq; reflexivity].
      unfold total. refine (eq_trans _ (gsum_sub RF sh _ _)). apply (gsum_ext (K := RF)). intros i _. unfold displ. cbn [fsub fmul RF]. req. ring. }
  intros c i Hc Hi. pose proof (Z c i Hc Hi) as X. cbv beta in X. apply Rminus_diag_uniq. exact X.
Qed.
Print Assumptions C169_determined.

(** The box of C152 (six cells of different widths and materials): eight of its eighteen
    resonances are static.  And a field with a non-uniform potential and a uniform part
    on a grid of different widths. *)
Example C169_case :
  (lossless [2; 1; 3]%nat mx_w mx_w mx_eps mx_mu /\ prodl [2; 1; 3]%nat = 6%nat /\
   forall V lam, modes [2; 1; 3]%nat mx_w mx_w mx_eps mx_mu V lam -> lam 7%nat = 0 /\ lam 8%nat <> 0) /\
  (let w : widths RF := mx_w in
   let e : field RF := fun c i => diff_next (K := RF) [2; 1; 3]%nat (Some w) c (fun j => INR (coord j 2) * INR (coord j 0)) i + INR c in
   feq (K := RF) [2; 1; 3]%nat (curl_forward (K := RF) [2; 1; 3]%nat (Some w) e) (fun _ _ => 0) /\
   e 0%nat [0; 0; 1]%nat = 1 /\ e 0%nat [0; 0; 0]%nat = 0 /\ e 1%nat [0; 0; 0]%nat = 1).
Proof.
  split.
  - pose proof (proj1 C152_case) as LL. split; [exact LL|]. split; [reflexivity|]. intros V lam Mo. split.
    + apply (C169_static_modes _ _ _ _ _ V lam 7%nat LL); [cbn; lia|exact Mo|cbn; lia|cbn; lia].
    + intro Z. apply (C169_static_modes _ _ _ _ _ V lam 8%nat LL) in Z; [cbn in Z; lia|cbn; lia|exact Mo|cbn; lia].
  - cbv zeta. split.
    + intros c i Hc Hi. exact (fw_grad_const RF [2; 1; 3]%nat mx_w _ (fun c => INR c) c i Hc).
    + unfold diff_next, over, mx_w, shift_ix, cyc, upd, coord. cbn. change (Pos.to_nat 1) with 1%nat. cbn [INR]. split; [|split]; req; field.
Qed.
