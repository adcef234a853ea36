(** A periodic source has a periodic response exactly when the frequency-domain problems at its frequencies can be solved (C187). *)
From Coq Require Import Reals List Arith ZArith Lia Lra Psatz Field.
From Verif.Lib Require Import Num Sums Idx RealF Cexp Dft.
From Verif.Model Require Import Fdmath Fdtd Fdfd.
From Verif.Spec Require Import Grid Yee FdtdRun FdfdSpec HarmonicSpec BlochSpec.
From Verif.Proofs Require Import FdmathP FdtdP2 FdfdP FarP BlochP2 HarmonicP HarmonicP2.
From Verif.Props Require Import HarmonicProps MeanProps MeanProps2 FourierProps SpectrumProps.
Import ListNotations.

Section M.
  Variable K : Fld.
  Add Field Kfield : (fth K).
  Local Open Scope fld_scope.
  Definition many (M : nat) (q : K) (s : nat -> state K) : state K :=
    mkst (fun c i => sumN M (fun k => q * sE (s k) c i)) (fun c i => sumN M (fun k => q * sH (s k) c i)).
  Lemma step_many sh dt d eps mu q (j : nat -> field K) (s : nat -> state K) M : length sh = 3%nat ->
    seq_st sh (step sh dt d eps mu (fun c i => sumN M (fun k => q * j k c i)) (many M q s)) (many M q (fun k => step sh dt d eps mu (j k) (s k))).
  Proof.
    intro HL. induction M as [|M IH].
    - assert (Z : forall c i, maxwell_h sh dt d (fun _ _ => 0) (fun _ _ => 0) mu c i = 0).
      { intros c i. unfold maxwell_h, curl_forward, curl_with, deriv_forward, roll. destruct d as [d|]; destruct mu; destruct c as [|[|[|c]]]; cbn [option_map]; rewrite ?(Fdiv_def (fth K)); ring. }
      split; intros c i Hc Hi; cbn [many step sE sH sumN]; [|apply Z].
      set (h := maxwell_h _ _ _ _ _ _) in *. clearbody h. unfold maxwell_e, curl_back, curl_with, deriv_back, roll. destruct d as [d|]; destruct c as [|[|[|c]]]; cbn [option_map]; rewrite ?Z, ?(Fdiv_def (fth K)); ring.
    - eapply seq_st_trans; [|eapply seq_st_trans].
      + eapply seq_st_trans; [apply (step_ext_j K) with (j' := lin K 1 q (fun c i => sumN M (fun k => q * j k c i)) (j M))|apply (step_ext K) with (t := lin_st K 1 q (many M q s) (s M)); [exact HL|]].
        * intros c i _ _. unfold lin. cbn [sumN]. ring.
        * split; intros c i _ _; unfold lin_st, lin, many; cbn [sE sH sumN]; ring.
      + apply step_lin.
      + destruct IH as [A B]. split; intros c i Hc Hi; unfold lin_st, lin; cbn [sE sH]; [rewrite (A c i Hc Hi)|rewrite (B c i Hc Hi)]; unfold many; cbn [sE sH sumN]; ring.
  Qed.
End M.
Local Open Scope R_scope.

Lemma fin_choice (A : Type) (P : nat -> A -> Prop) (a0 : A) N : (forall k, (k < N)%nat -> exists x, P k x) -> exists f, forall k, (k < N)%nat -> P k (f k).
Proof.
  induction N as [|N IH]; intro H; [exists (fun _ => a0); intros; lia|].
  destruct IH as [f F]; [intros k Hk; apply H; lia|]. destruct (H N ltac:(lia)) as [x X].
  exists (fun k => if Nat.eqb k N then x else f k). intros k Hk. destruct (Nat.eqb_spec k N) as [->|D]; [exact X|apply F; lia].
Qed.
Lemma invert1 N (u : nat -> R) dt n : (n < N)%nat -> dt <> 0 ->
  let om k := 2 * PI * INR k / (INR N * dt) in
  let B k := sumN (K := CC) N (fun m => rmul (u m) (cis (- (om k * ((INR m + / 2) * dt))))) in
  u n = sumN (K := RF) N (fun k => / INR N * (cre (B k) * cos (om k * ((INR n + / 2) * dt)) - cim (B k) * sin (om k * ((INR n + / 2) * dt)))).
Proof.
  intros Hn Hdt om B. assert (NZ : INR N <> 0) by (apply not_0_INR; lia).
  pose proof (f_equal cre (parseval1 N u (fun m => if Nat.eqb m n then 1 else 0) ltac:(lia))) as P. cbv zeta in P. rewrite cre_sumN in P. cbn [cre] in P.
  rewrite (sumN_single RF N (fun m => u m * (if Nat.eqb m n then 1 else 0)) n Hn) in P by (intros m _ D; apply Nat.eqb_neq in D; rewrite D; match goal with |- ?x = ?y => change (@eq R x y) end; cbn; ring).
  rewrite Nat.eqb_refl, Rmult_1_r in P.
  transitivity (/ INR N * (INR N * u n)); [field; exact NZ|]. rewrite <- P. refine (eq_trans (eq_sym (sumN_mul_l RF N _ _)) _). apply (sumN_ext RF). intros k _.
  rewrite (sumN_single CC N (fun m => rmul (if Nat.eqb m n then 1 else 0) (cis (- (2 * PI * (INR k * INR m / INR N))))) n Hn) by (intros m _ D; apply Nat.eqb_neq in D; rewrite D; apply cpx_ext; cbn; ring).
  rewrite Nat.eqb_refl.
  assert (Q : sumN (K := CC) N (fun m => rmul (u m) (cis (- (2 * PI * (INR k * INR m / INR N))))) = cmul (cis (om k * dt / 2)) (B k)).
  { refine (eq_trans _ (sumN_mul_l CC N _ _)). apply (sumN_ext CC). intros m _.
    replace (- (2 * PI * (INR k * INR m / INR N))) with (om k * dt / 2 + - (om k * ((INR m + / 2) * dt))) by (unfold om; field; split; assumption).
    rewrite cis_add. set (p := cis _). set (r := cis _). clearbody p r. apply cpx_ext; cbn; ring. }
  rewrite Q. replace (- (2 * PI * (INR k * INR n / INR N))) with (- (om k * (INR n * dt))) by (unfold om; field; split; assumption).
  replace (om k * ((INR n + / 2) * dt)) with (om k * dt / 2 + om k * (INR n * dt)) by field.
  rewrite cos_plus, sin_plus, cis_opp. unfold cis. generalize (B k). intro b. change cpx in b. set (c := cos _). set (s := sin _). set (c' := cos _). set (s' := sin _). clearbody c s c' s'. generalize (/ INR N). intro r.
  match goal with |- ?x = ?y => change (@eq R x y) end. cbn. ring.
Qed.
Lemma at_phase_period (F : field CC) (t t' : R) k c i : t' = t + 2 * INR k * PI -> at_phase F t' c i = at_phase F t c i.
Proof. intros ->. unfold at_phase. now rewrite cos_period, sin_period. Qed.

Lemma neg_sum N (g : nat -> R) a r : - (a * sumN (K := RF) N (fun k => r * g k)) = sumN (K := RF) N (fun k => r * - (a * g k)).
Proof.
  induction N as [|N IH]; [match goal with |- ?x = ?y => change (@eq R x y) end; cbn; ring|]. cbn [sumN]. rewrite <- IH.
  set (x := sumN N _). clearbody x. match goal with |- ?x = ?y => change (@eq R x y) end. cbn. ring.
Qed.

(** Given currents over N steps, there is a state to which the run returns after them if and only
    if the frequency-domain equations can be solved at each of the N frequencies 2 pi k / (N dt)
    (shifted by the discretisation in time) with the Fourier sum of the currents as the source. *)
Theorem C187_periodic_response :
  forall (sh : list nat) (we wh : widths RF) (dt : R) (eps : field RF) (mu : option (field RF)) (J : nat -> field RF) (N : nat),
    length sh = 3%nat -> nzw (K := RF) sh we -> nzw (K := RF) sh wh -> dt <> 0 -> nzm (K := RF) sh eps -> nzm_opt (K := RF) sh mu -> (0 < N)%nat ->
    let om k := 2 * PI * INR k / (INR N * dt) in
    (exists s : state RF, seq_st (K := RF) sh (run (K := RF) sh dt (Some (we, wh)) eps mu (map (fun n c i => - (dt * J n c i)) (seq 0 N)) s) s) <->
    (forall k, (k < N)%nat -> exists E H : field CC, solves sh we wh dt (om k) eps mu E H (fourier (om k) N (fun n => (INR n + / 2) * dt) J)).
Proof.
  intros sh we wh dt eps mu J N HL He Hh Hdt Heps Hmu HN om. assert (NZ : INR N <> 0) by (apply not_0_INR; lia). split.
  - intros [s Hp] k Hk. pose proof (proj1 (C185_work_spectrum sh we wh dt eps mu J s N HL He Hh Hdt Heps Hmu HN Hp) k) as Sv. eexists _, _. exact Sv.
  - intro X. set (Jf := fun k => fourier (om k) N (fun n => (INR n + / 2) * dt) J) in *.
    destruct (fin_choice (field CC * field CC) (fun k p => solves sh we wh dt (om k) eps mu (fst p) (snd p) (Jf k)) (noj (K := CC), noj (K := CC)) N) as [f F].
    { intros k Hk. destruct (X k Hk) as (E & H & Sv). now exists (E, H). }
    set (st := fun n k => driven sh we wh dt (om k) eps mu (fst (f k)) (snd (f k)) (Jf k) n).
    set (q := / INR N : RF). exists (many RF N q (st 0%nat)).
    assert (L : forall n, (n <= N)%nat -> seq_st (K := RF) sh (run (K := RF) sh dt (Some (we, wh)) eps mu (map (fun n c i => - (dt * J n c i)) (seq 0 n)) (many RF N q (st 0%nat))) (many RF N q (st n))).
    { induction n as [|n IH]; intro Hn; [split; apply (feq_refl RF)|].
      rewrite seq_S, map_app. unfold run. rewrite fold_left_app. cbn [map fold_left].
      eapply (seq_st_trans RF); [apply (step_ext RF); [exact HL|apply IH; lia]|].
      eapply (seq_st_trans RF); [|eapply (seq_st_trans RF); [apply (step_many RF sh dt (Some (we, wh)) eps mu q (fun k => source dt (om k) (Jf k) n) (st n) N HL)|]].
      - apply (step_ext_j RF). intros c i _ _. unfold source. refine (eq_trans (f_equal (fun x : R => - (dt * x)) (invert1 N (fun n => J n c i) dt n Hn Hdt)) _).
        exact (neg_sum N (fun k => at_phase (Jf k) (om k * ((INR n + / 2) * dt)) c i) dt (/ INR N)).
      - assert (T : forall k, st (S n) k = step (K := RF) sh dt (Some (we, wh)) eps mu (source dt (om k) (Jf k) n) (st n k)).
        { intro k. unfold st, driven. rewrite seq_S, map_app. unfold run. rewrite fold_left_app. reflexivity. }
        split; intros c i _ _; unfold many; cbn [sE sH]; apply (sumN_ext RF); intros k _; now rewrite T. }
    eapply (seq_st_trans RF); [apply (L N); lia|].
    assert (RR : forall n k, (k < N)%nat -> seq_st (K := RF) sh (st n k) (mkst (at_phase (fst (f k)) (om k * (INR n * dt))) (at_phase (snd (f k)) (om k * ((INR n - / 2) * dt))))).
    { intros n k Hk. destruct (F k Hk) as [A B]. exact (C115_real_run sh we wh dt (om k) eps mu (fst (f k)) (snd (f k)) (Jf k) HL He Hh Hdt Heps Hmu A B n). }
    split; intros c i Hc Hi; unfold many; cbn [sE sH]; apply (sumN_ext RF); intros k Hk; f_equal.
    + rewrite (proj1 (RR N k Hk) c i Hc Hi), (proj1 (RR 0%nat k Hk) c i Hc Hi). cbn [sE]. apply (at_phase_period _ _ _ k). unfold om. cbn [INR]. field. split; assumption.
    + rewrite (proj2 (RR N k Hk) c i Hc Hi), (proj2 (RR 0%nat k Hk) c i Hc Hi). cbn [sH]. apply (at_phase_period _ _ _ k). unfold om. cbn [INR]. field. split; assumption.
Qed.
Print Assumptions C187_periodic_response.

(** If the problems at the frequencies other than zero have at most one solution, any two responses
    differ by fields that do not change in time. *)
Theorem C187_responses_differ_statically :
  forall (sh : list nat) (we wh : widths RF) (dt : R) (eps : field RF) (mu : option (field RF)) (J : nat -> field RF) (N : nat) (s s' : state RF),
    length sh = 3%nat -> nzw (K := RF) sh we -> nzw (K := RF) sh wh -> dt <> 0 -> nzm (K := RF) sh eps -> nzm_opt (K := RF) sh mu -> (0 < N)%nat ->
    let om k := 2 * PI * INR k / (INR N * dt) in
    (forall k E H E' H', (0 < k < N)%nat -> solves sh we wh dt (om k) eps mu E H (fourier (om k) N (fun n => (INR n + / 2) * dt) J) ->
      solves sh we wh dt (om k) eps mu E' H' (fourier (om k) N (fun n => (INR n + / 2) * dt) J) -> feq (K := CC) sh E E' /\ feq (K := CC) sh H H') ->
    let r s n := run (K := RF) sh dt (Some (we, wh)) eps mu (map (fun n c i => - (dt * J n c i)) (seq 0 n)) s in
    seq_st (K := RF) sh (r s N) s -> seq_st (K := RF) sh (r s' N) s' ->
    forall n c i, (n <= N)%nat -> (c < 3)%nat -> inb sh i ->
      sE (r s n) c i - sE (r s' n) c i = sE s c i - sE s' c i /\ sH (r s n) c i - sH (r s' n) c i = sH s c i - sH s' c i.
Proof.
  intros sh we wh dt eps mu J N s s' HL He Hh Hdt Heps Hmu HN om U r P P'.
  pose proof (proj1 (C185_work_spectrum sh we wh dt eps mu J s N HL He Hh Hdt Heps Hmu HN P)) as S1. pose proof (proj1 (C185_work_spectrum sh we wh dt eps mu J s' N HL He Hh Hdt Heps Hmu HN P')) as S2.
  cbv zeta beta in S1, S2.
  assert (Q : forall k, (0 < k < N)%nat -> feq (K := CC) sh (fourier (om k) N (fun n => INR n * dt) (fun n => sE (r s n))) (fourier (om k) N (fun n => INR n * dt) (fun n => sE (r s' n))) /\
     feq (K := CC) sh (fourier (om k) N (fun n => (INR n + / 2) * dt) (fun n => sH (r s (S n)))) (fourier (om k) N (fun n => (INR n + / 2) * dt) (fun n => sH (r s' (S n))))).
  { intros k Hk. exact (U k _ _ _ _ Hk (S1 k) (S2 k)). }
  clear S1 S2 U.
  assert (G : forall (u v : nat -> R) m n, (m < N)%nat -> (n < N)%nat ->
    (forall k, (0 < k < N)%nat -> sumN (K := CC) N (fun m => rmul (u m) (cis (- (om k * ((INR m + / 2) * dt))))) = sumN (K := CC) N (fun m => rmul (v m) (cis (- (om k * ((INR m + / 2) * dt)))))) -> u n - v n = u m - v m).
  { intros u v m n Hm Hn X.
    set (B := fun (u : nat -> R) k => sumN (K := CC) N (fun m => rmul (u m) (cis (- (om k * ((INR m + / 2) * dt)))))).
    set (g := fun (u : nat -> R) n k => / INR N * (cre (B u k) * cos (om k * ((INR n + / 2) * dt)) - cim (B u k) * sin (om k * ((INR n + / 2) * dt)))).
    assert (Y : forall n, (n < N)%nat -> u n - v n = / INR N * (cre (B u 0%nat) - cre (B v 0%nat))).
    { intros l Hl. assert (Iu : u l = sumN (K := RF) N (g u l)) by exact (invert1 N u dt l Hl Hdt). assert (Iv : v l = sumN (K := RF) N (g v l)) by exact (invert1 N v dt l Hl Hdt).
      rewrite Iu, Iv. refine (eq_trans (eq_sym (sumN_sub RF N _ _)) _). refine (eq_trans (sumN_single RF N _ 0%nat HN _) _).
      - intros k Hk Nk. assert (XK : B u k = B v k) by (apply X; lia). unfold g. rewrite XK. match goal with |- ?x = ?y => change (@eq R x y) end. cbn. ring.
      - unfold g. replace (om 0%nat * ((INR l + / 2) * dt)) with 0 by (unfold om; cbn [INR]; field; split; [exact Hdt|apply not_0_INR; lia]). rewrite cos_0, sin_0.
        generalize (B u 0%nat) (B v 0%nat) (/ INR N). intros x y z. change cpx in x, y. match goal with |- ?x = ?y => change (@eq R x y) end. cbn. ring. }
    now rewrite (Y n Hn), (Y m Hm). }
  assert (EE : forall n c i, (n < N)%nat -> (c < 3)%nat -> inb sh i -> sE (r s n) c i - sE (r s' n) c i = sE s c i - sE s' c i).
  { intros n c i Hn Hc Hi. apply (G (fun n => sE (r s n) c i) (fun n => sE (r s' n) c i) 0%nat n HN Hn). intros k Hk.
    pose proof (proj1 (Q k Hk) c i Hc Hi) as X. unfold fourier in X.
    assert (T : forall u : nat -> R, sumN (K := CC) N (fun m => rmul (u m) (cis (- (om k * ((INR m + / 2) * dt))))) = cmul (cis (- (om k * dt / 2))) (sumN (K := CC) N (fun m => rmul (u m) (cis (- (om k * (INR m * dt))))))).
    { intro u. refine (eq_trans _ (sumN_mul_l CC N _ _)). apply (sumN_ext CC). intros m _.
      replace (- (om k * ((INR m + / 2) * dt))) with (- (om k * dt / 2) + - (om k * (INR m * dt))) by field.
      rewrite cis_add. set (p := cis _). set (w := cis _). clearbody p w. apply cpx_ext; cbn; ring. }
    rewrite !T. f_equal. exact X. }
  assert (HH : forall n c i, (n < N)%nat -> (c < 3)%nat -> inb sh i -> sH (r s (S n)) c i - sH (r s' (S n)) c i = sH s c i - sH s' c i).
  { intros n c i Hn Hc Hi. rewrite (G (fun n => sH (r s (S n)) c i) (fun n => sH (r s' (S n)) c i) (N - 1)%nat n ltac:(lia) Hn) by (intros k Hk; exact (proj2 (Q k Hk) c i Hc Hi)).
    replace (S (N - 1)) with N by lia. now rewrite (proj2 P c i Hc Hi), (proj2 P' c i Hc Hi). }
  intros n c i Hn Hc Hi. split.
  - destruct (Nat.eq_dec n N) as [->|D]; [now rewrite (proj1 P c i Hc Hi), (proj1 P' c i Hc Hi)|]. apply EE; [lia|exact Hc|exact Hi].
  - destruct n as [|n]; [reflexivity|]. apply HH; [lia|exact Hc|exact Hi].
Qed.
Print Assumptions C187_responses_differ_statically.

(** On a grid of one cell the problems at the frequencies other than zero have one solution. *)
Example C187_unique_example :
  forall k (E H E' H' J : field CC), (0 < k < 3)%nat -> let om := 2 * PI * INR k / (INR 3 * 1) in
    solves [1; 1; 1]%nat tx_w tx_w 1 om tx_one None E H J -> solves [1; 1; 1]%nat tx_w tx_w 1 om tx_one None E' H' J ->
    feq (K := CC) [1; 1; 1]%nat E E' /\ feq (K := CC) [1; 1; 1]%nat H H'.
Proof.
  intros k E H E' H' J Hk om [A B] [A' B'].
  assert (P : 0 < 2 * sin (om * 1 / 2) / 1).
  { assert (PK : 0 < INR k < 3) by (split; [apply lt_0_INR; lia|replace 3 with (INR 3) by (cbn; ring); apply lt_INR; lia]).
    pose proof PI_RGT_0. assert (0 < sin (om * 1 / 2)); [|lra]. replace (om * 1 / 2) with (PI * (INR k / 3)) by (unfold om; cbn; field). apply sin_gt_0; [apply Rmult_lt_0_compat; lra|]. assert (INR k / 3 < 1) by lra. nra. }
  set (o := 2 * sin (om * 1 / 2) / 1) in *. clearbody o.
  assert (C1 : forall i, inb [1; 1; 1]%nat i -> i = [0; 0; 0]%nat).
  { intros i Hi. unfold inb in Hi. inversion Hi as [|a ? i1 ? Ha H1]; subst. inversion H1 as [|b ? i2 ? Hb H2]; subst. inversion H2 as [|e ? i3 ? He H3]; subst. inversion H3; subst. f_equal; [lia|f_equal; [lia|f_equal; lia]]. }
  assert (V : forall (E H : field CC) c, (c < 3)%nat ->
    fst (eh_full_f (K := CC) [1; 1; 1]%nat (mkC o 0) (cw tx_w, cw tx_w) (cf tx_one) (option_map cf None) E H) c [0; 0; 0]%nat = cmul (mkC 0 (- o)) (E c [0; 0; 0]%nat) /\
    snd (eh_full_f (K := CC) [1; 1; 1]%nat (mkC o 0) (cw tx_w, cw tx_w) (cf tx_one) (option_map cf None) E H) c [0; 0; 0]%nat = cmul (mkC 0 o) (H c [0; 0; 0]%nat)).
  { intros F G c Hc. destruct c as [|[|[|c]]]; [| | |lia]; split; apply cpx_ext; unfold eh_full_f, curl_back, curl_forward, curl_with, deriv_back, deriv_forward, roll, tx_one, cf; cbn; unfold Rdiv; ring. }
  assert (D : forall x y z : cpx, cmul (mkC 0 o) x = z -> cmul (mkC 0 o) y = z -> x = y).
  { intros x y z X Y. rewrite <- Y in X. pose proof (f_equal cre X) as X1. pose proof (f_equal cim X) as X2. cbn in X1, X2. apply cpx_ext; nra. }
  assert (D' : forall x y z : cpx, cmul (mkC 0 (- o)) x = z -> cmul (mkC 0 (- o)) y = z -> x = y).
  { intros x y z X Y. rewrite <- Y in X. pose proof (f_equal cre X) as X1. pose proof (f_equal cim X) as X2. cbn in X1, X2. apply cpx_ext; nra. }
  split; intros c i Hc Hi; pose proof (C1 i Hi); subst i.
  - exact (D' _ _ _ (eq_trans (eq_sym (proj1 (V E H c Hc))) (A c _ Hc Hi)) (eq_trans (eq_sym (proj1 (V E' H' c Hc))) (A' c _ Hc Hi))).
  - exact (D _ _ _ (eq_trans (eq_sym (proj2 (V E H c Hc))) (B c _ Hc Hi)) (eq_trans (eq_sym (proj2 (V E' H' c Hc))) (B' c _ Hc Hi))).
Qed.

(** The currents of [C185_example] have a response that repeats after three steps, so each of the
    three problems has a solution; a constant current has none, whatever the state. *)
Example C187_example :
  let om k := 2 * PI * INR k / (INR 3 * 1) in
  (forall k, (k < 3)%nat -> exists E H : field CC, solves tx_sh tx_w tx_w 1 (om k) tx_one None E H (fourier (om k) 3 (fun n => (INR n + / 2) * 1) tx_J)) /\
  ~ exists s : state RF, seq_st (K := RF) tx_sh (run (K := RF) tx_sh 1 (Some (tx_w, tx_w)) tx_one None (map (fun n c i => - (1 * tx_f 2 1 1 c i)) (seq 0 3)) s) s.
Proof.
  assert (W : nzw (K := RF) tx_sh tx_w) by (intros a j _ _; exact R1_neq_R0). assert (M : nzm (K := RF) tx_sh tx_one) by (intros a j _ _; exact R1_neq_R0).
  intro om. split.
  - apply (C187_periodic_response tx_sh tx_w tx_w 1 tx_one None tx_J 3 eq_refl W W R1_neq_R0 M Coq.Init.Logic.I ltac:(lia)). exists tx_0. apply C185_example.
  - intro X0. pose proof (proj1 (C187_periodic_response tx_sh tx_w tx_w 1 tx_one None (fun _ => tx_f 2 1 1) 3 eq_refl W W R1_neq_R0 M Coq.Init.Logic.I ltac:(lia)) X0) as X. cbv beta zeta in X.
    destruct (X 0%nat ltac:(lia)) as (E & H & Sv & _).
    assert (I0 : inb tx_sh [0; 0; 0]%nat) by (repeat constructor). assert (I1 : inb tx_sh [1; 0; 0]%nat) by (repeat constructor).
    pose proof (f_equal cre (Sv 2%nat _ ltac:(lia) I0)) as A. pose proof (f_equal cre (Sv 2%nat _ ltac:(lia) I1)) as B.
    unfold eh_full_f, fourier, curl_back, curl_with, deriv_back, roll in A, B. 
    replace (2 * PI * INR 0 / (INR 3 * 1)) with 0 in A, B by (cbn; field).
    replace (0 * 1 / 2) with 0 in A, B by field. rewrite sin_0 in A, B. cbn [sumN] in A, B. rewrite !Rmult_0_l, !Ropp_0, !cis_0 in A, B.
    cbn in A, B. change (Pos.to_nat 1) with 1%nat in *. cbn in A, B.
    assert (CN : forall a j, cnrm (cw tx_w a j) = 1) by (intros a j; unfold cnrm, cw, tx_w; cbn; ring).
    rewrite !CN in A, B. unfold tx_w, tx_one in A, B. lra.
Qed.
