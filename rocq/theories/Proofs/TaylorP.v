(** Central differences of smooth functions, and curls of sampled fields. *)
From Coq Require Import Reals Lra List Arith ZArith Lia Bool Psatz.
From Verif.Lib Require Import Num Sums Idx RealF.
From Verif.Model Require Import Fdmath.
From Verif.Spec Require Import Yee HarmonicSpec DispersionSpec SmoothSpec.
From Verif.Proofs Require Import NumDispP.
Import ListNotations.
Local Open Scope R_scope.

Lemma bound_by (f f' g g' : R -> R) t : 0 <= t -> (forall c, 0 <= c <= t -> derivable_pt_lim f c (f' c)) -> (forall c, 0 <= c <= t -> derivable_pt_lim g c (g' c)) ->
  (forall c, 0 < c < t -> Rabs (f' c) <= g' c) -> f 0 = 0 -> g 0 = 0 -> Rabs (f t) <= g t.
Proof.
  intros Ht Df Dg B F0 G0.
  assert (U : (fun s => g s - f s) 0 <= (fun s => g s - f s) t).
  { apply (up_of (fun s => g s - f s) (fun s => g' s - f' s)); [exact Ht| |].
    - intros c Hc. apply (derivable_pt_lim_minus g f c (g' c) (f' c)); auto.
    - intros c Hc. pose proof (B c Hc) as Q. pose proof (Rle_abs (f' c)). lra. }
  assert (V : (fun s => g s + f s) 0 <= (fun s => g s + f s) t).
  { apply (up_of (fun s => g s + f s) (fun s => g' s + f' s)); [exact Ht| |].
    - intros c Hc. apply (derivable_pt_lim_plus g f c (g' c) (f' c)); auto.
    - intros c Hc. pose proof (B c Hc) as Q. pose proof (Rle_abs (- f' c)) as P. rewrite Rabs_Ropp in P. lra. }
  cbv beta in U, V. apply Rabs_le. lra.
Qed.
Lemma d_mirror f f' c : derivable_pt_lim f (- c) (f' (- c)) -> derivable_pt_lim (fun t => f (- t)) c (- f' (- c)).
Proof.
  intro D. apply (d_ext (comp f (- id)%F)); [reflexivity|]. apply (d_val _ _ (f' (- c) * (-1))); [ring|].
  apply derivable_pt_lim_comp; [|exact D]. apply (d_val _ _ (- (1))); [ring|]. apply derivable_pt_lim_opp. apply derivable_pt_lim_id.
Qed.
Lemma d_pow_sq k c : derivable_pt_lim (fun t => k * (t * t)) c (2 * k * c).
Proof.
  apply (d_ext (mult_real_fct k (id * id))%F); [reflexivity|]. apply (d_val _ _ (k * (1 * id c + id c * 1))); [unfold id; ring|].
  apply derivable_pt_lim_scal. apply derivable_pt_lim_mult; apply derivable_pt_lim_id.
Qed.
Lemma d_lin k c : derivable_pt_lim (fun t => k * t) c k.
Proof. apply (d_ext (mult_real_fct k id)); [reflexivity|]. apply (d_val _ _ (k * 1)); [ring|]. apply derivable_pt_lim_scal. apply derivable_pt_lim_id. Qed.
Lemma d_cube k c : derivable_pt_lim (fun t => k * (t * t * t)) c (3 * k * (c * c)).
Proof.
  apply (d_ext (mult_real_fct k (id * id * id))%F); [reflexivity|]. apply (d_val _ _ (k * ((1 * id c + id c * 1) * id c + (id * id)%F c * 1))); [unfold mult_fct, id; ring|].
  apply derivable_pt_lim_scal. apply derivable_pt_lim_mult; [apply derivable_pt_lim_mult; apply derivable_pt_lim_id|apply derivable_pt_lim_id].
Qed.
(** |(f(h/2) - f(-h/2))/h - f'(0)| <= M h^2 / 24 *)
Lemma central f f1 f2 f3 M h : (forall t, derivable_pt_lim f t (f1 t)) -> (forall t, derivable_pt_lim f1 t (f2 t)) -> (forall t, derivable_pt_lim f2 t (f3 t)) ->
  (forall t, Rabs (f3 t) <= M) -> 0 < h -> Rabs ((f (h / 2) - f (- (h / 2))) / h - f1 0) <= M * (h * h) / 24.
Proof.
  intros D1 D2 D3 B Hh.
  assert (V : forall t, 0 <= t -> Rabs (f2 t - f2 (- t)) <= 2 * M * t).
  { intros t Ht. apply (bound_by (fun s => f2 s - f2 (- s)) (fun s => f3 s - - f3 (- s)) (fun s => 2 * M * s) (fun _ => 2 * M)); try assumption.
    - intros c _. apply (derivable_pt_lim_minus f2 (fun s => f2 (- s)) c); [apply D3|]. now apply d_mirror.
    - intros c _. apply d_lin.
    - intros c _. unfold Rminus. rewrite Ropp_involutive. pose proof (Rabs_triang (f3 c) (f3 (- c))). pose proof (B c). pose proof (B (- c)). lra.
    - rewrite Ropp_0. ring.
    - ring. }
  assert (U : forall t, 0 <= t -> Rabs (f1 t + f1 (- t) - 2 * f1 0) <= M * (t * t)).
  { intros t Ht. apply (bound_by (fun s => f1 s + f1 (- s) - 2 * f1 0) (fun s => f2 s + - f2 (- s) - 0) (fun s => M * (s * s)) (fun s => 2 * M * s)); try assumption.
    - intros c _. apply (derivable_pt_lim_minus (fun s => f1 s + f1 (- s)) (fun _ => 2 * f1 0) c); [|apply derivable_pt_lim_const].
      apply (derivable_pt_lim_plus f1 (fun s => f1 (- s)) c); [apply D2|]. now apply d_mirror.
    - intros c _. apply d_pow_sq.
    - intros c Hc. replace (f2 c + - f2 (- c) - 0) with (f2 c - f2 (- c)) by ring. apply V. lra.
    - rewrite Ropp_0. ring.
    - ring. }
  assert (G : forall t, 0 <= t -> Rabs (f t - f (- t) - 2 * f1 0 * t) <= M / 3 * (t * t * t)).
  { intros t Ht. apply (bound_by (fun s => f s - f (- s) - 2 * f1 0 * s) (fun s => f1 s - - f1 (- s) - 2 * f1 0) (fun s => M / 3 * (s * s * s)) (fun s => 3 * (M / 3) * (s * s))); try assumption.
    - intros c _. apply (derivable_pt_lim_minus (fun s => f s - f (- s)) (fun s => 2 * f1 0 * s) c); [|apply d_lin].
      apply (derivable_pt_lim_minus f (fun s => f (- s)) c); [apply D1|]. now apply d_mirror.
    - intros c _. apply d_cube.
    - intros c Hc. replace (f1 c - - f1 (- c) - 2 * f1 0) with (f1 c + f1 (- c) - 2 * f1 0) by ring. replace (3 * (M / 3) * (c * c)) with (M * (c * c)) by field. apply U. lra.
    - rewrite Ropp_0. ring.
    - ring. }
  pose proof (G (h / 2) ltac:(lra)) as Q.
  replace ((f (h / 2) - f (- (h / 2))) / h - f1 0) with ((f (h / 2) - f (- (h / 2)) - 2 * f1 0 * (h / 2)) * / h) by (field; lra).
  rewrite Rabs_mult, (Rabs_right (/ h)) by (left; now apply Rinv_0_lt_compat).
  apply (Rmult_le_reg_r h); [exact Hh|]. rewrite Rmult_assoc, Rinv_l, Rmult_1_r by lra.
  replace (M * (h * h) / 24 * h) with (M / 3 * (h / 2 * (h / 2) * (h / 2))) by field. exact Q.
Qed.

(** * Along an axis *)
Lemma pt_ext x y z x' y' z' : x = x' -> y = y' -> z = z' -> (x, y, z) = (x', y', z') :> pt. Proof. now intros -> -> ->. Qed.
Lemma mvp_mvp a s t p : mvp a s (mvp a t p) = mvp a (t + s) p.
Proof. destruct p as [[x y] z]. destruct a as [|[|a]]; cbn [mvp]; apply pt_ext; ring. Qed.
Lemma pd_line a F F' p c : pd a F F' -> derivable_pt_lim (fun t => F (mvp a t p)) c (F' (mvp a c p)).
Proof.
  intros D eps He. destruct (D (mvp a c p) eps He) as (d & Q). exists d. intros h Hn Hl. specialize (Q h Hn Hl).
  rewrite !mvp_mvp in Q. replace (c + (0 + h)) with (c + h) in Q by ring. now rewrite Rplus_0_r in Q.
Qed.
Lemma mvp_0 a p : mvp a 0 p = p.
Proof. destruct p as [[x y] z]. destruct a as [|[|a]]; cbn [mvp]; apply pt_ext; ring. Qed.
Lemma central_at a F F1 M h p : diff3 a F F1 M -> 0 < h -> Rabs ((F (mvp a (h / 2) p) - F (mvp a (- (h / 2)) p)) / h - F1 p) <= M * (h * h) / 24.
Proof.
  intros (F2 & F3 & D1 & D2 & D3 & B) Hh. rewrite <- (mvp_0 a p) at 3.
  apply (central (fun t => F (mvp a t p)) (fun t => F1 (mvp a t p)) (fun t => F2 (mvp a t p)) (fun t => F3 (mvp a t p)));
    try (intro t; now apply pd_line); [intro t; apply B|exact Hh].
Qed.

(** * Samples *)
Section S.
  Variables (sh : list nat) (w : nat -> R).
  Hypothesis HL : length sh = 3%nat.
  Hypothesis Hw : forall a, (a < 3)%nat -> 0 < w a.
  Let L := fun a => INR (dim sh a) * w a.

  (** One cell further is one width further, up to the period. *)
  Lemma posn_next o a idx (G : pt -> cpx) : (a < 3)%nat -> inb sh idx -> (forall p, G (mvp a (L a) p) = G p) ->
    G (posn o w (shift_ix sh a 1 idx)) = G (mvp a (w a) (posn o w idx)).
  Proof.
    intros Ha Hi Per. assert (Hc : (coord idx a < dim sh a)%nat) by (apply inb_coord; [exact Hi|lia]).
    assert (X : (Datatypes.S (coord idx a) <> dim sh a /\ coord (shift_ix sh a 1 idx) a = Datatypes.S (coord idx a)) \/ (Datatypes.S (coord idx a) = dim sh a /\ coord (shift_ix sh a 1 idx) a = 0%nat)).
    { rewrite coord_shift_same by (try assumption; lia). rewrite cyc_succ by exact Hc. destruct (Nat.eqb_spec (Datatypes.S (coord idx a)) (dim sh a)); auto. }
    assert (O : forall b, b <> a -> coord (shift_ix sh a 1 idx) b = coord idx b) by (intros; apply coord_shift_other; lia).
    destruct X as [[_ E]|[E E']].
    - f_equal. unfold posn. destruct a as [|[|[|a]]]; [| | |lia]; rewrite E, ?(O 0%nat), ?(O 1%nat), ?(O 2%nat), S_INR by lia; cbn [mvp]; apply pt_ext; ring.
    - rewrite <- Per. f_equal. unfold posn, L. rewrite <- E, S_INR. destruct a as [|[|[|a]]]; [| | |lia]; rewrite E', ?(O 0%nat), ?(O 1%nat), ?(O 2%nat) by lia; cbn [mvp INR]; apply pt_ext; ring.
  Qed.
  Lemma posn_prev o a idx (G : pt -> cpx) : (a < 3)%nat -> inb sh idx -> (forall p, G (mvp a (L a) p) = G p) ->
    G (posn o w (shift_ix sh a (-1) idx)) = G (mvp a (- w a) (posn o w idx)).
  Proof.
    intros Ha Hi Per. set (G' := fun p => G (mvp a (- w a) p)).
    assert (Per' : forall p, G' (mvp a (L a) p) = G' p).
    { intro p. unfold G'. rewrite <- (Per (mvp a (- w a) p)). rewrite !mvp_mvp. f_equal. f_equal. ring. }
    pose proof (posn_next o a (shift_ix sh a (-1) idx) G' Ha ltac:(apply inb_shift; [assumption|lia]) Per') as Q.
    rewrite shift_ix_np in Q by (try assumption; lia). unfold G' in Q. rewrite Q, mvp_mvp. f_equal. rewrite Rplus_opp_r. symmetry. apply mvp_0.
  Qed.

  Variables (F : nat -> pt -> cpx) (D : nat -> nat -> pt -> cpx) (M : R).
  Hypothesis HF : smooth_field L F D M.

  Lemma M_pos : 0 <= M.
  Proof. destruct HF as [_ Q]. destruct (Q 0%nat 0%nat ltac:(lia) ltac:(lia)) as [(F2 & F3 & _ & _ & _ & B) _]. pose proof (B (0, 0, 0)). pose proof (Rabs_pos (F3 (0, 0, 0))). lra. Qed.

  Definition close (x y : cpx) (b : R) : Prop := Rabs (cre x - cre y) <= b /\ Rabs (cim x - cim y) <= b.
  Lemma close_sub x y x' y' b b' : close x y b -> close x' y' b' -> close (csub x x') (csub y y') (b + b').
  Proof.
    intros [A B] [A' B']. split; cbn [cre cim csub].
    - replace (cre x - cre x' - (cre y - cre y')) with ((cre x - cre y) + - (cre x' - cre y')) by ring. pose proof (Rabs_triang (cre x - cre y) (- (cre x' - cre y'))) as T. rewrite Rabs_Ropp in T. lra.
    - replace (cim x - cim x' - (cim y - cim y')) with ((cim x - cim y) + - (cim x' - cim y')) by ring. pose proof (Rabs_triang (cim x - cim y) (- (cim x' - cim y'))) as T. rewrite Rabs_Ropp in T. lra.
  Qed.
  Lemma close_le x y b b' : b <= b' -> close x y b -> close x y b'.
  Proof. intros L' [A B]. split; lra. Qed.
  Lemma close_nrm x y b : close x y b -> cnrm (csub x y) <= 2 * (b * b).
  Proof.
    intros [A B]. unfold cnrm. cbn [cre cim csub].
    assert (Q : forall t, Rabs t <= b -> t * t <= b * b). { intros t Ht. replace (t * t) with (Rabs t * Rabs t); [pose proof (Rabs_pos t); nra|]. rewrite <- Rabs_mult. apply Rabs_right. apply Rle_ge. apply Rle_0_sqr. }
    pose proof (Q _ A). pose proof (Q _ B). lra.
  Qed.
  (** The difference quotient is close to the derivative half-way. *)
  Lemma quot a b m : (a < 3)%nat -> (b < 3)%nat ->
    close (cdiv (csub (F b (mvp a (w a / 2) m)) (F b (mvp a (- (w a / 2)) m))) (mkC (w a) 0)) (D a b m) (M * (w a * w a) / 24).
  Proof.
    intros Ha Hb. destruct HF as [_ Q]. destruct (Q b a Hb Ha) as [Qr Qi]. pose proof (Hw a Ha) as P.
    assert (E : forall x y : cpx, cdiv (csub x y) (mkC (w a) 0) = mkC ((cre x - cre y) / w a) ((cim x - cim y) / w a)).
    { intros x y. unfold cdiv, cinv, cnrm. apply cpx_ext; cbn; field; nra. }
    rewrite E. split; cbn [cre cim]; [exact (central_at a (fun p => cre (F b p)) (fun p => cre (D a b p)) M (w a) m Qr P)|exact (central_at a (fun p => cim (F b p)) (fun p => cim (D a b p)) M (w a) m Qi P)].
  Qed.
  Notation W := (cw (uniw (K := RF) w)).
  Lemma fwd_close o a b idx : (a < 3)%nat -> (b < 3)%nat -> inb sh idx ->
    close (deriv_forward (K := CC) sh (Some W) a (fun i => F b (posn o w i)) idx) (D a b (mvp a (w a / 2) (posn o w idx))) (M * (w a * w a) / 24).
  Proof.
    intros Ha Hb Hi. unfold deriv_forward, roll. change (- -1)%Z with 1%Z. rewrite (posn_next o a idx (F b) Ha Hi) by (intro p; now apply HF).
    pose proof (quot a b (mvp a (w a / 2) (posn o w idx)) Ha Hb) as Q. rewrite !mvp_mvp in Q. replace (w a / 2 + w a / 2) with (w a) in Q by field.
    rewrite Rplus_opp_r, mvp_0 in Q. exact Q.
  Qed.
  Lemma back_close o a b idx : (a < 3)%nat -> (b < 3)%nat -> inb sh idx ->
    close (deriv_back (K := CC) sh (Some W) a (fun i => F b (posn o w i)) idx) (D a b (mvp a (- (w a / 2)) (posn o w idx))) (M * (w a * w a) / 24).
  Proof.
    intros Ha Hb Hi. unfold deriv_back, roll. change (Z.opp 1) with (-1)%Z. rewrite (posn_prev o a idx (F b) Ha Hi) by (intro p; now apply HF).
    pose proof (quot a b (mvp a (- (w a / 2)) (posn o w idx)) Ha Hb) as Q. rewrite !mvp_mvp in Q. replace (- (w a / 2) + - (w a / 2)) with (- w a) in Q by field.
    rewrite Rplus_opp_l, mvp_0 in Q. exact Q.
  Qed.
  Let S2 := w 0%nat * w 0%nat + w 1%nat * w 1%nat + w 2%nat * w 2%nat.
  Lemma mid_h a b c idx : (a < 3)%nat -> (b < 3)%nat -> (c < 3)%nat -> a <> b -> a <> c -> b <> c -> mvp a (w a / 2) (pos_e w b idx) = pos_h w c idx.
  Proof.
    intros Ha Hb Hc N1 N2 N3. unfold pos_e, pos_h, posn.
    destruct a as [|[|[|a]]]; [| | |lia]; (destruct b as [|[|[|b]]]; [| | |lia]; try contradiction); (destruct c as [|[|[|c]]]; [| | |lia]; try contradiction); cbn [mvp Nat.eqb]; apply pt_ext; field.
  Qed.
  Lemma mid_e a b c idx : (a < 3)%nat -> (b < 3)%nat -> (c < 3)%nat -> a <> b -> a <> c -> b <> c -> mvp a (- (w a / 2)) (pos_h w b idx) = pos_e w c idx.
  Proof.
    intros Ha Hb Hc N1 N2 N3. unfold pos_e, pos_h, posn.
    destruct a as [|[|[|a]]]; [| | |lia]; (destruct b as [|[|[|b]]]; [| | |lia]; try contradiction); (destruct c as [|[|[|c]]]; [| | |lia]; try contradiction); cbn [mvp Nat.eqb]; apply pt_ext; field.
  Qed.
  Lemma curl_f_close c idx : (c < 3)%nat -> inb sh idx ->
    close (curl_forward (K := CC) sh (Some W) (smp_e w F) c idx) (curl_of D c (pos_h w c idx)) (M * S2 / 24).
  Proof.
    intros Hc Hi. pose proof M_pos as MP.
    assert (T : forall a b, (a < 3)%nat -> (b < 3)%nat -> a <> b -> a <> c -> b <> c ->
      close (deriv_forward (K := CC) sh (Some W) a (smp_e w F b) idx) (D a b (pos_h w c idx)) (M * (w a * w a) / 24)).
    { intros a b Ha Hb N1 N2 N3. rewrite <- (mid_h a b c idx Ha Hb Hc N1 N2 N3). now apply fwd_close. }
    assert (U : forall t, 0 <= M * (t * t)) by (intro t; apply Rmult_le_pos; [exact MP|apply Rle_0_sqr]).
    pose proof (U (w 0%nat)). pose proof (U (w 1%nat)). pose proof (U (w 2%nat)).
    destruct c as [|[|[|c]]]; [| | |lia]; unfold curl_forward, curl_with, curl_of; (eapply close_le; [|apply close_sub; apply T; lia]); unfold S2; lra.
  Qed.
  Lemma curl_b_close c idx : (c < 3)%nat -> inb sh idx ->
    close (curl_back (K := CC) sh (Some W) (smp_h w F) c idx) (curl_of D c (pos_e w c idx)) (M * S2 / 24).
  Proof.
    intros Hc Hi. pose proof M_pos as MP.
    assert (T : forall a b, (a < 3)%nat -> (b < 3)%nat -> a <> b -> a <> c -> b <> c ->
      close (deriv_back (K := CC) sh (Some W) a (smp_h w F b) idx) (D a b (pos_e w c idx)) (M * (w a * w a) / 24)).
    { intros a b Ha Hb N1 N2 N3. rewrite <- (mid_e a b c idx Ha Hb Hc N1 N2 N3). now apply back_close. }
    assert (U : forall t, 0 <= M * (t * t)) by (intro t; apply Rmult_le_pos; [exact MP|apply Rle_0_sqr]).
    pose proof (U (w 0%nat)). pose proof (U (w 1%nat)). pose proof (U (w 2%nat)).
    destruct c as [|[|[|c]]]; [| | |lia]; unfold curl_back, curl_with, curl_of; (eapply close_le; [|apply close_sub; apply T; lia]); unfold S2; lra.
  Qed.
End S.
