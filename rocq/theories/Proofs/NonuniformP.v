(** Differences of smooth fields on grids with unequal widths. *)
From Coq Require Import Reals Lra List Arith ZArith Lia Bool Psatz.
From Verif.Lib Require Import Num Sums Idx RealF.
From Verif.Model Require Import Fdmath.
From Verif.Spec Require Import Yee HarmonicSpec DispersionSpec SmoothSpec NonuniformSpec.
From Verif.Proofs Require Import NumDispP TaylorP.
Import ListNotations.
Local Open Scope R_scope.

(** * One dimension *)
Lemma d_halfsq f f' c : derivable_pt_lim f c (f' c) -> derivable_pt_lim (fun s => s * s / 2 * f s) c (c * f c + c * c / 2 * f' c).
Proof.
  intro D. apply (d_ext (mult_fct (fun s => / 2 * (s * s)) f)); [intro t; unfold mult_fct; field|].
  apply (d_val _ _ (2 * / 2 * c * f c + (/ 2 * (c * c)) * f' c)); [field|]. apply (derivable_pt_lim_mult (fun s => / 2 * (s * s)) f); [apply d_pow_sq|exact D].
Qed.
Lemma d_idmul f f' c : derivable_pt_lim f c (f' c) -> derivable_pt_lim (fun s => s * f s) c (f c + c * f' c).
Proof.
  intro D. apply (d_ext (id * f)%F); [reflexivity|]. apply (d_val _ _ (1 * f c + id c * f' c)); [unfold id; ring|]. apply derivable_pt_lim_mult; [apply derivable_pt_lim_id|exact D].
Qed.
Lemma tay f f1 f2 f3 M : (forall t, derivable_pt_lim f t (f1 t)) -> (forall t, derivable_pt_lim f1 t (f2 t)) -> (forall t, derivable_pt_lim f2 t (f3 t)) ->
  (forall t, Rabs (f3 t) <= M) -> forall t, 0 <= t -> Rabs (f t - t * t / 2 * f2 t - f 0 - f1 0 * t) <= M / 3 * (t * t * t).
Proof.
  intros D1 D2 D3 B.
  assert (U : forall t, 0 <= t -> Rabs (f1 t - t * f2 t - f1 0) <= M / 2 * (t * t)).
  { intros t Ht. apply (bound_by (fun s => f1 s - s * f2 s - f1 0) (fun s => f2 s - (f2 s + s * f3 s) - 0) (fun s => M / 2 * (s * s)) (fun s => 2 * (M / 2) * s)); try assumption.
    - intros c _. apply (derivable_pt_lim_minus (fun s => f1 s - s * f2 s) (fun _ => f1 0) c); [|apply derivable_pt_lim_const].
      apply (derivable_pt_lim_minus f1 (fun s => s * f2 s) c); [apply D2|]. now apply d_idmul.
    - intros c _. apply d_pow_sq.
    - intros c Hc. replace (f2 c - (f2 c + c * f3 c) - 0) with (- (c * f3 c)) by ring. rewrite Rabs_Ropp, Rabs_mult, (Rabs_right c) by lra.
      replace (2 * (M / 2) * c) with (c * M) by field. apply Rmult_le_compat_l; [lra|apply B].
    - ring.
    - ring. }
  intros t Ht.
  apply (bound_by (fun s => f s - s * s / 2 * f2 s - f 0 - f1 0 * s) (fun s => f1 s - (s * f2 s + s * s / 2 * f3 s) - 0 - f1 0) (fun s => M / 3 * (s * s * s)) (fun s => 3 * (M / 3) * (s * s))); try assumption.
  - intros c _. apply (derivable_pt_lim_minus (fun s => f s - s * s / 2 * f2 s - f 0) (fun s => f1 0 * s) c); [|apply d_lin].
    apply (derivable_pt_lim_minus (fun s => f s - s * s / 2 * f2 s) (fun _ => f 0) c); [|apply derivable_pt_lim_const].
    apply (derivable_pt_lim_minus f (fun s => s * s / 2 * f2 s) c); [apply D1|]. now apply d_halfsq.
  - intros c _. apply d_cube.
  - intros c Hc. replace (f1 c - (c * f2 c + c * c / 2 * f3 c) - 0 - f1 0) with ((f1 c - c * f2 c - f1 0) + - (c * c / 2 * f3 c)) by ring.
    eapply Rle_trans; [apply Rabs_triang|]. rewrite Rabs_Ropp, (Rabs_mult (c * c / 2)).
    assert (P : 0 <= c * c / 2) by (pose proof (Rle_0_sqr c); unfold Rsqr in *; lra). rewrite (Rabs_right (c * c / 2)) by lra.
    pose proof (U c ltac:(lra)). assert (c * c / 2 * Rabs (f3 c) <= c * c / 2 * M) by (apply Rmult_le_compat_l; [exact P|apply B]). lra.
  - field.
  - ring.
Qed.
Lemma tay_m f f1 f2 f3 M : (forall t, derivable_pt_lim f t (f1 t)) -> (forall t, derivable_pt_lim f1 t (f2 t)) -> (forall t, derivable_pt_lim f2 t (f3 t)) ->
  (forall t, Rabs (f3 t) <= M) -> forall t, 0 <= t -> Rabs (f (- t) - t * t / 2 * f2 (- t) - f 0 + f1 0 * t) <= M / 3 * (t * t * t).
Proof.
  intros D1 D2 D3 B t Ht.
  assert (N : forall h h', (forall t, derivable_pt_lim h t (h' t)) -> forall s, derivable_pt_lim (fun s => - h (- s)) s (h' (- s))).
  { intros h h' D s. apply (d_val _ _ (- - h' (- s))); [ring|]. apply (derivable_pt_lim_opp (fun s => h (- s))). now apply d_mirror. }
  pose proof (tay (fun s => f (- s)) (fun s => - f1 (- s)) (fun s => f2 (- s)) (fun s => - f3 (- s)) M
    ltac:(intro s; now apply d_mirror) ltac:(now apply N) ltac:(intro s; now apply d_mirror) ltac:(intro s; cbv beta; rewrite Rabs_Ropp; apply B) t Ht) as Q.
  cbv beta in Q. rewrite Ropp_0 in Q. replace (f (- t) - t * t / 2 * f2 (- t) - f 0 + f1 0 * t) with (f (- t) - t * t / 2 * f2 (- t) - f 0 - - f1 0 * t) by ring. exact Q.
Qed.
Lemma lipschitz g g1 M : (forall t, derivable_pt_lim g t (g1 t)) -> (forall t, Rabs (g1 t) <= M) -> forall u v, 0 <= u -> 0 <= v -> Rabs (g u - g (- v)) <= M * (u + v).
Proof.
  intros D B.
  assert (P : forall t, 0 <= t -> Rabs (g t - g 0) <= M * t).
  { intros t Ht. apply (bound_by (fun s => g s - g 0) (fun s => g1 s - 0) (fun s => M * s) (fun _ => M)); try assumption.
    - intros c _. apply (derivable_pt_lim_minus g (fun _ => g 0) c); [apply D|apply derivable_pt_lim_const].
    - intros c _. apply d_lin.
    - intros c _. rewrite Rminus_0_r. apply B.
    - ring.
    - ring. }
  assert (Q : forall t, 0 <= t -> Rabs (g (- t) - g 0) <= M * t).
  { intros t Ht. apply (bound_by (fun s => g (- s) - g 0) (fun s => - g1 (- s) - 0) (fun s => M * s) (fun _ => M)); try assumption.
    - intros c _. apply (derivable_pt_lim_minus (fun s => g (- s)) (fun _ => g 0) c); [now apply d_mirror|apply derivable_pt_lim_const].
    - intros c _. apply d_lin.
    - intros c _. rewrite Rminus_0_r, Rabs_Ropp. apply B.
    - rewrite Ropp_0. ring.
    - ring. }
  intros u v Hu Hv. replace (g u - g (- v)) with ((g u - g 0) + - (g (- v) - g 0)) by ring. eapply Rle_trans; [apply Rabs_triang|]. rewrite Rabs_Ropp.
  pose proof (P u Hu). pose proof (Q v Hv). lra.
Qed.
(** The off-centre difference of f - w^2/8 f'' - kap g is second-order accurate. *)
Lemma off_centre f f1 f2 f3 g g1 M kap u v dl :
  (forall t, derivable_pt_lim f t (f1 t)) -> (forall t, derivable_pt_lim f1 t (f2 t)) -> (forall t, derivable_pt_lim f2 t (f3 t)) -> (forall t, Rabs (f3 t) <= M) ->
  (forall t, derivable_pt_lim g t (g1 t)) -> (forall t, Rabs (g1 t) <= M) ->
  0 < u <= dl / 2 -> 0 < v <= dl / 2 -> 0 <= kap <= dl * dl / 8 ->
  Rabs (((f u - u * u / 2 * f2 u - kap * g u) - (f (- v) - v * v / 2 * f2 (- v) - kap * g (- v))) / (u + v) - f1 0) <= 5 * M * (dl * dl) / 24.
Proof.
  intros D1 D2 D3 B Dg Bg Hu Hv Hk.
  assert (MP : 0 <= M) by (pose proof (B 0); pose proof (Rabs_pos (f3 0)); lra).
  pose proof (tay f f1 f2 f3 M D1 D2 D3 B u ltac:(lra)) as T1. pose proof (tay_m f f1 f2 f3 M D1 D2 D3 B v ltac:(lra)) as T2. pose proof (lipschitz g g1 M Dg Bg u v ltac:(lra) ltac:(lra)) as T3.
  set (x := f u - u * u / 2 * f2 u - f 0 - f1 0 * u) in *. set (y := f (- v) - v * v / 2 * f2 (- v) - f 0 + f1 0 * v) in *. set (z := g u - g (- v)) in *.
  replace (((f u - u * u / 2 * f2 u - kap * g u) - (f (- v) - v * v / 2 * f2 (- v) - kap * g (- v))) / (u + v) - f1 0) with ((x + - y + - (kap * z)) * / (u + v)) by (unfold x, y, z; field; lra).
  clearbody x y z. rewrite Rabs_mult, (Rabs_right (/ (u + v))) by (left; apply Rinv_0_lt_compat; lra).
  apply (Rmult_le_reg_r (u + v)); [lra|]. rewrite Rmult_assoc, Rinv_l, Rmult_1_r by lra.
  assert (A : Rabs (x + - y + - (kap * z)) <= Rabs x + Rabs y + kap * Rabs z).
  { eapply Rle_trans; [apply Rabs_triang|]. rewrite Rabs_Ropp, Rabs_mult, (Rabs_right kap) by lra. pose proof (Rabs_triang x (- y)) as Q. rewrite Rabs_Ropp in Q. lra. }
  assert (Kz : kap * Rabs z <= dl * dl / 8 * (M * (u + v))). { apply Rmult_le_compat; [lra|apply Rabs_pos|lra|exact T3]. }
  assert (C : u * u * u + v * v * v <= dl * dl / 4 * (u + v)).
  { assert (forall s, 0 < s <= dl / 2 -> s * s * s <= dl * dl / 4 * s). { intros s Hs. apply Rmult_le_compat_r; [lra|]. replace (dl * dl / 4) with (dl / 2 * (dl / 2)) by field. apply Rmult_le_compat; lra. }
    pose proof (H u Hu). pose proof (H v Hv). lra. }
  assert (C2 : M / 3 * (u * u * u + v * v * v) <= M / 3 * (dl * dl / 4 * (u + v))) by (apply Rmult_le_compat_l; lra).
  replace (5 * M * (dl * dl) / 24 * (u + v)) with (M / 3 * (dl * dl / 4 * (u + v)) + dl * dl / 8 * (M * (u + v))) by field. lra.
Qed.

(** * Periodicity of derivatives *)
Lemma mvp_comm a b s t p : mvp a s (mvp b t p) = mvp b t (mvp a s p).
Proof. destruct p as [[x y] z]. destruct a as [|[|a]], b as [|[|b]]; cbn [mvp]; apply pt_ext; ring. Qed.
Lemma pd_periodic a F F' b l : pd a F F' -> (forall p, F (mvp b l p) = F p) -> forall p, F' (mvp b l p) = F' p.
Proof.
  intros D P p. apply (uniqueness_limite (fun t => F (mvp a t p)) 0); [|apply D].
  apply (d_ext (fun t => F (mvp a t (mvp b l p)))); [|apply D]. intro t. now rewrite mvp_comm, P.
Qed.

(** * Samples *)
Section G.
  Variables (sh : list nat) (X : planes) (dl : R).
  Hypothesis HL : length sh = 3%nat.
  Hypothesis Hw : forall a i, (a < 3)%nat -> (i < dim sh a)%nat -> 0 < base_w X a i <= dl.
  Notation L := (span sh X).
  Notation wh := (base_w X).
  Notation we := (derived_w sh X).
  Definition nxt (a i : nat) : nat := if Nat.eqb (Datatypes.S i) (dim sh a) then 0%nat else Datatypes.S i.

  Lemma nxt_lt a i : (i < dim sh a)%nat -> (nxt a i < dim sh a)%nat.
  Proof. clear. intro H. unfold nxt. destruct (Nat.eqb_spec (Datatypes.S i) (dim sh a)); lia. Qed.
  Lemma grid_next {A : Type} o a idx (G : pt -> A) : (a < 3)%nat -> inb sh idx -> o a = true -> (forall p, G (mvp a (L a) p) = G p) ->
    G (grid_pt o X (shift_ix sh a 1 idx)) = G (mvp a (we a (coord idx a)) (grid_pt o X idx)).
  Proof.
    intros Ha Hi Oa Per. assert (Hc : (coord idx a < dim sh a)%nat) by (apply inb_coord; [exact Hi|lia]).
    assert (E : coord (shift_ix sh a 1 idx) a = nxt a (coord idx a)). { rewrite coord_shift_same by (try assumption; lia). now rewrite cyc_succ by exact Hc. }
    assert (O : forall b, b <> a -> coord (shift_ix sh a 1 idx) b = coord idx b) by (intros; apply coord_shift_other; lia).
    unfold derived_w. fold (nxt a (coord idx a)). unfold nxt in *. destruct (Nat.eqb_spec (Datatypes.S (coord idx a)) (dim sh a)) as [W|W].
    - rewrite <- Per. f_equal. unfold grid_pt, span. rewrite <- W. destruct a as [|[|[|a]]]; [| | |lia]; rewrite E, ?(O 0%nat), ?(O 1%nat), ?(O 2%nat) by lia; rewrite Oa; cbn [mvp]; apply pt_ext; unfold middle, base_w; field.
    - f_equal. unfold grid_pt. destruct a as [|[|[|a]]]; [| | |lia]; rewrite E, ?(O 0%nat), ?(O 1%nat), ?(O 2%nat) by lia; rewrite Oa; cbn [mvp]; apply pt_ext; unfold middle, base_w; field.
  Qed.
  Lemma grid_prev {A : Type} o a idx (G : pt -> A) : (a < 3)%nat -> inb sh idx -> o a = false -> (forall p, G (mvp a (L a) p) = G p) ->
    G (grid_pt o X (shift_ix sh a (-1) idx)) = G (mvp a (- wh a (coord idx a)) (grid_pt o X idx)).
  Proof.
    intros Ha Hi Oa Per. assert (Hc : (coord idx a < dim sh a)%nat) by (apply inb_coord; [exact Hi|lia]).
    assert (E : coord (shift_ix sh a (-1) idx) a = if Nat.eqb (coord idx a) 0 then (dim sh a - 1)%nat else (coord idx a - 1)%nat). { rewrite coord_shift_same by (try assumption; lia). now rewrite cyc_pred by exact Hc. }
    assert (O : forall b, b <> a -> coord (shift_ix sh a (-1) idx) b = coord idx b) by (intros; apply coord_shift_other; lia).
    unfold base_w. destruct (Nat.eqb_spec (coord idx a) 0) as [Z|Z].
    - transitivity (G (mvp a (L a) (mvp a (- (X a (Datatypes.S (coord idx a)) - X a (coord idx a))) (grid_pt o X idx)))); [|apply Per]. f_equal. rewrite mvp_mvp. unfold grid_pt, span.
      assert (E2 : Datatypes.S (coord (shift_ix sh a (-1) idx) a) = dim sh a) by lia.
      destruct a as [|[|[|a]]]; [| | |lia]; rewrite E2, ?(O 0%nat), ?(O 1%nat), ?(O 2%nat) by lia; rewrite Oa; cbn [mvp]; rewrite Z; apply pt_ext; ring.
    - f_equal. unfold grid_pt. assert (E2 : Datatypes.S (coord (shift_ix sh a (-1) idx) a) = coord idx a) by lia.
      destruct a as [|[|[|a]]]; [| | |lia]; rewrite E2, ?(O 0%nat), ?(O 1%nat), ?(O 2%nat) by lia; rewrite Oa; cbn [mvp]; apply pt_ext; ring.
  Qed.
  Lemma half_h a b c idx : (a < 3)%nat -> (b < 3)%nat -> (c < 3)%nat -> a <> b -> a <> c -> b <> c -> at_e X b idx = mvp a (- (wh a (coord idx a) / 2)) (at_h X c idx).
  Proof.
    clear. intros Ha Hb Hc N1 N2 N3. unfold at_e, at_h, grid_pt.
    destruct a as [|[|[|a]]]; [| | |lia]; (destruct b as [|[|[|b]]]; [| | |lia]; try contradiction); (destruct c as [|[|[|c]]]; [| | |lia]; try contradiction); cbn [mvp Nat.eqb negb]; apply pt_ext; unfold middle, base_w; field.
  Qed.
  Lemma half_e a b c idx : (a < 3)%nat -> (b < 3)%nat -> (c < 3)%nat -> a <> b -> a <> c -> b <> c -> mvp a (- (wh a (coord idx a) / 2)) (at_h X b idx) = at_e X c idx.
  Proof.
    clear. intros Ha Hb Hc N1 N2 N3. unfold at_e, at_h, grid_pt.
    destruct a as [|[|[|a]]]; [| | |lia]; (destruct b as [|[|[|b]]]; [| | |lia]; try contradiction); (destruct c as [|[|[|c]]]; [| | |lia]; try contradiction); cbn [mvp Nat.eqb negb]; apply pt_ext; unfold middle, base_w; field.
  Qed.
  Lemma dl_pos a i : (a < 3)%nat -> (i < dim sh a)%nat -> 0 < dl.
  Proof. intros Ha Hi. pose proof (Hw a i Ha Hi). lra. Qed.

  (** ** H: differences between planes are centred *)
  Section H.
    Variables (F : nat -> pt -> cpx) (D : nat -> nat -> pt -> cpx) (M : R).
    Hypothesis HF : smooth_field L F D M.
    Lemma MF_pos : 0 <= M.
    Proof. destruct HF as [_ Q]. destruct (Q 0%nat 0%nat ltac:(lia) ltac:(lia)) as [(F2 & F3 & _ & _ & _ & B) _]. pose proof (B (0, 0, 0)). pose proof (Rabs_pos (F3 (0, 0, 0))). lra. Qed.
    Lemma cdiv_re (x y : cpx) w : 0 < w -> cdiv (csub x y) (mkC w 0) = mkC ((cre x - cre y) / w) ((cim x - cim y) / w).
    Proof. clear. intro P. unfold cdiv, cinv, cnrm. apply cpx_ext; cbn; field; nra. Qed.
    Lemma back_near a b c idx : (a < 3)%nat -> (b < 3)%nat -> (c < 3)%nat -> a <> b -> a <> c -> b <> c -> inb sh idx ->
      close (deriv_back (K := CC) sh (Some (cw wh)) a (sam_h X F b) idx) (D a b (at_e X c idx)) (M * (dl * dl) / 24).
    Proof.
      intros Ha Hb Hc N1 N2 N3 Hi. assert (Hx : (coord idx a < dim sh a)%nat) by (apply inb_coord; [exact Hi|lia]).
      destruct (Hw a (coord idx a) Ha Hx) as [W0 W1]. set (w := wh a (coord idx a)) in *.
      unfold deriv_back, roll. change (Z.opp 1) with (-1)%Z. unfold sam_h at 2. unfold at_h at 1.
      rewrite (grid_prev _ a idx (F b) Ha Hi) by (try (now apply Nat.eqb_neq); intro p; now apply HF). fold (at_h X b). fold w. fold (at_h X b idx). unfold sam_h.
      destruct HF as [_ Q]. destruct (Q b a Hb Ha) as [Qr Qi]. pose proof (half_e a b c idx Ha Hb Hc N1 N2 N3) as Me. fold w in Me.
      set (m := at_e X c idx) in *. assert (P : at_h X b idx = mvp a (w / 2) m). { rewrite <- Me, mvp_mvp, Rplus_opp_l. symmetry. apply mvp_0. }
      rewrite P, mvp_mvp. replace (w / 2 + - w) with (- (w / 2)) by field.
      change (close (cdiv (csub (F b (mvp a (w / 2) m)) (F b (mvp a (- (w / 2)) m))) (mkC w 0)) (D a b m) (M * (dl * dl) / 24)).
      rewrite cdiv_re by exact W0. apply (close_le _ _ (M * (w * w) / 24)).
      - pose proof MF_pos as MP. assert (M * (w * w) <= M * (dl * dl)) by (apply Rmult_le_compat_l; [exact MP|apply Rmult_le_compat; lra]). lra.
      - split; cbn [cre cim]; [exact (central_at a (fun p => cre (F b p)) (fun p => cre (D a b p)) M w m Qr W0)|exact (central_at a (fun p => cim (F b p)) (fun p => cim (D a b p)) M w m Qi W0)].
    Qed.
    Lemma curl_b_near c idx : (c < 3)%nat -> inb sh idx ->
      close (curl_back (K := CC) sh (Some (cw wh)) (sam_h X F) c idx) (curl_of D c (at_e X c idx)) (M * (dl * dl) / 12).
    Proof.
      intros Hc Hi. replace (M * (dl * dl) / 12) with (M * (dl * dl) / 24 + M * (dl * dl) / 24) by field.
      destruct c as [|[|[|c]]]; [| | |lia]; unfold curl_back, curl_with, curl_of; apply close_sub; apply back_near; try lia; exact Hi.
    Qed.
  End H.

  (** ** E: differences between middles are off centre; corrected samples *)
  Section E.
    Variables (F : nat -> pt -> cpx) (D D2 : nat -> nat -> pt -> cpx) (M2 M : R).
    Hypothesis HF : smooth_field2 L F D D2 M2 M.
    Definition kap (a i : nat) : R := wh a i * wh a i / 8.
    Definition part (q : cpx -> R) (c : nat) (idx : list nat) : R :=
      let p := at_e X c idx in
      let t := fun a => if Nat.eqb a c then 0 else kap a (coord idx a) * q (D2 a c p) in
      q (F c p) - (t 0%nat + t 1%nat + t 2%nat).
    Definition star (c : nat) (idx : list nat) : cpx := mkC (part cre c idx) (part cim c idx).

    Lemma part_at q a b c idx : (a < 3)%nat -> (b < 3)%nat -> (c < 3)%nat -> a <> b -> a <> c -> b <> c ->
      part q b idx = q (F b (at_e X b idx)) - kap a (coord idx a) * q (D2 a b (at_e X b idx)) - kap c (coord idx c) * q (D2 c b (at_e X b idx)).
    Proof.
      clear. intros Ha Hb Hc N1 N2 N3. unfold part.
      destruct a as [|[|[|a]]]; [| | |lia]; (destruct b as [|[|[|b]]]; [| | |lia]; try contradiction); (destruct c as [|[|[|c]]]; [| | |lia]; try contradiction); cbn [Nat.eqb]; ring.
    Qed.
    Lemma kap_bd a i : (a < 3)%nat -> (i < dim sh a)%nat -> 0 <= kap a i <= dl * dl / 8.
    Proof.
      intros Ha Hi. destruct (Hw a i Ha Hi). unfold kap. pose proof (Rle_0_sqr (wh a i)) as P. unfold Rsqr in P.
      assert (wh a i * wh a i <= dl * dl) by (apply Rmult_le_compat; lra). lra.
    Qed.
    Lemma part_near (q : cpx -> R) a b c idx :
      (forall a, (a < 3)%nat -> diff23 a (fun p => q (F b p)) (fun p => q (D a b p)) (fun p => q (D2 a b p)) M2 M) ->
      (a < 3)%nat -> (b < 3)%nat -> (c < 3)%nat -> a <> b -> a <> c -> b <> c -> inb sh idx ->
      Rabs ((part q b (shift_ix sh a 1 idx) - part q b idx) / we a (coord idx a) - q (D a b (at_h X c idx))) <= 5 * M * (dl * dl) / 24.
    Proof.
      intros Q Ha Hb Hc N1 N2 N3 Hi. assert (Hx : (coord idx a < dim sh a)%nat) by (apply inb_coord; [exact Hi|lia]). assert (Hz : (coord idx c < dim sh c)%nat) by (apply inb_coord; [exact Hi|lia]).
      rewrite !(part_at q a b c) by assumption.
      assert (Per : forall p, q (F b (mvp a (L a) p)) = q (F b p)) by (intro p; f_equal; now apply HF).
      assert (Pc : forall d, (d < 3)%nat -> forall p, q (D2 d b (mvp a (L a) p)) = q (D2 d b p)).
      { intros d Hd. destruct (Q d Hd) as (P1 & P2 & _). apply (pd_periodic d (fun p => q (D d b p)) (fun p => q (D2 d b p)) a (L a) P2).
        apply (pd_periodic d (fun p => q (F b p)) (fun p => q (D d b p)) a (L a) P1). exact Per. }
      assert (Ob : (fun a => negb (Nat.eqb a b)) a = true) by (cbv beta; apply negb_true_iff; now apply Nat.eqb_neq).
      assert (E : coord (shift_ix sh a 1 idx) a = nxt a (coord idx a)). { rewrite coord_shift_same by (try assumption; lia). now rewrite cyc_succ by exact Hx. }
      assert (O : coord (shift_ix sh a 1 idx) c = coord idx c) by (apply coord_shift_other; lia).
      rewrite E, O. unfold at_e at 1 2 3.
      rewrite (grid_next _ a idx (fun p => q (F b p)) Ha Hi Ob Per), (grid_next _ a idx (fun p => q (D2 a b p)) Ha Hi Ob (Pc a Ha)), (grid_next _ a idx (fun p => q (D2 c b p)) Ha Hi Ob (Pc c Hc)).
      fold (at_e X b idx). rewrite (half_h a b c idx Ha Hb Hc N1 N2 N3), !mvp_mvp. unfold derived_w. fold (nxt a (coord idx a)).
      destruct (Hw a _ Ha Hx) as [W0 W1]. destruct (Hw a _ Ha (nxt_lt a _ Hx)) as [V0 V1]. unfold kap at 1 3.
      set (m := at_h X c idx). set (v := wh a (coord idx a)) in *. set (u := wh a (nxt a (coord idx a))) in *. replace (- (v / 2) + (v + u) / 2) with (u / 2) by field.
      destruct (Q a Ha) as (P1 & P2 & _ & P3). destruct (P3 a Ha) as (F3 & P4 & B4). destruct (Q c Hc) as (_ & _ & _ & R3). destruct (R3 a Ha) as (G3 & R4 & B5).
      pose proof (off_centre (fun t => q (F b (mvp a t m))) (fun t => q (D a b (mvp a t m))) (fun t => q (D2 a b (mvp a t m))) (fun t => F3 (mvp a t m))
        (fun t => q (D2 c b (mvp a t m))) (fun t => G3 (mvp a t m)) M (kap c (coord idx c)) (u / 2) (v / 2) dl
        ltac:(intro t; exact (pd_line a _ _ m t P1)) ltac:(intro t; exact (pd_line a _ _ m t P2)) ltac:(intro t; exact (pd_line a _ _ m t P4)) ltac:(intro t; apply B4)
        ltac:(intro t; exact (pd_line a _ _ m t R4)) ltac:(intro t; apply B5) ltac:(lra) ltac:(lra) (kap_bd c _ Hc Hz)) as Z.
      cbv beta in Z. rewrite mvp_0 in Z. replace (u / 2 + v / 2) with ((v + u) / 2) in Z by field.
      replace (u * u / 8) with (u / 2 * (u / 2) / 2) by field. replace (v * v / 8) with (v / 2 * (v / 2) / 2) by field. exact Z.
    Qed.
    Lemma we_pos a i : (a < 3)%nat -> (i < dim sh a)%nat -> 0 < we a i.
    Proof. intros Ha Hi. unfold derived_w. fold (nxt a i). pose proof (Hw a i Ha Hi). pose proof (Hw a _ Ha (nxt_lt a i Hi)). lra. Qed.
    Lemma curl_f_near c idx : (c < 3)%nat -> inb sh idx ->
      close (curl_forward (K := CC) sh (Some (cw we)) star c idx) (curl_of D c (at_h X c idx)) (5 * M * (dl * dl) / 12).
    Proof.
      intros Hc Hi. replace (5 * M * (dl * dl) / 12) with (5 * M * (dl * dl) / 24 + 5 * M * (dl * dl) / 24) by field.
      assert (T : forall a b, (a < 3)%nat -> (b < 3)%nat -> a <> b -> a <> c -> b <> c ->
        close (deriv_forward (K := CC) sh (Some (cw we)) a (star b) idx) (D a b (at_h X c idx)) (5 * M * (dl * dl) / 24)).
      { intros a b Ha Hb N1 N2 N3. assert (Hx : (coord idx a < dim sh a)%nat) by (apply inb_coord; [exact Hi|lia]). unfold deriv_forward, roll. change (- -1)%Z with 1%Z.
        change (close (cdiv (csub (star b (shift_ix sh a 1 idx)) (star b idx)) (mkC (we a (coord idx a)) 0)) (D a b (at_h X c idx)) (5 * M * (dl * dl) / 24)).
        rewrite cdiv_re by now apply we_pos. split; cbn [cre cim star]; apply part_near; try assumption; intros a' Ha'; destruct HF as [_ Q]; now apply (Q b a'). }
      destruct c as [|[|[|c]]]; [| | |lia]; unfold curl_forward, curl_with, curl_of; apply close_sub; apply T; lia.
    Qed.
    Lemma star_near c idx : (c < 3)%nat -> inb sh idx -> close (star c idx) (F c (at_e X c idx)) (M2 * (dl * dl) / 4).
    Proof.
      intros Hc Hi.
      assert (T : forall q, (forall a, (a < 3)%nat -> forall p, Rabs (q (D2 a c p)) <= M2) -> Rabs (part q c idx - q (F c (at_e X c idx))) <= M2 * (dl * dl) / 4).
      { intros q B. assert (U : forall a, (a < 3)%nat -> Rabs (kap a (coord idx a) * q (D2 a c (at_e X c idx))) <= M2 * (dl * dl) / 8).
        { intros a Ha. destruct (kap_bd a (coord idx a) Ha ltac:(apply inb_coord; [exact Hi|lia])). rewrite Rabs_mult, (Rabs_right (kap a (coord idx a))) by lra.
          replace (M2 * (dl * dl) / 8) with (dl * dl / 8 * M2) by field. apply Rmult_le_compat; [assumption|apply Rabs_pos|assumption|now apply B]. }
        assert (V : forall x y, Rabs x <= M2 * (dl * dl) / 8 -> Rabs y <= M2 * (dl * dl) / 8 -> Rabs (- x + - y) <= M2 * (dl * dl) / 4).
        { intros x y Hx Hy. eapply Rle_trans; [apply Rabs_triang|]. rewrite !Rabs_Ropp. lra. }
        destruct c as [|[|[|c]]]; [| | |lia].
        - rewrite (part_at q 1 0 2) by lia. refine (Rle_trans _ _ _ (Req_le _ _ _) (V _ _ (U 1%nat ltac:(lia)) (U 2%nat ltac:(lia)))). f_equal. ring.
        - rewrite (part_at q 0 1 2) by lia. refine (Rle_trans _ _ _ (Req_le _ _ _) (V _ _ (U 0%nat ltac:(lia)) (U 2%nat ltac:(lia)))). f_equal. ring.
        - rewrite (part_at q 0 2 1) by lia. refine (Rle_trans _ _ _ (Req_le _ _ _) (V _ _ (U 0%nat ltac:(lia)) (U 1%nat ltac:(lia)))). f_equal. ring. }
      destruct HF as [_ Q]. split; cbn [cre cim star]; apply T; intros a Ha; destruct (Q c a Hc Ha) as [(_ & _ & B & _) (_ & _ & B' & _)]; assumption.
    Qed.
  End E.
End G.
