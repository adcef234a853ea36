(** operator_e and operator_h are adjoint with respect to the flux. *)
From Coq Require Import List Arith ZArith Lia Bool Field.
From Verif.Lib Require Import Num Sums Idx Mat.
From Verif.Model Require Import Fdmath Fdfd Waveguide2d.
From Verif.Spec Require Import Yee WaveguideSpec.
From Verif.Proofs Require Import FdmathP FdfdP FdfdP2 WaveguideP WaveguideP2 WaveguideP3.
From Verif.Proofs Require Import GridP.
Import ListNotations.
Local Open Scope fld_scope.

Section Adj.
  Variable K : CFld.
  Add Field Kfield : (fth K).
  Variable sh : list nat.
  Hypothesis HL : length sh = 2%nat.
  Variables we wh : widths K.
  Hypothesis Hwe : nzw sh we. Hypothesis Hwh : nzw sh wh.
  Notation Fx := (deriv_forward sh (Some we) 0). Notation Fy := (deriv_forward sh (Some we) 1).
  Notation Bx := (deriv_back sh (Some wh) 0). Notation By := (deriv_back sh (Some wh) 1).
  Notation ax w i := (w 0%nat (coord i 0)). Notation ay w i := (w 1%nat (coord i 1)).

  Lemma sbx f g : gsum sh (fun i => ax we i * ay wh i * (g i * Fx f i)) = - gsum sh (fun i => ax wh i * ay wh i * (f i * Bx g i)).
  Proof.
    pose proof (sum_by_parts K sh 0 we wh (fun i => ay wh i) f g ltac:(lia)
      (fun i Hi => f_equal (wh 1%nat) (coord_shift_other sh i 0 1 1 ltac:(lia))) (fun i => Hwe 0%nat i ltac:(lia)) (fun i => Hwh 0%nat i ltac:(lia))) as S.
    etransitivity; [|etransitivity; [exact S|]].
    - apply gsum_ext. intros; ring.
    - f_equal. apply gsum_ext. intros; ring.
  Qed.
  Lemma sby f g : gsum sh (fun i => ax wh i * ay we i * (g i * Fy f i)) = - gsum sh (fun i => ax wh i * ay wh i * (f i * By g i)).
  Proof.
    pose proof (sum_by_parts K sh 1 we wh (fun i => ax wh i) f g ltac:(lia)
      (fun i Hi => f_equal (wh 0%nat) (coord_shift_other sh i 1 0 1 ltac:(lia))) (fun i => Hwe 1%nat i ltac:(lia)) (fun i => Hwh 1%nat i ltac:(lia))) as S.
    exact S.
  Qed.
  Lemma stx f g : gsum sh (fun i => ax we i * ay we i * (g i * Fx f i)) = - gsum sh (fun i => ax wh i * ay we i * (f i * Bx g i)).
  Proof.
    pose proof (sum_by_parts K sh 0 we wh (fun i => ay we i) f g ltac:(lia)
      (fun i Hi => f_equal (we 1%nat) (coord_shift_other sh i 0 1 1 ltac:(lia))) (fun i => Hwe 0%nat i ltac:(lia)) (fun i => Hwh 0%nat i ltac:(lia))) as S.
    etransitivity; [|etransitivity; [exact S|]].
    - apply gsum_ext. intros; ring.
    - f_equal. apply gsum_ext. intros; ring.
  Qed.
  Lemma sty f g : gsum sh (fun i => ax we i * ay we i * (g i * Fy f i)) = - gsum sh (fun i => ax we i * ay wh i * (f i * By g i)).
  Proof.
    pose proof (sum_by_parts K sh 1 we wh (fun i => ax we i) f g ltac:(lia)
      (fun i Hi => f_equal (we 0%nat) (coord_shift_other sh i 1 0 1 ltac:(lia))) (fun i => Hwe 1%nat i ltac:(lia)) (fun i => Hwh 1%nat i ltac:(lia))) as S.
    exact S.
  Qed.

  Variables (om : K).
  Variables ex ey hx hy epx epy epz mux muy muz : arr K.
  Let q : arr K := divz K Bx By ex ey epx epy epz.
  Let c : arr K := curlz K Fx Fy ex ey muz.
  Let d : arr K := divz K Fx Fy hx hy mux muy muz.
  Let k : arr K := curlz K Bx By hx hy epz.

  Lemma adj_abs :
    gsum sh (fun i => ax we i * ay wh i * (opx K Fx Fy Bx By om ex ey epx epy epz muy muz i * hy i)
                    - ax wh i * ay we i * (opy K Fx Fy Bx By om ex ey epx epy epz mux muz i * hx i))
    = gsum sh (fun i => ax we i * ay wh i * (ex i * opy K Bx By Fx Fy om hx hy mux muy muz epx epz i)
                    - ax wh i * ay we i * (ey i * opx K Bx By Fx Fy om hx hy mux muy muz epy epz i)).
  Proof.
    unfold opx, opy. fold q c d k.
    set (A := gsum sh (fun i => om * om * (ax we i * ay wh i * (muy i * epx i * ex i * hy i) - ax wh i * ay we i * (mux i * epy i * ey i * hx i)))).
    transitivity (A - gsum sh (fun i => ax we i * ay wh i * ((muy i * hy i) * By c i)) - gsum sh (fun i => ax wh i * ay we i * ((mux i * hx i) * Bx c i))
       + gsum sh (fun i => ax we i * ay wh i * (hy i * Fx q i)) - gsum sh (fun i => ax wh i * ay we i * (hx i * Fy q i))).
    { unfold A. rewrite <- !gsum_sub, <- gsum_add, <- gsum_sub. apply gsum_ext. intros; ring. }
    transitivity (A + gsum sh (fun i => ax we i * ay wh i * ((epx i * ex i) * Fx k i)) + gsum sh (fun i => ax wh i * ay we i * ((epy i * ey i) * Fy k i))
       + gsum sh (fun i => ax we i * ay wh i * (ex i * By d i)) - gsum sh (fun i => ax wh i * ay we i * (ey i * Bx d i))).
    2:{ unfold A. rewrite <- !gsum_add, <- gsum_sub. apply gsum_ext. intros; ring. }
    assert (E1 : - gsum sh (fun i => ax we i * ay wh i * ((muy i * hy i) * By c i)) - gsum sh (fun i => ax wh i * ay we i * ((mux i * hx i) * Bx c i))
      = gsum sh (fun i => ax we i * ay wh i * (ex i * By d i)) - gsum sh (fun i => ax wh i * ay we i * (ey i * Bx d i))).
    { rewrite <- (sty (fun i => muy i * hy i) c).
      transitivity (gsum sh (fun i => ax we i * ay we i * (c i * Fy (fun i => muy i * hy i) i)) + gsum sh (fun i => ax we i * ay we i * (c i * Fx (fun i => mux i * hx i) i))).
      { rewrite (stx (fun i => mux i * hx i) c). ring. }
      transitivity (- gsum sh (fun i => ax we i * ay we i * (d i * Fy ex i)) + gsum sh (fun i => ax we i * ay we i * (d i * Fx ey i))).
      2:{ rewrite (sty ex d), (stx ey d). ring. }
      rewrite <- gsum_opp, <- !gsum_add. apply gsum_ext. intros i Hi. unfold c, d, curlz, divz. ring. }
    assert (E2 : gsum sh (fun i => ax we i * ay wh i * (hy i * Fx q i)) - gsum sh (fun i => ax wh i * ay we i * (hx i * Fy q i))
      = gsum sh (fun i => ax we i * ay wh i * ((epx i * ex i) * Fx k i)) + gsum sh (fun i => ax wh i * ay we i * ((epy i * ey i) * Fy k i))).
    { rewrite !sbx, !sby. rewrite <- !gsum_opp, <- gsum_sub, <- gsum_add. apply gsum_ext. intros i Hi. unfold q, k, curlz, divz. ring. }
    transitivity (A + (- gsum sh (fun i => ax we i * ay wh i * ((muy i * hy i) * By c i)) - gsum sh (fun i => ax wh i * ay we i * ((mux i * hx i) * Bx c i)))
      + (gsum sh (fun i => ax we i * ay wh i * (hy i * Fx q i)) - gsum sh (fun i => ax wh i * ay we i * (hx i * Fy q i)))); [ring|].
    rewrite E1, E2. ring.
  Qed.
End Adj.

Section Adj2.
  Variable K : CFld.
  Add Field Kfield2 : (fth K).
  Variable sh : list nat.
  Hypothesis HL : length sh = 2%nat.
  Variables we wh : widths K.
  Let N := prodl sh.

  Lemma operator_e_xy om eps mu x i : inb sh i ->
    unvec sh (mv (2 * N) (operator_e sh om (we, wh) eps mu) x) 0%nat i
    = opx K (deriv_forward sh (Some we) 0) (deriv_forward sh (Some we) 1) (deriv_back sh (Some wh) 0) (deriv_back sh (Some wh) 1) om
        (unvec sh x 0%nat) (unvec sh x 1%nat) (unvec sh eps 0%nat) (unvec sh eps 1%nat) (unvec sh eps 2%nat) (unvec sh (or_ones mu) 1%nat) (unvec sh (or_ones mu) 2%nat) i /\
    unvec sh (mv (2 * N) (operator_e sh om (we, wh) eps mu) x) 1%nat i
    = opy K (deriv_forward sh (Some we) 0) (deriv_forward sh (Some we) 1) (deriv_back sh (Some wh) 0) (deriv_back sh (Some wh) 1) om
        (unvec sh x 0%nat) (unvec sh x 1%nat) (unvec sh eps 0%nat) (unvec sh eps 1%nat) (unvec sh eps 2%nat) (unvec sh (or_ones mu) 0%nat) (unvec sh (or_ones mu) 2%nat) i.
  Proof.
    intro Hi.
    pose proof (fun A1 A2 A3 A4 A5 A6 A7 A8 c Hc => wg_op_act K sh (deriv_forward_mat sh we 0) (deriv_forward_mat sh we 1) (deriv_back_mat sh wh 0) (deriv_back_mat sh wh 1)
      (deriv_forward sh (Some we) 0) (deriv_forward sh (Some we) 1) (deriv_back sh (Some wh) 0) (deriv_back sh (Some wh) 1) A1 A2 A3 A4 A5 A6 A7 A8 om eps (or_ones mu) x c i Hc Hi) as W.
    split; [apply (W) with (c := 0%nat)|apply W with (c := 1%nat)]; clear W; try lia.
    all: try (intros y j Hj; first [apply dfN|apply dbN]; [exact HL|lia|exact Hj]).
    all: first [apply lin_f|apply lin_b]; [exact HL|lia].
  Qed.
  Lemma operator_h_xy om eps mu x i : inb sh i ->
    unvec sh (mv (2 * N) (operator_h sh om (we, wh) eps mu) x) 0%nat i
    = opx K (deriv_back sh (Some wh) 0) (deriv_back sh (Some wh) 1) (deriv_forward sh (Some we) 0) (deriv_forward sh (Some we) 1) om
        (unvec sh x 0%nat) (unvec sh x 1%nat) (unvec sh (or_ones mu) 0%nat) (unvec sh (or_ones mu) 1%nat) (unvec sh (or_ones mu) 2%nat) (unvec sh eps 1%nat) (unvec sh eps 2%nat) i /\
    unvec sh (mv (2 * N) (operator_h sh om (we, wh) eps mu) x) 1%nat i
    = opy K (deriv_back sh (Some wh) 0) (deriv_back sh (Some wh) 1) (deriv_forward sh (Some we) 0) (deriv_forward sh (Some we) 1) om
        (unvec sh x 0%nat) (unvec sh x 1%nat) (unvec sh (or_ones mu) 0%nat) (unvec sh (or_ones mu) 1%nat) (unvec sh (or_ones mu) 2%nat) (unvec sh eps 0%nat) (unvec sh eps 2%nat) i.
  Proof.
    intro Hi.
    pose proof (fun A1 A2 A3 A4 A5 A6 A7 A8 c Hc => wg_op_act K sh (deriv_back_mat sh wh 0) (deriv_back_mat sh wh 1) (deriv_forward_mat sh we 0) (deriv_forward_mat sh we 1)
      (deriv_back sh (Some wh) 0) (deriv_back sh (Some wh) 1) (deriv_forward sh (Some we) 0) (deriv_forward sh (Some we) 1) A1 A2 A3 A4 A5 A6 A7 A8 om (or_ones mu) eps x c i Hc Hi) as W.
    split; [apply (W) with (c := 0%nat)|apply W with (c := 1%nat)]; clear W; try lia.
    all: try (intros y j Hj; first [apply dfN|apply dbN]; [exact HL|lia|exact Hj]).
    all: first [apply lin_f|apply lin_b]; [exact HL|lia].
  Qed.

  Hypothesis Hwe : nzw sh we. Hypothesis Hwh : nzw sh wh.
  Lemma op_adjoint om eps mu x y :
    flux sh we wh (unvec sh (mv (2 * N) (operator_e sh om (we, wh) eps mu) x)) (unvec sh y)
    = flux sh we wh (unvec sh x) (unvec sh (mv (2 * N) (operator_h sh om (we, wh) eps mu) y)).
  Proof.
    unfold flux. etransitivity; [|etransitivity; [apply (adj_abs K sh HL we wh Hwe Hwh om (unvec sh x 0%nat) (unvec sh x 1%nat) (unvec sh y 0%nat) (unvec sh y 1%nat)
      (unvec sh eps 0%nat) (unvec sh eps 1%nat) (unvec sh eps 2%nat) (unvec sh (or_ones mu) 0%nat) (unvec sh (or_ones mu) 1%nat) (unvec sh (or_ones mu) 2%nat))|]].
    - apply gsum_ext. intros i Hi. destruct (operator_e_xy om eps mu x i Hi) as [-> ->]. reflexivity.
    - apply gsum_ext. intros i Hi. destruct (operator_h_xy om eps mu y i Hi) as [-> ->]. reflexivity.
  Qed.

  Lemma flux_scale_l (c : K) e h : flux sh we wh (fun b i => c * e b i) h = c * flux sh we wh e h.
  Proof. unfold flux. rewrite <- gsum_mul_l. apply gsum_ext. intros; ring. Qed.
  Lemma flux_scale_r (c : K) e h : flux sh we wh e (fun b i => c * h b i) = c * flux sh we wh e h.
  Proof. unfold flux. rewrite <- gsum_mul_l. apply gsum_ext. intros; ring. Qed.
  Lemma flux_ext e e' h h' : (forall c i, (c < 2)%nat -> inb sh i -> e c i = e' c i) -> (forall c i, (c < 2)%nat -> inb sh i -> h c i = h' c i) ->
    flux sh we wh e h = flux sh we wh e' h'.
  Proof. intros A B. unfold flux. apply gsum_ext. intros i Hi. now rewrite !A, !B by (try lia; exact Hi). Qed.

  (** Orthogonality *)
  Lemma ortho_flux om b1 b2 eps mu x y :
    veq (2 * N) (mv (2 * N) (operator_e sh om (we, wh) eps mu) x) (fun q => b1 * x q) ->
    veq (2 * N) (mv (2 * N) (operator_h sh om (we, wh) eps mu) y) (fun q => b2 * y q) ->
    b1 <> b2 -> flux sh we wh (unvec sh x) (unvec sh y) = 0.
  Proof.
    intros Hx Hy Hb. pose proof (op_adjoint om eps mu x y) as A.
    rewrite (flux_ext _ (fun c i => b1 * unvec sh x c i) _ (unvec sh y)) in A.
    2:{ intros c i Hc Hi. apply (proj2 (veq_unvec K sh 2 _ _) Hx c i Hc Hi). } 2:{ reflexivity. }
    rewrite (flux_ext (unvec sh x) (unvec sh x) _ (fun c i => b2 * unvec sh y c i)) in A.
    2:{ reflexivity. } 2:{ intros c i Hc Hi. apply (proj2 (veq_unvec K sh 2 _ _) Hy c i Hc Hi). }
    rewrite flux_scale_l, flux_scale_r in A.
    assert (E : (b1 - b2) * flux sh we wh (unvec sh x) (unvec sh y) = 0).
    { transitivity (b1 * flux sh we wh (unvec sh x) (unvec sh y) - b2 * flux sh we wh (unvec sh x) (unvec sh y)); [ring|].
      rewrite A. ring. }
    apply fmul_integral in E. destruct E as [E|E]; [|exact E]. exfalso. apply Hb. now apply fsub_eq0.
  Qed.
End Adj2.

Lemma mv_zero_v (K : Fld) n (A : mat K) y p : (forall q, (q < n)%nat -> y q = 0) -> mv n A y p = 0.
Proof.
  intro H. unfold mv. apply sumN_zero. intros q Hq. rewrite H by exact Hq.
  pose proof (fth K) as T. rewrite (Rmul_comm (F_R T)). apply (Ring_theory.ARmul_0_l (Rth_ARth (Eqsth (car K)) (Eq_ext _ _ _) (F_R T))).
Qed.

Section Aux.
  Variable K : Fld.
  Add Field KfieldA : (fth K).
  Lemma sumN_sub_add n (f g h k : nat -> K) : (forall p, (p < n)%nat -> f p = h p) -> (forall p, (p < n)%nat -> - g p = k p) ->
    sumN n h + sumN n k = sumN n f - sumN n g.
  Proof.
    intros A B. rewrite <- sumN_add, <- sumN_sub. apply sumN_ext. intros p Hp. rewrite <- A, <- B by exact Hp. ring.
  Qed.
  Lemma aux_w (a b x y : K) : a * b * (y * x) = a * b * x * y.
  Proof. ring. Qed.
  Lemma aux_w2 (a b x y : K) : - (a * b * (y * x)) = - (a * b * x) * y.
  Proof. ring. Qed.
  Lemma aux_ip (x1 y1 x2 y2 p a b : K) : (2 : K) <> 0 ->
    1 / 2 * (x1 * (y2 * p) * ((a + a) / 2) * ((b + b) / 2) - x2 * (y1 * p) * ((a + a) / 2) * ((b + b) / 2))
    = p / 2 * (a * b * (x1 * y2) - a * b * (x2 * y1)).
  Proof. intro H. field. exact H. Qed.
  Lemma aux_z (x : K) : x * 0 = 0.
  Proof. ring. Qed.
  Lemma left_of_dot n (A : mat K) (l : vect K) b : (forall x, dot n l (mv n A x) = b * dot n l x) ->
    veq n (mv n (mtr A) l) (fun q => b * l q).
  Proof.
    intros H q Hq. specialize (H (fun k => ind (Nat.eqb k q))).
    assert (D : forall y : vect K, dot n y (fun k => ind (Nat.eqb k q)) = y q).
    { intro y. unfold dot. apply (sumN_ind_r K n q y). exact Hq. }
    rewrite D in H. rewrite <- H. unfold dot, mv, mtr. apply sumN_ext. intros i Hi.
    rewrite (sumN_ind_r K n q (A i)) by exact Hq. ring.
  Qed.
End Aux.

Section Scale.
  Variable K : CFld.
  Add Field KfieldS : (fth K).
  Lemma mode_scale_gen sh we wh (om beta : K) (ep M e h e' h' : field K) f :
    length sh = 2%nat -> is_mode sh we wh om beta ep M e h ->
    (forall c i, (c < 3)%nat -> inb sh i -> e' c i = e c i * f) -> (forall c i, (c < 3)%nat -> inb sh i -> h' c i = h c i * f) ->
    is_mode sh we wh om beta ep M e' h'.
  Proof.
    intros HL [F A] E H.
    assert (DF : forall a g g' i, (a < 2)%nat -> inb sh i -> (forall j, inb sh j -> g' j = g j * f) ->
      deriv_forward sh (Some we) a g' i = f * deriv_forward sh (Some we) a g i).
    { intros a g g' i Ha Hi Hg. rewrite <- deriv_forward_scale. apply deriv_forward_ext; [lia|exact Hi|]. intros j Hj. rewrite Hg by exact Hj. ring. }
    assert (DB : forall a g g' i, (a < 2)%nat -> inb sh i -> (forall j, inb sh j -> g' j = g j * f) ->
      deriv_back sh (Some wh) a g' i = f * deriv_back sh (Some wh) a g i).
    { intros a g g' i Ha Hi Hg. rewrite <- deriv_back_scale. apply deriv_back_ext; [lia|exact Hi|]. intros j Hj. rewrite Hg by exact Hj. ring. }
    split; intros i Hi.
    - destruct (F i Hi) as (F1 & F2 & F3). to_model. rewrite (DF 1%nat (e 2%nat) (e' 2%nat)), (DF 0%nat (e 2%nat) (e' 2%nat)), (DF 0%nat (e 1%nat) (e' 1%nat)), (DF 1%nat (e 0%nat) (e' 0%nat)) by (first [lia | exact Hi | intros; apply E; [lia|assumption]]).
      rewrite !E, !H by (try lia; exact Hi). split; [|split].
      + transitivity (f * (- im * om * (M 0%nat i * h 0%nat i))); [ring|]. rewrite F1. ring.
      + transitivity (f * (- im * om * (M 1%nat i * h 1%nat i))); [ring|]. rewrite F2. ring.
      + transitivity (f * (- im * om * (M 2%nat i * h 2%nat i))); [ring|]. rewrite F3. ring.
    - destruct (A i Hi) as (F1 & F2 & F3). to_model. rewrite (DB 1%nat (h 2%nat) (h' 2%nat)), (DB 0%nat (h 2%nat) (h' 2%nat)), (DB 0%nat (h 1%nat) (h' 1%nat)), (DB 1%nat (h 0%nat) (h' 0%nat)) by (first [lia | exact Hi | intros; apply H; [lia|assumption]]).
      rewrite !E, !H by (try lia; exact Hi). split; [|split].
      + transitivity (f * (im * om * (ep 0%nat i * e 0%nat i))); [ring|]. rewrite F1. ring.
      + transitivity (f * (im * om * (ep 1%nat i * e 1%nat i))); [ring|]. rewrite F2. ring.
      + transitivity (f * (im * om * (ep 2%nat i * e 2%nat i))); [ring|]. rewrite F3. ring.
  Qed.
End Scale.
