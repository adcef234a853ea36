From Coq Require Import List Arith ZArith Lia Bool Field.
From Verif.Lib Require Import Num Sums Idx Mat.
From Verif.Model Require Import Fdmath Fdfd Waveguide2d Cyl.
From Verif.Spec Require Import Yee WaveguideSpec CylSpec.
From Verif.Proofs Require Import FdmathP FdfdP FdfdP2 WaveguideP WaveguideP2.
From Verif.Proofs Require Import GridP.
Import ListNotations.
Local Open Scope fld_scope.

Section CylP.
  Variable K : CFld.
  Add Field Kfield : (fth K).
  Variable sh : list nat.
  Hypothesis HL : length sh = 2%nat.
  Variables we wh : widths K.
  Let N := prodl sh.
  Notation Fx := (deriv_forward sh (Some we) 0). Notation Fy := (deriv_forward sh (Some we) 1).
  Notation Bx := (deriv_back sh (Some wh) 0). Notation By := (deriv_back sh (Some wh) 1).
  Variables ta tb : nat -> K.
  Let va : vect K := flat sh (fun i => ta (coord i 0)).
  Let vb : vect K := flat sh (fun i => tb (coord i 0)).

  Lemma va_at i : inb sh i -> va (ravel sh i) = ta (coord i 0).
  Proof. intro Hi. unfold va, flat. now rewrite unravel_ravel. Qed.
  Lemma vb_at i : inb sh i -> vb (ravel sh i) = tb (coord i 0).
  Proof. intro Hi. unfold vb, flat. now rewrite unravel_ravel. Qed.

  (** Materials of the equivalent straight waveguide. *)
  Definition eps_s (eps : vect K) : vect K := vec sh (fun c i => match c with
    | 0%nat => tb (coord i 0) * unvec sh eps 0%nat i
    | 1%nat => ta (coord i 0) * unvec sh eps 1%nat i
    | _ => unvec sh eps 2%nat i / ta (coord i 0) end).
  Definition mu_s : vect K := vec sh (fun c i => match c with
    | 0%nat => ta (coord i 0)
    | 1%nat => tb (coord i 0)
    | _ => 1 / tb (coord i 0) end).


  Hypothesis Na : forall m, (m < dim sh 0)%nat -> ta m <> 0.
  Hypothesis Nb : forall m, (m < dim sh 0)%nat -> tb m <> 0.
  Lemma inb_c0 i : inb sh i -> (coord i 0 < dim sh 0)%nat.
  Proof. intro Hi. apply inb_coord; [exact Hi|lia]. Qed.
  Lemma LFx : lin K (inb sh) Fx. Proof. apply lin_f; [exact HL|lia]. Qed.
  Lemma LFy : lin K (inb sh) Fy. Proof. apply lin_f; [exact HL|lia]. Qed.
  Lemma LBx : lin K (inb sh) Bx. Proof. apply lin_b; [exact HL|lia]. Qed.
  Lemma LBy : lin K (inb sh) By. Proof. apply lin_b; [exact HL|lia]. Qed.

  Lemma DF a y i : (a < 2)%nat -> inb sh i -> mv N (deriv_forward_mat sh we a) y (ravel sh i) = deriv_forward sh (Some we) a (fun j => y (ravel sh j)) i.
  Proof. intros Ha Hi. now apply dfN. Qed.
  Lemma DB a y i : (a < 2)%nat -> inb sh i -> mv N (deriv_back_mat sh wh a) y (ravel sh i) = deriv_back sh (Some wh) a (fun j => y (ravel sh j)) i.
  Proof. intros Ha Hi. now apply dbN. Qed.
  Lemma diag_at (d : vect K) (y : vect K) i : inb sh i -> mv N (mdiag d) y (ravel sh i) = d (ravel sh i) * y (ravel sh i).
  Proof. intro Hi. apply mv_mdiag. now apply ravel_lt. Qed.
  Lemma part_block_diag2 (A B : mat K) x c p : (c < 2)%nat -> (p < N)%nat ->
    part N (mv (2 * N) (block_diag2 N A B) x) c p = match c with 0%nat => mv N A (part N x 0) p | _ => mv N B (part N x 1) p end.
  Proof.
    intros Hc Hp. unfold block_diag2. rewrite part_vstack2 by assumption.
    destruct c as [|c]; rewrite mv_hstack2p, mv_mzero; ring.
  Qed.

  Variables (om : K) (eps x : vect K).
  Let ex := unvec sh x 0%nat. Let ey := unvec sh x 1%nat.
  Hypothesis Ne : forall i, inb sh i -> unvec sh eps 2%nat i <> 0.

  Lemma cyl_curl j : inb sh j ->
    mv N (mdiag vb) (mv (2 * N) (hstack2 N (mopp (deriv_forward_mat sh we 1)) (deriv_forward_mat sh we 0)) x) (ravel sh j)
    = curlz K Fx Fy ex ey (unvec sh mu_s 2%nat) j.
  Proof.
    intro Hj. rewrite diag_at, mv_hstack2p, mv_mopp by exact Hj. unfold N. rewrite !dfN by (try exact HL; try lia; exact Hj).
    unfold curlz, mu_s. rewrite vb_at, unvec_vec by exact Hj.
    change (tb (coord j 0) * (- Fy ex j + Fx ey j) = 1 / (1 / tb (coord j 0)) * (Fx ey j - Fy ex j)).
    field. split; [now apply Nb, inb_c0|apply f1nz].
  Qed.
  Lemma cyl_div j : inb sh j ->
    mv N (mdiag va) (mv N (mdiag (fun p => 1 / part N eps 2 p)) (mv (2 * N)
      (hstack2 N (mm N (mm N (deriv_back_mat sh wh 0) (mdiag vb)) (mdiag (part N eps 0)))
                 (mm N (mm N (deriv_back_mat sh wh 1) (mdiag va)) (mdiag (part N eps 1)))) x)) (ravel sh j)
    = divz K Bx By ex ey (unvec sh (eps_s eps) 0%nat) (unvec sh (eps_s eps) 1%nat) (unvec sh (eps_s eps) 2%nat) j.
  Proof.
    intro Hj. rewrite !diag_at, mv_hstack2p, !mv_mm by exact Hj. unfold N. rewrite !dbN by (try exact HL; try lia; exact Hj).
    unfold divz. rewrite va_at by exact Hj. fold N.
    rewrite (proj1 LBx _ (fun q => unvec sh (eps_s eps) 0%nat q * ex q) j); [|intros q Hq|exact Hj].
    2:{ rewrite !diag_at, vb_at by exact Hq. unfold eps_s. rewrite unvec_vec by exact Hq. unfold ex, unvec, part. fold N. ring. }
    rewrite (proj1 LBy _ (fun q => unvec sh (eps_s eps) 1%nat q * ey q) j); [|intros q Hq|exact Hj].
    2:{ rewrite !diag_at, va_at by exact Hq. unfold eps_s. rewrite unvec_vec by exact Hq. unfold ey, unvec, part. fold N. ring. }
    assert (E : unvec sh (eps_s eps) 2%nat j = unvec sh eps 2%nat j / ta (coord j 0)) by (unfold eps_s; now rewrite unvec_vec).
    rewrite E. change (part N eps 2 (ravel sh j)) with (unvec sh eps 2%nat j). field. splits; first [now apply Ne|now apply Na, inb_c0].
  Qed.

  Lemma cyl_op_act c i : (c < 2)%nat -> inb sh i ->
    unvec sh (mv (2 * N) (cylindrical_operator_T sh va vb om (we, wh) eps) x) c i
    = unvec sh (mv (2 * N) (operator_e sh om (we, wh) (eps_s eps) (Some mu_s)) x) c i.
  Proof.
    intros Hc Hi. pose proof (ravel_lt _ _ Hi) as Hp.
    transitivity (match c with
      | 0%nat => opx K Fx Fy Bx By om ex ey (unvec sh (eps_s eps) 0%nat) (unvec sh (eps_s eps) 1%nat) (unvec sh (eps_s eps) 2%nat) (unvec sh mu_s 1%nat) (unvec sh mu_s 2%nat) i
      | _ => opy K Fx Fy Bx By om ex ey (unvec sh (eps_s eps) 0%nat) (unvec sh (eps_s eps) 1%nat) (unvec sh (eps_s eps) 2%nat) (unvec sh mu_s 0%nat) (unvec sh mu_s 2%nat) i
      end).
    2:{ symmetry. refine (wg_op_act K sh (deriv_forward_mat sh we 0) (deriv_forward_mat sh we 1) (deriv_back_mat sh wh 0) (deriv_back_mat sh wh 1)
          Fx Fy Bx By _ _ _ _ LFx LFy LBx LBy om (eps_s eps) mu_s x c i Hc Hi).
        all: intros y j Hj; first [apply dfN|apply dbN]; [exact HL|lia|exact Hj]. }
    change (unvec sh (mv (2 * N) (cylindrical_operator_T sh va vb om (we, wh) eps) x) c i)
      with (mv (2 * N) (cylindrical_operator_T sh va vb om (we, wh) eps) x (c * N + ravel sh i)%nat).
    unfold cylindrical_operator_T. cbv zeta. cbn [fst snd]. fold N. rewrite !mv_madd, mv_mscale.
    rewrite (mv_mm (2 * N) N (mm N (vstack2 N _ _) (mdiag vb))), (mv_mm N N (vstack2 N (mm N (mopp _) _) _)).
    rewrite (mv_mm (2 * N) N (mm N (mm N (vstack2 N _ _) _) _)), (mv_mm N N (mm N (vstack2 N _ _) _)), (mv_mm N N (vstack2 N (deriv_forward_mat sh we 0) _)).
    match goal with |- om * om * ?a + ?b + ?d = _ =>
      change a with (part N (mv (2 * N) (block_diag2 N (mm N (mm N (mdiag vb) (mdiag vb)) (mdiag (part N eps 0))) (mm N (mm N (mdiag va) (mdiag va)) (mdiag (part N eps 1)))) x) c (ravel sh i)) end.
    rewrite part_block_diag2 by assumption.
    match goal with |- _ + ?b + ?d = _ =>
      match b with mv N ?M ?y _ => change b with (part N (mv N M y) c (ravel sh i)) end;
      match d with mv N ?M ?y _ => change d with (part N (mv N M y) c (ravel sh i)) end end.
    rewrite !part_vstack2 by assumption.
    assert (M : forall c, unvec sh mu_s c i = match c with 0%nat => ta (coord i 0) | 1%nat => tb (coord i 0) | _ => 1 / tb (coord i 0) end)
      by (intro c'; unfold mu_s; now rewrite unvec_vec).
    assert (X0 : unvec sh (eps_s eps) 0%nat i = tb (coord i 0) * unvec sh eps 0%nat i) by (unfold eps_s; now rewrite unvec_vec).
    assert (X1 : unvec sh (eps_s eps) 1%nat i = ta (coord i 0) * unvec sh eps 1%nat i) by (unfold eps_s; now rewrite unvec_vec).
    destruct c as [|[|c]]; [| |lia]; rewrite !mv_mm.
    - unfold opx. assert (MO : forall y, mv N (mopp (mdiag vb)) y (ravel sh i) = - (vb (ravel sh i) * y (ravel sh i))) by (intro y; rewrite mv_mopp, diag_at by exact Hi; reflexivity).
      rewrite MO, !diag_at by exact Hi. rewrite vb_at by exact Hi. rewrite DB, DF by (try lia; exact Hi).
      rewrite (proj1 LBy _ _ i cyl_curl Hi), (proj1 LFx _ _ i cyl_div Hi). rewrite (M 1%nat), X0.
      change (part N eps 0 (ravel sh i)) with (unvec sh eps 0%nat i). change (part N x 0 (ravel sh i)) with (ex i). ring.
    - unfold opy. rewrite !diag_at by exact Hi. rewrite va_at by exact Hi. rewrite DB, DF by (try lia; exact Hi).
      rewrite (proj1 LBx _ _ i cyl_curl Hi), (proj1 LFy _ _ i cyl_div Hi). rewrite (M 0%nat), X1.
      change (part N eps 1 (ravel sh i)) with (unvec sh eps 1%nat i). change (part N x 1 (ravel sh i)) with (ey i). ring.
  Qed.
End CylP.

(** ** Cylindrical modes as modes of the equivalent straight waveguide *)
Section Equiv.
  Variable K : CFld.
  Add Field Kfield2 : (fth K).
  Variable sh : list nat.
  Hypothesis HL : length sh = 2%nat.
  Variables we wh : widths K.
  Let N := prodl sh.
  Notation Fx := (deriv_forward sh (Some we) 0). Notation Fy := (deriv_forward sh (Some we) 1).
  Notation Bx := (deriv_back sh (Some wh) 0). Notation By := (deriv_back sh (Some wh) 1).
  Variables ta tb : nat -> K.
  Hypothesis Na : forall m, (m < dim sh 0)%nat -> ta m <> 0.
  Hypothesis Nb : forall m, (m < dim sh 0)%nat -> tb m <> 0.
  Let va : vect K := flat sh (fun i => ta (coord i 0)).
  Let vb : vect K := flat sh (fun i => tb (coord i 0)).

  Definition lift (t : nat -> K) (F : field K) : field K := fun c i => if Nat.eqb c 2 then t (coord i 0) * F c i else F c i.

  Lemma mul_eq (a x y : K) : a <> 0 -> (x = y <-> a * x = a * y).
  Proof. intro Ha. split; [now intros ->|]. now apply fmul_cancel_l. Qed.
  Lemma odnz (x : K) : x <> 0 -> 1 / x <> 0.
  Proof. intro H. rewrite fdiv_def. apply fmul_nz; [apply f1nz|now apply finv_nz]. Qed.
  Lemma fy_scale (t : nat -> K) f i : inb sh i -> Fy (fun j => t (coord j 0) * f j) i = t (coord i 0) * Fy f i.
  Proof.
    intro Hi. unfold deriv_forward, roll. rewrite coord_shift_other by lia. rewrite !fdiv_def. ring.
  Qed.
  Lemma by_scale (t : nat -> K) f i : inb sh i -> By (fun j => t (coord j 0) * f j) i = t (coord i 0) * By f i.
  Proof.
    intro Hi. unfold deriv_back, roll. rewrite coord_shift_other by lia. rewrite !fdiv_def. ring.
  Qed.

  Variables (om beta : K) (eps : vect K).
  Variables e h : field K.

  Lemma far_equiv : cyl_faraday sh ta tb we om beta e h <-> faraday sh we om beta (unvec sh (mu_s K sh ta tb)) (lift ta e) (lift tb h).
  Proof.
    unfold cyl_faraday, faraday. to_model. split; intros H i Hi; destruct (H i Hi) as (H0 & H1 & H2); clear H;
      pose proof (Na _ (inb_coord sh i 0 Hi ltac:(lia))) as A; pose proof (Nb _ (inb_coord sh i 0 Hi ltac:(lia))) as B;
      unfold mu_s in *; rewrite !unvec_vec in * by exact Hi; unfold lift in *; cbn [Nat.eqb] in *;
      change (deriv_forward sh (Some we) 1 (fun i0 => ta (coord i0 0) * e 2%nat i0) i) with (Fy (fun j => ta (coord j 0) * e 2%nat j) i) in *;
      rewrite fy_scale in * by exact Hi; repeat split.
    - apply (mul_eq (1 / ta (coord i 0))); [now apply odnz|]. transitivity (- im * om * h 0%nat i); [field; exact A|]. rewrite H0. field. exact A.
    - apply (mul_eq (1 / tb (coord i 0))); [now apply odnz|]. transitivity (- im * om * h 1%nat i); [field; exact B|]. rewrite H1.
      field. exact B.
    - transitivity (- im * om * h 2%nat i); [field; exact B|]. exact H2.
    - apply (mul_eq (ta (coord i 0))); [exact A|]. transitivity (- im * om * (ta (coord i 0) * h 0%nat i)); [ring|]. rewrite H0. field. exact A.
    - apply (mul_eq (tb (coord i 0))); [exact B|]. transitivity (- im * om * (tb (coord i 0) * h 1%nat i)); [ring|]. rewrite H1. field. exact B.
    - transitivity (- im * om * (1 / tb (coord i 0) * (tb (coord i 0) * h 2%nat i))); [field; exact B|]. exact H2.
  Qed.
  Lemma amp_equiv : cyl_ampere sh ta tb wh om beta (unvec sh eps) e h <-> ampere sh wh om beta (unvec sh (eps_s K sh ta tb eps)) (lift ta e) (lift tb h).
  Proof.
    unfold cyl_ampere, ampere. to_model. split; intros H i Hi; destruct (H i Hi) as (H0 & H1 & H2); clear H;
      pose proof (Na _ (inb_coord sh i 0 Hi ltac:(lia))) as A; pose proof (Nb _ (inb_coord sh i 0 Hi ltac:(lia))) as B;
      unfold eps_s in *; rewrite !unvec_vec in * by exact Hi; unfold lift in *; cbn [Nat.eqb] in *;
      change (deriv_back sh (Some wh) 1 (fun i0 => tb (coord i0 0) * h 2%nat i0) i) with (By (fun j => tb (coord j 0) * h 2%nat j) i) in *;
      rewrite by_scale in * by exact Hi; repeat split.
    - transitivity (tb (coord i 0) * (im * om * (unvec sh eps 0%nat i * e 0%nat i))); [ring|]. rewrite H0. field. exact B.
    - transitivity (ta (coord i 0) * (im * om * (unvec sh eps 1%nat i * e 1%nat i))); [ring|]. rewrite H1. field. exact A.
    - transitivity (im * om * (unvec sh eps 2%nat i * e 2%nat i)); [field; exact A|]. exact H2.
    - apply (mul_eq (tb (coord i 0))); [exact B|]. transitivity (im * om * (tb (coord i 0) * unvec sh eps 0%nat i * e 0%nat i)); [ring|]. rewrite H0. field. exact B.
    - apply (mul_eq (ta (coord i 0))); [exact A|]. transitivity (im * om * (ta (coord i 0) * unvec sh eps 1%nat i * e 1%nat i)); [ring|]. rewrite H1. field. exact A.
    - transitivity (im * om * (unvec sh eps 2%nat i / ta (coord i 0) * (ta (coord i 0) * e 2%nat i))); [field; exact A|]. exact H2.
  Qed.

  Lemma mode_equiv : is_cyl_mode sh ta tb we wh om beta (unvec sh eps) e h
    <-> is_mode sh we wh om beta (unvec sh (eps_s K sh ta tb eps)) (unvec sh (mu_s K sh ta tb)) (lift ta e) (lift tb h).
  Proof. unfold is_cyl_mode, is_mode. now rewrite far_equiv, amp_equiv. Qed.
End Equiv.

(** ** exy2e and e2h *)
Section Conv.
  Variable K : CFld.
  Add Field Kfield3 : (fth K).
  Variable sh : list nat.
  Hypothesis HL : length sh = 2%nat.
  Variables we wh : widths K.
  Let N := prodl sh.
  Notation Fx := (deriv_forward sh (Some we) 0). Notation Fy := (deriv_forward sh (Some we) 1).
  Notation Bx := (deriv_back sh (Some wh) 0). Notation By := (deriv_back sh (Some wh) 1).
  Variables ta tb : nat -> K.
  Let va : vect K := flat sh (fun i => ta (coord i 0)).
  Let vb : vect K := flat sh (fun i => tb (coord i 0)).
  Lemma DF2 a y i : (a < 2)%nat -> inb sh i -> mv N (deriv_forward_mat sh we a) y (ravel sh i) = deriv_forward sh (Some we) a (fun j => y (ravel sh j)) i.
  Proof. intros Ha Hi. now apply dfN. Qed.
  Lemma DB2 a y i : (a < 2)%nat -> inb sh i -> mv N (deriv_back_mat sh wh a) y (ravel sh i) = deriv_back sh (Some wh) a (fun j => y (ravel sh j)) i.
  Proof. intros Ha Hi. now apply dbN. Qed.
  Lemma diag2 (d : vect K) (y : vect K) i : inb sh i -> mv N (mdiag d) y (ravel sh i) = d (ravel sh i) * y (ravel sh i).
  Proof. intro Hi. apply mv_mdiag. now apply ravel_lt. Qed.
  Lemma va2 i : inb sh i -> va (ravel sh i) = ta (coord i 0).
  Proof. intro Hi. unfold va, flat. now rewrite unravel_ravel. Qed.
  Lemma vb2 i : inb sh i -> vb (ravel sh i) = tb (coord i 0).
  Proof. intro Hi. unfold vb, flat. now rewrite unravel_ravel. Qed.
  Lemma BxE f g i : inb sh i -> (forall j, inb sh j -> f j = g j) -> Bx f i = Bx g i.
  Proof. intros Hi H. apply deriv_back_ext; [lia|exact Hi|exact H]. Qed.
  Lemma ByE f g i : inb sh i -> (forall j, inb sh j -> f j = g j) -> By f i = By g i.
  Proof. intros Hi H. apply deriv_back_ext; [lia|exact Hi|exact H]. Qed.
  Lemma FxE f g i : inb sh i -> (forall j, inb sh j -> f j = g j) -> Fx f i = Fx g i.
  Proof. intros Hi H. apply deriv_forward_ext; [lia|exact Hi|exact H]. Qed.

  (** The curl that e2h applies, with its sign. *)
  Lemma cyl_e2h_act beta om mu x c i : (c < 3)%nat -> inb sh i -> om <> 0 ->
    (forall b j, (b < 3)%nat -> inb sh j -> unvec sh (or_ones mu) b j <> 0) ->
    let a := ta (coord i 0) in let b := tb (coord i 0) in
    - im * om * (unvec sh (or_ones mu) c i * unvec sh (mv (3 * N) (cyl_e2h_T sh va vb beta om (we, wh) mu) x) c i)
    = match c with
      | 0%nat => - (im * beta * (1 / a * unvec sh x 1%nat i)) - Fy (unvec sh x 2%nat) i
      | 1%nat => im * beta * (1 / b * unvec sh x 0%nat i) + 1 / b * Fx (fun j => ta (coord j 0) * unvec sh x 2%nat j) i
      | _ => Fy (unvec sh x 0%nat) i - Fx (unvec sh x 1%nat) i
      end.
  Proof.
    intros Hc Hi Ho Hm a b. pose proof (ravel_lt _ _ Hi) as Hp. specialize (Hm c i Hc Hi).
    set (op := mblock N N (fun r c => match r, c with
        | 0%nat, 1%nat => mscale (- (im * beta)) (mdiag (fun p => 1 / va p))
        | 0%nat, 2%nat => mopp (deriv_forward_mat sh we 1)
        | 1%nat, 0%nat => mscale (im * beta) (mdiag (fun p => 1 / vb p))
        | 1%nat, 2%nat => mm N (mm N (mdiag (fun p => 1 / vb p)) (deriv_forward_mat sh we 0)) (mdiag va)
        | 2%nat, 0%nat => deriv_forward_mat sh we 1
        | 2%nat, 1%nat => mopp (deriv_forward_mat sh we 0)
        | _, _ => mzero
        end)).
    assert (E : - im * om * (unvec sh (or_ones mu) c i * unvec sh (mv (3 * N) (cyl_e2h_T sh va vb beta om (we, wh) mu) x) c i)
      = mv (3 * N) op x (c * N + ravel sh i)%nat).
    { unfold cyl_e2h_T. cbv zeta. cbn [fst snd]. fold N. fold op. destruct mu as [m|]; cbn [or_ones] in *; unfold unvec in *; fold N in Hm |- *.
      - rewrite mv_mm, mv_mdiag by (unfold N in *; nia). rewrite mv_mscale. field. splits; first [apply im_nz|apply fopp_nz, im_nz|exact Ho|exact Hm].
      - rewrite mv_mscale. field. splits; first [apply im_nz|apply fopp_nz, im_nz|exact Ho]. }
    rewrite E. unfold op. rewrite mv_mblock, block_div, block_mod by exact Hp.
    destruct c as [|[|[|c]]]; [| | |lia]; cbn [sumN]; rewrite ?mv_mzero, ?mv_mscale, ?mv_mopp, ?mv_mm.
    - rewrite diag2, DF2 by (try lia; exact Hi). rewrite va2 by exact Hi. unfold a, unvec. fold N. ring.
    - rewrite !diag2, DF2 by (try lia; exact Hi). rewrite vb2 by exact Hi.
      rewrite (FxE _ (fun j => ta (coord j 0) * unvec sh x 2%nat j) i Hi) by (intros j Hj; rewrite diag2, va2 by exact Hj; reflexivity).
      unfold b, unvec. fold N. ring.
    - rewrite !DF2 by (try lia; exact Hi). unfold unvec. fold N. ring.
  Qed.

  Lemma cyl_exy2e_xy beta om eps x c i : (c < 2)%nat -> inb sh i ->
    unvec sh (mv (2 * N) (cyl_exy2e_T sh va vb beta om (we, wh) eps) x) c i = unvec sh x c i.
  Proof. intros Hc Hi. apply (part_top K N); [exact Hc|now apply ravel_lt]. Qed.

  (** exy2e computes -h_z, then -h_y and -(Tb/Ta) h_x, and e_z from those. *)
  Variables (beta om : K) (eps x : vect K).
  Definition hz1 : arr K := fun j => 1 / (- im * om) * (Fy (unvec sh x 0%nat) j - Fx (unvec sh x 1%nat) j).
  Definition hy1 : arr K := fun j => 1 / (im * beta) * (tb (coord j 0) * (- im * om * (unvec sh eps 0%nat j * unvec sh x 0%nat j) - By hz1 j)).
  Definition hx1 : arr K := fun j => 1 / (im * beta) * (tb (coord j 0) * (im * om * (unvec sh eps 1%nat j * unvec sh x 1%nat j)
     - 1 / ta (coord j 0) * Bx (fun k => tb (coord k 0) * hz1 k) j)).
  Lemma cyl_exy2e_z i : inb sh i ->
    unvec sh (mv (2 * N) (cyl_exy2e_T sh va vb beta om (we, wh) eps) x) 2%nat i
    = 1 / (im * om) * (1 / unvec sh eps 2%nat i * (By hx1 i - Bx hy1 i)).
  Proof.
    intro Hi.
    change (part N (mv (2 * N) (cyl_exy2e_T sh va vb beta om (we, wh) eps) x) 2 (ravel sh i)
      = 1 / (im * om) * (1 / unvec sh eps 2%nat i * (By hx1 i - Bx hy1 i))).
    unfold cyl_exy2e_T. cbv zeta. cbn [fst snd]. fold N. rewrite part_bot.
    rewrite (mv_mm (2 * N) (2 * N)), (mv_mm (2 * N) N), mv_mscale, diag2 by exact Hi.
    change (part N eps 2 (ravel sh i)) with (unvec sh eps 2%nat i). do 2 f_equal.
    rewrite mv_hstack2p, mv_mopp, !DB2 by (try lia; exact Hi).
    assert (Hz : forall j, inb sh j -> mv (2 * N) (mm N (mscale (1 / (- im * om)) (mdiag (fun _ => 1 / 1))) (hstack2 N (deriv_forward_mat sh we 1) (mopp (deriv_forward_mat sh we 0)))) x (ravel sh j) = hz1 j).
    { intros j Hj. rewrite mv_mm, mv_mscale, diag2, mv_hstack2p, mv_mopp, !DF2 by (try lia; exact Hj). unfold hz1.
      change (fun j0 => part N x 0 (ravel sh j0)) with (unvec sh x 0%nat). change (fun j0 => part N x 1 (ravel sh j0)) with (unvec sh x 1%nat).
      assert (Q : 1 / (1 : K) = 1) by (field; apply f1nz). rewrite Q. ring. }
    rewrite (ByE _ hx1 i Hi), (BxE _ hy1 i Hi); [ring| |]; intros j Hj; pose proof (ravel_lt _ _ Hj) as Hq; rewrite part_vstack2 by (try lia; exact Hq).
    - rewrite mv_mm, mv_mscale, diag2, vb2 by exact Hj. unfold hy1. do 2 f_equal.
      rewrite mv_msub, mv_mscale, mv_hstack2p, mv_mzero, diag2, mv_mm, DB2 by (try lia; exact Hj).
      rewrite (ByE _ hz1 j Hj Hz). unfold unvec, part. fold N. ring.
    - rewrite mv_mm, mv_mscale, diag2, vb2 by exact Hj. unfold hx1. do 2 f_equal.
      rewrite mv_msub, mv_mscale, mv_hstack2p, mv_mzero, diag2, !mv_mm, diag2, va2, DB2 by (try lia; exact Hj).
      rewrite (BxE _ (fun k => tb (coord k 0) * hz1 k) j Hj); [unfold unvec, part; fold N; ring|].
      intros k Hk. rewrite diag2, vb2, Hz by exact Hk. reflexivity.
  Qed.

  (** Error of exy2e on a mode. *)
  Variables e h : field K.
  Hypothesis Na : forall m, (m < dim sh 0)%nat -> ta m <> 0.
  Hypothesis Nb : forall m, (m < dim sh 0)%nat -> tb m <> 0.
  Hypothesis Hom : om <> 0. Hypothesis Hbeta : beta <> 0.
  Hypothesis Ne : forall i, inb sh i -> unvec sh eps 2%nat i <> 0.
  Hypothesis M : is_cyl_mode sh ta tb we wh om beta (unvec sh eps) e h.
  Hypothesis X0 : forall i, inb sh i -> unvec sh x 0%nat i = e 0%nat i.
  Hypothesis X1 : forall i, inb sh i -> unvec sh x 1%nat i = e 1%nat i.

  Lemma cyl_exy2e_error i : inb sh i ->
    im * om * (unvec sh eps 2%nat i * (unvec sh (mv (2 * N) (cyl_exy2e_T sh va vb beta om (we, wh) eps) x) 2%nat i - e 2%nat i))
    = (1 - tb (coord i 0) / ta (coord i 0)) * By (h 0%nat) i.
  Proof.
    intro Hi. rewrite cyl_exy2e_z by exact Hi. destruct M as [F A].
    assert (ib : im * beta <> (0 : K)) by (apply fmul_nz; [apply im_nz|exact Hbeta]).
    assert (io : im * om <> (0 : K)) by (apply fmul_nz; [apply im_nz|exact Hom]).
    assert (FyX : forall j, inb sh j -> Fy (unvec sh x 0%nat) j = Fy (e 0%nat) j) by (intros j Hj; apply deriv_forward_ext; [lia|exact Hj|exact X0]).
    assert (FxX : forall j, inb sh j -> Fx (unvec sh x 1%nat) j = Fx (e 1%nat) j) by (intros j Hj; apply deriv_forward_ext; [lia|exact Hj|exact X1]).
    assert (Z : forall j, inb sh j -> hz1 j = - h 2%nat j).
    { intros j Hj. unfold hz1. rewrite FyX, FxX by exact Hj. destruct (F j Hj) as (_ & _ & F2). to_model.
      transitivity (1 / (im * om) * (Fx (e 1%nat) j - Fy (e 0%nat) j)); [field; splits; first [apply im_nz|apply fopp_nz, im_nz|exact Hom]|].
      rewrite <- F2. field. splits; first [apply im_nz|exact Hom]. }
    assert (NL : forall D f g j, lin K (inb sh) D -> inb sh j -> (forall q, inb sh q -> f q = - g q) -> D f j = - D g j).
    { intros D f g j HD Hj H. rewrite (lin_scale K (inb sh) D f g (- (1)) j HD Hj); [ring|]. intros q Hq. rewrite H by exact Hq. ring. }
    assert (Y : forall j, inb sh j -> hy1 j = - h 1%nat j).
    { intros j Hj. unfold hy1. rewrite X0 by exact Hj. rewrite (NL By hz1 (h 2%nat) j (lin_b K sh HL wh 1 ltac:(lia)) Hj Z).
      destruct (A j Hj) as (A0 & _ & _). to_model. cbv zeta in A0. pose proof (Nb _ (inb_coord sh j 0 Hj ltac:(lia))) as B.
      transitivity (- (1 / (im * beta)) * (tb (coord j 0) * (im * om * (unvec sh eps 0%nat j * e 0%nat j) - By (h 2%nat) j))); [ring|].
      rewrite A0. field. splits; first [apply im_nz|exact Hbeta|exact B]. }
    assert (X : forall j, inb sh j -> hx1 j = - (tb (coord j 0) / ta (coord j 0) * h 0%nat j)).
    { intros j Hj. unfold hx1. rewrite X1 by exact Hj.
      rewrite (NL Bx (fun k => tb (coord k 0) * hz1 k) (fun k => tb (coord k 0) * h 2%nat k) j (lin_b K sh HL wh 0 ltac:(lia)) Hj).
      2:{ intros q Hq. rewrite Z by exact Hq. ring. }
      destruct (A j Hj) as (_ & A1 & _). to_model. cbv zeta in A1. pose proof (Na _ (inb_coord sh j 0 Hj ltac:(lia))) as B.
      rewrite A1. field. splits; first [apply im_nz|exact Hbeta|exact B]. }
    rewrite (NL Bx hy1 (h 1%nat) i (lin_b K sh HL wh 0 ltac:(lia)) Hi Y).
    rewrite (NL By hx1 _ i (lin_b K sh HL wh 1 ltac:(lia)) Hi X).
    rewrite (by_scale K sh HL wh ta tb Na Nb (fun m => tb m / ta m) (h 0%nat) i Hi).
    destruct (A i Hi) as (_ & _ & A2). to_model.
    transitivity (- (tb (coord i 0) / ta (coord i 0) * By (h 0%nat) i) + Bx (h 1%nat) i - im * om * (unvec sh eps 2%nat i * e 2%nat i)).
    - field. splits; first [apply im_nz|exact Hom|now apply Ne|now apply Na, inb_coord; [|lia]].
    - rewrite A2. ring.
  Qed.
End Conv.
