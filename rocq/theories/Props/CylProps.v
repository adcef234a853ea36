(** Properties of meanas/fdfd/waveguide_cyl.py: the bent-waveguide operators. *)
From Coq Require Import List Arith ZArith QArith Qcanon Lia Bool Field.
From Verif.Lib Require Import Num Sums Idx Mat.
From Verif.Model Require Import Fdmath Fdfd Waveguide2d Cyl.
From Verif.Spec Require Import Grid Yee WaveguideSpec CylSpec.
From Verif.Proofs Require Import FdmathP FdfdP FdfdP2 WaveguideP WaveguideP2 WaveguideP3 WaveguideP4 WaveguideRealP CylP.
From Verif.Props Require Import FdfdProps WaveguideProps.
From Verif.Proofs Require Import GridP.
Import ListNotations.
Local Open Scope fld_scope.

(** No radius of the grid vanishes, and no epsilon. *)
Definition cyl_nondegenerate {K : CFld} (sh : list nat) (we wh : widths K) (rmin : K) (eps : vect K) : Prop :=
  rmin <> 0 /\ (forall m, (m < dim sh 0)%nat -> t_int we rmin m <> 0 /\ t_half we wh rmin m <> 0) /\
  (forall q, (q < 3 * prodl sh)%nat -> eps q <> 0).

Section CylAux.
  Variable K : CFld.
  Add Field Kcylaux : (fth K).
  Lemma cyl_sub0 (x w : K) : (x - x) / w = 0.
  Proof. rewrite fdiv_def. ring. Qed.
  Lemma cyl_mul0 (x : K) : x * 0 = 0. Proof. ring. Qed.
  Lemma cyl_sub1 (x y : K) : x - y * 0 = x. Proof. ring. Qed.
  Lemma cyl_cancel (om ep x : K) : om <> 0 -> ep <> 0 -> im * om * (ep * x) = 0 -> x = 0.
  Proof.
    intros Ho He H. apply (fmul_cancel_l K ep); [exact He|]. apply (fmul_cancel_l K (im * om)); [apply fmul_nz; [apply im_nz|exact Ho]|]. rewrite H. ring.
  Qed.
  Lemma cyl_diff0 (t x y w : K) : t <> 0 -> w <> 0 -> t * ((x - y) / w) = 0 -> x = y.
  Proof.
    intros Ht Hw H. apply (fsub_eq0 K). apply (fmul_cancel_l K (t / w)); [rewrite fdiv_def; apply fmul_nz; [exact Ht|now apply finv_nz]|].
    transitivity (t * ((x - y) / w)); [rewrite !fdiv_def; ring|]. rewrite H. ring.
  Qed.
  Lemma cyl_zero (a b x : K) : a * (b * (x - x)) = 0. Proof. ring. Qed.
End CylAux.

Section C45.
  Variable K : CFld.
  Add Field Kcyl : (fth K).
  Variables (sh : list nat) (we wh : widths K) (om k rmin : K) (eps : vect K).
  Hypothesis HL : length sh = 2%nat.
  Hypothesis Hom : om <> 0. Hypothesis Hk : k <> 0.
  Hypothesis Nd : cyl_nondegenerate sh we wh rmin eps.
  Let N := prodl sh.
  Let ta := t_int we rmin. Let tb := t_half we wh rmin.
  Let es := eps_s K sh ta tb eps. Let ms := mu_s K sh ta tb.
  Let b := k / rmin.

  Lemma cna m : (m < dim sh 0)%nat -> ta m <> 0.
  Proof. destruct Nd as (_ & T & _). intro H. apply (T m H). Qed.
  Lemma cnb m : (m < dim sh 0)%nat -> tb m <> 0.
  Proof. destruct Nd as (_ & T & _). intro H. apply (T m H). Qed.
  Lemma cb : b <> 0.
  Proof. unfold b. rewrite fdiv_def. apply fmul_nz; [exact Hk|apply finv_nz, Nd]. Qed.
  Lemma ceps c i : (c < 3)%nat -> inb sh i -> unvec sh eps c i <> 0.
  Proof. intros Hc Hi. apply Nd. pose proof (ravel_lt _ _ Hi). nia. Qed.
  Lemma nz_of_unvec (v : vect K) : (forall c i, (c < 3)%nat -> inb sh i -> unvec sh v c i <> 0) -> forall q, (q < 3 * N)%nat -> v q <> 0.
  Proof.
    intros H q Hq. assert (HN : N <> 0%nat) by (unfold N in *; lia).
    assert (Hp : (q mod N < N)%nat) by (now apply Nat.mod_upper_bound).
    specialize (H (q / N)%nat (unravel sh (q mod N)) ltac:(apply Nat.div_lt_upper_bound; lia) (inb_unravel _ _ Hp)).
    unfold unvec in H. rewrite ravel_unravel in H by exact Hp. fold N in H.
    replace (q / N * N + q mod N)%nat with q in H; [exact H|]. rewrite (Nat.div_mod q N HN) at 1. lia.
  Qed.
  Lemma cmat : nonzero_materials sh es (Some ms).
  Proof.
    split; apply nz_of_unvec; intros c i Hc Hi; pose proof (cna _ (inb_coord sh i 0 Hi ltac:(lia))) as A; pose proof (cnb _ (inb_coord sh i 0 Hi ltac:(lia))) as B;
      unfold es, ms, eps_s, mu_s; rewrite unvec_vec by exact Hi; destruct c as [|[|c]].
    - apply fmul_nz; [exact B|now apply ceps].
    - apply fmul_nz; [exact A|now apply ceps].
    - rewrite fdiv_def. apply fmul_nz; [apply ceps; [lia|exact Hi]|now apply finv_nz].
    - exact A.
    - exact B.
    - rewrite fdiv_def. apply fmul_nz; [apply f1nz|now apply finv_nz].
  Qed.
  Lemma cop x : veq (2 * N) (mv (2 * N) (cylindrical_operator sh om (we, wh) eps rmin) x) (mv (2 * N) (operator_e sh om (we, wh) es (Some ms)) x).
  Proof.
    apply veq_unvec. intros c i Hc Hi.
    exact (cyl_op_act K sh HL we wh ta tb cna cnb om eps x (fun i Hi => ceps 2 i ltac:(lia) Hi) c i Hc Hi).
  Qed.

  Lemma mode_ext (ep mu e h e' h' : field K) : is_mode sh we wh om b ep mu e h ->
    (forall c i, (c < 3)%nat -> inb sh i -> e' c i = e c i) -> (forall c i, (c < 3)%nat -> inb sh i -> h' c i = h c i) ->
    is_mode sh we wh om b ep mu e' h'.
  Proof.
    intros M E1 E2. refine (mode_scale_gen K sh we wh om b ep mu e h e' h' 1 HL M _ _); intros c i Hc Hi; [rewrite E1|rewrite E2]; try assumption; ring.
  Qed.

  Lemma e2h_faraday (e : vect K) (h : field K) : cyl_faraday sh ta tb we om b (unvec sh e) h ->
    forall c i, (c < 3)%nat -> inb sh i -> h c i = - unvec sh (mv (3 * N) (cyl_e2h sh k om (we, wh) rmin None) e) c i.
  Proof.
    intros F c i Hc Hi.
    pose proof (cyl_e2h_act K sh HL we wh ta tb b om None e c i Hc Hi Hom (fun _ _ _ _ => f1nz K)) as E. cbv zeta in E.
    pose proof (cna _ (inb_coord sh i 0 Hi ltac:(lia))) as A. pose proof (cnb _ (inb_coord sh i 0 Hi ltac:(lia))) as B.
    apply (fmul_cancel_l K (- im * om)); [apply fmul_nz; [apply fopp_nz, im_nz|exact Hom]|].
    change (unvec sh (or_ones None) c i) with (1 : K) in E.
    transitivity (- (- im * om * (1 * unvec sh (mv (3 * N) (cyl_e2h sh k om (we, wh) rmin None) e) c i))); [|ring].
    refine (eq_trans _ (f_equal (fun z => - z) (eq_sym E))). clear E.
    destruct (F i Hi) as (F0 & F1 & F2). to_model. cbv zeta in F0, F1, F2. destruct c as [|[|[|c]]]; [rewrite F0|rewrite F1|rewrite F2|lia].
    - field. exact A.
    - rewrite !fdiv_def. ring.
    - ring.
  Qed.

  Lemma ms_field : mu_field sh (Some ms) = unvec sh ms.
  Proof. reflexivity. Qed.

  (** The straight mode belonging to an eigenvector, mapped back. *)
  Lemma eig_mode x : veq (2 * N) (mv (2 * N) (cylindrical_operator sh om (we, wh) eps rmin) x) (fun q => b * b * x q) ->
    exists e h : vect K, veq (2 * N) e x /\ is_cyl_mode sh ta tb we wh om b (unvec sh eps) (unvec sh e) (unvec sh h).
  Proof.
    intro H.
    assert (H' : veq (2 * N) (mv (2 * N) (operator_e sh om (we, wh) es (Some ms)) x) (fun q => b * b * x q)).
    { intros q Hq. rewrite <- (cop x q Hq). now apply H. }
    destruct (C36_eigenvector_gives_mode K sh we wh om b es (Some ms) x HL Hom cb cmat H') as (M & _ & _ & Ex).
    rewrite ms_field in M. fold N in M, Ex.
    set (E := mv (2 * N) (exy2e sh b (we, wh) es) x) in *. set (H0 := mv (2 * N) (exy2h sh b om (we, wh) es (Some ms)) x) in *.
    exists (vec sh (fun c i => if Nat.eqb c 2 then unvec sh E c i / ta (coord i 0) else unvec sh E c i)),
           (vec sh (fun c i => if Nat.eqb c 2 then unvec sh H0 c i / tb (coord i 0) else unvec sh H0 c i)).
    split.
    - apply veq_unvec. intros c i Hc Hi. rewrite unvec_vec by exact Hi. destruct (Nat.eqb_spec c 2); [lia|].
      apply (proj2 (veq_unvec K sh 2 E x) Ex c i Hc Hi).
    - apply (mode_equiv K sh HL we wh ta tb cna cnb). refine (mode_ext _ _ _ _ _ _ M _ _); intros c i Hc Hi; unfold lift; rewrite unvec_vec by exact Hi;
        (destruct (Nat.eqb c 2); [|reflexivity]); field; first [apply cna|apply cnb]; (apply inb_coord; [exact Hi|lia]).
  Qed.

  Lemma mode_unique (e h e2 h2 : field K) : is_cyl_mode sh ta tb we wh om b (unvec sh eps) e h -> is_cyl_mode sh ta tb we wh om b (unvec sh eps) e2 h2 ->
    (forall c i, (c < 2)%nat -> inb sh i -> e2 c i = e c i) ->
    forall c i, (c < 3)%nat -> inb sh i -> e2 c i = e c i /\ h2 c i = h c i.
  Proof.
    intros M M2 Ex c i Hc Hi. apply (mode_equiv K sh HL we wh ta tb cna cnb) in M, M2.
    set (V := fun F : field K => vec sh F).
    assert (U : forall F c i, (c < 3)%nat -> inb sh i -> unvec sh (V F) c i = F c i) by (intros; unfold V; now rewrite unvec_vec).
    assert (T : forall e h, is_mode sh we wh om b (unvec sh es) (unvec sh ms) (lift K ta e) (lift K tb h) ->
       veq (3 * N) (mv (2 * N) (exy2e sh b (we, wh) es) (V (lift K ta e))) (V (lift K ta e)) /\
       veq (3 * N) (mv (2 * N) (exy2h sh b om (we, wh) es (Some ms)) (V (lift K ta e))) (V (lift K tb h))).
    { intros e0 h0 M0. assert (M1 : is_mode sh we wh om b (unvec sh es) (mu_field sh (Some ms)) (unvec sh (V (lift K ta e0))) (unvec sh (V (lift K tb h0)))).
      { rewrite ms_field. refine (mode_ext _ _ _ _ _ _ M0 _ _); intros; now apply U. }
      destruct (C37_mode_solves_both_eigenproblems K sh we wh om b es (Some ms) _ _ HL Hom cb cmat M1) as ((_ & A1 & A2) & _). now split. }
    destruct (T e h M) as [A1 A2]. destruct (T e2 h2 M2) as [B1 B2].
    assert (VV : veq (2 * N) (V (lift K ta e2)) (V (lift K ta e))).
    { apply veq_unvec. intros c' i' Hc' Hi'. rewrite !U by (try lia; exact Hi'). unfold lift. destruct (Nat.eqb_spec c' 2); [lia|]. now apply Ex. }
    assert (Q1 : lift K ta e2 c i = lift K ta e c i).
    { rewrite <- (U (lift K ta e2) c i Hc Hi), <- (U (lift K ta e) c i Hc Hi). rewrite <- (proj2 (veq_unvec K sh 3 _ _) A1 c i Hc Hi), <- (proj2 (veq_unvec K sh 3 _ _) B1 c i Hc Hi).
      unfold unvec. apply mv_ext_v. exact VV. }
    assert (Q2 : lift K tb h2 c i = lift K tb h c i).
    { rewrite <- (U (lift K tb h2) c i Hc Hi), <- (U (lift K tb h) c i Hc Hi). rewrite <- (proj2 (veq_unvec K sh 3 _ _) A2 c i Hc Hi), <- (proj2 (veq_unvec K sh 3 _ _) B2 c i Hc Hi).
      unfold unvec. apply mv_ext_v. exact VV. }
    unfold lift in Q1, Q2. pose proof (cna _ (inb_coord sh i 0 Hi ltac:(lia))) as A. pose proof (cnb _ (inb_coord sh i 0 Hi ltac:(lia))) as B.
    destruct (Nat.eqb c 2); [|now split]. split; [now apply (fmul_cancel_l K (ta (coord i 0)))|now apply (fmul_cancel_l K (tb (coord i 0)))].
  Qed.

  Lemma mode_eigv (e : vect K) (h : field K) : is_cyl_mode sh ta tb we wh om b (unvec sh eps) (unvec sh e) h ->
    veq (2 * N) (mv (2 * N) (cylindrical_operator sh om (we, wh) eps rmin) e) (fun q => b * b * e q).
  Proof.
    intro M. apply (mode_equiv K sh HL we wh ta tb cna cnb) in M.
    assert (M1 : is_mode sh we wh om b (unvec sh es) (mu_field sh (Some ms)) (unvec sh (vec sh (lift K ta (unvec sh e)))) (unvec sh (vec sh (lift K tb h)))).
    { rewrite ms_field. refine (mode_ext _ _ _ _ _ _ M _ _); intros; now rewrite unvec_vec. }
    destruct (C37_mode_solves_both_eigenproblems K sh we wh om b es (Some ms) _ _ HL Hom cb cmat M1) as ((H & _) & _). fold N in H.
    assert (VV : veq (2 * N) (vec sh (lift K ta (unvec sh e))) e).
    { apply veq_unvec. intros c i Hc Hi. rewrite unvec_vec by exact Hi. unfold lift. destruct (Nat.eqb_spec c 2); [lia|reflexivity]. }
    intros q Hq. rewrite (cop e q Hq). rewrite <- (VV q Hq). rewrite <- (H q Hq). apply mv_ext_v. intros j Hj. symmetry. now apply VV.
  Qed.
End C45.

(** An eigenvector is the transverse part of exactly one solution of the six
    cylindrical curl equations, and e2h gives the negative of its H field. *)
Theorem C45_eigenvector_gives_mode :
  forall (K : CFld) (sh : list nat) (we wh : widths K) (om k rmin : K) (eps e_xy : vect K),
    length sh = 2%nat -> om <> 0 -> k <> 0 -> cyl_nondegenerate sh we wh rmin eps ->
    let N := prodl sh in
    let mode := is_cyl_mode sh (t_int we rmin) (t_half we wh rmin) we wh om (k / rmin) (unvec sh eps) in
    veq (2 * N) (mv (2 * N) (cylindrical_operator sh om (we, wh) eps rmin) e_xy) (fun q => k / rmin * (k / rmin) * e_xy q) ->
    exists e : vect K, veq (2 * N) e e_xy /\
      mode (unvec sh e) (fun c i => - unvec sh (mv (3 * N) (cyl_e2h sh k om (we, wh) rmin None) e) c i) /\
      forall e2 h2 : field K, mode e2 h2 -> (forall c i, (c < 2)%nat -> inb sh i -> e2 c i = unvec sh e_xy c i) ->
        forall c i, (c < 3)%nat -> inb sh i -> e2 c i = unvec sh e c i /\
          h2 c i = - unvec sh (mv (3 * N) (cyl_e2h sh k om (we, wh) rmin None) e) c i.
Proof.
  intros K sh we wh om k rmin eps x HL Hom Hk Nd N mode H.
  destruct (eig_mode K sh we wh om k rmin eps HL Hom Hk Nd x H) as (e & h & Ex & M). exists e. split; [exact Ex|].
  pose proof (e2h_faraday K sh we wh om k rmin eps HL Hom Nd e (unvec sh h) (proj1 M)) as HH.
  split.
  - unfold mode. apply (mode_equiv K sh HL we wh _ _ (cna K sh we wh rmin eps Nd) (cnb K sh we wh rmin eps Nd)).
    apply (mode_equiv K sh HL we wh _ _ (cna K sh we wh rmin eps Nd) (cnb K sh we wh rmin eps Nd)) in M.
    refine (mode_ext K sh we wh om k rmin HL _ _ _ _ _ _ M _ _); intros c i Hc Hi; [reflexivity|]. unfold lift. now rewrite (HH c i Hc Hi).
  - intros e2 h2 M2 E2 c i Hc Hi. unfold N. rewrite <- (HH c i Hc Hi).
    refine (mode_unique K sh we wh om k rmin eps HL Hom Hk Nd _ _ _ _ M M2 _ c i Hc Hi).
    intros c' i' Hc' Hi'. rewrite E2 by assumption. symmetry. apply (proj2 (veq_unvec K sh 2 e x) Ex c' i' Hc' Hi').
Qed.
Print Assumptions C45_eigenvector_gives_mode.

Theorem C45_mode_gives_eigenvector :
  forall (K : CFld) (sh : list nat) (we wh : widths K) (om k rmin : K) (eps e : vect K) (h : field K),
    length sh = 2%nat -> om <> 0 -> k <> 0 -> cyl_nondegenerate sh we wh rmin eps ->
    let N := prodl sh in
    is_cyl_mode sh (t_int we rmin) (t_half we wh rmin) we wh om (k / rmin) (unvec sh eps) (unvec sh e) h ->
    veq (2 * N) (mv (2 * N) (cylindrical_operator sh om (we, wh) eps rmin) e) (fun q => k / rmin * (k / rmin) * e q) /\
    forall c i, (c < 3)%nat -> inb sh i -> h c i = - unvec sh (mv (3 * N) (cyl_e2h sh k om (we, wh) rmin None) e) c i.
Proof.
  intros K sh we wh om k rmin eps e h HL Hom Hk Nd N M. split.
  - exact (mode_eigv K sh we wh om k rmin eps HL Hom Hk Nd e h M).
  - exact (e2h_faraday K sh we wh om k rmin eps HL Hom Nd e h (proj1 M)).
Qed.
Print Assumptions C45_mode_gives_eigenvector.

(** ** C75: exy2e *)
(** On the transverse part of a mode, exy2e returns e_z with this error
    (H_x differs in the two rows above and below the cell whenever the mode
    varies along y). *)
Theorem C75_exy2e_error :
  forall (K : CFld) (sh : list nat) (we wh : widths K) (om k rmin : K) (eps e_xy : vect K) (e h : field K),
    length sh = 2%nat -> om <> 0 -> k <> 0 -> cyl_nondegenerate sh we wh rmin eps ->
    let N := prodl sh in
    is_cyl_mode sh (t_int we rmin) (t_half we wh rmin) we wh om (k / rmin) (unvec sh eps) e h ->
    (forall c i, (c < 2)%nat -> inb sh i -> unvec sh e_xy c i = e c i) ->
    forall i, inb sh i ->
      let e' := unvec sh (mv (2 * N) (cyl_exy2e sh k om (we, wh) rmin eps) e_xy) in
      e' 0%nat i = e 0%nat i /\ e' 1%nat i = e 1%nat i /\
      im * om * (unvec sh eps 2%nat i * (e' 2%nat i - e 2%nat i))
      = (1 - t_half we wh rmin (coord i 0) / t_int we rmin (coord i 0)) * diff_prev sh (Some wh) 1 (h 0%nat) i.
Proof.
  intros K sh we wh om k rmin eps x e h HL Hom Hk Nd N M X i Hi e'.
  pose proof (cna K sh we wh rmin eps Nd) as A. pose proof (cnb K sh we wh rmin eps Nd) as B.
  split; [|split].
  - rewrite <- (X 0%nat i ltac:(lia) Hi). refine (cyl_exy2e_xy K sh we wh (t_int we rmin) (t_half we wh rmin) _ _ _ _ 0 i _ Hi). lia.
  - rewrite <- (X 1%nat i ltac:(lia) Hi). refine (cyl_exy2e_xy K sh we wh (t_int we rmin) (t_half we wh rmin) _ _ _ _ 1 i _ Hi). lia.
  - refine (cyl_exy2e_error K sh HL we wh (t_int we rmin) (t_half we wh rmin) _ _ _ _ e h A B Hom _ _ M (fun i => X 0%nat i ltac:(lia)) (fun i => X 1%nat i ltac:(lia)) i Hi).
    + exact (cb K sh we wh k rmin eps Hk Nd).
    + intros j Hj. apply (proj2 (proj2 Nd)). pose proof (ravel_lt _ _ Hj). lia.
Qed.
Print Assumptions C75_exy2e_error.

(** So exy2e is right where the mode does not vary along y (in particular on
    grids with a single row). *)
Theorem C75_exy2e_single_row :
  forall (K : CFld) (sh : list nat) (we wh : widths K) (om k rmin : K) (eps e_xy : vect K) (e h : field K),
    length sh = 2%nat -> om <> 0 -> k <> 0 -> cyl_nondegenerate sh we wh rmin eps -> dim sh 1 = 1%nat ->
    let N := prodl sh in
    is_cyl_mode sh (t_int we rmin) (t_half we wh rmin) we wh om (k / rmin) (unvec sh eps) e h ->
    (forall c i, (c < 2)%nat -> inb sh i -> unvec sh e_xy c i = e c i) ->
    forall c i, (c < 3)%nat -> inb sh i ->
      unvec sh (mv (2 * N) (cyl_exy2e sh k om (we, wh) rmin eps) e_xy) c i = e c i /\
      - unvec sh (mv (2 * N) (cyl_exy2h sh k om (we, wh) rmin eps None) e_xy) c i = h c i.
Proof.
  intros K sh we wh om k rmin eps x e h HL Hom Hk Nd D1 N M X.
  assert (E : forall c i, (c < 3)%nat -> inb sh i -> unvec sh (mv (2 * N) (cyl_exy2e sh k om (we, wh) rmin eps) x) c i = e c i).
  { intros c i Hc Hi. destruct (C75_exy2e_error K sh we wh om k rmin eps x e h HL Hom Hk Nd M X i Hi) as (E0 & E1 & E2). cbv zeta in *. to_model.
    destruct c as [|[|[|c]]]; [exact E0|exact E1| |lia].
    assert (Z : deriv_back sh (Some wh) 1 (h 0%nat) i = 0).
    { unfold deriv_back, roll. pose proof (inb_coord sh i 1 Hi ltac:(lia)) as C. rewrite D1 in C.
      replace (shift_ix sh 1 (- (1)) i) with i; [apply cyl_sub0|]. unfold shift_ix. rewrite D1.
      assert (Cy : cyc 1 (- (1)) (coord i 1) = coord i 1) by (assert (Q : coord i 1 = 0%nat) by lia; rewrite Q; reflexivity).
      rewrite Cy. symmetry. apply upd_coord. }
    rewrite Z in E2. apply (fsub_eq0 K). apply (cyl_cancel K om (unvec sh eps 2%nat i)); [exact Hom| |exact (eq_trans E2 (cyl_mul0 K _))].
    apply (proj2 (proj2 Nd)). pose proof (ravel_lt _ _ Hi). lia. }
  intros c i Hc Hi. split; [now apply E|].
  assert (M' : is_cyl_mode sh (t_int we rmin) (t_half we wh rmin) we wh om (k / rmin) (unvec sh eps)
      (unvec sh (mv (2 * N) (cyl_exy2e sh k om (we, wh) rmin eps) x)) h).
  { apply (mode_equiv K sh HL we wh _ _ (cna K sh we wh rmin eps Nd) (cnb K sh we wh rmin eps Nd)).
    apply (mode_equiv K sh HL we wh _ _ (cna K sh we wh rmin eps Nd) (cnb K sh we wh rmin eps Nd)) in M.
    refine (mode_ext K sh we wh om k rmin HL _ _ _ _ _ _ M _ _); intros c' i' Hc' Hi'; [|reflexivity]. unfold lift. now rewrite E. }
  destruct (C45_mode_gives_eigenvector K sh we wh om k rmin eps _ h HL Hom Hk Nd M') as [_ H2]. rewrite (H2 c i Hc Hi).
  unfold cyl_exy2h, unvec. now rewrite mv_mm.
Qed.
Print Assumptions C75_exy2e_single_row.

(** A 1 x 2 grid of unit cells with rmin = 1 (radii 2 and 5/2): e_y = (1, -1)
    is an eigenvector with wavenumber 3 at omega = 5/2. *)
Definition cx_sh : list nat := [1; 2]%nat.
Definition cx_w : widths GQC := fun _ _ => gz 1 0.
Definition cx_om : GQC := gq 5 2 0 1.
Definition cx_k : GQC := gz 3 0.
Definition cx_rmin : GQC := gz 1 0.
Definition cx_eps : vect GQC := fun _ => gz 1 0.
Definition cx_e : vect GQC := fun q => match q with 2%nat => gz 1 0 | 3%nat => gz (-1) 0 | _ => gz 0 0 end.
(** The mode: e_z = 4 i (e_y upwards difference), h_x, h_y = 0, h_z. *)
Lemma cx_nd : cyl_nondegenerate cx_sh cx_w cx_w cx_rmin cx_eps.
Proof.
  split; [vm_compute; discriminate|]. split.
  - intros m Hm. assert (m = 0%nat) as -> by (cbn in Hm; lia). split; vm_compute; discriminate.
  - intros q _. vm_compute. discriminate.
Qed.
Lemma cx_cells i : inb cx_sh i -> i = [0; 0]%nat \/ i = [0; 1]%nat.
Proof.
  intro H. inversion H as [|x n l' l0 A B]; subst. inversion B as [|y n2 l2 l3 C D]; subst. inversion D; subst.
  assert (x = 0)%nat by lia. subst. assert (y = 0 \/ y = 1)%nat as [->| ->] by lia; [now left|now right].
Qed.
Lemma cx_eig : veq (2 * prodl cx_sh) (mv (2 * prodl cx_sh) (cylindrical_operator cx_sh cx_om (cx_w, cx_w) cx_eps cx_rmin) cx_e)
  (fun q => cx_k / cx_rmin * (cx_k / cx_rmin) * cx_e q).
Proof.
  intros q Hq. cbn in Hq. assert (q = 0 \/ q = 1 \/ q = 2 \/ q = 3)%nat as [-> |[-> |[-> | ->]]] by lia; gq_refl.
Qed.
Lemma cx_nz : cx_om <> 0 /\ cx_k <> 0.
Proof. split; vm_compute; discriminate. Qed.
Example C45_example :
  length cx_sh = 2%nat /\ cx_om <> 0 /\ cx_k <> 0 /\ cyl_nondegenerate cx_sh cx_w cx_w cx_rmin cx_eps /\
  veq (2 * prodl cx_sh) (mv (2 * prodl cx_sh) (cylindrical_operator cx_sh cx_om (cx_w, cx_w) cx_eps cx_rmin) cx_e)
    (fun q => cx_k / cx_rmin * (cx_k / cx_rmin) * cx_e q).
Proof. destruct cx_nz as [A B]. repeat (split; [first [reflexivity|exact A|exact B|exact cx_nd]|]). exact cx_eig. Qed.

(** Expected: exy2e and exy2h of an eigenvector solve the curl equations. *)
Theorem C75_exy2e_gives_mode_refuted :
  exists (sh : list nat) (we wh : widths GQC) (om k rmin : GQC) (eps e_xy : vect GQC),
    length sh = 2%nat /\ om <> 0 /\ k <> 0 /\ cyl_nondegenerate sh we wh rmin eps /\
    veq (2 * prodl sh) (mv (2 * prodl sh) (cylindrical_operator sh om (we, wh) eps rmin) e_xy)
      (fun q => k / rmin * (k / rmin) * e_xy q) /\
    forall h : field GQC, ~ is_cyl_mode sh (t_int we rmin) (t_half we wh rmin) we wh om (k / rmin) (unvec sh eps)
      (unvec sh (mv (2 * prodl sh) (cyl_exy2e sh k om (we, wh) rmin eps) e_xy)) h.
Proof.
  exists cx_sh, cx_w, cx_w, cx_om, cx_k, cx_rmin, cx_eps, cx_e. destruct cx_nz as [A B].
  split; [reflexivity|]. split; [exact A|]. split; [exact B|]. split; [exact cx_nd|]. split; [exact cx_eig|].
  intros h M.
  destruct (C75_exy2e_error GQC cx_sh cx_w cx_w cx_om cx_k cx_rmin cx_eps cx_e _ h eq_refl A B cx_nd M) with (i := [0; 0]%nat) as (_ & _ & E).
  - intros c i Hc Hi. symmetry. refine (cyl_exy2e_xy GQC cx_sh cx_w cx_w (t_int cx_w cx_rmin) (t_half cx_w cx_w cx_rmin) _ _ _ _ c i Hc Hi).
  - repeat constructor.
  - cbv zeta in E. rewrite cyl_zero in E. apply eq_sym in E.
    assert (H0 : h 0%nat [0; 0]%nat = h 0%nat [0; 1]%nat).
    { refine (cyl_diff0 GQC _ _ _ _ _ _ E); vm_compute; discriminate. }
    destruct M as [_ M2].
    assert (Q : forall i, inb cx_sh i -> im * cx_om * (gz 1 0 * unvec cx_sh cx_e 1%nat i) = - im * (cx_k / cx_rmin) / gz 2 0 * h 0%nat i).
    { intros i Hi. destruct (M2 i Hi) as (_ & M1 & _). cbv zeta in M1. to_model.
      assert (Z : deriv_back cx_sh (Some cx_w) 0 (fun j => t_half cx_w cx_w cx_rmin (coord j 0) * h 2%nat j) i = 0).
      { unfold deriv_back, roll. replace (shift_ix cx_sh 0 (- (1)) i) with i; [apply cyl_sub0|]. destruct (cx_cells i Hi) as [-> | ->]; reflexivity. }
      rewrite Z, cyl_sub1 in M1.
      replace (gz 2 0) with (t_int cx_w cx_rmin (coord i 0)) by (destruct (cx_cells i Hi) as [-> | ->]; gq_refl).
      rewrite <- M1. f_equal. f_equal. symmetry.
      refine (cyl_exy2e_xy GQC cx_sh cx_w cx_w (t_int cx_w cx_rmin) (t_half cx_w cx_w cx_rmin) (cx_k / cx_rmin) cx_om cx_eps cx_e 1 i _ Hi). lia. }
    pose proof (Q [0; 0]%nat ltac:(repeat constructor)) as Q0. pose proof (Q [0; 1]%nat ltac:(repeat constructor)) as Q1.
    rewrite H0, <- Q1 in Q0. clear -Q0. vm_compute in Q0. discriminate Q0.
Qed.
Print Assumptions C75_exy2e_gives_mode_refuted.
