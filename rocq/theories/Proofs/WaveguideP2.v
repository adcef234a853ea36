From Coq Require Import List Arith ZArith Lia Bool Field.
From Verif.Lib Require Import Num Sums Idx Mat.
From Verif.Model Require Import Fdmath Fdfd Waveguide2d.
From Verif.Spec Require Import Yee WaveguideSpec.
From Verif.Proofs Require Import FdmathP FdfdP FdfdP2 WaveguideP.
Import ListNotations.
Local Open Scope fld_scope.

Section Parts.
  Variable K : Fld.
  Add Field Kfield : (fth K).
  Implicit Types (A B : mat K) (x : vect K).

  Lemma mv_hstack2p n A B x r : mv (2 * n) (hstack2 n A B) x r = mv n A (part n x 0) r + mv n B (part n x 1) r.
  Proof.
    rewrite mv_hstack2. f_equal; apply mv_ext_v; intros j Hj; unfold part; f_equal; lia.
  Qed.
  Lemma part_vstack2 rn n A B x c p : (c < 2)%nat -> (p < rn)%nat ->
    part rn (mv n (vstack2 rn A B) x) c p = match c with 0%nat => mv n A x p | _ => mv n B x p end.
  Proof.
    intros Hc Hp. unfold part. rewrite mv_vstack2. destruct c as [|[|c]]; [| |lia].
    - destruct (Nat.ltb_spec (0 * rn + p) rn); [reflexivity|lia].
    - destruct (Nat.ltb_spec (1 * rn + p) rn); [lia|]. f_equal. lia.
  Qed.
  Lemma part_vcat n (a b : vect K) c p : (c < 2)%nat -> (p < n)%nat ->
    part n (vcat n a b) c p = match c with 0%nat => a p | _ => b p end.
  Proof.
    intros Hc Hp. unfold part. destruct c as [|[|c]]; [| |lia].
    - now apply vcat_l.
    - replace (1 * n + p)%nat with (n + p)%nat by lia. apply vcat_r.
  Qed.
  Lemma part_diag2 n (a b : vect K) x c p : (c < 2)%nat -> (p < n)%nat ->
    part n (mv (2 * n) (mdiag (vcat n a b)) x) c p = match c with 0%nat => a p | _ => b p end * part n x c p.
  Proof.
    intros Hc Hp. rewrite <- (part_vcat n a b c p Hc Hp). unfold part.
    rewrite mv_mdiag; [reflexivity|]. destruct c as [|[|c]]; lia.
  Qed.
  Lemma part_top n A x c p : (c < 2)%nat -> (p < n)%nat ->
    part n (mv (2 * n) (vstack2 (2 * n) mid A) x) c p = part n x c p.
  Proof.
    intros Hc Hp. unfold part. rewrite mv_vstack2.
    assert (c * n + p < 2 * n)%nat by (destruct c as [|[|c]]; lia).
    destruct (Nat.ltb_spec (c * n + p) (2 * n)); [|lia]. now apply mv_mid.
  Qed.
  Lemma part_bot n m A B x p : part n (mv m (vstack2 (2 * n) A B) x) 2 p = mv m B x p.
  Proof.
    unfold part. rewrite mv_vstack2. destruct (Nat.ltb_spec (2 * n + p) (2 * n)); [lia|]. f_equal. lia.
  Qed.

  Lemma dfm sh w a x i : (a < length sh)%nat -> inb sh i ->
    mv (prodl sh) (deriv_forward_mat sh w a) x (ravel sh i) = deriv_forward sh (Some w) a (fun j => x (ravel sh j)) i.
  Proof.
    intros Ha Hi. rewrite mv_deriv_forward by (try apply ravel_lt; assumption).
    unfold sflat, deriv_forward, roll. rewrite unravel_ravel by exact Hi. reflexivity.
  Qed.
  Lemma dbm sh w a x i : (a < length sh)%nat -> inb sh i ->
    mv (prodl sh) (deriv_back_mat sh w a) x (ravel sh i) = deriv_back sh (Some w) a (fun j => x (ravel sh j)) i.
  Proof.
    intros Ha Hi. rewrite mv_deriv_back by (try apply ravel_lt; assumption).
    unfold sflat, deriv_back, roll. rewrite unravel_ravel by exact Hi. reflexivity.
  Qed.
  (** Pointwise equality on the grid as equality of parts. *)
  Lemma veq_parts n nb x y : (forall c p, (c < nb)%nat -> (p < n)%nat -> part n x c p = part n y c p) <-> veq (nb * n) x y.
  Proof.
    split; intro H.
    - intros q Hq. destruct (Nat.eq_dec n 0) as [->|Hn]; [lia|].
      rewrite (Nat.div_mod q n Hn), (Nat.mul_comm n). apply H.
      + apply Nat.div_lt_upper_bound; lia.
      + now apply Nat.mod_upper_bound.
    - intros c p Hc Hp. apply H. nia.
  Qed.
  Lemma veq_unvec sh nb x y : (forall c i, (c < nb)%nat -> inb sh i -> unvec sh x c i = unvec sh y c i) <-> veq (nb * prodl sh) x y.
  Proof.
    rewrite <- veq_parts. split; intros H c p Hc Hp.
    - specialize (H c (unravel sh p) Hc (inb_unravel _ _ Hp)). unfold unvec in H. rewrite ravel_unravel in H by exact Hp. exact H.
    - apply H; [exact Hc|now apply ravel_lt].
  Qed.
End Parts.

Section Conc.
  Variable K : CFld.
  Add Field Kfield2 : (fth K).
  Variable sh : list nat.
  Hypothesis HL : length sh = 2%nat.
  Variables we wh : widths K.
  Let N := prodl sh.
  Notation Fx := (deriv_forward sh (Some we) 0). Notation Fy := (deriv_forward sh (Some we) 1).
  Notation Bx := (deriv_back sh (Some wh) 0). Notation By := (deriv_back sh (Some wh) 1).

  Lemma lin_f a : (a < 2)%nat -> lin K (inb sh) (deriv_forward sh (Some we) a).
  Proof.
    intro Ha. split.
    - intros f g p H Hp. apply deriv_forward_ext; [lia|exact Hp|exact H].
    - intros. now rewrite deriv_forward_add, !deriv_forward_scale.
  Qed.
  Lemma lin_b a : (a < 2)%nat -> lin K (inb sh) (deriv_back sh (Some wh) a).
  Proof.
    intro Ha. split.
    - intros f g p H Hp. apply deriv_back_ext; [lia|exact Hp|exact H].
    - intros. now rewrite deriv_back_add, !deriv_back_scale.
  Qed.
  Lemma comm_f f p : inb sh p -> Fx (Fy f) p = Fy (Fx f) p.
  Proof. intros _. apply deriv_forward_comm. lia. Qed.
  Lemma comm_b f p : inb sh p -> Bx (By f) p = By (Bx f) p.
  Proof. intros _. apply deriv_back_comm. lia. Qed.

  Lemma dfN a x i : (a < 2)%nat -> inb sh i ->
    mv N (deriv_forward_mat sh we a) x (ravel sh i) = deriv_forward sh (Some we) a (fun j => x (ravel sh j)) i.
  Proof. intros Ha Hi. apply dfm; [lia|exact Hi]. Qed.
  Lemma dbN a x i : (a < 2)%nat -> inb sh i ->
    mv N (deriv_back_mat sh wh a) x (ravel sh i) = deriv_back sh (Some wh) a (fun j => x (ravel sh j)) i.
  Proof. intros Ha Hi. apply dbm; [lia|exact Hi]. Qed.

  Lemma unvec_part (x : vect K) c i : unvec sh x c i = part N x c (ravel sh i).
  Proof. reflexivity. Qed.

End Conc.

(** Both eigenoperators have the same structure. *)
Section Op.
  Variable K : CFld.
  Add Field Kfield3 : (fth K).
  Variable sh : list nat.
  Let N := prodl sh.
  Variables MFx MFy MBx MBy : mat K.
  Variables Fx Fy Bx By : arr K -> arr K.
  Notation act M D := (forall x i, inb sh i -> mv N M x (ravel sh i) = D (fun j => x (ravel sh j)) i).
  Hypothesis AFx : act MFx Fx. Hypothesis AFy : act MFy Fy.
  Hypothesis ABx : act MBx Bx. Hypothesis ABy : act MBy By.
  Hypothesis LFx : lin K (inb sh) Fx. Hypothesis LFy : lin K (inb sh) Fy.
  Hypothesis LBx : lin K (inb sh) Bx. Hypothesis LBy : lin K (inb sh) By.
  Variables (om : K) (eps m x : vect K).
  Let ex := unvec sh x 0%nat. Let ey := unvec sh x 1%nat.
  Let epx := unvec sh eps 0%nat. Let epy := unvec sh eps 1%nat. Let epz := unvec sh eps 2%nat.
  Let mux := unvec sh m 0%nat. Let muy := unvec sh m 1%nat. Let muz := unvec sh m 2%nat.

  Definition wg_op : mat K :=
    let eps_xy := mdiag (vcat N (part N eps 0) (part N eps 1)) in
    let eps_z_inv := mdiag (fun p => 1 / part N eps 2 p) in
    let mu_yx := mdiag (vcat N (part N m 1) (part N m 0)) in
    let mu_z_inv := mdiag (fun p => 1 / part N m 2 p) in
    madd (madd
      (mm (2 * N) (mscale (om * om) mu_yx) eps_xy)
      (mm N (mm N (mm (2 * N) mu_yx (vstack2 N (mopp MBy) MBx)) mu_z_inv) (hstack2 N (mopp MFy) MFx)))
      (mm (2 * N) (mm N (mm N (vstack2 N MFx MFy) eps_z_inv) (hstack2 N MBx MBy)) eps_xy).

  Lemma dive_row i : inb sh i ->
    mv (2 * N) (hstack2 N MBx MBy) (mv (2 * N) (mdiag (vcat N (part N eps 0) (part N eps 1))) x) (ravel sh i)
    = Bx (fun j => epx j * ex j) i + By (fun j => epy j * ey j) i.
  Proof using ABx ABy LBx LBy.
    intro Hi. rewrite mv_hstack2p, ABx, ABy by exact Hi.
    f_equal; [apply (proj1 LBx)|apply (proj1 LBy)]; try exact Hi; intros j Hj;
      rewrite part_diag2 by (first [now apply ravel_lt|repeat constructor]); reflexivity.
  Qed.
  Lemma curl_row i : inb sh i ->
    mv (2 * N) (hstack2 N (mopp MFy) MFx) x (ravel sh i) = Fx ey i - Fy ex i.
  Proof using AFx AFy.
    intro Hi. rewrite mv_hstack2p, mv_mopp, AFx, AFy by exact Hi.
    change (- Fy ex i + Fx ey i = Fx ey i - Fy ex i). ring.
  Qed.

  Lemma wg_op_act c i : (c < 2)%nat -> inb sh i ->
    unvec sh (mv (2 * N) wg_op x) c i
    = match c with
      | 0%nat => opx K Fx Fy Bx By om ex ey epx epy epz muy muz i
      | _ => opy K Fx Fy Bx By om ex ey epx epy epz mux muz i
      end.
  Proof.
    intros Hc Hi. pose proof (ravel_lt _ _ Hi) as Hp.
    change (part N (mv (2 * N) wg_op x) c (ravel sh i) = match c with
      | 0%nat => opx K Fx Fy Bx By om ex ey epx epy epz muy muz i
      | _ => opy K Fx Fy Bx By om ex ey epx epy epz mux muz i
      end).
    unfold wg_op. cbv zeta.
    unfold part at 1. rewrite !mv_madd, !mv_mm, mv_mscale.
    match goal with |- om * om * ?a + ?b + ?d = _ =>
      change a with (part N (mv (2 * N) (mdiag (vcat N (part N m 1) (part N m 0)))
                 (mv (2 * N) (mdiag (vcat N (part N eps 0) (part N eps 1))) x)) c (ravel sh i));
      change b with (part N (mv (2 * N) (mdiag (vcat N (part N m 1) (part N m 0)))
         (mv N (vstack2 N (mopp MBy) MBx)
            (mv N (mdiag (fun p => 1 / part N m 2 p))
               (mv (2 * N) (hstack2 N (mopp MFy) MFx) x)))) c (ravel sh i));
      change d with (part N (mv N (vstack2 N MFx MFy)
            (mv N (mdiag (fun p => 1 / part N eps 2 p))
               (mv (2 * N) (hstack2 N MBx MBy)
                  (mv (2 * N) (mdiag (vcat N (part N eps 0) (part N eps 1))) x)))) c (ravel sh i))
    end.
    rewrite !part_diag2, !part_vstack2 by assumption.
    assert (Cz : forall j, inb sh j -> mv N (mdiag (fun p => 1 / part N m 2 p))
               (mv (2 * N) (hstack2 N (mopp MFy) MFx) x) (ravel sh j) = curlz K Fx Fy ex ey muz j).
    { intros j Hj. rewrite mv_mdiag by (now apply ravel_lt). now rewrite curl_row. }
    assert (Dz : forall j, inb sh j -> mv N (mdiag (fun p => 1 / part N eps 2 p))
               (mv (2 * N) (hstack2 N MBx MBy)
                  (mv (2 * N) (mdiag (vcat N (part N eps 0) (part N eps 1))) x)) (ravel sh j)
            = divz K Bx By ex ey epx epy epz j).
    { intros j Hj. rewrite mv_mdiag by (now apply ravel_lt). now rewrite dive_row. }
    destruct c as [|[|c]]; [| |lia].
    - rewrite mv_mopp, ABy, AFx by exact Hi.
      rewrite (proj1 LBy _ _ i Cz Hi), (proj1 LFx _ _ i Dz Hi).
      unfold opx. change (part N m 1 (ravel sh i)) with (muy i). change (part N x 0 (ravel sh i)) with (ex i).
      change (part N eps 0 (ravel sh i)) with (epx i). ring.
    - rewrite ABx, AFy by exact Hi.
      rewrite (proj1 LBx _ _ i Cz Hi), (proj1 LFy _ _ i Dz Hi).
      unfold opy. change (part N m 0 (ravel sh i)) with (mux i). change (part N x 1 (ravel sh i)) with (ey i).
      change (part N eps 1 (ravel sh i)) with (epy i). ring.
  Qed.

  Lemma wg_eig_iff beta :
    veq (2 * N) (mv (2 * N) wg_op x) (fun q => beta * beta * x q)
    <-> eig K (inb sh) Fx Fy Bx By om beta ex ey epx epy epz mux muy muz.
  Proof.
    unfold N. rewrite <- veq_unvec. split.
    - intros H i Hi. split.
      + rewrite <- (wg_op_act 0 i) by (try lia; exact Hi). apply (H 0%nat i); [lia|exact Hi].
      + rewrite <- (wg_op_act 1 i) by (try lia; exact Hi). apply (H 1%nat i); [lia|exact Hi].
    - intros H c i Hc Hi. fold N. rewrite wg_op_act by assumption. destruct (H i Hi) as (H1 & H2).
      destruct c as [|[|c]]; [exact H1|exact H2|lia].
  Qed.
End Op.

Section Conc2.
  Variable K : CFld.
  Add Field Kfield4 : (fth K).
  Variable sh : list nat.
  Hypothesis HL : length sh = 2%nat.
  Variables we wh : widths K.
  Let N := prodl sh.
  Notation Fx := (deriv_forward sh (Some we) 0). Notation Fy := (deriv_forward sh (Some we) 1).
  Notation Bx := (deriv_back sh (Some wh) 0). Notation By := (deriv_back sh (Some wh) 1).

  (** ones for a missing mu *)
  Lemma operator_e_ones om eps mu : operator_e sh om (we, wh) eps mu = operator_e sh om (we, wh) eps (Some (or_ones mu)).
  Proof. destruct mu; reflexivity. Qed.
  Lemma operator_h_ones om eps mu : operator_h sh om (we, wh) eps mu = operator_h sh om (we, wh) eps (Some (or_ones mu)).
  Proof. destruct mu; reflexivity. Qed.

  Lemma operator_e_eig om beta eps mu x : let m := or_ones mu in
    veq (2 * N) (mv (2 * N) (operator_e sh om (we, wh) eps mu) x) (fun q => beta * beta * x q)
    <-> eig K (inb sh) Fx Fy Bx By om beta (unvec sh x 0%nat) (unvec sh x 1%nat)
          (unvec sh eps 0%nat) (unvec sh eps 1%nat) (unvec sh eps 2%nat)
          (unvec sh m 0%nat) (unvec sh m 1%nat) (unvec sh m 2%nat).
  Proof.
    cbv zeta.
    refine (wg_eig_iff K sh (deriv_forward_mat sh we 0) (deriv_forward_mat sh we 1) (deriv_back_mat sh wh 0) (deriv_back_mat sh wh 1)
      Fx Fy Bx By _ _ _ _ _ _ _ _ om eps (or_ones mu) x beta).
    all: try (intros y i Hi; first [apply dfN|apply dbN]; [exact HL|lia|exact Hi]).
    all: first [apply lin_f|apply lin_b]; [exact HL|lia].
  Qed.
  Lemma operator_h_eig om beta eps mu x : let m := or_ones mu in
    veq (2 * N) (mv (2 * N) (operator_h sh om (we, wh) eps mu) x) (fun q => beta * beta * x q)
    <-> eig K (inb sh) Bx By Fx Fy (- om) beta (unvec sh x 0%nat) (unvec sh x 1%nat)
          (unvec sh m 0%nat) (unvec sh m 1%nat) (unvec sh m 2%nat)
          (unvec sh eps 0%nat) (unvec sh eps 1%nat) (unvec sh eps 2%nat).
  Proof.
    cbv zeta.
    pose proof (fun A1 A2 A3 A4 A5 A6 A7 A8 =>
      wg_eig_iff K sh (deriv_back_mat sh wh 0) (deriv_back_mat sh wh 1) (deriv_forward_mat sh we 0) (deriv_forward_mat sh we 1)
      Bx By Fx Fy A1 A2 A3 A4 A5 A6 A7 A8 om (or_ones mu) eps x beta) as W.
    assert (E : forall e1 e2 e3 m1 m2 m3,
      eig K (inb sh) Bx By Fx Fy (- om) beta (unvec sh x 0%nat) (unvec sh x 1%nat) e1 e2 e3 m1 m2 m3
      <-> eig K (inb sh) Bx By Fx Fy om beta (unvec sh x 0%nat) (unvec sh x 1%nat) e1 e2 e3 m1 m2 m3).
    { intros. unfold eig, opx, opy.
      assert (Q : - om * - om = om * om) by ring. rewrite Q. reflexivity. }
    rewrite E. apply W; clear W E.
    all: try (intros y i Hi; first [apply dfN|apply dbN]; [exact HL|lia|exact Hi]).
    all: first [apply lin_f|apply lin_b]; [exact HL|lia].
  Qed.

  (** ** exy2e, hxy2h *)
  Lemma exy2e_xy beta eps x c i : (c < 2)%nat -> inb sh i ->
    unvec sh (mv (2 * N) (exy2e sh beta (we, wh) eps) x) c i = unvec sh x c i.
  Proof. intros Hc Hi. apply (part_top K N); [exact Hc|now apply ravel_lt]. Qed.
  Lemma exy2e_z beta eps x i : inb sh i ->
    unvec sh (mv (2 * N) (exy2e sh beta (we, wh) eps) x) 2%nat i
    = 1 / unvec sh eps 2%nat i * (1 / (im * beta) *
        (Bx (fun j => unvec sh eps 0%nat j * unvec sh x 0%nat j) i + By (fun j => unvec sh eps 1%nat j * unvec sh x 1%nat j) i)).
  Proof.
    intros Hi.
    change (part N (mv (2 * N) (exy2e sh beta (we, wh) eps) x) 2 (ravel sh i)
      = 1 / unvec sh eps 2%nat i * (1 / (im * beta) *
        (Bx (fun j => unvec sh eps 0%nat j * unvec sh x 0%nat j) i + By (fun j => unvec sh eps 1%nat j * unvec sh x 1%nat j) i))).
    unfold exy2e. cbv zeta. cbn [fst snd]. fold N. rewrite part_bot, !mv_mm, mv_mdiag by (now apply ravel_lt).
    rewrite mv_mscale. unfold N. rewrite (dive_row K sh _ _ Bx By); try reflexivity; try exact Hi.
    all: try (intros y j Hj; apply dbN; [exact HL|lia|exact Hj]).
    all: apply lin_b; [exact HL|lia].
  Qed.
  Lemma hxy2h_xy beta mu x c i : (c < 2)%nat -> inb sh i ->
    unvec sh (mv (2 * N) (hxy2h sh beta (we, wh) mu) x) c i = unvec sh x c i.
  Proof. intros Hc Hi. apply (part_top K N); [exact Hc|now apply ravel_lt]. Qed.
  Lemma hxy2h_z beta mu x i : let m := or_ones mu in beta <> 0 -> inb sh i ->
    unvec sh (mv (2 * N) (hxy2h sh beta (we, wh) mu) x) 2%nat i
    = 1 / unvec sh m 2%nat i * (1 / (im * beta) *
        (Fx (fun j => unvec sh m 0%nat j * unvec sh x 0%nat j) i + Fy (fun j => unvec sh m 1%nat j * unvec sh x 1%nat j) i)).
  Proof.
    intros m Hb Hi.
    change (part N (mv (2 * N) (hxy2h sh beta (we, wh) mu) x) 2 (ravel sh i)
      = 1 / unvec sh m 2%nat i * (1 / (im * beta) *
        (Fx (fun j => unvec sh m 0%nat j * unvec sh x 0%nat j) i + Fy (fun j => unvec sh m 1%nat j * unvec sh x 1%nat j) i))).
    assert (RF : forall y, mv (2 * prodl sh) (hstack2 (prodl sh) (deriv_forward_mat sh we 0) (deriv_forward_mat sh we 1))
        (mv (2 * prodl sh) (mdiag (vcat (prodl sh) (part (prodl sh) y 0) (part (prodl sh) y 1))) x) (ravel sh i)
      = Fx (fun j => unvec sh y 0%nat j * unvec sh x 0%nat j) i + Fy (fun j => unvec sh y 1%nat j * unvec sh x 1%nat j) i).
    { intro y. apply (dive_row K sh _ _ Fx Fy); try exact Hi.
      all: try (intros z j Hj; apply dfN; [exact HL|lia|exact Hj]).
      all: apply lin_f; [exact HL|lia]. }
    unfold hxy2h, m. clear m. cbv zeta. cbn [fst snd]. fold N. rewrite part_bot. destruct mu as [mu|]; cbn [or_ones].
    - rewrite !mv_mm, mv_mdiag by (now apply ravel_lt). rewrite mv_mscale. unfold N. rewrite RF. reflexivity.
    - rewrite mv_mscale, mv_hstack2p. unfold N.
      rewrite dfm, dfm by (try rewrite HL; try lia; exact Hi).
      assert (Q : forall j, unvec sh (fun _ : nat => (1 : K)) j = fun _ => 1) by reflexivity. rewrite !Q.
      transitivity (1 / (im * beta) * (Fx (unvec sh x 0%nat) i + Fy (unvec sh x 1%nat) i)); [reflexivity|].
      rewrite (deriv_forward_ext K sh (Some we) 0 (fun j => 1 * unvec sh x 0%nat j) (unvec sh x 0%nat) i) by (try rewrite HL; try lia; try exact Hi; intros; ring).
      rewrite (deriv_forward_ext K sh (Some we) 1 (fun j => 1 * unvec sh x 1%nat j) (unvec sh x 1%nat) i) by (try rewrite HL; try lia; try exact Hi; intros; ring).
      field. splits; first [apply f1nz|apply im_nz|exact Hb].
  Qed.

  (** ** Curls *)
  Lemma curl_e_act beta x c i : (c < 3)%nat -> inb sh i ->
    unvec sh (mv (3 * N) (curl_e sh beta (we, wh)) x) c i
    = match c with
      | 0%nat => Fy (unvec sh x 2%nat) i + im * beta * unvec sh x 1%nat i
      | 1%nat => - im * beta * unvec sh x 0%nat i - Fx (unvec sh x 2%nat) i
      | _ => Fx (unvec sh x 1%nat) i - Fy (unvec sh x 0%nat) i
      end.
  Proof.
    intros Hc Hi. pose proof (ravel_lt _ _ Hi) as Hp. unfold unvec, curl_e. cbn [fst snd]. fold N.
    rewrite mv_cross by assumption. destruct c as [|[|[|c]]]; [| | |lia].
    - rewrite mv_mscale, mv_mid by exact Hp. unfold N. rewrite dfN by (try exact HL; try lia; exact Hi). ring.
    - rewrite mv_mscale, mv_mid by exact Hp. unfold N. rewrite dfN by (try exact HL; try lia; exact Hi). ring.
    - unfold N. rewrite !dfN by (try exact HL; try lia; exact Hi). reflexivity.
  Qed.
  Lemma curl_h_act beta x c i : (c < 3)%nat -> inb sh i ->
    unvec sh (mv (3 * N) (curl_h sh beta (we, wh)) x) c i
    = match c with
      | 0%nat => By (unvec sh x 2%nat) i + im * beta * unvec sh x 1%nat i
      | 1%nat => - im * beta * unvec sh x 0%nat i - Bx (unvec sh x 2%nat) i
      | _ => Bx (unvec sh x 1%nat) i - By (unvec sh x 0%nat) i
      end.
  Proof.
    intros Hc Hi. pose proof (ravel_lt _ _ Hi) as Hp. unfold unvec, curl_h. cbn [fst snd]. fold N.
    rewrite mv_cross by assumption. destruct c as [|[|[|c]]]; [| | |lia].
    - rewrite mv_mscale, mv_mid by exact Hp. unfold N. rewrite dbN by (try exact HL; try lia; exact Hi). ring.
    - rewrite mv_mscale, mv_mid by exact Hp. unfold N. rewrite dbN by (try exact HL; try lia; exact Hi). ring.
    - unfold N. rewrite !dbN by (try exact HL; try lia; exact Hi). reflexivity.
  Qed.
  Lemma pos3 c i : (c < 3)%nat -> inb sh i -> (c * N + ravel sh i < 3 * N)%nat.
  Proof. intros Hc Hi. pose proof (ravel_lt _ _ Hi). unfold N. nia. Qed.

  Lemma e2h_act beta om mu x c i : (c < 3)%nat -> inb sh i -> om <> 0 ->
    (forall b j, (b < 3)%nat -> inb sh j -> unvec sh (or_ones mu) b j <> 0) ->
    - im * om * (unvec sh (or_ones mu) c i * unvec sh (mv (3 * N) (wg_e2h sh beta om (we, wh) mu) x) c i)
    = unvec sh (mv (3 * N) (curl_e sh beta (we, wh)) x) c i.
  Proof.
    intros Hc Hi Ho Hm. unfold wg_e2h. specialize (Hm c i Hc Hi).
    destruct mu as [m|]; cbn [or_ones] in *.
    - unfold unvec in *. fold N in Hm |- *. rewrite mv_mm, mv_mdiag by (now apply pos3). rewrite mv_mscale.
      field. splits; first [apply im_nz|apply fopp_nz, im_nz|exact Ho|exact Hm].
    - unfold unvec in *. fold N. rewrite mv_mscale. field. splits; first [apply im_nz|apply fopp_nz, im_nz|exact Ho].
  Qed.
  Lemma h2e_act beta om eps x c i : (c < 3)%nat -> inb sh i -> om <> 0 ->
    (forall b j, (b < 3)%nat -> inb sh j -> unvec sh eps b j <> 0) ->
    im * om * (unvec sh eps c i * unvec sh (mv (3 * N) (wg_h2e sh beta om (we, wh) eps) x) c i)
    = unvec sh (mv (3 * N) (curl_h sh beta (we, wh)) x) c i.
  Proof.
    intros Hc Hi Ho Hm. unfold wg_h2e. specialize (Hm c i Hc Hi).
    unfold unvec in *. fold N in Hm |- *. rewrite mv_mm, mv_mdiag by (now apply pos3).
    field. splits; first [apply im_nz|exact Ho|exact Hm].
  Qed.
End Conc2.
