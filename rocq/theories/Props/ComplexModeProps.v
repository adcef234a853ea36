(** Complex wavenumbers in lossless waveguides (waveguide_2d.py:195-261, 846-900). *)
From Coq Require Import List Arith ZArith Lia Bool Reals Lra Psatz.
From Verif.Lib Require Import Num Sums Idx Mat RealF Cexp.
From Verif.Model Require Import Fdmath Fdfd Waveguide2d WaveguideReal Waveguide3d.
From Verif.Spec Require Import Grid Yee WaveguideSpec HarmonicSpec ModeSpec.
From Verif.Proofs Require Import FdmathP FdfdP WaveguideP WaveguideP2 WaveguideP4 GridP ModeFluxP ComplexModeP.
From Verif.Props Require Import WaveguideProps ModeProps Wg3dProps2.
Import ListNotations.
Local Open Scope R_scope.

(** [l] and [x] are an eigenvalue and eigenvector of operator_e: [l] is the square of the wavenumber. *)
Definition eigenpair (sh : list nat) (we wh : widths RF) (om : R) (eps : vect CC) (mu : option (vect CC)) (l : cpx) (x : vect CC) : Prop :=
  (exists q, (q < 2 * prodl sh)%nat /\ x q <> c0) /\
  veq (K := CC) (2 * prodl sh) (mv (2 * prodl sh) (operator_e (K := CC) sh (mkC om 0) (cw we, cw wh) eps mu) x) (fun q => cmul l (x q)).
(** Real, positive media. *)
Definition positive_entries (n : nat) (v : vect CC) : Prop := forall q, (q < n)%nat -> cim (v q) = 0 /\ 0 < cre (v q).
Definition lossless (sh : list nat) (eps : vect CC) (mu : option (vect CC)) : Prop :=
  positive_entries (3 * prodl sh) eps /\ match mu with None => True | Some m => positive_entries (3 * prodl sh) m end.

Lemma lossless_ones sh eps mu : lossless sh eps mu -> positive_entries (3 * prodl sh) (or_ones (K := CC) mu).
Proof. intros [_ H]. destruct mu as [m|]; [exact H|]. intros q Hq. cbn. lra. Qed.
Lemma pe_unvec sh v c i : positive_entries (3 * prodl sh) v -> (c < 3)%nat -> inb sh i -> unvec (K := CC) sh v c i = mkC (cre (unvec (K := CC) sh v c i)) 0 /\ 0 < cre (unvec (K := CC) sh v c i).
Proof.
  intros P Hc Hi. destruct (P _ (q_lt sh c i 3 Hc Hi)) as [A B]. unfold unvec. split; [|exact B].
  apply cpx_ext; [reflexivity|exact A].
Qed.
Lemma pos_real_inv r : r <> 0 -> cdiv c1 (mkC r 0) = mkC (/ r) 0.
Proof. intro H. apply cpx_ext; cbn; unfold cnrm; cbn; field; exact H. Qed.
Lemma posw_nz sh (we wh : widths RF) : length sh = 2%nat -> positive_widths sh we wh -> nzw (K := CC) sh (cw we) /\ nzw (K := CC) sh (cw wh).
Proof. intros HL P. split; intros a i Ha Hi C; apply (f_equal cre) in C; cbn in C; destruct (P a i ltac:(lia) Hi); lra. Qed.
Lemma realw_cw (w : widths RF) : realw (K := CC) (cw w).
Proof. intros a i. apply cpx_ext; [reflexivity|apply Ropp_0]. Qed.

(** operator_e of a lossless medium is a real matrix. *)
Lemma op_conj (sh : list nat) (we wh : widths RF) (om : R) (eps : vect CC) (mu : option (vect CC)) (x : vect CC) c i :
  length sh = 2%nat -> positive_widths sh we wh -> lossless sh eps mu -> (c < 2)%nat -> inb sh i ->
  unvec (K := CC) sh (mv (2 * prodl sh) (operator_e (K := CC) sh (mkC om 0) (cw we, cw wh) eps mu) (fun q => cconj (x q))) c i
  = cconj (unvec (K := CC) sh (mv (2 * prodl sh) (operator_e (K := CC) sh (mkC om 0) (cw we, cw wh) eps mu) x) c i).
Proof.
  intros HL PW LS Hc Hi.
  destruct (posw_nz sh we wh HL PW) as [NE NH]. pose proof (realw_cw we) as RE. pose proof (realw_cw wh) as RH.
  pose proof (lossless_ones _ _ _ LS) as PM. destruct LS as [PE _].
  destruct (operator_e_xy CC sh HL (cw we) (cw wh) (mkC om 0) eps mu x i Hi) as [X Y].
  destruct (operator_e_xy CC sh HL (cw we) (cw wh) (mkC om 0) eps mu (fun q => cconj (x q)) i Hi) as [X' Y'].
  assert (CFw : forall a f j, (a < 2)%nat -> inb sh j -> cconj (deriv_forward (K := CC) sh (Some (cw we)) a f j) = deriv_forward (K := CC) sh (Some (cw we)) a (fun j => cconj (f j)) j)
    by (intros; apply (conj_fwd CC sh HL (cw we) NE RE); assumption).
  assert (CB : forall a f j, (a < 2)%nat -> inb sh j -> cconj (deriv_back (K := CC) sh (Some (cw wh)) a f j) = deriv_back (K := CC) sh (Some (cw wh)) a (fun j => cconj (f j)) j)
    by (intros; apply (conj_bwd CC sh HL (cw wh) NH RH); assumption).
  assert (CE : forall c j, (c < 3)%nat -> inb sh j -> cconj (unvec (K := CC) sh eps c j) = unvec (K := CC) sh eps c j)
    by (intros c' j Hc' Hj; destruct (pe_unvec sh eps c' j PE Hc' Hj) as [-> _]; apply cpx_ext; [reflexivity|apply Ropp_0]).
  assert (CM : forall c j, (c < 3)%nat -> inb sh j -> cconj (unvec (K := CC) sh (or_ones mu) c j) = unvec (K := CC) sh (or_ones mu) c j)
    by (intros c' j Hc' Hj; destruct (pe_unvec sh _ c' j PM Hc' Hj) as [-> _]; apply cpx_ext; [reflexivity|apply Ropp_0]).
  assert (cc_mul : forall a b, cconj (cmul a b) = cmul (cconj a) (cconj b)) by (intros; apply cpx_ext; cbn; ring).
  assert (cc_add : forall a b, cconj (cadd a b) = cadd (cconj a) (cconj b)) by (intros; apply cpx_ext; cbn; ring).
  assert (cc_sub : forall a b, cconj (csub a b) = csub (cconj a) (cconj b)) by (intros; apply cpx_ext; cbn; ring).
  assert (cc_opp : forall a, cconj (copp a) = copp (cconj a)) by (intros; apply cpx_ext; cbn; ring).
  assert (CD : forall v c j, positive_entries (3 * prodl sh) v -> (c < 3)%nat -> inb sh j -> cconj (cdiv c1 (unvec (K := CC) sh v c j)) = cdiv c1 (unvec (K := CC) sh v c j)).
  { intros v c' j P Hc' Hj. destruct (pe_unvec sh v c' j P Hc' Hj) as [A Q]. rewrite A. rewrite pos_real_inv by lra. apply cpx_ext; [reflexivity|apply Ropp_0]. }
  assert (CZ : forall j, inb sh j -> cconj (curlz CC (deriv_forward sh (Some (cw we)) 0) (deriv_forward sh (Some (cw we)) 1) (unvec sh x 0%nat) (unvec sh x 1%nat) (unvec sh (or_ones mu) 2%nat) j)
    = curlz CC (deriv_forward sh (Some (cw we)) 0) (deriv_forward sh (Some (cw we)) 1) (unvec (K := CC) sh (fun q => cconj (x q)) 0%nat) (unvec (K := CC) sh (fun q => cconj (x q)) 1%nat) (unvec sh (or_ones mu) 2%nat) j).
  { intros j Hj. unfold curlz. refine (eq_trans (cc_mul _ _) _). refine (f_equal2 cmul _ _); [apply CD; [exact PM|lia|exact Hj]|].
    refine (eq_trans (cc_sub _ _) _). refine (f_equal2 csub _ _); (apply CFw; [lia|exact Hj]). }
  assert (DZ : forall j, inb sh j -> cconj (divz CC (deriv_back sh (Some (cw wh)) 0) (deriv_back sh (Some (cw wh)) 1) (unvec sh x 0%nat) (unvec sh x 1%nat) (unvec sh eps 0%nat) (unvec sh eps 1%nat) (unvec sh eps 2%nat) j)
    = divz CC (deriv_back sh (Some (cw wh)) 0) (deriv_back sh (Some (cw wh)) 1) (unvec (K := CC) sh (fun q => cconj (x q)) 0%nat) (unvec (K := CC) sh (fun q => cconj (x q)) 1%nat) (unvec sh eps 0%nat) (unvec sh eps 1%nat) (unvec sh eps 2%nat) j).
  { intros j Hj. unfold divz. refine (eq_trans (cc_mul _ _) _). refine (f_equal2 cmul _ _); [apply CD; [exact PE|lia|exact Hj]|].
    refine (eq_trans (cc_add _ _) _). refine (f_equal2 cadd _ _); (rewrite CB by (try lia; exact Hj); apply (deriv_back_ext CC); [lia|exact Hj|]; intros k Hk; refine (eq_trans (cc_mul _ _) _); refine (f_equal2 cmul _ _); [apply CE; [lia|exact Hk]|reflexivity]). }
  destruct c as [|[|c]]; [| |lia].
  + etransitivity; [exact X'|]. etransitivity; [|exact (eq_sym (f_equal cconj X))]. clear X X' Y Y'.
    unfold opx. symmetry. refine (eq_trans (cc_add _ _) _). refine (f_equal2 cadd _ _); [refine (eq_trans (cc_add _ _) _); refine (f_equal2 cadd _ _)|].
    * refine (eq_trans (cc_mul _ _) _). refine (f_equal2 cmul _ _); [refine (eq_trans (cc_mul _ _) _); refine (f_equal2 cmul _ _); [apply cpx_ext; cbn; ring|apply CM; [lia|exact Hi]]|].
      refine (eq_trans (cc_mul _ _) _). refine (f_equal2 cmul _ _); [apply CE; [lia|exact Hi]|reflexivity].
    * refine (eq_trans (cc_mul _ _) _). refine (f_equal2 cmul _ _); [apply CM; [lia|exact Hi]|]. refine (eq_trans (cc_opp _) _). refine (f_equal copp _).
      rewrite CB by (try lia; exact Hi). apply (deriv_back_ext CC); [lia|exact Hi|exact CZ].
    * rewrite CFw by (try lia; exact Hi). apply (deriv_forward_ext CC); [lia|exact Hi|exact DZ].
  + etransitivity; [exact Y'|]. etransitivity; [|exact (eq_sym (f_equal cconj Y))]. clear X X' Y Y'.
    unfold opy. symmetry. refine (eq_trans (cc_add _ _) _). refine (f_equal2 cadd _ _); [refine (eq_trans (cc_add _ _) _); refine (f_equal2 cadd _ _)|].
    * refine (eq_trans (cc_mul _ _) _). refine (f_equal2 cmul _ _); [refine (eq_trans (cc_mul _ _) _); refine (f_equal2 cmul _ _); [apply cpx_ext; cbn; ring|apply CM; [lia|exact Hi]]|].
      refine (eq_trans (cc_mul _ _) _). refine (f_equal2 cmul _ _); [apply CE; [lia|exact Hi]|reflexivity].
    * refine (eq_trans (cc_mul _ _) _). refine (f_equal2 cmul _ _); [apply CM; [lia|exact Hi]|].
      rewrite CB by (try lia; exact Hi). apply (deriv_back_ext CC); [lia|exact Hi|exact CZ].
    * rewrite CFw by (try lia; exact Hi). apply (deriv_forward_ext CC); [lia|exact Hi|exact DZ].
Qed.

(** The conjugate of a solution is a solution: eigenvalues come in conjugate pairs. *)
Theorem C176_conjugate_pairs :
  forall (sh : list nat) (we wh : widths RF) (om : R) (eps : vect CC) (mu : option (vect CC)) (l : cpx) (x : vect CC),
    length sh = 2%nat -> positive_widths sh we wh -> lossless sh eps mu ->
    eigenpair sh we wh om eps mu l x -> eigenpair sh we wh om eps mu (cconj l) (fun q => cconj (x q)).
Proof.
  intros sh we wh om eps mu l x HL PW LS [[q [Hq N]] E]. split.
  - exists q. split; [exact Hq|]. intro C. apply N. apply (f_equal cconj) in C. replace (x q) with (cconj (cconj (x q))) by (apply cpx_ext; cbn; ring). rewrite C. apply cpx_ext; cbn; ring.
  - apply (veq_unvec CC sh 2). intros c i Hc Hi.
    pose proof (proj2 (veq_unvec CC sh 2 _ _) E c i Hc Hi) as Ec.
    refine (eq_trans (op_conj sh we wh om eps mu x c i HL PW LS Hc Hi) _). refine (eq_trans (f_equal cconj Ec) _). unfold unvec. apply cpx_ext; cbn; ring.
Qed.
Print Assumptions C176_conjugate_pairs.


(** Slabs: one cell along x or along y. *)
Lemma slab_form sh we wh om eps mu : length sh = 2%nat -> dim sh 0 = 1%nat \/ dim sh 1 = 1%nat -> lossless sh eps mu ->
  exists A : nat -> arr CC -> arr CC, (forall c, (c < 2)%nat -> slab_comp sh we wh (A c)) /\
    forall (x : vect CC) c i, (c < 2)%nat -> inb sh i ->
      unvec (K := CC) sh (mv (2 * prodl sh) (operator_e (K := CC) sh (mkC om 0) (cw we, cw wh) eps mu) x) c i = A c (unvec (K := CC) sh x c) i.
Proof.
  intros HL D LS.
  pose proof (lossless_ones _ _ _ LS) as PM. destruct LS as [PE _].
  set (ee c i := cre (unvec (K := CC) sh eps c i)). set (mm c i := cre (unvec (K := CC) sh (or_ones mu) c i)).
  assert (EE : forall c i, (c < 3)%nat -> inb sh i -> unvec (K := CC) sh eps c i = mkC (ee c i) 0) by (intros; now apply pe_unvec).
  assert (EP : forall c i, (c < 3)%nat -> inb sh i -> 0 < ee c i) by (intros; now apply pe_unvec).
  assert (ME : forall c i, (c < 3)%nat -> inb sh i -> unvec (K := CC) sh (or_ones mu) c i = mkC (mm c i) 0) by (intros; now apply pe_unvec).
  assert (MP : forall c i, (c < 3)%nat -> inb sh i -> 0 < mm c i) by (intros; now apply pe_unvec).
  clearbody ee mm.
  assert (OB : forall a f i, deriv_back (K := CC) sh (Some (cw wh)) a (fun j => copp (f j)) i = copp (deriv_back (K := CC) sh (Some (cw wh)) a f i)).
  { intros. unfold deriv_back, roll. set (w := cw wh a (coord i a)). set (p := f _). set (r := f (shift_ix _ _ _ _)). clearbody w p r. apply cpx_ext; cbn; unfold Rdiv; ring. }
  destruct D as [D|D].
  - exists (fun c => match c with O => kind1 sh we wh 1 (om * om) (mm 1%nat) (ee 0%nat) (mm 2%nat) | _ => kind2 sh we wh 1 (om * om) (mm 0%nat) (ee 1%nat) (ee 2%nat) end).
    split.
    { intros [|[|c]] Hc; [| |lia]; unfold slab_comp; do 5 eexists; (split; [|split; [|first [left; reflexivity|right; reflexivity]]]; [lia|]); intros i Hi; cbv beta;
        repeat split; first [apply MP|apply EP]; try lia; exact Hi. }
    intros x c i Hc Hi. set (fx := unvec (K := CC) sh x 0%nat). set (fy := unvec (K := CC) sh x 1%nat).
    destruct (operator_e_xy CC sh HL (cw we) (cw wh) (mkC om 0) eps mu x i Hi) as [X Y].
    destruct c as [|[|c]]; [| |lia].
    + refine (eq_trans X _). clear X Y. fold fx fy. unfold kind1. unfold opx. rewrite fwd1 by (try assumption; lia). rewrite (ME 1%nat), (EE 0%nat) by (try lia; exact Hi).
      rewrite (deriv_back_ext CC sh (Some (cw wh)) 1 (curlz _ _ _ _ _ _) (fun j => copp (cmul (mkC (/ mm 2%nat j) 0) (deriv_forward (K := CC) sh (Some (cw we)) 1 fx j))) i);
        [|lia|exact Hi|].
      * rewrite OB. set (X := deriv_back _ _ _ _ i). clearbody X. apply cpx_ext; cbn; ring.
      * intros j Hj. unfold curlz. rewrite fwd1 by (try assumption; lia). rewrite (ME 2%nat) by (try lia; exact Hj).
        pose proof (MP 2%nat j ltac:(lia) Hj). change (fdiv (f := CC) f1) with (cdiv c1). rewrite pos_real_inv by lra. set (X := deriv_forward _ _ _ _ j). clearbody X. apply cpx_ext; cbn; ring.
    + refine (eq_trans Y _). clear X Y. fold fx fy. unfold kind2. unfold opy. rewrite (bwd1 sh _ 0) by (try assumption; lia). rewrite (ME 0%nat), (EE 1%nat) by (try lia; exact Hi).
      rewrite (deriv_forward_ext CC sh (Some (cw we)) 1 (divz _ _ _ _ _ _ _ _) (fun j => cmul (mkC (/ ee 2%nat j) 0) (deriv_back (K := CC) sh (Some (cw wh)) 1 (fun k => cmul (mkC (ee 1%nat k) 0) (fy k)) j)) i);
        [|lia|exact Hi|].
      * fold fy. set (X := deriv_forward _ _ _ _ i). clearbody X. apply cpx_ext; cbn; ring.
      * intros j Hj. unfold divz. rewrite (bwd1 sh _ 0) by (try assumption; lia). rewrite (EE 2%nat) by (try lia; exact Hj).
        rewrite (deriv_back_ext CC sh (Some (cw wh)) 1 (fun j => fmul (unvec (K := CC) sh eps 1%nat j) (fy j)) (fun k => cmul (mkC (ee 1%nat k) 0) (fy k)) j); [|lia|exact Hj|intros k Hk; rewrite (EE 1%nat) by (try lia; exact Hk); reflexivity].
        pose proof (EP 2%nat j ltac:(lia) Hj). change (fdiv (f := CC) f1) with (cdiv c1). rewrite pos_real_inv by lra. set (X := deriv_back _ _ _ _ j). clearbody X. apply cpx_ext; cbn; ring.
  - exists (fun c => match c with O => kind2 sh we wh 0 (om * om) (mm 1%nat) (ee 0%nat) (ee 2%nat) | _ => kind1 sh we wh 0 (om * om) (mm 0%nat) (ee 1%nat) (mm 2%nat) end).
    split.
    { intros [|[|c]] Hc; [| |lia]; unfold slab_comp; do 5 eexists; (split; [|split; [|first [left; reflexivity|right; reflexivity]]]; [lia|]); intros i Hi; cbv beta;
        repeat split; first [apply MP|apply EP]; try lia; exact Hi. }
    intros x c i Hc Hi. set (fx := unvec (K := CC) sh x 0%nat). set (fy := unvec (K := CC) sh x 1%nat).
    destruct (operator_e_xy CC sh HL (cw we) (cw wh) (mkC om 0) eps mu x i Hi) as [X Y].
    destruct c as [|[|c]]; [| |lia].
    + refine (eq_trans X _). clear X Y. fold fx fy. unfold kind2. unfold opx. rewrite (bwd1 sh _ 1) by (try assumption; lia). rewrite (ME 1%nat), (EE 0%nat) by (try lia; exact Hi).
      rewrite (deriv_forward_ext CC sh (Some (cw we)) 0 (divz _ _ _ _ _ _ _ _) (fun j => cmul (mkC (/ ee 2%nat j) 0) (deriv_back (K := CC) sh (Some (cw wh)) 0 (fun k => cmul (mkC (ee 0%nat k) 0) (fx k)) j)) i);
        [|lia|exact Hi|].
      * fold fx. set (X := deriv_forward _ _ _ _ i). clearbody X. apply cpx_ext; cbn; ring.
      * intros j Hj. unfold divz. rewrite (bwd1 sh _ 1) by (try assumption; lia). rewrite (EE 2%nat) by (try lia; exact Hj).
        rewrite (deriv_back_ext CC sh (Some (cw wh)) 0 (fun j => fmul (unvec (K := CC) sh eps 0%nat j) (fx j)) (fun k => cmul (mkC (ee 0%nat k) 0) (fx k)) j); [|lia|exact Hj|intros k Hk; rewrite (EE 0%nat) by (try lia; exact Hk); reflexivity].
        pose proof (EP 2%nat j ltac:(lia) Hj). change (fdiv (f := CC) f1) with (cdiv c1). rewrite pos_real_inv by lra. set (X := deriv_back _ _ _ _ j). clearbody X. apply cpx_ext; cbn; ring.
    + refine (eq_trans Y _). clear X Y. fold fx fy. unfold kind1. unfold opy. rewrite (fwd1 sh _ 1) by (try assumption; lia). rewrite (ME 0%nat), (EE 1%nat) by (try lia; exact Hi).
      rewrite (deriv_back_ext CC sh (Some (cw wh)) 0 (curlz _ _ _ _ _ _) (fun j => cmul (mkC (/ mm 2%nat j) 0) (deriv_forward (K := CC) sh (Some (cw we)) 0 fy j)) i);
        [|lia|exact Hi|].
      * fold fy. set (X := deriv_back _ _ _ _ i). clearbody X. apply cpx_ext; cbn; ring.
      * intros j Hj. unfold curlz. rewrite (fwd1 sh _ 1) by (try assumption; lia). rewrite (ME 2%nat) by (try lia; exact Hj).
        pose proof (MP 2%nat j ltac:(lia) Hj). change (fdiv (f := CC) f1) with (cdiv c1). rewrite pos_real_inv by lra. set (X := deriv_forward _ _ _ _ j). clearbody X. apply cpx_ext; cbn; ring.
Qed.
Lemma some_entry sh (x : vect CC) : (exists q, (q < 2 * prodl sh)%nat /\ x q <> c0) -> exists c i, (c < 2)%nat /\ inb sh i /\ unvec (K := CC) sh x c i <> c0.
Proof.
  intros (q & Hq & N). destruct (Nat.lt_ge_cases q (prodl sh)) as [L|L].
  - exists 0%nat, (unravel sh q). split; [lia|]. split; [now apply inb_unravel|]. unfold unvec. rewrite ravel_unravel by exact L. exact N.
  - exists 1%nat, (unravel sh (q - prodl sh)). split; [lia|]. split; [apply inb_unravel; lia|]. unfold unvec. rewrite ravel_unravel by lia.
    now replace (1 * prodl sh + (q - prodl sh))%nat with q by lia.
Qed.
Theorem C176_slab :
  forall (sh : list nat) (we wh : widths RF) (om : R) (eps : vect CC) (mu : option (vect CC)) (l : cpx) (x : vect CC),
    length sh = 2%nat -> dim sh 0 = 1%nat \/ dim sh 1 = 1%nat -> positive_widths sh we wh -> lossless sh eps mu ->
    eigenpair sh we wh om eps mu l x -> cim l = 0.
Proof.
  intros sh we wh om eps mu l x HL D PW LS [Nz E].
  pose proof (proj2 (veq_unvec CC sh 2 _ _) E) as Ec. clear E.
  destruct (some_entry sh x Nz) as (c & i0 & Hc & Hi0 & N). destruct (slab_form sh we wh om eps mu HL D LS) as (A & SA & EA).
  apply (slab_comp_real sh we wh (A c) l (unvec (K := CC) sh x c) i0 HL PW (SA c Hc) Hi0 N).
  intros i Hi. rewrite <- (EA x c i Hc Hi). symmetry. exact (Ec c i Hc Hi).
Qed.
Print Assumptions C176_slab.

(** What solve_modes makes of such an eigenvalue, and what expand_e makes of the
    wavenumber: of the two modes of a pair one grows along +z, the other decays,
    though both wavenumbers have positive real parts. *)
Lemma cabs_gt z : cim z <> 0 -> - cabs z < cre z < cabs z.
Proof.
  intro H. destruct (cabs_bounds z) as [E L]. unfold cnrm in E. assert (P : 0 < cim z * cim z) by (destruct (Rtotal_order 0 (cim z)) as [?|[?|?]]; [nra|lra|nra]).
  split; nra.
Qed.
Lemma wavenumber_parts l : cim l <> 0 -> let k := wavenumber_of l in 0 < cre k /\ 0 < cim k * cim l.
Proof.
  intros H k. destruct (cabs_gt l H) as [A B].
  assert (U : 0 < sqrt ((cabs l + cre l) / 2)) by (apply sqrt_lt_R0; lra).
  assert (V : 0 < sqrt ((cabs l - cre l) / 2)) by (apply sqrt_lt_R0; lra).
  assert (E : k = csqrt l).
  { unfold k, wavenumber_of. unfold rsign. destruct (Rlt_dec 0 (cre (csqrt l))) as [_|C]; [apply cpx_ext; cbn; ring|]. exfalso. apply C. exact U. }
  rewrite E. split; [exact U|]. unfold csqrt. cbn [cim]. destruct (Rle_dec 0 (cim l)) as [P|P]; nra.
Qed.
Lemma cabs_phase k D : cabs (phase_factor 1 k D) = exp (cim k * D).
Proof.
  unfold phase_factor, cabs, cexp, cnrm. cbn [cre cim].
  set (a := cre _). set (t := cim (cmul (mkC 0 (- IZR 1)) _)).
  replace (exp a * cos t * (exp a * cos t) + exp a * sin t * (exp a * sin t)) with (exp a * exp a * (Rsqr (sin t) + Rsqr (cos t))) by (unfold Rsqr; ring).
  rewrite sin2_cos2, Rmult_1_r, sqrt_square by (left; apply exp_pos). f_equal. unfold a. cbn. ring.
Qed.

Theorem C176_growth :
  forall (l : cpx), cim l <> 0 ->
    let k := wavenumber_of l in
    0 < cre k /\
    (forall D, 0 < D -> 0 < cim l -> 1 < cabs (phase_factor 1 k D)) /\
    (forall D, 0 < D -> cim l < 0 -> cabs (phase_factor 1 k D) < 1).
Proof.
  intros l H k. destruct (wavenumber_parts l H) as [A B]. fold k in A, B. split; [exact A|]. split; intros D HD P; rewrite cabs_phase, <- exp_0; apply exp_increasing.
  - assert (0 < cim k) by nra. nra.
  - assert (cim k < 0) by nra. nra.
Qed.
Print Assumptions C176_growth.

(** Four cells, eps_x = eps_y = 1 and 3 in a checkerboard, eps_z = 2. *)
Definition cm_w : widths RF := fun _ _ => 1.
Definition cm_eps : vect CC := fun q => nth q [mkC 1 0; mkC 3 0; mkC 3 0; mkC 1 0; mkC 1 0; mkC 3 0; mkC 3 0; mkC 1 0] (mkC 2 0).
Definition cm_x : vect CC := fun q => nth q [mkC 1 0; mkC 0 (-1); mkC 0 1; mkC (-1) 0; mkC 1 0; mkC 0 1; mkC 0 (-1); mkC (-1) 0] c0.
Lemma cm_eigen : eigenpair [2; 2]%nat cm_w cm_w 1 cm_eps None (mkC (-2) 1) cm_x.
Proof.
  split; [exists 0%nat; split; [cbn; lia|intro C; apply (f_equal cre) in C; cbn in C; lra]|].
  apply (veq_unvec CC [2; 2]%nat 2). intros c i Hc Hi.
  destruct (operator_e_xy CC [2; 2]%nat eq_refl (cw cm_w) (cw cm_w) (mkC 1 0) cm_eps None cm_x i Hi) as [X Y].
  assert (C : i = [0; 0]%nat \/ i = [0; 1]%nat \/ i = [1; 0]%nat \/ i = [1; 1]%nat).
  { clear X Y. inversion Hi as [|a ? t ? Ha Ht]; subst. inversion Ht as [|b ? t' ? Hb Ht']; subst. inversion Ht'; subst.
    destruct a as [|[|a]]; [| |lia]; (destruct b as [|[|b]]; [| |lia]); auto. }
  destruct c as [|[|c]]; [| |lia]; (etransitivity; [first [exact X|exact Y]|]); clear X Y; destruct C as [->|[->|[->| ->]]]; apply cpx_ext; cbn; change (Pos.to_nat 1) with 1%nat; unfold cnrm, cm_w; cbn; field.
Qed.

Theorem C176_real_square_refuted :
  exists (sh : list nat) (we wh : widths RF) (om : R) (eps : vect CC) (l : cpx) (x : vect CC),
    length sh = 2%nat /\ positive_widths sh we wh /\ lossless sh eps None /\ 0 < om /\
    eigenpair sh we wh om eps None l x /\ cim l <> 0 /\
    (* the wavenumber solve_modes returns for it *)
    0 < cre (wavenumber_of l) /\ forall D, 0 < D -> 1 < cabs (phase_factor 1 (wavenumber_of l) D).
Proof.
  exists [2; 2]%nat, cm_w, cm_w, 1, cm_eps, (mkC (-2) 1), cm_x.
  split; [reflexivity|]. split; [intros a i _ _; unfold cm_w; lra|].
  split. { split; [|exact I]. intros q Hq. unfold cm_eps. do 12 (destruct q as [|q]; [cbn; lra|]). cbn in Hq; lia. }
  split; [lra|]. split; [exact cm_eigen|]. split; [cbn; lra|].
  destruct (C176_growth (mkC (-2) 1) ltac:(cbn; lra)) as (A & B & _). split; [exact A|]. intros D HD. apply B; [exact HD|cbn; lra].
Qed.
Print Assumptions C176_real_square_refuted.
(** A slab of two cells, for the hypotheses of C176_slab. *)
Definition cm_slab_eps : vect CC := fun q => nth q [mkC 1 0; mkC 3 0; mkC 1 0; mkC 3 0] (mkC 2 0).
Example C176_slab_case : exists l x, positive_widths [1; 2]%nat cm_w cm_w /\ lossless [1; 2]%nat cm_slab_eps None /\ eigenpair [1; 2]%nat cm_w cm_w 1 cm_slab_eps None l x.
Proof.
  exists (mkC (sqrt 5) 0), (fun q => nth q [mkC 2 0; mkC (1 + sqrt 5) 0] c0).
  split; [intros a i _ _; unfold cm_w; lra|].
  split. { split; [|exact I]. intros q Hq. unfold cm_slab_eps. do 6 (destruct q as [|q]; [cbn; lra|]). cbn in Hq; lia. }
  split; [exists 0%nat; split; [cbn; lia|intro C; apply (f_equal cre) in C; cbn in C; lra]|].
  apply (veq_unvec CC [1; 2]%nat 2). intros c i Hc Hi.
  match goal with |- unvec _ (mv _ _ ?x) _ _ = _ => destruct (operator_e_xy CC [1; 2]%nat eq_refl (cw cm_w) (cw cm_w) (mkC 1 0) cm_slab_eps None x i Hi) as [X Y] end.
  assert (C : i = [0; 0]%nat \/ i = [0; 1]%nat).
  { clear X Y. inversion Hi as [|a ? t ? Ha Ht]; subst. inversion Ht as [|b ? t' ? Hb Ht']; subst. inversion Ht'; subst.
    destruct a as [|a]; [|lia]; (destruct b as [|[|b]]; [| |lia]); auto. }
  assert (S : sqrt 5 * sqrt 5 = 5) by (apply sqrt_sqrt; lra).
  destruct c as [|[|c]]; [| |lia]; (etransitivity; [first [exact X|exact Y]|]); clear X Y; destruct C as [->| ->]; apply cpx_ext; cbn; change (Pos.to_nat 1) with 1%nat; unfold cnrm, cm_w; cbn; set (s := sqrt 5) in *; field_simplify_eq; lra.
Qed.
