(** Linearity, reach and memory of the CPML updates (C145); axiom-free. *)
From Coq Require Import List Arith ZArith Lia QArith Qcanon Bool.
From Verif.Lib Require Import Num Sums Idx Mat.
From Verif.Model Require Import Fdmath Fdtd Pml.
From Verif.Spec Require Import FdtdRun.
From Verif.Proofs Require Import FdtdP2 CpmlLinP.
From Verif.Props Require Import FdtdProps CpmlProps.
Import ListNotations.
Local Open Scope fld_scope.

Section Aux.
  Variable K : Fld.
  Add Field Kf : (fth K).
  Lemma one_zero (x y : K) : x = y <-> x = 1 * y + 0 * y.
  Proof. split; intros ->; ring. Qed.
  Lemma one_one_r (x : K) : x = 1 * x + 1 * 0. Proof. ring. Qed.
  Lemma one_one_l (x : K) : x = 1 * 0 + 1 * x. Proof. ring. Qed.
  Lemma one_one (x y : K) : 1 * x + 1 * y = x + y. Proof. ring. Qed.
End Aux.

Lemma Forall2_nth {A} (R : A -> A -> Prop) l l' : Forall2 R l l' ->
  forall k x y, nth_error l k = Some x -> nth_error l' k = Some y -> R x y.
Proof.
  intro F. induction F as [|x0 y0 l l' N _ IH]; intros [|k] x y E1 E2; cbn in *; try discriminate.
  - injection E1 as <-. injection E2 as <-. exact N.
  - now apply (IH k).
Qed.

(** ** C145: CPML runs *)

(** With any layers, a run is linear in the fields, the memory and the currents. *)
Theorem C145_superposition :
  forall (K : Fld) (sh : list nat) (Ls : nat -> nat -> option (layer K)) (dt : K) (w : widths K) (eps mu : field K)
         (a b : K) (js js' : list (field K)) (s t : pstate K) (idx : list nat),
    length sh = 3%nat -> inb sh idx -> length js = length js' ->
    let comb (F G : field K) : field K := fun c i => a * F c i + b * G c i in
    let combp (F G : psis K) : psis K := fun x p k i => a * F x p k i + b * G x p k i in
    let u := mkps (comb (pE_ s) (pE_ t)) (comb (pH_ s) (pH_ t)) (combp (psE s) (psE t)) (combp (psH s) (psH t)) in
    let go := cpml_run sh Ls dt w eps mu in
    let U := go (map (fun p => comb (fst p) (snd p)) (combine js js')) u in
    (forall c, (c < 3)%nat ->
       pE_ U c idx = a * pE_ (go js s) c idx + b * pE_ (go js' t) c idx /\
       pH_ U c idx = a * pH_ (go js s) c idx + b * pH_ (go js' t) c idx) /\
    (forall x p k, (x < 3)%nat ->
       psE U x p k idx = a * psE (go js s) x p k idx + b * psE (go js' t) x p k idx /\
       psH U x p k idx = a * psH (go js s) x p k idx + b * psH (go js' t) x p k idx).
Proof.
  intros K sh Ls dt w eps mu a b js js' s t idx HL Hi Hl comb combp u go U.
  assert (Lc : length (map (fun p => comb (fst p) (snd p)) (combine js js')) = length js) by (rewrite map_length, combine_length; lia).
  destruct (run_box K sh Ls dt w eps mu a b idx HL Hi (map (fun p => comb (fst p) (snd p)) (combine js js')) js js' 0%Z u s t)
    as (A & B & C & D); [lia|lia|lia| | |].
  - unfold u. split; [|split; [|split]]; intros ? *; reflexivity.
  - intros k F G H E1 E2 E3 c i _ _. rewrite nth_error_map in E1.
    assert (X : nth_error (combine js js') k = Some (G, H)).
    { clear - E2 E3. revert js js' E2 E3. induction k as [|k IH]; intros [|x l] [|y l'] E2 E3; cbn in *; try discriminate; [congruence|now apply IH]. }
    rewrite X in E1. injection E1 as <-. reflexivity.
  - assert (W : wbox sh (- (0)) 0 idx idx) by (apply wbox_refl; [exact Hi|lia]).
    split.
    + intros c Hc. split; [now apply A|now apply B].
    + intros x p k Hx. split; [now apply C|now apply D].
Qed.
Print Assumptions C145_superposition.

(** After n steps a cell depends only on fields, memory and currents within n cells. *)
Theorem C145_domain_of_dependence :
  forall (K : Fld) (sh : list nat) (Ls : nat -> nat -> option (layer K)) (dt : K) (w : widths K) (eps mu : field K)
         (js js' : list (field K)) (s t : pstate K) (idx : list nat),
    length sh = 3%nat -> inb sh idx -> length js = length js' ->
    let near (F G : field K) := forall c i, (c < 3)%nat -> within sh (length js) idx i -> F c i = G c i in
    let nearp (F G : psis K) := forall x p k i, (x < 3)%nat -> within sh (length js) idx i -> F x p k i = G x p k i in
    near (pE_ s) (pE_ t) -> near (pH_ s) (pH_ t) -> nearp (psE s) (psE t) -> nearp (psH s) (psH t) -> Forall2 near js js' ->
    let go := cpml_run sh Ls dt w eps mu in
    (forall c, (c < 3)%nat -> pE_ (go js s) c idx = pE_ (go js' t) c idx /\ pH_ (go js s) c idx = pH_ (go js' t) c idx) /\
    (forall x p k, (x < 3)%nat -> psE (go js s) x p k idx = psE (go js' t) x p k idx /\ psH (go js s) x p k idx = psH (go js' t) x p k idx).
Proof.
  intros K sh Ls dt w eps mu js js' s t idx HL Hi Hl near nearp NE NH PE PH NJ go.
  assert (Wn : forall i, wbox sh (- (0) - Z.of_nat (length js)) (0 + Z.of_nat (length js)) idx i -> within sh (length js) idx i).
  { intros i Hw. now apply within_wbox. }
  assert (W : wbox sh (- (0)) 0 idx idx) by (apply wbox_refl; [exact Hi|lia]).
  destruct (run_box K sh Ls dt w eps mu 1 0 idx HL Hi js js' js' 0%Z s t t) as (A & B & C & D); [lia|now symmetry|now symmetry| | |].
  - split; [|split; [|split]].
    + intros c i Hc Hw. apply (proj1 (one_zero K _ _)). apply NE; auto.
    + intros c i Hc Hw. apply (proj1 (one_zero K _ _)). apply NH; auto.
    + intros x p k i Hx Hw. apply (proj1 (one_zero K _ _)). apply PE; auto.
    + intros x p k i Hx Hw. apply (proj1 (one_zero K _ _)). apply PH; auto.
  - intros k F G H E1 E2 E3 c i Hc Hw. rewrite E2 in E3. injection E3 as <-. apply (proj1 (one_zero K _ _)).
    apply (Forall2_nth near js js' NJ k F G E1 E2); auto.
  - split.
    + intros c Hc. split; apply (proj2 (one_zero K _ _)); [now apply A|now apply B].
    + intros x p k Hx. split; apply (proj2 (one_zero K _ _)); [now apply C|now apply D].
Qed.
Print Assumptions C145_domain_of_dependence.

(** The updaters keep their memory from one call to the next. A new simulation
    run with used updaters gives the fields it should have given plus what the
    left-over memory radiates on its own. *)
Theorem C145_reused_updaters :
  forall (K : Fld) (sh : list nat) (Ls : nat -> nat -> option (layer K)) (dt : K) (w : widths K) (eps mu : field K)
         (js0 js : list (field K)) (s0 : pstate K) (E H : field K) (idx : list nat) (c : nat),
    length sh = 3%nat -> inb sh idx -> (c < 3)%nat ->
    let go := cpml_run sh Ls dt w eps mu in
    let used := go js0 s0 in
    let again := go js (mkps E H (psE used) (psH used)) in
    let fresh := go js (mkps E H psi0 psi0) in
    let memory := go (repeat noj (length js)) (mkps noj noj (psE used) (psH used)) in
    go (js0 ++ js) s0 = go js used /\
    pE_ again c idx = pE_ fresh c idx + pE_ memory c idx /\ pH_ again c idx = pH_ fresh c idx + pH_ memory c idx.
Proof.
  intros K sh Ls dt w eps mu js0 js s0 E H idx c HL Hi Hc go used again fresh memory.
  split; [unfold go, used, cpml_run; apply fold_left_app|].
  assert (W : wbox sh (- (0)) 0 idx idx) by (apply wbox_refl; [exact Hi|lia]).
  destruct (run_box K sh Ls dt w eps mu 1 1 idx HL Hi js js (repeat noj (length js)) 0%Z
              (mkps E H (psE used) (psH used)) (mkps E H psi0 psi0) (mkps noj noj (psE used) (psH used))) as (A & B & _);
    [lia|reflexivity|apply repeat_length| | |].
  - split; [|split; [|split]]; cbn [pE_ pH_ psE psH].
    + intros q i _ _. apply one_one_r.
    + intros q i _ _. apply one_one_r.
    + intros x p k i _ _. apply one_one_l.
    + intros x p k i _ _. apply one_one_l.
  - intros k F G X E1 E2 E3 q i _ _. rewrite E1 in E2. injection E2 as <-.
    apply nth_error_In, repeat_spec in E3. subst X. apply one_one_r.
  - split; rewrite <- one_one; [now apply A|now apply B].
Qed.
Print Assumptions C145_reused_updaters.

(** So starting again from the same fields gives a different result. *)
Theorem C145_reused_updaters_refuted :
  exists (sh : list nat) (Ls : nat -> nat -> option (layer QcF)) (dt : QcF) (w : widths QcF) (eps mu E H : field QcF) (idx : list nat),
    length sh = 3%nat /\ inb sh idx /\
    let go := cpml_run sh Ls dt w eps mu [noj] in
    let first := go (mkps E H psi0 psi0) in
    pE_ (go (mkps E H (psE first) (psH first))) 0%nat idx <> pE_ first 0%nat idx.
Proof.
  exists fx_sh, px_Ls, (qz 1), fx_we, fx_eps, fx_mu, fx_F, fx_G, [1; 2; 0]%nat.
  split; [reflexivity|]. split; [repeat constructor|]. vm_compute. discriminate.
Qed.
Print Assumptions C145_reused_updaters_refuted.
