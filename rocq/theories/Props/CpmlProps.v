(** Property theorems for the CPML updates, the boundary conditions and the
    marginal time step (C18, C19, C21, C53 - C56); axiom-free. *)
From Coq Require Import List Arith ZArith Lia Field QArith Qcanon Bool.
From Verif.Lib Require Import Num Sums Idx Mat.
From Verif.Model Require Import Fdmath Fdtd Pml.
From Verif.Spec Require Import Grid Yee FdtdRun CpmlSpec.
From Verif.Proofs Require Import FdmathP FdmathP2 FdtdP FdtdP2 PmlP BoundaryP.
From Verif.Props Require Import FdtdProps.
Import ListNotations.
Local Open Scope fld_scope.

(** ** C18: no layers *)

(** Runs of any length, from any fields and any left-over memory. *)
Theorem C18_no_layers_run :
  forall (K : Fld) (sh : list nat) (dt : K) (w : widths K) (eps mu : field K) (js : list (field K))
         (ps qs : psis K) (s : state K),
    length sh = 3%nat ->
    let r := cpml_run sh (fun _ _ => None) dt w eps mu js (mkps (sE s) (sH s) ps qs) in
    seq_st sh (mkst (pE_ r) (pH_ r)) (run sh dt (Some (w, w)) eps (Some mu) js s).
Proof. intros K sh dt w eps mu js ps qs s HL. now apply cpml_run_none. Qed.
Print Assumptions C18_no_layers_run.

(** Each update on its own; the E update agrees for every [dxes], the H update is
    the plain one for E widths equal to [dxes[1]]. *)
Theorem C18_no_layers_update :
  forall (K : Fld) (sh : list nat) (dt : K) (d0 w d1 : widths K) (e h eps mu : field K) (ps : psis K) (c : nat) (idx : list nat),
    (c < 3)%nat ->
    snd (update_E sh (fun _ _ => None) dt w ps e h eps) c idx = maxwell_e sh dt (Some (d0, w)) e h eps c idx
    /\ snd (update_H sh (fun _ _ => None) dt w ps e h mu) c idx = maxwell_h sh dt (Some (w, d1)) e h (Some mu) c idx.
Proof.
  intros K sh dt d0 w d1 e h eps mu ps c idx Hc. split; [apply outside_E|apply outside_H]; try exact Hc; intros; apply here_none.
Qed.
Print Assumptions C18_no_layers_update.

(** Leaving out [mu] (default 1) agrees with [maxwell_h] without [mu]. *)
Theorem C18_no_layers_default_mu :
  forall (K : Fld) (sh : list nat) (dt : K) (w d1 : widths K) (e h : field K) (ps : psis K) (c : nat) (idx : list nat),
    (c < 3)%nat ->
    snd (update_H sh (fun _ _ => None) dt w ps e h (fun _ _ => 1)) c idx = maxwell_h sh dt (Some (w, d1)) e h None c idx.
Proof.
  intros K sh dt w d1 e h ps c idx Hc. rewrite (outside_H K sh _ dt w ps e h _ d1) by (exact Hc || (intros; apply here_none)).
  unfold maxwell_h. f_equal. apply (fdiv_1 K).
Qed.
Print Assumptions C18_no_layers_default_mu.

Example C18_example :
  pH_ (cpml_run fx_sh (fun _ _ => None) (qz 1) fx_we fx_eps fx_mu [fx_j; noj] (mkps fx_F fx_G psi0 psi0)) 1%nat [1;2;0]%nat
  <> fx_G 1%nat [1;2;0]%nat.
Proof. vm_compute. discriminate. Qed.

(** ** C54: unequal widths *)

(** The H update of [updates_with_cpml(dxes)] uses [dxes[1]] where [maxwell_h]
    uses [dxes[0]]: with no layers at all the two disagree. *)
Theorem C54_unequal_widths_refuted :
  exists (sh : list nat) (dt : QcF) (we wh : widths QcF) (e h mu : field QcF) (c : nat) (idx : list nat),
    length sh = 3%nat /\ inb sh idx /\ nzw sh we /\ nzw sh wh /\ nzm sh mu /\ (c < 3)%nat /\
    snd (update_H sh (fun _ _ => None) dt wh (fun _ _ _ _ => 0) e h mu) c idx
    <> maxwell_h sh dt (Some (we, wh)) e h (Some mu) c idx.
Proof.
  exists fx_sh, (qz 1), fx_we, fx_wh, fx_F, fx_G, fx_mu, 0%nat, [1;2;0]%nat.
  destruct fx_hyps as (AB & _ & _ & _ & M). destruct AB as [A B].
  split; [reflexivity|]. split; [repeat constructor|]. split; [exact A|]. split; [exact B|]. split; [exact M|]. split; [lia|].
  vm_compute. discriminate.
Qed.
Print Assumptions C54_unequal_widths_refuted.

(** They agree at a cell exactly when the curl of E taken with the two width
    sets agrees there (dt non-zero). *)
Theorem C54_unequal_widths_iff :
  forall (K : Fld) (sh : list nat) (dt : K) (we wh : widths K) (ps : psis K) (e h mu : field K) (c : nat) (idx : list nat),
    dt <> 0 -> (c < 3)%nat -> mu c idx <> 0 ->
    (snd (update_H sh (fun _ _ => None) dt wh ps e h mu) c idx = maxwell_h sh dt (Some (we, wh)) e h (Some mu) c idx
     <-> curl_next sh (Some wh) e c idx = curl_next sh (Some we) e c idx).
Proof.
  intros K sh dt we wh ps e h mu c idx Hdt Hc Hm.
  rewrite (outside_H K sh _ dt wh ps e h mu wh) by (exact Hc || (intros; apply here_none)).
  unfold maxwell_h. cbn [option_map fst].
  apply (sub_scaled_iff K); assumption.
Qed.
Print Assumptions C54_unequal_widths_iff.

(** ** C19: layers *)

(** A cell that lies in no active layer: plain update, whatever the memory, the
    layers elsewhere and the fields. *)
Theorem C19_outside_plain :
  forall (K : Fld) (sh : list nat) (Ls : nat -> nat -> option (layer K)) (dt : K) (w : widths K) (eps mu : field K)
         (j : field K) (st : pstate K) (c : nat) (idx : list nat),
    (c < 3)%nat ->
    (forall a pp L, (a < 3)%nat -> (pp < 2)%nat -> Ls a pp = Some L ->
       if Nat.eqb pp 0 then (lth L <= coord idx a)%nat else (coord idx a < dim sh a - lth L)%nat) ->
    let st' := cpml_step sh Ls dt w eps mu j st in
    pH_ st' c idx = maxwell_h sh dt (Some (w, w)) (pE_ st) (pH_ st) (Some mu) c idx
    /\ pE_ st' c idx = maxwell_e sh dt (Some (w, w)) (pE_ st) (pH_ st') eps c idx + j c idx / eps c idx.
Proof.
  intros K sh Ls dt w eps mu j st c idx Hc H.
  assert (H' : forall a pp, (a < 3)%nat -> (pp < 2)%nat -> here sh Ls a pp idx = None).
  { intros a pp Ha Hp. unfold here. specialize (H a pp). destruct (Ls a pp) as [L|]; [|reflexivity].
    specialize (H L Ha Hp eq_refl). unfold inside. destruct (Nat.eqb pp 0).
    - now rewrite (proj2 (Nat.ltb_ge _ _) H).
    - now rewrite (proj2 (Nat.leb_gt _ _) H). }
  unfold cpml_step. cbn [pE_ pH_]. split; [now apply outside_H|].
  f_equal. now apply outside_E.
Qed.
Print Assumptions C19_outside_plain.

(** ... hence in every step of every run: the state after n+1 currents is the
    plain update, at outside cells, of the state after n currents. *)
Theorem C19_outside_run :
  forall (K : Fld) (sh : list nat) (Ls : nat -> nat -> option (layer K)) (dt : K) (w : widths K) (eps mu : field K)
         (js : list (field K)) (j : field K) (st0 : pstate K) (c : nat) (idx : list nat),
    (c < 3)%nat ->
    (forall a pp L, (a < 3)%nat -> (pp < 2)%nat -> Ls a pp = Some L ->
       if Nat.eqb pp 0 then (lth L <= coord idx a)%nat else (coord idx a < dim sh a - lth L)%nat) ->
    let st := cpml_run sh Ls dt w eps mu js st0 in
    let st' := cpml_run sh Ls dt w eps mu (js ++ [j]) st0 in
    pH_ st' c idx = maxwell_h sh dt (Some (w, w)) (pE_ st) (pH_ st) (Some mu) c idx
    /\ pE_ st' c idx = maxwell_e sh dt (Some (w, w)) (pE_ st) (pH_ st') eps c idx + j c idx / eps c idx.
Proof.
  intros K sh Ls dt w eps mu js j st0 c idx Hc H st st'.
  unfold st', cpml_run. rewrite fold_left_app. cbn [fold_left]. fold (cpml_run sh Ls dt w eps mu js st0).
  now apply C19_outside_plain.
Qed.
Print Assumptions C19_outside_run.

(** Inside: after any sequence of earlier calls, the update uses for each
    derivative the value scaled by 1/kappa plus, for each layer containing the cell,
    the sum over all calls so far of p0^age * p1 * (scaled derivative). *)
Theorem C19_inside_convolution_E :
  forall (K : Fld) (sh : list nat) (Ls : nat -> nat -> option (layer K)) (dt : K) (w : widths K)
         (calls : list (field K * field K * field K)) (e h eps : field K) (c : nat) (idx : list nat),
    (c < 3)%nat ->
    let ps := fold_left (fun ps x => fst (update_E sh Ls dt w ps (fst (fst x)) (snd (fst x)) (snd x))) calls (fun _ _ _ _ => 0) in
    let hs := map (fun x => snd (fst x)) calls ++ [h] in
    let D a b := stretched sh Ls lp0e lp1e lp2e a idx (map (fun h' => diff_prev sh (Some w) a (h' b) idx) hs) in
    snd (update_E sh Ls dt w ps e h eps) c idx
    = e c idx + dt / eps c idx * match c with
                                 | 0%nat => D 1%nat 2%nat - D 2%nat 1%nat
                                 | 1%nat => D 2%nat 0%nat - D 0%nat 2%nat
                                 | _ => D 0%nat 1%nat - D 1%nat 0%nat
                                 end.
Proof.
  intros K sh Ls dt w calls e h eps c idx Hc ps hs D.
  rewrite update_E_core, core_curl by exact Hc. unfold ps. rewrite hist_E. f_equal. f_equal.
  assert (A : forall a b, (a < 3)%nat -> (b < 3)%nat -> a <> b ->
    T K sh Ls lp0e lp1e lp2e (fun a0 b0 => deriv_back sh (Some w) a0 (h b0))
      (hist K sh Ls lp0e lp1e lp2e (map (fun x a0 b0 => deriv_back sh (Some w) a0 (snd (fst x) b0)) calls)) a b idx = D a b).
  { intros a b Ha Hb Hab. rewrite T_stretched by assumption. unfold D, hs. f_equal.
    rewrite !map_app, !map_map. reflexivity. }
  destruct c as [|[|[|c]]]; [| | |lia]; rewrite !A by lia; reflexivity.
Qed.
Print Assumptions C19_inside_convolution_E.

Theorem C19_inside_convolution_H :
  forall (K : Fld) (sh : list nat) (Ls : nat -> nat -> option (layer K)) (dt : K) (w : widths K)
         (calls : list (field K * field K * field K)) (e h mu : field K) (c : nat) (idx : list nat),
    (c < 3)%nat ->
    let ps := fold_left (fun ps x => fst (update_H sh Ls dt w ps (fst (fst x)) (snd (fst x)) (snd x))) calls (fun _ _ _ _ => 0) in
    let es := map (fun x => fst (fst x)) calls ++ [e] in
    let D a b := stretched sh Ls lp0h lp1h lp2h a idx (map (fun e' => diff_next sh (Some w) a (e' b) idx) es) in
    snd (update_H sh Ls dt w ps e h mu) c idx
    = h c idx - dt / mu c idx * match c with
                                | 0%nat => D 1%nat 2%nat - D 2%nat 1%nat
                                | 1%nat => D 2%nat 0%nat - D 0%nat 2%nat
                                | _ => D 0%nat 1%nat - D 1%nat 0%nat
                                end.
Proof.
  intros K sh Ls dt w calls e h mu c idx Hc ps es D.
  rewrite update_H_core, core_curl by exact Hc. unfold ps. rewrite hist_H. f_equal. f_equal.
  assert (A : forall a b, (a < 3)%nat -> (b < 3)%nat -> a <> b ->
    T K sh Ls lp0h lp1h lp2h (fun a0 b0 => deriv_forward sh (Some w) a0 (e b0))
      (hist K sh Ls lp0h lp1h lp2h (map (fun x a0 b0 => deriv_forward sh (Some w) a0 (fst (fst x) b0)) calls)) a b idx = D a b).
  { intros a b Ha Hb Hab. rewrite T_stretched by assumption. unfold D, es. f_equal.
    rewrite !map_app, !map_map. reflexivity. }
  destruct c as [|[|[|c]]]; [| | |lia]; rewrite !A by lia; reflexivity.
Qed.
Print Assumptions C19_inside_convolution_H.

(** Two layers on a 2x3x2 grid: the cell [1;2;0] is inside one, [1;0;0] in none. *)
Definition px_L : layer QcF := mkLayer (K := QcF) 1 (fun _ => qz 2) (fun _ => qz 3) (fun _ => qz 5)
                                          (fun _ => qz 7) (fun _ => qz 2) (fun _ => qz 3).
Definition px_Ls : nat -> nat -> option (layer QcF) :=
  fun a pp => if (Nat.eqb a 1 && Nat.eqb pp 1)%bool then Some px_L else if (Nat.eqb a 0 && Nat.eqb pp 0)%bool then Some px_L else None.
Example C19_example_outside :
  (forall a pp L, (a < 3)%nat -> (pp < 2)%nat -> px_Ls a pp = Some L ->
     if Nat.eqb pp 0 then (lth L <= coord [1;0;0] a)%nat else (coord [1;0;0] a < dim fx_sh a - lth L)%nat)
  /\ here fx_sh px_Ls 1 1 [1;2;0]%nat = Some px_L.
Proof.
  split; [|reflexivity]. intros a pp L Ha Hp E. unfold px_Ls in E.
  destruct a as [|[|[|a]]]; try lia; destruct pp as [|[|pp]]; try lia; try discriminate E; injection E as <-; cbn; lia.
Qed.
(** The memory matters: a second call differs from a first call with the same fields. *)
Example C19_example_memory :
  let ps := fst (update_E fx_sh px_Ls (qz 1) fx_we psi0 fx_F fx_G fx_eps) in
  snd (update_E fx_sh px_Ls (qz 1) fx_we ps fx_F fx_G fx_eps) 0%nat [1;2;0]%nat
  <> snd (update_E fx_sh px_Ls (qz 1) fx_we psi0 fx_F fx_G fx_eps) 0%nat [1;2;0]%nat.
Proof. vm_compute. discriminate. Qed.

(** ** C21: conducting boundary (with list indices accepted as tuples) *)

(** Raises exactly for a direction outside 0, 1, 2 or polarity 0. *)
Theorem C21_raises_iff :
  forall (K : Fld) (li : list_index) (sh : list nat) (direction polarity : Z),
    conducting_boundary (K := K) li sh direction polarity = Raise
    <-> (direction < 0 \/ 2 < direction \/ polarity = 0)%Z.
Proof. intros. apply cb_raise. Qed.
Print Assumptions C21_raises_iff.

(** Low side: for every cell of every component, the exact value after the update.
    Normal E and tangential H are zeroed on plane 0, the others copied from plane 1,
    nothing else changes. *)
Theorem C21_low_side :
  forall (K : Fld) (sh : list nat) (d : nat) (polarity : Z),
    (d < 3)%nat -> (polarity < 0)%Z -> (2 <= dim sh d)%nat ->
    exists en hn, conducting_boundary (K := K) AsTuple sh (Z.of_nat d) polarity = Ok (en, hn) /\
    forall F : field K, exists E H, en F = Ok E /\ hn F = Ok H /\
      forall c idx, (c < 3)%nat ->
        (coord idx d <> 0%nat -> E c idx = F c idx /\ H c idx = F c idx)
        /\ (coord idx d = 0%nat ->
              E c idx = (if Nat.eqb c d then 0 else F c (upd d 1 idx))
              /\ H c idx = (if Nat.eqb c d then F c (upd d 1 idx) else 0)).
Proof.
  intros K sh d p Hd Hp Hn. destruct (cb_low K sh d Hd Hn) as (en & hn & E0 & HF).
  exists en, hn. split; [rewrite cb_sign; destruct p; try lia; exact E0|].
  intro F. destruct (HF F) as (E & H & A & B & C). exists E, H. split; [exact A|]. split; [exact B|].
  intros c idx Hc. destruct (C c idx Hc) as [X Y]. rewrite X, Y. unfold rule_zero0, rule_copy0. split; intro Q.
  - apply Nat.eqb_neq in Q. rewrite Q. destruct (Nat.eqb c d); split; reflexivity.
  - rewrite Q. cbn [Nat.eqb]. destruct (Nat.eqb c d); split; reflexivity.
Qed.
Print Assumptions C21_low_side.

(** High side: mirror plane at N-2: normal E and tangential H are zeroed there and
    the last plane gets minus plane N-3; the others are copied from N-2. *)
Theorem C21_high_side :
  forall (K : Fld) (sh : list nat) (d : nat) (polarity : Z),
    (d < 3)%nat -> (0 < polarity)%Z -> (3 <= dim sh d)%nat ->
    let N := dim sh d in
    exists ep hp, conducting_boundary (K := K) AsTuple sh (Z.of_nat d) polarity = Ok (ep, hp) /\
    forall F : field K, exists E H, ep F = Ok E /\ hp F = Ok H /\
      forall c idx, (c < 3)%nat ->
        ((coord idx d <> N - 1)%nat -> (coord idx d <> N - 2)%nat -> E c idx = F c idx /\ H c idx = F c idx)
        /\ ((coord idx d = N - 2)%nat -> E c idx = (if Nat.eqb c d then 0 else F c idx)
                                       /\ H c idx = (if Nat.eqb c d then F c idx else 0))
        /\ ((coord idx d = N - 1)%nat ->
              E c idx = (if Nat.eqb c d then - F c (upd d (N - 3) idx) else F c (upd d (N - 2) idx))
              /\ H c idx = (if Nat.eqb c d then F c (upd d (N - 2) idx) else - F c (upd d (N - 3) idx))).
Proof.
  intros K sh d p Hd Hp Hn N. destruct (cb_high K sh d Hd Hn) as (en & hn & E0 & HF).
  exists en, hn. split; [rewrite cb_sign; destruct p; try lia; exact E0|].
  intro F. destruct (HF F) as (E & H & A & B & C). exists E, H. split; [exact A|]. split; [exact B|].
  intros c idx Hc. destruct (C c idx Hc) as [X Y]. rewrite X, Y. unfold rule_mirror, rule_copy1. fold N.
  assert (HN : (3 <= N)%nat) by exact Hn.
  split; [|split].
  - intros Q1 Q2. apply Nat.eqb_neq in Q1, Q2. rewrite Q1, Q2. destruct (Nat.eqb c d); split; reflexivity.
  - intro Q. rewrite Q, Nat.eqb_refl. assert (T : (N - 2 =? N - 1)%nat = false) by (apply Nat.eqb_neq; lia). rewrite T.
    destruct (Nat.eqb c d); split; reflexivity.
  - intro Q. rewrite Q, Nat.eqb_refl. destruct (Nat.eqb c d); split; reflexivity.
Qed.
Print Assumptions C21_high_side.

Example C21_example :
  match conducting_boundary (K := QcF) AsTuple [2;3;2]%nat 1 1 with
  | Ok (ep, hp) => match ep fx_F with Ok E => E 1%nat [1;2;0]%nat = - fx_F 1%nat [1;0;0]%nat /\ E 1%nat [1;2;0]%nat <> 0 | Raise => False end
  | Raise => False
  end.
Proof. cbn. split; [reflexivity|]. vm_compute. discriminate. Qed.

(** ** C55: conducting_boundary under the numpy version the package requires *)

(** numpy >= 1.23 rejects a list of slices as an index, so every updater raises on
    every field. *)
Theorem C55_updaters_raise :
  forall (K : Fld) (sh : list nat) (direction polarity : Z) en hn,
    conducting_boundary (K := K) Rejected sh direction polarity = Ok (en, hn) ->
    forall F, en F = Raise /\ hn F = Raise.
Proof. intros. eapply cb_rejected; eassumption. Qed.
Print Assumptions C55_updaters_raise.
Theorem C55_updaters_work_refuted :
  exists (sh : list nat) (direction polarity : Z) en hn (F : field QcF),
    length sh = 3%nat /\ conducting_boundary (K := QcF) Rejected sh direction polarity = Ok (en, hn)
    /\ en F = Raise /\ hn F = Raise.
Proof.
  exists [4;4;4]%nat, 0%Z, 1%Z. eexists. eexists. exists fx_F. repeat split; reflexivity.
Qed.
Print Assumptions C55_updaters_work_refuted.

(** ** C56: the boundary is not a perfect electric conductor *)

(** A conductor has zero tangential E on its surface; after the update the
    tangential E on the boundary plane is in general non-zero, on either side. *)
Theorem C56_tangential_E_zero_refuted :
  exists (sh : list nat) (F : field QcF) (idx : list nat),
    inb sh idx /\ coord idx 1 = 0%nat /\
    match conducting_boundary (K := QcF) AsTuple sh 1 (-1) with
    | Ok (en, _) => match en F with Ok E => E 0%nat idx <> 0 /\ E 2%nat idx <> 0 | Raise => False end
    | Raise => False
    end.
Proof.
  exists fx_sh, fx_F, [1;0;0]%nat. split; [repeat constructor|]. split; [reflexivity|].
  cbn. split; vm_compute; discriminate.
Qed.
Print Assumptions C56_tangential_E_zero_refuted.

(** ** C53: the documented time step, taken literally, is unstable *)

(** A uniform grid with widths 1, 1/2, 1/2 and vacuum: the documented
    dt = sqrt(mu.min()*eps.min()) / sqrt(1/dx^2 + 1/dy^2 + 1/dz^2) is 1/3. *)
Definition cf_sh : list nat := [2;2;2]%nat.
Definition cf_w : widths QcF := fun a _ => match a with 0%nat => 1 | _ => 1 / (1 + 1) end.
Definition cf_dt : QcF := 1 / (1 + 1 + 1).
Definition cf_sign (idx : list nat) : QcF := if Nat.even (coord idx 0 + coord idx 1 + coord idx 2) then 1 else - (1).
Definition cf_e : field QcF := fun c idx => match c with 0%nat => 0 | 1%nat => cf_sign idx | _ => - cf_sign idx end.
Definition cf_one : field QcF := fun _ _ => 1.
Definition cf_s : state QcF := mkst cf_e noj.
Definition cf_h : field QcF := maxwell_h cf_sh cf_dt (Some (cf_w, cf_w)) cf_e noj (Some cf_one).
Definition cf_t : state QcF := mkst noj cf_h.
Definition cf_step := step cf_sh cf_dt (Some (cf_w, cf_w)) cf_one (Some cf_one) noj.

Lemma qz_add a b : qz (a + b) = ((qz a : QcF) + qz b : QcF).
Proof.
  apply Qc_is_canon. change (Qred (inject_Z (a + b)) == Qred (Qred (inject_Z a) + Qred (inject_Z b)))%Q.
  rewrite !Qred_correct. now rewrite inject_Z_plus.
Qed.
Lemma qz_mul a b : qz (a * b) = ((qz a : QcF) * qz b : QcF).
Proof.
  apply Qc_is_canon. change (Qred (inject_Z (a * b)) == Qred (Qred (inject_Z a) * Qred (inject_Z b)))%Q.
  rewrite !Qred_correct. now rewrite inject_Z_mult.
Qed.

Lemma cf_cells (P : nat -> list nat -> Prop) :
  (forall c i j k, In c [0;1;2]%nat -> In i [0;1]%nat -> In j [0;1]%nat -> In k [0;1]%nat -> P c [i;j;k]) ->
  forall c idx, (c < 3)%nat -> inb cf_sh idx -> P c idx.
Proof.
  intros H c idx Hc Hi. unfold inb, cf_sh in Hi.
  inversion Hi as [|i ? ? ? A0 Hi1]; subst. inversion Hi1 as [|j ? ? ? A1 Hi2]; subst.
  inversion Hi2 as [|k ? ? ? A2 Hi3]; subst. inversion Hi3; subst.
  apply H; cbn; lia.
Qed.

Lemma cf_step_s : seq_st cf_sh (cf_step cf_s) (mkst (fun c i => qz (-3) * cf_e c i) cf_h).
Proof.
  split; [|intros c idx _ _; reflexivity].
  refine (cf_cells _ _). intros c i j k Hc Hi Hj Hk. cbn in Hc, Hi, Hj, Hk.
  decompose [or] Hc; decompose [or] Hi; decompose [or] Hj; decompose [or] Hk; subst; try contradiction; qc_refl.
Qed.
Lemma cf_step_t : seq_st cf_sh (cf_step cf_t) (mkst (fun c i => qz (-4) * cf_e c i) cf_h).
Proof.
  split; refine (cf_cells _ _); intros c i j k Hc Hi Hj Hk; cbn in Hc, Hi, Hj, Hk;
  decompose [or] Hc; decompose [or] Hi; decompose [or] Hj; decompose [or] Hk; subst; try contradiction; qc_refl.
Qed.

Lemma cf_step_lin f g :
  seq_st cf_sh (cf_step (lin_st QcF f g cf_s cf_t)) (lin_st QcF (qz (-3) * f + qz (-4) * g) (f + g) cf_s cf_t).
Proof.
  destruct cf_step_s as [S1 S2]. destruct cf_step_t as [T1 T2].
  destruct (step_lin QcF cf_sh cf_dt (Some (cf_w, cf_w)) cf_one (Some cf_one) f g noj noj cf_s cf_t) as [L1 L2].
  split; intros c idx Hc Hi.
  - transitivity (sE (step cf_sh cf_dt (Some (cf_w, cf_w)) cf_one (Some cf_one) (lin QcF f g noj noj) (lin_st QcF f g cf_s cf_t)) c idx).
    + unfold cf_step, step. cbn [sE]. f_equal. unfold lin, noj. apply (alg_zero QcF).
    + rewrite (L1 c idx Hc Hi). cbn [lin_st sE]. unfold lin.
      fold cf_step. rewrite (S1 c idx Hc Hi), (T1 c idx Hc Hi). cbn [sE cf_s cf_t]. unfold noj. apply (alg_a QcF).
  - transitivity (sH (step cf_sh cf_dt (Some (cf_w, cf_w)) cf_one (Some cf_one) (lin QcF f g noj noj) (lin_st QcF f g cf_s cf_t)) c idx).
    + reflexivity.
    + rewrite (L2 c idx Hc Hi). cbn [lin_st sH]. unfold lin.
      fold cf_step. rewrite (S2 c idx Hc Hi), (T2 c idx Hc Hi). cbn [sH cf_s cf_t]. unfold noj. apply (alg_b QcF).
Qed.

Definition cf_alt (n : nat) : Z := if Nat.even n then 1%Z else (-1)%Z.
Lemma cf_run n : seq_st cf_sh (run cf_sh cf_dt (Some (cf_w, cf_w)) cf_one (Some cf_one) (repeat noj n) cf_s)
  (lin_st QcF (qz (cf_alt n * (1 + 2 * Z.of_nat n))) (qz (cf_alt n * - Z.of_nat n)) cf_s cf_t).
Proof.
  induction n as [|n IH].
  - split; refine (cf_cells _ _); intros c i j k Hc Hi Hj Hk; cbn in Hc, Hi, Hj, Hk;
    decompose [or] Hc; decompose [or] Hi; decompose [or] Hj; decompose [or] Hk; subst; try contradiction; qc_refl.
  - rewrite <- Nat.add_1_r at 1. rewrite repeat_app. unfold run. rewrite fold_left_app. cbn [repeat fold_left].
    fold (run cf_sh cf_dt (Some (cf_w, cf_w)) cf_one (Some cf_one) (repeat noj n) cf_s). fold cf_step.
    eapply seq_st_trans; [apply step_ext; [reflexivity|exact IH]|]. fold cf_step.
    eapply seq_st_trans; [apply cf_step_lin|].
    rewrite <- !qz_mul, <- !qz_add.
    assert (A : cf_alt (S n) = (- cf_alt n)%Z).
    { unfold cf_alt. rewrite Nat.even_succ, <- Nat.negb_even. destruct (Nat.even n); reflexivity. }
    rewrite A, Nat2Z.inj_succ.
    replace (-3 * (cf_alt n * (1 + 2 * Z.of_nat n)) + -4 * (cf_alt n * - Z.of_nat n))%Z
      with (- cf_alt n * (1 + 2 * Z.succ (Z.of_nat n)))%Z by lia.
    replace (cf_alt n * (1 + 2 * Z.of_nat n) + cf_alt n * - Z.of_nat n)%Z
      with (- cf_alt n * - Z.succ (Z.of_nat n))%Z by lia.
    split; apply feq_refl.
Qed.

(** dt meets the documented formula with equality and E grows without bound. *)
Theorem C53_documented_dt_bounded_refuted :
  exists (sh : list nat) (dt : QcF) (w : nat -> QcF) (eps mu : field QcF) (s0 : state QcF),
    length sh = 3%nat
    /\ (forall a, (a < 3)%nat -> w a <> 0)
    /\ (forall c idx, eps c idx = 1 /\ mu c idx = 1)
    /\ dt * dt * (1 / (w 0%nat * w 0%nat) + 1 / (w 1%nat * w 1%nat) + 1 / (w 2%nat * w 2%nat)) = 1 * 1
    /\ forall B : Qc, exists (n c : nat) (idx : list nat), (c < 3)%nat /\ inb sh idx /\
         let d := Some ((fun a _ => w a), (fun a _ => w a)) in
         (B < sE (run sh dt d eps (Some mu) (repeat noj n) s0) c idx)%Qc.
Proof.
  exists cf_sh, cf_dt, (fun a => cf_w a 0%nat), cf_one, cf_one, cf_s.
  split; [reflexivity|]. split; [intros a Ha; destruct a as [|[|[|a]]]; try lia; cbn; discriminate|].
  split; [intros; split; reflexivity|]. split; [qc_refl|].
  intro B. set (m := Z.to_nat (Z.abs (Qnum B))).
  exists (2 * m)%nat, 1%nat, [0;0;0]%nat. split; [lia|]. split; [repeat constructor|]. cbv zeta.
  destruct (cf_run (2 * m)) as [E _].
  change (B < sE (run cf_sh cf_dt (Some (cf_w, cf_w)) cf_one (Some cf_one) (repeat noj (2 * m)) cf_s) 1%nat [0;0;0]%nat)%Qc.
  rewrite (E 1%nat [0;0;0]%nat) by first [lia | repeat constructor].
  unfold cf_alt. assert (V : Nat.even (2 * m) = true) by (apply Nat.even_spec; exists m; reflexivity). rewrite V.
  cbn [lin_st sE]. unfold lin. cbn [cf_s cf_t sE cf_e]. unfold cf_sign, coord. cbn [nth Nat.add Nat.even]. unfold noj.
  set (z := (1 * (1 + 2 * Z.of_nat (2 * m)))%Z).
  assert (Hz : z = (1 + 4 * Z.abs (Qnum B))%Z) by (unfold z, m; lia). clearbody z.
  cbn [fadd fmul f0 f1 QcF car]. rewrite Qcmult_1_r, Qcmult_0_r, Qcplus_0_r.
  unfold Qclt, qz, Q2Qc, this. rewrite Qred_correct.
  destruct B as [[bn bd] Hb]. change (Qnum _) with bn in Hz. unfold Qlt, inject_Z. cbn [Qnum Qden]. subst z.
  pose proof (Pos2Z.is_pos bd). assert (bn <= Z.abs bn)%Z by lia. assert (0 <= Z.abs bn)%Z by lia. nia.
Qed.
Print Assumptions C53_documented_dt_bounded_refuted.
