(** Property theorems for meanas.fdmath (C01 - C09).

    [K] is any field ([Fld]); [sh] the grid shape; [idx]/[p] a cell as
    multi-index / flat C-order index; [w] a table of cell widths. *)
From Coq Require Import List Arith ZArith Lia Field QArith Qcanon.
From Verif.Lib Require Import Num Sums Idx Mat.
From Verif.Model Require Import Fdmath.
From Verif.Spec Require Import Grid Yee.
From Verif.Proofs Require Import FdmathP FdmathP2.
Import ListNotations.
Local Open Scope fld_scope.

(** ** C01: matrix operators and field functions agree *)

Theorem C01_deriv_forward_agree :
  forall (K : Fld) (sh : list nat) (w : widths K) (a : nat) (f : arr K) (idx : list nat),
    (a < length sh)%nat -> inb sh idx ->
    mv (prodl sh) (deriv_forward_mat sh w a) (flat sh f) (ravel sh idx)
    = deriv_forward sh (Some w) a f idx.
Proof.
  intros K sh w a f idx Ha Hi. rewrite deriv_forward_agree by (try assumption; now apply ravel_lt).
  unfold flat. now rewrite unravel_ravel.
Qed.
Print Assumptions C01_deriv_forward_agree.

Theorem C01_deriv_back_agree :
  forall (K : Fld) (sh : list nat) (w : widths K) (a : nat) (f : arr K) (idx : list nat),
    (a < length sh)%nat -> inb sh idx ->
    mv (prodl sh) (deriv_back_mat sh w a) (flat sh f) (ravel sh idx)
    = deriv_back sh (Some w) a f idx.
Proof.
  intros K sh w a f idx Ha Hi. rewrite deriv_back_agree by (try assumption; now apply ravel_lt).
  unfold flat. now rewrite unravel_ravel.
Qed.
Print Assumptions C01_deriv_back_agree.

Theorem C01_curl_forward_agree :
  forall (K : Fld) (sh : list nat) (w : widths K) (F : field K),
    length sh = 3%nat ->
    feq sh (unvec sh (mv (3 * prodl sh) (curl_forward_mat sh w) (vec sh F)))
           (curl_forward sh (Some w) F).
Proof.
  intros K sh w F HL c idx Hc Hi. unfold unvec.
  rewrite curl_forward_agree by (try assumption; now apply ravel_lt). now rewrite unravel_ravel.
Qed.
Print Assumptions C01_curl_forward_agree.

Theorem C01_curl_back_agree :
  forall (K : Fld) (sh : list nat) (w : widths K) (F : field K),
    length sh = 3%nat ->
    feq sh (unvec sh (mv (3 * prodl sh) (curl_back_mat sh w) (vec sh F)))
           (curl_back sh (Some w) F).
Proof.
  intros K sh w F HL c idx Hc Hi. unfold unvec.
  rewrite curl_back_agree by (try assumption; now apply ravel_lt). now rewrite unravel_ravel.
Qed.
Print Assumptions C01_curl_back_agree.

(** A concrete grid with non-uniform widths: a 2x3x2 grid, a field with
    distinct values, and the (non-zero) common value of the two code paths. *)
Definition ex_sh : list nat := [2; 3; 2]%nat.
Definition ex_w : widths QcF := fun a i => qz (Z.of_nat (1 + a + 2 * i)).
Definition ex_F : field QcF := fun c idx => qz (Z.of_nat ((c + 1) * (ravel ex_sh idx + 1) * (ravel ex_sh idx + 2))).
Example C01_example :
  unvec ex_sh (mv (3 * prodl ex_sh) (curl_forward_mat ex_sh ex_w) (vec ex_sh ex_F)) 0%nat [1; 2; 0]%nat = qz (-54)
  /\ curl_forward ex_sh (Some ex_w) ex_F 0%nat [1; 2; 0]%nat = qz (-54).
Proof. split; qc_refl. Qed.

(** ** C02: vec / unvec *)

Theorem C02_unvec_vec :
  forall (K : Fld) (sh : list nat) (F : field K) (c : nat) (idx : list nat),
    inb sh idx -> unvec sh (vec sh F) c idx = F c idx.
Proof. exact unvec_vec. Qed.
Print Assumptions C02_unvec_vec.

Theorem C02_vec_unvec :
  forall (K : Fld) (sh : list nat) (nvdim : nat) (v : vect K) (p : nat),
    (p < nvdim * prodl sh)%nat -> vec sh (unvec sh v) p = v p.
Proof. exact vec_unvec. Qed.
Print Assumptions C02_vec_unvec.

(** The layout, written out for a 3D grid. *)
Theorem C02_layout :
  forall (K : Fld) (nx ny nz : nat) (F : field K) (c i j k : nat),
    (i < nx)%nat -> (j < ny)%nat -> (k < nz)%nat ->
    vec [nx; ny; nz] F (c * (nx * ny * nz) + i * (ny * nz) + j * nz + k)%nat = F c [i; j; k].
Proof.
  intros K nx ny nz F c i j k Hi Hj Hk.
  rewrite <- (vec_offset K [nx; ny; nz] F c [i; j; k]) by (repeat constructor; assumption).
  f_equal. cbn [ravel prodl]. nia.
Qed.
Print Assumptions C02_layout.

Theorem C02_unvec_errors :
  forall (K : Fld) (len : nat) (v : option (vect K)) (sh : list nat) (nvdim : nat),
    unvec_checked len v sh nvdim = Raise <->
    (v <> None /\ len <> (nvdim * prodl sh)%nat).
Proof.
  intros K len [v|] sh nv; cbn.
  - destruct (Nat.eqb_spec len (nv * prodl sh)) as [E|E]; split; try discriminate; try tauto.
    intros _. split; [discriminate|exact E].
  - split; [discriminate|]. intros [H _]. now elim H.
Qed.
Print Assumptions C02_unvec_errors.

Theorem C02_none :
  forall (K : Fld) (len : nat) (sh : list nat) (nvdim : nat),
    vec_opt (K := K) sh None = None /\ unvec_checked (K := K) len None sh nvdim = Ok None.
Proof. intros; split; reflexivity. Qed.
Print Assumptions C02_none.

Example C02_example :
  inb ex_sh [1; 2; 0]%nat /\ vec ex_sh ex_F (1 * 12 + 10)%nat = ex_F 1%nat [1; 2; 0]%nat
  /\ ex_F 1%nat [1; 2; 0]%nat <> ex_F 1%nat [1; 1; 0]%nat.
Proof.
  split; [|split].
  - repeat constructor.
  - qc_refl.
  - vm_compute. discriminate.
Qed.

(** ** C03: shift_circ *)

Theorem C03_shift_circ_is_roll :
  forall (K : Fld) (axis : Z) (sh : list nat) (d : Z),
    (length sh = 2 \/ length sh = 3)%nat -> (0 <= axis < Z.of_nat (length sh))%Z ->
    exists M : mat K,
      shift_circ axis sh d = Ok M /\
      forall (f : arr K) (p : nat), (p < prodl sh)%nat ->
        mv (prodl sh) M (flat sh f) p = flat sh (roll sh (- d) (Z.to_nat axis) f) p.
Proof.
  intros K axis sh d H1 H2. exists (shift_circ_mat (Z.to_nat axis) sh d). split.
  - now apply shift_circ_ok.
  - intros f p Hp. apply shift_circ_roll; [lia|exact Hp].
Qed.
Print Assumptions C03_shift_circ_is_roll.

Theorem C03_shift_circ_raises :
  forall (K : Fld) (axis : Z) (sh : list nat) (d : Z),
    shift_circ (K := K) axis sh d = Raise <->
    ~ ((length sh = 2 \/ length sh = 3)%nat /\ (0 <= axis < Z.of_nat (length sh))%Z).
Proof. exact shift_circ_raises. Qed.
Print Assumptions C03_shift_circ_raises.

(** Composition adds distances; inverse = transpose = opposite distance; one
    full turn is the identity. *)
Theorem C03_shift_circ_group :
  forall (K : Fld) (axis : Z) (sh : list nat) (d e k : Z) (Md Me Mde Mneg Mturn : mat K),
    shift_circ axis sh d = Ok Md -> shift_circ axis sh e = Ok Me ->
    shift_circ axis sh (d + e) = Ok Mde -> shift_circ axis sh (- d) = Ok Mneg ->
    shift_circ axis sh (d + k * Z.of_nat (dim sh (Z.to_nat axis))) = Ok Mturn ->
    let N := prodl sh in
    meq N N (mm N Md Me) Mde /\ meq N N (mm N Md Mneg) mid /\ meq N N (mm N Mneg Md) mid
    /\ meq N N (mtr Md) Mneg /\ meq N N Mturn Md.
Proof.
  intros K axis sh d e k Md Me Mde Mneg Mturn H1 H2 H3 H4 H5.
  assert (HA : (0 <= axis < Z.of_nat (length sh))%Z /\ (length sh = 2 \/ length sh = 3)%nat).
  { destruct (Z.le_gt_cases 0 axis), (Z.lt_ge_cases axis (Z.of_nat (length sh))),
      (Nat.eq_dec (length sh) 2), (Nat.eq_dec (length sh) 3); try (split; lia);
      exfalso; assert (E : shift_circ (K := K) axis sh d = Raise) by (apply shift_circ_raises; lia); congruence. }
  destruct HA as [HA HL].
  rewrite shift_circ_ok in H1, H2, H3, H4, H5 by assumption.
  injection H1 as <-; injection H2 as <-; injection H3 as <-; injection H4 as <-; injection H5 as <-.
  assert (Ha : (Z.to_nat axis < length sh)%nat) by lia.
  repeat split.
  - now apply shift_circ_comp.
  - intros i j Hi Hj. rewrite shift_circ_comp by assumption.
    replace (d + - d)%Z with 0%Z by lia. now apply shift_circ_id.
  - intros i j Hi Hj. rewrite shift_circ_comp by assumption.
    replace (- d + d)%Z with 0%Z by lia. now apply shift_circ_id.
  - now apply shift_circ_tr.
  - now apply shift_circ_period.
Qed.
Print Assumptions C03_shift_circ_group.

Example C03_example :
  exists M : mat QcF, shift_circ 1 ex_sh (-5) = Ok M
    /\ mv 12 M (flat ex_sh (ex_F 0%nat)) 4%nat = ex_F 0%nat [0; 0; 0]%nat
    /\ shift_circ (K := QcF) 3 ex_sh 1 = Raise.
Proof. eexists; repeat split; try qc_refl. Qed.

(** ** C04: shift_with_mirror *)

(** The result continues the array by even reflection: at cell [idx] it equals
    [g (i + d)] for every function [g] on the integers that agrees with the
    array along the axis and is symmetric about both grid edges. *)
Theorem C04_shift_with_mirror :
  forall (K : Fld) (axis : Z) (sh : list nat) (d : Z),
    (length sh = 2 \/ length sh = 3)%nat -> (0 <= axis < Z.of_nat (length sh))%Z ->
    let a := Z.to_nat axis in
    let n := Z.of_nat (dim sh a) in
    (- n <= d < n)%Z ->
    exists M : mat K,
      shift_with_mirror axis sh d = Ok M /\
      forall (f : arr K) (idx : list nat) (g : Z -> K), inb sh idx ->
        (forall k, (k < dim sh a)%nat -> g (Z.of_nat k) = f (upd a k idx)) ->
        (forall j, g (- 1 - j)%Z = g j) -> (forall j, g (2 * n - 1 - j)%Z = g j) ->
        mv (prodl sh) M (flat sh f) (ravel sh idx) = g (Z.of_nat (coord idx a) + d)%Z.
Proof.
  intros K axis sh d H1 H2 a n Hd. exists (shift_mirror_mat a sh d). split.
  - now apply shift_mirror_ok.
  - intros. apply shift_mirror_ext; try assumption. unfold a. lia.
Qed.
Print Assumptions C04_shift_with_mirror.

(** Each row has exactly one entry, a 1, in range. *)
Theorem C04_one_entry_per_row :
  forall (K : Fld) (axis : Z) (sh : list nat) (d : Z) (M : mat K) (i : nat),
    shift_with_mirror axis sh d = Ok M -> (i < prodl sh)%nat ->
    exists j, (j < prodl sh)%nat /\ M i j = 1 /\ forall j', (j' < prodl sh)%nat -> j' <> j -> M i j' = 0.
Proof.
  intros K axis sh d M i HM Hi.
  assert (HH : ~ ~ ((length sh = 2 \/ length sh = 3)%nat /\ (0 <= axis < Z.of_nat (length sh))%Z /\
       (- Z.of_nat (dim sh (Z.to_nat axis)) <= d < Z.of_nat (dim sh (Z.to_nat axis)))%Z)).
  { intro HN. apply (shift_mirror_raises K axis sh d) in HN; [congruence|lia]. }
  assert (H : (length sh = 2 \/ length sh = 3)%nat /\ (0 <= axis < Z.of_nat (length sh))%Z /\
       (- Z.of_nat (dim sh (Z.to_nat axis)) <= d < Z.of_nat (dim sh (Z.to_nat axis)))%Z) by lia.
  destruct H as [H1 [H2 H3]].
  rewrite shift_mirror_ok in HM by assumption. injection HM as <-.
  set (j := ravel sh (upd (Z.to_nat axis) (Z.to_nat (mirrored (dim sh (Z.to_nat axis)) d (coord (unravel sh i) (Z.to_nat axis)))) (unravel sh i))).
  assert (E : forall j', (j' < prodl sh)%nat -> shift_mirror_mat (Z.to_nat axis) sh d i j' = (ind (Nat.eqb j j') : K)).
  { intros j' Hj'. rewrite <- (mv_unit K (prodl sh) (shift_mirror_mat (Z.to_nat axis) sh d) j' i Hj').
    rewrite mv_shift_mirror by (try assumption; lia). reflexivity. }
  pose proof (inb_unravel sh i Hi) as Hin.
  pose proof (inb_coord sh _ (Z.to_nat axis) Hin ltac:(lia)) as Hc.
  pose proof (mirrored_range _ d _ Hc H3) as Hr.
  assert (Hj : (j < prodl sh)%nat) by (apply ravel_lt; apply inb_upd; [exact Hin|lia]).
  exists j. split; [exact Hj|]. split.
  - rewrite E by exact Hj. now rewrite Nat.eqb_refl.
  - intros j' Hj' Hne. rewrite E by exact Hj'.
    destruct (Nat.eqb_spec j j'); [congruence|reflexivity].
Qed.
Print Assumptions C04_one_entry_per_row.

Theorem C04_shift_with_mirror_raises :
  forall (K : Fld) (axis : Z) (sh : list nat) (d : Z),
    (0 < prodl sh)%nat ->
    shift_with_mirror (K := K) axis sh d = Raise <->
    ~ ((length sh = 2 \/ length sh = 3)%nat /\ (0 <= axis < Z.of_nat (length sh))%Z /\
       (- Z.of_nat (dim sh (Z.to_nat axis)) <= d < Z.of_nat (dim sh (Z.to_nat axis)))%Z).
Proof. exact shift_mirror_raises. Qed.
Print Assumptions C04_shift_with_mirror_raises.

Example C04_example :
  exists M : mat QcF, shift_with_mirror 1 ex_sh (-2) = Ok M
    /\ mv 12 M (flat ex_sh (ex_F 0%nat)) (ravel ex_sh [0; 0; 1]%nat) = ex_F 0%nat [0; 1; 1]%nat
    /\ mv 12 M (flat ex_sh (ex_F 0%nat)) (ravel ex_sh [0; 1; 1]%nat) = ex_F 0%nat [0; 0; 1]%nat
    /\ shift_with_mirror (K := QcF) 1 ex_sh (-4) = Raise.
Proof. eexists; repeat split; try qc_refl. Qed.

(** ** C05: div curl = 0 and curl grad = 0 *)

Theorem C05_div_curl :
  forall (K : Fld) (sh : list nat) (dx : option (widths K)) (F : field K) (idx : list nat),
    deriv_forward sh dx 0 (curl_forward sh dx F 0) idx
      + deriv_forward sh dx 1 (curl_forward sh dx F 1) idx
      + deriv_forward sh dx 2 (curl_forward sh dx F 2) idx = 0
    /\ deriv_back sh dx 0 (curl_back sh dx F 0) idx
      + deriv_back sh dx 1 (curl_back sh dx F 1) idx
      + deriv_back sh dx 2 (curl_back sh dx F 2) idx = 0.
Proof. intros; split; [apply div_curl_forward|apply div_curl_back]. Qed.
Print Assumptions C05_div_curl.

Theorem C05_curl_grad :
  forall (K : Fld) (sh : list nat) (dx : option (widths K)) (f : arr K) (c : nat) (idx : list nat),
    curl_forward sh dx (fun a => deriv_forward sh dx a f) c idx = 0
    /\ curl_back sh dx (fun a => deriv_back sh dx a f) c idx = 0.
Proof. intros; split; [apply curl_grad_forward|apply curl_grad_back]. Qed.
Print Assumptions C05_curl_grad.

(** The individual terms are not zero. *)
Example C05_example :
  deriv_forward ex_sh (Some ex_w) 0 (curl_forward ex_sh (Some ex_w) ex_F 0) [1; 2; 0]%nat <> 0.
Proof. vm_compute. discriminate. Qed.

(** ** C06: summation by parts *)

Theorem C06_summation_by_parts :
  forall (K : Fld) (sh : list nat) (a : nat) (we wh : widths K) (f g : arr K),
    (a < length sh)%nat -> nzw sh we -> nzw sh wh ->
    gsum sh (fun idx => we a (coord idx a) * (g idx * deriv_forward sh (Some we) a f idx))
    = - gsum sh (fun idx => wh a (coord idx a) * (f idx * deriv_back sh (Some wh) a g idx)).
Proof. exact sbp_plain. Qed.
Print Assumptions C06_summation_by_parts.

Theorem C06_curl_adjoint :
  forall (K : Fld) (sh : list nat) (we wh : widths K) (E H : field K),
    length sh = 3%nat -> nzw sh we -> nzw sh wh ->
    fsum sh (fun c idx => vol_h we wh c idx * (H c idx * curl_forward sh (Some we) E c idx))
    = fsum sh (fun c idx => vol_e we wh c idx * (E c idx * curl_back sh (Some wh) H c idx)).
Proof. exact curl_adjoint. Qed.
Print Assumptions C06_curl_adjoint.

Definition ex_wh : widths QcF := fun a i => qz (Z.of_nat (3 + 2 * a + i)).
Definition ex_G : field QcF := fun c idx => qz (Z.of_nat ((ravel ex_sh idx) * (ravel ex_sh idx) * (3 - c) + 1)).

Example C06_example :
  nzw ex_sh ex_w /\ nzw ex_sh ex_wh /\
  fsum ex_sh (fun c idx => vol_h ex_w ex_wh c idx * (ex_G c idx * curl_forward ex_sh (Some ex_w) ex_F c idx)) <> 0.
Proof.
  repeat split.
  - intros a i _ _. apply qz_nz. lia.
  - intros a i _ _. apply qz_nz. lia.
  - vm_compute. discriminate.
Qed.

(** ** C07: curl parts *)

Theorem C07_curl_parts :
  forall (K : Fld) (sh : list nat) (dx : option (widths K)) (F : field K) (c : nat) (idx : list nat),
    (c < 3)%nat ->
    fst (curl_forward_parts sh dx F c) idx + snd (curl_forward_parts sh dx F c) idx
      = curl_next sh dx F c idx
    /\ fst (curl_back_parts sh dx F c) idx + snd (curl_back_parts sh dx F c) idx
      = curl_prev sh dx F c idx.
Proof. exact curl_parts_sum. Qed.
Print Assumptions C07_curl_parts.

(** Each part is plus or minus one derivative of one other component: with
    (c, u, v) cyclic, the v-derivative of component u (negative) and the
    u-derivative of component v (positive), listed in the order of the code. *)
Theorem C07_parts_are_single_terms :
  forall (K : Fld) (sh : list nat) (dx : option (widths K)) (F : field K) (idx : list nat),
    let D := diff_next sh dx in
    let B := diff_prev sh dx in
    (fst (curl_forward_parts sh dx F 0) idx = - D 2%nat (F 1%nat) idx /\ snd (curl_forward_parts sh dx F 0) idx = D 1%nat (F 2%nat) idx)
    /\ (fst (curl_forward_parts sh dx F 1) idx = D 2%nat (F 0%nat) idx /\ snd (curl_forward_parts sh dx F 1) idx = - D 0%nat (F 2%nat) idx)
    /\ (fst (curl_forward_parts sh dx F 2) idx = - D 1%nat (F 0%nat) idx /\ snd (curl_forward_parts sh dx F 2) idx = D 0%nat (F 1%nat) idx)
    /\ (fst (curl_back_parts sh dx F 0) idx = - B 2%nat (F 1%nat) idx /\ snd (curl_back_parts sh dx F 0) idx = B 1%nat (F 2%nat) idx)
    /\ (fst (curl_back_parts sh dx F 1) idx = B 2%nat (F 0%nat) idx /\ snd (curl_back_parts sh dx F 1) idx = - B 0%nat (F 2%nat) idx)
    /\ (fst (curl_back_parts sh dx F 2) idx = - B 1%nat (F 0%nat) idx /\ snd (curl_back_parts sh dx F 2) idx = B 0%nat (F 1%nat) idx).
Proof. intros; repeat split; reflexivity. Qed.
Print Assumptions C07_parts_are_single_terms.

Example C07_example :
  fst (curl_forward_parts ex_sh (Some ex_w) ex_F 1) [0; 1; 2]%nat <> 0
  /\ snd (curl_forward_parts ex_sh (Some ex_w) ex_F 1) [0; 1; 2]%nat <> 0
  /\ curl_next ex_sh (Some ex_w) ex_F 1%nat [0; 1; 2]%nat <> 0
  /\ curl_prev ex_sh (Some ex_w) ex_F 1%nat [0; 1; 2]%nat <> curl_next ex_sh (Some ex_w) ex_F 1%nat [0; 1; 2]%nat.
Proof. repeat split; vm_compute; discriminate. Qed.

(** ** C08: averages *)

Theorem C08_avg :
  forall (K : Fld) (sh : list nat) (a : nat) (f : arr K) (idx : list nat),
    (a < length sh)%nat -> inb sh idx ->
    mv (prodl sh) (avg_forward_mat a sh) (flat sh f) (ravel sh idx) = (f idx + f (shift_ix sh a 1 idx)) / 2
    /\ mv (prodl sh) (avg_back_mat a sh) (flat sh f) (ravel sh idx) = (f idx + f (shift_ix sh a (-1) idx)) / 2.
Proof. exact avg_values. Qed.
Print Assumptions C08_avg.

Theorem C08_avg_constants_and_sums :
  forall (K : Fld) (sh : list nat) (a : nat),
    (a < length sh)%nat ->
    (forall (k : K) p, (p < prodl sh)%nat ->
        mv (prodl sh) (avg_forward_mat a sh) (fun _ => k) p = k
        /\ mv (prodl sh) (avg_back_mat a sh) (fun _ => k) p = k)
    /\ (forall x : vect K,
          sumN (prodl sh) (mv (prodl sh) (avg_forward_mat a sh) x) = sumN (prodl sh) x
          /\ sumN (prodl sh) (mv (prodl sh) (avg_back_mat a sh) x) = sumN (prodl sh) x)
    /\ (forall i j, avg_back_mat (K := K) a sh i j = avg_forward_mat a sh j i).
Proof. exact avg_laws. Qed.
Print Assumptions C08_avg_constants_and_sums.

Example C08_example :
  mv 12 (avg_forward_mat 1 ex_sh) (flat ex_sh (ex_F 0%nat)) (ravel ex_sh [0; 2; 1]%nat)
  = (ex_F 0%nat [0; 2; 1]%nat + ex_F 0%nat [0; 0; 1]%nat) / 2
  /\ ex_F 0%nat [0; 2; 1]%nat <> ex_F 0%nat [0; 0; 1]%nat.
Proof. split; [qc_refl|vm_compute; discriminate]. Qed.

(** ** C09: cross products *)

Theorem C09_vec_cross :
  forall (K : Fld) (sh : list nat) (B X : field K) (idx : list nat),
    inb sh idx ->
    let R := unvec sh (mv (3 * prodl sh) (vec_cross_mat (prodl sh) (vec sh B)) (vec sh X)) in
    R 0%nat idx = B 1%nat idx * X 2%nat idx - B 2%nat idx * X 1%nat idx
    /\ R 1%nat idx = B 2%nat idx * X 0%nat idx - B 0%nat idx * X 2%nat idx
    /\ R 2%nat idx = B 0%nat idx * X 1%nat idx - B 1%nat idx * X 0%nat idx.
Proof. exact vec_cross_values. Qed.
Print Assumptions C09_vec_cross.

Theorem C09_vec_cross_laws :
  forall (K : Fld) (sh : list nat) (B X : field K) (idx : list nat),
    inb sh idx ->
    let CP P Q := unvec sh (mv (3 * prodl sh) (vec_cross_mat (prodl sh) (vec sh P)) (vec sh Q)) in
    (forall c, (c < 3)%nat -> CP B X c idx = - CP X B c idx)
    /\ (forall c, (c < 3)%nat -> CP B B c idx = 0)
    /\ B 0%nat idx * CP B X 0%nat idx + B 1%nat idx * CP B X 1%nat idx + B 2%nat idx * CP B X 2%nat idx = 0.
Proof. exact vec_cross_laws. Qed.
Print Assumptions C09_vec_cross_laws.

(** [cross] of three matrices acts as the block curl. *)
Theorem C09_cross_blocks :
  forall (K : Fld) (n : nat) (B : nat -> mat K) (x : vect K) (p : nat),
    (p < n)%nat ->
    let x0 q := x (0 * n + q)%nat in let x1 q := x (1 * n + q)%nat in let x2 q := x (2 * n + q)%nat in
    mv (3 * n) (cross_mat n B) x (0 * n + p)%nat = mv n (B 1%nat) x2 p - mv n (B 2%nat) x1 p
    /\ mv (3 * n) (cross_mat n B) x (1 * n + p)%nat = mv n (B 2%nat) x0 p - mv n (B 0%nat) x2 p
    /\ mv (3 * n) (cross_mat n B) x (2 * n + p)%nat = mv n (B 0%nat) x1 p - mv n (B 1%nat) x0 p.
Proof.
  intros K n B x p Hp x0 x1 x2. repeat split; rewrite mv_cross by lia; reflexivity.
Qed.
Print Assumptions C09_cross_blocks.

Example C09_example :
  unvec ex_sh (mv 36 (vec_cross_mat 12 (vec ex_sh ex_F)) (vec ex_sh ex_G)) 2%nat [1; 0; 1]%nat <> 0.
Proof. vm_compute. discriminate. Qed.
