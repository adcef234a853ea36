(** Reciprocity of runs with CPML layers: power series of the fields in the time step solve
    the equations on stretched widths up to a high power. *)
From Coq Require Import Reals List Arith ZArith Lia Lra Psatz Field Bool.
From Verif.Lib Require Import Num Sums Idx Mat RealF BoxMin.
From Verif.Model Require Import Fdmath Fdtd Pml.
From Verif.Spec Require Import Yee FdtdRun CpmlSpec CpmlHarmonicSpec CpmlRecipSpec.
From Verif.Proofs Require Import FdmathP FdmathP2 FdtdP FdtdP2 ResonanceP PmlP CpmlHarmP ModesP.
Import ListNotations.
Local Open Scope R_scope.

(** ** Functions that are bounded near zero *)
Definition ev (P : R -> Prop) : Prop := exists d, 0 < d /\ forall x, 0 < x < d -> P x.
Definition bd (f : R -> R) : Prop := exists M, ev (fun x => Rabs (f x) <= M).
Lemma ev_and P Q : ev P -> ev Q -> ev (fun x => P x /\ Q x).
Proof. intros (d & Hd & A) (e & He & B). exists (Rmin d e). split; [now apply Rmin_pos|]. intros x Hx. pose proof (Rmin_l d e). pose proof (Rmin_r d e). split; [apply A|apply B]; lra. Qed.
Lemma ev_imp (P Q : R -> Prop) : (forall x, 0 < x -> P x -> Q x) -> ev P -> ev Q.
Proof. intros H (d & Hd & A). exists d. split; [exact Hd|]. intros x Hx. apply H; [lra|]. now apply A. Qed.
Lemma ev_all n (P : nat -> R -> Prop) : (forall k, (k < n)%nat -> ev (P k)) -> ev (fun x => forall k, (k < n)%nat -> P k x).
Proof.
  induction n as [|n IH]; intro H; [exists 1; split; [lra|]; intros; lia|].
  eapply ev_imp; [|exact (ev_and _ _ (IH ltac:(intros; apply H; lia)) (H n ltac:(lia)))]. intros x _ [A B] k Hk. destruct (Nat.eq_dec k n) as [->|N]; [exact B|apply A; lia].
Qed.
Lemma bd_ext f g : ev (fun x => f x = g x) -> bd f -> bd g.
Proof. intros E (M & B). exists M. eapply ev_imp; [|exact (ev_and _ _ E B)]. intros x _ [A C]. cbv beta in *. now rewrite <- A. Qed.
Lemma bd_const c : bd (fun _ => c).
Proof. exists (Rabs c). exists 1. split; [lra|]. intros. apply Rle_refl. Qed.
Lemma bd_id : bd (fun x => x).
Proof. exists 1. exists 1. split; [lra|]. intros x Hx. rewrite Rabs_pos_eq; lra. Qed.
Lemma bd_add f g : bd f -> bd g -> bd (fun x => f x + g x).
Proof. intros (M & A) (N & B). exists (M + N). eapply ev_imp; [|exact (ev_and _ _ A B)]. intros x _ [C D]. cbv beta in *. eapply Rle_trans; [apply Rabs_triang|lra]. Qed.
Lemma bd_mul f g : bd f -> bd g -> bd (fun x => f x * g x).
Proof.
  intros (M & A) (N & B). exists (M * N). eapply ev_imp; [|exact (ev_and _ _ A B)]. intros x _ [C D]. cbv beta in *. rewrite Rabs_mult. apply Rmult_le_compat; try apply Rabs_pos; assumption.
Qed.
Lemma bd_opp f : bd f -> bd (fun x => - f x).
Proof. intros (M & A). exists M. eapply ev_imp; [|exact A]. intros x _ C. cbv beta in *. now rewrite Rabs_Ropp. Qed.
Lemma bd_sub f g : bd f -> bd g -> bd (fun x => f x - g x).
Proof. intros. apply bd_add; [assumption|now apply bd_opp]. Qed.
Lemma bd_pow n : bd (fun x => x ^ n).
Proof. induction n as [|n IH]; [apply (bd_const 1)|]. cbn [pow]. apply bd_mul; [apply bd_id|exact IH]. Qed.
Lemma bd_sum n (f : nat -> R -> R) : (forall k, (k < n)%nat -> bd (f k)) -> bd (fun x => rs n (fun k => f k x)).
Proof.
  induction n as [|n IH]; intro H; [apply (bd_const 0)|]. change (bd (fun x => rs n (fun k => f k x) + f n x)). apply bd_add; [apply IH; intros; apply H; lia|apply H; lia].
Qed.
(** Functions that start at a value: c + x g(x). *)
Definition from (c : R) (f : R -> R) : Prop := exists g, bd g /\ ev (fun x => f x = c + x * g x).
Lemma from_bd c f : from c f -> bd f.
Proof. intros (g & B & E). apply (bd_ext (fun x => c + x * g x)); [eapply ev_imp; [|exact E]; intros x _ Q; now symmetry|]. apply bd_add; [apply bd_const|]. apply bd_mul; [apply bd_id|exact B]. Qed.
Lemma from_const c : from c (fun _ => c).
Proof. exists (fun _ => 0). split; [apply bd_const|]. exists 1. split; [lra|]. intros. ring. Qed.
Lemma from_add c d f g : from c f -> from d g -> from (c + d) (fun x => f x + g x).
Proof. intros (u & A & E) (v & B & F). exists (fun x => u x + v x). split; [now apply bd_add|]. eapply ev_imp; [|exact (ev_and _ _ E F)]. intros x _ [P Q]. cbv beta in *. rewrite P, Q. ring. Qed.
Lemma from_mul c d f g : from c f -> from d g -> from (c * d) (fun x => f x * g x).
Proof.
  intros (u & A & E) (v & B & F). exists (fun x => c * v x + d * u x + x * (u x * v x)). split.
  - apply bd_add; [apply bd_add; apply bd_mul; try apply bd_const; assumption|]. apply bd_mul; [apply bd_id|now apply bd_mul].
  - eapply ev_imp; [|exact (ev_and _ _ E F)]. intros x _ [P Q]. cbv beta in *. rewrite P, Q. ring.
Qed.
Lemma from_nz c f : c <> 0 -> from c f -> ev (fun x => Rabs (f x) >= Rabs c / 2).
Proof.
  intros Hc (g & (M & d & Hd & B) & E). assert (C : 0 < Rabs c) by now apply Rabs_pos_lt. set (M' := Rabs M + 1). assert (Mp : 0 < M') by (unfold M'; pose proof (Rabs_pos M); lra).
  assert (D : ev (fun x => x * M' <= Rabs c / 2 /\ Rabs (g x) <= M')).
  { exists (Rmin d (Rabs c / 2 / M')). split; [apply Rmin_pos; [exact Hd|]; apply Rdiv_lt_0_compat; lra|]. intros x Hx. pose proof (Rmin_l d (Rabs c / 2 / M')). pose proof (Rmin_r d (Rabs c / 2 / M')). split.
    - apply Rle_trans with (Rabs c / 2 / M' * M'); [apply Rmult_le_compat_r; lra|]. right. field. lra.
    - apply Rle_trans with M; [apply B; lra|]. unfold M'. pose proof (Rle_abs M). lra. }
  eapply ev_imp; [|exact (ev_and _ _ E D)]. intros x Hx [P [Q S]]. cbv beta in *. rewrite P. pose proof (Rabs_triang_inv c (- (x * g x))) as T. rewrite Rabs_Ropp, Rabs_mult, (Rabs_pos_eq x) in T by lra. replace (c - - (x * g x)) with (c + x * g x) in T by ring.
  assert (x * Rabs (g x) <= x * M') by (apply Rmult_le_compat_l; lra). lra.
Qed.
Lemma from_ne c f : c <> 0 -> from c f -> ev (fun x => f x <> 0).
Proof. intros Hc F. eapply ev_imp; [|exact (from_nz c f Hc F)]. intros x _ Q Z. cbv beta in Q. rewrite Z, Rabs_R0 in Q. pose proof (Rabs_pos_lt c Hc). lra. Qed.
Lemma bd_inv c f : c <> 0 -> from c f -> bd (fun x => / f x).
Proof.
  intros Hc F. exists (/ (Rabs c / 2)). eapply ev_imp; [|exact (ev_and _ _ (from_nz c f Hc F) (from_ne c f Hc F))]. intros x _ [Q N]. cbv beta in *. pose proof (Rabs_pos_lt c Hc). rewrite Rabs_inv. apply Rinv_le_contravar; lra.
Qed.
Lemma from_inv c f : c <> 0 -> from c f -> from (/ c) (fun x => / f x).
Proof.
  intros Hc F. pose proof (from_ne c f Hc F) as N. pose proof (bd_inv c f Hc F) as I. destruct F as (g & B & E). exists (fun x => - (g x * / c) * / f x). split.
  - apply bd_mul; [|exact I]. apply bd_opp. apply bd_mul; [exact B|apply bd_const].
  - eapply ev_imp; [|exact (ev_and _ _ E N)]. intros x _ [P Q]. cbv beta in *. rewrite P in *. field. split; assumption.
Qed.

(** A polynomial that is small of its own order vanishes. *)
Lemma poly_zero n : forall (c : nat -> R) (B : R -> R), bd B -> ev (fun x => rs n (fun k => x ^ k * c k) = x ^ n * B x) -> forall k, (k < n)%nat -> c k = 0.
Proof.
  induction n as [|n IH]; intros c B HB E k Hk; [lia|].
  assert (Sh : forall x, rs (S n) (fun k => x ^ k * c k) = c 0%nat + x * rs n (fun k => x ^ k * c (S k))).
  { intro x. refine (eq_trans (sumN_shift RF n _) _). change (x ^ 0 * c 0%nat + rs n (fun k => x ^ S k * c (S k)) = c 0%nat + x * rs n (fun k => x ^ k * c (S k))). rewrite <- rs_scale. cbn [pow]. rewrite Rmult_1_l. f_equal. apply rs_ext. intros. ring. }
  assert (C0 : c 0%nat = 0).
  { destruct (Req_dec (c 0%nat) 0) as [Z|Nz]; [exact Z|exfalso].
    assert (F : from (c 0%nat) (fun _ => 0)).
    { exists (fun x => rs n (fun k => x ^ k * c (S k)) - x ^ n * B x). split.
      - apply bd_sub; [apply (bd_sum n (fun k x => x ^ k * c (S k))); intros; apply bd_mul; [apply bd_pow|apply bd_const]|apply bd_mul; [apply bd_pow|exact HB]].
      - eapply ev_imp; [|exact E]. intros x _ Q. cbv beta in Q. rewrite Sh in Q. cbn [pow] in Q. nra. }
    destruct (from_ne _ _ Nz F) as (d & Hd & Q). now apply (Q (d / 2)); [lra|]. }
  destruct k as [|k]; [exact C0|]. apply (IH (fun k => c (S k)) B HB); [|lia]. eapply ev_imp; [|exact E]. intros x Hx Q. cbv beta in Q. rewrite Sh, C0 in Q. cbn [pow] in Q. apply (Rmult_eq_reg_l x); [|lra]. lra.
Qed.

(** Products of power series. *)
Lemma triangle (a : nat -> nat -> R) x N : rs N (fun m => x ^ m * rs (N - m) (fun n => x ^ n * a m n)) = rs N (fun k => x ^ k * rs (S k) (fun m => a m (k - m)%nat)).
Proof.
  induction N as [|N IH]; [reflexivity|].
  change (rs N (fun m => x ^ m * rs (S N - m) (fun n => x ^ n * a m n)) + x ^ N * rs (S N - N) (fun n => x ^ n * a N n) = rs N (fun k => x ^ k * rs (S k) (fun m => a m (k - m)%nat)) + x ^ N * rs (S N) (fun m => a m (N - m)%nat)).
  rewrite <- IH. replace (S N - N)%nat with 1%nat by lia.
  rewrite (rs_ext N (fun m => x ^ m * rs (S N - m) (fun n => x ^ n * a m n)) (fun m => x ^ m * rs (N - m) (fun n => x ^ n * a m n) + x ^ N * a m (N - m)%nat)).
  - rewrite rs_add, rs_scale. change (rs (S N) (fun m => a m (N - m)%nat)) with (rs N (fun m => a m (N - m)%nat) + a N (N - N)%nat). rewrite Nat.sub_diag. change (rs 1 (fun n => x ^ n * a N n)) with (0 + x ^ 0 * a N 0%nat). cbn [pow]. ring.
  - intros m Hm. replace (S N - m)%nat with (S (N - m)) by lia. change (rs (S (N - m)) (fun n => x ^ n * a m n)) with (rs (N - m) (fun n => x ^ n * a m n) + x ^ (N - m) * a m (N - m)%nat). rewrite Rmult_plus_distr_l, <- Rmult_assoc, <- pow_add. now replace (m + (N - m))%nat with N by lia.
Qed.
Lemma cauchy (a : nat -> nat -> R) N : exists B, bd B /\ forall x, rs N (fun m => x ^ m * rs N (fun n => x ^ n * a m n)) = rs N (fun k => x ^ k * rs (S k) (fun m => a m (k - m)%nat)) + x ^ N * B x.
Proof.
  exists (fun x => rs N (fun m => rs m (fun n => x ^ n * a m (N - m + n)%nat))). split.
  - apply (bd_sum N (fun m x => rs m (fun n => x ^ n * a m (N - m + n)%nat))). intros m _. apply (bd_sum m (fun n x => x ^ n * a m (N - m + n)%nat)). intros. apply bd_mul; [apply bd_pow|apply bd_const].
  - intro x. rewrite <- triangle, <- rs_scale, <- rs_add. apply rs_ext. intros m Hm. replace (rs N (fun n => x ^ n * a m n)) with (rs (N - m + m) (fun n => x ^ n * a m n)) by (f_equal; lia).
    refine (eq_trans (f_equal _ (sumN_app RF (N - m) m _)) _). change (x ^ m * (rs (N - m) (fun n => x ^ n * a m n) + rs m (fun n => x ^ (N - m + n) * a m (N - m + n)%nat)) = x ^ m * rs (N - m) (fun n => x ^ n * a m n) + x ^ N * rs m (fun n => x ^ n * a m (N - m + n)%nat)).
    rewrite Rmult_plus_distr_l. f_equal. rewrite <- !rs_scale. apply rs_ext. intros n _. rewrite <- !Rmult_assoc, <- !pow_add. f_equal. f_equal. lia.
Qed.

Lemma dist3 (x s d u v : R) : x * (s * d + u + v) = s * (x * d) + (x * u + x * v).
Proof. ring. Qed.
(** A geometric memory. *)
Lemma psi_series (psi b : nat -> R) q x N : psi 0%nat = 0 -> (forall n, psi (S n) = psi n * q + b n) -> 1 - q * x <> 0 ->
  rs N (fun n => x ^ n * psi (S n)) = (rs N (fun n => x ^ n * b n) - x ^ N * (q * psi N)) / (1 - q * x).
Proof.
  intros H0 HS Hn. induction N as [|N IH]; [change (0 = (0 - x ^ 0 * (q * psi 0%nat)) / (1 - q * x)); rewrite H0; field; exact Hn|].
  change (rs N (fun n => x ^ n * psi (S n)) + x ^ N * psi (S N) = (rs N (fun n => x ^ n * b n) + x ^ N * b N - x ^ S N * (q * psi (S N))) / (1 - q * x)). rewrite IH. set (u := rs N _). rewrite (HS N). cbn [pow]. field. exact Hn.
Qed.

Section L.
  Variable sh : list nat.
  Variable Ls : nat -> nat -> option (layer RF).
  Variables p0 p1 p2 : layer RF -> nat -> R.
  Hypothesis HL : length sh = 3%nat.
  Notation gn x := (gain (K := RF) sh Ls p0 p1 p2 (/ x)).

  Lemma resp_from a pp i : from (match coef (K := RF) sh Ls p1 a pp i with Some q => q | None => 0 end) (fun x => resp (K := RF) sh Ls p0 p1 (/ x) a pp i).
  Proof.
    unfold resp, coef. destruct (here sh Ls a pp [i; i; i]) as [L|]; cbn [option_map]; [|apply from_const].
    set (q1 := p1 L _). set (q0 := p0 L _).
    assert (F1 : from 1 (fun x => 1 - q0 * x)). { exists (fun _ => - q0). split; [apply bd_const|]. exists 1. split; [lra|]. intros. ring. }
    pose proof (from_mul _ _ _ _ (from_const q1) (from_inv _ _ R1_neq_R0 F1)) as F. destruct F as (g & B & E). exists g. split; [exact B|].
    eapply ev_imp; [|exact (ev_and _ _ E (from_ne _ _ R1_neq_R0 F1))]. intros x Hx [P N]. cbv beta in *. rewrite Rinv_1, Rmult_1_r in P. rewrite <- P.
    change (q1 / (1 - q0 / / x) = q1 * / (1 - q0 * x)). field. repeat split; try exact N; try lra.
  Qed.
  Lemma gain_from a i : from (instant (K := RF) sh Ls p1 p2 a i) (fun x => gn x a i).
  Proof.
    unfold gain, instant. set (lo := or1 (coef sh Ls p2 a 0 i)). set (hi := or1 (coef sh Ls p2 a 1 i)).
    apply (from_add (lo * hi * (1 + _)) (lo * _) (fun x => lo * hi * (1 + resp (K := RF) sh Ls p0 p1 (/ x) a 1 i)) (fun x => lo * resp (K := RF) sh Ls p0 p1 (/ x) a 0 i)).
    - apply (from_mul (lo * hi) (1 + _) (fun _ => lo * hi)); [apply from_const|]. apply (from_add 1 _ (fun _ => 1)); [apply from_const|apply resp_from].
    - apply (from_mul lo _ (fun _ => lo)); [apply from_const|apply resp_from].
  Qed.
  Lemma regular_ev : responsive (K := RF) sh Ls p1 p2 -> ev (fun x => regular (K := RF) sh Ls p0 p1 p2 (/ x)).
  Proof.
    intro Hr. unfold regular.
    assert (A : ev (fun x => forall a, (a < 3)%nat -> forall i, (i < dim sh a)%nat -> gn x a i <> 0 /\ forall pp, (pp < 2)%nat -> forall q, coef (K := RF) sh Ls p0 a pp i = Some q -> / x - q <> 0)).
    { apply ev_all. intros a Ha. apply ev_all. intros i Hi. apply ev_and; [apply (from_ne _ _ (Hr a i Ha Hi)), gain_from|]. apply ev_all. intros pp Hp. destruct (coef (K := RF) sh Ls p0 a pp i) as [q|]; [|exists 1; split; [lra|]; intros; discriminate].
      assert (F1 : from 1 (fun x => 1 - q * x)). { exists (fun _ => - q). split; [apply bd_const|]. exists 1. split; [lra|]. intros. ring. }
      eapply ev_imp; [|exact (from_ne _ _ R1_neq_R0 F1)]. intros x Hx N q' Q. injection Q as <-. intro Z. apply N. replace (1 - q * x) with (x * (/ x - q)) by (field; lra). rewrite Z. ring. }
    eapply ev_imp; [|exact A]. intros x _ Q a i Ha Hi. destruct (Q a Ha i Hi) as [U V]. split; [exact U|]. intros pp q Hp. exact (V pp Hp q).
  Qed.

  (** What is left of the memory at the end. *)
  Definition left1 (ps : psis RF) a c pp idx (x : R) : R :=
    match here sh Ls a pp idx with Some L => let q := p0 L (depth sh a pp (lth L) idx) in q * ps a pp (slot_of a c) idx / (1 - q * x) | None => 0 end.
  Definition left2 ps a c idx x : R := left1 ps a c 0 idx x + left1 ps a c 1 idx x.
  Lemma left_bd ps a c idx : bd (left2 ps a c idx).
  Proof.
    apply bd_add; unfold left1; (destruct (here sh Ls a _ idx) as [L|]; [|apply bd_const]); cbv zeta; set (q := p0 L _);
      (apply bd_mul; [apply bd_const|]; apply (bd_inv 1); [apply R1_neq_R0|]; exists (fun _ => - q); split; [apply bd_const|]; exists 1; split; [lra|]; intros; ring).
  Qed.

  Variable D : nat -> nat -> nat -> arr RF.
  Variable ps : nat -> psis RF.
  Hypothesis P0 : forall a pp k idx, ps 0%nat a pp k idx = 0.
  Hypothesis PS : forall n, ps (S n) = fst (core RF sh Ls p0 p1 p2 (D n) (ps n)).

  Lemma T_series N x a c idx : (a < 3)%nat -> (c < 3)%nat -> a <> c -> inb sh idx -> x <> 0 -> regular (K := RF) sh Ls p0 p1 p2 (/ x) ->
    rs N (fun n => x ^ n * T RF sh Ls p0 p1 p2 (D n) (ps n) a c idx) = gn x a (coord idx a) * rs N (fun n => x ^ n * D n a c idx) - x ^ N * left2 (ps N) a c idx x.
  Proof.
    intros Ha Hc Hac Hi Hx Reg.
    assert (S1 : slotc a (slot_of a c) = c) by (destruct a as [|[|[|a]]]; try lia; destruct c as [|[|[|c]]]; try lia; reflexivity).
    assert (S2 : (slot_of a c < 2)%nat) by (destruct a as [|[|[|a]]]; try lia; destruct c as [|[|[|c]]]; try lia; cbn; lia).
    set (d := rs N (fun n => x ^ n * D n a c idx)).
    assert (M : forall pp, (pp < 2)%nat -> rs N (fun n => x ^ n * memv RF sh Ls a pp idx (fst (core RF sh Ls p0 p1 p2 (D n) (ps n)) a pp (slot_of a c) idx))
      = scale_at (K := RF) sh Ls p2 a pp idx * resp (K := RF) sh Ls p0 p1 (/ x) a pp (coord idx a) * d - x ^ N * left1 (ps N) a c pp idx x).
    { intros pp Hp. destruct (Reg a (coord idx a) Ha (co_lt sh HL a idx Ha Hi)) as [_ RR]. specialize (RR pp). unfold memv, left1, resp. rewrite !coef_at in * by exact Ha.
      destruct (here sh Ls a pp idx) as [L|] eqn:Eh; cbn [option_map] in *.
      - specialize (RR _ Hp eq_refl). set (q0 := p0 L _) in *. set (q1 := p1 L (depth sh a pp (lth L) idx)). set (s := scale_at (K := RF) sh Ls p2 a pp idx). cbv zeta.
        assert (Q : 1 - q0 * x <> 0). { intro Z. apply RR. change (/ x - q0 = 0). replace (/ x - q0) with ((1 - q0 * x) / x) by (field; exact Hx). rewrite Z. unfold Rdiv. ring. }
        rewrite (rs_ext N _ (fun n => x ^ n * ps (S n) a pp (slot_of a c) idx)) by (intros n _; now rewrite PS).
        rewrite (psi_series (fun n => ps n a pp (slot_of a c) idx) (fun n => q1 * (s * D n a c idx)) q0 x N); [|apply P0| |exact Q].
        + rewrite (rs_ext N (fun n => x ^ n * (q1 * (s * D n a c idx))) (fun n => (q1 * s) * (x ^ n * D n a c idx))) by (intros; ring). rewrite rs_scale. fold d.
          change ((q1 * s * d - x ^ N * (q0 * ps N a pp (slot_of a c) idx)) / (1 - q0 * x) = s * (q1 / (1 - q0 / / x)) * d - x ^ N * (q0 * ps N a pp (slot_of a c) idx / (1 - q0 * x))).
          field. repeat split; assumption || (intro Z; apply Q; lra).
        + intro n. rewrite PS, core_psi by assumption. unfold psi_next. rewrite Eh, S1. reflexivity.
      - rewrite (rs_ext N _ (fun n => 0 * x ^ n)) by (intros n _; change (x ^ n * 0 = 0 * x ^ n); ring). rewrite rs_scale. change (0 * rs N (fun n => x ^ n) = (scale_at (K := RF) sh Ls p2 a pp idx : R) * 0 * d - x ^ N * 0). set (sc := scale_at (K := RF) sh Ls p2 a pp idx). change (0 * rs N (fun n => x ^ n) = (sc : R) * 0 * d - x ^ N * 0). ring. }
    rewrite (rs_ext N _ (fun n => scale_at (K := RF) sh Ls p2 a 1 idx * (x ^ n * D n a c idx) + (x ^ n * memv RF sh Ls a 0 idx (fst (core RF sh Ls p0 p1 p2 (D n) (ps n)) a 0%nat (slot_of a c) idx) + x ^ n * memv RF sh Ls a 1 idx (fst (core RF sh Ls p0 p1 p2 (D n) (ps n)) a 1%nat (slot_of a c) idx)))) by (intros n _; unfold T; apply dist3).
    rewrite !rs_add, rs_scale, !M by lia. fold d. unfold left2, gain, CpmlSpec.scale_at. rewrite !kfac_at by exact Ha. set (u1 := or1 (coef sh Ls p2 a 0 (coord idx a))); set (u2 := or1 (coef sh Ls p2 a 1 (coord idx a))); set (r0 := resp sh Ls p0 p1 (/ x) a 0 (coord idx a)); set (r1 := resp sh Ls p0 p1 (/ x) a 1 (coord idx a)). change ((u1 * u2 : R) * d + (u1 * r0 * d - x ^ N * left1 (ps N) a c 0 idx x + (u1 * u2 * r1 * d - x ^ N * left1 (ps N) a c 1 idx x)) = (u1 * u2 * (1 + r1) + u1 * r0) * d - x ^ N * (left1 (ps N) a c 0 idx x + left1 (ps N) a c 1 idx x)). ring.
  Qed.
End L.

Lemma shift_series (f : nat -> R) x N : f 0%nat = 0 -> rs N (fun n => x ^ n * f n) = x * rs N (fun n => x ^ n * f (S n)) - x ^ N * f N.
Proof.
  intro H0. induction N as [|N IH]; [change (0 = x * 0 - x ^ 0 * f 0%nat); rewrite H0; cbn; ring|].
  change (rs N (fun n => x ^ n * f n) + x ^ N * f N = x * (rs N (fun n => x ^ n * f (S n)) + x ^ N * f (S N)) - x ^ S N * f (S N)). rewrite IH. cbn [pow]. ring.
Qed.
Lemma four (p q u v X : R) : p - X * u - (q - X * v) = p - q - X * (u - v).
Proof. ring. Qed.
Lemma dq (w : R) N (k f g : nat -> R) : (rs N (fun n => k n * f n) - rs N (fun n => k n * g n)) / w = rs N (fun n => k n * ((f n - g n) / w)).
Proof. induction N as [|N IH]; [change ((0 - 0) / w = 0); unfold Rdiv; ring|]. change ((rs N (fun n => k n * f n) + k N * f N - (rs N (fun n => k n * g n) + k N * g N)) / w = rs N (fun n => k n * ((f n - g n) / w)) + k N * ((f N - g N) / w)). rewrite <- IH. unfold Rdiv. ring. Qed.
Lemma fwd_series sh w a idx N (k : nat -> R) (f : nat -> arr RF) : deriv_forward (K := RF) sh (Some w) a (fun i => rs N (fun n => k n * f n i)) idx = rs N (fun n => k n * deriv_forward (K := RF) sh (Some w) a (f n) idx).
Proof. exact (dq (w a (coord idx a)) N k (fun n => roll (K := RF) sh (-1) a (f n) idx) (fun n => f n idx)). Qed.
Lemma bck_series sh w a idx N (k : nat -> R) (f : nat -> arr RF) : deriv_back (K := RF) sh (Some w) a (fun i => rs N (fun n => k n * f n i)) idx = rs N (fun n => k n * deriv_back (K := RF) sh (Some w) a (f n) idx).
Proof. exact (dq (w a (coord idx a)) N k (fun n => f n idx) (fun n => roll (K := RF) sh 1 a (f n) idx)). Qed.

Lemma rs_sub n (f g : nat -> R) : rs n (fun i => f i - g i) = rs n f - rs n g.
Proof. exact (sumN_sub RF n f g). Qed.
Lemma bd_fs sh (f : nat -> list nat -> R -> R) : (forall c i, (c < 3)%nat -> inb sh i -> bd (f c i)) -> bd (fun x => fsum (K := RF) sh (fun c i => f c i x)).
Proof.
  intro H. assert (G : forall c, (c < 3)%nat -> bd (fun x => gsum (K := RF) sh (fun i => f c i x))).
  { intros c Hc. apply (bd_ext (fun x => rs (prodl sh) (fun p => f c (unravel sh p) x))); [exists 1; split; [lra|]; intros; symmetry; apply (gsum_flat RF)|].
    apply (bd_sum (prodl sh) (fun p x => f c (unravel sh p) x)). intros p Hp. apply H; [exact Hc|now apply inb_unravel]. }
  unfold fsum. apply (bd_add (fun x => gsum (K := RF) sh (fun i => f 0%nat i x) + gsum (K := RF) sh (fun i => f 1%nat i x)) (fun x => gsum (K := RF) sh (fun i => f 2%nat i x))); [|apply G; lia].
  apply (bd_add (fun x => gsum (K := RF) sh (fun i => f 0%nat i x)) (fun x => gsum (K := RF) sh (fun i => f 1%nat i x))); apply G; lia.
Qed.

Section Run.
  Variable sh : list nat.
  Variable Ls : nat -> nat -> option (layer RF).
  Variable dt : R.
  Variable w : widths RF.
  Variables eps mu : field RF.
  Hypothesis HL : length sh = 3%nat.
  Hypothesis Hw : nzw (K := RF) sh w.
  Hypothesis He : nzm (K := RF) sh eps.
  Hypothesis Hm : nzm (K := RF) sh mu.
  Hypothesis RE : responsive (K := RF) sh Ls lp1e lp2e.
  Hypothesis RH : responsive (K := RF) sh Ls lp1h lp2h.
  Notation st j n := (cpml_after (K := RF) sh Ls dt w eps mu j n).
  Notation we x := (effective (K := RF) sh Ls lp0h lp1h lp2h (/ x) w).
  Notation wh x := (effective (K := RF) sh Ls lp0e lp1e lp2e (/ x) w).

  Lemma st_S j n : st j (S n) = cpml_step (K := RF) sh Ls dt w eps mu (j n) (st j n).
  Proof. unfold cpml_after, cpml_run. rewrite seq_S, map_app, fold_left_app. reflexivity. Qed.
  Notation DH j n := (fun a b => deriv_forward (K := RF) sh (Some w) a (pE_ (st j n) b)).
  Notation DE j n := (fun a b => deriv_back (K := RF) sh (Some w) a (pH_ (st j (S n)) b)).
  Notation cH j n := (core RF sh Ls lp0h lp1h lp2h (DH j n) (psH (st j n))).
  Notation cE j n := (core RF sh Ls lp0e lp1e lp2e (DE j n) (psE (st j n))).
  Lemma psH_S j n : psH (st j (S n)) = fst (cH j n).
  Proof. rewrite st_S. reflexivity. Qed.
  Lemma psE_S j n : psE (st j (S n)) = fst (cE j n).
  Proof. rewrite st_S at 1. rewrite st_S. reflexivity. Qed.
  Lemma H_S j n c i : (c < 3)%nat -> pH_ (st j (S n)) c i = pH_ (st j n) c i - dt / mu c i * snd (cH j n) c i.
  Proof. intro Hc. rewrite st_S. cbn [cpml_step pH_]. now rewrite (update_H_core RF). Qed.
  Lemma E_S j n c i : (c < 3)%nat -> pE_ (st j (S n)) c i = pE_ (st j n) c i + dt / eps c i * snd (cE j n) c i + j n c i / eps c i.
  Proof. intro Hc. rewrite st_S at 1. unfold cpml_step at 1. cbn [pE_]. rewrite (update_E_core RF) by exact Hc. rewrite st_S. reflexivity. Qed.

  Variable N : nat.
  Definition se (j : nat -> field RF) (x : R) : field RF := fun c i => rs N (fun n => x ^ n * pE_ (st j n) c i).
  Definition sh_ (j : nat -> field RF) (x : R) : field RF := fun c i => rs N (fun n => x ^ n * pH_ (st j (S n)) c i).
  Definition sj (j : nat -> field RF) (x : R) : field RF := fun c i => rs N (fun n => x ^ n * j n c i).
  Definition cl (L2 : nat -> nat -> R) (c : nat) : R :=
    match c with 0%nat => L2 1%nat 2%nat - L2 2%nat 1%nat | 1%nat => L2 2%nat 0%nat - L2 0%nat 2%nat | _ => L2 0%nat 1%nat - L2 1%nat 0%nat end.
  Definition lH j x c i := cl (fun a b => left2 sh Ls lp0h (psH (st j N)) a b i x) c.
  Definition lE j x c i := cl (fun a b => left2 sh Ls lp0e (psE (st j N)) a b i x) c.

  Lemma curl_H j x c i : (c < 3)%nat -> inb sh i -> x <> 0 -> regular (K := RF) sh Ls lp0h lp1h lp2h (/ x) ->
    rs N (fun n => x ^ n * snd (cH j n) c i) = curl_forward (K := RF) sh (Some (we x)) (se j x) c i - x ^ N * lH j x c i.
  Proof.
    intros Hc Hi Hx Reg.
    pose proof (fun a b Ha Hb Hab => T_series sh Ls lp0h lp1h lp2h HL (fun n => DH j n) (fun n => psH (st j n)) (fun _ _ _ _ => eq_refl) (psH_S j) N x a b i Ha Hb Hab Hi Hx Reg) as TS.
    assert (G : forall a b, (a < 3)%nat -> (b < 3)%nat -> a <> b -> rs N (fun n => x ^ n * T RF sh Ls lp0h lp1h lp2h (DH j n) (psH (st j n)) a b i) = deriv_forward (K := RF) sh (Some (we x)) a (se j x b) i - x ^ N * left2 sh Ls lp0h (psH (st j N)) a b i x).
    { intros a b Ha Hb Hab. rewrite (TS a b Ha Hb Hab). rewrite (forward_eff RF sh Ls lp0h lp1h lp2h (/ x) Reg HL w Hw a _ i Ha Hi). unfold se. now rewrite fwd_series. }
    unfold curl_forward, curl_with, lH, cl. destruct c as [|[|[|c]]]; [| | |lia];
      (rewrite (rs_ext N _ (fun n => x ^ n * T RF sh Ls lp0h lp1h lp2h (DH j n) (psH (st j n)) _ _ i - x ^ n * T RF sh Ls lp0h lp1h lp2h (DH j n) (psH (st j n)) _ _ i)) by (intros n _; rewrite core_curl by lia; apply Rmult_minus_distr_l));
      rewrite rs_sub, !G by lia; apply four.
  Qed.
  Lemma curl_E j x c i : (c < 3)%nat -> inb sh i -> x <> 0 -> regular (K := RF) sh Ls lp0e lp1e lp2e (/ x) ->
    rs N (fun n => x ^ n * snd (cE j n) c i) = curl_back (K := RF) sh (Some (wh x)) (sh_ j x) c i - x ^ N * lE j x c i.
  Proof.
    intros Hc Hi Hx Reg.
    pose proof (fun a b Ha Hb Hab => T_series sh Ls lp0e lp1e lp2e HL (fun n => DE j n) (fun n => psE (st j n)) (fun _ _ _ _ => eq_refl) (psE_S j) N x a b i Ha Hb Hab Hi Hx Reg) as TS.
    assert (G : forall a b, (a < 3)%nat -> (b < 3)%nat -> a <> b -> rs N (fun n => x ^ n * T RF sh Ls lp0e lp1e lp2e (DE j n) (psE (st j n)) a b i) = deriv_back (K := RF) sh (Some (wh x)) a (sh_ j x b) i - x ^ N * left2 sh Ls lp0e (psE (st j N)) a b i x).
    { intros a b Ha Hb Hab. rewrite (TS a b Ha Hb Hab). rewrite (back_eff RF sh Ls lp0e lp1e lp2e (/ x) Reg HL w Hw a _ i Ha Hi). unfold sh_. now rewrite bck_series. }
    unfold curl_back, curl_with, lE, cl. destruct c as [|[|[|c]]]; [| | |lia];
      (rewrite (rs_ext N _ (fun n => x ^ n * T RF sh Ls lp0e lp1e lp2e (DE j n) (psE (st j n)) _ _ i - x ^ n * T RF sh Ls lp0e lp1e lp2e (DE j n) (psE (st j n)) _ _ i)) by (intros n _; rewrite core_curl by lia; apply Rmult_minus_distr_l));
      rewrite rs_sub, !G by lia; apply four.
  Qed.

  Definition rh j x c i : R := dt * lH j x c i - mu c i * pH_ (st j N) c i.
  Definition re j x c i : R := - (x * dt * lE j x c i) - eps c i * pE_ (st j N) c i.
  Lemma eq_H j x c i : (c < 3)%nat -> inb sh i -> x <> 0 -> regular (K := RF) sh Ls lp0h lp1h lp2h (/ x) ->
    mu c i * sh_ j x c i * (1 - x) = - (dt * curl_forward (K := RF) sh (Some (we x)) (se j x) c i) + x ^ N * rh j x c i.
  Proof.
    intros Hc Hi Hx Reg. pose proof (curl_H j x c i Hc Hi Hx Reg) as C. pose proof (shift_series (fun n => pH_ (st j n) c i) x N eq_refl) as Sh. cbv beta in Sh. fold (sh_ j x c i) in Sh.
    assert (Q : mu c i * sh_ j x c i = mu c i * rs N (fun n => x ^ n * pH_ (st j n) c i) - dt * rs N (fun n => x ^ n * snd (cH j n) c i)).
    { unfold sh_. rewrite <- !rs_scale, <- rs_sub. apply rs_ext. intros n _. rewrite (H_S j n c i Hc). pose proof (Hm c i Hc Hi) as Nz. set (v := snd (cH j n) c i). set (u := pH_ (st j n) c i). set (m := mu c i) in *.
      change (m * (x ^ n * (u - dt / m * v)) = m * (x ^ n * u) - dt * (x ^ n * v)). change (m <> 0) in Nz. field. exact Nz. }
    rewrite Sh, C in Q. unfold rh. set (h := sh_ j x c i) in *. set (cf := curl_forward sh _ _ c i) in *. set (l := lH j x c i) in *. set (m := mu c i) in *. set (hN := pH_ (st j N) c i) in *.
    change (m * h = m * (x * h - x ^ N * hN) - dt * (cf - x ^ N * l)) in Q. change (m * h * (1 - x) = - (dt * cf) + x ^ N * (dt * l - m * hN)). transitivity (m * h - x * (m * h)); [ring|]. rewrite Q at 1. ring.
  Qed.
  Lemma eq_E j x c i : (c < 3)%nat -> inb sh i -> x <> 0 -> regular (K := RF) sh Ls lp0e lp1e lp2e (/ x) ->
    eps c i * se j x c i * (1 - x) = x * (dt * curl_back (K := RF) sh (Some (wh x)) (sh_ j x) c i) + x * sj j x c i + x ^ N * re j x c i.
  Proof.
    intros Hc Hi Hx Reg. pose proof (curl_E j x c i Hc Hi Hx Reg) as C. pose proof (shift_series (fun n => pE_ (st j n) c i) x N eq_refl) as Sh. cbv beta in Sh. fold (se j x c i) in Sh.
    assert (Q : eps c i * rs N (fun n => x ^ n * pE_ (st j (S n)) c i) = eps c i * se j x c i + dt * rs N (fun n => x ^ n * snd (cE j n) c i) + sj j x c i).
    { unfold se, sj. rewrite <- !rs_scale, <- !rs_add. apply rs_ext. intros n _. rewrite (E_S j n c i Hc). pose proof (He c i Hc Hi) as Nz. set (v := snd (cE j n) c i). set (u := pE_ (st j n) c i). set (m := eps c i) in *. set (jj := j n c i).
      change (m * (x ^ n * (u + dt / m * v + jj / m)) = m * (x ^ n * u) + dt * (x ^ n * v) + x ^ n * jj). change (m <> 0) in Nz. field. exact Nz. }
    rewrite C in Q. unfold re. set (e := se j x c i) in *. set (cb := curl_back sh _ _ c i) in *. set (l := lE j x c i) in *. set (m := eps c i) in *. set (eN := pE_ (st j N) c i) in *. set (t := rs N (fun n => x ^ n * pE_ (st j (S n)) c i)) in *. set (jj := sj j x c i) in *.
    change (m * t = m * e + dt * (cb - x ^ N * l) + jj) in Q. change (e = x * t - x ^ N * eN) in Sh. change (m * e * (1 - x) = x * (dt * cb) + x * jj + x ^ N * (- (x * dt * l) - m * eN)).
    transitivity (m * e - x * (m * e)); [ring|]. rewrite Sh at 1. transitivity (x * (m * t) - x ^ N * m * eN - x * (m * e)); [ring|]. rewrite Q. ring.
  Qed.

  Definition PE (x : R) (f g : field RF) : R := fsum (K := RF) sh (fun c i => vol_e (K := RF) (we x) (wh x) c i * (f c i * g c i)).
  Definition PH (x : R) (f g : field RF) : R := fsum (K := RF) sh (fun c i => vol_h (K := RF) (we x) (wh x) c i * (f c i * g c i)).
  Lemma nz_eff p0 p1 p2 x : regular (K := RF) sh Ls p0 p1 p2 (/ x) -> nzw (K := RF) sh (effective (K := RF) sh Ls p0 p1 p2 (/ x) w).
  Proof.
    intros Reg a i Ha Hi. rewrite HL in Ha. destruct (Reg a i Ha Hi) as [G _]. pose proof (Hw a i ltac:(rewrite HL; exact Ha) Hi) as W. unfold effective. set (u := w a i) in *. set (g := gain _ _ _ _ _ _ _ _) in *.
    change (u <> 0) in W. change (g <> 0) in G. change (u / g <> 0). unfold Rdiv. apply Rmult_integral_contrapositive_currified; [exact W|now apply Rinv_neq_0_compat].
  Qed.
  (** Reciprocity up to a high power. *)
  Lemma rec_x j1 j2 x : x <> 0 -> regular (K := RF) sh Ls lp0e lp1e lp2e (/ x) -> regular (K := RF) sh Ls lp0h lp1h lp2h (/ x) ->
    x * (PE x (se j2 x) (sj j1 x) - PE x (se j1 x) (sj j2 x))
    = x ^ N * (PE x (se j1 x) (re j2 x) - PE x (se j2 x) (re j1 x) + x * (PH x (sh_ j2 x) (rh j1 x) - PH x (sh_ j1 x) (rh j2 x))).
  Proof.
    intros Hx RgE RgH.
    pose proof (curl_adjoint RF sh (we x) (wh x) (se j2 x) (sh_ j1 x) HL (nz_eff _ _ _ x RgH) (nz_eff _ _ _ x RgE)) as A1.
    pose proof (curl_adjoint RF sh (we x) (wh x) (se j1 x) (sh_ j2 x) HL (nz_eff _ _ _ x RgH) (nz_eff _ _ _ x RgE)) as A2.
    fold (PH x (sh_ j1 x) (curl_forward (K := RF) sh (Some (we x)) (se j2 x))) in A1. fold (PE x (se j2 x) (curl_back (K := RF) sh (Some (wh x)) (sh_ j1 x))) in A1.
    fold (PH x (sh_ j2 x) (curl_forward (K := RF) sh (Some (we x)) (se j1 x))) in A2. fold (PE x (se j1 x) (curl_back (K := RF) sh (Some (wh x)) (sh_ j2 x))) in A2.
    assert (EE : forall ja jb, PE x (se jb x) (fun c i => eps c i * se ja x c i) * (1 - x) = x * dt * PE x (se jb x) (curl_back (K := RF) sh (Some (wh x)) (sh_ ja x)) + x * PE x (se jb x) (sj ja x) + x ^ N * PE x (se jb x) (re ja x)).
    { intros ja jb. unfold PE. rewrite <- !fs_scale, Rmult_comm, <- fs_scale, <- !fs_add. apply fs_ext. intros c i Hc Hi. pose proof (eq_E ja x c i Hc Hi Hx RgE) as Q.
      set (v := vol_e _ _ c i). set (b := se jb x c i) in *. set (a := se ja x c i) in *. set (m := eps c i) in *. set (cb := curl_back sh _ _ c i) in *. set (jj := sj ja x c i) in *. set (r := re ja x c i) in *.
      change (m * a * (1 - x) = x * (dt * cb) + x * jj + x ^ N * r) in Q. change ((1 - x) * (v * (b * (m * a))) = x * dt * (v * (b * cb)) + x * (v * (b * jj)) + x ^ N * (v * (b * r))). transitivity (v * b * (m * a * (1 - x))); [ring|]. rewrite Q. ring. }
    assert (HH : forall ja jb, PH x (sh_ jb x) (fun c i => mu c i * sh_ ja x c i) * (1 - x) = - dt * PH x (sh_ jb x) (curl_forward (K := RF) sh (Some (we x)) (se ja x)) + x ^ N * PH x (sh_ jb x) (rh ja x)).
    { intros ja jb. unfold PH. rewrite <- !fs_scale, Rmult_comm, <- fs_scale, <- !fs_add. apply fs_ext. intros c i Hc Hi. pose proof (eq_H ja x c i Hc Hi Hx RgH) as Q.
      set (v := vol_h _ _ c i). set (b := sh_ jb x c i) in *. set (a := sh_ ja x c i) in *. set (m := mu c i) in *. set (cb := curl_forward sh _ _ c i) in *. set (r := rh ja x c i) in *.
      change (m * a * (1 - x) = - (dt * cb) + x ^ N * r) in Q. change ((1 - x) * (v * (b * (m * a))) = - dt * (v * (b * cb)) + x ^ N * (v * (b * r))). transitivity (v * b * (m * a * (1 - x))); [ring|]. rewrite Q. ring. }
    assert (SE : PE x (se j2 x) (fun c i => eps c i * se j1 x c i) = PE x (se j1 x) (fun c i => eps c i * se j2 x c i)) by (unfold PE; apply fs_ext; intros; req; ring).
    assert (SH : PH x (sh_ j2 x) (fun c i => mu c i * sh_ j1 x c i) = PH x (sh_ j1 x) (fun c i => mu c i * sh_ j2 x c i)) by (unfold PH; apply fs_ext; intros; req; ring).
    pose proof (EE j1 j2) as E1. pose proof (EE j2 j1) as E2. pose proof (HH j1 j2) as H1. pose proof (HH j2 j1) as H2. rewrite SE in E1. rewrite SH in H1.
    change (PH x (sh_ j1 x) (curl_forward (K := RF) sh (Some (we x)) (se j2 x)) = PE x (se j2 x) (curl_back (K := RF) sh (Some (wh x)) (sh_ j1 x)) :> R) in A1.
    change (PH x (sh_ j2 x) (curl_forward (K := RF) sh (Some (we x)) (se j1 x)) = PE x (se j1 x) (curl_back (K := RF) sh (Some (wh x)) (sh_ j2 x)) :> R) in A2.
    rewrite <- A1 in E1. rewrite <- A2 in E2. revert E1 E2 H1 H2. generalize (PH x (sh_ j1 x) (curl_forward (K := RF) sh (Some (we x)) (se j2 x))) (PH x (sh_ j2 x) (curl_forward (K := RF) sh (Some (we x)) (se j1 x))).
    intros u v E1 E2 H1 H2. assert (K1 : dt * u - dt * v = x ^ N * (PH x (sh_ j1 x) (rh j2 x) - PH x (sh_ j2 x) (rh j1 x))) by lra.
    transitivity (- x * (dt * u - dt * v) + x ^ N * (PE x (se j1 x) (re j2 x) - PE x (se j2 x) (re j1 x))); [lra|]. rewrite K1. ring.
  Qed.

  Lemma eff_bd p0 p1 p2 a i : responsive (K := RF) sh Ls p1 p2 -> (a < 3)%nat -> (i < dim sh a)%nat -> bd (fun x => effective (K := RF) sh Ls p0 p1 p2 (/ x) w a i).
  Proof. intros Rp Ha Hi. apply (bd_mul (fun _ => w a i) (fun x => / gain (K := RF) sh Ls p0 p1 p2 (/ x) a i)); [apply bd_const|]. apply (bd_inv (instant (K := RF) sh Ls p1 p2 a i)); [now apply Rp|apply gain_from]. Qed.
  Lemma vol_bd (w1 w2 : R -> widths RF) c idx : inb sh idx ->
    (forall a i, (a < 3)%nat -> (i < dim sh a)%nat -> bd (fun x => w1 x a i)) -> (forall a i, (a < 3)%nat -> (i < dim sh a)%nat -> bd (fun x => w2 x a i)) -> bd (fun x => vol_e (K := RF) (w1 x) (w2 x) c idx).
  Proof.
    intros Hi A B. pose proof (co_lt sh HL 0 idx ltac:(lia) Hi) as K0. pose proof (co_lt sh HL 1 idx ltac:(lia) Hi) as K1. pose proof (co_lt sh HL 2 idx ltac:(lia) Hi) as K2.
    unfold vol_e, vol3. destruct c as [|[|c]].
    - apply (bd_mul (fun x => w1 x 0%nat (coord idx 0) * w2 x 1%nat (coord idx 1)) (fun x => w2 x 2%nat (coord idx 2))); [apply (bd_mul (fun x => w1 x 0%nat (coord idx 0)) (fun x => w2 x 1%nat (coord idx 1)))|]; (apply A || apply B); lia || assumption.
    - apply (bd_mul (fun x => w2 x 0%nat (coord idx 0) * w1 x 1%nat (coord idx 1)) (fun x => w2 x 2%nat (coord idx 2))); [apply (bd_mul (fun x => w2 x 0%nat (coord idx 0)) (fun x => w1 x 1%nat (coord idx 1)))|]; [apply B|apply A|apply B]; lia || assumption.
    - apply (bd_mul (fun x => w2 x 0%nat (coord idx 0) * w2 x 1%nat (coord idx 1)) (fun x => w1 x 2%nat (coord idx 2))); [apply (bd_mul (fun x => w2 x 0%nat (coord idx 0)) (fun x => w2 x 1%nat (coord idx 1)))|]; [apply B|apply B|apply A]; lia || assumption.
  Qed.
  Lemma ser_bd (f : nat -> R) : bd (fun x => rs N (fun n => x ^ n * f n)).
  Proof. apply (bd_sum N (fun n x => x ^ n * f n)). intros. apply bd_mul; [apply bd_pow|apply bd_const]. Qed.
  Lemma cl_bd (L2 : nat -> nat -> R -> R) c : (forall a b, bd (L2 a b)) -> bd (fun x => cl (fun a b => L2 a b x) c).
  Proof. intro H. unfold cl. destruct c as [|[|c]]; apply bd_sub; apply H. Qed.
  Lemma PE_bd (f g : R -> field RF) : (forall c i, bd (fun x => f x c i)) -> (forall c i, bd (fun x => g x c i)) -> bd (fun x => PE x (f x) (g x)).
  Proof.
    intros A B. apply (bd_fs sh (fun c i x => vol_e (K := RF) (we x) (wh x) c i * (f x c i * g x c i))). intros c i Hc Hi. apply bd_mul; [|apply bd_mul; [apply A|apply B]].
    apply (vol_bd (fun x => we x) (fun x => wh x) c i Hi); intros; now apply eff_bd.
  Qed.
  Lemma PH_bd (f g : R -> field RF) : (forall c i, bd (fun x => f x c i)) -> (forall c i, bd (fun x => g x c i)) -> bd (fun x => PH x (f x) (g x)).
  Proof.
    intros A B. apply (bd_fs sh (fun c i x => vol_e (K := RF) (wh x) (we x) c i * (f x c i * g x c i))). intros c i Hc Hi. apply bd_mul; [|apply bd_mul; [apply A|apply B]].
    apply (vol_bd (fun x => wh x) (fun x => we x) c i Hi); intros; now apply eff_bd.
  Qed.
  Lemma re_bd j c i : bd (fun x => re j x c i).
  Proof.
    unfold re. apply bd_sub; [|apply bd_const]. apply bd_opp. apply (bd_mul (fun x => x * dt)); [apply bd_mul; [apply bd_id|apply bd_const]|].
    unfold lE. apply (cl_bd (fun a b x => left2 sh Ls lp0e (psE (st j N)) a b i x)). intros. apply left_bd.
  Qed.
  Lemma rh_bd j c i : bd (fun x => rh j x c i).
  Proof.
    unfold rh. apply bd_sub; [|apply bd_const]. apply (bd_mul (fun _ => dt)); [apply bd_const|].
    unfold lH. apply (cl_bd (fun a b x => left2 sh Ls lp0h (psH (st j N)) a b i x)). intros. apply left_bd.
  Qed.

  Lemma gain_out p0 p1 p2 x a i : (a < 3)%nat -> (forall pp, (pp < 2)%nat -> here sh Ls a pp i = None) -> gain (K := RF) sh Ls p0 p1 p2 x a (coord i a) = 1.
  Proof. intros Ha H. unfold gain, resp. rewrite !coef_at by exact Ha. rewrite (H 0%nat), (H 1%nat) by lia. cbn. ring. Qed.
  (** Where the currents flow the stretched volumes are the plain ones. *)
  Lemma PE_source x f j : source_outside (K := RF) sh Ls j -> PE x f j = fsum (K := RF) sh (fun c i => vol_e (K := RF) w w c i * (f c i * j c i)).
  Proof.
    intro So. unfold PE. apply fs_ext. intros c i Hc Hi. destruct (Req_dec (j c i) 0) as [Z|Nz].
    - replace (f c i * j c i) with 0; [rewrite !Rmult_0_r; reflexivity|]. transitivity (f c i * 0); [symmetry; apply Rmult_0_r|f_equal; now symmetry].
    - assert (O : forall a, (a < 3)%nat -> forall pp, (pp < 2)%nat -> here sh Ls a pp i = None).
      { intros a Ha pp Hp. destruct (here sh Ls a pp i) eqn:Eh; [|reflexivity]. exfalso. apply Nz. apply (So c i a pp Hc Hi Ha Hp). congruence. }
      assert (W : forall p0 p1 p2 a, (a < 3)%nat -> effective (K := RF) sh Ls p0 p1 p2 (/ x) w a (coord i a) = w a (coord i a)).
      { intros p0 p1 p2 a Ha. unfold effective. rewrite (gain_out p0 p1 p2 (/ x) a i Ha (O a Ha)). change (w a (coord i a) / 1 = w a (coord i a)). field. }
      unfold vol_e, vol3. destruct c as [|[|c]]; now rewrite !W by lia.
  Qed.

  Definition rx (f g : field RF) : R := fsum (K := RF) sh (fun c i => vol_e (K := RF) w w c i * (f c i * g c i)).
  Lemma rx_series (F G : nat -> field RF) x : rx (fun c i => rs N (fun n => x ^ n * F n c i)) (fun c i => rs N (fun m => x ^ m * G m c i)) = rs N (fun m => x ^ m * rs N (fun n => x ^ n * rx (F n) (G m))).
  Proof.
    set (T m n c i := x ^ m * (x ^ n * ((vol_e (K := RF) w w c i : R) * (F n c i * G m c i)))).
    rewrite (rs_ext N _ (fun m => fsum (K := RF) sh (fun c i => rs N (fun n => T m n c i)))).
    - refine (eq_trans _ (fs_sum sh N (fun m c i => rs N (fun n => T m n c i)))). unfold rx. apply fs_ext. intros c i _ _. unfold T. set (v := vol_e (K := RF) w w c i). change (v * (rs N (fun n => x ^ n * F n c i) * rs N (fun m => x ^ m * G m c i)) = rs N (fun m => rs N (fun n => x ^ m * (x ^ n * (v * (F n c i * G m c i)))))).
      rewrite (rs_ext N (fun m => rs N _) (fun m => (v * rs N (fun n => x ^ n * F n c i)) * (x ^ m * G m c i))); [rewrite rs_scale; ring|].
      intros m _. rewrite (rs_ext N _ (fun n => (v * x ^ m * G m c i) * (x ^ n * F n c i))) by (intros; ring). rewrite rs_scale. ring.
    - intros m _. rewrite (fs_sum sh N (fun n => T m n)). rewrite <- rs_scale. apply rs_ext. intros n _. unfold T, rx. now rewrite !fs_scale.
  Qed.
End Run.

Section Final.
  Variable sh : list nat.
  Variable Ls : nat -> nat -> option (layer RF).
  Variable dt : R.
  Variable w : widths RF.
  Variables eps mu : field RF.
  Hypothesis HL : length sh = 3%nat.
  Hypothesis Hw : nzw (K := RF) sh w.
  Hypothesis He : nzm (K := RF) sh eps.
  Hypothesis Hm : nzm (K := RF) sh mu.
  Hypothesis RE : responsive (K := RF) sh Ls lp1e lp2e.
  Hypothesis RH : responsive (K := RF) sh Ls lp1h lp2h.
  Variables j1 j2 : nat -> field RF.
  Hypothesis S1 : forall n, source_outside (K := RF) sh Ls (j1 n).
  Hypothesis S2 : forall n, source_outside (K := RF) sh Ls (j2 n).
  Notation E1 n := (pE_ (cpml_after (K := RF) sh Ls dt w eps mu j1 n)).
  Notation E2 n := (pE_ (cpml_after (K := RF) sh Ls dt w eps mu j2 n)).
  Notation rx := (rx sh w).

  Lemma sj_out N j x : (forall n, source_outside (K := RF) sh Ls (j n)) -> source_outside (K := RF) sh Ls (sj N j x).
  Proof.
    intros So c i a pp Hc Hi Ha Hp Hh. unfold sj. rewrite (rs_ext N _ (fun n => 0 * x ^ n)) by (intros n _; rewrite (So n c i a pp Hc Hi Ha Hp Hh); change (x ^ n * 0 = 0 * x ^ n); ring). rewrite rs_scale. apply Rmult_0_l.
  Qed.
  Lemma recip_coef k : rs (S k) (fun m => rx (E2 (k - m)%nat) (j1 m) - rx (E1 (k - m)%nat) (j2 m)) = 0.
  Proof.
    set (c := fun k => rs (S k) (fun m => rx (E2 (k - m)%nat) (j1 m) - rx (E1 (k - m)%nat) (j2 m))). change (c k = 0).
    set (N' := S k). set (N := S N'). destruct (cauchy (fun m n => rx (E2 n) (j1 m) - rx (E1 n) (j2 m)) N) as (B' & HB' & HC).
    set (B := fun x => PE sh Ls w x (se sh Ls dt w eps mu N j1 x) (re sh Ls dt w eps mu N j2 x) - PE sh Ls w x (se sh Ls dt w eps mu N j2 x) (re sh Ls dt w eps mu N j1 x)
                 + x * (PH sh Ls w x (sh_ sh Ls dt w eps mu N j2 x) (rh sh Ls dt w eps mu N j1 x) - PH sh Ls w x (sh_ sh Ls dt w eps mu N j1 x) (rh sh Ls dt w eps mu N j2 x))).
    assert (HB : bd B).
    { assert (SE : forall j c i, bd (fun x => se sh Ls dt w eps mu N j x c i)) by (intros; apply (ser_bd N)). assert (SH : forall j c i, bd (fun x => sh_ sh Ls dt w eps mu N j x c i)) by (intros; apply (ser_bd N)).
      unfold B. apply bd_add; [apply bd_sub|apply (bd_mul (fun x => x)); [apply bd_id|apply bd_sub]].
      - apply (PE_bd sh Ls w HL RE RH N (fun x => se sh Ls dt w eps mu N j1 x) (fun x => re sh Ls dt w eps mu N j2 x)); intros; [apply SE|apply re_bd].
      - apply (PE_bd sh Ls w HL RE RH N (fun x => se sh Ls dt w eps mu N j2 x) (fun x => re sh Ls dt w eps mu N j1 x)); intros; [apply SE|apply re_bd].
      - apply (PH_bd sh Ls w HL RE RH N (fun x => sh_ sh Ls dt w eps mu N j2 x) (fun x => rh sh Ls dt w eps mu N j1 x)); intros; [apply SH|apply rh_bd].
      - apply (PH_bd sh Ls w HL RE RH N (fun x => sh_ sh Ls dt w eps mu N j1 x) (fun x => rh sh Ls dt w eps mu N j2 x)); intros; [apply SH|apply rh_bd]. }
    apply (poly_zero N' c (fun x => B x - x * B' x - c N')); [apply bd_sub; [apply bd_sub; [exact HB|apply bd_mul; [apply bd_id|exact HB']]|apply bd_const]| |unfold N'; lia].
    eapply ev_imp; [|exact (ev_and _ _ (regular_ev sh Ls lp0e lp1e lp2e RE) (regular_ev sh Ls lp0h lp1h lp2h RH))]. intros x Hx [GE GH]. cbv beta in *.
    pose proof (rec_x sh Ls dt w eps mu HL Hw He Hm N j1 j2 x ltac:(lra) GE GH) as Q. fold (B x) in Q.
    rewrite (PE_source sh Ls w HL N x _ _ (sj_out N j1 x S1)), (PE_source sh Ls w HL N x _ _ (sj_out N j2 x S2)) in Q.
    change (x * (rx (fun c i => rs N (fun n => x ^ n * E2 n c i)) (fun c i => rs N (fun m => x ^ m * j1 m c i)) - rx (fun c i => rs N (fun n => x ^ n * E1 n c i)) (fun c i => rs N (fun m => x ^ m * j2 m c i))) = x ^ N * B x) in Q.
    rewrite (rx_series sh w N (fun n => E2 n) j1 x), (rx_series sh w N (fun n => E1 n) j2 x) in Q. rewrite <- rs_sub in Q.
    rewrite (rs_ext N _ (fun m => x ^ m * rs N (fun n => x ^ n * (rx (E2 n) (j1 m) - rx (E1 n) (j2 m))))) in Q.
    2:{ intros m _. rewrite <- Rmult_minus_distr_l, <- rs_sub. f_equal. apply rs_ext. intros. ring. }
    rewrite HC in Q. fold c in Q. change (rs N (fun k => x ^ k * rs (S k) (fun m => rx (E2 (k - m)%nat) (j1 m) - rx (E1 (k - m)%nat) (j2 m)))) with (rs N' (fun k => x ^ k * c k) + x ^ N' * c N') in Q.
    change (x ^ N) with (x * x ^ N') in Q. apply (Rmult_eq_reg_l x); [|lra]. apply (Rplus_eq_reg_r (x * (x ^ N' * c N' + x * x ^ N' * B' x))). transitivity (x * (rs N' (fun k => x ^ k * c k) + x ^ N' * c N' + x * x ^ N' * B' x)); [ring|]. rewrite Q. ring.
  Qed.
End Final.
