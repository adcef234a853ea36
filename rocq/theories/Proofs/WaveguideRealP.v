From Coq Require Import String Reals List Arith ZArith Lia Lra Bool Psatz Permutation.
From Verif.Lib Require Import Num Sums Idx Mat RealF.
From Verif.Model Require Import Fdmath Fdfd Waveguide2d WaveguideReal.
Import ListNotations.

Section Ip.
  Variable K : CFld.
  Add Field Kfield : (fth K).
  Local Open Scope fld_scope.
  Lemma ip_scale sh (e h : vect K) dxes (phase c d : K) :
    inner_product sh (fun q => e q * c) (fun q => h q * d) dxes phase true
    = c * conj d * inner_product sh e h dxes phase true.
  Proof.
    unfold inner_product, unvec. cbv zeta.
    transitivity (1 / 2 * (c * conj d * gsum sh (fun idx : list nat =>
       e (0 * prodl sh + ravel sh idx)%nat * conj (h (1 * prodl sh + ravel sh idx)%nat * phase) *
       real_part (snd dxes 0%nat (coord idx 0)) * real_part (fst dxes 1%nat (coord idx 1)))
       - c * conj d * gsum sh (fun idx : list nat =>
       e (1 * prodl sh + ravel sh idx)%nat * conj (h (0 * prodl sh + ravel sh idx)%nat * phase) *
       real_part (fst dxes 0%nat (coord idx 0)) * real_part (snd dxes 1%nat (coord idx 1))))); [|ring].
    rewrite <- !gsum_mul_l. f_equal. f_equal; apply gsum_ext; intros i Hi; rewrite !conj_mul; ring.
  Qed.
  Lemma ip_zero sh (e h : vect K) dxes (phase : K) : (forall q, (q < 2 * prodl sh)%nat -> e q = 0) ->
    inner_product sh e h dxes phase true = 0.
  Proof.
    intro H. unfold inner_product, unvec. cbv zeta.
    rewrite (gsum_zero K sh (fun idx : list nat =>
       e (0 * prodl sh + ravel sh idx)%nat * conj (h (1 * prodl sh + ravel sh idx)%nat * phase) *
       real_part (snd dxes 0%nat (coord idx 0)) * real_part (fst dxes 1%nat (coord idx 1)))).
    2:{ intros i Hi. pose proof (ravel_lt _ _ Hi). rewrite H by lia. ring. }
    rewrite gsum_zero. 2:{ intros i Hi. pose proof (ravel_lt _ _ Hi). rewrite H by lia. ring. }
    ring.
  Qed.
  Lemma ip_ext sh (e e' h h' : vect K) dxes (phase : K) b :
    (forall q, (q < 2 * prodl sh)%nat -> e q = e' q) -> (forall q, (q < 2 * prodl sh)%nat -> h q = h' q) ->
    inner_product sh e h dxes phase b = inner_product sh e' h' dxes phase b.
  Proof.
    intros A B. unfold inner_product, unvec. cbv zeta. f_equal. f_equal; apply gsum_ext; intros i Hi;
      pose proof (ravel_lt _ _ Hi); rewrite !A, !B by lia; reflexivity.
  Qed.
End Ip.

Local Open Scope R_scope.
Local Open Scope list_scope.

Lemma cnrm_mul a b : cnrm (cmul a b) = cnrm a * cnrm b.
Proof. unfold cnrm, cmul; cbn [cre cim]; ring. Qed.
Lemma cnrm_pos a : 0 <= cnrm a.
Proof. unfold cnrm. nra. Qed.
Lemma cnrm_pos' a : a <> c0 -> 0 < cnrm a.
Proof. intro H. pose proof (cnrm_pos a). pose proof (cnrm_nz a H). lra. Qed.
Lemma cabs_mul a b : cabs (cmul a b) = cabs a * cabs b.
Proof. unfold cabs. rewrite cnrm_mul. apply sqrt_mult; apply cnrm_pos. Qed.
Lemma cabs_pos a : a <> c0 -> 0 < cabs a.
Proof. intro H. apply sqrt_lt_R0. now apply cnrm_pos'. Qed.
Lemma cmul_nz a b : a <> c0 -> b <> c0 -> cmul a b <> c0.
Proof.
  intros A B H. pose proof (cnrm_pos' a A). pose proof (cnrm_pos' b B).
  assert (cnrm (cmul a b) = 0) by (rewrite H; unfold cnrm; cbn; ring). rewrite cnrm_mul in *. nra.
Qed.

Lemma unphase_nrm z : cnrm (unphase z) = 1.
Proof.
  unfold unphase. destruct (cpx_dec z c0) as [->|H]; [unfold cnrm; cbn; ring|].
  pose proof (cabs_pos z H) as P. destruct (cabs_bounds z) as [E _].
  unfold cnrm at 1. cbn [cre cim].
  transitivity (cnrm z / (cabs z * cabs z)); [unfold cnrm; field; lra|]. rewrite E. field. now apply cnrm_nz.
Qed.
Lemma unphase_mul z c : z <> c0 -> c <> c0 -> unphase (cmul z c) = cmul (unphase z) (unphase c).
Proof.
  intros A B. unfold unphase. destruct (cpx_dec z c0); [contradiction|]. destruct (cpx_dec c c0); [contradiction|].
  destruct (cpx_dec (cmul z c) c0) as [E|_]; [exfalso; revert E; now apply cmul_nz|].
  rewrite cabs_mul. pose proof (cabs_pos z A). pose proof (cabs_pos c B).
  apply cpx_ext; unfold cmul; cbn [cre cim]; field; lra.
Qed.
Lemma unphase_self z : cmul z (unphase z) = mkC (cabs z) 0.
Proof.
  unfold unphase. destruct (cpx_dec z c0) as [->|H].
  - unfold cabs, cnrm. cbn [cre cim c0]. replace (0 * 0 + 0 * 0) with 0 by ring. rewrite sqrt_0. apply cpx_ext; cbn; ring.
  - pose proof (cabs_pos z H) as P. destruct (cabs_bounds z) as [E _].
    apply cpx_ext; unfold cmul; cbn [cre cim].
    + transitivity (cnrm z / cabs z); [unfold cnrm; field; lra|]. rewrite <- E. field. lra.
    + field. lra.
Qed.

Lemma amax_scale f k n : 0 < k -> amax (fun q => k * f q) n = amax f n.
Proof.
  intro Hk. induction n as [|n IH]; [reflexivity|]. cbn [amax]. rewrite IH.
  destruct (Rlt_dec (k * f (amax f n)) (k * f (S n))) as [A|A], (Rlt_dec (f (amax f n)) (f (S n))) as [B|B]; try reflexivity; exfalso; nra.
Qed.
Lemma amax_ext f g n : (forall q, (q <= n)%nat -> f q = g q) -> amax f n = amax g n.
Proof.
  intro H. assert (P : forall m h, (amax h m <= m)%nat).
  { induction m as [|m IH]; intro h; cbn [amax]; [lia|]. destruct (Rlt_dec _ _); [lia|]. specialize (IH h). lia. }
  induction n as [|n IH]; [reflexivity|]. cbn [amax]. rewrite IH by (intros; apply H; lia).
  rewrite !H by (try lia; specialize (P n g); lia). reflexivity.
Qed.
Lemma amax_le f n : (amax f n <= n)%nat.
Proof. induction n as [|n IH]; cbn [amax]; [lia|]. destruct (Rlt_dec _ _); lia. Qed.
Lemma amax_max f n q : (q <= n)%nat -> f q <= f (amax f n).
Proof.
  induction n as [|n IH]; intro Hq; cbn [amax]; [assert (q = 0)%nat as -> by lia; lra|].
  destruct (Rlt_dec (f (amax f n)) (f (S n))) as [A|A].
  - destruct (Nat.eq_dec q (S n)) as [->|]; [lra|]. specialize (IH ltac:(lia)). lra.
  - destruct (Nat.eq_dec q (S n)) as [->|]; [lra|]. now apply IH; lia.
Qed.
Lemma amax_first f n q : (q < amax f n)%nat -> f q < f (amax f n).
Proof.
  induction n as [|n IH]; intro Hq; cbn [amax] in *; [lia|].
  destruct (Rlt_dec (f (amax f n)) (f (S n))) as [A|A].
  - assert (Hq' : (q <= n)%nat) by lia. pose proof (amax_max f n q Hq'). lra.
  - now apply IH.
Qed.

Lemma energy_scale eps e c q : energy eps (fun q => cmul (e q) c) q = cnrm c * energy eps e q.
Proof. unfold energy, cnrm, cmul, cconj. cbn [cre cim]. ring. Qed.
Lemma energy_val eps e q : energy eps e q = cre (eps q) * cnrm (e q).
Proof. unfold energy, cnrm, cmul, cconj. cbn [cre cim]. ring. Qed.

Lemma power_scale sh e h dxes phase c :
  power sh (fun q => cmul (e q) c) (fun q => cmul (h q) c) dxes phase = cnrm c * power sh e h dxes phase.
Proof.
  unfold power. pose proof (ip_scale CC sh e h dxes phase c c) as E.
  etransitivity; [apply (f_equal cre E)|].
  set (z := inner_product (K := CC) sh e h dxes phase true). clearbody z.
  change (cre (cmul (cmul c (cconj c)) z) = cnrm c * cre z). unfold cmul, cconj, cnrm. cbn [cre cim]. ring.
Qed.

Lemma quadrant_scale sh v (k : R) : quadrant_sum sh (fun q => cmul (v q) (mkC k 0)) = k * quadrant_sum sh v.
Proof.
  unfold quadrant_sum. etransitivity; [|exact (sumN_mul_l RF 3 k _)]. apply sumN_ext. intros c _.
  etransitivity; [|exact (gsum_mul_l RF _ k _)]. apply gsum_ext.
  intros i _. unfold unvec. unfold cmul. cbn [cre cim].
  match goal with |- ?a = ?b => change (a = b :> R) end. unfold fmul, RF. ring.
Qed.
Lemma quadrant_ext sh v w : (forall q, v q = w q) -> quadrant_sum sh v = quadrant_sum sh w.
Proof.
  intro H. unfold quadrant_sum. apply sumN_ext. intros c _. apply gsum_ext. intros i _. unfold unvec. now rewrite H.
Qed.
Lemma rsign_scale k x : 0 < k -> rsign (k * x) = rsign x.
Proof.
  intro H. unfold rsign. destruct (Rlt_dec 0 (k * x)), (Rlt_dec 0 x), (Rlt_dec (k * x) 0), (Rlt_dec x 0); try reflexivity; exfalso; nra.
Qed.
Lemma rsign_sq x : rsign x <> 0 -> rsign x * rsign x = 1.
Proof. unfold rsign. destruct (Rlt_dec 0 x), (Rlt_dec x 0); intro; try lra. Qed.
Lemma rsign_abs x : rsign x <> 0 -> 0 < rsign x * x.
Proof. unfold rsign. destruct (Rlt_dec 0 x), (Rlt_dec x 0); intro; try lra. Qed.

Section Norm.
  Variables (sh : list nat) (dxes : dx2 CC) (eps : vect CC) (phase : cpx).

  Definition nf_u (e : vect CC) : cpx := unphase (e (amax (energy eps e) (3 * prodl sh - 1))).
  Definition nf_q (e : vect CC) : R := quadrant_sum sh (fun q => cmul (cmul (e q) (mkC (energy eps e q) 0)) (nf_u e)).

  Lemma nf_spec e h e' h' : normalized_fields sh e h dxes eps phase = Some (e', h') ->
    0 < power sh e h dxes phase /\ nf_q e <> 0 /\
    let f := cmul (mkC (rsign (nf_q e) * (1 / sqrt (power sh e h dxes phase))) 0) (nf_u e) in
    e' = (fun q => cmul (e q) f) /\ h' = (fun q => cmul (h q) f).
  Proof.
    unfold normalized_fields. fold (nf_u e). fold (nf_q e).
    destruct (Rlt_dec 0 (power sh e h dxes phase)) as [P|P]; [|discriminate].
    destruct (Req_EM_T (rsign (nf_q e)) 0) as [Z|Z]; [discriminate|].
    intro H. injection H as <- <-. split; [exact P|]. split; [|split; reflexivity].
    intro E. apply Z. rewrite E. unfold rsign. destruct (Rlt_dec 0 0); lra.
  Qed.
  Lemma nf_none e h : normalized_fields sh e h dxes eps phase = None <-> power sh e h dxes phase <= 0 \/ nf_q e = 0.
  Proof.
    unfold normalized_fields. fold (nf_u e). fold (nf_q e).
    destruct (Rlt_dec 0 (power sh e h dxes phase)) as [P|P].
    - destruct (Req_EM_T (rsign (nf_q e)) 0) as [Z|Z].
      + split; [|reflexivity]. intros _. right. unfold rsign in Z. destruct (Rlt_dec 0 (nf_q e)), (Rlt_dec (nf_q e) 0); lra.
      + split; [discriminate|]. intros [?|E]; [lra|]. exfalso. apply Z. rewrite E. unfold rsign. destruct (Rlt_dec 0 0); lra.
    - split; [|reflexivity]. intros _. left. lra.
  Qed.

  Lemma nf_factor_nrm e h : 0 < power sh e h dxes phase -> nf_q e <> 0 ->
    cnrm (cmul (mkC (rsign (nf_q e) * (1 / sqrt (power sh e h dxes phase))) 0) (nf_u e)) = 1 / power sh e h dxes phase.
  Proof.
    intros P Q. rewrite cnrm_mul. unfold nf_u. rewrite unphase_nrm. unfold cnrm. cbn [cre cim].
    assert (S : rsign (nf_q e) * rsign (nf_q e) = 1).
    { apply rsign_sq. unfold rsign. destruct (Rlt_dec 0 (nf_q e)), (Rlt_dec (nf_q e) 0); lra. }
    pose proof (sqrt_lt_R0 _ P) as SP. pose proof (sqrt_sqrt (power sh e h dxes phase) (Rlt_le _ _ P)) as SS.
    set (s := sqrt _) in *. set (r := rsign _) in *. set (p := power _ _ _ _ _) in *.
    transitivity (r * r / (s * s)); [field; lra|]. rewrite S, SS. reflexivity.
  Qed.

  (** Scaling the input by a complex number does not change the result. *)
  Hypothesis Hsh : (0 < prodl sh)%nat.
  Hypothesis Hpos : forall q, (q < 3 * prodl sh)%nat -> 0 < cre (eps q).

  Lemma amax_e_nz e h : power sh e h dxes phase <> 0 -> e (amax (energy eps e) (3 * prodl sh - 1)) <> c0.
  Proof.
    intros P Z. apply P. unfold power. rewrite (ip_zero CC); [reflexivity|].
    intros q Hq. pose proof (amax_max (energy eps e) (3 * prodl sh - 1) q ltac:(lia)) as M.
    rewrite (energy_val eps e (amax _ _)), Z in M. rewrite energy_val in M.
    pose proof (Hpos q ltac:(lia)). pose proof (cnrm_pos (e q)).
    assert (cnrm (e q) = 0) by (replace (cnrm c0) with 0 in M by (unfold cnrm; cbn; ring); nra).
    destruct (cpx_dec (e q) c0) as [E|E]; [exact E|]. apply cnrm_nz in E. contradiction.
  Qed.

  Lemma nf_u_scale e h c : power sh e h dxes phase <> 0 -> c <> c0 ->
    nf_u (fun q => cmul (e q) c) = cmul (nf_u e) (unphase c).
  Proof.
    intros P Hc. unfold nf_u.
    rewrite (amax_ext _ (fun q => cnrm c * energy eps e q)) by (intros; apply energy_scale).
    rewrite amax_scale by now apply cnrm_pos'. apply unphase_mul; [now apply (amax_e_nz e h)|exact Hc].
  Qed.
  Lemma nf_q_scale e h c : power sh e h dxes phase <> 0 -> c <> c0 ->
    nf_q (fun q => cmul (e q) c) = cnrm c * cabs c * nf_q e.
  Proof.
    intros P Hc. unfold nf_q. rewrite (nf_u_scale e h c P Hc).
    rewrite <- quadrant_scale. apply quadrant_ext. intro q. rewrite energy_scale.
    pose proof (unphase_self c) as U. set (u := unphase c) in *. set (w := nf_u e).
    transitivity (cmul (cmul (cmul (e q) (mkC (energy eps e q) 0)) w) (cmul (mkC (cnrm c) 0) (cmul c u))).
    { apply cpx_ext; unfold cmul; cbn [cre cim]; ring. }
    rewrite U. f_equal. apply cpx_ext; unfold cmul; cbn [cre cim]; ring.
  Qed.
  Lemma nf_scale_inv e h c : power sh e h dxes phase <> 0 -> c <> c0 ->
    match normalized_fields sh e h dxes eps phase,
          normalized_fields sh (fun q => cmul (e q) c) (fun q => cmul (h q) c) dxes eps phase with
    | Some (e1, h1), Some (e2, h2) => (forall q, e1 q = e2 q) /\ (forall q, h1 q = h2 q)
    | None, None => True
    | _, _ => False
    end.
  Proof.
    intros P Hc. pose proof (cnrm_pos' c Hc) as C. pose proof (cabs_pos c Hc) as CA.
    pose proof (nf_u_scale e h c P Hc) as U. pose proof (nf_q_scale e h c P Hc) as Q. pose proof (power_scale sh e h dxes phase c) as PS.
    unfold normalized_fields. fold (nf_u e) (nf_q e). fold (nf_u (fun q => cmul (e q) c)).
    fold (nf_q (fun q => cmul (e q) c)). rewrite PS, Q, U.
    assert (Pk : 0 < cnrm c * cabs c) by nra.
    rewrite rsign_scale by exact Pk.
    destruct (Rlt_dec 0 (power sh e h dxes phase)) as [P1|P1], (Rlt_dec 0 (cnrm c * power sh e h dxes phase)) as [P2|P2]; try (exfalso; nra); [|exact I].
    destruct (Req_EM_T (rsign (nf_q e)) 0) as [Z|Z]; [exact I|].
    assert (S : sqrt (cnrm c * power sh e h dxes phase) = cabs c * sqrt (power sh e h dxes phase)).
    { unfold cabs. apply sqrt_mult; lra. }
    rewrite S. clear S. pose proof (sqrt_lt_R0 _ P1) as SP. set (s := sqrt (power sh e h dxes phase)) in *. set (r := rsign _) in *. set (w := nf_u e).
    pose proof (unphase_self c) as US. set (u := unphase c) in *.
    assert (G : forall z, cmul z (cmul (mkC (r * (1 / s)) 0) w) = cmul (cmul z c) (cmul (mkC (r * (1 / (cabs c * s))) 0) (cmul w u))).
    { intro z. transitivity (cmul (cmul z (cmul (mkC (r * (1 / (cabs c * s))) 0) w)) (cmul c u)).
      - rewrite US. clearbody s. apply cpx_ext; unfold cmul; cbn [cre cim]; field; split; lra.
      - apply cpx_ext; unfold cmul; cbn [cre cim]; ring. }
    split; intro q; apply G.
  Qed.
End Norm.

(** ** solve_modes *)
Lemma cle_total x y : cle x y \/ cle y x.
Proof.
  unfold cle. destruct (Rtotal_order (cre x) (cre y)) as [H|[H|H]]; [left; now left| |right; now left].
  destruct (Rle_dec (cim x) (cim y)); [left; right; tauto|right; right; split; [easy|lra]].
Qed.
Lemma cle_trans x y z : cle x y -> cle y z -> cle x z.
Proof. unfold cle. intros [A|[A A']] [B|[B B']]; [left; lra|left; lra|left; lra|right; split; lra]. Qed.
Lemma cle_refl x : cle x x.
Proof. right. split; lra. Qed.

Section Sort.
  Variable V : Type.
  Lemma insert_perm (p : cpx * V) l : Permutation (insert_mode p l) (p :: l).
  Proof.
    induction l as [|q r IH]; cbn [insert_mode]; [reflexivity|]. destruct (cle_dec _ _); [reflexivity|].
    rewrite IH. apply perm_swap.
  Qed.
  Lemma argsorted_perm (l : list (cpx * V)) : Permutation (argsorted l) l.
  Proof. induction l as [|p l IH]; [reflexivity|]. cbn. rewrite insert_perm. now constructor. Qed.

  (** pairwise order of a list *)
  Fixpoint increasing (l : list (cpx * V)) : Prop :=
    match l with [] => True | p :: r => (forall q, In q r -> cle (fst p) (fst q)) /\ increasing r end.
  Lemma insert_inc p l : increasing l -> increasing (insert_mode p l).
  Proof.
    induction l as [|q r IH]; cbn [insert_mode increasing]; [intros _; split; [intros ? []|exact I]|]. intros [A B].
    destruct (cle_dec (fst p) (fst q)) as [H|H].
    - cbn [increasing]. split; [|split; assumption]. intros x [<-|Hx]; [exact H|]. apply (cle_trans _ (fst q)); [exact H|now apply A].
    - cbn [increasing]. split; [|now apply IH]. intros x Hx.
      apply (Permutation_in _ (insert_perm p r)) in Hx. destruct Hx as [<-|Hx]; [|now apply A].
      destruct (cle_total (fst p) (fst q)); [contradiction|assumption].
  Qed.
  Lemma argsorted_inc (l : list (cpx * V)) : increasing (argsorted l).
  Proof. induction l as [|p l IH]; [exact I|]. now apply insert_inc. Qed.
  Lemma increasing_nth l i j p q : increasing l -> (i < j)%nat -> nth_error l i = Some p -> nth_error l j = Some q -> cle (fst p) (fst q).
  Proof.
    revert i j. induction l as [|x l IH]; intros i j H Hij Hi Hj; [destruct i; discriminate|].
    destruct H as [A B]. destruct i as [|i], j as [|j]; try lia; cbn in *.
    - injection Hi as <-. apply A. now apply nth_error_In in Hj.
    - apply (IH i j); try assumption. lia.
  Qed.
  Lemma nth_error_rev (l : list (cpx * V)) i : (i < length l)%nat -> nth_error (rev l) i = nth_error l (length l - 1 - i).
  Proof.
    intro H. destruct l as [|d l0]; [cbn in H; lia|]. set (l := d :: l0) in *.
    rewrite (nth_error_nth' (rev l) d) by now rewrite rev_length. rewrite rev_nth by exact H.
    rewrite (nth_error_nth' l d) by lia. do 2 f_equal. lia.
  Qed.
  Lemma rev_decreasing l i j p q : increasing l -> (i < j)%nat ->
    nth_error (rev l) i = Some p -> nth_error (rev l) j = Some q -> cle (fst q) (fst p).
  Proof.
    intros H Hij Hi Hj.
    assert (Lj : (j < length l)%nat) by (rewrite <- rev_length; apply nth_error_Some; congruence).
    rewrite nth_error_rev in Hi, Hj by lia. apply (increasing_nth l (length l - 1 - j) (length l - 1 - i)); try assumption. lia.
  Qed.
End Sort.

Lemma csqrt_re z : 0 <= cre (csqrt z).
Proof. unfold csqrt. cbn [cre]. apply sqrt_pos. Qed.
Lemma csqrt_re0 z : cre (csqrt z) = 0 <-> cre z <= 0 /\ cim z = 0.
Proof.
  destruct (cabs_bounds z) as [E [L1 L2]]. unfold csqrt. cbn [cre]. split.
  - intro H. apply sqrt_eq_0 in H; [|lra]. assert (cabs z = - cre z) by lra.
    unfold cnrm in E. split; [|nra]. pose proof (sqrt_pos (cnrm z)). unfold cabs in *. lra.
  - intros [H1 H2]. assert (cabs z = - cre z).
    { unfold cnrm in E. rewrite H2 in E. pose proof (sqrt_pos (cnrm z)) as P. fold (cabs z) in P. nra. }
    replace ((cabs z + cre z) / 2) with 0 by lra. apply sqrt_0.
Qed.
Lemma wavenumber_ok z : ~ (cre z <= 0 /\ cim z = 0) -> wavenumber_of z = csqrt z.
Proof.
  intro H. unfold wavenumber_of. pose proof (csqrt_re z). rewrite <- csqrt_re0 in H. unfold rsign.
  destruct (Rlt_dec 0 (cre (csqrt z))) as [P|P]; [|exfalso; apply H; lra]. apply cpx_ext; unfold cmul; cbn [cre cim]; ring.
Qed.
Lemma wavenumber_bad z : cre z <= 0 /\ cim z = 0 -> wavenumber_of z = c0.
Proof.
  intro H. apply csqrt_re0 in H. unfold wavenumber_of. rewrite H. unfold rsign.
  destruct (Rlt_dec 0 0); [lra|]. apply cpx_ext; unfold cmul; cbn [cre cim c0]; ring.
Qed.

Lemma cyl_wavenumber l rmin : 0 < rmin -> ~ (cre l <= 0 /\ cim l = 0) ->
  0 <= cre (wavenumber_of l) * rmin /\
  (~ (cre l <= 0 /\ cim l = 0) -> 0 < cre (wavenumber_of l) * rmin /\
    cmul (cmul (wavenumber_of l) (mkC rmin 0)) (cmul (wavenumber_of l) (mkC rmin 0)) = cmul l (mkC (rmin * rmin) 0)).
Proof.
  intros Hr N. rewrite wavenumber_ok by exact N. pose proof (csqrt_re l) as P.
  split; [apply Rmult_le_pos; lra|]. intros _. split.
  - apply Rmult_lt_0_compat; [|exact Hr].
    destruct (Req_EM_T (cre (csqrt l)) 0) as [Z|Z]; [apply csqrt_re0 in Z; contradiction|lra].
  - rewrite <- (csqrt_sq l) at 3. apply cpx_ext; unfold cmul; cbn [cre cim]; ring.
Qed.
Lemma existsb_in x l : existsb (String.eqb x) l = true <-> In x l.
Proof.
  rewrite existsb_exists. split.
  - intros (y & Hy & E). apply String.eqb_eq in E. now subst.
  - intro H. exists x. split; [exact H|apply String.eqb_refl].
Qed.
Lemma nodupb_dup x l : In x l -> nodupb (x :: l) = false.
Proof. intro H. cbn. apply existsb_in in H. now rewrite H. Qed.
Lemma nodupb_ok l : NoDup l -> nodupb l = true.
Proof.
  induction 1 as [|x l Hx ND IH]; [reflexivity|]. cbn. rewrite IH, andb_true_r. apply negb_true_iff.
  destruct (existsb (String.eqb x) l) eqn:E; [|reflexivity]. apply existsb_in in E. contradiction.
Qed.
Lemma filter_all {A} (f : A -> bool) l : (forall x, In x l -> f x = true) -> filter f l = l.
Proof.
  induction l as [|x l IH]; intro H; [reflexivity|]. cbn. rewrite H by now left. f_equal. apply IH. intros; apply H; now right.
Qed.
