(** Mean work of the currents and mean outflow in harmonic FDTD runs (C181). *)
From Coq Require Import Reals List Arith ZArith Lia Lra Psatz.
From Verif.Lib Require Import Num Sums Idx RealF Dft.
From Verif.Model Require Import Fdmath Fdtd Fdfd.
From Verif.Spec Require Import Grid Yee FdtdRun FdfdSpec HarmonicSpec.
From Verif.Proofs Require Import FdmathP FdtdP2 FarP HarmonicP.
From Verif.Props Require Import HarmonicProps MeanProps.
Import ListNotations.
Local Open Scope R_scope.

(** The current injected after step n of the run [driven]. *)
Definition source (dt omega : R) (J : field CC) (n : nat) : field RF :=
  fun c i => - (dt * at_phase J (omega * ((INR n + / 2) * dt)) c i).

Lemma mean_pair2 N m x n0 q p (y z : cpx) : (0 < N)%nat -> x * INR N = PI * IZR m -> sin x <> 0 ->
  mean N (fun n => (cre y * cos (x * INR (n0 + n) + q) - cim y * sin (x * INR (n0 + n) + q)) * (cre z * cos (x * INR (n0 + n) + (q + p)) - cim z * sin (x * INR (n0 + n) + (q + p))))
  = cre (cmul (cis (- p)) (cmul y (cconj z))) / 2.
Proof.
  intros HN Hx Hs. rewrite <- (mean_osc N m x n0 (cre (cmul (cis (- p)) (cmul y (cconj z))) / 2) (cmul (mkC (/ 2) 0) (cmul (cmul y z) (cis (2 * q + p)))) HN Hx Hs). apply mean_ext. intros n _.
  set (t := x * INR (n0 + n)). clearbody t. rewrite <- Rplus_assoc. set (u := t + q).
  replace (cre (cmul (cmul (mkC (/ 2) 0) (cmul (cmul y z) (cis (2 * q + p)))) (cis (2 * t)))) with (cre (cmul (cmul (mkC (/ 2) 0) (cmul (cmul y z) (cis p))) (cis (2 * u)))).
  - clearbody u. transitivity (cre (cmul (cis (- p)) (cmul y (cconj z))) / 2 * (sin u * sin u + cos u * cos u) + cre (cmul (cmul (mkC (/ 2) 0) (cmul (cmul y z) (cis p))) (cis (2 * u)))).
    + unfold cis. rewrite cos_neg, sin_neg, cos_plus, sin_plus, cos_2a, sin_2a. destruct y as [a b], z as [a' b']. cbn. field.
    + pose proof (sin2_cos2 u) as U. unfold Rsqr in U. rewrite U. ring.
  - unfold u. replace (2 * (t + q)) with (2 * q + 2 * t) by ring. rewrite !cis_add. set (k1 := cis p). set (k2 := cis (2 * q)). set (k3 := cis (2 * t)). clearbody k1 k2 k3. f_equal. apply cpx_ext; cbn; ring.
Qed.

(** The work that delta_energy_j assigns to the half steps before and after the injection:
    the frequency-domain work E J* turned by half a step; their average is cos(omega dt / 2)
    times Re(E J* ) / 2. *)
Theorem C181_mean_work :
  forall (sh : list nat) (we wh : widths RF) (dt omega : R) (eps : field RF) (mu : option (field RF)) (E H J : field CC) (N n0 : nat) (m : Z),
    length sh = 3%nat -> nzw (K := RF) sh we -> nzw (K := RF) sh wh -> dt <> 0 -> nzm (K := RF) sh eps -> nzm_opt (K := RF) sh mu ->
    solves sh we wh dt omega eps mu E H J ->
    (0 < N)%nat -> omega * dt * INR N = PI * IZR m -> sin (omega * dt) <> 0 ->
    let st n := driven sh we wh dt omega eps mu E H J (n0 + n) in
    let j n := source dt omega J (n0 + n) in
    let d := Some (we, wh) in
    forall i, inb sh i ->
      let cell := we 0%nat (coord i 0) * we 1%nat (coord i 1) * we 2%nat (coord i 2) in
      let EJ := cadd (cadd (cmul (E 0%nat i) (cconj (J 0%nat i))) (cmul (E 1%nat i) (cconj (J 1%nat i)))) (cmul (E 2%nat i) (cconj (J 2%nat i))) in
      let before n := delta_energy_j (K := RF) (j n) (sE (st n)) d i in
      let after n := delta_energy_j (K := RF) (j n) (sE (st (n + 1)%nat)) d i in
      mean N before = - (dt * (cre (cmul (cis (- (omega * dt / 2))) EJ) / 2 * cell)) /\
      mean N after = - (dt * (cre (cmul (cis (omega * dt / 2)) EJ) / 2 * cell)) /\
      mean N (fun n => (before n + after n) / 2) = - (dt * (cos (omega * dt / 2) * (cre EJ / 2) * cell)).
Proof.
  intros sh we wh dt omega eps mu E H J N n0 m HL He Hh Hdt Heps Hmu [A B] HN Hx Hs st j d i Hi cell EJ before after.
  assert (RR : forall n, seq_st (K := RF) sh (st n) (mkst (at_phase E (omega * (INR (n0 + n) * dt))) (at_phase H (omega * ((INR (n0 + n) - / 2) * dt))))).
  { intro n. exact (C115_real_run sh we wh dt omega eps mu E H J HL He Hh Hdt Heps Hmu A B (n0 + n)). }
  set (x := omega * dt) in *.
  set (os := fun (z : cpx) n q => cre z * cos (x * INR (n0 + n) + q) - cim z * sin (x * INR (n0 + n) + q)).
  assert (RE : forall n c, (c < 3)%nat -> sE (st n) c i = os (E c i) n 0 /\ sE (st (n + 1)%nat) c i = os (E c i) n x /\ j n c i = - (dt * os (J c i) n (x / 2))).
  { intros n c Hc. destruct (RR n) as [R1 _]. destruct (RR (n + 1)%nat) as [R3 _]. rewrite (R1 c i Hc Hi), (R3 c i Hc Hi). cbn [sE sH]. unfold j, source, at_phase, os.
    replace (omega * (INR (n0 + n) * dt)) with (x * INR (n0 + n) + 0) by (unfold x; ring).
    replace (omega * (INR (n0 + (n + 1)) * dt)) with (x * INR (n0 + n) + x) by (unfold x; rewrite !plus_INR; cbn [INR]; ring).
    replace (omega * ((INR (n0 + n) + / 2) * dt)) with (x * INR (n0 + n) + x / 2) by (unfold x; field). auto. }
  assert (W : forall (q : R) (w : nat -> R) (e : nat -> field RF), (forall n c, (c < 3)%nat -> e n c i = os (E c i) n q) ->
    mean N (fun n => delta_energy_j (K := RF) (j n) (e n) d i) = - (dt * (cre (cmul (cis (- (x / 2 - q))) EJ) / 2 * cell))).
  { intros q _ e He'.
    assert (MP : forall c, mean N (fun n => os (E c i) n q * os (J c i) n (x / 2)) = cre (cmul (cis (- (x / 2 - q))) (cmul (E c i) (cconj (J c i)))) / 2).
    { intro c. rewrite <- (mean_pair2 N m x n0 q (x / 2 - q) (E c i) (J c i) HN Hx Hs). apply mean_ext. intros n _. unfold os. now replace (q + (x / 2 - q)) with (x / 2) by ring. }
    transitivity (mean N (fun n => (os (E 0%nat i) n q * os (J 0%nat i) n (x / 2) + os (E 1%nat i) n q * os (J 1%nat i) n (x / 2) + os (E 2%nat i) n q * os (J 2%nat i) n (x / 2)) * (- (dt * cell)))).
    - apply mean_ext. intros n _. unfold delta_energy_j, sum_axis0, wat, cell, d. cbn [option_map fst]. rewrite !He' by lia.
      destruct (RE n 0%nat ltac:(lia)) as (_ & _ & ->). destruct (RE n 1%nat ltac:(lia)) as (_ & _ & ->). destruct (RE n 2%nat ltac:(lia)) as (_ & _ & ->).
      set (a0 := os _ n q). set (a1 := os _ n q). set (a2 := os _ n q). set (b0 := os _ n (x / 2)). set (b1 := os _ n (x / 2)). set (b2 := os _ n (x / 2)). clearbody a0 a1 a2 b0 b1 b2.
      set (w0 := we 0%nat _). set (w1 := we 1%nat _). set (w2 := we 2%nat _). clearbody w0 w1 w2. cbn. ring.
    - rewrite mean_scale, !mean_add, !MP. unfold EJ. set (k := cis _). clearbody k. set (y0 := cmul (E 0%nat i) _). set (y1 := cmul (E 1%nat i) _). set (y2 := cmul (E 2%nat i) _). clearbody y0 y1 y2. clearbody cell. cbn. field. }
  assert (WB : mean N before = - (dt * (cre (cmul (cis (- (x / 2))) EJ) / 2 * cell))).
  { unfold before. rewrite (W 0 (fun _ => 0) (fun n => sE (st n))) by (intros n c Hc; apply (RE n c Hc)). now rewrite Rminus_0_r. }
  assert (WA : mean N after = - (dt * (cre (cmul (cis (x / 2)) EJ) / 2 * cell))).
  { unfold after. rewrite (W x (fun _ => 0) (fun n => sE (st (n + 1)%nat))) by (intros n c Hc; apply (RE n c Hc)). now replace (- (x / 2 - x)) with (x / 2) by field. }
  split; [exact WB|]. split; [exact WA|].
  transitivity (mean N (fun n => (before n + after n) * / 2)); [reflexivity|]. rewrite mean_scale, mean_add, WB, WA. clearbody EJ cell. unfold cis. rewrite cos_neg, sin_neg. cbn. field.
Qed.
Print Assumptions C181_mean_work.

(** Mean power out of a cell: that of the documented Re(E x H* ) / 2 times cos(omega dt / 2),
    and equal to the mean power of the currents in it, weighted with their Yee volumes. *)
Theorem C181_mean_outflow :
  forall (sh : list nat) (we wh : widths RF) (dt omega : R) (eps : field RF) (mu : option (field RF)) (E H J : field CC) (N n0 : nat) (m : Z),
    length sh = 3%nat -> nzw (K := RF) sh we -> nzw (K := RF) sh wh -> dt <> 0 -> nzm (K := RF) sh eps -> nzm_opt (K := RF) sh mu ->
    solves sh we wh dt omega eps mu E H J ->
    (0 < N)%nat -> omega * dt * INR N = PI * IZR m -> sin (omega * dt) <> 0 ->
    let st n := driven sh we wh dt omega eps mu E H J (n0 + n) in
    let d := Some (we, wh) in
    forall i, inb sh i ->
    exists before after : nat -> arr RF,
      (forall n, poynting_divergence (K := RF) sh None (Some (sE (st n))) (Some (sH (st n))) d = Ok (before n)) /\
      (forall n, poynting_divergence (K := RF) sh None (Some (sE (st n))) (Some (sH (st (n + 1)%nat))) d = Ok (after n)) /\
      mean N (fun n => (before n i + after n i) / 2)
      = - (cos (omega * dt / 2) * csum (K := RF) (fun c => vol_e (K := RF) we wh c i * (cre (cmul (E c i) (cconj (J c i))) / 2))).
Proof.
  intros sh we wh dt omega eps mu E H J N n0 m HL He Hh Hdt Heps Hmu Sv HN Hx Hs st d i Hi.
  exists (fun n => divergence_of (K := RF) sh (poynting (K := RF) sh d (sE (st n)) (sH (st n)))), (fun n => divergence_of (K := RF) sh (poynting (K := RF) sh d (sE (st n)) (sH (st (n + 1)%nat)))).
  split; [intro n; reflexivity|]. split; [intro n; reflexivity|].
  set (S := poynting_e_cross_h_f (K := CC) sh (cw we, cw wh) E (cjf (K := CC) H)).
  set (P := fun n c k => (poynting (K := RF) sh d (sE (st n)) (sH (st n)) c k + poynting (K := RF) sh d (sE (st n)) (sH (st (n + 1)%nat)) c k) / 2).
  assert (MP : forall c k, (c < 3)%nat -> inb sh k -> mean N (fun n => P n c k) = cos (omega * dt / 2) * (cre (S c k) / 2)).
  { intros c k Hc Hk. exact (proj2 (proj2 (C180_mean_power sh we wh dt omega eps mu E H J N n0 m HL He Hh Hdt Heps Hmu Sv HN Hx Hs c k Hc Hk))). }
  assert (I0 : forall a, (a < 3)%nat -> inb sh (shift_ix sh a (-1) i)) by (intros a Ha; apply inb_shift; [exact Hi|lia]).
  transitivity (mean N (fun n => P n 0%nat i + P n 0%nat (shift_ix sh 0 (-1) i) * (-1) + (P n 1%nat i + P n 1%nat (shift_ix sh 1 (-1) i) * (-1)) + (P n 2%nat i + P n 2%nat (shift_ix sh 2 (-1) i) * (-1)))).
  - apply mean_ext. intros n _. unfold P, divergence_of, deriv_back, roll. change (- (1))%Z with (-1)%Z.
    set (p := poynting (K := RF) sh d (sE (st n)) (sH (st n))). set (q := poynting (K := RF) sh d (sE (st n)) (sH (st (n + 1)%nat))). clearbody p q.
    set (a0 := p 0%nat i). set (a1 := p 1%nat i). set (a2 := p 2%nat i). set (b0 := q 0%nat i). set (b1 := q 1%nat i). set (b2 := q 2%nat i).
    set (e0 := p 0%nat _). set (e1 := p 1%nat _). set (e2 := p 2%nat _). set (f0 := q 0%nat _). set (f1 := q 1%nat _). set (f2 := q 2%nat _).
    clearbody a0 a1 a2 b0 b1 b2 e0 e1 e2 f0 f1 f2. cbn. field.
  - rewrite !mean_add, !mean_scale. rewrite !MP by (try apply I0; try exact Hi; lia).
    pose proof (C117_power_balance sh we wh (2 * sin (omega * dt / 2) / dt) (cf eps) (option_map cf mu) E H J (noj (K := CC)) i HL He Hh Hi (proj1 Sv)) as B.
    assert (Z : feq (K := CC) sh (snd (eh_full_f (K := CC) sh (mkC (2 * sin (omega * dt / 2) / dt) 0) (cw we, cw wh) (cf eps) (option_map cf mu) E H)) (fun c k => copp (noj (K := CC) c k))).
    { intros c k Hc Hk. rewrite (proj2 Sv c k Hc Hk). apply cpx_ext; cbn; ring. }
    specialize (B Z). fold S in B. unfold outflow, diff_prev, over in B.
    unfold csum in *. set (s0 := shift_ix sh 0 (-1) i) in *. set (s1 := shift_ix sh 1 (-1) i) in *. set (s2 := shift_ix sh 2 (-1) i) in *. clearbody s0 s1 s2.
    assert (Mi : forall c, cim (matl (K := CC) (option_map cf mu) c i) = 0) by (intro c; destruct mu; reflexivity).
    rewrite !Mi in B. unfold cf, noj in B. clear Mi. clearbody S. set (o := 2 * sin (omega * dt / 2) / dt) in *. clearbody o. cbn in B |- *.
    set (k := cos _). clearbody k. match type of B with ?l = _ => transitivity (k / 2 * l); [field|rewrite B; field] end.
Qed.
Print Assumptions C181_mean_outflow.

(** On a grid with equal E and H widths the work of delta_energy_j is what leaves the cell. *)
Theorem C181_mean_balance :
  forall (sh : list nat) (w : widths RF) (dt omega : R) (eps : field RF) (mu : option (field RF)) (E H J : field CC) (N n0 : nat) (m : Z),
    length sh = 3%nat -> nzw (K := RF) sh w -> dt <> 0 -> nzm (K := RF) sh eps -> nzm_opt (K := RF) sh mu ->
    solves sh w w dt omega eps mu E H J ->
    (0 < N)%nat -> omega * dt * INR N = PI * IZR m -> sin (omega * dt) <> 0 ->
    let st n := driven sh w w dt omega eps mu E H J (n0 + n) in
    let j n := source dt omega J (n0 + n) in
    let d := Some (w, w) in
    forall i, inb sh i ->
    exists before after : nat -> arr RF,
      (forall n, poynting_divergence (K := RF) sh None (Some (sE (st n))) (Some (sH (st n))) d = Ok (before n)) /\
      (forall n, poynting_divergence (K := RF) sh None (Some (sE (st n))) (Some (sH (st (n + 1)%nat))) d = Ok (after n)) /\
      dt * mean N (fun n => (before n i + after n i) / 2)
      = mean N (fun n => (delta_energy_j (K := RF) (j n) (sE (st n)) d i + delta_energy_j (K := RF) (j n) (sE (st (n + 1)%nat)) d i) / 2).
Proof.
  intros sh w dt omega eps mu E H J N n0 m HL Hw Hdt Heps Hmu Sv HN Hx Hs st j d i Hi.
  destruct (C181_mean_outflow sh w w dt omega eps mu E H J N n0 m HL Hw Hw Hdt Heps Hmu Sv HN Hx Hs i Hi) as (b & a & Hb & Ha & M).
  exists b, a. split; [exact Hb|]. split; [exact Ha|]. rewrite M.
  pose proof (proj2 (proj2 (C181_mean_work sh w w dt omega eps mu E H J N n0 m HL Hw Hw Hdt Heps Hmu Sv HN Hx Hs i Hi))) as W.
  refine (eq_trans _ (eq_sym W)). set (k := cos _). clearbody k. unfold csum, vol_e. cbn. field.
Qed.
Print Assumptions C181_mean_balance.

(** The two cells of C180: the current in the first one does work. *)
Example C181_example :
  nzw (K := RF) ax_sh ax_w /\ solves ax_sh ax_w ax_w 1 (PI / 2) ax_eps None ax_E ax_H ax_J /\ (PI / 2 * 1 * INR 4 = PI * IZR 2) /\ sin (PI / 2 * 1) <> 0 /\
  cos (PI / 2 * 1 / 2) * csum (K := RF) (fun c => vol_e (K := RF) ax_w ax_w c [0; 0; 0]%nat * (cre (cmul (ax_E c [0; 0; 0]%nat) (cconj (ax_J c [0; 0; 0]%nat))) / 2)) <> 0.
Proof.
  assert (W : nzw (K := RF) ax_sh ax_w) by (intros a j _ _; exact R1_neq_R0). destruct ax_angles as (A1 & A2 & _).
  split; [exact W|]. split; [exact ax_solves|]. split; [exact A1|]. split; [exact A2|].
  assert (Cz : curl_forward (K := CC) ax_sh (Some (cw ax_w)) ax_E 2%nat [1; 0; 0]%nat = mkC 1 (-1)).
  { transitivity (csub (cdiv (csub c1 ci) (mkC 1 0)) (cdiv (csub c0 c0) (mkC 1 0))); [reflexivity|]. unfold cdiv, cinv, cnrm. apply cpx_ext; cbn; field. }
  assert (Cz0 : curl_forward (K := CC) ax_sh (Some (cw ax_w)) ax_E 2%nat [0; 0; 0]%nat = mkC (-1) 1).
  { transitivity (csub (cdiv (csub ci c1) (mkC 1 0)) (cdiv (csub c0 c0) (mkC 1 0))); [reflexivity|]. unfold cdiv, cinv, cnrm. apply cpx_ext; cbn; field. }
  assert (J1 : cre (cmul (ax_E 1%nat [0; 0; 0]%nat) (cconj (ax_J 1%nat [0; 0; 0]%nat))) = 1 / sin (PI / 2 * 1 / 2)).
  { transitivity (cre (cmul c1 (cconj (csub (csub (cdiv (csub (ax_H 0%nat [0; 0; 0]%nat) (ax_H 0%nat [0; 0; 0]%nat)) (mkC 1 0)) (cdiv (csub (ax_H 2%nat [0; 0; 0]%nat) (ax_H 2%nat [1; 0; 0]%nat)) (mkC 1 0))) (cmul (cmul (cmul ci ax_om) (mkC 1 0)) c1))))); [reflexivity|].
    set (h0 := ax_H 0%nat [0; 0; 0]%nat). clearbody h0. change cpx in h0. unfold ax_H. rewrite Cz, Cz0. unfold ax_om. pose proof ax_pos as P. set (s := sin _) in *. clearbody s.
    unfold cdiv, cinv, cnrm. cbn. field. nra. }
  pose proof ax_pos as P. pose proof PI_RGT_0. assert (Pc : 0 < cos (PI / 2 * 1 / 2)) by (apply cos_gt_0; lra).
  unfold csum, vol_e, ax_w. rewrite J1.
  replace (cre (cmul (ax_E 0%nat [0; 0; 0]%nat) (cconj (ax_J 0%nat [0; 0; 0]%nat)))) with 0 by (cbn; ring).
  replace (cre (cmul (ax_E 2%nat [0; 0; 0]%nat) (cconj (ax_J 2%nat [0; 0; 0]%nat)))) with 0 by (cbn; ring).
  assert (0 < 1 / sin (PI / 2 * 1 / 2)) by (apply Rdiv_lt_0_compat; lra). set (u := 1 / sin _) in *. clearbody u. set (v := cos _) in *. clearbody v. cbn. nra.
Qed.
