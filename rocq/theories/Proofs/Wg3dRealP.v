(** Facts about the model of waveguide_3d. *)
From Coq Require Import Reals List Arith ZArith Lia Lra Bool Field.
From Verif.Lib Require Import Num Sums Idx Mat RealF Cexp.
From Verif.Model Require Import Fdmath Fdfd Waveguide2d WaveguideReal Waveguide3d.
From Verif.Spec Require Import Yee FdfdSpec WaveguideSpec Wg3dSpec.
From Verif.Proofs Require Import FdmathP FdfdP WaveguideP WaveguideP2 WaveguideP3 WaveguideP4 WaveguideRealP Wg3dP.
From Verif.Props Require Import WaveguideProps WaveguideRealProps.
From Verif.Proofs Require Import GridP.
Import ListNotations.
Local Open Scope nat_scope.

Definition ox (axis b : nat) : nat := nth b (order axis) 0.

Lemma ox_cases axis : axis < 3 ->
  (axis, ox axis 0, ox axis 1) = (0, 1, 2) \/ (axis, ox axis 0, ox axis 1) = (1, 2, 0) \/ (axis, ox axis 0, ox axis 1) = (2, 0, 1).
Proof.
  intro H. destruct axis as [|[|[|]]]; [left|right; left|right; right|lia]; reflexivity.
Qed.
Lemma ox_2 axis : axis < 3 -> ox axis 2 = axis.
Proof. intro H. destruct axis as [|[|[|]]]; [reflexivity| reflexivity|reflexivity|lia]. Qed.
Lemma ox_ok axis b : axis < 3 -> b < 2 -> ox axis b < 3 /\ ox axis b <> axis.
Proof. intros H Hb. destruct (ox_cases axis H) as [E|[E|E]]; injection E; intros; destruct b as [|[|]]; lia. Qed.
Lemma ox_01 axis : axis < 3 -> ox axis 0 <> ox axis 1.
Proof. intros H. destruct (ox_cases axis H) as [E|[E|E]]; injection E; intros; lia. Qed.
Lemma ox_cover axis a : axis < 3 -> a < 3 -> a = ox axis 0 \/ a = ox axis 1 \/ a = axis.
Proof. intros H Ha. destruct (ox_cases axis H) as [E|[E|E]]; injection E; intros; lia. Qed.

Section S.
  Variables (sh : list nat) (axis : nat) (sl : slices).
  Hypothesis HL : length sh = 3.
  Hypothesis Hax : axis < 3.
  Hypothesis HV : valid_slices sh axis sl.

  Local Notation o := (ox axis).
  Let s b := start sl (o b).
  Let n b := slen sh sl (o b).

  Lemma slen_eq a : a < 3 -> slen sh sl a = stop sl a - start sl a.
  Proof. intro Ha. unfold slen. destruct (proj1 HV a Ha). rewrite Nat.min_l by lia. reflexivity. Qed.
  Lemma fit b : b < 2 -> s b + n b <= dim sh (o b).
  Proof.
    intro Hb. unfold s, n. destruct (ox_ok axis b Hax Hb) as [Ho _]. rewrite slen_eq by exact Ho.
    destruct (proj1 HV (o b) Ho). lia.
  Qed.
  Lemma win_iff j : win o s n j <-> forall a, a < 3 -> a <> axis -> start sl a <= coord j a /\ coord j a < stop sl a.
  Proof.
    split; intro H.
    - intros a Ha Hne. destruct (ox_cover axis a Hax Ha) as [->|[->|E]]; [| |lia].
      + destruct (H 0 ltac:(lia)). unfold s, n in *. destruct (ox_ok axis 0 Hax ltac:(lia)) as [Ho _]. rewrite slen_eq in * by exact Ho. lia.
      + destruct (H 1 ltac:(lia)). unfold s, n in *. destruct (ox_ok axis 1 Hax ltac:(lia)) as [Ho _]. rewrite slen_eq in * by exact Ho. lia.
    - intros b Hb. destruct (ox_ok axis b Hax Hb) as [Ho Hn]. destruct (H _ Ho Hn). unfold s, n. rewrite slen_eq by exact Ho. lia.
  Qed.

  Lemma selected_iff (t : slices) j : selected t j = true <-> forall a, a < 3 -> start t a <= coord j a /\ coord j a < stop t a.
  Proof.
    unfold selected. rewrite forallb_forall. split; intro H.
    - intros a Ha. specialize (H a ltac:(cbn; lia)). apply andb_true_iff in H. rewrite Nat.leb_le, Nat.ltb_lt in H. exact H.
    - intros a Ha. cbn in Ha. rewrite andb_true_iff, Nat.leb_le, Nat.ltb_lt. apply H. lia.
  Qed.

  Let sl_exp : slices := fun a => if Nat.eqb a axis then (0, dim sh axis) else sl a.
  Lemma sel_exp j : inb sh j -> (selected sl_exp j = true <-> win o s n j).
  Proof.
    intro Hi. rewrite selected_iff, win_iff. unfold sl_exp, start, stop. split; intro H.
    - intros a Ha Hne. specialize (H a Ha). destruct (Nat.eqb_spec a axis); [lia|exact H].
    - intros a Ha. destruct (Nat.eqb_spec a axis) as [->|]; [|now apply H]. cbn. pose proof (inb_coord sh j axis Hi ltac:(lia)). lia.
  Qed.
  (** Every window cell projects to a selected cell on the slice. *)
  Lemma sel_slice j : inb sh j -> win o s n j -> selected sl (upd axis (start sl axis) j) = true.
  Proof.
    intros Hi W. rewrite selected_iff. rewrite win_iff in W. intros a Ha. destruct (Nat.eq_dec a axis) as [->|Hne].
    - rewrite coord_upd_same by (rewrite (inb_length _ _ Hi); lia). destruct HV as [_ ->]. lia.
    - rewrite coord_upd_other by lia. now apply W.
  Qed.

  Lemma list3 (j : list nat) : length j = 3 -> j = [coord j 0; coord j 1; coord j 2].
  Proof. destruct j as [|a [|b [|c [|]]]]; cbn; try discriminate. reflexivity. Qed.

  (** Writing 2D components back (waveguide_3d.py:98-101). *)
  Lemma put_back (f : field CC) (b : nat) j : b < 3 -> length j = 3 -> selected sl j = true ->
    put_slices (K := CC) sl (transpose3 (K := CC) (reverse_order axis)
       (fun j => f (nth (ox axis b) (reverse_order axis) 0) [coord j 0; coord j 1])) j
    = f b (pr o s j).
  Proof.
    intros Hb Hj Hs. unfold put_slices. rewrite Hs. unfold transpose3, pr, s.
    destruct axis as [|[|[|]]]; [| | |lia]; destruct b as [|[|[|]]]; try lia; reflexivity.
  Qed.

  (** The 2D problem reads the materials on the slice. *)
  Lemma unvec_vec1 (F : field CC) a b n0 n1 c : a < n0 -> b < n1 ->
    unvec (K := CC) [n0; n1] (vec (K := CC) [n0; n1; 1] F) c [a; b] = F c [a; b; 0].
  Proof.
    intros Ha Hb. unfold unvec, vec.
    assert (Hi : inb [n0; n1; 1] [a; b; 0]) by (repeat constructor; lia).
    pose proof (ravel_lt _ _ Hi) as Hr. pose proof (unravel_ravel _ _ Hi) as Hu.
    assert (E : c * prodl [n0; n1] + ravel [n0; n1] [a; b] = c * prodl [n0; n1; 1] + ravel [n0; n1; 1] [a; b; 0]) by (cbn; nia).
    rewrite E. rewrite Nat.div_add_l by lia. rewrite Nat.div_small by exact Hr. rewrite Nat.add_0_r.
    rewrite Nat.add_comm, Nat.mod_add by lia. rewrite Nat.mod_small by exact Hr. now rewrite Hu.
  Qed.
  Lemma reduce_at (f : field CC) b j : b < 3 -> inb sh j -> win o s n j ->
    unvec (K := CC) [n 0; n 1] (reduce_2d sh axis sl f) b (pr o s j) = f (ox axis b) (upd axis (start sl axis) j).
  Proof.
    intros Hb Hi W. unfold reduce_2d.
    assert (EO : map (slen sh sl) (order axis) = [n 0; n 1; 1]).
    { assert (S1 : slen sh sl axis = 1) by (rewrite slen_eq by exact Hax; destruct HV as [_ ->]; lia).
      unfold n. transitivity [slen sh sl (ox axis 0); slen sh sl (ox axis 1); slen sh sl axis]; [|now rewrite S1].
      destruct axis as [|[|[|]]]; [reflexivity|reflexivity|reflexivity|lia]. }
    rewrite EO. unfold pr. destruct (W 0 ltac:(lia)), (W 1 ltac:(lia)).
    rewrite unvec_vec1 by lia. unfold transpose3, take_slices. fold (ox axis b). f_equal.
    pose proof (inb_length _ _ Hi) as Hl. rewrite HL in Hl. destruct j as [|x [|y [|z [|]]]]; try discriminate Hl.
    unfold s in *.
    clear EO. unfold ox in *.
    destruct axis as [|[|[|]]]; [| | |lia];
      [change (order 0) with [1; 2; 0] in *|change (order 1) with [2; 0; 1] in *|change (order 2) with [0; 1; 2] in *];
      clear - H H0 H1 H2; cbn in *; rewrite ?Nat.add_0_r; repeat f_equal; lia.
  Qed.
End S.

(** ** Phases *)
Local Open Scope R_scope.
Add Field CCf3 : (fth CC).

Lemma csin_opp u : csin (copp u) = copp (csin u).
Proof.
  unfold csin. replace (cmul ci (copp u)) with (copp (cmul ci u)) by (apply cpx_ext; cbn; ring).
  replace (copp (copp (cmul ci u))) with (cmul ci u) by (apply cpx_ext; cbn; ring).
  set (x := cexp (cmul ci u)). set (y := cexp (copp _)). clearbody x y. apply cpx_ext; cbn; ring.
Qed.
Lemma step_of_sine u : let p := cexp (copp (cmul ci u)) in
  csub (cmul p p) c1 = cmul (cmul (cmul (copp ci) (mkC 2 0)) (csin u)) p.
Proof.
  cbv zeta. unfold csin. pose proof (cexp_opp (cmul ci u)) as E.
  set (p := cexp (copp (cmul ci u))) in *. set (x := cexp (cmul ci u)) in *.
  rewrite <- E at 1. clearbody x p.
  transitivity (cmul (csub p x) p); [apply cpx_ext; cbn; ring|]. f_equal.
  apply cpx_ext; cbn; unfold cnrm; cbn; field.
Qed.

Section Phase.
  Variables (sh : list nat) (dxes : dx2 CC) (axis : nat) (sl : slices) (dx : R).
  Hypothesis HL : length sh = 3%nat.
  Hypothesis Hax : (axis < 3)%nat.
  Hypothesis HV : valid_slices sh axis sl.
  Hypothesis HU : uniform_along sh axis dxes dx.
  Hypothesis Hdx : dx <> 0.

  Lemma dxp_eq : dx_prop sh dxes axis sl = mkC dx 0.
  Proof.
    unfold dx_prop. cbv zeta. fold (ox axis 2). rewrite ox_2 by exact Hax.
    destruct HV as [V1 V2]. destruct (V1 axis Hax) as [V3 V4].
    rewrite (slen_eq sh axis sl HL Hax HV axis Hax). rewrite V2.
    replace (S (start sl axis) - start sl axis)%nat with 1%nat by lia. cbn [sumN]. rewrite Nat.add_0_r.
    destruct (HU (start sl axis) ltac:(lia)) as [-> ->]. apply cpx_ext; cbn; field.
  Qed.
  (** The corrected wavenumber follows the discrete dispersion relation. *)
  Lemma dispersion k2 :
    csin (cdiv (cmul (corrected_wavenumber sh dxes axis sl k2) (mkC dx 0)) (mkC 2 0)) = cdiv (cmul k2 (mkC dx 0)) (mkC 2 0).
  Proof.
    unfold corrected_wavenumber. rewrite dxp_eq. set (z := cdiv (cmul k2 _) _).
    replace (cdiv (cmul (cmul (cdiv (mkC 2 0) (mkC dx 0)) (casin z)) (mkC dx 0)) (mkC 2 0)) with (casin z); [apply csin_casin|].
    apply cpx_ext; cbn; unfold cnrm; cbn; field; exact Hdx.
  Qed.
  Definition psign (pol : Z) : Prop := (pol = 1 \/ pol = -1)%Z.
  Lemma half_step_sq pol k2 : psign pol -> let p := half_step sh dxes axis pol sl (corrected_wavenumber sh dxes axis sl k2) in
    csub (cmul p p) c1 = cmul (cmul (cmul (copp ci) (cmul (mkC (IZR pol) 0) k2)) (mkC dx 0)) p.
  Proof.
    intros Hpol p. set (k := corrected_wavenumber _ _ _ _ _) in *. pose proof (dispersion k2) as D. fold k in D. clearbody k.
    set (u := cdiv (cmul k (mkC dx 0)) (mkC 2 0)) in *.
    destruct Hpol as [E|E].
    - assert (P : p = cexp (copp (cmul ci u))).
      { unfold p, half_step. rewrite dxp_eq, E. f_equal. unfold u. apply cpx_ext; cbn; unfold cnrm; cbn; field. }
      rewrite P. rewrite (step_of_sine u). rewrite D, E. apply cpx_ext; cbn; unfold cnrm; cbn; field.
    - assert (P : p = cexp (copp (cmul ci (copp u)))).
      { unfold p, half_step. rewrite dxp_eq, E. f_equal. unfold u. apply cpx_ext; cbn; unfold cnrm; cbn; field. }
      rewrite P. rewrite (step_of_sine (copp u)). rewrite csin_opp, D, E. apply cpx_ext; cbn; unfold cnrm; cbn; field.
  Qed.

  Definition phase_at (pol : Z) (k : cpx) (m : nat) : cpx :=
    cexp (cmul (cmul (mkC 0 (- IZR pol)) k) (mkC (a_E dxes axis m - a_E dxes axis (start sl axis)) 0)).
  Lemma phase_start pol k : phase_at pol k (start sl axis) = c1.
  Proof.
    unfold phase_at. rewrite <- cexp_0. f_equal. apply cpx_ext; cbn; ring.
  Qed.
  Lemma phase_step pol k m : (m + 1 < dim sh axis)%nat ->
    let p := half_step sh dxes axis pol sl k in phase_at pol k (S m) = cmul (phase_at pol k m) (cmul p p).
  Proof.
    intros Hm p. unfold phase_at, p, half_step. rewrite <- !cexp_add. f_equal. rewrite dxp_eq.
    assert (A : a_E dxes axis (S m) = a_E dxes axis m + dx).
    { unfold a_E. destruct (HU (S m) ltac:(lia)) as [E _]. change (sumN (K := RF) (S (S m)) (fun k => cre (fst dxes axis k)))
        with (sumN (K := RF) (S m) (fun k => cre (fst dxes axis k)) + cre (fst dxes axis (S m))). now rewrite E. }
    rewrite A. apply cpx_ext; cbn; field.
  Qed.
End Phase.

(** [expand_e] on the window. *)
Lemma expand_win sh dxes axis pol sl (E : field CC) k c j : (axis < 3)%nat -> length sh = 3%nat -> valid_slices sh axis sl -> inb sh j ->
  win (ox axis) (fun b => start sl (ox axis b)) (fun b => slen sh sl (ox axis b)) j ->
  expand_e sh dxes axis pol sl E k c j = cmul (phase_at dxes axis sl pol k (coord j axis)) (E c (upd axis (start sl axis) j)).
Proof.
  intros Hax HL HV Hi W. unfold expand_e. cbv zeta. rewrite (proj2 (sel_exp sh axis sl HL Hax HV j Hi) W). reflexivity.
Qed.

Section OneDiv.
  Variable K : Fld.
  Add Field Kod : (fth K).
  Lemma one_div_mul (m : K) : (m <> 0 -> 1 / m * m = 1)%K.
  Proof. intro H. field. exact H. Qed.
End OneDiv.
Lemma cmul_sw a b c : cmul a (cmul b c) = cmul (cmul a c) b.
Proof. apply cpx_ext; cbn; ring. Qed.

(** ** From solve_mode to the fields *)
Section Solve.
  Variables (sh : list nat) (omega : cpx) (dxes : dx2 CC) (axis : nat) (sl : slices).
  Hypothesis HL : length sh = 3%nat.
  Hypothesis Hax : (axis < 3)%nat.
  Hypothesis HV : valid_slices sh axis sl.
  Let s b := start sl (ox axis b).
  Let n b := slen sh sl (ox axis b).

  Lemma pr_surj i : inb [n 0; n 1]%nat i -> exists j, inb sh j /\ win (ox axis) s n j /\ pr (ox axis) s j = i.
  Proof.
    intro Hi. pose proof (inb_length _ _ Hi) as Hl. destruct i as [|a [|b [|]]]; try discriminate Hl.
    pose proof (inb_coord _ _ 0 Hi ltac:(cbn; lia)) as Ha. pose proof (inb_coord _ _ 1 Hi ltac:(cbn; lia)) as Hb.
    cbn in Ha, Hb.
    exists (upd (ox axis 0) (s 0 + a) (upd (ox axis 1) (s 1 + b) (upd axis (start sl axis) [0; 0; 0])))%nat.
    destruct (ox_ok axis 0 Hax ltac:(lia)) as [O1 O2]. destruct (ox_ok axis 1 Hax ltac:(lia)) as [P1 P2].
    pose proof (ox_01 axis Hax) as Hne. destruct (proj1 HV axis Hax) as [V1 V2].
    pose proof (fit sh axis sl HL Hax HV 0%nat ltac:(lia)) as F0. pose proof (fit sh axis sl HL Hax HV 1%nat ltac:(lia)) as F1.
    change (s 0 + n 0 <= dim sh (ox axis 0))%nat in F0. change (s 1 + n 1 <= dim sh (ox axis 1))%nat in F1.
    change (a < n 0)%nat in Ha. change (b < n 1)%nat in Hb. clearbody s n.
    set (j := upd (ox axis 0) _ _).
    assert (LJ : length j = 3%nat) by (unfold j; now rewrite !length_upd).
    assert (C0 : coord j (ox axis 0) = (s 0 + a)%nat) by (unfold j; now rewrite coord_upd_same by (rewrite !length_upd; exact O1)).
    assert (C1 : coord j (ox axis 1) = (s 1 + b)%nat).
    { unfold j. rewrite coord_upd_other by exact Hne. now rewrite coord_upd_same by (rewrite !length_upd; exact P1). }
    assert (C2 : coord j axis = start sl axis).
    { unfold j. rewrite !coord_upd_other by assumption. now rewrite coord_upd_same by exact Hax. }
    split; [|split].
    - apply inb_iff. split; [now rewrite LJ|]. intros c Hc. rewrite HL in Hc.
      destruct (ox_cover axis c Hax Hc) as [->|[->| ->]]; [rewrite C0|rewrite C1|rewrite C2]; lia.
    - intros c Hc. destruct c as [|[|]]; [| |lia]; [rewrite C0|rewrite C1]; lia.
    - unfold pr. rewrite C0, C1. repeat f_equal; lia.
  Qed.

  Lemma materials_2d (eps : field CC) (mu : option (field CC)) :
    (forall c idx, (c < 3)%nat -> inb sh idx -> eps c idx <> c0) ->
    (forall c idx, (c < 3)%nat -> inb sh idx -> mu_or_ones mu c idx <> c0) ->
    nonzero_materials (K := CC) [n 0; n 1]%nat (reduce_2d sh axis sl eps) (Some (reduce_2d sh axis sl (mu_or_ones mu))).
  Proof.
    intros He Hm.
    assert (G : forall f : field CC, (forall c idx, (c < 3)%nat -> inb sh idx -> f c idx <> c0) ->
      forall q, (q < 3 * prodl [n 0; n 1])%nat -> reduce_2d sh axis sl f q <> c0).
    { intros f Hf q Hq. set (N := prodl [n 0; n 1]%nat) in *.
      assert (HN : (0 < N)%nat) by (destruct N; lia).
      assert (Hr : (q mod N < N)%nat) by (apply Nat.mod_upper_bound; lia).
      assert (Hd : (q / N < 3)%nat) by (apply Nat.div_lt_upper_bound; lia).
      destruct (pr_surj (unravel [n 0; n 1]%nat (q mod N)) (inb_unravel _ _ Hr)) as (j & Hj & Wj & Pj).
      assert (R : unvec (K := CC) [n 0; n 1]%nat (reduce_2d sh axis sl f) (q / N)%nat (unravel [n 0; n 1]%nat (q mod N)%nat) = f (ox axis (q / N)%nat) (upd axis (start sl axis) j))
        by (rewrite <- Pj; exact (reduce_at sh axis sl HL Hax HV f (q / N)%nat j Hd Hj Wj)).
      unfold unvec in R.
      rewrite (ravel_unravel _ _ Hr) in R. fold N in R.
      replace (q / N * N + q mod N)%nat with q in R by (rewrite Nat.mul_comm; apply Nat.div_mod; lia). rewrite R.
      apply Hf; [|apply inb_upd; [exact Hj|destruct (proj1 HV axis Hax); lia]].
      destruct (q / N)%nat as [|[|[|]]]; try lia; [apply ox_ok; lia|apply ox_ok; lia|now rewrite ox_2]. }
    split; [exact (G eps He)|exact (G _ Hm)].
  Qed.

  (** The fields returned by [solve_mode_3d] on the slice. *)
  Lemma solve_fields pol solver eps mu k k2 H E : solve_mode_3d sh omega dxes axis pol sl solver eps mu = Some (k, k2, H, E) ->
    let p := problem_2d sh omega dxes axis sl eps mu in
    exists e_xy ve vh, solver p = Some (e_xy, k2) /\ k = corrected_wavenumber sh dxes axis sl k2 /\
      normalized_fields_e (a_sh p) e_xy k2 omega (a_dxes p) (a_epsilon p) (Some (a_mu p))
        (cexp (cmul (mkC 0 (1 / 2)) (cmul (dx_prop sh dxes axis sl) k))) = Some (ve, vh) /\
      forall j, length j = 3%nat -> selected sl j = true ->
        E (ox axis 0) j = unvec (K := CC) [n 0; n 1]%nat ve 0%nat (pr (ox axis) s j) /\
        E (ox axis 1) j = unvec (K := CC) [n 0; n 1]%nat ve 1%nat (pr (ox axis) s j) /\
        E axis j = cmul (unvec (K := CC) [n 0; n 1]%nat ve 2%nat (pr (ox axis) s j)) (half_step sh dxes axis pol sl k) /\
        H (ox axis 0) j = cmul (cmul (unvec (K := CC) [n 0; n 1]%nat vh 0%nat (pr (ox axis) s j)) (mkC (IZR pol) 0)) (half_step sh dxes axis pol sl k) /\
        H (ox axis 1) j = cmul (cmul (unvec (K := CC) [n 0; n 1]%nat vh 1%nat (pr (ox axis) s j)) (mkC (IZR pol) 0)) (half_step sh dxes axis pol sl k) /\
        H axis j = cmul (unvec (K := CC) [n 0; n 1]%nat vh 2%nat (pr (ox axis) s j)) (mkC (IZR pol) 0).
  Proof.
    intros R p. unfold solve_mode_3d in R. cbv zeta in R. fold p in R.
    destruct (solver p) as [[e_xy k2']|] eqn:S; [|discriminate].
    change (a_omega p) with omega in R.
    destruct (normalized_fields_e _ _ _ _ _ _ _ _) as [[ve vh]|] eqn:NF; [|discriminate].
    injection R as <- <- <- <-. exists e_xy, ve, vh. split; [reflexivity|]. split; [reflexivity|]. split; [exact NF|].
    intros j Hj Hs.
    pose (k := corrected_wavenumber sh dxes axis sl k2').
    pose (e := fun (c : nat) (j : list nat) => let z := unvec (K := CC) (a_sh p) ve c j in
                 if Nat.eqb c 2 then cmul z (half_step sh dxes axis pol sl k) else z).
    pose (h := fun (c : nat) (j : list nat) => let z := cmul (unvec (K := CC) (a_sh p) vh c j) (mkC (IZR pol) 0) in
                 if Nat.ltb c 2 then cmul z (half_step sh dxes axis pol sl k) else z).
    pose proof (put_back sh axis sl HL Hax HV e 0 j ltac:(lia) Hj Hs) as E0.
    pose proof (put_back sh axis sl HL Hax HV e 1 j ltac:(lia) Hj Hs) as E1.
    pose proof (put_back sh axis sl HL Hax HV e 2 j ltac:(lia) Hj Hs) as E2. rewrite (ox_2 axis Hax) in E2.
    pose proof (put_back sh axis sl HL Hax HV h 0 j ltac:(lia) Hj Hs) as H0.
    pose proof (put_back sh axis sl HL Hax HV h 1 j ltac:(lia) Hj Hs) as H1.
    pose proof (put_back sh axis sl HL Hax HV h 2 j ltac:(lia) Hj Hs) as H2. rewrite (ox_2 axis Hax) in H2.
    exact (Logic.conj E0 (Logic.conj E1 (Logic.conj E2 (Logic.conj H0 (Logic.conj H1 H2))))).
  Qed.

  Lemma win_of j : stencil_inside sh axis sl j -> win (ox axis) s n j.
  Proof.
    intros (Hi & _ & _ & Hs). apply (win_iff sh axis sl HL Hax HV). intros a Ha Hne.
    pose proof (inb_coord sh j a Hi ltac:(lia)). destruct (Hs a Ha Hne) as [[-> ->]|]; lia.
  Qed.
  Lemma stencil_of j : stencil_inside sh axis sl j -> forall b, (b < 2)%nat ->
    full sh (ox axis) s n b \/ (s b < coord j (ox axis b) /\ coord j (ox axis b) + 1 < s b + n b)%nat.
  Proof.
    intros (Hi & _ & _ & Hs) b Hb. destruct (ox_ok axis b Hax Hb) as [O1 O2]. unfold full, s, n.
    rewrite (slen_eq sh axis sl HL Hax HV) by exact O1. destruct (proj1 HV (ox axis b) O1).
    destruct (Hs _ O1 O2) as [[A B]|[A B]]; [left; lia|right; lia].
  Qed.

  (** A 2D mode with wavenumber [pol * k2] whose fields are those on the slice
      gives a 3D solution. *)
  Variables (pol : Z) (eps : field CC) (mu : option (field CC)) (dx : R) (k2 : cpx) (e h E : field CC).
  Hypothesis Hpol : psign pol.
  Hypothesis HU : uniform_along sh axis dxes dx.
  Hypothesis Hdx : dx <> 0.
  Hypothesis Ie : invariant_along sh axis eps.
  Hypothesis Im : invariant_along sh axis (mu_or_ones mu).
  Hypothesis Zm : forall c idx, (c < 3)%nat -> inb sh idx -> mu_or_ones mu c idx <> c0.
  Let k := corrected_wavenumber sh dxes axis sl k2.
  Let hs := half_step sh dxes axis pol sl k.
  Hypothesis M : is_mode (K := CC) [n 0; n 1]%nat (widths_2d axis sl (fst dxes)) (widths_2d axis sl (snd dxes)) omega (cmul (mkC (IZR pol) 0) k2)
    (unvec (K := CC) [n 0; n 1]%nat (reduce_2d sh axis sl eps)) (unvec (K := CC) [n 0; n 1]%nat (reduce_2d sh axis sl (mu_or_ones mu))) e h.
  Hypothesis HE : forall j, length j = 3%nat -> selected sl j = true ->
    E (ox axis 0) j = e 0%nat (pr (ox axis) s j) /\ E (ox axis 1) j = e 1%nat (pr (ox axis) s j) /\
    E axis j = cmul (e 2%nat (pr (ox axis) s j)) hs.

  Let EE := expand_e sh dxes axis pol sl E k.
  Let HH3 : field CC := fun c j =>
    let ph := phase_at dxes axis sl pol k (coord j axis) in
    if Nat.eqb c axis then cmul ph (h 2%nat (pr (ox axis) s j))
    else if Nat.eqb c (ox axis 0) then cmul (cmul ph hs) (h 0%nat (pr (ox axis) s j))
    else cmul (cmul ph hs) (h 1%nat (pr (ox axis) s j)).

  Lemma HH3_at j : HH3 (ox axis 0) j = cmul (cmul (phase_at dxes axis sl pol k (coord j axis)) hs) (h 0%nat (pr (ox axis) s j)) /\
    HH3 (ox axis 1) j = cmul (cmul (phase_at dxes axis sl pol k (coord j axis)) hs) (h 1%nat (pr (ox axis) s j)) /\
    HH3 axis j = cmul (phase_at dxes axis sl pol k (coord j axis)) (h 2%nat (pr (ox axis) s j)).
  Proof.
    unfold HH3. destruct (ox_ok axis 0 Hax ltac:(lia)) as [_ A0]. destruct (ox_ok axis 1 Hax ltac:(lia)) as [_ A1]. pose proof (ox_01 axis Hax) as A2.
    rewrite Nat.eqb_refl. rewrite (proj2 (Nat.eqb_neq _ _) A0), (proj2 (Nat.eqb_neq _ _) A1), Nat.eqb_refl.
    rewrite (proj2 (Nat.eqb_neq (ox axis 1) (ox axis 0))) by congruence. repeat split.
  Qed.
  Lemma EE_at j : inb sh j -> win (ox axis) s n j ->
    EE (ox axis 0) j = cmul (phase_at dxes axis sl pol k (coord j axis)) (e 0%nat (pr (ox axis) s j)) /\
    EE (ox axis 1) j = cmul (phase_at dxes axis sl pol k (coord j axis)) (e 1%nat (pr (ox axis) s j)) /\
    EE axis j = cmul (cmul (phase_at dxes axis sl pol k (coord j axis)) hs) (e 2%nat (pr (ox axis) s j)).
  Proof.
    intros Hi W. unfold EE. rewrite !(expand_win sh dxes axis pol sl E k _ j Hax HL HV Hi W).
    destruct (HE (upd axis (start sl axis) j)) as (-> & -> & ->).
    - rewrite length_upd, (inb_length _ _ Hi). exact HL.
    - exact (sel_slice sh axis sl HL Hax HV j Hi W).
    - assert (P : pr (ox axis) s (upd axis (start sl axis) j) = pr (ox axis) s j).
      { unfold pr. destruct (ox_ok axis 0 Hax ltac:(lia)) as [_ A0]. destruct (ox_ok axis 1 Hax ltac:(lia)) as [_ A1]. now rewrite !coord_upd_other by congruence. }
      rewrite P. repeat split. apply cmul_sw.
  Qed.
  Lemma mat_at (f : field CC) j : invariant_along sh axis f -> inb sh j -> win (ox axis) s n j ->
    f (ox axis 0) j = unvec (K := CC) [n 0; n 1]%nat (reduce_2d sh axis sl f) 0%nat (pr (ox axis) s j) /\
    f (ox axis 1) j = unvec (K := CC) [n 0; n 1]%nat (reduce_2d sh axis sl f) 1%nat (pr (ox axis) s j) /\
    f axis j = unvec (K := CC) [n 0; n 1]%nat (reduce_2d sh axis sl f) 2%nat (pr (ox axis) s j).
  Proof.
    intros If Hi W.
    assert (Hs : (start sl axis < dim sh axis)%nat) by (destruct (proj1 HV axis Hax); lia).
    pose proof (reduce_at sh axis sl HL Hax HV f 0 j ltac:(lia) Hi W) as R0. pose proof (reduce_at sh axis sl HL Hax HV f 1 j ltac:(lia) Hi W) as R1.
    pose proof (reduce_at sh axis sl HL Hax HV f 2 j ltac:(lia) Hi W) as R2. rewrite (ox_2 axis Hax) in R2.
    rewrite If in R0 by (try assumption; apply ox_ok; lia). rewrite If in R1 by (try assumption; apply ox_ok; lia). rewrite If in R2 by assumption.
    exact (Logic.conj (eq_sym R0) (Logic.conj (eq_sym R1) (eq_sym R2))).
  Qed.

  Lemma inv_mu c j : (c < 3)%nat -> inb sh j -> win (ox axis) s n j -> @fmul CC (inv_at (K := CC) mu c j) (mu_or_ones mu c j) = @f1 CC.
  Proof.
    intros Hc Hi _. specialize (Zm c j Hc Hi). destruct mu as [m|]; cbn [inv_at mu_or_ones] in *.
    - exact (one_div_mul CC (m c j) Zm).
    - apply cpx_ext; cbn; ring.
  Qed.

  Lemma hyps_hs : @fsub CC (@fmul CC hs hs) (@f1 CC) = @fmul CC (@fmul CC (@fmul CC (@fopp CC ci) (cmul (mkC (IZR pol) 0) k2)) (mkC dx 0)) hs.
  Proof. exact (half_step_sq sh dxes axis sl dx HL Hax HV HU Hdx pol k2 Hpol). Qed.

  Lemma wave_inside c j : (c < 3)%nat -> stencil_inside sh axis sl j ->
    wave_e (K := CC) sh omega (fst dxes) (snd dxes) eps mu EE c j = c0.
  Proof.
    intros Hc Hs. pose proof (win_of j Hs) as W. pose proof (stencil_of j Hs) as St. destruct Hs as (Hi & Hm1 & Hm2 & _).
    refine (embed_wave CC sh axis (ox axis) s n HL Hax (fun b Hb => ox_ok axis b Hax Hb) (ox_01 axis Hax) (fit sh axis sl HL Hax HV) (ox_cases axis Hax)
      (fst dxes) (snd dxes) (widths_2d axis sl (fst dxes)) (widths_2d axis sl (snd dxes)) omega (cmul (mkC (IZR pol) 0) k2) (mkC dx 0) hs
      (phase_at dxes axis sl pol k) _ _ e h eps (mu_or_ones mu) EE HH3 _ _ _ _ _ hyps_hs _ M _ _ _ _ mu j c Hc Hi W Hm1 Hm2 St inv_mu).
    - reflexivity.
    - reflexivity.
    - intros m Hm. apply (HU m Hm).
    - intros m Hm. apply (HU m Hm).
    - intro Z. apply (f_equal cre) in Z. cbn in Z. now apply Hdx.
    - intros m Hm. exact (phase_step sh dxes axis sl dx HL Hax HV HU pol k m Hm).
    - intros i Hi' W'. exact (EE_at i Hi' W').
    - intros i Hi' W'. exact (HH3_at i).
    - intros i Hi' W'. now apply mat_at.
    - intros i Hi' W'. now apply mat_at.
  Qed.
  Lemma faraday_inside c j : (c < 3)%nat -> stencil_inside sh axis sl j ->
    curl_forward (K := CC) sh (Some (fst dxes)) EE c j = cmul (cmul (copp ci) omega) (cmul (mu_or_ones mu c j) (HH3 c j)).
  Proof.
    intros Hc Hs. pose proof (win_of j Hs) as W. pose proof (stencil_of j Hs) as St. destruct Hs as (Hi & Hm1 & Hm2 & _).
    refine (embed_faraday CC sh axis (ox axis) s n HL Hax (fun b Hb => ox_ok axis b Hax Hb) (ox_01 axis Hax) (fit sh axis sl HL Hax HV) (ox_cases axis Hax)
      (fst dxes) (snd dxes) (widths_2d axis sl (fst dxes)) (widths_2d axis sl (snd dxes)) omega (cmul (mkC (IZR pol) 0) k2) (mkC dx 0) hs
      (phase_at dxes axis sl pol k) _ _ e h eps (mu_or_ones mu) EE HH3 _ _ _ _ _ hyps_hs _ M _ _ _ _ j c Hc Hi W Hm2 _ _).
    - reflexivity.
    - reflexivity.
    - intros m Hm. apply (HU m Hm).
    - intros m Hm. apply (HU m Hm).
    - intro Z. apply (f_equal cre) in Z. cbn in Z. now apply Hdx.
    - intros m Hm. exact (phase_step sh dxes axis sl dx HL Hax HV HU pol k m Hm).
    - intros i Hi' W'. exact (EE_at i Hi' W').
    - intros i Hi' W'. exact (HH3_at i).
    - intros i Hi' W'. now apply mat_at.
    - intros i Hi' W'. now apply mat_at.
    - destruct (St 0%nat ltac:(lia)) as [?|[_ ?]]; [now left|now right].
    - destruct (St 1%nat ltac:(lia)) as [?|[_ ?]]; [now left|now right].
  Qed.
End Solve.
