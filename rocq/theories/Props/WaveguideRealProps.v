(** Properties of meanas/fdfd/waveguide_2d.py over the complex numbers:
    normalization and mode selection. *)
From Coq Require Import String Reals List Arith ZArith Lia Lra Bool Psatz Permutation.
From Verif.Lib Require Import Num Sums Idx Mat RealF.
From Verif.Model Require Import Fdmath Fdfd Waveguide2d WaveguideReal.
From Verif.Spec Require Import Yee WaveguideSpec NormSpec EigenSpec.
From Verif.Proofs Require Import WaveguideP3 WaveguideP4 WaveguideRealP WaveguideRealP2.
From Verif.Props Require Import WaveguideProps.
From Verif.Proofs Require Import GridP.
Import ListNotations.
Local Open Scope R_scope.
Local Open Scope list_scope.

Lemma prodl2 a b : prodl [a; b] = (a * b)%nat.
Proof. cbn. lia. Qed.

(** ** C39 *)
Theorem C39_unit_power :
  forall sh e h dxes eps phase e' h',
    normalized_fields sh e h dxes eps phase = Some (e', h') ->
    cre (inner_product (K := CC) sh e' h' dxes phase true) = 1.
Proof.
  intros sh e h dxes eps phase e' h' H. destruct (nf_spec sh dxes eps phase e h e' h' H) as (P & Q & E1 & E2).
  cbv zeta in E1, E2. change (power sh e' h' dxes phase = 1). rewrite E1, E2, power_scale.
  rewrite (nf_factor_nrm sh dxes eps phase e h P Q). field. lra.
Qed.
Print Assumptions C39_unit_power.

(** One complex factor for both fields; the strongest entry (first one of the
    largest energy) becomes real; the real part of the energy-weighted output
    has a positive sum over the first quadrant. *)
Theorem C39_common_factor_and_sign :
  forall nx ny e h dxes eps phase e' h',
    normalized_fields [nx; ny] e h dxes eps phase = Some (e', h') ->
    (exists f : cpx, cnrm f * cre (inner_product (K := CC) [nx; ny] e h dxes phase true) = 1 /\
       (forall q, e' q = cmul (e q) f) /\ (forall q, h' q = cmul (h q) f)) /\
    (forall m, strongest (3 * (nx * ny)) (stored eps e) m -> cim (e' m) = 0) /\
    0 < quarter nx ny (fun q => stored eps e' q * cre (e' q)).
Proof.
  intros nx ny e h dxes eps phase e' h' H. destruct (nf_common_factor_and_sign _ _ _ _ _ _ _ _ H) as (A & B & C).
  split; [exact A|]. split.
  - intros m (M1 & M2 & M3). apply B; rewrite ?prodl2 in *; [exact M1| |]; intros q Hq; rewrite !energy_stored; auto.
  - rewrite quadrant_quarter in C. refine (Rlt_le_trans _ _ _ C (Req_le _ _ _)). apply quarter_ext. intro q.
    rewrite energy_stored. unfold cmul. cbn [cre cim]. ring.
Qed.
Print Assumptions C39_common_factor_and_sign.

Theorem C39_raises :
  forall nx ny e h dxes eps phase,
    (0 < nx)%nat -> (0 < ny)%nat ->
    normalized_fields [nx; ny] e h dxes eps phase = None
    <-> cre (inner_product (K := CC) [nx; ny] e h dxes phase true) <= 0 \/
        exists m w, strongest (3 * (nx * ny)) (stored eps e) m /\ turns (e m) w /\
          quarter nx ny (fun q => stored eps e q * cre (cmul (e q) w)) = 0.
Proof.
  intros nx ny e h dxes eps phase Hx Hy.
  set (m := amax (energy eps e) (3 * prodl [nx; ny] - 1)).
  assert (Hm : strongest (3 * (nx * ny)) (stored eps e) m).
  { apply (strongest_ext _ (energy eps e)); [apply energy_stored|]. unfold m. rewrite prodl2. apply amax_strongest. nia. }
  assert (Q : quadrant_sum [nx; ny] (fun q => cmul (cmul (e q) (mkC (energy eps e q) 0)) (unphase (e m)))
              = quarter nx ny (fun q => stored eps e q * cre (cmul (e q) (unphase (e m))))).
  { rewrite quadrant_quarter. apply quarter_ext. intro q. rewrite energy_stored. unfold cmul. cbn [cre cim]. ring. }
  split.
  - intro N. apply nf_none in N. destruct N as [N|N]; [now left|right]. exists m, (unphase (e m)).
    split; [exact Hm|]. split; [apply unphase_turns|]. rewrite <- Q. exact N.
  - intros [N|(m' & w & Sm & T & Z)]; apply nf_none; [now left|right].
    rewrite (strongest_unique _ _ _ _ Sm Hm) in T. rewrite (turns_unique _ _ _ T (unphase_turns (e m))) in Z.
    rewrite <- Q in Z. exact Z.
Qed.
Print Assumptions C39_raises.

(** The result does not depend on the (arbitrary) complex scale of the
    eigenvector the solver returned. *)
Theorem C39_scale_invariant :
  forall sh e h dxes eps phase c,
    (0 < prodl sh)%nat -> (forall q, (q < 3 * prodl sh)%nat -> 0 < cre (eps q)) ->
    cre (inner_product (K := CC) sh e h dxes phase true) <> 0 -> c <> c0 ->
    match normalized_fields sh e h dxes eps phase,
          normalized_fields sh (fun q => cmul (e q) c) (fun q => cmul (h q) c) dxes eps phase with
    | Some (e1, h1), Some (e2, h2) => (forall q, e1 q = e2 q) /\ (forall q, h1 q = h2 q)
    | None, None => True
    | _, _ => False
    end.
Proof. intros sh e h dxes eps phase c Hs He Hp Hc. now apply nf_scale_inv. Qed.
Print Assumptions C39_scale_invariant.

(** Starting from an eigenvector, the result is still an exact mode. *)
Theorem C39_normalized_mode :
  forall sh we wh (om beta : cpx) eps mu (e_xy : vect CC) phase e' h',
    length sh = 2%nat -> om <> c0 -> beta <> c0 -> nonzero_materials (K := CC) sh eps mu ->
    veq (K := CC) (2 * prodl sh) (mv (2 * prodl sh) (operator_e (K := CC) sh om (we, wh) eps mu) e_xy)
      (fun q => cmul (cmul beta beta) (e_xy q)) ->
    normalized_fields_e sh e_xy beta om (we, wh) eps mu phase = Some (e', h') ->
    is_mode (K := CC) sh we wh om beta (unvec (K := CC) sh eps) (mu_field (K := CC) sh mu) (unvec (K := CC) sh e') (unvec (K := CC) sh h') /\
    cre (inner_product (K := CC) sh e' h' (we, wh) phase true) = 1.
Proof.
  intros sh we wh om beta eps mu x phase e' h' HL Hom Hb Hm H N. split.
  - destruct (C36_eigenvector_gives_mode CC sh we wh om beta eps mu x HL Hom Hb Hm H) as (M & _).
    unfold normalized_fields_e in N. destruct (nf_common_factor_and_sign _ _ _ _ _ _ _ _ N) as ((f & _ & E1 & E2) & _).
    refine (mode_scale_gen CC sh we wh om beta _ _ _ _ _ _ f HL M _ _); intros c i Hc Hi; [apply E1|apply E2].
  - unfold normalized_fields_e in N. now apply C39_unit_power in N.
Qed.
Print Assumptions C39_normalized_mode.
Theorem C39_normalized_mode_h :
  forall sh we wh (om beta : cpx) eps mu (h_xy : vect CC) phase e' h',
    length sh = 2%nat -> om <> c0 -> beta <> c0 -> nonzero_materials (K := CC) sh eps mu ->
    veq (K := CC) (2 * prodl sh) (mv (2 * prodl sh) (operator_h (K := CC) sh om (we, wh) eps mu) h_xy)
      (fun q => cmul (cmul beta beta) (h_xy q)) ->
    normalized_fields_h sh h_xy beta om (we, wh) eps mu phase = Some (e', h') ->
    is_mode (K := CC) sh we wh om beta (unvec (K := CC) sh eps) (mu_field (K := CC) sh mu) (unvec (K := CC) sh e') (unvec (K := CC) sh h') /\
    cre (inner_product (K := CC) sh e' h' (we, wh) phase true) = 1 /\
    exists f : cpx, f <> c0 /\ veq (K := CC) (2 * prodl sh) h' (fun q => cmul (h_xy q) f).
Proof.
  intros sh we wh om beta eps mu x phase e' h' HL Hom Hb Hm H N. unfold normalized_fields_h in N.
  destruct (C37_eigenvector_gives_mode CC sh we wh om beta eps mu x HL Hom Hb Hm H) as (M & _ & _ & _ & _ & X).
  destruct (nf_common_factor_and_sign _ _ _ _ _ _ _ _ N) as ((f & F & E1 & E2) & _). split; [|split].
  - refine (mode_scale_gen CC sh we wh om beta _ _ _ _ _ _ f HL M _ _); intros c i Hc Hi; [apply E1|apply E2].
  - now apply C39_unit_power in N.
  - exists f. split.
    + intros ->. unfold cnrm, c0 in F. cbn [cre cim] in F. rewrite !Rmult_0_l, Rplus_0_r, Rmult_0_l in F. lra.
    + intros q Hq. rewrite E2. f_equal. now apply X.
Qed.
Print Assumptions C39_normalized_mode_h.
(** Both functions give the same fields for one mode: started from the transverse
    E or the transverse H of a mode the results agree. *)
Theorem C39_e_and_h_agree :
  forall sh we wh (om beta : cpx) eps mu (e h : vect CC) phase,
    length sh = 2%nat -> om <> c0 -> beta <> c0 -> nonzero_materials (K := CC) sh eps mu ->
    is_mode (K := CC) sh we wh om beta (unvec (K := CC) sh eps) (mu_field (K := CC) sh mu) (unvec (K := CC) sh e) (unvec (K := CC) sh h) ->
    match normalized_fields_e sh e beta om (we, wh) eps mu phase, normalized_fields_h sh h beta om (we, wh) eps mu phase with
    | Some (e1, h1), Some (e2, h2) => veq (K := CC) (3 * prodl sh) e1 e2 /\ veq (K := CC) (3 * prodl sh) h1 h2
    | None, None => True
    | _, _ => False
    end.
Proof.
  intros sh we wh om beta eps mu e h phase HL Hom Hb Hm M.
  destruct (C37_mode_solves_both_eigenproblems CC sh we wh om beta eps mu e h HL Hom Hb Hm M) as ((_ & A1 & A2) & (_ & B1 & B2)).
  unfold normalized_fields_e, normalized_fields_h. apply nf_cong; [exact HL| |]; intros q Hq.
  - rewrite (A1 q Hq). symmetry. exact (B2 q Hq).
  - rewrite (A2 q Hq). symmetry. exact (B1 q Hq).
Qed.
Print Assumptions C39_e_and_h_agree.

(** A transverse wave, ey = 2i and hx = -2i on a 2 x 1 grid of unit cells with
    unit epsilon: its power is 4, and it can be normalized. *)
Definition nx_e : vect CC := fun q => if (Nat.eqb (q / 2) 1) then mkC 0 2 else c0.
Definition nx_h : vect CC := fun q => if (Nat.eqb (q / 2) 0) then mkC 0 (-2) else c0.
Definition nx_dxes : dx2 CC := (fun _ _ => c1, fun _ _ => c1).
Example C39_example :
  cre (inner_product (K := CC) [2; 1]%nat nx_e nx_h nx_dxes c1 true) = 4 /\
  normalized_fields [2; 1]%nat nx_e nx_h nx_dxes (fun _ => c1) c1 <> None.
Proof.
  assert (P : power [2; 1]%nat nx_e nx_h nx_dxes c1 = 4).
  { unfold power, inner_product. cbn. unfold cmul, cdiv, cinv, cconj, cadd, copp, csub, cnrm; cbn. field. }
  split; [exact P|]. intro N. apply nf_raises in N. destruct N as [N|(m & Hm & H1 & H2)]; [lra|].
  assert (E : m = 2%nat \/ m = 3%nat).
  { specialize (H1 2%nat ltac:(cbn; lia)). cbn in Hm.
    do 6 (destruct m as [|m]; [first [now left|now right|exfalso; unfold energy in H1; cbn in H1; lra]|]). lia. }
  assert (U : unphase (nx_e m) = mkC 0 (-1)).
  { assert (N : nx_e m = mkC 0 2) by (destruct E as [-> | ->]; reflexivity). rewrite N.
    pose proof (unphase_self (mkC 0 2)) as X. destruct (unphase (mkC 0 2)) as [a b].
    unfold cabs, cnrm in X. cbn [cre cim] in X. replace (0 * 0 + 2 * 2) with (2 * 2) in X by ring.
    rewrite sqrt_square in X by lra. injection X as X1 X2. apply cpx_ext; cbn [cre cim]; lra. }
  rewrite U in H2. unfold quadrant_sum, energy in H2. cbn in H2. lra.
Qed.

(** ** C41 *)
(** Modes that are not cut off: the eigenvalue is not a real number <= 0. *)
Definition not_cut_off (eigval : cpx) : Prop := ~ (cre eigval <= 0 /\ cim eigval = 0).

Theorem C41_solve_modes :
  forall (V : Type) (guesses : list V) (rqi : V -> cpx * V) (mode_numbers : list nat) res,
    solve_modes guesses rqi mode_numbers = Some res ->
    (* sorted by decreasing wavenumber *)
    (forall i j p q, (i < j)%nat -> nth_error res i = Some p -> nth_error res j = Some q -> not_after (fst q) (fst p)) /\
    (* one result per requested mode: the m-th guess from the end, refined *)
    exists pairs : list (cpx * V),
      Forall2 (fun m lv => exists g, nth_error (rev guesses) m = Some g /\ rqi g = lv) mode_numbers pairs /\
      exists ks, Permutation res ks /\
        Forall2 (fun lv kv => snd kv = snd lv /\ 0 <= cre (fst kv) /\
                   (not_cut_off (fst lv) -> 0 < cre (fst kv) /\ cmul (fst kv) (fst kv) = fst lv)) pairs ks.
Proof.
  intros V guesses rqi ms res H. unfold solve_modes in H. destruct (pick_all guesses ms) as [vs|] eqn:E; [|discriminate].
  injection H as <-. split.
  - intros i j p q Hij Hi Hj. refine (rev_decreasing V _ i j p q _ Hij Hi Hj). apply argsorted_inc.
  - exists (map rqi vs). split.
    + revert vs E. induction ms as [|m ms IH]; intros vs E; cbn in E; [injection E as <-; constructor|].
      unfold from_end in E. destruct (nth_error (rev guesses) m) as [g|] eqn:Eg; [|discriminate].
      destruct (pick_all guesses ms) as [r|] eqn:Er; [|discriminate]. injection E as <-. cbn [map].
      constructor; [exists g; split; [exact Eg|reflexivity]|]. now apply IH.
    + exists (map (fun v => let '(l, x) := rqi v in (wavenumber_of l, x)) vs). split.
      * rewrite <- Permutation_rev. apply argsorted_perm.
      * clear E. induction vs as [|v vs IH]; [constructor|]. cbn [map]. constructor; [|exact IH].
        destruct (rqi v) as [l x]. cbn [fst snd]. split; [reflexivity|].
        unfold not_cut_off. destruct (Rle_dec (cre l) 0) as [A|A]; [destruct (Req_EM_T (cim l) 0) as [B|B]|].
        -- rewrite wavenumber_bad by (split; assumption). cbn. split; [lra|]. intros N. exfalso. apply N. split; assumption.
        -- rewrite wavenumber_ok by (intros [? ?]; contradiction). split; [apply csqrt_re|]. intro N. split; [|apply csqrt_sq].
           pose proof (csqrt_re l). destruct (Req_EM_T (cre (csqrt l)) 0) as [Z|Z]; [apply csqrt_re0 in Z; contradiction|lra].
        -- rewrite wavenumber_ok by (intros [? ?]; contradiction). split; [apply csqrt_re|]. intro N. split; [|apply csqrt_sq].
           pose proof (csqrt_re l). destruct (Req_EM_T (cre (csqrt l)) 0) as [Z|Z]; [apply csqrt_re0 in Z; contradiction|lra].
Qed.
Print Assumptions C41_solve_modes.

(** The cylindrical version returns wavenumber * rmin. *)
Theorem C41_solve_modes_cyl :
  forall (V : Type) (rmin : R) (guesses : list V) (rqi : V -> cpx * V) (mode_numbers : list nat) res,
    0 < rmin ->
    solve_modes_cyl rmin guesses rqi mode_numbers = Some res ->
    (forall i j p q, (i < j)%nat -> nth_error res i = Some p -> nth_error res j = Some q -> not_after (fst q) (fst p)) /\
    exists pairs : list (cpx * V),
      Forall2 (fun m lv => exists g, nth_error (rev guesses) m = Some g /\ rqi g = lv) mode_numbers pairs /\
      exists ks, Permutation res ks /\
        Forall2 (fun lv kv => snd kv = snd lv /\ 0 <= cre (fst kv) /\
                   (not_cut_off (fst lv) -> 0 < cre (fst kv) /\
                     cmul (fst kv) (fst kv) = cmul (fst lv) (mkC (rmin * rmin) 0))) pairs ks.
Proof.
  intros V rmin guesses rqi ms res Hr H. unfold solve_modes_cyl in H. destruct (pick_all guesses ms) as [vs|] eqn:E; [|discriminate].
  injection H as <-. split.
  - intros i j p q Hij Hi Hj. refine (rev_decreasing V _ i j p q _ Hij Hi Hj). apply argsorted_inc.
  - exists (map rqi vs). split.
    + revert vs E. induction ms as [|m ms IH]; intros vs E; cbn in E; [injection E as <-; constructor|].
      unfold from_end in E. destruct (nth_error (rev guesses) m) as [g|] eqn:Eg; [|discriminate].
      destruct (pick_all guesses ms) as [r|] eqn:Er; [|discriminate]. injection E as <-. cbn [map].
      constructor; [exists g; split; [exact Eg|reflexivity]|]. now apply IH.
    + exists (map (fun v => let '(l, x) := rqi v in (cmul (wavenumber_of l) (mkC rmin 0), x)) vs). split.
      * rewrite <- Permutation_rev. apply argsorted_perm.
      * clear E. induction vs as [|v vs IH]; [constructor|]. cbn [map]. constructor; [|exact IH].
        destruct (rqi v) as [l x]. cbn [fst snd]. split; [reflexivity|].
        assert (RE : cre (cmul (wavenumber_of l) (mkC rmin 0)) = cre (wavenumber_of l) * rmin) by (unfold cmul; cbn [cre cim]; ring).
        rewrite RE. unfold not_cut_off.
        destruct (Rle_dec (cre l) 0) as [A|A]; [destruct (Req_EM_T (cim l) 0) as [B|B]|].
        -- rewrite wavenumber_bad by (split; assumption). cbn. split; [lra|]. intros N. exfalso. apply N. split; assumption.
        -- apply (cyl_wavenumber l rmin Hr). intros [? ?]; contradiction.
        -- apply (cyl_wavenumber l rmin Hr). intros [? ?]; contradiction.
Qed.
Print Assumptions C41_solve_modes_cyl.

(** It fails (IndexError) exactly if a requested mode lies beyond the solved ones. *)
Theorem C41_index_error :
  forall (V : Type) (guesses : list V) (rqi : V -> cpx * V) (mode_numbers : list nat),
    solve_modes guesses rqi mode_numbers = None <-> exists m, In m mode_numbers /\ (length guesses <= m)%nat.
Proof.
  intros V guesses rqi ms. unfold solve_modes.
  assert (P : pick_all guesses ms = None <-> exists m, In m ms /\ (length guesses <= m)%nat).
  { induction ms as [|m ms IH]; cbn [pick_all].
    - split; [discriminate|]. intros (m & [] & _).
    - unfold from_end. destruct (nth_error (rev guesses) m) as [g|] eqn:Eg.
      + assert (L : (m < length guesses)%nat) by (rewrite <- rev_length; apply nth_error_Some; congruence).
        destruct (pick_all guesses ms) as [r|] eqn:Er.
        * split; [discriminate|]. intros (k & [<-|Hk] & Hl); [lia|]. assert (Some r = None) by (apply IH; now exists k). discriminate.
        * split; [|reflexivity]. intros _. destruct (proj1 IH eq_refl) as (k & Hk & Hl). exists k. split; [now right|exact Hl].
      + split; [|reflexivity]. intros _. exists m. split; [now left|]. rewrite <- rev_length. now apply nth_error_None. }
  destruct (pick_all guesses ms) as [vs|]; cbn [option_map].
  - split; [discriminate|]. intro H. apply P in H. discriminate.
  - split; [|reflexivity]. intros _. now apply P.
Qed.
Print Assumptions C41_index_error.

Theorem C41_solve_mode :
  forall (V : Type) (guesses : list V) (rqi : V -> cpx * V) (m : nat) g l x,
    nth_error (rev guesses) m = Some g -> rqi g = (l, x) ->
    exists k, solve_mode guesses rqi m = Some (k, x) /\ (not_cut_off l -> 0 < cre k /\ cmul k k = l).
Proof.
  intros V guesses rqi m g l x Hg Hr. exists (wavenumber_of l). split.
  - unfold solve_mode, solve_modes. cbn [pick_all]. unfold from_end. rewrite Hg. cbn. rewrite Hr. reflexivity.
  - intro N. rewrite wavenumber_ok by exact N. split; [|apply csqrt_sq].
    pose proof (csqrt_re l). destruct (Req_EM_T (cre (csqrt l)) 0) as [Z|Z]; [apply csqrt_re0 in Z; contradiction|lra].
Qed.
Print Assumptions C41_solve_mode.

(** Modes 0 and 1 of a list whose largest eigenvalue comes last; they come back
    largest wavenumber first although requested as [1; 0]. *)
Example C41_example :
  solve_modes [7; 8; 9]%nat (fun v => (mkC (INR v) 1, v)) [1; 0]%nat <> None /\
  not_cut_off (mkC (INR 8) 1).
Proof.
  split.
  - intro H. apply C41_index_error in H. destruct H as (m & Hm & Hl). cbn in Hm, Hl. intuition lia.
  - intros [_ H]. cbn in H. lra.
Qed.

(** C68: evanescent modes. *)
Theorem C68_cut_off_wavenumber_is_zero :
  forall (V : Type) (guesses : list V) (rqi : V -> cpx * V) (m : nat) g l x,
    nth_error (rev guesses) m = Some g -> rqi g = (l, x) ->
    cre l < 0 -> cim l = 0 ->
    solve_mode guesses rqi m = Some (c0, x) /\ cmul c0 c0 <> l.
Proof.
  intros V guesses rqi m g l x Hg Hr Hl Hi. split.
  - unfold solve_mode, solve_modes. cbn [pick_all]. unfold from_end. rewrite Hg. cbn. rewrite Hr.
    rewrite wavenumber_bad; [reflexivity|split; [lra|exact Hi]].
  - intro E. apply (f_equal cre) in E. cbn in E. lra.
Qed.
Print Assumptions C68_cut_off_wavenumber_is_zero.
Theorem C68_wavenumber_squared_refuted :
  exists (guesses : list nat) (rqi : nat -> cpx * nat) (m g x : nat) (l k : cpx),
    nth_error (rev guesses) m = Some g /\ rqi g = (l, x) /\
    solve_mode guesses rqi m = Some (k, x) /\ cmul k k <> l.
Proof.
  exists [5%nat], (fun v => (mkC (-4) 0, v)), 0%nat, 5%nat, 5%nat, (mkC (-4) 0), c0.
  destruct (C68_cut_off_wavenumber_is_zero nat [5%nat] (fun v => (mkC (-4) 0, v)) 0 5%nat (mkC (-4) 0) 5%nat eq_refl eq_refl) as [A B]; cbn; try lra.
  split; [reflexivity|]. split; [reflexivity|]. split; [exact A|exact B].
Qed.
Print Assumptions C68_wavenumber_squared_refuted.

(** C69: [solve_mode( *args, **kwargs)] documents that [args] are passed on to
    [solve_modes], but any positional argument collides with the keyword
    [mode_numbers] it adds itself: the call is a TypeError. *)
Theorem C69_positional_call_raises :
  forall (A : Type) (mode_numbers a : A) (args : list A) (kwargs : list (string * A)),
    solve_mode_call solve_modes_params mode_numbers (a :: args) kwargs = None /\
    solve_mode_call solve_modes_cyl_params mode_numbers (a :: args) kwargs = None.
Proof.
  intros A m a args kw. split; unfold solve_mode_call, py_bind;
  (destruct (Nat.ltb _ _); [reflexivity|]; destruct (forallb _ _); [|reflexivity];
   unfold solve_modes_params, solve_modes_cyl_params; cbn [combine app map fst];
   rewrite nodupb_dup; [reflexivity|]; rewrite map_app; apply in_or_app; right; now left).
Qed.
Print Assumptions C69_positional_call_raises.
Theorem C69_solve_mode_positional_refuted :
  exists (mode_numbers : nat) (args : list nat),
    solve_mode_call solve_modes_params mode_numbers args [] = None.
Proof. exists 0%nat, [1; 2; 3]%nat. vm_compute. reflexivity. Qed.
Print Assumptions C69_solve_mode_positional_refuted.
(** With keyword arguments only it works and every parameter gets its value. *)
Theorem C69_solve_mode_keywords :
  forall (A : Type) (mode_numbers : A) (kwargs : list (string * A)),
    NoDup (map fst kwargs) -> ~ In "mode_numbers"%string (map fst kwargs) ->
    (forall p, In p kwargs -> In (fst p) solve_modes_params) ->
    solve_mode_call solve_modes_params mode_numbers [] kwargs = Some (("mode_numbers"%string, mode_numbers) :: kwargs).
Proof.
  intros A m kw ND NI HP. unfold solve_mode_call, py_bind.
  rewrite filter_all by (intros p Hp; destruct (String.eqb_spec (fst p) "mode_numbers") as [E|E]; [exfalso; apply NI; rewrite <- E; now apply in_map|reflexivity]).
  change (Nat.ltb _ _) with false. cbv iota.
  assert (F : forallb (fun p => existsb (String.eqb (fst p)) solve_modes_params) (("mode_numbers"%string, m) :: kw) = true).
  { apply forallb_forall. intros p Hp. apply existsb_exists. exists (fst p). split; [|apply String.eqb_refl].
    destruct Hp as [<-|Hp]; [now left|now apply HP]. }
  rewrite F. change (combine solve_modes_params [] ++ _) with (("mode_numbers"%string, m) :: kw).
  rewrite nodupb_ok; [reflexivity|]. cbn [map fst]. now constructor.
Qed.
Print Assumptions C69_solve_mode_keywords.
(** A direct positional call of solve_modes binds its arguments in the documented order
    (the order differs between the two modules after epsilon). *)
Theorem C69_direct_call :
  forall (A : Type) (mode_numbers omega dxes epsilon mu rmin mode_margin : A),
    py_bind solve_modes_params [mode_numbers; omega; dxes; epsilon; mu; mode_margin] []
    = Some [("mode_numbers", mode_numbers); ("omega", omega); ("dxes", dxes); ("epsilon", epsilon); ("mu", mu); ("mode_margin", mode_margin)]%string /\
    py_bind solve_modes_cyl_params [mode_numbers; omega; dxes; epsilon; rmin; mode_margin] []
    = Some [("mode_numbers", mode_numbers); ("omega", omega); ("dxes", dxes); ("epsilon", epsilon); ("rmin", rmin); ("mode_margin", mode_margin)]%string.
Proof. intros. split; reflexivity. Qed.
Print Assumptions C69_direct_call.
Example C69_example :
  solve_mode_call solve_modes_params 0%nat [] [("omega", 1); ("dxes", 2); ("epsilon", 3)]%string%nat
  = Some [("mode_numbers", 0); ("omega", 1); ("dxes", 2); ("epsilon", 3)]%string%nat.
Proof. reflexivity. Qed.
