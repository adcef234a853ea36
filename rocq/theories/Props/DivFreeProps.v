(** Fields without divergence, the states that currents can reach, and the currents that
    magnetic currents can replace (C174). *)
From Coq Require Import List Arith ZArith Lia Field QArith Qcanon.
From Verif.Lib Require Import Num Sums Idx Mat.
From Verif.Model Require Import Fdmath Fdtd Fdfd.
From Verif.Spec Require Import Grid Yee FdtdRun.
From Verif.Proofs Require Import FdmathP FdmathP2 GridP HarmonicP DivFreeP.
Import ListNotations.

(** Widths that are not zero, and neither are their sums along the axes. *)
Definition good_widths {K : Fld} (sh : list nat) (w : widths K) : Prop :=
  nzw sh w /\ forall a, (a < 3)%nat -> sumN (dim sh a) (w a) <> f0.

(** The total over the grid of component c, weighted with the volumes of its cells. *)
Definition total_e {K : Fld} (sh : list nat) (we wh : widths K) (D : field K) (c : nat) : K :=
  gsum sh (fun i => fmul (vol_e we wh c i) (D c i)).
Definition total_h {K : Fld} (sh : list nat) (we wh : widths K) (B : field K) (c : nat) : K :=
  gsum sh (fun i => fmul (vol_h we wh c i) (B c i)).

Section Gen.
  Variable K : Fld.
  Add Field Kfield : (fth K).
  Local Open Scope fld_scope.

  (** A field at the places of E is a curl of a field at the places of H if and only if
      it has no divergence and no totals. *)
Theorem C174_electric :
    forall (sh : list nat) (we wh : widths K) (D : field K),
      length sh = 3%nat -> good_widths sh we -> good_widths sh wh ->
      (exists h, feq sh (curl_prev sh (Some wh) h) D) <->
      (forall i, inb sh i -> div_b sh (Some (we, wh)) D i = 0) /\ (forall c, (c < 3)%nat -> total_e sh we wh D c = 0).
  Proof. intros sh we wh D HL (Ne & Se) (Nh & Sh). to_model. exact (range_back K sh HL we wh Ne Nh Se Sh D). Qed.

Theorem C174_magnetic :
    forall (sh : list nat) (we wh : widths K) (B : field K),
      length sh = 3%nat -> good_widths sh we -> good_widths sh wh ->
      (exists e, feq sh (curl_next sh (Some we) e) B) <->
      (forall i, inb sh i -> div_f sh (Some (we, wh)) B i = 0) /\ (forall c, (c < 3)%nat -> total_h sh we wh B c = 0).
  Proof. intros sh we wh B HL (Ne & Se) (Nh & Sh). to_model. exact (range_fwd K sh HL we wh Ne Nh Se Sh B). Qed.

  Lemma vol_nz sh (we wh : widths K) c : length sh = 3%nat -> good_widths sh we -> good_widths sh wh -> gsum sh (vol_e we wh c) <> 0.
  Proof.
    intros HL (_ & Se) (_ & Sh).
    assert (M : forall x y : K, x <> 0 -> y <> 0 -> x * y <> 0). { intros x y X Y E. apply X. transitivity (x * y / y); [field; exact Y|]. rewrite E. field. exact Y. }
    destruct c as [|[|c]]; unfold vol_e; rewrite (vol_total K sh HL); repeat apply M; (apply Se || apply Sh); lia.
  Qed.
  Lemma div_b_shift sh we wh (D : field K) (k : nat -> K) i : div_b sh (Some (we, wh)) (fun c i => D c i + k c) i = div_b sh (Some (we, wh)) D i.
  Proof. unfold div_b, diff_prev, over. cbn [option_map snd]. rewrite !(Fdiv_def (fth K)). ring. Qed.
  Lemma total_shift sh we wh (D : field K) (k : nat -> K) c : total_e sh we wh (fun c i => D c i + k c) c = total_e sh we wh D c + k c * gsum sh (vol_e we wh c).
  Proof. unfold total_e. rewrite <- gsum_mul_l, <- gsum_add. apply gsum_ext. intros. ring. Qed.

  (** Without divergence: a curl plus a uniform field, whose strength is the mean. *)
Theorem C174_no_divergence :
    forall (sh : list nat) (we wh : widths K) (D : field K),
      length sh = 3%nat -> good_widths sh we -> good_widths sh wh ->
      ((forall i, inb sh i -> div_b sh (Some (we, wh)) D i = 0) <->
       exists (h : field K) (k : nat -> K), feq sh D (fun c i => curl_prev sh (Some wh) h c i + k c)) /\
      (forall (h : field K) (k : nat -> K), feq sh D (fun c i => curl_prev sh (Some wh) h c i + k c) ->
         forall c, (c < 3)%nat -> k c = total_e sh we wh D c / total_e sh we wh (fun _ _ => 1) c).
  Proof.
    intros sh we wh D HL Ge Gh.
    assert (V1 : forall c, total_e sh we wh (fun _ _ => 1) c = gsum sh (vol_e we wh c)) by (intro c; apply gsum_ext; intros; ring).
    assert (Vz : forall c, gsum sh (vol_e we wh c) <> 0) by (intro c; now apply vol_nz).
    split; [split|].
    - intro Dv. set (k := fun c => total_e sh we wh D c / gsum sh (vol_e we wh c)).
      destruct (proj2 (C174_electric sh we wh (fun c i => D c i + (fun c => - k c) c) HL Ge Gh)) as (h & E).
      + split; [intros i Hi; rewrite (div_b_shift sh we wh D (fun c => - k c)); now apply Dv|]. intros c Hc. rewrite (total_shift sh we wh D (fun c => - k c)). unfold k. field. apply Vz.
      + exists h, k. intros c i Hc Hi. rewrite (E c i Hc Hi). ring.
    - intros (h & k & E) i Hi. rewrite (div_b_ext K sh HL we wh _ _ i Hi E), div_b_shift.
      apply (proj1 (proj1 (C174_electric sh we wh _ HL Ge Gh) (ex_intro _ h (fun c i _ _ => eq_refl))) i Hi).
    - intros h k E c Hc. rewrite V1.
      assert (T : total_e sh we wh D c = k c * gsum sh (vol_e we wh c)).
      { transitivity (total_e sh we wh (fun c i => curl_prev sh (Some wh) h c i + k c) c); [apply gsum_ext; intros i Hi; now rewrite (E c i Hc Hi)|].
        rewrite total_shift. rewrite (proj2 (proj1 (C174_electric sh we wh _ HL Ge Gh) (ex_intro _ h (fun c i _ _ => eq_refl))) c Hc). ring. }
      rewrite T. field. apply Vz.
  Qed.

  Lemma case_curl0 sh (w : widths K) (m : field K) c i : (c < 3)%nat -> curl_next sh (Some w) (fun _ _ => 0) c i = m c i * 0.
  Proof. intro Hc. unfold curl_next, curl_of, diff_next, over. destruct c as [|[|[|c]]]; [| | |lia]; rewrite !(Fdiv_def (fth K)); ring. Qed.
  Lemma case_div sh (we wh : widths K) (x y : K) i : div_f sh (Some (we, wh)) (fun _ _ => x * y) i = 0.
  Proof. unfold div_f, diff_next, over. cbn [option_map fst]. rewrite !(Fdiv_def (fth K)). ring. Qed.
  Lemma case_undo (x y : K) : y <> 0 -> x = y * (x / y).
  Proof. intro N. field. exact N. Qed.

  (** ** Reachable states *)
  Section Steer.
    Variables (sh : list nat) (dt : K) (we wh : widths K) (eps : field K) (mu : option (field K)).
    Hypothesis HL : length sh = 3%nat.
    Hypothesis Ge : good_widths sh we.
    Hypothesis Gh : good_widths sh wh.
    Hypothesis Dt : dt <> 0.
    Hypothesis Ep : nzm sh eps.
    Hypothesis Mu : nzm_opt sh mu.
    Notation stp := (step sh dt (Some (we, wh)) eps mu).
    Notation go := (run sh dt (Some (we, wh)) eps mu).
    Definition flux (s : state K) : field K := fun c i => matl mu c i * sH s c i.

    Lemma mu_nz c i : (c < 3)%nat -> inb sh i -> matl mu c i <> 0.
    Proof. intros Hc Hi. destruct mu as [m|]; cbn in *; [now apply Mu|apply (F_1_neq_0 (fth K))]. Qed.
    Lemma flux_step j s c i : (c < 3)%nat -> inb sh i -> flux (stp j s) c i = flux s c i - dt * curl_forward sh (Some we) (sE s) c i.
    Proof.
      intros Hc Hi. pose proof (mu_nz c i Hc Hi) as N. unfold flux, step, maxwell_h. cbn [sH sE]. cbn [option_map fst]. destruct mu as [m|]; cbn [matl] in *; [field; exact N|ring].
    Qed.
    Lemma div_f_sub (F G : field K) (a : K) i : div_f sh (Some (we, wh)) (fun c i => F c i - a * G c i) i = div_f sh (Some (we, wh)) F i - a * div_f sh (Some (we, wh)) G i.
    Proof. unfold div_f, diff_next, over. cbn [option_map fst]. rewrite !(Fdiv_def (fth K)). ring. Qed.
    Lemma total_h_sub (F G : field K) (a : K) c : total_h sh we wh (fun c i => F c i - a * G c i) c = total_h sh we wh F c - a * total_h sh we wh G c.
    Proof. unfold total_h. rewrite <- gsum_mul_l, <- gsum_sub. apply gsum_ext. intros. ring. Qed.
    Definition same (F G : field K) : Prop :=
      (forall i, inb sh i -> div_f sh (Some (we, wh)) F i = div_f sh (Some (we, wh)) G i) /\ (forall c, (c < 3)%nat -> total_h sh we wh F c = total_h sh we wh G c).
    Lemma curl_scale (F : field K) (a : K) c i : curl_forward sh (Some we) (fun c i => a * F c i) c i = a * curl_forward sh (Some we) F c i.
    Proof. unfold curl_forward, curl_with, deriv_forward, roll. destruct c as [|[|[|c]]]; try ring; rewrite !(Fdiv_def (fth K)); ring. Qed.
    Lemma same_feq F G : feq sh F G -> same F G.
    Proof. intro E. split; [intros i Hi; now apply (div_f_ext K sh HL)|]. intros c Hc. apply gsum_ext. intros i Hi. now rewrite (E c i Hc Hi). Qed.
    Lemma same_trans F G H : same F G -> same G H -> same F H.
    Proof. intros (A & B) (A' & B'). split; [intros i Hi; now rewrite A, A'|intros c Hc; now rewrite B, B']. Qed.
    Lemma same_step j s : same (flux (stp j s)) (flux s).
    Proof.
      apply (same_trans _ (fun c i => flux s c i - dt * curl_forward sh (Some we) (sE s) c i)).
      - apply same_feq. intros c i Hc Hi. now apply flux_step.
      - destruct (proj1 (C174_magnetic sh we wh _ HL Ge Gh) (ex_intro _ (sE s) (fun c i _ _ => eq_refl))) as (A & B). to_model. split.
        + intros i Hi. rewrite div_f_sub, (A i Hi). ring.
        + intros c Hc. rewrite total_h_sub, (B c Hc). ring.
    Qed.
    Lemma same_run js : forall s, same (flux (go js s)) (flux s).
    Proof.
      induction js as [|j js IH]; intro s; [split; reflexivity|]. change (go (j :: js) s) with (go js (stp j s)). apply (same_trans _ _ _ (IH _)). apply same_step.
    Qed.
    Lemma set_E s (E : field K) : exists j, feq sh (sE (stp j s)) E.
    Proof.
      set (e' := maxwell_e sh dt (Some (we, wh)) (sE s) (maxwell_h sh dt (Some (we, wh)) (sE s) (sH s) mu) eps).
      exists (fun c i => (E c i - e' c i) * eps c i). intros c i Hc Hi. unfold step. cbn [sE]. fold e'. field. now apply Ep.
    Qed.
    Lemma steer n (s t : state K) : (2 <= n)%nat -> same (flux t) (flux s) -> exists js, length js = n /\ seq_st sh (go js s) t.
    Proof.
      intros Hn S. set (s0 := go (repeat noj (n - 2)) s).
      set (H1 := flux (stp noj s0)). set (B := fun c i => / dt * (H1 c i - 1 * flux t c i)).
      assert (Bs : same (flux t) H1).
      { destruct S as (A & C). destruct (same_step noj s0) as (A1 & C1). destruct (same_run (repeat noj (n - 2)) s) as (A2 & C2). fold s0 in A2, C2. fold H1 in A1, C1.
        split; [intros i Hi; now rewrite A, A1, A2|intros c Hc; now rewrite C, C1, C2]. }
      destruct (proj2 (C174_magnetic sh we wh (fun c i => H1 c i - 1 * flux t c i) HL Ge Gh)) as (e & Ee).
      { destruct Bs as (A & C). split; [intros i Hi; rewrite div_f_sub, (A i Hi); ring|intros c Hc; rewrite total_h_sub, (C c Hc); ring]. }
      destruct (set_E s0 (fun c i => / dt * e c i)) as (j1 & J1). set (s1 := stp j1 s0) in *. destruct (set_E s1 (sE t)) as (j2 & J2).
      exists (repeat noj (n - 2) ++ [j1; j2]). split; [rewrite app_length, repeat_length; cbn; lia|].
      assert (R : go (repeat noj (n - 2) ++ [j1; j2]) s = stp j2 s1) by (unfold run; rewrite fold_left_app; reflexivity).
      rewrite R. split; [exact J2|]. intros c i Hc Hi. pose proof (mu_nz c i Hc Hi) as N.
      pose proof (flux_step j2 s1 c i Hc Hi) as F. rewrite (curl_forward_ext K sh (Some we) (sE s1) _ c i ltac:(lia) Hi J1) in F.
      rewrite curl_scale in F. pose proof (Ee c i Hc Hi) as Q. to_model. rewrite Q in F.
      assert (F1 : flux s1 c i = H1 c i) by (unfold H1, s1; now rewrite !flux_step). rewrite F1 in F.
      assert (X : matl mu c i * sH (stp j2 s1) c i = matl mu c i * sH t c i).
      { change (flux (stp j2 s1) c i = flux t c i). rewrite F. field. exact Dt. }
      transitivity (matl mu c i * sH (stp j2 s1) c i / matl mu c i); [field; exact N|]. rewrite X. field. exact N.
    Qed.
  End Steer.

  (** From the state s, n steps with suitable currents lead to the state t if and only if
      the magnetic charges and the total fluxes are the same.  Nothing is required of E,
      and more than two steps are no more use than two. *)
Theorem C174_steer :
    forall (sh : list nat) (dt : K) (we wh : widths K) (eps : field K) (mu : option (field K)) (n : nat) (s t : state K),
      length sh = 3%nat -> good_widths sh we -> good_widths sh wh ->
      dt <> 0 -> nzm sh eps -> nzm_opt sh mu -> (2 <= n)%nat ->
      let B (u : state K) : field K := fun c i => matl mu c i * sH u c i in
      (exists js, length js = n /\ seq_st sh (run sh dt (Some (we, wh)) eps mu js s) t) <->
      (forall i, inb sh i -> div_f sh (Some (we, wh)) (B t) i = div_f sh (Some (we, wh)) (B s) i) /\
      (forall c, (c < 3)%nat -> total_h sh we wh (B t) c = total_h sh we wh (B s) c).
  Proof.
    intros sh dt we wh eps mu n s t HL Ge Gh Dt Ep Mu Hn B. split.
    - intros (js & _ & (_ & E)). apply (same_trans sh we wh _ (flux mu (run sh dt (Some (we, wh)) eps mu js s))).
      + apply (same_feq sh we wh HL). intros c i Hc Hi. unfold B, flux. now rewrite (E c i Hc Hi).
      + now apply same_run.
    - intro S. now apply steer.
  Qed.

  (** One step is not enough in general, and none is: the H of the next step is known. *)
Theorem C174_one_step :
    forall (sh : list nat) (dt : K) (dxes : dxes_t K) (eps : field K) (mu : option (field K)) (s t : state K),
      nzm sh eps ->
      (exists j, seq_st sh (step sh dt dxes eps mu j s) t) <-> feq sh (sH t) (maxwell_h sh dt dxes (sE s) (sH s) mu).
  Proof.
    intros sh dt dxes eps mu s t Ep. split.
    - intros (j & (_ & E)) c i Hc Hi. symmetry. exact (E c i Hc Hi).
    - intro E. set (e' := maxwell_e sh dt dxes (sE s) (maxwell_h sh dt dxes (sE s) (sH s) mu) eps).
      exists (fun c i => (sE t c i - e' c i) * eps c i). split; intros c i Hc Hi.
      + unfold step. cbn [sE]. fold e'. field. now apply Ep.
      + symmetry. exact (E c i Hc Hi).
  Qed.
End Gen.
Print Assumptions C174_electric.
Print Assumptions C174_magnetic.
Print Assumptions C174_no_divergence.
Print Assumptions C174_steer.
Print Assumptions C174_one_step.

Section Cpx.
  Variable K : CFld.
  Add Field Kfield2 : (fth K).
  Local Open Scope fld_scope.

  (** The electric currents that m2j makes from magnetic currents: the ones without
      charge and without net flow. *)
Theorem C174_m2j :
    forall (sh : list nat) (om : K) (we wh : widths K) (mu : option (field K)) (J : field K),
      length sh = 3%nat -> good_widths sh we -> good_widths sh wh -> om <> 0 -> nzm_opt sh mu ->
      (exists M, feq sh (m2j_f sh om (we, wh) mu M) J) <->
      (forall i, inb sh i -> div_b sh (Some (we, wh)) J i = 0) /\ (forall c, (c < 3)%nat -> total_e sh we wh J c = 0).
  Proof.
    intros sh om we wh mu J HL Ge Gh Om Mu.
    assert (I0 : - im * om <> (0 : K)).
    { intro E. apply Om. transitivity (im * (- im * om) : K); [|rewrite E; ring]. transitivity (- (im * im) * om : K); [rewrite (im_sq K); ring|ring]. }
    rewrite <- (C174_electric K sh we wh J HL Ge Gh). to_model. unfold m2j_f. cbn [snd]. generalize dependent (- im * om : K). intros z I0.
    assert (Mv : forall c i, (c < 3)%nat -> inb sh i -> match mu with Some m => m c i | None => 1 end <> (0 : K)).
    { intros c i Hc Hi. destruct mu as [m|]; [now apply Mu|apply (F_1_neq_0 (fth K))]. }
    assert (Sc : forall (F : field K) (a : K) c i, curl_back sh (Some wh) (fun c i => a * F c i) c i = a * curl_back sh (Some wh) F c i).
    { intros F a c i. unfold curl_back, curl_with, deriv_back, roll. destruct c as [|[|[|c]]]; try ring; rewrite !(Fdiv_def (fth K)); ring. }
    split.
    - intros (M & E). exists (fun c i => 1 / z * (M c i / match mu with Some m => m c i | None => 1 end)).
      intros c i Hc Hi. rewrite <- (E c i Hc Hi), Sc. cbn [snd]. destruct mu as [m|].
      + field; exact I0.
      + rewrite (curl_back_ext K sh (Some wh) (fun c i => M c i / 1) M c i ltac:(lia) Hi) by (intros; field; apply (F_1_neq_0 (fth K))). field; exact I0.
    - intros (h & E). exists (fun c i => z * (h c i * match mu with Some m => m c i | None => 1 end)).
      intros c i Hc Hi. rewrite <- (E c i Hc Hi). cbn [snd]. destruct mu as [m|].
      + rewrite (curl_back_ext K sh (Some wh) _ (fun c i => z * h c i) c i ltac:(lia) Hi).
        * rewrite Sc. field; exact I0.
        * intros c' i' Hc' Hi'. field. now apply (Mv c' i').
      + rewrite (curl_back_ext K sh (Some wh) _ (fun c i => z * h c i) c i ltac:(lia) Hi) by (intros; ring). rewrite Sc. field; exact I0.
  Qed.
End Cpx.
Print Assumptions C174_m2j.

(** A grid of four cells of different widths, mu = 2: from rest, two steps (or five) lead
    to a state with a circulating H; no number of steps leads to a uniform H, although it
    has no divergence. *)
Definition df_we : widths QcF := fun a i => qz (Z.of_nat (1 + a + i)).
Definition df_wh : widths QcF := fun a i => qz (Z.of_nat (2 + a + 3 * i)).
Definition df_e : field QcF := fun c i => qz (Z.of_nat (c * coord i 0 + coord i 2 + 1)).
Definition df_t : state QcF := mkst (fun c _ => qz (Z.of_nat (c + 7))) (fun c i => fdiv (f := QcF) (curl_next [2; 1; 2]%nat (Some df_we) df_e c i) (qz 2)).
Definition df_u : state QcF := mkst (fun _ _ => f0) (fun _ _ => f1).
Definition df_0 : state QcF := mkst (fun _ _ => f0) (fun _ _ => f0).
Example C174_case :
  let sh := [2; 1; 2]%nat in let mu : option (field QcF) := Some (fun _ _ => qz 2) in let eps : field QcF := fun c i => qz (Z.of_nat (1 + c + coord i 0)) in
  let go := run sh (qz 1) (Some (df_we, df_wh)) eps mu in
  good_widths sh df_we /\ good_widths sh df_wh /\ nzm sh eps /\ nzm_opt sh mu /\
  (forall n, (2 <= n)%nat -> exists js, length js = n /\ seq_st sh (go js df_0) df_t) /\ sH df_t 1%nat [0; 0; 0]%nat <> f0 /\
  (forall n js, (2 <= n)%nat -> length js = n -> ~ seq_st sh (go js df_0) df_u) /\
  (forall i, inb sh i -> div_f sh (Some (df_we, df_wh)) (fun c i => fmul (f := QcF) (matl mu c i) (sH df_u c i)) i = f0).
Proof.
  cbv zeta. set (sh := [2; 1; 2]%nat). set (mu := Some (fun (_ : nat) (_ : list nat) => qz 2 : QcF)). set (eps := fun (c : nat) (i : list nat) => qz (Z.of_nat (1 + c + coord i 0)) : QcF).
  pose proof qz_nz as Nz.
  assert (G1 : good_widths sh df_we).
  { split; [intros a i Ha Hi; apply Nz; lia|]. intros [|[|[|a]]] Ha; [| | |lia]; intro E; apply (f_equal (fun q : Qc => Qnum (this q))) in E; vm_compute in E; discriminate. }
  assert (G2 : good_widths sh df_wh).
  { split; [intros a i Ha Hi; apply Nz; lia|]. intros [|[|[|a]]] Ha; [| | |lia]; intro E; apply (f_equal (fun q : Qc => Qnum (this q))) in E; vm_compute in E; discriminate. }
  assert (G3 : nzm sh eps) by (intros c i _ _; apply Nz; lia).
  assert (G4 : nzm_opt sh mu) by (intros c i _ _; apply Nz; lia).
  assert (D : qz 1 <> f0 :> QcF) by (apply Nz; lia).
  repeat (split; [assumption|]). split; [|split; [|split]].
  - intros n Hn. apply (C174_steer QcF sh (qz 1) df_we df_wh eps mu n df_0 df_t eq_refl G1 G2 D G3 G4 Hn).
    assert (M : feq sh (curl_next sh (Some df_we) df_e) (fun c i => fmul (f := QcF) (matl mu c i) (sH df_t c i))).
    { intros c i _ _. apply case_undo. apply Nz. lia. }
    destruct (proj1 (C174_magnetic QcF sh df_we df_wh _ eq_refl G1 G2) (ex_intro _ df_e M)) as (A & B).
    assert (Z0 : feq sh (curl_next sh (Some df_we) (fun _ _ => f0)) (fun c i => fmul (f := QcF) (matl mu c i) (sH df_0 c i))).
    { intros c i Hc Hi. exact (case_curl0 QcF sh df_we (matl mu) c i Hc). }
    destruct (proj1 (C174_magnetic QcF sh df_we df_wh _ eq_refl G1 G2) (ex_intro _ (fun _ _ => f0) Z0)) as (A0 & B0).
    split; [intros i Hi; rewrite (A i Hi); symmetry; now apply A0|intros c Hc; rewrite (B c Hc); symmetry; now apply B0].
  - intro E. apply (f_equal (fun q : Qc => Qnum (this q))) in E. vm_compute in E. discriminate.
  - intros n js Hn L S. pose proof (proj1 (C174_steer QcF sh (qz 1) df_we df_wh eps mu n df_0 df_u eq_refl G1 G2 D G3 G4 Hn) (ex_intro _ js (Coq.Init.Logic.conj L S))) as (_ & T).
    specialize (T 0%nat ltac:(lia)). apply (f_equal (fun q : Qc => Qnum (this q))) in T. vm_compute in T. discriminate.
  - intros i _. exact (case_div QcF sh df_we df_wh (qz 2) f1 i).
Qed.
