(** Duality: exchanging E and H, epsilon and mu, PEC and PMC (C178). *)
From Coq Require Import List Arith ZArith Lia Field QArith Qcanon.
From Verif.Lib Require Import Num Sums Idx Mat RealF.
From Verif.Model Require Import Fdmath Fdtd Fdfd Waveguide2d.
From Verif.Spec Require Import Grid Yee FdtdRun FdfdSpec DualSpec.
From Verif.Proofs Require Import FdmathP FdtdP2 FdfdP WaveguideP WaveguideP2 WaveguideP4 DualP.
From Verif.Props Require Import FdfdProps WaveguideProps.
Import ListNotations.
Local Open Scope fld_scope.

(** ** FDTD *)
(** The structure whose epsilon is the reversed mu and whose mu is the reversed epsilon,
    with the widths of E and H exchanged and reversed. *)
Definition dual_dxes {K : Fld} (sh : list nat) (we wh : widths K) : dxes_t K := Some (dual_w sh wh, dual_w sh we).
Definition dual_state {K : Fld} (sh : list nat) (s : state K) : state K := mkst (dual sh (sH s)) (dual sh (sE s)).

Section T.
  Variable K : Fld.
  Add Field Kfield : (fth K).
  Variable sh : list nat.
  Hypothesis HL : length sh = 3%nat.
  Variables (dt : K) (we wh : widths K) (eps mu : field K).
  Let d := Some (we, wh).
  Let d' := dual_dxes sh we wh.

  Lemma h_dual E H E' H' : feq sh E' (dual sh H) -> feq sh H' (dual sh E) ->
    feq sh (maxwell_h sh dt d' E' H' (Some (dual sh eps))) (dual sh (maxwell_e sh dt d E H eps)).
  Proof.
    intros A B c i Hc Hi. unfold maxwell_h, maxwell_e, d', d, dual_dxes. cbn [option_map fst snd]. unfold dual at 2.
    rewrite (cf_dual K sh HL wh E' H c i Hc Hi) by exact A. rewrite (B c i Hc Hi). unfold dual. rewrite !(Fdiv_def (fth K)). ring.
  Qed.
  Lemma e_dual E H E' H' : feq sh E' (dual sh H) -> feq sh H' (dual sh E) ->
    feq sh (maxwell_e sh dt d' E' H' (dual sh mu)) (dual sh (maxwell_h sh dt d E H (Some mu))).
  Proof.
    intros A B c i Hc Hi. unfold maxwell_h, maxwell_e, d', d, dual_dxes. cbn [option_map fst snd]. unfold dual at 2.
    rewrite (cb_dual K sh HL we H' E c i Hc Hi) by exact B. rewrite (A c i Hc Hi). unfold dual. rewrite !(Fdiv_def (fth K)). ring.
  Qed.
  (** After the H update of the next step *)
  Definition advanced (s : state K) : state K := mkst (sE s) (maxwell_h sh dt d (sE s) (sH s) (Some mu)).
  Lemma step_dual s s' : seq_st sh s' (dual_state sh (advanced s)) ->
    seq_st sh (step sh dt d' (dual sh mu) (Some (dual sh eps)) noj s') (dual_state sh (advanced (step sh dt d eps (Some mu) noj s))).
  Proof.
    intros [A B]. cbn [dual_state advanced sE sH] in A, B.
    set (h1 := maxwell_h sh dt d (sE s) (sH s) (Some mu)) in *.
    pose proof (h_dual (sE s) h1 (sE s') (sH s') A B) as HH.
    assert (St : feq sh (sE (step sh dt d eps (Some mu) noj s)) (maxwell_e sh dt d (sE s) h1 eps)).
    { intros c i Hc Hi. unfold step. cbn [sE]. fold h1. unfold noj. rewrite (Fdiv_def (fth K) 0). ring. }
    assert (HH' : feq sh (maxwell_h sh dt d' (sE s') (sH s') (Some (dual sh eps))) (dual sh (sE (step sh dt d eps (Some mu) noj s)))).
    { intros c i Hc Hi. rewrite (HH c i Hc Hi). unfold dual. symmetry. apply St; [exact Hc|now apply opp_inb]. }
    split; [|exact HH'].
    intros c i Hc Hi. unfold step at 1. cbn [sE]. unfold noj at 1. rewrite (Fdiv_def (fth K) 0).
    rewrite (e_dual (sE (step sh dt d eps (Some mu) noj s)) h1 (sE s') (maxwell_h sh dt d' (sE s') (sH s') (Some (dual sh eps))) A HH' c i Hc Hi).
    cbn [dual_state advanced sE sH]. change (sH (step sh dt d eps (Some mu) noj s)) with h1. ring.
  Qed.
End T.

(** Each update is the other one of the dual structure. *)
Theorem C178_updates :
  forall (K : Fld) (sh : list nat) (dt : K) (we wh : widths K) (eps mu E H : field K), length sh = 3%nat ->
    let d := Some (we, wh) in let d' := dual_dxes sh we wh in
    feq sh (maxwell_h sh dt d' (dual sh H) (dual sh E) (Some (dual sh eps))) (dual sh (maxwell_e sh dt d E H eps)) /\
    feq sh (maxwell_e sh dt d' (dual sh H) (dual sh E) (dual sh mu)) (dual sh (maxwell_h sh dt d E H (Some mu))).
Proof. intros K sh dt we wh eps mu E H HL d d'. split; [apply h_dual|apply e_dual]; try exact HL; intros c i Hc Hi; reflexivity. Qed.
Print Assumptions C178_updates.

(** Hence the free runs of a structure, half a step on, are those of its dual. *)
Theorem C178_runs :
  forall (K : Fld) (sh : list nat) (dt : K) (we wh : widths K) (eps mu : field K) (s : state K) (n : nat), length sh = 3%nat ->
    let d := Some (we, wh) in let d' := dual_dxes sh we wh in
    let half (s : state K) := mkst (sE s) (maxwell_h sh dt d (sE s) (sH s) (Some mu)) in
    seq_st sh (run sh dt d' (dual sh mu) (Some (dual sh eps)) (repeat noj n) (dual_state sh (half s)))
              (dual_state sh (half (run sh dt d eps (Some mu) (repeat noj n) s))).
Proof.
  intros K sh dt we wh eps mu s n HL d d' half.
  assert (G : forall n s s', seq_st sh s' (dual_state sh (half s)) -> seq_st sh (run sh dt d' (dual sh mu) (Some (dual sh eps)) (repeat noj n) s') (dual_state sh (half (run sh dt d eps (Some mu) (repeat noj n) s)))).
  { clear n s. induction n as [|n IH]; intros s s' Hs; [exact Hs|]. cbn [repeat]. unfold run. cbn [fold_left]. apply IH. exact (step_dual K sh HL dt we wh eps mu s s' Hs). }
  apply G. split; intros c i Hc Hi; reflexivity.
Qed.
Print Assumptions C178_runs.

Section U.
  Variable K : Fld.
  Add Field Kfield2 : (fth K).
  Variable sh : list nat.
  Hypothesis HL : length sh = 3%nat.
  Lemma wat_dual (w : widths K) a i : (a < 3)%nat -> inb sh i -> wat (Some (dual_w sh w)) a i = wat (Some w) a (opposite sh i).
  Proof. intros Ha Hi. unfold wat, dual_w. now rewrite opp_coord by (try assumption; lia). Qed.
  Lemma dxmul_dual (we wh : widths K) ee hh eps mu i : inb sh i ->
    dxmul (dual sh hh) (dual sh ee) (Some (dual sh mu)) (Some (dual sh eps)) (dual_dxes sh we wh) i = dxmul ee hh (Some eps) (Some mu) (Some (we, wh)) (opposite sh i).
  Proof.
    intro Hi. unfold dxmul, dual_dxes. cbn [option_map fst snd]. rewrite !wat_dual by (try lia; exact Hi). unfold sum_axis0, or_one, dual. ring.
  Qed.
  Lemma poynting_dual (we wh : widths K) e h c i : (c < 3)%nat -> inb sh i ->
    poynting sh (dual_dxes sh we wh) (dual sh h) (dual sh e) c i = - poynting sh (Some (we, wh)) e h c (shift_ix sh c (-1) (opposite sh i)).
  Proof.
    intros Hc Hi. pose proof (opp_inb sh i Hi) as Ho.
    assert (W : forall (w : widths K) a, (a < 3)%nat -> wat (Some (dual_w sh w)) a (shift_ix sh c 1 i) = wat (Some w) a (shift_ix sh c (-1) (opposite sh i))).
    { intros w a Ha. rewrite wat_dual by first [exact Ha|apply inb_shift; [exact Hi|lia]]. now rewrite opp_next by (try exact Hi; lia). }
    assert (F : forall (G : field K) a, dual sh G a (shift_ix sh c 1 i) = G a (shift_ix sh c (-1) (opposite sh i))) by (intros; unfold dual; now rewrite opp_next by (try exact Hi; lia)).
    destruct c as [|[|[|c]]]; [| | |lia]; unfold poynting, dual_dxes, roll; cbn [option_map fst snd]; change (- -1)%Z with 1%Z;
      rewrite !W, !F by lia; rewrite !wat_dual by (try lia; exact Hi); rewrite !shift_ix_np by (try exact Ho; lia); unfold dual; ring.
  Qed.
End U.
(** Energies of the two half steps are exchanged; the Poynting vector is reversed with the
    axes (the flux through the face towards the next cell becomes that through the face
    towards the previous one). *)
Theorem C178_energy :
  forall (K : Fld) (sh : list nat) (we wh : widths K) (eps mu e h h0 e1 h2 e0 h1 e2 : field K) (i : list nat), length sh = 3%nat -> inb sh i ->
    let d := Some (we, wh) in let d' := dual_dxes sh we wh in
    energy_hstep (dual sh h0) (dual sh e1) (dual sh h2) (Some (dual sh mu)) (Some (dual sh eps)) d' i = energy_estep h0 e1 h2 (Some eps) (Some mu) d (opposite sh i) /\
    energy_estep (dual sh e0) (dual sh h1) (dual sh e2) (Some (dual sh mu)) (Some (dual sh eps)) d' i = energy_hstep e0 h1 e2 (Some eps) (Some mu) d (opposite sh i) /\
    forall c, (c < 3)%nat -> poynting sh d' (dual sh h) (dual sh e) c i = - poynting sh d e h c (shift_ix sh c (-1) (opposite sh i)).
Proof.
  intros K sh we wh eps mu e h h0 e1 h2 e0 h1 e2 i HL Hi d d'.
  split; [exact (dxmul_dual K sh HL we wh (fun c idx => e1 c idx * e1 c idx) (fun c idx => h0 c idx * h2 c idx) eps mu i Hi)|].
  split; [exact (dxmul_dual K sh HL we wh (fun c idx => e0 c idx * e2 c idx) (fun c idx => h1 c idx * h1 c idx) eps mu i Hi)|].
  intros c Hc. now apply poynting_dual.
Qed.
Print Assumptions C178_energy.

(** ** FDFD *)
Section F.
  Variable K : CFld.
  Add Field Kfield3 : (fth K).
  Variable sh : list nat.
  Let n := (3 * prodl sh)%nat.

  Lemma dual_at (v : vect K) c i : inb sh i -> unvec sh (dual_v sh v) c i = unvec sh v c (opposite sh i).
  Proof. intro Hi. unfold dual_v. rewrite (unvec_vec K) by exact Hi. reflexivity. Qed.
  Lemma dual_flat (v : vect K) c p : (p < prodl sh)%nat -> dual_v sh v (c * prodl sh + p)%nat = v (c * prodl sh + ravel sh (opposite sh (unravel sh p)))%nat.
  Proof. intro Hp. unfold dual_v. rewrite (vec_at K) by exact Hp. reflexivity. Qed.
  Lemma cf_opp w (F : field K) c i : (c < 3)%nat -> curl_forward sh (Some w) (fun c j => - F c j) c i = - curl_forward sh (Some w) F c i.
  Proof. intro Hc. destruct c as [|[|[|c]]]; [| | |lia]; cbn [curl_forward curl_with]; unfold deriv_forward, roll; rewrite !(Fdiv_def (fth K)); ring. Qed.
  Lemma dual_twice k (v : vect K) : veq (k * prodl sh) (dual_v sh (dual_v sh v)) v.
  Proof. apply (veq_unvec K sh k). intros c i Hc Hi. rewrite dual_at by exact Hi. rewrite dual_at by now apply opp_inb. now rewrite opp_opp. Qed.
  Lemma keep_dual (m : option (vect K)) c p : (p < prodl sh)%nat -> keep (option_map (dual_v sh) m) (c * prodl sh + p)%nat = keep m (c * prodl sh + ravel sh (opposite sh (unravel sh p)))%nat.
  Proof. intro Hp. destruct m as [v|]; [|reflexivity]. cbn [keep option_map]. now rewrite dual_flat. Qed.

  Hypothesis HL : length sh = 3%nat.
  Variables (om : K) (we wh : widths K) (eps mu : vect K) (pec pmc : option (vect K)).

  Lemma h_full_dual (x : vect K) :
    veq n (mv n (e_full_mat sh om (dual_w sh wh, dual_w sh we) (dual_v sh mu) (Some (dual_v sh eps)) (option_map (dual_v sh) pmc) (option_map (dual_v sh) pec)) (dual_v sh x))
          (dual_v sh (mv n (h_full_mat sh om (we, wh) eps (Some mu) pec pmc) x)).
  Proof.
    apply (veq_unvec K sh 3). intros c i Hc Hi. rewrite dual_at by exact Hi.
    pose proof (opp_inb sh i Hi) as Ho. set (o := opposite sh i) in *.
    assert (P : forall j, inb sh j -> (ravel sh j < prodl sh)%nat) by (intros; now apply ravel_lt).
    unfold unvec, n. rewrite mv_e_full by (apply lt3; [exact Hc|now apply P]). rewrite mv_h_full by (apply lt3; [exact Hc|now apply P]). cbn [fst snd mval minv].
    rewrite !keep_dual, !dual_flat by now apply P. rewrite unravel_ravel by exact Hi. fold o.
    rewrite curl_back_flat by (try assumption; now apply P). rewrite curl_forward_flat by (try assumption; now apply P). rewrite !unravel_ravel by assumption.
    f_equal. f_equal.
    rewrite (cb_dual K sh HL we _ (fun c j => - (keep pec (c * prodl sh + ravel sh j)%nat * (1 / eps (c * prodl sh + ravel sh j)%nat * mv (3 * prodl sh) (curl_back_mat sh wh) (fun s => keep pmc s * x s) (c * prodl sh + ravel sh j)%nat))) c i Hc Hi).
    - rewrite cf_opp by exact Hc. match goal with |- - - ?a = _ => transitivity a; [ring|] end. reflexivity.
    - intros b j Hb Hj. unfold unvec. rewrite keep_dual, dual_flat by now apply P. rewrite unravel_ravel by exact Hj.
      pose proof (opp_inb sh j Hj) as Hoj. rewrite curl_forward_flat by (try assumption; now apply P). rewrite unravel_ravel by exact Hj.
      rewrite (cf_dual K sh HL wh _ (unvec sh (fun s => keep pmc s * x s)) b j Hb Hj).
      + rewrite curl_back_flat by (try assumption; now apply P). rewrite unravel_ravel by exact Hoj. ring.
      + intros c' k Hc' Hk. unfold unvec. rewrite keep_dual, dual_flat by now apply P. now rewrite unravel_ravel.
  Qed.

  (** Solutions of the E equation give solutions of the H equation and back. *)
  Lemma keep_idem (m : option (vect K)) q : keep m q * keep m q = keep m q.
  Proof. destruct m as [v|]; cbn [keep]; [destruct (feqb (v q) 0)|]; ring. Qed.
  Lemma find_nz (f : vect K) m : (exists q, (q < m)%nat /\ f q <> 0) \/ (forall q, (q < m)%nat -> f q = 0).
  Proof.
    induction m as [|m [(q & Hq & Nq)|IH]]; [right; intros; lia|left; exists q; split; [lia|exact Nq]|].
    destruct (feq_dec (f m) 0) as [Y|Y]; [right|left; exists m; split; [lia|exact Y]]. intros q Hq. destruct (Nat.eq_dec q m) as [->|]; [exact Y|apply IH; lia].
  Qed.
  Hypothesis Ho : om <> 0.
  Hypothesis Ne : forall q, (q < n)%nat -> eps q <> 0.
  Hypothesis Nm : forall q, (q < n)%nat -> mu q <> 0.
  Lemma mv_scale_r (A : mat K) (c : K) (x : vect K) r : mv n A (fun q => c * x q) r = c * mv n A x r.
  Proof. unfold mv. rewrite <- sumN_mul_l. apply sumN_ext. intros. ring. Qed.
  Lemma mv_zero (A : mat K) (x : vect K) r : (forall q, (q < n)%nat -> x q = 0) -> mv n A x r = 0.
  Proof. intro H. unfold mv. apply sumN_zero. intros q Hq. rewrite (H q Hq). ring. Qed.
  Lemma e_to_h (x : vect K) : (exists q, (q < n)%nat /\ keep pec q * x q <> 0) -> veq n (mv n (e_full_mat sh om (we, wh) eps (Some mu) pec pmc) x) (fun _ => 0) ->
    exists y, (exists q, (q < n)%nat /\ keep pmc q * y q <> 0) /\ veq n (mv n (h_full_mat sh om (we, wh) eps (Some mu) pec pmc) y) (fun _ => 0).
  Proof.
    intros (q0 & Hq0 & Nq0) Z.
    set (cx := fun q => mv n (curl_forward_mat sh we) (fun s => keep pec s * x s) q).
    set (y := fun q => keep pmc q * (1 / mu q * cx q)).
    assert (Zr : forall r, (r < n)%nat -> keep pec r * mv n (curl_back_mat sh wh) y r = om * om * (eps r * (keep pec r * x r))).
    { intros r Hr. pose proof (Z r Hr) as Q. unfold n in Q. rewrite mv_e_full in Q by exact Hr. cbn [fst snd minv] in Q.
      change (keep pec r * (mv n (curl_back_mat sh wh) y r - om * om * (eps r * (keep pec r * x r))) = 0) in Q.
      transitivity (keep pec r * (mv n (curl_back_mat sh wh) y r - om * om * (eps r * (keep pec r * x r))) + keep pec r * keep pec r * (om * om * (eps r * x r))); [ring|].
      rewrite Q, keep_idem. ring. }
    assert (Ky : forall q, keep pmc q * y q = y q) by (intro q; unfold y; transitivity ((keep pmc q * keep pmc q) * (1 / mu q * cx q)); [ring|]; now rewrite keep_idem).
    exists y. split.
    - destruct (find_nz y n) as [(q & Hq & Nq)|C]; [exists q; split; [exact Hq|now rewrite Ky]|]. exfalso. apply Nq0.
      pose proof (Zr q0 Hq0) as Q. rewrite (mv_zero _ y) in Q by exact C.
      assert (W : om * om * (eps q0 * (keep pec q0 * x q0)) = 0) by (rewrite <- Q; ring).
      destruct (fmul_integral K _ _ W) as [A|A]; [destruct (fmul_integral K _ _ A); contradiction|].
      destruct (fmul_integral K _ _ A) as [B|B]; [exfalso; exact (Ne q0 Hq0 B)|exact B].
    - intros r Hr. unfold n. rewrite mv_h_full by exact Hr. cbn [fst snd mval]. fold n.
      rewrite (mv_ext_v K n (curl_forward_mat sh we) _ (fun q => om * om * (keep pec q * x q))).
      + rewrite mv_scale_r. change (mv n (curl_forward_mat sh we) (fun s => keep pec s * x s) r) with (cx r). rewrite Ky. unfold y.
        transitivity (om * om * (keep pmc r * cx r - keep pmc r * keep pmc r * cx r)); [field; exact (Nm r Hr)|]. rewrite keep_idem. ring.
      + intros q Hq. rewrite (mv_ext_v K n (curl_back_mat sh wh) _ y) by (intros; apply Ky).
        transitivity (1 / eps q * (keep pec q * mv n (curl_back_mat sh wh) y q)); [ring|]. rewrite (Zr q Hq). field. exact (Ne q Hq).
  Qed.
  Lemma h_to_e (y : vect K) : (exists q, (q < n)%nat /\ keep pmc q * y q <> 0) -> veq n (mv n (h_full_mat sh om (we, wh) eps (Some mu) pec pmc) y) (fun _ => 0) ->
    exists x, (exists q, (q < n)%nat /\ keep pec q * x q <> 0) /\ veq n (mv n (e_full_mat sh om (we, wh) eps (Some mu) pec pmc) x) (fun _ => 0).
  Proof.
    intros (q0 & Hq0 & Nq0) Z.
    set (cy := fun q => mv n (curl_back_mat sh wh) (fun s => keep pmc s * y s) q).
    set (x := fun q => keep pec q * (1 / eps q * cy q)).
    assert (Zr : forall r, (r < n)%nat -> keep pmc r * mv n (curl_forward_mat sh we) x r = om * om * (mu r * (keep pmc r * y r))).
    { intros r Hr. pose proof (Z r Hr) as Q. unfold n in Q. rewrite mv_h_full in Q by exact Hr. cbn [fst snd mval] in Q.
      change (keep pmc r * (mv n (curl_forward_mat sh we) x r - om * om * (mu r * (keep pmc r * y r))) = 0) in Q.
      transitivity (keep pmc r * (mv n (curl_forward_mat sh we) x r - om * om * (mu r * (keep pmc r * y r))) + keep pmc r * keep pmc r * (om * om * (mu r * y r))); [ring|].
      rewrite Q, keep_idem. ring. }
    assert (Kx : forall q, keep pec q * x q = x q) by (intro q; unfold x; transitivity ((keep pec q * keep pec q) * (1 / eps q * cy q)); [ring|]; now rewrite keep_idem).
    exists x. split.
    - destruct (find_nz x n) as [(q & Hq & Nq)|C]; [exists q; split; [exact Hq|now rewrite Kx]|]. exfalso. apply Nq0.
      pose proof (Zr q0 Hq0) as Q. rewrite (mv_zero _ x) in Q by exact C.
      assert (W : om * om * (mu q0 * (keep pmc q0 * y q0)) = 0) by (rewrite <- Q; ring).
      destruct (fmul_integral K _ _ W) as [A|A]; [destruct (fmul_integral K _ _ A); contradiction|].
      destruct (fmul_integral K _ _ A) as [B|B]; [exfalso; exact (Nm q0 Hq0 B)|exact B].
    - intros r Hr. unfold n. rewrite mv_e_full by exact Hr. cbn [fst snd minv]. fold n.
      rewrite (mv_ext_v K n (curl_back_mat sh wh) _ (fun q => om * om * (keep pmc q * y q))).
      + rewrite mv_scale_r. change (mv n (curl_back_mat sh wh) (fun s => keep pmc s * y s) r) with (cy r). rewrite Kx. unfold x.
        transitivity (om * om * (keep pec r * cy r - keep pec r * keep pec r * cy r)); [field; exact (Ne r Hr)|]. rewrite keep_idem. ring.
      + intros q Hq. rewrite (mv_ext_v K n (curl_forward_mat sh we) _ x) by (intros; apply Kx).
        transitivity (1 / mu q * (keep pmc q * mv n (curl_forward_mat sh we) x q)); [ring|]. rewrite (Zr q Hq). field. exact (Nm q Hq).
  Qed.
End F.

Section N.
  Variable K : CFld.
  Add Field Kfield5 : (fth K).
  Lemma dual_ring1 (a b c om : K) : - a - im * om * b * c = - (a + im * om * b * c).
  Proof. ring. Qed.
  Lemma dual_ring2 (a b c om : K) : - a + im * om * b * c = - (a - im * om * b * c).
  Proof. ring. Qed.
  Lemma one_l (x : K) : 1 * x = x.
  Proof. ring. Qed.
  Lemma zero_l (x : K) : 0 * x = 0.
  Proof. ring. Qed.
  Lemma zero_r (x : K) : x * 0 = 0.
  Proof. ring. Qed.
End N.
(** The residuals of the first-order equations are exchanged; h_full is e_full of the dual
    structure, with the masks of electric and magnetic conductors exchanged. *)
Theorem C178_fdfd :
  forall (K : CFld) (sh : list nat) (om : K) (we wh : widths K) (eps mu E H : field K) (ev mv' x : vect K) (pec pmc : option (vect K)), length sh = 3%nat ->
    let n := (3 * prodl sh)%nat in
    let d := (we, wh) in let d' := (dual_w sh wh, dual_w sh we) in
    let r := eh_full_f sh om d eps (Some mu) E H in
    let r' := eh_full_f sh om d' (dual sh mu) (Some (dual sh eps)) (dual sh H) (dual sh E) in
    feq sh (fst r') (fun c i => - dual sh (snd r) c i) /\ feq sh (snd r') (fun c i => - dual sh (fst r) c i) /\
    veq n (mv n (e_full_mat sh om d' (dual_v sh mv') (Some (dual_v sh ev)) (option_map (dual_v sh) pmc) (option_map (dual_v sh) pec)) (dual_v sh x))
          (dual_v sh (mv n (h_full_mat sh om d ev (Some mv') pec pmc) x)).
Proof.
  intros K sh om we wh eps mu E H ev mv' x pec pmc HL n d d' r r'.
  assert (N1 : forall a b c e : K, - a - im * om * b * c = - (a + im * om * b * c) /\ - a + im * om * b * c = - (a - im * om * b * c)).
  { intros. split; [apply dual_ring1|apply dual_ring2]. }
  split; [|split].
  - intros c i Hc Hi. unfold r, r', eh_full_f, d, d'. cbn [fst snd]. rewrite (cb_dual K sh HL we (dual sh E) E c i Hc Hi) by (intros; reflexivity). unfold dual. apply (N1 _ _ _ 0).
  - intros c i Hc Hi. unfold r, r', eh_full_f, d, d'. cbn [fst snd]. rewrite (cf_dual K sh HL wh (dual sh H) H c i Hc Hi) by (intros; reflexivity). unfold dual. apply (N1 _ _ _ 0).
  - now apply h_full_dual.
Qed.
Print Assumptions C178_fdfd.

(** [om] is a resonance: the E equation without currents has a solution that is not zero
    outside the electric conductors. *)
Definition resonates {K : CFld} (sh : list nat) (om : K) (d : dx2 K) (eps : vect K) (mu pec pmc : option (vect K)) : Prop :=
  exists x r, (r < 3 * prodl sh)%nat /\ ~ hidden pec r /\ x r <> 0 /\ veq (3 * prodl sh) (mv (3 * prodl sh) (e_full_mat sh om d eps mu pec pmc) x) (fun _ => 0).
Lemma shown (K : CFld) (m : option (vect K)) (x : vect K) r : (~ hidden m r /\ x r <> 0) <-> keep m r * x r <> 0.
Proof.
  split.
  - intros [A B]. rewrite keep_shown by exact A. now rewrite one_l.
  - intro N. destruct (hidden_dec K m r) as [Hd|Hd].
    + exfalso. apply N. rewrite keep_hidden by exact Hd. apply zero_l.
    + split; [exact Hd|]. intro C. apply N. rewrite C. apply zero_r.
Qed.
Lemma keep_at (K : CFld) sh (m : option (vect K)) (x : vect K) q : (q < 3 * prodl sh)%nat -> exists r, (r < 3 * prodl sh)%nat /\
  keep (option_map (dual_v sh) m) r * dual_v sh x r = keep m q * x q.
Proof.
  intro Hq. assert (P0 : prodl sh <> 0%nat) by (intro Z; rewrite Z in Hq; lia).
  set (c := (q / prodl sh)%nat). set (p := (q mod prodl sh)%nat).
  assert (Hc : (c < 3)%nat) by (apply Nat.div_lt_upper_bound; lia). assert (Hp : (p < prodl sh)%nat) by now apply Nat.mod_upper_bound.
  assert (Q : q = (c * prodl sh + p)%nat) by (unfold c, p; rewrite Nat.mul_comm; now apply Nat.div_mod).
  pose proof (inb_unravel sh p Hp) as Hi. pose proof (opp_inb sh _ Hi) as Ho.
  exists (c * prodl sh + ravel sh (opposite sh (unravel sh p)))%nat. split; [apply lt3; [exact Hc|now apply ravel_lt]|].
  rewrite keep_dual, dual_flat by now apply ravel_lt. rewrite unravel_ravel by exact Ho. rewrite opp_opp by exact Hi. rewrite ravel_unravel by exact Hp. now rewrite <- Q.
Qed.

(** A structure and its dual have the same resonances. *)
Theorem C178_resonances :
  forall (K : CFld) (sh : list nat) (om : K) (we wh : widths K) (eps mu : vect K) (pec pmc : option (vect K)),
    length sh = 3%nat -> om <> 0 -> (forall q, (q < 3 * prodl sh)%nat -> eps q <> 0 /\ mu q <> 0) ->
    (resonates sh om (we, wh) eps (Some mu) pec pmc <->
     resonates sh om (dual_w sh wh, dual_w sh we) (dual_v sh mu) (Some (dual_v sh eps)) (option_map (dual_v sh) pmc) (option_map (dual_v sh) pec)).
Proof.
  intros K sh om we wh eps mu pec pmc HL Ho Nm.
  assert (N1 : forall q, (q < 3 * prodl sh)%nat -> eps q <> 0) by (intros; now apply Nm).
  assert (N2 : forall q, (q < 3 * prodl sh)%nat -> mu q <> 0) by (intros; now apply Nm).
  assert (Dz : forall v : vect K, veq (3 * prodl sh) v (fun _ => 0) -> veq (3 * prodl sh) (dual_v sh v) (fun _ => 0)).
  { intros v Hv. apply (veq_unvec K sh 3). intros c i Hc Hi. rewrite dual_at by exact Hi. exact (Hv _ (lt3 _ c _ Hc (ravel_lt sh _ (opp_inb sh i Hi)))). }
  split.
  - intros (x & r & Hr & Sh & Nx & Z).
    destruct (e_to_h K sh HL om we wh eps mu pec pmc Ho N1 N2 x (ex_intro _ r (Coq.Init.Logic.conj Hr (proj1 (shown K pec x r) (Coq.Init.Logic.conj Sh Nx)))) Z) as (y & (q & Hq & Nq) & Zy).
    destruct (keep_at K sh pmc y q Hq) as (s & Hs & Es). rewrite <- Es in Nq. apply shown in Nq. destruct Nq as [A B].
    exists (dual_v sh y), s. split; [exact Hs|]. split; [exact A|]. split; [exact B|].
    intros t Ht. rewrite (h_full_dual K sh HL om we wh eps mu pec pmc y t Ht). exact (Dz _ Zy t Ht).
  - intros (x & r & Hr & Sh & Nx & Z).
    set (y := dual_v sh x).
    assert (Zy : veq (3 * prodl sh) (mv (3 * prodl sh) (h_full_mat sh om (we, wh) eps (Some mu) pec pmc) y) (fun _ => 0)).
    { intros t Ht. rewrite <- (dual_twice K sh 3 _ t Ht). revert t Ht. apply Dz. intros t Ht.
      rewrite <- (h_full_dual K sh HL om we wh eps mu pec pmc y t Ht). rewrite <- (Z t Ht). apply mv_ext_v. intros q Hq. exact (dual_twice K sh 3 x q Hq). }
    assert (Ny : exists q, (q < 3 * prodl sh)%nat /\ keep pmc q * y q <> 0).
    { destruct (keep_at K sh (option_map (dual_v sh) pmc) x r Hr) as (s & Hs & Es).
      exists s. split; [exact Hs|]. intro C. apply (proj1 (shown K _ x r) (Coq.Init.Logic.conj Sh Nx)). rewrite <- Es. rewrite <- C. f_equal.
      destruct pmc as [v|]; [|reflexivity]. cbn [keep option_map]. now rewrite (dual_twice K sh 3 v s Hs). }
    destruct (h_to_e K sh HL om we wh eps mu pec pmc Ho N1 N2 y Ny Zy) as (x' & (q & Hq & Nq) & Zx).
    apply shown in Nq. destruct Nq as [A B]. exists x', q. split; [exact Hq|]. split; [exact A|]. split; [exact B|exact Zx].
Qed.
Print Assumptions C178_resonances.

(** ** Waveguides *)
Section W.
  Variable K : CFld.
  Add Field Kfield4 : (fth K).
  Variable sh : list nat.
  Hypothesis HL : length sh = 2%nat.
  Lemma f_neg (w : widths K) a f i : deriv_forward sh (Some w) a (fun j => - f j) i = - deriv_forward sh (Some w) a f i.
  Proof. unfold deriv_forward, roll. rewrite !(Fdiv_def (fth K)). ring. Qed.
  Lemma b_neg (w : widths K) a f i : deriv_back sh (Some w) a (fun j => - f j) i = - deriv_back sh (Some w) a f i.
  Proof. unfold deriv_back, roll. rewrite !(Fdiv_def (fth K)). ring. Qed.
  Variables (om : K) (we wh : widths K) (eps : vect K) (mu : option (vect K)).
  Lemma wg_dual (x : vect K) : veq (2 * prodl sh)
    (mv (2 * prodl sh) (operator_e sh om (dual_w sh wh, dual_w sh we) (dual_v sh (or_ones mu)) (Some (dual_v sh eps))) (dual_v sh x))
    (dual_v sh (mv (2 * prodl sh) (operator_h sh om (we, wh) eps mu) x)).
  Proof.
    apply (veq_unvec K sh 2). intros c i Hc Hi. rewrite dual_at by exact Hi.
    destruct (operator_e_xy K sh HL (dual_w sh wh) (dual_w sh we) om (dual_v sh (or_ones mu)) (Some (dual_v sh eps)) (dual_v sh x) i Hi) as [X Y].
    destruct (operator_h_xy K sh HL we wh om eps mu x (opposite sh i) (opp_inb sh i Hi)) as [X' Y'].
    cbn [or_ones] in X, Y.
    set (mm := or_ones mu) in *.
    set (Bx := deriv_back sh (Some wh) 0) in *. set (By := deriv_back sh (Some wh) 1) in *. set (Fx := deriv_forward sh (Some we) 0) in *. set (Fy := deriv_forward sh (Some we) 1) in *.
    assert (CZ : forall j, inb sh j -> curlz K (deriv_forward sh (Some (dual_w sh wh)) 0) (deriv_forward sh (Some (dual_w sh wh)) 1) (unvec sh (dual_v sh x) 0%nat) (unvec sh (dual_v sh x) 1%nat) (unvec sh (dual_v sh eps) 2%nat) j
      = (fun k => - curlz K Bx By (unvec sh x 0%nat) (unvec sh x 1%nat) (unvec sh eps 2%nat) k) (opposite sh j)).
    { intros j Hj. unfold curlz. rewrite (fwd_dual K sh wh 0 _ (unvec sh x 1%nat) j), (fwd_dual K sh wh 1 _ (unvec sh x 0%nat) j) by (try lia; try exact Hj; intros; now apply dual_at).
      rewrite dual_at by exact Hj. fold Bx By. ring. }
    assert (DZ : forall j, inb sh j -> divz K (deriv_back sh (Some (dual_w sh we)) 0) (deriv_back sh (Some (dual_w sh we)) 1) (unvec sh (dual_v sh x) 0%nat) (unvec sh (dual_v sh x) 1%nat) (unvec sh (dual_v sh mm) 0%nat) (unvec sh (dual_v sh mm) 1%nat) (unvec sh (dual_v sh mm) 2%nat) j
      = (fun k => - divz K Fx Fy (unvec sh x 0%nat) (unvec sh x 1%nat) (unvec sh mm 0%nat) (unvec sh mm 1%nat) (unvec sh mm 2%nat) k) (opposite sh j)).
    { intros j Hj. unfold divz. rewrite (bwd_dual K sh we 0 _ (fun k => unvec sh mm 0%nat k * unvec sh x 0%nat k) j), (bwd_dual K sh we 1 _ (fun k => unvec sh mm 1%nat k * unvec sh x 1%nat k) j)
        by (try lia; try exact Hj; intros; now rewrite !dual_at).
      rewrite dual_at by exact Hj. fold Fx Fy. ring. }
    destruct c as [|[|c]]; [| |lia].
    - rewrite X, X'. unfold opx. rewrite !(dual_at K sh) by exact Hi.
      rewrite (bwd_dual K sh we 1 _ _ i ltac:(lia) Hi CZ), (fwd_dual K sh wh 0 _ _ i ltac:(lia) Hi DZ), f_neg, b_neg. fold Fy Bx. ring.
    - rewrite Y, Y'. unfold opy. rewrite !(dual_at K sh) by exact Hi.
      rewrite (bwd_dual K sh we 0 _ _ i ltac:(lia) Hi CZ), (fwd_dual K sh wh 1 _ _ i ltac:(lia) Hi DZ), f_neg, b_neg. fold Fx By. ring.
  Qed.
End W.

(** operator_h is operator_e of the dual cross-section; a cross-section and its dual have
    the same wavenumbers. *)
Theorem C178_waveguide :
  forall (K : CFld) (sh : list nat) (om : K) (we wh : widths K) (eps : vect K) (mu : option (vect K)) (x : vect K), length sh = 2%nat ->
    veq (2 * prodl sh) (mv (2 * prodl sh) (operator_e sh om (dual_w sh wh, dual_w sh we) (dual_v sh (or_ones mu)) (Some (dual_v sh eps))) (dual_v sh x))
      (dual_v sh (mv (2 * prodl sh) (operator_h sh om (we, wh) eps mu) x)).
Proof. intros K sh om we wh eps mu x HL. now apply wg_dual. Qed.
Print Assumptions C178_waveguide.
Definition has_wavenumber {K : CFld} (sh : list nat) (om : K) (d : dx2 K) (eps : vect K) (mu : option (vect K)) (beta : K) : Prop :=
  exists x, (exists q, (q < 2 * prodl sh)%nat /\ x q <> 0) /\ veq (2 * prodl sh) (mv (2 * prodl sh) (operator_e sh om d eps mu) x) (fun q => beta * beta * x q).
Lemma nz_dec (K : CFld) (f : vect K) m : (exists q, (q < m)%nat /\ f q <> 0) \/ (forall q, (q < m)%nat -> f q = 0).
Proof.
  induction m as [|m IH]; [right; intros; lia|]. destruct IH as [(q & Hq & N)|Z]; [left; exists q; split; [lia|exact N]|].
  destruct (feq_dec (f m) 0) as [E|N]; [right|left; exists m; split; [lia|exact N]].
  intros q Hq. destruct (Nat.eq_dec q m) as [->|]; [exact E|apply Z; lia].
Qed.
Lemma dual_nz (K : CFld) sh k (x : vect K) : (exists q, (q < k * prodl sh)%nat /\ x q <> 0) -> exists q, (q < k * prodl sh)%nat /\ dual_v sh x q <> 0.
Proof.
  intros (q & Hq & N). destruct (nz_dec K (dual_v sh x) (k * prodl sh)) as [E|Z]; [exact E|]. exfalso. apply N. rewrite <- (dual_twice K sh k x q Hq).
  assert (D : veq (k * prodl sh) (dual_v sh (dual_v sh x)) (fun _ => 0)).
  { apply (veq_unvec K sh k). intros c i Hc Hi. rewrite dual_at by exact Hi. unfold unvec. apply Z. pose proof (ravel_lt sh _ (opp_inb sh i Hi)). nia. }
  exact (D q Hq).
Qed.
Theorem C178_wavenumbers :
  forall (K : CFld) (sh : list nat) (om beta : K) (we wh : widths K) (eps : vect K) (mu : option (vect K)),
    length sh = 2%nat -> om <> 0 -> beta <> 0 -> nonzero_materials sh eps mu ->
    (has_wavenumber sh om (we, wh) eps mu beta <-> has_wavenumber sh om (dual_w sh wh, dual_w sh we) (dual_v sh (or_ones mu)) (Some (dual_v sh eps)) beta).
Proof.
  intros K sh om beta we wh eps mu HL Ho Hb NM.
  assert (Ds : forall (v y : vect K), veq (2 * prodl sh) v (fun q => beta * beta * y q) -> veq (2 * prodl sh) (dual_v sh v) (fun q => beta * beta * dual_v sh y q)).
  { intros v y Hv. apply (veq_unvec K sh 2). intros c i Hc Hi. rewrite dual_at by exact Hi.
    transitivity (beta * beta * unvec sh (dual_v sh y) c i); [|reflexivity]. rewrite dual_at by exact Hi.
    exact (proj2 (veq_unvec K sh 2 _ _) Hv c _ Hc (opp_inb sh i Hi)). }
  unfold has_wavenumber. rewrite (C37_same_wavenumbers K sh we wh om beta eps mu HL Ho Hb NM). split.
  - intros (h & Nh & Eh). exists (dual_v sh h). split; [now apply dual_nz|]. intros q Hq.
    rewrite (wg_dual K sh HL om we wh eps mu h q Hq). exact (Ds _ _ Eh q Hq).
  - intros (x & Nx & Ex). exists (dual_v sh x). split; [now apply dual_nz|]. intros q Hq.
    rewrite <- (dual_twice K sh 2 _ q Hq). revert q Hq. apply Ds. intros q Hq.
    rewrite <- (wg_dual K sh HL om we wh eps mu (dual_v sh x) q Hq).
    rewrite (mv_ext_v K (2 * prodl sh) _ (dual_v sh (dual_v sh x)) x) by (intros; now apply (dual_twice K sh 2)). exact (Ex q Hq).
Qed.
Print Assumptions C178_wavenumbers.

(** The waveguide of C36 has an eigenvector; its dual is a different waveguide (mu and
    the widths differ) with the same wavenumber 2/3. *)
Example C178_example :
  has_wavenumber wx_sh wx_om (wx_we, wx_wh) wx_eps None wx_beta /\ has_wavenumber wx_sh wx_om (dual_w wx_sh wx_wh, dual_w wx_sh wx_we) (dual_v wx_sh (or_ones None)) (Some (dual_v wx_sh wx_eps)) wx_beta /\
  dual_w wx_sh wx_wh 0%nat 0%nat <> wx_we 0%nat 0%nat.
Proof.
  assert (A : has_wavenumber wx_sh wx_om (wx_we, wx_wh) wx_eps None wx_beta).
  { exists wx_e. split; [exists 0%nat; split; [cbn; lia|cbn; discriminate]|exact wx_eig]. }
  split; [exact A|]. split; [|cbn; discriminate]. refine (proj1 (C178_wavenumbers GQC wx_sh wx_om wx_beta wx_we wx_wh wx_eps None _ _ _ wx_materials) A); [reflexivity|apply wx_nz|apply wx_nz].
Qed.
(** On the grid of C23 the dual of a field is a different field. *)
Example C178_example2 : dual gx_sh gx_E 1%nat [1; 1; 1]%nat = gx_E 1%nat [1; 2; 1]%nat /\ gx_E 1%nat [1; 2; 1]%nat <> gx_E 1%nat [1; 1; 1]%nat.
Proof. split; [reflexivity|discriminate]. Qed.
