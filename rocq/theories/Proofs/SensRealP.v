(** The first-order change of a differentiable family of modes. *)
From Coq Require Import Reals List Arith ZArith Lia Lra Bool Field.
From Verif.Lib Require Import Num Sums Idx Mat RealF.
From Verif.Model Require Import Fdmath Fdfd Waveguide2d.
From Verif.Spec Require Import Yee WaveguideSpec SensSpec.
From Verif.Proofs Require Import FdmathP FdfdP FdfdP2 WaveguideP WaveguideP2 WaveguideP3 WaveguideP4 SensP.
Import ListNotations.

Section Raw.
  Variable K : CFld.
  Add Field KfieldR : (fth K).
  Local Open Scope fld_scope.
  Variable sh : list nat.
  Hypothesis HL : length sh = 2%nat.
  Variables we wh : widths K.
  Notation Fx := (deriv_forward sh (Some we) 0). Notation Fy := (deriv_forward sh (Some we) 1).
  Notation Bx := (deriv_back sh (Some wh) 0). Notation By := (deriv_back sh (Some wh) 1).
  Variables (om : K) (m ep d : field K) (ex ey xx xy : arr K).
  Definition rawq : arr K := fun j =>
    (0 * ep 2%nat j - 1 * d 2%nat j) * / (ep 2%nat j * ep 2%nat j) * (Bx (fun k => ep 0%nat k * ex k) j + By (fun k => ep 1%nat k * ey k) j)
    + 1 / ep 2%nat j * (Bx (fun k => d 0%nat k * ex k + ep 0%nat k * xx k) j + By (fun k => d 1%nat k * ey k + ep 1%nat k * xy k) j).
  Definition rawc : arr K := fun j => 1 / m 2%nat j * (Fx xy j - Fy xx j).
  Definition rawx : arr K := fun i => om * om * m 1%nat i * (d 0%nat i * ex i + ep 0%nat i * xx i) + m 1%nat i * - By rawc i + Fx rawq i.
  Definition rawy : arr K := fun i => om * om * m 0%nat i * (d 1%nat i * ey i + ep 1%nat i * xy i) + m 0%nat i * Bx rawc i + Fy rawq i.

  Hypothesis Hz : forall i, inb sh i -> ep 2%nat i <> 0.
  Lemma rawq_split j : inb sh j -> rawq j = divz K Bx By xx xy (ep 0%nat) (ep 1%nat) (ep 2%nat) j + dqz K sh wh ep d ex ey j.
  Proof.
    intro Hj. unfold rawq, divz, dqz. rewrite !deriv_back_add. pose proof (Hz j Hj). field. assumption.
  Qed.
  Lemma raw_split i : inb sh i ->
    rawx i = opx K Fx Fy Bx By om xx xy (ep 0%nat) (ep 1%nat) (ep 2%nat) (m 1%nat) (m 2%nat) i + dopx K sh we wh om m ep d ex ey i /\
    rawy i = opy K Fx Fy Bx By om xx xy (ep 0%nat) (ep 1%nat) (ep 2%nat) (m 0%nat) (m 2%nat) i + dopy K sh we wh om m ep d ex ey i.
  Proof.
    intro Hi. unfold rawx, rawy, opx, opy, dopx, dopy. fold (curlz K Fx Fy xx xy (m 2%nat)).
    assert (Q : forall a, (a < 2)%nat -> deriv_forward sh (Some we) a rawq i = deriv_forward sh (Some we) a (divz K Bx By xx xy (ep 0%nat) (ep 1%nat) (ep 2%nat)) i
       + deriv_forward sh (Some we) a (dqz K sh wh ep d ex ey) i).
    { intros a Ha. rewrite <- deriv_forward_add. apply deriv_forward_ext; [lia|exact Hi|]. intros j Hj. now apply rawq_split. }
    rewrite !Q by lia. change rawc with (curlz K Fx Fy xx xy (m 2%nat)). split; ring.
  Qed.
End Raw.

Local Open Scope R_scope.
Lemma dl_eq f x l l' : derivable_pt_lim f x l -> l = l' -> derivable_pt_lim f x l'.
Proof. now intros H <-. Qed.
Lemma dl_ext f g x l : (forall t, f t = g t) -> derivable_pt_lim f x l -> derivable_pt_lim g x l.
Proof. intros E H eps He. destruct (H eps He) as [d Hd]. exists d. intros k Hk1 Hk2. rewrite <- !E. now apply Hd. Qed.
Lemma dl_ext_loc f g x l delta : 0 < delta -> (forall t, Rabs (t - x) < delta -> f t = g t) -> derivable_pt_lim f x l -> derivable_pt_lim g x l.
Proof.
  intros Hd E H eps He. destruct (H eps He) as [d Hd'].
  assert (M : 0 < Rmin d delta) by (apply Rmin_glb_lt; [apply cond_pos|exact Hd]).
  exists (mkposreal _ M). cbn. intros k Hk1 Hk2.
  rewrite <- !E.
  - apply Hd'; [exact Hk1|]. eapply Rlt_le_trans; [exact Hk2|apply Rmin_l].
  - replace (x - x) with 0 by ring. rewrite Rabs_R0. exact Hd.
  - replace (x + k - x) with k by ring. eapply Rlt_le_trans; [exact Hk2|apply Rmin_r].
Qed.

Lemma cd_const c t : cderiv (fun _ => c) t c0.
Proof. split; apply derivable_pt_lim_const. Qed.
Lemma cd_add f g t df dg : cderiv f t df -> cderiv g t dg -> cderiv (fun s => cadd (f s) (g s)) t (cadd df dg).
Proof. intros [A B] [C D]. split; cbn [cre cim cadd]; [exact (derivable_pt_lim_plus _ _ _ _ _ A C)|exact (derivable_pt_lim_plus _ _ _ _ _ B D)]. Qed.
Lemma cd_sub f g t df dg : cderiv f t df -> cderiv g t dg -> cderiv (fun s => csub (f s) (g s)) t (csub df dg).
Proof. intros [A B] [C D]. split; cbn [cre cim csub]; [exact (derivable_pt_lim_minus _ _ _ _ _ A C)|exact (derivable_pt_lim_minus _ _ _ _ _ B D)]. Qed.
Lemma cd_opp f t df : cderiv f t df -> cderiv (fun s => copp (f s)) t (copp df).
Proof. intros [A B]. split; cbn [cre cim copp]; [exact (derivable_pt_lim_opp _ _ _ A)|exact (derivable_pt_lim_opp _ _ _ B)]. Qed.
Lemma cd_mul f g t df dg : cderiv f t df -> cderiv g t dg -> cderiv (fun s => cmul (f s) (g s)) t (cadd (cmul df (g t)) (cmul (f t) dg)).
Proof.
  intros [A B] [C D]. split; cbn [cre cim cmul cadd].
  - eapply dl_eq; [exact (derivable_pt_lim_minus _ _ _ _ _ (derivable_pt_lim_mult _ _ _ _ _ A C) (derivable_pt_lim_mult _ _ _ _ _ B D))|cbv beta; ring].
  - eapply dl_eq; [exact (derivable_pt_lim_plus _ _ _ _ _ (derivable_pt_lim_mult _ _ _ _ _ A D) (derivable_pt_lim_mult _ _ _ _ _ B C))|cbv beta; ring].
Qed.
Lemma cd_mul_l c g t dg : cderiv g t dg -> cderiv (fun s => cmul c (g s)) t (cmul c dg).
Proof.
  intro H. pose proof (cd_mul _ _ t _ _ (cd_const c t) H) as M. cbv beta in M.
  replace (cmul c dg) with (cadd (cmul c0 (g t)) (cmul c dg)); [exact M|]. apply cpx_ext; cbn; ring.
Qed.
Lemma cd_inv f t df : f t <> c0 -> cderiv f t df ->
  cderiv (fun s => cinv (f s)) t (copp (cmul df (cinv (cmul (f t) (f t))))).
Proof.
  intros Hf [A B]. pose proof (cnrm_nz _ Hf) as N.
  assert (DN : derivable_pt_lim (fun s => cnrm (f s)) t (2 * (cre df * cre (f t) + cim df * cim (f t)))).
  { unfold cnrm. eapply dl_eq; [exact (derivable_pt_lim_plus _ _ _ _ _ (derivable_pt_lim_mult _ _ _ _ _ A A) (derivable_pt_lim_mult _ _ _ _ _ B B))|cbv beta; ring]. }
  split; cbn [cre cim cinv].
  - eapply dl_eq; [exact (derivable_pt_lim_div _ _ _ _ _ A DN N)|].
    unfold copp, cmul, cinv, Rsqr; cbn [cre cim]. unfold cnrm in *; cbn [cre cim] in *.
    field. split; [|exact N]. intro Z. apply N. nra.
  - eapply dl_eq; [exact (derivable_pt_lim_div _ _ _ _ _ (derivable_pt_lim_opp _ _ _ B) DN N)|].
    unfold copp, cmul, cinv, Rsqr; cbn [cre cim]. unfold cnrm in *; cbn [cre cim] in *. unfold opp_fct.
    field. split; [|exact N]. intro Z. apply N. nra.
Qed.
Lemma cd_uniq f g t df dg delta : 0 < delta -> (forall s, Rabs (s - t) < delta -> f s = g s) ->
  cderiv f t df -> cderiv g t dg -> df = dg.
Proof.
  intros Hd E [A B] [C D]. apply cpx_ext.
  - eapply uniqueness_limite; [|exact C]. eapply dl_ext_loc; [exact Hd| |exact A]. intros s Hs. cbv beta. now rewrite E.
  - eapply uniqueness_limite; [|exact D]. eapply dl_ext_loc; [exact Hd| |exact B]. intros s Hs. cbv beta. now rewrite E.
Qed.

Section AuxDiv.
  Variable K : Fld.
  Add Field Kaux : (fth K).
  Local Open Scope fld_scope.
  Lemma aux_one_div (a b : K) : - (a * / (b * b)) = (0 * b - 1 * a) * / (b * b).
  Proof. ring. Qed.
  Lemma aux_one_inv (a : K) : / a = 1 / a.
  Proof. rewrite fdiv_def. ring. Qed.
End AuxDiv.
(** The same rules stated with the operations of [CC]. *)
Section Rules.
  Local Open Scope fld_scope.
  Notation C := (cfld CC).
  Implicit Types (f g : R -> C) (df dg : C).
  Lemma k_add f g t df dg : cderiv f t df -> cderiv g t dg -> cderiv (fun s => f s + g s) t (df + dg).
  Proof. exact (cd_add f g t df dg). Qed.
  Lemma k_sub f g t df dg : cderiv f t df -> cderiv g t dg -> cderiv (fun s => f s - g s) t (df - dg).
  Proof. exact (cd_sub f g t df dg). Qed.
  Lemma k_opp f t df : cderiv f t df -> cderiv (fun s => - f s) t (- df).
  Proof. exact (cd_opp f t df). Qed.
  Lemma k_mul f g t df dg : cderiv f t df -> cderiv g t dg -> cderiv (fun s => f s * g s) t (df * g t + f t * dg).
  Proof. exact (cd_mul f g t df dg). Qed.
  Lemma k_mul_l (c : C) g t dg : cderiv g t dg -> cderiv (fun s => c * g s) t (c * dg).
  Proof. exact (cd_mul_l c g t dg). Qed.
  Lemma aux_div (a b : C) : a / b = / b * a.
  Proof. rewrite fdiv_def. apply (Rmul_comm (F_R (fth C))). Qed.
  Lemma k_ext f g t df : (forall s, f s = g s) -> cderiv f t df -> cderiv g t df.
  Proof. intros E [A B]. split; (eapply dl_ext; [|eassumption]); intro s; cbv beta; now rewrite E. Qed.
  Lemma k_div (c : C) g t dg : cderiv g t dg -> cderiv (fun s => g s / c) t (dg / c).
  Proof.
    intro H. rewrite aux_div. apply (k_ext (fun s => / c * g s)); [intro s; symmetry; apply aux_div|]. now apply k_mul_l.
  Qed.
  Lemma k_one_div f t df : f t <> 0 -> cderiv f t df ->
    cderiv (fun s => 1 / f s) t ((0 * f t - 1 * df) * / (f t * f t)).
  Proof.
    intros H D. rewrite <- aux_one_div. apply (k_ext (fun s => / f s)); [intro; apply aux_one_inv|]. exact (cd_inv f t df H D).
  Qed.
  Lemma k_val f t df df' : cderiv f t df -> df = df' -> cderiv f t df'.
  Proof. now intros H <-. Qed.

  Variable sh : list nat.
  Hypothesis HL : length sh = 2%nat.
  Variables we wh : widths C.
  Lemma k_df (G : R -> arr C) (dG : arr C) t a i : (a < 2)%nat -> inb sh i ->
    (forall j, inb sh j -> cderiv (fun s => G s j) t (dG j)) ->
    cderiv (fun s => deriv_forward sh (Some we) a (G s) i) t (deriv_forward sh (Some we) a dG i).
  Proof.
    intros Ha Hi H. unfold deriv_forward, roll. apply (k_div (we a (coord i a))). apply k_sub; apply H; [apply inb_shift; [exact Hi|lia]|exact Hi].
  Qed.
  Lemma k_db (G : R -> arr C) (dG : arr C) t a i : (a < 2)%nat -> inb sh i ->
    (forall j, inb sh j -> cderiv (fun s => G s j) t (dG j)) ->
    cderiv (fun s => deriv_back sh (Some wh) a (G s) i) t (deriv_back sh (Some wh) a dG i).
  Proof.
    intros Ha Hi H. unfold deriv_back, roll. apply (k_div (wh a (coord i a))). apply k_sub; apply H; [exact Hi|apply inb_shift; [exact Hi|lia]].
  Qed.
  Notation Fx := (deriv_forward sh (Some we) 0). Notation Fy := (deriv_forward sh (Some we) 1).
  Notation Bx := (deriv_back sh (Some wh) 0). Notation By := (deriv_back sh (Some wh) 1).

  Variables (om : C) (m : field C) (ep : R -> field C) (d : field C) (ex ey : R -> arr C) (xx xy : arr C) (t : R).
  Hypothesis Hz : forall i, inb sh i -> ep t 2%nat i <> 0.
  Hypothesis Dep : forall c i, (c < 3)%nat -> inb sh i -> cderiv (fun s => ep s c i) t (d c i).
  Hypothesis Dex : forall i, inb sh i -> cderiv (fun s => ex s i) t (xx i).
  Hypothesis Dey : forall i, inb sh i -> cderiv (fun s => ey s i) t (xy i).

  Lemma k_divz j : inb sh j ->
    cderiv (fun s => divz CC Bx By (ex s) (ey s) (ep s 0%nat) (ep s 1%nat) (ep s 2%nat) j) t (rawq CC sh wh (ep t) d (ex t) (ey t) xx xy j).
  Proof.
    intro Hj. unfold divz, rawq.
    apply (k_mul (fun s => 1 / ep s 2%nat j) (fun s => Bx (fun k => ep s 0%nat k * ex s k) j + By (fun k => ep s 1%nat k * ey s k) j) t).
    - apply (k_one_div (fun s => ep s 2%nat j)); [now apply Hz|apply Dep; [lia|exact Hj]].
    - apply k_add; (apply k_db; [lia|exact Hj|]); intros k Hk.
      + apply (k_mul (fun s => ep s 0%nat k) (fun s => ex s k)); [apply Dep; [lia|exact Hk]|now apply Dex].
      + apply (k_mul (fun s => ep s 1%nat k) (fun s => ey s k)); [apply Dep; [lia|exact Hk]|now apply Dey].
  Qed.
  Lemma k_curlz j : inb sh j -> cderiv (fun s => curlz CC Fx Fy (ex s) (ey s) (m 2%nat) j) t (rawc CC sh we m xx xy j).
  Proof.
    intro Hj. unfold curlz, rawc. apply k_mul_l. apply k_sub; (apply k_df; [lia|exact Hj|]); intros k Hk; [now apply Dey|now apply Dex].
  Qed.
  Lemma k_opx i : inb sh i ->
    cderiv (fun s => opx CC Fx Fy Bx By om (ex s) (ey s) (ep s 0%nat) (ep s 1%nat) (ep s 2%nat) (m 1%nat) (m 2%nat) i) t
      (rawx CC sh we wh om m (ep t) d (ex t) (ey t) xx xy i).
  Proof.
    intro Hi. unfold opx, rawx. apply k_add; [apply k_add|].
    - apply k_mul_l. apply (k_mul (fun s => ep s 0%nat i) (fun s => ex s i)); [apply Dep; [lia|exact Hi]|now apply Dex].
    - apply k_mul_l, k_opp. apply k_db; [lia|exact Hi|]. exact k_curlz.
    - apply k_df; [lia|exact Hi|]. exact k_divz.
  Qed.
  Lemma k_opy i : inb sh i ->
    cderiv (fun s => opy CC Fx Fy Bx By om (ex s) (ey s) (ep s 0%nat) (ep s 1%nat) (ep s 2%nat) (m 0%nat) (m 2%nat) i) t
      (rawy CC sh we wh om m (ep t) d (ex t) (ey t) xx xy i).
  Proof.
    intro Hi. unfold opy, rawy. apply k_add; [apply k_add|].
    - apply k_mul_l. apply (k_mul (fun s => ep s 1%nat i) (fun s => ey s i)); [apply Dep; [lia|exact Hi]|now apply Dey].
    - apply k_mul_l. apply k_db; [lia|exact Hi|]. exact k_curlz.
    - apply k_df; [lia|exact Hi|]. exact k_divz.
  Qed.
End Rules.
