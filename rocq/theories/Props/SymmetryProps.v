(** Symmetries, units, Gauss's law and resonances (C126 - C129). *)
From Coq Require Import Reals Lra List Arith ZArith Lia Field QArith Qcanon.
From Verif.Lib Require Import Num Sums Idx Mat RealF.
From Verif.Model Require Import Fdmath Fdtd Fdfd.
From Verif.Spec Require Import Grid Yee FdtdRun FdfdSpec HarmonicSpec SymmetrySpec.
From Verif.Proofs Require Import FdmathP FdtdP2 FdfdP GridP SymmetryP SymmetryP2 UnitsP ResonanceP.
From Verif.Props Require Import FdfdProps.
Import ListNotations.
Local Open Scope fld_scope.

Lemma one_one (K : Fld) (x : K) : 1 * (1 * x) = x.
Proof. pose proof (fth K) as T. destruct T as [[_ _ _ M _ _ _ _ _] _ _ _]. rewrite !M. reflexivity. Qed.
Lemma one_l (K : Fld) (x : K) : 1 * x = x.
Proof. pose proof (fth K) as T. destruct T as [[_ _ _ M _ _ _ _ _] _ _ _]. apply M. Qed.
Section N.
  Variable K : Fld.
  Add Field Kn : (fth K).
  Lemma mul_div_back (x y : K) : x <> 0 -> x * (y / x) = y.
  Proof. intro H. field. exact H. Qed.
  Lemma neg_neg (x : K) : - (1) * (- (1) * x) = x.
  Proof. ring. Qed.
End N.

(** ** C126: no axis, position or direction is special *)
(** Moving everything and running is running and moving the result. *)
Theorem C126_fdtd :
  forall (K : Fld) (sh : list nat) (m : motion K) (dt : K) (dxes : dxes_t K) (eps : field K) (mu : option (field K)) (js : list (field K)) (s : state K),
    length sh = 3%nat -> grid_motion sh m ->
    let dxes' := option_map (fun p => (moved_we m (fst p), moved_wh m (snd p))) dxes in
    let moved (s : state K) := mkst (moved_E m (sE s)) (moved_H m (sH s)) in
    seq_st (new_shape m)
      (run (new_shape m) dt dxes' (moved_eps m eps) (option_map (moved_mu m) mu) (map (moved_E m) js) (moved s))
      (moved (run sh dt dxes eps mu js s)).
Proof.
  intros K sh m dt dxes eps mu js s HL G dxes' moved.
  apply (run_moved K sh m HL (motion_ok K sh m HL G)). split; apply feq_refl.
Qed.
Print Assumptions C126_fdtd.

(** Likewise the equations of fdfd. *)
Theorem C126_fdfd :
  forall (K : CFld) (sh : list nat) (m : motion K) (om : K) (we wh : widths K) (eps : field K) (mu : option (field K)) (E H : field K),
    length sh = 3%nat -> grid_motion sh m ->
    let sh' := new_shape m in
    let d' := (moved_we m we, moved_wh m wh) in
    let r := eh_full_f sh om (we, wh) eps mu E H in
    let r' := eh_full_f sh' om d' (moved_eps m eps) (option_map (moved_mu m) mu) (moved_E m E) (moved_H m H) in
    let A := e_full_mat sh om (we, wh) (vec sh eps) (option_map (vec sh) mu) None None in
    let A' := e_full_mat sh' om d' (vec sh' (moved_eps m eps)) (option_map (vec sh') (option_map (moved_mu m) mu)) None None in
    feq sh' (fst r') (moved_E m (fst r)) /\ feq sh' (snd r') (moved_H m (snd r))
    /\ feq sh' (unvec sh' (mv (3 * prodl sh') A' (vec sh' (moved_E m E))))
               (moved_E m (unvec sh (mv (3 * prodl sh) A (vec sh E)))).
Proof.
  intros K sh m om we wh eps mu E H HL G sh' d' r r' A A'. pose proof (motion_ok K sh m HL G) as OK.
  destruct (eh_moved K sh m OK om we wh eps mu E H) as [P Q].
  split; [exact P|]. split; [exact Q|]. intros c idx Hc Hi.
  destruct OK as [L [Ax [In _]]]. destruct (Ax c Hc) as [Ac _]. destruct (In c idx Hi) as [Ie _].
  unfold unvec, moved_E.
  pose proof (e_full_wave K sh' om d' (moved_eps m eps) (option_map (moved_mu m) mu) (moved_E m E) c (ravel sh' idx) L Hc (ravel_lt sh' idx Hi)) as X.
  pose proof (e_full_wave K sh om (we, wh) eps mu E (axis_of m c) (ravel sh (at_E m c idx)) HL Ac (ravel_lt sh _ Ie)) as Y.
  rewrite unravel_ravel in X by exact Hi. rewrite unravel_ravel in Y by exact Ie.
  etransitivity; [exact X|]. etransitivity; [exact (wave_moved K sh m (motion_ok K sh m HL G) om we wh eps mu E c idx Hc Hi)|].
  unfold moved_E. f_equal. symmetry. exact Y.
Qed.
Print Assumptions C126_fdfd.

(** The motions can be undone, so the statements above are equivalences. *)
Theorem C126_undone :
  forall (K : Fld) (sh : list nat) (F : field K), length sh = 3%nat ->
    (forall a d, (a < 3)%nat -> feq sh (moved_E (translation sh a d) (moved_E (translation sh a (- d)) F)) F)
    /\ feq sh (moved_E (rotation sh) (moved_E (rotation sh) (moved_E (rotation sh) F))) F
    /\ feq sh (moved_E (exchange sh) (moved_E (exchange sh) F)) F
    /\ (forall a, (a < 3)%nat -> feq sh (moved_E (reflection sh a) (moved_E (reflection sh a) F)) F
                                /\ feq sh (moved_H (reflection sh a) (moved_H (reflection sh a) F)) F).
Proof.
  intros K sh F HL.
  pose proof (one_one K) as One. pose proof (neg_neg K) as Neg.
  split; [|split; [|split]].
  - intros a d Ha c idx Hc Hi. unfold moved_E. cbn. rewrite One. f_equal. rewrite shift_ix_inv by (assumption || lia). reflexivity.
  - intros c idx Hc Hi. pose proof (inb_length sh idx Hi) as L. destruct idx as [|i [|j [|k [|? ?]]]]; cbn in L; try lia.
    unfold moved_E. destruct c as [|[|[|c]]]; try lia; cbn; rewrite One, (one_l K); reflexivity.
  - intros c idx Hc Hi. pose proof (inb_length sh idx Hi) as L. destruct idx as [|i [|j [|k [|? ?]]]]; cbn in L; try lia.
    unfold moved_E. destruct c as [|[|[|c]]]; try lia; cbn; rewrite One; reflexivity.
  - intros a Ha.
    assert (LL : forall i, (i < dim sh a)%nat -> ((dim sh a - (dim sh a - i) mod dim sh a) mod dim sh a = i)%nat).
    { intros i Hi. destruct i as [|i]; [rewrite Nat.sub_0_r, Nat.mod_same, Nat.sub_0_r, Nat.mod_same by lia; reflexivity|].
      rewrite (Nat.mod_small (dim sh a - S i)) by lia. rewrite Nat.mod_small by lia. lia. }
    split; intros c idx Hc Hi; pose proof (inb_coord sh idx a Hi ltac:(lia)) as Hd; pose proof (inb_length sh idx Hi) as L;
      unfold moved_E, moved_H; cbn [reflection sign_E sign_H axis_of at_E at_H]; destruct (Nat.eqb c a);
      rewrite ?One, ?Neg, coord_upd_same, upd_upd_same by lia; f_equal; rewrite ?LL by exact Hd;
      try (replace (dim sh a - 1 - (dim sh a - 1 - coord idx a))%nat with (coord idx a) by lia); apply upd_coord.
Qed.
Print Assumptions C126_undone.

(** A reflection of a non-uniform grid does change the field and the widths. *)
Example C126_example :
  grid_motion gx_sh (reflection (K := GQC) gx_sh 1)
  /\ moved_E (reflection gx_sh 1) gx_E 1%nat [0; 0; 0]%nat = - gx_E 1%nat [0; 2; 0]%nat
  /\ moved_E (reflection gx_sh 1) gx_E 0%nat [0; 1; 0]%nat = gx_E 0%nat [0; 2; 0]%nat
  /\ moved_H (reflection gx_sh 1) gx_H 0%nat [0; 0; 0]%nat = - gx_H 0%nat [0; 2; 0]%nat
  /\ moved_we (reflection gx_sh 1) gx_we 1%nat 0%nat = gz 6 0 /\ gx_we 1%nat 0%nat = gz 2 0
  /\ new_shape (rotation (K := GQC) gx_sh) = [3; 2; 2]%nat.
Proof. split; [apply is_reflection; lia|]. repeat split; vm_compute; try reflexivity; gq_refl. Qed.

(** ** C127: units *)
(** Lengths by [s], permittivities by [a^2], permeabilities by [b^2], times by [s a b]. *)
Theorem C127_fdtd :
  forall (K : Fld) (sh : list nat) (we wh : widths K) (eps : field K) (mu : option (field K)) (dt s a b : K) (js : list (field K)) (E H : field K),
    length sh = 3%nat -> nzw sh we -> nzw sh wh -> nzm sh eps -> nzm sh (matl mu) -> s <> 0 -> a <> 0 -> b <> 0 ->
    let r := run sh dt (Some (we, wh)) eps mu js (mkst E H) in
    let r' := run sh (s * (a * b) * dt) (Some (fun x i => s * we x i, fun x i => s * wh x i))
                  (fun c i => a * a * eps c i) (Some (fun c i => b * b * matl mu c i))
                  (map (fun j c i => a * a * j c i) js) (mkst E (fun c i => a / b * H c i)) in
    feq sh (sE r') (sE r) /\ feq sh (sH r') (fun c i => a / b * sH r c i).
Proof.
  intros K sh we wh eps mu dt s a b js E H HL He Hh Heps Hmu Hs Ha Hb r r'.
  apply (run_scaled K sh we wh eps mu dt s a b HL He Hh Heps Hmu Hs Ha Hb js (mkst E H)). split; apply feq_refl.
Qed.
Print Assumptions C127_fdtd.

Theorem C127_fdfd :
  forall (K : CFld) (sh : list nat) (we wh : widths K) (eps : field K) (mu : option (field K)) (om s a b : K) (E : field K),
    length sh = 3%nat -> nzw sh we -> nzw sh wh -> nzm sh (matl mu) -> s <> 0 -> a <> 0 -> b <> 0 ->
    let A := e_full_mat sh om (we, wh) (vec sh eps) (option_map (vec sh) mu) None None in
    let A' := e_full_mat sh (om / (s * (a * b))) (fun x i => s * we x i, fun x i => s * wh x i)
                (vec sh (fun c i => a * a * eps c i)) (Some (vec sh (fun c i => b * b * matl mu c i))) None None in
    feq sh (unvec sh (mv (3 * prodl sh) A' (vec sh E)))
           (fun c i => unvec sh (mv (3 * prodl sh) A (vec sh E)) c i / (s * s * (b * b))).
Proof.
  intros K sh we wh eps mu om s a b E HL He Hh Hmu Hs Ha Hb A A' c idx Hc Hi. unfold unvec.
  pose proof (e_full_wave K sh (om / (s * (a * b))) (fun x i => s * we x i, fun x i => s * wh x i) (fun c i => a * a * eps c i)
                (Some (fun c i => b * b * matl mu c i)) E c (ravel sh idx) HL Hc (ravel_lt sh idx Hi)) as X.
  pose proof (e_full_wave K sh om (we, wh) eps mu E c (ravel sh idx) HL Hc (ravel_lt sh idx Hi)) as Y.
  rewrite unravel_ravel in X, Y by exact Hi. etransitivity; [exact X|].
  etransitivity; [exact (wave_scaled K sh we wh eps mu om HL He Hh Hmu s a b E Hs Ha Hb c idx Hc Hi)|].
  f_equal. symmetry. exact Y.
Qed.
Print Assumptions C127_fdfd.

Lemma gx_mu_nz : nzm (K := GQC) gx_sh (matl (Some gx_mu)) /\ nzm (K := GQC) gx_sh gx_eps.
Proof.
  split; intros c idx Hc Hi; apply gz_pos; lia.
Qed.
Example C127_example :
  nzw (K := GQC) gx_sh gx_we /\ nzw (K := GQC) gx_sh gx_wh /\ nzm (K := GQC) gx_sh gx_eps /\ nzm (K := GQC) gx_sh (matl (Some gx_mu))
  /\ (gz 2 0 : GQC) <> 0 /\ (gz 3 0 : GQC) <> 0 /\ (gz 5 0 : GQC) <> 0
  /\ sH (run (K := GQC) gx_sh (gz 1 0) (Some gx_d) gx_eps (Some gx_mu) [gx_E] (mkst gx_E gx_H)) 0%nat [1; 2; 0]%nat
     <> (gz 3 0 / gz 5 0 : GQC) * sH (run (K := GQC) gx_sh (gz 1 0) (Some gx_d) gx_eps (Some gx_mu) [gx_E] (mkst gx_E gx_H)) 0%nat [1; 2; 0]%nat.
Proof.
  destruct gx_hyps as [A [B _]]. destruct gx_mu_nz as [C D].
  repeat (split; [first [assumption|apply gz_nz; lia]|]). intro X. vm_compute in X. discriminate X.
Qed.

(** ** C128: Gauss's law *)
(** Solutions of the wave equation obey Gauss's laws, with the charge that belongs to the
    current by charge conservation. *)
Theorem C128_gauss :
  forall (K : CFld) (sh : list nat) (we wh : widths K) (eps : field K) (mu : option (field K)) (om : K) (J E : field K),
    length sh = 3%nat -> nzw sh we -> nzw sh wh -> nzm sh (matl mu) -> om <> 0 ->
    let A := e_full_mat sh om (we, wh) (vec sh eps) (option_map (vec sh) mu) None None in
    feq sh (unvec sh (mv (3 * prodl sh) A (vec sh E))) (fun c i => - im * om * J c i) ->
    forall idx, inb sh idx ->
      div_b sh (Some (we, wh)) (fun c i => eps c i * E c i) idx = im / om * div_b sh (Some (we, wh)) J idx
      /\ div_f sh (Some (we, wh)) (fun c i => matl mu c i * e2h_f sh om (we, wh) mu E c i) idx = 0.
Proof.
  intros K sh we wh eps mu om J E HL He Hh Hmu No A W idx Hi.
  split; [|exact (gauss_h K sh we wh mu om HL He Hmu E No idx Hi)].
  apply (gauss_e K sh we wh eps mu om HL Hh J E No); [|exact Hi].
  intros c i Hc Hj. rewrite <- (W c i Hc Hj). unfold unvec.
  pose proof (e_full_wave K sh om (we, wh) eps mu E c (ravel sh i) HL Hc (ravel_lt sh i Hj)) as Y.
  rewrite unravel_ravel in Y by exact Hj. symmetry. exact Y.
Qed.
Print Assumptions C128_gauss.

(** The current that drives [gx_E]; it does carry charge. *)
Definition gx_J : field GQC := fun c i => wave_e gx_sh gx_om gx_we gx_wh gx_eps (Some gx_mu) gx_E c i / (- im * gx_om).
Example C128_example :
  let A := e_full_mat gx_sh gx_om gx_d (vec gx_sh gx_eps) (Some (vec gx_sh gx_mu)) None None in
  feq gx_sh (unvec gx_sh (mv (3 * prodl gx_sh) A (vec gx_sh gx_E))) (fun c i => - im * gx_om * gx_J c i)
  /\ inb gx_sh [1; 2; 0]%nat /\ div_b (K := GQC) gx_sh (Some gx_d) gx_J [1; 2; 0]%nat <> 0.
Proof.
  split; [|split; [repeat constructor|]].
  - intros c i Hc Hi. unfold unvec.
    pose proof (e_full_wave GQC gx_sh gx_om gx_d gx_eps (Some gx_mu) gx_E c (ravel gx_sh i) eq_refl Hc (ravel_lt gx_sh i Hi)) as Y.
    rewrite unravel_ravel in Y by exact Hi. etransitivity; [exact Y|]. unfold gx_J. symmetry. apply mul_div_back.
    intro Z. vm_compute in Z. discriminate Z.
  - intro X. vm_compute in X. discriminate X.
Qed.

(** ** C129: resonances *)
(** In lossless materials, fields at different resonance frequencies are orthogonal. *)
Theorem C129_orthogonal :
  forall (K : CFld) (sh : list nat) (we wh : widths K) (eps : field K) (mu : option (field K)) (om1 om2 : K) (F G : field K),
    length sh = 3%nat -> nzw sh we -> nzw sh wh -> realw we -> realw wh -> nzm sh (matl mu) ->
    (forall c i, (c < 3)%nat -> inb sh i -> conj (eps c i) = eps c i /\ conj (matl mu c i) = matl mu c i) ->
    let A om := e_full_mat sh om (we, wh) (vec sh eps) (option_map (vec sh) mu) None None in
    feq sh (unvec sh (mv (3 * prodl sh) (A om1) (vec sh F))) noj ->
    feq sh (unvec sh (mv (3 * prodl sh) (A om2) (vec sh G))) noj ->
    conj (om1 * om1) <> om2 * om2 ->
    fsum sh (fun c i => vol_e we wh c i * (eps c i * (conj (F c i) * G c i))) = 0.
Proof.
  intros K sh we wh eps mu om1 om2 F G HL He Hh Re Rh Nmu Rm A W1 W2 N.
  assert (C : forall om X, feq sh (unvec sh (mv (3 * prodl sh) (A om) (vec sh X))) noj -> feq sh (wave_e sh om we wh eps mu X) noj).
  { intros om X W c i Hc Hi. rewrite <- (W c i Hc Hi). unfold unvec.
    pose proof (e_full_wave K sh om (we, wh) eps mu X c (ravel sh i) HL Hc (ravel_lt sh i Hi)) as Y.
    rewrite unravel_ravel in Y by exact Hi. symmetry. exact Y. }
  apply (orth K sh we wh eps mu HL He Hh Re Rh) with (om1 := om1) (om2 := om2); try (apply C; assumption); try exact N.
  - intros c i Hc Hi. apply Rm; assumption.
  - intros c i Hc Hi. pose proof (proj2 (Rm c i Hc Hi)) as R. pose proof (Nmu c i Hc Hi) as Z. unfold inv_at, matl in *. destruct mu as [u|]; [|apply conj_one].
    rewrite conj_div by exact Z. rewrite conj_one, R. reflexivity.
Qed.
Print Assumptions C129_orthogonal.

Local Open Scope R_scope.
(** Resonance frequencies are real without losses; with the losses of exp(+i omega t)
    (Im eps <= 0) they have Im omega >= 0, so the oscillation does not grow, and it decays
    if every cell is lossy. *)
Theorem C129_frequency :
  forall (sh : list nat) (we wh : widths RF) (eps : field CC) (mu : option (field CC)) (om : CC) (F : field CC),
    length sh = 3%nat ->
    (forall a i, (a < 3)%nat -> (i < dim sh a)%nat -> 0 < we a i /\ 0 < wh a i) ->
    (forall c i, (c < 3)%nat -> inb sh i -> 0 < cre (eps c i)) ->
    (forall c i, (c < 3)%nat -> inb sh i -> cim (matl (K := CC) mu c i) = 0 /\ 0 < cre (matl (K := CC) mu c i)) ->
    let A := e_full_mat (K := CC) sh om (cw we, cw wh) (vec sh eps) (option_map (vec sh) mu) None None in
    feq (K := CC) sh (unvec (K := CC) sh (mv (K := CC) (3 * prodl sh) A (vec sh F))) (noj (K := CC)) ->
    (exists c i, (c < 3)%nat /\ inb sh i /\ F c i <> c0) ->
    ((forall c i, (c < 3)%nat -> inb sh i -> cim (eps c i) = 0) -> cim om = 0)
    /\ ((forall c i, (c < 3)%nat -> inb sh i -> cim (eps c i) <= 0) -> 0 < cre om -> 0 <= cim om)
    /\ ((forall c i, (c < 3)%nat -> inb sh i -> cim (eps c i) < 0) -> 0 < cre om -> 0 < cim om).
Proof.
  intros sh we wh eps mu om F HL Hw Heps Hmu A W NZ. apply (resonance sh we wh eps mu HL Hw Heps Hmu om F); [|exact NZ].
  intros c i Hc Hi. rewrite <- (W c i Hc Hi). unfold unvec.
  pose proof (e_full_wave CC sh om (cw we, cw wh) eps mu F c (ravel sh i) HL Hc (ravel_lt sh i Hi)) as Y.
  rewrite unravel_ravel in Y by exact Hi. symmetry. exact Y.
Qed.
Print Assumptions C129_frequency.
Local Close Scope R_scope.

(** Six cells in a row, all widths, eps and mu equal to 1: a wave with six cells per
    wavelength resonates at omega = 1, one with two cells per wavelength at omega = 2. *)
Definition rx_sh : list nat := [6; 1; 1]%nat.
Definition rx_w : widths GQC := fun _ _ => gz 1 0.
Definition rx_eps : field GQC := fun _ _ => gz 1 0.
Definition rx_F : field GQC := fun c i => gz (if Nat.eqb c 1 then nth (coord i 0) [2; 1; -1; -2; -1; 1]%Z 0%Z else 0%Z) 0.
Definition rx_G : field GQC := fun c i => gz (if Nat.eqb c 1 then (if Nat.even (coord i 0) then 1 else -1)%Z else 0%Z) 0.
Lemma rx_cells c idx : (c < 3)%nat -> inb rx_sh idx -> In (c, idx) (list_prod [0; 1; 2]%nat (map (fun i => [i; 0; 0]%nat) [0; 1; 2; 3; 4; 5]%nat)).
Proof.
  intros Hc Hi. apply in_prod; [cbn; lia|]. apply in_map_iff. exists (coord idx 0).
  pose proof (inb_coord rx_sh idx 0 Hi ltac:(cbn; lia)) as A. pose proof (inb_coord rx_sh idx 1 Hi ltac:(cbn; lia)) as B.
  pose proof (inb_coord rx_sh idx 2 Hi ltac:(cbn; lia)) as D. pose proof (inb_length rx_sh idx Hi) as L.
  destruct idx as [|i [|j [|k [|? ?]]]]; cbn in *; try lia. replace j with 0%nat by lia. replace k with 0%nat by lia. split; [reflexivity|lia].
Qed.
Lemma rx_zero (f : field GQC) :
  forallb (fun p => if GQ_eq_dec (f (fst p) (snd p)) (gz 0 0) then true else false)
    (list_prod [0; 1; 2]%nat (map (fun i => [i; 0; 0]%nat) [0; 1; 2; 3; 4; 5]%nat)) = true -> feq rx_sh f noj.
Proof.
  intros H c idx Hc Hi. rewrite forallb_forall in H. specialize (H (c, idx) (rx_cells c idx Hc Hi)). cbn [fst snd] in H.
  destruct (GQ_eq_dec (f c idx) (gz 0 0)) as [E|]; [|discriminate]. rewrite E. gq_refl.
Qed.
Example C129_example :
  let A om := e_full_mat rx_sh om (rx_w, rx_w) (vec rx_sh rx_eps) None None None in
  feq rx_sh (unvec rx_sh (mv (3 * prodl rx_sh) (A (gz 1 0)) (vec rx_sh rx_F))) noj
  /\ feq rx_sh (unvec rx_sh (mv (3 * prodl rx_sh) (A (gz 2 0)) (vec rx_sh rx_G))) noj
  /\ conj (gz 1 0 * gz 1 0 : GQC) <> gz 2 0 * gz 2 0
  /\ nzw rx_sh rx_w /\ realw rx_w /\ rx_F 1%nat [0; 0; 0]%nat <> 0 /\ rx_G 1%nat [0; 0; 0]%nat <> 0.
Proof.
  assert (C : forall om X, feq rx_sh (wave_e (K := GQC) rx_sh om rx_w rx_w rx_eps None X) noj ->
    feq rx_sh (unvec rx_sh (mv (3 * prodl rx_sh) (e_full_mat (K := GQC) rx_sh om (rx_w, rx_w) (vec rx_sh rx_eps) None None None) (vec rx_sh X))) noj).
  { intros om X W c i Hc Hi. rewrite <- (W c i Hc Hi). unfold unvec.
    pose proof (e_full_wave GQC rx_sh om (rx_w, rx_w) rx_eps None X c (ravel rx_sh i) eq_refl Hc (ravel_lt rx_sh i Hi)) as Y.
    rewrite unravel_ravel in Y by exact Hi. exact Y. }
  split; [apply C, rx_zero; vm_compute; reflexivity|]. split; [apply C, rx_zero; vm_compute; reflexivity|].
  split; [intro X; vm_compute in X; discriminate X|]. split; [intros a i _ _; apply gz_nz; lia|].
  split; [intros a i; gq_refl|]. split; apply gz_nz; left; vm_compute; discriminate.
Qed.
