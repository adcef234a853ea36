(** Sensitivity of the wavenumber. *)
From Coq Require Import List Arith ZArith Lia Bool Field.
From Verif.Lib Require Import Num Sums Idx Mat.
From Verif.Model Require Import Fdmath Fdfd Waveguide2d.
From Verif.Spec Require Import Yee WaveguideSpec.
From Verif.Proofs Require Import FdmathP FdfdP FdfdP2 WaveguideP WaveguideP2 WaveguideP3 WaveguideP4.
Import ListNotations.
Local Open Scope fld_scope.

Section Sens.
  Variable K : CFld.
  Add Field Kfield : (fth K).
  Variable sh : list nat.
  Hypothesis HL : length sh = 2%nat.
  Variables we wh : widths K.
  Notation Fx := (deriv_forward sh (Some we) 0). Notation Fy := (deriv_forward sh (Some we) 1).
  Notation Bx := (deriv_back sh (Some wh) 0). Notation By := (deriv_back sh (Some wh) 1).
  Let N := prodl sh.

  (** Derivative of operator_e along [d], applied to [(ex, ey)]. *)
  Definition dqz (ep d : field K) (ex ey : arr K) : arr K := fun i =>
    1 / ep 2%nat i * (Bx (fun j => d 0%nat j * ex j) i + By (fun j => d 1%nat j * ey j) i)
    - d 2%nat i / (ep 2%nat i * ep 2%nat i) * (Bx (fun j => ep 0%nat j * ex j) i + By (fun j => ep 1%nat j * ey j) i).
  Definition dopx om (m ep d : field K) ex ey : arr K := fun i => om * om * m 1%nat i * (d 0%nat i * ex i) + Fx (dqz ep d ex ey) i.
  Definition dopy om (m ep d : field K) ex ey : arr K := fun i => om * om * m 0%nat i * (d 1%nat i * ey i) + Fy (dqz ep d ex ey) i.

  Lemma dot2 (x y : vect K) : dot (2 * N) x y = gsum sh (fun i => unvec sh x 0%nat i * unvec sh y 0%nat i + unvec sh x 1%nat i * unvec sh y 1%nat i).
  Proof.
    unfold dot. replace (2 * N)%nat with (N + N)%nat by lia. rewrite sumN_app. unfold N. rewrite !gsum_flat'. rewrite <- gsum_add.
    apply gsum_ext. intros i Hi. unfold unvec. rewrite ?Nat.mul_1_l, ?Nat.mul_0_l, ?Nat.add_0_l. reflexivity.
  Qed.
  Lemma dot3 (x y : vect K) : dot (3 * N) x y = gsum sh (fun i => unvec sh x 0%nat i * unvec sh y 0%nat i + unvec sh x 1%nat i * unvec sh y 1%nat i + unvec sh x 2%nat i * unvec sh y 2%nat i).
  Proof.
    unfold dot. replace (3 * N)%nat with (N + N + N)%nat by lia. rewrite !sumN_app. unfold N. rewrite !gsum_flat'. rewrite <- !gsum_add.
    apply gsum_ext. intros i Hi. unfold unvec. rewrite ?Nat.mul_1_l, ?Nat.mul_0_l, ?Nat.add_0_l. replace (2 * prodl sh)%nat with (prodl sh + prodl sh)%nat by lia. reflexivity.
  Qed.

  Variables (e h : vect K) (beta om : K) (eps : vect K) (mu : option (vect K)) (de : vect K).
  Let vx : arr K := fun i => unvec sh e 0%nat i * (wh 0%nat (coord i 0) * we 1%nat (coord i 1)).
  Let vy : arr K := fun i => unvec sh e 1%nat i * (wh 1%nat (coord i 1) * we 0%nat (coord i 0)).
  Let cx : arr K := fun i => conj (unvec sh h 1%nat i).
  Let cy : arr K := fun i => conj (- unvec sh h 0%nat i).
  Let EP := unvec sh eps. Let M := unvec sh (or_ones mu). Let D := unvec sh de.
  Definition sens_nrm : K := gsum sh (fun i => cx i * vx i + cy i * vy i).
  Definition sens_num : K := gsum sh (fun i => cx i * dopx om M EP D vx vy i + cy i * dopy om M EP D vx vy i).

  Hypothesis Hez : forall i, inb sh i -> EP 2%nat i <> 0.
  Lemma sens_dot : 2 * beta * sens_nrm <> 0 ->
    dot (3 * N) (sensitivity sh e h beta om (we, wh) eps mu) de = sens_num / (2 * beta * sens_nrm).
  Proof using HL Hez.
    intro Hn. unfold sensitivity. cbn [fst snd]. fold N. 
    set (Dfx := deriv_forward_mat sh we 0). set (Dfy := deriv_forward_mat sh we 1).
    set (Dbx := deriv_back_mat sh wh 0). set (Dby := deriv_back_mat sh wh 1).
    set (exy := mdiag (vcat N (part N eps 0) (part N eps 1))).
    set (ezi := mdiag (fun p => 1 / part N eps 2 p)).
    set (myx := mdiag (vcat N (part N (or_ones mu) 1) (part N (or_ones mu) 0))).
    set (ev := fun q => e q * vcat N _ _ q).
    set (hv := fun q => conj (vcat N _ _ q)).
    set (V := vstack2 N Dfx Dfy). set (H := hstack2 N Dbx Dby).
    assert (EV : forall i, inb sh i -> unvec sh ev 0%nat i = vx i /\ unvec sh ev 1%nat i = vy i).
    { intros i Hi. pose proof (ravel_lt sh i Hi) as R. fold N in R. unfold ev, vx, vy, unvec. split; f_equal.
      - rewrite vcat_l by lia. unfold flat. cbn [Nat.mul Nat.add]. now rewrite unravel_ravel.
      - replace (1 * prodl sh + ravel sh i)%nat with (N + ravel sh i)%nat by (unfold N; lia). rewrite vcat_r. unfold flat. now rewrite unravel_ravel. }
    assert (HV : forall i, inb sh i -> unvec sh hv 0%nat i = cx i /\ unvec sh hv 1%nat i = cy i).
    { intros i Hi. pose proof (ravel_lt sh i Hi) as R. fold N in R. unfold hv, cx, cy, unvec. split; f_equal.
      - rewrite vcat_l by lia. unfold part. f_equal.
      - replace (1 * prodl sh + ravel sh i)%nat with (N + ravel sh i)%nat by (unfold N; lia). rewrite vcat_r. unfold part. f_equal. }
    assert (NR : dot (2 * N) hv ev = sens_nrm).
    { rewrite dot2. unfold sens_nrm. apply gsum_ext. intros i Hi. destruct (EV i Hi) as [-> ->], (HV i Hi) as [-> ->]. reflexivity. }
    rewrite NR.
    set (s1 := fun q => mv (2 * N) (mtr (mscale (om * om) myx)) hv q * ev q).
    set (s2 := fun q => mv N (mtr H) (mv N (mtr ezi) (mv (2 * N) (mtr V) hv)) q * ev q).
    set (s3 := fun p => mv N (mtr (mm N (mopp ezi) ezi)) (mv (2 * N) (mtr V) hv) p * mv (2 * N) (mm (2 * N) H exy) ev p).
    set (dxy := fun q => ev q * de q). set (dz := fun p => mv (2 * N) (mm (2 * N) H exy) ev p * de (2 * N + p)%nat).
    assert (S : dot (3 * N) (fun q => vcat (2 * N) (fun q => s1 q + s2 q) s3 q) de
              = dot (2 * N) hv (fun q => mv (2 * N) (mscale (om * om) myx) dxy q + mv N V (fun p => mv N ezi (mv (2 * N) H dxy) p + mv N (mm N (mopp ezi) ezi) dz p) q)).
    { transitivity (dot (2 * N) hv (mv (2 * N) (mscale (om * om) myx) dxy) + dot (2 * N) hv (mv N V (mv N ezi (mv (2 * N) H dxy)))
        + dot (2 * N) hv (mv N V (mv N (mm N (mopp ezi) ezi) dz))).
      - assert (DL : forall n m (A : mat K) (x y : vect K), dot n y (mv m A x) = dot m (mv n (mtr A) y) x).
        { intros n m A x y. rewrite dot_comm, dot_mtr. apply dot_comm. }
        rewrite !DL.
        unfold dot at 1. replace (3 * N)%nat with (2 * N + N)%nat by lia. rewrite sumN_app. f_equal.
        + unfold dot. rewrite <- sumN_add. apply sumN_ext. intros q Hq. rewrite vcat_l by lia. unfold s1, s2, dxy. ring.
        + unfold dot. apply sumN_ext. intros p Hp. rewrite vcat_r. unfold s3, dz. ring.
      - unfold dot. rewrite <- !sumN_add. apply sumN_ext. intros q Hq. rewrite mv_lin_add. ring. }
    transitivity (dot (3 * N) (fun q => vcat (2 * N) (fun q => s1 q + s2 q) s3 q) de / (2 * beta * sens_nrm)).
    { unfold dot. rewrite fdiv_def. rewrite (Rmul_comm (F_R (fth K)) (sumN _ _)). rewrite <- sumN_mul_l. apply sumN_ext. intros q Hq. match goal with |- _ = ?r => change (vcat (2 * N) (fun q => s1 q + s2 q) s3 q / (2 * beta * sens_nrm) * de q = r) end. rewrite fdiv_def. ring. }
    f_equal. rewrite S, dot2. unfold sens_num. apply gsum_ext. intros i Hi. destruct (HV i Hi) as [-> ->].
    assert (Q : forall j, inb sh j -> mv N ezi (mv (2 * N) H dxy) (ravel sh j) + mv N (mm N (mopp ezi) ezi) dz (ravel sh j) = dqz EP D vx vy j).
    { intros j Hj. pose proof (ravel_lt sh j Hj) as R. fold N in R.
      rewrite mv_mm, mv_mopp. unfold ezi at 1 2. rewrite !mv_mdiag by exact R. unfold ezi. rewrite mv_mdiag by exact R.
      unfold H at 1. rewrite mv_hstack2p. unfold Dbx, Dby. unfold N. rewrite !(dbN K sh HL) by (try lia; exact Hj).
      unfold dz. rewrite mv_mm. fold N. unfold H. rewrite mv_hstack2p. unfold Dbx, Dby, N. rewrite !(dbN K sh HL) by (try lia; exact Hj).
      unfold dqz, EP, D, unvec, part. fold N.
      assert (B0 : forall g g', (forall k, inb sh k -> g k = g' k) -> Bx g j = Bx g' j) by (intros; apply deriv_back_ext; [lia|exact Hj|assumption]).
      assert (B1 : forall g g', (forall k, inb sh k -> g k = g' k) -> By g j = By g' j) by (intros; apply deriv_back_ext; [lia|exact Hj|assumption]).
      rewrite (B0 (fun k => dxy (0 * N + ravel sh k)%nat) (fun k => de (0 * N + ravel sh k)%nat * vx k)).
      2:{ intros k Hk. unfold dxy. destruct (EV k Hk) as [E _]. unfold unvec in E. fold N in E. rewrite E. ring. }
      rewrite (B1 (fun k => dxy (1 * N + ravel sh k)%nat) (fun k => de (1 * N + ravel sh k)%nat * vy k)).
      2:{ intros k Hk. unfold dxy. destruct (EV k Hk) as [_ E]. unfold unvec in E. fold N in E. rewrite E. ring. }
      rewrite (B0 (fun k => mv (2 * N) exy ev (0 * N + ravel sh k)%nat) (fun k => eps (0 * N + ravel sh k)%nat * vx k)).
      2:{ intros k Hk. destruct (EV k Hk) as [E _]. unfold unvec in E. fold N in E. rewrite <- E.
          apply (part_diag2 K N (part N eps 0) (part N eps 1) ev 0 (ravel sh k)); [lia|now apply ravel_lt]. }
      rewrite (B1 (fun k => mv (2 * N) exy ev (1 * N + ravel sh k)%nat) (fun k => eps (1 * N + ravel sh k)%nat * vy k)).
      2:{ intros k Hk. destruct (EV k Hk) as [_ E]. unfold unvec in E. fold N in E. rewrite <- E.
          apply (part_diag2 K N (part N eps 0) (part N eps 1) ev 1 (ravel sh k)); [lia|now apply ravel_lt]. }
      pose proof (Hez j Hj) as Z. unfold EP, unvec in Z. fold N in Z. field. exact Z. }
    pose proof (ravel_lt sh i Hi) as R. fold N in R.
    assert (F0 : forall g g', (forall k, inb sh k -> g k = g' k) -> Fx g i = Fx g' i) by (intros; apply deriv_forward_ext; [lia|exact Hi|assumption]).
    assert (F1 : forall g g', (forall k, inb sh k -> g k = g' k) -> Fy g i = Fy g' i) by (intros; apply deriv_forward_ext; [lia|exact Hi|assumption]).
    destruct (EV i Hi) as [E0 E1]. f_equal; f_equal.
    - unfold dopx. unfold unvec at 1. fold N. f_equal.
      + rewrite mv_mscale. pose proof (part_diag2 K N (part N (or_ones mu) 1) (part N (or_ones mu) 0) dxy 0 (ravel sh i) ltac:(lia) R) as P.
        unfold part in P at 1. unfold myx. rewrite P. unfold part, dxy, M, D, unvec. unfold unvec in E0. fold N in E0 |- *. rewrite E0. ring.
      + pose proof (part_vstack2 K N N Dfx Dfy (fun p => mv N ezi (mv (2 * N) H dxy) p + mv N (mm N (mopp ezi) ezi) dz p) 0 (ravel sh i) ltac:(lia) R) as P.
        unfold part in P at 1. unfold V. rewrite P. unfold Dfx, N. rewrite (dfN K sh HL) by (try lia; exact Hi). apply F0. exact Q.
    - unfold dopy. unfold unvec at 1. fold N. f_equal.
      + rewrite mv_mscale. pose proof (part_diag2 K N (part N (or_ones mu) 1) (part N (or_ones mu) 0) dxy 1 (ravel sh i) ltac:(lia) R) as P.
        unfold part in P at 1. unfold myx. rewrite P. unfold part, dxy, M, D, unvec. unfold unvec in E1. fold N in E1 |- *. rewrite E1. ring.
      + pose proof (part_vstack2 K N N Dfx Dfy (fun p => mv N ezi (mv (2 * N) H dxy) p + mv N (mm N (mopp ezi) ezi) dz p) 1 (ravel sh i) ltac:(lia) R) as P.
        unfold part in P at 1. unfold V. rewrite P. unfold Dfy, N. rewrite (dfN K sh HL) by (try lia; exact Hi). apply F1. exact Q.
  Qed.
End Sens.

Section Pert.
  Set Default Proof Using "All".
  Variable K : CFld.
  Add Field Kfield2 : (fth K).
  Variable sh : list nat.
  Hypothesis HL : length sh = 2%nat.
  Variables (w : nat -> K) (we wh : widths K).
  Hypothesis Hw : forall a k, (a < 2)%nat -> (k < dim sh a)%nat -> we a k = w a /\ wh a k = w a.
  Hypothesis Hnz : forall a, (a < 2)%nat -> w a <> 0.
  Hypothesis Hre : forall a, (a < 2)%nat -> conj (w a) = w a.
  Notation Fx := (deriv_forward sh (Some we) 0). Notation Fy := (deriv_forward sh (Some we) 1).
  Notation Bx := (deriv_back sh (Some wh) 0). Notation By := (deriv_back sh (Some wh) 1).
  Let N := prodl sh.

  Lemma wexy a i : (a < 2)%nat -> inb sh i -> we a (coord i a) = w a /\ wh a (coord i a) = w a.
  Proof. intros Ha Hi. apply Hw; [exact Ha|]. apply inb_coord; [exact Hi|lia]. Qed.
  Lemma nzwe : nzw sh we.
  Proof. intros a k Ha Hk. destruct (Hw a k ltac:(lia) Hk) as [-> _]. apply Hnz. lia. Qed.
  Lemma nzwh : nzw sh wh.
  Proof. intros a k Ha Hk. destruct (Hw a k ltac:(lia) Hk) as [_ ->]. apply Hnz. lia. Qed.
  Lemma conj_df a f i : (a < 2)%nat -> inb sh i -> conj (deriv_forward sh (Some we) a f i) = deriv_forward sh (Some we) a (fun j => conj (f j)) i.
  Proof.
    intros Ha Hi. unfold deriv_forward, roll. destruct (wexy a i Ha Hi) as [-> _].
    rewrite conj_div, conj_sub, Hre by (try apply Hnz; exact Ha). reflexivity.
  Qed.
  Lemma conj_db a f i : (a < 2)%nat -> inb sh i -> conj (deriv_back sh (Some wh) a f i) = deriv_back sh (Some wh) a (fun j => conj (f j)) i.
  Proof.
    intros Ha Hi. unfold deriv_back, roll. destruct (wexy a i Ha Hi) as [_ ->].
    rewrite conj_div, conj_sub, Hre by (try apply Hnz; exact Ha). reflexivity.
  Qed.
  Lemma conj_add2 (x y : K) : conj (x + y) = conj x + conj y.
  Proof. apply conj_add. Qed.
  Lemma conj_mul2 (x y : K) : conj (x * y) = conj x * conj y.
  Proof. apply conj_mul. Qed.

  Variables (om beta : K) (eps : vect K) (mu : option (vect K)).
  Hypothesis Rom : conj om = om. Hypothesis Rb : conj beta = beta.
  Hypothesis Reps : forall c i, (c < 3)%nat -> inb sh i -> conj (unvec sh eps c i) = unvec sh eps c i.
  Hypothesis Rmu : forall c i, (c < 3)%nat -> inb sh i -> conj (unvec sh (or_ones mu) c i) = unvec sh (or_ones mu) c i.
  Hypothesis Neps : forall c i, (c < 3)%nat -> inb sh i -> unvec sh eps c i <> 0.
  Hypothesis Nmu : forall c i, (c < 3)%nat -> inb sh i -> unvec sh (or_ones mu) c i <> 0.

  Lemma opx_conj hx hy i : inb sh i ->
    opx K Bx By Fx Fy om (fun j => conj (hx j)) (fun j => conj (hy j)) (unvec sh (or_ones mu) 0%nat) (unvec sh (or_ones mu) 1%nat) (unvec sh (or_ones mu) 2%nat) (unvec sh eps 1%nat) (unvec sh eps 2%nat) i
    = conj (opx K Bx By Fx Fy om hx hy (unvec sh (or_ones mu) 0%nat) (unvec sh (or_ones mu) 1%nat) (unvec sh (or_ones mu) 2%nat) (unvec sh eps 1%nat) (unvec sh eps 2%nat) i).
  Proof using All.
    intro Hi. unfold opx. rewrite !conj_add2, !conj_mul2, conj_opp, conj_df, conj_db by (try lia; exact Hi).
    rewrite Rom, Reps, Rmu by (try lia; exact Hi). f_equal; [do 3 f_equal|].
    - apply deriv_forward_ext; [lia|exact Hi|]. intros j Hj. unfold curlz. rewrite conj_mul2, conj_div by (apply Neps; [lia|exact Hj]).
      rewrite conj_one, Reps, conj_sub, !conj_db by (try lia; exact Hj). reflexivity.
    - apply deriv_back_ext; [lia|exact Hi|]. intros j Hj. unfold divz. rewrite conj_mul2, conj_div by (apply Nmu; [lia|exact Hj]).
      rewrite conj_one, Rmu, conj_add2, !conj_df by (try lia; exact Hj). f_equal. f_equal; (apply deriv_forward_ext; [lia|exact Hj|]; intros k Hk; rewrite conj_mul2, Rmu by (try lia; exact Hk); reflexivity).
  Qed.
  Lemma opy_conj hx hy i : inb sh i ->
    opy K Bx By Fx Fy om (fun j => conj (hx j)) (fun j => conj (hy j)) (unvec sh (or_ones mu) 0%nat) (unvec sh (or_ones mu) 1%nat) (unvec sh (or_ones mu) 2%nat) (unvec sh eps 0%nat) (unvec sh eps 2%nat) i
    = conj (opy K Bx By Fx Fy om hx hy (unvec sh (or_ones mu) 0%nat) (unvec sh (or_ones mu) 1%nat) (unvec sh (or_ones mu) 2%nat) (unvec sh eps 0%nat) (unvec sh eps 2%nat) i).
  Proof using All.
    intro Hi. unfold opy. rewrite !conj_add2, !conj_mul2, conj_df, conj_db by (try lia; exact Hi).
    rewrite Rom, Reps, Rmu by (try lia; exact Hi). f_equal; [do 2 f_equal|].
    - apply deriv_forward_ext; [lia|exact Hi|]. intros j Hj. unfold curlz. rewrite conj_mul2, conj_div by (apply Neps; [lia|exact Hj]).
      rewrite conj_one, Reps, conj_sub, !conj_db by (try lia; exact Hj). reflexivity.
    - apply deriv_back_ext; [lia|exact Hi|]. intros j Hj. unfold divz. rewrite conj_mul2, conj_div by (apply Nmu; [lia|exact Hj]).
      rewrite conj_one, Rmu, conj_add2, !conj_df by (try lia; exact Hj). f_equal. f_equal; (apply deriv_forward_ext; [lia|exact Hj|]; intros k Hk; rewrite conj_mul2, Rmu by (try lia; exact Hk); reflexivity).
  Qed.

  Variables (e h xd de : vect K) (bd : K).
  Notation E c := (unvec sh e c). Notation Hh c := (unvec sh h c). Notation EP c := (unvec sh eps c). Notation M c := (unvec sh (or_ones mu) c).
  (** the mode's H field solves the H eigenproblem *)
  Hypothesis Hmode : veq (2 * N) (mv (2 * N) (operator_h sh om (we, wh) eps mu) h) (fun q => beta * beta * h q).
  (** first-order change of the E eigenproblem *)
  Hypothesis Hpert : forall i, inb sh i ->
    opx K Fx Fy Bx By om (unvec sh xd 0%nat) (unvec sh xd 1%nat) (EP 0%nat) (EP 1%nat) (EP 2%nat) (M 1%nat) (M 2%nat) i
      + dopx K sh we wh om (unvec sh (or_ones mu)) (unvec sh eps) (unvec sh de) (E 0%nat) (E 1%nat) i
    = (beta * bd + bd * beta) * E 0%nat i + beta * beta * unvec sh xd 0%nat i /\
    opy K Fx Fy Bx By om (unvec sh xd 0%nat) (unvec sh xd 1%nat) (EP 0%nat) (EP 1%nat) (EP 2%nat) (M 0%nat) (M 2%nat) i
      + dopy K sh we wh om (unvec sh (or_ones mu)) (unvec sh eps) (unvec sh de) (E 0%nat) (E 1%nat) i
    = (beta * bd + bd * beta) * E 1%nat i + beta * beta * unvec sh xd 1%nat i.
  Hypothesis Hbeta : beta <> 0.
  Hypothesis Hflux : flux sh we wh (unvec sh e) (fun c i => conj (unvec sh h c i)) <> 0.

  Let y : field K := fun c i => conj (Hh c i).
  Lemma flux_uni F G : flux sh we wh F G = w 0%nat * w 1%nat * gsum sh (fun i => F 0%nat i * G 1%nat i - F 1%nat i * G 0%nat i).
  Proof using All.
    unfold flux. rewrite <- gsum_mul_l. apply gsum_ext. intros i Hi.
    destruct (wexy 0 i ltac:(lia) Hi) as [-> ->], (wexy 1 i ltac:(lia) Hi) as [-> ->]. ring.
  Qed.

  Lemma yeig i : inb sh i ->
    opx K Bx By Fx Fy om (y 0%nat) (y 1%nat) (M 0%nat) (M 1%nat) (M 2%nat) (EP 1%nat) (EP 2%nat) i = beta * beta * y 0%nat i /\
    opy K Bx By Fx Fy om (y 0%nat) (y 1%nat) (M 0%nat) (M 1%nat) (M 2%nat) (EP 0%nat) (EP 2%nat) i = beta * beta * y 1%nat i.
  Proof using All.
    intro Hi. unfold y. rewrite opx_conj, opy_conj by exact Hi.
    destruct (operator_h_xy K sh HL we wh om eps mu h i Hi) as [A B]. fold N in A, B. rewrite <- A, <- B.
    rewrite (proj2 (veq_unvec K sh 2 _ _) Hmode 0%nat i ltac:(lia) Hi), (proj2 (veq_unvec K sh 2 _ _) Hmode 1%nat i ltac:(lia) Hi).
    unfold unvec. rewrite !conj_mul2, !Rb. split; reflexivity.
  Qed.

  Lemma dqz_scale c i : inb sh i -> dqz K sh wh (unvec sh eps) (unvec sh de) (fun j => E 0%nat j * c) (fun j => E 1%nat j * c) i
    = c * dqz K sh wh (unvec sh eps) (unvec sh de) (E 0%nat) (E 1%nat) i.
  Proof.
    intro Hi. unfold dqz.
    assert (L : forall a f g, (a < 2)%nat -> deriv_back sh (Some wh) a (fun j => f j * (g j * c)) i = c * deriv_back sh (Some wh) a (fun j => f j * g j) i).
    { intros a f g Ha. rewrite <- deriv_back_scale. apply deriv_back_ext; [lia|exact Hi|]. intros; ring. }
    rewrite !L by lia. pose proof (Neps 2%nat i ltac:(lia) Hi). field. assumption.
  Qed.
  Lemma dop_scale c i : inb sh i ->
    dopx K sh we wh om (unvec sh (or_ones mu)) (unvec sh eps) (unvec sh de) (fun j => E 0%nat j * c) (fun j => E 1%nat j * c) i
      = c * dopx K sh we wh om (unvec sh (or_ones mu)) (unvec sh eps) (unvec sh de) (E 0%nat) (E 1%nat) i /\
    dopy K sh we wh om (unvec sh (or_ones mu)) (unvec sh eps) (unvec sh de) (fun j => E 0%nat j * c) (fun j => E 1%nat j * c) i
      = c * dopy K sh we wh om (unvec sh (or_ones mu)) (unvec sh eps) (unvec sh de) (E 0%nat) (E 1%nat) i.
  Proof.
    intro Hi. unfold dopx, dopy.
    rewrite (deriv_forward_ext K sh (Some we) 0 _ (fun j => c * dqz K sh wh (unvec sh eps) (unvec sh de) (E 0%nat) (E 1%nat) j) i).
    2:{ lia. } 2:{ exact Hi. } 2:{ intros; now apply dqz_scale. }
    rewrite (deriv_forward_ext K sh (Some we) 1 _ (fun j => c * dqz K sh wh (unvec sh eps) (unvec sh de) (E 0%nat) (E 1%nat) j) i).
    2:{ lia. } 2:{ exact Hi. } 2:{ intros; now apply dqz_scale. }
    rewrite !deriv_forward_scale. split; ring.
  Qed.

  Lemma sens_pert : bd = dot (3 * N) (sensitivity sh e h beta om (we, wh) eps mu) de.
  Proof using All.
    set (D := fun (c : nat) i => match c with
      | 0%nat => dopx K sh we wh om (unvec sh (or_ones mu)) (unvec sh eps) (unvec sh de) (E 0%nat) (E 1%nat) i
      | _ => dopy K sh we wh om (unvec sh (or_ones mu)) (unvec sh eps) (unvec sh de) (E 0%nat) (E 1%nat) i end : K).
    (* flux of the first-order equation *)
    assert (X : flux sh we wh D y = (beta * bd + bd * beta) * flux sh we wh (unvec sh e) y).
    { pose proof (adj_abs K sh HL we wh nzwe nzwh om (unvec sh xd 0%nat) (unvec sh xd 1%nat) (y 0%nat) (y 1%nat)
        (EP 0%nat) (EP 1%nat) (EP 2%nat) (M 0%nat) (M 1%nat) (M 2%nat)) as A.
      assert (A2 : gsum sh (fun i => we 0%nat (coord i 0) * wh 1%nat (coord i 1) * (unvec sh xd 0%nat i * (beta * beta * y 1%nat i))
                                   - wh 0%nat (coord i 0) * we 1%nat (coord i 1) * (unvec sh xd 1%nat i * (beta * beta * y 0%nat i)))
                   = beta * beta * flux sh we wh (unvec sh xd) y).
      { unfold flux. rewrite <- gsum_mul_l. apply gsum_ext. intros; ring. }
      assert (A3 : gsum sh (fun i => we 0%nat (coord i 0) * wh 1%nat (coord i 1) * (((beta * bd + bd * beta) * E 0%nat i + beta * beta * unvec sh xd 0%nat i - D 0%nat i) * y 1%nat i)
                                   - wh 0%nat (coord i 0) * we 1%nat (coord i 1) * (((beta * bd + bd * beta) * E 1%nat i + beta * beta * unvec sh xd 1%nat i - D 1%nat i) * y 0%nat i))
                   = beta * beta * flux sh we wh (unvec sh xd) y).
      { rewrite <- A2. etransitivity; [|etransitivity; [exact A|]].
        - apply gsum_ext. intros i Hi. destruct (Hpert i Hi) as [P1 P2]. rewrite <- P1, <- P2. unfold D. ring.
        - apply gsum_ext. intros i Hi. destruct (yeig i Hi) as [-> ->]. reflexivity. }
      assert (A4 : (beta * bd + bd * beta) * flux sh we wh (unvec sh e) y + beta * beta * flux sh we wh (unvec sh xd) y - flux sh we wh D y = beta * beta * flux sh we wh (unvec sh xd) y).
      { rewrite <- A3 at 2. unfold flux. rewrite <- !gsum_mul_l, <- gsum_add, <- gsum_sub. apply gsum_ext. intros; ring. }
      transitivity (beta * beta * flux sh we wh (unvec sh xd) y - (beta * beta * flux sh we wh (unvec sh xd) y - flux sh we wh D y)); [ring|].
      rewrite <- A4 at 1. ring. }
    set (a := w 0%nat * w 1%nat).
    assert (NR : sens_nrm K sh we wh e h = flux sh we wh (unvec sh e) y).
    { unfold sens_nrm. rewrite flux_uni. fold a. rewrite <- gsum_mul_l. apply gsum_ext. intros i Hi.
      destruct (wexy 0 i ltac:(lia) Hi) as [-> ->], (wexy 1 i ltac:(lia) Hi) as [-> ->]. rewrite conj_opp. unfold y, a. ring. }
    assert (NM : sens_num K sh we wh e h om eps mu de = flux sh we wh D y).
    { unfold sens_num. rewrite flux_uni. fold a. rewrite <- gsum_mul_l. apply gsum_ext. intros i Hi.
      set (vx := fun i => _ * (wh 0%nat _ * _)). set (vy := fun i => _ * (wh 1%nat _ * _)).
      assert (V0 : forall j, inb sh j -> vx j = E 0%nat j * a) by (intros j Hj; unfold vx; destruct (wexy 0 j ltac:(lia) Hj) as [_ ->], (wexy 1 j ltac:(lia) Hj) as [-> _]; reflexivity).
      assert (V1 : forall j, inb sh j -> vy j = E 1%nat j * a) by (intros j Hj; unfold vy; destruct (wexy 0 j ltac:(lia) Hj) as [-> _], (wexy 1 j ltac:(lia) Hj) as [_ ->]; unfold a; ring).
      assert (Q : forall j, inb sh j -> dqz K sh wh (unvec sh eps) (unvec sh de) vx vy j = dqz K sh wh (unvec sh eps) (unvec sh de) (fun j => E 0%nat j * a) (fun j => E 1%nat j * a) j).
      { intros j Hj.
        assert (B : forall a f g g', (a < 2)%nat -> (forall k, inb sh k -> g k = g' k) ->
          deriv_back sh (Some wh) a (fun k => f k * g k) j = deriv_back sh (Some wh) a (fun k => f k * g' k) j).
        { intros a' f g g' Ha' Hg. apply deriv_back_ext; [lia|exact Hj|]. intros k Hk. now rewrite Hg. }
        unfold dqz. rewrite !(B 0%nat _ vx _ ltac:(lia) V0), !(B 1%nat _ vy _ ltac:(lia) V1). reflexivity. }
      assert (Q0 : dopx K sh we wh om (unvec sh (or_ones mu)) (unvec sh eps) (unvec sh de) vx vy i = a * D 0%nat i).
      { unfold D. rewrite <- (proj1 (dop_scale a i Hi)). unfold dopx. rewrite V0 by exact Hi. f_equal. apply deriv_forward_ext; [lia|exact Hi|exact Q]. }
      assert (Q1 : dopy K sh we wh om (unvec sh (or_ones mu)) (unvec sh eps) (unvec sh de) vx vy i = a * D 1%nat i).
      { unfold D. rewrite <- (proj2 (dop_scale a i Hi)). unfold dopy. rewrite V1 by exact Hi. f_equal. apply deriv_forward_ext; [lia|exact Hi|exact Q]. }
      rewrite Q0, Q1, conj_opp. unfold y. ring. }
    assert (Z : 2 * beta * sens_nrm K sh we wh e h <> 0).
    { rewrite NR. apply fmul_nz; [apply fmul_nz; [apply f2nz|exact Hbeta]|exact Hflux]. }
    unfold N. rewrite (sens_dot K sh HL we wh e h beta om eps mu de (fun i Hi => Neps 2%nat i ltac:(lia) Hi) Z).
    rewrite NM, X, NR. rewrite NR in Z. field. splits; [exact Hflux|exact Hbeta|apply f2nz].
  Qed.
End Pert.
Unset Default Proof Using.

Section IpFlux.
  Variable K : CFld.
  Add Field Kfield3 : (fth K).
  Variable sh : list nat.
  Hypothesis HL : length sh = 2%nat.
  Variables (w : nat -> K) (we wh : widths K).
  Hypothesis Hw : forall a k, (a < 2)%nat -> (k < dim sh a)%nat -> we a k = w a /\ wh a k = w a.
  Hypothesis Hre : forall a, (a < 2)%nat -> conj (w a) = w a.
  Lemma ip_flux e h : inner_product sh e h (we, wh) 1 true = 1 / 2 * flux sh we wh (unvec sh e) (fun c i => conj (unvec sh h c i)).
  Proof.
    unfold inner_product, flux. cbv zeta. f_equal. rewrite <- gsum_sub. apply gsum_ext. intros i Hi. cbn [fst snd].
    destruct (Hw 0%nat (coord i 0) ltac:(lia) (inb_coord sh i 0 Hi ltac:(lia))) as [-> ->].
    destruct (Hw 1%nat (coord i 1) ltac:(lia) (inb_coord sh i 1 Hi ltac:(lia))) as [-> ->].
    assert (R : forall a, (a < 2)%nat -> real_part (w a) = w a).
    { intros a Ha. unfold real_part. rewrite Hre by exact Ha. field. apply f2nz. }
    rewrite !R by lia. rewrite !conj_mul, conj_one. ring.
  Qed.
End IpFlux.

Section DopExt.
  Variable K : CFld.
  Variable sh : list nat.
  Hypothesis HL : length sh = 2%nat.
  Variables we wh : widths K.
  Lemma dop_ext om (m ep d : field K) ex ey ex' ey' : (forall j, inb sh j -> ex j = ex' j) -> (forall j, inb sh j -> ey j = ey' j) ->
    forall i, inb sh i -> dopx K sh we wh om m ep d ex ey i = dopx K sh we wh om m ep d ex' ey' i /\
                          dopy K sh we wh om m ep d ex ey i = dopy K sh we wh om m ep d ex' ey' i.
  Proof.
    intros A B i Hi.
    assert (Q : forall j, inb sh j -> dqz K sh wh ep d ex ey j = dqz K sh wh ep d ex' ey' j).
    { intros j Hj.
      assert (L : forall a f g g', (a < 2)%nat -> (forall k, inb sh k -> g k = g' k) ->
          deriv_back sh (Some wh) a (fun k => f k * g k) j = deriv_back sh (Some wh) a (fun k => f k * g' k) j).
      { intros a' f g g' Ha' Hg. apply deriv_back_ext; [lia|exact Hj|]. intros k Hk. now rewrite Hg. }
      unfold dqz. rewrite !(L 0%nat _ ex _ ltac:(lia) A), !(L 1%nat _ ey _ ltac:(lia) B). reflexivity. }
    unfold dopx, dopy. rewrite A, B by exact Hi.
    split; f_equal; (apply deriv_forward_ext; [lia|exact Hi|exact Q]).
  Qed.
End DopExt.
