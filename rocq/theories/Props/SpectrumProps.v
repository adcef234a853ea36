(** The work of the sources of a periodic FDTD run is the sum of the works at its frequencies (C185), and each
    frequency balances its own power (C186). *)
From Coq Require Import Reals List Arith ZArith Lia Lra Psatz Field.
From Verif.Lib Require Import Num Sums Idx RealF Cexp Dft.
From Verif.Model Require Import Fdmath Fdtd Fdfd Pml.
From Verif.Spec Require Import Grid Yee FdtdRun FdfdSpec HarmonicSpec BlochSpec CpmlSpec CpmlHarmonicSpec.
From Verif.Proofs Require Import FdmathP FdtdP2 FdfdP FarP FarP3 BlochP2 DivFreeP HarmonicP HarmonicP2 PmlP.
From Verif.Props Require Import HarmonicProps MeanProps FourierProps CpmlFourierProps.
Import ListNotations.
Local Open Scope R_scope.

Lemma parseval1 N (u v : nat -> R) : (0 < N)%nat ->
  let F w k := sumN (K := CC) N (fun n => rmul (w n) (cis (- (2 * PI * (INR k * INR n / INR N))))) in
  sumN (K := CC) N (fun k => cmul (F u k) (cconj (F v k))) = mkC (INR N * sumN (K := RF) N (fun n => u n * v n)) 0.
Proof.
  intros HN F.
  assert (NZ : INR (prodl [N]) <> 0) by (cbn [prodl fold_right]; rewrite Nat.mul_1_r; apply not_0_INR; lia).
  pose proof (parseval2 [N] (fun l => mkC (u (hd 0%nat l)) 0) (fun l => mkC (v (hd 0%nat l)) 0) NZ) as P.
  cbn [gsum] in P.
  assert (Q : forall w k, fftn [N] (fun l => mkC (w (hd 0%nat l)) 0) [k] = F w k).
  { intros w k. unfold fftn, F. cbn [gsum hd turns]. apply (sumN_ext CC). intros n _. rewrite Rplus_0_r. unfold rmul. reflexivity. }
  refine (eq_trans (eq_trans _ P) _).
  - apply (sumN_ext CC). intros k _. now rewrite !Q.
  - cbn [prodl fold_right hd]. rewrite Nat.mul_1_r.
    assert (Z : sumN (K := CC) N (fun n => cmul (mkC (u n) 0) (cconj (mkC (v n) 0))) = mkC (sumN (K := RF) N (fun n => u n * v n)) 0).
    { clear. induction N as [|N IH]; [reflexivity|]. cbn [sumN]. rewrite IH. apply cpx_ext; cbn; ring. }
    refine (eq_trans (f_equal (rmul (INR N)) Z) _). apply cpx_ext; cbn; ring.
Qed.

Lemma half_sum N (f g : nat -> R) : (sumN (K := RF) N f + sumN (K := RF) N g) / 2 = sumN (K := RF) N (fun k => (f k + g k) / 2).
Proof.
  induction N as [|N IH]; [match goal with |- ?x = ?y => change (@eq R x y) end; cbn; field|]. cbn [sumN]. rewrite <- IH.
  set (x := sumN N f). set (y := sumN N g). clearbody x y. match goal with |- ?x = ?y => change (@eq R x y) end. cbn. field.
Qed.
Lemma work1 N (a b : nat -> R) dt : (0 < N)%nat -> dt <> 0 -> a N = a O ->
  let om k := 2 * PI * INR k / (INR N * dt) in
  let A k := sumN (K := CC) N (fun n => rmul (a n) (cis (- (om k * (INR n * dt))))) in
  let B k := sumN (K := CC) N (fun n => rmul (b n) (cis (- (om k * ((INR n + / 2) * dt))))) in
  sumN (K := RF) N (fun n => b n * (a n + a (n + 1)%nat) / 2) = / INR N * sumN (K := RF) N (fun k => cos (om k * dt / 2) * cre (cmul (A k) (cconj (B k)))).
Proof.
  intros HN Hdt Ha om A B.
  assert (NZ : INR N <> 0) by (apply not_0_INR; lia).
  set (F := fun w k => sumN (K := CC) N (fun n => rmul (w n) (cis (- (2 * PI * (INR k * INR n / INR N)))))).
  assert (FA : forall k, F a k = A k).
  { intro k. apply (sumN_ext CC). intros n _. do 2 f_equal. unfold om. field. split; assumption. }
  assert (FB : forall k, F b k = cmul (cis (om k * dt / 2)) (B k)).
  { intro k. refine (eq_trans _ (sumN_mul_l CC N _ _)). apply (sumN_ext CC). intros n _. 
    replace (- (2 * PI * (INR k * INR n / INR N))) with (om k * dt / 2 + - (om k * ((INR n + / 2) * dt))) by (unfold om; field; split; assumption).
    rewrite cis_add. set (p := cis _). set (q := cis _). clearbody p q. apply cpx_ext; cbn; ring. }
  assert (FS : forall k, F (fun n => a (n + 1)%nat) k = cmul (cis (om k * dt)) (A k)).
  { intro k. rewrite <- FA.
    set (f := fun n => rmul (a n) (cis (- (2 * PI * (INR k * INR n / INR N))))).
    assert (T : sumN (K := CC) N (fun n => f (S n)) = sumN (K := CC) N f).
    { pose proof (sumN_shift CC N f) as Q. cbn [sumN] in Q.
      assert (E : f N = f O).
      { unfold f. rewrite Ha. f_equal. replace (- (2 * PI * (INR k * INR N / INR N))) with (- (2 * PI * INR k)) by (field; exact NZ).
        rewrite cis_opp, cis_nat. replace (- (2 * PI * (INR k * INR 0 / INR N))) with 0 by (cbn; field; exact NZ). rewrite cis_0. apply cpx_ext; cbn; ring. }
      rewrite E in Q. set (x := sumN (K := CC) N f) in *. set (y := sumN (K := CC) N (fun n => f (S n))) in *. set (z := f O) in *. clearbody x y z. change cpx in x, y, z.
      pose proof (f_equal cre Q) as Q1. pose proof (f_equal cim Q) as Q2. cbn in Q1, Q2. apply cpx_ext; lra. }
    change (F a k) with (sumN (K := CC) N f). rewrite <- T. refine (eq_trans _ (sumN_mul_l CC N _ _)). apply (sumN_ext CC). intros n _. unfold f. rewrite Nat.add_1_r.
    replace (- (2 * PI * (INR k * INR n / INR N))) with (om k * dt + - (2 * PI * (INR k * INR (S n) / INR N))) by (rewrite S_INR; unfold om; field; split; assumption).
    rewrite cis_add. set (p := cis _). set (q := cis _). clearbody p q. set (w := a (S n)). clearbody w. apply cpx_ext; cbn; ring. }
  pose proof (parseval1 N a b HN) as P1. pose proof (parseval1 N (fun n => a (n + 1)%nat) b HN) as P2. cbv zeta in P1, P2.
  pose proof (f_equal cre P1) as R1. pose proof (f_equal cre P2) as R2. rewrite cre_sumN in R1, R2. cbn [cre] in R1, R2.
  transitivity (/ INR N * ((INR N * sumN (K := RF) N (fun n => a n * b n) + INR N * sumN (K := RF) N (fun n => a (n + 1)%nat * b n)) / 2)).
  - transitivity ((sumN (K := RF) N (fun n => a n * b n) + sumN (K := RF) N (fun n => a (n + 1)%nat * b n)) / 2); [|match goal with |- ?x = ?y => change (@eq R x y) end; field; exact NZ].
    clear. induction N as [|N IH]; [match goal with |- ?x = ?y => change (@eq R x y) end; cbn; field|]. cbn [sumN]. rewrite IH. match goal with |- ?x = ?y => change (@eq R x y) end. cbn. field.
  - f_equal. rewrite <- R1, <- R2.
    transitivity (sumN (K := RF) N (fun k => (cre (cmul (F a k) (cconj (F b k))) + cre (cmul (F (fun n => a (n + 1)%nat) k) (cconj (F b k)))) / 2)).
    { exact (half_sum N _ _). }
    apply (sumN_ext RF). intros k _. rewrite FA, FB, FS.
    replace (cis (om k * dt)) with (cmul (cis (om k * dt / 2)) (cis (om k * dt / 2))) by (rewrite <- cis_add; f_equal; field).
    assert (U : cmul (cis (om k * dt / 2)) (cconj (cis (om k * dt / 2))) = c1) by (rewrite <- cis_opp, <- cis_add, Rplus_opp_r; apply cis_0).
    transitivity ((cre (cmul (cconj (cis (om k * dt / 2))) (cmul (A k) (cconj (B k)))) + cre (cmul (cmul (cis (om k * dt / 2)) (cconj (cis (om k * dt / 2)))) (cmul (cis (om k * dt / 2)) (cmul (A k) (cconj (B k)))))) / 2).
    { clear. generalize (A k) (B k) (cis (om k * dt / 2)). intros x y z. change cpx in x, y. do 2 f_equal; cbn; ring. }
    rewrite U. generalize (A k) (B k). intros x y. change cpx in x, y. unfold cis. set (C := cos _). set (D := sin _). clearbody C D. match goal with |- ?x = ?y => change (@eq R x y) end. cbn. field.
Qed.

Lemma sum_three N (f g h : nat -> R) a q b :
  - (a * (q * sumN (K := RF) N f + q * sumN (K := RF) N g + q * sumN (K := RF) N h) * b) = sumN (K := RF) N (fun k => - (a * q * (f k + g k + h k) * b)).
Proof.
  induction N as [|N IH]; [match goal with |- ?x = ?y => change (@eq R x y) end; cbn; ring|]. cbn [sumN]. rewrite <- IH.
  set (x := sumN N f). set (y := sumN N g). set (z := sumN N h). clearbody x y z. match goal with |- ?x = ?y => change (@eq R x y) end. cbn. ring.
Qed.
(** The same for the work that delta_energy_j gives a sequence of fields that repeats after N steps. *)
Lemma work_cell sh (we wh : widths RF) dt (J Ef : nat -> field RF) N i : (0 < N)%nat -> dt <> 0 -> (forall c, (c < 3)%nat -> Ef N c i = Ef O c i) ->
  let om k := 2 * PI * INR k / (INR N * dt) in
  let j n := fun c i => - (dt * J n c i) in
  let d := Some (we, wh) in
  let cell := we 0%nat (coord i 0) * we 1%nat (coord i 1) * we 2%nat (coord i 2) in
  let EJ k := sumN (K := CC) 3 (fun c => cmul (fourier (om k) N (fun n => INR n * dt) Ef c i) (cconj (fourier (om k) N (fun n => (INR n + / 2) * dt) J c i))) in
  inb sh i ->
  sumN (K := RF) N (fun n => (delta_energy_j (K := RF) (j n) (Ef n) d i + delta_energy_j (K := RF) (j n) (Ef (n + 1)%nat) d i) / 2)
  = sumN (K := RF) N (fun k => - (dt / INR N * cos (om k * dt / 2) * cre (EJ k) * cell)).
Proof.
  intros HN Hdt Hp om j d cell EJ _.
  set (T := fun c => sumN (K := RF) N (fun n => J n c i * (Ef n c i + Ef (n + 1)%nat c i) / 2)).
  set (V := fun c k => cos (om k * dt / 2) * cre (cmul (fourier (om k) N (fun n => INR n * dt) Ef c i) (cconj (fourier (om k) N (fun n => (INR n + / 2) * dt) J c i)))).
  assert (W : forall c, (c < 3)%nat -> T c = / INR N * sumN (K := RF) N (V c)).
  { intros c Hc. exact (work1 N (fun n => Ef n c i) (fun n => J n c i) dt HN Hdt (Hp c Hc)). }
  transitivity (- (dt * (T 0%nat + T 1%nat + T 2%nat) * cell)).
  - unfold T. clear. induction N as [|N IH]; [match goal with |- ?x = ?y => change (@eq R x y) end; cbn; ring|]. cbn [sumN]. rewrite IH.
    set (x := sumN N _). set (y := sumN N _). set (z := sumN N _). clearbody x y z. unfold delta_energy_j, d, cell, j, sum_axis0, wat. cbn [option_map fst].
    match goal with |- ?x = ?y => change (@eq R x y) end. cbn. field.
  - rewrite !W by lia. refine (eq_trans (sum_three N (V 0%nat) (V 1%nat) (V 2%nat) dt (/ INR N) cell) _).
    apply (sumN_ext RF). intros k _. unfold V, EJ. cbn [sumN]. set (u := cmul _ _). set (v := cmul _ _). set (w := cmul _ _). set (o := cos _). clearbody u v w o cell.
    change R in cell. unfold Rdiv. match goal with |- ?x = ?y => change (@eq R x y) end. cbn. ring.
Qed.

(** A run that repeats after N steps: the work of its sources at a cell over the N steps (the
    mean of the two values of delta_energy_j, with the E field before and after the injection) is
    the sum, over the frequencies 2 pi k / (N dt), of the work of the current and the field at that
    frequency; these fields solve the frequency-domain equations. *)
Theorem C185_work_spectrum :
  forall (sh : list nat) (we wh : widths RF) (dt : R) (eps : field RF) (mu : option (field RF)) (J : nat -> field RF) (s : state RF) (N : nat),
    length sh = 3%nat -> nzw (K := RF) sh we -> nzw (K := RF) sh wh -> dt <> 0 -> nzm (K := RF) sh eps -> nzm_opt (K := RF) sh mu -> (0 < N)%nat ->
    let st n := run (K := RF) sh dt (Some (we, wh)) eps mu (map (fun n c i => - (dt * J n c i)) (seq 0 n)) s in
    seq_st (K := RF) sh (st N) s ->
    let om k := 2 * PI * INR k / (INR N * dt) in
    let Ef k := fourier (om k) N (fun n => INR n * dt) (fun n => sE (st n)) in
    let Hf k := fourier (om k) N (fun n => (INR n + / 2) * dt) (fun n => sH (st (S n))) in
    let Jf k := fourier (om k) N (fun n => (INR n + / 2) * dt) J in
    (forall k, solves sh we wh dt (om k) eps mu (Ef k) (Hf k) (Jf k)) /\
    forall i, inb sh i ->
      let cell := we 0%nat (coord i 0) * we 1%nat (coord i 1) * we 2%nat (coord i 2) in
      let work n e := delta_energy_j (K := RF) (fun c i => - (dt * J n c i)) e (Some (we, wh)) i in
      let EJ k := sumN (K := CC) 3 (fun c => cmul (Ef k c i) (cconj (Jf k c i))) in
      sumN (K := RF) N (fun n => (work n (sE (st n)) + work n (sE (st (n + 1)%nat))) / 2)
      = sumN (K := RF) N (fun k => - (dt / INR N * cos (om k * dt / 2) * cre (EJ k) * cell)).
Proof.
  intros sh we wh dt eps mu J s N HL He Hh Hdt Heps Hmu HN st Hp om Ef Hf Jf.
  assert (NZ : INR N <> 0) by (apply not_0_INR; lia). split.
  - intro k. apply (C183_periodic sh we wh dt (om k) eps mu J s N (Z.of_nat k) HL He Hh Hdt Heps Hmu Hp). unfold om. rewrite <- INR_IZR_INZ. field. split; assumption.
  - intros i Hi cell work EJ.
    exact (work_cell sh we wh dt J (fun n => sE (st n)) N i HN Hdt (fun c Hc => proj1 Hp c i Hc Hi) Hi).
Qed.
Print Assumptions C185_work_spectrum.

Lemma sum_two N (f g : nat -> R) q x y :
  x * (q * sumN (K := RF) N f) - y * (q * sumN (K := RF) N g) = sumN (K := RF) N (fun k => q * (x * f k - y * g k)).
Proof.
  induction N as [|N IH]; [match goal with |- ?x = ?y => change (@eq R x y) end; cbn; ring|]. cbn [sumN]. rewrite <- IH.
  set (u := sumN N f). set (v := sumN N g). clearbody u v. match goal with |- ?x = ?y => change (@eq R x y) end. cbn. ring.
Qed.
Lemma sum_pair N (e e' f f' h h' : nat -> R) x y :
  sumN (K := RF) N (fun n => (x * (e n * h n) - y * (f n * h' n) + (x * (e' n * h n) - y * (f' n * h' n))) / 2)
  = x * sumN (K := RF) N (fun n => h n * (e n + e' n) / 2) - y * sumN (K := RF) N (fun n => h' n * (f n + f' n) / 2).
Proof.
  induction N as [|N IH]; [match goal with |- ?x = ?y => change (@eq R x y) end; cbn; ring|]. cbn [sumN]. rewrite IH.
  set (u := sumN N _). set (v := sumN N _). clearbody u v. match goal with |- ?x = ?y => change (@eq R x y) end. cbn. field.
Qed.
Lemma flow_cell sh (we wh : widths RF) dt (Hs Ef : nat -> field RF) N c i : length sh = 3%nat -> (0 < N)%nat -> dt <> 0 -> (forall c i, (c < 3)%nat -> inb sh i -> Ef N c i = Ef O c i) ->
  let om k := 2 * PI * INR k / (INR N * dt) in
  let S k := poynting_e_cross_h_f (K := CC) sh (cw we, cw wh) (fourier (om k) N (fun n => INR n * dt) Ef) (cjf (K := CC) (fourier (om k) N (fun n => (INR n + / 2) * dt) Hs)) in
  (c < 3)%nat -> inb sh i ->
  sumN (K := RF) N (fun n => (poynting (K := RF) sh (Some (we, wh)) (Ef n) (Hs n) c i + poynting (K := RF) sh (Some (we, wh)) (Ef (n + 1)%nat) (Hs n) c i) / 2)
  = sumN (K := RF) N (fun k => / INR N * (cos (om k * dt / 2) * cre (S k c i))).
Proof.
  intros HL HN Hdt Hp om S Hc Hi.
  set (V := fun a r b k => cos (om k * dt / 2) * cre (cmul (fourier (om k) N (fun n => INR n * dt) Ef a r) (cconj (fourier (om k) N (fun n => (INR n + / 2) * dt) Hs b i)))).
  assert (W : forall a r b, (a < 3)%nat -> inb sh r -> sumN (K := RF) N (fun n => Hs n b i * (Ef n a r + Ef (n + 1)%nat a r) / 2) = / INR N * sumN (K := RF) N (V a r b)).
  { intros a r b Ha Hr. exact (work1 N (fun n => Ef n a r) (fun n => Hs n b i) dt HN Hdt (Hp a r Ha Hr)). }
  assert (G : forall a b r, (a < 3)%nat -> (b < 3)%nat -> inb sh r ->
    (forall e h : field RF, poynting (K := RF) sh (Some (we, wh)) e h c i = we a (coord r a) * wh b (coord i b) * (e a r * h b i) - we b (coord r b) * wh a (coord i a) * (e b r * h a i)) ->
    (forall e h : field CC, poynting_e_cross_h_f (K := CC) sh (cw we, cw wh) e h c i = csub (rmul (we a (coord r a) * wh b (coord i b)) (cmul (e a r) (h b i))) (rmul (we b (coord r b) * wh a (coord i a)) (cmul (e b r) (h a i)))) ->
    sumN (K := RF) N (fun n => (poynting (K := RF) sh (Some (we, wh)) (Ef n) (Hs n) c i + poynting (K := RF) sh (Some (we, wh)) (Ef (n + 1)%nat) (Hs n) c i) / 2)
    = sumN (K := RF) N (fun k => / INR N * (cos (om k * dt / 2) * cre (S k c i)))).
  { intros a b r Ha Hb Hr P Q.
    refine (eq_trans (sumN_ext RF N _ _ (fun n _ => f_equal2 (fun u v : R => (u + v) / 2) (P (Ef n) (Hs n)) (P (Ef (n + 1)%nat) (Hs n)))) _).
    refine (eq_trans (sum_pair N (fun n => Ef n a r) (fun n => Ef (n + 1)%nat a r) (fun n => Ef n b r) (fun n => Ef (n + 1)%nat b r) (fun n => Hs n b i) (fun n => Hs n a i) _ _) _).
    rewrite !W by assumption. refine (eq_trans (sum_two N _ _ _ _ _) _). apply (sumN_ext RF). intros k _. unfold S. rewrite Q. unfold V, cjf.
    set (x1 := fourier _ _ _ _ a r). set (x2 := fourier _ _ _ _ b r). set (y1 := fourier _ _ _ _ b i). set (y2 := fourier _ _ _ _ a i). set (o := cos _). generalize (/ INR N) (we a (coord r a) * wh b (coord i b)) (we b (coord r b) * wh a (coord i a)). clearbody x1 x2 y1 y2 o.
    change cpx in x1, x2, y1, y2. intros q x y. match goal with |- ?x = ?y => change (@eq R x y) end. cbn. ring. }
  destruct c as [|[|[|c]]]; [| | |lia].
  - apply (G 1%nat 2%nat (shift_ix sh 0 1 i)); [lia|lia|apply inb_shift; [exact Hi|lia]| |]; intros e h; unfold poynting, poynting_e_cross_h_f, roll, wat, cw, rmul; cbn [option_map fst snd]; [match goal with |- ?x = ?y => change (@eq R x y) end; cbn; ring|apply cpx_ext; cbn; ring].
  - apply (G 2%nat 0%nat (shift_ix sh 1 1 i)); [lia|lia|apply inb_shift; [exact Hi|lia]| |]; intros e h; unfold poynting, poynting_e_cross_h_f, roll, wat, cw, rmul; cbn [option_map fst snd]; [match goal with |- ?x = ?y => change (@eq R x y) end; cbn; ring|apply cpx_ext; cbn; ring].
  - apply (G 0%nat 1%nat (shift_ix sh 2 1 i)); [lia|lia|apply inb_shift; [exact Hi|lia]| |]; intros e h; unfold poynting, poynting_e_cross_h_f, roll, wat, cw, rmul; cbn [option_map fst snd]; [match goal with |- ?x = ?y => change (@eq R x y) end; cbn; ring|apply cpx_ext; cbn; ring].
Qed.

(** The energy that flows through a face in the N steps, likewise: the sum over the frequencies of
    cos(omega dt / 2) times the real part of the documented E x H*. *)
Theorem C185_flow_spectrum :
  forall (sh : list nat) (we wh : widths RF) (dt : R) (eps : field RF) (mu : option (field RF)) (J : nat -> field RF) (s : state RF) (N : nat),
    length sh = 3%nat -> dt <> 0 -> (0 < N)%nat ->
    let st n := run (K := RF) sh dt (Some (we, wh)) eps mu (map (fun n c i => - (dt * J n c i)) (seq 0 n)) s in
    seq_st (K := RF) sh (st N) s ->
    let om k := 2 * PI * INR k / (INR N * dt) in
    let Ef k := fourier (om k) N (fun n => INR n * dt) (fun n => sE (st n)) in
    let Hf k := fourier (om k) N (fun n => (INR n + / 2) * dt) (fun n => sH (st (S n))) in
    let flow e h := poynting (K := RF) sh (Some (we, wh)) e h in
    forall c i, (c < 3)%nat -> inb sh i ->
      sumN (K := RF) N (fun n => (flow (sE (st n)) (sH (st (S n))) c i + flow (sE (st (n + 1)%nat)) (sH (st (S n))) c i) / 2)
      = sumN (K := RF) N (fun k => / INR N * (cos (om k * dt / 2) * cre (poynting_e_cross_h_f (K := CC) sh (cw we, cw wh) (Ef k) (cjf (K := CC) (Hf k)) c i))).
Proof.
  intros sh we wh dt eps mu J s N HL Hdt HN st Hp om Ef Hf flow c i Hc Hi.
  exact (flow_cell sh we wh dt (fun n => sH (st (S n))) (fun n => sE (st n)) N c i HL HN Hdt (proj1 Hp) Hc Hi).
Qed.
Print Assumptions C185_flow_spectrum.

Lemma four_shift N (a : nat -> R) dt k (t : nat -> R) : (0 < N)%nat -> dt <> 0 -> a N = a O ->
  let om := 2 * PI * INR k / (INR N * dt) in
  (forall n, t (S n) = t n + dt) ->
  sumN (K := CC) N (fun n => rmul (a (S n)) (cis (- (om * t n)))) = cmul (cis (om * dt)) (sumN (K := CC) N (fun n => rmul (a n) (cis (- (om * t n))))).
Proof.
  intros HN Hdt Ha om Ht. assert (NZ : INR N <> 0) by (apply not_0_INR; lia).
  set (f := fun n => rmul (a n) (cis (- (om * t n)))).
  assert (T : sumN (K := CC) N (fun n => f (S n)) = sumN (K := CC) N f).
  { pose proof (sumN_shift CC N f) as Q. cbn [sumN] in Q.
    assert (E : f N = f O).
    { assert (L : forall n, t n = t O + INR n * dt) by (induction n as [|n IH]; [cbn; ring|rewrite Ht, IH, S_INR; ring]).
      unfold f. rewrite Ha, L. f_equal. replace (- (om * (t 0%nat + INR N * dt))) with (- (om * t 0%nat) + - (2 * PI * INR k)) by (unfold om; field; split; assumption).
      rewrite cis_add, (cis_opp (2 * PI * INR k)), cis_nat. apply cpx_ext; cbn; ring. }
    rewrite E in Q. set (x := sumN (K := CC) N f) in *. set (y := sumN (K := CC) N (fun n => f (S n))) in *. set (z := f O) in *. clearbody x y z. change cpx in x, y, z.
    pose proof (f_equal cre Q) as Q1. pose proof (f_equal cim Q) as Q2. cbn in Q1, Q2. apply cpx_ext; lra. }
  rewrite <- T. refine (eq_trans _ (sumN_mul_l CC N _ _)). apply (sumN_ext CC). intros n _. unfold f. rewrite Ht.
  replace (- (om * t n)) with (om * dt + - (om * (t n + dt))) by ring.
  rewrite cis_add. set (p := cis _). set (q := cis _). clearbody p q. set (w := a (S n)). clearbody w. apply cpx_ext; cbn; ring.
Qed.
Lemma energy1 N (a : nat -> R) dt : (0 < N)%nat -> dt <> 0 -> a N = a O ->
  let om k := 2 * PI * INR k / (INR N * dt) in
  let A k := sumN (K := CC) N (fun n => rmul (a n) (cis (- (om k * (INR n * dt))))) in
  let B k := sumN (K := CC) N (fun n => rmul (a (S n)) (cis (- (om k * ((INR n + / 2) * dt))))) in
  (forall k, cnrm (B k) = cnrm (A k)) /\
  sumN (K := RF) N (fun n => a n * a n) = / INR N * sumN (K := RF) N (fun k => cnrm (A k)) /\
  sumN (K := RF) N (fun n => a (S n) * a (S n)) = / INR N * sumN (K := RF) N (fun k => cnrm (A k)) /\
  sumN (K := RF) N (fun n => a n * a (S n)) = / INR N * sumN (K := RF) N (fun k => cos (om k * dt) * cnrm (A k)).
Proof.
  intros HN Hdt Ha om A B. assert (NZ : INR N <> 0) by (apply not_0_INR; lia).
  set (F := fun w k => sumN (K := CC) N (fun n => rmul (w n) (cis (- (2 * PI * (INR k * INR n / INR N)))))).
  assert (PH : forall w k, F w k = sumN (K := CC) N (fun n => rmul (w n) (cis (- (om k * (INR n * dt)))))).
  { intros w k. apply (sumN_ext CC). intros n _. do 2 f_equal. unfold om. field. split; assumption. }
  assert (SH : forall k, F (fun n => a (S n)) k = cmul (cis (om k * dt)) (A k)).
  { intro k. rewrite PH. apply (four_shift N a dt k (fun n => INR n * dt) HN Hdt Ha). intro n. rewrite S_INR. ring. }
  assert (FA : forall k, F a k = A k) by (intro k; apply PH).
  assert (U : forall t z, cnrm (cmul (cis t) z) = cnrm z).
  { intros t z. pose proof (sin2_cos2 t) as SC. unfold Rsqr in SC. unfold cis, cnrm. cbn. set (C := cos t) in *. set (D := sin t) in *. clearbody C D.
    transitivity ((D * D + C * C) * (cre z * cre z + cim z * cim z)); [ring|]. rewrite SC. ring. }
  assert (PV : forall u v, sumN (K := RF) N (fun n => u n * v n) = / INR N * sumN (K := RF) N (fun k => cre (cmul (F u k) (cconj (F v k))))).
  { intros u v. pose proof (f_equal cre (parseval1 N u v HN)) as Q. cbv zeta in Q. rewrite cre_sumN in Q. cbn [cre] in Q. fold (F u) in Q. 
    match type of Q with ?l = _ => change (sumN (K := RF) N (fun n => u n * v n) = / INR N * l) end. rewrite Q. set (s := sumN (K := RF) N _). clearbody s. change R in s. match goal with |- ?x = ?y => change (@eq R x y) end. field. exact NZ. }
  assert (NN : forall z, cre (cmul z (cconj z)) = cnrm z) by (intro z; unfold cnrm; cbn; ring).
  split; [|split; [|split]].
  - intro k. transitivity (cnrm (cmul (cis (- (om k * dt / 2))) (F (fun n => a (S n)) k))).
    + f_equal. rewrite PH. refine (eq_trans _ (sumN_mul_l CC N _ _)). apply (sumN_ext CC). intros n _.
      replace (- (om k * ((INR n + / 2) * dt))) with (- (om k * dt / 2) + - (om k * (INR n * dt))) by field.
      rewrite cis_add. set (p := cis _). set (q := cis _). clearbody p q. set (w := a (S n)). clearbody w. apply cpx_ext; cbn; ring.
    + rewrite U, SH, U. reflexivity.
  - refine (eq_trans (PV a a) _). f_equal. apply (sumN_ext RF). intros k _. rewrite FA. apply NN.
  - refine (eq_trans (PV (fun n => a (S n)) (fun n => a (S n))) _). f_equal. apply (sumN_ext RF). intros k _. rewrite NN, SH. apply U.
  - refine (eq_trans (PV a (fun n => a (S n))) _). f_equal. apply (sumN_ext RF). intros k _. rewrite SH, FA. unfold cis, cnrm. generalize (A k). intro z. change cpx in z. set (C := cos _). set (D := sin _). clearbody C D. match goal with |- ?x = ?y => change (@eq R x y) end. cbn. ring.
Qed.

Lemma sum_six N (a b : nat -> nat -> R) (x y : nat -> R) v w :
  sumN (K := RF) N (fun n => (a 0%nat n * x 0%nat + a 1%nat n * x 1%nat + a 2%nat n * x 2%nat) * v + (b 0%nat n * y 0%nat + b 1%nat n * y 1%nat + b 2%nat n * y 2%nat) * w)
  = (sumN (K := RF) N (a 0%nat) * x 0%nat + sumN (K := RF) N (a 1%nat) * x 1%nat + sumN (K := RF) N (a 2%nat) * x 2%nat) * v + (sumN (K := RF) N (b 0%nat) * y 0%nat + sumN (K := RF) N (b 1%nat) * y 1%nat + sumN (K := RF) N (b 2%nat) * y 2%nat) * w.
Proof.
  induction N as [|N IH]; [match goal with |- ?x = ?y => change (@eq R x y) end; cbn; ring|]. cbn [sumN]. rewrite IH.
  set (u0 := sumN N _). set (u1 := sumN N _). set (u2 := sumN N _). set (z0 := sumN N _). set (z1 := sumN N _). set (z2 := sumN N _). clearbody u0 u1 u2 z0 z1 z2. match goal with |- ?x = ?y => change (@eq R x y) end. cbn. ring.
Qed.

(** The stored energy, summed over the N steps, splits as well; of the two products in each form,
    the one of two different times carries the factor cos(omega dt). *)
Theorem C185_energy_spectrum :
  forall (sh : list nat) (we wh : widths RF) (dt : R) (eps : field RF) (mu : option (field RF)) (J : nat -> field RF) (s : state RF) (N : nat),
    dt <> 0 -> (0 < N)%nat ->
    let st n := run (K := RF) sh dt (Some (we, wh)) eps mu (map (fun n c i => - (dt * J n c i)) (seq 0 n)) s in
    seq_st (K := RF) sh (st N) s ->
    let om k := 2 * PI * INR k / (INR N * dt) in
    let Ef k := fourier (om k) N (fun n => INR n * dt) (fun n => sE (st n)) in
    let Hf k := fourier (om k) N (fun n => (INR n + / 2) * dt) (fun n => sH (st (S n))) in
    forall i, inb sh i ->
      let cell (w : widths RF) := w 0%nat (coord i 0) * w 1%nat (coord i 1) * w 2%nat (coord i 2) in
      let electric k := sumN (K := RF) 3 (fun c => eps c i * cnrm (Ef k c i)) * cell we in
      let magnetic k := sumN (K := RF) 3 (fun c => mu_at mu c i * cnrm (Hf k c i)) * cell wh in
      sumN (K := RF) N (fun n => energy_estep (K := RF) (sH (st n)) (sE (st n)) (sH (st (S n))) (Some eps) mu (Some (we, wh)) i)
      = sumN (K := RF) N (fun k => / INR N * (electric k + cos (om k * dt) * magnetic k)) /\
      sumN (K := RF) N (fun n => energy_hstep (K := RF) (sE (st n)) (sH (st (S n))) (sE (st (S n))) (Some eps) mu (Some (we, wh)) i)
      = sumN (K := RF) N (fun k => / INR N * (cos (om k * dt) * electric k + magnetic k)).
Proof.
  intros sh we wh dt eps mu J s N Hdt HN st [PE PH] om Ef Hf i Hi cell electric magnetic.
  set (a := fun c n => sE (st n) c i). set (b := fun c n => sH (st n) c i).
  assert (XE : forall c, (c < 3)%nat -> sumN (K := RF) N (fun n => a c n * a c n) = / INR N * sumN (K := RF) N (fun k => cnrm (Ef k c i)) /\
    sumN (K := RF) N (fun n => a c n * a c (S n)) = / INR N * sumN (K := RF) N (fun k => cos (om k * dt) * cnrm (Ef k c i))).
  { intros c Hc. destruct (energy1 N (a c) dt HN Hdt (PE c i Hc Hi)) as (_ & Q1 & _ & Q2). split; [exact Q1|exact Q2]. }
  assert (XH : forall c, (c < 3)%nat -> sumN (K := RF) N (fun n => b c (S n) * b c (S n)) = / INR N * sumN (K := RF) N (fun k => cnrm (Hf k c i)) /\
    sumN (K := RF) N (fun n => b c n * b c (S n)) = / INR N * sumN (K := RF) N (fun k => cos (om k * dt) * cnrm (Hf k c i))).
  { intros c Hc. destruct (energy1 N (b c) dt HN Hdt (PH c i Hc Hi)) as (Q0 & _ & Q1 & Q2). split; [refine (eq_trans Q1 _)|refine (eq_trans Q2 _)]; f_equal; apply (sumN_ext RF); intros k _.
    - symmetry. apply Q0.
    - f_equal. symmetry. apply Q0. }
  assert (G : forall (f g : nat -> nat -> R) (F G : nat -> nat -> R),
    (forall c, (c < 3)%nat -> sumN (K := RF) N (f c) = / INR N * sumN (K := RF) N (F c)) -> (forall c, (c < 3)%nat -> sumN (K := RF) N (g c) = / INR N * sumN (K := RF) N (G c)) ->
    sumN (K := RF) N (fun n => (f 0%nat n * eps 0%nat i + f 1%nat n * eps 1%nat i + f 2%nat n * eps 2%nat i) * cell we + (g 0%nat n * mu_at mu 0 i + g 1%nat n * mu_at mu 1 i + g 2%nat n * mu_at mu 2 i) * cell wh)
    = sumN (K := RF) N (fun k => / INR N * ((F 0%nat k * eps 0%nat i + F 1%nat k * eps 1%nat i + F 2%nat k * eps 2%nat i) * cell we + (G 0%nat k * mu_at mu 0 i + G 1%nat k * mu_at mu 1 i + G 2%nat k * mu_at mu 2 i) * cell wh))).
  { intros f g F G QF QG. refine (eq_trans (sum_six N f g (fun c => eps c i) (fun c => mu_at mu c i) (cell we) (cell wh)) _). rewrite !QF, !QG by lia.
    refine (eq_trans _ (eq_sym (sumN_mul_l RF N _ _))). refine (eq_trans _ (f_equal (fmul (f := RF) (/ INR N)) (eq_sym (sum_six N F G (fun c => eps c i) (fun c => mu_at mu c i) (cell we) (cell wh))))).
    set (u0 := sumN N _). set (u1 := sumN N _). set (u2 := sumN N _). set (z0 := sumN N _). set (z1 := sumN N _). set (z2 := sumN N _). clearbody u0 u1 u2 z0 z1 z2. change R in u0, u1, u2, z0, z1, z2. match goal with |- ?x = ?y => change (@eq R x y) end. cbn. ring. }
  split.
  - refine (eq_trans (eq_trans _ (G (fun c n => a c n * a c n) (fun c n => b c n * b c (S n)) (fun c k => cnrm (Ef k c i)) (fun c k => cos (om k * dt) * cnrm (Hf k c i)) (fun c Hc => proj1 (XE c Hc)) (fun c Hc => proj2 (XH c Hc)))) _).
    + apply (sumN_ext RF). intros n _. unfold energy_estep, dxmul, sum_axis0, wat, cell. cbn [option_map fst snd]. destruct mu; cbn [or_one mu_at]; unfold a, b; match goal with |- ?x = ?y => change (@eq R x y) end; cbn; ring.
    + apply (sumN_ext RF). intros k _. unfold electric, magnetic. cbn [sumN]. match goal with |- ?x = ?y => change (@eq R x y) end. generalize (cnrm (Ef k 0%nat i)) (cnrm (Ef k 1%nat i)) (cnrm (Ef k 2%nat i)) (cnrm (Hf k 0%nat i)) (cnrm (Hf k 1%nat i)) (cnrm (Hf k 2%nat i)) (cell we) (cell wh) (cos (om k * dt)) (/ INR N). intros. cbn. ring.
  - refine (eq_trans (eq_trans _ (G (fun c n => a c n * a c (S n)) (fun c n => b c (S n) * b c (S n)) (fun c k => cos (om k * dt) * cnrm (Ef k c i)) (fun c k => cnrm (Hf k c i)) (fun c Hc => proj2 (XE c Hc)) (fun c Hc => proj1 (XH c Hc)))) _).
    + apply (sumN_ext RF). intros n _. unfold energy_hstep, dxmul, sum_axis0, wat, cell. cbn [option_map fst snd]. destruct mu; cbn [or_one mu_at]; unfold a, b; match goal with |- ?x = ?y => change (@eq R x y) end; cbn; ring.
    + apply (sumN_ext RF). intros k _. unfold electric, magnetic. cbn [sumN]. match goal with |- ?x = ?y => change (@eq R x y) end. generalize (cnrm (Ef k 0%nat i)) (cnrm (Ef k 1%nat i)) (cnrm (Ef k 2%nat i)) (cnrm (Hf k 0%nat i)) (cnrm (Hf k 1%nat i)) (cnrm (Hf k 2%nat i)) (cell we) (cell wh) (cos (om k * dt)) (/ INR N). intros. cbn. ring.
Qed.
Print Assumptions C185_energy_spectrum.

(** The work with CPML layers; the fields at the frequencies below half the sampling frequency
    solve the stretched equations. *)
Theorem C185_layers :
  forall (sh : list nat) (Lr : nat -> nat -> option (layer RF)) (w : widths RF) (dt : R) (eps mu : field RF) (J : nat -> field RF) (s : pstate RF) (N : nat),
    length sh = 3%nat -> 0 < dt -> fitted sh dt Lr -> nzw (K := RF) sh w -> nzm (K := RF) sh eps -> nzm (K := RF) sh mu -> (0 < N)%nat ->
    let st n := cpml_run (K := RF) sh Lr dt w eps mu (map (fun n c i => - (dt * J n c i)) (seq 0 n)) s in
    peq (K := RF) sh Lr (st N) s ->
    let om k := 2 * PI * INR k / (INR N * dt) in
    let Ef k := fourier (om k) N (fun n => INR n * dt) (fun n => pE_ (st n)) in
    let Hf k := fourier (om k) N (fun n => (INR n + / 2) * dt) (fun n => pH_ (st (S n))) in
    let Jf k := fourier (om k) N (fun n => (INR n + / 2) * dt) J in
    (forall k, (0 < k)%nat -> (2 * k < N)%nat -> solves_stretched sh Lr w dt (om k) eps mu (Ef k) (Hf k) (Jf k)) /\
    forall i, inb sh i ->
      let cell := w 0%nat (coord i 0) * w 1%nat (coord i 1) * w 2%nat (coord i 2) in
      let work n e := delta_energy_j (K := RF) (fun c i => - (dt * J n c i)) e (Some (w, w)) i in
      let EJ k := sumN (K := CC) 3 (fun c => cmul (Ef k c i) (cconj (Jf k c i))) in
      sumN (K := RF) N (fun n => (work n (pE_ (st n)) + work n (pE_ (st (n + 1)%nat))) / 2)
      = sumN (K := RF) N (fun k => - (dt / INR N * cos (om k * dt / 2) * cre (EJ k) * cell)).
Proof.
  intros sh Lr w dt eps mu J s N HL Hdt Fit Hw He Hm HN st Hp om Ef Hf Jf.
  assert (NP : 0 < INR N) by (apply lt_0_INR; lia). split.
  - intros k K0 K1. apply (C184_periodic sh Lr w dt (om k) eps mu J s N (Z.of_nat k) HL Hdt); try assumption.
    + replace (om k * dt) with (PI * (2 * INR k / INR N)) by (unfold om; field; lra).
      assert (P : 0 < INR k) by (apply lt_0_INR; lia).
      assert (Q : 2 * INR k < INR N) by (apply lt_INR in K1; rewrite mult_INR in K1; exact K1).
      assert (X : 0 < 2 * INR k / INR N < 1).
      { split; [apply Rdiv_lt_0_compat; lra|]. apply (Rmult_lt_reg_r (INR N)); [exact NP|]. unfold Rdiv. rewrite Rmult_assoc, Rinv_l by lra. lra. }
      pose proof PI_RGT_0. split; nra.
    + unfold om. rewrite <- INR_IZR_INZ. field. lra.
  - intros i Hi cell work EJ.
    refine (work_cell sh w w dt J (fun n => pE_ (st n)) N i HN _ (fun c Hc => proj1 Hp c i Hc Hi) Hi). lra.
Qed.
Print Assumptions C185_layers.

(** Two cells whose sources pass energy from one to the other: over the three steps after which
    the run repeats, the source of the first cell does work 1 and that of the second does - 1. *)
Definition tx_sh : list nat := [2; 1; 1]%nat.
Definition tx_one : field RF := fun _ _ => 1.
Definition tx_w : widths RF := fun _ _ => 1.
Definition tx_f (a : nat) (u v : R) : field RF := fun c i => if Nat.eqb c a then (if Nat.eqb (coord i 0) 0 then u else v) else 0.
Definition tx_J : nat -> field RF := fun n => match n with O => tx_f 2 (-1) 1 | 1%nat => tx_f 2 1 2 | _ => tx_f 2 (-2) (-1) end.
Definition tx_0 : state RF := mkst (tx_f 2 1 0) (tx_f 1 0 0).
Lemma tx_step j u v h p q x y st : u + 2 * (h + v - u) + p = x -> v - 2 * (h + v - u) + q = y ->
  (forall c i, j c i = - (1 * tx_f 2 (- p) (- q) c i)) ->
  seq_st (K := RF) tx_sh st (mkst (tx_f 2 u v) (tx_f 1 h (- h))) ->
  seq_st (K := RF) tx_sh (step (K := RF) tx_sh 1 (Some (tx_w, tx_w)) tx_one None j st) (mkst (tx_f 2 x y) (tx_f 1 (h + v - u) (- (h + v - u)))).
Proof.
  intros Hx Hy Hj Hs. pose proof (step_ext RF tx_sh 1 (Some (tx_w, tx_w)) tx_one None j _ _ eq_refl Hs) as [X Y].
  assert (CS : forall c i, (c < 3)%nat -> inb tx_sh i -> (c = 0 \/ c = 1 \/ c = 2)%nat /\ (i = [0; 0; 0] \/ i = [1; 0; 0])%nat).
  { intros c i Hc Hi. split; [lia|]. unfold inb, tx_sh in Hi. inversion Hi as [|a ? i1 ? Ha H1]; subst. inversion H1 as [|b ? i2 ? Hb H2]; subst. inversion H2 as [|e ? i3 ? He H3]; subst. inversion H3; subst.
    assert (b = 0%nat) by lia. assert (e = 0%nat) by lia. subst. destruct a as [|[|a]]; [left|right|lia]; reflexivity. }
  split; intros c i Hc Hi; [rewrite (X c i Hc Hi)|rewrite (Y c i Hc Hi)]; destruct (CS c i Hc Hi) as [[->|[->| ->]] [-> | ->]];
    cbn [step sE sH]; unfold maxwell_e, maxwell_h, curl_back, curl_forward, curl_with, deriv_back, deriv_forward, roll; rewrite ?Hj; unfold tx_f, tx_w, tx_one; match goal with |- ?x = ?y => change (@eq R x y) end; cbn; change (Pos.to_nat 1) with 1%nat; cbn; change (Pos.to_nat 1) with 1%nat; cbn; try rewrite <- Hx; try rewrite <- Hy; field.
Qed.
Example C185_example :
  let st n := run (K := RF) tx_sh 1 (Some (tx_w, tx_w)) tx_one None (map (fun n c i => - (1 * tx_J n c i)) (seq 0 n)) tx_0 in
  let work n e i := delta_energy_j (K := RF) (fun c i => - (1 * tx_J n c i)) e (Some (tx_w, tx_w)) i in
  let total i := sumN (K := RF) 3 (fun n => (work n (sE (st n)) i + work n (sE (st (n + 1)%nat)) i) / 2) in
  seq_st (K := RF) tx_sh (st 3%nat) tx_0 /\ total [0; 0; 0]%nat = 1 /\ total [1; 0; 0]%nat = -1.
Proof.
  intros st work total.
  assert (T : forall n, st (S n) = step (K := RF) tx_sh 1 (Some (tx_w, tx_w)) tx_one None (fun c i => - (1 * tx_J n c i)) (st n)) by (intro n; unfold st; rewrite seq_S, map_app; unfold run; rewrite fold_left_app; reflexivity).
  assert (Z0 : seq_st (K := RF) tx_sh (st 0%nat) (mkst (tx_f 2 1 0) (tx_f 1 0 (- 0)))).
  { split; intros c i _ _; unfold st, tx_0; cbn [sE sH]; [reflexivity|]. change (tx_f 1 0 0 c i = tx_f 1 0 (- 0) c i). now rewrite Ropp_0. }
  assert (TJ : forall n p q, tx_J n = tx_f 2 (- p) (- q) -> forall c i, - (1 * tx_J n c i) = - (1 * tx_f 2 (- p) (- q) c i)) by (intros n p q W c i; now rewrite W).
  assert (F : forall a (u v x y : R), u = x -> v = y -> tx_f a u v = tx_f a x y) by (intros; now subst).
  assert (Z1 : seq_st (K := RF) tx_sh (st 1%nat) (mkst (tx_f 2 0 1) (tx_f 1 (-1) (- -1)))).
  { rewrite T. replace (-1) with (0 + 0 - 1) by lra. apply (tx_step _ 1 0 0 1 (-1)); [lra|lra|apply TJ; apply F; lra|exact Z0]. }
  assert (Z2 : seq_st (K := RF) tx_sh (st 2%nat) (mkst (tx_f 2 (-1) (-1)) (tx_f 1 0 (- 0)))).
  { rewrite T. replace 0 with (-1 + 1 - 0) at 1 2 by lra. apply (tx_step _ 0 1 (-1) (-1) (-2)); [lra|lra|apply TJ; apply F; lra|exact Z1]. }
  assert (Z3 : seq_st (K := RF) tx_sh (st 3%nat) (mkst (tx_f 2 1 0) (tx_f 1 0 (- 0)))).
  { rewrite T. replace (tx_f 1 0 (- 0)) with (tx_f 1 (0 + -1 - -1) (- (0 + -1 - -1))) by (apply F; lra). apply (tx_step _ (-1) (-1) 0 2 1); [lra|lra|apply TJ; apply F; lra|exact Z2]. }
  split; [|split].
  - destruct Z3 as [A B]. split; [exact A|]. intros c i Hc Hi. rewrite (B c i Hc Hi). cbn [sH tx_0]. now rewrite Ropp_0.
  - assert (I0 : inb tx_sh [0; 0; 0]%nat) by (repeat constructor).
    unfold total. cbn [sumN Nat.add]. unfold work, delta_energy_j, sum_axis0, wat, tx_w. cbn [option_map fst].
    rewrite !(fun c Hc => proj1 Z0 c _ Hc I0), !(fun c Hc => proj1 Z1 c _ Hc I0), !(fun c Hc => proj1 Z2 c _ Hc I0), !(fun c Hc => proj1 Z3 c _ Hc I0) by lia.
    match goal with |- ?x = ?y => change (@eq R x y) end. cbn. field.
  - assert (I0 : inb tx_sh [1; 0; 0]%nat) by (repeat constructor).
    unfold total. cbn [sumN Nat.add]. unfold work, delta_energy_j, sum_axis0, wat, tx_w. cbn [option_map fst].
    rewrite !(fun c Hc => proj1 Z0 c _ Hc I0), !(fun c Hc => proj1 Z1 c _ Hc I0), !(fun c Hc => proj1 Z2 c _ Hc I0), !(fun c Hc => proj1 Z3 c _ Hc I0) by lia.
    match goal with |- ?x = ?y => change (@eq R x y) end. cbn. field.
Qed.

(** ** Each frequency of a periodic run balances its own power (C186) *)
(** At every cell and frequency, what flows out is the work of the current at that frequency. *)
Theorem C186_each_frequency :
  forall (sh : list nat) (we wh : widths RF) (dt : R) (eps : field RF) (mu : option (field RF)) (J : nat -> field RF) (s : state RF) (N : nat),
    length sh = 3%nat -> nzw (K := RF) sh we -> nzw (K := RF) sh wh -> dt <> 0 -> nzm (K := RF) sh eps -> nzm_opt (K := RF) sh mu -> (0 < N)%nat ->
    let st n := run (K := RF) sh dt (Some (we, wh)) eps mu (map (fun n c i => - (dt * J n c i)) (seq 0 n)) s in
    seq_st (K := RF) sh (st N) s ->
    let om k := 2 * PI * INR k / (INR N * dt) in
    let Ef k := fourier (om k) N (fun n => INR n * dt) (fun n => sE (st n)) in
    let Hf k := fourier (om k) N (fun n => (INR n + / 2) * dt) (fun n => sH (st (S n))) in
    let Jf k := fourier (om k) N (fun n => (INR n + / 2) * dt) J in
    forall k,
      (forall i, inb sh i ->
        cre (outflow (K := CC) sh (poynting_e_cross_h_f (K := CC) sh (cw we, cw wh) (Ef k) (cjf (K := CC) (Hf k))) i)
        = - sumN (K := RF) 3 (fun c => vol_e (K := RF) we wh c i * cre (cmul (Ef k c i) (cconj (Jf k c i))))) /\
      sumN (K := RF) 3 (fun c => gsum (K := RF) sh (fun i => vol_e (K := RF) we wh c i * cre (cmul (Ef k c i) (cconj (Jf k c i))))) = 0.
Proof.
  intros sh we wh dt eps mu J s N HL He Hh Hdt Heps Hmu HN st Hp om Ef Hf Jf k.
  pose proof (proj1 (C185_work_spectrum sh we wh dt eps mu J s N HL He Hh Hdt Heps Hmu HN Hp) k) as Sv.
  change (solves sh we wh dt (om k) eps mu (Ef k) (Hf k) (Jf k)) in Sv. clearbody Ef Hf Jf.
  assert (Z : feq (K := CC) sh (snd (eh_full_f (K := CC) sh (mkC (2 * sin (om k * dt / 2) / dt) 0) (cw we, cw wh) (cf eps) (option_map cf mu) (Ef k) (Hf k))) (fun c k => copp (noj (K := CC) c k))).
  { intros c i Hc Hi. refine (eq_trans (proj2 Sv c i Hc Hi) _). apply cpx_ext; cbn; ring. }
  assert (Mi : forall c i, cim (matl (K := CC) (option_map cf mu) c i) = 0) by (intros c i; destruct mu; reflexivity).
  split.
  - intros i Hi. pose proof (C117_power_balance sh we wh (2 * sin (om k * dt / 2) / dt) (cf eps) (option_map cf mu) (Ef k) (Hf k) (Jf k) (noj (K := CC)) i HL He Hh Hi (proj1 Sv) Z) as B.
    refine (eq_trans B _). unfold csum. rewrite !Mi. unfold noj, cf. cbn [sumN]. set (o := 2 * _ / dt). clearbody o.
    set (x0 := cre (cmul (Ef k 0%nat i) _)). set (x1 := cre (cmul (Ef k 1%nat i) _)). set (x2 := cre (cmul (Ef k 2%nat i) _)). clearbody x0 x1 x2.
    match goal with |- ?x = ?y => change (@eq R x y) end. cbn. ring.
  - pose proof (C117_total_power sh we wh (2 * sin (om k * dt / 2) / dt) (cf eps) (option_map cf mu) (Ef k) (Hf k) (Jf k) (noj (K := CC)) HL He Hh (proj1 Sv) Z) as B.
    assert (Q : forall f : field RF, (forall c i, f c i = 0) -> fsum (K := RF) sh f = 0).
    { intros f F. unfold fsum. rewrite !(gsum_zero RF sh) by (intros; apply F). match goal with |- ?x = ?y => change (@eq R x y) end. cbn. ring. }
    rewrite (Q (fun c i => vol_h (K := RF) we wh c i * cre (cmul (noj (K := CC) c i) (cconj (Hf k c i))))) in B by (intros; unfold noj; match goal with |- ?x = ?y => change (@eq R x y) end; cbn; ring).
    rewrite (Q (fun c i => vol_e (K := RF) we wh c i * (cim (cf eps c i) * cnrm (Ef k c i)))) in B by (intros; unfold cf; match goal with |- ?x = ?y => change (@eq R x y) end; cbn; ring).
    rewrite (Q (fun c i => vol_h (K := RF) we wh c i * (cim (matl (K := CC) (option_map cf mu) c i) * cnrm (Hf k c i)))) in B by (intros; rewrite Mi; match goal with |- ?x = ?y => change (@eq R x y) end; cbn; ring).
    unfold fsum in B. cbn [sumN]. set (x0 := gsum sh _) in *. set (x1 := gsum sh _) in *. set (x2 := gsum sh _) in *. clearbody x0 x1 x2. change R in x0, x1, x2.
    match goal with |- ?x = ?y => change (@eq R x y) end. cbn in B |- *. lra.
Qed.
Print Assumptions C186_each_frequency.

(** A source that is one component of the current at one cell: at every frequency of the run its
    field is in quadrature with it. *)
Theorem C186_point_source :
  forall (sh : list nat) (we wh : widths RF) (dt : R) (eps : field RF) (mu : option (field RF)) (J : nat -> field RF) (s : state RF) (N : nat) (c0' : nat) (i0 : list nat),
    length sh = 3%nat -> nzw (K := RF) sh we -> nzw (K := RF) sh wh -> dt <> 0 -> nzm (K := RF) sh eps -> nzm_opt (K := RF) sh mu -> (0 < N)%nat ->
    (c0' < 3)%nat -> inb sh i0 -> (forall n c i, (c < 3)%nat -> inb sh i -> (c <> c0' \/ i <> i0) -> J n c i = 0) ->
    let st n := run (K := RF) sh dt (Some (we, wh)) eps mu (map (fun n c i => - (dt * J n c i)) (seq 0 n)) s in
    seq_st (K := RF) sh (st N) s ->
    forall k, let om := 2 * PI * INR k / (INR N * dt) in
      cre (cmul (fourier om N (fun n => INR n * dt) (fun n => sE (st n)) c0' i0) (cconj (fourier om N (fun n => (INR n + / 2) * dt) J c0' i0))) = 0.
Proof.
  intros sh we wh dt eps mu J s N c0' i0 HL He Hh Hdt Heps Hmu HN Hc0 Hi0 HJ st Hp k om.
  pose proof (proj2 (C186_each_frequency sh we wh dt eps mu J s N HL He Hh Hdt Heps Hmu HN Hp k)) as B.
  set (Ef := fourier om N (fun n => INR n * dt) (fun n => sE (st n))) in *. set (Jf := fourier om N (fun n => (INR n + / 2) * dt) J) in *.
  change (sumN (K := RF) 3 (fun c => gsum (K := RF) sh (fun i => vol_e (K := RF) we wh c i * cre (cmul (Ef c i) (cconj (Jf c i))))) = 0) in B.
  assert (Z : forall c i, (c < 3)%nat -> inb sh i -> (c <> c0' \/ i <> i0) -> Jf c i = c0).
  { intros c i Hc Hi D. unfold Jf, fourier. apply (sumN_zero CC). intros n _. rewrite (HJ n c i Hc Hi D). apply cpx_ext; cbn; ring. }
  assert (T : forall c i, (c < 3)%nat -> inb sh i -> (c <> c0' \/ i <> i0) -> vol_e (K := RF) we wh c i * cre (cmul (Ef c i) (cconj (Jf c i))) = 0).
  { intros c i Hc Hi D. rewrite (Z c i Hc Hi D). match goal with |- ?x = ?y => change (@eq R x y) end. cbn. ring. }
  assert (G : forall c, (c < 3)%nat -> gsum (K := RF) sh (fun i => vol_e (K := RF) we wh c i * cre (cmul (Ef c i) (cconj (Jf c i)))) = if Nat.eqb c c0' then vol_e (K := RF) we wh c0' i0 * cre (cmul (Ef c0' i0) (cconj (Jf c0' i0))) else 0).
  { intros c Hc. destruct (Nat.eqb_spec c c0') as [->|D].
    - apply (gsum_single RF sh i0 (fun i => vol_e (K := RF) we wh c0' i * cre (cmul (Ef c0' i) (cconj (Jf c0' i)))) Hi0). intros i Hi D. apply T; [exact Hc|exact Hi|now right].
    - apply (gsum_zero RF sh). intros i Hi. apply T; [exact Hc|exact Hi|now left]. }
  rewrite (sumN_single RF 3 _ c0' Hc0) in B.
  - rewrite (G c0' Hc0), Nat.eqb_refl in B. assert (V : vol_e (K := RF) we wh c0' i0 <> 0) by (apply (vol_e_nz RF sh HL); assumption).
    apply Rmult_integral in B. destruct B as [B|B]; [contradiction|exact B].
  - intros c Hc D. rewrite (G c Hc). destruct (Nat.eqb_spec c c0'); [contradiction|reflexivity].
Qed.
Print Assumptions C186_point_source.
(** In the run of [C185_example] a frequency carries energy from the first cell to the second. *)
Example C186_example :
  let st n := run (K := RF) tx_sh 1 (Some (tx_w, tx_w)) tx_one None (map (fun n c i => - (1 * tx_J n c i)) (seq 0 n)) tx_0 in
  exists k, (k < 3)%nat /\
    let om := 2 * PI * INR k / (INR 3 * 1) in
    sumN (K := RF) 3 (fun c => cre (cmul (fourier om 3 (fun n => INR n * 1) (fun n => sE (st n)) c [0; 0; 0]%nat) (cconj (fourier om 3 (fun n => (INR n + / 2) * 1) tx_J c [0; 0; 0]%nat)))) <> 0.
Proof.
  intro st. destruct C185_example as (P & V & _). 
  assert (W : nzw (K := RF) tx_sh tx_w) by (intros a j _ _; exact R1_neq_R0). assert (M : nzm (K := RF) tx_sh tx_one) by (intros a j _ _; exact R1_neq_R0).
  assert (I0 : inb tx_sh [0; 0; 0]%nat) by (repeat constructor).
  pose proof (proj2 (C185_work_spectrum tx_sh tx_w tx_w 1 tx_one None tx_J tx_0 3 eq_refl W W R1_neq_R0 M Coq.Init.Logic.I ltac:(lia) P) [0; 0; 0]%nat I0) as Q.
  assert (Q' := eq_trans (eq_sym V) Q). clear V Q. cbv zeta beta in Q'.
  set (X := fun k => sumN (K := RF) 3 (fun c => cre (cmul (fourier (2 * PI * INR k / (INR 3 * 1)) 3 (fun n => INR n * 1) (fun n => sE (st n)) c [0; 0; 0]%nat) (cconj (fourier (2 * PI * INR k / (INR 3 * 1)) 3 (fun n => (INR n + / 2) * 1) tx_J c [0; 0; 0]%nat))))).
  destruct (Req_dec (X 0%nat) 0) as [X0|X0]; [|exists 0%nat; split; [lia|exact X0]].
  destruct (Req_dec (X 1%nat) 0) as [X1|X1]; [|exists 1%nat; split; [lia|exact X1]].
  destruct (Req_dec (X 2%nat) 0) as [X2|X2]; [|exists 2%nat; split; [lia|exact X2]].
  exfalso. apply R1_neq_R0. refine (eq_trans Q' _). apply (sumN_zero RF). intros k Hk.
  assert (XK : X k = 0) by (destruct k as [|[|[|k]]]; [exact X0|exact X1|exact X2|lia]). 
  match goal with |- context [cre (sumN 3 ?f)] => assert (CZ : cre (sumN (K := CC) 3 f) = 0) by exact (eq_trans (cre_sumN 3 f) XK); set (z := cre (sumN (K := CC) 3 f)) in * end.
  clearbody z. rewrite CZ. match goal with |- ?x = ?y => change (@eq R x y) end. cbn. ring.
Qed.
