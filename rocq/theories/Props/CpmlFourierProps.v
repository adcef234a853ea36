(** The Fourier sums of FDTD runs with CPML layers are frequency-domain fields on the
    stretched grid (C184). *)
From Coq Require Import Reals List Arith ZArith Lia Lra Field Bool.
From Verif.Lib Require Import Num Sums Idx RealF Cexp Dft.
From Verif.Model Require Import Fdmath Fdtd Fdfd Pml.
From Verif.Spec Require Import Yee FdtdRun FdfdSpec HarmonicSpec BlochSpec CpmlSpec CpmlHarmonicSpec.
From Verif.Proofs Require Import FdmathP FdmathP2 FdtdP FdtdP2 FdfdP FarP HarmonicP PmlP CpmlHarmP CpmlHarmP2 CpmlLinP CpmlRealP.
From Verif.Props Require Import HarmonicProps MeanProps FourierProps CpmlHarmonicProps.
Import ListNotations.

Section A.
  Variable K : CFld.
  Add Field Kfield : (fth K).
  Local Open Scope fld_scope.
  Variables (sh : list nat) (Ls : nat -> nat -> option (layer K)) (dt om z : K) (w : widths K) (eps mu : field K) (J : nat -> field K) (s : pstate K).
  Hypothesis HL : length sh = 3%nat.
  Let v := 1 / z.
  Let j n : field K := fun c i => - (dt * J n c i).
  Let st n := cpml_run sh Ls dt w eps mu (map j (seq 0 n)) s.
  Lemma pst_S n : st (S n) = cpml_step sh Ls dt w eps mu (j n) (st n).
  Proof. unfold st. rewrite seq_S, map_app. unfold cpml_run. rewrite fold_left_app. reflexivity. Qed.
  (** Sum of the first [N] of a sequence of states. *)
  Definition psum (a : nat -> K) (x : nat -> pstate K) (N : nat) : pstate K :=
    mkps (fun c i => sumN N (fun n => a n * pE_ (x n) c i)) (fun c i => sumN N (fun n => a n * pH_ (x n) c i))
         (fun q p t i => sumN N (fun n => a n * psE (x n) q p t i)) (fun q p t i => sumN N (fun n => a n * psH (x n) q p t i)).
  Let a n := zpow v (2 * n).
  Lemma step_sum N i0 : inb sh i0 ->
    lst K sh 0 0 i0 1 0 (cpml_step sh Ls dt w eps mu (fun c i => sumN N (fun n => a n * j n c i)) (psum a st N)) (psum a (fun n => st (S n)) N) (psum a (fun n => st (S n)) N).
  Proof.
    intro Hi. induction N as [|N IH].
    - assert (Q : lst K sh 0 0 i0 0 0 (cpml_step sh Ls dt w eps mu (fun c i => sumN 0 (fun n => a n * j n c i)) (psum a st 0)) (cpml_step sh Ls dt w eps mu noj s) (cpml_step sh Ls dt w eps mu noj s)).
      { apply step_box; [exact HL|exact Hi| |].
        - split; [|split; [|split]]; repeat intro; cbn; ring.
        - intros c i _ _. cbn. ring. }
      destruct Q as (E & H & P & Q). split; [|split; [|split]]; [intros c i H0 H1|intros c i H0 H1|intros x p t i H0 H1|intros x p t i H0 H1].
      + refine (eq_trans (E c i H0 H1) _). cbn. ring.
      + refine (eq_trans (H c i H0 H1) _). cbn. ring.
      + refine (eq_trans (P x p t i H0 H1) _). cbn. ring.
      + refine (eq_trans (Q x p t i H0 H1) _). cbn. ring.
    - assert (Q : lst K sh 0 0 i0 1 (a N) (cpml_step sh Ls dt w eps mu (fun c i => sumN (S N) (fun n => a n * j n c i)) (psum a st (S N))) (cpml_step sh Ls dt w eps mu (fun c i => sumN N (fun n => a n * j n c i)) (psum a st N)) (cpml_step sh Ls dt w eps mu (j N) (st N))).
      { apply step_box; [exact HL|exact Hi| |].
        - split; [|split; [|split]]; repeat intro; cbn [psum pE_ pH_ psE psH sumN]; ring.
        - intros c i _ _. cbn [sumN]. ring. }
      rewrite <- pst_S in Q. destruct IH as (E & H & P & T), Q as (E' & H' & P' & T'). split; [|split; [|split]]; [intros c i H0 H1|intros c i H0 H1|intros x p t i H0 H1|intros x p t i H0 H1].
      + rewrite (E' c i H0 H1), (E c i H0 H1). cbn [psum pE_ sumN]. ring.
      + rewrite (H' c i H0 H1), (H c i H0 H1). cbn [psum pH_ sumN]. ring.
      + rewrite (P' x p t i H0 H1), (P x p t i H0 H1). cbn [psum psE sumN]. ring.
      + rewrite (T' x p t i H0 H1), (T x p t i H0 H1). cbn [psum psH sumN]. ring.
  Qed.
  Hypothesis Hdt : dt <> 0.
  Hypothesis Hz : z <> 0.
  Hypothesis Hw : nzw sh w.
  Hypothesis Heps : nzm sh eps.
  Hypothesis Hmu : nzm sh mu.
  Hypothesis Ho : im * om * dt = z - 1 / z.
  Hypothesis RE : regular sh Ls lp0e lp1e lp2e (z * z).
  Hypothesis RH : regular sh Ls lp0h lp1h lp2h (z * z).
  Variable N : nat.
  Hypothesis Rep : peq sh Ls (st N) (times (zpow z (2 * N)) s).

  Lemma v_pow n : zpow v n * zpow z n = 1.
  Proof. induction n as [|n IH]; cbn [zpow]; [ring|]. transitivity ((z * v) * (zpow v n * zpow z n)); [ring|]. rewrite IH. unfold v. field. exact Hz. Qed.
  (** Summation by parts. *)
  Lemma tele (f : nat -> K) : f N = zpow z (2 * N) * f 0%nat -> sumN N (fun n => a n * f (S n)) = z * z * sumN N (fun n => a n * f n).
  Proof.
    intro F. assert (G : forall m, sumN m (fun n => a n * f (S n)) = z * z * (sumN m (fun n => a n * f n) - f 0%nat + a m * f m)).
    { induction m as [|m IH]; cbn [sumN]; [unfold a; cbn [Nat.mul Nat.add zpow]; ring|]. rewrite IH.
      assert (A1 : z * z * a (S m) = a m). { unfold a. rewrite zpow_SS. transitivity ((z * v) * (z * v) * zpow v (2 * m)); [ring|]. unfold v. field. exact Hz. }
      transitivity (z * z * (sumN m (fun n => a n * f n) - f 0%nat + a m * f m) + z * z * a (S m) * f (S m)); [rewrite A1; reflexivity|ring]. }
    rewrite G, F. transitivity (z * z * (sumN N (fun n => a n * f n) - f 0%nat + zpow v (2 * N) * zpow z (2 * N) * f 0%nat)); [unfold a; ring|]. rewrite v_pow. ring.
  Qed.
  Lemma rep_solves :
    let E := fun c i => sumN N (fun n => zpow v (2 * n) * pE_ (st n) c i) in
    let H := fun c i => sumN N (fun n => zpow v (2 * n + 1) * pH_ (st (S n)) c i) in
    let Jw := fun c i => sumN N (fun n => zpow v (2 * n + 1) * J n c i) in
    let d := (effective sh Ls lp0h lp1h lp2h (z * z) w, effective sh Ls lp0e lp1e lp2e (z * z) w) in
    feq sh (fst (eh_full_f sh om d eps (Some mu) E H)) Jw /\ feq sh (snd (eh_full_f sh om d eps (Some mu) E H)) noj.
  Proof.
    intros E H Jw d. destruct Rep as [PE [PH PM]].
    assert (V1 : forall n, z * zpow v (2 * n + 1) = a n). { intro n. rewrite Nat.add_1_r. cbn [zpow]. unfold a. transitivity ((z * v) * zpow v (2 * n)); [cbn; ring|]. unfold v. field. exact Hz. }
    assert (Vv : forall n, zpow v (2 * n + 1) = v * a n). { intro n. rewrite Nat.add_1_r. reflexivity. }
    assert (HH : forall c i, (c < 3)%nat -> inb sh i -> 1 / z * H c i = sumN N (fun n => a n * pH_ (st n) c i)).
    { intros c i Hc Hi. unfold H. pose proof (tele (fun n => pH_ (st n) c i) (PH c i Hc Hi)) as T. cbv beta in T.
      transitivity (1 / z * (v * sumN N (fun n => a n * pH_ (st (S n)) c i))).
      - f_equal. rewrite <- sumN_mul_l. apply sumN_ext. intros n _. rewrite Vv. ring.
      - rewrite T. unfold v. field. exact Hz. }
    set (sg := mkps E (fun c i => 1 / z * H c i) (psE (psum a st N)) (psH (psum a st N))).
    refine (from_run K sh Ls dt om z w eps mu E H Jw HL Hz Hw Heps Hmu Ho RE RH (psE (psum a st N)) (psH (psum a st N)) Hdt _).
    change (start K z E H (psE (psum a st N)) (psH (psum a st N))) with sg.
    (* the sum is repeated after one step, up to z * z *)
    assert (B : forall i0, inb sh i0 -> lst K sh 0 0 i0 1 0 (cpml_step sh Ls dt w eps mu (injected dt z Jw 0) sg) (psum a (fun n => st (S n)) N) (psum a (fun n => st (S n)) N)).
    { intros i0 Hi0.
      assert (Q : lst K sh 0 0 i0 1 0 (cpml_step sh Ls dt w eps mu (injected dt z Jw 0) sg) (cpml_step sh Ls dt w eps mu (fun c i => sumN N (fun n => a n * j n c i)) (psum a st N)) (cpml_step sh Ls dt w eps mu noj s)).
      { apply step_box; [exact HL|exact Hi0| |].
        - split; [|split; [|split]].
          + intros c i Hc Hb. cbn [sg psum pE_]. unfold E, a. ring.
          + intros c i Hc Hb. cbn [sg psum pH_]. rewrite HH; [ring|exact Hc|]. exact (wbox_inb _ _ _ _ _ Hi0 Hb).
          + intros q p t i Hq Hb. cbn [sg psE]. ring.
          + intros q p t i Hq Hb. cbn [sg psH]. ring.
        - intros c i Hc Hb. unfold injected, Jw, j. cbn [Nat.mul zpow]. transitivity (- dt * (z * sumN N (fun n => zpow v (2 * n + 1) * J n c i))); [cbn; ring|].
          rewrite <- sumN_mul_l, <- sumN_mul_l. transitivity (sumN N (fun n => a n * - (dt * J n c i))); [|cbn; ring]. apply sumN_ext. intros n _. rewrite <- V1. ring. }
      destruct (step_sum N i0 Hi0) as (E1 & H1 & P1 & T1), Q as (E2 & H2 & P2 & T2). split; [|split; [|split]]; repeat intro.
      + rewrite E2, E1 by assumption. ring.
      + rewrite H2, H1 by assumption. ring.
      + rewrite P2, P1 by assumption. ring.
      + rewrite T2, T1 by assumption. ring. }
    assert (Z2 : forall y : K, zpow z (2 * 1) * y = z * z * y) by (intro y; cbn [Nat.mul Nat.add zpow]; ring).
    split; [|split].
    - intros c i Hc Hi. destruct (B i Hi) as (E1 & _). rewrite (E1 c i Hc (wbox_refl sh 0 0 i Hi ltac:(lia))). cbn [psum pE_ times]. rewrite Z2.
      rewrite (tele (fun n => pE_ (st n) c i) (PE c i Hc Hi)). cbn [sg pE_]. unfold E, a. ring.
    - intros c i Hc Hi. destruct (B i Hi) as (_ & E1 & _). rewrite (E1 c i Hc (wbox_refl sh 0 0 i Hi ltac:(lia))). cbn [psum pH_ times]. rewrite Z2.
      rewrite (tele (fun n => pH_ (st n) c i) (PH c i Hc Hi)). cbn [sg pH_]. rewrite HH by assumption. ring.
    - intros q p t i Hq Hp Ht Hi Hh. destruct (PM q p t i Hq Hp Ht Hi Hh) as [M1 M2]. destruct (B i Hi) as (_ & _ & E1 & E2). cbn [times psE psH] in *. split.
      + rewrite (E1 q p t i Hq (wbox_refl sh 0 0 i Hi ltac:(lia))). cbn [psum psE]. rewrite Z2, (tele (fun n => psE (st n) q p t i) M1). cbn [sg psE psum]. ring.
      + rewrite (E2 q p t i Hq (wbox_refl sh 0 0 i Hi ltac:(lia))). cbn [psum psH]. rewrite Z2, (tele (fun n => psH (st n) q p t i) M2). cbn [sg psH psum]. ring.
  Qed.
End A.

(** ** Real runs as complex runs *)
Local Open Scope R_scope.
Notation cr := (fun x : R => mkC x 0).
Definition cps (s : pstate RF) : pstate CC :=
  mkps (K := CC) (cf (pE_ s)) (cf (pH_ s)) (fun a p k i => mkC (psE s a p k i) 0) (fun a p k i => mkC (psH s a p k i) 0).
Section Emb.
  Variables (sh : list nat) (Lr : nat -> nat -> option (layer RF)).
  Hypothesis HL : length sh = 3%nat.
  Let Ls := fun a pp => option_map clayer (Lr a pp).
  Lemma here_c a pp i : here (K := CC) sh Ls a pp i = option_map clayer (here (K := RF) sh Lr a pp i).
  Proof. unfold here, Ls. destruct (Lr a pp) as [L|]; [|reflexivity]. cbn [option_map]. change (lth (clayer L)) with (lth L). destruct (inside sh a pp (lth L) i); reflexivity. Qed.
  Section Core.
    Variables (p0 p1 p2 : layer RF -> nat -> RF) (q0 q1 q2 : layer CC -> nat -> CC).
    Hypothesis H0 : forall L i, q0 (clayer L) i = mkC (p0 L i) 0.
    Hypothesis H1 : forall L i, q1 (clayer L) i = mkC (p1 L i) 0.
    Hypothesis H2 : forall L i, q2 (clayer L) i = mkC (p2 L i) 0.
    Lemma kfac_c a pp i : kfac (K := CC) sh Ls q2 a pp i = mkC (kfac (K := RF) sh Lr p2 a pp i) 0.
    Proof. unfold kfac. rewrite here_c. destruct (here (K := RF) sh Lr a pp i) as [L|]; [|reflexivity]. cbn [option_map]. apply H2. Qed.
    Lemma mulc x y : cmul (mkC x 0) (mkC y 0) = mkC (x * y) 0. Proof. apply cpx_ext; cbn; ring. Qed.
    Lemma addc x y : cadd (mkC x 0) (mkC y 0) = mkC (x + y) 0. Proof. apply cpx_ext; cbn; ring. Qed.
    Lemma subc x y : csub (mkC x 0) (mkC y 0) = mkC (x - y) 0. Proof. apply cpx_ext; cbn; ring. Qed.
    Lemma scale_c a pp i : scale_at (K := CC) sh Ls q2 a pp i = mkC (scale_at (K := RF) sh Lr p2 a pp i) 0.
    Proof. unfold scale_at. destruct pp; rewrite !kfac_c; [reflexivity|apply mulc]. Qed.
    Variables (D : nat -> nat -> arr RF) (D' : nat -> nat -> arr CC) (ps : psis RF) (ps' : psis CC) (i : list nat).
    Hypothesis HD : forall a c, (a < 3)%nat -> (c < 3)%nat -> D' a c i = mkC (D a c i) 0.
    Hypothesis HP : forall a pp k, (a < 3)%nat -> (pp < 2)%nat -> (k < 2)%nat -> here (K := CC) sh Ls a pp i <> None -> ps' a pp k i = mkC (ps a pp k i) 0.
    Lemma psi_c a pp k : (a < 3)%nat -> (pp < 2)%nat -> (k < 2)%nat -> here (K := CC) sh Ls a pp i <> None ->
      fst (core CC sh Ls q0 q1 q2 D' ps') a pp k i = mkC (fst (core RF sh Lr p0 p1 p2 D ps) a pp k i) 0.
    Proof.
      intros Ha Hp Hk Hh. rewrite (core_psi CC), (core_psi RF) by assumption. pose proof (HP a pp k Ha Hp Hk Hh) as X. unfold psi_next. rewrite X, here_c in *.
      destruct (here (K := RF) sh Lr a pp i) as [L|]; [|destruct (Hh eq_refl)]. cbn [option_map]. change (lth (clayer L)) with (lth L). cbv zeta.
      rewrite H0, H1, scale_c, HD; [|exact Ha|unfold slotc; destruct a as [|[|[|a]]]; destruct k as [|k]; lia].
      cbn [fadd fmul CC RF]. change (@fmul CC) with cmul. change (@fadd CC) with cadd. rewrite !mulc, !addc. reflexivity.
    Qed.
    Lemma T_c a c : (a < 3)%nat -> (c < 3)%nat -> T CC sh Ls q0 q1 q2 D' ps' a c i = mkC (T RF sh Lr p0 p1 p2 D ps a c i) 0.
    Proof.
      intros Ha Hc. unfold T.
      assert (S2 : (slot_of a c < 2)%nat) by (destruct a as [|[|[|a]]]; try lia; destruct c as [|[|[|c]]]; try lia; cbn; lia).
      assert (M : forall pp, (pp < 2)%nat -> memv CC sh Ls a pp i (fst (core CC sh Ls q0 q1 q2 D' ps') a pp (slot_of a c) i) = mkC (memv RF sh Lr a pp i (fst (core RF sh Lr p0 p1 p2 D ps) a pp (slot_of a c) i)) 0).
      { intros pp Hp. unfold memv. destruct (here (K := CC) sh Ls a pp i) eqn:Eh.
        - rewrite psi_c; try assumption; [|congruence]. rewrite here_c in Eh. destruct (here (K := RF) sh Lr a pp i); [reflexivity|discriminate].
        - rewrite here_c in Eh. destruct (here (K := RF) sh Lr a pp i); [discriminate|reflexivity]. }
      rewrite !M, scale_c, HD by (assumption || lia). change (@fmul CC) with cmul. change (@fadd CC) with cadd. rewrite !mulc, !addc. reflexivity.
    Qed.
    Lemma curl_c c : (c < 3)%nat -> snd (core CC sh Ls q0 q1 q2 D' ps') c i = mkC (snd (core RF sh Lr p0 p1 p2 D ps) c i) 0.
    Proof.
      intro Hc. rewrite (core_curl CC), (core_curl RF) by exact Hc. destruct c as [|[|[|c]]]; [| | |lia]; rewrite !T_c by lia; apply subc.
    Qed.
  End Core.
  Variables (dt : R) (w : widths RF) (eps mu : field RF).
  Hypothesis Hw : nzw (K := RF) sh w.
  Hypothesis Heps : nzm (K := RF) sh eps.
  Hypothesis Hmu : nzm (K := RF) sh mu.
  Lemma df_c a (f' : arr CC) (f : arr RF) i : (a < 3)%nat -> inb sh i -> (forall k, inb sh k -> f' k = mkC (f k) 0) ->
    deriv_forward (K := CC) sh (Some (cw w)) a f' i = mkC (deriv_forward (K := RF) sh (Some w) a f i) 0.
  Proof.
    intros Ha Hi Hf. unfold deriv_forward, roll. rewrite !Hf by (try apply inb_shift; (assumption || lia)). unfold cw.
    apply dreal, Hw; [lia|apply inb_coord; [exact Hi|lia]].
  Qed.
  Lemma db_c a (f' : arr CC) (f : arr RF) i : (a < 3)%nat -> inb sh i -> (forall k, inb sh k -> f' k = mkC (f k) 0) ->
    deriv_back (K := CC) sh (Some (cw w)) a f' i = mkC (deriv_back (K := RF) sh (Some w) a f i) 0.
  Proof.
    intros Ha Hi Hf. unfold deriv_back, roll. rewrite !Hf by (try apply inb_shift; (assumption || lia)). unfold cw.
    apply dreal, Hw; [lia|apply inb_coord; [exact Hi|lia]].
  Qed.
  Lemma emb_pstep j' j x s : (forall c i, j' c i = mkC (j c i) 0) -> peq (K := CC) sh Ls x (cps s) ->
    peq (K := CC) sh Ls (cpml_step (K := CC) sh Ls (mkC dt 0) (cw w) (cf eps) (cf mu) j' x) (cps (cpml_step (K := RF) sh Lr dt w eps mu j s)).
  Proof.
    intros HJ (QE & QH & QM).
    assert (DF : forall i, inb sh i -> forall a c, (a < 3)%nat -> (c < 3)%nat -> deriv_forward (K := CC) sh (Some (cw w)) a (pE_ x c) i = mkC (deriv_forward (K := RF) sh (Some w) a (pE_ s c) i) 0).
    { intros i Hi a c Ha Hc. apply df_c; [exact Ha|exact Hi|]. intros k Hk. exact (QE c k Hc Hk). }
    set (h' := snd (update_H (K := CC) sh Ls (mkC dt 0) (cw w) (psH x) (pE_ x) (pH_ x) (cf mu))).
    set (h := snd (update_H (K := RF) sh Lr dt w (psH s) (pE_ s) (pH_ s) mu)).
    assert (A : feq (K := CC) sh h' (cf h)).
    { intros c i Hc Hi. unfold h', h, cf at 1. rewrite (update_H_core CC) by exact Hc. unfold cf. rewrite (update_H_core RF) by exact Hc.
      rewrite (curl_c lp0h lp1h lp2h lp0h lp1h lp2h (fun _ _ => eq_refl) (fun _ _ => eq_refl) (fun _ _ => eq_refl) (fun a b => deriv_forward (K := RF) sh (Some w) a (pE_ s b)) _ (psH s) (psH x) i (DF i Hi)); [|intros a pp k Ha Hp Hk Hh; exact (proj2 (QM a pp k i Ha Hp Hk Hi Hh))|exact Hc].
      rewrite (QH c i Hc Hi). cbn [cps pH_]. unfold cf. set (q := snd (core RF _ _ _ _ _ _ _) c i). clearbody q. change R in q. specialize (Hmu c i Hc Hi). set (m := mu c i) in *. set (y := pH_ s c i). clearbody m y. change R in m, y.
      change (csub (mkC y 0) (cmul (cdiv (mkC dt 0) (mkC m 0)) (mkC q 0)) = mkC (y - dt / m * q) 0). unfold cdiv, cinv, cnrm. apply cpx_ext; cbn; field; exact Hmu. }
    assert (DB : forall i, inb sh i -> forall a c, (a < 3)%nat -> (c < 3)%nat -> deriv_back (K := CC) sh (Some (cw w)) a (h' c) i = mkC (deriv_back (K := RF) sh (Some w) a (h c) i) 0).
    { intros i Hi a c Ha Hc. apply db_c; [exact Ha|exact Hi|]. intros k Hk. exact (A c k Hc Hk). }
    split; [|split; [exact A|]].
    - intros c i Hc Hi. change (fadd (f := CC) (snd (update_E (K := CC) sh Ls (mkC dt 0) (cw w) (psE x) (pE_ x) h' (cf eps)) c i) (fdiv (f := CC) (j' c i) (cf eps c i)) = mkC (snd (update_E (K := RF) sh Lr dt w (psE s) (pE_ s) h eps) c i + j c i / eps c i) 0). rewrite (update_E_core CC), (update_E_core RF) by exact Hc.
      rewrite (curl_c lp0e lp1e lp2e lp0e lp1e lp2e (fun _ _ => eq_refl) (fun _ _ => eq_refl) (fun _ _ => eq_refl) (fun a b => deriv_back (K := RF) sh (Some w) a (h b)) _ (psE s) (psE x) i (DB i Hi)); [|intros a pp k Ha Hp Hk Hh; exact (proj1 (QM a pp k i Ha Hp Hk Hi Hh))|exact Hc].
      rewrite (QE c i Hc Hi), HJ. cbn [cps pE_]. unfold cf. set (q := snd (core RF _ _ _ _ _ _ _) c i). clearbody q. change R in q. specialize (Heps c i Hc Hi). set (m := eps c i) in *. set (y := pE_ s c i). set (g := j c i). clearbody m y g. change R in m, y, g.
      change (cadd (cadd (mkC y 0) (cmul (cdiv (mkC dt 0) (mkC m 0)) (mkC q 0))) (cdiv (mkC g 0) (mkC m 0)) = mkC (y + dt / m * q + g / m) 0). unfold cdiv, cinv, cnrm. apply cpx_ext; cbn; field; exact Heps.
    - intros a pp k i Ha Hp Hk Hi Hh. split.
      + change (fst (core CC sh Ls lp0e lp1e lp2e (fun a b => deriv_back (K := CC) sh (Some (cw w)) a (h' b)) (psE x)) a pp k i = mkC (fst (core RF sh Lr lp0e lp1e lp2e (fun a b => deriv_back (K := RF) sh (Some w) a (h b)) (psE s)) a pp k i) 0). apply (psi_c lp0e lp1e lp2e); try reflexivity; try assumption; [exact (DB i Hi)|intros; now apply QM].
      + change (fst (core CC sh Ls lp0h lp1h lp2h (fun a b => deriv_forward (K := CC) sh (Some (cw w)) a (pE_ x b)) (psH x)) a pp k i = mkC (fst (core RF sh Lr lp0h lp1h lp2h (fun a b => deriv_forward (K := RF) sh (Some w) a (pE_ s b)) (psH s)) a pp k i) 0). apply (psi_c lp0h lp1h lp2h); try reflexivity; try assumption; [exact (DF i Hi)|intros; now apply QM].
  Qed.
  Lemma emb_prun (j' : nat -> field CC) (j : nat -> field RF) s n : (forall n c i, j' n c i = mkC (j n c i) 0) -> peq (K := CC) sh Ls (cpml_run (K := CC) sh Ls (mkC dt 0) (cw w) (cf eps) (cf mu) (map j' (seq 0 n)) (cps s)) (cps (cpml_run (K := RF) sh Lr dt w eps mu (map j (seq 0 n)) s)).
  Proof.
    intro HJ. induction n as [|n IH]; [split; [|split]; [apply feq_refl|apply feq_refl|intros; split; reflexivity]|].
    rewrite seq_S, !map_app. unfold cpml_run. rewrite !fold_left_app. cbn [map fold_left Nat.add]. apply emb_pstep; [apply HJ|exact IH].
  Qed.
End Emb.

(** ** The Fourier sums of a run with layers *)
(** Any field, any layers: a run that repeats itself after N steps up to the factor
    z^(2N) (fields and memories).  Its sums weighted with the powers of 1/z solve the
    frequency-domain equations on the stretched grid. *)
Theorem C184_repeating :
  forall (K : CFld) (sh : list nat) (Ls : nat -> nat -> option (layer K)) (dt om z : K) (w : widths K) (eps mu : field K) (J : nat -> field K) (s : pstate K) (N : nat),
    length sh = 3%nat -> dt <> f0 -> z <> f0 -> nzw sh w -> nzm sh eps -> nzm sh mu ->
    fmul (fmul im om) dt = fsub z (fdiv f1 z) ->
    regular sh Ls lp0e lp1e lp2e (fmul z z) -> regular sh Ls lp0h lp1h lp2h (fmul z z) ->
    let st n := cpml_run sh Ls dt w eps mu (map (fun n c i => fopp (fmul dt (J n c i))) (seq 0 n)) s in
    peq sh Ls (st N) (times (zpow z (2 * N)) s) ->
    let v := fdiv f1 z in
    let E := fun c i => sumN N (fun n => fmul (zpow v (2 * n)) (pE_ (st n) c i)) in
    let H := fun c i => sumN N (fun n => fmul (zpow v (2 * n + 1)) (pH_ (st (S n)) c i)) in
    let Jw := fun c i => sumN N (fun n => fmul (zpow v (2 * n + 1)) (J n c i)) in
    let d := (effective sh Ls lp0h lp1h lp2h (fmul z z) w, effective sh Ls lp0e lp1e lp2e (fmul z z) w) in
    feq sh (fst (eh_full_f sh om d eps (Some mu) E H)) Jw /\ feq sh (snd (eh_full_f sh om d eps (Some mu) E H)) noj.
Proof.
  intros K sh Ls dt om z w eps mu J s N HL Hdt Hz Hw He Hm Ho RE RH st Rep v E H Jw d.
  exact (rep_solves K sh Ls dt om z w eps mu J s HL Hdt Hz Hw He Hm Ho RE RH N Rep).
Qed.
Print Assumptions C184_repeating.

(** The frequency-domain equations at 2 sin(omega dt / 2) / dt on the grid whose widths are
    stretched by the layers at the phase omega dt per step. *)
Definition solves_stretched (sh : list nat) (Lr : nat -> nat -> option (layer RF)) (w : widths RF) (dt omega : R) (eps mu : field RF) (E H J : field CC) : Prop :=
  let Ls := fun a pp => option_map clayer (Lr a pp) in
  let Z : CC := cis (omega * dt) in
  let d := (effective sh Ls lp0h lp1h lp2h Z (cw w), effective sh Ls lp0e lp1e lp2e Z (cw w)) in
  let out := eh_full_f (K := CC) sh (mkC (2 * sin (omega * dt / 2) / dt) 0) d (cf eps) (Some (cf mu)) E H in
  feq (K := CC) sh (fst out) J /\ feq (K := CC) sh (snd out) noj.

Section R.
  Variables (sh : list nat) (Lr : nat -> nat -> option (layer RF)) (w : widths RF) (dt omega : R) (eps mu : field RF) (J : nat -> field RF) (s : pstate RF) (N : nat).
  Hypothesis HL : length sh = 3%nat.
  Hypothesis Hdt : 0 < dt.
  Hypothesis Hom : 0 < omega * dt < PI.
  Hypothesis Fit : fitted sh dt Lr.
  Hypothesis Hw : nzw (K := RF) sh w.
  Hypothesis Heps : nzm (K := RF) sh eps.
  Hypothesis Hmu : nzm (K := RF) sh mu.
  Let st n := cpml_run (K := RF) sh Lr dt w eps mu (map (fun n c i => - (dt * J n c i)) (seq 0 n)) s.
  Let Ls := fun a pp => option_map clayer (Lr a pp).
  Hypothesis Rep : peq (K := CC) sh Ls (cps (st N)) (times (K := CC) (cis (omega * (INR N * dt))) (cps s)).
  Lemma real_solves : solves_stretched sh Lr w dt omega eps mu
    (fourier omega N (fun n => INR n * dt) (fun n => pE_ (st n))) (fourier omega N (fun n => (INR n + / 2) * dt) (fun n => pH_ (st (S n)))) (fourier omega N (fun n => (INR n + / 2) * dt) J).
  Proof.
    set (z := cis (omega * dt / 2)).
    assert (Zv : cmul z (cis (- (omega * dt / 2))) = c1) by (unfold z; rewrite <- cis_add, Rplus_opp_r; apply cis_0).
    assert (Hz : z <> c0). { intro X. rewrite X in Zv. apply (f_equal cre) in Zv. cbn in Zv. lra. }
    assert (Zi : fdiv (f := CC) f1 z = cis (- (omega * dt / 2))).
    { change (cdiv c1 z = cis (- (omega * dt / 2))). set (x := cis (- _)) in *. rewrite <- Zv. apply (mul_div_l CC z x Hz). }
    assert (ZZ : cmul z z = cis (omega * dt)) by (unfold z; rewrite <- cis_add; f_equal; field).
    assert (Ce : cexp (mkC 0 (omega * dt)) = cis (omega * dt)) by (unfold cexp, cis; cbn; rewrite exp_0; f_equal; ring).
    assert (Ho : fmul (fmul (im (c := CC)) (mkC (2 * sin (omega * dt / 2) / dt) 0)) (mkC dt 0) = fsub (f := CC) z (fdiv (f := CC) f1 z)).
    { rewrite Zi. unfold z, cis. rewrite cos_neg, sin_neg. apply cpx_ext; cbn; field; lra. }
    assert (Ne : nzm (K := CC) sh (cf eps)) by (intros a k Ha Hk X; apply (f_equal cre) in X; exact (Heps a k Ha Hk X)).
    assert (Nm : nzm (K := CC) sh (cf mu)) by (intros a k Ha Hk X; apply (f_equal cre) in X; exact (Hmu a k Ha Hk X)).
    assert (Nw : nzw (K := CC) sh (cw w)) by (intros a k Ha Hk X; apply (f_equal cre) in X; exact (Hw a k Ha Hk X)).
    assert (Nd : mkC dt 0 <> c0) by (intro X; apply (f_equal cre) in X; cbn in X; lra).
    destruct (C123_passive sh Lr dt (omega * dt) Hdt Hom Fit) as [RE [RH _]]. fold Ls in RE, RH. rewrite Ce, <- ZZ in RE, RH.
    set (jj := fun n c i => - (dt * J n c i)) in *.
    set (stC := fun n => cpml_run (K := CC) sh Ls (mkC dt 0) (cw w) (cf eps) (cf mu) (map (fun n c i => fopp (f := CC) (fmul (f := CC) (mkC dt 0) (cf (J n) c i))) (seq 0 n)) (cps s)).
    assert (ER : forall n, peq (K := CC) sh Ls (stC n) (cps (st n))).
    { intro n. apply (emb_prun sh Lr HL dt w eps mu Hw Heps Hmu _ jj s n). intros k c i. unfold cf, jj. set (y := J k c i). clearbody y. change R in y. apply cpx_ext; cbn; ring. }
    assert (P0 : forall n, zpow (K := CC) (cis (- (omega * dt / 2))) (2 * n) = cis (- (omega * (INR n * dt)))).
    { intro n. rewrite zpow_cis. f_equal. rewrite mult_INR. cbn [INR]. field. }
    assert (P1 : forall n, zpow (K := CC) (cis (- (omega * dt / 2))) (2 * n + 1) = cis (- (omega * ((INR n + / 2) * dt)))).
    { intro n. rewrite zpow_cis. f_equal. rewrite plus_INR, mult_INR. cbn [INR]. field. }
    assert (PZ : zpow (K := CC) z (2 * N) = cis (omega * (INR N * dt))).
    { unfold z. rewrite zpow_cis. f_equal. rewrite mult_INR. cbn [INR]. field. }
    assert (RC : peq (K := CC) sh Ls (stC N) (times (K := CC) (zpow (K := CC) z (2 * N)) (cps s))).
    { rewrite PZ. destruct (ER N) as (Y1 & Y2 & Y3), Rep as (Z1 & Z2 & Z3). split; [|split].
      - intros c i Hc Hi. rewrite (Y1 c i Hc Hi). now apply Z1.
      - intros c i Hc Hi. rewrite (Y2 c i Hc Hi). now apply Z2.
      - intros a pp k i Ha Hp Hk Hi Hh. destruct (Y3 a pp k i Ha Hp Hk Hi Hh) as [-> ->]. now apply Z3. }
    pose proof (C184_repeating CC sh Ls (mkC dt 0) (mkC (2 * sin (omega * dt / 2) / dt) 0) z (cw w) (cf eps) (cf mu) (fun n => cf (J n)) (cps s) N HL Nd Hz Nw Ne Nm Ho RE RH RC) as Q.
    cbv zeta beta in Q. change (@fmul CC z z) with (cmul z z) in Q. rewrite ZZ, Zi in Q. fold stC in Q.
    assert (RM : forall (x : R) (k : cpx), fmul (f := CC) k (mkC x 0) = rmul x k) by (intros x k; unfold rmul; apply cpx_ext; cbn; ring).
    match type of Q with feq _ (fst (eh_full_f _ _ _ _ _ ?e ?h)) ?jw /\ _ => set (E := e) in *; set (H := h) in *; set (Jw := jw) in * end.
    assert (FE : feq (K := CC) sh (fourier omega N (fun n => INR n * dt) (fun n => pE_ (st n))) E).
    { intros c i Hc Hi. apply (sumN_ext CC). intros n _. rewrite P0. symmetry. refine (eq_trans (f_equal _ (proj1 (ER n) c i Hc Hi)) _). apply RM. }
    assert (FH : feq (K := CC) sh (fourier omega N (fun n => (INR n + / 2) * dt) (fun n => pH_ (st (S n)))) H).
    { intros c i Hc Hi. apply (sumN_ext CC). intros n _. rewrite P1. symmetry. refine (eq_trans (f_equal _ (proj1 (proj2 (ER (S n))) c i Hc Hi)) _). apply RM. }
    assert (FJ : feq (K := CC) sh (fourier omega N (fun n => (INR n + / 2) * dt) J) Jw).
    { intros c i Hc Hi. apply (sumN_ext CC). intros n _. rewrite P1. symmetry. apply RM. }
    unfold solves_stretched. cbv zeta. fold Ls. destruct Q as [Q1 Q2]. split; intros c i Hc Hi.
    - rewrite (FJ c i Hc Hi). rewrite <- (Q1 c i Hc Hi). rewrite !(amp_form CC). cbn [fst]. f_equal; [apply (curl_back_ext3 CC); [exact HL|exact Hi|exact FH]|]. f_equal. exact (FE c i Hc Hi).
    - rewrite <- (Q2 c i Hc Hi). rewrite !(far_form CC). cbn [snd]. f_equal; [apply (curl_forward_ext3 CC); [exact HL|exact Hi|exact FE]|]. f_equal. exact (FH c i Hc Hi).
  Qed.
End R.

Lemma one_c (x : R) : mkC x 0 = cmul c1 (mkC x 0).
Proof. apply cpx_ext; cbn; ring. Qed.
Lemma zero_c (k : cpx) : mkC 0 0 = cmul k (mkC 0 0).
Proof. apply cpx_ext; cbn; ring. Qed.
(** Layers from [cpml_params], real fields, a run that repeats after N steps (fields and
    memories), at a multiple of its fundamental frequency. *)
Theorem C184_periodic :
  forall (sh : list nat) (Lr : nat -> nat -> option (layer RF)) (w : widths RF) (dt omega : R) (eps mu : field RF) (J : nat -> field RF) (s : pstate RF) (N : nat) (m : Z),
    length sh = 3%nat -> 0 < dt -> 0 < omega * dt < PI -> fitted sh dt Lr -> nzw (K := RF) sh w -> nzm (K := RF) sh eps -> nzm (K := RF) sh mu ->
    let st n := cpml_run (K := RF) sh Lr dt w eps mu (map (fun n c i => - (dt * J n c i)) (seq 0 n)) s in
    peq (K := RF) sh Lr (st N) s -> omega * (INR N * dt) = 2 * PI * IZR m ->
    solves_stretched sh Lr w dt omega eps mu (fourier omega N (fun n => INR n * dt) (fun n => pE_ (st n)))
      (fourier omega N (fun n => (INR n + / 2) * dt) (fun n => pH_ (st (S n)))) (fourier omega N (fun n => (INR n + / 2) * dt) J).
Proof.
  intros sh Lr w dt omega eps mu J s N m HL Hdt Hom Fit Hw He Hm st (Q1 & Q2 & Q3) Hp.
  apply (real_solves sh Lr w dt omega eps mu J s N HL Hdt Hom Fit Hw He Hm). fold (st N).
  rewrite Hp, cis_Z. split; [|split].
  - intros c i Hc Hi. cbn [cps times pE_]. unfold cf. rewrite (Q1 c i Hc Hi). apply one_c.
  - intros c i Hc Hi. cbn [cps times pH_]. unfold cf. rewrite (Q2 c i Hc Hi). apply one_c.
  - intros a pp k i Ha Hp' Hk Hi Hh. rewrite here_c in Hh. assert (Hr : here (K := RF) sh Lr a pp i <> None) by (intro X; apply Hh; rewrite X; reflexivity).
    destruct (Q3 a pp k i Ha Hp' Hk Hi Hr) as [M1 M2]. cbn [cps times psE psH]. rewrite M1, M2. split; apply one_c.
Qed.
Print Assumptions C184_periodic.

(** A run that starts and ends without fields and memories: at every frequency. *)
Theorem C184_decayed :
  forall (sh : list nat) (Lr : nat -> nat -> option (layer RF)) (w : widths RF) (dt omega : R) (eps mu : field RF) (J : nat -> field RF) (s : pstate RF) (N : nat),
    length sh = 3%nat -> 0 < dt -> 0 < omega * dt < PI -> fitted sh dt Lr -> nzw (K := RF) sh w -> nzm (K := RF) sh eps -> nzm (K := RF) sh mu ->
    let st n := cpml_run (K := RF) sh Lr dt w eps mu (map (fun n c i => - (dt * J n c i)) (seq 0 n)) s in
    let rest := mkps (K := RF) noj noj psi0 psi0 in
    peq (K := RF) sh Lr s rest -> peq (K := RF) sh Lr (st N) rest ->
    solves_stretched sh Lr w dt omega eps mu (fourier omega N (fun n => INR n * dt) (fun n => pE_ (st n)))
      (fourier omega N (fun n => (INR n + / 2) * dt) (fun n => pH_ (st (S n)))) (fourier omega N (fun n => (INR n + / 2) * dt) J).
Proof.
  intros sh Lr w dt omega eps mu J s N HL Hdt Hom Fit Hw He Hm st rest (P1 & P2 & P3) (Q1 & Q2 & Q3).
  apply (real_solves sh Lr w dt omega eps mu J s N HL Hdt Hom Fit Hw He Hm). fold (st N).
  set (k := cis _). clearbody k. split; [|split].
  - intros c i Hc Hi. cbn [cps times pE_]. unfold cf. rewrite (Q1 c i Hc Hi), (P1 c i Hc Hi). cbn [rest pE_]. unfold noj. apply zero_c.
  - intros c i Hc Hi. cbn [cps times pH_]. unfold cf. rewrite (Q2 c i Hc Hi), (P2 c i Hc Hi). cbn [rest pH_]. unfold noj. apply zero_c.
  - intros a pp q i Ha Hp' Hk Hi Hh. rewrite here_c in Hh. assert (Hr : here (K := RF) sh Lr a pp i <> None) by (intro X; apply Hh; rewrite X; reflexivity).
    destruct (Q3 a pp q i Ha Hp' Hk Hi Hr) as [M1 M2]. destruct (P3 a pp q i Ha Hp' Hk Hi Hr) as [M3 M4]. cbn [cps times psE psH]. rewrite M1, M2, M3, M4. cbn [rest psE psH]. unfold psi0. split; apply zero_c.
Qed.
Print Assumptions C184_decayed.

(** ** Runs that fade away *)
(** Convergence of a sequence of complex numbers. *)
Definition tends (f : nat -> cpx) (l : cpx) : Prop := Un_cv (fun n => cre (f n)) (cre l) /\ Un_cv (fun n => cim (f n)) (cim l).
Lemma tends_ext f g l : (forall n, f n = g n) -> tends f l -> tends g l.
Proof. intros X [A B]. split; intros e He; [destruct (A e He) as [n Hn]|destruct (B e He) as [n Hn]]; exists n; intros m Hm; rewrite <- X; now apply Hn. Qed.
Lemma tends_const x : tends (fun _ => x) x.
Proof. split; intros e He; exists O; intros n _; unfold R_dist; rewrite Rminus_diag_eq, Rabs_R0 by reflexivity; exact He. Qed.
Lemma tends_add f g l m : tends f l -> tends g m -> tends (fun n => cadd (f n) (g n)) (cadd l m).
Proof. intros [A B] [C D]. split; cbn; now apply CV_plus. Qed.
Lemma tends_sub f g l m : tends f l -> tends g m -> tends (fun n => csub (f n) (g n)) (csub l m).
Proof. intros [A B] [C D]. split; cbn; now apply CV_minus. Qed.
Lemma tends_mul x f l : tends f l -> tends (fun n => cmul x (f n)) (cmul x l).
Proof.
  intros [A B]. assert (K : forall k g q, Un_cv g q -> Un_cv (fun n => k * g n) (k * q)).
  { intros k g q H. apply (CV_mult (fun _ => k) g k q); [|exact H]. intros e He; exists O; intros n _; unfold R_dist; rewrite Rminus_diag_eq, Rabs_R0 by reflexivity; exact He. }
  split; cbn; [apply (CV_minus (fun n => cre x * cre (f n)) (fun n => cim x * cim (f n)))|apply (CV_plus (fun n => cre x * cim (f n)) (fun n => cim x * cre (f n)))]; now apply K.
Qed.
Lemma tends_mul_r x f l : tends f l -> tends (fun n => cmul (f n) x) (cmul l x).
Proof. intro H. apply (tends_ext (fun n => cmul x (f n))); [intro n; apply cpx_ext; cbn; ring|]. replace (cmul l x) with (cmul x l) by (apply cpx_ext; cbn; ring). now apply tends_mul. Qed.
Lemma tends_unique f l m : tends f l -> tends f m -> l = m.
Proof. intros [A B] [C D]. apply cpx_ext; eapply UL_sequence; eassumption. Qed.
Lemma tends_shift f l : tends f l -> tends (fun n => f (S n)) l.
Proof. intros [A B]. split; intros e He; [destruct (A e He) as [n Hn]|destruct (B e He) as [n Hn]]; exists n; intros m Hm; apply Hn; lia. Qed.

Section Lim.
  Variables (sh : list nat) (Ls : nat -> nat -> option (layer CC)).
  Hypothesis HL : length sh = 3%nat.
  Section Core.
    Variables p0 p1 p2 : layer CC -> nat -> CC.
    Variables (D : nat -> nat -> nat -> arr CC) (D' : nat -> nat -> arr CC) (ps : nat -> psis CC) (ps' : psis CC) (i : list nat).
    Hypothesis HD : forall a c, (a < 3)%nat -> (c < 3)%nat -> tends (fun n => D n a c i) (D' a c i).
    Hypothesis HP : forall a pp k, (a < 3)%nat -> (pp < 2)%nat -> (k < 2)%nat -> here (K := CC) sh Ls a pp i <> None -> tends (fun n => ps n a pp k i) (ps' a pp k i).
    Lemma psi_t a pp k : (a < 3)%nat -> (pp < 2)%nat -> (k < 2)%nat -> here (K := CC) sh Ls a pp i <> None ->
      tends (fun n => fst (core CC sh Ls p0 p1 p2 (D n) (ps n)) a pp k i) (fst (core CC sh Ls p0 p1 p2 D' ps') a pp k i).
    Proof.
      intros Ha Hp Hk Hh. rewrite (core_psi CC) by assumption. apply (tends_ext (fun n => psi_next CC sh Ls p0 p1 p2 a pp i (ps n a pp k i) (D n a (slotc a k) i))); [intro n; symmetry; now rewrite (core_psi CC)|].
      pose proof (HP a pp k Ha Hp Hk Hh) as X. unfold psi_next. destruct (here (K := CC) sh Ls a pp i) as [L|]; [|destruct (Hh eq_refl)]. cbv zeta.
      apply tends_add; [now apply tends_mul_r|]. apply tends_mul, tends_mul, HD; [exact Ha|unfold slotc; destruct a as [|[|[|a]]]; destruct k as [|k]; lia].
    Qed.
    Lemma T_t a c : (a < 3)%nat -> (c < 3)%nat -> tends (fun n => T CC sh Ls p0 p1 p2 (D n) (ps n) a c i) (T CC sh Ls p0 p1 p2 D' ps' a c i).
    Proof.
      intros Ha Hc. unfold T.
      assert (S2 : (slot_of a c < 2)%nat) by (destruct a as [|[|[|a]]]; try lia; destruct c as [|[|[|c]]]; try lia; cbn; lia).
      assert (M : forall pp, (pp < 2)%nat -> tends (fun n => memv CC sh Ls a pp i (fst (core CC sh Ls p0 p1 p2 (D n) (ps n)) a pp (slot_of a c) i)) (memv CC sh Ls a pp i (fst (core CC sh Ls p0 p1 p2 D' ps') a pp (slot_of a c) i))).
      { intros pp Hp. unfold memv. destruct (here (K := CC) sh Ls a pp i) eqn:Eh; [|apply tends_const]. apply psi_t; try assumption. congruence. }
      apply tends_add; [apply tends_add|]; [apply tends_mul; now apply HD|apply M; lia|apply M; lia].
    Qed.
    Lemma curl_t c : (c < 3)%nat -> tends (fun n => snd (core CC sh Ls p0 p1 p2 (D n) (ps n)) c i) (snd (core CC sh Ls p0 p1 p2 D' ps') c i).
    Proof.
      intro Hc. rewrite (core_curl CC) by exact Hc. eapply tends_ext; [intro n; symmetry; rewrite (core_curl CC) by exact Hc; reflexivity|].
      destruct c as [|[|[|c]]]; [| | |lia]; apply tends_sub; apply T_t; lia.
    Qed.
  End Core.
  Variables (dt : cpx) (w : widths CC) (eps mu : field CC).
  Definition ptends (x : nat -> pstate CC) (y : pstate CC) : Prop :=
    (forall c i, (c < 3)%nat -> inb sh i -> tends (fun n => pE_ (x n) c i) (pE_ y c i)) /\ (forall c i, (c < 3)%nat -> inb sh i -> tends (fun n => pH_ (x n) c i) (pH_ y c i)) /\
    forall a pp k i, (a < 3)%nat -> (pp < 2)%nat -> (k < 2)%nat -> inb sh i -> here (K := CC) sh Ls a pp i <> None -> tends (fun n => psE (x n) a pp k i) (psE y a pp k i) /\ tends (fun n => psH (x n) a pp k i) (psH y a pp k i).
  Lemma df_t a (f : nat -> arr CC) f' i : (a < 3)%nat -> inb sh i -> (forall k, inb sh k -> tends (fun n => f n k) (f' k)) ->
    tends (fun n => deriv_forward (K := CC) sh (Some w) a (f n) i) (deriv_forward (K := CC) sh (Some w) a f' i).
  Proof.
    intros Ha Hi Hf. unfold deriv_forward, roll. apply tends_mul_r, tends_sub; apply Hf; try apply inb_shift; (assumption || lia).
  Qed.
  Lemma db_t a (f : nat -> arr CC) f' i : (a < 3)%nat -> inb sh i -> (forall k, inb sh k -> tends (fun n => f n k) (f' k)) ->
    tends (fun n => deriv_back (K := CC) sh (Some w) a (f n) i) (deriv_back (K := CC) sh (Some w) a f' i).
  Proof.
    intros Ha Hi Hf. unfold deriv_back, roll. apply tends_mul_r, tends_sub; apply Hf; try apply inb_shift; (assumption || lia).
  Qed.
  Lemma step_t (j : nat -> field CC) j' x y : (forall c i, (c < 3)%nat -> inb sh i -> tends (fun n => j n c i) (j' c i)) -> ptends x y ->
    ptends (fun n => cpml_step (K := CC) sh Ls dt w eps mu (j n) (x n)) (cpml_step (K := CC) sh Ls dt w eps mu j' y).
  Proof.
    intros HJ (QE & QH & QM).
    assert (DF : forall i, inb sh i -> forall a c, (a < 3)%nat -> (c < 3)%nat -> tends (fun n => deriv_forward (K := CC) sh (Some w) a (pE_ (x n) c) i) (deriv_forward (K := CC) sh (Some w) a (pE_ y c) i)).
    { intros i Hi a c Ha Hc. apply (df_t a (fun n => pE_ (x n) c)); [exact Ha|exact Hi|]. intros k Hk. exact (QE c k Hc Hk). }
    set (h := fun n => snd (update_H (K := CC) sh Ls dt w (psH (x n)) (pE_ (x n)) (pH_ (x n)) mu)).
    set (h' := snd (update_H (K := CC) sh Ls dt w (psH y) (pE_ y) (pH_ y) mu)).
    assert (A : forall c i, (c < 3)%nat -> inb sh i -> tends (fun n => h n c i) (h' c i)).
    { intros c i Hc Hi. unfold h', h. rewrite (update_H_core CC) by exact Hc. eapply tends_ext; [intro n; symmetry; rewrite (update_H_core CC) by exact Hc; reflexivity|].
      apply tends_sub; [now apply QH|]. apply tends_mul. apply (curl_t lp0h lp1h lp2h (fun n a b => deriv_forward (K := CC) sh (Some w) a (pE_ (x n) b)) _ (fun n => psH (x n))); [exact (DF i Hi)|intros a pp k Ha Hp Hk Hh; exact (proj2 (QM a pp k i Ha Hp Hk Hi Hh))|exact Hc]. }
    assert (DB : forall i, inb sh i -> forall a c, (a < 3)%nat -> (c < 3)%nat -> tends (fun n => deriv_back (K := CC) sh (Some w) a (h n c) i) (deriv_back (K := CC) sh (Some w) a (h' c) i)).
    { intros i Hi a c Ha Hc. apply (db_t a (fun n => h n c)); [exact Ha|exact Hi|]. intros k Hk. exact (A c k Hc Hk). }
    split; [|split; [exact A|]].
    - intros c i Hc Hi.
      change (tends (fun n => cadd (snd (update_E (K := CC) sh Ls dt w (psE (x n)) (pE_ (x n)) (h n) eps) c i) (cmul (j n c i) (cinv (eps c i)))) (cadd (snd (update_E (K := CC) sh Ls dt w (psE y) (pE_ y) h' eps) c i) (cmul (j' c i) (cinv (eps c i))))).
      apply tends_add; [|apply tends_mul_r; now apply HJ]. rewrite (update_E_core CC) by exact Hc. eapply tends_ext; [intro n; symmetry; rewrite (update_E_core CC) by exact Hc; reflexivity|].
      apply tends_add; [now apply QE|]. apply tends_mul. apply (curl_t lp0e lp1e lp2e (fun n a b => deriv_back (K := CC) sh (Some w) a (h n b)) _ (fun n => psE (x n))); [exact (DB i Hi)|intros a pp k Ha Hp Hk Hh; exact (proj1 (QM a pp k i Ha Hp Hk Hi Hh))|exact Hc].
    - intros a pp k i Ha Hp Hk Hi Hh. split.
      + exact (psi_t lp0e lp1e lp2e (fun n a b => deriv_back (K := CC) sh (Some w) a (h n b)) (fun a b => deriv_back (K := CC) sh (Some w) a (h' b)) (fun n => psE (x n)) (psE y) i (DB i Hi) (fun a pp k Ha Hp Hk Hh => proj1 (QM a pp k i Ha Hp Hk Hi Hh)) a pp k Ha Hp Hk Hh).
      + exact (psi_t lp0h lp1h lp2h (fun n a b => deriv_forward (K := CC) sh (Some w) a (pE_ (x n) b)) (fun a b => deriv_forward (K := CC) sh (Some w) a (pE_ y b)) (fun n => psH (x n)) (psH y) i (DF i Hi) (fun a pp k Ha Hp Hk Hh => proj2 (QM a pp k i Ha Hp Hk Hi Hh)) a pp k Ha Hp Hk Hh).
  Qed.
End Lim.

(** A recursion that contracts follows its input. *)
Lemma real_contr (k : R) (u e : nat -> R) : 0 <= k < 1 -> (forall n, 0 <= u n) -> (forall n, u (S n) <= k * u n + e n) -> Un_cv e 0 -> Un_cv u 0.
Proof.
  intros Hk Hu Hr He eta Heta.
  destruct (He ((1 - k) * (eta / 2))) as [n0 Hn0]; [apply Rmult_lt_0_compat; lra|].
  assert (B : forall m, u (n0 + m)%nat <= k ^ m * u n0 + eta / 2).
  { induction m as [|m IH]; [rewrite Nat.add_0_r; cbn; lra|]. rewrite Nat.add_succ_r. specialize (Hr (n0 + m)%nat). specialize (Hn0 (n0 + m)%nat ltac:(lia)). unfold R_dist in Hn0. rewrite Rminus_0_r in Hn0. apply Rabs_def2 in Hn0.
    cbn [pow]. assert (k * u (n0 + m)%nat <= k * (k ^ m * u n0 + eta / 2)) by (apply Rmult_le_compat_l; lra). lra. }
  assert (P : 0 < eta / 2 / (u n0 + 1)) by (apply Rdiv_lt_0_compat; [lra|specialize (Hu n0); lra]).
  destruct (pow_lt_1_zero k ltac:(rewrite Rabs_right; lra) _ P) as [n1 Hn1].
  exists (n0 + n1)%nat. intros n Hn. unfold R_dist. rewrite Rminus_0_r, Rabs_right by (apply Rle_ge, Hu).
  replace n with (n0 + (n - n0))%nat by lia. specialize (B (n - n0)%nat). specialize (Hn1 (n - n0)%nat ltac:(lia)). rewrite Rabs_right in Hn1 by (apply Rle_ge, pow_le; lra).
  assert (U := Hu n0). assert (k ^ (n - n0) * u n0 < eta / 2).
  { apply Rle_lt_trans with (k ^ (n - n0) * (u n0 + 1)); [apply Rmult_le_compat_l; [apply pow_le; lra|lra]|].
    apply Rlt_le_trans with (eta / 2 / (u n0 + 1) * (u n0 + 1)); [apply Rmult_lt_compat_r; lra|]. right. field. lra. }
  lra.
Qed.
Lemma tends_nrm f : tends f c0 <-> Un_cv (fun n => cnrm (f n)) 0.
Proof.
  split.
  - intros [A B]. unfold cnrm. replace 0 with (0 * 0 + 0 * 0) by ring. apply (CV_plus (fun n => cre (f n) * cre (f n)) (fun n => cim (f n) * cim (f n))); apply (CV_mult); assumption.
  - intro H. split; intros e He; (destruct (H (e * e)) as [n Hn]; [apply Rmult_lt_0_compat; lra|]); exists n; intros m Hm; specialize (Hn m Hm); unfold R_dist in *; cbn [c0 cre cim]; rewrite Rminus_0_r in *;
      (rewrite Rabs_right in Hn by (unfold cnrm; nra)); unfold cnrm in Hn; apply Rabs_def1; nra.
Qed.
Lemma tends_contr (r l : cpx) (A b : nat -> cpx) : cnrm r < 1 -> (forall n, A (S n) = cadd (cmul r (A n)) (b n)) -> tends b l ->
  tends A (cdiv l (csub c1 r)).
Proof.
  intros Hr Hs Hb. assert (R1 : csub c1 r <> c0). { intro X. assert (r = c1) by (apply cpx_ext; [pose proof (f_equal cre X)|pose proof (f_equal cim X)]; cbn in *; lra). subst r. unfold cnrm in Hr. cbn in Hr. lra. }
  set (m := cdiv l (csub c1 r)). assert (M : m = cadd (cmul r m) l).
  { assert (X : cmul (csub c1 r) m = l) by (unfold m; apply cpx_ext; pose proof (cnrm_nz _ R1) as N; unfold cdiv, cinv, cnrm in *; cbn in *; field; intro Y; apply N; (etransitivity; [|exact Y]); ring). clearbody m. rewrite <- X. apply cpx_ext; cbn; ring. }
  fold m. assert (Z : tends (fun n => csub (A n) m) c0).
  { set (e := fun n => csub (b n) l). assert (E0 : tends e c0) by (replace c0 with (csub l l) by (apply cpx_ext; cbn; ring); apply tends_sub; [exact Hb|apply tends_const]).
    apply tends_nrm in E0. apply tends_nrm.
    set (rho := cnrm r) in *. assert (P : 0 <= rho) by (unfold rho, cnrm; nra).
    (* |x + y|^2 <= (1 + t) |x|^2 + (1 + 1/t) |y|^2 *)
    set (t := (1 - rho) / 2). assert (T0 : 0 < t) by (unfold t; lra).
    apply (real_contr ((1 + t) * rho) _ (fun n => (1 + / t) * cnrm (e n))).
    - split; [apply Rmult_le_pos; lra|]. unfold t. nra.
    - intro n. unfold cnrm. nra.
    - intro n. rewrite Hs. replace (csub (cadd (cmul r (A n)) (b n)) m) with (cadd (cmul r (csub (A n) m)) (e n)) by (unfold e; transitivity (csub (cadd (cmul r (A n)) (b n)) (cadd (cmul r m) l)); [apply cpx_ext; cbn; ring|rewrite <- M; reflexivity]).
      set (x := csub (A n) m). set (y := e n). clearbody x y. assert (X : cnrm (cmul r x) = rho * cnrm x) by (unfold rho, cnrm; cbn; ring).
      rewrite Rmult_assoc, <- X. set (xx := cmul r x). clearbody xx.
      assert (Q : forall p q, (p + q) * (p + q) <= (1 + t) * (p * p) + (1 + / t) * (q * q)).
      { intros p q. assert (Y : 0 <= / t * ((t * p - q) * (t * p - q))) by (apply Rmult_le_pos; [left; now apply Rinv_0_lt_compat|apply Rle_0_sqr]).
        replace (/ t * ((t * p - q) * (t * p - q))) with (t * (p * p) - 2 * (p * q) + / t * (q * q)) in Y by (field; lra). lra. }
      unfold cnrm. cbn. pose proof (Q (cre xx) (cre y)). pose proof (Q (cim xx) (cim y)). lra.
    - replace 0 with ((1 + / t) * 0) by ring. apply (CV_mult (fun _ => 1 + / t)); [|exact E0]. intros g Hg; exists O; intros n _; unfold R_dist; rewrite Rminus_diag_eq, Rabs_R0 by reflexivity; exact Hg. }
  apply (tends_ext (fun n => cadd (csub (A n) m) m)); [intro n; apply cpx_ext; cbn; ring|]. assert (M0 : cadd c0 m = m) by (apply cpx_ext; cbn; ring). pose proof (tends_add _ _ _ _ Z (tends_const m)) as X. rewrite M0 in X. exact X.
Qed.

Lemma tends_unshift f l : tends (fun n => f (S n)) l -> tends f l.
Proof. intros [A B]. split; intros e He; [destruct (A e He) as [n Hn]|destruct (B e He) as [n Hn]]; exists (S n); intros m Hm; (destruct m as [|m]; [lia|]); apply Hn; lia. Qed.

Section Fade.
  Variables (sh : list nat) (Ls : nat -> nat -> option (layer CC)) (dt om z : cpx) (w : widths CC) (eps mu : field CC) (J : nat -> field CC) (E H Jw : field CC).
  Hypothesis HL : length sh = 3%nat.
  Hypothesis Hdt : dt <> c0.
  Hypothesis Hz : z <> c0.
  Hypothesis Hw : nzw (K := CC) sh w.
  Hypothesis Heps : nzm (K := CC) sh eps.
  Hypothesis Hmu : nzm (K := CC) sh mu.
  Hypothesis Ho : fmul (f := CC) (fmul (f := CC) (im (c := CC)) om) dt = fsub (f := CC) z (fdiv (f := CC) f1 z).
  Hypothesis RE : regular (K := CC) sh Ls lp0e lp1e lp2e (fmul (f := CC) z z).
  Hypothesis RH : regular (K := CC) sh Ls lp0h lp1h lp2h (fmul (f := CC) z z).
  Let v := fdiv (f := CC) f1 z.
  Hypothesis Ae : forall a pp i L, (a < 3)%nat -> inb sh i -> here (K := CC) sh Ls a pp i = Some L -> cnrm (cmul (cmul v v) (lp0e L (depth sh a pp (lth L) i))) < 1.
  Hypothesis Ah : forall a pp i L, (a < 3)%nat -> inb sh i -> here (K := CC) sh Ls a pp i = Some L -> cnrm (cmul (cmul v v) (lp0h L (depth sh a pp (lth L) i))) < 1.
  Let rest := mkps (K := CC) noj noj psi0 psi0.
  Let st n := cpml_run (K := CC) sh Ls dt w eps mu (map (fun n c i => fopp (f := CC) (fmul (f := CC) dt (J n c i))) (seq 0 n)) rest.
  Let a n := zpow (K := CC) v (2 * n).
  Hypothesis TE : forall c i, (c < 3)%nat -> inb sh i -> tends (fun N => sumN (K := CC) N (fun n => cmul (zpow (K := CC) v (2 * n)) (pE_ (st n) c i))) (E c i).
  Hypothesis TH : forall c i, (c < 3)%nat -> inb sh i -> tends (fun N => sumN (K := CC) N (fun n => cmul (zpow (K := CC) v (2 * n + 1)) (pH_ (st (S n)) c i))) (H c i).
  Hypothesis TJ : forall c i, (c < 3)%nat -> inb sh i -> tends (fun N => sumN (K := CC) N (fun n => cmul (zpow (K := CC) v (2 * n + 1)) (J n c i))) (Jw c i).

  Lemma zv : cmul z v = c1.
  Proof. unfold v. change (cmul z (cdiv c1 z) = c1). pose proof (cnrm_nz z Hz) as N. unfold cdiv, cinv, cnrm in *. apply cpx_ext; cbn; field; exact N. Qed.
  Lemma a_S m : cmul (cmul z z) (a (S m)) = a m.
  Proof.
    unfold a. rewrite (zpow_SS CC). change (@fmul CC) with cmul. transitivity (cmul (cmul (cmul z v) (cmul z v)) (zpow (K := CC) v (2 * m))); [|rewrite zv; apply cpx_ext; cbn; ring].
    set (q := zpow _ _). clearbody q. change cpx in q. apply cpx_ext; cbn; ring.
  Qed.
  Lemma tele0 (f : nat -> cpx) : f O = c0 -> forall N, sumN (K := CC) N (fun n => cmul (a n) (f (S n))) = cmul (cmul z z) (sumN (K := CC) (S N) (fun n => cmul (a n) (f n))).
  Proof.
    intros F N. induction N as [|N IH].
    - cbn [sumN]. rewrite F. set (q := a 0). clearbody q. change cpx in q. apply cpx_ext; cbn; ring.
    - change (cadd (sumN (K := CC) N (fun n => cmul (a n) (f (S n)))) (cmul (a N) (f (S N))) = cmul (cmul z z) (cadd (sumN (K := CC) (S N) (fun n => cmul (a n) (f n))) (cmul (a (S N)) (f (S N))))).
      rewrite IH, <- (a_S N). set (q := a (S N)). set (u := sumN _ _). clearbody q u. change cpx in q, u. apply cpx_ext; cbn; ring.
  Qed.
  Let PS N := psum CC a st N.
  Let JN N : field CC := fun c i => sumN (K := CC) N (fun n => fmul (f := CC) (a n) (fopp (f := CC) (fmul (f := CC) dt (J n c i)))).
  Lemma step_next N i : inb sh i ->
    (forall c, (c < 3)%nat -> pE_ (cpml_step (K := CC) sh Ls dt w eps mu (JN N) (PS N)) c i = cmul (cmul z z) (pE_ (PS (S N)) c i) /\ pH_ (cpml_step (K := CC) sh Ls dt w eps mu (JN N) (PS N)) c i = cmul (cmul z z) (pH_ (PS (S N)) c i)) /\
    forall q p k, (q < 3)%nat -> psE (cpml_step (K := CC) sh Ls dt w eps mu (JN N) (PS N)) q p k i = cmul (cmul z z) (psE (PS (S N)) q p k i) /\ psH (cpml_step (K := CC) sh Ls dt w eps mu (JN N) (PS N)) q p k i = cmul (cmul z z) (psH (PS (S N)) q p k i).
  Proof.
    intro Hi. destruct (step_sum CC sh Ls dt z w eps mu J rest HL N i Hi) as (A & B & C & D).
    pose proof (wbox_refl sh 0 0 i Hi ltac:(lia)) as W.
    assert (L1 : forall x : cpx, cadd (cmul c1 x) (cmul c0 x) = x) by (intro x; apply cpx_ext; cbn; ring).
    split.
    - intros c Hc. split.
      + refine (eq_trans (A c i Hc W) _). refine (eq_trans (L1 _) _). exact (tele0 (fun n => pE_ (st n) c i) eq_refl N).
      + refine (eq_trans (B c i Hc W) _). refine (eq_trans (L1 _) _). exact (tele0 (fun n => pH_ (st n) c i) eq_refl N).
    - intros q p k Hq. split.
      + refine (eq_trans (C q p k i Hq W) _). refine (eq_trans (L1 _) _). exact (tele0 (fun n => psE (st n) q p k i) eq_refl N).
      + refine (eq_trans (D q p k i Hq W) _). refine (eq_trans (L1 _) _). exact (tele0 (fun n => psH (st n) q p k i) eq_refl N).
  Qed.
  Lemma lim_H c i : (c < 3)%nat -> inb sh i -> tends (fun N => pH_ (PS N) c i) (cmul v (H c i)).
  Proof.
    intros Hc Hi. apply tends_unshift. apply (tends_ext (fun N => cmul v (sumN (K := CC) N (fun n => cmul (zpow (K := CC) v (2 * n + 1)) (pH_ (st (S n)) c i))))); [|apply tends_mul; now apply TH].
    intro N. transitivity (cmul v (cmul v (sumN (K := CC) N (fun n => cmul (a n) (pH_ (st (S n)) c i))))).
    - f_equal. rewrite <- (sumN_mul_l CC). apply (sumN_ext CC). intros n _. rewrite Nat.add_1_r. cbn [zpow]. unfold a. set (q := zpow _ _). set (x := pH_ _ c i). clearbody q x. change cpx in q, x. apply cpx_ext; cbn; ring.
    - rewrite (tele0 (fun n => pH_ (st n) c i) eq_refl N). change (pH_ (PS (S N)) c i) with (sumN (K := CC) (S N) (fun n => cmul (a n) (pH_ (st n) c i))).
      set (u := sumN _ _). clearbody u. change cpx in u. transitivity (cmul (cmul (cmul z v) (cmul z v)) u); [apply cpx_ext; cbn; ring|]. rewrite zv. apply cpx_ext; cbn; ring.
  Qed.
  Lemma lim_J c i : (c < 3)%nat -> inb sh i -> tends (fun N => JN N c i) (injected (K := CC) dt z Jw 0 c i).
  Proof.
    intros Hc Hi. apply (tends_ext (fun N => cmul (copp (cmul dt z)) (sumN (K := CC) N (fun n => cmul (zpow (K := CC) v (2 * n + 1)) (J n c i))))).
    - intro N. unfold JN. rewrite <- (sumN_mul_l CC). apply (sumN_ext CC). intros n _. rewrite Nat.add_1_r. cbn [zpow]. unfold a. set (q := zpow _ _). set (x := J n c i). clearbody q x. change cpx in q, x. change (cmul (copp (cmul dt z)) (cmul (cmul v q) x) = cmul q (copp (cmul dt x))).
      transitivity (cmul (cmul z v) (cmul q (copp (cmul dt x)))); [apply cpx_ext; cbn; ring|]. rewrite zv. apply cpx_ext; cbn; ring.
    - replace (injected (K := CC) dt z Jw 0 c i) with (cmul (copp (cmul dt z)) (Jw c i)); [apply tends_mul; now apply TJ|]. unfold injected. cbn [Nat.mul zpow]. set (x := Jw c i). clearbody x. change cpx in x. apply cpx_ext; cbn; ring.
  Qed.
  Definition lim_mem (p0 p1 p2 : layer CC -> nat -> CC) (D : nat -> nat -> arr CC) : psis CC := fun q p k i =>
    match here (K := CC) sh Ls q p i with
    | Some L => let m := depth sh q p (lth L) i in
        cdiv (cmul (cmul v v) (cmul (p1 L m) (cmul (scale_at (K := CC) sh Ls p2 q p i) (D q (slotc q k) i)))) (csub c1 (cmul (cmul v v) (p0 L m)))
    | None => c0
    end.
  Lemma lim_psi p0 p1 p2 (D : nat -> nat -> nat -> arr CC) D' (ps : nat -> psis CC) q p k i : (q < 3)%nat -> (p < 2)%nat -> (k < 2)%nat -> here (K := CC) sh Ls q p i <> None ->
    (forall L, here (K := CC) sh Ls q p i = Some L -> cnrm (cmul (cmul v v) (p0 L (depth sh q p (lth L) i))) < 1) ->
    (forall a c, (a < 3)%nat -> (c < 3)%nat -> tends (fun n => D n a c i) (D' a c i)) ->
    (forall n, fst (core CC sh Ls p0 p1 p2 (D n) (ps n)) q p k i = cmul (cmul z z) (ps (S n) q p k i)) ->
    tends (fun n => ps n q p k i) (lim_mem p0 p1 p2 D' q p k i).
  Proof.
    intros Hq Hp Hk Hh HA HD HS. unfold lim_mem.
    assert (S' : forall n, psi_next CC sh Ls p0 p1 p2 q p i (ps n q p k i) (D n q (slotc q k) i) = cmul (cmul z z) (ps (S n) q p k i)) by (intro n; rewrite <- HS; symmetry; now apply (core_psi CC)).
    unfold psi_next in S'. destruct (here (K := CC) sh Ls q p i) as [L|]; [|destruct (Hh eq_refl)]. specialize (HA L eq_refl). cbv zeta in *.
    set (m := depth sh q p (lth L) i) in *. set (s2 := scale_at (K := CC) sh Ls p2 q p i) in *.
    apply (tends_contr _ _ _ (fun n => cmul (cmul v v) (cmul (p1 L m) (cmul s2 (D n q (slotc q k) i)))) HA).
    - intro n. specialize (S' n). set (x := ps n q p k i) in *. set (y := ps (S n) q p k i) in *. set (d := D n q (slotc q k) i) in *. set (u0 := p0 L m) in *. set (u1 := p1 L m) in *. clearbody x y d u0 u1 s2. change cpx in x, y, d, u0, u1, s2.
      change (cadd (cmul x u0) (cmul u1 (cmul s2 d)) = cmul (cmul z z) y) in S'.
      transitivity (cmul (cmul (cmul z v) (cmul z v)) y); [rewrite zv; apply cpx_ext; cbn; ring|]. transitivity (cmul (cmul v v) (cmul (cmul z z) y)); [apply cpx_ext; cbn; ring|]. rewrite <- S'. apply cpx_ext; cbn; ring.
    - apply tends_mul, tends_mul, tends_mul, HD; [exact Hq|unfold slotc; destruct q as [|[|[|q]]]; destruct k as [|k]; lia].
  Qed.
  Lemma fade_solves :
    let d := (effective (K := CC) sh Ls lp0h lp1h lp2h (fmul (f := CC) z z) w, effective (K := CC) sh Ls lp0e lp1e lp2e (fmul (f := CC) z z) w) in
    feq (K := CC) sh (fst (eh_full_f (K := CC) sh om d eps (Some mu) E H)) Jw /\ feq (K := CC) sh (snd (eh_full_f (K := CC) sh om d eps (Some mu) E H)) noj.
  Proof.
    intro d.
    set (h' := fun c i => cmul (cmul z z) (cmul v (H c i))).
    set (PH := lim_mem lp0h lp1h lp2h (fun a b => deriv_forward (K := CC) sh (Some w) a (E b))).
    set (PE := lim_mem lp0e lp1e lp2e (fun a b => deriv_back (K := CC) sh (Some w) a (h' b))).
    set (y := mkps (K := CC) E (fun c i => fmul (f := CC) (fdiv (f := CC) f1 z) (H c i)) PE PH).
    refine (from_run CC sh Ls dt om z w eps mu E H Jw HL Hz Hw Heps Hmu Ho RE RH PE PH Hdt _).
    change (start CC z E H PE PH) with y.
    assert (LE : forall c i, (c < 3)%nat -> inb sh i -> tends (fun N => pE_ (PS N) c i) (E c i)) by (intros c i Hc Hi; exact (TE c i Hc Hi)).
    assert (Y : ptends sh Ls PS y).
    { split; [exact LE|]. split; [exact lim_H|]. intros q p k i Hq Hp Hk Hi Hh. split.
      - apply (lim_psi lp0e lp1e lp2e (fun n a b => deriv_back (K := CC) sh (Some w) a (pH_ (cpml_step (K := CC) sh Ls dt w eps mu (JN n) (PS n)) b)) _ (fun n => psE (PS n))); try assumption; [exact (fun L => Ae q p i L Hq Hi)| |intro n; exact (proj1 (proj2 (step_next n i Hi) q p k Hq))].
        intros b c Hb Hc. apply (db_t sh Ls HL w b (fun n => pH_ (cpml_step (K := CC) sh Ls dt w eps mu (JN n) (PS n)) c)); [exact Hb|exact Hi|]. intros m Hm.
        apply (tends_ext (fun n => cmul (cmul z z) (pH_ (PS (S n)) c m))); [intro n; symmetry; exact (proj2 (proj1 (step_next n m Hm) c Hc))|]. apply tends_mul. apply (tends_shift (fun n => pH_ (PS n) c m)). now apply lim_H.
      - apply (lim_psi lp0h lp1h lp2h (fun n a b => deriv_forward (K := CC) sh (Some w) a (pE_ (PS n) b)) _ (fun n => psH (PS n))); try assumption; [exact (fun L => Ah q p i L Hq Hi)| |intro n; exact (proj2 (proj2 (step_next n i Hi) q p k Hq))].
        intros b c Hb Hc. apply (df_t sh Ls HL w b (fun n => pE_ (PS n) c)); [exact Hb|exact Hi|]. intros m Hm. now apply LE. }
    destruct (step_t sh Ls HL dt w eps mu JN (injected (K := CC) dt z Jw 0) PS y lim_J Y) as (A & B & C). destruct Y as (Y1 & Y2 & Y3).
    assert (Z2 : forall u : cpx, cmul (zpow (K := CC) z (2 * 1)) u = cmul (cmul z z) u) by (intro u; cbn [Nat.mul Nat.add zpow]; apply cpx_ext; cbn; ring).
    split; [|split].
    - intros c i Hc Hi. refine (eq_trans _ (eq_sym (Z2 _))). refine (tends_unique _ _ _ (A c i Hc Hi) _). apply (tends_ext (fun n => cmul (cmul z z) (pE_ (PS (S n)) c i))); [intro n; symmetry; exact (proj1 (proj1 (step_next n i Hi) c Hc))|]. apply tends_mul. apply (tends_shift (fun n => pE_ (PS n) c i)). now apply Y1.
    - intros c i Hc Hi. refine (eq_trans _ (eq_sym (Z2 _))). refine (tends_unique _ _ _ (B c i Hc Hi) _). apply (tends_ext (fun n => cmul (cmul z z) (pH_ (PS (S n)) c i))); [intro n; symmetry; exact (proj2 (proj1 (step_next n i Hi) c Hc))|]. apply tends_mul. apply (tends_shift (fun n => pH_ (PS n) c i)). now apply Y2.
    - intros q p k i Hq Hp Hk Hi Hh. destruct (C q p k i Hq Hp Hk Hi Hh) as [C1 C2]. destruct (Y3 q p k i Hq Hp Hk Hi Hh) as [Y4 Y5]. split.
      + refine (eq_trans _ (eq_sym (Z2 _))). refine (tends_unique _ _ _ C1 _). apply (tends_ext (fun n => cmul (cmul z z) (psE (PS (S n)) q p k i))); [intro n; symmetry; exact (proj1 (proj2 (step_next n i Hi) q p k Hq))|]. apply tends_mul. exact (tends_shift (fun n => psE (PS n) q p k i) _ Y4).
      + refine (eq_trans _ (eq_sym (Z2 _))). refine (tends_unique _ _ _ C2 _). apply (tends_ext (fun n => cmul (cmul z z) (psH (PS (S n)) q p k i))); [intro n; symmetry; exact (proj2 (proj2 (step_next n i Hi) q p k Hq))|]. apply tends_mul. exact (tends_shift (fun n => psH (PS n) q p k i) _ Y5).
  Qed.
End Fade.

(** Layers from [cpml_params], real fields: a run from rest whose Fourier sums of E, H and J
    converge.  The limits solve the equations on the stretched grid. *)
Theorem C184_fading :
  forall (sh : list nat) (Lr : nat -> nat -> option (layer RF)) (w : widths RF) (dt omega : R) (eps mu : field RF) (J : nat -> field RF) (E H Jw : field CC),
    length sh = 3%nat -> 0 < dt -> 0 < omega * dt < PI -> fitted sh dt Lr -> nzw (K := RF) sh w -> nzm (K := RF) sh eps -> nzm (K := RF) sh mu ->
    let st n := cpml_run (K := RF) sh Lr dt w eps mu (map (fun n c i => - (dt * J n c i)) (seq 0 n)) (mkps (K := RF) noj noj psi0 psi0) in
    (forall c i, (c < 3)%nat -> inb sh i ->
       tends (fun N => fourier omega N (fun n => INR n * dt) (fun n => pE_ (st n)) c i) (E c i) /\
       tends (fun N => fourier omega N (fun n => (INR n + / 2) * dt) (fun n => pH_ (st (S n))) c i) (H c i) /\
       tends (fun N => fourier omega N (fun n => (INR n + / 2) * dt) J c i) (Jw c i)) ->
    solves_stretched sh Lr w dt omega eps mu E H Jw.
Proof.
  intros sh Lr w dt omega eps mu J E H Jw HL Hdt Hom Fit Hw Heps Hmu st Lim.
  set (s := mkps (K := RF) noj noj psi0 psi0) in *. set (Ls := fun a pp => option_map clayer (Lr a pp)).
  set (z := cis (omega * dt / 2)).
  assert (Zv : cmul z (cis (- (omega * dt / 2))) = c1) by (unfold z; rewrite <- cis_add, Rplus_opp_r; apply cis_0).
  assert (Hz : z <> c0). { intro X. rewrite X in Zv. apply (f_equal cre) in Zv. cbn in Zv. lra. }
  assert (Zi : fdiv (f := CC) f1 z = cis (- (omega * dt / 2))).
  { change (cdiv c1 z = cis (- (omega * dt / 2))). set (x := cis (- _)) in *. rewrite <- Zv. apply (mul_div_l CC z x Hz). }
  assert (ZZ : cmul z z = cis (omega * dt)) by (unfold z; rewrite <- cis_add; f_equal; field).
  assert (Ce : cexp (mkC 0 (omega * dt)) = cis (omega * dt)) by (unfold cexp, cis; cbn; rewrite exp_0; f_equal; ring).
  assert (Ho : fmul (fmul (im (c := CC)) (mkC (2 * sin (omega * dt / 2) / dt) 0)) (mkC dt 0) = fsub (f := CC) z (fdiv (f := CC) f1 z)).
  { rewrite Zi. unfold z, cis. rewrite cos_neg, sin_neg. apply cpx_ext; cbn; field; lra. }
  assert (Ne : nzm (K := CC) sh (cf eps)) by (intros a k Ha Hk X; apply (f_equal cre) in X; exact (Heps a k Ha Hk X)).
  assert (Nm : nzm (K := CC) sh (cf mu)) by (intros a k Ha Hk X; apply (f_equal cre) in X; exact (Hmu a k Ha Hk X)).
  assert (Nw : nzw (K := CC) sh (cw w)) by (intros a k Ha Hk X; apply (f_equal cre) in X; exact (Hw a k Ha Hk X)).
  assert (Nd : mkC dt 0 <> c0) by (intro X; apply (f_equal cre) in X; cbn in X; lra).
  destruct (C123_passive sh Lr dt (omega * dt) Hdt Hom Fit) as [RE [RH _]]. fold Ls in RE, RH. rewrite Ce, <- ZZ in RE, RH.
  set (jj := fun n c i => - (dt * J n c i)) in *.
  set (stC := fun n => cpml_run (K := CC) sh Ls (mkC dt 0) (cw w) (cf eps) (cf mu) (map (fun n c i => fopp (f := CC) (fmul (f := CC) (mkC dt 0) (cf (J n) c i))) (seq 0 n)) (mkps (K := CC) noj noj psi0 psi0)).
  assert (ER : forall n, peq (K := CC) sh Ls (stC n) (cps (st n))).
  { intro n. apply (emb_prun sh Lr HL dt w eps mu Hw Heps Hmu _ jj s n). intros k c i. unfold cf, jj. set (y := J k c i). clearbody y. change R in y. apply cpx_ext; cbn; ring. }
  assert (P0 : forall n, zpow (K := CC) (cis (- (omega * dt / 2))) (2 * n) = cis (- (omega * (INR n * dt)))).
  { intro n. rewrite zpow_cis. f_equal. rewrite mult_INR. cbn [INR]. field. }
  assert (P1 : forall n, zpow (K := CC) (cis (- (omega * dt / 2))) (2 * n + 1) = cis (- (omega * ((INR n + / 2) * dt)))).
  { intro n. rewrite zpow_cis. f_equal. rewrite plus_INR, mult_INR. cbn [INR]. field. }
  assert (RM : forall (x : R) (k : cpx), fmul (f := CC) k (mkC x 0) = rmul x k) by (intros x k; unfold rmul; apply cpx_ext; cbn; ring).
  assert (Dp : forall a pp i L, (a < 3)%nat -> inb sh i -> here (K := CC) sh Ls a pp i = Some L -> exists L', L = clayer L' /\ made_for dt a pp L' /\ (depth sh a pp (lth L') i < lth L')%nat).
  { intros a pp i L Ha Hi Hh. unfold Ls in Hh. rewrite here_c in Hh. destruct (here (K := RF) sh Lr a pp i) as [L'|] eqn:Eh; [|discriminate]. injection Hh as <-. exists L'. split; [reflexivity|].
    unfold here in Eh. destruct (Lr a pp) as [M|] eqn:EL; [|discriminate]. destruct Fit as (F1 & _ & F3). specialize (F3 a pp M EL). destruct (inside sh a pp (lth M) i) eqn:Ei; [|discriminate]. injection Eh as <-. split; [exact (F1 a pp M EL)|].
    pose proof (inb_coord sh i a Hi ltac:(lia)) as Hc. unfold inside in Ei. unfold depth. destruct (Nat.eqb pp 0); [apply Nat.ltb_lt in Ei; exact Ei|apply Nat.leb_le in Ei; lia]. }
  assert (Sm : forall q : R, 0 < q < 1 -> cnrm (cmul (cmul (fdiv (f := CC) f1 z) (fdiv (f := CC) f1 z)) (mkC q 0)) < 1).
  { intros q Hq. rewrite Zi. set (t := - (omega * dt / 2)). pose proof (sin2_cos2 t) as P. unfold Rsqr in P. unfold cis, cnrm. cbn.
    match goal with |- ?x < 1 => replace x with ((sin t * sin t + cos t * cos t) * (sin t * sin t + cos t * cos t) * (q * q)) by ring end. rewrite P. nra. }
  unfold solves_stretched. cbv zeta. fold Ls. rewrite <- ZZ.
  refine (fade_solves sh Ls (mkC dt 0) (mkC (2 * sin (omega * dt / 2) / dt) 0) z (cw w) (cf eps) (cf mu) (fun n => cf (J n)) E H Jw HL Nd Hz Nw Ne Nm Ho RE RH _ _ _ _ _).
  - intros a pp i L Ha Hi Hh. destruct (Dp a pp i L Ha Hi Hh) as [L' [-> [M Hd]]]. apply Sm. exact (proj1 (proj1 (proj2 (made_ranges dt a pp L' _ Hdt M Hd)))).
  - intros a pp i L Ha Hi Hh. destruct (Dp a pp i L Ha Hi Hh) as [L' [-> [M Hd]]]. apply Sm. exact (proj1 (proj2 (proj2 (made_ranges dt a pp L' _ Hdt M Hd)))).
  - intros c i Hc Hi. eapply tends_ext; [|exact (proj1 (Lim c i Hc Hi))]. intro N. apply (sumN_ext CC). intros n _. rewrite Zi, P0. symmetry. refine (eq_trans (f_equal _ (proj1 (ER n) c i Hc Hi)) _). apply RM.
  - intros c i Hc Hi. eapply tends_ext; [|exact (proj1 (proj2 (Lim c i Hc Hi)))]. intro N. apply (sumN_ext CC). intros n _. rewrite Zi, P1. symmetry. refine (eq_trans (f_equal _ (proj1 (proj2 (ER (S n))) c i Hc Hi)) _). apply RM.
  - intros c i Hc Hi. eapply tends_ext; [|exact (proj2 (proj2 (Lim c i Hc Hi)))]. intro N. apply (sumN_ext CC). intros n _. rewrite Zi, P1. symmetry. apply RM.
Qed.
Print Assumptions C184_fading.

(** Two pulses of a uniform current through layers from [cpml_params]: the run starts
    without fields and memories and has none from step 3 on, with a field in between. *)
Definition pu_one : field RF := fun _ _ => 1.
Definition pu_w : widths RF := fun _ _ => 1.
Definition pu_J : nat -> field RF := fun n c _ => match n, c with O, O => -2 | 2%nat, O => 2 | _, _ => 0 end.
Example C184_example : exists Lr, fitted [20; 20; 20]%nat (/ 2) Lr /\ (exists L, Lr 1%nat 0%nat = Some L /\ lth L = 8%nat) /\
  let rest := mkps (K := RF) noj noj psi0 psi0 in
  let st n := cpml_run (K := RF) [20; 20; 20]%nat Lr (/ 2) pu_w pu_one pu_one (map (fun n c i => - (/ 2 * pu_J n c i)) (seq 0 n)) rest in
  (forall n, peq (K := RF) [20; 20; 20]%nat Lr (st (3 + n)%nat) rest) /\ pE_ (st 1%nat) 0%nat [3; 3; 3]%nat = 1.
Proof.
  destruct C123_example as [Lr [Fit [A _]]]. exists Lr. split; [exact Fit|]. split; [exact A|]. intros rest st.
  set (sh := [20; 20; 20]%nat) in *.
  assert (CR : forall p0 p1 p2 (D : nat -> nat -> arr RF) ps i, (forall a c, (c < 3)%nat -> D a c i = 0) -> (forall a pp k, (a < 3)%nat -> (pp < 2)%nat -> (k < 2)%nat -> ps a pp k i = 0) ->
    (forall a pp k, (a < 3)%nat -> (pp < 2)%nat -> (k < 2)%nat -> fst (core RF sh Lr p0 p1 p2 D ps) a pp k i = 0) /\ forall c, (c < 3)%nat -> snd (core RF sh Lr p0 p1 p2 D ps) c i = 0).
  { intros p0 p1 p2 D ps i HD HP.
    assert (X : forall a pp k, (a < 3)%nat -> (pp < 2)%nat -> (k < 2)%nat -> fst (core RF sh Lr p0 p1 p2 D ps) a pp k i = 0).
    { intros a pp k Ha Hp Hk. rewrite (core_psi RF) by assumption. unfold psi_next. rewrite HD, HP by (assumption || (unfold slotc; destruct a as [|[|[|a]]]; destruct k as [|k]; lia)). destruct (here (K := RF) sh Lr a pp i); [|reflexivity]. cbv zeta.
      set (u := p0 _ _). set (v := p1 _ _). set (x := scale_at _ _ _ _ _ _). clearbody u v x. change R in u, v, x. match goal with |- ?a = ?b => change (@eq R a b) end. cbn. ring. }
    split; [exact X|].
    assert (Y : forall a c, (a < 3)%nat -> (c < 3)%nat -> T RF sh Lr p0 p1 p2 D ps a c i = 0).
    { intros a c Ha Hc. assert (S2 : (slot_of a c < 2)%nat) by (destruct a as [|[|[|a]]]; try lia; destruct c as [|[|[|c]]]; try lia; cbn; lia).
      unfold T, memv. rewrite !X, HD by (assumption || lia). set (x := scale_at _ _ _ _ _ _). clearbody x. change R in x.
      destruct (here (K := RF) sh Lr a 0 i), (here (K := RF) sh Lr a 1 i); match goal with |- ?a = ?b => change (@eq R a b) end; cbn; ring. }
    intros c Hc. rewrite (core_curl RF) by exact Hc. destruct c as [|[|[|c]]]; [| | |lia]; rewrite !Y by lia; match goal with |- ?a = ?b => change (@eq R a b) end; cbn; ring. }
  set (inv := fun (u : nat -> R) (x : pstate RF) => (forall c i, (c < 3)%nat -> pE_ x c i = u c) /\ (forall c i, (c < 3)%nat -> pH_ x c i = 0) /\
    forall a pp k i, (a < 3)%nat -> (pp < 2)%nat -> (k < 2)%nat -> psE x a pp k i = 0 /\ psH x a pp k i = 0).
  assert (V : forall n u, inv u (st n) -> inv (fun c => u c + - (/ 2 * pu_J n c [])) (st (S n))).
  { intros n u (UE & UH & UP). assert (Tn : st (S n) = cpml_step (K := RF) sh Lr (/ 2) pu_w pu_one pu_one (fun c i => - (/ 2 * pu_J n c i)) (st n)) by (unfold st; rewrite seq_S, map_app; unfold cpml_run; rewrite fold_left_app; reflexivity).
    rewrite Tn.
    assert (DF : forall i a c, (c < 3)%nat -> deriv_forward (K := RF) sh (Some pu_w) a (pE_ (st n) c) i = 0).
    { intros i a c Hc. unfold deriv_forward, roll. rewrite !UE by exact Hc. unfold pu_w. match goal with |- ?a = ?b => change (@eq R a b) end. cbn. field. }
    set (h := snd (update_H (K := RF) sh Lr (/ 2) pu_w (psH (st n)) (pE_ (st n)) (pH_ (st n)) pu_one)).
    assert (H0 : forall c i, (c < 3)%nat -> h c i = 0).
    { intros c i Hc. unfold h. rewrite (update_H_core RF), UH by exact Hc. rewrite (proj2 (CR _ _ _ (fun a b => deriv_forward (K := RF) sh (Some pu_w) a (pE_ (st n) b)) (psH (st n)) i (DF i) (fun a pp k Ha Hp Hk => proj2 (UP a pp k i Ha Hp Hk))) c Hc).
      unfold pu_one. match goal with |- ?a = ?b => change (@eq R a b) end. cbn. field. }
    assert (DB : forall i a c, (c < 3)%nat -> deriv_back (K := RF) sh (Some pu_w) a (h c) i = 0).
    { intros i a c Hc. unfold deriv_back, roll. rewrite !H0 by exact Hc. unfold pu_w. match goal with |- ?a = ?b => change (@eq R a b) end. cbn. field. }
    split; [|split].
    - intros c i Hc. change (fadd (f := RF) (snd (update_E (K := RF) sh Lr (/ 2) pu_w (psE (st n)) (pE_ (st n)) h pu_one) c i) (- (/ 2 * pu_J n c []) / 1) = u c + - (/ 2 * pu_J n c [])).
      rewrite (update_E_core RF), UE by exact Hc. rewrite (proj2 (CR _ _ _ (fun a b => deriv_back (K := RF) sh (Some pu_w) a (h b)) (psE (st n)) i (DB i) (fun a pp k Ha Hp Hk => proj1 (UP a pp k i Ha Hp Hk))) c Hc).
      unfold pu_one. set (y := pu_J n c []). clearbody y. change R in y. match goal with |- ?a = ?b => change (@eq R a b) end. cbn. field.
    - intros c i Hc. exact (H0 c i Hc).
    - intros a pp k i Ha Hp Hk. split.
      + exact (proj1 (CR lp0e lp1e lp2e (fun a b => deriv_back (K := RF) sh (Some pu_w) a (h b)) (psE (st n)) i (DB i) (fun a pp k Ha Hp Hk => proj1 (UP a pp k i Ha Hp Hk))) a pp k Ha Hp Hk).
      + exact (proj1 (CR lp0h lp1h lp2h (fun a b => deriv_forward (K := RF) sh (Some pu_w) a (pE_ (st n) b)) (psH (st n)) i (DF i) (fun a pp k Ha Hp Hk => proj2 (UP a pp k i Ha Hp Hk))) a pp k Ha Hp Hk). }
  assert (V0 : inv (fun _ => 0) (st O)) by (split; [|split]; repeat intro; try split; reflexivity).
  pose proof (V _ _ V0) as V1.
  assert (V3 : forall n, exists u, inv u (st (3 + n)%nat) /\ forall c, (c < 3)%nat -> u c = 0).
  { induction n as [|n [u [I U]]].
    - eexists. split; [exact (V _ _ (V _ _ V1))|]. intros c _. unfold pu_J. destruct c; cbn; field.
    - eexists. split; [exact (V _ _ I)|]. intros c Hc. cbv beta. rewrite (U c Hc). unfold pu_J. cbn. ring. }
  destruct V1 as (E1 & _). split.
  - intro n. destruct (V3 n) as [u [(E3 & H3 & P3) U]]. split; [|split].
    + intros c i Hc Hi. rewrite (E3 c i Hc). exact (U c Hc).
    + intros c i Hc Hi. exact (H3 c i Hc).
    + intros a pp k i Ha Hp Hk _ _. exact (P3 a pp k i Ha Hp Hk).
  - rewrite E1 by lia. unfold pu_J. match goal with |- ?a = ?b => change (@eq R a b) end. field.
Qed.
