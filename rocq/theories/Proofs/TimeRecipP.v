(** Reciprocity of FDTD runs. *)
From Coq Require Import List Arith ZArith Lia Field Bool.
From Verif.Lib Require Import Num Sums Idx Mat.
From Verif.Model Require Import Fdmath Fdtd.
From Verif.Spec Require Import Yee FdtdRun.
From Verif.Proofs Require Import FdmathP FdmathP2 FdtdP ResonanceP.
Import ListNotations.

Section T.
  Variable K : Fld.
  Add Field Kfield : (fth K).
  Local Open Scope fld_scope.
  Variable sh : list nat.
  Variables we wh : widths K.
  Variable dt : K.
  Variable eps : field K.
  Variable mu : option (field K).
  Hypothesis HL : length sh = 3%nat.
  Hypothesis He : nzw sh we.
  Hypothesis Hh : nzw sh wh.
  Hypothesis Heps : nzm sh eps.
  Hypothesis Hmu : nzm_opt sh mu.
  Notation d := (Some (we, wh)).
  Notation stp := (step sh dt d eps mu).
  Definition pe (f g : field K) : K := fsum sh (fun c i => vol_e we wh c i * (f c i * g c i)).
  Definition ph (f g : field K) : K := fsum sh (fun c i => vol_h we wh c i * (f c i * g c i)).
  Definition xe (f : field K) : field K := fun c i => eps c i * f c i.
  Definition xm (f : field K) : field K := fun c i => matl mu c i * f c i.

  Lemma fs_ext (f g : nat -> list nat -> K) : (forall c i, (c < 3)%nat -> inb sh i -> f c i = g c i) -> fsum sh f = fsum sh g.
  Proof.
    clear HL He Hh Heps Hmu. intro H. unfold fsum.
    rewrite (gsum_ext sh (f 0%nat) (g 0%nat)) by (intros i Hi; apply H; [lia|exact Hi]).
    rewrite (gsum_ext sh (f 1%nat) (g 1%nat)) by (intros i Hi; apply H; [lia|exact Hi]).
    rewrite (gsum_ext sh (f 2%nat) (g 2%nat)) by (intros i Hi; apply H; [lia|exact Hi]). reflexivity.
  Qed.
  Lemma fs_zero (f : nat -> list nat -> K) : (forall c i, f c i = 0) -> fsum sh f = 0.
  Proof. intro H. rewrite (fs_ext f (fun c i => 0 * 0)) by (intros; rewrite H; ring). unfold fsum. rewrite !gsum_mul_l. ring. Qed.
  Lemma fs_lin (a b : K) (f g : nat -> list nat -> K) : fsum sh (fun c i => a * f c i + b * g c i) = a * fsum sh f + b * fsum sh g.
  Proof. unfold fsum. rewrite !(gsum_add), !(gsum_mul_l). ring. Qed.
  Lemma ml_nz c i : (c < 3)%nat -> inb sh i -> matl mu c i <> 0.
  Proof. intros Hc Hi. unfold matl. destruct mu as [m|]; [exact (Hmu c i Hc Hi)|apply (F_1_neq_0 (fth K))]. Qed.

  Lemma recip_step (s1 s2 : state K) (j1 j2 : field K) :
    let t1 := stp j1 s1 in let t2 := stp j2 s2 in
    (pe (sE t1) (xe (sE s2)) - ph (sH t1) (xm (sH s2))) - (pe (sE s1) (xe (sE t2)) - ph (sH s1) (xm (sH t2)))
    = pe j1 (sE s2) - pe (sE s1) j2.
  Proof.
    intros t1 t2.
    pose proof (curl_adjoint K sh we wh (sE s2) (sH t1) HL He Hh) as A1.
    pose proof (curl_adjoint K sh we wh (sE s1) (sH t2) HL He Hh) as A2.
    assert (E1 : forall c i, (c < 3)%nat -> inb sh i -> eps c i * sE t1 c i = eps c i * sE s1 c i + dt * curl_back sh (Some wh) (sH t1) c i + j1 c i).
    { intros c i Hc Hi. unfold t1, step, maxwell_e. cbn [sE sH option_map snd]. field. now apply Heps. }
    assert (E2 : forall c i, (c < 3)%nat -> inb sh i -> eps c i * sE t2 c i = eps c i * sE s2 c i + dt * curl_back sh (Some wh) (sH t2) c i + j2 c i).
    { intros c i Hc Hi. unfold t2, step, maxwell_e. cbn [sE sH option_map snd]. field. now apply Heps. }
    assert (H1 : forall c i, (c < 3)%nat -> inb sh i -> matl mu c i * sH s1 c i = matl mu c i * sH t1 c i + dt * curl_forward sh (Some we) (sE s1) c i).
    { intros c i Hc Hi. unfold t1, step, maxwell_h. cbn [sE sH option_map fst]. pose proof (ml_nz c i Hc Hi) as N. unfold matl in *. destruct mu; [field; exact N|ring]. }
    assert (H2 : forall c i, (c < 3)%nat -> inb sh i -> matl mu c i * sH s2 c i = matl mu c i * sH t2 c i + dt * curl_forward sh (Some we) (sE s2) c i).
    { intros c i Hc Hi. unfold t2, step, maxwell_h. cbn [sE sH option_map fst]. pose proof (ml_nz c i Hc Hi) as N. unfold matl in *. destruct mu; [field; exact N|ring]. }
    set (e := pe (sE s1) (xe (sE s2))). set (h := ph (sH t1) (xm (sH t2))).
    assert (P1 : pe (sE t1) (xe (sE s2)) = e + (dt * fsum sh (fun c i => vol_e we wh c i * (sE s2 c i * curl_back sh (Some wh) (sH t1) c i)) + 1 * pe j1 (sE s2))).
    { unfold e, pe, xe. rewrite <- fs_lin. transitivity (1 * fsum sh (fun c i => vol_e we wh c i * (sE s1 c i * (eps c i * sE s2 c i))) + 1 * fsum sh (fun c i => dt * (vol_e we wh c i * (sE s2 c i * curl_back sh (Some wh) (sH t1) c i)) + 1 * (vol_e we wh c i * (j1 c i * sE s2 c i)))); [|ring].
      rewrite <- fs_lin. apply fs_ext. intros c i Hc Hi. transitivity (vol_e we wh c i * (sE s2 c i * (eps c i * sE t1 c i))); [ring|]. rewrite (E1 c i Hc Hi). ring. }
    assert (P2 : pe (sE s1) (xe (sE t2)) = e + (dt * fsum sh (fun c i => vol_e we wh c i * (sE s1 c i * curl_back sh (Some wh) (sH t2) c i)) + 1 * pe (sE s1) j2)).
    { unfold e, pe, xe. rewrite <- fs_lin. transitivity (1 * fsum sh (fun c i => vol_e we wh c i * (sE s1 c i * (eps c i * sE s2 c i))) + 1 * fsum sh (fun c i => dt * (vol_e we wh c i * (sE s1 c i * curl_back sh (Some wh) (sH t2) c i)) + 1 * (vol_e we wh c i * (sE s1 c i * j2 c i)))); [|ring].
      rewrite <- fs_lin. apply fs_ext. intros c i Hc Hi. rewrite (E2 c i Hc Hi). ring. }
    assert (P3 : ph (sH t1) (xm (sH s2)) = 1 * h + dt * fsum sh (fun c i => vol_h we wh c i * (sH t1 c i * curl_forward sh (Some we) (sE s2) c i))).
    { unfold h, ph, xm. rewrite <- fs_lin. apply fs_ext. intros c i Hc Hi. rewrite (H2 c i Hc Hi). ring. }
    assert (P4 : ph (sH s1) (xm (sH t2)) = 1 * h + dt * fsum sh (fun c i => vol_h we wh c i * (sH t2 c i * curl_forward sh (Some we) (sE s1) c i))).
    { unfold h, ph, xm. rewrite <- fs_lin. apply fs_ext. intros c i Hc Hi. transitivity (vol_h we wh c i * (sH t2 c i * (matl mu c i * sH s1 c i))); [ring|]. rewrite (H1 c i Hc Hi). ring. }
    rewrite P1, P2, P3, P4, A1, A2. ring.
  Qed.

  Definition st0 : state K := mkst (fun _ _ => 0) (fun _ _ => 0).
  Definition after (j : nat -> field K) (n : nat) : state K := run sh dt d eps mu (map j (seq 0 n)) st0.
  Lemma after_S j n : after j (S n) = stp (j n) (after j n).
  Proof. unfold after, run. rewrite seq_S, map_app, fold_left_app. reflexivity. Qed.

  Lemma recip j1 j2 n :
    sumN n (fun m => pe (j1 m) (sE (after j2 (n - 1 - m)))) = sumN n (fun m => pe (sE (after j1 m)) (j2 (n - 1 - m)%nat)).
  Proof.
    set (T := fun m => pe (sE (after j1 m)) (xe (sE (after j2 (n - m)))) - ph (sH (after j1 m)) (xm (sH (after j2 (n - m))))).
    pose proof (sumN_telescope K n T) as Q.
    rewrite (sumN_ext K n _ (fun m => pe (j1 m) (sE (after j2 (n - 1 - m))) - pe (sE (after j1 m)) (j2 (n - 1 - m)%nat))) in Q.
    2:{ intros m Hm. unfold T. replace (n - m)%nat with (S (n - 1 - m)) by lia. replace (n - S m)%nat with (n - 1 - m)%nat by lia. rewrite !after_S. apply recip_step. }
    rewrite (sumN_sub K) in Q.
    assert (Z0 : forall f, pe (fun _ _ => 0) f = 0) by (intro f; unfold pe; apply fs_zero; intros; ring).
    assert (Z1 : forall f, ph (fun _ _ => 0) f = 0) by (intro f; unfold ph; apply fs_zero; intros; ring).
    assert (Z2 : forall f, pe f (xe (fun _ _ => 0)) = 0) by (intro f; unfold pe, xe; apply fs_zero; intros; ring).
    assert (Z3 : forall f, ph f (xm (fun _ _ => 0)) = 0) by (intro f; unfold ph, xm; apply fs_zero; intros; ring).
    assert (T0 : T 0%nat = 0). { unfold T. change (after j1 0) with st0. cbn [st0 sE sH]. rewrite Z0, Z1. ring. }
    assert (Tn : T n = 0). { unfold T. rewrite Nat.sub_diag. change (after j2 0) with st0. cbn [st0 sE sH]. rewrite Z2, Z3. ring. }
    rewrite T0, Tn in Q. set (x := sumN n _) in *. set (y := sumN n (fun m => pe (sE (after j1 m)) _)) in *. clearbody x y.
    transitivity (x - y + y); [ring|]. rewrite Q. ring.
  Qed.

  (** A convolution with a signal that starts at once determines the other factor. *)
  Lemma conv_inj (f u v : nat -> K) n : f 0%nat <> 0 -> (forall m, (m <= n)%nat -> sumN (S m) (fun k => f k * u (m - k)%nat) = sumN (S m) (fun k => f k * v (m - k)%nat)) ->
    forall m, (m <= n)%nat -> u m = v m.
  Proof.
    clear HL He Hh Heps Hmu. intros F0 H m. induction m as [m IH] using lt_wf_ind. intro Hm. pose proof (H m Hm) as Q. rewrite !(sumN_shift K) in Q. rewrite !Nat.sub_0_r in Q.
    rewrite (sumN_ext K m (fun i => f (S i) * u (m - S i)%nat) (fun i => f (S i) * v (m - S i)%nat)) in Q.
    2:{ intros i Hi. now rewrite (IH (m - S i)%nat ltac:(lia) ltac:(lia)). }
    set (y := sumN m _) in Q. clearbody y. assert (E : f 0%nat * u m = f 0%nat * v m).
    { transitivity (f 0%nat * u m + y - y); [ring|]. rewrite Q. ring. }
    transitivity (/ f 0%nat * (f 0%nat * u m)); [field; exact F0|]. rewrite E. field. exact F0.
  Qed.
End T.
