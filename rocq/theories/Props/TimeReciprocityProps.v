(** Exchange of source and detector in FDTD runs (C166). *)
From Coq Require Import List Arith ZArith Lia Field Bool QArith Qcanon.
From Verif.Lib Require Import Num Sums Idx Mat Dft.
From Verif.Model Require Import Fdmath Fdtd.
From Verif.Spec Require Import Yee FdtdRun.
From Verif.Proofs Require Import FdmathP FdmathP2 FdtdP TimeRecipP.
Import ListNotations.

(** ** C166: reciprocity in the time domain *)
(** The state after the first n steps of a run that starts with no field and injects the
    current j_m in step m. *)
Definition driven_state {K : Fld} (sh : list nat) (dt : K) (we wh : widths K) (eps : field K) (mu : option (field K))
    (j : nat -> field K) (n : nat) : state K :=
  run sh dt (Some (we, wh)) eps mu (map j (seq 0 n)) (mkst noj noj).

(** The sum of x . y over the grid, each component weighted with the volume of its edge. *)
Definition reaction {K : Fld} (sh : list nat) (we wh : widths K) (x y : field K) : K :=
  fsum sh (fun c i => (vol_e we wh c i * (x c i * y c i))%K).

(** One in component [c] of the cell [i], zero elsewhere. *)
Definition unit_at {K : Fld} (c : nat) (i : list nat) : field K :=
  fun c' i' => if (c' =? c)%nat then if list_eq_dec Nat.eq_dec i' i then f1 else f0 else f0.

(** For any two histories of currents, the currents of the first run react with the
    fields of the second, in reversed time, as those of the second with the first. *)
Theorem C166_time_reciprocity :
  forall (K : Fld) (sh : list nat) (dt : K) (we wh : widths K) (eps : field K) (mu : option (field K))
         (j1 j2 : nat -> field K) (n : nat),
    length sh = 3%nat -> nzw sh we -> nzw sh wh -> nzm sh eps -> nzm_opt sh mu ->
    sumN n (fun m => reaction sh we wh (j1 m) (sE (driven_state sh dt we wh eps mu j2 (n - 1 - m))))
    = sumN n (fun m => reaction sh we wh (sE (driven_state sh dt we wh eps mu j1 m)) (j2 (n - 1 - m)%nat)).
Proof.
  intros K sh dt we wh eps mu j1 j2 n HL He Hh Hp Hm.
  exact (recip K sh we wh dt eps mu HL He Hh Hp Hm j1 j2 n).
Qed.
Print Assumptions C166_time_reciprocity.

Section X.
  Variable K : Fld.
  Add Field Kfield : (fth K).
  Local Open Scope fld_scope.
  Variable sh : list nat.
  Variables we wh : widths K.

  Lemma reaction_scale_l a x y : reaction sh we wh (fun c i => a * x c i) y = a * reaction sh we wh x y.
  Proof.
    unfold reaction. transitivity (a * fsum sh (fun c i => vol_e we wh c i * (x c i * y c i)) + 0 * fsum sh (fun c i => vol_e we wh c i * (x c i * y c i))); [|ring].
    rewrite <- fs_lin. apply fs_ext. intros c i _ _. cbv beta. ring.
  Qed.
  Lemma reaction_sym x y : reaction sh we wh x y = reaction sh we wh y x.
  Proof. unfold reaction. apply fs_ext. intros c i _ _. ring. Qed.
  Lemma reaction_scale_r a x y : reaction sh we wh x (fun c i => a * y c i) = a * reaction sh we wh x y.
  Proof. rewrite reaction_sym, reaction_scale_l, reaction_sym. reflexivity. Qed.

  Definition pulse (m : nat) : K := match m with O => 1 | _ => 0 end.
  Lemma pulse_first n (u : nat -> K) : sumN (S n) (fun m => pulse m * u m) = u 0%nat.
  Proof. rewrite (sumN_shift K). cbn [pulse]. rewrite (sumN_zero K) by (intros; cbn [pulse]; ring). ring. Qed.
  Lemma pulse_last n (u : nat -> K) : sumN (S n) (fun m => pulse (n - m) * u m) = u n.
  Proof.
    cbn [sumN]. rewrite (sumN_zero K), Nat.sub_diag. { cbn [pulse]. ring. }
    intros i Hi. destruct (n - i)%nat eqn:Q; [lia|]. cbn [pulse]. ring.
  Qed.

  Lemma reaction_point c i y : (c < 3)%nat -> inb sh i -> reaction sh we wh (unit_at c i) y = vol_e we wh c i * y c i.
  Proof.
    intros Hc Hi.
    assert (A : forall c', gsum sh (fun i' => vol_e we wh c' i' * (unit_at c i c' i' * y c' i')) = if (c' =? c)%nat then vol_e we wh c i * y c i else 0).
    { intro c'. unfold unit_at. destruct (Nat.eqb_spec c' c) as [-> | N].
      - rewrite (gsum_single K sh i); [|exact Hi|].
        + destruct (list_eq_dec Nat.eq_dec i i) as [_|X]; [ring|now destruct X].
        + intros i' _ N. destruct (list_eq_dec Nat.eq_dec i' i) as [X|_]; [now destruct N|ring].
      - rewrite (gsum_single K sh i); [ring|exact Hi|]. intros. ring. }
    unfold reaction, fsum. rewrite !A. destruct c as [|[|[|c]]]; [| | |lia]; cbn [Nat.eqb]; ring.
  Qed.

  Variable dt : K.
  Variable eps : field K.
  Variable mu : option (field K).
  Hypothesis HL : length sh = 3%nat.
  Hypothesis He : nzw sh we.
  Hypothesis Hh : nzw sh wh.
  Hypothesis Heps : nzm sh eps.
  Hypothesis Hmu : nzm_opt sh mu.
  Notation ds f p := (driven_state sh dt we wh eps mu (fun m c i => f m * p c i)).

  Lemma conv_recip (f g : nat -> K) (p q : field K) n :
    sumN (S n) (fun m => f m * reaction sh we wh p (sE (ds g q (n - m)%nat)))
    = sumN (S n) (fun m => g (n - m)%nat * reaction sh we wh (sE (ds f p m)) q).
  Proof.
    pose proof (C166_time_reciprocity K sh dt we wh eps mu (fun m c i => f m * p c i) (fun m c i => g m * q c i) (S n) HL He Hh Heps Hmu) as Q.
    replace (S n - 1)%nat with n in Q by lia.
    refine (eq_trans (eq_trans _ Q) _); apply sumN_ext; intros m _; [now rewrite reaction_scale_l|now rewrite reaction_scale_r].
  Qed.

  Lemma exchange (f : nat -> K) (p q : field K) n : reaction sh we wh q (sE (ds f p n)) = reaction sh we wh p (sE (ds f q n)).
  Proof.
    (* response to p f seen at q = f * impulse response *)
    assert (A : reaction sh we wh p (sE (ds f q n)) = sumN (S n) (fun m => f (n - m)%nat * reaction sh we wh (sE (ds pulse p m)) q)).
    { rewrite <- conv_recip. rewrite pulse_first. now rewrite Nat.sub_0_r. }
    assert (B : reaction sh we wh (sE (ds f p n)) q = sumN (S n) (fun m => f m * reaction sh we wh p (sE (ds pulse q (n - m)%nat)))).
    { rewrite conv_recip. now rewrite pulse_last. }
    assert (C : forall k, reaction sh we wh p (sE (ds pulse q k)) = reaction sh we wh (sE (ds pulse p k)) q).
    { intro k. pose proof (conv_recip pulse pulse p q k) as Q. rewrite pulse_first, pulse_last, Nat.sub_0_r in Q. exact Q. }
    rewrite reaction_sym, A, B.
    rewrite <- (sumN_reindex K (S n) (fun m => f m * reaction sh we wh p (sE (ds pulse q (n - m)%nat))) (fun m => (n - m)%nat) (fun m => (n - m)%nat)) by (intros; lia).
    apply sumN_ext. intros m Hm. cbv beta. rewrite C. replace (n - (n - m))%nat with m by lia. reflexivity.
  Qed.
End X.

(** Source and detector may be exchanged: the current f_m p drives through the detector
    pattern q at every step what f_m q drives through p. *)
Theorem C166_exchange :
  forall (K : Fld) (sh : list nat) (dt : K) (we wh : widths K) (eps : field K) (mu : option (field K))
         (f : nat -> K) (p q : field K) (n : nat),
    length sh = 3%nat -> nzw sh we -> nzw sh wh -> nzm sh eps -> nzm_opt sh mu ->
    reaction sh we wh q (sE (driven_state sh dt we wh eps mu (fun m c i => (f m * p c i)%K) n))
    = reaction sh we wh p (sE (driven_state sh dt we wh eps mu (fun m c i => (f m * q c i)%K) n)).
Proof. intros K sh dt we wh eps mu f p q n HL He Hh Hp Hm. now apply exchange. Qed.
Print Assumptions C166_exchange.

(** Between two points: what a current in component c1 of cell i1 radiates into component
    c2 of cell i2 equals what the same signal at the second point radiates into the first,
    up to the volumes of the two edges. *)
Theorem C166_points :
  forall (K : Fld) (sh : list nat) (dt : K) (we wh : widths K) (eps : field K) (mu : option (field K))
         (f : nat -> K) (c1 c2 : nat) (i1 i2 : list nat) (n : nat),
    length sh = 3%nat -> nzw sh we -> nzw sh wh -> nzm sh eps -> nzm_opt sh mu ->
    (c1 < 3)%nat -> (c2 < 3)%nat -> inb sh i1 -> inb sh i2 ->
    (vol_e we wh c2 i2 * sE (driven_state sh dt we wh eps mu (fun m c i => (f m * unit_at c1 i1 c i)%K) n) c2 i2)%K
    = (vol_e we wh c1 i1 * sE (driven_state sh dt we wh eps mu (fun m c i => (f m * unit_at c2 i2 c i)%K) n) c1 i1)%K.
Proof.
  intros K sh dt we wh eps mu f c1 c2 i1 i2 n HL He Hh Hp Hm Hc1 Hc2 Hi1 Hi2.
  rewrite <- !(reaction_point K sh we wh) by assumption. now apply exchange.
Qed.
Print Assumptions C166_points.

(** A 2x2x2 grid with unequal widths, a varying permittivity and permeability, and a signal
    that changes: the z current of one cell drives the x field of another. *)
Local Open Scope fld_scope.
Definition rt_sh : list nat := [2;2;2]%nat.
Definition rt_we : widths QcF := fun a k => qz (1 + Z.of_nat a + Z.of_nat k).
Definition rt_wh : widths QcF := fun a k => qz (2 + Z.of_nat (k * a)).
Definition rt_eps : field QcF := fun c i => qz (1 + Z.of_nat c + Z.of_nat (coord i 0)).
Definition rt_mu : field QcF := fun c i => qz (1 + Z.of_nat (coord i 1)).
Definition rt_f (m : nat) : QcF := qz (1 + Z.of_nat m).
Definition rt_e (c : nat) (i : list nat) (n : nat) : field QcF :=
  sE (driven_state rt_sh (qz 1 / qz 2) rt_we rt_wh rt_eps (Some rt_mu) (fun m c' i' => rt_f m * unit_at c i c' i') n).
Example C166_case :
  (forall n, qz 12 * rt_e 2 [0;1;0]%nat n 0%nat [1;1;0]%nat = qz 18 * rt_e 0 [1;1;0]%nat n 2%nat [0;1;0]%nat)
  /\ rt_e 2 [0;1;0]%nat 2 0%nat [1;1;0]%nat <> 0 /\ rt_e 2 [0;1;0]%nat 3 0%nat [1;1;0]%nat <> rt_e 2 [0;1;0]%nat 2 0%nat [1;1;0]%nat.
Proof.
  split; [|split].
  - intro n.
    pose proof (C166_points QcF rt_sh (qz 1 / qz 2) rt_we rt_wh rt_eps (Some rt_mu) rt_f 2 0 [0;1;0]%nat [1;1;0]%nat n eq_refl) as Q.
    assert (V1 : vol_e rt_we rt_wh 0 [1;1;0]%nat = qz 12) by (apply Qc_is_canon; vm_compute; reflexivity).
    assert (V2 : vol_e rt_we rt_wh 2 [0;1;0]%nat = qz 18) by (apply Qc_is_canon; vm_compute; reflexivity).
    rewrite V1, V2 in Q. apply Q; try lia.
    + intros a i _ _. apply qz_nz. lia.
    + intros a i _ _. apply qz_nz. lia.
    + intros c i _ _. apply qz_nz. lia.
    + intros c i _ _. apply qz_nz. lia.
    + repeat constructor.
    + repeat constructor.
  - intro X. apply (f_equal (fun x : Qc => Qeq_bool (this x) 0)) in X. vm_compute in X. discriminate.
  - intro X. apply (f_equal (fun x : Qc => Qeq_bool (this x) (-1 # 192))) in X. vm_compute in X. discriminate.
Qed.
