(** near_to_farfield: superposition, displaced sources, duality and waves that travel away (C179). *)
From Coq Require Import Reals List Arith ZArith Lia Lra Psatz Bool Field.
From Verif.Lib Require Import Num Sums Idx RealF Dft.
From Verif.Model Require Import Ndarray Bloch Farfield.
From Verif.Spec Require Import BlochSpec FarSpec.
From Verif.Proofs Require Import EmeP NdarrayP BlochP BlochP2 FarP FarP2 FarP3 FarP4.
From Verif.Props Require Import FarProps.
Import ListNotations.
Local Open Scope R_scope.

(** A field is finite and given by [f]. *)
Definition given (p : list nat) (F : nat -> list nat -> num) (f : nat -> list nat -> cpx) : Prop :=
  forall a idx, (a < 2)%nat -> inb p idx -> F a idx = Some (f a idx).

Lemma pad_comb sh a b (f g : list nat -> cpx) j : pad_field sh (fftshift sh (fun i => cadd (cmul a (f i)) (cmul b (g i)))) j
  = cadd (cmul a (pad_field sh (fftshift sh f) j)) (cmul b (pad_field sh (fftshift sh g) j)).
Proof. unfold pad_field, fftshift. destruct andb; [reflexivity|]. apply cpx_ext; cbn; ring. Qed.
Lemma fftn_comb p a b f g k : fftn p (fun j => cadd (cmul a (f j)) (cmul b (g j))) k = cadd (cmul a (fftn p f k)) (cmul b (fftn p g k)).
Proof.
  unfold fftn. transitivity (gsum (K := CC) p (fun j => fadd (f := CC) (cmul a (cmul (f j) (cis (- (2 * PI * turns p k j))))) (cmul b (cmul (g j) (cis (- (2 * PI * turns p k j))))))).
  - apply (gsum_ext (K := CC)). intros j _. cbv beta. set (x := f j). set (y := g j). set (c := cis _). clearbody x y c. apply cpx_ext; cbn; ring.
  - rewrite (gsum_add CC). refine (f_equal2 cadd _ _); exact (gsum_mul_l CC p _ _).
Qed.
Lemma spec_comb p sh a b f g idx : spec p sh (fun i => cadd (cmul a (f i)) (cmul b (g i))) idx = cadd (cmul a (spec p sh f idx)) (cmul b (spec p sh g idx)).
Proof. unfold spec. rewrite <- fftn_comb. apply fftn_ext. intros j _. apply pad_comb. Qed.

(** Superposition, with any padding. *)
Theorem C179_superposition :
  forall (sh p : list nat) (E H E' H' : nat -> list nat -> cpx) (dx dy : R) (ps : option (list nat)) (a b : cpx),
    padded sh ps = p -> length p = 2%nat -> (2 <= dim p 0)%nat -> 0 < dx -> 0 < dy ->
    let mix (u v : nat -> list nat -> cpx) := fun c i => cadd (cmul a (u c i)) (cmul b (v c i)) in
    exists F F' F'' e h e' h', near_to_farfield sh E H dx dy ps = Some F /\ near_to_farfield sh E' H' dx dy ps = Some F' /\
      near_to_farfield sh (mix E E') (mix H H') dx dy ps = Some F'' /\
      given p (fE F) e /\ given p (fH F) h /\ given p (fE F') e' /\ given p (fH F') h' /\ given p (fE F'') (mix e e') /\ given p (fH F'') (mix h h').
Proof.
  intros sh p E H E' H' dx dy ps a b Hps Hp H2 Px Py mix.
  destruct (far_form p dx dy Hp H2 Px Py sh E H ps Hps) as (F & EF & V). destruct (far_form p dx dy Hp H2 Px Py sh E' H' ps Hps) as (F' & EF' & V').
  destruct (far_form p dx dy Hp H2 Px Py sh (mix E E') (mix H H') ps Hps) as (F'' & EF'' & V'').
  set (val := fun (x : num) => match x with Some z => z | None => c0 end).
  exists F, F', F'', (fun c i => val (fE F c i)), (fun c i => val (fH F c i)), (fun c i => val (fE F' c i)), (fun c i => val (fH F' c i)).
  split; [exact EF|]. split; [exact EF'|]. split; [exact EF''|].
  assert (Two : forall (P : nat -> Prop), P 0%nat -> P 1%nat -> forall c, (c < 2)%nat -> P c) by (intros P P0 P1 c Hc; destruct c as [|[|]]; [exact P0|exact P1|lia]).
  repeat split; intros c i Hc Hi; revert c Hc; apply Two; unfold mix;
    destruct (V i Hi) as (_ & _ & A0 & A1 & B0 & B1); destruct (V' i Hi) as (_ & _ & A0' & A1' & B0' & B1'); destruct (V'' i Hi) as (_ & _ & A0'' & A1'' & B0'' & B1'');
    rewrite ?A0, ?A1, ?B0, ?B1, ?A0', ?A1', ?B0', ?B1', ?A0'', ?A1'', ?B0'', ?B1''; cbn [val]; try reflexivity.
  all: apply (f_equal Some); unfold mix; destruct (okf p dx dy i); [|apply cpx_ext; cbn; ring].
  all: unfold ce0, ce1; cbv beta; rewrite !spec_comb;
    set (x0 := spec p sh (E 0%nat) i); set (x1 := spec p sh (E 1%nat) i); set (y0 := spec p sh (H 0%nat) i); set (y1 := spec p sh (H 1%nat) i);
    set (x0' := spec p sh (E' 0%nat) i); set (x1' := spec p sh (E' 1%nat) i); set (y0' := spec p sh (H' 0%nat) i); set (y1' := spec p sh (H' 1%nat) i);
    clearbody x0 x1 y0 y1 x0' x1' y0' y1'; unfold rmul; apply cpx_ext; cbn; ring.
Qed.
Print Assumptions C179_superposition.

(** Duality: the tangential fields (H, -E) give the far field (H, -E), with any padding. *)
Theorem C179_dual :
  forall (sh p : list nat) (E H : nat -> list nat -> cpx) (dx dy : R) (ps : option (list nat)),
    padded sh ps = p -> length p = 2%nat -> (2 <= dim p 0)%nat -> 0 < dx -> 0 < dy ->
    exists F F' e h, near_to_farfield sh E H dx dy ps = Some F /\ near_to_farfield sh H (fun c i => copp (E c i)) dx dy ps = Some F' /\
      given p (fE F) e /\ given p (fH F) h /\ given p (fE F') h /\ given p (fH F') (fun c i => copp (e c i)).
Proof.
  intros sh p E H dx dy ps Hps Hp H2 Px Py.
  destruct (far_form p dx dy Hp H2 Px Py sh E H ps Hps) as (F & EF & V). destruct (far_form p dx dy Hp H2 Px Py sh H (fun c i => copp (E c i)) ps Hps) as (F' & EF' & V').
  set (val := fun (x : num) => match x with Some z => z | None => c0 end).
  exists F, F', (fun c i => val (fE F c i)), (fun c i => val (fH F c i)). split; [exact EF|]. split; [exact EF'|].
  assert (Two : forall (P : nat -> Prop), P 0%nat -> P 1%nat -> forall c, (c < 2)%nat -> P c) by (intros P P0 P1 c Hc; destruct c as [|[|]]; [exact P0|exact P1|lia]).
  assert (N : forall f i, spec p sh (fun j => copp (f j)) i = copp (spec p sh f i)).
  { intros f i. transitivity (spec p sh (fun j => cadd (cmul (copp c1) (f j)) (cmul c0 (f j))) i).
    - unfold spec. apply fftn_ext. intros j _. unfold pad_field, fftshift. destruct andb; [|reflexivity]. apply cpx_ext; cbn; ring.
    - rewrite spec_comb. apply cpx_ext; cbn; ring. }
  repeat split; intros c i Hc Hi; revert c Hc; apply Two;
    destruct (V i Hi) as (_ & _ & A0 & A1 & B0 & B1); destruct (V' i Hi) as (_ & _ & A0' & A1' & B0' & B1');
    rewrite ?A0, ?A1, ?B0, ?B1, ?A0', ?A1', ?B0', ?B1'; cbn [val]; try reflexivity.
  all: apply (f_equal Some); destruct (okf p dx dy i); [|apply cpx_ext; cbn; ring].
  all: unfold ce0, ce1; cbv beta; rewrite !N;
    set (x0 := spec p sh (E 0%nat) i); set (x1 := spec p sh (E 1%nat) i); set (y0 := spec p sh (H 0%nat) i); set (y1 := spec p sh (H 1%nat) i);
    clearbody x0 x1 y0 y1; unfold rmul; apply cpx_ext; cbn; ring.
Qed.
Print Assumptions C179_dual.

(** Without padding a displaced source radiates the same far field up to the phase
    exp(i k . displacement) of each direction. *)
Theorem C179_displaced :
  forall (sh : list nat) (E H : nat -> list nat -> cpx) (dx dy : R) (ps : option (list nat)) (b : nat) (d : Z),
    padded sh ps = sh -> length sh = 2%nat -> (2 <= dim sh 0)%nat -> 0 < dx -> 0 < dy -> (b < 2)%nat ->
    let moved (u : nat -> list nat -> cpx) := fun c i => u c (shift_ix sh b d i) in
    exists F F' e h, near_to_farfield sh E H dx dy ps = Some F /\ near_to_farfield sh (moved E) (moved H) dx dy ps = Some F' /\
      given sh (fE F) e /\ given sh (fH F) h /\
      let ph i := cis (match b with O => fkx F i * (IZR d * dx) | _ => fky F i * (IZR d * dy) end) in
      given sh (fE F') (fun c i => cmul (ph i) (e c i)) /\ given sh (fH F') (fun c i => cmul (ph i) (h c i)).
Proof.
  intros sh E H dx dy ps b d Hps Hp H2 Px Py Hb moved.
  destruct (far_form sh dx dy Hp H2 Px Py sh E H ps Hps) as (F & EF & V). destruct (far_form sh dx dy Hp H2 Px Py sh (moved E) (moved H) ps Hps) as (F' & EF' & V').
  set (val := fun (x : num) => match x with Some z => z | None => c0 end).
  exists F, F', (fun c i => val (fE F c i)), (fun c i => val (fH F c i)). split; [exact EF|]. split; [exact EF'|].
  set (ph := fun i => cis (match b with O => fkx F i * (IZR d * dx) | _ => fky F i * (IZR d * dy) end)).
  assert (Sg : forall n q, (q < n)%nat -> cis (2 * PI * (INR q * IZR d / INR n)) = cis (2 * PI * (IZR (signed_freq n q) * IZR d / INR n))).
  { intros n q Hq. assert (Pn : 0 < INR n) by (apply (lt_INR 0); lia). unfold signed_freq. destruct (2 * q <? n)%nat; [now rewrite INR_IZR_INZ|].
    rewrite minus_IZR, <- !INR_IZR_INZ. replace (2 * PI * ((INR q - INR n) * IZR d / INR n)) with (2 * PI * (INR q * IZR d / INR n) + 2 * PI * IZR (- d)) by (rewrite opp_IZR; field; lra).
    rewrite cis_add, cis_Z. apply cpx_ext; cbn; ring. }
  assert (Sp : forall f i, inb sh i -> spec sh sh (fun j => f (shift_ix sh b d j)) i = cmul (ph i) (spec sh sh f i)).
  { intros f i Hi. pose proof (fwd_inb sh Hp i Hi) as Hq. unfold spec.
    assert (Q : forall f, fftn sh (pad_field sh f) (fwd sh i) = fftn sh f (fwd sh i)).
    { intro f0. apply fftn_ext. intros j Hj. unfold pad_field. pose proof (inb_coord sh j 0 Hj ltac:(lia)). pose proof (inb_coord sh j 1 Hj ltac:(lia)).
      now rewrite !(proj2 (Nat.ltb_lt _ _)) by assumption. }
    rewrite !Q, !(fftn_fftshift sh Hp) by exact Hq. rewrite (fftn_shift sh f b d _ Hq) by lia.
    enough (P : cis (2 * PI * (INR (coord (fwd sh i) b) * IZR d / INR (dim sh b))) = ph i).
    { rewrite P. set (x := phase sh _). set (y := ph i). set (z := fftn sh f _). clearbody x y z. apply cpx_ext; cbn; ring. }
    unfold ph. destruct (V i Hi) as (-> & -> & _). destruct b as [|[|b]]; [| |lia];
      rewrite Sg by (apply (inb_coord sh); [exact Hq|lia]); f_equal; unfold kxf, kyf, dft_k;
      [pose proof (inb_coord sh _ 0 Hq ltac:(lia))|pose proof (inb_coord sh _ 1 Hq ltac:(lia))]; field; split; [lra|apply not_0_INR; lia|lra|apply not_0_INR; lia]. }
  assert (Two : forall (P : nat -> Prop), P 0%nat -> P 1%nat -> forall c, (c < 2)%nat -> P c) by (intros P P0 P1 c Hc; destruct c as [|[|]]; [exact P0|exact P1|lia]).
  cbv zeta. change (fun i : list nat => cis (match b with O => fkx F i * (IZR d * dx) | S _ => fky F i * (IZR d * dy) end)) with ph.
  repeat split; intros c i Hc Hi; revert c Hc; apply Two;
    destruct (V i Hi) as (_ & _ & A0 & A1 & B0 & B1); destruct (V' i Hi) as (_ & _ & A0' & A1' & B0' & B1');
    rewrite ?A0, ?A1, ?B0, ?B1, ?A0', ?A1', ?B0', ?B1'; cbn [val]; try reflexivity.
  all: apply (f_equal Some); fold (ph i); destruct (okf sh dx dy i); [|apply cpx_ext; cbn; ring].
  all: unfold ce0, ce1, moved; cbv beta; rewrite !Sp by exact Hi;
    set (x0 := spec sh sh (E 0%nat) i); set (x1 := spec sh sh (E 1%nat) i); set (y0 := spec sh sh (H 0%nat) i); set (y1 := spec sh sh (H 1%nat) i); set (w := ph i);
    clearbody x0 x1 y0 y1 w; unfold rmul; apply cpx_ext; cbn; ring.
Qed.
Print Assumptions C179_displaced.

(** With the default padding that is false: a source moved by one cell, none of it leaving
    the array, can radiate nothing into a direction into which it radiated before. *)
Theorem C179_displaced_padded_refuted :
  exists (sh : list nat) (E H : nat -> list nat -> cpx) (dx dy : R), length sh = 2%nat /\ 0 < dx /\ 0 < dy /\
    (forall a j, E a [(dim sh 0 - 1)%nat; j] = c0 /\ H a [(dim sh 0 - 1)%nat; j] = c0) /\
    let moved (u : nat -> list nat -> cpx) := fun c i => u c (shift_ix sh 0 (-1) i) in
    exists F F' idx e, near_to_farfield sh E H dx dy None = Some F /\ near_to_farfield sh (moved E) (moved H) dx dy None = Some F' /\
      inb (padded sh None) idx /\ fE F 0%nat idx = Some e /\ e <> c0 /\ fE F' 0%nat idx = Some c0 /\ fE F' 1%nat idx = Some c0.
Proof.
  pose proof PI_RGT_0 as P.
  set (E := fun (a : nat) (idx : list nat) => match a with O => if (coord idx 0 <? 2)%nat then c1 else c0 | _ => c0 end). set (H := fun (a : nat) (_ : list nat) => c0).
  exists [3; 1]%nat, E, H, 1, 1. split; [reflexivity|]. split; [lra|]. split; [lra|]. split; [intros [|a] j; split; reflexivity|]. intro moved.
  assert (Hps : padded [3; 1]%nat None = [4; 1]%nat) by reflexivity.
  destruct (far_form [4; 1]%nat 1 1 eq_refl ltac:(cbn; lia) Rlt_0_1 Rlt_0_1 [3; 1]%nat E H None Hps) as (F & EF & V).
  destruct (far_form [4; 1]%nat 1 1 eq_refl ltac:(cbn; lia) Rlt_0_1 Rlt_0_1 [3; 1]%nat (moved E) (moved H) None Hps) as (F' & EF' & V').
  assert (Hi : inb [4; 1]%nat [3; 0]%nat) by (constructor; [lia|]; constructor; [lia|constructor]).
  destruct (V _ Hi) as (_ & _ & A0 & _). destruct (V' _ Hi) as (_ & _ & A0' & A1' & _).
  assert (Kx : kxf [4; 1]%nat 1 [3; 0]%nat = PI / 2) by exact k_quarter.
  assert (Ky : kyf [4; 1]%nat 1 [3; 0]%nat = 0) by (change (dft_k 1 1 0 = 0); unfold dft_k, signed_freq; cbn; field).
  assert (OK : okf [4; 1]%nat 1 1 [3; 0]%nat = true).
  { unfold okf. rewrite (proj2 (invalid_false _ _ _)); [reflexivity|]. unfold kxy2, k_2pi. rewrite Kx, Ky. set (pi := PI) in *. clearbody pi. nra. }
  rewrite OK in A0, A0', A1'. destruct (angf [4; 1]%nat 1 1 [3; 0]%nat) as (_ & Tx & _). rewrite Kx in Tx.
  assert (Z : spec [4; 1]%nat [3; 1]%nat (fun _ => c0) [3; 0]%nat = c0).
  { unfold spec. change (fwd [4; 1]%nat [3; 0]%nat) with [1; 0]%nat. rewrite fft_4. assert (G : forall j, pad_field [3; 1]%nat (fftshift [3; 1]%nat (fun _ => c0)) j = c0) by (intro j; unfold pad_field, fftshift; now destruct andb). rewrite !G. apply cpx_ext; cbn; ring. }
  assert (X : spec [4; 1]%nat [3; 1]%nat (E 0%nat) [3; 0]%nat = mkC (-1) (-1)).
  { unfold spec. change (fwd [4; 1]%nat [3; 0]%nat) with [1; 0]%nat. rewrite fft_4. change (cadd (csub c0 c1) (cmul ci (csub c0 c1)) = mkC (-1) (-1)). apply cpx_ext; cbn; ring. }
  assert (X' : spec [4; 1]%nat [3; 1]%nat (moved E 0%nat) [3; 0]%nat = c0).
  { unfold spec. change (fwd [4; 1]%nat [3; 0]%nat) with [1; 0]%nat. rewrite fft_4. change (cadd (csub c1 c1) (cmul ci (csub c0 c0)) = c0). apply cpx_ext; cbn; ring. }
  exists F, F', [3; 0]%nat. eexists. split; [exact EF|]. split; [exact EF'|]. split; [exact Hi|]. split; [exact A0|].
  assert (Q : forall c t s z, ce0 c t s (fun a => match a with O => z | _ => c0 end) (fun _ => c0) = rmul t z /\ ce1 c t s (fun a => match a with O => c0 | _ => c0 end) (fun _ => c0) = c0).
  { intros. unfold ce0, ce1, rmul. split; apply cpx_ext; cbn; ring. }
  assert (XE : forall a, spec [4; 1]%nat [3; 1]%nat (E (S a)) [3; 0]%nat = c0) by (intro; exact Z).
  assert (XE' : forall a, spec [4; 1]%nat [3; 1]%nat (moved E (S a)) [3; 0]%nat = c0) by (intro; exact Z).
  assert (XH : forall a, spec [4; 1]%nat [3; 1]%nat (H a) [3; 0]%nat = c0) by (intro; exact Z).
  assert (XH' : forall a, spec [4; 1]%nat [3; 1]%nat (moved H a) [3; 0]%nat = c0) by (intro; exact Z).
  rewrite A0', A1'. unfold ce0, ce1. cbv beta. rewrite X, X', ?XE, ?XE', ?XH, ?XH'. unfold rmul.
  set (t := Tf _ _ _ _) in *. clearbody t. set (s := Sf _ _ _ _) in *. set (c := Cf _ _ _ _) in *. clearbody s c. split; [|split].
  - intro C. apply (f_equal cre) in C. cbn in C. assert (t = 0) by lra. subst t. lra.
  - apply (f_equal Some). apply cpx_ext; cbn; ring.
  - apply (f_equal Some). apply cpx_ext; cbn; ring.
Qed.
Print Assumptions C179_displaced_padded_refuted.

(** Tangential fields of a plane wave that travels towards -z. *)
Definition incoming (kx ky : R) (Ex Ey Hx Hy : cpx) : Prop :=
  let kz := - sqrt ((2 * PI) * (2 * PI) - (kx * kx + ky * ky)) in
  exists Ez, cadd (cadd (rmul kx Ex) (rmul ky Ey)) (rmul kz Ez) = c0 /\
    rmul (2 * PI) Hx = csub (rmul ky Ez) (rmul kz Ey) /\
    rmul (2 * PI) Hy = csub (rmul kz Ex) (rmul kx Ez).
Lemma incoming_out kx ky Ex Ey Hx Hy : incoming kx ky Ex Ey Hx Hy -> outgoing kx ky Ex Ey (copp Hx) (copp Hy).
Proof.
  intros (Ez & A & B & C). exists (copp Ez). split; [|split].
  - rewrite <- A. unfold rmul. apply cpx_ext; cbn; ring.
  - transitivity (copp (rmul (2 * PI) Hx)); [unfold rmul; apply cpx_ext; cbn; ring|]. rewrite B. unfold rmul. apply cpx_ext; cbn; ring.
  - transitivity (copp (rmul (2 * PI) Hy)); [unfold rmul; apply cpx_ext; cbn; ring|]. rewrite C. unfold rmul. apply cpx_ext; cbn; ring.
Qed.
(** Waves that travel away from the far side do not appear in the far field. *)
Theorem C179_incoming :
  forall (sh : list nat) (E H : nat -> list nat -> cpx) (dx dy : R) (ps : option (list nat)),
    padded sh ps = sh -> length sh = 2%nat -> (2 <= dim sh 0)%nat -> 0 < dx -> 0 < dy ->
    (forall q, inb sh q -> let kx := dft_k (dim sh 0) dx (coord q 0) in let ky := dft_k (dim sh 1) dy (coord q 1) in
       kx * kx + ky * ky < 2 * PI * (2 * PI) -> incoming kx ky (fftn sh (E 0%nat) q) (fftn sh (E 1%nat) q) (fftn sh (H 0%nat) q) (fftn sh (H 1%nat) q)) ->
    exists F, near_to_farfield sh E H dx dy ps = Some F /\ given sh (fE F) (fun _ _ => c0) /\ given sh (fH F) (fun _ _ => c0).
Proof.
  intros sh E H dx dy ps Hps Hp H2 Px Py W.
  destruct (far_form sh dx dy Hp H2 Px Py sh E H ps Hps) as (F & EF & V). exists F. split; [exact EF|].
  assert (G : forall i, inb sh i -> fE F 0%nat i = Some c0 /\ fE F 1%nat i = Some c0 /\ fH F 0%nat i = Some c0 /\ fH F 1%nat i = Some c0).
  { intros i Hi. destruct (V i Hi) as (_ & _ & A0 & A1 & B0 & B1). rewrite A0, A1, B0, B1. clear A0 A1 B0 B1.
    assert (N0 : Some (copp c0) = Some c0) by (apply (f_equal Some); apply cpx_ext; cbn; ring).
    destruct (okf sh dx dy i) eqn:OK; [|rewrite N0; repeat split].
    apply negb_true_iff, invalid_false in OK. pose proof (fwd_inb sh Hp i Hi) as Hq. unfold kxy2, k_2pi in OK.
    pose proof (incoming_out _ _ _ _ _ _ (W _ Hq OK)) as O. change (dft_k (dim sh 0) dx (coord (fwd sh i) 0)) with (kxf sh dx i) in O. change (dft_k (dim sh 1) dy (coord (fwd sh i) 1)) with (kyf sh dy i) in O.
    destruct (angf sh dx dy i) as (U & Tx & Ty).
    assert (LE : kxy2 (kxf sh dx) (kyf sh dy) i < k_2pi * k_2pi) by exact OK.
    pose proof (cph_pos _ _ _ LE) as Pc. pose proof (cph_sq (kxf sh dx) (kyf sh dy) i ltac:(lra)) as Qc.
    destruct (outgoing_rt _ _ _ _ _ _ _ (Cf sh dx dy i) _ _ O Tx Ty U Pc Qc) as [R1 R2].
    assert (Q : forall f, spec sh sh f i = cmul (phase sh (fwd sh i)) (fftn sh f (fwd sh i))).
    { intro f. unfold spec. rewrite <- (fftn_fftshift sh Hp) by exact Hq. apply fftn_ext. intros j Hj. unfold pad_field.
      pose proof (inb_coord sh j 0 Hj ltac:(lia)). pose proof (inb_coord sh j 1 Hj ltac:(lia)). now rewrite !(proj2 (Nat.ltb_lt _ _)) by assumption. }
    unfold ce0, ce1. cbv beta. rewrite !Q.
    set (x0 := fftn sh (E 0%nat) _) in *. set (x1 := fftn sh (E 1%nat) _) in *. set (y0 := fftn sh (H 0%nat) _) in *. set (y1 := fftn sh (H 1%nat) _) in *.
    set (w := phase sh _). set (t := Tf _ _ _ _) in *. set (s := Sf _ _ _ _) in *. change (0 < Cf sh dx dy i) in Pc. set (c := Cf sh dx dy i) in *.
    clearbody x0 x1 y0 y1 w t s c. clear - R1 R2 Pc N0.
    assert (Z0 : cadd (cadd (rmul t x0) (rmul s x1)) (rmul c (csub (rmul t y1) (rmul s y0))) = c0).
    { transitivity (csub (cadd (rmul t x0) (rmul s x1)) (rmul c (csub (rmul t (copp y1)) (rmul s (copp y0))))); [unfold rmul; apply cpx_ext; cbn; ring|].
      rewrite R1. unfold rmul, cdiv, cinv, cnrm. apply cpx_ext; cbn; field; lra. }
    assert (Z1 : csub (rmul c (csub (rmul t x1) (rmul s x0))) (cadd (rmul s y1) (rmul t y0)) = c0).
    { transitivity (cadd (rmul c (csub (rmul t x1) (rmul s x0))) (cadd (rmul t (copp y0)) (rmul s (copp y1)))); [unfold rmul; apply cpx_ext; cbn; ring|].
      rewrite R2. unfold rmul. apply cpx_ext; cbn; ring. }
    assert (Y0 : cadd (cadd (rmul t (cmul w x0)) (rmul s (cmul w x1))) (rmul c (csub (rmul t (cmul w y1)) (rmul s (cmul w y0)))) = c0).
    { transitivity (cmul w (cadd (cadd (rmul t x0) (rmul s x1)) (rmul c (csub (rmul t y1) (rmul s y0))))); [unfold rmul; apply cpx_ext; cbn; ring|]. rewrite Z0. apply cpx_ext; cbn; ring. }
    assert (Y1 : csub (rmul c (csub (rmul t (cmul w x1)) (rmul s (cmul w x0)))) (cadd (rmul s (cmul w y1)) (rmul t (cmul w y0))) = c0).
    { transitivity (cmul w (csub (rmul c (csub (rmul t x1) (rmul s x0))) (cadd (rmul s y1) (rmul t y0)))); [unfold rmul; apply cpx_ext; cbn; ring|]. rewrite Z1. apply cpx_ext; cbn; ring. }
    rewrite Y0, Y1, N0. repeat split. }
  split; intros c i Hc Hi; destruct (G i Hi) as (A & B & C & D); destruct c as [|[|]]; try assumption; lia.
Qed.
Print Assumptions C179_incoming.
(** The waves of C51 with H reversed. *)
Example C179_example : exists E H, (exists idx, inb [2; 2]%nat idx /\ E 1%nat idx <> c0) /\
  forall q, inb [2; 2]%nat q -> let kx := dft_k 2 1 (coord q 0) in let ky := dft_k 2 1 (coord q 1) in
    incoming kx ky (fftn [2; 2]%nat (E 0%nat) q) (fftn [2; 2]%nat (E 1%nat) q) (fftn [2; 2]%nat (H 0%nat) q) (fftn [2; 2]%nat (H 1%nat) q).
Proof.
  destruct waves_case as (E & H & N & W). exists E, (fun c i => cmul (copp c1) (H c i)). split; [exact N|]. intros q Hq kx ky.
  destruct (W q Hq) as (_ & Ez & A & B & C). rewrite !fftn_scale. exists (copp Ez).
  change (dim [2; 2]%nat 0) with 2%nat in *. change (dim [2; 2]%nat 1) with 2%nat in *. fold kx ky in A, B, C.
  set (x0 := fftn _ (E 0%nat) q) in *. set (x1 := fftn _ (E 1%nat) q) in *. set (y0 := fftn _ (H 0%nat) q) in *. set (y1 := fftn _ (H 1%nat) q) in *. clearbody x0 x1 y0 y1. split; [|split].
  - rewrite <- A. unfold rmul. apply cpx_ext; cbn; ring.
  - transitivity (copp (rmul (2 * PI) y0)); [unfold rmul; apply cpx_ext; cbn; ring|]. rewrite B. unfold rmul. apply cpx_ext; cbn; ring.
  - transitivity (copp (rmul (2 * PI) y1)); [unfold rmul; apply cpx_ext; cbn; ring|]. rewrite C. unfold rmul. apply cpx_ext; cbn; ring.
Qed.
