(** The far field under exchange of the two axes (C182). *)
From Coq Require Import Reals List Arith ZArith Lia Lra Psatz Bool.
From Verif.Lib Require Import Num Sums Idx RealF Dft.
From Verif.Model Require Import Ndarray Bloch Farfield.
From Verif.Spec Require Import BlochSpec FarSpec.
From Verif.Proofs Require Import EmeP NdarrayP BlochP BlochP2 FarP FarP2 FarP3 FarP4.
From Verif.Props Require Import FarProps2.
Import ListNotations.
Local Open Scope R_scope.

(** The mirror image at the diagonal x = y of a vector field; E is a vector, H changes its
    sign in addition. *)
Definition mirrored (u : nat -> list nat -> cpx) : nat -> list nat -> cpx := fun c i => u (1 - c)%nat (rev i).

Lemma two (l : list nat) : length l = 2%nat -> exists a b, l = [a; b].
Proof. destruct l as [|a [|b [|]]]; try discriminate. eauto. Qed.
Lemma inb_two m0 m1 idx : inb [m0; m1] idx -> exists a b, idx = [a; b] /\ (a < m0)%nat /\ (b < m1)%nat.
Proof. intro H. inversion H as [|? ? ? ? A B]; subst. inversion B as [|? ? ? ? A' B']; subst. inversion B'; subst. eauto. Qed.
Lemma spec_swap p sh f idx : length p = 2%nat -> length sh = 2%nat -> inb p idx ->
  spec (rev p) (rev sh) (fun i => f (rev i)) (rev idx) = spec p sh f idx.
Proof.
  intros Hp Hs Hi. destruct (two p Hp) as (m0 & m1 & ->). destruct (two sh Hs) as (n0 & n1 & ->). destruct (inb_two _ _ _ Hi) as (a & b & -> & A & B).
  unfold spec, fftn. cbn [rev app]. 
  change (fwd [m1; m0] [b; a]) with [cyc m1 (- Z.of_nat (m1 / 2)) b; cyc m0 (- Z.of_nat (m0 / 2)) a].
  change (fwd [m0; m1] [a; b]) with [cyc m0 (- Z.of_nat (m0 / 2)) a; cyc m1 (- Z.of_nat (m1 / 2)) b].
  set (u := cyc m0 _ a). set (v := cyc m1 _ b). clearbody u v. cbn [gsum]. rewrite (sumN_swap CC).
  apply (sumN_ext CC). intros j0 _. apply (sumN_ext CC). intros j1 _.
  refine (f_equal2 cmul _ (f_equal cis _)).
  - unfold pad_field, fftshift. cbn. rewrite andb_comm. reflexivity.
  - cbn. f_equal. f_equal. ring.
Qed.
Lemma dir_swap kx ky kx' ky' (i i' : list nat) : kx' i' = ky i -> ky' i' = kx i ->
  cph kx' ky' i' = cph kx ky i /\ invalid kx' ky' i' = invalid kx ky i /\ at_0 kx' ky' i' = at_0 kx ky i /\
  (at_0 kx ky i = false -> cos_th kx' ky' i' = sin_th kx ky i /\ sin_th kx' ky' i' = cos_th kx ky i).
Proof.
  intros A B. assert (Q : kxy2 kx' ky' i' = kxy2 kx ky i) by (unfold kxy2; rewrite A, B; ring).
  assert (Z : at_0 kx' ky' i' = at_0 kx ky i) by (unfold at_0; rewrite A, B; destruct (Req_EM_T (kx i) 0), (Req_EM_T (ky i) 0); reflexivity).
  split; [unfold cph; now rewrite Q|]. split; [unfold invalid; now rewrite Q|]. split; [exact Z|].
  intro N. unfold cos_th, sin_th. rewrite Z, N, Q, A, B. split; reflexivity.
Qed.
Lemma at_0_iff kx ky i : at_0 kx ky i = true <-> kx i = 0 /\ ky i = 0.
Proof. unfold at_0. destruct (Req_EM_T (kx i) 0), (Req_EM_T (ky i) 0); split; intros; try discriminate; try tauto; auto. Qed.

(** The far field of the mirror image, with any padding.  Away from the direction of the
    normal it is the mirror image of the far field: the component along the inclination is
    kept, the one along the azimuth changes its sign.  In the direction of the normal the
    two components are exchanged instead, since the code refers them to the x axis there.
    The intensity is mirrored in every direction. *)
Theorem C182_mirror_image :
  forall (sh p : list nat) (E H : nat -> list nat -> cpx) (dx dy : R) (ps : option (list nat)),
    length sh = 2%nat -> padded sh ps = p -> length p = 2%nat -> (2 <= dim p 0)%nat -> (2 <= dim p 1)%nat -> 0 < dx -> 0 < dy ->
    exists F F' e e', near_to_farfield sh E H dx dy ps = Some F /\
      near_to_farfield (rev sh) (mirrored E) (fun c i => copp (mirrored H c i)) dy dx (option_map (@rev nat) ps) = Some F' /\
      given p (fE F) e /\ given (rev p) (fE F') e' /\
      forall idx, inb p idx ->
        fkx F' (rev idx) = fky F idx /\ fky F' (rev idx) = fkx F idx /\
        (fkx F idx <> 0 \/ fky F idx <> 0 -> e' 0%nat (rev idx) = e 0%nat idx /\ e' 1%nat (rev idx) = copp (e 1%nat idx)) /\
        (fkx F idx = 0 -> fky F idx = 0 -> e' 0%nat (rev idx) = e 1%nat idx /\ e' 1%nat (rev idx) = e 0%nat idx) /\
        cnrm (e' 0%nat (rev idx)) + cnrm (e' 1%nat (rev idx)) = cnrm (e 0%nat idx) + cnrm (e 1%nat idx).
Proof.
  intros sh p E H dx dy ps Hs Hps Hp H2 H2' Px Py.
  assert (Hp' : length (rev p) = 2%nat) by now rewrite rev_length.
  assert (Hps' : padded (rev sh) (option_map (@rev nat) ps) = rev p).
  { unfold padded in *. destruct ps as [q|]; cbn [option_map]; [now rewrite Hps|]. rewrite <- Hps. apply map_rev. }
  assert (H3 : (2 <= dim (rev p) 0)%nat) by (destruct (two p Hp) as (m0 & m1 & ->); exact H2').
  destruct (far_form p dx dy Hp H2 Px Py sh E H ps Hps) as (F & EF & V).
  destruct (far_form (rev p) dy dx Hp' H3 Py Px (rev sh) (mirrored E) (fun c i => copp (mirrored H c i)) (option_map (@rev nat) ps) Hps') as (F' & EF' & V').
  set (val := fun (x : num) => match x with Some z => z | None => c0 end).
  exists F, F', (fun c i => val (fE F c i)), (fun c i => val (fE F' c i)). split; [exact EF|]. split; [exact EF'|].
  split; [intros c i Hc Hi; destruct (V i Hi) as (_ & _ & A0 & A1 & _); destruct c as [|[|]]; [rewrite A0|rewrite A1|lia]; reflexivity|].
  split; [intros c i Hc Hi; destruct (V' i Hi) as (_ & _ & A0 & A1 & _); destruct c as [|[|]]; [rewrite A0|rewrite A1|lia]; reflexivity|].
  intros idx Hi.
  assert (Hr : inb (rev p) (rev idx)).
  { destruct (two p Hp) as (m0 & m1 & ->). destruct (inb_two _ _ _ Hi) as (a & b & -> & A & B). constructor; [exact B|]. constructor; [exact A|constructor]. }
  destruct (V idx Hi) as (Kx & Ky & A0 & A1 & _). destruct (V' (rev idx) Hr) as (Kx' & Ky' & B0 & B1 & _).
  assert (Kx2 : kxf (rev p) dy (rev idx) = kyf p dy idx).
  { destruct (two p Hp) as (m0 & m1 & ->). destruct (inb_two _ _ _ Hi) as (a & b & -> & _). reflexivity. }
  assert (Ky2 : kyf (rev p) dx (rev idx) = kxf p dx idx).
  { destruct (two p Hp) as (m0 & m1 & ->). destruct (inb_two _ _ _ Hi) as (a & b & -> & _). reflexivity. }
  rewrite Kx', Ky', Kx, Ky. split; [exact Kx2|]. split; [exact Ky2|].
  destruct (dir_swap (kxf p dx) (kyf p dy) (kxf (rev p) dy) (kyf (rev p) dx) idx (rev idx) Kx2 Ky2) as (DC & DI & DZ & DT).
  assert (SX : forall a, spec (rev p) (rev sh) (mirrored E a) (rev idx) = spec p sh (E (1 - a)%nat) idx) by (intro a; exact (spec_swap p sh (E (1 - a)%nat) idx Hp Hs Hi)).
  assert (SY : forall a, spec (rev p) (rev sh) (fun i => copp (mirrored H a i)) (rev idx) = copp (spec p sh (H (1 - a)%nat) idx)).
  { intro a. transitivity (spec p sh (fun i => copp (H (1 - a)%nat i)) idx); [exact (spec_swap p sh (fun i => copp (H (1 - a)%nat i)) idx Hp Hs Hi)|].
    transitivity (spec p sh (fun j => cadd (cmul (copp c1) (H (1 - a)%nat j)) (cmul c0 (H (1 - a)%nat j))) idx).
    - unfold spec. apply fftn_ext. intros j _. unfold pad_field, fftshift. destruct andb; [|reflexivity]. apply cpx_ext; cbn; ring.
    - rewrite spec_comb. apply cpx_ext; cbn; ring. }
  rewrite A0, A1, B0, B1. cbn [val].
  assert (OK : okf (rev p) dy dx (rev idx) = okf p dx dy idx) by (unfold okf; now rewrite DI). rewrite OK.
  assert (C' : Cf (rev p) dy dx (rev idx) = Cf p dx dy idx) by exact DC. rewrite C'.
  assert (NZ : kxf p dx idx <> 0 \/ kyf p dy idx <> 0 -> Tf (rev p) dy dx (rev idx) = Sf p dx dy idx /\ Sf (rev p) dy dx (rev idx) = Tf p dx dy idx).
  { intro N. destruct DT as [T1 T2]; [destruct (at_0 (kxf p dx) (kyf p dy) idx) eqn:Z; [apply at_0_iff in Z; tauto|reflexivity]|]. unfold Tf, Sf. now rewrite T1, T2. }
  assert (Zr : kxf p dx idx = 0 -> kyf p dy idx = 0 -> Tf p dx dy idx = 1 /\ Sf p dx dy idx = 0 /\ Tf (rev p) dy dx (rev idx) = 1 /\ Sf (rev p) dy dx (rev idx) = 0 /\ Cf p dx dy idx = 1).
  { intros Z1 Z2. assert (Z : at_0 (kxf p dx) (kyf p dy) idx = true) by (apply at_0_iff; auto). rewrite Z in DZ.
    split; [unfold Tf, cos_th; now rewrite Z|]. split; [unfold Sf, sin_th; now rewrite Z|]. split; [unfold Tf, cos_th; now rewrite DZ|]. split; [unfold Sf, sin_th; now rewrite DZ|].
    unfold Cf, cph, kxy2. rewrite Z1, Z2. replace (k_2pi * k_2pi - (0 * 0 + 0 * 0)) with (k_2pi * k_2pi) by ring. pose proof k2pos. rewrite sqrt_square by lra. field. lra. }
  assert (G1 : kxf p dx idx <> 0 \/ kyf p dy idx <> 0 -> 
    ce0 (Cf p dx dy idx) (Tf (rev p) dy dx (rev idx)) (Sf (rev p) dy dx (rev idx)) (fun a => spec (rev p) (rev sh) (mirrored E a) (rev idx)) (fun a => spec (rev p) (rev sh) (fun i => copp (mirrored H a i)) (rev idx))
    = ce0 (Cf p dx dy idx) (Tf p dx dy idx) (Sf p dx dy idx) (fun a => spec p sh (E a) idx) (fun a => spec p sh (H a) idx) /\
    ce1 (Cf p dx dy idx) (Tf (rev p) dy dx (rev idx)) (Sf (rev p) dy dx (rev idx)) (fun a => spec (rev p) (rev sh) (mirrored E a) (rev idx)) (fun a => spec (rev p) (rev sh) (fun i => copp (mirrored H a i)) (rev idx))
    = copp (ce1 (Cf p dx dy idx) (Tf p dx dy idx) (Sf p dx dy idx) (fun a => spec p sh (E a) idx) (fun a => spec p sh (H a) idx))).
  { intro N. destruct (NZ N) as [-> ->]. unfold ce0, ce1. rewrite !SX, !SY. cbn [Nat.sub].
    set (x0 := spec p sh (E 0%nat) idx). set (x1 := spec p sh (E 1%nat) idx). set (y0 := spec p sh (H 0%nat) idx). set (y1 := spec p sh (H 1%nat) idx). clearbody x0 x1 y0 y1.
    unfold rmul. split; apply cpx_ext; cbn; ring. }
  assert (G2 : kxf p dx idx = 0 -> kyf p dy idx = 0 -> 
    ce0 (Cf p dx dy idx) (Tf (rev p) dy dx (rev idx)) (Sf (rev p) dy dx (rev idx)) (fun a => spec (rev p) (rev sh) (mirrored E a) (rev idx)) (fun a => spec (rev p) (rev sh) (fun i => copp (mirrored H a i)) (rev idx))
    = ce1 (Cf p dx dy idx) (Tf p dx dy idx) (Sf p dx dy idx) (fun a => spec p sh (E a) idx) (fun a => spec p sh (H a) idx) /\
    ce1 (Cf p dx dy idx) (Tf (rev p) dy dx (rev idx)) (Sf (rev p) dy dx (rev idx)) (fun a => spec (rev p) (rev sh) (mirrored E a) (rev idx)) (fun a => spec (rev p) (rev sh) (fun i => copp (mirrored H a i)) (rev idx))
    = ce0 (Cf p dx dy idx) (Tf p dx dy idx) (Sf p dx dy idx) (fun a => spec p sh (E a) idx) (fun a => spec p sh (H a) idx)).
  { intros Z1 Z2. destruct (Zr Z1 Z2) as (-> & -> & -> & -> & ->). unfold ce0, ce1. rewrite !SX, !SY. cbn [Nat.sub].
    set (x0 := spec p sh (E 0%nat) idx). set (x1 := spec p sh (E 1%nat) idx). set (y0 := spec p sh (H 0%nat) idx). set (y1 := spec p sh (H 1%nat) idx). clearbody x0 x1 y0 y1.
    unfold rmul. split; apply cpx_ext; cbn; ring. }
  split; [|split].
  - intro N. destruct (G1 N) as [-> ->]. destruct okf; [auto|]. split; apply cpx_ext; cbn; ring.
  - intros Z1 Z2. destruct (G2 Z1 Z2) as [-> ->]. destruct okf; auto.
  - destruct okf; [|reflexivity]. destruct (Req_EM_T (kxf p dx idx) 0) as [Z1|N]; [destruct (Req_EM_T (kyf p dy idx) 0) as [Z2|N]|].
    + destruct (G2 Z1 Z2) as [-> ->]. ring.
    + destruct (G1 (or_intror N)) as [-> ->]. unfold cnrm. cbn. ring.
    + destruct (G1 (or_introl N)) as [-> ->]. unfold cnrm. cbn. ring.
Qed.
Print Assumptions C182_mirror_image.

(** The components themselves are not mirrored in the direction of the normal: a uniform
    field along x. *)
Definition mx_E : nat -> list nat -> cpx := fun c _ => match c with O => c1 | _ => c0 end.
Definition mx_H : nat -> list nat -> cpx := fun _ _ => c0.
Theorem C182_components_mirrored_refuted :
  exists (sh : list nat) (E H : nat -> list nat -> cpx) (dx dy : R) (F F' : farfield) (idx : list nat) (e0 e1 : cpx),
    length sh = 2%nat /\ 0 < dx /\ 0 < dy /\ near_to_farfield sh E H dx dy None = Some F /\
    near_to_farfield (rev sh) (mirrored E) (fun c i => copp (mirrored H c i)) dy dx None = Some F' /\
    inb (padded sh None) idx /\ fkx F idx = 0 /\ fky F idx = 0 /\ fE F 0%nat idx = Some e0 /\ fE F 1%nat idx = Some e1 /\
    fE F' 0%nat (rev idx) <> Some e0 /\ fE F' 1%nat (rev idx) <> Some (copp e1).
Proof.
  assert (Hs : length [2; 2]%nat = 2%nat) by reflexivity. assert (Hps : padded [2; 2]%nat None = [2; 2]%nat) by reflexivity. assert (D : (2 <= 2)%nat) by lia.
  destruct (C182_mirror_image [2; 2]%nat [2; 2]%nat mx_E mx_H 1 1 None Hs Hps Hs D D Rlt_0_1 Rlt_0_1) as (F & F' & e & e' & EF & EF' & G & G' & V).
  assert (Hi : inb [2; 2]%nat [1; 1]%nat) by (constructor; [lia|]; constructor; [lia|constructor]).
  destruct (far_form [2; 2]%nat 1 1 Hs D Rlt_0_1 Rlt_0_1 [2; 2]%nat mx_E mx_H None Hps) as (F0 & EF0 & V0).
  rewrite EF in EF0. injection EF0 as <-. destruct (V0 _ Hi) as (Kx & Ky & A0 & A1 & _).
  assert (Z1 : kxf [2; 2]%nat 1 [1; 1]%nat = 0) by (change (dft_k 2 1 0 = 0); unfold dft_k, signed_freq; cbn; field).
  assert (Z2 : kyf [2; 2]%nat 1 [1; 1]%nat = 0) by (change (dft_k 2 1 0 = 0); unfold dft_k, signed_freq; cbn; field).
  assert (OK : okf [2; 2]%nat 1 1 [1; 1]%nat = true).
  { unfold okf. rewrite (proj2 (invalid_false _ _ _)); [reflexivity|]. unfold kxy2. rewrite Z1, Z2. pose proof k2pos. nra. }
  assert (Z : at_0 (kxf [2; 2]%nat 1) (kyf [2; 2]%nat 1) [1; 1]%nat = true) by (apply at_0_iff; auto).
  rewrite OK in A0, A1. assert (T1 : Tf [2; 2]%nat 1 1 [1; 1]%nat = 1) by (unfold Tf, cos_th; now rewrite Z). assert (S0 : Sf [2; 2]%nat 1 1 [1; 1]%nat = 0) by (unfold Sf, sin_th; now rewrite Z).
  rewrite T1, S0 in A0, A1. unfold ce0, ce1 in A0, A1.
  assert (X0 : spec [2; 2]%nat [2; 2]%nat (mx_E 0%nat) [1; 1]%nat = mkC 4 0).
  { unfold spec, fftn. change (fwd [2; 2]%nat [1; 1]%nat) with [0; 0]%nat.
    assert (W : forall j, cmul (pad_field [2; 2]%nat (fftshift [2; 2]%nat (mx_E 0%nat)) j) (cis (- (2 * PI * turns [2; 2]%nat [0; 0]%nat j))) = pad_field [2; 2]%nat (fftshift [2; 2]%nat (mx_E 0%nat)) j).
    { intro j. replace (- (2 * PI * turns [2; 2]%nat [0; 0]%nat j)) with 0 by (destruct j as [|j0 [|j1 j2]]; cbn; field). rewrite cis_0. apply cpx_ext; cbn; ring. }
    rewrite (gsum_ext (K := CC) _ _ _ (fun j _ => W j)). cbn. apply cpx_ext; cbn; ring. }
  assert (X1 : forall f, (forall j, f j = c0) -> spec [2; 2]%nat [2; 2]%nat f [1; 1]%nat = c0).
  { intros f Hf. unfold spec, fftn. assert (W : forall j, cmul (pad_field [2; 2]%nat (fftshift [2; 2]%nat f) j) (cis (- (2 * PI * turns [2; 2]%nat (fwd [2; 2]%nat [1; 1]%nat) j))) = c0).
    { intro j. unfold pad_field, fftshift. rewrite Hf. destruct andb; apply cpx_ext; cbn; ring. }
    rewrite (gsum_ext (K := CC) _ _ _ (fun j _ => W j)). cbn. apply cpx_ext; cbn; ring. }
  rewrite X0, (X1 (mx_E 1%nat)), (X1 (mx_H 0%nat)), (X1 (mx_H 1%nat)) in A0, A1 by reflexivity.
  destruct (V _ Hi) as (_ & _ & _ & VZ & _). rewrite Kx, Ky in VZ. destruct (VZ Z1 Z2) as [Q0 Q1].
  assert (E0 : e 0%nat [1; 1]%nat = mkC 4 0).
  { pose proof (G 0%nat _ ltac:(lia) Hi) as B. rewrite A0 in B. injection B as B. rewrite <- B. unfold rmul. apply cpx_ext; cbn; ring. }
  assert (E1 : e 1%nat [1; 1]%nat = c0).
  { pose proof (G 1%nat _ ltac:(lia) Hi) as B. rewrite A1 in B. injection B as B. rewrite <- B. unfold rmul. apply cpx_ext; cbn; ring. }
  exists [2; 2]%nat, mx_E, mx_H, 1, 1, F, F', [1; 1]%nat, (e 0%nat [1; 1]%nat), (e 1%nat [1; 1]%nat).
  split; [reflexivity|]. split; [lra|]. split; [lra|]. split; [exact EF|]. split; [exact EF'|]. split; [exact Hi|].
  split; [now rewrite Kx|]. split; [now rewrite Ky|]. split; [apply G; [lia|exact Hi]|]. split; [apply G; [lia|exact Hi]|].
  rewrite !G' by (try exact Hi; lia). rewrite Q0, Q1, E0, E1. split; intro B; injection B as B; lra.
Qed.
Print Assumptions C182_components_mirrored_refuted.
