(** Proofs about the Bloch basis and operators. *)
From Coq Require Import Reals List Arith ZArith Lia Lra Psatz Field Bool.
From Verif.Lib Require Import Num Sums Idx RealF Dft.
From Verif.Model Require Import Ndarray Bloch.
From Verif.Spec Require Import BlochSpec.
From Verif.Proofs Require Import EmeP NdarrayP.
Import ListNotations.
Local Open Scope R_scope.

(** ** The basis *)
Lemma fftfreq_signed n i : (i < n)%nat -> fftfreq n i = signed_freq n i.
Proof.
  intro H. unfold fftfreq, signed_freq.
  pose proof (Nat.div_mod (n - 1) 2). pose proof (Nat.mod_upper_bound (n - 1) 2).
  destruct (Nat.ltb_spec i ((n - 1) / 2 + 1)), (Nat.ltb_spec (2 * i) n); try reflexivity; lia.
Qed.
Lemma k_xyz_wavevector k0 G sh idx a : inb sh idx -> length sh = 3%nat -> k_xyz k0 G sh idx a = wavevector k0 G sh idx a.
Proof.
  intros H L. unfold k_xyz, wavevector.
  rewrite !fftfreq_signed by (apply inb_coord; [exact H|lia]). reflexivity.
Qed.
Lemma norm3_dot u : norm3 u = sqrt (dot3 u u). Proof. reflexivity. Qed.
Lemma norm3_sq u : norm3 u * norm3 u = u O * u O + u 1%nat * u 1%nat + u 2%nat * u 2%nat.
Proof. apply sqrt_sqrt. nra. Qed.
Lemma norm3_pos u : 0 <= norm3 u. Proof. apply sqrt_pos. Qed.
Lemma norm3_0 u : norm3 u = 0 -> u O = 0 /\ u 1%nat = 0 /\ u 2%nat = 0.
Proof. intro H. pose proof (norm3_sq u) as E. rewrite H in E. repeat split; nra. Qed.
Lemma k_is_0_spec k : k_is_0 k = true <-> k O = 0 /\ k 1%nat = 0 /\ k 2%nat = 0.
Proof.
  unfold k_is_0. repeat destruct Req_EM_T; split; intros; try discriminate; try tauto; intuition.
Qed.

Definition k_ok (k : vec3) : Prop := k O <> 0 \/ k 1%nat = 0.
Lemma sqrt_of a b : 0 <= b -> b * b = a -> sqrt a = b.
Proof. intros P E. rewrite <- E. apply sqrt_square, P. Qed.

Lemma basis_ok k0 G sh idx : k_ok (k_xyz k0 G sh idx) ->
  exists m n, generate_kmn k0 G sh idx = (norm3 (k_xyz k0 G sh idx), m, Some n) /\ transverse_basis (k_xyz k0 G sh idx) m n.
Proof.
  unfold generate_kmn. set (k := k_xyz k0 G sh idx). clearbody k. intro K.
  destruct (Req_EM_T (k O) 0) as [E0|N0].
  - destruct K as [K|E1]; [contradiction|].
    destruct (k_is_0 k) eqn:Z.
    + apply k_is_0_spec in Z as (Z0 & Z1 & Z2). eexists _, _. split; [reflexivity|].
      unfold transverse_basis, dot3. cbn. rewrite Z0, Z1, Z2.
      replace (0 * 0 + 0 * 0 + 0 * 0) with 0 by ring. rewrite sqrt_0. repeat split; ring.
    + assert (N2 : k 2%nat <> 0). { intro N2. assert (k_is_0 k = true) by (apply k_is_0_spec; auto). congruence. }
      set (v := cross k (v3 0 1 0)).
      assert (Nv : norm3 v <> 0). { intro X. apply norm3_0 in X. cbn in X. lra. }
      destruct (Req_EM_T (norm3 v) 0) as [X|_]; [contradiction|].
      eexists _, _. split; [reflexivity|].
      pose proof (norm3_sq v) as S. set (r := norm3 v) in *.
      assert (V0 : v O = - k 2%nat) by (cbn; ring). assert (V1 : v 1%nat = 0) by (cbn; ring). assert (V2 : v 2%nat = k O) by (cbn; ring).
      rewrite V0, V1, V2, E0 in S.
      assert (Q : sqrt (dot3 k k) = r). { apply sqrt_of; [apply norm3_pos|]. unfold dot3. rewrite E0, E1, S. ring. }
      unfold transverse_basis. rewrite Q. unfold dot3. rewrite V0, V1, V2, E0, E1. cbn -[r v].
      clearbody r. clear v V0 V1 V2 Q.
      repeat split; try (field; exact Nv); try ring.
      replace (- k 2%nat / r * (- k 2%nat / r) + 0 / r * (0 / r) + 0 / r * (0 / r)) with ((k 2%nat * k 2%nat) / (r * r)) by (field; exact Nv).
      rewrite S. field. nra.
  - set (u := cross k (v3 0 0 1)).
    assert (U0 : u O = k 1%nat) by (cbn; ring). assert (U1 : u 1%nat = - k O) by (cbn; ring). assert (U2 : u 2%nat = 0) by (cbn; ring).
    assert (Nu : norm3 u <> 0). { intro X. apply norm3_0 in X. rewrite U1 in X. lra. }
    pose proof (norm3_sq u) as Su. rewrite U0, U1, U2 in Su. set (r := norm3 u) in *.
    assert (Z : k_is_0 k = false). { destruct (k_is_0 k) eqn:Z; [|reflexivity]. apply k_is_0_spec in Z. tauto. }
    rewrite Z. set (m := fun a => u a / r).
    assert (M0 : m O = k 1%nat / r) by (unfold m; now rewrite U0). assert (M1 : m 1%nat = - k O / r) by (unfold m; now rewrite U1).
    assert (M2 : m 2%nat = 0) by (unfold m; rewrite U2; field; exact Nu).
    set (v := cross k m).
    assert (V0 : v O = k 2%nat * k O / r). { unfold v; cbn; rewrite ?M0, ?M1, ?M2. field; exact Nu. }
    assert (V1 : v 1%nat = k 2%nat * k 1%nat / r). { unfold v; cbn; rewrite ?M0, ?M1, ?M2. field; exact Nu. }
    assert (V2 : v 2%nat = - r). { unfold v; cbn; rewrite ?M0, ?M1, ?M2.
      replace (k O * (- k O / r) - k 1%nat * (k 1%nat / r)) with (- ((k O * k O + k 1%nat * k 1%nat) / r)) by (field; exact Nu).
      replace (k O * k O + k 1%nat * k 1%nat) with (r * r) by lra. field. exact Nu. }
    assert (Q : norm3 v = sqrt (dot3 k k)).
    { rewrite norm3_dot. f_equal. unfold dot3. rewrite V0, V1, V2.
      replace (k 2%nat * k O / r * (k 2%nat * k O / r) + k 2%nat * k 1%nat / r * (k 2%nat * k 1%nat / r) + - r * - r)
        with (k 2%nat * k 2%nat * ((k O * k O + k 1%nat * k 1%nat) / (r * r)) + r * r) by (field; exact Nu).
      replace (k O * k O + k 1%nat * k 1%nat) with (r * r) by lra. field_simplify_eq; [|exact Nu]. nra. }
    assert (Nv : norm3 v <> 0). { intro X. apply norm3_0 in X. lra. }
    destruct (Req_EM_T (norm3 v) 0) as [X|_]; [contradiction|].
    eexists _, _. split; [reflexivity|].
    pose proof (norm3_sq v) as Sv. rewrite V0, V1, V2 in Sv.
    unfold transverse_basis. rewrite <- Q. set (q := norm3 v) in *. clearbody q.
    unfold dot3. rewrite M0, M1, M2, V0, V1, V2. clear V0 V1 V2 U0 U1 U2 M0 M1 M2 Q. clearbody v m r. clear v m u.
    set (x := k O) in *. set (y := k 1%nat) in *. set (z := k 2%nat) in *. clearbody x y z.
    repeat split.
    + replace (y / r * (y / r) + - x / r * (- x / r) + 0 * 0) with ((x * x + y * y) / (r * r)) by (field; exact Nu).
      rewrite Su. field. nra.
    + replace (z * x / r / q * (z * x / r / q) + z * y / r / q * (z * y / r / q) + - r / q * (- r / q))
        with ((z * x / r * (z * x / r) + z * y / r * (z * y / r) + - r * - r) / (q * q)) by (field; tauto).
      rewrite <- Sv. field. exact Nv.
    + field; tauto.
    + field; tauto.
    + replace (x * (z * x / r / q) + y * (z * y / r / q) + z * (- r / q)) with (z / (r * q) * ((x * x + y * y) - r * r)) by (field; tauto).
      replace (x * x + y * y - r * r) with 0 by lra. ring.
    + field; tauto.
    + field; tauto.
    + replace (x * (- x / r) - y * (y / r)) with (- ((x * x + y * y) / r)) by (field; tauto).
      replace (x * x + y * y) with (r * r) by lra. field. tauto.
Qed.

(** ** The operators on a finite basis *)
Definition dotc (n : vec3) (e : nat -> cpx) : cpx := cadd (cadd (rmul (n O) (e O)) (rmul (n 1%nat) (e 1%nat))) (rmul (n 2%nat) (e 2%nat)).
Section Ops.
  Variables (k0 : vec3) (G : nat -> nat -> R) (sh : list nat).
  Hypothesis Hsh : length sh = 3%nat.
  Variable nn : list nat -> vec3.
  Hypothesis Hn : forall j, inb sh j -> snd (generate_kmn k0 G sh j) = Some (nn j).
  Definition kk (j : list nat) : R := fst (fst (generate_kmn k0 G sh j)).
  Definition mv3 (j : list nat) : vec3 := snd (fst (generate_kmn k0 G sh j)).
  Definition hm (h : nat -> cpx) (j : list nat) : cpx := h (ravel sh j).
  Definition hn (h : nat -> cpx) (j : list nat) : cpx := h (prodl sh + ravel sh j)%nat.
  (** |k| (n h_m - m h_n) *)
  Definition dval (h : nat -> cpx) (a : nat) (j : list nat) : cpx :=
    rmul (kk j) (csub (rmul (nn j a) (hm h j)) (rmul (mv3 j a) (hn h j))).

  Lemma n_is3 : is3 sh (n_vec k0 G sh) (fun a j => mkC (nn j a) 0).
  Proof. split; [reflexivity|]. intros j a Hj Ha. cbn [val n_vec]. rewrite (firstn3 sh Hsh) by exact Hj. rewrite (coord3 sh Hsh) by exact Hj. now rewrite Hn. Qed.
  Lemma m_is3 : is3 sh (m_vec k0 G sh) (fun a j => mkC (mv3 j a) 0).
  Proof. split; [reflexivity|]. intros j a Hj Ha. cbn [val m_vec]. rewrite (firstn3 sh Hsh) by exact Hj. rewrite (coord3 sh Hsh) by exact Hj. reflexivity. Qed.
  Lemma k_is1 : is1 sh (k_mag k0 G sh) (fun j => mkC (kk j) 0).
  Proof. split; [reflexivity|]. intros j Hj. cbn [val k_mag]. rewrite (firstn3 sh Hsh) by exact Hj. reflexivity. Qed.
  Lemma hin0_is1 h : is1 sh (hin sh 0 h) (hm h).
  Proof. split; [reflexivity|]. intros j Hj. cbn [val hin]. rewrite (firstn3 sh Hsh) by exact Hj. reflexivity. Qed.
  Lemma hin1_is1 h : is1 sh (hin sh 1 h) (hn h).
  Proof. split; [reflexivity|]. intros j Hj. cbn [val hin]. rewrite (firstn3 sh Hsh) by exact Hj. unfold hn. now rewrite Nat.mul_1_l. Qed.
  Lemma eps_is3 eps : is3 sh (last_axis sh eps) (fun a j => eps a j).
  Proof. split; [reflexivity|]. intros j a Hj Ha. cbn [val last_axis]. rewrite (firstn3 sh Hsh) by exact Hj. rewrite (coord3 sh Hsh) by exact Hj. reflexivity. Qed.

  Lemma ndiv_some x y : y <> c0 -> ndiv (Some x) (Some y) = Some (cdiv x y).
  Proof. intro N. cbn. destruct (cpx_dec y c0); [contradiction|reflexivity]. Qed.

  Lemma d_eval h : exists nh mh d D, zipw nmul (n_vec k0 G sh) (hin sh 0 h) = Some nh /\ zipw nmul (m_vec k0 G sh) (hin sh 1 h) = Some mh /\
    zipw nsub nh mh = Some d /\ zipw nmul d (k_mag k0 G sh) = Some D /\ is3 sh D (dval h).
  Proof.
    destruct (zip31 sh nmul _ _ _ _ (fun a j => rmul (nn j a) (hm h j)) n_is3 (hin0_is1 h)) as (nh & E1 & H1); [reflexivity|].
    destruct (zip31 sh nmul _ _ _ _ (fun a j => rmul (mv3 j a) (hn h j)) m_is3 (hin1_is1 h)) as (mh & E2 & H2); [reflexivity|].
    destruct (zip33 sh nsub _ _ _ _ (fun a j => csub (rmul (nn j a) (hm h j)) (rmul (mv3 j a) (hn h j))) H1 H2) as (d & E3 & H3); [reflexivity|].
    destruct (zip31 sh nmul _ _ _ _ (dval h) H3 k_is1) as (D & E4 & H4).
    { intros. unfold nmul, lift2. f_equal. unfold dval, rmul. cring. }
    exists nh, mh, d, D. auto.
  Qed.

  Variable eps : nat -> list nat -> cpx.
  Hypothesis He : forall a j, (a < 3)%nat -> inb sh j -> eps a j <> c0.
  (** F( (1/eps) F^-1 d ) *)
  Definition ev (h : nat -> cpx) (a : nat) : list nat -> cpx := fftn sh (fun j => cdiv (ifftn sh (dval h a) j) (eps a j)).

  Lemma mop_eval h : exists r, maxwell_operator k0 G sh eps None h = Some r /\ forall j, inb sh j ->
    r (ravel sh j) = Some (rmul (- kk j) (dotc (nn j) (fun a => ev h a j))) /\
    r (prodl sh + ravel sh j)%nat = Some (rmul (kk j) (dotc (mv3 j) (fun a => ev h a j))).
  Proof.
    unfold maxwell_operator. destruct (d_eval h) as (nh & mh & d & D & -> & -> & E3 & E4 & HD).
    cbn [obind]. rewrite E3. cbn [obind]. rewrite E4. cbn [obind].
    pose proof (fft3_is3 sh Hsh ifftn D _ (fun f g k => ifftn_ext sh f g k) HD) as HI.
    destruct (izip33 sh ndiv _ _ _ _ (fun a j => cdiv (ifftn sh (dval h a) j) (eps a j)) HI (eps_is3 eps)) as (t & -> & Ht).
    { intros a j Ha Hj. apply ndiv_some. now apply He. }
    cbn [obind]. pose proof (fft3_is3 sh Hsh fftn t _ (fun f g k => fftn_ext sh f g k) Ht) as HE.
    destruct (zip33 sh nmul _ _ _ _ (fun a j => rmul (nn j a) (ev h a j)) HE n_is3) as (en & -> & Hen).
    { intros. unfold nmul, lift2. f_equal. unfold rmul, ev. cring. }
    cbn [obind].
    destruct (zip33 sh nmul _ _ _ _ (fun a j => rmul (mv3 j a) (ev h a j)) HE m_is3) as (em & -> & Hem).
    { intros. unfold nmul, lift2. f_equal. unfold rmul, ev. cring. }
    cbn [obind].
    pose proof (nmap1 sh nopp _ _ (fun j => mkC (- kk j) 0) k_is1) as HK.
    destruct (zip11 sh Hsh nmul _ _ _ _ (fun j => rmul (- kk j) (dotc (nn j) (fun a => ev h a j))) (sum3k_is1 sh Hsh _ _ Hen) (HK ltac:(intros; cbn; f_equal; apply cpx_ext; cbn; ring))) as (bm & -> & Hbm).
    { intros. unfold nmul, lift2. f_equal. unfold dotc, rmul. cring. }
    cbn [obind].
    destruct (zip11 sh Hsh nmul _ _ _ _ (fun j => rmul (kk j) (dotc (mv3 j) (fun a => ev h a j))) (sum3k_is1 sh Hsh _ _ Hem) k_is1) as (bn & -> & Hbn).
    { intros. unfold nmul, lift2. f_equal. unfold dotc, rmul. cring. }
    cbn [obind]. exact (concat_is1 sh Hsh _ _ _ _ Hbm Hbn).
  Qed.

  Hypothesis Hk : forall j, inb sh j -> kk j <> 0.
  Definition gval (h : nat -> cpx) (a : nat) (j : list nat) : cpx :=
    rmul (/ kk j) (csub (rmul (nn j a) (hm h j)) (rmul (mv3 j a) (hn h j))).
  Definition dv (h : nat -> cpx) (a : nat) : list nat -> cpx := fftn sh (fun j => cmul (ifftn sh (gval h a) j) (eps a j)).
  Lemma mkC_nz x : x <> 0 -> mkC x 0 <> c0.
  Proof. intros N E. apply N. exact (f_equal cre E). Qed.
  Lemma rdiv_r z x : x <> 0 -> cdiv z (mkC x 0) = rmul (/ x) z.
  Proof. intro N. apply cpx_ext; cbn; unfold cnrm; cbn; field; nra. Qed.
  Lemma imop_eval h : exists r, inverse_maxwell_operator_approx k0 G sh eps None h = Some r /\ forall j, inb sh j ->
    r (ravel sh j) = Some (rmul (/ kk j) (dotc (nn j) (fun a => dv h a j))) /\
    r (prodl sh + ravel sh j)%nat = Some (rmul (- / kk j) (dotc (mv3 j) (fun a => dv h a j))).
  Proof.
    unfold inverse_maxwell_operator_approx. cbn [obind].
    destruct (zip31 sh nmul _ _ _ _ (fun a j => rmul (nn j a) (hm h j)) n_is3 (hin0_is1 h)) as (nh & -> & H1); [reflexivity|].
    destruct (zip31 sh nmul _ _ _ _ (fun a j => rmul (mv3 j a) (hn h j)) m_is3 (hin1_is1 h)) as (mh & -> & H2); [reflexivity|].
    cbn [obind].
    destruct (zip33 sh nsub _ _ _ _ (fun a j => csub (rmul (nn j a) (hm h j)) (rmul (mv3 j a) (hn h j))) H1 H2) as (d & -> & H3); [reflexivity|].
    cbn [obind].
    destruct (zip31 sh ndiv _ _ _ _ (gval h) H3 k_is1) as (D & -> & HD).
    { intros a j _ Hj. rewrite ndiv_some by (apply mkC_nz, Hk, Hj). f_equal. now apply rdiv_r, Hk. }
    cbn [obind].
    pose proof (fft3_is3 sh Hsh ifftn D _ (fun f g k => ifftn_ext sh f g k) HD) as HI.
    destruct (izip33 sh nmul _ _ _ _ (fun a j => cmul (ifftn sh (gval h a) j) (eps a j)) HI (eps_is3 eps)) as (t & -> & Ht); [reflexivity|].
    cbn [obind]. pose proof (fft3_is3 sh Hsh fftn t _ (fun f g k => fftn_ext sh f g k) Ht) as HE.
    destruct (zip33 sh nmul _ _ _ _ (fun a j => rmul (nn j a) (dv h a j)) HE n_is3) as (en & -> & Hen).
    { intros. unfold nmul, lift2. f_equal. unfold rmul, dv. cring. }
    cbn [obind].
    destruct (zip33 sh nmul _ _ _ _ (fun a j => rmul (mv3 j a) (dv h a j)) HE m_is3) as (em & -> & Hem).
    { intros. unfold nmul, lift2. f_equal. unfold rmul, dv. cring. }
    cbn [obind].
    pose proof (nmap1 sh nopp _ _ (fun j => mkC (- kk j) 0) k_is1) as HK.
    destruct (zip11 sh Hsh ndiv _ _ _ _ (fun j => rmul (/ kk j) (dotc (nn j) (fun a => dv h a j))) (sum3k_is1 sh Hsh _ _ Hen) k_is1) as (bm & -> & Hbm).
    { intros j Hj. rewrite ndiv_some by (apply mkC_nz, Hk, Hj). f_equal. rewrite rdiv_r by now apply Hk. unfold dotc, rmul. cring. }
    cbn [obind].
    destruct (zip11 sh Hsh ndiv _ _ _ _ (fun j => rmul (- / kk j) (dotc (mv3 j) (fun a => dv h a j))) (sum3k_is1 sh Hsh _ _ Hem) (HK ltac:(intros; cbn; f_equal; apply cpx_ext; cbn; ring))) as (bn & -> & Hbn).
    { intros j Hj. pose proof (Hk j Hj) as N. rewrite ndiv_some by (apply mkC_nz; lra). f_equal. rewrite rdiv_r by lra.
      replace (/ - kk j) with (- / kk j) by (field; exact N). unfold dotc, rmul. cring. }
    cbn [obind]. exact (concat_is1 sh Hsh _ _ _ _ Hbm Hbn).
  Qed.
End Ops.

(** ** Vector identities *)
Lemma basis_kn k m n : transverse_basis k m n ->
  k 1%nat * n 2%nat - k 2%nat * n 1%nat = - norm3 k * m O /\
  k 2%nat * n O - k O * n 2%nat = - norm3 k * m 1%nat /\
  k O * n 1%nat - k 1%nat * n O = - norm3 k * m 2%nat.
Proof.
  unfold transverse_basis. rewrite <- norm3_dot. intros (Mm & Nn & Mn & Km & Kn & A & B & C). unfold dot3 in *.
  pose proof (norm3_sq k) as S. set (q := norm3 k) in *.
  destruct (Req_EM_T q 0) as [Z|Z].
  - unfold q in Z. apply norm3_0 in Z as Z'. destruct Z' as (Z0 & Z1 & Z2). fold q in Z. rewrite Z, Z0, Z1, Z2. repeat split; ring.
  - repeat split; apply Rmult_eq_reg_l with q; try exact Z.
    + replace (q * (k 1%nat * n 2%nat - k 2%nat * n 1%nat)) with (k 1%nat * (q * n 2%nat) - k 2%nat * (q * n 1%nat)) by ring.
      rewrite <- B, <- C. replace (q * (- q * m O)) with (- (q * q) * m O) by ring. rewrite S.
      apply Rminus_diag_uniq. transitivity (k O * (k O * m O + k 1%nat * m 1%nat + k 2%nat * m 2%nat)); [ring|]. rewrite Km. ring.
    + replace (q * (k 2%nat * n O - k O * n 2%nat)) with (k 2%nat * (q * n O) - k O * (q * n 2%nat)) by ring.
      rewrite <- A, <- C. replace (q * (- q * m 1%nat)) with (- (q * q) * m 1%nat) by ring. rewrite S.
      apply Rminus_diag_uniq. transitivity (k 1%nat * (k O * m O + k 1%nat * m 1%nat + k 2%nat * m 2%nat)); [ring|]. rewrite Km. ring.
    + replace (q * (k O * n 1%nat - k 1%nat * n O)) with (k O * (q * n 1%nat) - k 1%nat * (q * n O)) by ring.
      rewrite <- A, <- B. replace (q * (- q * m 2%nat)) with (- (q * q) * m 2%nat) by ring. rewrite S.
      apply Rminus_diag_uniq. transitivity (k 2%nat * (k O * m O + k 1%nat * m 1%nat + k 2%nat * m 2%nat)); [ring|]. rewrite Km. ring.
Qed.
Lemma basis_k k m n : transverse_basis k m n ->
  k O = norm3 k * (m 1%nat * n 2%nat - m 2%nat * n 1%nat) /\
  k 1%nat = norm3 k * (m 2%nat * n O - m O * n 2%nat) /\
  k 2%nat = norm3 k * (m O * n 1%nat - m 1%nat * n O).
Proof.
  unfold transverse_basis. rewrite <- norm3_dot. intros (Mm & Nn & Mn & Km & Kn & A & B & C). unfold dot3 in *.
  set (q := norm3 k) in *.
  assert (I : forall a, k a * (m O * m O + m 1%nat * m 1%nat + m 2%nat * m 2%nat) = k a) by (intro a; rewrite Mm; ring).
  repeat split.
  - replace (q * (m 1%nat * n 2%nat - m 2%nat * n 1%nat)) with (m 1%nat * (q * n 2%nat) - m 2%nat * (q * n 1%nat)) by ring.
    rewrite <- B, <- C. rewrite <- (I O) at 1.
    apply Rminus_diag_uniq. transitivity (m O * (k O * m O + k 1%nat * m 1%nat + k 2%nat * m 2%nat)); [ring|]. rewrite Km. ring.
  - replace (q * (m 2%nat * n O - m O * n 2%nat)) with (m 2%nat * (q * n O) - m O * (q * n 2%nat)) by ring.
    rewrite <- A, <- C. rewrite <- (I 1%nat) at 1.
    apply Rminus_diag_uniq. transitivity (m 1%nat * (k O * m O + k 1%nat * m 1%nat + k 2%nat * m 2%nat)); [ring|]. rewrite Km. ring.
  - replace (q * (m O * n 1%nat - m 1%nat * n O)) with (m O * (q * n 1%nat) - m 1%nat * (q * n O)) by ring.
    rewrite <- A, <- B. rewrite <- (I 2%nat) at 1.
    apply Rminus_diag_uniq. transitivity (m 2%nat * (k O * m O + k 1%nat * m 1%nat + k 2%nat * m 2%nat)); [ring|]. rewrite Km. ring.
Qed.
Lemma rcross_mn k m n hm hn a : transverse_basis k m n -> (a < 3)%nat ->
  rcross k (from_mn m n hm hn) a = rmul (norm3 k) (csub (rmul (n a) hm) (rmul (m a) hn)).
Proof.
  intros T La. destruct (basis_kn k m n T) as (X & Y & Z). destruct T as (_ & _ & _ & _ & _ & A & B & C). rewrite <- norm3_dot in A, B, C.
  destruct a as [|[|[|a]]]; [| | |lia]; cbn [rcross]; unfold from_mn.
  - transitivity (csub (rmul (norm3 k * n O) hm) (rmul (norm3 k * m O) hn)); [|apply cpx_ext; cbn; ring].
    rewrite <- A. replace (norm3 k * m O) with (- (k 1%nat * n 2%nat - k 2%nat * n 1%nat)) by (rewrite X; ring). apply cpx_ext; cbn; ring.
  - transitivity (csub (rmul (norm3 k * n 1%nat) hm) (rmul (norm3 k * m 1%nat) hn)); [|apply cpx_ext; cbn; ring].
    rewrite <- B. replace (norm3 k * m 1%nat) with (- (k 2%nat * n O - k O * n 2%nat)) by (rewrite Y; ring). apply cpx_ext; cbn; ring.
  - transitivity (csub (rmul (norm3 k * n 2%nat) hm) (rmul (norm3 k * m 2%nat) hn)); [|apply cpx_ext; cbn; ring].
    rewrite <- C. replace (norm3 k * m 2%nat) with (- (k O * n 1%nat - k 1%nat * n O)) by (rewrite Z; ring). apply cpx_ext; cbn; ring.
Qed.
Lemma from_mn_cross k m n e a : transverse_basis k m n -> (a < 3)%nat ->
  from_mn m n (rmul (- norm3 k) (dotc n e)) (rmul (norm3 k) (dotc m e)) a = rcross k e a.
Proof.
  intros T La. destruct (basis_k k m n T) as (X & Y & Z). unfold from_mn, dotc.
  set (q := norm3 k) in *. clearbody q.
  destruct a as [|[|[|a]]]; [| | |lia]; cbn [rcross]; rewrite ?X, ?Y, ?Z; apply cpx_ext; cbn; ring.
Qed.

(** ** Parseval *)
Lemma conj_cdiv_r z x : cconj (cdiv z (mkC x 0)) = cdiv (cconj z) (mkC x 0).
Proof. apply cpx_ext; cbn; unfold Rdiv; ring. Qed.
Lemma conj_gsum sh (f : list nat -> cpx) : cconj (gsum (K := CC) sh f) = gsum (K := CC) sh (fun j => cconj (f j)).
Proof.
  revert f. induction sh as [|n ns IH]; intro f; cbn [gsum]; [reflexivity|].
  refine (eq_trans (conj_sumN CC n _) _). apply (sumN_ext CC). intros. apply IH.
Qed.
Lemma parseval sh (d u : list nat -> cpx) : INR (prodl sh) <> 0 ->
  gsum (K := CC) sh (fun j => cmul (cconj (d j)) (fftn sh u j))
  = rmul (INR (prodl sh)) (gsum (K := CC) sh (fun x => cmul (cconj (ifftn sh d x)) (u x))).
Proof.
  intro N.
  transitivity (gsum (K := CC) sh (fun j => gsum (K := CC) sh (fun x => cmul (cmul (cconj (d j)) (cis (- (2 * PI * turns sh j x)))) (u x)))).
  { apply (gsum_ext (K := CC)). intros j _. unfold fftn. refine (eq_trans (eq_sym (gsum_mul_l CC sh _ _)) _).
    apply (gsum_ext (K := CC)). intros x _. apply cpx_ext; cbn; ring. }
  rewrite (gsum_swap CC). unfold rmul. refine (eq_trans _ (gsum_mul_l CC sh _ _)).
  apply (gsum_ext (K := CC)). intros x _.
  refine (eq_trans (gsum_mul_r CC sh (u x) _) _).
  unfold ifftn. rewrite conj_cdiv_r.
  assert (E : cconj (gsum (K := CC) sh (fun k => cmul (d k) (cis (2 * PI * turns sh k x)))) = gsum (K := CC) sh (fun j => cmul (cconj (d j)) (cis (- (2 * PI * turns sh j x))))).
  { rewrite conj_gsum. apply (gsum_ext (K := CC)). intros j _. rewrite cis_opp. apply cpx_ext; cbn; ring. }
  rewrite E. set (s := gsum _ _). set (y := u x). clearbody s y.
  change (cmul s y = cmul (mkC (INR (prodl sh)) 0) (cmul (cdiv s (mkC (INR (prodl sh)) 0)) y)).
  apply cpx_ext; cbn; unfold cnrm; cbn; field; nra.
Qed.

(** ** Consequences *)
Lemma n_none k0 G sh idx : snd (generate_kmn k0 G sh idx) = None <->
  k_xyz k0 G sh idx O = 0 /\ k_xyz k0 G sh idx 1%nat <> 0 /\ k_xyz k0 G sh idx 2%nat = 0.
Proof.
  split.
  - intro H. destruct (Req_EM_T (k_xyz k0 G sh idx O) 0) as [E0|N0].
    + destruct (Req_EM_T (k_xyz k0 G sh idx 1%nat) 0) as [E1|N1].
      * exfalso. destruct (basis_ok k0 G sh idx (or_intror E1)) as (m & n & E & _). rewrite E in H. discriminate.
      * split; [exact E0|]. split; [exact N1|]. unfold generate_kmn in H. set (k := k_xyz k0 G sh idx) in *. cbn [snd] in H.
        destruct (Req_EM_T (k O) 0); [|contradiction].
        destruct (k_is_0 k) eqn:Z; [discriminate|]. destruct (Req_EM_T (norm3 (cross k (v3 0 1 0))) 0) as [X|X]; [|discriminate].
        apply norm3_0 in X. cbn in X. lra.
    + exfalso. destruct (basis_ok k0 G sh idx (or_introl N0)) as (m & n & E & _). rewrite E in H. discriminate.
  - intros (E0 & N1 & E2). unfold generate_kmn. set (k := k_xyz k0 G sh idx) in *. cbn [snd].
    destruct (Req_EM_T (k O) 0); [|contradiction].
    destruct (k_is_0 k) eqn:Z; [apply k_is_0_spec in Z; tauto|].
    destruct (Req_EM_T (norm3 (cross k (v3 0 1 0))) 0) as [X|X]; [reflexivity|]. exfalso. apply X.
    unfold norm3. cbn. rewrite E0, E2. replace (_ + _ + _) with 0 by ring. apply sqrt_0.
Qed.
Lemma kk_norm k0 G sh idx : fst (fst (generate_kmn k0 G sh idx)) = norm3 (k_xyz k0 G sh idx).
Proof. reflexivity. Qed.
Lemma m_bad k0 G sh idx : k_xyz k0 G sh idx O = 0 -> snd (fst (generate_kmn k0 G sh idx)) = v3 0 1 0.
Proof. intro H. unfold generate_kmn. cbn [fst snd]. destruct Req_EM_T; [reflexivity|contradiction]. Qed.
(** m and n are orthonormal whenever n is finite. *)
Lemma basis_mn k0 G sh idx n : snd (generate_kmn k0 G sh idx) = Some n ->
  let m := snd (fst (generate_kmn k0 G sh idx)) in dot3 m m = 1 /\ dot3 n n = 1 /\ dot3 m n = 0.
Proof.
  intros H m. destruct (Req_EM_T (k_xyz k0 G sh idx O) 0) as [E0|N0].
  - destruct (Req_EM_T (k_xyz k0 G sh idx 1%nat) 0) as [E1|N1].
    + destruct (basis_ok k0 G sh idx (or_intror E1)) as (m' & n' & E & T). unfold m. rewrite E in *. injection H as <-. cbn. split; [apply T|split; apply T].
    + unfold m. rewrite (m_bad _ _ _ _ E0). unfold generate_kmn in H. set (k := k_xyz k0 G sh idx) in *. cbn [snd] in H.
      destruct (Req_EM_T (k O) 0) as [_|N]; [|contradiction].
      destruct (k_is_0 k) eqn:Z; [apply k_is_0_spec in Z; tauto|].
      destruct (Req_EM_T (norm3 (cross k (v3 0 1 0))) 0) as [X|X]; [discriminate|]. injection H as <-.
      pose proof (norm3_sq (cross k (v3 0 1 0))) as S. set (q := norm3 (cross k (v3 0 1 0))) in *. clearbody q. cbn in S.
      unfold dot3. cbn. rewrite E0 in *. repeat split.
      * ring.
      * match goal with |- ?t = 1 => replace t with ((k 2%nat * k 2%nat) / (q * q)) by (field; exact X) end.
        rewrite S. field. assert (0 < q * q) by nra. nra.
      * field. exact X.
  - destruct (basis_ok k0 G sh idx (or_introl N0)) as (m' & n' & E & T). unfold m. rewrite E in *. injection H as <-. cbn. split; [apply T|split; apply T].
Qed.

Definition getn (k0 : vec3) G sh (j : list nat) : vec3 := match snd (generate_kmn k0 G sh j) with Some n => n | None => fun _ => 0 end.
Lemma getn_ok k0 G sh j : snd (generate_kmn k0 G sh j) <> None -> snd (generate_kmn k0 G sh j) = Some (getn k0 G sh j).
Proof. unfold getn. destruct snd; congruence. Qed.

(** Positions of h_mn in terms of grid positions. *)
Lemma halves sh p : (p < 2 * prodl sh)%nat -> exists j, inb sh j /\ (p = ravel sh j \/ p = prodl sh + ravel sh j)%nat.
Proof.
  intro H. destruct (Nat.lt_ge_cases p (prodl sh)) as [L|L].
  - exists (unravel sh p). split; [now apply inb_unravel|]. left. symmetry. now apply ravel_unravel.
  - exists (unravel sh (p - prodl sh)). split; [apply inb_unravel; lia|]. right. rewrite ravel_unravel by lia. lia.
Qed.
Lemma hdot_halves sh g h : hdot (2 * prodl sh) g h =
  gsum (K := CC) sh (fun j => cadd (cmul (cconj (g (ravel sh j))) (h (ravel sh j))) (cmul (cconj (g (prodl sh + ravel sh j)%nat)) (h (prodl sh + ravel sh j)%nat))).
Proof.
  unfold hdot. replace (2 * prodl sh)%nat with (prodl sh + prodl sh)%nat by lia.
  refine (eq_trans (sumN_app CC _ _ _) _). refine (eq_trans (f_equal2 fadd (gsum_flat' CC sh _) (gsum_flat' CC sh _)) _).
  symmetry. refine (eq_trans (gsum_add CC sh _ _) _). reflexivity.
Qed.
Definition value (x : num) : cpx := match x with Some z => z | None => c0 end.

Section Results.
  Variables (k0 : vec3) (G : nat -> nat -> R) (sh : list nat).
  Hypothesis Hsh : length sh = 3%nat.
  Hypothesis Hfin : forall j, inb sh j -> snd (generate_kmn k0 G sh j) <> None.
  Variable eps : nat -> list nat -> cpx.
  Hypothesis He : forall a j, (a < 3)%nat -> inb sh j -> eps a j <> c0.
  Notation nn := (getn k0 G sh).
  Notation k := (k_xyz k0 G sh).
  Lemma Hnn : forall j, inb sh j -> snd (generate_kmn k0 G sh j) = Some (nn j).
  Proof. intros j Hj. apply getn_ok, Hfin, Hj. Qed.

  Lemma mop_value h : exists r, maxwell_operator k0 G sh eps None h = Some r /\
    (forall p, (p < 2 * prodl sh)%nat -> r p = Some (value (r p))) /\ forall j, inb sh j ->
    value (r (ravel sh j)) = rmul (- kk k0 G sh j) (dotc (nn j) (fun a => ev k0 G sh nn eps h a j)) /\
    value (r (prodl sh + ravel sh j)%nat) = rmul (kk k0 G sh j) (dotc (mv3 k0 G sh j) (fun a => ev k0 G sh nn eps h a j)).
  Proof.
    destruct (mop_eval k0 G sh Hsh nn Hnn eps He h) as (r & E & H). exists r. split; [exact E|]. split.
    - intros p Hp. destruct (halves sh p Hp) as (j & Hj & [-> | ->]); destruct (H j Hj) as [A B]; rewrite ?A, ?B; reflexivity.
    - intros j Hj. destruct (H j Hj) as [A B]. now rewrite A, B.
  Qed.
  Lemma imop_value h : (forall j, inb sh j -> k j O <> 0 \/ k j 1%nat <> 0 \/ k j 2%nat <> 0) ->
    exists r, inverse_maxwell_operator_approx k0 G sh eps None h = Some r /\
    (forall p, (p < 2 * prodl sh)%nat -> r p = Some (value (r p))) /\ forall j, inb sh j ->
    value (r (ravel sh j)) = rmul (/ kk k0 G sh j) (dotc (nn j) (fun a => dv k0 G sh nn eps h a j)) /\
    value (r (prodl sh + ravel sh j)%nat) = rmul (- / kk k0 G sh j) (dotc (mv3 k0 G sh j) (fun a => dv k0 G sh nn eps h a j)).
  Proof.
    intro Hk. destruct (imop_eval k0 G sh Hsh nn Hnn eps) with (h := h) as (r & E & H).
    { intros j Hj X. unfold kk in X. rewrite kk_norm in X. apply norm3_0 in X. destruct (Hk j Hj) as [?|[?|?]]; tauto. }
    exists r. split; [exact E|]. split.
    - intros p Hp. destruct (halves sh p Hp) as (j & Hj & [-> | ->]); destruct (H j Hj) as [A B]; rewrite ?A, ?B; reflexivity.
    - intros j Hj. destruct (H j Hj) as [A B]. now rewrite A, B.
  Qed.

  Lemma curl_curl h r j a : (forall q, inb sh q -> k_ok (k q)) -> maxwell_operator k0 G sh eps None h = Some r -> inb sh j -> (a < 3)%nat ->
    from_mn (mv3 k0 G sh j) (nn j) (value (r (ravel sh j))) (value (r (prodl sh + ravel sh j)%nat)) a
    = k_cross_eps_k_cross sh k eps (fun q => from_mn (mv3 k0 G sh q) (nn q) (h (ravel sh q)) (h (prodl sh + ravel sh q)%nat)) j a.
  Proof.
    intros Hok E Hj Ha. destruct (mop_value h) as (r' & E' & _ & V). rewrite E in E'. injection E' as <-.
    destruct (V j Hj) as [-> ->].
    assert (T : forall q, inb sh q -> transverse_basis (k q) (mv3 k0 G sh q) (nn q)).
    { intros q Hq. destruct (basis_ok k0 G sh q (Hok q Hq)) as (m & n & E1 & T). unfold mv3, getn. rewrite E1. exact T. }
    unfold kk. rewrite kk_norm. rewrite (from_mn_cross (k j)) by auto.
    unfold k_cross_eps_k_cross. 
    assert (Q : forall b, (b < 3)%nat -> ev k0 G sh nn eps h b j = fftn sh (fun j0 => cdiv (ifftn sh (fun q => rcross (k q) (from_mn (mv3 k0 G sh q) (nn q) (h (ravel sh q)) (h (prodl sh + ravel sh q)%nat)) b) j0) (eps b j0)) j).
    { intros b Hb. unfold ev. apply fftn_ext. intros x Hx. f_equal. apply ifftn_ext. intros q Hq. symmetry. now apply rcross_mn; [apply T|]. }
    unfold rcross at 1 2. destruct a as [|[|a]]; rewrite !Q by lia; reflexivity.
  Qed.

  (** <g, A h> = - N sum_x conj(E_g) E_h / eps with E = F^-1 d *)
  Lemma quad g h r : maxwell_operator k0 G sh eps None h = Some r ->
    hdot (2 * prodl sh) g (fun p => value (r p))
    = copp (gsum (K := CC) sh (fun x => sumN (K := CC) 3 (fun a =>
        rmul (INR (prodl sh)) (cmul (cconj (ifftn sh (dval k0 G sh nn g a) x)) (cdiv (ifftn sh (dval k0 G sh nn h a) x) (eps a x)))))).
  Proof.
    intro E. destruct (mop_value h) as (r' & E' & _ & V). rewrite E in E'. injection E' as <-.
    rewrite hdot_halves.
    destruct (Nat.eq_dec (prodl sh) 0) as [Z|Z].
    { rewrite gsum_flat. rewrite (gsum_flat CC sh (fun x => sumN _ _)). rewrite Z. apply cpx_ext; cbn; ring. }
    assert (N : INR (prodl sh) <> 0). { apply not_0_INR, Z. }
    transitivity (copp (gsum (K := CC) sh (fun j => sumN (K := CC) 3 (fun a => cmul (cconj (dval k0 G sh nn g a j)) (ev k0 G sh nn eps h a j))))).
    { refine (eq_trans _ (gsum_opp CC sh _)). apply (gsum_ext (K := CC)). intros j Hj. destruct (V j Hj) as [-> ->].
      change (hm sh g j) with (g (ravel sh j)) in *. unfold dval. fold (hm sh g j). fold (hn sh g j).
      set (e := fun a => ev k0 G sh nn eps h a j). cbn [sumN]. change (ev k0 G sh nn eps h) with (fun a => ev k0 G sh nn eps h a). 
      set (gm := hm sh g j). set (gn := hn sh g j).
      change (cadd (cmul (cconj gm) (rmul (- kk k0 G sh j) (dotc (nn j) e))) (cmul (cconj gn) (rmul (kk k0 G sh j) (dotc (mv3 k0 G sh j) e)))
        = copp (cadd (cadd (cadd c0 (cmul (cconj (rmul (kk k0 G sh j) (csub (rmul (nn j O) gm) (rmul (mv3 k0 G sh j O) gn)))) (e O)))
             (cmul (cconj (rmul (kk k0 G sh j) (csub (rmul (nn j 1%nat) gm) (rmul (mv3 k0 G sh j 1%nat) gn)))) (e 1%nat)))
             (cmul (cconj (rmul (kk k0 G sh j) (csub (rmul (nn j 2%nat) gm) (rmul (mv3 k0 G sh j 2%nat) gn)))) (e 2%nat)))).
      generalize (kk k0 G sh j) (nn j) (mv3 k0 G sh j). intros x y z. clearbody e gm gn. unfold dotc. apply cpx_ext; cbn; ring. }
    f_equal.
    assert (S : forall f : nat -> list nat -> cpx, gsum (K := CC) sh (fun j => sumN (K := CC) 3 (fun a => f a j)) = sumN (K := CC) 3 (fun a => gsum (K := CC) sh (f a))).
    { intro f. rewrite gsum_flat. rewrite (sumN_swap CC). apply (sumN_ext CC). intros. symmetry. apply gsum_flat. }
    rewrite !S. apply (sumN_ext CC). intros a Ha.
    refine (eq_trans (parseval sh _ _ N) _). symmetry. apply (gsum_mul_l CC).
  Qed.
End Results.
