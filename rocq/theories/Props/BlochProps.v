(** Properties of the operators of meanas/fdfd/bloch.py. *)
From Coq Require Import Reals List Arith ZArith Lia Lra Psatz Bool Field.
From Verif.Lib Require Import Num Sums Idx RealF Dft.
From Verif.Model Require Import Ndarray Bloch.
From Verif.Spec Require Import BlochSpec.
From Verif.Proofs Require Import EmeP NdarrayP BlochP BlochP2 BlochP3.
Import ListNotations.
Local Open Scope R_scope.

(** A call that returned the vector r, all finite; one that returned nothing finite. *)
Definition gives (size : nat) (x : option (nat -> num)) (r : nat -> cpx) : Prop :=
  exists f, x = Some f /\ forall p, (p < size)%nat -> f p = Some (r p).
Definition gives_field (sh : list nat) (x : option (nat -> list nat -> num)) (F : nat -> list nat -> cpx) : Prop :=
  exists f, x = Some f /\ forall a j, (a < 3)%nat -> inb sh j -> f a j = Some (F a j).
Definition gives_nan (size : nat) (x : option (nat -> num)) : Prop :=
  exists f, x = Some f /\ forall p, (p < size)%nat -> f p = None.
(** No wavevector of the grid lies in the plane kx = 0 off the z axis. *)
Definition off_plane k0 G sh : Prop := forall j, inb sh j -> wavevector k0 G sh j O <> 0 \/ wavevector k0 G sh j 1%nat = 0.
(** No wavevector of the grid lies on the y axis, except zero. *)
Definition off_y_axis k0 G sh : Prop :=
  forall j, inb sh j -> wavevector k0 G sh j O <> 0 \/ wavevector k0 G sh j 1%nat = 0 \/ wavevector k0 G sh j 2%nat <> 0.
Definition nonzero_on sh (eps : nat -> list nat -> cpx) : Prop := forall a j, (a < 3)%nat -> inb sh j -> eps a j <> c0.
Definition identity3 (a b : nat) : R := if (a =? b)%nat then 1 else 0.

Lemma off_plane_diagonal k0 G sh : length sh = 3%nat -> G O O <> 0 -> G O 1%nat = 0 -> G O 2%nat = 0 -> (forall z : Z, k0 O <> IZR z) -> off_plane k0 G sh.
Proof.
  intros L G0 G1 G2 K j Hj. left. unfold wavevector. rewrite G1, G2. intro E.
  apply (K (signed_freq (dim sh 0) (coord j 0))). apply Rminus_diag_uniq. apply (Rmult_eq_reg_l (G O O)); [|exact G0]. lra.
Qed.
Lemma off_y k0 G sh : off_plane k0 G sh -> off_y_axis k0 G sh.
Proof. intros H j Hj. destruct (H j Hj); tauto. Qed.
Lemma op_fin k0 G sh : length sh = 3%nat -> off_y_axis k0 G sh -> forall j, inb sh j -> snd (generate_kmn k0 G sh j) <> None.
Proof. intros L H j Hj E. apply n_none in E. rewrite !k_xyz_wavevector in E by assumption. destruct (H j Hj) as [?|[?|?]]; tauto. Qed.
Lemma op_kok k0 G sh : length sh = 3%nat -> off_plane k0 G sh -> forall j, inb sh j -> k_ok (k_xyz k0 G sh j).
Proof. intros L H j Hj. unfold k_ok. rewrite !k_xyz_wavevector by assumption. exact (H j Hj). Qed.
Lemma tb_ext k k' m n : (forall a, k a = k' a) -> transverse_basis k m n -> transverse_basis k' m n.
Proof. intros E. unfold transverse_basis, dot3. now rewrite !E. Qed.
Lemma kxyz_norm k0 G sh j : length sh = 3%nat -> inb sh j -> norm3 (k_xyz k0 G sh j) = sqrt (dot3 (wavevector k0 G sh j) (wavevector k0 G sh j)).
Proof. intros L Hj. unfold norm3, dot3. now rewrite !k_xyz_wavevector by assumption. Qed.
Ltac inbt := repeat (constructor; [lia|]); constructor.
Lemma inb_single j : inb [1; 1; 1]%nat j -> j = [0; 0; 0]%nat.
Proof.
  intro H. inversion H as [|x n l s Hx Hl]; subst. inversion Hl as [|y n2 l2 s2 Hy Hl2]; subst. inversion Hl2 as [|z n3 l3 s3 Hz Hl3]; subst.
  inversion Hl3; subst. repeat f_equal; lia.
Qed.
Lemma quarter_not_int : forall z : Z, 1 / 4 <> IZR z.
Proof.
  intros z E. assert (H : IZR 1 = IZR (4 * z)) by (rewrite mult_IZR; lra). apply eq_IZR in H. lia.
Qed.
Definition k0_case : vec3 := v3 (1/4) (1/8) (1/3).
Definition sh_case : list nat := [2; 1; 2]%nat.
Definition eps_case : nat -> list nat -> R := fun a j => 2 + INR (coord j 0) + INR a.
Lemma eps_case_pos a j : 0 < eps_case a j.
Proof. unfold eps_case. pose proof (pos_INR (coord j 0)). pose proof (pos_INR a). lra. Qed.
Lemma off_plane_case : off_plane k0_case identity3 sh_case.
Proof. apply off_plane_diagonal; try reflexivity; [|apply quarter_not_int]. unfold identity3. cbn. lra. Qed.
Lemma eps_case_nz sh : nonzero_on sh (fun a j => mkC (eps_case a j) 0).
Proof. intros a j _ _ X. apply (f_equal cre) in X. cbn in X. pose proof (eps_case_pos a j). lra. Qed.

(** ** C49 *)
Theorem C49_basis :
  forall k0 G sh idx, length sh = 3%nat -> inb sh idx ->
    let k := wavevector k0 G sh idx in
    (k O <> 0 \/ k 1%nat = 0) ->
    exists m n, generate_kmn k0 G sh idx = (sqrt (dot3 k k), m, Some n) /\ transverse_basis k m n.
Proof.
  intros k0 G sh idx L Hi k K. destruct (basis_ok k0 G sh idx) as (m & n & E & T).
  { unfold k_ok. rewrite !k_xyz_wavevector by assumption. exact K. }
  exists m, n. split.
  - rewrite E. now rewrite kxyz_norm by assumption.
  - refine (tb_ext _ _ _ _ _ T). intro a. now apply k_xyz_wavevector.
Qed.
Print Assumptions C49_basis.
Example C49_basis_case : exists m n, generate_kmn (v3 (1/4) 0 2) identity3 [2; 1; 2]%nat [1; 0; 1]%nat = (sqrt (5/4 * (5/4) + 9), m, Some n)
  /\ transverse_basis (wavevector (v3 (1/4) 0 2) identity3 [2; 1; 2]%nat [1; 0; 1]%nat) m n.
Proof.
  destruct (C49_basis (v3 (1/4) 0 2) identity3 [2; 1; 2]%nat [1; 0; 1]%nat) as (m & n & E & T); [reflexivity|inbt|..].
  { right. unfold wavevector, identity3. cbn. ring. }
  exists m, n. split; [rewrite E|exact T]. do 2 f_equal. f_equal. unfold dot3, wavevector, identity3. cbn. field.
Qed.

(** The operator is k x F( (1/eps) F^-1 (k x H) ) on transverse fields. *)
Theorem C49_maxwell_operator :
  forall k0 G sh eps h m n, length sh = 3%nat -> off_plane k0 G sh -> nonzero_on sh eps ->
    (forall j, inb sh j -> snd (fst (generate_kmn k0 G sh j)) = m j /\ snd (generate_kmn k0 G sh j) = Some (n j)) ->
    exists r, gives (2 * prodl sh) (maxwell_operator k0 G sh eps None h) r /\
      forall j a, inb sh j -> (a < 3)%nat ->
        from_mn (m j) (n j) (r (ravel sh j)) (r (prodl sh + ravel sh j)%nat) a
        = k_cross_eps_k_cross sh (wavevector k0 G sh) eps
            (fun q => from_mn (m q) (n q) (h (ravel sh q)) (h (prodl sh + ravel sh q)%nat)) j a.
Proof.
  intros k0 G sh eps h m n L Op He Emn.
  pose proof (op_fin k0 G sh L (off_y _ _ _ Op)) as Hf. pose proof (op_kok k0 G sh L Op) as Hk.
  destruct (mop_value k0 G sh L Hf eps He h) as (r & E & F & _). exists (fun p => value (r p)). split; [exists r; auto|].
  intros j a Hj Ha. pose proof (curl_curl k0 G sh L Hf eps He h r j a Hk E Hj Ha) as C.
  assert (EM : forall q, inb sh q -> mv3 k0 G sh q = m q) by (intros; now apply Emn).
  assert (EN : forall q, inb sh q -> getn k0 G sh q = n q). { intros q Hq. unfold getn. now rewrite (proj2 (Emn q Hq)). }
  rewrite EM, EN in C by assumption. rewrite C. unfold k_cross_eps_k_cross.
  apply rcross_ext; [intros; now apply k_xyz_wavevector|]. intros b Hb. apply fftn_ext. intros x Hx. f_equal. apply ifftn_ext. intros q Hq.
  apply rcross_ext; [intros; now apply k_xyz_wavevector|]. intros c Hc. now rewrite EM, EN.
Qed.
Print Assumptions C49_maxwell_operator.
Example C49_maxwell_operator_case : exists r, gives 8 (maxwell_operator k0_case identity3 sh_case (fun a j => mkC (eps_case a j) 0) None (fun p => mkC (INR p) 1)) r.
Proof.
  destruct (C49_maxwell_operator k0_case identity3 sh_case (fun a j => mkC (eps_case a j) 0) (fun p => mkC (INR p) 1)
    (fun j => snd (fst (generate_kmn k0_case identity3 sh_case j))) (fun j => getn k0_case identity3 sh_case j)) as (r & E & _).
  - reflexivity. - apply off_plane_case. - apply eps_case_nz.
  - intros j Hj. split; [reflexivity|]. apply getn_ok. exact (op_fin k0_case identity3 sh_case eq_refl (off_y _ _ _ off_plane_case) j Hj).
  - exists r. exact E.
Qed.

(** Each component is multiplied by -|k|^2 / eps in a uniform medium. *)
Theorem C49_uniform :
  forall k0 G sh eps e h, length sh = 3%nat -> off_y_axis k0 G sh -> e <> c0 -> (forall a j, (a < 3)%nat -> inb sh j -> eps a j = e) ->
    exists r, gives (2 * prodl sh) (maxwell_operator k0 G sh eps None h) r /\
      forall j, inb sh j ->
        let f := cdiv (mkC (- dot3 (wavevector k0 G sh j) (wavevector k0 G sh j)) 0) e in
        r (ravel sh j) = cmul f (h (ravel sh j)) /\ r (prodl sh + ravel sh j)%nat = cmul f (h (prodl sh + ravel sh j)%nat).
Proof.
  intros k0 G sh eps e h L Oy He Eu. pose proof (op_fin k0 G sh L Oy) as Hf.
  destruct (uniform_mop k0 G sh L Hf eps e He Eu h) as (r & E & V). exists (fun p => value (r p)). split.
  - exists r. split; [exact E|]. intros p Hp. destruct (halves sh p Hp) as (j & Hj & [-> | ->]); destruct (V j Hj) as [A B]; rewrite ?A, ?B; reflexivity.
  - intros j Hj f. destruct (V j Hj) as [A B]. rewrite A, B.
    assert (D : dot3 (wavevector k0 G sh j) (wavevector k0 G sh j) = dot3 (k_xyz k0 G sh j) (k_xyz k0 G sh j)) by (unfold dot3; now rewrite !k_xyz_wavevector).
    unfold f. rewrite D. now split.
Qed.
Print Assumptions C49_uniform.
Example C49_uniform_case : exists r, gives 2 (maxwell_operator (v3 0 (1/4) 1) identity3 [1;1;1]%nat (fun _ _ => mkC 2 0) None (fun p => mkC (INR p + 1) 0)) r
  /\ r 0%nat = mkC (- (17 / 32)) 0 /\ r 1%nat = mkC (- (17 / 16)) 0.
Proof.
  destruct (C49_uniform (v3 0 (1/4) 1) identity3 [1;1;1]%nat (fun _ _ => mkC 2 0) (mkC 2 0) (fun p => mkC (INR p + 1) 0)) as (r & E & V).
  - reflexivity.
  - intros j Hj. rewrite (inb_single j Hj). right. right. unfold wavevector, identity3. cbn. lra.
  - intro X. apply (f_equal cre) in X. cbn in X. lra.
  - reflexivity.
  - exists r. split; [exact E|]. destruct (V [0;0;0]%nat) as [A B]; [inbt|]. cbn in A, B. rewrite A, B.
    unfold dot3, wavevector, identity3. cbn. unfold cnrm. cbn. split; apply cpx_ext; cbn; unfold cnrm; cbn; field.
Qed.

(** <g, A h> = <A g, h> for real epsilon *)
Theorem C49_hermitian :
  forall k0 G sh (eps : nat -> list nat -> R) g h, length sh = 3%nat -> off_y_axis k0 G sh -> (forall a j, (a < 3)%nat -> inb sh j -> eps a j <> 0) ->
    exists rg rh, gives (2 * prodl sh) (maxwell_operator k0 G sh (fun a j => mkC (eps a j) 0) None g) rg /\
      gives (2 * prodl sh) (maxwell_operator k0 G sh (fun a j => mkC (eps a j) 0) None h) rh /\
      hdot (2 * prodl sh) g rh = hdot (2 * prodl sh) rg h.
Proof.
  intros k0 G sh eps g h L Oy He. pose proof (op_fin k0 G sh L Oy) as Hf.
  assert (He' : nonzero_on sh (fun a j => mkC (eps a j) 0)) by (intros a j Ha Hj; apply mkC_nz; auto).
  destruct (mop_value k0 G sh L Hf _ He' g) as (rg & Eg & Fg & _). destruct (mop_value k0 G sh L Hf _ He' h) as (rh & Eh & Fh & _).
  exists (fun p => value (rg p)), (fun p => value (rh p)). split; [exists rg; auto|]. split; [exists rh; auto|].
  exact (mop_hermitian k0 G sh eps g h rg rh L Hf He Eg Eh).
Qed.
Print Assumptions C49_hermitian.
Example C49_hermitian_case : off_y_axis k0_case identity3 sh_case /\ forall a j, (a < 3)%nat -> inb sh_case j -> eps_case a j <> 0.
Proof. split; [apply off_y, off_plane_case|]. intros a j _ _. pose proof (eps_case_pos a j). lra. Qed.

(** The operator is negative semidefinite for positive epsilon. *)
Theorem C49_negative :
  forall k0 G sh (eps : nat -> list nat -> R) h, length sh = 3%nat -> off_y_axis k0 G sh -> (forall a j, (a < 3)%nat -> inb sh j -> 0 < eps a j) ->
    exists r, gives (2 * prodl sh) (maxwell_operator k0 G sh (fun a j => mkC (eps a j) 0) None h) r /\
      cim (hdot (2 * prodl sh) h r) = 0 /\ cre (hdot (2 * prodl sh) h r) <= 0.
Proof.
  intros k0 G sh eps h L Oy He. pose proof (op_fin k0 G sh L Oy) as Hf.
  assert (He0 : forall a j, (a < 3)%nat -> inb sh j -> eps a j <> 0) by (intros a j Ha Hj X; pose proof (He a j Ha Hj); lra).
  assert (He' : nonzero_on sh (fun a j => mkC (eps a j) 0)) by (intros a j Ha Hj; apply mkC_nz; auto).
  destruct (mop_value k0 G sh L Hf _ He' h) as (rh & Eh & Fh & _). exists (fun p => value (rh p)). split; [exists rh; auto|]. split.
  - pose proof (mop_hermitian k0 G sh eps h h rh rh L Hf He0 Eh Eh) as Q.
    assert (C : hdot (2 * prodl sh) (fun p => value (rh p)) h = cconj (hdot (2 * prodl sh) h (fun p => value (rh p)))).
    { unfold hdot. refine (eq_trans _ (eq_sym (conj_sumN CC _ _))). apply (sumN_ext CC). intros i _. apply cpx_ext; cbn; ring. }
    rewrite C in Q. apply (f_equal cim) in Q. cbn [cconj cim] in Q. lra.
  - exact (mop_negative k0 G sh eps h rh L Hf He Eh).
Qed.
Print Assumptions C49_negative.
Example C49_negative_case : off_y_axis k0_case identity3 sh_case /\ forall a j, (a < 3)%nat -> inb sh_case j -> 0 < eps_case a j.
Proof. split; [apply off_y, off_plane_case|]. intros. apply eps_case_pos. Qed.

(** ** C86 *)
(** Whenever kx = 0 and ky <> 0, m is not orthogonal to k. *)
Theorem C86_m_not_transverse :
  forall k0 G sh idx, length sh = 3%nat -> inb sh idx ->
    let k := wavevector k0 G sh idx in
    k O = 0 -> k 1%nat <> 0 -> dot3 k (snd (fst (generate_kmn k0 G sh idx))) = k 1%nat.
Proof.
  intros k0 G sh idx L Hi k E0 N1. rewrite m_bad by (rewrite k_xyz_wavevector; assumption).
  unfold dot3. cbn. ring.
Qed.
Print Assumptions C86_m_not_transverse.
Theorem C86_orthogonality_refuted :
  exists k0 G sh idx, length sh = 3%nat /\ inb sh idx /\ dot3 (wavevector k0 G sh idx) (snd (fst (generate_kmn k0 G sh idx))) <> 0.
Proof.
  exists (v3 0 1 1), identity3, [1;1;1]%nat, [0;0;0]%nat. split; [reflexivity|]. split; [inbt|].
  assert (K1 : wavevector (v3 0 1 1) identity3 [1;1;1]%nat [0;0;0]%nat 1%nat = 1) by (unfold wavevector, identity3; cbn; ring).
  rewrite C86_m_not_transverse; try reflexivity; try inbt; [lra| |lra]. unfold wavevector, identity3; cbn; ring.
Qed.
Print Assumptions C86_orthogonality_refuted.

(** ** C87 *)
(** One wavevector on the y axis makes everything the operators return non-finite. *)
Theorem C87_not_finite :
  forall k0 G sh eps h idx, length sh = 3%nat -> inb sh idx ->
    let k := wavevector k0 G sh idx in
    k O = 0 -> k 1%nat <> 0 -> k 2%nat = 0 ->
    gives_nan (2 * prodl sh) (maxwell_operator k0 G sh eps None h) /\
    gives_nan (2 * prodl sh) (inverse_maxwell_operator_approx k0 G sh eps None h).
Proof.
  intros k0 G sh eps h idx L Hi k K0 K1 K2.
  assert (N : snd (generate_kmn k0 G sh idx) = None) by (apply n_none; rewrite !k_xyz_wavevector by assumption; auto).
  split; [exact (mop_none k0 G sh eps L idx Hi h N)|exact (imop_none k0 G sh eps L idx Hi h (or_introl N))].
Qed.
Print Assumptions C87_not_finite.
(** The inverse is not finite either when a wavevector of the grid is zero. *)
Theorem C87_inverse_at_zero :
  forall k0 G sh eps h idx, length sh = 3%nat -> inb sh idx -> (forall a, (a < 3)%nat -> wavevector k0 G sh idx a = 0) ->
    gives_nan (2 * prodl sh) (inverse_maxwell_operator_approx k0 G sh eps None h).
Proof.
  intros k0 G sh eps h idx L Hi K. refine (imop_none k0 G sh eps L idx Hi h (or_intror _)).
  rewrite kk_norm, kxyz_norm by assumption. unfold dot3. rewrite !K by lia. replace (0 * 0 + 0 * 0 + 0 * 0) with 0 by ring. apply sqrt_0.
Qed.
Print Assumptions C87_inverse_at_zero.
(** A Bloch wavevector along y, on an orthogonal lattice, never gives a finite result. *)
Theorem C87_y_never_finite :
  forall g q sh eps h, length sh = 3%nat -> (forall a, (a < 3)%nat -> (0 < dim sh a)%nat) -> g <> 0 -> q <> 0 ->
    gives_nan (2 * prodl sh) (maxwell_operator (fun a => match a with O => 0 | 1%nat => q | _ => 0 end) (fun a b => g * identity3 a b) sh eps None h).
Proof.
  intros g q sh eps h L D Ng Nq.
  destruct sh as [|nx [|ny [|nz [|]]]]; try discriminate. pose proof (D 0%nat ltac:(lia)). pose proof (D 1%nat ltac:(lia)). pose proof (D 2%nat ltac:(lia)). cbn in H, H0, H1.
  assert (S : forall n, (0 < n)%nat -> signed_freq n 0 = 0%Z). { intros n Hn. unfold signed_freq. rewrite (proj2 (Nat.ltb_lt _ _)) by lia. reflexivity. }
  apply (C87_not_finite _ _ _ eps h [0; 0; 0]%nat L); [inbt|..]; unfold wavevector, identity3; cbn -[signed_freq]; rewrite !S by assumption; cbn; nra.
Qed.
Print Assumptions C87_y_never_finite.
Theorem C87_finite_refuted :
  exists k0 G sh eps h, length sh = 3%nat /\ nonzero_on sh eps /\ prodl sh = 8%nat /\ k0 1%nat = 1 / 4 /\
    gives_nan (2 * prodl sh) (maxwell_operator k0 G sh eps None h).
Proof.
  exists (v3 0 (1/4) 0), (fun a b => 1 * identity3 a b), [2;2;2]%nat, (fun _ _ => c1), (fun _ => c1).
  split; [reflexivity|]. split; [intros a j _ _ X; apply (f_equal cre) in X; cbn in X; lra|]. split; [reflexivity|]. split; [reflexivity|].
  apply C87_y_never_finite; [reflexivity| |lra|lra]. intros [|[|[|]]] H; cbn; lia.
Qed.
Print Assumptions C87_finite_refuted.
Example C87_not_finite_case : gives_nan 4 (maxwell_operator (v3 0 0 0) identity3 [1; 2; 1]%nat (fun _ _ => c1) None (fun _ => c1)).
Proof.
  refine (proj1 (C87_not_finite _ _ [1; 2; 1]%nat _ _ [0; 1; 0]%nat eq_refl ltac:(inbt) _ _ _)); unfold wavevector, identity3; cbn; lra.
Qed.
Example C87_inverse_at_zero_case : gives_nan 2 (inverse_maxwell_operator_approx (v3 0 0 0) identity3 [1; 1; 1]%nat (fun _ _ => c1) None (fun _ => c1)).
Proof.
  refine (C87_inverse_at_zero _ _ [1; 1; 1]%nat _ _ [0; 0; 0]%nat eq_refl ltac:(inbt) _). intros a Ha. unfold wavevector. cbn. ring.
Qed.

(** ** C88 *)
(** In a uniform medium the inverse operator undoes the operator up to a factor -1. *)
Theorem C88_negative_inverse :
  forall k0 G sh eps e h, length sh = 3%nat -> off_y_axis k0 G sh ->
    (forall j, inb sh j -> exists a, (a < 3)%nat /\ wavevector k0 G sh j a <> 0) ->
    e <> c0 -> (forall a j, (a < 3)%nat -> inb sh j -> eps a j = e) ->
    exists r s, gives (2 * prodl sh) (maxwell_operator k0 G sh eps None h) r /\
      gives (2 * prodl sh) (inverse_maxwell_operator_approx k0 G sh eps None r) s /\
      forall p, (p < 2 * prodl sh)%nat -> s p = copp (h p).
Proof.
  intros k0 G sh eps e h L Oy Nk He Eu. pose proof (op_fin k0 G sh L Oy) as Hf.
  assert (Hk : forall j, inb sh j -> k_xyz k0 G sh j O <> 0 \/ k_xyz k0 G sh j 1%nat <> 0 \/ k_xyz k0 G sh j 2%nat <> 0).
  { intros j Hj. rewrite !k_xyz_wavevector by assumption. destruct (Nk j Hj) as ([|[|[|a]]] & Ha & N); [tauto..|lia]. }
  destruct (uniform_mop k0 G sh L Hf eps e He Eu h) as (r & E & V). set (r' := fun p => value (r p)).
  destruct (uniform_imop k0 G sh L Hf eps e Eu r' Hk) as (s & Es & W). exists r', (fun p => value (s p)).
  split; [|split].
  - exists r. split; [exact E|]. intros p Hp. unfold r'. destruct (halves sh p Hp) as (j & Hj & [-> | ->]); destruct (V j Hj) as [A B]; rewrite ?A, ?B; reflexivity.
  - exists s. split; [exact Es|]. intros p Hp. destruct (halves sh p Hp) as (j & Hj & [-> | ->]); destruct (W j Hj) as [A B]; rewrite ?A, ?B; reflexivity.
  - intros p Hp. destruct (halves sh p Hp) as (j & Hj & Hpj). destruct (V j Hj) as [A B]. destruct (W j Hj) as [A' B'].
    set (d := dot3 (k_xyz k0 G sh j) (k_xyz k0 G sh j)) in *.
    assert (Nd : d <> 0). { unfold d, dot3. destruct (Hk j Hj) as [?|[?|?]]; nra. }
    assert (Q : forall z, cmul (cdiv e (mkC d 0)) (cmul (cdiv (mkC (- d) 0) e) z) = copp z).
    { intro z. replace (mkC (- d) 0) with (copp (mkC d 0)) by (apply cpx_ext; cbn; ring). cfield. split; [exact He|now apply mkC_nz]. }
    destruct Hpj as [-> | ->].
    + rewrite A'. cbn [value]. unfold r'. rewrite A. cbn [value]. apply Q.
    + rewrite B'. cbn [value]. unfold r'. rewrite B. cbn [value]. apply Q.
Qed.
Print Assumptions C88_negative_inverse.
Theorem C88_inverse_refuted :
  exists k0 G sh eps h r s, gives (2 * prodl sh) (maxwell_operator k0 G sh eps None h) r /\
    gives (2 * prodl sh) (inverse_maxwell_operator_approx k0 G sh eps None r) s /\
    h 0%nat = c1 /\ s 0%nat = copp c1.
Proof.
  destruct (C88_negative_inverse (v3 1 0 0) identity3 [1;1;1]%nat (fun _ _ => mkC 4 0) (mkC 4 0) (fun _ => c1)) as (r & s & A & B & C).
  - reflexivity.
  - intros j Hj. rewrite (inb_single j Hj). left. unfold wavevector, identity3. cbn. lra.
  - intros j Hj. rewrite (inb_single j Hj). exists O. split; [lia|]. unfold wavevector, identity3. cbn. lra.
  - apply mkC_nz. lra.
  - reflexivity.
  - exists (v3 1 0 0), identity3, [1;1;1]%nat, (fun _ _ => mkC 4 0), (fun _ => c1), r, s. split; [exact A|]. split; [exact B|]. split; [reflexivity|]. apply C. cbn. lia.
Qed.
Print Assumptions C88_inverse_refuted.

(** ** C89 *)
(** ik x v *)
Definition ik_cross (k : nat -> R) (v : nat -> cpx) : nat -> cpx := fun a => cmul ci (rcross k v a).
(** The documented operator: ik x conv(1/eps_k, ik x H), convolutions through F. *)
Definition documented_operator sh (k : list nat -> nat -> R) (eps : nat -> list nat -> cpx) (H : list nat -> nat -> cpx) (idx : list nat) : nat -> cpx :=
  ik_cross (k idx) (fun a => fftn sh (fun j => cdiv (ifftn sh (fun q => ik_cross (k q) (H q) a) j) (eps a j)) idx).
Theorem C89_documented_sign :
  forall k0 G sh eps h m n, length sh = 3%nat -> off_plane k0 G sh -> nonzero_on sh eps ->
    (forall j, inb sh j -> snd (fst (generate_kmn k0 G sh j)) = m j /\ snd (generate_kmn k0 G sh j) = Some (n j)) ->
    exists r, gives (2 * prodl sh) (maxwell_operator k0 G sh eps None h) r /\
      forall j a, inb sh j -> (a < 3)%nat ->
        from_mn (m j) (n j) (r (ravel sh j)) (r (prodl sh + ravel sh j)%nat) a
        = copp (documented_operator sh (wavevector k0 G sh) eps
            (fun q => from_mn (m q) (n q) (h (ravel sh q)) (h (prodl sh + ravel sh q)%nat)) j a).
Proof.
  intros k0 G sh eps h m n L Op He Emn. destruct (C49_maxwell_operator k0 G sh eps h m n L Op He Emn) as (r & E & V). exists r. split; [exact E|].
  intros j a Hj Ha. rewrite (V j a Hj Ha). unfold documented_operator, k_cross_eps_k_cross, ik_cross.
  set (H := fun q => from_mn (m q) (n q) (h (ravel sh q)) (h (prodl sh + ravel sh q)%nat)).
  set (u := fun b => fftn sh (fun j0 => cdiv (ifftn sh (fun q => rcross (wavevector k0 G sh q) (H q) b) j0) (eps b j0)) j).
  transitivity (copp (cmul ci (rcross (wavevector k0 G sh j) (fun b => cmul ci (u b)) a))).
  - change (rcross (wavevector k0 G sh j) u a = copp (cmul ci (rcross (wavevector k0 G sh j) (fun b => cmul ci (u b)) a))).
    clearbody u. destruct a as [|[|a]]; cbn [rcross]; apply cpx_ext; cbn; ring.
  - f_equal. f_equal. apply rcross_ext; [reflexivity|]. intros b _. unfold u. rewrite <- fftn_scale. apply fftn_ext. intros x Hx. rewrite ifftn_scale. unfold cdiv, H. cring.
Qed.
Print Assumptions C89_documented_sign.
Lemma copp_fix z : z = copp z -> z = c0.
Proof. intro H. pose proof (f_equal cre H) as A. pose proof (f_equal cim H) as B. cbn in A, B. apply cpx_ext; cbn; lra. Qed.
Theorem C89_documented_refuted :
  exists k0 G sh eps h r, length sh = 3%nat /\ gives (2 * prodl sh) (maxwell_operator k0 G sh eps None h) r /\
    exists m n j a, snd (fst (generate_kmn k0 G sh j)) = m j /\ snd (generate_kmn k0 G sh j) = Some (n j) /\ inb sh j /\ (a < 3)%nat /\
      (forall q, inb sh q -> transverse_basis (wavevector k0 G sh q) (m q) (n q)) /\
      from_mn (m j) (n j) (r (ravel sh j)) (r (prodl sh + ravel sh j)%nat) a
      <> documented_operator sh (wavevector k0 G sh) eps (fun q => from_mn (m q) (n q) (h (ravel sh q)) (h (prodl sh + ravel sh q)%nat)) j a.
Proof.
  set (k0 := v3 1 0 0). set (sh := [1;1;1]%nat). set (eps := fun (_ : nat) (_ : list nat) => c1). set (h := fun p : nat => if (p =? 0)%nat then c1 else c0).
  assert (K : forall a, wavevector k0 identity3 sh [0;0;0]%nat a = if (a =? 0)%nat then 1 else 0).
  { intro a. unfold wavevector, identity3. cbn. destruct a; cbn; ring. }
  assert (Op : off_plane k0 identity3 sh). { intros j Hj. rewrite (inb_single j Hj). left. rewrite K. cbn. lra. }
  destruct (C49_basis k0 identity3 sh [0;0;0]%nat eq_refl ltac:(inbt) (or_introl (fun X => R1_neq_R0 (eq_trans (eq_sym (K 0%nat)) X)))) as (m & n & E & T).
  assert (Emn : forall j, inb sh j -> snd (fst (generate_kmn k0 identity3 sh j)) = m /\ snd (generate_kmn k0 identity3 sh j) = Some n).
  { intros j Hj. rewrite (inb_single j Hj), E. now split. }
  assert (He : nonzero_on sh eps). { intros a j _ _ X. apply (f_equal cre) in X. cbn in X. lra. }
  destruct (C49_uniform k0 identity3 sh eps c1 h eq_refl (off_y _ _ _ Op)) as (r & Er & V). { intro X. apply (f_equal cre) in X. cbn in X. lra. } { reflexivity. }
  destruct (C89_documented_sign k0 identity3 sh eps h (fun _ => m) (fun _ => n) eq_refl Op He Emn) as (r' & Er' & V').
  assert (RR : forall p, (p < 2)%nat -> r' p = r p).
  { intros p Hp. destruct Er as (f & F1 & F2). destruct Er' as (f' & F1' & F2'). rewrite F1 in F1'. injection F1' as <-. specialize (F2 p Hp). specialize (F2' p Hp). congruence. }
  destruct (V [0;0;0]%nat) as [R0 R1]; [inbt|].
  exists k0, identity3, sh, eps, h, r. split; [reflexivity|]. split; [exact Er|].
  (* m has a component of non-zero size *)
  assert (exists a, (a < 3)%nat /\ m a <> 0) as (a & Ha & Na).
  { destruct T as (T & _). unfold dot3 in T. destruct (Req_dec (m 0%nat) 0) as [Z0|]; [|exists 0%nat; split; [lia|assumption]].
    destruct (Req_dec (m 1%nat) 0) as [Z1|]; [|exists 1%nat; split; [lia|assumption]].
    destruct (Req_dec (m 2%nat) 0) as [Z2|]; [|exists 2%nat; split; [lia|assumption]]. rewrite Z0, Z1, Z2 in T. lra. }
  exists (fun _ => m), (fun _ => n), [0;0;0]%nat, a. rewrite E. split; [reflexivity|]. split; [reflexivity|]. split; [inbt|]. split; [exact Ha|]. split.
  - intros q Hq. rewrite (inb_single q Hq). exact T.
  - intro X. pose proof (V' [0;0;0]%nat a ltac:(inbt) Ha) as Y. cbn [ravel prodl sh fold_right Nat.mul Nat.add length] in X, Y.
    change (ravel sh [0;0;0]%nat) with 0%nat in *. change (prodl sh + 0)%nat with 1%nat in *.
    rewrite !RR in Y by lia. rewrite X in Y.
    assert (Z : from_mn m n (r 0%nat) (r 1%nat) a = c0) by (rewrite X; exact (copp_fix _ Y)).
    rewrite R0, R1 in Z. apply (f_equal cre) in Z. unfold dot3 in Z. rewrite !K in Z. cbn in Z. unfold cnrm in Z. cbn in Z.
    apply Na. field_simplify in Z. lra.
Qed.
Print Assumptions C89_documented_refuted.

(** ** C90 *)
(** With mu the operator raises, whatever the arguments. *)
Theorem C90_mu_raises :
  forall k0 G nx ny nz eps mu h, (0 < nx)%nat -> (0 < ny)%nat -> (0 < nz)%nat ->
    maxwell_operator k0 G [nx; ny; nz] eps (Some mu) h = None.
Proof. exact mop_mu_raises. Qed.
Print Assumptions C90_mu_raises.
Theorem C90_mu_refuted :
  exists k0 G sh eps mu h, length sh = 3%nat /\ off_plane k0 G sh /\ nonzero_on sh eps /\ nonzero_on sh mu /\ maxwell_operator k0 G sh eps (Some mu) h = None.
Proof.
  exists k0_case, identity3, sh_case, (fun a j => mkC (eps_case a j) 0), (fun a j => mkC (eps_case a j) 0), (fun _ => c1).
  split; [reflexivity|]. split; [apply off_plane_case|]. split; [apply eps_case_nz|]. split; [apply eps_case_nz|]. apply C90_mu_raises; lia.
Qed.
Print Assumptions C90_mu_refuted.

(** ** C91 *)
(** The H field is transverse to every wavevector, and eps E is k x H. *)
Theorem C91_fields :
  forall k0 G sh eps h, length sh = 3%nat -> off_plane k0 G sh -> nonzero_on sh eps ->
    exists E H, gives_field sh (hmn_2_hxyz k0 G sh h) H /\ gives_field sh (hmn_2_exyz k0 G sh eps h) E /\
      forall j, inb sh j ->
        let k := wavevector k0 G sh j in
        let Hk b := fftn sh (H b) j in
        cadd (cadd (rmul (k O) (Hk O)) (rmul (k 1%nat) (Hk 1%nat))) (rmul (k 2%nat) (Hk 2%nat)) = c0 /\
        forall a, (a < 3)%nat -> fftn sh (fun x => cmul (eps a x) (E a x)) j = rcross k Hk a.
Proof.
  intros k0 G sh eps h L Op He. pose proof (op_fin k0 G sh L (off_y _ _ _ Op)) as Hf. pose proof (op_kok k0 G sh L Op) as Hk0.
  destruct (hxyz_eval k0 G sh L Hf h) as (Hf1 & E1 & V1). destruct (exyz_eval k0 G sh L Hf eps He h) as (Ef & E2 & V2).
  set (H := fun a j => ifftn sh (fun q => hxyz k0 G sh h q a) j).
  set (E := fun a j => cdiv (ifftn sh (dval k0 G sh (getn k0 G sh) h a) j) (eps a j)).
  exists E, H. split; [exists Hf1; split; [exact E1|exact V1]|]. split; [exists Ef; split; [exact E2|exact V2]|].
  intros j Hj k Hk.
  assert (HK : forall b, Hk b = hxyz k0 G sh h j b) by (intro b; unfold Hk, H; now apply (fftn_ifftn sh (fun q => hxyz k0 G sh h q b))).
  split.
  - rewrite !HK. pose proof (from_mn_transverse _ _ _ (h (ravel sh j)) (h (prodl sh + ravel sh j)%nat) (basis_tb k0 G sh j (Hk0 j Hj))) as T.
    unfold dotc in T. rewrite !k_xyz_wavevector in T by assumption. exact T.
  - intros a Ha. rewrite (rcross_ext k (k_xyz k0 G sh j) Hk (hxyz k0 G sh h j)); [|intros; symmetry; now apply k_xyz_wavevector|intros; apply HK].
    unfold hxyz. rewrite (rcross_mn _ _ _ _ _ a (basis_tb k0 G sh j (Hk0 j Hj)) Ha).
    transitivity (fftn sh (ifftn sh (dval k0 G sh (getn k0 G sh) h a)) j).
    + apply fftn_ext. intros x Hx. unfold E. cfield. now apply He.
    + rewrite fftn_ifftn by exact Hj. unfold dval, kk, hm, hn. rewrite kk_norm. reflexivity.
Qed.
Print Assumptions C91_fields.
Example C91_fields_case : off_plane k0_case identity3 sh_case /\ nonzero_on sh_case (fun a j => mkC (eps_case a j) 0).
Proof. split; [apply off_plane_case|apply eps_case_nz]. Qed.
