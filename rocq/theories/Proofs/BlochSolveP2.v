(** Runs of eigsolve with one mode; the operators on a grid of one cell. *)
From Coq Require Import Reals List Arith ZArith Lia Lra Psatz Bool Field Sorted.
From Verif.Lib Require Import Num Sums Idx Mat RealF Dft.
From Verif.Model Require Import Ndarray Bloch Eigensolvers BlochSolve WaveguideReal.
From Verif.Spec Require Import BlochSpec EigenSpec BlochSolveSpec.
From Verif.Proofs Require Import EmeP EigensolversP BlochP BlochP2 BlochSolveP.
Import ListNotations.
Local Open Scope R_scope.

(** ** bloch_op *)
Lemma finite_vec_ok n (f : nat -> num) : (forall p, (p < n)%nat -> f p = Some (value (f p))) ->
  exists v, finite_vec n f = Some v /\ forall p, (p < n)%nat -> v p = value (f p).
Proof.
  induction n as [|n IH]; intro H; cbn [finite_vec].
  - eexists. split; [reflexivity|]. intros; lia.
  - destruct IH as (v & -> & V); [intros; apply H; lia|]. cbn [obind]. rewrite (H n ltac:(lia)). cbn [obind]. eexists. split; [reflexivity|].
    intros p Hp. cbn. destruct (Nat.eqb_spec p n) as [->|]; [rewrite (H n ltac:(lia)); reflexivity|]. apply V. lia.
Qed.
Lemma bloch_op_hermitian k0 G sh (e : nat -> list nat -> R) : length sh = 3%nat ->
  (forall j, inb sh j -> snd (generate_kmn k0 G sh j) <> None) -> (forall a j, (a < 3)%nat -> inb sh j -> e a j <> 0) ->
  hermitian_op (2 * prodl sh) (bloch_op k0 G sh (fun a j => mkC (e a j) 0) None).
Proof.
  intros L Hf He g h. assert (He' : forall a j, (a < 3)%nat -> inb sh j -> mkC (e a j) 0 <> c0) by (intros; now apply mkC_nz, He).
  destruct (mop_value k0 G sh L Hf _ He' g) as (rg & Eg & Fg & _). destruct (mop_value k0 G sh L Hf _ He' h) as (rh & Eh & Fh & _).
  unfold bloch_op. rewrite Eg, Eh. cbn [obind]. destruct (finite_vec_ok _ rg Fg) as (vg & -> & Vg). destruct (finite_vec_ok _ rh Fh) as (vh & -> & Vh).
  exists vg, vh. split; [reflexivity|]. split; [reflexivity|].
  rewrite (hdot_ext _ g vh g (fun p => value (rh p)) ltac:(reflexivity) Vh), (hdot_ext _ vg h (fun p => value (rg p)) h Vg ltac:(reflexivity)).
  exact (mop_hermitian k0 G sh e g h rg rh L Hf He Eg Eh).
Qed.

(** ** One cell, k along x *)
Definition k0_x : vec3 := v3 1 0 0.
Definition id3 (a b : nat) : R := if (a =? b)%nat then 1 else 0.
Definition eps_y : R := 16.
Definition eps_z : R := 5.
Definition eps1 (a : nat) (_ : list nat) : R := match a with O => 1 | 1%nat => eps_y | _ => eps_z end.
Notation one := [1; 1; 1]%nat.
Lemma inb_one j : inb one j -> j = [0; 0; 0]%nat.
Proof.
  unfold inb. intro H. inversion H as [|a ? j1 ? A H1]; subst. inversion H1 as [|b ? j2 ? B H2]; subst. inversion H2 as [|c ? j3 ? C H3]; subst. inversion H3; subst.
  repeat f_equal; lia.
Qed.
Lemma k_one a : k_xyz k0_x id3 one [0; 0; 0]%nat a = v3 1 0 0 a.
Proof. unfold k_xyz, k0_x, id3. destruct a as [|[|[|a]]]; cbn; ring. Qed.
Lemma kmn_one : kk k0_x id3 one [0; 0; 0]%nat = 1 /\ (forall a, (a < 3)%nat -> mv3 k0_x id3 one [0; 0; 0]%nat a = v3 0 (-1) 0 a) /\
  snd (generate_kmn k0_x id3 one [0; 0; 0]%nat) <> None /\ (forall a, (a < 3)%nat -> getn k0_x id3 one [0; 0; 0]%nat a = v3 0 0 (-1) a).
Proof.
  assert (Q : forall u : vec3, u O * u O + u 1%nat * u 1%nat + u 2%nat * u 2%nat = 1 -> norm3 u = 1) by (intros u H; unfold norm3; rewrite H; apply sqrt_1).
  unfold kk, mv3, getn, generate_kmn. cbv zeta. cbn [fst snd]. destruct (Req_EM_T (k_xyz k0_x id3 one [0; 0; 0]%nat O) 0) as [X|_]; [rewrite k_one in X; cbn in X; lra|].
  set (k := k_xyz k0_x id3 one [0; 0; 0]%nat). assert (K0 : k O = 1) by apply k_one. assert (K1 : k 1%nat = 0) by apply k_one. assert (K2 : k 2%nat = 0) by apply k_one. clearbody k.
  assert (Nu : norm3 (cross k (v3 0 0 1)) = 1) by (apply Q; cbn; rewrite K0, K1, K2; ring).
  assert (Nv : norm3 (cross k (fun a => cross k (v3 0 0 1) a / norm3 (cross k (v3 0 0 1)))) = 1) by (apply Q; cbn; rewrite Nu, K0, K1, K2; field).
  assert (Kz : k_is_0 k = false) by (unfold k_is_0; destruct (Req_EM_T (k O) 0); [lra|reflexivity]).
  split; [apply Q; rewrite K0, K1, K2; ring|]. split; [|rewrite Kz, Nv; destruct (Req_EM_T 1 0); [lra|]; split; [discriminate|]].
  - intros a Ha. rewrite Nu. destruct a as [|[|[|a]]]; [| | |lia]; cbn; rewrite ?K0, ?K1, ?K2; field.
  - intros a Ha. rewrite Nu. destruct a as [|[|[|a]]]; [| | |lia]; cbn; rewrite ?K0, ?K1, ?K2; field.
Qed.
Lemma fin_one j : inb one j -> snd (generate_kmn k0_x id3 one j) <> None.
Proof. intro H. rewrite (inb_one j H). apply kmn_one. Qed.
Lemma eps1_nz a j : eps1 a j <> 0.
Proof. unfold eps1, eps_y, eps_z. destruct a as [|[|a]]; lra. Qed.
Lemma fft_one f : fftn one f [0; 0; 0]%nat = f [0; 0; 0]%nat.
Proof.
  unfold fftn. cbn [gsum sumN dim]. 
  replace (turns one [0; 0; 0]%nat [0; 0; 0]%nat) with 0 by (unfold turns; cbn; field).
  rewrite Rmult_0_r, ?Ropp_0, ?cis_0. apply cpx_ext; cbn; ring.
Qed.
Lemma ifft_one f : ifftn one f [0; 0; 0]%nat = f [0; 0; 0]%nat.
Proof. rewrite <- (fft_one (ifftn one f)). apply fftn_ifftn. repeat (constructor; [lia|]); constructor. Qed.
Notation ceps := (fun a j => mkC (eps1 a j) 0).
Lemma ceps_nz a j : (a < 3)%nat -> inb one j -> ceps a j <> c0.
Proof. intros _ _. apply mkC_nz, eps1_nz. Qed.
Lemma op_one h : exists y, bloch_op k0_x id3 one ceps None h = Some y /\
  y O = cmul (mkC (- (1 / 5)) 0) (h O) /\ y 1%nat = cmul (mkC (- (1 / 16)) 0) (h 1%nat).
Proof.
  destruct (mop_value k0_x id3 one eq_refl fin_one ceps ceps_nz h) as (r & E & F & V). unfold bloch_op. rewrite E. cbn [obind].
  destruct (finite_vec_ok _ r F) as (y & -> & Y). exists y. split; [reflexivity|].
  rewrite (Y O ltac:(cbn; lia)), (Y 1%nat ltac:(cbn; lia)).
  destruct (V [0; 0; 0]%nat ltac:(repeat (constructor; [lia|]); constructor)) as [V0 V1]. change (ravel one [0; 0; 0]%nat) with O in V0, V1. change (prodl one + 0)%nat with 1%nat in V1. rewrite V0, V1.
  destruct kmn_one as (K & M & _ & Nn). rewrite K. unfold dotc. rewrite !M, !Nn by lia. unfold ev. rewrite !fft_one, !ifft_one. unfold dval. rewrite K, !M, !Nn by lia.
  unfold hm, hn. cbn [ravel prodl fold_right]. unfold eps1, eps_y, eps_z. split; apply cpx_ext; cbn; unfold cnrm; cbn; field.
Qed.
Lemma iop_one h : exists y, bloch_iop k0_x id3 one ceps None h = Some y /\
  y O = cmul (mkC 5 0) (h O) /\ y 1%nat = cmul (mkC 16 0) (h 1%nat).
Proof.
  destruct (imop_value k0_x id3 one eq_refl fin_one ceps h) as (r & E & F & V).
  { intros j Hj. rewrite (inb_one j Hj). left. rewrite k_one. cbn. lra. }
  unfold bloch_iop. rewrite E. cbn [obind].
  destruct (finite_vec_ok _ r F) as (y & -> & Y). exists y. split; [reflexivity|].
  rewrite (Y O ltac:(cbn; lia)), (Y 1%nat ltac:(cbn; lia)).
  destruct (V [0; 0; 0]%nat ltac:(repeat (constructor; [lia|]); constructor)) as [V0 V1]. change (ravel one [0; 0; 0]%nat) with O in V0, V1. change (prodl one + 0)%nat with 1%nat in V1. rewrite V0, V1.
  destruct kmn_one as (K & M & _ & Nn). rewrite K. unfold dotc. rewrite !M, !Nn by lia. unfold dv. rewrite !fft_one, !ifft_one. unfold gval. rewrite K, !M, !Nn by lia.
  unfold hm, hn. cbn [ravel prodl fold_right]. unfold eps1, eps_y, eps_z. split; apply cpx_ext; cbn; unfold cnrm; cbn; field.
Qed.

(** ** Functions for one mode *)
Definition inv1 (_ : nat) (M : mat CC) : option (mat CC) := if cpx_dec (M O O) c0 then None else Some (fun _ _ => cinv (M O O)).
Definition sqrtm1 (_ : nat) (M : mat CC) : option (mat CC) := Some (fun _ _ => csqrt (M O O)).
Definition eig1 (_ : nat) (M : mat CC) : option ((nat -> cpx) * mat CC) := Some (fun _ => M O O, fun _ _ => c1).
(** the better one of 0 and t *)
Definition better (t : R) (f : R -> option R) : option R :=
  match f 0, f t with Some x, Some y => if Rle_dec y x then Some t else Some 0 | _, _ => Some 0 end.
Lemma cinv_r z : z <> c0 -> cmul z (cinv z) = c1.
Proof. intro H. cfield. exact H. Qed.
Lemma inv1_ok : inv_ok 1 inv1.
Proof.
  intro M. unfold inv1. destruct (cpx_dec (M O O) c0) as [E|E].
  - intros U H. destruct (H O O ltac:(lia) ltac:(lia)) as [A _]. cbn in A. rewrite E in A. apply (f_equal cre) in A. cbn in A. lra.
  - intros i j Hi Hj. assert (i = O) by lia. assert (j = O) by lia. subst. cbn [sumN Nat.eqb].
    pose proof (cinv_r (M O O) E) as Q. split.
    + transitivity (cmul (M O O) (cinv (M O O))); [apply cpx_ext; cbn; ring|exact Q].
    + transitivity (cmul (M O O) (cinv (M O O))); [apply cpx_ext; cbn; ring|exact Q].
Qed.
Lemma sqrtm1_ok : sqrtm_ok 1 sqrtm1.
Proof.
  intros M S H. injection H as <-. split.
  - intros i j Hi Hj. assert (i = O) by lia. assert (j = O) by lia. subst. cbn [sumN]. rewrite <- (csqrt_sq (M O O)) at 3. apply cpx_ext; cbn; ring.
  - intros (HM & HP) i j _ _. pose proof (HM O O ltac:(lia) ltac:(lia)) as R0. apply (f_equal cim) in R0. cbn in R0.
    specialize (HP (fun _ => c1)). cbn in HP. assert (P : 0 < cre (M O O)). { eapply Rlt_le_trans; [apply HP; exists O; split; [lia|]; intro X; apply (f_equal cre) in X; cbn in X; lra|]. cbn. lra. }
    pose proof (csqrt_sq (M O O)) as Q. set (z := csqrt (M O O)) in *. change (z = cconj z). clearbody z. assert (Qr := f_equal cre Q). assert (Qi := f_equal cim Q). cbn in Qr, Qi. apply cpx_ext; cbn; [reflexivity|].
    assert (cim (M O O) = 0) by lra. 
    assert (U0 : cre z * cim z = 0) by lra. apply Rmult_integral in U0 as [U0|V0]; [nra|rewrite V0; ring].
Qed.
Lemma eig1_ok : eig_ok 1 eig1.
Proof.
  intros M lam V H. injection H as <- <-. intros j Hj. split.
  - intros i Hi. assert (i = O) by lia. subst. unfold mv, col. cbn [sumN]. apply cpx_ext; cbn; ring.
  - exists O. split; [lia|]. intro X. apply (f_equal cre) in X. cbn in X. lra.
Qed.
Lemma better_ok t : no_worse (better t).
Proof.
  intros f u x y H Hx Hy. unfold better in H. rewrite Hx in H. destruct (f t) as [z|] eqn:Et.
  - destruct (Rle_dec z x); injection H as <-; [rewrite Et in Hy; injection Hy as <-; assumption|rewrite Hx in Hy; injection Hy as <-; lra].
  - injection H as <-. rewrite Hx in Hy. injection Hy as <-. lra.
Qed.

(** ** Without convergence: one mode *)
Lemma hdot_scale2 N c d x y : hdot N (fun i => cmul c (x i)) (fun i => cmul d (y i)) = cmul (cmul (cconj c) d) (hdot N x y).
Proof. unfold hdot. refine (eq_trans _ (sumN_mul_l CC _ _ _)). apply (sumN_ext CC). intros. apply cpx_ext; cbn; ring. Qed.
Lemma inverse1 M U : is_inverse 1 M U -> cmul (M O O) (U O O) = c1.
Proof. intro H. destruct (H O O ltac:(lia) ltac:(lia)) as [A _]. cbn in A. rewrite <- A. apply cpx_ext; cbn; ring. Qed.
Lemma recover_one N op inv sqrtm eig Z Zp ms : hermitian_op N op -> inv_ok 1 inv -> sqrtm_ok 1 sqrtm -> eig_ok 1 eig ->
  recover N 1 op inv sqrtm eig Z (mm (K := CC) N (mct Zp) Zp) = Some ms ->
  exists lam v Av, ms = [(lam, v)] /\ norm2 N v = 1 /\ in_span N 1 Z v /\ op v = Some Av /\
    rmul (norm2 N (col Zp 0)) lam = rmul (norm2 N (col Z 0)) (hdot N v Av).
Proof.
  intros HA Hinv Hsq Heig E. unfold recover in E. pose proof (Hinv (mm (K := CC) N (mct Zp) Zp)) as HI. destruct (inv 1%nat _) as [U|]; [|discriminate]. cbn [obind] in E.
  destruct (sqrtm 1%nat U) as [S|] eqn:ES; [|discriminate]. cbn [obind] in E. destruct (Hsq U S ES) as [HS SH]. specialize (SH (inverse_posdef N 1 Zp U HI)).
  destruct (on_columns op 1 (mm 1 Z S)) as [AY|] eqn:EA; [|discriminate]. cbn [obind] in E.
  destruct (eig 1%nat _) as [[lam V]|] eqn:EE; [|discriminate]. cbn [obind] in E. destruct (Heig _ lam V EE O ltac:(lia)) as [HV NV].
  destruct (existsb _ _) eqn:NX; [discriminate|]. cbn [seq existsb] in NX. apply orb_false_iff in NX as [NX _].
  set (x := fun i => mm (K := CC) 1 (mm 1 Z S) V i 0%nat) in *.
  destruct (Req_EM_T (vnorm N x) 0) as [|Nx]; [discriminate|]. injection E as <-. cbn [seq map sort_abs fold_right insert_abs].
  assert (SR : cim (S O O) = 0). { pose proof (SH O O ltac:(lia) ltac:(lia)) as Q. apply (f_equal cim) in Q. cbn in Q. lra. }
  set (p := norm2 N (col Zp 0)). assert (Hp : cmul (mkC p 0) (U O O) = c1).
  { unfold p. rewrite <- hdot_self. exact (inverse1 _ _ HI). }
  pose proof (HS O O ltac:(lia) ltac:(lia)) as HS0. cbn in HS0.
  set (s := cre (S O O)). assert (ES0 : S O O = mkC s 0) by (apply cpx_ext; cbn; [reflexivity|exact SR]).
  assert (Hps : p * (s * s) = 1). { rewrite <- HS0, ES0 in Hp. apply (f_equal cre) in Hp. cbn in Hp. lra. }
  destruct NV as (q & Hq & NV). assert (q = O) by lia. subst q. set (w := col V 0%nat O) in *.
  (* x = s w Z *)
  set (z := cmul (mkC s 0) w). assert (Ex : forall i, x i = cmul z (Z i O)).
  { intro i. unfold x, mm. cbn [sumN]. rewrite ES0. unfold z, w, col. apply cpx_ext; cbn; ring. }
  pose proof (vnorm_sq N x) as Nsq. change (nrm2 N x) with (norm2 N x) in Nsq. set (r := vnorm N x) in *.
  assert (Ev : forall i, normalize N x i = cmul (mkC (/ r) 0) (cmul z (Z i O))).
  { intro i. unfold normalize, vdivr. fold r. rewrite Ex. apply cpx_ext; cbn; unfold cnrm; cbn; field; exact Nx. }
  set (v := normalize N x) in *. exists (lam O), v, (Af op v). split; [reflexivity|]. split; [|split; [|split]].
  - change (nrm2 N v = 1). rewrite <- vnorm_sq. unfold v. rewrite normalize_unit by exact Nx. ring.
  - exists (fun _ => cmul (mkC (/ r) 0) z). intros i _. rewrite Ev. unfold comb. cbn [sumN]. apply cpx_ext; cbn; ring.
  - apply (op_Af N op HA).
  - (* lam w = W w, W = s^2 <Z, AZ> *)
    set (q := hdot N (col Z 0) (Af op (col Z 0))).
    assert (EW : lam O = cmul (mkC (s * s) 0) q).
    { pose proof (HV O ltac:(lia)) as HV0. unfold mv in HV0. cbn [sumN] in HV0. change (col V 0 O) with w in HV0. change (col V 0%nat O) with w in HV0.
      assert (EM : mm (K := CC) N (mct (mm 1 Z S)) AY O O = cmul (mkC (s * s) 0) q).
      { transitivity (hdot N (fun i => cmul (mkC s 0) (Z i O)) (fun i => cmul (mkC s 0) (Af op (col Z 0) i))).
        - unfold mm at 1, hdot. apply (sumN_ext CC). intros i Hi. refine (f_equal2 cmul _ _).
          + unfold mct, mm. cbn [sumN]. rewrite ES0. apply cpx_ext; cbn; ring.
          + rewrite (on_columns_val N op HA 1 _ AY EA i O ltac:(lia)).
            rewrite (Af_ext N op HA (col (mm 1 Z S) 0) (comb 1 Z (fun _ => mkC s 0))); [|intros i' _; unfold col, mm, comb; cbn [sumN]; rewrite ES0; reflexivity|exact Hi].
            rewrite (Af_comb N op HA 1 _ _ i Hi). unfold comb. cbn [sumN]. apply cpx_ext; cbn; ring.
        - refine (eq_trans (hdot_scale2 N (mkC s 0) (mkC s 0) (col Z 0) (Af op (col Z 0))) _). fold q. apply cpx_ext; cbn; ring. }
      rewrite EM in HV0.
      assert (H0 : cmul (csub (cmul (mkC (s * s) 0) q) (lam O)) w = c0).
      { apply (f_equal (fun t => csub t (cmul (lam O) w))) in HV0. transitivity (csub (cadd c0 (cmul (cmul (mkC (s * s) 0) q) w)) (cmul (lam O) w)); [apply cpx_ext; cbn; ring|].
        etransitivity; [exact HV0|]. apply cpx_ext; cbn; ring. }
      symmetry. apply csub_0. destruct (cpx_dec (csub (cmul (mkC (s * s) 0) q) (lam O)) c0) as [Y|Y]; [exact Y|]. exfalso. apply NV.
      transitivity (cmul (cinv (csub (cmul (mkC (s * s) 0) q) (lam O))) (cmul (csub (cmul (mkC (s * s) 0) q) (lam O)) w)); [cfield; exact Y|]. rewrite H0. apply cpx_ext; cbn; ring. }
    assert (EQ : hdot N v (Af op v) = cmul (mkC (cnrm z / (r * r)) 0) q).
    { clearbody z r. clear - HA Ev Nx. set (c := cmul (mkC (/ r) 0) z). assert (Evc : forall i, v i = cmul c (Z i O)) by (intro i; rewrite Ev; unfold c; apply cpx_ext; cbn; ring).
      rewrite (hdot_ext N v (Af op v) (fun i => cmul c (col Z 0 i)) (fun i => cmul c (Af op (col Z 0) i))).
      - rewrite hdot_scale2. fold q. generalize q. intro q'. unfold c. apply cpx_ext; cbn; unfold cnrm; field; exact Nx.
      - intros; apply Evc.
      - intros i Hi. rewrite (Af_ext N op HA v (comb 1 Z (fun _ => c))); [|intros i' _; rewrite Evc; unfold comb; cbn [sumN]; apply cpx_ext; cbn; ring|exact Hi].
        rewrite (Af_comb N op HA 1 _ _ i Hi). unfold comb. cbn [sumN]. apply cpx_ext; cbn; ring. }
    assert (ER : r * r = cnrm z * norm2 N (col Z 0)).
    { rewrite Nsq. clear - Ex. unfold norm2. induction N as [|n IH]; [cbn; ring|]. cbn [sumN]. rewrite IH, Ex. unfold col. cbn. unfold cnrm. cbn. ring. }
    rewrite EW, EQ. unfold rmul. fold p. assert (Nr : r * r <> 0) by nra.
    replace (cnrm z / (r * r)) with (/ norm2 N (col Z 0)).
    2:{ rewrite ER. field. split; intro X; rewrite X in ER; apply Nr; rewrite ER; ring. }
    assert (norm2 N (col Z 0) <> 0) by (intro X; apply Nr; rewrite ER, X; ring).
    transitivity q; [|symmetry].
    + transitivity (cmul (mkC (p * (s * s)) 0) q); [clearbody p q; apply cpx_ext; cbn; ring|]. rewrite Hps. clearbody q. apply cpx_ext; cbn; ring.
    + set (n := norm2 N (col Z 0)) in *. clearbody n q. apply cpx_ext; cbn; field; assumption.
Qed.

(** ** A run on one cell *)
Definition rc (X : mat CC) (x y : R) : Prop := X O O = mkC x 0 /\ X 1%nat O = mkC y 0.
Definition t1 : R := PI - atan (39 / 25).
Lemma cs_t1 : cos t1 = - (25 / sqrt 2146) /\ sin t1 = 39 / sqrt 2146.
Proof.
  unfold t1. rewrite cos_minus, sin_minus, cos_PI, sin_PI, cos_atan, sin_atan.
  replace (1 + (39 / 25)²) with (2146 / (25 * 25)) by (unfold Rsqr; field).
  rewrite sqrt_div_alt by lra. rewrite sqrt_square by lra. assert (0 < sqrt 2146) by (apply sqrt_lt_R0; lra). split; field; lra.
Qed.
Lemma cs_prod : cos t1 * cos t1 = 625 / 2146 /\ sin t1 * sin t1 = 1521 / 2146 /\ sin t1 * cos t1 = - (975 / 2146).
Proof.
  destruct cs_t1 as [-> ->]. assert (P : 0 < sqrt 2146) by (apply sqrt_lt_R0; lra). pose proof (sqrt_sqrt 2146 ltac:(lra)) as Q.
  set (q := sqrt 2146) in *. clearbody q. repeat split; rewrite <- Q; field; lra.
Qed.
Lemma gram1 X Y x y u v : rc X x y -> rc Y u v -> mm (K := CC) 2 (mct X) Y O O = mkC (x * u + y * v) 0.
Proof. intros [A B] [C D]. unfold mm, mct. cbn [sumN]. rewrite A, B, C, D. apply cpx_ext; cbn; ring. Qed.
Lemma fro1 X x y : rc X x y -> fro 2 1 X = sqrt (x * x + y * y).
Proof. intros [A B]. unfold fro. cbn [sumN]. rewrite A, B. unfold cnrm. cbn. f_equal. ring. Qed.
Lemma inv1_c M x : M O O = mkC x 0 -> x <> 0 -> exists U, inv1 1 M = Some U /\ U O O = mkC (/ x) 0.
Proof.
  intros H N. unfold inv1. rewrite H. destruct (cpx_dec (mkC x 0) c0) as [E|_]; [apply (f_equal cre) in E; cbn in E; contradiction|].
  eexists. split; [reflexivity|]. apply cpx_ext; cbn; unfold cnrm; cbn; field; exact N.
Qed.
Lemma trace_func1 A B C D E F a b c d e f t : A O O = mkC a 0 -> B O O = mkC b 0 -> C O O = mkC c 0 -> D O O = mkC d 0 -> E O O = mkC e 0 -> F O O = mkC f 0 ->
  let q := cos t * cos t * a + sin t * sin t * b + 2 * (sin t * cos t) * c in q <> 0 ->
  trace_func 1 inv1 A B C D E F t = Some (Rabs ((cos t * cos t * d + sin t * sin t * e + 2 * (sin t * cos t) * f) / q)).
Proof.
  intros HA HB HC HD HE HF q Nq. unfold trace_func, Qi_func. cbv zeta.
  destruct (inv1_c (madd (madd (mscale_r (cos t * cos t) A) (mscale_r (sin t * sin t) B)) (mscale_r (2 * sin t * cos t) C)) q) as (Qi & -> & HQ).
  { unfold madd, mscale_r, mscale. rewrite HA, HB, HC. unfold q. apply cpx_ext; cbn; ring. }
  { exact Nq. }
  cbn [obind]. do 2 f_equal. unfold rtrace_AtB. cbn [sumN]. unfold madd, mscale_r, mscale. rewrite HD, HE, HF, HQ. cbn. field. exact Nq.
Qed.
Section Run.
  Variables op iop : vect CC -> option (vect CC).
  Hypothesis Hop : forall h, exists y, op h = Some y /\ y O = cmul (mkC (- (1 / 5)) 0) (h O) /\ y 1%nat = cmul (mkC (- (1 / 16)) 0) (h 1%nat).
  Hypothesis Hiop : forall h, exists y, iop h = Some y /\ y O = cmul (mkC 5 0) (h O) /\ y 1%nat = cmul (mkC 16 0) (h 1%nat).
  Lemma cols_op X x y : rc X x y -> exists AX, on_columns op 1 X = Some AX /\ rc AX (- (x / 5)) (- (y / 16)).
  Proof.
    intros [A B]. cbn [on_columns obind]. destruct (Hop (fun i => X i O)) as (w & -> & W0 & W1). cbn [obind]. eexists. split; [reflexivity|]. split; cbn [Nat.eqb]; [rewrite W0, A|rewrite W1, B]; apply cpx_ext; cbn; field.
  Qed.
  Lemma cols_iop X x y : rc X x y -> exists AX, on_columns iop 1 X = Some AX /\ rc AX (5 * x) (16 * y).
  Proof.
    intros [A B]. cbn [on_columns obind]. destruct (Hiop (fun i => X i O)) as (w & -> & W0 & W1). cbn [obind]. eexists. split; [reflexivity|]. split; cbn [Nat.eqb]; [rewrite W0, A|rewrite W1, B]; apply cpx_ext; cbn; field.
  Qed.
  Lemma rc_scale c X x y : rc X x y -> rc (mscale_r c X) (c * x) (c * y).
  Proof. intros [A B]. unfold mscale_r, mscale. split; rewrite ?A, ?B; apply cpx_ext; cbn; ring. Qed.
  Lemma rc_add X x y Y u v : rc X x y -> rc Y u v -> rc (madd X Y) (x + u) (y + v).
  Proof. intros [A B] [C D]. unfold madd. split; rewrite ?A, ?B, ?C, ?D; apply cpx_ext; cbn; ring. Qed.
  Lemma rc_sub X x y Y u v : rc X x y -> rc Y u v -> rc (msub X Y) (x - u) (y - v).
  Proof. intros [A B] [C D]. unfold msub. split; rewrite ?A, ?B, ?C, ?D; apply cpx_ext; cbn; ring. Qed.
  Lemma rc_mm X x y U u : rc X x y -> U O O = mkC u 0 -> rc (mm 1 X U) (x * u) (y * u).
  Proof. intros [A B] HU. unfold mm. split; cbn [sumN]; rewrite ?A, ?B, HU; apply cpx_ext; cbn; ring. Qed.
  Lemma rc_val X x y x' y' : rc X x y -> x = x' -> y = y' -> rc X x' y'.
  Proof. now intros H <- <-. Qed.
  Lemma sym1 M x : M O O = mkC x 0 -> symmetrize M O O = mkC x 0.
  Proof. intro H. unfold symmetrize, mct. rewrite H. apply cpx_ext; cbn; field. Qed.
  Lemma obind_some {A B} (x : A) (f : A -> option B) : obind (Some x) f = f x. Proof. reflexivity. Qed.

  Lemma step_first tol reset Z ZtZ : rc Z (3 / 5) (4 / 5) -> exists s,
    cg_step 2 1 op iop tol reset inv1 (better t1) 0 (mkCg Z ZtZ (mzero (K := CC)) 0 1 0) = Some (Next s) /\
    rc (sZ s) 0 (- (56 / sqrt 2146)) /\ sZtZ s = mm 2 (mct Z) Z /\ sprev_E s = 14 / 125 /\ sprev_tr s = 184041 / 390625.
  Proof.
    intro HZ. unfold cg_step. cbv zeta. cbn [sZ sD sprev_E sd_scale sprev_tr].
    destruct (inv1_c (mm 2 (mct Z) Z) 1) as (U & -> & HU); [rewrite (gram1 Z Z _ _ _ _ HZ HZ); f_equal; field|lra|]. rewrite obind_some.
    destruct (cols_op Z _ _ HZ) as (AZ & -> & HAZ). rewrite obind_some.
    pose proof (gram1 _ _ _ _ _ _ HZ HAZ) as HZA. set (ZtAZ := mm 2 (mct Z) AZ) in *.
    set (ZU := mm (K := CC) 1 ZtAZ U). assert (HZU : ZU O O = mkC (- (14 / 125)) 0). { unfold ZU, mm. cbn [sumN]. rewrite HZA, HU. apply cpx_ext; cbn; field. }
    assert (ET : trace 1 ZU = mkC (- (14 / 125)) 0). { unfold trace. cbn [sumN]. rewrite HZU. apply cpx_ext; cbn; ring. }
    rewrite ET. cbn [cre Nat.ltb Nat.leb andb].
    replace (rsign (- (14 / 125))) with (-1) by (unfold rsign; repeat (destruct (Rlt_dec _ _)); lra).
    set (G := mscale_r (-1) (msub (mm 1 AZ U) (mm 1 (mm 1 Z U) ZU))).
    assert (HG : rc G (33 / 625) (- (99 / 2500))).
    { eapply rc_val; [apply rc_scale, rc_sub; [apply (rc_mm AZ _ _ U _ HAZ HU)|apply (rc_mm _ _ _ ZU _ (rc_mm Z _ _ U _ HZ HU) HZU)]|field|field]. }
    destruct (cols_iop G _ _ HG) as (KG & -> & HKG). rewrite obind_some.
    apply (rc_val _ _ _ (165 / 625) (- (396 / 625))) in HKG; [|field|field].
    destruct (Req_EM_T 0 0) as [_|X]; [|contradiction X; reflexivity]. rewrite obind_some.
    set (D0 := madd (mscale_r (0 / 1) (mzero (K := CC))) KG).
    assert (HD0 : rc D0 (165 / 625) (- (396 / 625))).
    { eapply rc_val; [apply rc_add; [apply (rc_scale _ (mzero (K := CC)) 0 0); split; reflexivity|exact HKG]|field|field]. }
    assert (FD : fro 2 1 D0 = 429 / 625).
    { rewrite (fro1 _ _ _ HD0). replace (_ + _) with ((429 / 625) * (429 / 625)) by field. apply sqrt_square. lra. }
    rewrite FD. destruct (Req_EM_T (429 / 625) 0) as [X|_]; [lra|].
    set (D := mscale_r (INR 1 / (429 / 625)) D0). assert (HD : rc D (5 / 13) (- (12 / 13))) by (eapply rc_val; [apply (rc_scale _ _ _ _ HD0)|cbn; field|cbn; field]).
    clearbody D0 D. destruct (cols_op D _ _ HD) as (AD & -> & HAD). rewrite obind_some.
    set (f := trace_func 1 inv1 _ _ _ _ _ _).
    assert (Hf : forall t, let q := cos t * cos t * 1 + sin t * sin t * 1 + 2 * (sin t * cos t) * (- (33 / 65)) in q <> 0 ->
      f t = Some (Rabs ((cos t * cos t * (- (14 / 125)) + sin t * sin t * (- (14 / 169)) + 2 * (sin t * cos t) * 0) / q))).
    { intro t. apply trace_func1.
      - rewrite (gram1 _ _ _ _ _ _ HZ HZ). f_equal; field.
      - rewrite (gram1 _ _ _ _ _ _ HD HD). f_equal; field.
      - apply sym1. rewrite (gram1 _ _ _ _ _ _ HZ HD). f_equal; field.
      - unfold ZtAZ in *. rewrite HZA. f_equal; field.
      - rewrite (gram1 _ _ _ _ _ _ HD HAD). f_equal; field.
      - apply sym1. rewrite (gram1 _ _ _ _ _ _ HZ HAD). f_equal; field. }
    clearbody f. unfold better. pose proof (Hf 0) as H0. rewrite cos_0, sin_0 in H0. cbv zeta in H0. rewrite H0 by lra. clear H0.
    pose proof (Hf t1) as H1. cbv zeta in H1. destruct cs_prod as (P1 & P2 & P3). rewrite P1, P2, P3 in H1. rewrite H1 by lra. clear H1.
    match goal with |- context [Rle_dec (Rabs ?a) (Rabs ?b)] => replace a with (- (1 / 16)) by field; replace b with (- (14 / 125)) by field end.
    rewrite !Rabs_Ropp, !Rabs_right by lra. destruct (Rle_dec _ _) as [_|X]; [|lra]. rewrite obind_some. eexists. split; [reflexivity|]. cbn [sZ sZtZ sprev_E sprev_tr].
    split; [|split; [reflexivity|split; [reflexivity|]]].
    - destruct cs_t1 as [Ec Es]. assert (0 < sqrt 2146) by (apply sqrt_lt_R0; lra).
      eapply rc_val; [apply rc_add; [apply (rc_scale _ _ _ _ HZ)|apply (rc_scale _ _ _ _ HD)]| |]; rewrite Ec, Es; field; lra.
    - unfold rtrace_AtB. cbn [sumN]. destruct HKG as [-> ->]. cbn. field.
  Qed.
  Lemma step_second reset s : rc (sZ s) 0 (- (56 / sqrt 2146)) -> sprev_E s = 14 / 125 ->
    exists s', cg_step 2 1 op iop 1 reset inv1 (better t1) 1 s = Some (Stop s') /\ sZ s' = sZ s.
  Proof.
    intros HZ HE. unfold cg_step. cbv zeta. set (Z := sZ s) in *.
    assert (P : 0 < sqrt 2146) by (apply sqrt_lt_R0; lra). pose proof (sqrt_sqrt 2146 ltac:(lra)) as Q.
    assert (G : mm (K := CC) 2 (mct Z) Z O O = mkC (3136 / 2146) 0). { rewrite (gram1 _ _ _ _ _ _ HZ HZ). f_equal. set (q := sqrt 2146) in *. clearbody q. rewrite <- Q. field. lra. }
    destruct (inv1_c _ _ G) as (U & -> & HU); [lra|]. rewrite obind_some.
    destruct (cols_op Z _ _ HZ) as (AZ & -> & HAZ). rewrite obind_some.
    assert (ET : trace 1 (mm 1 (mm 2 (mct Z) AZ) U) = mkC (- (1 / 16)) 0).
    { unfold trace. cbn [sumN]. unfold mm at 1. cbn [sumN]. rewrite HU, (gram1 _ _ _ _ _ _ HZ HAZ). apply cpx_ext; cbn; [|ring].
      replace (0 * - (0 / 5) + - (56 / sqrt 2146) * - (- (56 / sqrt 2146) / 16)) with (- (196 / 2146)) by (clear - P Q; set (q := sqrt 2146) in *; clearbody q; rewrite <- Q; field; lra). field. }
    rewrite ET, HE. cbn [cre Nat.ltb Nat.leb andb]. rewrite (Rabs_left (- (1 / 16))) by lra. rewrite Rabs_left by lra.
    destruct (Rlt_dec _ _) as [_|X]; [|lra]. eexists. split; reflexivity.
  Qed.
  Lemma recover_runs Z Zp x y u v : rc Z x y -> rc Zp u v -> y <> 0 -> u * u + v * v <> 0 ->
    exists ms, recover 2 1 op inv1 sqrtm1 eig1 Z (mm 2 (mct Zp) Zp) = Some ms.
  Proof.
    intros HZ HZp Ny Np. unfold recover. destruct (inv1_c (mm 2 (mct Zp) Zp) _ (gram1 _ _ _ _ _ _ HZp HZp) Np) as (U & -> & HU). rewrite obind_some.
    unfold sqrtm1 at 1. rewrite obind_some. cbv zeta. cbn [on_columns obind].
    destruct (Hop (fun i => mm (K := CC) 1 Z (fun _ _ => csqrt (U O O)) i O)) as (w & -> & _). cbn [obind]. unfold eig1 at 1. rewrite obind_some. cbn [seq existsb].
    destruct (Req_EM_T _ 0) as [X|_]; [|cbn [orb]; eexists; reflexivity]. exfalso.
    pose proof (vnorm_sq 2 (fun i => mm (K := CC) 1 (mm 1 Z (fun _ _ => csqrt (U O O))) (fun _ _ => c1) i O)) as Q. rewrite X in Q.
    assert (Z0 := norm2_zero 2 _ (eq_trans (eq_sym Q) (Rmult_0_l 0)) 1%nat ltac:(lia)). unfold mm in Z0. cbn [sumN] in Z0. destruct HZ as [_ B]. rewrite B in Z0.
    pose proof (csqrt_sq (U O O)) as S2. set (z := csqrt (U O O)) in *. clearbody z.
    assert (Zz : z = c0). { apply cpx_ext; [apply (f_equal cre) in Z0|apply (f_equal cim) in Z0]; cbn in Z0 |- *; apply (Rmult_eq_reg_l y); try exact Ny; lra. }
    rewrite Zz, HU in S2. apply (f_equal cre) in S2. cbn in S2. assert (/ (u * u + v * v) <> 0) by (now apply Rinv_neq_0_compat). lra.
  Qed.

  Definition y1 : mat CC := fun _ i => if (i =? 0)%nat then mkC (3 / 5) 0 else mkC (4 / 5) 0.
  Lemma start_runs rng : exists Z, start_loop 2 1 inv1 sqrtm1 rng 1 0 true y1 (mtr y1) = Some (Z, mm 2 (mct Z) Z, true, mtr Z) /\ rc Z (3 / 5) (4 / 5).
  Proof.
    cbn [start_loop]. cbv zeta. assert (H : rc (mtr y1) (3 / 5) (4 / 5)) by (split; reflexivity).
    assert (F : fro 2 1 (mtr y1) = 1) by (rewrite (fro1 _ _ _ H); replace (_ + _) with (1 * 1) by field; apply sqrt_square; lra).
    rewrite F. destruct (Req_EM_T 1 0); [lra|]. set (Z := mscale_r (INR 1 / 1) (mtr y1)).
    assert (HZ : rc Z (3 / 5) (4 / 5)) by (eapply rc_val; [apply (rc_scale _ _ _ _ H)|cbn; field|cbn; field]). clearbody Z.
    destruct (inv1_c (mm 2 (mct Z) Z) 1) as (U & -> & HU); [rewrite (gram1 Z Z _ _ _ _ HZ HZ); f_equal; field|lra|].
    destruct (Rlt_dec _ _) as [L|_]; [exfalso; unfold trace in L; cbn [sumN] in L; rewrite HU in L; cbn in L; lra|]. exists Z. auto.
  Qed.
  Lemma run1 tol reset rng : exists r Z' Z, eigsolve 2 1 op iop tol 1 reset inv1 sqrtm1 eig1 (better t1) rng 1 (Some y1) = Some r /\
    converged r = false /\ iterates r = [Z'; Z] /\ rc Z (3 / 5) (4 / 5) /\ rc Z' 0 (- (56 / sqrt 2146)) /\ y0_after r = mtr Z'.
  Proof.
    unfold eigsolve. destruct (start_runs rng) as (Z & -> & HZ). rewrite obind_some. cbn [cg_loop].
    destruct (step_first tol reset Z (mm 2 (mct Z) Z) HZ) as (s & -> & HZ' & EG & _). rewrite !obind_some. cbv iota.
    assert (P : 0 < sqrt 2146) by (apply sqrt_lt_R0; lra). assert (PQ : 0 < 56 / sqrt 2146) by (apply Rdiv_lt_0_compat; lra).
    rewrite EG. destruct (recover_runs (sZ s) Z _ _ _ _ HZ' HZ) as (ms & ->); [lra|lra|]. rewrite obind_some. eexists _, (sZ s), Z. split; [reflexivity|]. cbn. auto.
  Qed.
  Lemma run2 reset rng : exists r, eigsolve 2 1 op iop 1 2 reset inv1 sqrtm1 eig1 (better t1) rng 1 (Some y1) = Some r /\ converged r = true.
  Proof.
    unfold eigsolve. destruct (start_runs rng) as (Z & -> & HZ). rewrite obind_some. cbn [cg_loop].
    destruct (step_first 1 reset Z (mm 2 (mct Z) Z) HZ) as (s & -> & HZ' & EG & EE & _). rewrite !obind_some. cbv iota.
    destruct (step_second reset s HZ' EE) as (s' & Es & EZ). 
    assert (Es' := Es). rewrite Es. rewrite !obind_some. cbv iota.
    assert (GG : sZtZ s' = mm 2 (mct (sZ s')) (sZ s')).
    { unfold cg_step in Es'. cbv zeta in Es'. destruct (inv1 1 _); [|discriminate]. rewrite obind_some in Es'. destruct (on_columns op 1 (sZ s)); [|discriminate]. rewrite obind_some in Es'.
      destruct (_ && _)%bool; [injection Es' as <-; reflexivity|]. exfalso. revert Es'.
      repeat match goal with |- obind ?o _ = _ -> _ => destruct o; [rewrite obind_some|discriminate] end.
      destruct (Req_EM_T _ _); [discriminate|]. repeat match goal with |- obind ?o _ = _ -> _ => destruct o; [rewrite obind_some|discriminate] end. discriminate. }
    rewrite GG. rewrite <- EZ in HZ'. assert (P : 0 < sqrt 2146) by (apply sqrt_lt_R0; lra). assert (PQ : 0 < 56 / sqrt 2146) by (apply Rdiv_lt_0_compat; lra).
    destruct (recover_runs (sZ s') (sZ s') _ _ _ _ HZ' HZ') as (ms & ->); [lra|nra|]. rewrite obind_some. eexists. split; [reflexivity|]. reflexivity.
  Qed.
End Run.
