(** Uniform media, symmetry, and inputs for which the Bloch operators fail. *)
From Coq Require Import Reals List Arith ZArith Lia Lra Psatz Field Bool.
From Verif.Lib Require Import Num Sums Idx RealF Dft.
From Verif.Model Require Import Ndarray Bloch.
From Verif.Spec Require Import BlochSpec.
From Verif.Proofs Require Import EmeP NdarrayP BlochP.
Import ListNotations.
Local Open Scope R_scope.

Section Uniform.
  Variables (k0 : vec3) (G : nat -> nat -> R) (sh : list nat).
  Hypothesis Hsh : length sh = 3%nat.
  Hypothesis Hfin : forall j, inb sh j -> snd (generate_kmn k0 G sh j) <> None.
  Variable eps : nat -> list nat -> cpx.
  Variable e0 : cpx.
  Hypothesis He0 : e0 <> c0.
  Hypothesis He : forall a j, (a < 3)%nat -> inb sh j -> eps a j = e0.
  Notation nn := (getn k0 G sh).
  Notation k := (k_xyz k0 G sh).
  Lemma He' : forall a j, (a < 3)%nat -> inb sh j -> eps a j <> c0.
  Proof. intros a j Ha Hj. now rewrite He. Qed.
  Lemma ev_uniform h a j : (a < 3)%nat -> inb sh j -> ev k0 G sh nn eps h a j = cmul (cinv e0) (dval k0 G sh nn h a j).
  Proof.
    intros Ha Hj. unfold ev. transitivity (fftn sh (fun j0 => cmul (cinv e0) (ifftn sh (dval k0 G sh nn h a) j0)) j).
    { apply fftn_ext. intros x Hx. rewrite He by assumption. unfold cdiv. cring. }
    rewrite fftn_scale, fftn_ifftn by exact Hj. reflexivity.
  Qed.
  Lemma dv_uniform h a j : (a < 3)%nat -> inb sh j -> dv k0 G sh nn eps h a j = cmul e0 (gval k0 G sh nn h a j).
  Proof.
    intros Ha Hj. unfold dv. transitivity (fftn sh (fun j0 => cmul e0 (ifftn sh (gval k0 G sh nn h a) j0)) j).
    { apply fftn_ext. intros x Hx. rewrite He by assumption. cring. }
    rewrite fftn_scale, fftn_ifftn by exact Hj. reflexivity.
  Qed.
  (** n . (n x - m y) = x, m . (n x - m y) = - y *)
  Lemma dot_n j q hm hn c : inb sh j -> dotc (nn j) (fun a => cmul c (rmul q (csub (rmul (nn j a) hm) (rmul (mv3 k0 G sh j a) hn)))) = cmul c (rmul q hm).
  Proof.
    intro Hj. pose proof (basis_mn k0 G sh j (nn j) (getn_ok _ _ _ _ (Hfin j Hj))) as (A & B & C). unfold dot3 in *. fold (mv3 k0 G sh j) in *.
    transitivity (cmul c (rmul q (csub (rmul (nn j O * nn j O + nn j 1%nat * nn j 1%nat + nn j 2%nat * nn j 2%nat) hm)
      (rmul (mv3 k0 G sh j O * nn j O + mv3 k0 G sh j 1%nat * nn j 1%nat + mv3 k0 G sh j 2%nat * nn j 2%nat) hn)))).
    { generalize (nn j) (mv3 k0 G sh j). intros x y. unfold dotc. apply cpx_ext; cbn; ring. }
    rewrite B, C. apply cpx_ext; cbn; ring.
  Qed.
  Lemma dot_m j q hm hn c : inb sh j -> dotc (mv3 k0 G sh j) (fun a => cmul c (rmul q (csub (rmul (nn j a) hm) (rmul (mv3 k0 G sh j a) hn)))) = copp (cmul c (rmul q hn)).
  Proof.
    intro Hj. pose proof (basis_mn k0 G sh j (nn j) (getn_ok _ _ _ _ (Hfin j Hj))) as (A & B & C). unfold dot3 in *. fold (mv3 k0 G sh j) in *.
    transitivity (cmul c (rmul q (csub (rmul (mv3 k0 G sh j O * nn j O + mv3 k0 G sh j 1%nat * nn j 1%nat + mv3 k0 G sh j 2%nat * nn j 2%nat) hm)
      (rmul (mv3 k0 G sh j O * mv3 k0 G sh j O + mv3 k0 G sh j 1%nat * mv3 k0 G sh j 1%nat + mv3 k0 G sh j 2%nat * mv3 k0 G sh j 2%nat) hn)))).
    { generalize (nn j) (mv3 k0 G sh j). intros x y. unfold dotc. apply cpx_ext; cbn; ring. }
    rewrite A, C. apply cpx_ext; cbn; ring.
  Qed.
  Lemma dotc_ext v e e' : (forall a, (a < 3)%nat -> e a = e' a) -> dotc v e = dotc v e'.
  Proof. intro H. unfold dotc. now rewrite !H by lia. Qed.
  Lemma uniform_mop h : exists r, maxwell_operator k0 G sh eps None h = Some r /\ forall j, inb sh j ->
    let f := cdiv (mkC (- dot3 (k j) (k j)) 0) e0 in
    r (ravel sh j) = Some (cmul f (h (ravel sh j))) /\ r (prodl sh + ravel sh j)%nat = Some (cmul f (h (prodl sh + ravel sh j)%nat)).
  Proof.
    destruct (mop_value k0 G sh Hsh Hfin eps He' h) as (r & E & F & V). exists r. split; [exact E|]. intros j Hj f.
    pose proof (ravel_lt sh j Hj) as L.
    assert (Q : dot3 (k j) (k j) = kk k0 G sh j * kk k0 G sh j) by (unfold kk; rewrite kk_norm, norm3_sq; reflexivity).
    rewrite (F (ravel sh j)) by lia. rewrite (F (prodl sh + ravel sh j)%nat) by lia. destruct (V j Hj) as [-> ->].
    split; f_equal.
    - rewrite (dotc_ext _ _ (fun a => cmul (cinv e0) (rmul (kk k0 G sh j) (csub (rmul (nn j a) (hm sh h j)) (rmul (mv3 k0 G sh j a) (hn sh h j)))))) by (intros; now apply ev_uniform).
      rewrite dot_n by exact Hj. unfold f. rewrite Q. unfold cdiv, hm. apply cpx_ext; cbn; ring.
    - rewrite (dotc_ext _ _ (fun a => cmul (cinv e0) (rmul (kk k0 G sh j) (csub (rmul (nn j a) (hm sh h j)) (rmul (mv3 k0 G sh j a) (hn sh h j)))))) by (intros; now apply ev_uniform).
      rewrite dot_m by exact Hj. unfold f. rewrite Q. unfold cdiv, hn. apply cpx_ext; cbn; ring.
  Qed.
  Lemma uniform_imop h : (forall j, inb sh j -> k j O <> 0 \/ k j 1%nat <> 0 \/ k j 2%nat <> 0) ->
    exists r, inverse_maxwell_operator_approx k0 G sh eps None h = Some r /\ forall j, inb sh j ->
    let f := cdiv e0 (mkC (dot3 (k j) (k j)) 0) in
    r (ravel sh j) = Some (cmul f (h (ravel sh j))) /\ r (prodl sh + ravel sh j)%nat = Some (cmul f (h (prodl sh + ravel sh j)%nat)).
  Proof.
    intro Hk. destruct (imop_value k0 G sh Hsh Hfin eps h Hk) as (r & E & F & V). exists r. split; [exact E|]. intros j Hj f.
    pose proof (ravel_lt sh j Hj) as L.
    assert (Q : dot3 (k j) (k j) = kk k0 G sh j * kk k0 G sh j) by (unfold kk; rewrite kk_norm, norm3_sq; reflexivity).
    assert (N : kk k0 G sh j <> 0). { intro X. unfold kk in X. rewrite kk_norm in X. apply norm3_0 in X. destruct (Hk j Hj) as [?|[?|?]]; tauto. }
    rewrite (F (ravel sh j)) by lia. rewrite (F (prodl sh + ravel sh j)%nat) by lia. destruct (V j Hj) as [-> ->].
    unfold f. rewrite Q. set (q := kk k0 G sh j) in *.
    split; f_equal.
    - rewrite (dotc_ext _ _ (fun a => cmul e0 (rmul (/ q) (csub (rmul (nn j a) (hm sh h j)) (rmul (mv3 k0 G sh j a) (hn sh h j)))))) by (intros; now apply dv_uniform).
      rewrite dot_n by exact Hj. clearbody q. unfold hm. apply cpx_ext; cbn; unfold cnrm; cbn; field; repeat split; nra.
    - rewrite (dotc_ext _ _ (fun a => cmul e0 (rmul (/ q) (csub (rmul (nn j a) (hm sh h j)) (rmul (mv3 k0 G sh j a) (hn sh h j)))))) by (intros; now apply dv_uniform).
      rewrite dot_m by exact Hj. clearbody q. unfold hn. apply cpx_ext; cbn; unfold cnrm; cbn; field; repeat split; nra.
  Qed.
End Uniform.

(** ** Real permittivity *)
Lemma mop_hermitian k0 G sh (e : nat -> list nat -> R) g h rg rh : length sh = 3%nat ->
  (forall j, inb sh j -> snd (generate_kmn k0 G sh j) <> None) -> (forall a j, (a < 3)%nat -> inb sh j -> e a j <> 0) ->
  maxwell_operator k0 G sh (fun a j => mkC (e a j) 0) None g = Some rg -> maxwell_operator k0 G sh (fun a j => mkC (e a j) 0) None h = Some rh ->
  hdot (2 * prodl sh) g (fun p => value (rh p)) = hdot (2 * prodl sh) (fun p => value (rg p)) h.
Proof.
  intros Hsh Hf He Eg Eh.
  assert (He' : forall a j, (a < 3)%nat -> inb sh j -> mkC (e a j) 0 <> c0) by (intros; now apply mkC_nz, He).
  pose proof (quad k0 G sh Hsh Hf _ He' g h rh Eh) as Q1. pose proof (quad k0 G sh Hsh Hf _ He' h g rg Eg) as Q2.
  assert (C : hdot (2 * prodl sh) (fun p => value (rg p)) h = cconj (hdot (2 * prodl sh) h (fun p => value (rg p)))).
  { unfold hdot. symmetry. refine (eq_trans (conj_sumN CC _ _) _). apply (sumN_ext CC). intros. apply cpx_ext; cbn; ring. }
  rewrite C, Q1, Q2.
  match goal with |- copp ?x = cconj (copp ?y) => transitivity (copp (cconj y)); [|apply cpx_ext; cbn; ring] end. f_equal.
  rewrite conj_gsum. apply (gsum_ext (K := CC)). intros x Hx. symmetry. refine (eq_trans (conj_sumN CC _ _) _). apply (sumN_ext CC).
  intros a Ha. change (cconj (rmul (INR (prodl sh)) (cmul (cconj (ifftn sh (dval k0 G sh (getn k0 G sh) h a) x)) (cdiv (ifftn sh (dval k0 G sh (getn k0 G sh) g a) x) (mkC (e a x) 0))))
    = rmul (INR (prodl sh)) (cmul (cconj (ifftn sh (dval k0 G sh (getn k0 G sh) g a) x)) (cdiv (ifftn sh (dval k0 G sh (getn k0 G sh) h a) x) (mkC (e a x) 0)))).
  pose proof (He a x Ha Hx) as N. rewrite !rdiv_r by exact N.
  set (u := ifftn _ _ _). set (v := ifftn _ _ _). clearbody u v. apply cpx_ext; cbn; ring.
Qed.
Lemma cre_sumN n (F : nat -> cpx) : cre (sumN (K := CC) n F) = sumN (K := RF) n (fun i => cre (F i)).
Proof. induction n as [|n IH]; [reflexivity|]. cbn [sumN]. rewrite <- IH. reflexivity. Qed.
Lemma cre_gsum sh (f : list nat -> cpx) : cre (gsum (K := CC) sh f) = gsum (K := RF) sh (fun j => cre (f j)).
Proof.
  revert f. induction sh as [|n ns IH]; intro f; cbn [gsum]; [reflexivity|].
  refine (eq_trans (cre_sumN _ _) _). apply (sumN_ext RF). intros. apply IH.
Qed.
Lemma mop_negative k0 G sh (e : nat -> list nat -> R) h rh : length sh = 3%nat ->
  (forall j, inb sh j -> snd (generate_kmn k0 G sh j) <> None) -> (forall a j, (a < 3)%nat -> inb sh j -> 0 < e a j) ->
  maxwell_operator k0 G sh (fun a j => mkC (e a j) 0) None h = Some rh ->
  cre (hdot (2 * prodl sh) h (fun p => value (rh p))) <= 0.
Proof.
  intros Hsh Hf He Eh.
  assert (He' : forall a j, (a < 3)%nat -> inb sh j -> mkC (e a j) 0 <> c0) by (intros a j Ha Hj; apply mkC_nz; pose proof (He a j Ha Hj); lra).
  rewrite (quad k0 G sh Hsh Hf _ He' h h rh Eh). cbn [copp cre]. rewrite cre_gsum.
  apply Ropp_le_cancel. rewrite Ropp_0, Ropp_involutive. apply gsum_nonneg. intros x Hx.
  assert (P : forall a, (a < 3)%nat -> 0 <= cre (rmul (INR (prodl sh)) (cmul (cconj (ifftn sh (dval k0 G sh (getn k0 G sh) h a) x)) (cdiv (ifftn sh (dval k0 G sh (getn k0 G sh) h a) x) (mkC (e a x) 0))))).
  { intros a Ha. pose proof (He a x Ha Hx) as N. rewrite rdiv_r by lra. set (u := ifftn _ _ _). clearbody u.
    pose proof (pos_INR (prodl sh)). pose proof (Rinv_0_lt_compat _ N). set (i := / e a x) in *. cbn.
    replace (_ - _) with (INR (prodl sh) * i * (cre u * cre u + cim u * cim u)) by ring.
    apply Rmult_le_pos; [apply Rmult_le_pos; lra|nra]. }
  rewrite cre_sumN. apply sumN_nonneg. exact P.
Qed.

(** ** Values that are not finite *)
Lemma nmul_none_l x : nmul None x = None. Proof. reflexivity. Qed.
Lemma nmul_none_r x : nmul x None = None. Proof. now destruct x. Qed.
Section NotFinite.
  Variables (k0 : vec3) (G : nat -> nat -> R) (sh : list nat) (eps : nat -> list nat -> cpx).
  Hypothesis Hsh : length sh = 3%nat.
  Variable j0 : list nat.
  Hypothesis H0 : inb sh j0.
  Lemma mop_none h : snd (generate_kmn k0 G sh j0) = None ->
    exists r, maxwell_operator k0 G sh eps None h = Some r /\ forall p, (p < 2 * prodl sh)%nat -> r p = None.
  Proof.
    intro HN. assert (N0 : forall a, val (n_vec k0 G sh) (j0 ++ [a]) = None).
    { intro a. cbn [val n_vec]. rewrite (firstn3 sh Hsh) by exact H0. now rewrite HN. }
    unfold maxwell_operator.
    destruct (zip31v sh nmul (n_vec k0 G sh) (hin sh 0 h)) as (nh & -> & S1 & V1); [reflexivity..|].
    destruct (zip31v sh nmul (m_vec k0 G sh) (hin sh 1 h)) as (mh & -> & S2 & V2); [reflexivity..|].
    cbn [obind]. destruct (zip33v sh nsub nh mh S1 S2) as (d & -> & S3 & V3).
    cbn [obind]. destruct (zip31v sh nmul d (k_mag k0 G sh) S3) as (D & -> & S4 & V4); [reflexivity|].
    assert (ND : forall a, (a < 3)%nat -> val D (j0 ++ [a]) = None).
    { intros a Ha. rewrite V4, V3, V1, N0 by assumption. reflexivity. }
    cbn [obind]. destruct (izip33v sh ndiv (fft3 ifftn D) (last_axis sh eps)) as (t & -> & S5 & V5); [exact S4|reflexivity|].
    assert (NT : forall j a, inb sh j -> (a < 3)%nat -> val t (j ++ [a]) = None).
    { intros j a Hj Ha. rewrite V5 by assumption. rewrite (fft3_none sh Hsh ifftn D j0 a S4 H0 (ND a Ha) j Hj). reflexivity. }
    assert (NE : forall j a, inb sh j -> (a < 3)%nat -> val (fft3 fftn t) (j ++ [a]) = None).
    { intros j a Hj Ha. apply (fft3_none sh Hsh fftn t j a S5 Hj (NT j a Hj Ha) j Hj). }
    cbn [obind]. destruct (zip33v sh nmul (fft3 fftn t) (n_vec k0 G sh)) as (en & -> & S6 & V6); [exact S5|reflexivity|].
    cbn [obind]. destruct (zip33v sh nmul (fft3 fftn t) (m_vec k0 G sh)) as (em & -> & S7 & V7); [exact S5|reflexivity|].
    cbn [obind]. destruct (zip11v sh Hsh nmul (sum3k en) (nmap nopp (k_mag k0 G sh))) as (bm & -> & S8 & V8); [now apply (sum3k_shape sh Hsh)|reflexivity|].
    cbn [obind]. destruct (zip11v sh Hsh nmul (sum3k em) (k_mag k0 G sh)) as (bn & -> & S9 & V9); [now apply (sum3k_shape sh Hsh)|reflexivity|].
    cbn [obind]. apply (concat_none sh Hsh); try assumption; intros j Hj.
    - rewrite V8 by exact Hj. rewrite (sum3k_none sh Hsh en S6); [reflexivity| |exact Hj]. intros q a Hq Ha. rewrite V6 by assumption. now rewrite NE.
    - rewrite V9 by exact Hj. rewrite (sum3k_none sh Hsh em S7); [reflexivity| |exact Hj]. intros q a Hq Ha. rewrite V7 by assumption. now rewrite NE.
  Qed.
  Lemma imop_none h : snd (generate_kmn k0 G sh j0) = None \/ fst (fst (generate_kmn k0 G sh j0)) = 0 ->
    exists r, inverse_maxwell_operator_approx k0 G sh eps None h = Some r /\ forall p, (p < 2 * prodl sh)%nat -> r p = None.
  Proof.
    intro HN. unfold inverse_maxwell_operator_approx. cbn [obind].
    destruct (zip31v sh nmul (n_vec k0 G sh) (hin sh 0 h)) as (nh & -> & S1 & V1); [reflexivity..|].
    destruct (zip31v sh nmul (m_vec k0 G sh) (hin sh 1 h)) as (mh & -> & S2 & V2); [reflexivity..|].
    cbn [obind]. destruct (zip33v sh nsub nh mh S1 S2) as (d & -> & S3 & V3).
    cbn [obind]. destruct (zip31v sh ndiv d (k_mag k0 G sh) S3) as (D & -> & S4 & V4); [reflexivity|].
    assert (ND : forall a, (a < 3)%nat -> val D (j0 ++ [a]) = None).
    { intros a Ha. rewrite V4, V3, V1 by assumption. destruct HN as [HN|HN].
      - cbn [val n_vec]. rewrite (firstn3 sh Hsh) by exact H0. rewrite HN. reflexivity.
      - cbn [val k_mag]. rewrite (firstn3 sh Hsh) by exact H0. rewrite HN. unfold ndiv, nre.
        destruct (nsub _ _); [|reflexivity]. destruct (cpx_dec (mkC 0 0) c0) as [_|X]; [reflexivity|]. exfalso. now apply X. }
    cbn [obind]. destruct (izip33v sh nmul (fft3 ifftn D) (last_axis sh eps)) as (t & -> & S5 & V5); [exact S4|reflexivity|].
    assert (NT : forall j a, inb sh j -> (a < 3)%nat -> val t (j ++ [a]) = None).
    { intros j a Hj Ha. rewrite V5 by assumption. rewrite (fft3_none sh Hsh ifftn D j0 a S4 H0 (ND a Ha) j Hj). reflexivity. }
    assert (NE : forall j a, inb sh j -> (a < 3)%nat -> val (fft3 fftn t) (j ++ [a]) = None).
    { intros j a Hj Ha. apply (fft3_none sh Hsh fftn t j a S5 Hj (NT j a Hj Ha) j Hj). }
    cbn [obind]. destruct (zip33v sh nmul (fft3 fftn t) (n_vec k0 G sh)) as (en & -> & S6 & V6); [exact S5|reflexivity|].
    cbn [obind]. destruct (zip33v sh nmul (fft3 fftn t) (m_vec k0 G sh)) as (em & -> & S7 & V7); [exact S5|reflexivity|].
    cbn [obind]. destruct (zip11v sh Hsh ndiv (sum3k en) (k_mag k0 G sh)) as (bm & -> & S8 & V8); [now apply (sum3k_shape sh Hsh)|reflexivity|].
    cbn [obind]. destruct (zip11v sh Hsh ndiv (sum3k em) (nmap nopp (k_mag k0 G sh))) as (bn & -> & S9 & V9); [now apply (sum3k_shape sh Hsh)|reflexivity|].
    cbn [obind]. apply (concat_none sh Hsh); try assumption; intros j Hj.
    - rewrite V8 by exact Hj. rewrite (sum3k_none sh Hsh en S6); [reflexivity| |exact Hj]. intros q a Hq Ha. rewrite V6 by assumption. now rewrite NE.
    - rewrite V9 by exact Hj. rewrite (sum3k_none sh Hsh em S7); [reflexivity| |exact Hj]. intros q a Hq Ha. rewrite V7 by assumption. now rewrite NE.
  Qed.
End NotFinite.

(** ** Permeability *)
Lemma zipw_shape f A B C : zipw f A B = Some C -> bshape (shp A) (shp B) = Some (shp C).
Proof. unfold zipw. destruct bshape; intro H; [|discriminate]. injection H as <-. reflexivity. Qed.
Lemma izipw_shape f A B C : izipw f A B = Some C -> shp C = shp A.
Proof. unfold izipw. destruct zipw as [D|]; [|discriminate]. destruct list_eq_dec; [|discriminate]. congruence. Qed.
Ltac eqb_cases := repeat match goal with
  | H : context [Nat.eqb ?a ?b] |- _ => destruct (Nat.eqb_spec a b); cbn in H; try discriminate H; try subst
  end.
Lemma shape5 nx ny nz s : (0 < nx)%nat -> (0 < ny)%nat -> (0 < nz)%nat ->
  bshape [nx; ny; nz; 3%nat] [nx; ny; nz; 1%nat; 1%nat] = Some s ->
  exists a b, s = [nx; a; b; nz; 3%nat] /\ (ny <= a)%nat /\ (nz <= b)%nat /\ (nx <= a)%nat /\ (ny <= b)%nat.
Proof.
  intros Px Py Pz H. unfold bshape in H. cbn in H. eqb_cases; injection H as <-; eexists _, _; repeat split; lia.
Qed.
Lemma shape5' nx ny nz a b s : bshape [nx; a; b; nz; 3%nat] [nx; ny; nz; 3%nat] = Some s -> (0 < nx)%nat -> (0 < ny)%nat -> (0 < nz)%nat ->
  exists c d, s = [nx; c; d; nz; 3%nat] /\ (a <= c)%nat /\ (b <= d)%nat.
Proof.
  intros H Px Py Pz. unfold bshape in H. cbn in H. rewrite !Nat.eqb_refl in H. eqb_cases; injection H as <-; eexists _, _; repeat split; lia.
Qed.
Lemma mop_mu_raises k0 G nx ny nz eps mu h : (0 < nx)%nat -> (0 < ny)%nat -> (0 < nz)%nat ->
  maxwell_operator k0 G [nx; ny; nz] eps (Some mu) h = None.
Proof.
  intros Px Py Pz. unfold maxwell_operator. set (sh := [nx; ny; nz]).
  assert (Hsh : length sh = 3%nat) by reflexivity.
  destruct (zip31v sh nmul (n_vec k0 G sh) (hin sh 0 h)) as (nh & -> & S1 & V1); [reflexivity..|].
  destruct (zip31v sh nmul (m_vec k0 G sh) (hin sh 1 h)) as (mh & -> & S2 & V2); [reflexivity..|].
  cbn [obind]. destruct (zip33v sh nsub nh mh S1 S2) as (d & -> & S3 & V3).
  cbn [obind]. destruct (zip31v sh nmul d (k_mag k0 G sh) S3) as (D & -> & S4 & V4); [reflexivity|].
  cbn [obind]. destruct (izip33v sh ndiv (fft3 ifftn D) (last_axis sh eps)) as (t & -> & S5 & V5); [exact S4|reflexivity|].
  cbn [obind]. destruct (zip33v sh nmul (fft3 fftn t) (n_vec k0 G sh)) as (en & -> & S6 & V6); [exact S5|reflexivity|].
  cbn [obind]. destruct (zip33v sh nmul (fft3 fftn t) (m_vec k0 G sh)) as (em & -> & S7 & V7); [exact S5|reflexivity|].
  cbn [obind]. destruct (zip11v sh Hsh nmul (sum3k en) (nmap nopp (k_mag k0 G sh))) as (bm & -> & S8 & V8); [now apply (sum3k_shape sh Hsh)|reflexivity|].
  cbn [obind]. destruct (zip11v sh Hsh nmul (sum3k em) (k_mag k0 G sh)) as (bn & -> & S9 & V9); [now apply (sum3k_shape sh Hsh)|reflexivity|].
  cbn [obind]. destruct (zipw nmul (m_vec k0 G sh) (newaxis3 bm)) as [mb|] eqn:E1; [|reflexivity].
  cbn [obind]. destruct (zipw nmul (n_vec k0 G sh) (newaxis3 bn)) as [nb|] eqn:E2; [|reflexivity].
  cbn [obind]. destruct (zipw nadd mb nb) as [b_xyz|] eqn:E3; [|reflexivity].
  cbn [obind]. destruct (izipw ndiv (fft3 ifftn b_xyz) (last_axis sh mu)) as [t2|] eqn:E4; [|reflexivity].
  cbn [obind]. destruct (zipw nmul (fft3 fftn t2) (m_vec k0 G sh)) as [hm|] eqn:E5; [|reflexivity].
  cbn [obind]. destruct (zipw nmul (fft3 fftn t2) (n_vec k0 G sh)) as [hn|] eqn:E6; [|reflexivity].
  cbn [obind].
  apply zipw_shape in E1, E2, E3, E5, E6. apply izipw_shape in E4. cbn [shp fft3 newaxis3 m_vec n_vec] in *. rewrite S8 in E1. rewrite S9 in E2.
  destruct (shape5 nx ny nz _ Px Py Pz E1) as (a & b & X1 & La & Lb & _). 
  assert (X2 : shp nb = shp mb) by congruence. rewrite X2, bshape_same in E3. injection E3 as E3. rewrite <- E3, X1 in E4. rewrite E4 in E5, E6.
  destruct (shape5' nx ny nz a b _ E5 Px Py Pz) as (c & e & X5 & Lc & Le).
  assert (X6 : shp hn = shp hm) by congruence.
  unfold concat_out. cbn [shp sum3]. rewrite X6, X5. cbn [firstn skipn app prodl sh].
  destruct (Nat.eqb_spec (nx * (c * (e * (3 * 1))) + nx * (c * (e * (3 * 1)))) (2 * (nx * (ny * (nz * 1))))) as [E|_]; [|reflexivity].
  exfalso. assert (ny * nz <= c * e)%nat by (apply Nat.mul_le_mono; lia). nia.
Qed.
