(** The conversions of h_mn to fields. *)
From Coq Require Import Reals List Arith ZArith Lia Lra Psatz Field Bool.
From Verif.Lib Require Import Num Sums Idx RealF Dft.
From Verif.Model Require Import Ndarray Bloch.
From Verif.Spec Require Import BlochSpec.
From Verif.Proofs Require Import EmeP NdarrayP BlochP BlochP2.
Import ListNotations.
Local Open Scope R_scope.

Section Fields.
  Variables (k0 : vec3) (G : nat -> nat -> R) (sh : list nat).
  Hypothesis Hsh : length sh = 3%nat.
  Hypothesis Hfin : forall j, inb sh j -> snd (generate_kmn k0 G sh j) <> None.
  Notation nn := (getn k0 G sh).
  Notation k := (k_xyz k0 G sh).
  Let Hn : forall j, inb sh j -> snd (generate_kmn k0 G sh j) = Some (nn j) := Hnn k0 G sh Hfin.
  Definition hxyz (h : nat -> cpx) (q : list nat) : nat -> cpx := from_mn (mv3 k0 G sh q) (nn q) (h (ravel sh q)) (h (prodl sh + ravel sh q)%nat).

  Lemma hxyz_eval h : exists H, hmn_2_hxyz k0 G sh h = Some H /\ forall a j, (a < 3)%nat -> inb sh j -> H a j = Some (ifftn sh (fun q => hxyz h q a) j).
  Proof.
    unfold hmn_2_hxyz.
    destruct (zip31 sh nmul _ _ _ _ (fun a j => rmul (mv3 k0 G sh j a) (hm sh h j)) (m_is3 k0 G sh Hsh) (hin0_is1 sh Hsh h)) as (mh & -> & H1); [reflexivity|].
    cbn [obind].
    destruct (zip31 sh nmul _ _ _ _ (fun a j => rmul (nn j a) (hn sh h j)) (n_is3 k0 G sh Hsh nn Hn) (hin1_is1 sh Hsh h)) as (nh & -> & H2); [reflexivity|].
    cbn [obind].
    destruct (zip33 sh nadd _ _ _ _ (fun a j => hxyz h j a) H1 H2) as (d & -> & H3); [reflexivity|]. cbn [obind].
    eexists. split; [reflexivity|]. intros a j Ha Hj.
    pose proof (fft3_is3 sh Hsh ifftn d _ (fun f g k => ifftn_ext sh f g k) H3) as [_ HI]. now apply HI.
  Qed.
  Variable eps : nat -> list nat -> cpx.
  Hypothesis He : forall a j, (a < 3)%nat -> inb sh j -> eps a j <> c0.
  Lemma exyz_eval h : exists E, hmn_2_exyz k0 G sh eps h = Some E /\
    forall a j, (a < 3)%nat -> inb sh j -> E a j = Some (cdiv (ifftn sh (dval k0 G sh nn h a) j) (eps a j)).
  Proof.
    unfold hmn_2_exyz. destruct (d_eval k0 G sh Hsh nn Hn h) as (nh & mh & d & D & -> & -> & E3 & E4 & HD).
    cbn [obind]. rewrite E3. cbn [obind]. rewrite E4. cbn [obind].
    pose proof (fft3_is3 sh Hsh ifftn D _ (fun f g k => ifftn_ext sh f g k) HD) as HI.
    destruct (zip33 sh ndiv _ _ _ _ (fun a j => cdiv (ifftn sh (dval k0 G sh nn h a) j) (eps a j)) HI (eps_is3 sh Hsh eps)) as (t & -> & Ht).
    { intros a j Ha Hj. apply ndiv_some. now apply He. }
    cbn [obind]. eexists. split; [reflexivity|]. intros a j Ha Hj. now apply Ht.
  Qed.
End Fields.

Lemma k_ok_fin k0 G sh idx : k_ok (k_xyz k0 G sh idx) -> snd (generate_kmn k0 G sh idx) <> None.
Proof. intro K. destruct (basis_ok k0 G sh idx K) as (m & n & -> & _). discriminate. Qed.
Lemma basis_tb k0 G sh q : k_ok (k_xyz k0 G sh q) -> transverse_basis (k_xyz k0 G sh q) (mv3 k0 G sh q) (getn k0 G sh q).
Proof. intro K. destruct (basis_ok k0 G sh q K) as (m & n & E1 & T). unfold mv3, getn. rewrite E1. exact T. Qed.
(** k . (m hm + n hn) = 0 *)
Lemma from_mn_transverse k m n hm hn : transverse_basis k m n -> dotc k (from_mn m n hm hn) = c0.
Proof.
  intros (_ & _ & _ & A & B & _). unfold dotc, from_mn, dot3 in *.
  transitivity (cadd (rmul (k O * m O + k 1%nat * m 1%nat + k 2%nat * m 2%nat) hm) (rmul (k O * n O + k 1%nat * n 1%nat + k 2%nat * n 2%nat) hn)).
  { apply cpx_ext; cbn; ring. }
  rewrite A, B. apply cpx_ext; cbn; ring.
Qed.
Lemma rcross_ext k k' v v' a : (forall b, (b < 3)%nat -> k b = k' b) -> (forall b, (b < 3)%nat -> v b = v' b) -> rcross k v a = rcross k' v' a.
Proof. intros A B. unfold rcross. destruct a as [|[|a]]; rewrite !A, !B by lia; reflexivity. Qed.
