(** Potentials of fields without curl on a periodic grid. *)
From Coq Require Import List Arith ZArith Lia Field.
From Verif.Lib Require Import Num Sums Idx.
From Verif.Model Require Import Fdmath.
From Verif.Spec Require Import Yee.
From Verif.Proofs Require Import FdmathP GridP.
Import ListNotations.

Section P.
  Variable K : Fld.
  Add Field Kfield : (fth K).
  Local Open Scope fld_scope.

  Definition nx (n i : nat) : nat := cyc n 1 i.
  Lemma nx_S n i : (S i < n)%nat -> nx n i = S i.
  Proof. intro H. unfold nx. rewrite cyc_succ by lia. destruct (Nat.eqb_spec (S i) n); [lia|reflexivity]. Qed.
  Lemma nx_last n i : S i = n -> nx n i = 0%nat.
  Proof. intro H. unfold nx. rewrite cyc_succ by lia. destruct (Nat.eqb_spec (S i) n); [reflexivity|lia]. Qed.
  Lemma nx_lt n i : (i < n)%nat -> (nx n i < n)%nat.
  Proof. intro H. apply cyc_lt. lia. Qed.
  Lemma nx_sum n (f : nat -> K) : sumN n (fun i => f (nx n i)) = sumN n f.
  Proof.
    destruct n as [|n]; [reflexivity|]. rewrite (sumN_shift K n f). cbn [sumN]. rewrite nx_last by reflexivity.
    rewrite (sumN_ext K n _ (fun i => f (S i))); [ring|]. intros i Hi. now rewrite nx_S by lia.
  Qed.
  Lemma step1 n (f : nat -> K) i : sumN n f = 0 -> (i < n)%nat -> sumN (nx n i) f - sumN i f = f i.
  Proof.
    intros Z Hi. destruct (Nat.eq_dec (S i) n) as [E|E].
    - rewrite nx_last by exact E. cbn [sumN]. subst n. cbn [sumN] in Z. transitivity (0 - (sumN i f + f i) + f i); [ring|rewrite Z; ring].
    - rewrite nx_S by lia. cbn [sumN]. ring.
  Qed.
  Lemma walk n (f : nat -> K) i : (i < n)%nat -> sumN i (fun t => f (nx n t) - f t) = f i - f 0%nat.
  Proof.
    intro Hi. rewrite (sumN_ext K i _ (fun t => f (S t) - f t)); [apply sumN_telescope|]. intros t Ht. now rewrite nx_S by lia.
  Qed.
  Lemma constant1 n (f : nat -> K) i : (forall t, (t < n)%nat -> f (nx n t) = f t) -> (i < n)%nat -> f i = f 0%nat.
  Proof. intros H. induction i as [|i IH]; intro Hi; [reflexivity|]. rewrite <- (nx_S n i Hi), H by lia. apply IH. lia. Qed.

  Section Three.
    Variables n0 n1 n2 : nat.
    Variables U0 U1 U2 : nat -> nat -> nat -> K.
    Hypothesis H01 : forall x y z, (x < n0)%nat -> (y < n1)%nat -> (z < n2)%nat -> U1 (nx n0 x) y z - U1 x y z = U0 x (nx n1 y) z - U0 x y z.
    Hypothesis H02 : forall x y z, (x < n0)%nat -> (y < n1)%nat -> (z < n2)%nat -> U2 (nx n0 x) y z - U2 x y z = U0 x y (nx n2 z) - U0 x y z.
    Hypothesis H12 : forall x y z, (x < n0)%nat -> (y < n1)%nat -> (z < n2)%nat -> U2 x (nx n1 y) z - U2 x y z = U1 x y (nx n2 z) - U1 x y z.
    Lemma zero_sum n (f : nat -> K) : sumN n (fun t => f (nx n t) - f t) = 0.
    Proof. rewrite (sumN_sub K), nx_sum. ring. Qed.
    Lemma sub_eq (a b : K) : a - b = 0 -> a = b.
    Proof. intro H. transitivity (a - b + b); [ring|rewrite H; ring]. Qed.
    Lemma loop0 y z : (y < n1)%nat -> (z < n2)%nat -> sumN n0 (fun x => U0 x y z) = sumN n0 (fun x => U0 x 0%nat 0%nat).
    Proof.
      intros Hy Hz. transitivity (sumN n0 (fun x => U0 x 0%nat z)).
      - apply (constant1 n1 (fun y => sumN n0 (fun x => U0 x y z))); [|exact Hy]. intros t Ht. apply sub_eq. rewrite <- (sumN_sub K).
        rewrite (sumN_ext K n0 _ (fun x => (fun s => U1 s t z) (nx n0 x) - (fun s => U1 s t z) x)); [exact (zero_sum n0 (fun s => U1 s t z))|]. intros x Hx. symmetry. now apply H01.
      - apply (constant1 n2 (fun z => sumN n0 (fun x => U0 x 0%nat z))); [|exact Hz]. intros t Ht. apply sub_eq. rewrite <- (sumN_sub K).
        rewrite (sumN_ext K n0 _ (fun x => (fun s => U2 s 0%nat t) (nx n0 x) - (fun s => U2 s 0%nat t) x)); [exact (zero_sum n0 (fun s => U2 s 0%nat t))|]. intros x Hx. symmetry. apply H02; lia.
    Qed.
    Lemma loop1 x z : (x < n0)%nat -> (z < n2)%nat -> sumN n1 (fun y => U1 x y z) = sumN n1 (fun y => U1 0%nat y 0%nat).
    Proof.
      intros Hx Hz. transitivity (sumN n1 (fun y => U1 0%nat y z)).
      - apply (constant1 n0 (fun x => sumN n1 (fun y => U1 x y z))); [|exact Hx]. intros t Ht. apply sub_eq. rewrite <- (sumN_sub K).
        rewrite (sumN_ext K n1 _ (fun y => (fun s => U0 t s z) (nx n1 y) - (fun s => U0 t s z) y)); [exact (zero_sum n1 (fun s => U0 t s z))|]. intros y Hy. now apply H01.
      - apply (constant1 n2 (fun z => sumN n1 (fun y => U1 0%nat y z))); [|exact Hz]. intros t Ht. apply sub_eq. rewrite <- (sumN_sub K).
        rewrite (sumN_ext K n1 _ (fun y => (fun s => U2 0%nat s t) (nx n1 y) - (fun s => U2 0%nat s t) y)); [exact (zero_sum n1 (fun s => U2 0%nat s t))|]. intros y Hy. symmetry. apply H12; lia.
    Qed.
    Lemma loop2 x y : (x < n0)%nat -> (y < n1)%nat -> sumN n2 (fun z => U2 x y z) = sumN n2 (fun z => U2 0%nat 0%nat z).
    Proof.
      intros Hx Hy. transitivity (sumN n2 (fun z => U2 0%nat y z)).
      - apply (constant1 n0 (fun x => sumN n2 (fun z => U2 x y z))); [|exact Hx]. intros t Ht. apply sub_eq. rewrite <- (sumN_sub K).
        rewrite (sumN_ext K n2 _ (fun z => (fun s => U0 t y s) (nx n2 z) - (fun s => U0 t y s) z)); [exact (zero_sum n2 (fun s => U0 t y s))|]. intros z Hz. now apply H02.
      - apply (constant1 n1 (fun y => sumN n2 (fun z => U2 0%nat y z))); [|exact Hy]. intros t Ht. apply sub_eq. rewrite <- (sumN_sub K).
        rewrite (sumN_ext K n2 _ (fun z => (fun s => U1 0%nat t s) (nx n2 z) - (fun s => U1 0%nat t s) z)); [exact (zero_sum n2 (fun s => U1 0%nat t s))|]. intros z Hz. apply H12; lia.
    Qed.
    Definition pot (x y z : nat) : K := sumN x (fun t => U0 t 0%nat 0%nat) + sumN y (fun t => U1 x t 0%nat) + sumN z (fun t => U2 x y t).
    Hypothesis Z0 : sumN n0 (fun x => U0 x 0%nat 0%nat) = 0.
    Hypothesis Z1 : sumN n1 (fun y => U1 0%nat y 0%nat) = 0.
    Hypothesis Z2 : sumN n2 (fun z => U2 0%nat 0%nat z) = 0.
    Lemma pot2 x y z : (x < n0)%nat -> (y < n1)%nat -> (z < n2)%nat -> pot x y (nx n2 z) - pot x y z = U2 x y z.
    Proof.
      intros Hx Hy Hz. unfold pot. rewrite <- (step1 n2 (fun t => U2 x y t) z); [ring| |exact Hz]. rewrite loop2 by assumption. exact Z2.
    Qed.
    Lemma pot1 x y z : (x < n0)%nat -> (y < n1)%nat -> (z < n2)%nat -> pot x (nx n1 y) z - pot x y z = U1 x y z.
    Proof.
      intros Hx Hy Hz. unfold pot.
      pose proof (step1 n1 (fun t => U1 x t 0%nat) y ltac:(rewrite loop1 by (assumption || lia); exact Z1) Hy) as A. cbv beta in A.
      assert (B : sumN z (fun t => U2 x (nx n1 y) t) - sumN z (fun t => U2 x y t) = U1 x y z - U1 x y 0%nat).
      { rewrite <- (sumN_sub K), <- (walk n2 (fun t => U1 x y t) z Hz). apply (sumN_ext K). intros t Ht. apply H12; lia. }
      transitivity ((sumN (nx n1 y) (fun t => U1 x t 0%nat) - sumN y (fun t => U1 x t 0%nat)) + (sumN z (fun t => U2 x (nx n1 y) t) - sumN z (fun t => U2 x y t))); [ring|]. rewrite A, B. ring.
    Qed.
    Lemma pot0 x y z : (x < n0)%nat -> (y < n1)%nat -> (z < n2)%nat -> pot (nx n0 x) y z - pot x y z = U0 x y z.
    Proof.
      intros Hx Hy Hz. unfold pot.
      pose proof (step1 n0 (fun t => U0 t 0%nat 0%nat) x Z0 Hx) as A. cbv beta in A.
      assert (B : sumN y (fun t => U1 (nx n0 x) t 0%nat) - sumN y (fun t => U1 x t 0%nat) = U0 x y 0%nat - U0 x 0%nat 0%nat).
      { rewrite <- (sumN_sub K), <- (walk n1 (fun t => U0 x t 0%nat) y Hy). apply (sumN_ext K). intros t Ht. apply H01; lia. }
      assert (C : sumN z (fun t => U2 (nx n0 x) y t) - sumN z (fun t => U2 x y t) = U0 x y z - U0 x y 0%nat).
      { rewrite <- (sumN_sub K), <- (walk n2 (fun t => U0 x y t) z Hz). apply (sumN_ext K). intros t Ht. apply H02; lia. }
      transitivity ((sumN (nx n0 x) (fun t => U0 t 0%nat 0%nat) - sumN x (fun t => U0 t 0%nat 0%nat)) + (sumN y (fun t => U1 (nx n0 x) t 0%nat) - sumN y (fun t => U1 x t 0%nat))
        + (sumN z (fun t => U2 (nx n0 x) y t) - sumN z (fun t => U2 x y t))); [ring|]. rewrite A, B, C. ring.
    Qed.
  End Three.

  (** * On arrays *)
  Variable sh : list nat.
  Hypothesis HL : length sh = 3%nat.
  Lemma inb3 idx : inb sh idx -> exists x y z, idx = [x; y; z] /\ (x < dim sh 0)%nat /\ (y < dim sh 1)%nat /\ (z < dim sh 2)%nat.
  Proof.
    intro Hi. pose proof (inb_length sh idx Hi) as E. rewrite HL in E. destruct idx as [|x [|y [|z [|? ?]]]]; try discriminate.
    exists x, y, z. split; [reflexivity|]. pose proof (inb_coord sh _ 0 Hi ltac:(lia)). pose proof (inb_coord sh _ 1 Hi ltac:(lia)). pose proof (inb_coord sh _ 2 Hi ltac:(lia)). cbn in *. auto.
  Qed.
  Lemma inb3' x y z : (x < dim sh 0)%nat -> (y < dim sh 1)%nat -> (z < dim sh 2)%nat -> inb sh [x; y; z].
  Proof.
    intros Hx Hy Hz. apply inb_iff. split; [now rewrite HL|]. intros a Ha. destruct a as [|[|[|a]]]; cbn; try assumption. lia.
  Qed.
  (** Increments [u a] along the axes that add up to zero around every face, and the loop
      sums of which vanish, are those of a potential. *)
  Lemma potential (u : nat -> arr K) :
    (forall a b idx, (a < b)%nat -> (b < 3)%nat -> inb sh idx -> u b (shift_ix sh a 1 idx) - u b idx = u a (shift_ix sh b 1 idx) - u a idx) ->
    sumN (dim sh 0) (fun t => u 0%nat [t; 0; 0]%nat) = 0 -> sumN (dim sh 1) (fun t => u 1%nat [0; t; 0]%nat) = 0 -> sumN (dim sh 2) (fun t => u 2%nat [0; 0; t]%nat) = 0 ->
    exists phi : arr K, forall a idx, (a < 3)%nat -> inb sh idx -> phi (shift_ix sh a 1 idx) - phi idx = u a idx.
  Proof.
    intros C Z0 Z1 Z2. set (U := fun a x y z => u a [x; y; z]%nat).
    assert (H01 : forall x y z, (x < dim sh 0)%nat -> (y < dim sh 1)%nat -> (z < dim sh 2)%nat -> U 1%nat (nx (dim sh 0) x) y z - U 1%nat x y z = U 0%nat x (nx (dim sh 1) y) z - U 0%nat x y z).
    { intros x y z Hx Hy Hz. exact (C 0%nat 1%nat [x; y; z] ltac:(lia) ltac:(lia) (inb3' x y z Hx Hy Hz)). }
    assert (H02 : forall x y z, (x < dim sh 0)%nat -> (y < dim sh 1)%nat -> (z < dim sh 2)%nat -> U 2%nat (nx (dim sh 0) x) y z - U 2%nat x y z = U 0%nat x y (nx (dim sh 2) z) - U 0%nat x y z).
    { intros x y z Hx Hy Hz. exact (C 0%nat 2%nat [x; y; z] ltac:(lia) ltac:(lia) (inb3' x y z Hx Hy Hz)). }
    assert (H12 : forall x y z, (x < dim sh 0)%nat -> (y < dim sh 1)%nat -> (z < dim sh 2)%nat -> U 2%nat x (nx (dim sh 1) y) z - U 2%nat x y z = U 1%nat x y (nx (dim sh 2) z) - U 1%nat x y z).
    { intros x y z Hx Hy Hz. exact (C 1%nat 2%nat [x; y; z] ltac:(lia) ltac:(lia) (inb3' x y z Hx Hy Hz)). }
    exists (fun idx => pot (U 0%nat) (U 1%nat) (U 2%nat) (coord idx 0) (coord idx 1) (coord idx 2)).
    intros a idx Ha Hi. destruct (inb3 idx Hi) as (x & y & z & -> & Hx & Hy & Hz). destruct a as [|[|[|a]]]; [| | |lia].
    - exact (pot0 (dim sh 0) (dim sh 1) (dim sh 2) _ _ _ H01 H02 H12 Z0 x y z Hx Hy Hz).
    - exact (pot1 (dim sh 0) (dim sh 1) (dim sh 2) _ _ _ H01 H02 H12 Z1 x y z Hx Hy Hz).
    - exact (pot2 (dim sh 0) (dim sh 1) (dim sh 2) _ _ _ H01 H02 H12 Z2 x y z Hx Hy Hz).
  Qed.
  (** The line of cells along axis [a] through cell 0. *)
  Definition line (a t : nat) : list nat := match a with 0%nat => [t; 0; 0] | 1%nat => [0; t; 0] | _ => [0; 0; t] end%nat.
  Lemma potential_const (w : widths K) (u : nat -> arr K) :
    (forall a, (a < 3)%nat -> sumN (dim sh a) (w a) <> 0) ->
    (forall a b idx, (a < b)%nat -> (b < 3)%nat -> inb sh idx -> u b (shift_ix sh a 1 idx) - u b idx = u a (shift_ix sh b 1 idx) - u a idx) ->
    exists (phi : arr K) (k : nat -> K), forall a idx, (a < 3)%nat -> inb sh idx -> u a idx = phi (shift_ix sh a 1 idx) - phi idx + k a * w a (coord idx a).
  Proof.
    intros Sp C. set (k := fun a => sumN (dim sh a) (fun t => u a (line a t)) / sumN (dim sh a) (w a)).
    destruct (potential (fun a idx => u a idx - k a * w a (coord idx a))) as (phi & P).
    - intros a b idx Hab Hb Hi. rewrite !coord_shift_other by lia. pose proof (C a b idx Hab Hb Hi) as E.
      transitivity (u b (shift_ix sh a 1 idx) - u b idx); [ring|]. rewrite E. ring.
    - rewrite (sumN_sub K), (sumN_mul_l K). unfold k, line, coord. cbn [nth]. change (fun i : nat => w 0%nat i) with (w 0%nat). pose proof (Sp 0%nat ltac:(lia)) as S0. field. exact S0.
    - rewrite (sumN_sub K), (sumN_mul_l K). unfold k, line, coord. cbn [nth]. change (fun i : nat => w 1%nat i) with (w 1%nat). pose proof (Sp 1%nat ltac:(lia)) as S0. field. exact S0.
    - rewrite (sumN_sub K), (sumN_mul_l K). unfold k, line, coord. cbn [nth]. change (fun i : nat => w 2%nat i) with (w 2%nat). pose proof (Sp 2%nat ltac:(lia)) as S0. field. exact S0.
    - exists phi, k. intros a idx Ha Hi. rewrite P by assumption. ring.
  Qed.
  (** A potential without increments is constant. *)
  Lemma pot_constant (phi : arr K) : (forall a idx, (a < 3)%nat -> inb sh idx -> phi (shift_ix sh a 1 idx) = phi idx) -> forall idx, inb sh idx -> phi idx = phi [0; 0; 0]%nat.
  Proof.
    intros P idx Hi. destruct (inb3 idx Hi) as (x & y & z & -> & Hx & Hy & Hz).
    rewrite (constant1 (dim sh 2) (fun t => phi [x; y; t]) z); [|intros t Ht; exact (P 2%nat [x; y; t] ltac:(lia) (inb3' x y t Hx Hy Ht))|exact Hz].
    rewrite (constant1 (dim sh 1) (fun t => phi [x; t; 0]%nat) y); [|intros t Ht; exact (P 1%nat [x; t; 0]%nat ltac:(lia) (inb3' x t 0 Hx Ht ltac:(lia)))|exact Hy].
    exact (constant1 (dim sh 0) (fun t => phi [t; 0; 0]%nat) x (fun t Ht => P 0%nat [t; 0; 0]%nat ltac:(lia) (inb3' t 0 0 Ht ltac:(lia) ltac:(lia))) Hx).
  Qed.
  (** Around a loop only the constant part is left. *)
  Lemma loop_const (w : widths K) (phi : arr K) (k : K) a : (a < 3)%nat -> (forall b, (b < 3)%nat -> (0 < dim sh b)%nat) -> sumN (dim sh a) (w a) <> 0 ->
    (forall idx, inb sh idx -> phi (shift_ix sh a 1 idx) - phi idx + k * w a (coord idx a) = 0) -> k = 0.
  Proof.
    intros Ha Hd Sp E.
    assert (P : forall t, (t < dim sh a)%nat -> inb sh (line a t)).
    { pose proof (Hd 0%nat ltac:(lia)). pose proof (Hd 1%nat ltac:(lia)). pose proof (Hd 2%nat ltac:(lia)). intros t Ht. destruct a as [|[|[|a]]]; [| | |lia]; apply inb3'; assumption. }
    assert (Q : sumN (dim sh a) (fun t => phi (line a (nx (dim sh a) t)) - phi (line a t) + k * w a t) = 0).
    { transitivity (sumN (dim sh a) (fun _ => 0 : K)); [|apply (sumN_zero K); reflexivity]. apply (sumN_ext K). intros t Ht. rewrite <- (E (line a t) (P t Ht)).
      destruct a as [|[|[|a]]]; [| | |lia]; reflexivity. }
    rewrite (sumN_add K), (zero_sum (dim sh a) (fun t => phi (line a t))), (sumN_mul_l K) in Q.
    transitivity ((0 + k * sumN (dim sh a) (w a)) / sumN (dim sh a) (w a)); [field; exact Sp|rewrite Q; field; exact Sp].
  Qed.
  Lemma span_dim (w : widths K) : (forall a, (a < 3)%nat -> sumN (dim sh a) (w a) <> 0) -> forall b, (b < 3)%nat -> (0 < dim sh b)%nat.
  Proof. intros Sp b Hb. destruct (dim sh b) eqn:E; [|lia]. exfalso. apply (Sp b Hb). now rewrite E. Qed.

  (** * Curls *)
  Lemma cross_zero (x y v w : K) : v <> 0 -> w <> 0 -> x / v - y / w = 0 -> x * w = y * v.
  Proof.
    intros Hv Hw H. transitivity ((x / v - y / w) * v * w + y * v); [field; auto|rewrite H; ring].
  Qed.
  Lemma no_curl_forward (w : widths K) (e : field K) : nzw sh w -> (forall a, (a < 3)%nat -> sumN (dim sh a) (w a) <> 0) ->
    (forall c idx, (c < 3)%nat -> inb sh idx -> curl_forward sh (Some w) e c idx = 0) ->
    exists (phi : arr K) (k : nat -> K), forall c idx, (c < 3)%nat -> inb sh idx -> e c idx = deriv_forward sh (Some w) c phi idx + k c.
  Proof.
    intros Nz Sp C.
    assert (N : forall a idx, (a < 3)%nat -> inb sh idx -> w a (coord idx a) <> 0) by (intros a idx Ha Hi; apply Nz; [lia|apply inb_coord; [exact Hi|lia]]).
    destruct (potential_const w (fun a idx => w a (coord idx a) * e a idx) Sp) as (phi & k & P).
    - intros a b idx Hab Hb Hi. rewrite !coord_shift_other by lia.
      assert (Z : deriv_forward sh (Some w) a (e b) idx - deriv_forward sh (Some w) b (e a) idx = 0).
      { destruct a as [|[|a]]; [destruct b as [|[|[|b]]]; try lia|destruct b as [|[|[|b]]]; try lia|lia].
        - exact (C 2%nat idx ltac:(lia) Hi).
        - pose proof (C 1%nat idx ltac:(lia) Hi) as E. unfold curl_forward, curl_with in E. transitivity (0 - (deriv_forward sh (Some w) 2 (e 0%nat) idx - deriv_forward sh (Some w) 0 (e 2%nat) idx)); [ring|rewrite E; ring].
        - exact (C 0%nat idx ltac:(lia) Hi). }
      unfold deriv_forward, roll in Z. change (- -1)%Z with 1%Z in Z. apply cross_zero in Z; [|apply N; (lia || assumption)|apply N; (lia || assumption)].
      transitivity ((e b (shift_ix sh a 1 idx) - e b idx) * w b (coord idx b)); [ring|rewrite Z; ring].
    - exists phi, k. intros c idx Hc Hi. pose proof (P c idx Hc Hi) as E. cbv beta in E. pose proof (N c idx Hc Hi) as Nc. unfold deriv_forward, roll. change (- -1)%Z with 1%Z.
      transitivity (w c (coord idx c) * e c idx / w c (coord idx c)); [field; exact Nc|]. rewrite E. field. exact Nc.
  Qed.
  Lemma no_curl_back (w : widths K) (e : field K) : nzw sh w -> (forall a, (a < 3)%nat -> sumN (dim sh a) (w a) <> 0) ->
    (forall c idx, (c < 3)%nat -> inb sh idx -> curl_back sh (Some w) e c idx = 0) ->
    exists (phi : arr K) (k : nat -> K), forall c idx, (c < 3)%nat -> inb sh idx -> e c idx = deriv_back sh (Some w) c phi idx + k c.
  Proof.
    intros Nz Sp C.
    assert (N : forall a idx, (a < 3)%nat -> inb sh idx -> w a (coord idx a) <> 0) by (intros a idx Ha Hi; apply Nz; [lia|apply inb_coord; [exact Hi|lia]]).
    assert (D : forall a b idx, (a < b)%nat -> (b < 3)%nat -> inb sh idx -> (e b idx - e b (shift_ix sh a (-1) idx)) * w b (coord idx b) = (e a idx - e a (shift_ix sh b (-1) idx)) * w a (coord idx a)).
    { intros a b idx Hab Hb Hi.
      assert (Z : deriv_back sh (Some w) a (e b) idx - deriv_back sh (Some w) b (e a) idx = 0).
      { destruct a as [|[|a]]; [destruct b as [|[|[|b]]]; try lia|destruct b as [|[|[|b]]]; try lia|lia].
        - exact (C 2%nat idx ltac:(lia) Hi).
        - pose proof (C 1%nat idx ltac:(lia) Hi) as E. unfold curl_back, curl_with in E. transitivity (0 - (deriv_back sh (Some w) 2 (e 0%nat) idx - deriv_back sh (Some w) 0 (e 2%nat) idx)); [ring|rewrite E; ring].
        - exact (C 0%nat idx ltac:(lia) Hi). }
      unfold deriv_back, roll in Z. apply cross_zero in Z; [|apply N; (lia || assumption)|apply N; (lia || assumption)]. exact Z. }
    set (u := fun a idx => w a (coord idx a) * e a idx).
    assert (Cu : forall a b idx, (a < b)%nat -> (b < 3)%nat -> inb sh idx -> u b idx - u b (shift_ix sh a (-1) idx) = u a idx - u a (shift_ix sh b (-1) idx)).
    { intros a b idx Hab Hb Hi. unfold u. rewrite !coord_shift_other by lia. pose proof (D a b idx Hab Hb Hi) as E.
      transitivity ((e b idx - e b (shift_ix sh a (-1) idx)) * w b (coord idx b)); [ring|rewrite E; ring]. }
    assert (Bk : forall a idx, (a < 3)%nat -> inb sh idx -> shift_ix sh a (-1) (shift_ix sh a 1 idx) = idx) by (intros a idx Ha Hi; apply shift_ix_pn; [exact Hi|lia]).
    assert (Fw : forall a idx, (a < 3)%nat -> inb sh idx -> shift_ix sh a 1 (shift_ix sh a (-1) idx) = idx) by (intros a idx Ha Hi; apply shift_ix_np; [exact Hi|lia]).
    destruct (potential_const (fun a i => w a (nx (dim sh a) i)) (fun a idx => u a (shift_ix sh a 1 idx))) as (phi & k & P).
    - intros a Ha. rewrite (nx_sum (dim sh a) (w a)). now apply Sp.
    - intros a b idx Hab Hb Hi. set (j := shift_ix sh b 1 (shift_ix sh a 1 idx)).
      assert (J : inb sh j) by (unfold j; apply inb_shift; [apply inb_shift; [exact Hi|lia]|lia]).
      assert (J2 : j = shift_ix sh a 1 (shift_ix sh b 1 idx)) by (unfold j; apply shift_ix_comm; lia).
      pose proof (Cu a b j Hab Hb J) as E. replace (shift_ix sh b (-1) j) with (shift_ix sh a 1 idx) in E by (unfold j; rewrite Bk; [reflexivity|lia|apply inb_shift; [exact Hi|lia]]).
      replace (shift_ix sh a (-1) j) with (shift_ix sh b 1 idx) in E by (rewrite J2, Bk; [reflexivity|lia|apply inb_shift; [exact Hi|lia]]).
      fold j. rewrite <- J2. exact E.
    - exists phi, k. intros c idx Hc Hi. pose proof (N c idx Hc Hi) as Nc. unfold deriv_back, roll. change (Z.opp 1) with (-1)%Z.
      pose proof (P c (shift_ix sh c (-1) idx) Hc ltac:(apply inb_shift; [exact Hi|lia])) as E. cbv beta in E. rewrite Fw in E by assumption.
      assert (X : nx (dim sh c) (coord (shift_ix sh c (-1) idx) c) = coord idx c).
      { rewrite <- (Fw c idx Hc Hi) at 2. unfold nx. rewrite (coord_shift_same sh _ c 1); [reflexivity|apply inb_shift; [exact Hi|lia]|lia]. }
      rewrite X in E. unfold u in E.
      transitivity (w c (coord idx c) * e c idx / w c (coord idx c)); [field; exact Nc|]. rewrite E. field. exact Nc.
  Qed.
End P.
