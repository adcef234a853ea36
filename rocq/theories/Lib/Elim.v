(** Square systems of linear equations: Gaussian elimination as an existence proof. *)
From Coq Require Import List Arith ZArith Lia Field.
From Verif.Lib Require Import Num Sums Mat.
Local Open Scope fld_scope.

(** Position j of a list from which position p has been taken out. *)
Definition skip (p j : nat) : nat := if (j <? p)%nat then j else S j.
Definition unskip (p k : nat) : nat := if (k <? p)%nat then k else pred k.
Lemma skip_ne p j : skip p j <> p.
Proof. unfold skip. destruct (Nat.ltb_spec j p); lia. Qed.
Lemma skip_lt p j n : (j < n)%nat -> (skip p j < S n)%nat.
Proof. unfold skip. destruct (Nat.ltb_spec j p); lia. Qed.
Lemma unskip_skip p j : unskip p (skip p j) = j.
Proof. unfold unskip, skip. destruct (Nat.ltb_spec j p); [destruct (Nat.ltb_spec j p)|destruct (Nat.ltb_spec (S j) p)]; lia. Qed.
Lemma skip_unskip p k : k <> p -> skip p (unskip p k) = k.
Proof. intro H. unfold unskip, skip. destruct (Nat.ltb_spec k p); [destruct (Nat.ltb_spec k p)|destruct (Nat.ltb_spec (pred k) p)]; lia. Qed.
Lemma unskip_lt p k n : k <> p -> (p < S n)%nat -> (k < S n)%nat -> (unskip p k < n)%nat.
Proof. intros. unfold unskip. destruct (Nat.ltb_spec k p); lia. Qed.

Section Elim.
  Variable K : Fld.
  Add Field Kfield : (fth K).

  Lemma sumN_skip n p (f : nat -> K) : (p < S n)%nat -> sumN (S n) f = f p + sumN n (fun j => f (skip p j)).
  Proof.
    revert p. induction n as [|n IH]; intros p Hp.
    - assert (p = O) by lia. subst. cbn [sumN]. ring.
    - change (sumN (S (S n)) f) with (sumN (S n) f + f (S n)). cbn [sumN] in IH |- *. destruct (Nat.eq_dec p (S n)) as [->|N].
      + assert (E : sumN n (fun j => f (skip (S n) j)) = sumN n f).
        { apply sumN_ext. intros i Hi. unfold skip. destruct (Nat.ltb_spec i (S n)); [reflexivity|lia]. }
        rewrite E. unfold skip. destruct (Nat.ltb_spec n (S n)); [|lia]. ring.
      + rewrite (IH p) by lia. replace (skip p n) with (S n) by (unfold skip; destruct (Nat.ltb_spec n p); lia). ring.
  Qed.

  Lemma zero_or_not n (r : nat -> K) : (forall j, (j < n)%nat -> r j = 0) \/ exists p, (p < n)%nat /\ r p <> 0.
  Proof.
    induction n as [|n IH]; [left; intros; lia|]. destruct IH as [Z | (p & Hp & N)]; [|right; exists p; split; [lia|exact N]].
    destruct (feq_dec (r n) 0) as [E|E]; [|right; exists n; split; [lia|exact E]].
    left. intros j Hj. destruct (Nat.eq_dec j n) as [->|]; [exact E|]. apply Z. lia.
  Qed.

  Definition nonzero (n : nat) (x : vect K) : Prop := exists j, (j < n)%nat /\ x j <> 0.
  (** A x = 0 for the first m rows and n columns. *)
  Definition solves0 (m n : nat) (A : mat K) (x : vect K) : Prop := forall i, (i < m)%nat -> mv n A x i = 0.

  (** Eliminating variable p with row m. *)
  Definition elim (p m : nat) (A : mat K) : mat K := fun i j => A i (skip p j) - A i p * A m (skip p j) / A m p.
  Lemma elim_row m n p A x i : (p < S n)%nat -> A m p <> 0 -> mv (S n) A x m = 0 ->
    mv n (elim p m A) (fun j => x (skip p j)) i = mv (S n) A x i.
  Proof.
    intros Hp N E. unfold mv in *. rewrite (sumN_skip n p) in E |- * by exact Hp.
    assert (X : x p = - (sumN n (fun j => A m (skip p j) * x (skip p j)) / A m p)).
    { transitivity ((A m p * x p + sumN n (fun j => A m (skip p j) * x (skip p j)) - sumN n (fun j => A m (skip p j) * x (skip p j))) / A m p); [field; exact N|]. rewrite E. field. exact N. }
    rewrite X. unfold elim.
    rewrite (sumN_ext K n _ (fun j => A i (skip p j) * x (skip p j) - (A i p / A m p) * (A m (skip p j) * x (skip p j)))) by (intros; field; exact N).
    rewrite sumN_sub, sumN_mul_l. field. exact N.
  Qed.

  (** The columns of a matrix are independent, or a combination of them vanishes. *)
  Lemma kernel_dec m : forall n (A : mat K), (exists x, nonzero n x /\ solves0 m n A x) \/ (forall x, solves0 m n A x -> forall j, (j < n)%nat -> x j = 0).
  Proof.
    induction m as [|m IH]; intros n A.
    - destruct n as [|n]; [right; intros; lia|]. left. exists (fun _ => 1). split; [exists O; split; [lia|apply (F_1_neq_0 (fth K))]|intros i Hi; lia].
    - destruct (zero_or_not n (A m)) as [Z | (p & Hp & N)].
      + assert (Zr : forall x, mv n A x m = 0) by (intro x; apply sumN_zero; intros j Hj; rewrite Z by exact Hj; ring).
        destruct (IH n A) as [(x & Nx & S)|S].
        * left. exists x. split; [exact Nx|]. intros i Hi. destruct (Nat.eq_dec i m) as [->|]; [apply Zr|]. apply S. lia.
        * right. intros x Hx. apply S. intros i Hi. apply Hx. lia.
      + destruct n as [|n]; [lia|]. destruct (IH n (elim p m A)) as [(y & (j & Hj & Nj) & S)|S].
        * left. set (x := fun k => if (k =? p)%nat then - (sumN n (fun j => A m (skip p j) * y j) / A m p) else y (unskip p k)).
          assert (Xs : forall q, x (skip p q) = y q). { intro q. unfold x. destruct (Nat.eqb_spec (skip p q) p) as [Q|_]; [now apply skip_ne in Q|]. now rewrite unskip_skip. }
          assert (E : mv (Datatypes.S n) A x m = 0).
          { unfold mv. rewrite (sumN_skip n p) by exact Hp. rewrite (sumN_ext K n _ (fun j => A m (skip p j) * y j)) by (intros; now rewrite Xs).
            unfold x at 1. rewrite Nat.eqb_refl. field. exact N. }
          exists x. split; [exists (skip p j); split; [now apply skip_lt|now rewrite Xs]|]. intros i Hi. destruct (Nat.eq_dec i m) as [->|Ni]; [exact E|].
          rewrite <- (elim_row m n p A x i Hp N E). rewrite (mv_ext_v K n _ _ y) by (intros; apply Xs). apply S. lia.
        * right. intros x Hx. assert (E : mv (Datatypes.S n) A x m = 0) by (apply Hx; lia).
          assert (Y : forall j, (j < n)%nat -> x (skip p j) = 0). { apply (S (fun j => x (skip p j))). intros i Hi. rewrite elim_row by assumption. apply Hx. lia. }
          intros j Hj. destruct (Nat.eq_dec j p) as [->|Nj]; [|rewrite <- (skip_unskip p j Nj); apply Y; now apply unskip_lt].
          unfold mv in E. rewrite (sumN_skip n p) in E by exact Hp. rewrite sumN_zero in E by (intros q Hq; rewrite Y by exact Hq; ring).
          transitivity ((A m p * x p + 0) / A m p); [field; exact N|]. rewrite E. field. exact N.
  Qed.

  (** More unknowns than equations. *)
  Lemma underdetermined m : forall n (A : mat K), (m < n)%nat -> exists x, nonzero n x /\ solves0 m n A x.
  Proof.
    induction m as [|m IH]; intros n A H.
    - exists (fun _ => 1). split; [exists O; split; [lia|apply (F_1_neq_0 (fth K))]|intros i Hi; lia].
    - destruct (zero_or_not n (A m)) as [Z | (p & Hp & N)].
      + destruct (IH n A ltac:(lia)) as (x & Nx & S). exists x. split; [exact Nx|]. intros i Hi. destruct (Nat.eq_dec i m) as [->|]; [|apply S; lia].
        apply sumN_zero; intros j Hj; rewrite Z by exact Hj; ring.
      + destruct n as [|n]; [lia|]. destruct (IH n (elim p m A) ltac:(lia)) as (y & (j & Hj & Nj) & S).
        set (x := fun k => if (k =? p)%nat then - (sumN n (fun j => A m (skip p j) * y j) / A m p) else y (unskip p k)).
        assert (Xs : forall q, x (skip p q) = y q). { intro q. unfold x. destruct (Nat.eqb_spec (skip p q) p) as [Q|_]; [now apply skip_ne in Q|]. now rewrite unskip_skip. }
        assert (E : mv (Datatypes.S n) A x m = 0).
        { unfold mv. rewrite (sumN_skip n p) by exact Hp. rewrite (sumN_ext K n _ (fun j => A m (skip p j) * y j)) by (intros; now rewrite Xs).
          unfold x at 1. rewrite Nat.eqb_refl. field. exact N. }
        exists x. split; [exists (skip p j); split; [now apply skip_lt|now rewrite Xs]|]. intros i Hi. destruct (Nat.eq_dec i m) as [->|Ni]; [exact E|].
        rewrite <- (elim_row m n p A x i Hp N E). rewrite (mv_ext_v K n _ _ y) by (intros; apply Xs). apply S. lia.
  Qed.

  (** Square systems: without a solution of the homogeneous system every right side has a solution. *)
  Lemma injective_surjective n (A : mat K) : (forall x, solves0 n n A x -> forall j, (j < n)%nat -> x j = 0) -> forall b, exists x, veq n (mv n A x) b.
  Proof.
    intros I b. destruct (underdetermined n (S n) (fun i j => if (j =? n)%nat then - b i else A i j) ltac:(lia)) as (x & (j & Hj & Nj) & S).
    assert (E : forall i, (i < n)%nat -> mv n A x i - b i * x n = 0).
    { intros i Hi. specialize (S i Hi). unfold mv in S |- *. cbn [sumN] in S. rewrite Nat.eqb_refl in S. rewrite <- S.
      rewrite (sumN_ext K n (fun j => A i j * x j) (fun j => (if (j =? n)%nat then - b i else A i j) * x j)).
      - ring.
      - intros q Hq. destruct (Nat.eqb_spec q n); [lia|reflexivity]. }
    destruct (feq_dec (x n) 0) as [Z|N].
    - exfalso. assert (Zx : forall q, (q < n)%nat -> x q = 0).
      { apply I. intros i Hi. specialize (E i Hi). rewrite Z in E. transitivity (mv n A x i - b i * 0); [ring|exact E]. }
      apply Nj. destruct (Nat.eq_dec j n) as [->|]; [exact Z|]. apply Zx. lia.
    - exists (fun q => x q / x n). intros i Hi. specialize (E i Hi).
      transitivity (mv n A x i / x n).
      + unfold mv. rewrite (sumN_ext K n _ (fun j => A i j * x j * (1 / x n))) by (intros; field; exact N). rewrite sumN_mul_r. field. exact N.
      + transitivity ((mv n A x i - b i * x n) / x n + b i); [field; exact N|]. rewrite E. field. exact N.
  Qed.

  (** Fredholm's alternative. *)
  Lemma alternative n (A : mat K) :
    (exists x, nonzero n x /\ solves0 n n A x) \/
    (forall b, exists x, veq n (mv n A x) b /\ forall y, veq n (mv n A y) b -> veq n y x).
  Proof.
    destruct (kernel_dec n n A) as [H|I]; [now left|right]. intro b. destruct (injective_surjective n A I b) as (x & E). exists x. split; [exact E|].
    intros y Ey j Hj. assert (Z : y j - x j = 0).
    { apply (I (fun q => y q - x q)); [|exact Hj]. intros i Hi. rewrite mv_lin_sub, (Ey i Hi), (E i Hi). ring. }
    transitivity (y j - x j + x j); [ring|]. rewrite Z. ring.
  Qed.

  (** Eigenvectors of different eigenvalues of a pencil A - lam B are independent
      where B is injective on the combinations; here B is diagonal. *)
  Lemma eigen_independent n (A : mat K) (d : vect K) : (forall j, (j < n)%nat -> d j <> 0) ->
    forall m (lam : nat -> K) (v : nat -> vect K) (c : nat -> K),
    (forall a, (a < m)%nat -> nonzero n (v a) /\ forall i, (i < n)%nat -> mv n A (v a) i = lam a * (d i * v a i)) ->
    (forall a b, (a < m)%nat -> (b < m)%nat -> a <> b -> lam a <> lam b) ->
    (forall i, (i < n)%nat -> sumN m (fun a => c a * v a i) = 0) -> forall a, (a < m)%nat -> c a = 0.
  Proof.
    intro Hd. induction m as [|m IH]; intros lam v c He Hl Hc a Ha; [lia|].
    assert (P : forall a, (a < m)%nat -> c a * (lam a - lam m) = 0).
    { apply (IH lam v (fun a => c a * (lam a - lam m))).
      - intros b Hb. apply He. lia.
      - intros b b' Hb Hb'. apply Hl; lia.
      - intros i Hi.
        assert (X : sumN (S m) (fun a => c a * (lam a * (d i * v a i))) = 0).
        { transitivity (mv n A (fun j => sumN (S m) (fun a => c a * v a j)) i).
          - unfold mv. symmetry. rewrite (sumN_ext K n _ (fun j => sumN (S m) (fun a => c a * (A i j * v a j)))) by (intros; rewrite <- sumN_mul_l; apply sumN_ext; intros; ring).
            rewrite sumN_swap. apply sumN_ext. intros b Hb. rewrite sumN_mul_l. f_equal. apply (He b Hb); exact Hi.
          - apply sumN_zero. intros j Hj. rewrite Hc by exact Hj. ring. }
        assert (Y : d i * sumN m (fun a => c a * (lam a - lam m) * v a i) = 0).
        { transitivity (sumN (S m) (fun a => c a * (lam a * (d i * v a i))) - lam m * d i * sumN (S m) (fun a => c a * v a i)).
          - rewrite <- (sumN_mul_l K m (d i)), <- (sumN_mul_l K (S m) (lam m * d i)), <- sumN_sub. cbn [sumN].
            rewrite (sumN_ext K m (fun i0 => c i0 * (lam i0 * (d i * v i0 i)) - lam m * d i * (c i0 * v i0 i)) (fun a0 => d i * (c a0 * (lam a0 - lam m) * v a0 i))) by (intros; ring).
            ring.
          - rewrite X, (Hc i Hi). ring. }
        set (s := sumN m (fun a => c a * (lam a - lam m) * v a i)) in *. transitivity (d i * s / d i); [field; now apply Hd|]. rewrite Y. field. now apply Hd. }
    assert (Q : forall b, (b < m)%nat -> c b = 0).
    { intros b Hb. assert (N : lam b - lam m <> 0). { intro Z. apply (Hl b m ltac:(lia) ltac:(lia) ltac:(lia)). transitivity (lam b - lam m + lam m); [ring|]. rewrite Z. ring. }
      transitivity (c b * (lam b - lam m) / (lam b - lam m)); [field; exact N|]. rewrite (P b Hb). field. exact N. }
    destruct (Nat.eq_dec a m) as [->|]; [|apply Q; lia].
    destruct (He m ltac:(lia)) as ((j & Hj & Nj) & _). specialize (Hc j Hj). cbn [sumN] in Hc. rewrite sumN_zero in Hc by (intros b Hb; rewrite (Q b Hb); ring).
    transitivity ((0 + c m * v m j) / v m j); [field; exact Nj|]. rewrite Hc. field. exact Nj.
  Qed.
  (** ... so there are at most n eigenvalues. *)
  Lemma eigen_bound n (A : mat K) (d : vect K) m (lam : nat -> K) : (forall j, (j < n)%nat -> d j <> 0) -> (n < m)%nat ->
    (forall a b, (a < m)%nat -> (b < m)%nat -> a <> b -> lam a <> lam b) ->
    exists a, (a < m)%nat /\ forall x, (forall i, (i < n)%nat -> mv n A x i = lam a * (d i * x i)) -> forall j, (j < n)%nat -> x j = 0.
  Proof.
    intros Hd Hm Hl.
    assert (D : (exists a, (a < m)%nat /\ forall x, (forall i, (i < n)%nat -> mv n A x i = lam a * (d i * x i)) -> forall j, (j < n)%nat -> x j = 0) \/
                forall a, (a < m)%nat -> exists x, nonzero n x /\ forall i, (i < n)%nat -> mv n A x i = lam a * (d i * x i)).
    { assert (T : forall a x i, (i < n)%nat -> mv n (msub A (mscale (lam a) (mdiag d))) x i = mv n A x i - lam a * (d i * x i)).
      { intros a x i Hi. rewrite mv_msub, mv_mscale, mv_mdiag by exact Hi. reflexivity. }
      clear Hm Hl. induction m as [|m IH]; [right; intros; lia|]. destruct IH as [(a & Ha & H)|H]; [left; exists a; split; [lia|exact H]|].
      destruct (kernel_dec n n (msub A (mscale (lam m) (mdiag d)))) as [(x & Nx & S)|I].
      - right. intros a Ha. destruct (Nat.eq_dec a m) as [->|]; [|apply H; lia]. exists x. split; [exact Nx|]. intros i Hi. specialize (S i Hi). rewrite T in S by exact Hi.
        transitivity (mv n A x i - lam m * (d i * x i) + lam m * (d i * x i)); [ring|]. rewrite S. ring.
      - left. exists m. split; [lia|]. intros x Hx. apply I. intros i Hi. rewrite T, Hx by exact Hi. ring. }
    destruct D as [D|D]; [exact D|exfalso].
    assert (V : exists v : nat -> vect K, forall a, (a < m)%nat -> nonzero n (v a) /\ forall i, (i < n)%nat -> mv n A (v a) i = lam a * (d i * v a i)).
    { clear Hm Hl. induction m as [|m IH]; [exists (fun _ _ => 0); intros; lia|]. destruct IH as (v & Hv); [intros; apply D; lia|]. destruct (D m ltac:(lia)) as (x & Hx).
      exists (fun a => if (a =? m)%nat then x else v a). intros a Ha. destruct (Nat.eqb_spec a m) as [->|]; [exact Hx|]. apply Hv. lia. }
    destruct V as (v & Hv). destruct (underdetermined n m (fun i a => v a i) Hm) as (c & (a & Ha & Na) & S).
    apply Na. apply (eigen_independent n A d Hd m lam v c Hv Hl); [|exact Ha]. intros i Hi. rewrite <- (S i Hi). unfold mv. apply sumN_ext. intros; ring.
  Qed.
End Elim.
