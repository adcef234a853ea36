(** Model of meanas/fdfd/eme.py.  Modes are given as a function from the mode
    number to the pair (e, h) of vectorized 2D fields; numpy.linalg functions are
    parameters, [None] if they raise.  The wavenumbers are used for their number
    only.  Two-dimensional arrays carry their shape; operations on arrays of
    mismatched shape raise ([None]). *)
From Coq Require Import Reals List Arith ZArith Bool.
From Verif.Lib Require Import Num Sums Idx Mat RealF.
From Verif.Model Require Import Fdmath Fdfd Waveguide2d.
Import ListNotations.
Local Open Scope R_scope.

Record nd2 := mk2 { rows : nat; cols : nat; ent : mat CC }.
Definition obind {A B} (x : option A) (f : A -> option B) : option B := match x with Some a => f a | None => None end.
Notation "x <- e ;; f" := (obind e (fun x => f)) (at level 70, right associativity, e at level 60).
(** [A @ B] *)
Definition matmul (A B : nd2) : option nd2 :=
  if (cols A =? rows B)%nat then Some (mk2 (rows A) (cols B) (mm (cols A) (ent A) (ent B))) else None.
Definition zip2 (f : mat CC -> mat CC -> mat CC) (A B : nd2) : option nd2 :=
  if ((rows A =? rows B) && (cols A =? cols B))%nat%bool then Some (mk2 (rows A) (cols A) (f (ent A) (ent B))) else None.
(** numpy.diag *)
Definition diag (n : nat) (d : nat -> cpx) : nd2 := mk2 n n (mdiag (K := CC) d).
(** numpy.block([[A, B], [C, D]]) *)
Definition block (A B C D : nd2) : option nd2 :=
  if ((rows A =? rows B) && (rows C =? rows D) && (cols A =? cols C) && (cols B =? cols D))%nat%bool then
    Some (mk2 (rows A + rows C) (cols A + cols B) (fun i j =>
      if (i <? rows A)%nat then (if (j <? cols A)%nat then ent A i j else ent B i (j - cols A)%nat)
      else (if (j <? cols A)%nat then ent C (i - rows A)%nat j else ent D (i - rows A)%nat (j - cols A)%nat)))
  else None.
(** scipy.sparse.block_array of dense arrays: [numpy.asarray(blocks, dtype='object')]
    of four arrays of the same shape has four dimensions, and block_array raises
    ValueError("blocks must be 2-D"). *)
Definition sparse_block_array (A B C D : nd2) : option nd2 :=
  let same X Y := ((rows X =? rows Y) && (cols X =? cols Y))%nat%bool in
  if (same A B && same A C && same A D)%bool then None else block A B C D.

Definition chalf : cpx := mkC (1 / 2) 0.
Definition ctwo : cpx := mkC 2 0.

Section Eme.
  Variables (sh : list nat) (dxes : dx2 CC).
  (** numpy.linalg.lstsq(A, B): [lstsq m n p A B] for A of m rows and n columns, B of p columns. *)
  Variable lstsq : nat -> nat -> nat -> mat CC -> mat CC -> option (mat CC).
  (** numpy.linalg.svd, full_matrices=True *)
  Variable svd : nat -> nat -> mat CC -> option (mat CC * (nat -> R) * mat CC).
  (** numpy.linalg.pinv *)
  Variable pinv : nat -> nat -> mat CC -> option (mat CC).

  Definition modes := nat -> vect CC * vect CC.
  (** [inner_product(e, h, dxes=dxes, conj_h=False)] *)
  Definition overlap (e h : vect CC) : cpx := inner_product (K := CC) sh e h dxes c1 false.

  (** eme.py:10-41 *)
  Definition get_tr (nL : nat) (ehL : modes) (nR : nat) (ehR : modes) : option (nd2 * nd2) :=
    let A12 : mat CC := fun l r => overlap (fst (ehL l)) (snd (ehR r)) in
    let A21 : mat CC := fun l r => overlap (fst (ehR r)) (snd (ehL l)) in
    let B11 l := overlap (fst (ehL l)) (snd (ehL l)) in
    tt0 <- lstsq nL nR nL (madd A21 A12) (mdiag (K := CC) (fun l => cmul ctwo (B11 l))) ;;
    usv <- svd nR nL tt0 ;;
    let '(U, st, V) := usv in
    let st' i := if Rlt_dec 1 (st i) then 1 / st i else st i in
    us <- matmul (mk2 nR nR U) (diag (min nR nL) (fun i => mkC (st' i) 0)) ;;
    tt <- matmul us (mk2 nL nL V) ;;
    d <- matmul (diag nL (fun l => cdiv chalf (B11 l))) (mk2 nL nR (msub A21 A12)) ;;
    rr <- matmul d tt ;;
    Some (tt, rr).

  (** eme.py:51-57, before the blocks are put together *)
  Definition abcd_blocks (nL : nat) (ehL : modes) (nR : nat) (ehR : modes) : option (nd2 * nd2 * nd2 * nd2) :=
    tr12 <- get_tr nL ehL nR ehR ;;
    tr21 <- get_tr nR ehR nL ehL ;;
    let '(t12, r12) := tr12 in
    let '(t21, r21) := tr21 in
    p <- pinv (rows t21) (cols t21) (ent t21) ;;
    let t21i := mk2 (cols t21) (rows t21) p in
    rt <- matmul r21 t21i ;;
    rtr <- matmul rt r12 ;;
    a <- zip2 msub t12 rtr ;;
    c <- matmul (mk2 (rows t21i) (cols t21i) (mopp (ent t21i))) r12 ;;
    Some (a, rt, c, t21i).
  (** eme.py:44-58, with the function that puts the four blocks together *)
  Definition get_abcd_with (block_array : nd2 -> nd2 -> nd2 -> nd2 -> option nd2) (nL : nat) (ehL : modes) (nR : nat) (ehR : modes) : option nd2 :=
    q <- abcd_blocks nL ehL nR ehR ;;
    let '(a, b, c, d) := q in block_array a b c d.
  (** eme.py:44-58 *)
  Definition get_abcd : nat -> modes -> nat -> modes -> option nd2 := get_abcd_with sparse_block_array.

  (** eme.py:61-84 *)
  Definition get_s (nL : nat) (ehL : modes) (nR : nat) (ehR : modes) (force_nogain force_reciprocal : bool) : option nd2 :=
    tr12 <- get_tr nL ehL nR ehR ;;
    tr21 <- get_tr nR ehR nL ehL ;;
    let '(t12, r12) := tr12 in
    let '(t21, r21) := tr21 in
    ss <- block r12 t12 t21 r21 ;;
    ss <- (if force_nogain then
             usv <- svd (rows ss) (cols ss) (ent ss) ;;
             let '(U, sing, V) := usv in
             du <- matmul (diag (min (rows ss) (cols ss)) (fun i => mkC (sing i) 0)) (mk2 (rows ss) (rows ss) U) ;;
             matmul du (mk2 (cols ss) (cols ss) V)
           else Some ss) ;;
    if force_reciprocal then
      sum <- zip2 madd ss (mk2 (cols ss) (rows ss) (mtr (ent ss))) ;;
      Some (mk2 (rows sum) (cols sum) (mscale (K := CC) chalf (ent sum)))
    else Some ss.
End Eme.
