(** Model of meanas/fdfd/bloch.py.  Grids have three axes.  Real arrays are
    stored as complex ones.  Vectors h_mn of size 2 * epsilon[0].size are
    functions from the position to the value; the operators overwrite their
    argument with the result they return, so only the result is given. *)
From Coq Require Import Reals List Arith ZArith Bool.
From Verif.Lib Require Import Num Sums Idx RealF Dft.
From Verif.Model Require Import Ndarray.
Import ListNotations.
Local Open Scope R_scope.

Definition vec3 := nat -> R.
Definition v3 (x y z : R) : vec3 := fun a => match a with O => x | 1%nat => y | _ => z end.
(** numpy.cross of 3-vectors *)
Definition cross (u v : vec3) : vec3 :=
  v3 (u 1%nat * v 2%nat - u 2%nat * v 1%nat) (u 2%nat * v O - u O * v 2%nat) (u O * v 1%nat - u 1%nat * v O).
(** scipy.linalg.norm *)
Definition norm3 (u : vec3) : R := sqrt (u O * u O + u 1%nat * u 1%nat + u 2%nat * u 2%nat).

(** fftfreq(n, 1 / n)[i]: 0, 1, .., (n - 1) // 2, -(n // 2), .., -1 *)
Definition fftfreq (n i : nat) : Z :=
  if (i <? (n - 1) / 2 + 1)%nat then Z.of_nat i else (Z.of_nat i - Z.of_nat n)%Z.

(** bloch.py:162-168, one cell: G_matrix @ (k0 - Gi) *)
Definition k_xyz (k0 : vec3) (G : nat -> nat -> R) (sh idx : list nat) : vec3 := fun a =>
  let kG b := k0 b - IZR (fftfreq (dim sh b) (coord idx b)) in
  G a O * kG O + G a 1%nat * kG 1%nat + G a 2%nat * kG 2%nat.
(** numpy.any(k_xyz != 0) is false *)
Definition k_is_0 (k : vec3) : bool :=
  if Req_EM_T (k O) 0 then if Req_EM_T (k 1%nat) 0 then if Req_EM_T (k 2%nat) 0 then true else false else false else false.
(** bloch.py:139-180, one cell: |k|, m, n.  The mask called xy_non0 looks at
    k_xyz[:, :, :, 0:1].  A vector divided by a norm of zero is not finite. *)
Definition generate_kmn (k0 : vec3) (G : nat -> nat -> R) (sh idx : list nat) : R * vec3 * option vec3 :=
  let k := k_xyz k0 G sh idx in
  let m := if Req_EM_T (k O) 0 then v3 0 1 0
           else let u := cross k (v3 0 0 1) in fun a => u a / norm3 u in
  let v := cross k m in
  let n := if k_is_0 k then Some (v3 0 0 1)
           else if Req_EM_T (norm3 v) 0 then None else Some (fun a => v a / norm3 v) in
  (norm3 k, m, n).

Section Operators.
  Variables (k0 : vec3) (G : nat -> nat -> R) (sh : list nat).
  (** arrays of shape tuple(shape) + (1,) and tuple(shape) + (3,) *)
  Definition k_mag : nd := mkNd (sh ++ [1%nat]) (fun idx => nre (fst (fst (generate_kmn k0 G sh (firstn 3 idx))))).
  Definition m_vec : nd := mkNd (sh ++ [3%nat]) (fun idx => nre (snd (fst (generate_kmn k0 G sh (firstn 3 idx))) (coord idx 3))).
  Definition n_vec : nd := mkNd (sh ++ [3%nat]) (fun idx =>
    match snd (generate_kmn k0 G sh (firstn 3 idx)) with Some n => nre (n (coord idx 3)) | None => None end).
  (** hi.reshape(shape) for hi in numpy.split(h, 2) *)
  Definition hin (half : nat) (h : nat -> cpx) : nd :=
    mkNd (sh ++ [1%nat]) (fun idx => Some (h (half * prodl sh + ravel sh (firstn 3 idx))%nat)).
  (** numpy.moveaxis(epsilon, 0, -1) *)
  Definition last_axis (f : nat -> list nat -> cpx) : nd :=
    mkNd (sh ++ [3%nat]) (fun idx => Some (f (coord idx 3) (firstn 3 idx))).

  Variables (epsilon : nat -> list nat -> cpx) (mu : option (nat -> list nat -> cpx)).

  (** bloch.py:217-271 *)
  Definition maxwell_operator (h : nat -> cpx) : option (nat -> num) :=
    let hin_m := hin 0 h in
    let hin_n := hin 1 h in
    nh <- zipw nmul n_vec hin_m ;;
    mh <- zipw nmul m_vec hin_n ;;
    d <- zipw nsub nh mh ;;
    d_xyz <- zipw nmul d k_mag ;;
    temp <- izipw ndiv (fft3 ifftn d_xyz) (last_axis epsilon) ;;
    let e_xyz := fft3 fftn temp in
    en <- zipw nmul e_xyz n_vec ;;
    em <- zipw nmul e_xyz m_vec ;;
    b_m <- zipw nmul (sum3k en) (nmap nopp k_mag) ;;
    b_n <- zipw nmul (sum3k em) k_mag ;;
    match mu with
    | None => concat_out (2 * prodl sh) b_m b_n
    | Some mu =>
        mb <- zipw nmul m_vec (newaxis3 b_m) ;;
        nb <- zipw nmul n_vec (newaxis3 b_n) ;;
        b_xyz <- zipw nadd mb nb ;;
        temp <- izipw ndiv (fft3 ifftn b_xyz) (last_axis mu) ;;
        let h_xyz := fft3 fftn temp in
        hm <- zipw nmul h_xyz m_vec ;;
        hn <- zipw nmul h_xyz n_vec ;;
        concat_out (2 * prodl sh) (sum3 hm) (sum3 hn)
    end.

  (** bloch.py:297-314; component, then position *)
  Definition hmn_2_exyz (h : nat -> cpx) : option (nat -> list nat -> num) :=
    nh <- zipw nmul n_vec (hin 0 h) ;;
    mh <- zipw nmul m_vec (hin 1 h) ;;
    d <- zipw nsub nh mh ;;
    d_xyz <- zipw nmul d k_mag ;;
    e <- zipw ndiv (fft3 ifftn d_xyz) (last_axis epsilon) ;;
    Some (fun a idx => val e (idx ++ [a])).

  (** bloch.py:338-350 *)
  Definition hmn_2_hxyz (h : nat -> cpx) : option (nat -> list nat -> num) :=
    mh <- zipw nmul m_vec (hin 0 h) ;;
    nh <- zipw nmul n_vec (hin 1 h) ;;
    h_xyz <- zipw nadd mh nh ;;
    Some (fun a idx => val (fft3 ifftn h_xyz) (idx ++ [a])).

  (** bloch.py:378-436 *)
  Definition inverse_maxwell_operator_approx (h : nat -> cpx) : option (nat -> num) :=
    let hin_m := hin 0 h in
    let hin_n := hin 1 h in
    b <- match mu with
         | None => Some (hin_m, hin_n)
         | Some mu =>
             mh <- zipw nmul m_vec (newaxis3 hin_m) ;;
             nh <- zipw nmul n_vec (newaxis3 hin_n) ;;
             h_xyz <- zipw nadd mh nh ;;
             temp <- izipw nmul (fft3 ifftn h_xyz) (last_axis mu) ;;
             let b_xyz := fft3 fftn temp in
             bm <- zipw nmul b_xyz m_vec ;;
             bn <- zipw nmul b_xyz n_vec ;;
             Some (sum3 bm, sum3 bn)
         end ;;
    let '(b_m, b_n) := b in
    nb <- zipw nmul n_vec b_m ;;
    mb <- zipw nmul m_vec b_n ;;
    e <- zipw nsub nb mb ;;
    e_xyz <- zipw ndiv e k_mag ;;
    temp <- izipw nmul (fft3 ifftn e_xyz) (last_axis epsilon) ;;
    let d_xyz := fft3 fftn temp in
    dn <- zipw nmul d_xyz n_vec ;;
    dm <- zipw nmul d_xyz m_vec ;;
    h_m <- zipw ndiv (sum3k dn) k_mag ;;
    h_n <- zipw ndiv (sum3k dm) (nmap nopp k_mag) ;;
    concat_out (2 * prodl sh) h_m h_n.
End Operators.
