(** Plane waves of a Bloch mode: wavevectors, transverse bases, and the operator
    k x (1/eps) (k x .) applied in the spatial-frequency domain. *)
From Coq Require Import Reals List Arith ZArith.
From Verif.Lib Require Import Num Sums Idx RealF Dft.
Import ListNotations.
Local Open Scope R_scope.

Definition dot3 (u v : nat -> R) : R := u O * v O + u 1%nat * v 1%nat + u 2%nat * v 2%nat.
(** The signed frequency of position i in the output of an n-point transform. *)
Definition signed_freq (n i : nat) : Z := if (2 * i <? n)%nat then Z.of_nat i else (Z.of_nat i - Z.of_nat n)%Z.
(** G (k0 - g), g the integer frequencies of the grid point *)
Definition wavevector (k0 : nat -> R) (G : nat -> nat -> R) (sh idx : list nat) (a : nat) : R :=
  let g b := IZR (signed_freq (dim sh b) (coord idx b)) in
  G a O * (k0 O - g O) + G a 1%nat * (k0 1%nat - g 1%nat) + G a 2%nat * (k0 2%nat - g 2%nat).
(** m and n are unit vectors; k, m, n are orthogonal and right-handed. *)
Definition transverse_basis (k m n : nat -> R) : Prop :=
  dot3 m m = 1 /\ dot3 n n = 1 /\ dot3 m n = 0 /\ dot3 k m = 0 /\ dot3 k n = 0 /\
  k 1%nat * m 2%nat - k 2%nat * m 1%nat = sqrt (dot3 k k) * n O /\
  k 2%nat * m O - k O * m 2%nat = sqrt (dot3 k k) * n 1%nat /\
  k O * m 1%nat - k 1%nat * m O = sqrt (dot3 k k) * n 2%nat.

Definition rmul (x : R) (z : cpx) : cpx := cmul (mkC x 0) z.
(** real vector times complex vector *)
Definition rcross (k : nat -> R) (v : nat -> cpx) : nat -> cpx := fun a =>
  match a with
  | O => csub (rmul (k 1%nat) (v 2%nat)) (rmul (k 2%nat) (v 1%nat))
  | 1%nat => csub (rmul (k 2%nat) (v O)) (rmul (k O) (v 2%nat))
  | _ => csub (rmul (k O) (v 1%nat)) (rmul (k 1%nat) (v O))
  end.
(** A field given by its components along m and n, in xyz components. *)
Definition from_mn (m n : nat -> R) (hm hn : cpx) : nat -> cpx := fun a => cadd (rmul (m a) hm) (rmul (n a) hn).
(** k x F( (1/eps) F^-1( k x H ) ); H: component, then grid frequency *)
Definition k_cross_eps_k_cross (sh : list nat) (k : list nat -> nat -> R) (eps : nat -> list nat -> cpx)
    (H : list nat -> nat -> cpx) (idx : list nat) : nat -> cpx :=
  rcross (k idx) (fun a => fftn sh (fun j => cdiv (ifftn sh (fun q => rcross (k q) (H q) a) j) (eps a j)) idx).
(** sum_i conj(g_i) h_i *)
Definition hdot (n : nat) (g h : nat -> cpx) : cpx := sumN (K := CC) n (fun i => cmul (cconj (g i)) (h i)).
