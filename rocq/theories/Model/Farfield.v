(** Model of meanas/fdfd/farfield.py.  2D complex arrays are functions of the
    position [i; j]; [None] stands for a value that is not finite.  Fields are
    given as two arrays, called 0 and 1. *)
From Coq Require Import Reals List Arith ZArith Bool.
From Verif.Lib Require Import Num Sums Idx RealF Dft.
From Verif.Model Require Import Ndarray Bloch.
Import ListNotations.
Local Open Scope R_scope.

(** numpy.fft.fftshift: rolls every axis by n // 2 *)
Definition fftshift {A} (sh : list nat) (f : list nat -> A) : list nat -> A := fun idx =>
  f (shift_ix sh 1 (- Z.of_nat (dim sh 1 / 2)) (shift_ix sh 0 (- Z.of_nat (dim sh 0 / 2)) idx)).
(** numpy.fft.ifftshift: rolls every axis by -(n // 2) *)
Definition ifftshift {A} (sh : list nat) (f : list nat -> A) : list nat -> A := fun idx =>
  f (shift_ix sh 1 (Z.of_nat (dim sh 1 / 2)) (shift_ix sh 0 (Z.of_nat (dim sh 0 / 2)) idx)).
(** fftshift(fftfreq(n, d)) *)
Definition shifted_freq (n : nat) (d : R) (i : nat) : R :=
  IZR (fftfreq n (cyc n (- Z.of_nat (n / 2)) i)) * (1 / (INR n * d)).
(** fft2(.., s=padded_shape): zeros are added, or elements dropped, at the end of each axis. *)
Definition resize (sh : list nat) (f : list nat -> num) : list nat -> num := fun idx =>
  if (coord idx 0 <? dim sh 0)%nat && (coord idx 1 <? dim sh 1)%nat then f idx else Some c0.
Definition fft_of (T : list nat -> (list nat -> cpx) -> list nat -> cpx) (p : list nat) (f : list nat -> num) : list nat -> num := fun idx =>
  match all_finite p f with Some g => Some (T p g idx) | None => None end.
(** (2 ** numpy.ceil(numpy.log2(s))).astype(int), for sizes above 0 *)
Definition padded (sh : list nat) (padded_size : option (list nat)) : list nat :=
  match padded_size with Some p => p | None => map (fun n => (2 ^ Nat.log2_up n)%nat) sh end.
(** numpy.arctan2 *)
Definition arctan2 (y x : R) : R :=
  if Rlt_dec 0 x then atan (y / x)
  else if Rlt_dec x 0 then if Rle_dec 0 y then atan (y / x) + PI else atan (y / x) - PI
  else if Rlt_dec 0 y then PI / 2 else if Rlt_dec y 0 then - (PI / 2) else 0.

Definition k_2pi : R := 2 * PI.
Definition rnum (x : R) : num := Some (mkC x 0).
(** Directions, farfield.py:78-88 and 183-194; kx, ky: wavevector at a position. *)
Section Direction.
  Variables kx ky : list nat -> R.
  Definition kxy2 idx : R := kx idx * kx idx + ky idx * ky idx.
  Definition at_0 idx : bool := if Req_EM_T (kx idx) 0 then if Req_EM_T (ky idx) 0 then true else false else false.
  (** numpy.sqrt of a negative number is NaN *)
  Definition kz idx : num := if Rle_dec 0 (k_2pi * k_2pi - kxy2 idx) then rnum (sqrt (k_2pi * k_2pi - kxy2 idx)) else None.
  Definition sin_th idx : num := if at_0 idx then rnum 0 else ndiv (rnum (ky idx)) (rnum (sqrt (kxy2 idx))).
  Definition cos_th idx : num := if at_0 idx then rnum 1 else ndiv (rnum (kx idx)) (rnum (sqrt (kxy2 idx))).
  Definition cos_phi idx : num := ndiv (kz idx) (rnum k_2pi).
  (** kxy2 >= k * k *)
  Definition invalid idx : bool := if Rle_dec (k_2pi * k_2pi) (kxy2 idx) then true else false.
  (** farfield.py:101-109 *)
  Definition theta idx : num := if invalid idx then rnum 0 else if at_0 idx then rnum 0 else rnum (arctan2 (ky idx) (kx idx)).
  Definition phi idx : num := if invalid idx then rnum 0 else if at_0 idx then rnum 0 else
    match cos_phi idx with Some c => rnum (acos (cre c)) | None => None end.
End Direction.

Record farfield := mkFar { fE : nat -> list nat -> num; fH : nat -> list nat -> num;
  fdkx : nat -> R; fdky : nat -> R; fkx : list nat -> R; fky : list nat -> R; ftheta : list nat -> num; fphi : list nat -> num }.
(** farfield.py:15-125.  [None]: kx[1] raises for a padded shape with one row. *)
Definition near_to_farfield (sh : list nat) (E_near H_near : nat -> list nat -> cpx) (dx dy : R) (padded_size : option (list nat)) : option farfield :=
  let p := padded sh padded_size in
  let spec (f : list nat -> cpx) := fftshift p (fft_of fftn p (resize sh (fun idx => Some (fftshift sh f idx)))) in
  let En a := spec (E_near a) in
  let Hn a := spec (H_near a) in
  let kx idx := 2 * PI * shifted_freq (dim p 0) dx (coord idx 0) in
  let ky idx := 2 * PI * shifted_freq (dim p 1) dy (coord idx 1) in
  let c idx := cos_phi kx ky idx in
  let ct idx := cos_th kx ky idx in
  let st idx := sin_th kx ky idx in
  let N0 idx := nadd (nmul (nmul (nopp (Hn 1%nat idx)) (c idx)) (ct idx)) (nmul (nmul (Hn 0%nat idx) (c idx)) (st idx)) in
  let N1 idx := nadd (nmul (Hn 1%nat idx) (st idx)) (nmul (Hn 0%nat idx) (ct idx)) in
  let L0 idx := nsub (nmul (nmul (En 1%nat idx) (c idx)) (ct idx)) (nmul (nmul (En 0%nat idx) (c idx)) (st idx)) in
  let L1 idx := nsub (nmul (nopp (En 1%nat idx)) (st idx)) (nmul (En 0%nat idx) (ct idx)) in
  let E0 idx := nsub (nopp (L1 idx)) (N0 idx) in
  let E1 idx := nsub (L0 idx) (N1 idx) in
  let zero idx x := if invalid kx ky idx then rnum 0 else x in
  if (dim p 0 <? 2)%nat then None else
  Some (mkFar (fun a idx => zero idx (match a with O => E0 idx | _ => E1 idx end))
              (fun a idx => zero idx (match a with O => nopp (E1 idx) | _ => E0 idx end))
              (fun j => kx [1; j]%nat - kx [0; j]%nat) (fun j => ky [1; j]%nat - ky [0; j]%nat)
              kx ky (theta kx ky) (phi kx ky)).

Record nearfield := mkNear { nE : nat -> list nat -> num; nH : nat -> list nat -> num; ndx : num; ndy : num;
  (* contents of the arguments afterwards *) argE : nat -> list nat -> num; argH : nat -> list nat -> num }.
(** farfield.py:128-238, for numbers dkx, dky (1 / 0 is infinite and fftfreq gives
    zeros).  kx, ky are square arrays of s[0] rows.  [None]: a boolean mask of
    another shape than the array raises. *)
Definition far_to_nearfield (sh : list nat) (E_far H_far : nat -> list nat -> num) (dkx dky : R) (padded_size : option (list nat)) : option nearfield :=
  let p := padded sh padded_size in
  let s0 := dim sh 0 in
  let s1 := dim sh 1 in
  let step (s : nat) (dk : R) := if Req_EM_T dk 0 then 0 else 1 / (INR s0 * (1 / (INR s * dk))) in
  let freq (s : nat) (dk : R) (i : nat) := IZR (fftfreq s0 (cyc s0 (- Z.of_nat (s0 / 2)) i)) * step s dk in
  let kx idx := freq s0 dkx (coord idx 0) in
  let ky idx := freq s1 dky (coord idx 1) in
  let c idx := cos_phi kx ky idx in
  let ct idx := cos_th kx ky idx in
  let st idx := sin_th kx ky idx in
  if negb (s0 =? s1)%nat then None else
  let E a idx := if invalid kx ky idx then rnum 0 else E_far a idx in
  let H a idx := if invalid kx ky idx then rnum 0 else H_far a idx in
  let half x := nmul (rnum (1 / 2)) x in
  let L0 idx := half (E 1%nat idx) in
  let L1 idx := nmul (rnum (- (1 / 2))) (E 0%nat idx) in
  let N0 idx := L1 idx in
  let N1 idx := nopp (L0 idx) in
  let zero idx x := match c idx with Some z => if cpx_dec z c0 then rnum 0 else x | None => x end in
  let En a idx := zero idx (match a with
    | O => ndiv (nopp (nadd (nmul (L0 idx) (st idx)) (nmul (nmul (L1 idx) (c idx)) (ct idx)))) (c idx)
    | _ => ndiv (nopp (nadd (nmul (nopp (L0 idx)) (ct idx)) (nmul (nmul (L1 idx) (c idx)) (st idx)))) (c idx) end) in
  let Hn a idx := zero idx (match a with
    | O => ndiv (nadd (nmul (N0 idx) (st idx)) (nmul (nmul (N1 idx) (c idx)) (ct idx))) (c idx)
    | _ => ndiv (nadd (nmul (nopp (N0 idx)) (ct idx)) (nmul (nmul (N1 idx) (c idx)) (st idx))) (c idx) end) in
  let back f := ifftshift p (fft_of ifftn p (resize sh (ifftshift sh f))) in
  Some (mkNear (fun a => back (En a)) (fun a => back (Hn a))
               (ndiv (rnum (2 * PI)) (rnum (INR s0 * dkx))) (ndiv (rnum (2 * PI)) (rnum (INR s0 * dky))) E H).
