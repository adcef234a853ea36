(** Model of inner_product and trq of meanas/fdfd/bloch.py.  Fields are complex
    arrays of shape (3, ..) (component, then position); inner_product divides its
    four arguments in place, so it returns their new contents with the result.
    [None]: a value that is not finite (a norm of zero). *)
From Coq Require Import Reals List Arith ZArith Bool.
From Verif.Lib Require Import Num Sums Idx RealF.
From Verif.Model Require Import Ndarray.
Import ListNotations.
Local Open Scope R_scope.

Definition cfield := nat -> list nat -> cpx.
Definition fscale_inv (s : cpx) (f : cfield) : cfield := fun a j => cdiv (f a j) s.
Definition fneg (f : cfield) : cfield := fun a j => copp (f a j).

Section Overlap.
  Variable sh : list nat.
  (** bloch.py:818-819 *)
  Definition norm2 (e h : cfield) : cpx :=
    cdiv (gsum (K := CC) sh (fun j => csub (cmul (e 1%nat j) (h 2%nat j)) (cmul (e 2%nat j) (h 1%nat j)))) (mkC 2 0).
  (** bloch.py:830-831: eR[1] * hL[2] - eR[2] - hL[1] *)
  Definition cross_x (e h : cfield) : list nat -> cpx := fun j => csub (csub (cmul (e 1%nat j) (h 2%nat j)) (e 2%nat j)) (h 1%nat j).
  (** bloch.py:805-835 *)
  Definition inner_product (eL hL eR hR : cfield) : option (cpx * (cfield * cfield * cfield * cfield)) :=
    let norm2R := norm2 eR hR in
    let norm2L := norm2 eL hL in
    if cpx_dec (csqrt norm2R) c0 then None else if cpx_dec (csqrt norm2L) c0 then None else
    let eR := fscale_inv (csqrt norm2R) eR in
    let hR := fscale_inv (csqrt norm2R) hR in
    let eL := fscale_inv (csqrt norm2L) eL in
    let hL := fscale_inv (csqrt norm2L) hL in
    Some (csub (gsum (K := CC) sh (cross_x eR hL)) (gsum (K := CC) sh (cross_x eL hR)), (eL, hL, eR, hR)).
  (** bloch.py:838-861; [None]: an assertion fails (it does for NaN).  The negated
      fields are temporaries, so they are not changed by inner_product. *)
  Definition trq (eI hI eO hO : cfield) : option (num * num) :=
    pp <- inner_product eO hO eI hI ;;
    let '(pp, (eO, hO, eI, hI)) := pp in
    pn <- inner_product eO hO eI (fneg hI) ;;
    let '(pn, (eO, hO, eI, _)) := pn in
    np <- inner_product eO (fneg hO) eI hI ;;
    let '(np, (eO, _, eI, hI)) := np in
    nn <- inner_product eO (fneg hO) eI (fneg hI) ;;
    let '(nn, _) := nn in
    if cpx_dec pp (copp nn) then
      if cpx_dec pn (copp np) then
        let r := nopp (ndiv (Some pp) (Some pn)) in
        let t := ndiv (nsub (Some np) (ndiv (Some (cmul nn pp)) (Some pn))) (Some (mkC 4 0)) in
        Some (t, r)
      else None
    else None.
End Overlap.
