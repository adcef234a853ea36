(** Powers and the zero a Ricker pulse is delayed by. *)
From Coq Require Import Reals.
Local Open Scope R_scope.

(** x^y for x >= 0. *)
Definition power (x y : R) : R := if Req_EM_T x 0 then (if Req_EM_T y 0 then 1 else 0) else Rpower x y.

(** (1 - omega^2 t^2 / 2) exp(- omega^2 t^2 / 4) with omega = 2 pi / wl *)
Definition ricker_shape (wl t : R) : R :=
  let w := 2 * PI / wl in (1 - w * w * t * t / 2) * exp (- w * w / 4 * t * t).

(** alpha of the Gaussian exp(-alpha t^2): ln 2 / 8 times the square of the width
    dwl 2 pi / wl^2 in angular frequency. *)
Definition packet_alpha (wl dwl : R) : R :=
  let fwhm := dwl * (2 * PI / wl) * (2 * PI / wl) / (2 * PI) in fwhm * fwhm * ln 2 / 8.
