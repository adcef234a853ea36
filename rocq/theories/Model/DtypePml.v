(** Kinds of arrays in the CPML updates (see Dtype.v). *)
From Coq Require Import Reals List Arith ZArith Bool.
From Verif.Lib Require Import Num Sums Idx RealF.
From Verif.Model Require Import Fdmath Fdtd Pml Dtype.
Import ListNotations.

Definition any_layer (Ls : nat -> nat -> option (layer CC)) (f : nat -> layer CC -> bool) : bool :=
  existsb (fun ap => match Ls (fst ap) (snd ap) with Some L => f (fst ap) L | None => false end)
          [(0, 0); (0, 1); (1, 0); (1, 1); (2, 0); (2, 1)]%nat.

(** pml.py:139-183 for one update function: [kd] is the kind of the derivatives
    (always divided by widths), [kp] the [dtype] argument (pml.py:123-137: psi, pE),
    [km] the kind of the material, [k] that of the field updated.
    Lines 170-171 and 216-217: [dHu[region] *= p2e], where the region has at most
    [dim] cells and [p2e] has [thickness]; lines 172-175: [psi *= p0e],
    [psi += p1e * dHv[region]] (real coefficients); lines 177-183: [pE] is of kind
    [kp], with or without layers, and [e[0] += dt / epsilon[0] * (... + pE[0])]. *)
Definition cpml_accepts (sh : list nat) (Ls : nat -> nat -> option (layer CC)) (kd kp km k : kind) : bool :=
  negb (any_layer Ls (fun a L => Nat.ltb (dim sh a) (lth L))) &&
  negb (any_layer Ls (fun _ _ => negb (kle KReal kp && kle kd kp))) &&
  kle (kmax (kdiv KReal km) (kmax kd kp)) k.

(** The operations that are accepted lose nothing (kinds only grow), so the value
    is the one of [update_E], stored in the array [e]. *)
Definition tupdate_E (sh : list nat) (Ls : nat -> nat -> option (layer CC)) (dt : R) (kp : kind) (w : kind * widths CC)
    (ps : psis CC) (e h epsilon : tfield) : result (psis CC * tfield) :=
  if cpml_accepts sh Ls (kdiv (tk h) (fst w)) kp (tk epsilon) (tk e) then
    let r := update_E (K := CC) sh Ls (mkC dt 0 : CC) (snd w) ps (tv e) (tv h) (tv epsilon) in
    Ok (fst r, mkT (tk e) (fun c idx => cast (tk e) (snd r c idx)))
  else Raise.

(** pml.py:185-229 *)
Definition tupdate_H (sh : list nat) (Ls : nat -> nat -> option (layer CC)) (dt : R) (kp : kind) (w : kind * widths CC)
    (ps : psis CC) (e h mu : tfield) : result (psis CC * tfield) :=
  if cpml_accepts sh Ls (kdiv (tk e) (fst w)) kp (tk mu) (tk h) then
    let r := update_H (K := CC) sh Ls (mkC dt 0 : CC) (snd w) ps (tv e) (tv h) (tv mu) in
    Ok (fst r, mkT (tk h) (fun c idx => cast (tk h) (snd r c idx)))
  else Raise.
