(** Model of the places where the kind (integer, real, complex) of a numpy array
    decides what the code does: outputs made with [numpy.empty_like(e)] and
    updates in place.  Values are complex numbers; precision is not modelled. *)
From Coq Require Import Reals List Arith ZArith Bool.
From Verif.Lib Require Import Num Sums Idx RealF.
From Verif.Model Require Import Fdmath Fdtd Fdfd.
Import ListNotations.
Local Open Scope R_scope.

Inductive kind : Type := KInt | KReal | KComplex.
Definition krank (k : kind) : nat := match k with KInt => 0 | KReal => 1 | KComplex => 2 end.
(** numpy's casting='same_kind': a value of kind [a] may be written over one of kind [b]. *)
Definition kle (a b : kind) : bool := Nat.leb (krank a) (krank b).
(** numpy.result_type *)
Definition kmax (a b : kind) : kind := if kle a b then b else a.
(** true_divide *)
Definition kdiv (a b : kind) : kind := kmax KReal (kmax a b).

(** Rounding towards zero. *)
Definition trunc (x : R) : Z := if Rle_dec 0 x then Int_part x else (- Int_part (- x))%Z.
(** [target[...] = x] for an element of a target of kind [k] (casting='unsafe':
    an imaginary part is dropped with a warning, a fraction silently). *)
Definition cast (k : kind) (x : cpx) : cpx :=
  match k with KComplex => x | KReal => mkC (cre x) 0 | KInt => mkC (IZR (trunc (cre x))) 0 end.

(** A field array, a list of width arrays (their common kind). *)
Record tfield : Type := mkT { tk : kind; tv : field CC }.
Definition twidths : Type := option (kind * widths CC).
Definition wvals (w : twidths) : option (widths CC) := option_map snd w.

(** Kind of a difference of entries of kind [k], divided by widths if there are any. *)
Definition kderiv (w : twidths) (k : kind) : kind := match w with None => k | Some (kw, _) => kdiv k kw end.

(** functional.py:83-91 and 112-120: [output = numpy.empty_like(e)], three
    assignments, three subtractions in place (which raise if the derivative is
    not of the kind of [e]). *)
Definition tcurl_with (D : nat -> arr CC -> arr CC) (dk : kind) (e : tfield) : result tfield :=
  if kle dk (tk e) then
    let k := tk e in let f := tv e in
    Ok (mkT k (fun c => match c with
      | 0%nat => fun idx => cast k (csub (cast k (D 1%nat (f 2%nat) idx)) (D 2%nat (f 1%nat) idx))
      | 1%nat => fun idx => cast k (csub (cast k (D 2%nat (f 0%nat) idx)) (D 0%nat (f 2%nat) idx))
      | 2%nat => fun idx => cast k (csub (cast k (D 0%nat (f 1%nat) idx)) (D 1%nat (f 0%nat) idx))
      | _ => fun _ => c0 end))
  else Raise.
(** functional.py:67-93 *)
Definition tcurl_forward (sh : list nat) (w : twidths) (e : tfield) : result tfield :=
  tcurl_with (deriv_forward (K := CC) sh (wvals w)) (kderiv w (tk e)) e.
(** functional.py:96-122 *)
Definition tcurl_back (sh : list nat) (w : twidths) (h : tfield) : result tfield :=
  tcurl_with (deriv_back (K := CC) sh (wvals w)) (kderiv w (tk h)) h.

(** energy.py:73-87 (dxes None gives numpy.ones(1), of kind real) and
    fdfd/functional.py:209-219: [s = numpy.empty_like(e)] and three assignments. *)
Definition tpoynting (sh : list nat) (d : option (widths CC * widths CC)) (e h : tfield) : tfield :=
  mkT (tk e) (fun c idx => cast (tk e) (poynting (K := CC) sh d (tv e) (tv h) c idx)).
Definition texh (sh : list nat) (d : widths CC * widths CC) (e h : tfield) : tfield :=
  mkT (tk e) (fun c idx => cast (tk e) (poynting_e_cross_h_f (K := CC) sh d (tv e) (tv h) c idx)).

(** base.py:62, [e += dt * curl_h_fun(h) / epsilon] with a float [dt]. *)
Definition tmaxwell_e (sh : list nat) (dt : R) (w : twidths) (e h epsilon : tfield) : result tfield :=
  match tcurl_back sh w h with
  | Raise => Raise
  | Ok ch =>
      if kle (kdiv (kmax KReal (tk ch)) (tk epsilon)) (tk e) then
        Ok (mkT (tk e) (fun c idx =>
          cast (tk e) (cadd (tv e c idx) (cdiv (cmul (mkC dt 0) (tv ch c idx)) (tv epsilon c idx)))))
      else Raise
  end.
(** base.py:118-121 *)
Definition tmaxwell_h (sh : list nat) (dt : R) (w : twidths) (e h : tfield) (mu : option tfield) : result tfield :=
  match tcurl_forward sh w e with
  | Raise => Raise
  | Ok ce =>
      let k := kmax KReal (tk ce) in
      let x := fun c idx => cmul (mkC dt 0) (tv ce c idx) in
      let '(k', x') := match mu with
                       | Some m => (kdiv k (tk m), fun c idx => cdiv (x c idx) (tv m c idx))
                       | None => (k, x) end in
      if kle k' (tk h) then Ok (mkT (tk h) (fun c idx => cast (tk h) (csub (tv h c idx) (x' c idx)))) else Raise
  end.

(** fdfd/functional.py:37-47, [e_full(omega, dxes, epsilon, mu)(e)]. *)
Definition te_full (sh : list nat) (ko : kind) (omega : cpx) (we wh : kind * widths CC) (epsilon : tfield)
    (mu : option tfield) (e : tfield) : result tfield :=
  match tcurl_forward sh (Some we) e with
  | Raise => Raise
  | Ok ce =>
      let m := match mu with
               | None => ce
               | Some m => mkT (kmax (tk m) (tk ce)) (fun c idx => cmul (tv m c idx) (tv ce c idx)) end in
      match tcurl_back sh (Some wh) m with
      | Raise => Raise
      | Ok cc =>
          Ok (mkT (kmax (tk cc) (kmax ko (kmax (tk epsilon) (tk e))))
                  (fun c idx => csub (tv cc c idx) (cmul (cmul (cmul omega omega) (tv epsilon c idx)) (tv e c idx))))
      end
  end.
