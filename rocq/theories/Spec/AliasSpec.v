(** The time loop a caller writes around the FDTD updaters, at the level of
    objects (meanas/test/test_fdtd.py:219-235). *)
From Coq Require Import List Arith ZArith.
From Verif.Lib Require Import Num Idx.
From Verif.Model Require Import Fdmath Fdtd Alias.
Import ListNotations.
Local Open Scope fld_scope.

Section Loop.
  Context {K : Fld}.
  Variables (sh : list nat) (dt : K) (dxes : dxes_t K) (eps : field K) (mu : option (field K)).

  (** The variables [e], [h], the lists [es], [hs] of saved fields, and the objects. *)
  Record sim : Type := mkSim { var_e : nat; var_h : nat; es : list nat; hs : list nat; mem : heap K }.

  (** One pass.  [copies]: the loop starts with [e = e.copy(); h = h.copy()]. *)
  Definition pass (copies : bool) (s : sim) (j : field K) : result sim :=
    let '(e, m1) := if copies then copy (mem s) (var_e s) else (var_e s, mem s) in
    let '(h, m2) := if copies then copy m1 (var_h s) else (var_h s, m1) in
    match mh_fun sh dt dxes e h mu m2 with
    | Raise => Raise
    | Ok (h', m3) =>
        match me_fun sh dt dxes e h' eps m3 with
        | Raise => Raise
        | Ok (e', m4) =>
            let m5 := iadd m4 e' (fun c idx => j c idx / eps c idx) in
            Ok (mkSim e' h' (es s ++ [e']) (hs s ++ [h']) m5)
        end
    end.

  Fixpoint passes (copies : bool) (js : list (field K)) (s : sim) : result sim :=
    match js with
    | [] => Ok s
    | j :: js' => match pass copies s j with Ok s' => passes copies js' s' | Raise => Raise end
    end.
End Loop.
Arguments sim K : clear implicits.

(** The object at [a] is an array with the values of [F]. *)
Definition reads {K : Fld} (m : heap K) (a : nat) (F : field K) : Prop := objs m a = Arr F.
