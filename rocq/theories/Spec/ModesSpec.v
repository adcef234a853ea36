(** Resonances of a closed lossless box (C152 - C154). *)
From Coq Require Import Reals List Arith.
From Verif.Lib Require Import Num Sums Idx Mat RealF.
From Verif.Model Require Import Fdmath Fdtd Fdfd.
From Verif.Spec Require Import Grid Yee FdtdRun HarmonicSpec.
Local Open Scope R_scope.

Section Modes.
  Variables (sh : list nat) (we wh : widths RF) (eps : field RF) (mu : option (field RF)).
  (** Twice the electric energy of F (for G = F), *)
  Definition e_dot (F G : field RF) : R :=
    fsum (K := RF) sh (fun c i => vol_e (K := RF) we wh c i * (eps c i * (F c i * G c i))).
  (** and of its curl the magnetic one. *)
  Definition c_dot (F G : field RF) : R :=
    fsum (K := RF) sh (fun c i => vol_h (K := RF) we wh c i *
      (curl_next (K := RF) sh (Some we) F c i * curl_next (K := RF) sh (Some we) G c i / matl (K := RF) mu c i)).

  (** Widths and materials are positive. *)
  Definition lossless : Prop :=
    length sh = 3%nat /\
    (forall a i, (a < 3)%nat -> (i < dim sh a)%nat -> 0 < we a i /\ 0 < wh a i) /\
    (forall c i, (c < 3)%nat -> inb sh i -> 0 < eps c i /\ 0 < matl (K := RF) mu c i).

  Notation n := (3 * prodl sh)%nat.
  (** The matrix of the code at the frequency om. *)
  Definition e_full_at (om : CC) : mat CC :=
    e_full_mat (K := CC) sh om (cw we, cw wh) (vec (K := CC) sh (cf eps)) (option_map (fun m => vec (K := CC) sh (cf m)) mu) None None.

  (** Real fields V 0, ..., V (n-1) and numbers lam 0 <= lam 1 <= ...: an orthonormal
      basis, with e_full V = (lam - om^2) eps V, and each with the least energy of the
      curl among the fields orthogonal to the ones before. *)
  Record modes (V : nat -> field RF) (lam : nat -> R) : Prop := {
    m_orth : forall a b, (a < n)%nat -> (b < n)%nat -> e_dot (V a) (V b) = if (a =? b)%nat then 1 else 0;
    m_wave : forall a (om : CC), (a < n)%nat ->
      feq (K := CC) sh (unvec (K := CC) sh (mv (K := CC) n (e_full_at om) (vec (K := CC) sh (cf (V a)))))
          (fun c i => cmul (csub (mkC (lam a) 0) (cmul om om)) (mkC (eps c i * V a c i) 0));
    m_least : forall a F, (a < n)%nat -> (forall b, (b < a)%nat -> e_dot (V b) F = 0) -> lam a * e_dot F F <= c_dot F F;
    m_pos : forall a, (a < n)%nat -> 0 <= lam a;
    m_sorted : forall a b, (a <= b)%nat -> (b < n)%nat -> lam a <= lam b;
    m_basis : forall F, feq (K := RF) sh F (fun c i => sumN (K := RF) n (fun a => e_dot (V a) F * V a c i))
  }.
End Modes.
