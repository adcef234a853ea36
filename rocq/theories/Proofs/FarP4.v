(** The far field in one direction as a function of the spectra there. *)
From Coq Require Import Reals List Arith ZArith Lia Lra Psatz Field Bool.
From Verif.Lib Require Import Num Sums Idx RealF Dft.
From Verif.Model Require Import Ndarray Bloch Farfield.
From Verif.Spec Require Import BlochSpec FarSpec.
From Verif.Proofs Require Import EmeP NdarrayP BlochP BlochP2 FarP FarP2 FarP3.
Import ListNotations.
Local Open Scope R_scope.

Section Cell.
  Variables (C T S : R) (X Y : nat -> cpx).
  Definition ce0 : cpx := cadd (cadd (rmul T (X 0%nat)) (rmul S (X 1%nat))) (rmul C (csub (rmul T (Y 1%nat)) (rmul S (Y 0%nat)))).
  Definition ce1 : cpx := csub (rmul C (csub (rmul T (X 1%nat)) (rmul S (X 0%nat)))) (cadd (rmul S (Y 1%nat)) (rmul T (Y 0%nat))).
End Cell.
Section Form.
  Variables (p : list nat) (dx dy : R).
  Hypothesis Hp : length p = 2%nat.
  Hypothesis H2 : (2 <= dim p 0)%nat.
  Hypothesis Pdx : 0 < dx.
  Hypothesis Pdy : 0 < dy.
  Definition kxf idx := dft_k (dim p 0) dx (coord (fwd p idx) 0).
  Definition kyf idx := dft_k (dim p 1) dy (coord (fwd p idx) 1).
  Definition okf idx := negb (invalid kxf kyf idx).
  Definition Cf idx := cph kxf kyf idx.
  Definition Tf idx := match cos_th kxf kyf idx with Some z => cre z | None => 0 end.
  Definition Sf idx := match sin_th kxf kyf idx with Some z => cre z | None => 0 end.
  Lemma angf idx : Tf idx * Tf idx + Sf idx * Sf idx = 1 /\ kxf idx = sqrt (kxy2 kxf kyf idx) * Tf idx /\ kyf idx = sqrt (kxy2 kxf kyf idx) * Sf idx.
  Proof. unfold Tf, Sf. destruct (ang_val kxf kyf idx) as (c & s & -> & -> & U & A & B). cbn [cre]. auto. Qed.
  Definition spec sh (f : list nat -> cpx) idx := fftn p (pad_field sh (fftshift sh f)) (fwd p idx).
  Lemma far_form sh E H ps : padded sh ps = p -> exists F, near_to_farfield sh E H dx dy ps = Some F /\
    forall idx, inb p idx -> fkx F idx = kxf idx /\ fky F idx = kyf idx /\
      let e0 := if okf idx then ce0 (Cf idx) (Tf idx) (Sf idx) (fun a => spec sh (E a) idx) (fun a => spec sh (H a) idx) else c0 in
      let e1 := if okf idx then ce1 (Cf idx) (Tf idx) (Sf idx) (fun a => spec sh (E a) idx) (fun a => spec sh (H a) idx) else c0 in
      fE F 0%nat idx = Some e0 /\ fE F 1%nat idx = Some e1 /\ fH F 0%nat idx = Some (copp e1) /\ fH F 1%nat idx = Some e0.
  Proof.
    intro Hps. destruct (near_eval_pad sh p E H dx dy ps Hp H2 Hps Pdx Pdy) as (F & EF & HK & HI & HV). exists F. split; [exact EF|].
    intros idx Hi. destruct (HK idx Hi) as [Kx Ky]. split; [exact Kx|]. split; [exact Ky|].
    assert (Kx' : fkx F idx = kxf idx) by exact Kx. assert (Ky' : fky F idx = kyf idx) by exact Ky.
    destruct (dir_ext (fkx F) (fky F) kxf kyf idx Kx' Ky') as (DC & DT & DS & DI).
    unfold okf. rewrite <- DI. destruct (invalid (fkx F) (fky F) idx) eqn:IV; cbn [negb].
    - cbv zeta. pose proof (HI idx Hi IV) as Z. destruct (Z 0%nat) as [A B]. destruct (Z 1%nat) as [A' B']. rewrite A, B, A', B'. unfold rnum.
      split; [reflexivity|]. split; [reflexivity|]. split; [|reflexivity]. apply (f_equal Some). apply cpx_ext; cbn; ring.
    - assert (LE : kxy2 kxf kyf idx <= k_2pi * k_2pi) by (left; apply invalid_false; congruence).
      assert (HC : cos_phi (fkx F) (fky F) idx = Some (mkC (Cf idx) 0)) by (rewrite DC; now apply cos_phi_val).
      assert (HT : cos_th (fkx F) (fky F) idx = Some (mkC (Tf idx) 0)) by (rewrite DT; unfold Tf; destruct (ang_val kxf kyf idx) as (c & s & -> & _); reflexivity).
      assert (HS : sin_th (fkx F) (fky F) idx = Some (mkC (Sf idx) 0)) by (rewrite DS; unfold Sf; destruct (ang_val kxf kyf idx) as (c & s & _ & -> & _); reflexivity).
      destruct (HV idx _ _ _ Hi IV HC HT HS) as (A & B & A' & B'). cbv zeta. rewrite A, B, A', B'. unfold ce0, ce1, spec.
      set (x0 := fftn p _ _). set (x1 := fftn p _ _). set (y0 := fftn p _ _). set (y1 := fftn p _ _). clearbody x0 x1 y0 y1.
      split; [|split; [|split]]; apply (f_equal Some); unfold rmul; apply cpx_ext; cbn; ring.
  Qed.
End Form.
