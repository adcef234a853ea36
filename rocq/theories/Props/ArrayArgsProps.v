(** Properties of functions that take arrays where the rest of the model takes
    single values, or arrays of any kind (C149, C150); standard-library axioms of the reals. *)
From Coq Require Import Reals List Arith ZArith Lia Lra Bool.
From Verif.Lib Require Import Num Sums Idx Mat RealF.
From Verif.Model Require Import FdtdReal Ndarray Beam Eigensolvers Dtype DtypeArgs.
Import ListNotations.
Local Open Scope R_scope.

(** ** C149: the source function of gaussian_packet on arrays of timesteps *)

(** The source of a pulse works on each timestep of an array. *)
Theorem C149_two_sided :
  forall wl dwl dt turn_on ii,
    gp_source_array wl dwl dt turn_on false ii =
      Some (map (gp_envelope wl dwl dt turn_on false) ii, map (gp_cos wl dwl dt turn_on) ii, map (gp_sin wl dwl dt turn_on) ii).
Proof. intros. unfold gp_source_array. rewrite !map_map. reflexivity. Qed.
Print Assumptions C149_two_sided.
(** The source of a ramp raises on every array of more than one timestep. *)
Theorem C149_one_sided_raises :
  forall wl dwl dt turn_on ii, (2 <= length ii)%nat -> gp_source_array wl dwl dt turn_on true ii = None.
Proof. intros wl dwl dt turn_on ii L. destruct ii as [|a [|b ii]]; cbn in L; try lia. reflexivity. Qed.
Print Assumptions C149_one_sided_raises.
(** ... although it is defined on each of them. *)
Theorem C149_arrays_refuted :
  exists wl dwl dt turn_on ii, 0 < wl /\ 0 < dwl /\ 0 < dt /\ 0 < turn_on < 1 /\
    (forall i, In i ii -> gp_source_array wl dwl dt turn_on true [i] = Some ([gp_envelope wl dwl dt turn_on true i], [gp_cos wl dwl dt turn_on i], [gp_sin wl dwl dt turn_on i])) /\
    gp_source_array wl dwl dt turn_on true ii = None.
Proof.
  exists 1, 1, 1, (/ 2), [0; 1]. repeat split; try lra. intros i _. unfold gp_source_array, gp_envelope. cbn [map truth]. cbv zeta.
  destruct (Rlt_dec 0 _); reflexivity.
Qed.
Print Assumptions C149_arrays_refuted.
(** On single timesteps, pulses and ramps give the three values. *)
Theorem C149_one_timestep :
  forall wl dwl dt turn_on one_sided i,
    gp_source_array wl dwl dt turn_on one_sided [i] =
      Some ([gp_envelope wl dwl dt turn_on one_sided i], [gp_cos wl dwl dt turn_on i], [gp_sin wl dwl dt turn_on i]).
Proof. intros. unfold gp_source_array, gp_envelope. cbn [map truth]. cbv zeta. destruct one_sided; [|reflexivity]. destruct (Rlt_dec 0 _); reflexivity. Qed.
Print Assumptions C149_one_timestep.

(** ** C150: integer arrays *)

(** gaussian_beam raises if the positions are all integers and the center is not. *)
Theorem C150_beam_raises :
  forall kx kc sh xyz center w0 wl tilt, (forall j, (j < 3)%nat -> kx j = KInt) -> kc <> KInt ->
    beam_of_kinds kx kc sh xyz center w0 wl tilt = None.
Proof. intros kx kc sh xyz center w0 wl tilt H N. unfold beam_of_kinds. rewrite !H by lia. destruct kc; [congruence|reflexivity|reflexivity]. Qed.
Print Assumptions C150_beam_raises.
Theorem C150_beam_works :
  forall kx kc sh xyz center w0 wl tilt, (forall j, (j < 3)%nat -> kx j <> KComplex) -> kc <> KComplex ->
    (kc = KInt \/ exists j, (j < 3)%nat /\ kx j = KReal) ->
    beam_of_kinds kx kc sh xyz center w0 wl tilt = gaussian_beam sh xyz center w0 wl tilt.
Proof.
  intros kx kc sh xyz center w0 wl tilt Hx Hc H. unfold beam_of_kinds.
  pose proof (Hx 0%nat ltac:(lia)). pose proof (Hx 1%nat ltac:(lia)). pose proof (Hx 2%nat ltac:(lia)).
  assert (E : kle kc (kmax (kx 0%nat) (kmax (kx 1%nat) (kx 2%nat))) = true); [|now rewrite E].
  destruct H as [-> | (j & Hj & Ej)]; [reflexivity|]. destruct j as [|[|[|]]]; [| | |lia]; rewrite Ej;
    destruct kc; try congruence; destruct (kx 0%nat), (kx 1%nat), (kx 2%nat); try congruence; reflexivity.
Qed.
Print Assumptions C150_beam_works.
(** Rayleigh quotient iteration raises for every integer guess, and only for these. *)
Theorem C150_rqi :
  forall kg n A tolerance solver guess iterations,
    (kg = KInt -> rqi_of_kind kg n A tolerance solver guess iterations = None) /\
    (kg <> KInt -> rqi_of_kind kg n A tolerance solver guess iterations = Some (rayleigh_quotient_iteration n A tolerance solver guess iterations)).
Proof. intros. split; intro H; destruct kg; try congruence; reflexivity. Qed.
Print Assumptions C150_rqi.
(** Power iteration raises if the guess and the operator are integers, or if
    the guess is and there is no iteration; otherwise not. *)
Lemma power_kind_real ko iterations : forall k, kle KReal k = true -> exists k', power_kind ko iterations k = Some k' /\ kle KReal k' = true.
Proof.
  induction iterations as [|it IH]; intros k Hk; cbn [power_kind]; [now exists k|].
  assert (E : kle KReal (kmax ko k) = true) by (destruct ko, k; try discriminate; reflexivity). rewrite E. exact (IH _ E).
Qed.
Theorem C150_power :
  forall ko kg n A guess iterations,
    ((kg = KInt /\ (ko = KInt \/ iterations = 0%nat)) -> power_of_kinds ko kg n A guess iterations = None) /\
    (~ (kg = KInt /\ (ko = KInt \/ iterations = 0%nat)) -> power_of_kinds ko kg n A guess iterations = Some (power_iteration n A guess iterations)).
Proof.
  intros ko kg n A guess iterations. unfold power_of_kinds. split.
  - intros (-> & [-> | ->]); [|reflexivity]. destruct iterations; reflexivity.
  - intro H. destruct (kle KReal kg) eqn:E.
    + destruct (power_kind_real ko iterations kg E) as (k' & -> & ->). reflexivity.
    + destruct kg; try discriminate. destruct iterations as [|it]; [exfalso; auto|]. cbn [power_kind].
      assert (E' : kle KReal (kmax ko KInt) = true) by (destruct ko; [exfalso; auto|reflexivity|reflexivity]). rewrite E'.
      destruct (power_kind_real ko it _ E') as (k' & -> & ->). reflexivity.
Qed.
Print Assumptions C150_power.
(** The expected claim, that a vector of integers is a guess like any other, is false: [1, 0] for the
    identity is an eigenvector.  Nor can the samples of a beam be numbered around a half-integer center. *)
Theorem C150_integers_refuted :
  (exists n (A : mat CC) tolerance solver (guess : vect CC) iterations l v,
     (forall i, guess i = c0 \/ guess i = c1) /\ (forall i, (i < n)%nat -> mv n A guess i = guess i) /\
     rqi_of_kind KReal n A tolerance solver guess iterations = Some (rayleigh_quotient_iteration n A tolerance solver guess iterations) /\
     result (rayleigh_quotient_iteration n A tolerance solver guess iterations) = Some (l, v) /\
     rqi_of_kind KInt n A tolerance solver guess iterations = None) /\
  (exists sh xyz center w0 wl tilt, (forall j i, exists z, xyz j i = IZR z) /\
     beam_of_kinds (fun _ => KReal) KReal sh xyz center w0 wl tilt <> None /\
     beam_of_kinds (fun _ => KInt) KReal sh xyz center w0 wl tilt = None).
Proof.
  split.
  - assert (E : exists l v, result (rayleigh_quotient_iteration 1 (mid (K := CC)) 1 (fun _ v => v) (fun _ => c1) 1) = Some (l, v)).
    { unfold rayleigh_quotient_iteration, rqi_loop. cbv zeta. destruct (Rlt_dec _ _); do 2 eexists; reflexivity. }
    destruct E as (l & v & E). exists 1%nat, (mid (K := CC)), 1, (fun _ v => v), (fun _ => c1), 1%nat, l, v. split; [now right|].
    split; [intros i Hi; destruct i; [|lia]; unfold mv, mid; cbn; apply cpx_ext; cbn; ring|]. split; [reflexivity|]. split; [exact E|reflexivity].
  - exists [1; 1; 1]%nat, (fun _ i => IZR (Z.of_nat i)), (fun _ => / 2), 1, 1, 0. split; [intros j i; now eexists|]. split; [discriminate|reflexivity].
Qed.
Print Assumptions C150_integers_refuted.
Example C150_case : (forall j : nat, (j < 3)%nat -> KInt = KInt) /\ KReal <> KInt /\
  (exists j, (j < 3)%nat /\ (fun j => if (j =? 2)%nat then KReal else KInt) j = KReal) /\ ~ (KInt = KInt /\ (KReal = KInt \/ 1%nat = 0%nat)).
Proof. split; [reflexivity|]. split; [discriminate|]. split; [exists 2%nat; split; [lia|reflexivity]|]. intros (_ & [E | E]); discriminate. Qed.
