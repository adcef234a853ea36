(** Properties of functions that write into their arguments. *)
From Coq Require Import List Arith ZArith Lia Bool Field QArith Qcanon.
From Verif.Lib Require Import Num Sums Idx.
From Verif.Model Require Import Fdmath Fdtd Fdfd Scpml Alias.
From Verif.Spec Require Import Grid FdtdRun ScpmlSpec AliasSpec.
From Verif.Proofs Require Import AliasP.
From Verif.Props Require Import FdtdProps ScpmlProps.
Import ListNotations.
Local Close Scope Q_scope. Local Close Scope Qc_scope.
Local Open Scope fld_scope.

(** ** C138: the FDTD updaters work in place *)

(** The updater returns the array it was given, now holding the new field, and
    leaves every other object alone. *)
Theorem C138_in_place :
  forall (K : Fld) (sh : list nat) (dt : K) (d : dxes_t K) (hp : heap K) (e h : nat) (E H eps : field K) (mu : option (field K)),
    reads hp e E -> reads hp h H ->
    (exists hp' E', me_fun sh dt d e h eps hp = Ok (e, hp') /\ reads hp' e E' /\
       (forall a, a <> e -> objs hp' a = objs hp a) /\
       forall c idx, E' c idx = E c idx + dt * curl_prev sh (option_map snd d) H c idx / eps c idx) /\
    (exists hp' H', mh_fun sh dt d e h mu hp = Ok (h, hp') /\ reads hp' h H' /\
       (forall a, a <> h -> objs hp' a = objs hp a) /\
       forall c idx, H' c idx = H c idx - match mu with
                                          | Some m => dt * curl_next sh (option_map fst d) E c idx / m c idx
                                          | None => dt * curl_next sh (option_map fst d) E c idx end).
Proof.
  intros K sh dt d hp e h E H eps mu RE RH. unfold reads in *. split.
  - unfold me_fun. rewrite RH. cbn [ncomp Nat.eqb]. unfold iadd, store. rewrite RE.
    eexists _, _. split; [reflexivity|]. cbn [objs]. rewrite upd_same. split; [reflexivity|].
    split; [intros a N; apply upd_other; exact N|]. intros c idx. reflexivity.
  - unfold mh_fun. rewrite RE, RH. cbn [ncomp Nat.eqb andb]. unfold isub, store. rewrite RH.
    eexists _, _. split; [reflexivity|]. cbn [objs]. rewrite upd_same. split; [reflexivity|].
    split; [intros a N; apply upd_other; exact N|]. intros c idx. reflexivity.
Qed.
Print Assumptions C138_in_place.

(** A loop that copies e and h first, as the library's tests do, keeps the
    history: the k-th saved fields are those after k + 1 steps, and the fields
    it started from are intact. *)
Theorem C138_copies_keep_history :
  forall (K : Fld) (sh : list nat) (dt : K) (d : dxes_t K) (eps : field K) (mu : option (field K))
         (js : list (field K)) (m : heap K) (e h : nat) (E H : field K),
    reads m e E -> reads m h H -> e <> h -> (e < top m)%nat -> (h < top m)%nat ->
    exists s, passes sh dt d eps mu true js (mkSim e h [] [] m) = Ok s /\
      length (es s) = length js /\ length (hs s) = length js /\
      (forall k a, nth_error (es s) k = Some a -> reads (mem s) a (sE (run sh dt d eps mu (firstn (S k) js) (mkst E H)))) /\
      (forall k a, nth_error (hs s) k = Some a -> reads (mem s) a (sH (run sh dt d eps mu (firstn (S k) js) (mkst E H)))) /\
      reads (mem s) e E /\ reads (mem s) h H.
Proof.
  intros K sh dt d eps mu js m e h E H RE RH N LE LH.
  destruct (passes_copies sh dt d eps mu js (mkSim e h [] [] m) E H RE RH N LE LH eq_refl eq_refl)
    as (s & P & L1 & L2 & S1 & S2 & F & _).
  exists s. split; [exact P|]. split; [exact L1|]. split; [exact L2|].
  split; [intros k a X; apply (S1 k a X)|]. split; [intros k a X; apply (S2 k a X)|].
  cbn [mem] in F. unfold reads. rewrite !F by assumption. split; assumption.
Qed.
Print Assumptions C138_copies_keep_history.

(** Without the copies the steps are computed just as well, but every saved
    reference is the same array and reads the last field. *)
Theorem C138_references_read_last :
  forall (K : Fld) (sh : list nat) (dt : K) (d : dxes_t K) (eps : field K) (mu : option (field K))
         (js : list (field K)) (m : heap K) (e h : nat) (E H : field K),
    reads m e E -> reads m h H -> e <> h -> (e < top m)%nat -> (h < top m)%nat ->
    exists s, passes sh dt d eps mu false js (mkSim e h [] [] m) = Ok s /\
      length (es s) = length js /\ length (hs s) = length js /\
      (forall a, a = e \/ In a (es s) -> a = e /\ reads (mem s) a (sE (run sh dt d eps mu js (mkst E H)))) /\
      (forall a, a = h \/ In a (hs s) -> a = h /\ reads (mem s) a (sH (run sh dt d eps mu js (mkst E H)))).
Proof.
  intros K sh dt d eps mu js m e h E H RE RH N LE LH.
  destruct (passes_in_place sh dt d eps mu js (mkSim e h [] [] m) E H RE RH N LE LH eq_refl eq_refl)
    as (s & P & L1 & L2 & S1 & S2 & _ & _ & R1 & R2 & _).
  exists s. split; [exact P|]. split; [exact L1|]. split; [exact L2|]. cbn [var_e var_h] in *.
  split; intros a [-> | X]; try (split; [reflexivity|assumption]).
  - rewrite (S1 a X). split; [reflexivity|exact R1].
  - rewrite (S2 a X). split; [reflexivity|exact R2].
Qed.
Print Assumptions C138_references_read_last.

(** So the energy changes worked out from saved references are all zero, with
    whatever sources the run was driven. *)
Theorem C138_deltas_vanish :
  forall (K : Fld) (sh : list nat) (dt : K) (d : dxes_t K) (eps : field K) (mu : option (field K))
         (js : list (field K)) (m : heap K) (e h : nat) (E H : field K),
    reads m e E -> reads m h H -> e <> h -> (e < top m)%nat -> (h < top m)%nat ->
    exists s, passes sh dt d eps mu false js (mkSim e h [] [] m) = Ok s /\
      forall a0 a2 b1 b3 F0 F2 G1 G3 idx, In a0 (es s) -> In a2 (es s) -> In b1 (hs s) -> In b3 (hs s) ->
        reads (mem s) a0 F0 -> reads (mem s) a2 F2 -> reads (mem s) b1 G1 -> reads (mem s) b3 G3 ->
        dt <> 0 -> delta_energy_h2e dt F0 G1 F2 G3 (Some eps) mu d idx = 0 /\ delta_energy_e2h dt G1 F0 G3 F2 (Some eps) mu d idx = 0.
Proof.
  intros K sh dt d eps mu js m e h E H RE RH N LE LH.
  destruct (C138_references_read_last K sh dt d eps mu js m e h E H RE RH N LE LH) as (s & P & _ & _ & A & B).
  exists s. split; [exact P|]. intros a0 a2 b1 b3 F0 F2 G1 G3 idx I0 I2 J1 J3 R0 R2 Q1 Q3 Hdt.
  destruct (A a0 (or_intror I0)) as [-> X0]. destruct (A a2 (or_intror I2)) as [-> _].
  destruct (B b1 (or_intror J1)) as [-> Y1]. destruct (B b3 (or_intror J3)) as [-> _].
  assert (F0 = F2) by (unfold reads in *; congruence). assert (G1 = G3) by (unfold reads in *; congruence). subst F2 G3.
  now apply delta_same.
Qed.
Print Assumptions C138_deltas_vanish.

Theorem C138_saved_references_refuted :
  exists (sh : list nat) (dt : QcF) (d : dxes_t QcF) (eps : field QcF) (js : list (field QcF)) (m : heap QcF) (e h a : nat) (E H F : field QcF) (s : sim QcF) (idx : list nat),
    reads m e E /\ reads m h H /\ e <> h /\ (e < top m)%nat /\ (h < top m)%nat /\
    passes sh dt d eps None false js (mkSim e h [] [] m) = Ok s /\
    nth_error (es s) 0 = Some a /\ reads (mem s) a F /\
    F 0%nat idx <> sE (run sh dt d eps None (firstn 1 js) (mkst E H)) 0%nat idx.
Proof.
  set (m := mkHeap (fun a => if Nat.eqb a 0 then Arr fx_F else Arr fx_G) 2).
  destruct (C138_references_read_last QcF fx_sh (qq 1 2) fx_d fx_eps None [noj; noj] m 0 1 fx_F fx_G eq_refl eq_refl
              ltac:(discriminate) ltac:(cbn; lia) ltac:(cbn; lia)) as (s & P & L & _ & A & _).
  destruct (es s) as [|a l] eqn:Es; [discriminate|]. destruct (A a) as [-> R]; [right; now left|].
  exists fx_sh, (qq 1 2), fx_d, fx_eps, [noj; noj], m, 0%nat, 1%nat, 0%nat, fx_F, fx_G.
  eexists _, s, [0; 2; 1]%nat. split; [reflexivity|]. split; [reflexivity|]. split; [discriminate|]. split; [cbn; lia|]. split; [cbn; lia|].
  split; [exact P|]. split; [rewrite Es; reflexivity|]. split; [exact R|]. vm_compute. discriminate.
Qed.
Print Assumptions C138_saved_references_refuted.

(** ** C139: fields given as lists of arrays *)

(** [maxwell_h] on a list returns a new array with the right field and leaves
    the list as it was; [maxwell_e] on a list returns the list with the three
    increments appended and the field itself unchanged; the next [maxwell_h]
    with it raises. *)
Theorem C139_lists :
  forall (K : Fld) (sh : list nat) (dt : K) (d : dxes_t K) (hp : heap K) (e h : nat) (le lh : list (arr K)) (eps : field K) (mu : option (field K)),
    objs hp e = Lst le -> objs hp h = Lst lh -> length le = 3%nat -> length lh = 3%nat -> (e < top hp)%nat -> (h < top hp)%nat ->
    let z : arr K := fun _ => 0 in
    let E : field K := fun c => nth c le z in let H : field K := fun c => nth c lh z in
    (exists new hp' H', mh_fun sh dt d e h mu hp = Ok (new, hp') /\ (forall a, (a < top hp)%nat -> objs hp' a = objs hp a /\ a <> new) /\
       reads hp' new H' /\
       forall c idx, H' c idx = H c idx - match mu with
                                          | Some m => dt * curl_next sh (option_map fst d) E c idx / m c idx
                                          | None => dt * curl_next sh (option_map fst d) E c idx end) /\
    (exists hp' x y z', me_fun sh dt d e h eps hp = Ok (e, hp') /\ objs hp' e = Lst (le ++ [x; y; z']) /\
       (forall c idx, (c < 3)%nat -> nth c [x; y; z'] z idx = dt * curl_prev sh (option_map snd d) H c idx / eps c idx) /\
       forall h' mu', mh_fun sh dt d e h' mu' hp' = Raise).
Proof.
  intros K sh dt d hp e h le lh eps mu OE OH L1 L2 Be Bh z E H. split.
  - unfold mh_fun. rewrite OE, OH. cbn [ncomp]. rewrite L1, L2. cbn [Nat.eqb andb]. unfold isub. rewrite OH. unfold alloc.
    eexists _, _, _. split; [reflexivity|]. cbn [objs]. split; [intros a La; split; [apply upd_other; lia|lia]|].
    unfold reads. cbn [objs]. rewrite upd_same. split; [reflexivity|]. intros c idx. reflexivity.
  - unfold me_fun. rewrite OH. cbn [ncomp]. rewrite L2. cbn [Nat.eqb]. unfold iadd, store. rewrite OE.
    eexists _, _, _, _. split; [reflexivity|]. cbn [objs]. rewrite upd_same. split; [reflexivity|].
    split.
    + intros c idx Hc. destruct c as [|[|[|c]]]; [reflexivity|reflexivity|reflexivity|lia].
    + intros h' mu'. unfold mh_fun. cbn [objs]. rewrite upd_same. cbn [ncomp]. rewrite app_length, L1. reflexivity.
Qed.
Print Assumptions C139_lists.

(** A time step on lists does not advance E, and a second one raises. *)
Theorem C139_second_step_raises :
  forall (K : Fld) (sh : list nat) (dt : K) (d : dxes_t K) (hp : heap K) (e h : nat) (le lh : list (arr K)) (eps j1 j2 : field K) (mu : option (field K)),
    objs hp e = Lst le -> objs hp h = Lst lh -> length le = 3%nat -> length lh = 3%nat -> e <> h -> (e < top hp)%nat -> (h < top hp)%nat ->
    (exists s xs, passes sh dt d eps mu false [j1] (mkSim e h [] [] hp) = Ok s /\ var_e s = e /\ objs (mem s) e = Lst (le ++ xs) /\ length xs = 6%nat) /\
    passes sh dt d eps mu false [j1; j2] (mkSim e h [] [] hp) = Raise.
Proof.
  intros K sh dt d hp e h le lh eps j1 j2 mu OE OH L1 L2 N Be Bh.
  assert (X : exists s xs, pass sh dt d eps mu false (mkSim e h [] [] hp) j1 = Ok s /\ var_e s = e /\ objs (mem s) e = Lst (le ++ xs) /\ length xs = 6%nat).
  { unfold pass. cbn [mem var_e var_h]. unfold mh_fun. rewrite OE, OH. cbn [ncomp]. rewrite L1, L2. cbn [Nat.eqb andb].
    unfold isub. rewrite OH. unfold alloc. unfold me_fun. cbn [objs]. rewrite upd_same. cbn [ncomp Nat.eqb].
    unfold iadd, store. cbn [objs top]. rewrite upd_same. rewrite upd_other by lia. rewrite OE.
    eexists _, _. split; [reflexivity|]. cbn [var_e mem objs]. rewrite upd_same. split; [reflexivity|].
    rewrite <- app_assoc. split; [reflexivity|]. reflexivity. }
  destruct X as (s & xs & P & V & O & L). split.
  - exists s, xs. cbn [passes]. rewrite P. repeat split; assumption.
  - cbn [passes]. rewrite P. unfold pass at 1. rewrite V. unfold mh_fun. rewrite O. cbn [ncomp]. rewrite app_length, L1, L. reflexivity.
Qed.
Print Assumptions C139_second_step_raises.

Theorem C139_list_fields_refuted :
  exists (sh : list nat) (dt : QcF) (hp : heap QcF) (e h : nat) (eps : field QcF) (hp' : heap QcF) (idx : list nat),
    ncomp (objs hp e) = 3%nat /\ ncomp (objs hp h) = 3%nat /\ e <> h /\
    me_fun sh dt None e h eps hp = Ok (e, hp') /\
    comps (objs hp' e) 0%nat idx <> comps (objs hp e) 0%nat idx + dt * curl_prev sh None (comps (objs hp h)) 0%nat idx / eps 0%nat idx.
Proof.
  exists fx_sh, (qq 1 2), (mkHeap (fun a => if Nat.eqb a 0 then Lst [fx_F 0%nat; fx_F 1%nat; fx_F 2%nat] else Lst [fx_G 0%nat; fx_G 1%nat; fx_G 2%nat]) 2), 0%nat, 1%nat, fx_eps.
  eexists _, [0; 2; 1]%nat. split; [reflexivity|]. split; [reflexivity|]. split; [discriminate|]. split; [reflexivity|].
  vm_compute. discriminate.
Qed.
Print Assumptions C139_list_fields_refuted.

(** ** C140: stretch_with_scpml stores into the caller's lists *)

(** Two different lists: each gets its own stretched array; no other list entry
    and no existing array changes (even if several entries are one array). *)
Theorem C140_separate_lists :
  forall (K : CFld) (sqrt : K -> K) (n : nat) (g : grids K) (l0 l1 axis : nat) (pol : Z) (om eps : K) (th : nat) (s : K -> K),
    (axis < 3)%nat -> (0 < th <= n)%nat -> l0 <> l1 -> (forall l a, (lists g l a < free g)%nat) ->
    let front := Z.ltb 0 pol in
    let w := held g l0 axis in
    let len := layer_len front n th w in
    let corr := sqrt eps * om in
    len <> 0 -> corr <> 0 ->
    exists g', stretch_lists sqrt n l0 l1 axis pol om eps th s g = Fine g' /\
      (forall i, (i < n)%nat -> in_layer front n th i ->
         held g' l0 axis i = w i * stretch_factor s len corr (dist_mid front n th w i) /\
         held g' l1 axis i = held g l1 axis i * stretch_factor s len corr (dist_edge front n th w i)) /\
      (forall i, (i < n)%nat -> ~ in_layer front n th i -> held g' l0 axis i = w i /\ held g' l1 axis i = held g l1 axis i) /\
      (forall l a, ~ (a = axis /\ (l = l0 \/ l = l1)) -> lists g' l a = lists g l a) /\
      (forall x, (x < free g)%nat -> arrs g' x = arrs g x).
Proof.
  intros K sqrt n g l0 l1 axis pol om eps th s Ha Ht N Fr front w len corr Hl Hc.
  destruct (C33_stretch K sqrt n (held g l0, held g l1) axis pol om eps th s Ha Ht Hl Hc) as (out & E & _ & A & B).
  unfold stretch_lists. rewrite E. eexists. split; [reflexivity|].
  set (g' := set_item _ _ _ _).
  assert (H0 : held g' l0 axis = fst out axis).
  { unfold held, g', set_item; cbn [arrs lists free]. rewrite (upd_other _ l1 l0) by exact N. rewrite (upd_same _ l0).
    rewrite (upd_same _ axis). rewrite upd_other by lia. apply upd_same. }
  assert (H1 : held g' l1 axis = snd out axis).
  { unfold held, g', set_item; cbn [arrs lists free]. rewrite (upd_same _ l1), (upd_same _ axis). apply upd_same. }
  rewrite H0, H1. split; [exact A|]. split; [exact B|]. split.
  - intros l a NE. unfold g', set_item; cbn [lists free].
    destruct (Nat.eq_dec l l1) as [-> | D1].
    + rewrite upd_same. rewrite upd_other by (intro; apply NE; split; [assumption|now right]). rewrite upd_other by congruence. reflexivity.
    + rewrite upd_other by exact D1. destruct (Nat.eq_dec l l0) as [-> | D0]; [|rewrite upd_other by exact D0; reflexivity].
      rewrite upd_same. rewrite upd_other by (intro; apply NE; split; [assumption|now left]). reflexivity.
  - intros x Lx. unfold g', set_item; cbn [arrs free]. rewrite !upd_other by lia. reflexivity.
Qed.
Print Assumptions C140_separate_lists.

(** One list for both grids ([dxes = [dx, dx]]): the E widths of the layer come
    out stretched as if their centres were at the lower edges of the cells. *)
Theorem C140_shared_list :
  forall (K : CFld) (sqrt : K -> K) (n : nat) (g : grids K) (l axis : nat) (pol : Z) (om eps : K) (th : nat) (s : K -> K),
    (axis < 3)%nat -> (0 < th <= n)%nat -> (forall l' a, (lists g l' a < free g)%nat) ->
    let front := Z.ltb 0 pol in
    let w := held g l axis in
    let len := layer_len front n th w in
    let corr := sqrt eps * om in
    len <> 0 -> corr <> 0 ->
    exists g', stretch_lists sqrt n l l axis pol om eps th s g = Fine g' /\
      (forall i, (i < n)%nat -> in_layer front n th i -> held g' l axis i = w i * stretch_factor s len corr (dist_edge front n th w i)) /\
      (forall i, (i < n)%nat -> ~ in_layer front n th i -> held g' l axis i = w i).
Proof.
  intros K sqrt n g l axis pol om eps th s Ha Ht Fr front w len corr Hl Hc.
  destruct (C33_stretch K sqrt n (held g l, held g l) axis pol om eps th s Ha Ht Hl Hc) as (out & E & _ & A & B).
  unfold stretch_lists. rewrite E. eexists. split; [reflexivity|].
  set (g' := set_item _ _ _ _).
  assert (H1 : held g' l axis = snd out axis).
  { unfold held, g', set_item; cbn [arrs lists free]. rewrite (upd_same _ l), (upd_same _ axis). apply upd_same. }
  rewrite H1. split; intros i Hi Hn; [apply (A i Hi Hn)|apply (B i Hi Hn)].
Qed.
Print Assumptions C140_shared_list.

Definition ux_g : grids GQC := mkGrids (fun _ _ => gz 1 0) (fun _ _ => 0%nat) 1.

Theorem C140_shared_list_refuted :
  exists (n : nat) (g : grids GQC) (l axis th : nat) (g' : grids GQC),
    (forall l' a, (lists g l' a < free g)%nat) /\ (axis < 3)%nat /\ (0 < th <= n)%nat /\
    stretch_lists (fun x => x) n l l axis 1 (gz 1 0) (gz 1 0) th (fun x => x) g = Fine g' /\
    let w := held g l axis in
    held g' l axis 0%nat <> w 0%nat * stretch_factor (fun x => x) (layer_len true n th w) (gz 1 0 * gz 1 0) (dist_mid true n th w 0%nat).
Proof.
  destruct (C140_shared_list GQC (fun x => x) 4 ux_g 0 0 1 (gz 1 0) (gz 1 0) 2 (fun x => x) ltac:(lia) ltac:(lia) ltac:(intros; cbn; lia)
              ltac:(vm_compute; discriminate) ltac:(vm_compute; discriminate)) as (g' & E & A & _).
  exists 4%nat, ux_g, 0%nat, 0%nat, 2%nat, g'. split; [intros; cbn; lia|]. split; [lia|]. split; [lia|].
  split; [exact E|]. cbv zeta. rewrite (A 0%nat ltac:(lia) ltac:(cbn; lia)). vm_compute. discriminate.
Qed.
Print Assumptions C140_shared_list_refuted.

Definition ux_out (g : grids GQC) : grids GQC :=
  match stretch_lists (fun x => x) 4 0 1 0 1 (gz 1 0) (gz 1 0) 2 (fun x => x) g with Fine g' => g' | _ => g end.
Definition ux_g1 := ux_out ux_g.
Definition ux_g2 := ux_out ux_g1.
Lemma ux_fine g :
  match stretch_lists (fun x => x) 4 0 1 0 1 (gz 1 0) (gz 1 0) 2 (fun x => x) g with Fine _ => true | _ => false end = true ->
  stretch_lists (fun x => x) 4 0 1 0 1 (gz 1 0) (gz 1 0) 2 (fun x => x) g = Fine (ux_out g).
Proof. unfold ux_out. destruct (stretch_lists _ _ _ _ _ _ _ _ _ _ g); [reflexivity|discriminate|discriminate]. Qed.

(** The call changes the grid it was given: making a second grid from the same
    [dxes] stretches the layer twice. *)
Theorem C140_grid_reused_refuted :
  exists (n : nat) (g g1 g2 : grids GQC) (l0 l1 axis th : nat),
    l0 <> l1 /\ (forall l a, (lists g l a < free g)%nat) /\
    stretch_lists (fun x => x) n l0 l1 axis 1 (gz 1 0) (gz 1 0) th (fun x => x) g = Fine g1 /\
    stretch_lists (fun x => x) n l0 l1 axis 1 (gz 1 0) (gz 1 0) th (fun x => x) g1 = Fine g2 /\
    held g1 l0 axis 0%nat <> held g l0 axis 0%nat /\ held g2 l0 axis 0%nat <> held g1 l0 axis 0%nat.
Proof.
  assert (X1 : stretch_lists (fun x => x) 4 0 1 0 1 (gz 1 0) (gz 1 0) 2 (fun x => x) ux_g = Fine ux_g1) by (apply ux_fine; vm_compute; reflexivity).
  assert (X2 : stretch_lists (fun x => x) 4 0 1 0 1 (gz 1 0) (gz 1 0) 2 (fun x => x) ux_g1 = Fine ux_g2) by (apply ux_fine; vm_compute; reflexivity).
  exists 4%nat, ux_g, ux_g1, ux_g2, 0%nat, 1%nat, 0%nat, 2%nat. split; [discriminate|]. split; [intros; cbn; lia|].
  split; [exact X1|]. split; [exact X2|]. split; vm_compute; discriminate.
Qed.
Print Assumptions C140_grid_reused_refuted.
