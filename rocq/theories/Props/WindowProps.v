(** What lies outside a window does not matter until its influence arrives (C175). *)
From Coq Require Import List Arith ZArith Lia Field QArith Qcanon.
From Verif.Lib Require Import Num Sums Idx Mat.
From Verif.Model Require Import Fdmath Fdtd Pml.
From Verif.Spec Require Import Grid Yee FdtdRun CpmlSpec WindowSpec.
From Verif.Proofs Require Import FdmathP GridP WindowP.
From Verif.Props Require Import CpmlProps CpmlLinProps.
Import ListNotations.

Lemma firstn_next {A : Type} (d : A) l n : (n < length l)%nat -> firstn (S n) l = firstn n l ++ [nth n l d].
Proof.
  revert n. induction l as [|x l IH]; intros n H; cbn in H; [lia|]. destruct n as [|n]; [reflexivity|].
  change (firstn (S (S n)) (x :: l)) with (x :: firstn (S n) l). rewrite IH by lia. reflexivity.
Qed.
Lemma Forall2_pairs {A : Type} (P : A -> A -> Prop) (f : A * A -> A) js : (forall j, In j js -> P j (f (j, j))) -> Forall2 P js (map f (combine js js)).
Proof. induction js as [|j js IH]; intro H; cbn; constructor; [apply H; now left|apply IH; intros; apply H; now right]. Qed.
Lemma Forall2_len {A : Type} (P : A -> A -> Prop) l l' : Forall2 P l l' -> length l = length l'.
Proof. induction 1; cbn; congruence. Qed.
Lemma Forall2_at {A : Type} (P : A -> A -> Prop) d l l' : Forall2 P l l' -> forall n, (n < length l)%nat -> P (nth n l d) (nth n l' d).
Proof. induction 1 as [|x y l l' Hx H IH]; intros n Hn; cbn in Hn; [lia|]. destruct n as [|n]; [exact Hx|]. apply IH. lia. Qed.

(** A cell outside the window is far from the inner part of the window. *)
Lemma outside_far sh W o full d n idx i x : fits sh W o full -> inb sh idx -> (forall y, inb W y -> idx <> place o y) ->
  (n <= d)%nat -> within sh n idx i -> deep W full d d x -> i <> place o x.
Proof.
  intros (Ls & Lw & F) I N Hn (Li & Wi) (X & D) ->. apply (inb_dim sh idx Ls) in I. destruct I as (Lidx & I). apply (inb_dim W x Lw) in X. destruct X as (Lx & X).
  assert (In : forall a, (a < 3)%nat -> (o a <= coord idx a < o a + dim W a)%nat).
  { intros a Ha. specialize (F a Ha). specialize (I a Ha). destruct (full a) eqn:Fu; [lia|]. destruct (Wi a ltac:(lia)) as (t & Ht & E). rewrite coord_place in E by exact Ha. specialize (D a Ha Fu).
    unfold cyc in E. set (z := (Z.of_nat (coord idx a) + t)%Z) in *. pose proof (Z.div_mod z (Z.of_nat (dim sh a)) ltac:(lia)) as Q. pose proof (Z.mod_pos_bound z (Z.of_nat (dim sh a)) ltac:(lia)) as B.
    set (q := (z / Z.of_nat (dim sh a))%Z) in *. assert (E' : (z mod Z.of_nat (dim sh a) = Z.of_nat (o a + coord x a))%Z) by lia. rewrite E' in Q.
    assert (K0 : q = 0%Z).
    { destruct (Z.lt_trichotomy q 0) as [Hq|[Hq|Hq]]; [exfalso|exact Hq|exfalso]; unfold z in Q; nia. }
    rewrite K0 in Q. unfold z in Q. lia. }
  apply (N (map (fun a => coord idx a - o a)%nat [0; 1; 2]%nat)).
  - apply inb_dim; [exact Lw|]. split; [reflexivity|]. intros a Ha. specialize (In a Ha). destruct a as [|[|[|a]]]; [| | |lia]; unfold coord in *; cbn [map nth] in *; lia.
  - apply coord_eq; [exact Lidx|reflexivity|]. intros a Ha. rewrite coord_place by exact Ha. specialize (In a Ha). destruct a as [|[|[|a]]]; [| | |lia]; unfold coord in *; cbn [map nth] in *; lia.
Qed.

(** Two grids, each with its own materials, widths and fields outside of a window, with the
    same ones inside: after n steps the fields are the same n cells away from the border
    of the window, whatever happens outside. *)
Theorem C175_window :
  forall (K : Fld) (W : list nat) (full : nat -> bool) (sh sh' : list nat) (o o' : nat -> nat) (dt : K) (we wh we' wh' : widths K)
         (eps eps' : field K) (mu mu' : option (field K)) (js js' : list (field K)) (s s' : state K),
    fits sh W o full -> fits sh' W o' full ->
    same_w W o o' we we' -> same_w W o o' wh wh' -> same_f W o o' eps eps' -> same_f W o o' (matl mu) (matl mu') ->
    same_f W o o' (sE s) (sE s') -> same_f W o o' (sH s) (sH s') -> Forall2 (same_f W o o') js js' ->
    let n := length js in
    let u := run sh dt (Some (we, wh)) eps mu js s in
    let u' := run sh' dt (Some (we', wh')) eps' mu' js' s' in
    forall c x, (c < 3)%nat ->
      (deep W full n n x -> sE u c (place o x) = sE u' c (place o' x)) /\
      (deep W full (n - 1) n x -> sH u c (place o x) = sH u' c (place o' x)).
Proof.
  intros K W full sh sh' o o' dt we wh we' wh' eps eps' mu mu' js js' s s' F1 F2 We Wh Ep Mu SE SH J n u u' c x Hc.
  pose proof (Forall2_len _ _ _ J) as Ln.
  set (go := run sh dt (Some (we, wh)) eps mu) in *. set (go' := run sh' dt (Some (we', wh')) eps' mu') in *.
  assert (S1 : forall m, (m < n)%nat -> go (firstn (S m) js) s = step sh dt (Some (we, wh)) eps mu (nth m js noj) (go (firstn m js) s)).
  { intros m Hm. unfold go, run. rewrite (firstn_next noj) by exact Hm. rewrite fold_left_app. reflexivity. }
  assert (S2 : forall m, (m < n)%nat -> go' (firstn (S m) js') s' = step sh' dt (Some (we', wh')) eps' mu' (nth m js' noj) (go' (firstn m js') s')).
  { intros m Hm. unfold go', run. rewrite (firstn_next noj) by (unfold n in Hm; lia). rewrite fold_left_app. reflexivity. }
  pose proof (window_core K W sh sh' o o' full F1 F2 dt we wh we' wh' eps eps' mu mu' We Wh Ep Mu n 0
    (fun m => sE (go (firstn m js) s)) (fun m => sH (go (firstn m js) s)) (fun m => sE (go' (firstn m js') s')) (fun m => sH (go' (firstn m js') s'))
    (fun m => nth m js noj) (fun m => nth m js' noj)) as Q.
  destruct (Q ltac:(intros m c0 x0 Hm _ _; cbv beta; rewrite (S1 m Hm); reflexivity) ltac:(intros m c0 x0 Hm _ _; cbv beta; rewrite (S1 m Hm); reflexivity)
    ltac:(intros m c0 x0 Hm _ _; cbv beta; rewrite (S2 m Hm); reflexivity) ltac:(intros m c0 x0 Hm _ _; cbv beta; rewrite (S2 m Hm); reflexivity)
    ltac:(intros m Hm; apply Forall2_at; assumption)
    ltac:(intros c0 x0 H0 (X0 & _); exact (SE c0 x0 H0 X0)) ltac:(intros c0 x0 H0 (X0 & _); exact (SH c0 x0 H0 X0))
    ltac:(intros; lia) ltac:(intros; lia) n (le_n _)) as (A & B).
  replace (n - 0)%nat with n in A, B by lia.
  assert (Fu : firstn n js = js) by apply firstn_all. assert (Fu' : firstn n js' = js') by (unfold n; rewrite Ln; apply firstn_all).
  rewrite Fu, Fu' in A, B. split; intro D; [now apply A|now apply B].
Qed.
Print Assumptions C175_window.

Section Echo.
  Variable K : Fld.
  Add Field Kfield : (fth K).
  Local Open Scope fld_scope.

  (** Nothing arrives where nothing was near. *)
  Lemma vanish sh Ls dt (w : widths K) (eps mu : field K) js s idx : length sh = 3%nat -> inb sh idx ->
    (forall i, within sh (length js) idx i -> (forall c, (c < 3)%nat -> pE_ s c i = 0 /\ pH_ s c i = 0) /\
       (forall a p k, psE s a p k i = 0 /\ psH s a p k i = 0) /\ forall j c, In j js -> (c < 3)%nat -> j c i = 0) ->
    forall c, (c < 3)%nat -> pE_ (cpml_run sh Ls dt w eps mu js s) c idx = 0 /\ pH_ (cpml_run sh Ls dt w eps mu js s) c idx = 0.
  Proof.
    intros HL Hi Z c Hc.
    set (comb := fun F G : field K => (fun c i => 0 * F c i + 0 * G c i) : field K). set (combp := fun F G : psis K => (fun x p k i => 0 * F x p k i + 0 * G x p k i) : psis K).
    destruct (C145_superposition K sh Ls dt w eps mu 0 0 js js s s idx HL Hi eq_refl) as (A & _). specialize (A c Hc). cbv zeta in A.
    destruct (C145_domain_of_dependence K sh Ls dt w eps mu js (map (fun p => comb (fst p) (snd p)) (combine js js)) s
                (mkps (comb (pE_ s) (pE_ s)) (comb (pH_ s) (pH_ s)) (combp (psE s) (psE s)) (combp (psH s) (psH s))) idx HL Hi) as (B & _).
    - rewrite map_length, combine_length. symmetry. apply Nat.min_id.
    - intros c' i Hc' Wi. cbn [pE_]. unfold comb. rewrite (proj1 (proj1 (Z i Wi) c' Hc')). ring.
    - intros c' i Hc' Wi. cbn [pH_]. unfold comb. rewrite (proj2 (proj1 (Z i Wi) c' Hc')). ring.
    - intros x p k i _ Wi. cbn [psE]. unfold combp. rewrite (proj1 (proj1 (proj2 (Z i Wi)) x p k)). ring.
    - intros x p k i _ Wi. cbn [psH]. unfold combp. rewrite (proj2 (proj1 (proj2 (Z i Wi)) x p k)). ring.
    - apply Forall2_pairs. intros j Hj c' i Hc' Wi. cbn [fst snd]. unfold comb. rewrite (proj2 (proj2 (Z i Wi)) j c' Hj Hc'). ring.
    - destruct (B c Hc) as (B1 & B2). destruct A as (A1 & A2). split; [refine (eq_trans B1 (eq_trans A1 _))|refine (eq_trans B2 (eq_trans A2 _))]; ring.
  Qed.
End Echo.

(** Absorbing layers, their parameters, the size of the grid and everything else outside
    of the window: as long as the sources are d cells from the border of the window, a
    detector m cells from the border sees no difference for d + m steps. *)
Theorem C175_echo :
  forall (K : Fld) (W : list nat) (full : nat -> bool) (sh sh' : list nat) (o o' : nat -> nat) (dt : K) (w w' : widths K)
         (eps eps' mu mu' : field K) (Ls Ls' : nat -> nat -> option (layer K)) (js js' : list (field K)) (e h e' h' : field K) (d : nat),
    fits sh W o full -> fits sh' W o' full ->
    same_w W o o' w w' -> same_f W o o' eps eps' -> same_f W o o' mu mu' ->
    (forall a pp L, (a < 3)%nat -> (pp < 2)%nat -> Ls a pp = Some L -> if Nat.eqb pp 0 then (lth L <= o a)%nat else (o a + dim W a + lth L <= dim sh a)%nat) ->
    (forall a pp L, (a < 3)%nat -> (pp < 2)%nat -> Ls' a pp = Some L -> if Nat.eqb pp 0 then (lth L <= o' a)%nat else (o' a + dim W a + lth L <= dim sh' a)%nat) ->
    same_f W o o' e e' -> same_f W o o' h h' -> Forall2 (same_f W o o') js js' ->
    confined sh W o full d e -> confined sh W o full d h -> Forall (confined sh W o full d) js ->
    confined sh' W o' full d e' -> confined sh' W o' full d h' -> Forall (confined sh' W o' full d) js' ->
    let n := length js in
    let u := cpml_run sh Ls dt w eps mu js (mkps e h psi0 psi0) in
    let u' := cpml_run sh' Ls' dt w' eps' mu' js' (mkps e' h' psi0 psi0) in
    forall c x, (c < 3)%nat ->
      (deep W full (n - d) (n - d) x -> pE_ u c (place o x) = pE_ u' c (place o' x)) /\
      (deep W full (n - d - 1) (n - d) x -> pH_ u c (place o x) = pH_ u' c (place o' x)).
Proof.
  intros K W full sh sh' o o' dt w w' eps eps' mu mu' Ls Ls' js js' e h e' h' d F1 F2 Ww Ep Mu O1 O2 SE SH J Ce Ch Cj Ce' Ch' Cj' n u u' c x Hc.
  pose proof (Forall2_len _ _ _ J) as Ln.
  set (go := cpml_run sh Ls dt w eps mu) in *. set (go' := cpml_run sh' Ls' dt w' eps' mu') in *.
  set (s := mkps e h psi0 psi0) in *. set (s' := mkps e' h' psi0 psi0) in *.
  assert (S1 : forall m, (m < n)%nat -> firstn (S m) js = firstn m js ++ [nth m js noj]) by (intros m Hm; now apply firstn_next).
  assert (S2 : forall m, (m < n)%nat -> firstn (S m) js' = firstn m js' ++ [nth m js' noj]) by (intros m Hm; apply firstn_next; unfold n in Hm; lia).
  assert (P1 : forall m c x, (m < n)%nat -> (c < 3)%nat -> inb W x ->
    pH_ (go (firstn (S m) js) s) c (place o x) = maxwell_h sh dt (Some (w, w)) (pE_ (go (firstn m js) s)) (pH_ (go (firstn m js) s)) (Some mu) c (place o x)
    /\ pE_ (go (firstn (S m) js) s) c (place o x) = fadd (maxwell_e sh dt (Some (w, w)) (pE_ (go (firstn m js) s)) (pH_ (go (firstn (S m) js) s)) eps c (place o x)) (fdiv (nth m js noj c (place o x)) (eps c (place o x)))).
  { intros m c0 x0 Hm H0 X0. rewrite (S1 m Hm). apply (C19_outside_run K sh Ls dt w eps mu (firstn m js) (nth m js noj) s c0 (place o x0) H0).
    intros a pp L Ha Hp EL. specialize (O1 a pp L Ha Hp EL). rewrite coord_place by exact Ha. pose proof F1 as (_ & Lw & _). pose proof (proj2 (proj1 (inb_dim W x0 Lw) X0) a Ha). destruct (pp =? 0)%nat; lia. }
  assert (P2 : forall m c x, (m < n)%nat -> (c < 3)%nat -> inb W x ->
    pH_ (go' (firstn (S m) js') s') c (place o' x) = maxwell_h sh' dt (Some (w', w')) (pE_ (go' (firstn m js') s')) (pH_ (go' (firstn m js') s')) (Some mu') c (place o' x)
    /\ pE_ (go' (firstn (S m) js') s') c (place o' x) = fadd (maxwell_e sh' dt (Some (w', w')) (pE_ (go' (firstn m js') s')) (pH_ (go' (firstn (S m) js') s')) eps' c (place o' x)) (fdiv (nth m js' noj c (place o' x)) (eps' c (place o' x)))).
  { intros m c0 x0 Hm H0 X0. rewrite (S2 m Hm). apply (C19_outside_run K sh' Ls' dt w' eps' mu' (firstn m js') (nth m js' noj) s' c0 (place o' x0) H0).
    intros a pp L Ha Hp EL. specialize (O2 a pp L Ha Hp EL). rewrite coord_place by exact Ha. pose proof F1 as (_ & Lw & _). pose proof (proj2 (proj1 (inb_dim W x0 Lw) X0) a Ha). destruct (pp =? 0)%nat; lia. }
  assert (V1 : forall m, (m <= n)%nat -> (m <= d)%nat -> forall c i, (c < 3)%nat -> inb sh i -> (forall x, inb W x -> i <> place o x) -> pE_ (go (firstn m js) s) c i = f0 /\ pH_ (go (firstn m js) s) c i = f0).
  { intros m Hm Hd c0 i H0 Hi No. apply (vanish K sh Ls dt w eps mu (firstn m js) s i (proj1 F1) Hi); [|exact H0]. intros i' Wi. rewrite firstn_length in Wi.
    replace (Nat.min m (length js)) with m in Wi by (unfold n in Hm; lia).
    assert (Far : forall y, deep W full d d y -> i' <> place o y) by (intros y Dy; exact (outside_far sh W o full d m i i' y F1 Hi No Hd Wi Dy)).
    assert (Hi' : inb sh i') by (eapply (FdtdP2.within_box_inb); [exact Hi|exact Wi]).
    split; [intros c1 H1; split; [now apply Ce|now apply Ch]|]. split; [intros; now split|]. intros j c1 Ij H1.
    apply (proj1 (Forall_forall _ _) Cj j); [|exact H1|exact Hi'|exact Far]. rewrite <- (firstn_skipn m js). apply in_or_app. now left. }
  assert (V2 : forall m, (m <= n)%nat -> (m <= d)%nat -> forall c i, (c < 3)%nat -> inb sh' i -> (forall x, inb W x -> i <> place o' x) -> pE_ (go' (firstn m js') s') c i = f0 /\ pH_ (go' (firstn m js') s') c i = f0).
  { intros m Hm Hd c0 i H0 Hi No. apply (vanish K sh' Ls' dt w' eps' mu' (firstn m js') s' i (proj1 F2) Hi); [|exact H0]. intros i' Wi. rewrite firstn_length in Wi.
    replace (Nat.min m (length js')) with m in Wi by (unfold n in Hm; lia).
    assert (Far : forall y, deep W full d d y -> i' <> place o' y) by (intros y Dy; exact (outside_far sh' W o' full d m i i' y F2 Hi No Hd Wi Dy)).
    assert (Hi' : inb sh' i') by (eapply (FdtdP2.within_box_inb); [exact Hi|exact Wi]).
    split; [intros c1 H1; split; [now apply Ce'|now apply Ch']|]. split; [intros; now split|]. intros j c1 Ij H1.
    apply (proj1 (Forall_forall _ _) Cj' j); [|exact H1|exact Hi'|exact Far]. rewrite <- (firstn_skipn m js'). apply in_or_app. now left. }
  pose proof (window_core K W sh sh' o o' full F1 F2 dt w w w' w' eps eps' (Some mu) (Some mu') Ww Ww Ep Mu n d
    (fun m => pE_ (go (firstn m js) s)) (fun m => pH_ (go (firstn m js) s)) (fun m => pE_ (go' (firstn m js') s')) (fun m => pH_ (go' (firstn m js') s'))
    (fun m => nth m js noj) (fun m => nth m js' noj)) as Q.
  destruct (Q ltac:(intros m c0 x0 Hm H0 X0; apply (P1 m c0 x0 Hm H0 X0)) ltac:(intros m c0 x0 Hm H0 X0; apply (P1 m c0 x0 Hm H0 X0))
    ltac:(intros m c0 x0 Hm H0 X0; apply (P2 m c0 x0 Hm H0 X0)) ltac:(intros m c0 x0 Hm H0 X0; apply (P2 m c0 x0 Hm H0 X0))
    ltac:(intros m Hm; apply Forall2_at; assumption)
    ltac:(intros c0 x0 H0 (X0 & _); exact (SE c0 x0 H0 X0)) ltac:(intros c0 x0 H0 (X0 & _); exact (SH c0 x0 H0 X0))
    ltac:(intros m Hm Hd; split; intros c0 i H0 Hi No; [apply (V1 m Hm ltac:(lia) c0 i H0 Hi No)|apply (V2 m Hm ltac:(lia) c0 i H0 Hi No)])
    ltac:(intros m Hm Hd _; split; intros c0 i H0 Hi No; [apply (V1 m Hm Hd c0 i H0 Hi No)|apply (V2 m Hm Hd c0 i H0 Hi No)]) n (le_n _)) as (A & B).
  assert (Fu : firstn n js = js) by apply firstn_all. assert (Fu' : firstn n js' = js') by (unfold n; rewrite Ln; apply firstn_all).
  rewrite Fu, Fu' in A, B. split; intro D; [now apply A|now apply B].
Qed.
Print Assumptions C175_echo.

(** A window of five cells along x: in a grid of seven cells with a layer on both sides,
    and in a grid of nine cells with other widths and materials outside and no layers.
    The field starts in the middle cell (d = 2).  After three steps it is the same one
    cell from the border, and not at the border itself: the count is exact. *)
Definition wd_L : layer QcF := mkLayer (K := QcF) 1 (fun _ => qz 2) (fun _ => qz 3) (fun _ => qz 5) (fun _ => qz 7) (fun _ => qz 2) (fun _ => qz 3).
Definition wd_Ls : nat -> nat -> option (layer QcF) := fun a pp => if Nat.eqb a 0 then Some wd_L else None.
Definition wd_full (a : nat) : bool := negb (Nat.eqb a 0).
Definition wd_o (k a : nat) : nat := if Nat.eqb a 0 then k else 0%nat.
Definition wd_w (k : nat) : widths QcF := fun a i => qz (Z.of_nat (if Nat.eqb a 0 then if (k <=? i)%nat then 1 + i - k else 77 else 2)).
Definition wd_m (k : nat) : field QcF := fun c x => qz (Z.of_nat (c + 1 + if (k <=? coord x 0)%nat then coord x 0 - k else 55)).
Definition wd_e (k : nat) : field QcF := fun c x => if (coord x 0 =? k + 2)%nat then qz (Z.of_nat (c + 1)) else f0.
Example C175_case :
  let W := [5; 1; 1]%nat in let sh := [7; 1; 1]%nat in let sh' := [9; 1; 1]%nat in let o := wd_o 1 in let o' := wd_o 2 in
  let js := [noj; noj; noj] in
  let u := cpml_run sh wd_Ls (qz 1) (wd_w 1) (wd_m 1) (wd_m 1) js (mkps (wd_e 1) noj psi0 psi0) in
  let u' := cpml_run sh' (fun _ _ => None) (qz 1) (wd_w 2) (wd_m 2) (wd_m 2) js (mkps (wd_e 2) noj psi0 psi0) in
  (forall c x, (c < 3)%nat -> deep W wd_full 1 1 x -> pE_ u c (place o x) = pE_ u' c (place o' x)) /\
  pE_ u 1%nat [2; 0; 0]%nat <> f0 /\ pE_ u 1%nat [1; 0; 0]%nat <> pE_ u' 1%nat [2; 0; 0]%nat.
Proof.
  cbv zeta. split; [|split].
  - intros c x Hc D.
    assert (F1 : fits [7; 1; 1]%nat [5; 1; 1]%nat (wd_o 1) wd_full) by (split; [reflexivity|split; [reflexivity|]]; intros [|[|[|a]]] Ha; cbn; lia).
    assert (F2 : fits [9; 1; 1]%nat [5; 1; 1]%nat (wd_o 2) wd_full) by (split; [reflexivity|split; [reflexivity|]]; intros [|[|[|a]]] Ha; cbn; lia).
    assert (Sm : same_f [5; 1; 1]%nat (wd_o 1) (wd_o 2) (wd_m 1) (wd_m 2)).
    { intros c0 x0 _ _. unfold wd_m. rewrite !coord_place by lia. cbn [wd_o Nat.eqb]. do 2 f_equal; destruct (Nat.leb_spec 1 (1 + coord x0 0)), (Nat.leb_spec 2 (2 + coord x0 0)); lia. }
    assert (Se : same_f [5; 1; 1]%nat (wd_o 1) (wd_o 2) (wd_e 1) (wd_e 2)).
    { intros c0 x0 _ _. unfold wd_e. rewrite !coord_place by lia. cbn [wd_o Nat.eqb]. destruct (Nat.eqb_spec (1 + coord x0 0) (1 + 2)), (Nat.eqb_spec (2 + coord x0 0) (2 + 2)); try lia; reflexivity. }
    assert (Sw : same_w [5; 1; 1]%nat (wd_o 1) (wd_o 2) (wd_w 1) (wd_w 2)).
    { intros a i Ha Hi. unfold wd_w, wd_o. destruct (Nat.eqb_spec a 0); [|reflexivity]. do 2 f_equal; destruct (Nat.leb_spec 1 (1 + i)), (Nat.leb_spec 2 (2 + i)); lia. }
    assert (Cf : forall k sh, (k + 2 < dim sh 0)%nat -> length sh = 3%nat -> dim sh 1 = 1%nat -> dim sh 2 = 1%nat -> confined sh [5; 1; 1]%nat (wd_o k) wd_full 2 (wd_e k)).
    { intros k sh Hk HL D1 D2 c0 i H0 Hi Far. unfold wd_e. destruct (Nat.eqb_spec (coord i 0) (k + 2)) as [Q|]; [exfalso|reflexivity].
      apply (inb_dim sh i HL) in Hi. destruct Hi as (Li & Hi). pose proof (Hi 1%nat ltac:(lia)). pose proof (Hi 2%nat ltac:(lia)).
      apply (Far [2; 0; 0]%nat).
      - split; [repeat constructor|]. intros [|[|[|a]]] Ha Fa; try discriminate Fa; cbn; lia.
      - apply coord_eq; [exact Li|reflexivity|]. intros a Ha. rewrite coord_place by exact Ha. destruct a as [|[|[|a]]]; [| | |lia]; unfold wd_o; cbn [Nat.eqb]; unfold coord in *; cbn [nth] in *; lia. }
    assert (C0 : forall k sh, confined sh [5; 1; 1]%nat (wd_o k) wd_full 2 (noj (K := QcF))) by (intros k sh c0 i _ _ _; reflexivity).
    refine (proj1 (C175_echo QcF [5; 1; 1]%nat wd_full [7; 1; 1]%nat [9; 1; 1]%nat (wd_o 1) (wd_o 2) (qz 1) (wd_w 1) (wd_w 2) (wd_m 1) (wd_m 2) (wd_m 1) (wd_m 2) wd_Ls (fun _ _ => None)
      [noj; noj; noj] [noj; noj; noj] (wd_e 1) noj (wd_e 2) noj 2 F1 F2 Sw Sm Sm _ _ Se _ _ _ _ _ _ _ _ c x Hc) D).
    + intros a pp L Ha Hp E. unfold wd_Ls in E. destruct (Nat.eqb_spec a 0) as [->|]; [|discriminate]. injection E as <-. destruct pp as [|[|pp]]; cbn; lia.
    + intros a pp L Ha Hp E. discriminate E.
    + intros c0 x0 _ _. reflexivity.
    + repeat constructor.
    + apply Cf; reflexivity || (cbn; lia).
    + apply C0.
    + repeat constructor; apply C0.
    + apply Cf; reflexivity || (cbn; lia).
    + apply C0.
    + repeat constructor; apply C0.
  - intro E. apply (f_equal (fun q : Qc => Qnum (this q))) in E. vm_compute in E. discriminate.
  - intro E. apply (f_equal (fun q : Qc => Qnum (this q))) in E. vm_compute in E. discriminate.
Qed.
