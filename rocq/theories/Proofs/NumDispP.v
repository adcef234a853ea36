(** Inequalities between sines used for the numerical dispersion. *)
From Coq Require Import Reals Lra Psatz.
Local Open Scope R_scope.

(** * Monotone functions *)
Lemma up_of f f' a b : a <= b -> (forall c, a <= c <= b -> derivable_pt_lim f c (f' c)) -> (forall c, a < c < b -> 0 <= f' c) -> f a <= f b.
Proof.
  intros [L|E] D P; [|subst; lra]. destruct (MVT_cor2 f f' a b L D) as (c & Q & Hc). pose proof (P c Hc). nra.
Qed.
Lemma down_of f f' a b : a <= b -> (forall c, a <= c <= b -> derivable_pt_lim f c (f' c)) -> (forall c, a < c < b -> f' c <= 0) -> f b <= f a.
Proof.
  intros [L|E] D P; [|subst; lra]. destruct (MVT_cor2 f f' a b L D) as (c & Q & Hc). pose proof (P c Hc). nra.
Qed.
Lemma d_ext f g x l : (forall y, f y = g y) -> derivable_pt_lim f x l -> derivable_pt_lim g x l.
Proof. intros E D eps He. destruct (D eps He) as (d & Q). exists d. intros h Hn Hl. rewrite <- !E. now apply Q. Qed.
Lemma d_val f x l l' : l = l' -> derivable_pt_lim f x l -> derivable_pt_lim f x l'. Proof. now intros ->. Qed.

(** sin x >= x cos x on [0, pi] *)
Lemma sin_xcos x : 0 <= x <= PI -> x * cos x <= sin x.
Proof.
  intros [H0 H1]. assert (Q : (fun y => sin y - y * cos y) 0 <= (fun y => sin y - y * cos y) x).
  { apply (up_of (fun y => sin y - y * cos y) (fun y => y * sin y)); [exact H0| |].
    - intros c Hc. apply (d_ext (sin - id * cos)%F); [reflexivity|]. apply (d_val _ _ (cos c - (1 * cos c + id c * (- sin c)))); [unfold id; ring|].
      apply derivable_pt_lim_minus; [apply derivable_pt_lim_sin|]. apply derivable_pt_lim_mult; [apply derivable_pt_lim_id|apply derivable_pt_lim_cos].
    - intros c Hc. apply Rmult_le_pos; [lra|]. apply sin_ge_0; lra. }
  cbv beta in Q. rewrite sin_0 in Q. lra.
Qed.
(** sin x / x decreases on (0, pi] *)
Lemma sinc_decreasing a b : 0 <= a -> a <= b -> b <= PI -> a * sin b <= b * sin a.
Proof.
  intros H0 H1 H2. assert (Q : (fun x => x * sin a - a * sin x) a <= (fun x => x * sin a - a * sin x) b).
  { apply (up_of (fun x => x * sin a - a * sin x) (fun x => sin a - a * cos x)); [exact H1| |].
    - intros c Hc. apply (d_ext (mult_real_fct (sin a) id - mult_real_fct a sin)%F); [intro; unfold minus_fct, mult_real_fct, id; ring|].
      apply (d_val _ _ (sin a * 1 - a * cos c)); [ring|]. apply derivable_pt_lim_minus; apply derivable_pt_lim_scal; [apply derivable_pt_lim_id|apply derivable_pt_lim_sin].
    - intros c Hc. pose proof (sin_xcos a ltac:(lra)). assert (cos c <= cos a) by (apply cos_decr_1; lra). nra. }
  cbv beta in Q. lra.
Qed.
Lemma d_sin2 c y : derivable_pt_lim (fun x => sin x * sin x - c * (x * x)) y (sin (2 * y) - 2 * c * y).
Proof.
  apply (d_ext (sin * sin - mult_real_fct c (id * id))%F); [reflexivity|]. apply (d_val _ _ ((cos y * sin y + sin y * cos y) - c * (1 * id y + id y * 1))).
  - rewrite sin_2a. unfold id. ring.
  - apply derivable_pt_lim_minus; [apply derivable_pt_lim_mult; apply derivable_pt_lim_sin|]. apply derivable_pt_lim_scal. apply derivable_pt_lim_mult; apply derivable_pt_lim_id.
Qed.
(** sin^2 lies below its tangent as a function of the square *)
Lemma sin2_tangent y0 y : 0 < y0 <= PI / 2 -> 0 <= y <= PI / 2 -> let c := sin (2 * y0) / (2 * y0) in
  sin y * sin y - c * (y * y) <= sin y0 * sin y0 - c * (y0 * y0).
Proof.
  intros H0 Hy c. assert (Cy : 2 * c * y0 = sin (2 * y0)) by (unfold c; field; lra).
  destruct (Rle_dec y y0) as [L|L].
  - apply (up_of (fun x => sin x * sin x - c * (x * x)) (fun x => sin (2 * x) - 2 * c * x)); [exact L|intros; apply d_sin2|].
    intros x Hx. pose proof (sinc_decreasing (2 * x) (2 * y0) ltac:(lra) ltac:(lra) ltac:(lra)) as S. rewrite <- Cy in S. nra.
  - apply (down_of (fun x => sin x * sin x - c * (x * x)) (fun x => sin (2 * x) - 2 * c * x)); [lra|intros; apply d_sin2|].
    intros x Hx. pose proof (sinc_decreasing (2 * y0) (2 * x) ltac:(lra) ltac:(lra) ltac:(lra)) as S. rewrite <- Cy in S. nra.
Qed.
Lemma sin2_abs x : sin x * sin x = sin (Rabs x) * sin (Rabs x).
Proof. destruct (Rle_dec 0 x); [rewrite Rabs_right by lra; ring|rewrite Rabs_left by lra; rewrite sin_neg; ring]. Qed.
(** Jensen's inequality for three weights of sum at most one *)
Lemma sin2_jensen p q r x y z : 0 < p -> 0 < q -> 0 < r -> p + q + r <= 1 -> Rabs x <= PI / 2 -> Rabs y <= PI / 2 -> Rabs z <= PI / 2 ->
  let v := sqrt (p * (x * x) + q * (y * y) + r * (z * z)) in
  0 <= v <= PI / 2 /\ p * (sin x * sin x) + q * (sin y * sin y) + r * (sin z * sin z) <= sin v * sin v.
Proof.
  intros Hp Hq Hr S Hx Hy Hz v. pose proof PI_RGT_0 as Pi.
  assert (Sq : forall t, t * t = Rabs t * Rabs t). { intro t. rewrite <- Rabs_mult, Rabs_right; [reflexivity|]. pose proof (Rle_0_sqr t). unfold Rsqr in *. lra. }
  assert (B : forall t, Rabs t <= PI / 2 -> 0 <= t * t <= PI / 2 * (PI / 2)). { intros t Ht. rewrite (Sq t). pose proof (Rabs_pos t). split; nra. }
  pose proof (B x Hx) as Bx. pose proof (B y Hy) as By. pose proof (B z Hz) as Bz.
  set (m := p * (x * x) + q * (y * y) + r * (z * z)) in *. assert (M0 : 0 <= m) by (unfold m; nra). assert (M1 : m <= PI / 2 * (PI / 2)) by (unfold m; nra).
  assert (Vv : v * v = m) by (apply sqrt_sqrt; exact M0). assert (V0 : 0 <= v) by apply sqrt_pos.
  assert (V1 : v <= PI / 2). { unfold v. rewrite <- (sqrt_square (PI / 2)) by lra. now apply sqrt_le_1_alt. }
  split; [lra|]. rewrite (sin2_abs x), (sin2_abs y), (sin2_abs z).
  destruct (Req_EM_T v 0) as [Z|N].
  - rewrite Z in *. assert (m = 0) by lra. unfold m in H. assert (x * x = 0 /\ y * y = 0 /\ z * z = 0) as (X & Y & W) by (repeat split; nra).
    assert (x = 0 /\ y = 0 /\ z = 0) as (-> & -> & ->) by (repeat split; nra). rewrite Rabs_R0, sin_0. lra.
  - set (c := sin (2 * v) / (2 * v)).
    pose proof (sin2_tangent v (Rabs x) ltac:(lra) ltac:(pose proof (Rabs_pos x); lra)) as T1. pose proof (sin2_tangent v (Rabs y) ltac:(lra) ltac:(pose proof (Rabs_pos y); lra)) as T2.
    pose proof (sin2_tangent v (Rabs z) ltac:(lra) ltac:(pose proof (Rabs_pos z); lra)) as T3. pose proof (sin2_tangent v 0 ltac:(lra) ltac:(lra)) as T0.
    cbv zeta in *. fold c in T0, T1, T2, T3. rewrite <- Sq in T1, T2, T3. rewrite sin_0 in T0.
    set (g := sin v * sin v - c * (v * v)) in *. assert (G0 : 0 <= g) by lra.
    assert (E : p * (x * x) + q * (y * y) + r * (z * z) = v * v) by (rewrite Vv; reflexivity).
    assert (sin v * sin v = g + c * (v * v)) as -> by (unfold g; ring).
    assert (X1 : p * (sin (Rabs x) * sin (Rabs x)) <= p * (g + c * (x * x))) by (apply Rmult_le_compat_l; lra).
    assert (X2 : q * (sin (Rabs y) * sin (Rabs y)) <= q * (g + c * (y * y))) by (apply Rmult_le_compat_l; lra).
    assert (X3 : r * (sin (Rabs z) * sin (Rabs z)) <= r * (g + c * (z * z))) by (apply Rmult_le_compat_l; lra).
    assert (E2 : p * (g + c * (x * x)) + q * (g + c * (y * y)) + r * (g + c * (z * z)) = (p + q + r) * g + c * (v * v)) by (rewrite <- E; ring).
    assert ((p + q + r) * g <= g) by nra. lra.
Qed.
(** sin x >= x - x^3 / 6 *)
Lemma cos_lower x : 1 - x * x / 2 <= cos x.
Proof.
  replace x with (2 * (x / 2)) at 3 by field. rewrite cos_2a_sin.
  assert (Q : sin (x / 2) * sin (x / 2) <= x / 2 * (x / 2)).
  { rewrite sin2_abs. assert (A : x / 2 * (x / 2) = Rabs (x / 2) * Rabs (x / 2)). { rewrite <- Rabs_mult, Rabs_right; [reflexivity|]. pose proof (Rle_0_sqr (x / 2)). unfold Rsqr in *. lra. }
    rewrite A. pose proof (Rabs_pos (x / 2)) as P. set (t := Rabs (x / 2)) in *. clearbody t. clear A.
    destruct (Req_EM_T t 0) as [->|N]; [rewrite sin_0; lra|]. pose proof (sin_lt_x t ltac:(lra)) as S. pose proof (SIN_bound t) as Bd.
    destruct (Rle_dec 0 (sin t)); [nra|]. destruct (Rle_dec t 1).
    - pose proof (sin_ge_0 t ltac:(lra)). pose proof PI2_1. lra.
    - nra. }
  lra.
Qed.
Lemma sin_lower x : 0 <= x -> x - x * x * x / 6 <= sin x.
Proof.
  intro H. assert (Q : (fun y => sin y - y + y * y * y / 6) 0 <= (fun y => sin y - y + y * y * y / 6) x).
  { apply (up_of (fun y => sin y - y + y * y * y / 6) (fun y => cos y - 1 + y * y / 2)); [exact H| |].
    - intros c Hc. apply (d_ext (sin - id + mult_real_fct (/ 6) (id * id * id))%F); [intro; unfold plus_fct, minus_fct, mult_fct, mult_real_fct, id; field|].
      apply (d_val _ _ (cos c - 1 + / 6 * ((1 * id c + id c * 1) * id c + (id * id)%F c * 1))); [unfold mult_fct, id; field|].
      apply derivable_pt_lim_plus; [apply derivable_pt_lim_minus; [apply derivable_pt_lim_sin|apply derivable_pt_lim_id]|]. apply derivable_pt_lim_scal.
      apply derivable_pt_lim_mult; [apply derivable_pt_lim_mult; apply derivable_pt_lim_id|apply derivable_pt_lim_id].
    - intros c Hc. pose proof (cos_lower c). lra. }
  cbv beta in Q. rewrite sin_0 in Q. lra.
Qed.
(** sin^2 x >= x^2 (1 - b)^2 for x^2 <= 6 b *)
Lemma sin2_lower x b : 0 <= b <= 1 -> x * x <= 6 * b -> x * x * ((1 - b) * (1 - b)) <= sin x * sin x.
Proof.
  intros Hb Hx. rewrite sin2_abs. assert (A : x * x = Rabs x * Rabs x). { rewrite <- Rabs_mult, Rabs_right; [reflexivity|]. pose proof (Rle_0_sqr x). unfold Rsqr in *. lra. }
  rewrite A in *. pose proof (Rabs_pos x) as P. set (t := Rabs x) in *. clearbody t. pose proof (sin_lower t P) as S.
  assert (Q : t * (1 - b) <= sin t) by nra. assert (0 <= t * (1 - b)) by (apply Rmult_le_pos; lra).
  replace (t * t * ((1 - b) * (1 - b))) with (t * (1 - b) * (t * (1 - b))) by ring. nra.
Qed.
