(** Number structures used in place of numpy's float64 / complex128.

    [Fld] is an arbitrary field (Leibniz equality) with decidable equality and
    1 + 1 <> 0.  [CFld] adds an imaginary unit and complex conjugation.
    Rounding, NaN and infinities are not modelled; division by zero is total
    here, and theorems that need a non-zero divisor say so. *)
From Coq Require Import List Arith ZArith QArith Qcanon Field Lia Setoid.

Record Fld : Type := MkFld {
  car :> Type;
  f0 : car;
  f1 : car;
  fadd : car -> car -> car;
  fmul : car -> car -> car;
  fsub : car -> car -> car;
  fopp : car -> car;
  fdiv : car -> car -> car;
  finv : car -> car;
  fth : field_theory f0 f1 fadd fmul fsub fopp fdiv finv (@eq car);
  feq_dec : forall x y : car, {x = y} + {x <> y};
  f2nz : fadd f1 f1 <> f0
}.

Arguments f0 {_}.
Arguments f1 {_}.
Arguments fadd {_} _ _.
Arguments fmul {_} _ _.
Arguments fsub {_} _ _.
Arguments fopp {_} _.
Arguments fdiv {_} _ _.
Arguments finv {_} _.
Arguments feq_dec {_} _ _.

Declare Scope fld_scope.
Delimit Scope fld_scope with K.
Bind Scope fld_scope with car.
Notation "0" := f0 : fld_scope.
Notation "1" := f1 : fld_scope.
Infix "+" := fadd : fld_scope.
Infix "*" := fmul : fld_scope.
Infix "-" := fsub : fld_scope.
Infix "/" := fdiv : fld_scope.
Notation "- x" := (fopp x) : fld_scope.
Notation "/ x" := (finv x) : fld_scope.
Notation "2" := (fadd f1 f1) : fld_scope.

(** A field with an imaginary unit and a conjugation. *)
Record CFld : Type := MkCFld {
  cfld :> Fld;
  im : cfld;
  conj : cfld -> cfld;
  im_sq : fmul im im = fopp f1;
  conj_add : forall x y, conj (fadd x y) = fadd (conj x) (conj y);
  conj_mul : forall x y, conj (fmul x y) = fmul (conj x) (conj y);
  conj_one : conj f1 = f1;
  conj_conj : forall x, conj (conj x) = x;
  conj_im : conj im = fopp im
}.

Arguments im {_}.
Arguments conj {_} _.

(** Basic consequences of the field laws. *)
Section FldFacts.
  Variable K : Fld.
  Add Field Kfield : (fth K).
  Local Open Scope fld_scope.
  Implicit Types x y z : K.

  Lemma f1nz : (1 : K) <> 0.
  Proof. exact (F_1_neq_0 (fth K)). Qed.

  Lemma fdiv_def x y : x / y = x * / y.
  Proof. exact (Fdiv_def (fth K) x y). Qed.

  Lemma finv_l x : x <> 0 -> / x * x = 1.
  Proof. exact (Finv_l (fth K) x). Qed.

  Lemma finv_r x : x <> 0 -> x * / x = 1.
  Proof. intro H. rewrite <- (finv_l x H). ring. Qed.

  Lemma fmul_integral x y : x * y = 0 -> x = 0 \/ y = 0.
  Proof.
    intro H. destruct (feq_dec x 0) as [Hx|Hx]; [now left|right].
    assert (E : / x * (x * y) = 0) by (rewrite H; ring).
    replace (/ x * (x * y)) with ((/ x * x) * y) in E by ring.
    rewrite finv_l in E by exact Hx. rewrite <- E. ring.
  Qed.

  Lemma fmul_nz x y : x <> 0 -> y <> 0 -> x * y <> 0.
  Proof. intros Hx Hy H. destruct (fmul_integral x y H); contradiction. Qed.

  Lemma finv_nz x : x <> 0 -> / x <> 0.
  Proof.
    intros Hx H. apply f1nz. rewrite <- (finv_l x Hx), H. ring.
  Qed.

  Lemma fmul_cancel_l x y z : x <> 0 -> x * y = x * z -> y = z.
  Proof.
    intros Hx H. assert (E : / x * (x * y) = / x * (x * z)) by now rewrite H.
    replace (/ x * (x * y)) with ((/ x * x) * y) in E by ring.
    replace (/ x * (x * z)) with ((/ x * x) * z) in E by ring.
    rewrite finv_l in E by exact Hx.
    replace y with (1 * y) by ring. rewrite E. ring.
  Qed.

  Lemma fopp_nz x : x <> 0 -> - x <> 0.
  Proof. intros Hx H. apply Hx. replace x with (- - x) by ring. rewrite H. ring. Qed.

  Lemma fsub_eq0 x y : x - y = 0 -> x = y.
  Proof. intro H. replace x with ((x - y) + y) by ring. rewrite H. ring. Qed.

  Lemma finv_mul x y : x <> 0 -> y <> 0 -> / (x * y) = / x * / y.
  Proof. intros. field. now split. Qed.

  Lemma finv_inv x : x <> 0 -> / / x = x.
  Proof. intro Hx. field. split; [exact Hx | exact f1nz]. Qed.

End FldFacts.

(** Boolean equality test (used for numpy's [== 0] and truthiness). *)
Definition feqb {K : Fld} (x y : K) : bool := if feq_dec x y then true else false.

Lemma feqb_true {K : Fld} (x y : K) : feqb x y = true <-> x = y.
Proof. unfold feqb. destruct (feq_dec x y); split; congruence. Qed.

Lemma feqb_false {K : Fld} (x y : K) : feqb x y = false <-> x <> y.
Proof. unfold feqb. destruct (feq_dec x y); split; congruence. Qed.

Section CFldFacts.
  Variable K : CFld.
  Add Field Kcfield : (fth K).
  Local Open Scope fld_scope.
  Implicit Types x y z : K.

  Lemma im_nz : (im : K) <> 0.
  Proof.
    intro H. pose proof (im_sq K) as E. rewrite H in E.
    apply (f1nz K). replace (1 : K) with (- - (1:K) : K) by ring. rewrite <- E. ring.
  Qed.

  Lemma conj_zero : conj (0 : K) = 0.
  Proof.
    assert (E : conj (0 : K) = conj 0 + conj 0).
    { rewrite <- conj_add. f_equal. ring. }
    assert (E2 : conj (0 : K) - conj 0 = conj 0 + conj 0 - conj 0) by now rewrite <- E.
    transitivity (conj (0:K) + conj 0 - conj 0); [ring|]. rewrite <- E2. ring.
  Qed.

  Lemma conj_opp x : conj (- x) = - conj x.
  Proof.
    apply (fsub_eq0 K). transitivity (conj (- x) + conj x); [ring|].
    rewrite <- conj_add. transitivity (conj (0 : K)); [f_equal; ring|apply conj_zero].
  Qed.

  Lemma conj_sub x y : conj (x - y) = conj x - conj y.
  Proof.
    transitivity (conj (x + - y)); [f_equal; ring|].
    rewrite conj_add, conj_opp. ring.
  Qed.

  Lemma conj_nz x : x <> 0 -> conj x <> 0.
  Proof.
    intros Hx H. apply Hx. rewrite <- (conj_conj K x), H. apply conj_zero.
  Qed.

  Lemma conj_inv x : x <> 0 -> conj (/ x) = / conj x.
  Proof.
    intro Hx. apply (fmul_cancel_l K (conj x)); [now apply conj_nz|].
    rewrite finv_r by now apply conj_nz.
    rewrite <- conj_mul, finv_r by exact Hx. apply conj_one.
  Qed.

  Lemma conj_div x y : y <> 0 -> conj (x / y) = conj x / conj y.
  Proof. intro Hy. rewrite !fdiv_def, conj_mul, conj_inv by exact Hy. reflexivity. Qed.

  Lemma inv_im : / (im : K) = - im.
  Proof.
    apply (fmul_cancel_l K im); [apply im_nz|].
    rewrite finv_r by apply im_nz.
    replace (im * - im : K) with (- (im * im) : K) by ring. rewrite im_sq. ring.
  Qed.
End CFldFacts.

(** ** The rationals (computable, Leibniz equality). *)
Lemma Qc_eq_dec' (x y : Qc) : {x = y} + {x <> y}.
Proof. apply Qc_eq_dec. Defined.

Lemma Qc2nz : (1 + 1 <> 0)%Qc.
Proof. intro H. discriminate H. Qed.

Definition QcF : Fld :=
  MkFld Qc 0%Qc 1%Qc Qcplus Qcmult Qcminus Qcopp Qcdiv Qcinv Qcft Qc_eq_dec Qc2nz.

(** ** Gaussian rationals (computable complex numbers). *)
Record GQ : Type := mkGQ { gre : Qc; gim : Qc }.

Definition gq0 := mkGQ 0%Qc 0%Qc.
Definition gq1 := mkGQ 1%Qc 0%Qc.
Definition gqadd (x y : GQ) := mkGQ (gre x + gre y)%Qc (gim x + gim y)%Qc.
Definition gqmul (x y : GQ) :=
  mkGQ (gre x * gre y - gim x * gim y)%Qc (gre x * gim y + gim x * gre y)%Qc.
Definition gqopp (x : GQ) := mkGQ (- gre x)%Qc (- gim x)%Qc.
Definition gqsub (x y : GQ) := mkGQ (gre x - gre y)%Qc (gim x - gim y)%Qc.
Definition gqnrm (x : GQ) : Qc := (gre x * gre x + gim x * gim x)%Qc.
Definition gqinv (x : GQ) := mkGQ (gre x / gqnrm x)%Qc (- gim x / gqnrm x)%Qc.
Definition gqdiv (x y : GQ) := gqmul x (gqinv y).
Definition gqconj (x : GQ) := mkGQ (gre x) (- gim x)%Qc.
Definition gqim := mkGQ 0%Qc 1%Qc.

Lemma Qc_sq_nonneg (a : Qc) : (0 <= a * a)%Qc.
Proof.
  unfold Qcle, Qcmult, Q2Qc; cbn [this].
  apply Qle_trans with (y := (this a * this a)%Q); [|rewrite Qred_correct; apply Qle_refl].
  destruct (this a) as [n d]. unfold Qle, Qmult; cbn [Qnum Qden this Qred].
  change (Qnum (Qred 0)) with 0%Z. rewrite Z.mul_0_l. 
  apply Z.mul_nonneg_nonneg; [apply Z.square_nonneg|apply Pos2Z.is_nonneg].
Qed.

Lemma Qc_sq_zero (a : Qc) : (a * a = 0)%Qc -> a = 0%Qc.
Proof. intro H. destruct (Qcmult_integral _ _ H); assumption. Qed.

Lemma gqnrm_nz (x : GQ) : x <> gq0 -> gqnrm x <> 0%Qc.
Proof.
  intros Hx H. apply Hx. destruct x as [a b]. unfold gqnrm in H; cbn in H.
  assert (Ha : (a * a = 0)%Qc).
  { apply Qcle_antisym; [|apply Qc_sq_nonneg].
    replace (a * a)%Qc with (- (b * b))%Qc.
    - apply Qcopp_le_compat with (p := 0%Qc). apply Qc_sq_nonneg.
    - replace (a * a)%Qc with ((a * a + b * b) - b * b)%Qc by ring. rewrite H. ring. }
  assert (Hb : (b * b = 0)%Qc) by (rewrite Ha in H; rewrite <- H; ring).
  apply Qc_sq_zero in Ha. apply Qc_sq_zero in Hb. now subst.
Qed.

Lemma gq_ext (x y : GQ) : gre x = gre y -> gim x = gim y -> x = y.
Proof. destruct x, y; cbn; intros; now subst. Qed.

Lemma gqft : field_theory gq0 gq1 gqadd gqmul gqsub gqopp gqdiv gqinv (@eq GQ).
Proof.
  constructor.
  - constructor; intros; apply gq_ext; cbn; ring.
  - intro H. apply (f_equal gre) in H. discriminate H.
  - reflexivity.
  - intros p Hp. pose proof (gqnrm_nz p Hp) as Hn.
    apply gq_ext; unfold gqinv, gqmul; cbn [gre gim gq1];
      unfold gqnrm in *; field; exact Hn.
Qed.

Lemma GQ_eq_dec (x y : GQ) : {x = y} + {x <> y}.
Proof. decide equality; apply Qc_eq_dec. Defined.

Lemma gq2nz : gqadd gq1 gq1 <> gq0.
Proof. intro H. apply (f_equal gre) in H. discriminate H. Qed.

Definition GQF : Fld :=
  MkFld GQ gq0 gq1 gqadd gqmul gqsub gqopp gqdiv gqinv gqft GQ_eq_dec gq2nz.

Lemma gq_im_sq : gqmul gqim gqim = gqopp gq1.
Proof. apply gq_ext; cbn; reflexivity. Qed.

Lemma gq_conj_conj x : gqconj (gqconj x) = x.
Proof. apply gq_ext; cbn; ring. Qed.

Definition GQC : CFld.
Proof.
  refine (MkCFld GQF gqim gqconj gq_im_sq _ _ _ _ _).
  - intros x y; apply gq_ext; cbn; ring.
  - intros x y; apply gq_ext; cbn; ring.
  - apply gq_ext; cbn; reflexivity.
  - exact gq_conj_conj.
  - apply gq_ext; cbn; reflexivity.
Defined.

(** Small literals for examples. *)
Definition qz (n : Z) : QcF := Q2Qc (inject_Z n).
Definition qq (n : Z) (d : positive) : QcF := Q2Qc (n # d).
Definition gz (a b : Z) : GQC := mkGQ (Q2Qc (inject_Z a)) (Q2Qc (inject_Z b)).
Definition gq (a : Z) (d : positive) (b : Z) (d' : positive) : GQC := mkGQ (Q2Qc (a # d)) (Q2Qc (b # d')).

(** Decide a closed equation between rationals / Gaussian rationals. *)
Ltac qc_refl := apply Qc_is_canon; vm_compute; reflexivity.
Ltac gq_refl := apply gq_ext; qc_refl.

Lemma qz_nz (n : Z) : n <> 0%Z -> qz n <> f0.
Proof.
  intros Hn H. apply Hn. unfold qz in H. cbn [f0 QcF] in H.
  apply (f_equal this) in H. cbn [this Q2Qc] in H.
  assert (E : (inject_Z n == 0)%Q).
  { rewrite <- (Qred_correct (inject_Z n)), H. reflexivity. }
  unfold Qeq, inject_Z in E. cbn in E. now rewrite Z.mul_1_r in E.
Qed.
