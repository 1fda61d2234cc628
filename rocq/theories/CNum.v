(** Complex numbers: model of Complex.h with [double] idealised as exact reals.
    Each definition is the C++ function of the same meaning. *)
From Coq Require Import Reals Lra Ring Field.
Local Open Scope R_scope.

(** Complex.h:38-39  double re; double im; *)
Record C : Type := mkC { re : R; im : R }.

Declare Scope C_scope.
Delimit Scope C_scope with C.
Bind Scope C_scope with C.

Definition RtoC (x : R) : C := mkC x 0.                       (* Complex.h:44 *)
Definition C0 : C := RtoC 0.
Definition C1 : C := RtoC 1.
Definition Ci : C := mkC 0 1.
Definition Copp (x : C) : C := mkC (- re x) (- im x).         (* Complex.h:146-149 *)
Definition Cconj (x : C) : C := mkC (re x) (- im x).          (* Complex.h:151-154 *)
Definition Cadd (x y : C) : C := mkC (re x + re y) (im x + im y).   (* 156-159 *)
Definition Csub (x y : C) : C := mkC (re x - re y) (im x - im y).   (* 171-174 *)
Definition Cmul (x y : C) : C :=
  mkC (re x * re y - im x * im y) (re x * im y + im x * re y).      (* 186-189 *)
Definition Cinv (y : C) : C :=                                (* 1/y, Complex.h:219-224 with x=1 *)
  let factor := 1 / (re y * re y + im y * im y) in
  mkC (1 * re y * factor) (- (1) * im y * factor).
Definition Cdiv (x y : C) : C :=                              (* Complex.h:206-212 *)
  let t2 := 1 / (re y * re y + im y * im y) in
  let t1 := t2 * re y in
  let t2 := t2 * im y in
  mkC (im x * t2 + re x * t1) (im x * t1 - re x * t2).
Definition Cscal (a : R) (x : C) : C := mkC (a * re x) (a * im x).  (* 201-204 *)

Infix "+" := Cadd : C_scope.
Infix "-" := Csub : C_scope.
Infix "*" := Cmul : C_scope.
Infix "/" := Cdiv : C_scope.
Notation "- x" := (Copp x) : C_scope.

Lemma C_ext x y : re x = re y -> im x = im y -> x = y.
Proof. destruct x, y; simpl; intros; subst; reflexivity. Qed.

Ltac Cext := apply C_ext; simpl.

Lemma C_ring : ring_theory C0 C1 Cadd Cmul Csub Copp (@eq C).
Proof.
  constructor; intros; Cext; ring.
Qed.
Add Ring C_ring : C_ring.

Lemma C1_neq_C0 : C1 <> C0.
Proof. intros H. injection H. lra. Qed.

Lemma norm_nz (x : C) : x <> C0 -> re x * re x + im x * im x <> 0.
Proof.
  intros H E. apply H. 
  assert (re x = 0 /\ im x = 0) as [A B].
  { destruct (Rplus_sqr_eq_0 (re x) (im x) E). auto. }
  Cext; assumption.
Qed.

Lemma C_field : field_theory C0 C1 Cadd Cmul Csub Copp Cdiv Cinv (@eq C).
Proof.
  constructor.
  - exact C_ring.
  - exact C1_neq_C0.
  - intros x y. Cext; unfold Rdiv; ring.
  - intros x Hx. pose proof (norm_nz x Hx). Cext; field; assumption.
Qed.
Add Field C_field : C_field.

Lemma Cmul_comm (x y : C) : (x * y)%C = (y * x)%C. Proof. ring. Qed.
Lemma Cmul_assoc (x y z : C) : (x * (y * z))%C = ((x * y) * z)%C. Proof. ring. Qed.
Lemma Cadd_comm (x y : C) : (x + y)%C = (y + x)%C. Proof. ring. Qed.
Lemma Cadd_assoc (x y z : C) : (x + (y + z))%C = ((x + y) + z)%C. Proof. ring. Qed.
Lemma Cmul_1_l x : (C1 * x)%C = x. Proof. ring. Qed.
Lemma Cmul_1_r x : (x * C1)%C = x. Proof. ring. Qed.
Lemma Cmul_0_l x : (C0 * x)%C = C0. Proof. ring. Qed.
Lemma Cmul_0_r x : (x * C0)%C = C0. Proof. ring. Qed.
Lemma Cadd_0_l x : (C0 + x)%C = x. Proof. ring. Qed.
Lemma Cadd_0_r x : (x + C0)%C = x. Proof. ring. Qed.

Lemma Cconj_add x y : Cconj (x + y) = (Cconj x + Cconj y)%C. Proof. Cext; ring. Qed.
Lemma Cconj_mul x y : Cconj (x * y) = (Cconj x * Cconj y)%C. Proof. Cext; ring. Qed.
Lemma Cconj_conj x : Cconj (Cconj x) = x. Proof. Cext; ring. Qed.
Lemma Cconj_0 : Cconj C0 = C0. Proof. Cext; ring. Qed.

Lemma Cmul_integral x y : (x * y)%C = C0 -> x <> C0 -> y = C0.
Proof.
  intros H Hx. replace y with (Cinv x * (x * y))%C by (field; assumption).
  rewrite H. ring.
Qed.

Lemma RtoC_add a b : RtoC (a + b) = (RtoC a + RtoC b)%C. Proof. Cext; ring. Qed.
Lemma RtoC_mul a b : RtoC (a * b) = (RtoC a * RtoC b)%C. Proof. Cext; ring. Qed.
Lemma RtoC_neq_0 a : a <> 0 -> RtoC a <> C0.
Proof. intros H E. apply H. injection E. auto. Qed.

(** Complex.h:290-295 *)
Definition expi (phase : R) : C := mkC (cos phase) (sin phase).

Lemma expi_add a b : expi (a + b) = (expi a * expi b)%C.
Proof. Cext; [rewrite cos_plus | rewrite sin_plus]; ring. Qed.
Lemma expi_0 : expi 0 = C1.
Proof. Cext; [apply cos_0 | apply sin_0]. Qed.
Lemma expi_neg a : expi (- a) = Cconj (expi a).
Proof. Cext; [apply cos_neg | apply sin_neg]. Qed.
Lemma expi_unit a : (expi a * Cconj (expi a))%C = C1.
Proof. rewrite <- expi_neg, <- expi_add. replace (a + - a) with 0 by ring. apply expi_0. Qed.
