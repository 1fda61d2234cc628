(** Property theorems C26-C28 (Complex.h, cmult-sse2.h), exact real arithmetic. *)
From Coq Require Import Reals Field Lra Lia.
From Verif Require Import CNum VecModel VecProofs ComplexModel ComplexSpec ComplexProofs.
Local Open Scope R_scope.

(** C26: the operators form a field containing R and a square root of -1, every element being
    re + i im: the complex numbers. *)
Theorem C26_field : field_theory C0 C1 Cadd Cmul Csub Copp Cdiv Cinv (@eq C) /\
  Cmul Ci Ci = Copp C1 /\ (forall z, z = Cadd (RtoC (re z)) (Cmul Ci (RtoC (im z)))) /\
  (forall a b, RtoC (a + b) = Cadd (RtoC a) (RtoC b) /\ RtoC (a * b) = Cmul (RtoC a) (RtoC b)).
Proof.
  split; [exact C_field|]. split; [Cext; ring|]. split; [intros z; Cext; ring|]. intros a b. split; [apply RtoC_add|apply RtoC_mul].
Qed.
Print Assumptions C26_field.
(** mixed real/complex operators *)
Theorem C26_mixed : forall (x : C) (a : R),
  Cadd_d x a = Cadd x (RtoC a) /\ d_addC a x = Cadd (RtoC a) x /\
  Csub_d x a = Csub x (RtoC a) /\ d_subC a x = Csub (RtoC a) x /\
  Cmul_d x a = Cmul x (RtoC a) /\ d_mulC a x = Cmul (RtoC a) x /\
  (a <> 0 -> Cdiv_d x a = Cdiv x (RtoC a)) /\ (x <> C0 -> d_divC a x = Cdiv (RtoC a) x).
Proof. exact mixed_thm. Qed.
Print Assumptions C26_mixed.
(** comparisons decide equality *)
Theorem C26_comparison : forall x y a, (Ceqb x y = true <-> x = y) /\ (Cneqb x y = true <-> x <> y) /\
  (Ceqb_d x a = true <-> x = RtoC a) /\ (Cneqb_d x a = true <-> x <> RtoC a).
Proof. exact eq_thm. Qed.
Print Assumptions C26_comparison.
(** x op= y stores op of the old values in x and changes nothing else, even for x op= x *)
Theorem C26_compound_assignment : forall (m : dmem) x y, disjoint_or_same x y ->
  (at_ (addeqC x y m) x = Cadd (at_ m x) (at_ m y)) /\
  (at_ (subeqC x y m) x = Csub (at_ m x) (at_ m y)) /\
  (at_ (muleqC x y m) x = Cmul (at_ m x) (at_ m y)) /\
  (at_ m y <> C0 -> at_ (diveqC x y m) x = Cdiv (at_ m x) (at_ m y)) /\
  (forall b, b <> x -> b <> S x ->
     addeqC x y m b = m b /\ subeqC x y m b = m b /\ muleqC x y m b = m b /\ diveqC x y m b = m b).
Proof. exact compound_thm. Qed.
Print Assumptions C26_compound_assignment.
Theorem C26_compound_assignment_real : forall (m : dmem) x (a : R),
  at_ (addeqd x a m) x = Cadd (at_ m x) (RtoC a) /\
  at_ (subeqd x a m) x = Csub (at_ m x) (RtoC a) /\
  at_ (muleqd x a m) x = Cmul (at_ m x) (RtoC a) /\
  (a <> 0 -> at_ (diveqd x a m) x = Cdiv (at_ m x) (RtoC a)) /\
  (forall b, b <> x -> b <> S x ->
     addeqd x a m b = m b /\ subeqd x a m b = m b /\ muleqd x a m b = m b /\ diveqd x a m b = m b).
Proof. exact compound_d_thm. Qed.
Print Assumptions C26_compound_assignment_real.
(** the principal square root *)
Theorem C26_sqrt : forall z, Cmul (csqrt z) (csqrt z) = z /\ 0 <= re (csqrt z) /\ (re (csqrt z) = 0 -> 0 <= im (csqrt z)).
Proof. exact sqrt_thm. Qed.
Print Assumptions C26_sqrt.
(** conjugation and modulus *)
Theorem C26_conj_abs : forall x y,
  Cconj (Cadd x y) = Cadd (Cconj x) (Cconj y) /\ Cconj (Cmul x y) = Cmul (Cconj x) (Cconj y) /\ Cconj (Cconj x) = x /\
  multconj x y = Cmul x (Cconj y) /\ RtoC (abs2 x) = Cmul x (Cconj x) /\ abs2 (Cmul x y) = abs2 x * abs2 y /\
  cabs (Cmul x y) = cabs x * cabs y /\ 0 <= cabs x /\ (cabs x = 0 <-> x = C0) /\ cabs (Cadd x y) <= cabs x + cabs y /\
  realProduct x y = re (Cmul (Cconj x) y).
Proof.
  intros x y. repeat split; try apply abs_zero; try apply abs_mul; try apply abs2_mul; try apply abs_pos; try apply triangle; try (Cext; unfold abs2; ring).
  cbn. unfold realProduct. ring.
Qed.
Print Assumptions C26_conj_abs.
Theorem C26_exp : forall z w, cexp (Cadd z w) = Cmul (cexp z) (cexp w) /\ cexp C0 = C1 /\ cabs (cexp z) = exp (re z).
Proof. exact exp_thm. Qed.
Print Assumptions C26_exp.
Example C26_case : disjoint_or_same 4 4 /\ disjoint_or_same 4 6 /\ at_ (fun a => INR a) 4 <> C0 /\
  csqrt (RtoC (-4)) = mkC 0 2.
Proof.
  split; [left; reflexivity|]. split; [right; left; lia|]. split.
  - intros E. apply (f_equal re) in E. cbn in E. lra.
  - unfold csqrt. assert (E : cabs (RtoC (-4)) = 4).
    { unfold cabs, abs2. cbn. replace (-4 * -4 + 0 * 0) with (4 * 4) by ring. apply sqrt_square. lra. }
    rewrite E. unfold Reqb. destruct (Req_EM_T 4 0); [lra|]. cbn. destruct (Rlt_dec 0 (-4)); [lra|]. destruct (Rlt_dec 0 0); [lra|].
    replace (/ 2 * (4 - -4)) with (2 * 2) by lra. rewrite sqrt_square by lra. Cext; lra.
Qed.

(** C27 is false for negative reals: arg(-1) is 0 and pow(-1,1) is 1. *)
Theorem C27_negative_real_refuted : arg (RtoC (-1)) = 0 /\ polar (cabs (RtoC (-1))) (arg (RtoC (-1))) = C1 /\
  pow_d (RtoC (-1)) 1 = C1 /\ pow (RtoC (-1)) C1 = C1 /\ C1 <> RtoC (-1).
Proof. exact pow_refuted. Qed.
Print Assumptions C27_negative_real_refuted.
(** For every other nonzero z, arg is the angle of z in (-pi,pi], ... *)
Theorem C27_arg_partial : forall z, z <> C0 -> ~ neg_real z -> polar (cabs z) (arg z) = z /\ - PI < arg z <= PI.
Proof. exact arg_thm. Qed.
Print Assumptions C27_arg_partial.
(** ... and integer powers are repeated products (0 included), for both overloads. *)
Theorem C27_pow_partial : forall z, ~ neg_real z -> forall n,
  pow_d z (INR n) = Cpow z n /\ pow z (RtoC (INR n)) = Cpow z n.
Proof. intros z Hz n. rewrite pow_complex_thm. split; exact (pow_thm z Hz n). Qed.
Print Assumptions C27_pow_partial.
(** Exponents add, for every nonzero z (even where arg is wrong). *)
Theorem C27_pow_add : forall z v w, z <> C0 -> pow z (Cadd v w) = Cmul (pow z v) (pow z w).
Proof. exact pow_add_thm. Qed.
Print Assumptions C27_pow_add.
Example C27_case : mkC (-1) 1 <> C0 /\ ~ neg_real (mkC (-1) 1) /\ Cpow (mkC (-1) 1) 2 = mkC 0 (-2).
Proof.
  split; [intros E; injection E; lra|]. split; [intros [E _]; cbn in E; lra|]. cbn. Cext; lra.
Qed.

(** C28: the vector helpers are complex arithmetic, ... *)
Theorem C28_vector_helpers : forall z w v,
  ZMULT z w = Cmul z w /\ ZCMULT z w = Cmul (Cconj z) w /\ ZMULTI z = Cmul Ci z /\
  ZMULTI2 z w = Cmul z (Cmul Ci w) /\ ZCMULTI z w = Cmul (Cconj z) (Cmul Ci w) /\
  ZMULT2 z w v = Cadd (Cmul z w) (Cmul (Cconj z) v) /\
  ZMULTxy (UNPACKL z z) (UNPACKH z (vneg z)) w = Cmul z w /\
  ZMULT2xy (UNPACKL z z) (UNPACKH z (vneg z)) w v = Cadd (Cmul z w) (Cmul (Cconj z) v) /\
  ZMULTIxy (UNPACKL z (vneg z)) (UNPACKH z z) w = Cmul z (Cmul Ci w) /\
  CONJ z = Cconj z /\ vadd z w = Cadd z w /\ vsub z w = Csub z w /\ vneg z = Copp z.
Proof.
  intros z w v. repeat split.
  - apply ZMULT_eq. - apply ZCMULT_eq. - apply ZMULTI_eq. - apply ZMULTI2_eq. - apply ZCMULTI_eq. - apply ZMULT2_eq.
  - apply ZMULTxy_eq. - apply ZMULT2xy_eq. - apply ZMULTIxy_eq.
Qed.
Print Assumptions C28_vector_helpers.
(** ... and the SSE2 instructions compute the same functions as the portable code (in
    particular the sign masks flip exactly the sign bits they should). *)
Theorem C28_sse2_branch : forall z w, sse_neg z = Some (vneg z) /\ sse_UNPACKL z w = UNPACKL z w /\
  sse_UNPACKH z w = UNPACKH z w /\ sse_FLIP z = FLIP z /\ sse_CONJ z = Some (CONJ z) /\ sse_ZMULTI z = Some (ZMULTI z).
Proof. exact sse_thm. Qed.
Print Assumptions C28_sse2_branch.
Example C28_case : ZMULT (mkC 1 2) (mkC 3 4) = mkC (-5) 10.
Proof. rewrite ZMULT_eq. Cext; ring. Qed.
