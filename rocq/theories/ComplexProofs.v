(** Proofs for C26-C28. *)
From Coq Require Import Reals ZArith Bool Lra Lia Field.
From Verif Require Import CNum VecModel VecProofs ComplexModel ComplexSpec.
Local Open Scope R_scope.

Lemma Reqb_spec x y : reflect (x = y) (Reqb x y).
Proof. unfold Reqb. destruct (Req_EM_T x y); constructor; assumption. Qed.

Lemma mixed_thm : forall (x : C) (a : R),
  Cadd_d x a = Cadd x (RtoC a) /\ d_addC a x = Cadd (RtoC a) x /\
  Csub_d x a = Csub x (RtoC a) /\ d_subC a x = Csub (RtoC a) x /\
  Cmul_d x a = Cmul x (RtoC a) /\ d_mulC a x = Cmul (RtoC a) x /\
  (a <> 0 -> Cdiv_d x a = Cdiv x (RtoC a)) /\ (x <> C0 -> d_divC a x = Cdiv (RtoC a) x).
Proof.
  intros x a. repeat split; intros; try solve [Cext; ring].
  all: try solve [Cext; field; assumption].
  all: pose proof (norm_nz x H); Cext; field; assumption.
Qed.

Lemma eq_thm : forall x y a, (Ceqb x y = true <-> x = y) /\ (Cneqb x y = true <-> x <> y) /\
  (Ceqb_d x a = true <-> x = RtoC a) /\ (Cneqb_d x a = true <-> x <> RtoC a).
Proof.
  intros x y a. unfold Ceqb, Cneqb, Ceqb_d, Cneqb_d.
  assert (H1 : Reqb (re x) (re y) && Reqb (im x) (im y) = true <-> x = y).
  { rewrite andb_true_iff. split.
    - intros [A B]. destruct (Reqb_spec (re x) (re y)), (Reqb_spec (im x) (im y)); try discriminate. apply C_ext; assumption.
    - intros ->. split; unfold Reqb; destruct (Req_EM_T _ _); auto. }
  assert (H2 : Reqb (im x) 0 && Reqb (re x) a = true <-> x = RtoC a).
  { rewrite andb_true_iff. split.
    - intros [A B]. destruct (Reqb_spec (re x) a), (Reqb_spec (im x) 0); try discriminate. apply C_ext; assumption.
    - intros ->. cbn. split; unfold Reqb; destruct (Req_EM_T _ _); auto. }
  split; [assumption|]. split; [|split; [assumption|]].
  - rewrite <- negb_andb, negb_true_iff, <- not_true_iff_false. rewrite H1. reflexivity.
  - rewrite <- negb_andb, negb_true_iff, <- not_true_iff_false. rewrite H2. reflexivity.
Qed.

(** compound assignment *)
Lemma wr_eq a v m : wr a v m a = v. Proof. unfold wr. rewrite Nat.eqb_refl. reflexivity. Qed.
Lemma wr_ne a b v m : b <> a -> wr a v m b = m b.
Proof. intros H. unfold wr. destruct (Nat.eqb_spec b a); [contradiction|reflexivity]. Qed.
Ltac wrs := repeat first [rewrite wr_eq | rewrite wr_ne by lia].

Lemma compound_thm : forall (m : dmem) x y, disjoint_or_same x y ->
  (at_ (addeqC x y m) x = Cadd (at_ m x) (at_ m y)) /\
  (at_ (subeqC x y m) x = Csub (at_ m x) (at_ m y)) /\
  (at_ (muleqC x y m) x = Cmul (at_ m x) (at_ m y)) /\
  (at_ m y <> C0 -> at_ (diveqC x y m) x = Cdiv (at_ m x) (at_ m y)) /\
  (forall b, b <> x -> b <> S x ->
     addeqC x y m b = m b /\ subeqC x y m b = m b /\ muleqC x y m b = m b /\ diveqC x y m b = m b).
Proof.
  intros m x y H. unfold at_, addeqC, subeqC, muleqC, diveqC.
  assert (D : x = y \/ (x <> y /\ S x <> y /\ x <> S y /\ S x <> S y)) by (unfold disjoint_or_same in H; lia).
  destruct D as [<-|(D1 & D2 & D3 & D4)].
  - repeat split; intros; cbv zeta; wrs; try reflexivity; try (Cext; ring).
  - repeat split; intros; cbv zeta; wrs; try reflexivity; try (Cext; ring).
Qed.
Lemma compound_d_thm : forall (m : dmem) x (a : R),
  at_ (addeqd x a m) x = Cadd (at_ m x) (RtoC a) /\
  at_ (subeqd x a m) x = Csub (at_ m x) (RtoC a) /\
  at_ (muleqd x a m) x = Cmul (at_ m x) (RtoC a) /\
  (a <> 0 -> at_ (diveqd x a m) x = Cdiv (at_ m x) (RtoC a)) /\
  (forall b, b <> x -> b <> S x ->
     addeqd x a m b = m b /\ subeqd x a m b = m b /\ muleqd x a m b = m b /\ diveqd x a m b = m b).
Proof.
  intros m x a. unfold at_, addeqd, subeqd, muleqd, diveqd.
  repeat split; intros; cbv zeta; wrs; try reflexivity; try (Cext; ring).
  all: Cext; field; assumption.
Qed.

(** modulus *)
Lemma abs2_pos z : 0 <= abs2 z.
Proof. unfold abs2. pose proof (Rle_0_sqr (re z)). pose proof (Rle_0_sqr (im z)). unfold Rsqr in *. lra. Qed.
Lemma abs2_mul x y : abs2 (Cmul x y) = abs2 x * abs2 y.
Proof. unfold abs2. cbn. ring. Qed.
Lemma abs_mul x y : cabs (Cmul x y) = cabs x * cabs y.
Proof. unfold cabs. rewrite abs2_mul. apply sqrt_mult; apply abs2_pos. Qed.
Lemma abs_sq z : cabs z * cabs z = abs2 z.
Proof. apply sqrt_sqrt, abs2_pos. Qed.
Lemma abs_ge z : Rabs (re z) <= cabs z.
Proof.
  unfold cabs. rewrite <- sqrt_Rsqr_abs. apply sqrt_le_1; [apply Rle_0_sqr|apply abs2_pos|].
  unfold abs2, Rsqr. pose proof (Rle_0_sqr (im z)). unfold Rsqr in *. lra.
Qed.
Lemma abs_pos z : 0 <= cabs z. Proof. apply sqrt_pos. Qed.
Lemma abs_zero z : cabs z = 0 <-> z = C0.
Proof.
  split.
  - intros H. apply sqrt_eq_0 in H; [|apply abs2_pos]. unfold abs2 in H. destruct (Rplus_sqr_eq_0 (re z) (im z) H). apply C_ext; assumption.
  - intros ->. unfold cabs, abs2. cbn. replace (0 * 0 + 0 * 0) with 0 by ring. apply sqrt_0.
Qed.
Lemma abs_nz z : z <> C0 -> 0 < cabs z.
Proof. intros H. pose proof (abs_pos z). destruct (Req_dec (cabs z) 0) as [E|E]; [apply abs_zero in E; contradiction|lra]. Qed.
Lemma triangle x y : cabs (Cadd x y) <= cabs x + cabs y.
Proof.
  pose proof (abs_pos x). pose proof (abs_pos y). pose proof (abs_sq x). pose proof (abs_sq y). pose proof (abs_sq (Cadd x y)).
  pose proof (abs_pos (Cadd x y)). apply Rsqr_incr_0; [|lra|lra]. unfold Rsqr.
  assert (HC : re x * re y + im x * im y <= cabs x * cabs y).
  { pose proof (abs_ge (Cmul x (Cconj y))) as Hg. rewrite abs_mul in Hg.
    replace (cabs (Cconj y)) with (cabs y) in Hg by (unfold cabs, abs2; cbn; f_equal; ring).
    cbn in Hg. pose proof (Rle_abs (re x * re y - im x * - im y)). lra. }
  unfold abs2 in *. cbn in *. nra.
Qed.

(** square root *)
Lemma sqrt_thm : forall z, Cmul (csqrt z) (csqrt z) = z /\ 0 <= re (csqrt z) /\ (re (csqrt z) = 0 -> 0 <= im (csqrt z)).
Proof.
  intros z. unfold csqrt. pose proof (abs_sq z) as Hsq. pose proof (abs_ge z) as Hge. pose proof (abs_pos z) as Hp.
  destruct (Reqb_spec (cabs z) 0) as [E|E].
  { apply abs_zero in E. subst z. split; [Cext; ring|cbn; lra]. }
  pose proof (Rle_abs (re z)). pose proof (Rle_abs (- re z)) as Hn. rewrite Rabs_Ropp in Hn.
  unfold abs2 in Hsq. destruct (Rlt_dec 0 (re z)) as [Hr|Hr].
  - assert (Hp2 : 0 < / 2 * (cabs z + re z)) by lra. pose proof (sqrt_lt_R0 _ Hp2) as Hs.
    assert (Hss : sqrt (/ 2 * (cabs z + re z)) * sqrt (/ 2 * (cabs z + re z)) = / 2 * (cabs z + re z)) by (apply sqrt_sqrt; lra).
    set (r := sqrt (/ 2 * (cabs z + re z))) in *. split; [|cbn; lra].
    assert (Eim : im z * im z = 4 * (r * r) * (/ 2 * (cabs z - re z))).
    { rewrite Hss. nra. }
    Cext.
    + apply Rmult_eq_reg_l with (r * r); [|nra].
      replace (r * r * (r * r - / 2 * im z / r * (/ 2 * im z / r))) with ((r * r) * (r * r) - / 4 * (im z * im z)) by (field; lra).
      rewrite Eim. replace (r * r * (r * r) - / 4 * (4 * (r * r) * (/ 2 * (cabs z - re z)))) with (r * r * (r * r - / 2 * (cabs z - re z))) by field.
      f_equal. rewrite Hss. field.
    + field. lra.
  - assert (Hp2 : 0 < / 2 * (cabs z - re z)) by lra. pose proof (sqrt_lt_R0 _ Hp2) as Hs.
    assert (Hss : sqrt (/ 2 * (cabs z - re z)) * sqrt (/ 2 * (cabs z - re z)) = / 2 * (cabs z - re z)) by (apply sqrt_sqrt; lra).
    set (s := sqrt (/ 2 * (cabs z - re z))) in *.
    assert (G : forall i, i * i = / 2 * (cabs z - re z) -> i <> 0 -> Cmul (mkC (/ 2 * im z / i) i) (mkC (/ 2 * im z / i) i) = z).
    { intros i Hi Hi0. assert (Eim : im z * im z = 4 * (i * i) * (/ 2 * (cabs z + re z))) by (rewrite Hi; nra).
      Cext.
      - apply Rmult_eq_reg_l with (i * i); [|nra].
        replace (i * i * (/ 2 * im z / i * (/ 2 * im z / i) - i * i)) with (/ 4 * (im z * im z) - i * i * (i * i)) by (field; lra).
        rewrite Eim. replace (/ 4 * (4 * (i * i) * (/ 2 * (cabs z + re z))) - i * i * (i * i)) with (i * i * (/ 2 * (cabs z + re z) - i * i)) by field.
        f_equal. rewrite Hi. field.
      - field. lra. }
    cbv zeta. destruct (Rlt_dec (im z) 0) as [Hi|Hi].
    + split; [apply G; [replace (- s * - s) with (s * s) by ring; assumption|lra]|]. cbn [re im].
      assert (Hd : 0 < / 2 * im z / - s). { replace (/ 2 * im z / - s) with (/ 2 * - im z * / s) by (field; lra). apply Rmult_lt_0_compat; [lra|]. apply Rinv_0_lt_compat; lra. }
      split; lra.
    + split; [apply G; [assumption|lra]|]. cbn [re im]. split; [|lra].
      apply Rmult_le_pos; [lra|]. apply Rlt_le, Rinv_0_lt_compat. assumption.
Qed.

(** argument and powers *)
Lemma cos_sin_atan x y : 0 < x -> let r := sqrt (x * x + y * y) in
  r * cos (atan (y / x)) = x /\ r * sin (atan (y / x)) = y.
Proof.
  intros Hx r. rewrite cos_atan, sin_atan.
  assert (E : sqrt (1 + (y / x)²) = r / x).
  { unfold r. replace (1 + (y / x)²) with ((x * x + y * y) / (x * x)) by (unfold Rsqr; field; lra).
    rewrite sqrt_div; [|nra|nra]. rewrite sqrt_square by lra. reflexivity. }
  rewrite E. assert (0 < r) by (apply sqrt_lt_R0; nra). split; field; lra.
Qed.
Lemma atan2_polar y x : x * x + y * y <> 0 ->
  sqrt (x * x + y * y) * cos (atan2 y x) = x /\ sqrt (x * x + y * y) * sin (atan2 y x) = y.
Proof.
  intros Hz. unfold atan2. destruct (Rlt_dec 0 x) as [Hx|Hx]; [apply cos_sin_atan; assumption|].
  destruct (Rlt_dec x 0) as [Hx'|Hx'].
  - assert (G : sqrt (x * x + y * y) * cos (atan (y / x)) = - x /\ sqrt (x * x + y * y) * sin (atan (y / x)) = - y).
    { pose proof (cos_sin_atan (- x) (- y) ltac:(lra)) as H. cbv zeta in H.
      replace (- x * - x + - y * - y) with (x * x + y * y) in H by ring. replace (- y / - x) with (y / x) in H by (field; lra). exact H. }
    destruct G as [G1 G2]. destruct (Rle_dec 0 y).
    + rewrite neg_cos, neg_sin. split; lra.
    + assert (E1 : cos (atan (y / x) - PI) = - cos (atan (y / x))).
      { rewrite <- neg_cos. replace (atan (y / x) + PI) with (atan (y / x) - PI + 2 * INR 1 * PI) by (cbn; ring). symmetry. apply cos_period. }
      assert (E2 : sin (atan (y / x) - PI) = - sin (atan (y / x))).
      { rewrite <- neg_sin. replace (atan (y / x) + PI) with (atan (y / x) - PI + 2 * INR 1 * PI) by (cbn; ring). symmetry. apply sin_period. }
      rewrite E1, E2. split; lra.
  - assert (x = 0) by lra. subst x. replace (0 * 0 + y * y) with (y * y) in * by ring.
    destruct (Rlt_dec 0 y).
    + rewrite cos_PI2, sin_PI2, sqrt_square by lra. split; ring.
    + destruct (Rlt_dec y 0); [|exfalso; apply Hz; assert (y = 0) by lra; subst; ring].
      rewrite cos_neg, sin_neg, cos_PI2, sin_PI2. replace (y * y) with (- y * - y) by ring. rewrite sqrt_square by lra. split; ring.
Qed.
Lemma atan2_range y x : - PI < atan2 y x <= PI.
Proof.
  unfold atan2. pose proof PI_RGT_0 as Hpi. pose proof (atan_bound (y / x)) as Hb.
  destruct (Rlt_dec 0 x) as [Hx|Hx]; [lra|]. destruct (Rlt_dec x 0) as [Hx'|Hx'].
  - destruct (Rle_dec 0 y) as [Hy|Hy].
    + assert (atan (y / x) <= 0). 
      { destruct (Rle_lt_or_eq_dec 0 y Hy) as [Hy'|<-].
        - rewrite <- atan_0. left. apply atan_increasing. unfold Rdiv. assert (/ x < 0) by (apply Rinv_lt_0_compat; assumption). nra.
        - unfold Rdiv. rewrite Rmult_0_l, atan_0. lra. }
      lra.
    + assert (0 < atan (y / x)). { rewrite <- atan_0. apply atan_increasing. unfold Rdiv. assert (/ x < 0) by (apply Rinv_lt_0_compat; assumption). nra. }
      lra.
  - destruct (Rlt_dec 0 y); [lra|]. destruct (Rlt_dec y 0); lra.
Qed.

Lemma arg_thm : forall z, z <> C0 -> ~ neg_real z -> polar (cabs z) (arg z) = z /\ - PI < arg z <= PI.
Proof.
  intros z Hz Hn. unfold arg, polar, cabs, abs2. pose proof PI_RGT_0 as Hpi. pose proof (norm_nz z Hz) as Hnz.
  destruct (Reqb_spec (im z) 0) as [E|E].
  - assert (0 < re z). { destruct (Rtotal_order (re z) 0) as [H|[H|H]]; [exfalso; apply Hn; split; assumption| |assumption].
      exfalso. apply Hz. apply C_ext; assumption. }
    rewrite cos_0, sin_0, E. replace (re z * re z + 0 * 0) with (re z * re z) by ring. rewrite sqrt_square by lra.
    split; [|lra]. Cext; [ring|]. rewrite E. ring.
  - destruct (atan2_polar (im z) (re z) Hnz) as [H1 H2]. split; [Cext; assumption|apply atan2_range].
Qed.

Lemma Ceqb_d0 z : z <> C0 -> Ceqb_d z 0 = false.
Proof. intros H. destruct (Ceqb_d z 0) eqn:E; [|reflexivity]. apply (eq_thm z z 0) in E. contradiction. Qed.
Lemma Ceqb_00 : Ceqb_d C0 0 = true. Proof. apply (eq_thm C0 C0 0). reflexivity. Qed.
Lemma exp_logr z : z <> C0 -> exp (/ 2 * ln (abs2 z)) = cabs z.
Proof.
  intros Hz. pose proof (abs_nz z Hz) as Hp. rewrite <- abs_sq, ln_mult by assumption.
  replace (/ 2 * (ln (cabs z) + ln (cabs z))) with (ln (cabs z)) by field. apply exp_ln. assumption.
Qed.
Lemma pow_d_add z a b : z <> C0 -> pow_d z (a + b) = Cmul (pow_d z a) (pow_d z b).
Proof.
  intros Hz. unfold pow_d. rewrite Ceqb_d0 by assumption. cbv zeta.
  replace (/ 2 * ln (abs2 z) * (a + b)) with (/ 2 * ln (abs2 z) * a + / 2 * ln (abs2 z) * b) by ring. rewrite exp_plus.
  replace ((a + b) * arg z) with (a * arg z + b * arg z) by ring. rewrite cos_plus, sin_plus. Cext; ring.
Qed.
Lemma pow_d_1 z : z <> C0 -> pow_d z 1 = polar (cabs z) (arg z).
Proof.
  intros Hz. unfold pow_d. rewrite Ceqb_d0 by assumption. cbv zeta. rewrite Rmult_1_r, exp_logr, Rmult_1_l by assumption. reflexivity.
Qed.
Lemma pow_d_0 z : pow_d z 0 = C1.
Proof.
  unfold pow_d. destruct (Ceqb_d z 0).
  - destruct (Reqb_spec 0 0); [reflexivity|contradiction].
  - cbv zeta. rewrite Rmult_0_r, exp_0, Rmult_0_l, cos_0, sin_0. Cext; ring.
Qed.
Lemma pow_thm : forall z, ~ neg_real z -> forall n, pow_d z (INR n) = Cpow z n.
Proof.
  intros z Hn n. destruct (Ceqb_d z 0) eqn:Ez.
  - pose proof Ez as Ez'. apply (eq_thm z z 0) in Ez'. unfold pow_d. rewrite Ez. destruct (Reqb_spec (INR n) 0) as [E|E].
    + destruct n; [reflexivity|]. rewrite S_INR in E. pose proof (pos_INR n). lra.
    + destruct n; [cbn in E; contradiction|]. cbn [Cpow]. rewrite Ez'. Cext; ring.
  - assert (Hz : z <> C0). { intros ->. rewrite Ceqb_00 in Ez. discriminate. }
    induction n as [|n IH]; [apply pow_d_0|]. rewrite S_INR, pow_d_add, IH, pow_d_1 by assumption. cbn [Cpow].
    destruct (arg_thm z Hz Hn) as [-> _]. ring.
Qed.
Lemma pow_complex_thm : forall z u, pow z (RtoC u) = pow_d z u.
Proof.
  intros z u. unfold pow, pow_d. cbn [re im RtoC]. destruct (Ceqb_d z 0).
  - assert (E : Ceqb_d (RtoC u) 0 = Reqb u 0). { unfold Ceqb_d. cbn. destruct (Reqb_spec 0 0); [reflexivity|contradiction]. }
    rewrite E. reflexivity.
  - cbv zeta. rewrite !Rmult_0_r, Rminus_0_r, Rplus_0_l. rewrite (Rmult_comm (arg z) u). reflexivity.
Qed.
Lemma pow_add_thm : forall z v w, z <> C0 -> pow z (Cadd v w) = Cmul (pow z v) (pow z w).
Proof.
  intros z v w Hz. unfold pow. rewrite Ceqb_d0 by assumption. cbv zeta. cbn [re im Cadd].
  set (l := / 2 * ln (abs2 z)). set (th := arg z).
  replace (l * (re v + re w) - th * (im v + im w)) with ((l * re v - th * im v) + (l * re w - th * im w)) by ring.
  rewrite exp_plus. replace (l * (im v + im w) + th * (re v + re w)) with ((l * im v + th * re v) + (l * im w + th * re w)) by ring.
  set (a := l * im v + th * re v). set (b := l * im w + th * re w). rewrite (cos_plus a b), (sin_plus a b). Cext; ring.
Qed.
Lemma pow_refuted : arg (RtoC (-1)) = 0 /\ polar (cabs (RtoC (-1))) (arg (RtoC (-1))) = C1 /\
  pow_d (RtoC (-1)) 1 = C1 /\ pow (RtoC (-1)) C1 = C1 /\ C1 <> RtoC (-1).
Proof.
  assert (Ha : arg (RtoC (-1)) = 0). { unfold arg. cbn. destruct (Reqb_spec 0 0); [reflexivity|contradiction]. }
  assert (Hc : cabs (RtoC (-1)) = 1). { unfold cabs, abs2. cbn. replace (-1 * -1 + 0 * 0) with 1 by ring. apply sqrt_1. }
  assert (Hz : RtoC (-1) <> C0) by (intros E; injection E; lra).
  assert (Hp : polar (cabs (RtoC (-1))) (arg (RtoC (-1))) = C1).
  { rewrite Ha, Hc. unfold polar. rewrite cos_0, sin_0. Cext; ring. }
  assert (Hd : pow_d (RtoC (-1)) 1 = C1) by (rewrite pow_d_1 by assumption; exact Hp).
  repeat split; auto.
  - unfold C1. rewrite pow_complex_thm. exact Hd.
  - intros E. injection E. lra.
Qed.
Lemma exp_thm : forall z w, cexp (Cadd z w) = Cmul (cexp z) (cexp w) /\ cexp C0 = C1 /\ cabs (cexp z) = exp (re z).
Proof.
  intros z w. unfold cexp. split; [|split].
  - cbn [re im Cadd]. rewrite exp_plus. unfold expi. rewrite cos_plus, sin_plus. Cext; ring.
  - cbn [re im C0 RtoC]. rewrite exp_0. unfold expi. rewrite cos_0, sin_0. Cext; ring.
  - unfold cabs, abs2. cbn. set (e := exp (re z)). replace (e * cos (im z) * (e * cos (im z)) + e * sin (im z) * (e * sin (im z)))
      with (e * e * (Rsqr (sin (im z)) + Rsqr (cos (im z)))) by (unfold Rsqr; ring).
    rewrite sin2_cos2, Rmult_1_r. apply sqrt_square. unfold e. left. apply exp_pos.
Qed.

(** SSE2 *)
Lemma sse_thm : forall z w, sse_neg z = Some (vneg z) /\ sse_UNPACKL z w = UNPACKL z w /\
  sse_UNPACKH z w = UNPACKH z w /\ sse_FLIP z = FLIP z /\ sse_CONJ z = Some (CONJ z) /\ sse_ZMULTI z = Some (ZMULTI z).
Proof. intros z w. repeat split. Qed.
