(** Roots of unity  zeta N k = exp(2 pi i k/N). *)
From Coq Require Import Reals Lra Lia ZArith Arith.
From Verif Require Import CNum Sums.
Local Open Scope C_scope.

Definition zeta (N : nat) (k : Z) : C := expi (2 * PI * IZR k / INR N)%R.

Lemma zeta_0 N : zeta N 0 = C1.
Proof. unfold zeta. replace (2 * PI * 0 / INR N)%R with 0%R by (unfold Rdiv; ring). apply expi_0. Qed.

Lemma zeta_add N a b : zeta N (a + b) = zeta N a * zeta N b.
Proof. unfold zeta. rewrite <- expi_add. f_equal. rewrite plus_IZR. unfold Rdiv. ring. Qed.

Lemma zeta_neg N a : zeta N (- a) = Cconj (zeta N a).
Proof. unfold zeta. rewrite <- expi_neg. f_equal. rewrite opp_IZR. unfold Rdiv. ring. Qed.

Lemma zeta_conj_mul N a : zeta N a * Cconj (zeta N a) = C1.
Proof. rewrite <- zeta_neg, <- zeta_add. replace (a + - a)%Z with 0%Z by lia. apply zeta_0. Qed.

Lemma zeta_inv N a : zeta N a * zeta N (- a) = C1.
Proof. rewrite <- zeta_add. replace (a + - a)%Z with 0%Z by lia. apply zeta_0. Qed.

Lemma expi_2PI_nat k : expi (2 * PI * INR k) = C1.
Proof.
  induction k as [|k IH].
  - simpl. rewrite Rmult_0_r. apply expi_0.
  - rewrite S_INR. replace (2 * PI * (INR k + 1))%R with (2 * PI * INR k + 2 * PI)%R by ring.
    rewrite expi_add, IH. unfold expi. rewrite cos_2PI, sin_2PI. apply C_ext; simpl; ring.
Qed.

Lemma expi_2PI_Z k : expi (2 * PI * IZR k) = C1.
Proof.
  destruct (Z_le_gt_dec 0 k) as [H|H].
  - rewrite <- (Z2Nat.id k) by lia. rewrite <- INR_IZR_INZ. apply expi_2PI_nat.
  - replace k with (- Z.of_nat (Z.to_nat (- k)))%Z by lia. rewrite opp_IZR, <- INR_IZR_INZ.
    replace (2 * PI * - INR (Z.to_nat (- k)))%R with (- (2 * PI * INR (Z.to_nat (- k))))%R by ring.
    rewrite expi_neg, expi_2PI_nat. apply C_ext; simpl; ring.
Qed.

Lemma zeta_mult N k : (0 < N)%nat -> zeta N (Z.of_nat N * k) = C1.
Proof.
  intros H. unfold zeta. rewrite mult_IZR, <- INR_IZR_INZ.
  replace (2 * PI * (INR N * IZR k) / INR N)%R with (2 * PI * IZR k)%R.
  - apply expi_2PI_Z.
  - field. apply not_0_INR. lia.
Qed.

Lemma zeta_period N k j : (0 < N)%nat -> zeta N (k + Z.of_nat N * j) = zeta N k.
Proof. intros H. rewrite zeta_add, zeta_mult by assumption. ring. Qed.

Lemma zeta_mod_eq N a b : (0 < N)%nat -> (a mod Z.of_nat N = b mod Z.of_nat N)%Z -> zeta N a = zeta N b.
Proof.
  intros H E. rewrite (Z.div_mod a (Z.of_nat N)) by lia.
  rewrite (Z.div_mod b (Z.of_nat N)) by lia. rewrite E.
  rewrite !(Z.add_comm (Z.of_nat N * _)). rewrite !zeta_period by assumption. reflexivity.
Qed.

Lemma zeta_mod N a : (0 < N)%nat -> zeta N (a mod Z.of_nat N) = zeta N a.
Proof. intros H. apply zeta_mod_eq; [assumption|]. apply Z.mod_mod. lia. Qed.

(** zeta_{aN}^{ak} = zeta_N^k *)
Lemma zeta_cancel a N k : (0 < a)%nat -> (0 < N)%nat ->
  zeta (a * N) (Z.of_nat a * k) = zeta N k.
Proof.
  intros Ha HN. unfold zeta. f_equal. rewrite mult_IZR, mult_INR, <- INR_IZR_INZ.
  field. split; apply not_0_INR; lia.
Qed.

Lemma zeta_cancel_r N a k : (0 < a)%nat -> (0 < N)%nat ->
  zeta (N * a) (k * Z.of_nat a) = zeta N k.
Proof. intros. rewrite (Nat.mul_comm N), (Z.mul_comm k). apply zeta_cancel; assumption. Qed.

Lemma zeta_1 k : zeta 1 k = C1.
Proof. replace k with (Z.of_nat 1 * k)%Z by lia. apply zeta_mult. lia. Qed.

Lemma zeta_2_1 : zeta 2 1 = - C1.
Proof.
  unfold zeta. replace (2 * PI * 1 / INR 2)%R with PI by (simpl; field).
  unfold expi. rewrite cos_PI, sin_PI. apply C_ext; simpl; ring.
Qed.

(** cos is strictly monotone on [0,PI], hence zeta N k <> 1 for 0<k<N. *)
Lemma zeta_neq_1 N k : (0 < k)%Z -> (k < Z.of_nat N)%Z -> zeta N k <> C1.
Proof.
  intros H1 H2 E. unfold zeta in E. injection E as Ec Es.
  set (x := (2 * PI * IZR k / INR N)%R) in *.
  assert (HN : (0 < INR N)%R) by (apply lt_0_INR; lia).
  assert (Hk : (0 < IZR k)%R) by (apply IZR_lt; lia).
  assert (HkN : (IZR k < INR N)%R) by (rewrite INR_IZR_INZ; apply IZR_lt; lia).
  pose proof PI_RGT_0 as HPI.
  assert (Hx0 : (0 < x)%R).
  { unfold x. apply Rdiv_lt_0_compat; [|assumption]. apply Rmult_lt_0_compat; lra. }
  assert (Hx1 : (x < 2 * PI)%R).
  { unfold x. apply (Rmult_lt_reg_r (INR N)); [assumption|].
    unfold Rdiv. rewrite Rmult_assoc, Rinv_l by lra. rewrite Rmult_1_r.
    apply Rmult_lt_compat_l; lra. }
  (* sin(x/2)^2 = (1 - cos x)/2 = 0 with 0 < x/2 < PI *)
  assert (Hs : (0 < sin (x / 2))%R) by (apply sin_gt_0; lra).
  replace x with (2 * (x / 2))%R in Ec by field.
  rewrite cos_2a_sin in Ec. nra.
Qed.

Lemma zeta_neq_1' N k : (0 < N)%nat -> (k mod Z.of_nat N <> 0)%Z -> zeta N k <> C1.
Proof.
  intros HN H. rewrite <- zeta_mod by assumption.
  pose proof (Z.mod_pos_bound k (Z.of_nat N) ltac:(lia)).
  apply zeta_neq_1; lia.
Qed.

(** geometric sum *)
Lemma zeta_sum_tele N j n :
  (zeta N j - C1) * Csum n (fun k => zeta N (Z.of_nat k * j)) = zeta N (Z.of_nat n * j) - C1.
Proof.
  induction n as [|n IH].
  - cbn [Csum]. rewrite zeta_0. ring.
  - cbn [Csum]. transitivity ((zeta N j - C1) * Csum n (fun k => zeta N (Z.of_nat k * j)) +
      (zeta N j - C1) * zeta N (Z.of_nat n * j)); [ring|]. rewrite IH.
    rewrite Nat2Z.inj_succ. replace (Z.succ (Z.of_nat n) * j)%Z with (j + Z.of_nat n * j)%Z by ring.
    rewrite zeta_add. ring.
Qed.

Lemma zeta_orth N j : (0 < N)%nat ->
  Csum N (fun k => zeta N (Z.of_nat k * j)) =
  if (j mod Z.of_nat N =? 0)%Z then RtoC (INR N) else C0.
Proof.
  intros HN. destruct (Z.eqb_spec (j mod Z.of_nat N) 0) as [E|E].
  - rewrite (Csum_ext _ _ (fun _ => C1)).
    + rewrite Csum_const. ring.
    + intros k _. rewrite (Z.div_mod j (Z.of_nat N)) by lia. rewrite E.
      replace (Z.of_nat k * (Z.of_nat N * (j / Z.of_nat N) + 0))%Z
        with (Z.of_nat N * (Z.of_nat k * (j / Z.of_nat N)))%Z by ring.
      apply zeta_mult. assumption.
  - apply (Cmul_integral (zeta N j - C1)).
    + rewrite zeta_sum_tele, zeta_mult by assumption. ring.
    + intros H. apply (zeta_neq_1' N j HN E).
      replace (zeta N j) with ((zeta N j - C1) + C1) by ring. rewrite H. ring.
Qed.
