(** Three-dimensional DFT facts: inversion, Hermitian symmetry of real data, shift theorem. *)
From Coq Require Import Reals ZArith Arith List Bool Lia Ring.
From Verif Require Import CNum Sums Roots Mem FftwModel.
Local Open Scope C_scope.

Definition Csum3 (n1 n2 n3 : nat) (f : nat -> nat -> nat -> C) : C :=
  Csum n1 (fun i => Csum n2 (fun j => Csum n3 (fun k => f i j k))).

Lemma Csum3_ext n1 n2 n3 f g :
  (forall i j k, (i < n1)%nat -> (j < n2)%nat -> (k < n3)%nat -> f i j k = g i j k) ->
  Csum3 n1 n2 n3 f = Csum3 n1 n2 n3 g.
Proof.
  intros H. unfold Csum3. apply Csum_ext. intros i Hi. apply Csum_ext. intros j Hj.
  apply Csum_ext. intros k Hk. auto.
Qed.
Lemma Csum3_mul_l n1 n2 n3 a f : Csum3 n1 n2 n3 (fun i j k => a * f i j k) = a * Csum3 n1 n2 n3 f.
Proof.
  unfold Csum3. rewrite <- Csum_mul_l. apply Csum_ext. intros i _.
  rewrite <- Csum_mul_l. apply Csum_ext. intros j _. apply Csum_mul_l.
Qed.
Lemma Csum3_mul_r n1 n2 n3 a f : Csum3 n1 n2 n3 (fun i j k => f i j k * a) = Csum3 n1 n2 n3 f * a.
Proof.
  rewrite Cmul_comm, <- Csum3_mul_l. apply Csum3_ext. intros. apply Cmul_comm.
Qed.
Lemma Csum3_conj n1 n2 n3 f : Cconj (Csum3 n1 n2 n3 f) = Csum3 n1 n2 n3 (fun i j k => Cconj (f i j k)).
Proof.
  unfold Csum3. rewrite Csum_conj. apply Csum_ext. intros i _.
  rewrite Csum_conj. apply Csum_ext. intros j _. apply Csum_conj.
Qed.
Lemma Csum3_sum1 n1 n2 n3 n (f : nat -> nat -> nat -> nat -> C) :
  Csum3 n1 n2 n3 (fun i j k => Csum n (fun a => f i j k a)) =
  Csum n (fun a => Csum3 n1 n2 n3 (fun i j k => f i j k a)).
Proof.
  unfold Csum3. symmetry. rewrite Csum_swap. apply Csum_ext. intros i _.
  rewrite Csum_swap. apply Csum_ext. intros j _. apply Csum_swap.
Qed.
Lemma Csum3_swap n1 n2 n3 m1 m2 m3 (f : nat -> nat -> nat -> nat -> nat -> nat -> C) :
  Csum3 n1 n2 n3 (fun i j k => Csum3 m1 m2 m3 (fun a b c => f i j k a b c)) =
  Csum3 m1 m2 m3 (fun a b c => Csum3 n1 n2 n3 (fun i j k => f i j k a b c)).
Proof.
  unfold Csum3 at 2 3. rewrite Csum3_sum1. apply Csum_ext. intros a _.
  rewrite Csum3_sum1. apply Csum_ext. intros b _. apply Csum3_sum1.
Qed.
Lemma Csum3_prod n1 n2 n3 A B D :
  Csum3 n1 n2 n3 (fun i j k => A i * (B j * D k)) = Csum n1 A * (Csum n2 B * Csum n3 D).
Proof.
  unfold Csum3. rewrite <- Csum_mul_r. apply Csum_ext. intros i _.
  rewrite <- Csum_mul_r, <- Csum_mul_l. apply Csum_ext. intros j _.
  rewrite <- Csum_mul_l, <- Csum_mul_l. apply Csum_ext. intros k _. ring.
Qed.
Lemma Csum3_single n1 n2 n3 a b c f : (a < n1)%nat -> (b < n2)%nat -> (c < n3)%nat ->
  (forall i j k, (i < n1)%nat -> (j < n2)%nat -> (k < n3)%nat -> (i, j, k) <> (a, b, c) -> f i j k = C0) ->
  Csum3 n1 n2 n3 f = f a b c.
Proof.
  intros Ha Hb Hc H. unfold Csum3.
  rewrite (Csum_single n1 a), (Csum_single n2 b), (Csum_single n3 c); auto.
  - intros k Hk Hne. apply H; auto. congruence.
  - intros j Hj Hne. apply Csum_zero. intros k Hk. apply H; auto. congruence.
  - intros i Hi Hne. apply Csum_zero. intros j Hj. apply Csum_zero. intros k Hk. apply H; auto. congruence.
Qed.

Lemma orth1 n (sg : Z) i a : sg = 1%Z \/ sg = (-1)%Z -> (i < n)%nat -> (a < n)%nat ->
  Csum n (fun k => zeta n (sg * Z.of_nat i * Z.of_nat k) * zeta n (- sg * Z.of_nat k * Z.of_nat a)) =
  if (i =? a)%nat then RtoC (INR n) else C0.
Proof.
  intros Hsg Hi Ha.
  rewrite (Csum_ext n _ (fun k => zeta n (Z.of_nat k * (sg * (Z.of_nat i - Z.of_nat a))))).
  2:{ intros k _. rewrite <- zeta_add. f_equal. ring. }
  rewrite zeta_orth by lia.
  destruct (Nat.eqb_spec i a) as [->|Hne].
  - replace (sg * (Z.of_nat a - Z.of_nat a))%Z with 0%Z by ring. rewrite Z.mod_0_l by lia. reflexivity.
  - destruct (Z.eqb_spec ((sg * (Z.of_nat i - Z.of_nat a)) mod Z.of_nat n) 0) as [E|]; [|reflexivity].
    exfalso. apply Z.mod_divide in E; [|lia]. destruct E as [z E].
    destruct (Z.eq_dec z 0) as [->|Hz]; [destruct Hsg; subst sg; lia|].
    assert (Z.abs (z * Z.of_nat n) < Z.of_nat n)%Z by (rewrite <- E; destruct Hsg; subst sg; lia).
    rewrite Z.abs_mul in H. assert (1 <= Z.abs z)%Z by lia.
    assert (1 * Z.abs (Z.of_nat n) <= Z.abs z * Z.abs (Z.of_nat n))%Z by (apply Z.mul_le_mono_nonneg_r; lia). lia.
Qed.

Lemma dft3_ext n1 n2 n3 sg f g a b c :
  (forall i j k, (i < n1)%nat -> (j < n2)%nat -> (k < n3)%nat -> f i j k = g i j k) ->
  dft3 n1 n2 n3 sg f a b c = dft3 n1 n2 n3 sg g a b c.
Proof. intros H. apply Csum3_ext. intros. rewrite H by assumption. reflexivity. Qed.

Lemma dft3_inverse n1 n2 n3 sg f a b c : sg = 1%Z \/ sg = (-1)%Z ->
  (a < n1)%nat -> (b < n2)%nat -> (c < n3)%nat ->
  dft3 n1 n2 n3 (- sg) (dft3 n1 n2 n3 sg f) a b c = RtoC (INR (n1 * n2 * n3)) * f a b c.
Proof.
  intros Hsg Ha Hb Hc. unfold dft3 at 1.
  change (Csum3 n1 n2 n3 (fun i j k => dft3 n1 n2 n3 sg f i j k *
     (zeta n1 (- sg * Z.of_nat i * Z.of_nat a) * (zeta n2 (- sg * Z.of_nat j * Z.of_nat b) *
      zeta n3 (- sg * Z.of_nat k * Z.of_nat c)))) = RtoC (INR (n1 * n2 * n3)) * f a b c).
  erewrite Csum3_ext.
  2:{ intros i j k _ _ _.
      change (dft3 n1 n2 n3 sg f i j k) with
        (Csum3 n1 n2 n3 (fun u v w => f u v w * (zeta n1 (sg * Z.of_nat u * Z.of_nat i) *
          (zeta n2 (sg * Z.of_nat v * Z.of_nat j) * zeta n3 (sg * Z.of_nat w * Z.of_nat k))))).
      rewrite <- Csum3_mul_r. reflexivity. }
  rewrite Csum3_swap.
  erewrite Csum3_ext.
  2:{ intros u v w Hu Hv Hw.
      erewrite Csum3_ext.
      2:{ intros i j k _ _ _.
          instantiate (1 := fun i j k => f u v w *
            ((zeta n1 (sg * Z.of_nat u * Z.of_nat i) * zeta n1 (- sg * Z.of_nat i * Z.of_nat a)) *
            ((zeta n2 (sg * Z.of_nat v * Z.of_nat j) * zeta n2 (- sg * Z.of_nat j * Z.of_nat b)) *
             (zeta n3 (sg * Z.of_nat w * Z.of_nat k) * zeta n3 (- sg * Z.of_nat k * Z.of_nat c))))).
          cbn beta. ring. }
      rewrite Csum3_mul_l.
      rewrite (Csum3_prod n1 n2 n3
        (fun i => zeta n1 (sg * Z.of_nat u * Z.of_nat i) * zeta n1 (- sg * Z.of_nat i * Z.of_nat a))
        (fun j => zeta n2 (sg * Z.of_nat v * Z.of_nat j) * zeta n2 (- sg * Z.of_nat j * Z.of_nat b))
        (fun k => zeta n3 (sg * Z.of_nat w * Z.of_nat k) * zeta n3 (- sg * Z.of_nat k * Z.of_nat c))).
      rewrite !orth1 by assumption. reflexivity. }
  rewrite (Csum3_single n1 n2 n3 a b c) by (try assumption;
    intros i j k Hi Hj Hk Hne;
    destruct (Nat.eqb_spec i a), (Nat.eqb_spec j b), (Nat.eqb_spec k c); subst; try congruence; ring).
  rewrite !Nat.eqb_refl. rewrite !mult_INR, !RtoC_mul. ring.
Qed.

Lemma zeta_period' n x y : (0 < n)%nat -> (exists z, x = y + Z.of_nat n * z)%Z -> zeta n x = zeta n y.
Proof. intros H [z ->]. apply zeta_period. assumption. Qed.

Lemma neg_mod n a : (a < n)%nat -> exists z, (Z.of_nat ((n - a) mod n) = - Z.of_nat a + Z.of_nat n * z)%Z.
Proof.
  intros H. destruct (Nat.eq_dec a 0) as [->|Ha].
  - rewrite Nat.sub_0_r, Nat.mod_same by lia. exists 0%Z. lia.
  - rewrite Nat.mod_small by lia. exists 1%Z. lia.
Qed.

Lemma zeta_neg_mod n sg i a : (a < n)%nat ->
  zeta n (sg * Z.of_nat i * Z.of_nat ((n - a) mod n)) = Cconj (zeta n (sg * Z.of_nat i * Z.of_nat a)).
Proof.
  intros H. destruct (neg_mod n a H) as [z E]. rewrite E, <- zeta_neg.
  apply zeta_period'; [lia|]. exists (sg * Z.of_nat i * z)%Z. ring.
Qed.

(** real data has a Hermitian spectrum *)
Lemma dft3_real_herm n1 n2 n3 sg (f : nat -> nat -> nat -> R) :
  hermitian3 n1 n2 n3 (dft3 n1 n2 n3 sg (fun i j k => RtoC (f i j k))).
Proof.
  intros a b c Ha Hb Hc.
  change (Csum3 n1 n2 n3 (fun i j k => RtoC (f i j k) *
     (zeta n1 (sg * Z.of_nat i * Z.of_nat ((n1 - a) mod n1)) *
     (zeta n2 (sg * Z.of_nat j * Z.of_nat ((n2 - b) mod n2)) *
      zeta n3 (sg * Z.of_nat k * Z.of_nat ((n3 - c) mod n3))))) =
   Cconj (Csum3 n1 n2 n3 (fun i j k => RtoC (f i j k) *
     (zeta n1 (sg * Z.of_nat i * Z.of_nat a) *
     (zeta n2 (sg * Z.of_nat j * Z.of_nat b) *
      zeta n3 (sg * Z.of_nat k * Z.of_nat c)))))).
  rewrite Csum3_conj. apply Csum3_ext. intros i j k _ _ _.
  rewrite !zeta_neg_mod by assumption. rewrite !Cconj_mul.
  replace (Cconj (RtoC (f i j k))) with (RtoC (f i j k)) by (Cext; ring). reflexivity.
Qed.

(** (-1)^i *)
Definition sgn (i : nat) : C := if Nat.odd i then - C1 else C1.

Lemma zeta_half n (sg : Z) i : (0 < n)%nat -> (n mod 2 = 0)%nat -> sg = 1%Z \/ sg = (-1)%Z ->
  zeta n (sg * Z.of_nat i * Z.of_nat (n / 2)) = sgn i.
Proof.
  intros H0 He Hsg.
  pose proof (Nat.div_mod n 2 ltac:(lia)) as En. rewrite He in En.
  replace n with (2 * (n / 2))%nat at 1 by lia.
  rewrite zeta_cancel_r by lia.
  unfold sgn. rewrite <- zeta_2_1.
  destruct (Nat.odd i) eqn:Eo.
  - apply Nat.odd_spec in Eo as [k ->]. apply zeta_period'; [lia|].
    destruct Hsg; subst sg; [exists (Z.of_nat k)|exists (- Z.of_nat k - 1)%Z]; lia.
  - assert (Nat.even i = true) by (rewrite <- Nat.negb_odd, Eo; reflexivity).
    apply Nat.even_spec in H as [k ->]. rewrite <- (zeta_0 2). apply zeta_period'; [lia|].
    exists (sg * Z.of_nat k)%Z. lia.
Qed.

Lemma zeta_shift n sg i a : (0 < n)%nat -> (n mod 2 = 0)%nat -> sg = 1%Z \/ sg = (-1)%Z ->
  zeta n (sg * Z.of_nat i * Z.of_nat ((a + n / 2) mod n)) = sgn i * zeta n (sg * Z.of_nat i * Z.of_nat a).
Proof.
  intros H0 He Hsg. rewrite <- (zeta_half n sg i) by assumption. rewrite <- zeta_add.
  apply zeta_mod_eq; [assumption|].
  rewrite <- Z.mul_add_distr_l, <- Nat2Z.inj_add, (Nat.add_comm (n / 2)).
  rewrite Nat2Z.inj_mod. rewrite Zmult_mod_idemp_r. reflexivity.
Qed.

Lemma sgn_sq i : sgn i * sgn i = C1.
Proof. unfold sgn. destruct (Nat.odd i); ring. Qed.
Lemma sgn_add i j : sgn (i + j) = sgn i * sgn j.
Proof. unfold sgn. rewrite Nat.odd_add. destruct (Nat.odd i), (Nat.odd j); simpl; ring. Qed.

(** shift theorem: multiplying by (-1)^j moves the spectrum by n2/2; by (-1)^(i+j) moves both *)
Lemma dft3_shift2 n1 n2 n3 sg f a b c : (0 < n2)%nat -> (n2 mod 2 = 0)%nat -> sg = 1%Z \/ sg = (-1)%Z ->
  dft3 n1 n2 n3 sg (fun i j k => sgn j * f i j k) a b c = dft3 n1 n2 n3 sg f a ((b + n2 / 2) mod n2)%nat c.
Proof.
  intros H0 He Hsg. apply Csum3_ext. intros i j k _ _ _. rewrite (zeta_shift n2) by assumption. ring.
Qed.
Lemma dft3_shift3 n1 n2 n3 sg f a b c : (0 < n1)%nat -> (n1 mod 2 = 0)%nat ->
  (0 < n2)%nat -> (n2 mod 2 = 0)%nat -> sg = 1%Z \/ sg = (-1)%Z ->
  dft3 n1 n2 n3 sg (fun i j k => sgn (i + j) * f i j k) a b c =
  dft3 n1 n2 n3 sg f ((a + n1 / 2) mod n1)%nat ((b + n2 / 2) mod n2)%nat c.
Proof.
  intros H1 E1 H2 E2 Hsg. apply Csum3_ext. intros i j k _ _ _.
  rewrite (zeta_shift n1), (zeta_shift n2) by assumption. rewrite sgn_add. ring.
Qed.

Lemma half_shift_inv n a : (0 < n)%nat -> (n mod 2 = 0)%nat -> (a < n)%nat -> (((a + n / 2) mod n + n / 2) mod n = a)%nat.
Proof.
  intros H0 He Ha. pose proof (Nat.div_mod n 2 ltac:(lia)) as En. rewrite He in En.
  rewrite Nat.add_mod_idemp_l by lia. replace (a + n / 2 + n / 2)%nat with (a + 1 * n)%nat by lia.
  rewrite Nat.mod_add by lia. apply Nat.mod_small. assumption.
Qed.

(** summing over a shifted index *)
Lemma Csum_half n f : (0 < n)%nat -> (n mod 2 = 0)%nat -> Csum n (fun a => f ((a + n / 2) mod n)%nat) = Csum n f.
Proof.
  intros H0 He. apply (Csum_reindex n f (fun a => (a + n / 2) mod n)%nat).
  - intros i Hi. apply Nat.mod_upper_bound. lia.
  - intros i j Hi Hj E. rewrite <- (half_shift_inv n i), <- (half_shift_inv n j) by assumption. rewrite E. reflexivity.
Qed.
(** dft of a shifted spectrum *)
Lemma dft3_of_shift2 n1 n2 n3 sg F a b c : (0 < n2)%nat -> (n2 mod 2 = 0)%nat -> sg = 1%Z \/ sg = (-1)%Z ->
  dft3 n1 n2 n3 sg (fun i j k => F i ((j + n2 / 2) mod n2)%nat k) a b c = sgn b * dft3 n1 n2 n3 sg F a b c.
Proof.
  intros H0 He Hsg.
  change (sgn b * dft3 n1 n2 n3 sg F a b c) with
    (sgn b * Csum3 n1 n2 n3 (fun i j k => F i j k * (zeta n1 (sg * Z.of_nat i * Z.of_nat a) *
       (zeta n2 (sg * Z.of_nat j * Z.of_nat b) * zeta n3 (sg * Z.of_nat k * Z.of_nat c))))).
  rewrite <- Csum3_mul_l. unfold dft3, Csum3. apply Csum_ext. intros i _.
  etransitivity; [|apply (Csum_half n2); assumption].
  apply Csum_ext. intros j Hj. apply Csum_ext. intros k _.
  replace (sg * Z.of_nat ((j + n2 / 2) mod n2) * Z.of_nat b)%Z with
    (sg * Z.of_nat b * Z.of_nat ((j + n2 / 2) mod n2))%Z by ring.
  rewrite zeta_shift by assumption.
  replace (sg * Z.of_nat b * Z.of_nat j)%Z with (sg * Z.of_nat j * Z.of_nat b)%Z by ring.
  transitivity ((sgn b * sgn b) * (F i ((j + n2 / 2) mod n2)%nat k * (zeta n1 (sg * Z.of_nat i * Z.of_nat a) *
       (zeta n2 (sg * Z.of_nat j * Z.of_nat b) * zeta n3 (sg * Z.of_nat k * Z.of_nat c))))); [rewrite sgn_sq|]; ring.
Qed.
Lemma dft3_of_shift1 n1 n2 n3 sg F a b c : (0 < n1)%nat -> (n1 mod 2 = 0)%nat -> sg = 1%Z \/ sg = (-1)%Z ->
  dft3 n1 n2 n3 sg (fun i j k => F ((i + n1 / 2) mod n1)%nat j k) a b c = sgn a * dft3 n1 n2 n3 sg F a b c.
Proof.
  intros H0 He Hsg.
  change (sgn a * dft3 n1 n2 n3 sg F a b c) with
    (sgn a * Csum3 n1 n2 n3 (fun i j k => F i j k * (zeta n1 (sg * Z.of_nat i * Z.of_nat a) *
       (zeta n2 (sg * Z.of_nat j * Z.of_nat b) * zeta n3 (sg * Z.of_nat k * Z.of_nat c))))).
  rewrite <- Csum3_mul_l. unfold dft3, Csum3.
  etransitivity; [|apply (Csum_half n1); assumption].
  apply Csum_ext. intros i Hi. apply Csum_ext. intros j Hj. apply Csum_ext. intros k _.
  replace (sg * Z.of_nat ((i + n1 / 2) mod n1) * Z.of_nat a)%Z with
    (sg * Z.of_nat a * Z.of_nat ((i + n1 / 2) mod n1))%Z by ring.
  rewrite zeta_shift by assumption.
  replace (sg * Z.of_nat a * Z.of_nat i)%Z with (sg * Z.of_nat i * Z.of_nat a)%Z by ring.
  transitivity ((sgn a * sgn a) * (F ((i + n1 / 2) mod n1)%nat j k * (zeta n1 (sg * Z.of_nat i * Z.of_nat a) *
       (zeta n2 (sg * Z.of_nat j * Z.of_nat b) * zeta n3 (sg * Z.of_nat k * Z.of_nat c))))); [rewrite sgn_sq|]; ring.
Qed.
Lemma dft3_of_shift3 n1 n2 n3 sg F a b c : (0 < n1)%nat -> (n1 mod 2 = 0)%nat ->
  (0 < n2)%nat -> (n2 mod 2 = 0)%nat -> sg = 1%Z \/ sg = (-1)%Z ->
  dft3 n1 n2 n3 sg (fun i j k => F ((i + n1 / 2) mod n1)%nat ((j + n2 / 2) mod n2)%nat k) a b c =
  sgn (a + b) * dft3 n1 n2 n3 sg F a b c.
Proof.
  intros. rewrite (dft3_of_shift1 n1 n2 n3 sg (fun i j k => F i ((j + n2 / 2) mod n2)%nat k)) by assumption.
  rewrite dft3_of_shift2 by assumption. rewrite sgn_add. ring.
Qed.

(** a spectrum shifted by half the size in one axis stays Hermitian *)
Lemma neg_shift n a : (0 < n)%nat -> (n mod 2 = 0)%nat -> (a < n)%nat ->
  (((n - a) mod n + n / 2) mod n = (n - (a + n / 2) mod n) mod n)%nat.
Proof.
  intros H0 He Ha. pose proof (Nat.div_mod n 2 ltac:(lia)) as En. rewrite He in En.
  rewrite Nat.add_mod_idemp_l by lia.
  destruct (Nat.lt_ge_cases (a + n / 2) n) as [H|H].
  - rewrite (Nat.mod_small (a + n / 2)) by assumption.
    destruct (Nat.le_gt_cases (n - a + n / 2) n).
    + destruct (Nat.eq_dec (n - a + n / 2) n) as [E|].
      * rewrite E, Nat.mod_same by lia. assert (a = n / 2)%nat by lia. lia.
      * rewrite !Nat.mod_small by lia. lia.
    + replace (n - a + n / 2)%nat with (n - (a + n / 2) + 1 * n)%nat by lia. rewrite Nat.mod_add by lia. reflexivity.
  - replace (a + n / 2)%nat with (a - n / 2 + 1 * n)%nat at 1 by lia.
    rewrite Nat.mod_add, (Nat.mod_small (a - n / 2)) by lia. f_equal. lia.
Qed.
