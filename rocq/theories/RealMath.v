(** Arithmetic of the transforms of real data. *)
From Coq Require Import Reals ZArith Arith Lia Lra List Bool.
From Verif Require Import CNum Sums Roots Mem VecModel PadModel PadMath PadLemmas CenModel HerModel.
Local Open Scope C_scope.

Definition rx (x : nat -> R) (j : nat) : C := RtoC (x j).

Lemma rconj x : Cconj (RtoC x) = RtoC x. Proof. apply C_ext; cbn; ring. Qed.
Lemma outv_conj M L x k : Cconj (outv M L (rx x) k) = outv M L (rx x) (- k).
Proof.
  unfold outv, rx. rewrite Csum_conj. apply Csum_ext. intros j Hj. rewrite Cconj_mul, rconj, <- zeta_neg. f_equal. f_equal. lia.
Qed.
Lemma re_add a b : re (a + b) = (re a + re b)%R. Proof. reflexivity. Qed.
Lemma re_conj a : re (Cconj a) = re a. Proof. reflexivity. Qed.
Lemma re_sum n f : re (Csum n f) = re (Csum n (fun i => RtoC (re (f i)))).
Proof. induction n; cbn [Csum]; [reflexivity|]. rewrite !re_add, IHn. reflexivity. Qed.
Lemma re_scal a z : re (RtoC a * z) = (a * re z)%R. Proof. cbn. ring. Qed.
Lemma im_scal a z : im (RtoC a * z) = (a * im z)%R. Proof. cbn. ring. Qed.
Lemma Cscal_mul a z : Cscal a z = z * RtoC a. Proof. apply C_ext; cbn; ring. Qed.

(** pass 0 *)
Lemma rowval_real m p L M x s : exists v, rowval m p L M 0 (rx x) s = RtoC v.
Proof.
  exists (re (rowval m p L M 0 (rx x) s)). unfold rowval.
  apply C_ext; [reflexivity|]. cbn [im RtoC].
  induction p as [|p IH]; cbn [Csum]; [reflexivity|].
  change (im (?a + ?b)) with (im a + im b)%R. rewrite IH.
  destruct (_ <? L)%nat; [|cbn; ring]. unfold rx. rewrite Z.mul_0_l, zeta_0. cbn. ring.
Qed.
Lemma dft_conj n sg x k : Cconj (dft n sg x k) = dft n (- sg) (fun j => Cconj (x j)) k.
Proof.
  unfold dft. rewrite Csum_conj. apply Csum_ext. intros j Hj. rewrite Cconj_mul, <- zeta_neg. f_equal. f_equal. lia.
Qed.
Lemma r2c_row m p L M q x d k : M = (m * q)%nat -> (0 < m)%nat -> (0 < q)%nat -> (L <= m * p)%nat ->
  (forall s, (s < m)%nat -> RtoC (d s) = rowval m p L M 0 (rx x) s) ->
  r2c m d k = outv M L (rx x) (- (Z.of_nat q * Z.of_nat k)).
Proof.
  intros HM Hm Hq HL Hd. unfold r2c.
  rewrite (dft_ext m (-1) _ (fun s => Cconj (rowval m p L M 0 (rx x) s)) k).
  - pose proof (dft_conj m 1 (rowval m p L M 0 (rx x)) k) as E. cbn [Z.opp] in E. rewrite <- E, (row_dft m p L M q) by assumption.
    rewrite outv_conj. f_equal. lia.
  - intros s Hs. rewrite <- Hd by assumption. symmetry. apply rconj.
Qed.

(** the pass 2r=q *)
Lemma dft_even h y k : (0 < h)%nat -> dft (2 * h) 1 y (2 * k) = dft h 1 (fun s => y s + y (h + s)%nat) k.
Proof.
  intros Hh. unfold dft. replace (2 * h)%nat with (h + h)%nat at 1 by lia. rewrite Csum_split, <- Csum_add.
  apply Csum_ext. intros s Hs.
  assert (E : forall j, zeta (2 * h) (1 * Z.of_nat j * Z.of_nat (2 * k)) = zeta h (1 * Z.of_nat j * Z.of_nat k)).
  { intros j. replace (1 * Z.of_nat j * Z.of_nat (2 * k))%Z with (Z.of_nat 2 * (1 * Z.of_nat j * Z.of_nat k))%Z by lia.
    apply zeta_cancel; lia. }
  rewrite !E.
  assert (E2 : zeta h (1 * Z.of_nat (h + s) * Z.of_nat k) = zeta h (1 * Z.of_nat s * Z.of_nat k)).
  { replace (1 * Z.of_nat (h + s) * Z.of_nat k)%Z with (1 * Z.of_nat s * Z.of_nat k + Z.of_nat h * Z.of_nat k)%Z by lia.
    apply zeta_period. assumption. }
  rewrite E2. ring.
Qed.
Lemma zeta_4_1 : zeta 4 1 = Ci.
Proof.
  unfold zeta, expi. replace (2 * PI * 1 / INR 4)%R with (PI / 2)%R by (cbn; field).
  rewrite cos_PI2, sin_PI2. reflexivity.
Qed.
(** r = q/2, M = m q, m = 2 h *)
Lemma zeta_half h q r (a : Z) : q = (2 * r)%nat -> (0 < h)%nat -> (0 < r)%nat ->
  zeta (2 * h * q) (Z.of_nat r * (Z.of_nat h * a)) = zeta 4 a.
Proof.
  intros -> Hh Hr. replace (2 * h * (2 * r))%nat with ((r * h) * 4)%nat by lia.
  replace (Z.of_nat r * (Z.of_nat h * a))%Z with (Z.of_nat (r * h) * a)%Z by lia. apply zeta_cancel; nia.
Qed.
Lemma zeta_h_1 h q r : q = (2 * r)%nat -> (0 < h)%nat -> (0 < r)%nat -> zeta (2 * h * q) (Z.of_nat r * Z.of_nat h) = Ci.
Proof. intros. rewrite <- (Z.mul_1_r (Z.of_nat h)), (zeta_half h q r) by assumption. apply zeta_4_1. Qed.
Lemma zeta_4_2 : zeta 4 2 = - C1.
Proof. change 2%Z with (1 + 1)%Z. rewrite zeta_add, zeta_4_1. apply C_ext; cbn; ring. Qed.
Lemma zeta_h_2 h q r : q = (2 * r)%nat -> (0 < h)%nat -> (0 < r)%nat -> zeta (2 * h * q) (Z.of_nat r * Z.of_nat (2 * h)) = - C1.
Proof. intros. replace (Z.of_nat (2 * h)) with (Z.of_nat h * 2)%Z by lia. rewrite (zeta_half h q r) by assumption. apply zeta_4_2. Qed.
Lemma zeta_h_3 h q r : q = (2 * r)%nat -> (0 < h)%nat -> (0 < r)%nat -> zeta (2 * h * q) (Z.of_nat r * Z.of_nat (3 * h)) = - Ci.
Proof.
  intros. replace (Z.of_nat (3 * h)) with (Z.of_nat h * 3)%Z by lia. rewrite (zeta_half h q r) by assumption.
  change 3%Z with (2 + 1)%Z. rewrite zeta_add, zeta_4_2, zeta_4_1. apply C_ext; cbn; ring.
Qed.

(** the value that the kernels store in row position s of the pass 2r=q *)
Definition halfrow (h p L M r : nat) (x : nat -> R) (s : nat) : C :=
  let g j := if (j <? L)%nat then x j else 0%R in
  zeta M (Z.of_nat (r * s)) *
  mkC (g s - (if (1 <? p)%nat then g (2 * h + s)%nat else 0))%R (g (h + s)%nat - (if (1 <? p)%nat then g (3 * h + s)%nat else 0))%R.
Lemma halfrow_sum h p L M q r x s : q = (2 * r)%nat -> M = (2 * h * q)%nat -> (0 < h)%nat -> (0 < r)%nat -> (p = 1 \/ p = 2)%nat ->
  (s < h)%nat ->
  rowval (2 * h) p L M (Z.of_nat r) (rx x) s + rowval (2 * h) p L M (Z.of_nat r) (rx x) (h + s) = halfrow h p L M r x s.
Proof.
  intros Hq HM Hh Hr Hp Hs. unfold halfrow, rowval.
  assert (Z1 : zeta M (Z.of_nat r * Z.of_nat s) = zeta M (Z.of_nat (r * s))) by (f_equal; lia).
  assert (Z2 : zeta M (Z.of_nat r * Z.of_nat (h + s)) = Ci * zeta M (Z.of_nat (r * s))).
  { replace (Z.of_nat r * Z.of_nat (h + s))%Z with (Z.of_nat r * Z.of_nat h + Z.of_nat (r * s))%Z by lia.
    rewrite zeta_add. f_equal. rewrite HM. apply zeta_h_1; assumption. }
  assert (Z3 : zeta M (Z.of_nat r * Z.of_nat (2 * h + s)) = - C1 * zeta M (Z.of_nat (r * s))).
  { replace (Z.of_nat r * Z.of_nat (2 * h + s))%Z with (Z.of_nat r * Z.of_nat (2 * h) + Z.of_nat (r * s))%Z by lia.
    rewrite zeta_add. f_equal. rewrite HM. apply zeta_h_2; assumption. }
  assert (Z4 : zeta M (Z.of_nat r * Z.of_nat (3 * h + s)) = - Ci * zeta M (Z.of_nat (r * s))).
  { replace (Z.of_nat r * Z.of_nat (3 * h + s))%Z with (Z.of_nat r * Z.of_nat (3 * h) + Z.of_nat (r * s))%Z by lia.
    rewrite zeta_add. f_equal. rewrite HM. apply zeta_h_3; assumption. }
  assert (E0 : forall j, (2 * h * 0 + j = j)%nat) by (intros; lia).
  assert (E1 : (2 * h * 1 + s = 2 * h + s)%nat) by lia.
  assert (E2 : (2 * h * 1 + (h + s) = 3 * h + s)%nat) by lia.
  assert (P1 : (1 <? 1)%nat = false) by reflexivity. assert (P2 : (1 <? 2)%nat = true) by reflexivity.
  destruct Hp as [-> | ->]; cbn [Csum]; rewrite ?P1, ?P2; rewrite ?E0, ?E1, ?E2; unfold rx.
  - destruct (s <? L)%nat, (h + s <? L)%nat; rewrite ?Z1, ?Z2; apply C_ext; cbn; ring.
  - destruct (s <? L)%nat, (h + s <? L)%nat, (2 * h + s <? L)%nat, (3 * h + s <? L)%nat; rewrite ?Z1, ?Z2, ?Z3, ?Z4; apply C_ext; cbn; ring.
Qed.
Lemma halfrow_dft h p L M q r x y k : q = (2 * r)%nat -> M = (2 * h * q)%nat -> (0 < h)%nat -> (0 < r)%nat -> (p = 1 \/ p = 2)%nat ->
  (L <= 2 * h * p)%nat -> (forall s, (s < h)%nat -> y s = halfrow h p L M r x s) ->
  dft h 1 y k = outv M L (rx x) (Z.of_nat (r + 2 * q * k)).
Proof.
  intros Hq HM Hh Hr Hp HL Hy.
  rewrite (dft_ext h 1 _ (fun s => rowval (2 * h) p L M (Z.of_nat r) (rx x) s + rowval (2 * h) p L M (Z.of_nat r) (rx x) (h + s)) k).
  - rewrite <- (dft_even h (rowval (2 * h) p L M (Z.of_nat r) (rx x)) k) by assumption.
    rewrite (row_dft (2 * h) p L M q) by lia. f_equal. lia.
  - intros s Hs. rewrite Hy by assumption. symmetry. apply (halfrow_sum h p L M q); assumption.
Qed.

(** *** backward *)
(** pass 0 *)
Lemma fold_half m (g : nat -> R) : (0 < m)%nat -> (forall i, (0 < i < m)%nat -> g (m - i)%nat = g i) ->
  re (Csum m (fun i => RtoC (g i))) =
  re (Csum (m / 2 + 1) (fun i => RtoC ((if (2 * i) mod m =? 0 then 1 else 2) * g i)%R)).
Proof.
  intros Hm Hg.
  pose proof (Nat.div_mod m 2 ltac:(lia)) as Hdm. pose proof (Nat.mod_upper_bound m 2 ltac:(lia)) as Hmb.
  set (k := (m / 2)%nat) in *.
  destruct (Nat.eq_dec m 1) as [E1|N1].
  { assert (Hk : k = 0%nat) by lia. clearbody k. subst m k. cbn. ring. }
  assert (Hk : (1 <= k)%nat) by lia.
  (* m = 1 + (k-1) + rest *)
  assert (Hodd : (m = 2 * k \/ m = 2 * k + 1)%nat) by lia.
  assert (HL : (k + 1 = S k)%nat) by lia. rewrite HL.
  rewrite Csum_S_l.
  rewrite (Nat.mul_0_r 2), Nat.mod_0_l by lia. cbn [Nat.eqb].
  destruct Hodd as [Ev|Od].
  - (* even *)
    assert (Ek : k = S (k - 1)) by lia. rewrite Ek at 1. cbn [Csum].
    rewrite re_add. rewrite re_add.
    assert (Lst : (2 * S (k - 1)) mod m = 0%nat) by (replace (2 * S (k - 1))%nat with m by lia; apply Nat.mod_same; lia).
    rewrite Lst. cbn [Nat.eqb].
    rewrite (Csum_ext (k - 1) _ (fun i => RtoC (g (S i)) + RtoC (g (S i)))).
    2:{ intros i Hi. rewrite Nat.mod_small by lia. destruct (Nat.eqb_spec (2 * S i) 0); [lia|]. apply C_ext; cbn; ring. }
    rewrite Csum_add, re_add.
    assert (E : m = (S (k - 1) + (1 + (k - 1)))%nat) by lia.
    rewrite E at 1. rewrite Csum_split, re_add, Csum_S_l, re_add, Csum_split, re_add.
    rewrite (Csum_rev (k - 1) (fun i => RtoC (g (S (k - 1) + (1 + i))%nat))).
    rewrite (Csum_ext (k - 1) (fun i => RtoC (g (S (k - 1) + (1 + (k - 1 - 1 - i)))%nat)) (fun i => RtoC (g (S i)))).
    2:{ intros i Hi. f_equal. replace (S (k - 1) + (1 + (k - 1 - 1 - i)))%nat with (m - S i)%nat by lia. apply Hg. lia. }
    cbn [Csum]. rewrite !re_add. cbn [re RtoC C0]. rewrite Nat.add_0_r. ring.
  - rewrite re_add.
    rewrite (Csum_ext k _ (fun i => RtoC (g (S i)) + RtoC (g (S i)))).
    2:{ intros i Hi. rewrite Nat.mod_small by lia. destruct (Nat.eqb_spec (2 * S i) 0); [lia|]. apply C_ext; cbn; ring. }
    rewrite Csum_add, re_add.
    assert (E : m = (S k + k)%nat) by lia.
    rewrite E at 1. rewrite Csum_split, re_add, Csum_S_l, re_add.
    rewrite (Csum_rev k (fun i => RtoC (g (S k + i)%nat))).
    rewrite (Csum_ext k (fun i => RtoC (g (S k + (k - 1 - i))%nat)) (fun i => RtoC (g (S i)))).
    2:{ intros i Hi. f_equal. replace (S k + (k - 1 - i))%nat with (m - S i)%nat by lia. apply Hg. lia. }
    cbn [re RtoC]. ring.
Qed.
Lemma c2r_fold m y s : (0 < m)%nat ->
  c2r m y s = re (Csum (m / 2 + 1) (fun i => RtoC ((if (2 * i) mod m =? 0 then 1 else 2) * re (y i * zeta m (Z.of_nat i * Z.of_nat s)))%R)).
Proof.
  intros Hm. unfold c2r, dft. rewrite re_sum.
  rewrite (fold_half m (fun i => re (herm m y i * zeta m (1 * Z.of_nat i * Z.of_nat s)))).
  - f_equal. apply Csum_ext. intros i Hi. f_equal. f_equal. unfold herm.
    destruct (Nat.ltb_spec i (m / 2 + 1)); [|lia]. f_equal. f_equal. f_equal. lia.
  - assumption.
  - intros i Hi. unfold herm.
    pose proof (Nat.div_mod m 2 ltac:(lia)) as Hdm. pose proof (Nat.mod_upper_bound m 2 ltac:(lia)) as Hmb.
    assert (Zc : zeta m (1 * Z.of_nat (m - i) * Z.of_nat s) = Cconj (zeta m (1 * Z.of_nat i * Z.of_nat s))).
    { rewrite <- zeta_neg. apply zeta_mod_eq; [assumption|].
      replace (1 * Z.of_nat (m - i) * Z.of_nat s)%Z with (- (1 * Z.of_nat i * Z.of_nat s) + Z.of_nat s * Z.of_nat m)%Z by (rewrite Nat2Z.inj_sub by lia; lia).
      apply Z_mod_plus_full. }
    rewrite Zc.
    destruct (Nat.ltb_spec i (m / 2 + 1)), (Nat.ltb_spec (m - i) (m / 2 + 1)); try lia.
    + assert (E : (m - i = i)%nat) by lia. rewrite E in *. rewrite <- Zc. reflexivity.
    + replace (m - (m - i))%nat with i by lia. cbn. ring.
    + cbn. ring.
Qed.
(** the pass 2r=q *)
Lemma half_back h q r M y j s : q = (2 * r)%nat -> M = (2 * h * q)%nat -> (0 < h)%nat -> (0 < r)%nat ->
  (Z.of_nat j mod Z.of_nat h = Z.of_nat s mod Z.of_nat h)%Z ->
  Csum h (fun k => y k * zeta M (- (Z.of_nat j * Z.of_nat (r + 2 * q * k)))) =
  zeta M (- (Z.of_nat r * Z.of_nat j)) * dft h (-1) y s.
Proof.
  intros Hq HM Hh Hr Hj. unfold dft. rewrite <- Csum_mul_l. apply Csum_ext. intros k Hk.
  replace (- (Z.of_nat j * Z.of_nat (r + 2 * q * k)))%Z with
    (- (Z.of_nat r * Z.of_nat j) + Z.of_nat (2 * q) * (- (Z.of_nat k * Z.of_nat j)))%Z by lia.
  rewrite zeta_add. 
  assert (E : zeta M (Z.of_nat (2 * q) * (- (Z.of_nat k * Z.of_nat j))) = zeta h (-1 * Z.of_nat k * Z.of_nat s)).
  { rewrite HM. replace (2 * h * q)%nat with ((2 * q) * h)%nat by lia. rewrite zeta_cancel by nia.
    apply zeta_mod_eq; [assumption|].
    replace (- (Z.of_nat k * Z.of_nat j))%Z with (- Z.of_nat k * Z.of_nat j)%Z by lia.
    replace (-1 * Z.of_nat k * Z.of_nat s)%Z with (- Z.of_nat k * Z.of_nat s)%Z by lia.
    rewrite Z.mul_mod, Hj, <- Z.mul_mod by lia. reflexivity. }
  rewrite E. ring.
Qed.
