(** Arithmetic of the residue decomposition: rows of a pass and their transforms. *)
From Coq Require Import Reals ZArith Arith Lia List Bool.
From Verif Require Import CNum Sums Roots Mem VecModel PadModel.
Local Open Scope C_scope.

(** The DFT of length M of x_0..x_{L-1} zero padded, at frequency k. *)
Definition outv (M L : nat) (x : nat -> C) (k : Z) : C :=
  Csum L (fun j => x j * zeta M (Z.of_nat j * k)).

Lemma outv_ext M L x y k : (forall j, (j < L)%nat -> x j = y j) -> outv M L x k = outv M L y k.
Proof. intros H. apply Csum_ext. intros. rewrite H by assumption. reflexivity. Qed.

Lemma outv_mod M L x k k' : (0 < M)%nat -> (k mod Z.of_nat M = k' mod Z.of_nat M)%Z ->
  outv M L x k = outv M L x k'.
Proof.
  intros HM H. apply Csum_ext. intros j Hj. f_equal. apply zeta_mod_eq; [assumption|].
  rewrite Z.mul_mod, H, <- Z.mul_mod by lia. reflexivity.
Qed.

(** aliasing: value at s of the row with residue rho *)
Definition rowval (m p L M : nat) (rho : Z) (x : nat -> C) (s : nat) : C :=
  Csum p (fun u => if (m * u + s <? L)%nat then x (m * u + s)%nat * zeta M (rho * Z.of_nat (m * u + s)) else C0).

Lemma zeta_lift m q (k : Z) : (0 < m)%nat -> (0 < q)%nat -> zeta m k = zeta (m * q) (Z.of_nat q * k).
Proof. intros Hm Hq. rewrite Nat.mul_comm. symmetry. apply zeta_cancel; assumption. Qed.

Lemma row_dft m p L M q (rho : Z) x k : M = (m * q)%nat ->
  (0 < m)%nat -> (0 < q)%nat -> (L <= m * p)%nat ->
  dft m 1 (rowval m p L M rho x) k
  = outv M L x (Z.of_nat q * Z.of_nat k + rho).
Proof.
  intros -> Hm Hq HL. unfold outv, dft, rowval.
  transitivity (Csum (m * p) (fun j => if (j <? L)%nat then
      x j * zeta (m * q) (Z.of_nat j * (Z.of_nat q * Z.of_nat k + rho)) else C0)).
  2:{ rewrite (Csum_pad L (m * p)).
      - apply Csum_ext. intros i Hi. destruct (Nat.ltb_spec i L); [reflexivity|lia].
      - assumption.
      - intros i H1 H2. destruct (Nat.ltb_spec i L); [lia|reflexivity]. }
  rewrite (Nat.mul_comm m p), Csum_mul_nat, Csum_swap.
  apply Csum_ext. intros s Hs. rewrite <- Csum_mul_r. apply Csum_ext. intros u Hu.
  destruct (m * u + s <? L)%nat; [|ring].
  rewrite (zeta_lift m q) by assumption.
  replace (Z.of_nat (m * u + s) * (Z.of_nat q * Z.of_nat k + rho))%Z with
        (rho * Z.of_nat (m * u + s) + Z.of_nat q * (1 * Z.of_nat s * Z.of_nat k)
         + Z.of_nat (m * q) * (Z.of_nat u * Z.of_nat k))%Z by lia.
  rewrite !zeta_add, zeta_mult by nia. ring.
Qed.

Lemma rowval_1 m L M rho x s :
  rowval m 1 L M rho x s = if (s <? L)%nat then x s * zeta M (rho * Z.of_nat s) else C0.
Proof.
  unfold rowval. cbn [Csum]. rewrite Nat.mul_0_r. cbn [Nat.add].
  destruct (s <? L)%nat; ring.
Qed.

Lemma rowval_2 m L M rho x s : (m <= L)%nat -> (s < m)%nat ->
  rowval m 2 L M rho x s =
  if (s <? L - m)%nat then x s * zeta M (rho * Z.of_nat s) + x (m + s)%nat * zeta M (rho * Z.of_nat (m + s))
  else x s * zeta M (rho * Z.of_nat s).
Proof.
  intros HL Hs. unfold rowval. cbn [Csum]. rewrite Nat.mul_0_r, Nat.mul_1_r. cbn [Nat.add].
  destruct (Nat.ltb_spec s L); [|lia].
  destruct (Nat.ltb_spec (m + s) L), (Nat.ltb_spec s (L - m)); try lia; ring.
Qed.

(** inner (radix p) stage *)
Lemma inner_fwd m p n L M q r x t s : q = (p * n)%nat -> M = (m * q)%nat ->
  (0 < m)%nat -> (0 < p)%nat -> (0 < n)%nat ->
  dft p 1 (fun u => if (m * u + s <? L)%nat then zeta q (Z.of_nat (r * u)) * x (m * u + s)%nat else C0) t
    * zeta M (Z.of_nat ((n * t + r) * s))
  = rowval m p L M (Z.of_nat (n * t + r)) x s.
Proof.
  intros -> -> Hm Hp Hn. unfold dft, rowval. rewrite <- Csum_mul_r.
  apply Csum_ext. intros u Hu. destruct (m * u + s <? L)%nat; [|ring].
  assert (E1 : zeta (p * n) (Z.of_nat (r * u)) = zeta (m * (p * n)) (Z.of_nat m * Z.of_nat (r * u))).
  { symmetry. apply zeta_cancel; nia. }
  assert (E2 : zeta p (1 * Z.of_nat u * Z.of_nat t) = zeta (m * (p * n)) (Z.of_nat (m * n) * (1 * Z.of_nat u * Z.of_nat t))).
  { replace (m * (p * n))%nat with ((m * n) * p)%nat by lia. symmetry. apply zeta_cancel; nia. }
  rewrite E1, E2.
  replace (Z.of_nat (n * t + r) * Z.of_nat (m * u + s))%Z with
    (Z.of_nat m * Z.of_nat (r * u) + Z.of_nat (m * n) * (1 * Z.of_nat u * Z.of_nat t)
     + Z.of_nat ((n * t + r) * s))%Z by lia.
  rewrite !zeta_add. ring.
Qed.

(** *** backward *)
(** contribution to element j of a row y with residue rho *)
Definition bval (M q m : nat) (rho : Z) (y : nat -> C) (j : nat) : C :=
  Csum m (fun k => y k * zeta M (- (Z.of_nat j * (Z.of_nat q * Z.of_nat k + rho)))).

Lemma bval_row M q m rho y u s : M = (m * q)%nat -> (0 < m)%nat -> (0 < q)%nat ->
  bval M q m rho y (m * u + s) =
  zeta M (- (rho * Z.of_nat (m * u + s))) * dft m (-1) y s.
Proof.
  intros -> Hm Hq. unfold bval, dft. rewrite <- Csum_mul_l.
  apply Csum_ext. intros k Hk. rewrite (zeta_lift m q) by assumption.
  replace (- (Z.of_nat (m * u + s) * (Z.of_nat q * Z.of_nat k + rho)))%Z with
    (- (rho * Z.of_nat (m * u + s)) + Z.of_nat q * (-1 * Z.of_nat k * Z.of_nat s)
     + Z.of_nat (m * q) * (- (Z.of_nat u * Z.of_nat k)))%Z by lia.
  rewrite !zeta_add, zeta_mult by nia. ring.
Qed.

Lemma bval_row0 M q m rho y s : M = (m * q)%nat -> (0 < m)%nat -> (0 < q)%nat ->
  bval M q m rho y s = zeta M (- (rho * Z.of_nat s)) * dft m (-1) y s.
Proof.
  intros HM Hm Hq. pose proof (bval_row M q m rho y 0 s HM Hm Hq) as H.
  rewrite Nat.mul_0_r in H. exact H.
Qed.

Lemma bval_mod M q m rho rho' y j : (0 < M)%nat ->
  (rho mod Z.of_nat M = rho' mod Z.of_nat M)%Z -> bval M q m rho y j = bval M q m rho' y j.
Proof.
  intros HM H. apply Csum_ext. intros k Hk. f_equal. apply zeta_mod_eq; [assumption|].
  rewrite <- !Z.mul_opp_l.
  rewrite Z.mul_mod by lia. rewrite (Z.mul_mod _ (_ + rho')) by lia.
  f_equal. f_equal. rewrite Z.add_mod by lia. rewrite (Z.add_mod _ rho') by lia. rewrite H. reflexivity.
Qed.

Lemma inner_bwd m p n M q r (y : nat -> nat -> C) u s : q = (p * n)%nat -> M = (m * q)%nat ->
  (0 < m)%nat -> (0 < p)%nat -> (0 < n)%nat ->
  Cconj (zeta q (Z.of_nat (r * u))) *
  dft p (-1) (fun t => dft m (-1) (y t) s * Cconj (zeta M (Z.of_nat ((n * t + r) * s)))) u
  = Csum p (fun t => bval M q m (Z.of_nat (n * t + r)) (y t) (m * u + s)).
Proof.
  intros Hq0 HM0 Hm Hp Hn. unfold dft at 1. rewrite <- Csum_mul_l.
  apply Csum_ext. intros t Ht. rewrite (bval_row M q m) by (subst; nia). subst.
  rewrite <- !zeta_neg.
  assert (E1 : zeta (p * n) (- Z.of_nat (r * u)) = zeta (m * (p * n)) (Z.of_nat m * - Z.of_nat (r * u))).
  { symmetry. apply zeta_cancel; nia. }
  assert (E2 : zeta p (-1 * Z.of_nat t * Z.of_nat u) = zeta (m * (p * n)) (Z.of_nat (m * n) * (-1 * Z.of_nat t * Z.of_nat u))).
  { replace (m * (p * n))%nat with ((m * n) * p)%nat by lia. symmetry. apply zeta_cancel; nia. }
  rewrite E1, E2.
  replace (- (Z.of_nat (n * t + r) * Z.of_nat (m * u + s)))%Z with
    (Z.of_nat m * - Z.of_nat (r * u) + Z.of_nat (m * n) * (-1 * Z.of_nat t * Z.of_nat u)
     + - Z.of_nat ((n * t + r) * s))%Z by lia.
  rewrite !zeta_add. ring.
Qed.
