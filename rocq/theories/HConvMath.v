(** The convolution theorem for Hermitian sequences. *)
From Coq Require Import Reals ZArith Arith Lia List Bool.
From Verif Require Import CNum Sums Roots Mem PadModel PadLemmas ConvMath CenModel HerModel HerSpec HerMath HerForward ConvSpec HConvSpec.
Local Open Scope C_scope.

Lemma outh_hseq M H f k : (1 <= H)%nat ->
  outh M H f k = Csum (2 * H - 1) (fun a => Cmul (hseq H f a) (zeta M ((Z.of_nat a - Z.of_nat (H - 1)) * k))).
Proof.
  intros HH. unfold outh. replace (2 * H - 1)%nat with ((H - 1) + S (H - 1))%nat by lia.
  rewrite Csum_split. rewrite Csum_S_l. rewrite Csum_add.
  assert (E0 : Cmul (hseq H f (H - 1 + 0)) (zeta M ((Z.of_nat (H - 1 + 0) - Z.of_nat (H - 1)) * k)) = f 0%nat).
  { unfold hseq. replace (H - 1 + 0 <? H - 1)%nat with false by (symmetry; apply Nat.ltb_ge; lia).
    replace (H - 1 + 0 - (H - 1))%nat with 0%nat by lia. replace ((Z.of_nat (H - 1 + 0) - Z.of_nat (H - 1)) * k)%Z with 0%Z by lia.
    rewrite zeta_0. ring. }
  rewrite E0.
  assert (E1 : Csum (H - 1) (fun i => Cmul (hseq H f (H - 1 + S i)) (zeta M ((Z.of_nat (H - 1 + S i) - Z.of_nat (H - 1)) * k)))
    = Csum (H - 1) (fun i => Cmul (f (i + 1)%nat) (zeta M (Z.of_nat (i + 1) * k)))).
  { apply Csum_ext. intros i Hi. unfold hseq. replace (H - 1 + S i <? H - 1)%nat with false by (symmetry; apply Nat.ltb_ge; lia).
    replace (H - 1 + S i - (H - 1))%nat with (i + 1)%nat by lia. do 2 f_equal. f_equal. lia. }
  rewrite E1.
  rewrite (Csum_rev (H - 1) (fun i => Cmul (hseq H f i) _)).
  assert (E2 : Csum (H - 1) (fun i => Cmul (hseq H f (H - 1 - 1 - i)) (zeta M ((Z.of_nat (H - 1 - 1 - i) - Z.of_nat (H - 1)) * k)))
    = Csum (H - 1) (fun i => Cmul (Cconj (f (i + 1)%nat)) (zeta M (- (Z.of_nat (i + 1) * k))))).
  { apply Csum_ext. intros i Hi. unfold hseq. replace (H - 1 - 1 - i <? H - 1)%nat with true by (symmetry; apply Nat.ltb_lt; lia).
    replace (H - 1 - (H - 1 - 1 - i))%nat with (i + 1)%nat by lia. do 2 f_equal.
    replace (Z.of_nat (H - 1 - 1 - i) - Z.of_nat (H - 1))%Z with (- Z.of_nat (i + 1))%Z by lia. ring. }
  rewrite E2. ring.
Qed.

Lemma zmod0 M z : (0 < M)%nat -> (- Z.of_nat M < z < Z.of_nat M)%Z -> (z mod Z.of_nat M = 0)%Z -> z = 0%Z.
Proof.
  intros HM Hz E. apply Z.mod_divide in E; [|lia]. destruct E as [q E].
  assert (-1 < q < 1)%Z by nia. assert (q = 0)%Z by lia. subst q. lia.
Qed.
Lemma mod_eq_Z M a b : (0 < M)%nat -> ((a mod M =? b mod M)%nat = ((Z.of_nat a - Z.of_nat b) mod Z.of_nat M =? 0)%Z).
Proof.
  intros HM. destruct (Nat.eqb_spec (a mod M) (b mod M)) as [E|E]; symmetry; [apply Z.eqb_eq|apply Z.eqb_neq].
  - rewrite Zminus_mod, <- !Nat2Z.inj_mod, E, Z.sub_diag. apply Z.mod_0_l. lia.
  - intros E'. apply E. apply Nat2Z.inj. rewrite !Nat2Z.inj_mod.
    apply Z.mod_divide in E'; [|lia]. destruct E' as [q E'].
    replace (Z.of_nat a) with (Z.of_nat b + q * Z.of_nat M)%Z by lia. apply Z.mod_add. lia.
Qed.

Lemma hconv_cyc M H (x y : nat -> C) j : (0 < M)%nat -> (1 <= H)%nat -> im (x 0%nat) = 0%R -> im (y 0%nat) = 0%R ->
  hpartial_inverse M M (fun k => k) (fun k => (re (hdft M H x k) * re (hdft M H y k))%R) j =
  Cmul (RtoC (INR M)) (ocyc (H - 1) M (2 * H - 1) (hseq H x) (hseq H y) (j + (H - 1))).
Proof.
  intros HM HH Hx Hy. unfold hpartial_inverse, ocyc. set (L := (2 * H - 1)%nat). set (c := (H - 1)%nat).
  transitivity (Csum M (fun k => Csum L (fun a => Csum L (fun b =>
    Cmul (Cmul (hseq H x a) (hseq H y b)) (zeta M (Z.of_nat k * (Z.of_nat (a + b) - Z.of_nat (j + c + c)))))))).
  { apply Csum_ext. intros k Hk. rewrite !hdft_outh by assumption. rewrite RtoC_mul.
    assert (R : forall z, isreal z -> RtoC (re z) = z).
    { intros z Hz. apply C_ext; cbn; [reflexivity|]. symmetry. apply isreal_im. assumption. }
    rewrite !R by (apply outh_real; apply isreal_im; assumption). rewrite !outh_hseq by assumption. fold L c.
    rewrite <- Csum_mul_r, <- Csum_mul_r. apply Csum_ext. intros a Ha.
    rewrite <- Csum_mul_l, <- Csum_mul_r. apply Csum_ext. intros b Hb.
    replace (expi (- (2 * PI * (INR j * INR k) / INR M))) with (zeta M (- (Z.of_nat j * Z.of_nat k))).
    2: { unfold zeta. f_equal. rewrite opp_IZR, mult_IZR, <- !INR_IZR_INZ. unfold Rdiv. ring. }
    replace (Z.of_nat k * (Z.of_nat (a + b) - Z.of_nat (j + c + c)))%Z with
      ((Z.of_nat a - Z.of_nat c) * Z.of_nat k + (Z.of_nat b - Z.of_nat c) * Z.of_nat k + - (Z.of_nat j * Z.of_nat k))%Z by lia.
    rewrite !zeta_add. ring. }
  rewrite Csum_swap. rewrite <- Csum_mul_l. apply Csum_ext. intros a Ha.
  rewrite Csum_swap. rewrite <- Csum_mul_l. apply Csum_ext. intros b Hb.
  rewrite Csum_mul_l, zeta_orth by assumption. rewrite mod_eq_Z by assumption.
  destruct (_ =? 0)%Z; ring.
Qed.

(** enough padding: no aliases *)
Lemma ocyc_oconv M H (x y : nat -> C) j : (1 <= H)%nat -> (3 * H <= M + 2)%nat -> (j < H)%nat ->
  ocyc (H - 1) M (2 * H - 1) x y (j + (H - 1)) = oconv (H - 1) (2 * H - 1) x y (j + (H - 1)).
Proof.
  intros HH HM Hj. unfold ocyc, oconv. apply Csum_ext. intros a Ha. apply Csum_ext. intros b Hb.
  replace ((a + b) mod M =? (j + (H - 1) + (H - 1)) mod M)%nat with (a + b =? j + (H - 1) + (H - 1))%nat; [reflexivity|].
  rewrite mod_eq_Z by lia.
  destruct (Nat.eqb_spec (a + b) (j + (H - 1) + (H - 1))) as [E|E]; symmetry; [apply Z.eqb_eq|apply Z.eqb_neq].
  - replace (Z.of_nat (a + b) - Z.of_nat (j + (H - 1) + (H - 1)))%Z with 0%Z by lia. apply Z.mod_0_l. lia.
  - intros E'. apply zmod0 in E'; lia.
Qed.
