(** The convolution theorem for multidimensional Hermitian data. *)
From Coq Require Import Reals ZArith Arith Lia Lra List Bool.
From Verif Require Import CNum Sums Roots Mem PadModel PadLemmas ConvMath CenModel HerModel HerSpec HerMath HerForward ConvSpec HConvSpec HConvMath
  LayerSpec LayerProofs HLayerSpec ConvProofs Layer9.
Local Open Scope C_scope.

Lemma odft_z c M L x k : (0 < M)%nat -> odft c M L x k = Csum L (fun j => Cmul (x j) (zeta M ((Z.of_nat j - Z.of_nat c) * Z.of_nat k))).
Proof.
  intros HM. unfold odft. apply Csum_ext. intros j Hj. f_equal. unfold zeta. f_equal.
  rewrite mult_IZR, minus_IZR, <- !INR_IZR_INZ. unfold Rdiv. ring.
Qed.
Lemma oidft_z c M y j : (0 < M)%nat -> oidft c M y j = Csum M (fun k => Cmul (y k) (zeta M (- ((Z.of_nat j - Z.of_nat c) * Z.of_nat k)))).
Proof.
  intros HM. unfold oidft. apply Csum_ext. intros k Hk. f_equal. unfold zeta. f_equal.
  rewrite opp_IZR, mult_IZR, minus_IZR, <- !INR_IZR_INZ. unfold Rdiv. ring.
Qed.

Lemma odft_cyc c M K f g i : (0 < M)%nat ->
  oidft c M (fun k => Cmul (odft c M K f k) (odft c M K g k)) i = Cmul (RtoC (INR M)) (ocyc c M K f g i).
Proof.
  intros HM. rewrite oidft_z by assumption. unfold ocyc.
  transitivity (Csum M (fun k => Csum K (fun a => Csum K (fun b =>
    Cmul (Cmul (f a) (g b)) (zeta M (Z.of_nat k * (Z.of_nat (a + b) - Z.of_nat (i + c)))))))).
  { apply Csum_ext. intros k Hk. rewrite !odft_z by assumption.
    rewrite <- Csum_mul_r, <- Csum_mul_r. apply Csum_ext. intros a Ha.
    rewrite <- Csum_mul_l, <- Csum_mul_r. apply Csum_ext. intros b Hb.
    replace (Z.of_nat k * (Z.of_nat (a + b) - Z.of_nat (i + c)))%Z with
      ((Z.of_nat a - Z.of_nat c) * Z.of_nat k + (Z.of_nat b - Z.of_nat c) * Z.of_nat k + - ((Z.of_nat i - Z.of_nat c) * Z.of_nat k))%Z by lia.
    rewrite !zeta_add. ring. }
  rewrite Csum_swap. rewrite <- Csum_mul_l. apply Csum_ext. intros a Ha.
  rewrite Csum_swap. rewrite <- Csum_mul_l. apply Csum_ext. intros b Hb.
  rewrite Csum_mul_l, zeta_orth by assumption. rewrite mod_eq_Z by assumption.
  destruct (_ =? 0)%Z; ring.
Qed.

(** row of the x transform: its Hermitian extension is the transform of the full array *)
Section Full.
Variables (c M L : nat).
Hypothesis HM : (0 < M)%nat.
Hypothesis HL : (L <= 2 * c + 1)%nat.
Notation K := (2 * c + 1)%nat.
Lemma odft_long x k : odft c M L x k = odft c M K (fun i => if (i <? L)%nat then x i else C0) k.
Proof.
  unfold odft. symmetry. rewrite (Csum_pad L K) by (try lia; intros i H1 H2; replace (i <? L)%nat with false by (symmetry; apply Nat.ltb_ge; lia); ring).
  apply Csum_ext. intros i Hi. replace (i <? L)%nat with true by (symmetry; apply Nat.ltb_lt; lia). reflexivity.
Qed.
(** the conjugate of a transform is the transform of the reversed conjugate *)
Lemma odft_conj x k : Cconj (odft c M K x k) = odft c M K (fun i => Cconj (x (2 * c - i)%nat)) k.
Proof.
  rewrite !odft_z by assumption. rewrite Csum_conj. rewrite Csum_rev. apply Csum_ext. intros i Hi.
  replace (K - 1 - i)%nat with (2 * c - i)%nat by lia. rewrite Cconj_mul, <- zeta_neg. f_equal. f_equal. replace (Z.of_nat (2 * c - i)) with (2 * Z.of_nat c - Z.of_nat i)%Z by lia. ring.
Qed.
Lemma row_full H x k j : (1 <= H)%nat -> (j < 2 * H - 1)%nat ->
  hseq H (fun j => odft c M L (fun i => x i j) k) j = odft c M K (fun i => full2 c L H x i j) k.
Proof.
  intros HH Hj. unfold hseq, full2. destruct (Nat.ltb_spec j (H - 1)) as [E|E].
  - rewrite odft_long, odft_conj. apply odft_ext. intros i Hi. replace (H - 1 <=? j)%nat with false by (symmetry; apply Nat.leb_gt; lia).
    destruct (_ <? _)%nat; [reflexivity|apply Cconj_0].
  - rewrite odft_long. apply odft_ext. intros i Hi. replace (H - 1 <=? j)%nat with true by (symmetry; apply Nat.leb_le; lia). reflexivity.
Qed.
Lemma row_real x k : hermitian0 c L x -> im (odft c M L (fun i => x i 0%nat) k) = 0%R.
Proof.
  intros Hx. assert (E : Cconj (odft c M L (fun i => x i 0%nat) k) = odft c M L (fun i => x i 0%nat) k).
  { rewrite odft_long, odft_conj. apply odft_ext. intros i Hi. destruct (Nat.ltb_spec (2 * c - i) L) as [E1|E1].
    - rewrite (Hx _ E1). replace (2 * c - i <=? 2 * c)%nat with true by (symmetry; apply Nat.leb_le; lia).
      replace (2 * c - (2 * c - i))%nat with i by lia. cbn [andb]. destruct (Nat.ltb_spec i L); [apply Cconj_conj|apply Cconj_0].
    - rewrite Cconj_0. destruct (Nat.ltb_spec i L) as [E2|E2]; [|reflexivity]. rewrite (Hx i E2).
      replace (2 * c - i <? L)%nat with false by (symmetry; apply Nat.ltb_ge; lia). rewrite andb_false_r. reflexivity. }
  apply (f_equal im) in E. cbn in E. lra.
Qed.
End Full.

(** the cyclic 2D convolution *)
Lemma hcyc2 c M L M' H (x : nat -> nat -> nat -> C) i j : (0 < M)%nat -> (0 < M')%nat -> (L <= 2 * c + 1)%nat -> (1 <= H)%nat ->
  hermitian0 c L (x 0%nat) -> hermitian0 c L (x 1%nat) ->
  let X := fun a k j => odft c M L (fun i => x a i j) k in
  oidft c M (fun k => hpartial_inverse M' M' (fun k => k) (fun ky => (re (hdft M' H (X 0%nat k) ky) * re (hdft M' H (X 1%nat k) ky))%R) j) i =
  Cmul (RtoC (INR M)) (Cmul (RtoC (INR M')) (ocyc2 c M (2 * c + 1) (H - 1) M' (2 * H - 1) (full2 c L H (x 0%nat)) (full2 c L H (x 1%nat)) i (j + (H - 1)))).
Proof.
  intros HM HM' HL HH H0 H1 X.
  rewrite (oidft_ext c M _ (fun k => Cmul (RtoC (INR M')) (ocyc (H - 1) M' (2 * H - 1) (fun j => odft c M (2 * c + 1) (fun i => full2 c L H (x 0%nat) i j) k)
     (fun j => odft c M (2 * c + 1) (fun i => full2 c L H (x 1%nat) i j) k) (j + (H - 1))))).
  2: { intros k Hk. rewrite hconv_cyc by (try assumption; apply row_real; assumption). f_equal. unfold ocyc.
       apply Csum_ext. intros j1 Hj1. apply Csum_ext. intros j2 Hj2. unfold X. rewrite !row_full by assumption. reflexivity. }
  rewrite oidft_scale. unfold ocyc at 1. rewrite oidft_pairs.
  rewrite !Cmul_assoc, (Cmul_comm (RtoC (INR M)) (RtoC (INR M'))), <- !Cmul_assoc. f_equal.
  unfold ocyc2. rewrite <- Csum_mul_l.
  transitivity (Csum (2 * H - 1) (fun j1 => Csum (2 * H - 1) (fun j2 => Csum (2 * c + 1) (fun i1 => Csum (2 * c + 1) (fun i2 => Cmul (RtoC (INR M))
     (if ((i1 + i2) mod M =? (i + c) mod M)%nat && ((j1 + j2) mod M' =? (j + (H - 1) + (H - 1)) mod M')%nat
      then Cmul (full2 c L H (x 0%nat) i1 j1) (full2 c L H (x 1%nat) i2 j2) else C0)))))).
  { apply Csum_ext. intros j1 _. apply Csum_ext. intros j2 _. destruct (_ =? _)%nat.
    - rewrite odft_cyc by assumption. unfold ocyc. rewrite <- Csum_mul_l. apply Csum_ext. intros i1 _. rewrite <- Csum_mul_l. apply Csum_ext. intros i2 _.
      rewrite andb_true_r. reflexivity.
    - symmetry. apply Csum_zero. intros i1 _. apply Csum_zero. intros i2 _. rewrite andb_false_r. ring. }
  transitivity (Csum (2 * c + 1) (fun i1 => Csum (2 * c + 1) (fun i2 => Csum (2 * H - 1) (fun j1 => Csum (2 * H - 1) (fun j2 => Cmul (RtoC (INR M))
     (if ((i1 + i2) mod M =? (i + c) mod M)%nat && ((j1 + j2) mod M' =? (j + (H - 1) + (H - 1)) mod M')%nat
      then Cmul (full2 c L H (x 0%nat) i1 j1) (full2 c L H (x 1%nat) i2 j2) else C0)))))).
  { rewrite (Csum_ext (2 * H - 1) _ (fun j1 => Csum (2 * c + 1) (fun i1 => Csum (2 * H - 1) (fun j2 => Csum (2 * c + 1) (fun i2 => Cmul (RtoC (INR M))
     (if ((i1 + i2) mod M =? (i + c) mod M)%nat && ((j1 + j2) mod M' =? (j + (H - 1) + (H - 1)) mod M')%nat
      then Cmul (full2 c L H (x 0%nat) i1 j1) (full2 c L H (x 1%nat) i2 j2) else C0)))))).
    2: { intros j1 _. apply Csum_swap. }
    rewrite Csum_swap. apply Csum_ext. intros i1 _.
    rewrite (Csum_ext (2 * H - 1) _ (fun j1 => Csum (2 * c + 1) (fun i2 => Csum (2 * H - 1) (fun j2 => Cmul (RtoC (INR M))
     (if ((i1 + i2) mod M =? (i + c) mod M)%nat && ((j1 + j2) mod M' =? (j + (H - 1) + (H - 1)) mod M')%nat
      then Cmul (full2 c L H (x 0%nat) i1 j1) (full2 c L H (x 1%nat) i2 j2) else C0))))).
    2: { intros j1 _. apply Csum_swap. }
    apply Csum_swap. }
  apply Csum_ext. intros i1 _. rewrite <- Csum_mul_l. apply Csum_ext. intros i2 _. rewrite <- Csum_mul_l. apply Csum_ext. intros j1 _.
  rewrite <- Csum_mul_l. reflexivity.
Qed.

(** enough padding: no aliases *)
Lemma mod_neq M a b : (0 < M)%nat -> a <> b -> (a < b + M)%nat -> (b < a + M)%nat -> (a mod M =? b mod M)%nat = (a =? b)%nat.
Proof.
  intros HM Hne H1 H2. rewrite mod_eq_Z by assumption. replace (a =? b)%nat with false by (symmetry; apply Nat.eqb_neq; assumption).
  apply Z.eqb_neq. intros E. apply zmod0 in E; lia.
Qed.
Lemma mod_dec M a b : (0 < M)%nat -> (a < b + M)%nat -> (b < a + M)%nat -> (a mod M =? b mod M)%nat = (a =? b)%nat.
Proof. intros HM H1 H2. destruct (Nat.eq_dec a b) as [->|Hne]; [rewrite !Nat.eqb_refl; reflexivity|apply mod_neq; assumption]. Qed.

Lemma full2_edge c L H x i j : (1 <= H)%nat -> (j < 2 * H - 1)%nat -> (L <= 2 * c)%nat -> (forall j, (j < H)%nat -> x 0%nat j = C0) ->
  (i = 0 \/ i = 2 * c)%nat -> full2 c L H x i j = C0.
Proof.
  intros HH Hj HL Hx Hi. unfold full2. destruct (Nat.leb_spec (H - 1) j) as [E|E].
  - destruct (Nat.ltb_spec i L) as [E1|E1]; [|reflexivity]. replace i with 0%nat by lia. apply Hx. lia.
  - destruct (Nat.ltb_spec (2 * c - i) L) as [E1|E1]; [|reflexivity]. replace (2 * c - i)%nat with 0%nat by lia. rewrite Hx by lia. apply Cconj_0.
Qed.
Lemma hlin2 c M L M' H (x y : nat -> nat -> C) i j : (1 <= H)%nat -> (0 < M)%nat -> (3 * H <= M' + 2)%nat -> (i < L)%nat -> (L <= 2 * c + 1)%nat -> (j < H)%nat ->
  unaliased2 c L H M x -> unaliased2 c L H M y ->
  ocyc2 c M (2 * c + 1) (H - 1) M' (2 * H - 1) (full2 c L H x) (full2 c L H y) i (j + (H - 1)) =
  oconv2 c (2 * c + 1) (H - 1) (2 * H - 1) (full2 c L H x) (full2 c L H y) i (j + (H - 1)).
Proof.
  intros HH HM HM' Hi HL Hj Qx Qy. unfold ocyc2, oconv2. apply Csum_ext. intros i1 Hi1. apply Csum_ext. intros i2 Hi2.
  apply Csum_ext. intros j1 Hj1. apply Csum_ext. intros j2 Hj2.
  rewrite (mod_dec M' (j1 + j2)) by lia.
  destruct Qx as [Q|(Q1 & Q2 & Q3)]; [rewrite (mod_dec M (i1 + i2)) by lia; reflexivity|].
  destruct Qy as [Q|(_ & _ & Q4)]; [rewrite (mod_dec M (i1 + i2)) by lia; reflexivity|].
  destruct (Nat.eq_dec i1 0) as [E|E1]; [|destruct (Nat.eq_dec i1 (2 * c)) as [E|E2]].
  1,2: rewrite (full2_edge c L H x i1 j1) by (try assumption; lia); destruct (_ && _), (_ && _); ring.
  destruct (Nat.eq_dec i2 0) as [E|E3]; [|destruct (Nat.eq_dec i2 (2 * c)) as [E|E4]].
  1,2: rewrite (full2_edge c L H y i2 j2) by (try assumption; lia); destruct (_ && _), (_ && _); ring.
  rewrite (mod_dec M (i1 + i2)) by lia. reflexivity.
Qed.
