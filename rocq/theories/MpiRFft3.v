(** The Fourier sums of rcfft2dMPI. *)
From Coq Require Import Reals ZArith List Arith Bool Lia Lra FunctionalExtensionality.
From Verif Require Import CNum Sums Roots PadModel HerModel MpiTrSpec MpiFftModel MpiFftSpec MpiFft1 MpiFft3 MpiFftProofs MpiRFftModel MpiRFftSpec MpiRFft1 MpiRFft2.
Local Open Scope nat_scope.

Lemma fourier2_dft : forall sg X Y G kx ky, 0 < X -> 0 < Y ->
  fourier2 sg X Y G kx ky = dft X sg (fun i => dft Y sg (G i) ky) kx.
Proof.
  intros sg X Y G kx ky HX HY. rewrite <- (fourier3_1 sg X Y (fun i j _ => G i j)) by auto. rewrite fourier3_dft by (auto; lia).
  apply dft_ext'. intros i Hi. apply dft_ext'. intros j Hj. apply dft_1.
Qed.
Lemma neg_mod : forall X k, k < X -> ((X - k) mod X < X /\ (X - (X - k) mod X) mod X = k)%nat.
Proof.
  intros X k Hk. split; [apply Nat.mod_upper_bound; lia|]. destruct (Nat.eq_dec k 0) as [->|N].
  - rewrite Nat.sub_0_r, Nat.mod_same, Nat.sub_0_r, Nat.mod_same by lia. reflexivity.
  - rewrite (Nat.mod_small (X - k)) by lia. rewrite Nat.mod_small; lia.
Qed.
Lemma zeta_negmod : forall X sg i k, k < X -> zeta X (sg * Z.of_nat i * Z.of_nat ((X - k) mod X)) = Cconj (zeta X (sg * Z.of_nat i * Z.of_nat k)).
Proof.
  intros X sg i k Hk. rewrite <- zeta_neg. destruct (Nat.eq_dec k 0) as [->|N].
  - rewrite Nat.sub_0_r, Nat.mod_same by lia. f_equal. lia.
  - rewrite Nat.mod_small by lia. rewrite Nat2Z.inj_sub by lia.
    replace (sg * Z.of_nat i * (Z.of_nat X - Z.of_nat k))%Z with (- (sg * Z.of_nat i * Z.of_nat k) + Z.of_nat X * (sg * Z.of_nat i))%Z by ring.
    apply zeta_period. lia.
Qed.
Lemma zeta_negmod' : forall X sg i k, k < X -> zeta X (sg * Z.of_nat ((X - k) mod X) * Z.of_nat i) = Cconj (zeta X (sg * Z.of_nat k * Z.of_nat i)).
Proof.
  intros X sg i k Hk. replace (sg * Z.of_nat ((X - k) mod X) * Z.of_nat i)%Z with (sg * Z.of_nat i * Z.of_nat ((X - k) mod X))%Z by ring.
  rewrite zeta_negmod by auto. f_equal. f_equal. ring.
Qed.
Lemma Cconj_mul' : forall a b, Cconj (Cmul a b) = Cmul (Cconj a) (Cconj b).
Proof. intros a b. apply C_ext; cbn [re im Cconj Cmul]; ring. Qed.
Lemma Cconj_conj : forall a, Cconj (Cconj a) = a.
Proof. intros a. apply C_ext; cbn [re im Cconj]; ring. Qed.
(** conj of a transform: of the conjugate at the opposite mode, or of the conjugate read backwards *)
Lemma dft_conj_out : forall N sg x k, k < N -> Cconj (dft N sg x k) = dft N sg (fun i => Cconj (x i)) ((N - k) mod N).
Proof.
  intros N sg x k Hk. unfold dft. rewrite Csum_conj. apply Csum_ext. intros i Hi. rewrite Cconj_mul', zeta_negmod by auto. reflexivity.
Qed.
Lemma dft_conj_in : forall N sg x k, Cconj (dft N sg x k) = dft N sg (fun i => Cconj (x ((N - i) mod N))) k.
Proof.
  intros N sg x k. unfold dft. rewrite Csum_conj.
  rewrite <- (Csum_reindex N (fun i => Cmul (Cconj (x ((N - i) mod N))) (zeta N (sg * Z.of_nat i * Z.of_nat k))) (fun i => (N - i) mod N)).
  - apply Csum_ext. intros i Hi. destruct (neg_mod N i Hi) as [_ ->]. rewrite Cconj_mul', zeta_negmod' by auto. reflexivity.
  - intros i Hi. apply neg_mod; auto.
  - intros i j Hi Hj E. destruct (neg_mod N i Hi) as [_ <-]. destruct (neg_mod N j Hj) as [_ <-]. rewrite E. reflexivity.
Qed.
Lemma RtoC_conj : forall a, Cconj (RtoC a) = RtoC a.
Proof. intros a. apply C_ext; cbn [re im Cconj RtoC]; ring. Qed.

Section Math.
Variables X Y : nat.
Hypothesis HX : 0 < X. Hypothesis HY : 0 < Y.
Lemma half_lt : forall k, k < Y / 2 + 1 <-> 2 * k <= Y.
Proof. intros k. pose proof (Nat.div_mod Y 2 ltac:(lia)). pose proof (Nat.mod_upper_bound Y 2 ltac:(lia)). lia. Qed.

Lemma forward_eq : forall G kx ky, dft X (-1) (fun i => r2c Y (G i) ky) kx = rfourier2 X Y G kx ky.
Proof. intros G kx ky. unfold rfourier2. rewrite fourier2_dft by auto. reflexivity. Qed.

Lemma full2_herm : forall H i ky, ky < Y ->
  herm Y (fun ky => dft X 1 (fun kx => H kx ky) i) ky = dft X 1 (fun kx => full2 X Y H kx ky) i.
Proof.
  intros H i ky Hk. unfold herm, full2. pose proof (half_lt ky).
  destruct (Nat.ltb_spec ky (Y / 2 + 1)); destruct (Nat.leb_spec (2 * ky) Y); try lia; auto.
  rewrite dft_conj_in. reflexivity.
Qed.
Lemma backward_eq : forall H i j, c2r Y (fun ky => dft X 1 (fun kx => H kx ky) i) j = rinverse2 X Y H i j.
Proof.
  intros H i j. unfold rinverse2, c2r. rewrite fourier2_dft by auto. f_equal. rewrite (dft_swap X Y 1 1 (fun kx ky => full2 X Y H kx ky)).
  apply dft_ext'. intros ky Hk. apply full2_herm; auto.
Qed.
Lemma conj_im : forall a, Cconj a = a -> im a = 0%R.
Proof. intros a E. apply (f_equal im) in E. cbn [im Cconj] in E. lra. Qed.
Lemma symmetric_real : forall H i ky, symmetric2 X Y H -> ky = 0 \/ 2 * ky = Y -> im (dft X 1 (fun kx => H kx ky) i) = 0%R.
Proof.
  intros H i ky S Hk. apply conj_im. rewrite dft_conj_in. apply dft_ext'. intros kx Hx. rewrite S by auto. apply Cconj_conj.
Qed.
Lemma rfourier2_conj : forall G kx ky, kx < X -> ky < Y ->
  Cconj (rfourier2 X Y G kx ky) = rfourier2 X Y G ((X - kx) mod X) ((Y - ky) mod Y).
Proof.
  intros G kx ky Hx Hy. unfold rfourier2. rewrite !fourier2_dft by auto. rewrite dft_conj_out by auto.
  apply dft_ext'. intros i Hi. rewrite dft_conj_out by auto. apply dft_ext'. intros j Hj. apply RtoC_conj.
Qed.
Lemma rfourier2_symmetric : forall G, symmetric2 X Y (rfourier2 X Y G).
Proof.
  intros G kx ky Hx Hy. rewrite rfourier2_conj by lia. f_equal. destruct Hy as [->|Hy].
  - rewrite Nat.sub_0_r, Nat.mod_same; lia.
  - rewrite Nat.mod_small; lia.
Qed.
Lemma full2_rfourier2 : forall G kx ky, kx < X -> ky < Y -> full2 X Y (rfourier2 X Y G) kx ky = rfourier2 X Y G kx ky.
Proof.
  intros G kx ky Hx Hy. unfold full2. destruct (Nat.leb_spec (2 * ky) Y); auto.
  rewrite rfourier2_conj; [|apply neg_mod; auto|lia]. destruct (neg_mod X kx Hx) as [_ ->]. f_equal. rewrite Nat.mod_small; lia.
Qed.
Lemma fourier2_ext : forall sg G G' kx ky, (forall i j, i < X -> j < Y -> G i j = G' i j) -> fourier2 sg X Y G kx ky = fourier2 sg X Y G' kx ky.
Proof. intros. unfold fourier2. apply Csum_ext; intros. apply Csum_ext; intros. rewrite H; auto. Qed.
Lemma fourier2_inv : forall sg G i j, i < X -> j < Y -> (sg = 1 \/ sg = -1)%Z ->
  fourier2 (- sg) X Y (fourier2 sg X Y G) i j = Cmul (RtoC (INR (X * Y))) (G i j).
Proof.
  intros sg G i j Hi Hj Hs. rewrite <- (fourier3_1 (- sg) X Y (fun i j _ => fourier2 sg X Y G i j)) by auto.
  rewrite (fourier3_ext _ _ _ _ _ (fourier3 sg X Y 1 (fun i j _ => G i j))).
  - rewrite fourier3_inv by auto. rewrite Nat.mul_1_r. reflexivity.
  - intros i' j' l' Hi' Hj' Hl'. replace l' with 0 by lia. symmetry. apply fourier3_1; auto.
Qed.
Lemma inverse_eq : forall G i j, i < X -> j < Y -> rinverse2 X Y (rfourier2 X Y G) i j = (INR (X * Y) * G i j)%R.
Proof.
  intros G i j Hi Hj. unfold rinverse2.
  rewrite (fourier2_ext 1 _ (rfourier2 X Y G)) by (intros; apply full2_rfourier2; auto).
  unfold rfourier2. change (1)%Z with (- -1)%Z at 1. change (fun kx ky : nat => fourier2 (-1) X Y (fun i0 j0 => RtoC (G i0 j0)) kx ky) with (fourier2 (-1) X Y (fun i0 j0 => RtoC (G i0 j0))).
  rewrite fourier2_inv by auto. cbn [re Cmul RtoC im]. ring.
Qed.

Lemma expi_PI_nat : forall i, expi (PI * INR i) = RtoC (altsign i 1).
Proof.
  intros i. unfold altsign. destruct (Nat.even i) eqn:E.
  - apply Nat.even_spec in E. destruct E as [q ->]. rewrite mult_INR. replace (PI * (INR 2 * INR q))%R with (2 * PI * INR q)%R by (cbn [INR]; ring).
    rewrite expi_2PI_nat. apply C_ext; reflexivity.
  - assert (O : Nat.odd i = true) by (unfold Nat.odd; rewrite E; auto). apply Nat.odd_spec in O. destruct O as [q ->].
    rewrite plus_INR, mult_INR. replace (PI * (INR 2 * INR q + INR 1))%R with (2 * PI * INR q + PI)%R by (cbn [INR]; ring).
    rewrite expi_add, expi_2PI_nat. apply C_ext; cbn [re im Cmul C1 expi RtoC]; rewrite ?cos_PI, ?sin_PI; ring.
Qed.
Hypothesis Ev : Nat.even X = true.
Lemma halfX : forall i : nat, (INR i * INR (X / 2) / INR X = INR i / 2)%R.
Proof.
  intros i. apply Nat.even_spec in Ev. destruct Ev as [q Eq]. rewrite Eq at 1 2. rewrite (Nat.mul_comm 2), Nat.div_mul, mult_INR by lia.
  cbn [INR]. field. apply not_0_INR. lia.
Qed.
Lemma altsign_mul : forall i v, altsign i v = (altsign i 1 * v)%R.
Proof. intros i v. unfold altsign. destruct (Nat.even i); ring. Qed.
Lemma altsign_sq : forall i, (altsign i 1 * altsign i 1 = 1)%R.
Proof. intros i. unfold altsign. destruct (Nat.even i); ring. Qed.
Lemma altsign_neg : forall i, expi (- (PI * INR i)) = RtoC (altsign i 1).
Proof. intros i. rewrite expi_neg, expi_PI_nat. apply RtoC_conj. Qed.
Lemma rfourier2_0_eq : forall G kx ky, rfourier2_0 X Y G kx ky = rfourier2 X Y (fun i j => altsign i (G i j)) kx ky.
Proof.
  intros G kx ky. unfold rfourier2_0, rfourier2, fourier2. apply Csum_ext. intros i Hi. apply Csum_ext. intros j Hj.
  replace (- (2 * PI * (INR i * (INR kx - INR (X / 2)) / INR X + INR j * INR ky / INR Y)))%R
    with (PI * INR i + 2 * PI * (-1 * (INR i * INR kx / INR X + INR j * INR ky / INR Y)))%R.
  2:{ pose proof (halfX i) as E. unfold Rdiv in *. replace (INR i * (INR kx - INR (X / 2)) * / INR X)%R with (INR i * INR kx * / INR X - INR i * INR (X / 2) * / INR X)%R by ring. rewrite E. field. split; apply not_0_INR; lia. }
  rewrite expi_add, expi_PI_nat, (altsign_mul i (G i j)). apply C_ext; cbn [re im Cmul RtoC]; ring.
Qed.
Lemma rinverse2_0_eq : forall H i j, rinverse2_0 X Y H i j = altsign i (rinverse2 X Y H i j).
Proof.
  intros H i j. rewrite altsign_mul. unfold rinverse2_0, rinverse2, fourier2.
  replace (altsign i 1 * re (Csum X (fun i0 => Csum Y (fun j0 => Cmul (full2 X Y H i0 j0) (expi (2 * PI * (1 * (INR i0 * INR i / INR X + INR j0 * INR j / INR Y))))))))%R
    with (re (Cmul (RtoC (altsign i 1)) (Csum X (fun i0 => Csum Y (fun j0 => Cmul (full2 X Y H i0 j0) (expi (2 * PI * (1 * (INR i0 * INR i / INR X + INR j0 * INR j / INR Y)))))))))
    by (cbn [re im Cmul RtoC]; ring).
  f_equal. rewrite <- Csum_mul_l. apply Csum_ext. intros kx Hx. rewrite <- Csum_mul_l. apply Csum_ext. intros ky Hk.
  replace (2 * PI * (INR i * (INR kx - INR (X / 2)) / INR X + INR j * INR ky / INR Y))%R
    with (- (PI * INR i) + 2 * PI * (1 * (INR kx * INR i / INR X + INR ky * INR j / INR Y)))%R.
  2:{ pose proof (halfX i) as E. unfold Rdiv in *. replace (INR i * (INR kx - INR (X / 2)) * / INR X)%R with (INR i * INR kx * / INR X - INR i * INR (X / 2) * / INR X)%R by ring. rewrite E. field. split; apply not_0_INR; lia. }
  rewrite expi_add, altsign_neg. apply C_ext; cbn [re im Cmul RtoC]; ring.
Qed.
End Math.
