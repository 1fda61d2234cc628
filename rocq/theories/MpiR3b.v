(** The Fourier sums of rcfft3dMPI. *)
From Coq Require Import Reals ZArith List Arith Bool Lia Lra FunctionalExtensionality.
From Verif Require Import CNum Sums Roots PadModel HerModel MpiTrSpec MpiFftModel MpiFftSpec MpiFft1 MpiFft3 MpiFftProofs MpiRFftModel MpiRFftSpec MpiRFft1 MpiRFft2 MpiRFft3 MpiR3Model MpiR3Spec MpiR3a.
Local Open Scope nat_scope.

Section Math.
Variables X Y Z : nat.
Hypothesis HX : 0 < X. Hypothesis HY : 0 < Y. Hypothesis HZ : 0 < Z.

Lemma forward_eq3 : forall G kx ky kz,
  dft X (-1) (fun i => dft Y (-1) (fun j => r2c Z (G i j) kz) ky) kx = rfourier3 X Y Z G kx ky kz.
Proof. intros G kx ky kz. unfold rfourier3. rewrite fourier3_dft by auto. reflexivity. Qed.

Lemma full3_herm : forall H i j kz, kz < Z ->
  herm Z (fun kz => dft Y 1 (fun ky => dft X 1 (fun kx => H kx ky kz) i) j) kz =
  dft Y 1 (fun ky => dft X 1 (fun kx => full3r X Y Z H kx ky kz) i) j.
Proof.
  intros H i j kz Hk. unfold herm, full3r. pose proof (Nat.div_mod Z 2 ltac:(lia)). pose proof (Nat.mod_upper_bound Z 2 ltac:(lia)).
  destruct (Nat.ltb_spec kz (Z / 2 + 1)); destruct (Nat.leb_spec (2 * kz) Z); try lia; auto.
  rewrite dft_conj_in. apply dft_ext'. intros ky Hy. rewrite dft_conj_in. reflexivity.
Qed.
Lemma backward_eq3 : forall H i j l,
  c2r Z (fun kz => dft Y 1 (fun ky => dft X 1 (fun kx => H kx ky kz) i) j) l = rinverse3 X Y Z H i j l.
Proof.
  intros H i j l. unfold rinverse3, c2r. rewrite fourier3_dft by auto. f_equal.
  transitivity (dft Z 1 (fun kz => dft Y 1 (fun ky => dft X 1 (fun kx => full3r X Y Z H kx ky kz) i) j) l).
  { apply dft_ext'. intros kz Hk. apply full3_herm; auto. }
  rewrite (dft_swap X Y 1 1 (fun kx ky => dft Z 1 (fun kz => full3r X Y Z H kx ky kz) l)).
  transitivity (dft Y 1 (fun ky => dft Z 1 (fun kz => dft X 1 (fun kx => full3r X Y Z H kx ky kz) i) l) j).
  { symmetry. apply (dft_swap Y Z 1 1 (fun ky kz => dft X 1 (fun kx => full3r X Y Z H kx ky kz) i)). }
  apply dft_ext'. intros ky Hy. symmetry. apply (dft_swap X Z 1 1 (fun kx kz => full3r X Y Z H kx ky kz)).
Qed.
Lemma symmetric_real3 : forall H i j kz, symmetric3 X Y Z H -> kz = 0 \/ 2 * kz = Z ->
  im (dft Y 1 (fun ky => dft X 1 (fun kx => H kx ky kz) i) j) = 0%R.
Proof.
  intros H i j kz S Hk. apply conj_im. rewrite dft_conj_in. apply dft_ext'. intros ky Hy. rewrite dft_conj_in. apply dft_ext'. intros kx Hx.
  rewrite S by auto. apply Cconj_conj.
Qed.
Lemma rfourier3_conj : forall G kx ky kz, kx < X -> ky < Y -> kz < Z ->
  Cconj (rfourier3 X Y Z G kx ky kz) = rfourier3 X Y Z G ((X - kx) mod X) ((Y - ky) mod Y) ((Z - kz) mod Z).
Proof.
  intros G kx ky kz Hx Hy Hz. unfold rfourier3. rewrite !fourier3_dft by auto. rewrite dft_conj_out by auto.
  apply dft_ext'. intros i Hi. rewrite dft_conj_out by auto. apply dft_ext'. intros j Hj. rewrite dft_conj_out by auto.
  apply dft_ext'. intros l Hl. apply RtoC_conj.
Qed.
Lemma rfourier3_symmetric : forall G, symmetric3 X Y Z (rfourier3 X Y Z G).
Proof.
  intros G kx ky kz Hx Hy Hz. rewrite rfourier3_conj by lia. f_equal. destruct Hz as [->|Hz].
  - rewrite Nat.sub_0_r, Nat.mod_same; lia.
  - rewrite Nat.mod_small; lia.
Qed.
Lemma full3r_rfourier3 : forall G kx ky kz, kx < X -> ky < Y -> kz < Z -> full3r X Y Z (rfourier3 X Y Z G) kx ky kz = rfourier3 X Y Z G kx ky kz.
Proof.
  intros G kx ky kz Hx Hy Hz. unfold full3r. destruct (Nat.leb_spec (2 * kz) Z); auto.
  rewrite rfourier3_conj; [|apply neg_mod; auto|apply neg_mod; auto|lia]. destruct (neg_mod X kx Hx) as [_ ->]. destruct (neg_mod Y ky Hy) as [_ ->].
  f_equal. rewrite Nat.mod_small; lia.
Qed.
Lemma inverse_eq3 : forall G i j l, i < X -> j < Y -> l < Z -> rinverse3 X Y Z (rfourier3 X Y Z G) i j l = (INR (X * Y * Z) * G i j l)%R.
Proof.
  intros G i j l Hi Hj Hl. unfold rinverse3.
  rewrite (fourier3_ext _ _ _ _ _ (rfourier3 X Y Z G)) by (intros; apply full3r_rfourier3; auto).
  unfold rfourier3. change (1)%Z with (- -1)%Z at 1.
  change (fun kx ky kz : nat => fourier3 (-1) X Y Z (fun i0 j0 l0 => RtoC (G i0 j0 l0)) kx ky kz) with (fourier3 (-1) X Y Z (fun i0 j0 l0 => RtoC (G i0 j0 l0))).
  rewrite fourier3_inv by auto. cbn [re Cmul RtoC im]. ring.
Qed.
Lemma altsign2_mul : forall i j v, altsign2 i j v = (altsign i 1 * altsign j 1 * v)%R.
Proof. intros i j v. unfold altsign2, altsign. rewrite Nat.even_add. destruct (Nat.even i), (Nat.even j); cbn [Bool.eqb]; ring. Qed.
Hypothesis EvX : Nat.even X = true. Hypothesis EvY : Nat.even Y = true.
Lemma phase3 : forall i j (kx ky kz l : nat) s, (s = 1 \/ s = -1)%R ->
  expi (s * (2 * PI * (INR i * (INR kx - INR (X / 2)) / INR X + INR j * (INR ky - INR (Y / 2)) / INR Y + INR l * INR kz / INR Z))) =
  Cmul (RtoC (altsign i 1 * altsign j 1)) (expi (s * (2 * PI * (INR i * INR kx / INR X + INR j * INR ky / INR Y + INR l * INR kz / INR Z)))).
Proof.
  intros i j kx ky kz l s Hs. pose proof (halfX X Y HX HY EvX i) as E1. pose proof (halfX Y X HY HX EvY j) as E2. unfold Rdiv in *.
  replace (INR i * (INR kx - INR (X / 2)) * / INR X)%R with (INR i * INR kx * / INR X - INR i * INR (X / 2) * / INR X)%R by ring.
  replace (INR j * (INR ky - INR (Y / 2)) * / INR Y)%R with (INR j * INR ky * / INR Y - INR j * INR (Y / 2) * / INR Y)%R by ring.
  rewrite E1, E2. set (a := (INR i * INR kx * / INR X)%R). set (b := (INR j * INR ky * / INR Y)%R). set (d := (INR l * INR kz * / INR Z)%R).
  replace (s * (2 * PI * (a - INR i * / 2 + (b - INR j * / 2) + d)))%R with (- s * (PI * INR i) + (- s * (PI * INR j) + s * (2 * PI * (a + b + d))))%R by field.
  rewrite !expi_add.
  assert (N : forall n, expi (- s * (PI * INR n)) = RtoC (altsign n 1)).
  { intros n. destruct Hs as [-> | ->].
    - replace (- (1) * (PI * INR n))%R with (- (PI * INR n))%R by ring. apply altsign_neg.
    - replace (- -1 * (PI * INR n))%R with (PI * INR n)%R by ring. apply expi_PI_nat. }
  rewrite !N. apply C_ext; cbn [re im Cmul RtoC]; ring.
Qed.
Lemma rfourier3_0_eq : forall G kx ky kz, rfourier3_0 X Y Z G kx ky kz = rfourier3 X Y Z (fun i j l => altsign2 i j (G i j l)) kx ky kz.
Proof.
  intros G kx ky kz. unfold rfourier3_0, rfourier3, fourier3. apply Csum_ext. intros i Hi. apply Csum_ext. intros j Hj. apply Csum_ext. intros l Hl.
  pose proof (phase3 i j kx ky kz l (-1) ltac:(right; reflexivity)) as E.
  match goal with |- Cmul _ (expi ?u) = Cmul _ (expi ?v) =>
    match type of E with expi ?u' = Cmul _ (expi ?v') => replace u with u' by ring; replace v with v' by ring end end.
  rewrite E, altsign2_mul. apply C_ext; cbn [re im Cmul RtoC]; ring.
Qed.
Lemma rinverse3_0_eq : forall H i j l, rinverse3_0 X Y Z H i j l = altsign2 i j (rinverse3 X Y Z H i j l).
Proof.
  intros H i j l. rewrite altsign2_mul. unfold rinverse3_0, rinverse3, fourier3. set (v := (altsign i 1 * altsign j 1)%R).
  assert (A : forall z, (v * re z)%R = re (Cmul (RtoC v) z)) by (intros; cbn [re Cmul RtoC im]; ring). rewrite A.
  f_equal. rewrite <- Csum_mul_l. apply Csum_ext. intros kx Hx. rewrite <- Csum_mul_l. apply Csum_ext. intros ky Hy. rewrite <- Csum_mul_l. apply Csum_ext. intros kz Hk.
  pose proof (phase3 i j kx ky kz l 1 ltac:(left; reflexivity)) as E. fold v in E.
  match goal with |- Cmul _ (expi ?u) = Cmul _ (Cmul _ (expi ?w)) =>
    match type of E with expi ?u' = Cmul _ (expi ?v') => replace u with u' by ring; replace w with v' end end.
  - rewrite E. apply C_ext; cbn [re im Cmul RtoC]; ring.
  - unfold Rdiv. ring.
Qed.
End Math.
