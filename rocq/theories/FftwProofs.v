(** The statements about the fftw++.h classes: specialisation of the general lemmas to the
    one-, two- and three-dimensional classes, in the vocabulary of FftwSpec. *)
From Coq Require Import Reals ZArith Arith List Bool Lia Lra FinFun.
From Verif Require Import CNum Sums Roots Mem FftwModel FftwLoops FftwShift FftwMath FftwSpec FftwRun FftwRun2 FftwNyq FftwBlock.
Import ListNotations.

Lemma always_Runs c m Q : Runs c m Q -> always c m Q.
Proof. intros H. exact H. Qed.
Lemma always_mono c m (Q Q' : dmem -> Prop) : (forall m, Q m -> Q' m) -> always c m Q -> always c m Q'.
Proof. intros H [A B]. split; [exact A|]. intros o Ho. destruct (B o Ho) as (m' & E & G). eauto. Qed.
Lemma always_WP c m Q : WP c m Q -> always c m Q.
Proof. intros H. apply always_Runs, Runs_WP. exact H. Qed.

(** *** dft3 is the discrete Fourier transform *)
Lemma zeta_cis n (sg : Z) i a : zeta n (sg * Z.of_nat i * Z.of_nat a) = cis (IZR sg * (INR i * INR a / INR n)).
Proof.
  unfold zeta, cis, expi. rewrite !mult_IZR, <- !INR_IZR_INZ.
  replace (2 * PI * (IZR sg * INR i * INR a) / INR n)%R with (2 * PI * (IZR sg * (INR i * INR a / INR n)))%R
    by (unfold Rdiv; ring). reflexivity.
Qed.
Lemma cis_add x y : Cmul (cis x) (cis y) = cis (x + y).
Proof. unfold cis. change (Cmul (expi (2 * PI * x)) (expi (2 * PI * y)) = expi (2 * PI * (x + y))).
  rewrite <- expi_add. f_equal. ring. Qed.
Lemma dft3_DFT3 n1 n2 n3 sg f a b c : dft3 n1 n2 n3 sg f a b c = DFT3 n1 n2 n3 (IZR sg) f a b c.
Proof.
  unfold dft3, DFT3. apply Csum_ext; intros i _. apply Csum_ext; intros j _. apply Csum_ext; intros k _.
  rewrite !zeta_cis, !cis_add. f_equal. f_equal. ring.
Qed.
Lemma dft3_DFT2 n2 n3 sg f b c : dft3 1 n2 n3 sg f 0 b c = DFT2 n2 n3 (IZR sg) (f 0) b c.
Proof.
  unfold dft3, DFT2. cbn [Csum]. rewrite Cadd_0_l.
  apply Csum_ext; intros j _. apply Csum_ext; intros k _.
  rewrite !zeta_cis, !cis_add. f_equal. f_equal. simpl INR. unfold Rdiv. ring.
Qed.

Lemma zeta_cisZ n (sg : Z) i (a : Z) : zeta n (sg * Z.of_nat i * a) = cis (IZR sg * (INR i * IZR a / INR n)).
Proof.
  unfold zeta, cis, expi. rewrite !mult_IZR, <- !INR_IZR_INZ.
  replace (2 * PI * (IZR sg * INR i * IZR a) / INR n)%R with (2 * PI * (IZR sg * (INR i * IZR a / INR n)))%R
    by (unfold Rdiv; ring). reflexivity.
Qed.
Lemma centred_mod nx i : 0 < nx -> nx mod 2 = 0 -> i < nx ->
  exists z, (Z.of_nat ((i + nx / 2) mod nx) = centred nx i + Z.of_nat nx * z)%Z.
Proof.
  intros H0 He Hi. unfold centred. pose proof (Nat.div_mod nx 2 ltac:(lia)) as E.
  pose proof (Nat.div_mod (i + nx / 2) nx ltac:(lia)) as G.
  exists (1 - Z.of_nat ((i + nx / 2) / nx))%Z.
  assert (Z.of_nat (nx * ((i + nx / 2) / nx)) = Z.of_nat nx * Z.of_nat ((i + nx / 2) / nx))%Z by lia. lia.
Qed.
Lemma zeta_centred n sg i a : 0 < n -> n mod 2 = 0 -> a < n ->
  zeta n (sg * Z.of_nat i * Z.of_nat ((a + n / 2) mod n)) = cis (IZR sg * (INR i * IZR (centred n a) / INR n)).
Proof.
  intros H0 He Ha. rewrite <- zeta_cisZ. destruct (centred_mod n a H0 He Ha) as [z ->].
  apply zeta_period'; [assumption|]. exists (sg * Z.of_nat i * z)%Z. ring.
Qed.
Lemma dft3_MODE3 n1 n2 n3 sg f a b c : 0 < n1 -> n1 mod 2 = 0 -> a < n1 -> 0 < n2 -> n2 mod 2 = 0 -> b < n2 ->
  dft3 n1 n2 n3 sg f ((a + n1 / 2) mod n1) ((b + n2 / 2) mod n2) c =
  MODE3 n1 n2 n3 (IZR sg) f (centred n1 a) (centred n2 b) (Z.of_nat c).
Proof.
  intros. unfold dft3, MODE3. apply Csum_ext; intros i _. apply Csum_ext; intros j _. apply Csum_ext; intros k _.
  rewrite !zeta_centred, zeta_cisZ, !cis_add by assumption. f_equal. f_equal. ring.
Qed.
Lemma dft3_MODE2 n2 n3 sg f b c : 0 < n2 -> n2 mod 2 = 0 -> b < n2 ->
  dft3 1 n2 n3 sg f 0 ((b + n2 / 2) mod n2) c = MODE2 n2 n3 (IZR sg) (f 0) (centred n2 b) (Z.of_nat c).
Proof.
  intros. unfold dft3, MODE2. cbn [Csum]. rewrite Cadd_0_l.
  apply Csum_ext; intros j _. apply Csum_ext; intros k _.
  rewrite zeta_centred, !zeta_cisZ, !cis_add by assumption. f_equal. f_equal. simpl INR. unfold Rdiv. ring.
Qed.

(** *** arrays of lower dimension *)
Lemma carray1_3 m p nx f : carray1 m p nx f <-> carray3 m p 1 1 nx (fun _ _ k => f k).
Proof.
  split.
  - intros H i j k Hi Hj Hk. replace ((i * 1 + j) * nx + k) with k by (assert (i = 0) by lia; assert (j = 0) by lia; subst; lia). auto.
  - intros H i Hi. specialize (H 0 0 i ltac:(lia) ltac:(lia) Hi). replace ((0 * 1 + 0) * nx + i) with i in H by lia. exact H.
Qed.
Lemma carray2_3 m p nx ny f : carray2 m p nx ny f <-> carray3 m p 1 nx ny (fun _ => f).
Proof.
  split.
  - intros H i j k Hi Hj Hk. replace (i * nx + j) with j by (assert (i = 0) by lia; subst; lia). auto.
  - intros H i j Hi Hj. exact (H 0 i j ltac:(lia) Hi Hj).
Qed.
Lemma rarray1_3 m p nx w f : rarray1 m p nx f <-> rarray3 m p 1 1 nx w (fun _ _ k => f k).
Proof.
  split.
  - intros H i j k Hi Hj Hk. replace (p + (i * 1 + j) * w + k) with (p + k) by (assert (i = 0) by lia; assert (j = 0) by lia; subst; lia). auto.
  - intros H i Hi. specialize (H 0 0 i ltac:(lia) ltac:(lia) Hi). replace (p + (0 * 1 + 0) * w + i) with (p + i) in H by lia. exact H.
Qed.
Lemma rarray2_3 m p nx ny w f : rarray2 m p nx ny w f <-> rarray3 m p 1 nx ny w (fun _ => f).
Proof.
  split.
  - intros H i j k Hi Hj Hk. replace (i * nx + j) with j by (assert (i = 0) by lia; subst; lia). auto.
  - intros H i j Hi Hj. exact (H 0 i j ltac:(lia) Hi Hj).
Qed.

(** *** C22: round trips *)

Lemma round1 nx sg (ip : bool) (a b : nat) m f : sg = 1%Z \/ sg = (-1)%Z -> 0 < nx ->
  (if ip then a = b else disjoint a (2 * nx) b (2 * nx)) ->
  carray1 m a nx f -> space m b (2 * nx) ->
  always (Seq (fft (fft1d nx sg ip) a b) (fftNormalized true (fft1d nx (- sg) ip) b a)) m
    (fun m' => carray1 m' a nx f /\ only m m' a (2 * nx) b (2 * nx)).
Proof.
  intros Hsg Hn Hp Hf Hs. apply always_Runs. apply carray1_3 in Hf.
  replace (2 * nx) with (2 * (1 * 1 * nx)) in * by lia.
  eapply Runs_mono; [|eapply (roundtrip_c2c 1 1 nx sg ip _ _ a b m _ Hsg)]; try eassumption; try (unfold fft1d; f_equal; lia); try lia.
  intros m' [A B]. split; [apply carray1_3; exact A|exact B].
Qed.
Lemma round2 nx ny sg (ip : bool) (a b : nat) m f : sg = 1%Z \/ sg = (-1)%Z -> 0 < nx -> 0 < ny ->
  (if ip then a = b else disjoint a (2 * (nx * ny)) b (2 * (nx * ny))) ->
  carray2 m a nx ny f -> space m b (2 * (nx * ny)) ->
  always (Seq (fft (fft2d nx ny sg ip) a b) (fftNormalized true (fft2d nx ny (- sg) ip) b a)) m
    (fun m' => carray2 m' a nx ny f /\ only m m' a (2 * (nx * ny)) b (2 * (nx * ny))).
Proof.
  intros Hsg Hx Hy Hp Hf Hs. apply always_Runs. apply carray2_3 in Hf.
  assert (0 < nx * ny) by (apply Nat.mul_pos_pos; assumption).
  replace (nx * ny) with (1 * nx * ny) in * by lia.
  eapply Runs_mono; [|eapply (roundtrip_c2c 1 nx ny sg ip _ _ a b m _ Hsg)]; try eassumption; try (unfold fft2d; f_equal; lia); try lia.
  intros m' [A B]. split; [apply carray2_3; exact A|exact B].
Qed.
Lemma round3 nx ny nz sg (ip : bool) (a b : nat) m f : sg = 1%Z \/ sg = (-1)%Z -> 0 < nx -> 0 < ny -> 0 < nz ->
  (if ip then a = b else disjoint a (2 * (nx * ny * nz)) b (2 * (nx * ny * nz))) ->
  carray3 m a nx ny nz f -> space m b (2 * (nx * ny * nz)) ->
  always (Seq (fft (fft3d nx ny nz sg ip) a b) (fftNormalized true (fft3d nx ny nz (- sg) ip) b a)) m
    (fun m' => carray3 m' a nx ny nz f /\ only m m' a (2 * (nx * ny * nz)) b (2 * (nx * ny * nz))).
Proof.
  intros Hsg Hx Hy Hz Hp Hf Hs. apply always_Runs.
  assert (0 < nx * ny * nz) by (repeat apply Nat.mul_pos_pos; assumption).
  eapply Runs_mono; [|eapply (roundtrip_c2c nx ny nz sg ip _ _ a b m _ Hsg)]; try eassumption; try (unfold fft3d; f_equal; lia); try lia.
  intros m' [A B]. split; [exact A|exact B].
Qed.

Lemma rround1 nx (ip : bool) asC (a b : nat) m f : 0 < nx -> (asC = true -> ip = true) ->
  (if ip then a = b else disjoint a nx b (2 * (nx / 2 + 1))) ->
  rarray1 m a nx f -> space m b (2 * (nx / 2 + 1)) ->
  always (Seq (fft (rcfft1d nx ip) a b) (fftNormalized asC (crfft1d nx ip) b a)) m
    (fun m' => rarray1 m' a nx f /\ only m m' a (pitch nx ip) b (2 * (nx / 2 + 1))).
Proof.
  intros Hn Has Hp Hf Hs. apply always_Runs. apply (rarray1_3 m a nx (pitch nx ip)) in Hf.
  eapply Runs_mono; [|eapply (roundtrip_r 1 1 nx ip asC a b (rcfft1d nx ip) (crfft1d nx ip) (2 * (nx / 2 + 1)))].
  - intros m' [A B]. split; [apply (rarray1_3 m' a nx (pitch nx ip)); exact A|].
    intros x H1 H2. apply B; lia.
  - lia.
  - destruct asC; [|reflexivity]. rewrite Has by reflexivity. discriminate.
  - unfold rcfft1d. f_equal. lia.
  - unfold crfft1d. change realsize with pitch. f_equal; lia.
  - unfold rplaces. rewrite !Nat.mul_1_l. exact Hp.
  - exact Hf.
  - rewrite !Nat.mul_1_l. exact Hs.
Qed.
Lemma rround2 nx ny (ip : bool) asC (a b : nat) m f : 0 < nx -> 0 < ny -> (asC = true -> ip = true) ->
  (if ip then a = b else disjoint a (nx * ny) b (2 * (nx * (ny / 2 + 1)))) ->
  rarray2 m a nx ny (pitch ny ip) f -> space m b (2 * (nx * (ny / 2 + 1))) ->
  always (Seq (fft (rcfft2d nx ny ip) a b) (fftNormalized asC (crfft2d nx ny ip) b a)) m
    (fun m' => rarray2 m' a nx ny (pitch ny ip) f /\ only m m' a (nx * pitch ny ip) b (2 * (nx * (ny / 2 + 1)))).
Proof.
  intros Hx Hy Has Hp Hf Hs. apply always_Runs. apply rarray2_3 in Hf.
  assert (0 < nx * ny) by (apply Nat.mul_pos_pos; assumption).
  eapply Runs_mono; [|eapply (roundtrip_r 1 nx ny ip asC a b (rcfft2d nx ny ip) (crfft2d nx ny ip) (2 * nx * (ny / 2 + 1)))].
  - intros m' [A B]. split; [apply rarray2_3; exact A|].
    intros x H1 H2. apply B; rewrite ?Nat.mul_1_l; assumption.
  - lia.
  - destruct asC; [|reflexivity]. rewrite Has by reflexivity. discriminate.
  - unfold rcfft2d. f_equal; lia.
  - unfold crfft2d. change realsize with pitch. f_equal; lia.
  - unfold rplaces. rewrite !Nat.mul_1_l. exact Hp.
  - exact Hf.
  - rewrite !Nat.mul_1_l. exact Hs.
Qed.
Lemma rround3 nx ny nz (ip : bool) asC (a b : nat) m f : 0 < nx -> 0 < ny -> 0 < nz -> (asC = true -> ip = true) ->
  (if ip then a = b else disjoint a (nx * ny * nz) b (2 * (nx * ny * (nz / 2 + 1)))) ->
  rarray3 m a nx ny nz (pitch nz ip) f -> space m b (2 * (nx * ny * (nz / 2 + 1))) ->
  always (Seq (fft (rcfft3d nx ny nz ip) a b) (fftNormalized asC (crfft3d nx ny nz ip) b a)) m
    (fun m' => rarray3 m' a nx ny nz (pitch nz ip) f /\ only m m' a (nx * ny * pitch nz ip) b (2 * (nx * ny * (nz / 2 + 1)))).
Proof.
  intros Hx Hy Hz Has Hp Hf Hs. apply always_Runs.
  assert (0 < nx * ny * nz) by (repeat apply Nat.mul_pos_pos; assumption).
  eapply Runs_mono; [|eapply (roundtrip_r nx ny nz ip asC a b (rcfft3d nx ny nz ip) (crfft3d nx ny nz ip) (2 * nx * ny * (nz / 2 + 1)))].
  - intros m' [A B]. split; [exact A|exact B].
  - lia.
  - destruct asC; [|reflexivity]. rewrite Has by reflexivity. discriminate.
  - reflexivity.
  - reflexivity.
  - exact Hp.
  - exact Hf.
  - exact Hs.
Qed.

(** *** C21 *)
Lemma negated_cmap c : negated c = cmap Ropp c.
Proof. destruct c; reflexivity. Qed.
Lemma times_cmap r c : times r c = cmap (fun x => x * r)%R c.
Proof. destruct c; reflexivity. Qed.


Lemma Shift2_thm asC data nx ny m : nx mod 2 = 0 -> init m data (nx * pitch ny asC) ->
  always (Shift2 asC data nx ny) m (fun m' =>
    (forall i d, i < nx -> d < pitch ny asC ->
       m' (data + i * pitch ny asC + d) =
       (if Nat.odd i then negated (m (data + i * pitch ny asC + d)) else m (data + i * pitch ny asC + d))) /\
    untouched_outside m m' data (nx * pitch ny asC)).
Proof.
  intros He Hi. apply always_WP.
  assert (G : WP (Shift2 asC data nx ny) m (shifted2 data nx (pitch ny asC) m)).
  { destruct asC; unfold pitch; [apply Shift2C_ok|apply Shift2D_ok]; assumption. }
  eapply WP_mono; [|exact G]. intros m' [A B]. split; [|exact B].
  intros i d H1 H2. rewrite negated_cmap. apply A; assumption.
Qed.
Lemma Shift3_thm asC data nx ny nz m : nx mod 2 = 0 -> ny mod 2 = 0 -> 0 < nz -> init m data (nx * ny * pitch nz asC) ->
  always (Shift3 asC data nx ny nz) m (fun m' =>
    (forall i j d, i < nx -> j < ny -> d < pitch nz asC ->
       m' (data + (i * ny + j) * pitch nz asC + d) =
       (if Nat.odd (i + j) then negated (m (data + (i * ny + j) * pitch nz asC + d))
        else m (data + (i * ny + j) * pitch nz asC + d))) /\
    untouched_outside m m' data (nx * ny * pitch nz asC)).
Proof.
  intros He1 He2 Hz Hi. apply always_WP.
  assert (G : WP (Shift3 asC data nx ny nz) m (shifted3 data nx ny (pitch nz asC) m)).
  { destruct asC; unfold pitch; [apply Shift3C_ok|apply Shift3D_ok]; assumption. }
  eapply WP_mono; [|exact G]. intros m' [A B]. split; [|exact B].
  intros i j d H1 H2 H3. rewrite negated_cmap. apply A; assumption.
Qed.
Lemma negated_twice c : negated (negated c) = c.
Proof. destruct c; try reflexivity. cbn. rewrite Ropp_involutive. reflexivity. Qed.

Lemma always_seq a b m Q : always a m (fun m1 => always b m1 Q) -> always (Seq a b) m Q.
Proof. intros H. apply Runs_seq. exact H. Qed.

Lemma row_dec data n w x : data <= x < data + n * w -> exists i d, i < n /\ d < w /\ x = data + i * w + d.
Proof.
  intros H. assert (w <> 0) by (intros ->; lia). exists ((x - data) / w), ((x - data) mod w).
  pose proof (Nat.div_mod (x - data) w ltac:(lia)). pose proof (Nat.mod_upper_bound (x - data) w ltac:(lia)).
  repeat split; [apply Nat.div_lt_upper_bound; lia|lia|lia].
Qed.
Lemma row_dec3 data n1 n2 w x : data <= x < data + n1 * n2 * w ->
  exists i j d, i < n1 /\ j < n2 /\ d < w /\ x = data + (i * n2 + j) * w + d.
Proof.
  intros H. destruct (row_dec data (n1 * n2) w x H) as (r & d & Hr & Hd & ->).
  destruct (row_dec 0 n1 n2 r ltac:(lia)) as (i & j & Hi & Hj & ->). exists i, j, d. repeat split; auto.
Qed.

Lemma Shift2_twice asC data nx ny m : nx mod 2 = 0 -> init m data (nx * pitch ny asC) ->
  always (Seq (Shift2 asC data nx ny) (Shift2 asC data nx ny)) m (fun m' => forall x, m' x = m x).
Proof.
  intros He Hi. apply always_seq. eapply always_mono; [|apply Shift2_thm; assumption].
  intros m1 [A B]. eapply always_mono; [|apply Shift2_thm; [assumption|]].
  - intros m2 [A2 B2] x. destruct (Nat.le_gt_cases data x) as [L|L]; [destruct (Nat.lt_ge_cases x (data + nx * pitch ny asC)) as [L2|L2]|].
    + destruct (row_dec data nx _ x (conj L L2)) as (i & d & H1 & H2 & ->). rewrite A2, A by assumption.
      destruct (Nat.odd i); [apply negated_twice|reflexivity].
    + rewrite B2, B by lia. reflexivity.
    + rewrite B2, B by lia. reflexivity.
  - intros d Hd. destruct (row_dec data nx (pitch ny asC) (data + d) ltac:(lia)) as (i & d' & H1 & H2 & E). unfold defined. rewrite E, A by assumption.
    rewrite <- E. destruct (Hi d Hd) as [v ->]. destruct (Nat.odd i); eexists; reflexivity.
Qed.
Lemma Shift3_twice asC data nx ny nz m : nx mod 2 = 0 -> ny mod 2 = 0 -> 0 < nz -> init m data (nx * ny * pitch nz asC) ->
  always (Seq (Shift3 asC data nx ny nz) (Shift3 asC data nx ny nz)) m (fun m' => forall x, m' x = m x).
Proof.
  intros He1 He2 Hz Hi. apply always_seq. eapply always_mono; [|apply Shift3_thm; assumption].
  intros m1 [A B]. eapply always_mono; [|apply Shift3_thm; [assumption..|]].
  - intros m2 [A2 B2] x. destruct (Nat.le_gt_cases data x) as [L|L]; [destruct (Nat.lt_ge_cases x (data + nx * ny * pitch nz asC)) as [L2|L2]|].
    + destruct (row_dec3 data nx ny _ x (conj L L2)) as (i & j & d & H1 & H2 & H3 & ->). rewrite A2, A by assumption.
      destruct (Nat.odd (i + j)); [apply negated_twice|reflexivity].
    + rewrite B2, B by lia. reflexivity.
    + rewrite B2, B by lia. reflexivity.
  - intros d Hd. destruct (row_dec3 data nx ny (pitch nz asC) (data + d) ltac:(lia)) as (i & j & d' & H1 & H2 & H3 & E). unfold defined. rewrite E, A by assumption.
    rewrite <- E. destruct (Hi d Hd) as [v ->]. destruct (Nat.odd (i + j)); eexists; reflexivity.
Qed.
Lemma Shift_exits asC data nx ny nz m :
  (nx mod 2 <> 0 -> always_exits (Shift2 asC data nx ny) m) /\
  (nx mod 2 <> 0 \/ ny mod 2 <> 0 -> always_exits (Shift3 asC data nx ny nz) m).
Proof.
  split; intros H; split.
  - exists ExitErr. destruct (Shift2_exit data nx ny m ExitErr H) as [A B]. destruct asC; [apply A|apply B]; reflexivity.
  - intros o Ho. destruct (Shift2_exit data nx ny m o H) as [A B]. destruct asC; [apply A|apply B]; exact Ho.
  - exists ExitErr. destruct (Shift3_exit data nx ny nz m ExitErr H) as [A B]. destruct asC; [apply A|apply B]; reflexivity.
  - intros o Ho. destruct (Shift3_exit data nx ny nz m o H) as [A B]. destruct asC; [apply A|apply B]; exact Ho.
Qed.

Lemma fft0_rc2 nx ny (ip : bool) (a b : nat) m f : 0 < nx -> 0 < ny -> nx mod 2 = 0 ->
  (if ip then a = b else disjoint a (nx * ny) b (2 * (nx * (ny / 2 + 1)))) ->
  init m a (nx * pitch ny ip) -> rarray2 m a nx ny (pitch ny ip) f -> space m b (2 * (nx * (ny / 2 + 1))) ->
  always (fft0 false (rcfft2d nx ny ip) a b) m (fun m' =>
    carray2 m' b nx (ny / 2 + 1) (fun i j => MODE2 nx ny (-1) (fun i j => RtoC (f i j)) (centred nx i) (Z.of_nat j))).
Proof.
  intros Hx Hy He Hp Hi Hf Hs. apply always_Runs. apply rarray2_3 in Hf.
  assert (0 < nx * ny) by (apply Nat.mul_pos_pos; assumption).
  eapply Runs_mono; [|apply (fft0_r2c false 1 nx ny (2 * nx * (ny / 2 + 1)) (nx * ny) ip a b m (fun _ => f))];
    rewrite ?Nat.mul_1_l; try assumption; try reflexivity; try discriminate.
  - intros m' (A & _). apply carray2_3. intros i j k H1 H2 H3. assert (i = 0) by lia. subst i.
    specialize (A 0 j k H1 H2 H3). cbv beta in A. unfold sh1 in A. rewrite dft3_MODE2 in A by assumption. exact A.
  - unfold rplaces. rewrite Nat.mul_1_l. exact Hp.
Qed.
Lemma fft0_rc3 nx ny nz (ip : bool) (a b : nat) m f : 0 < nx -> 0 < ny -> 0 < nz -> nx mod 2 = 0 -> ny mod 2 = 0 ->
  (if ip then a = b else disjoint a (nx * ny * nz) b (2 * (nx * ny * (nz / 2 + 1)))) ->
  init m a (nx * ny * pitch nz ip) -> rarray3 m a nx ny nz (pitch nz ip) f -> space m b (2 * (nx * ny * (nz / 2 + 1))) ->
  always (fft0 true (rcfft3d nx ny nz ip) a b) m (fun m' =>
    carray3 m' b nx ny (nz / 2 + 1) (fun i j k =>
      MODE3 nx ny nz (-1) (fun i j k => RtoC (f i j k)) (centred nx i) (centred ny j) (Z.of_nat k))).
Proof.
  intros Hx Hy Hz He1 He2 Hp Hi Hf Hs. apply always_Runs.
  assert (0 < nx * ny * nz) by (repeat apply Nat.mul_pos_pos; assumption).
  eapply Runs_mono; [|apply (fft0_r2c true nx ny nz (2 * nx * ny * (nz / 2 + 1)) (nx * ny * nz) ip a b m f)];
    try assumption; try reflexivity; try discriminate; try (intros _; assumption).
  intros m' (A & _). intros i j k H1 H2 H3.
  specialize (A i j k H1 H2 H3). cbv beta in A. unfold sh1 in A. rewrite dft3_MODE3 in A by assumption. exact A.
Qed.
Lemma fft0_cr2 nx ny (ip : bool) (a b : nat) m F : 0 < nx -> 0 < ny -> nx mod 2 = 0 ->
  (if ip then a = b else disjoint a (nx * ny) b (2 * (nx * (ny / 2 + 1)))) ->
  hermitian2 nx ny F ->
  carray2 m b nx (ny / 2 + 1) (fun i j => F ((i + nx / 2) mod nx) j) -> space m a (nx * pitch ny ip) ->
  always (fft0 false (crfft2d nx ny ip) b a) m (fun m' =>
    rarray2 m' a nx ny (pitch ny ip) (fun i j => re (DFT2 nx ny 1 F i j))).
Proof.
  intros Hx Hy He Hp HF Hf Hs. apply always_Runs. apply carray2_3 in Hf.
  assert (0 < nx * ny) by (apply Nat.mul_pos_pos; assumption).
  eapply Runs_mono; [|apply (fft0_c2r false 1 nx ny (nx * realsize ny ip) (nx * ny) ip a b m (fun _ => F))];
    rewrite ?Nat.mul_1_l; try assumption; try reflexivity; try discriminate.
  - intros m' (A & _). apply rarray2_3. intros i j k H1 H2 H3. assert (i = 0) by lia. subst i.
    specialize (A 0 j k H1 H2 H3). cbv beta in A. rewrite dft3_DFT2 in A. exact A.
  - unfold rplaces. rewrite Nat.mul_1_l. exact Hp.
  - intros i j k _ H2 H3. apply HF; assumption.
Qed.
Lemma fft0_cr3 nx ny nz (ip : bool) (a b : nat) m F : 0 < nx -> 0 < ny -> 0 < nz -> nx mod 2 = 0 -> ny mod 2 = 0 ->
  (if ip then a = b else disjoint a (nx * ny * nz) b (2 * (nx * ny * (nz / 2 + 1)))) ->
  hermitian3 nx ny nz F ->
  carray3 m b nx ny (nz / 2 + 1) (fun i j k => F ((i + nx / 2) mod nx) ((j + ny / 2) mod ny) k) -> space m a (nx * ny * pitch nz ip) ->
  always (fft0 true (crfft3d nx ny nz ip) b a) m (fun m' =>
    rarray3 m' a nx ny nz (pitch nz ip) (fun i j k => re (DFT3 nx ny nz 1 F i j k))).
Proof.
  intros Hx Hy Hz He1 He2 Hp HF Hf Hs. apply always_Runs.
  assert (0 < nx * ny * nz) by (repeat apply Nat.mul_pos_pos; assumption).
  eapply Runs_mono; [|apply (fft0_c2r true nx ny nz (nx * ny * realsize nz ip) (nx * ny * nz) ip a b m F)];
    try assumption; try reflexivity; try discriminate; try (intros _; assumption).
  intros m' (A & _). intros i j k H1 H2 H3. specialize (A i j k H1 H2 H3). cbv beta in A. rewrite dft3_DFT3 in A. exact A.
Qed.
(** round trip of the shifted transforms *)
Lemma round02 nx ny (ip : bool) asC (a b : nat) m f : 0 < nx -> 0 < ny -> nx mod 2 = 0 -> (asC = true -> ip = true) ->
  (if ip then a = b else disjoint a (nx * ny) b (2 * (nx * (ny / 2 + 1)))) ->
  init m a (nx * pitch ny ip) -> rarray2 m a nx ny (pitch ny ip) f -> space m b (2 * (nx * (ny / 2 + 1))) ->
  always (Seq (fft0 false (rcfft2d nx ny ip) a b) (fft0Normalized false asC (crfft2d nx ny ip) b a)) m
    (fun m' => rarray2 m' a nx ny (pitch ny ip) f).
Proof.
  intros Hx Hy He Has Hp Hi Hf Hs. apply always_Runs. apply rarray2_3 in Hf.
  assert (0 < nx * ny) by (apply Nat.mul_pos_pos; assumption).
  pose proof (roundtrip0 false 1 nx ny (2 * nx * (ny / 2 + 1)) ip asC a b m (fun _ => f)) as R0.
  rewrite ?Nat.mul_1_l in R0.
  eapply Runs_mono; [|apply R0; try assumption; try reflexivity; try discriminate].
  - intros m' A. apply rarray2_3. exact A.
  - destruct asC; [|reflexivity]. rewrite Has by reflexivity. discriminate.
  - unfold rplaces. rewrite Nat.mul_1_l. exact Hp.
Qed.
Lemma round03 nx ny nz (ip : bool) asC (a b : nat) m f : 0 < nx -> 0 < ny -> 0 < nz -> nx mod 2 = 0 -> ny mod 2 = 0 -> (asC = true -> ip = true) ->
  (if ip then a = b else disjoint a (nx * ny * nz) b (2 * (nx * ny * (nz / 2 + 1)))) ->
  init m a (nx * ny * pitch nz ip) -> rarray3 m a nx ny nz (pitch nz ip) f -> space m b (2 * (nx * ny * (nz / 2 + 1))) ->
  always (Seq (fft0 true (rcfft3d nx ny nz ip) a b) (fft0Normalized true asC (crfft3d nx ny nz ip) b a)) m
    (fun m' => rarray3 m' a nx ny nz (pitch nz ip) f).
Proof.
  intros Hx Hy Hz He1 He2 Has Hp Hi Hf Hs. apply always_Runs.
  assert (0 < nx * ny * nz) by (repeat apply Nat.mul_pos_pos; assumption).
  apply (roundtrip0 true nx ny nz (2 * nx * ny * (nz / 2 + 1)) ip asC a b m f); try assumption; try discriminate; try (intros _; assumption).
  destruct asC; [|reflexivity]. rewrite Has by reflexivity. discriminate.
Qed.

(** *** C22: strided normalization *)
Lemma normS_thm osz norm nx M ostride odist out m : osz = 1 \/ osz = 2 -> 0 < ostride -> 0 < odist ->
  no_overlap nx M ostride odist ->
  (forall k a, k < M -> vec_word out osz nx ostride odist k a -> defined m a) ->
  always (NormalizeS osz norm nx M ostride odist out) m (fun m' =>
    (forall k a, k < M -> vec_word out osz nx ostride odist k a -> m' a = times norm (m a)) /\
    (forall a, (forall k, k < M -> ~ vec_word out osz nx ostride odist k a) -> m' a = m a)).
Proof.
  intros Ho Hs Hd Hov Hdef. apply always_WP.
  assert (E : forall a, vword osz nx M ostride odist out a <-> exists k, k < M /\ vec_word out osz nx ostride odist k a).
  { intros a. split.
    - intros (s & k & c & A & B & D & G). exists k. split; [assumption|]. exists s, c. auto.
    - intros (k & Hk & s & c & A & B & D). exists s, k, c. auto. }
  eapply WP_mono; [|apply NormalizeS_ok; try eassumption].
  - intros m' [A B]. split.
    + intros k a Hk Ha. rewrite times_cmap. apply A. apply E. eauto.
    + intros a Ha. apply B. rewrite E. intros (k & Hk & H). apply (Ha k Hk H).
  - intros a Ha. apply E in Ha as (k & Hk & H). eauto.
Qed.

(** *** C23 *)
Lemma centred_nyq n i : i < n -> (nyquist_mode n (centred n i) <-> n mod 2 = 0 /\ i = 0).
Proof.
  intros Hi. unfold nyquist_mode, centred. pose proof (Nat.div_mod n 2 ltac:(lia)). pose proof (Nat.mod_upper_bound n 2 ltac:(lia)). lia.
Qed.
Lemma last_nyq n j : j < n / 2 + 1 -> (nyquist_mode n (Z.of_nat j) <-> n mod 2 = 0 /\ j = n / 2).
Proof.
  intros Hi. unfold nyquist_mode. pose proof (Nat.div_mod n 2 ltac:(lia)). pose proof (Nat.mod_upper_bound n 2 ltac:(lia)). lia.
Qed.
Lemma deNyq2 nx ny f m : 0 < nx -> space m f (2 * (nx * (ny / 2 + 1))) ->
  always (deNyquist2 nx ny f) m (fun m' =>
    (forall i j c, i < nx -> j < ny / 2 + 1 -> c < 2 ->
       let a := f + 2 * (i * (ny / 2 + 1) + j) + c in
       (nyquist_mode nx (centred nx i) \/ nyquist_mode ny (Z.of_nat j) -> m' a = Val 0%R) /\
       (~ (nyquist_mode nx (centred nx i) \/ nyquist_mode ny (Z.of_nat j)) -> m' a = m a)) /\
    untouched_outside m m' f (2 * (nx * (ny / 2 + 1)))).
Proof.
  intros Hx Hs. apply always_WP. eapply WP_mono; [|apply deNyquist2_ok; assumption].
  intros m' [A B]. split.
  - intros i j c Hi Hj Hc a. rewrite centred_nyq, last_nyq by assumption. split.
    + intros H. apply A. exists i, j. repeat split; [assumption..| |]; [exact H|]. unfold two, a. lia.
    + intros H. apply B. intros (i' & j' & Hi' & Hj' & Hn & Ht). apply H.
      assert (i * (ny / 2 + 1) + j = i' * (ny / 2 + 1) + j') by (unfold two, a in Ht; lia).
      apply pair_inj in H0 as [-> ->]; [|assumption..]. exact Hn.
  - intros a Ha. apply B. intros (i' & j' & Hi' & Hj' & Hn & Ht). apply Ha.
    pose proof (row_lt 0 i' 1 nx (ny / 2 + 1) j' ltac:(lia) Hi' Hj'). unfold two in Ht. lia.
Qed.
Lemma deNyq3 nx ny nz f m : 0 < nx -> 0 < ny -> space m f (2 * (nx * ny * (nz / 2 + 1))) ->
  always (deNyquist3 nx ny nz f) m (fun m' =>
    (forall i j k c, i < nx -> j < ny -> k < nz / 2 + 1 -> c < 2 ->
       let a := f + 2 * ((i * ny + j) * (nz / 2 + 1) + k) + c in
       let N := nyquist_mode nx (centred nx i) \/ nyquist_mode ny (centred ny j) \/ nyquist_mode nz (Z.of_nat k) in
       (N -> m' a = Val 0%R) /\ (~ N -> m' a = m a)) /\
    untouched_outside m m' f (2 * (nx * ny * (nz / 2 + 1)))).
Proof.
  intros Hx Hy Hs. apply always_WP. eapply WP_mono; [|apply deNyquist3_ok; assumption].
  intros m' [A B]. split.
  - intros i j k c Hi Hj Hk Hc a N.
    assert (EN : N <-> nyq3 nx ny nz i j k) by (unfold N, nyq3; rewrite !centred_nyq, last_nyq by assumption; reflexivity). split.
    + intros H. apply A. exists i, j, k. repeat split; try assumption; [apply EN; exact H|]. unfold two, a. lia.
    + intros H. apply B. intros (i' & j' & k' & Hi' & Hj' & Hk' & Hn & Ht). apply H. apply EN.
      assert ((i * ny + j) * (nz / 2 + 1) + k = (i' * ny + j') * (nz / 2 + 1) + k') by (unfold two, a in Ht; lia).
      apply pair_inj in H0 as [H0 ->]; [|assumption..]. apply pair_inj in H0 as [-> ->]; [|assumption..]. exact Hn.
  - intros a Ha. apply B. intros (i' & j' & k' & Hi' & Hj' & Hk' & Hn & Ht). apply Ha.
    pose proof (row_lt i' j' nx ny (nz / 2 + 1) k' Hi' Hj' Hk'). unfold two in Ht. lia.
Qed.

(** *** C20 *)
Lemma partition_thm M T : 0 < T ->
  let Q := M / T in let RR := M - Q * T in
  (forall k, k < M -> exists i, (i < T /\ fst (block_part T Q RR i) <= k < fst (block_part T Q RR i) + snd (block_part T Q RR i)) /\
     forall j, j < T /\ fst (block_part T Q RR j) <= k < fst (block_part T Q RR j) + snd (block_part T Q RR j) -> j = i) /\
  (forall i, i < T -> fst (block_part T Q RR i) + snd (block_part T Q RR i) <= M) /\
  (forall i j, i < T -> j < T -> snd (block_part T Q RR i) <= snd (block_part T Q RR j) + 1).
Proof.
  intros HT Q RR. split; [|split].
  - intros k Hk. destruct (block_cover M T k HT Hk) as (i & Hi & H). exists i. rewrite block_part_eq. cbn [fst snd]. split; [auto|].
    intros j [Hj H']. rewrite block_part_eq in H'. cbn [fst snd] in H'. apply (block_disj M T j i k HT Hj Hi H' H).
  - intros i Hi. rewrite block_part_eq. cbn [fst snd].
    enough (forall d i, i + d = T - 1 -> boff T Q RR i + bcnt T Q RR i <= M) by (apply (H (T - 1 - i)); lia).
    clear i Hi. induction d as [|d IH]; intros i Hd; pose proof (block_ends M T i HT ltac:(lia)) as E; fold Q RR in E; destruct (Nat.ltb_spec (S i) T); try lia.
    specialize (IH (S i) ltac:(lia)). lia.
  - intros i j _ _. rewrite !block_part_eq. cbn [fst snd]. unfold bcnt. destruct (i <? T - RR), (j <? T - RR); lia.
Qed.

Lemma vec_word_in l base k a : In a (vaddrs l base k) <-> vec_word base (v_sz l) (v_len l) (v_stride l) (v_dist l) k a.
Proof. rewrite vaddrs_in. reflexivity. Qed.

Lemma word_inj w p e c e' c' : c < w -> c' < w -> p + w * e + c = p + w * e' + c' -> e = e' /\ c = c'.
Proof. intros H1 H2 E. rewrite (Nat.mul_comm w e), (Nat.mul_comm w e') in E. apply (pair_inj w e c e' c'); lia. Qed.

Lemma NoDup_flat {A} (f : nat -> list A) n : (forall s, s < n -> NoDup (f s)) ->
  (forall s s' a, s < n -> s' < n -> In a (f s) -> In a (f s') -> s = s') -> NoDup (flat_map f (seq 0 n)).
Proof.
  intros H1 H2. rewrite flat_map_concat_map. apply NoDup_concat_seq.
  - intros k Hk. apply H1. lia.
  - intros k k' a Hk Hk'. apply H2; lia.
Qed.

Lemma vaddrs_NoDup l M base k : no_overlap (v_len l) M (v_stride l) (v_dist l) -> k < M -> NoDup (vaddrs l base k).
Proof.
  intros Hov Hk. unfold vaddrs. apply NoDup_flat.
  - intros s Hs. apply FinFun.Injective_map_NoDup; [intros x y E; lia|apply seq_NoDup].
  - intros s s' a Hs Hs' H H'. apply in_map_iff in H as (c & <- & Hc). apply in_map_iff in H' as (c' & E & Hc').
    apply in_seq in Hc. apply in_seq in Hc'. apply word_inj in E as [E _]; [|lia|lia].
    destruct (Hov s' k s k Hs' Hk Hs Hk E). auto.
Qed.
Lemma vaddrs_disj l M base k k' a : no_overlap (v_len l) M (v_stride l) (v_dist l) -> k < M -> k' < M ->
  In a (vaddrs l base k) -> In a (vaddrs l base k') -> k = k'.
Proof.
  intros Hov Hk Hk' H H'. apply vec_word_in in H as (s & c & Hs & Hc & ->). apply vec_word_in in H' as (s' & c' & Hs' & Hc' & E).
  apply word_inj in E as [E _]; [|assumption..]. destruct (Hov s k s' k' Hs Hk Hs' Hk' E). assumption.
Qed.

(** the in-place rule under which blocks cannot interfere: identical layouts, or equal pitch in
    doubles and the test made by the constructor *)
Definition inplace_ok (li lo : vlay) : Prop :=
  (v_sz li = v_sz lo /\ v_len li = v_len lo /\ v_stride li = v_stride lo /\ v_dist li = v_dist lo) \/
  ((v_sz li = 1 \/ v_sz lo = 1) /\ v_dist li * v_sz li = v_dist lo * v_sz lo).

Lemma guard_disj li lo M p k k' a :
  no_overlap (v_len lo) M (v_stride lo) (v_dist lo) -> 0 < v_stride li -> 0 < v_stride lo ->
  inplace_ok li lo -> block_guard true li lo = true -> k < M -> k' < M ->
  In a (vaddrs lo p k) -> In a (vaddrs li p k') -> k = k'.
Proof.
  intros Hov Hsi Hso [(E1 & E2 & E3 & E4)|[Hz E]] Hg Hk Hk' H H'.
  - assert (li = lo) as -> by (destruct li, lo; cbn in *; congruence). eapply vaddrs_disj; eassumption.
  - unfold block_guard in Hg. cbn [negb orb] in Hg.
    assert (Hb : (v_sz li =? 1) || (v_sz lo =? 1) = true).
    { apply orb_true_iff. destruct Hz; [left|right]; apply Nat.eqb_eq; assumption. }
    rewrite Hb in Hg. apply andb_true_iff in Hg as [G1 G2]. apply Nat.leb_le in G1. apply Nat.leb_le in G2.
    apply vec_word_in in H as (s & c & Hs & Hc & ->). apply vec_word_in in H' as (s' & c' & Hs' & Hc' & E').
    set (D := v_dist li * v_sz li) in *.
    assert (B1 : v_sz lo * (v_stride lo * s) + c < D).
    { apply Nat.lt_le_trans with (v_stride lo * v_len lo * v_sz lo); [|lia].
      assert (v_stride lo * (s + 1) <= v_stride lo * v_len lo) by (apply Nat.mul_le_mono_l; lia).
      assert (v_stride lo * (s + 1) * v_sz lo <= v_stride lo * v_len lo * v_sz lo) by (apply Nat.mul_le_mono_r; assumption).
      assert (1 * v_sz lo <= v_stride lo * v_sz lo) by (apply Nat.mul_le_mono_r; lia). lia. }
    assert (B2 : v_sz li * (v_stride li * s') + c' < D).
    { rewrite E. apply Nat.lt_le_trans with (v_stride li * v_len li * v_sz li); [|lia].
      assert (v_stride li * (s' + 1) <= v_stride li * v_len li) by (apply Nat.mul_le_mono_l; lia).
      assert (v_stride li * (s' + 1) * v_sz li <= v_stride li * v_len li * v_sz li) by (apply Nat.mul_le_mono_r; assumption).
      assert (1 * v_sz li <= v_stride li * v_sz li) by (apply Nat.mul_le_mono_r; lia). lia. }
    assert (F1 : v_sz lo * (v_stride lo * s + v_dist lo * k) = k * D + v_sz lo * (v_stride lo * s)) by (rewrite E; lia).
    assert (F2 : v_sz li * (v_stride li * s' + v_dist li * k') = k' * D + v_sz li * (v_stride li * s')) by (unfold D; lia).
    rewrite F1, F2 in E'.
    apply (pair_inj D k (v_sz lo * (v_stride lo * s) + c) k' (v_sz li * (v_stride li * s') + c')); lia.
Qed.

Lemma block_thm xf li lo M Threads ts ip data timing pin pout m xs :
  let b := block_init M Threads ts (block_guard ip li lo) data timing in
  no_overlap (v_len lo) M (v_stride lo) (v_dist lo) -> 0 < v_stride li -> 0 < v_stride lo ->
  (if ip then pin = pout /\ inplace_ok li lo
   else forall k k' a, k < M -> k' < M -> In a (vaddrs li pin k) -> In a (vaddrs lo pout k') -> False) ->
  (forall k, k < M -> Forall2 (fun a x => m a = Val x) (vaddrs li pin k) (xs k)) ->
  (forall k, k < M -> length (xf (xs k)) = v_len lo * v_sz lo) ->
  (forall k a, k < M -> In a (vaddrs lo pout k) -> allocated m a) ->
  always (block_Execute xf li lo M (b_T b) (b_Q b) (b_R b) pin pout) m (fun m' =>
    (forall k, k < M -> Forall2 (fun a x => m' a = Val x) (vaddrs lo pout k) (xf (xs k))) /\
    (forall a, (forall k, k < M -> ~ In a (vaddrs lo pout k)) -> m' a = m a)).
Proof.
  intros b Hov Hsi Hso Hp Hx Hlen Hal. apply always_WP.
  assert (L : forall k, k < M -> length (xf (xs k)) = length (vaddrs lo pout k)) by (intros k Hk; rewrite vaddrs_len; auto).
  assert (Hnd : forall k, k < M -> NoDup (vaddrs lo pout k)) by (intros k Hk; eapply vaddrs_NoDup; eassumption).
  assert (Hdj : forall k k' a, k < M -> k' < M -> In a (vaddrs lo pout k) -> In a (vaddrs lo pout k') -> k = k')
    by (intros k k' a Hk Hk'; eapply vaddrs_disj; eassumption).
  pose proof (block_init_ok M Threads ts (block_guard ip li lo) data timing) as [[E1 E2]|(E1 & E2 & E3 & E4 & _)]; change (block_init M Threads ts (block_guard ip li lo) data timing) with b in E1. 
  - rewrite E1. apply (block_single xf li lo M pin pout m xs); try assumption.
  - change (block_init M Threads ts (block_guard ip li lo) data timing) with b in E3, E4. rewrite E3, E4. apply (block_multi xf li lo M pin pout m xs); try assumption; try lia.
    intros k k' a Hk Hk' H H'. destruct ip.
    + destruct Hp as [-> Hok]. apply (guard_disj li lo M pout k k' a); assumption.
    + exfalso. apply (Hp k' k a); assumption.
Qed.

(** reading back complex and real vectors *)
Lemma Forall2_map_l {A B D} (P : B -> D -> Prop) (f : A -> B) l l' : Forall2 P (map f l) l' <-> Forall2 (fun a b => P (f a) b) l l'.
Proof.
  revert l'. induction l as [|x l IH]; intros l'; simpl; split; intros H; inversion H; subst; constructor; auto; apply IH; assumption.
Qed.
Definition cdoubles (n : nat) (f : nat -> C) : list R := flat_map (fun s => [re (f s); im (f s)]) (seq 0 n).
Lemma vaddrs_c st d n base k : vaddrs (mkvlay 2 n st d) base k =
  flat_map (fun s => [base + 2 * (st * s + d * k); base + 2 * (st * s + d * k) + 1]) (seq 0 n).
Proof.
  unfold vaddrs. cbn [v_sz v_len v_stride v_dist]. apply flat_map_ext. intros s. cbn [seq map]. f_equal. lia.
Qed.
Lemma Forall2_flat2 (m : dmem) (p : nat -> nat) (f : nat -> C) n z :
  Forall2 (fun a x => m a = Val x) (flat_map (fun s => [p s; p s + 1]) (seq z n)) (flat_map (fun s => [re (f s); im (f s)]) (seq z n)) <->
  forall s, z <= s < z + n -> cell_C m (p s) (f s).
Proof.
  revert z. induction n as [|n IH]; intros z; cbn [seq flat_map app].
  - split; [intros _ s Hs; lia|constructor].
  - split.
    + intros H. inversion H as [|? ? ? ? A1 H1]; subst. inversion H1 as [|? ? ? ? A2 H2]; subst.
      intros s Hs. destruct (Nat.eq_dec s z) as [->|]; [split; assumption|]. apply (proj1 (IH (S z)) H2). lia.
    + intros H. destruct (H z ltac:(lia)) as [A B]. constructor; [exact A|]. constructor; [exact B|].
      apply IH. intros s Hs. apply H. lia.
Qed.
Lemma cvec m st d n base k f :
  Forall2 (fun a x => m a = Val x) (vaddrs (mkvlay 2 n st d) base k) (cdoubles n f) <->
  forall s, s < n -> cell_C m (base + 2 * (st * s + d * k)) (f s).
Proof.
  rewrite vaddrs_c. unfold cdoubles. rewrite (Forall2_flat2 m (fun s => base + 2 * (st * s + d * k)) f n 0).
  split; intros H s Hs; apply H; lia.
Qed.
Lemma cdoubles_nth n f i : i < n -> nth (2 * i) (cdoubles n f) 0%R = re (f i) /\ nth (2 * i + 1) (cdoubles n f) 0%R = im (f i).
Proof.
  unfold cdoubles. enough (G : forall z i, i < n ->
    nth (2 * i) (flat_map (fun s => [re (f s); im (f s)]) (seq z n)) 0%R = re (f (z + i)) /\
    nth (2 * i + 1) (flat_map (fun s => [re (f s); im (f s)]) (seq z n)) 0%R = im (f (z + i))) by (intros H; apply (G 0 i H)).
  clear i. induction n as [|n IH]; intros z i Hi; [lia|]. cbn [seq flat_map app].
  destruct i as [|i].
  - rewrite Nat.add_0_r. split; reflexivity.
  - replace (2 * S i) with (S (S (2 * i))) by lia. replace (S (S (2 * i)) + 1) with (S (S (2 * i + 1))) by lia. cbn [nth].
    replace (z + S i) with (S z + i) by lia. apply IH. lia.
Qed.
Lemma cdoubles_len n f : length (cdoubles n f) = n * 2.
Proof.
  unfold cdoubles. generalize 0 at 1. induction n as [|n IH]; intros z; [reflexivity|]. cbn [seq flat_map]. rewrite app_length, IH. cbn [length]. lia.
Qed.
Lemma flat_map_ext_in {A B} (f g : A -> list B) l : (forall a, In a l -> f a = g a) -> flat_map f l = flat_map g l.
Proof. induction l as [|x l IH]; simpl; intros H; [reflexivity|]. rewrite (H x) by auto. rewrite IH by auto. reflexivity. Qed.
Lemma dft3_DFT1 n sg f c : dft3 1 1 n sg f 0 0 c = DFT1 n (IZR sg) (f 0 0) c.
Proof.
  unfold dft3, DFT1. cbn [Csum]. rewrite !Cadd_0_l.
  apply Csum_ext; intros k _. rewrite !zeta_cis, !cis_add. f_equal. f_equal. simpl INR. unfold Rdiv. ring.
Qed.
Lemma dft_c_spec n sg f : dft_c n sg (cdoubles n f) = cdoubles n (DFT1 n (IZR sg) f).
Proof.
  unfold dft_c. apply flat_map_ext_in. intros s _. rewrite dft3_DFT1.
  assert (E : DFT1 n (IZR sg) (fun i => mkC (nth (2 * i) (cdoubles n f) 0%R) (nth (2 * i + 1) (cdoubles n f) 0%R)) s = DFT1 n (IZR sg) f s).
  { unfold DFT1. apply Csum_ext. intros i Hi. destruct (cdoubles_nth n f i Hi) as [-> ->]. destruct (f i); reflexivity. }
  rewrite E. reflexivity.
Qed.
Definition rdoubles (n : nat) (f : nat -> R) : list R := map f (seq 0 n).
Lemma dft_r_spec n f : dft_r n (rdoubles n f) = cdoubles (n / 2 + 1) (DFT1 n (-1) (fun i => RtoC (f i))).
Proof.
  unfold dft_r. apply flat_map_ext_in. intros s _. rewrite dft3_DFT1.
  assert (E : DFT1 n (-1) (fun i => RtoC (nth i (rdoubles n f) 0%R)) s = DFT1 n (-1) (fun i => RtoC (f i)) s).
  { unfold DFT1. apply Csum_ext. intros i Hi. unfold rdoubles.
    rewrite (nth_indep _ 0%R (f 0)) by (rewrite map_length, seq_length; assumption). rewrite map_nth, seq_nth by assumption. reflexivity. }
  rewrite E. reflexivity.
Qed.
Lemma vaddrs_r st d n base k : vaddrs (mkvlay 1 n st d) base k = map (fun s => base + (st * s + d * k)) (seq 0 n).
Proof.
  unfold vaddrs. cbn [v_sz v_len v_stride v_dist]. rewrite flat_map_concat_map.
  generalize (seq 0 n). induction l as [|x l IH]; cbn [map concat]; [reflexivity|]. rewrite IH. cbn [seq map app]. f_equal. lia.
Qed.
Lemma rvec m st d n base k f :
  Forall2 (fun a x => m a = Val x) (vaddrs (mkvlay 1 n st d) base k) (rdoubles n f) <->
  forall s, s < n -> m (base + (st * s + d * k)) = Val (f s).
Proof.
  rewrite vaddrs_r. unfold rdoubles. rewrite (Forall2_seq _ (fun s => base + (st * s + d * k)) f).
  split; intros H s Hs; apply H; lia.
Qed.

Lemma block_complex nx sg M Threads ts (ip : bool) data timing istride ostride idist odist pin pout m f :
  let li := mkvlay 2 nx istride idist in let lo := mkvlay 2 nx ostride odist in
  let b := block_init M Threads ts (block_guard ip li lo) data timing in
  no_overlap nx M ostride odist -> 0 < istride -> 0 < ostride ->
  (if ip then pin = pout /\ istride = ostride /\ idist = odist
   else forall k k' a, k < M -> k' < M -> vec_word pin 2 nx istride idist k a -> vec_word pout 2 nx ostride odist k' a -> False) ->
  (forall k s, k < M -> s < nx -> cell_C m (pin + 2 * (istride * s + idist * k)) (f k s)) ->
  (forall k a, k < M -> vec_word pout 2 nx ostride odist k a -> allocated m a) ->
  always (block_Execute (dft_c nx sg) li lo M (b_T b) (b_Q b) (b_R b) pin pout) m (fun m' =>
    (forall k s, k < M -> s < nx -> cell_C m' (pout + 2 * (ostride * s + odist * k)) (DFT1 nx (IZR sg) (f k) s)) /\
    (forall a, (forall k, k < M -> ~ vec_word pout 2 nx ostride odist k a) -> m' a = m a)).
Proof.
  intros li lo b Hov Hsi Hso Hp Hx Hal.
  eapply always_mono; [|apply (block_thm (dft_c nx sg) li lo M Threads ts ip data timing pin pout m (fun k => cdoubles nx (f k)))]; try assumption.
  - intros m' [A B]. split.
    + intros k s Hk. revert s. apply cvec. rewrite <- dft_c_spec. apply A. exact Hk.
    + intros a Ha. apply B. intros k Hk H. apply (Ha k Hk). apply vec_word_in in H. exact H.
  - destruct ip.
    + destruct Hp as (E1 & E2 & E3). split; [exact E1|]. left. unfold li, lo. cbn. auto.
    + intros k k' a Hk Hk' H H'. apply vec_word_in in H. apply vec_word_in in H'. apply (Hp k k' a); assumption.
  - intros k Hk. apply cvec. intros s Hs. apply Hx; assumption.
  - intros k Hk. rewrite dft_c_spec. apply cdoubles_len.
  - intros k a Hk H. apply vec_word_in in H. eauto.
Qed.
Lemma block_real nx M Threads ts (ip : bool) data timing istride ostride idist odist pin pout m f :
  let li := mkvlay 1 nx istride idist in let lo := mkvlay 2 (nx / 2 + 1) ostride odist in
  let b := block_init M Threads ts (block_guard ip li lo) data timing in
  no_overlap (nx / 2 + 1) M ostride odist -> 0 < istride -> 0 < ostride ->
  (if ip then pin = pout /\ idist = 2 * odist
   else forall k k' a, k < M -> k' < M -> vec_word pin 1 nx istride idist k a -> vec_word pout 2 (nx / 2 + 1) ostride odist k' a -> False) ->
  (forall k s, k < M -> s < nx -> m (pin + (istride * s + idist * k)) = Val (f k s)) ->
  (forall k a, k < M -> vec_word pout 2 (nx / 2 + 1) ostride odist k a -> allocated m a) ->
  always (block_Execute (dft_r nx) li lo M (b_T b) (b_Q b) (b_R b) pin pout) m (fun m' =>
    (forall k s, k < M -> s < nx / 2 + 1 ->
       cell_C m' (pout + 2 * (ostride * s + odist * k)) (DFT1 nx (-1) (fun i => RtoC (f k i)) s)) /\
    (forall a, (forall k, k < M -> ~ vec_word pout 2 (nx / 2 + 1) ostride odist k a) -> m' a = m a)).
Proof.
  intros li lo b Hov Hsi Hso Hp Hx Hal.
  eapply always_mono; [|apply (block_thm (dft_r nx) li lo M Threads ts ip data timing pin pout m (fun k => rdoubles nx (f k)))]; try assumption.
  - intros m' [A B]. split.
    + intros k s Hk. revert s. apply cvec. rewrite <- dft_r_spec. apply A. exact Hk.
    + intros a Ha. apply B. intros k Hk H. apply (Ha k Hk). apply vec_word_in in H. exact H.
  - destruct ip.
    + destruct Hp as (E1 & E2). split; [exact E1|]. right. unfold li, lo. cbn [v_sz v_dist]. split; [auto|]. lia.
    + intros k k' a Hk Hk' H H'. apply vec_word_in in H. apply vec_word_in in H'. apply (Hp k k' a); assumption.
  - intros k Hk. apply rvec. intros s Hs. apply Hx; assumption.
  - intros k Hk. rewrite dft_r_spec. apply cdoubles_len.
  - intros k a Hk H. apply vec_word_in in H. eauto.
Qed.

(** *** counterexamples *)
Lemma race_thm : let l1 := mkvlay 2 2 1 2 in let l2 := mkvlay 2 2 2 1 in
  let b := block_init 2 2 (fun t => t) (block_guard true l1 l2) 0 false in
  b_T b = 2 /\ no_overlap 2 2 2 1 /\
  forall m, (forall a, a < 8 -> m a = Val 0%R) -> exec (block_Execute (dft_c 2 (-1)) l1 l2 2 (b_T b) (b_Q b) (b_R b) 0 0) m UB.
Proof.
  cbv zeta. split; [reflexivity|]. split; [intros s k s' k' ? ? ? ? E; lia|].
  intros m Hm. cbn [b_T b_Q b_R]. change (block_init 2 2 _ _ 0 false) with (mkblock 2 1 0 (Some 2) (Some 1) None). cbn [b_T b_Q b_R].
  unfold block_Execute. cbn [Nat.eqb]. apply ex_par.
  do 4 (eapply (pe_rd _ _ _ _ 0); [lia|reflexivity|apply Hm; cbv; lia|]).
  do 2 (eapply (pe_wr _ _ _ _ 0); [lia|reflexivity|unfold upd; cbn [Nat.eqb]; first [discriminate | rewrite Hm by lia; discriminate]|]).
  eapply (pe_race _ _ _ _ 0 1 4); [lia|lia|lia|reflexivity|left; eexists; reflexivity].
Qed.
Lemma mnorm_thm : let nx := 4 in let M := 2 in
  forall m norm, (forall a, a < 16 -> m a = Val 0%R) -> (forall a, 16 <= a -> m a = Unalloc) ->
    (forall k a, k < M -> vec_word 0 2 nx 1 4 k a -> a < 16) /\
    exec (NormalizeC (Mfft1d_doubles nx M 4 1 1 4) norm 0) m UB.
Proof.
  intros nx M m norm Hm Hu. split.
  - intros k a Hk (s & c & Hs & Hc & ->). unfold nx, M in *. lia.
  - unfold NormalizeC. change (Mfft1d_doubles nx M 4 1 1 4 / 2) with 14. apply ex_par.
    eapply (pe_rd_ub _ _ _ _ 8); [lia|reflexivity|]. intros v. rewrite Hu by lia. discriminate.
Qed.
