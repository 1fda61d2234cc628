(** Property theorems C20-C23, C37, C38, C42 (fftw++.h, fftw++.cc). *)
From Coq Require Import Reals ZArith Arith List Bool Ascii Lia.
From Verif Require Import CNum Mem FftwModel FftwSpec FftwProofs TableModel TableProofs WisdomModel WisdomProofs.
Import ListNotations.

(** *** C20: batches of transforms split over threads *)

(** the T blocks partition the M transforms and differ in size by at most one *)
Theorem C20_blocks_partition : forall M T, 0 < T ->
  let Q := M / T in let RR := M - Q * T in
  let first i := fst (block_part T Q RR i) in let count i := snd (block_part T Q RR i) in
  (forall k, k < M -> exists i, (i < T /\ first i <= k < first i + count i) /\
     forall j, j < T /\ first j <= k < first j + count j -> j = i) /\
  (forall i, i < T -> first i + count i <= M) /\
  (forall i j, i < T -> j < T -> count i <= count j + 1).
Proof. exact partition_thm. Qed.
Print Assumptions C20_blocks_partition.

(** whatever thread count, table entry and timing result, the plans the call will use exist and
    are for the right number of transforms *)
Theorem C20_plans_exist : forall M Threads setup_threads guard table_entry timing,
  let b := block_init M Threads setup_threads guard table_entry timing in
  (b_T b = 1 /\ b_plan b = Some M) \/
  (1 < b_T b /\ guard = true /\ b_Q b = M / b_T b /\ b_R b = M - M / b_T b * b_T b /\
   b_plan1 b = Some (b_Q b) /\ (0 < b_R b -> b_plan2 b = Some (b_Q b + 1))).
Proof. exact FftwBlock.block_init_ok. Qed.
Print Assumptions C20_plans_exist.

(** Mfft1d: M strided complex transforms, any thread count and schedule, each is the DFT of its
    own vector; nothing else is written *)
Theorem C20_complex_batch : forall nx sg M Threads setup_threads (ip : bool) table_entry timing
    istride ostride idist odist pin pout m f,
  let li := mkvlay 2 nx istride idist in let lo := mkvlay 2 nx ostride odist in
  let b := block_init M Threads setup_threads (block_guard ip li lo) table_entry timing in
  no_overlap nx M ostride odist -> 0 < istride -> 0 < ostride ->
  (if ip then pin = pout /\ istride = ostride /\ idist = odist
   else forall k k' a, k < M -> k' < M -> vec_word pin 2 nx istride idist k a -> vec_word pout 2 nx ostride odist k' a -> False) ->
  (forall k s, k < M -> s < nx -> cell_C m (pin + 2 * (istride * s + idist * k)) (f k s)) ->
  (forall k a, k < M -> vec_word pout 2 nx ostride odist k a -> allocated m a) ->
  always (block_Execute (dft_c nx sg) li lo M (b_T b) (b_Q b) (b_R b) pin pout) m (fun m' =>
    (forall k s, k < M -> s < nx -> cell_C m' (pout + 2 * (ostride * s + odist * k)) (DFT1 nx (IZR sg) (f k) s)) /\
    (forall a, (forall k, k < M -> ~ vec_word pout 2 nx ostride odist k a) -> m' a = m a)).
Proof. exact block_complex. Qed.
Print Assumptions C20_complex_batch.

(** Mrcfft1d: M real-to-complex transforms, in place (with the documented pitch) or not *)
Theorem C20_real_batch : forall nx M Threads setup_threads (ip : bool) table_entry timing
    istride ostride idist odist pin pout m f,
  let li := mkvlay 1 nx istride idist in let lo := mkvlay 2 (nx / 2 + 1) ostride odist in
  let b := block_init M Threads setup_threads (block_guard ip li lo) table_entry timing in
  no_overlap (nx / 2 + 1) M ostride odist -> 0 < istride -> 0 < ostride ->
  (if ip then pin = pout /\ idist = 2 * odist
   else forall k k' a, k < M -> k' < M -> vec_word pin 1 nx istride idist k a ->
          vec_word pout 2 (nx / 2 + 1) ostride odist k' a -> False) ->
  (forall k s, k < M -> s < nx -> m (pin + (istride * s + idist * k)) = Val (f k s)) ->
  (forall k a, k < M -> vec_word pout 2 (nx / 2 + 1) ostride odist k a -> allocated m a) ->
  always (block_Execute (dft_r nx) li lo M (b_T b) (b_Q b) (b_R b) pin pout) m (fun m' =>
    (forall k s, k < M -> s < nx / 2 + 1 ->
       cell_C m' (pout + 2 * (ostride * s + odist * k)) (DFT1 nx (-1) (fun i => RtoC (f k i)) s)) /\
    (forall a, (forall k, k < M -> ~ vec_word pout 2 (nx / 2 + 1) ostride odist k a) -> m' a = m a)).
Proof. exact block_real. Qed.
Print Assumptions C20_real_batch.

(** in place with different input and output strides the constructor's overlap test passes for
    complex data, and two blocks race: a 2x2 transposed transform on two threads *)
Theorem C20_inplace_transposed_refuted : let l1 := mkvlay 2 2 1 2 in let l2 := mkvlay 2 2 2 1 in
  let b := block_init 2 2 (fun t => t) (block_guard true l1 l2) 0 false in
  b_T b = 2 /\ no_overlap 2 2 2 1 /\
  forall m, (forall a, a < 8 -> m a = Val 0%R) ->
    exec (block_Execute (dft_c 2 (-1)) l1 l2 2 (b_T b) (b_Q b) (b_R b) 0 0) m UB.
Proof. exact race_thm. Qed.
Print Assumptions C20_inplace_transposed_refuted.

(** 5 transforms of length 3, stride 5 and dist 1, in place on 4 threads: blocks of 1,1,1,2 *)
Example C20_case : no_overlap 3 5 5 1 /\
  block_init 5 4 (fun t => t) (block_guard true (mkvlay 2 3 5 1) (mkvlay 2 3 5 1)) 0 false =
    mkblock 4 1 1 (Some 5) (Some 1) (Some 2) /\
  map (block_part 4 1 1) (seq 0 4) = [(0, 1); (1, 1); (2, 1); (3, 2)].
Proof. repeat split; try reflexivity; lia. Qed.
(** real in place: rows of 6 doubles = 3 Complex for nx=4 *)
Example C20_case_real : no_overlap (4 / 2 + 1) 7 1 3 /\ 6 = 2 * 3 /\
  b_T (block_init 7 3 (fun t => t) (block_guard true (mkvlay 1 4 1 6) (mkvlay 2 (4 / 2 + 1) 1 3)) 0 false) = 3.
Proof. split; [|split; reflexivity]. change (4 / 2 + 1) with 3. intros s k s' k' ? ? ? ? E. lia. Qed.

(** *** C21: the checkerboard shift and fft0 *)

(** rows of pitch doubles (Complex rows when asC): odd rows are negated, nothing else changes *)
Theorem C21_shift_2d : forall asC data nx ny m, nx mod 2 = 0 -> init m data (nx * pitch ny asC) ->
  always (Shift2 asC data nx ny) m (fun m' =>
    (forall i d, i < nx -> d < pitch ny asC ->
       m' (data + i * pitch ny asC + d) =
       (if Nat.odd i then negated (m (data + i * pitch ny asC + d)) else m (data + i * pitch ny asC + d))) /\
    untouched_outside m m' data (nx * pitch ny asC)).
Proof. exact Shift2_thm. Qed.
Print Assumptions C21_shift_2d.
Theorem C21_shift_3d : forall asC data nx ny nz m, nx mod 2 = 0 -> ny mod 2 = 0 -> 0 < nz ->
  init m data (nx * ny * pitch nz asC) ->
  always (Shift3 asC data nx ny nz) m (fun m' =>
    (forall i j d, i < nx -> j < ny -> d < pitch nz asC ->
       m' (data + (i * ny + j) * pitch nz asC + d) =
       (if Nat.odd (i + j) then negated (m (data + (i * ny + j) * pitch nz asC + d))
        else m (data + (i * ny + j) * pitch nz asC + d))) /\
    untouched_outside m m' data (nx * ny * pitch nz asC)).
Proof. exact Shift3_thm. Qed.
Print Assumptions C21_shift_3d.
Theorem C21_shift_involution_2d : forall asC data nx ny m, nx mod 2 = 0 -> init m data (nx * pitch ny asC) ->
  always (Seq (Shift2 asC data nx ny) (Shift2 asC data nx ny)) m (fun m' => forall x, m' x = m x).
Proof. exact Shift2_twice. Qed.
Print Assumptions C21_shift_involution_2d.
Theorem C21_shift_involution_3d : forall asC data nx ny nz m, nx mod 2 = 0 -> ny mod 2 = 0 -> 0 < nz ->
  init m data (nx * ny * pitch nz asC) ->
  always (Seq (Shift3 asC data nx ny nz) (Shift3 asC data nx ny nz)) m (fun m' => forall x, m' x = m x).
Proof. exact Shift3_twice. Qed.
Print Assumptions C21_shift_involution_3d.
(** odd sizes: the documented error exit, before anything is written *)
Theorem C21_odd_sizes_exit : forall asC data nx ny nz m,
  (nx mod 2 <> 0 -> always_exits (Shift2 asC data nx ny) m) /\
  (nx mod 2 <> 0 \/ ny mod 2 <> 0 -> always_exits (Shift3 asC data nx ny nz) m).
Proof. exact Shift_exits. Qed.
Print Assumptions C21_odd_sizes_exit.

(** rcfft2d/rcfft3d::fft0: row i of the output holds wave number i-nx/2 *)
Theorem C21_fft0_centres_2d : forall nx ny (ip : bool) a b m f, 0 < nx -> 0 < ny -> nx mod 2 = 0 ->
  (if ip then a = b else disjoint a (nx * ny) b (2 * (nx * (ny / 2 + 1)))) ->
  init m a (nx * pitch ny ip) -> rarray2 m a nx ny (pitch ny ip) f -> space m b (2 * (nx * (ny / 2 + 1))) ->
  always (fft0 false (rcfft2d nx ny ip) a b) m (fun m' =>
    carray2 m' b nx (ny / 2 + 1) (fun i j => MODE2 nx ny (-1) (fun i j => RtoC (f i j)) (centred nx i) (Z.of_nat j))).
Proof. exact fft0_rc2. Qed.
Print Assumptions C21_fft0_centres_2d.
Theorem C21_fft0_centres_3d : forall nx ny nz (ip : bool) a b m f,
  0 < nx -> 0 < ny -> 0 < nz -> nx mod 2 = 0 -> ny mod 2 = 0 ->
  (if ip then a = b else disjoint a (nx * ny * nz) b (2 * (nx * ny * (nz / 2 + 1)))) ->
  init m a (nx * ny * pitch nz ip) -> rarray3 m a nx ny nz (pitch nz ip) f -> space m b (2 * (nx * ny * (nz / 2 + 1))) ->
  always (fft0 true (rcfft3d nx ny nz ip) a b) m (fun m' =>
    carray3 m' b nx ny (nz / 2 + 1) (fun i j k =>
      MODE3 nx ny nz (-1) (fun i j k => RtoC (f i j k)) (centred nx i) (centred ny j) (Z.of_nat k))).
Proof. exact fft0_rc3. Qed.
Print Assumptions C21_fft0_centres_3d.
(** crfft2d/crfft3d::fft0 read the spectrum in the same centred order *)
Theorem C21_fft0_reads_centred_2d : forall nx ny (ip : bool) a b m F, 0 < nx -> 0 < ny -> nx mod 2 = 0 ->
  (if ip then a = b else disjoint a (nx * ny) b (2 * (nx * (ny / 2 + 1)))) ->
  hermitian2 nx ny F ->
  carray2 m b nx (ny / 2 + 1) (fun i j => F ((i + nx / 2) mod nx) j) -> space m a (nx * pitch ny ip) ->
  always (fft0 false (crfft2d nx ny ip) b a) m (fun m' =>
    rarray2 m' a nx ny (pitch ny ip) (fun i j => re (DFT2 nx ny 1 F i j))).
Proof. exact fft0_cr2. Qed.
Print Assumptions C21_fft0_reads_centred_2d.
Theorem C21_fft0_reads_centred_3d : forall nx ny nz (ip : bool) a b m F,
  0 < nx -> 0 < ny -> 0 < nz -> nx mod 2 = 0 -> ny mod 2 = 0 ->
  (if ip then a = b else disjoint a (nx * ny * nz) b (2 * (nx * ny * (nz / 2 + 1)))) ->
  hermitian3 nx ny nz F ->
  carray3 m b nx ny (nz / 2 + 1) (fun i j k => F ((i + nx / 2) mod nx) ((j + ny / 2) mod ny) k) ->
  space m a (nx * ny * pitch nz ip) ->
  always (fft0 true (crfft3d nx ny nz ip) b a) m (fun m' =>
    rarray3 m' a nx ny nz (pitch nz ip) (fun i j k => re (DFT3 nx ny nz 1 F i j k))).
Proof. exact fft0_cr3. Qed.
Print Assumptions C21_fft0_reads_centred_3d.

(** a memory in which every double is defined meets every hypothesis on data *)
Definition full : dmem := fun a => Val (INR a).
Example C21_case : 4 mod 2 = 0 /\ 6 mod 2 = 0 /\ init full 3 (4 * 6 * pitch 5 true) /\
  rarray3 full 3 4 6 5 (pitch 5 true) (fun i j k => INR (3 + (i * 6 + j) * pitch 5 true + k)) /\
  space full 3 (2 * (4 * 6 * (5 / 2 + 1))) /\ centred 4 0 = (-2)%Z /\ centred 4 2 = 0%Z.
Proof.
  repeat split; try reflexivity.
  - intros d _. eexists. reflexivity.
  - intros d _. discriminate.
Qed.
Example C21_case_hermitian : hermitian2 4 6 (fun a b => RtoC 1) /\
  carray2 (fun a => Val (if Nat.odd a then 0 else 1)%R) 0 4 (6 / 2 + 1) (fun i j => RtoC 1).
Proof.
  split.
  - intros a b _ _. unfold Cconj, RtoC. simpl. rewrite Ropp_0. reflexivity.
  - intros i j _ _. unfold cell_C. rewrite Nat.add_0_l. split.
    + replace (Nat.odd (2 * (i * (6 / 2 + 1) + j))) with false; [reflexivity|]. symmetry. rewrite Nat.odd_mul. reflexivity.
    + replace (Nat.odd (2 * (i * (6 / 2 + 1) + j) + 1)) with true; [reflexivity|]. symmetry. rewrite Nat.odd_add, Nat.odd_mul. reflexivity.
Qed.

(** *** C22: normalized transforms invert *)
Theorem C22_round_trip_1d : forall nx sg (ip : bool) a b m f, sg = 1%Z \/ sg = (-1)%Z -> 0 < nx ->
  (if ip then a = b else disjoint a (2 * nx) b (2 * nx)) ->
  carray1 m a nx f -> space m b (2 * nx) ->
  always (Seq (fft (fft1d nx sg ip) a b) (fftNormalized true (fft1d nx (- sg) ip) b a)) m
    (fun m' => carray1 m' a nx f /\ only m m' a (2 * nx) b (2 * nx)).
Proof. exact round1. Qed.
Print Assumptions C22_round_trip_1d.
Theorem C22_round_trip_2d : forall nx ny sg (ip : bool) a b m f, sg = 1%Z \/ sg = (-1)%Z -> 0 < nx -> 0 < ny ->
  (if ip then a = b else disjoint a (2 * (nx * ny)) b (2 * (nx * ny))) ->
  carray2 m a nx ny f -> space m b (2 * (nx * ny)) ->
  always (Seq (fft (fft2d nx ny sg ip) a b) (fftNormalized true (fft2d nx ny (- sg) ip) b a)) m
    (fun m' => carray2 m' a nx ny f /\ only m m' a (2 * (nx * ny)) b (2 * (nx * ny))).
Proof. exact round2. Qed.
Print Assumptions C22_round_trip_2d.
Theorem C22_round_trip_3d : forall nx ny nz sg (ip : bool) a b m f, sg = 1%Z \/ sg = (-1)%Z ->
  0 < nx -> 0 < ny -> 0 < nz ->
  (if ip then a = b else disjoint a (2 * (nx * ny * nz)) b (2 * (nx * ny * nz))) ->
  carray3 m a nx ny nz f -> space m b (2 * (nx * ny * nz)) ->
  always (Seq (fft (fft3d nx ny nz sg ip) a b) (fftNormalized true (fft3d nx ny nz (- sg) ip) b a)) m
    (fun m' => carray3 m' a nx ny nz f /\ only m m' a (2 * (nx * ny * nz)) b (2 * (nx * ny * nz))).
Proof. exact round3. Qed.
Print Assumptions C22_round_trip_3d.
(** real data: rcfft then normalized crfft; asC says the result is passed as Complex*, as the
    one-argument in-place call does *)
Theorem C22_real_round_trip_1d : forall nx (ip asC : bool) a b m f, 0 < nx -> (asC = true -> ip = true) ->
  (if ip then a = b else disjoint a nx b (2 * (nx / 2 + 1))) ->
  rarray1 m a nx f -> space m b (2 * (nx / 2 + 1)) ->
  always (Seq (fft (rcfft1d nx ip) a b) (fftNormalized asC (crfft1d nx ip) b a)) m
    (fun m' => rarray1 m' a nx f /\ only m m' a (pitch nx ip) b (2 * (nx / 2 + 1))).
Proof. exact rround1. Qed.
Print Assumptions C22_real_round_trip_1d.
Theorem C22_real_round_trip_2d : forall nx ny (ip asC : bool) a b m f, 0 < nx -> 0 < ny -> (asC = true -> ip = true) ->
  (if ip then a = b else disjoint a (nx * ny) b (2 * (nx * (ny / 2 + 1)))) ->
  rarray2 m a nx ny (pitch ny ip) f -> space m b (2 * (nx * (ny / 2 + 1))) ->
  always (Seq (fft (rcfft2d nx ny ip) a b) (fftNormalized asC (crfft2d nx ny ip) b a)) m
    (fun m' => rarray2 m' a nx ny (pitch ny ip) f /\ only m m' a (nx * pitch ny ip) b (2 * (nx * (ny / 2 + 1)))).
Proof. exact rround2. Qed.
Print Assumptions C22_real_round_trip_2d.
Theorem C22_real_round_trip_3d : forall nx ny nz (ip asC : bool) a b m f, 0 < nx -> 0 < ny -> 0 < nz -> (asC = true -> ip = true) ->
  (if ip then a = b else disjoint a (nx * ny * nz) b (2 * (nx * ny * (nz / 2 + 1)))) ->
  rarray3 m a nx ny nz (pitch nz ip) f -> space m b (2 * (nx * ny * (nz / 2 + 1))) ->
  always (Seq (fft (rcfft3d nx ny nz ip) a b) (fftNormalized asC (crfft3d nx ny nz ip) b a)) m
    (fun m' => rarray3 m' a nx ny nz (pitch nz ip) f /\
               only m m' a (nx * ny * pitch nz ip) b (2 * (nx * ny * (nz / 2 + 1)))).
Proof. exact rround3. Qed.
Print Assumptions C22_real_round_trip_3d.
Theorem C22_shifted_round_trip_2d : forall nx ny (ip asC : bool) a b m f, 0 < nx -> 0 < ny -> nx mod 2 = 0 -> (asC = true -> ip = true) ->
  (if ip then a = b else disjoint a (nx * ny) b (2 * (nx * (ny / 2 + 1)))) ->
  init m a (nx * pitch ny ip) -> rarray2 m a nx ny (pitch ny ip) f -> space m b (2 * (nx * (ny / 2 + 1))) ->
  always (Seq (fft0 false (rcfft2d nx ny ip) a b) (fft0Normalized false asC (crfft2d nx ny ip) b a)) m
    (fun m' => rarray2 m' a nx ny (pitch ny ip) f).
Proof. exact round02. Qed.
Print Assumptions C22_shifted_round_trip_2d.
Theorem C22_shifted_round_trip_3d : forall nx ny nz (ip asC : bool) a b m f,
  0 < nx -> 0 < ny -> 0 < nz -> nx mod 2 = 0 -> ny mod 2 = 0 -> (asC = true -> ip = true) ->
  (if ip then a = b else disjoint a (nx * ny * nz) b (2 * (nx * ny * (nz / 2 + 1)))) ->
  init m a (nx * ny * pitch nz ip) -> rarray3 m a nx ny nz (pitch nz ip) f -> space m b (2 * (nx * ny * (nz / 2 + 1))) ->
  always (Seq (fft0 true (rcfft3d nx ny nz ip) a b) (fft0Normalized true asC (crfft3d nx ny nz ip) b a)) m
    (fun m' => rarray3 m' a nx ny nz (pitch nz ip) f).
Proof. exact round03. Qed.
Print Assumptions C22_shifted_round_trip_3d.
(** Mrcfft1d/Mcrfft1d normalization touches exactly the elements of the M vectors *)
Theorem C22_strided_normalize : forall osz norm nx M ostride odist out m, osz = 1 \/ osz = 2 -> 0 < ostride -> 0 < odist ->
  no_overlap nx M ostride odist ->
  (forall k a, k < M -> vec_word out osz nx ostride odist k a -> defined m a) ->
  always (NormalizeS osz norm nx M ostride odist out) m (fun m' =>
    (forall k a, k < M -> vec_word out osz nx ostride odist k a -> m' a = times norm (m a)) /\
    (forall a, (forall k, k < M -> ~ vec_word out osz nx ostride odist k a) -> m' a = m a)).
Proof. exact normS_thm. Qed.
Print Assumptions C22_strided_normalize.
(** Mfft1d with a longer input layout normalizes beyond the end of the output array:
    2 transforms of length 4, input columns of a 4x4 matrix, dense output of 8 Complex *)
Theorem C22_mfft1d_normalize_refuted : let nx := 4 in let M := 2 in
  forall m norm, (forall a, a < 16 -> m a = Val 0%R) -> (forall a, 16 <= a -> m a = Unalloc) ->
    (forall k a, k < M -> vec_word 0 2 nx 1 4 k a -> a < 16) /\
    exec (NormalizeC (Mfft1d_doubles nx M 4 1 1 4) norm 0) m UB.
Proof. exact mnorm_thm. Qed.
Print Assumptions C22_mfft1d_normalize_refuted.

Example C22_case : carray3 full 0 2 3 5 (fun i j k => mkC (INR (2 * ((i * 3 + j) * 5 + k))) (INR (2 * ((i * 3 + j) * 5 + k) + 1))) /\
  space full 60 (2 * (2 * 3 * 5)) /\ disjoint 0 (2 * (2 * 3 * 5)) 60 (2 * (2 * 3 * 5)) /\
  rarray2 full 0 3 5 (pitch 5 true) (fun i j => INR (i * pitch 5 true + j)) /\
  no_overlap 3 4 4 1 /\ (forall k a, k < 4 -> vec_word 0 2 3 4 1 k a -> defined full a).
Proof.
  repeat split.
  - intros d _. discriminate.
  - left. apply Nat.le_refl.
  - lia.
  - lia.
  - intros k a _ _. eexists. reflexivity.
Qed.

(** *** C23: deNyquist on a centred half-complex spectrum *)
Theorem C23_deNyquist_2d : forall nx ny f m, 0 < nx -> space m f (2 * (nx * (ny / 2 + 1))) ->
  always (deNyquist2 nx ny f) m (fun m' =>
    (forall i j c, i < nx -> j < ny / 2 + 1 -> c < 2 ->
       let a := f + 2 * (i * (ny / 2 + 1) + j) + c in
       (nyquist_mode nx (centred nx i) \/ nyquist_mode ny (Z.of_nat j) -> m' a = Val 0%R) /\
       (~ (nyquist_mode nx (centred nx i) \/ nyquist_mode ny (Z.of_nat j)) -> m' a = m a)) /\
    untouched_outside m m' f (2 * (nx * (ny / 2 + 1)))).
Proof. exact deNyq2. Qed.
Print Assumptions C23_deNyquist_2d.
Theorem C23_deNyquist_3d : forall nx ny nz f m, 0 < nx -> 0 < ny -> space m f (2 * (nx * ny * (nz / 2 + 1))) ->
  always (deNyquist3 nx ny nz f) m (fun m' =>
    (forall i j k c, i < nx -> j < ny -> k < nz / 2 + 1 -> c < 2 ->
       let a := f + 2 * ((i * ny + j) * (nz / 2 + 1) + k) + c in
       let N := nyquist_mode nx (centred nx i) \/ nyquist_mode ny (centred ny j) \/ nyquist_mode nz (Z.of_nat k) in
       (N -> m' a = Val 0%R) /\ (~ N -> m' a = m a)) /\
    untouched_outside m m' f (2 * (nx * ny * (nz / 2 + 1)))).
Proof. exact deNyq3. Qed.
Print Assumptions C23_deNyquist_3d.
Example C23_case : space full 5 (2 * (4 * (6 / 2 + 1))) /\ nyquist_mode 4 (centred 4 0) /\ ~ nyquist_mode 5 (centred 5 0) /\
  nyquist_mode 6 (Z.of_nat 3) /\ ~ nyquist_mode 4 (centred 4 3).
Proof. split; [intros d _; discriminate|]. repeat split; cbv; discriminate || reflexivity. Qed.

(** *** C37: the table of thread counts *)
Theorem C37_key_order : (forall a, keyless a a = false) /\
  (forall a b c, keyless a b = true -> keyless b c = true -> keyless a c = true) /\
  (forall a b, keyless a b = false -> keyless b a = false -> a = b).
Proof. exact (conj keyless_irrefl (conj keyless_trans keyless_total)). Qed.
Print Assumptions C37_key_order.
(** after any history of stores a lookup returns the last value stored under exactly that key *)
Theorem C37_lookup_last_stored : forall history key, Lookup (stores history) key = last_stored history key 0.
Proof. exact lookup_thm. Qed.
Print Assumptions C37_lookup_last_stored.
Example C37_case : let k := mkkey 8 3 4 true in let k' := mkkey 8 3 4 false in
  Lookup (stores [(k, 1); (k', 4); (mkkey 2 9 4 true, 7); (k, 2)]) k = 2 /\
  Lookup (stores [(k, 1); (k', 4); (mkkey 2 9 4 true, 7); (k, 2)]) k' = 4 /\
  Lookup (stores [(k, 1); (k', 4)]) (mkkey 3 8 4 true) = 0.
Proof. repeat split. Qed.

(** *** C38, C42: the wisdom file *)

(** a crash after any number of system calls of saveWisdom, in any history, leaves the wisdom
    file with its old content or with the complete new one *)
Theorem C38_wisdom_never_torn : forall name pid learn pieces fs history n ps, wf fs -> dirs fs (dir_of name) = true ->
  let s := save_prepare name pid (wrun name pid learn pieces history (wstart fs)) in
  concat ps = w_mem s ->
  let fs' := frun (firstn n (save_ops (w_temp s) name ps)) (w_fs s) in
  files fs' name = files (w_fs s) name \/ files fs' name = Some (w_mem s).
Proof. exact crash_thm. Qed.
Print Assumptions C38_wisdom_never_torn.
(** but a failed write (only a prefix reaches the disk) is renamed over the wisdom file *)
Theorem C38_write_error_refuted : forall name pid learn fs w1 w2,
  wf fs -> ~ In slash name -> ~ In slash pid -> dirs fs [] = true -> files fs name = None -> learn 0 = [w1; w2] ->
  files (w_fs (wrun name pid learn (fun _ => [[w1]]) [Plan 0; Save] (wstart fs))) name = Some [w1].
Proof. exact torn_thm. Qed.
Print Assumptions C38_write_error_refuted.

(** every problem planned, everything already in the file and everything other processes added
    before the save is in the file afterwards, and nothing else *)
Theorem C42_wisdom_accumulates : forall name pid learn pieces,
  (forall p, In p (learn p)) -> (forall c, concat (pieces c) = c) -> ~ In slash name -> ~ In slash pid ->
  forall fs history, dirs fs [] = true ->
  let file c := files (w_fs (wrun name pid learn pieces (history ++ [Save]) (wstart fs))) name = Some c in
  let before := match files fs name with Some c => c | None => [] end in
  forall e,
    (In (Plan e) history \/ In e before \/ (exists c, In (Other c) history /\ In e c) -> exists c, file c /\ In e c) /\
    ((exists c, file c /\ In e c) ->
       In e before \/ (exists c, In (Other c) history /\ In e c) \/ (exists p, In (Plan p) history /\ In e (learn p))).
Proof. exact complete_thm. Qed.
Print Assumptions C42_wisdom_accumulates.
(** with a directory in wisdomName the temporary name, built by appending twice, names a
    directory that does not exist: nothing is ever saved *)
Theorem C42_directory_refuted : forall name pid learn pieces fs p, dir_of name <> [] -> ~ In slash pid -> wf fs ->
  dirs fs (name ++ [underscore] ++ pid ++ dir_of name) = false ->
  files (w_fs (wrun name pid learn pieces [Plan p; Save] (wstart fs))) = files fs.
Proof. exact directory_thm. Qed.
Print Assumptions C42_directory_refuted.
(** entries another process saves between the reload and the rename are lost *)
Theorem C42_concurrent_save_refuted : forall name pid learn pieces fs p c,
  wf fs -> ~ In slash name -> ~ In slash pid -> dirs fs [] = true ->
  (forall w, concat (pieces w) = w) -> files fs name = Some [] ->
  let s := save_prepare name pid (Planner name pid learn p (wstart fs)) in
  let s' := save_write name pieces (wstep name pid learn pieces s (Other c)) in
  files (w_fs s') name = Some (learn p).
Proof. exact lost_update_thm. Qed.
Print Assumptions C42_concurrent_save_refuted.

Definition wname : path := ["w"; "3"]%char.
Definition fs42 : fsys := mkfs (fun p => if path_eqb p wname then Some [7; 8] else None) (fun d => match d with [] => true | _ => false end).
Example C42_case : wf fs42 /\ ~ In slash wname /\ ~ In slash ["9"]%char /\
  files (w_fs (wrun wname ["9"]%char (fun p => [p; 100 + p]) (fun c => [c]) [Plan 7; Plan 5; Other [6]; Plan 4; Save] (wstart fs42))) wname =
    Some [7; 8; 6; 4; 104; 5; 105].
Proof.
  split; [|split; [|split]].
  - intros p Hp. unfold fs42 in *. cbn [files dirs] in *. unfold path_eqb in Hp. destruct (list_eq_dec ascii_dec p wname) as [->|]; [reflexivity|congruence].
  - cbv. intuition discriminate.
  - cbv. intuition discriminate.
  - vm_compute. reflexivity.
Qed.
Example C42_case_directory : dir_of ["d"; "/"; "w"]%char = ["d"; "/"]%char.
Proof. reflexivity. Qed.
