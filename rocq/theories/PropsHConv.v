(** Properties of one-dimensional Hermitian convolutions (class Convolution with fftPadHermitian). *)
From Coq Require Import Reals ZArith Arith Lia List Bool.
From Verif Require Import CNum Sums Mem PadModel PadSpec CenModel HerModel HerSpec HerCases ConvModel ConvSpec HConvModel HConvSpec HConvProofs.
Import ListNotations.

(** C50: constructing a Convolution with fftPadHermitian and realMultBinary and calling convolve on
    the halves f_0 .. f_{H-1} (f_0 real) of two Hermitian sequences stores in the first array the
    same half of their convolution, if M is at least 3H-2; the second array and everything outside
    the buffers is unchanged.  When n is odd this needs the transform buffers to be initialised
    (see C50_fresh_buffers_refuted). *)
Theorem C50_hermitian_convolution : forall al t, hwf t -> 1 <= al -> aC t = 1 -> aA t = 2 -> aB t = 1 ->
  forall g F V w (x : nat -> nat -> C) m0,
  hbuffers al t g F V w m0 ->
  (forall a j, a < 2 -> j < hH t -> m0 (g a + j) = Val (x a j)) -> (forall a, a < 2 -> im (x a 0) = 0%R) ->
  kq t = 1 \/ kn t mod 2 = 0 \/ initialised al t F m0 ->
  3 * hH t <= aM t + 2 ->
  let H := hH t in
  WP (hconstruct_convolve al t realMultBinary F V w g) m0 (fun m' =>
    (forall j, j < H -> m' (g 0 + j) = Val (oconv (H - 1) (2 * H - 1) (hseq H (x 0)) (hseq H (x 1)) (j + (H - 1)))) /\
    (forall j, j < H -> m' (g 1 + j) = Val (x 1 j)) /\
    (forall a, houtside al t g F V w a -> m' a = m0 a)).
Proof. exact hlin_thm. Qed.
Print Assumptions C50_hermitian_convolution.

Example C50_hermitian_convolution_case : hwf hk2 /\ hwf hk3 /\
  WP (hconstruct_convolve 1 hk2 realMultBinary hF hV 300 hg) hmem (fun m' => m' (hg 0) = Val (RtoC 27)) /\
  WP (hconstruct_convolve 1 hk3 realMultBinary hF hV 300 hg) hmem (fun m' => m' (hg 0 + 1) = Val (RtoC 4)).
Proof. exact (conj hk2_wf (conj hk3_wf (conj hk2_run hk3_run))). Qed.

(** ... with less padding it is the cyclic convolution modulo the padded size; no word is freed, so
    the same object can be used again ... *)
Theorem C50_hermitian_cyclic_convolution : forall al t, hwf t -> 1 <= al -> aC t = 1 -> aA t = 2 -> aB t = 1 ->
  forall g F V w (x : nat -> nat -> C) m0,
  hbuffers al t g F V w m0 ->
  (forall a j, a < 2 -> j < hH t -> m0 (g a + j) = Val (x a j)) -> (forall a, a < 2 -> im (x a 0) = 0%R) ->
  kq t = 1 \/ kn t mod 2 = 0 \/ initialised al t F m0 ->
  let H := hH t in
  WP (hconstruct_convolve al t realMultBinary F V w g) m0 (fun m' =>
    (forall j, j < H -> m' (g 0 + j) = Val (ocyc (H - 1) (kM t) (2 * H - 1) (hseq H (x 0)) (hseq H (x 1)) (j + (H - 1)))) /\
    (forall j, j < H -> m' (g 1 + j) = Val (x 1 j)) /\
    (forall a, houtside al t g F V w a -> m' a = m0 a) /\
    (forall a, m0 a <> Unalloc -> m' a <> Unalloc)).
Proof. exact hcyc_thm. Qed.
Print Assumptions C50_hermitian_cyclic_convolution.
Example C50_hermitian_cyclic_convolution_case :
  hbuffers 1 hk2 hg hF hV 300 hmem /\ (forall a j, a < 2 -> j < hH hk2 -> hmem (hg a + j) = Val (RtoC (INR (j + 1)))) /\ kn hk2 mod 2 = 0.
Proof.
  split; [apply hmem_buf; vm_compute; try reflexivity; lia|]. split; [|reflexivity].
  intros a j Ha Hj. apply hmem_x; [assumption|]. change (hH hk2) with 3 in Hj. lia.
Qed.

(** ... and no schedule reaches undefined behaviour or an error exit. *)
Theorem C50_no_undefined_behaviour : forall al t, hwf t -> 1 <= al -> aC t = 1 -> aA t = 2 -> aB t = 1 ->
  forall g F V w (x : nat -> nat -> C) m0,
  hbuffers al t g F V w m0 ->
  (forall a j, a < 2 -> j < hH t -> m0 (g a + j) = Val (x a j)) -> (forall a, a < 2 -> im (x a 0) = 0%R) ->
  kq t = 1 \/ kn t mod 2 = 0 \/ initialised al t F m0 ->
  forall o, exec (hconstruct_convolve al t realMultBinary F V w g) m0 o -> o <> UB /\ o <> ExitErr.
Proof. exact hsafe_thm. Qed.
Print Assumptions C50_no_undefined_behaviour.

(** Refuted for odd n: with freshly allocated (uninitialised) transform buffers, as the constructor
    leaves them, the first pass produces one block of outputs but multiplies two: for every such
    object and every input, indeterminate values are read. *)
Theorem C50_fresh_buffers_refuted : forall al t, hwf t -> 1 <= al -> aC t = 1 -> aA t = 2 -> aB t = 1 ->
  kq t <> 1 -> kn t mod 2 <> 0 ->
  forall g F V w (x : nat -> nat -> C) m0,
  hbuffers al t g F V w m0 ->
  (forall a j, a < 2 -> j < hH t -> m0 (g a + j) = Val (x a j)) -> (forall a, a < 2 -> im (x a 0) = 0%R) ->
  (forall i, i < houtputSize al t -> m0 (F 0 + i) = Undef) ->
  exec (hconstruct_convolve al t realMultBinary F V w g) m0 UB.
Proof. exact hub_thm. Qed.
Print Assumptions C50_fresh_buffers_refuted.
Example C50_fresh_buffers_refuted_case : hwf hk1 /\ kn hk1 = 3 /\ exec (hconstruct_convolve 1 hk1 realMultBinary hF hV 300 hg) hmem UB.
Proof. exact (conj hcase1_wf (conj eq_refl hk1_ub)). Qed.
