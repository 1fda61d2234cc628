(** Properties of convolutions of real data (class Convolution with fftPadReal). *)
From Coq Require Import Reals ZArith Arith Lia Lra List Bool.
From Verif Require Import CNum Sums Mem PadModel PadSpec PadKernels CenModel HerModel RealModel RealSpec RealGeom RealMath RealCases ConvModel RConvModel RConvSpec RConvProofs.
Import ListNotations.

(** C53: constructing a Convolution with fftPadReal and multBinary and calling convolve on two arrays of
    L real numbers stores in the first one their linear convolution, if M is at least 2L-1; the second
    array and everything outside the object's arrays is unchanged.  Missing: C,S>1 and p>2. *)
Theorem C53_real_convolution_partial : forall t, rwf t -> aA t = 2 -> aB t = 1 -> forall g F V w (x : nat -> nat -> R) m0,
  rbuffers t g F V w m0 -> (forall a, a < 2 -> reals (g a) (aL t) (x a) m0) ->
  2 * aL t <= aM t + 1 ->
  WP (rconstruct_convolve t rmultBinary F V w g) m0 (fun m' =>
    reals (g 0) (aL t) (rlinconv (x 0) (x 1)) m' /\
    reals (g 1) (aL t) (x 1) m' /\
    (forall a, routside t g F V w a -> m' a = m0 a)).
Proof. exact rlin_thm. Qed.
Print Assumptions C53_real_convolution_partial.
Example C53_real_convolution_partial_case : WP (rconstruct_convolve rcase1 rmultBinary rFb rVb 600 rg) rcm (fun m' => m' 2 = Val 10%R) /\
  WP (rconstruct_convolve rcase2 rmultBinary rFb rVb 600 rg) rcm (fun m' => m' 3 = Val 20%R) /\
  WP (rconstruct_convolve rcase4 rmultBinary rFb rVb 600 rg) rcm (fun m' => m' 2 = Val 10%R) /\
  WP (rconstruct_convolve rcase5 rmultBinary rFb rVb 600 rg) rcm (fun m' => m' 1 = Val 4%R) /\
  (rloop2 rcase1 = true /\ rloop2 rcase4 = false /\ rnloops rcase4 = 4 /\ rcuseF rcase4 = true /\ gq rcase5 = 1 /\ ainplace rcase2 = true /\ gp rcase2 = 2).
Proof. exact (conj rcase1_conv (conj rcase2_conv (conj rcase4_conv (conj rcase5_conv rcase_shapes)))). Qed.

(** ... the same after any history of calls on the object (also with other arrays), and of other actions
    of the program that leave the object's own arrays alone ... *)
Theorem C53_any_history_partial : forall t, rwf t -> aA t = 2 -> aB t = 1 -> forall g F V w (x : nat -> nat -> R) m,
  rreach t rmultBinary F V w m ->
  rbuffers t g F V w m -> (forall a, a < 2 -> reals (g a) (aL t) (x a) m) ->
  2 * aL t <= aM t + 1 ->
  WP (rconvolve_call t rmultBinary F V w g) m (fun m' =>
    reals (g 0) (aL t) (rlinconv (x 0) (x 1)) m' /\ reals (g 1) (aL t) (x 1) m').
Proof. exact rhist_thm. Qed.
Print Assumptions C53_any_history_partial.
Example C53_any_history_partial_case : exists m, rreach rcase1 rmultBinary rFb rVb 600 m /\ rbuffers rcase1 rg rFb rVb 600 m /\ (forall a, a < 2 -> reals (rg a) 4 (fun j => INR (j + 1)) m).
Proof. exact rcase1_reach. Qed.

(** ... with less padding the result is the cyclic convolution modulo the padded size m*q ... *)
Theorem C53_cyclic_convolution_partial : forall t, rwf t -> aA t = 2 -> aB t = 1 -> forall g F V w (x : nat -> nat -> R) m,
  rreach t rmultBinary F V w m ->
  rbuffers t g F V w m -> (forall a, a < 2 -> reals (g a) (aL t) (x a) m) ->
  WP (rconvolve_call t rmultBinary F V w g) m (fun m' =>
    reals (g 0) (aL t) (rcycconv (gM t) (aL t) (x 0) (x 1)) m' /\
    reals (g 1) (aL t) (x 1) m' /\
    (forall a, routside t g F V w a -> m' a = m a) /\
    (forall a, m a <> Unalloc -> m' a <> Unalloc)).
Proof. exact rcyc_thm. Qed.
Print Assumptions C53_cyclic_convolution_partial.
Example C53_cyclic_convolution_partial_case : rcycconv 4 4 (fun j => INR (j + 1)) (fun j => INR (j + 1)) 0 = 26%R.
Proof. unfold rcycconv. cbn -[INR]. cbn. lra. Qed.

(** ... and with no other memory than these arrays, no schedule reaches undefined behaviour or an error
    exit. *)
Theorem C53_no_undefined_behaviour_partial : forall t, rwf t -> aA t = 2 -> aB t = 1 -> forall g F V w (x : nat -> nat -> R) m,
  rreach t rmultBinary F V w m ->
  rbuffers t g F V w m -> (forall a, a < 2 -> reals (g a) (aL t) (x a) m) ->
  (forall a, rown t F V w a \/ (exists b, b < 2 /\ dspan (g b) (aL t) a) \/ m a = Unalloc) ->
  forall o, exec (rconvolve_call t rmultBinary F V w g) m o -> o <> UB /\ o <> ExitErr.
Proof. exact rsafe_thm. Qed.
Print Assumptions C53_no_undefined_behaviour_partial.
Example C53_no_undefined_behaviour_partial_case : routputSize rcase1 = 3 /\ rworkSizeV rcase1 = 0 /\ rworkSizeV rcase4 = 4.
Proof. repeat split; reflexivity. Qed.

