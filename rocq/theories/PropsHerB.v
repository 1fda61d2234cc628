(** Properties of the backward transforms of fftPadHermitian. *)
From Coq Require Import Reals ZArith Arith Lia List Bool Permutation.
From Verif Require Import CNum Sums Mem PadModel PadKernels PadSpec PadCases ConvModel CenModel HerModel HerSpec HerForward HerIndex HerCases HerBCases.
Import ListNotations.

(** C49: one pass of backward(F,f,r,W) adds to the stored half exactly the share of the inverse
    transform contributed by the real values found in F at the frequencies reported by index(r,.)
    (pass 0 overwrites f, later passes accumulate), ... *)
Theorem C49_backward_pass : forall al t, hwf t -> 1 <= al ->
  forall f F W r (y : nat -> nat -> nat -> R) acc m0,
  let W0 := getW F W in let H := hH t in let C := aC t in let N := hnoutputs t in
  r < hR t -> ainplace t = (W0 =? F) ->
  (forall be i c, be < hblocks t r -> i < N -> c < C -> dbl m0 (F + be * hb al t) (C * i + c) (y be i c)) ->
  (r <> 0 -> hasC C f H acc m0) ->
  alloc F (houtputSize al t) m0 -> alloc W0 (hworkSizeW al t) m0 -> alloc f (C * H) m0 ->
  apart f (C * H) F (houtputSize al t) -> apart f (C * H) W0 (hworkSizeW al t) ->
  (W0 = F \/ apart W0 (hworkSizeW al t) F (houtputSize al t)) ->
  WP (hbackward al t F f r W) m0 (fun m' =>
    hasC C f H (fun j c => Cadd (if r =? 0 then C0 else acc j c)
      (Csum (hblocks t r) (fun be => hpartial_inverse (kM t) N (fun i => hindex t r (be * N + i)) (fun i => y be i c) j))) m' /\
    only (fun a => span_of f (C * H) a \/ span_of F (houtputSize al t) a \/ span_of W0 (hworkSizeW al t) a) m0 m').
Proof. exact hbackward_thm. Qed.
Print Assumptions C49_backward_pass.

(** ... the shares of all passes add up to the whole unnormalised inverse, ... *)
Theorem C49_passes_add_up : forall t, hwf t -> forall rs (Y : nat -> R) j,
  let N := hnoutputs t in
  loop_trace (hR t) (hincrement t) 0 rs ->
  Clist rs (fun r => Csum (hblocks t r) (fun be =>
    hpartial_inverse (kM t) N (fun i => hindex t r (be * N + i)) (fun i => Y (hindex t r (be * N + i))) j))
  = hpartial_inverse (kM t) (kM t) (fun k => k) Y j.
Proof. exact hpasses_thm. Qed.
Print Assumptions C49_passes_add_up.

(** ... which inverts the Hermitian transform up to the factor M, ... *)
Theorem C49_inverse : forall t, hwf t -> forall (x : nat -> C) j, im (x 0) = 0%R -> j < hH t ->
  hpartial_inverse (kM t) (kM t) (fun k => k) (fun k => re (hdft (kM t) (hH t) x k)) j = Cmul (RtoC (INR (kM t))) (x j).
Proof. exact hinv_thm. Qed.
Print Assumptions C49_inverse.

(** ... so forward and backward over all passes multiplies the data by M. *)
Theorem C49_roundtrip : forall al t, hwf t -> 1 <= al ->
  forall f F h W x m0 rs,
  let W0 := getW F W in let H := hH t in let C := aC t in
  loop_trace (hR t) (hincrement t) 0 rs ->
  ainplace t = (W0 =? F) ->
  hasC C f H x m0 -> (forall c, c < C -> im (x 0 c) = 0%R) ->
  alloc F (houtputSize al t) m0 -> alloc W0 (hworkSizeW al t) m0 -> alloc h (C * H) m0 ->
  apart f (C * H) F (houtputSize al t) -> apart f (C * H) W0 (hworkSizeW al t) ->
  apart h (C * H) F (houtputSize al t) -> apart h (C * H) W0 (hworkSizeW al t) -> apart f (C * H) h (C * H) ->
  (W0 = F \/ apart W0 (hworkSizeW al t) F (houtputSize al t)) ->
  WP (rfor rs (fun r => Seq (hforward al t f F r W) (hbackward al t F h r W))) m0 (fun m' =>
    hasC C h H (fun j c => Cmul (RtoC (INR (kM t))) (x j c)) m' /\
    hasC C f H x m' /\
    only (fun a => span_of F (houtputSize al t) a \/ span_of W0 (hworkSizeW al t) a \/ span_of h (C * H) a) m0 m').
Proof. exact hroundtrip_thm. Qed.
Print Assumptions C49_roundtrip.
Example C49_case : WP (rfor [0; 1] (fun r => Seq (hforward 4 hcase1 0 100 r (Some 200)) (hbackward 4 hcase1 100 300 r (Some 200)))) (m0case 4)
  (fun m' => m' 302 = Val (RtoC 36)).
Proof. exact hcase1_roundtrip. Qed.
Example C49_case_inner : WP (rfor [0; 1] (fun r => Seq (hforward 4 hcase2 0 100 r None) (hbackward 4 hcase2 100 300 r None))) (m0case 6)
  (fun m' => m' 305 = Val (RtoC 144)).
Proof. exact hcase2_roundtrip. Qed.

(** no execution of backward leaves the documented extents, reads an uninitialised word, has a
    data race or terminates the program, and all executions end in the same memory *)
Theorem C49_backward_in_bounds_and_deterministic : forall al t, hwf t -> 1 <= al -> forall f F W r y acc m0,
  let W0 := getW F W in let H := hH t in let C := aC t in
  r < hR t -> ainplace t = (W0 =? F) ->
  (forall be i c, be < hblocks t r -> i < hnoutputs t -> c < C -> dbl m0 (F + be * hb al t) (C * i + c) (y be i c)) ->
  (r <> 0 -> hasC C f H acc m0) ->
  alloc F (houtputSize al t) m0 -> alloc W0 (hworkSizeW al t) m0 -> alloc f (C * H) m0 ->
  apart f (C * H) F (houtputSize al t) -> apart f (C * H) W0 (hworkSizeW al t) ->
  (W0 = F \/ apart W0 (hworkSizeW al t) F (houtputSize al t)) ->
  (forall a, ~ span_of f (C * H) a -> ~ span_of F (houtputSize al t) a -> ~ span_of W0 (hworkSizeW al t) a -> m0 a = Unalloc) ->
  exists m', forall o, exec (hbackward al t F f r W) m0 o <-> o = OK m'.
Proof. exact hbackward_inbounds_thm. Qed.
Print Assumptions C49_backward_in_bounds_and_deterministic.
