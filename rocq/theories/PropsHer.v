(** Properties of the Hermitian padded transforms (fftPadHermitian). *)
From Coq Require Import Reals ZArith Arith Lia List Bool Permutation.
From Verif Require Import CNum Sums Mem PadModel PadKernels PadSpec PadCases CenModel HerModel HerSpec HerForward HerIndex HerCases.
Import ListNotations.

(** C48: every schedule of forward(f,F,r,W) leaves, in block be of F, the real numbers
    X_k = sum over |j| < H of f_j exp(2 pi i j k/M), f_{-j} = conj f_j, at the frequencies k
    reported by index(r,.); all of them are real. *)
Theorem C48_forward_is_hermitian_dft : forall al t, hwf t -> 1 <= al ->
  forall f F W r x m0,
  let W0 := getW F W in let H := hH t in let C := aC t in
  r < hR t -> ainplace t = (W0 =? F) ->
  hasC C f H x m0 -> (forall c, c < C -> im (x 0 c) = 0%R) ->
  alloc F (houtputSize al t) m0 -> alloc W0 (hworkSizeW al t) m0 ->
  apart f (C * H) F (houtputSize al t) -> apart f (C * H) W0 (hworkSizeW al t) ->
  (W0 = F \/ apart W0 (hworkSizeW al t) F (houtputSize al t)) ->
  WP (hforward al t f F r W) m0 (fun m' =>
    (forall be i c, be < hblocks t r -> i < hnoutputs t -> c < C ->
       let X := hdft (kM t) H (fun j => x j c) (hindex t r (be * hnoutputs t + i)) in
       im X = 0%R /\ dbl m' (F + be * hb al t) (C * i + c) (re X)) /\
    hasC C f H x m' /\
    only (fun a => span_of F (houtputSize al t) a \/ span_of W0 (hworkSizeW al t) a) m0 m').
Proof. exact hforward_thm. Qed.
Print Assumptions C48_forward_is_hermitian_dft.
Example C48_case : WP (hforward 4 hcase1 0 100 1 (Some 200)) (m0case 4) (fun m' =>
  (forall i, i < 4 -> let X := hdft 12 4 (fun j => RtoC (INR (j + 1))) (nth i [1; 4; 7; 10] 0) in
     im X = 0%R /\ dbl m' 100 i (re X)) /\
  (forall i, i < 4 -> let X := hdft 12 4 (fun j => RtoC (INR (j + 1))) (nth i [11; 2; 5; 8] 0) in
     im X = 0%R /\ dbl m' 104 i (re X)) /\
  m' 3 = Val (RtoC 4)).
Proof. exact hcase1_forward. Qed.

(** the loop over the passes terminates, and the passes produce every frequency exactly once *)
Theorem C48_residue_loop : forall t, hwf t ->
  loop_trace (hR t) (hincrement t) 0 (seq 0 (hR t)) /\
  forall rs, loop_trace (hR t) (hincrement t) 0 rs -> rs = seq 0 (hR t).
Proof. exact hloop. Qed.
Print Assumptions C48_residue_loop.
Theorem C48_index_bijection : forall t, hwf t -> forall rs, loop_trace (hR t) (hincrement t) 0 rs ->
  Permutation (seq 0 (kM t)) (flat_map (fun r => map (hindex t r) (seq 0 (hblocks t r * hnoutputs t))) rs).
Proof. exact hindex_perm. Qed.
Print Assumptions C48_index_bijection.
Example C48_index_case : hwf hcase0 /\ hwf hcase1 /\ hwf hcase2 /\ hwf hcase3 /\
  (hR hcase1, hR hcase2, hR hcase3, hR hcase0) = (2, 2, 2, 1) /\
  (hblocks hcase1 0, hblocks hcase1 1, hblocks hcase2 0) = (1, 2, 2) /\
  map (hindex hcase2 0) (seq 0 12) = [0; 8; 16; 4; 12; 20; 2; 10; 18; 6; 14; 22] /\
  map (hindex hcase2 1) (seq 0 12) = [1; 9; 17; 5; 13; 21; 23; 7; 15; 3; 11; 19].
Proof.
  split; [exact hcase0_wf|]. split; [exact hcase1_wf|]. split; [exact hcase2_wf|]. split; [exact hcase3_wf|]. vm_compute. auto.
Qed.

(** no execution of forward leaves the documented extents, reads an uninitialised word, has a
    data race or terminates the program *)
Theorem C48_forward_in_bounds : forall al t, hwf t -> 1 <= al -> forall f F W r x m0,
  let W0 := getW F W in
  r < hR t -> ainplace t = (W0 =? F) ->
  hasC (aC t) f (hH t) x m0 -> (forall c, c < aC t -> im (x 0 c) = 0%R) ->
  alloc F (houtputSize al t) m0 -> alloc W0 (hworkSizeW al t) m0 ->
  apart f (aC t * hH t) F (houtputSize al t) -> apart f (aC t * hH t) W0 (hworkSizeW al t) ->
  (W0 = F \/ apart W0 (hworkSizeW al t) F (houtputSize al t)) ->
  (forall a, ~ span_of f (aC t * hH t) a -> ~ span_of F (houtputSize al t) a -> ~ span_of W0 (hworkSizeW al t) a -> m0 a = Unalloc) ->
  forall o, exec (hforward al t f F r W) m0 o -> o <> UB /\ o <> ExitErr.
Proof. exact hforward_inbounds_thm. Qed.
Print Assumptions C48_forward_in_bounds.
