(** Properties of the padded transforms of real data (class fftPadReal). *)
From Coq Require Import Reals ZArith Arith Lia List Bool Permutation.
From Verif Require Import CNum Sums Mem PadModel PadSpec PadKernels CenModel HerModel RealModel RealSpec RealGeom RealMath RealCases.
Import ListNotations.

(** C52: forward(f,F,r,W) of fftPadReal (C=S=1, p<=2) stores in F, for every pass r of the residue loop,
    the DFT of the L real numbers at f padded with zeros, at the frequencies [rfreq]; f and everything outside
    F and W are unchanged, and the zero tails that pad(W) wrote are kept.  Missing: S>1 and p>2. *)
Theorem C52_real_forward_partial : forall t, rwf t -> forall f F W r x m0 rs,
  let W0 := getW F W in let N := routputSize t in
  loop_trace (rR t) (rincrement t) 0 rs -> In r rs ->
  ainplace t = (W0 =? F) ->
  reals f (aL t) x m0 -> dalloc F (2 * N) m0 -> dalloc W0 (2 * rworkSizeW t) m0 ->
  dapart f (aL t) F (2 * N) -> dapart f (aL t) W0 (2 * rworkSizeW t) ->
  (W0 = F \/ dapart W0 (2 * rworkSizeW t) F (2 * N)) ->
  rpadded t W0 m0 ->
  WP (rforward t f F r W) m0 (fun m' =>
    complexes F (rnoutputs t r) (fun i => rdft (gM t) (aL t) x (rfreq (gM t) (gq t) (am t) r i)) m' /\
    reals f (aL t) x m' /\
    ronly (fun a => dspan F (2 * N) a \/ dspan W0 (2 * rworkSizeW t) a) m0 m' /\
    rpadded t W0 m').
Proof. exact rforward_thm. Qed.
Print Assumptions C52_real_forward_partial.
Example C52_real_forward_partial_case : rwf rcase1 /\ rwf rcase2 /\ rwf rcase3 /\ rwf rcase4 /\ rwf rcase5.
Proof. exact (conj rcase1_wf (conj rcase2_wf (conj rcase3_wf (conj rcase4_wf rcase5_wf)))). Qed.

(** ... backward(F,f,r,W) of pass r stores (r=0) or adds (r>0) into f the contribution of the stored
    frequencies, and of their conjugates at the mirrored ones, to the unnormalised inverse DFT
    (values at self-conjugate frequencies being real) ... *)
Theorem C52_real_backward_partial : forall t, rwf t -> forall f F W r y acc m0 rs,
  let W0 := getW F W in let N := routputSize t in
  loop_trace (rR t) (rincrement t) 0 rs -> In r rs ->
  ainplace t = (W0 =? F) ->
  complexes F (rnoutputs t r) y m0 ->
  (forall i, i < rnoutputs t r -> (2 * rfreq (gM t) (gq t) (am t) r i) mod gM t = 0 -> im (y i) = 0%R) ->
  (r <> 0 -> reals f (aL t) acc m0) ->
  dalloc f (aL t) m0 -> dalloc F (2 * N) m0 -> dalloc W0 (2 * rworkSizeW t) m0 ->
  dapart f (aL t) F (2 * N) -> dapart f (aL t) W0 (2 * rworkSizeW t) ->
  (W0 = F \/ dapart W0 (2 * rworkSizeW t) F (2 * N)) ->
  WP (rbackward t F f r W) m0 (fun m' =>
    reals f (aL t) (fun j => (if r =? 0 then 0 else acc j) +
      rpartial_inverse (gM t) (rnoutputs t r) (rfreq (gM t) (gq t) (am t) r) y j)%R m' /\
    ronly (fun a => dspan f (aL t) a \/ dspan F (2 * N) a \/ dspan W0 (2 * rworkSizeW t) a) m0 m').
Proof. exact rbackward_thm. Qed.
Print Assumptions C52_real_backward_partial.
Example C52_real_backward_partial_case : (forall i, i < rnoutputs rcase1 0 -> (2 * rfreq (gM rcase1) (gq rcase1) (am rcase1) 0 i) mod gM rcase1 = 0 -> im ((fun _ => RtoC 1) i) = 0%R) /\ rnoutputs rcase1 0 = 3 /\ rnoutputs rcase3 1 = 6.
Proof. split; [reflexivity|split; reflexivity]. Qed.

(** ... pad(W) establishes the zero tails forward relies on, and touches nothing else ... *)
Theorem C52_pad : forall t, rwf t -> forall W m0, dalloc W (2 * rworkSizeW t) m0 ->
  WP (rPad t W) m0 (fun m' => rpadded t W m' /\ ronly (dspan W (2 * rworkSizeW t)) m0 m').
Proof. exact rpad_thm. Qed.
Print Assumptions C52_pad.
Example C52_pad_case : dalloc 200 (2 * rworkSizeW rcase3) (rm0 3) /\ rworkSizeW rcase3 = 6 /\ padw rcase3 = 3.
Proof. split; [apply rm0_al|split; reflexivity]. Qed.

(** ... the loop for(r=0; r < R; r += increment(r)) terminates, with exactly one sequence of passes ... *)
Theorem C52_residue_loop : forall t, rwf t -> exists rs, loop_trace (rR t) (rincrement t) 0 rs /\
  forall rs', loop_trace (rR t) (rincrement t) 0 rs' -> rs' = rs.
Proof. exact rloop_thm. Qed.
Print Assumptions C52_residue_loop.
Example C52_residue_loop_case : loop_trace (rR rcase4) (rincrement rcase4) 0 [0; 1; 2; 3] /\ loop_trace (rR rcase3) (rincrement rcase3) 0 [0; 1].
Proof. split; apply rcase_tr; [exact rcase4_wf|reflexivity|exact rcase3_wf|reflexivity]. Qed.

(** ... whose stored frequencies, with the mirror images of those that are not self-conjugate, are the M
    frequencies, each exactly once ... *)
Theorem C52_every_frequency_once : forall t, rwf t -> forall rs, loop_trace (rR t) (rincrement t) 0 rs ->
  Permutation (seq 0 (gM t))
    (flat_map (mirror (gM t)) (flat_map (fun r => map (rfreq (gM t) (gq t) (am t) r) (seq 0 (rnoutputs t r))) rs)).
Proof. exact rfreqs_thm. Qed.
Print Assumptions C52_every_frequency_once.
Example C52_every_frequency_once_case : flat_map (fun r => map (rfreq (gM rcase1) (gq rcase1) (am rcase1) r) (seq 0 (rnoutputs rcase1 r))) [0; 1] = [0; 6; 4; 1; 5] /\
  flat_map (mirror (gM rcase1)) [0; 6; 4; 1; 5] = [0; 6; 2; 4; 1; 7; 5; 3].
Proof. split; reflexivity. Qed.

(** ... so that the contributions of the passes add up to the inverse DFT of any Hermitian spectrum ... *)
Theorem C52_passes_add_up : forall t, rwf t -> forall rs (Y : nat -> C) j, loop_trace (rR t) (rincrement t) 0 rs ->
  (forall k, 0 < k < gM t -> Y (gM t - k) = Cconj (Y k)) ->
  Rlist rs (fun r => rpartial_inverse (gM t) (rnoutputs t r) (rfreq (gM t) (gq t) (am t) r) (fun i => Y (rfreq (gM t) (gq t) (am t) r i)) j)
  = re (ipdft (gM t) Y j).
Proof. exact rpasses_thm. Qed.
Print Assumptions C52_passes_add_up.
Example C52_passes_add_up_case : (forall k, 0 < k < gM rcase1 -> (fun _ : nat => RtoC 3) (gM rcase1 - k) = Cconj ((fun _ : nat => RtoC 3) k)) /\ loop_trace (rR rcase1) (rincrement rcase1) 0 [0; 1].
Proof. split; [intros k _; apply C_ext; cbn; ring|apply rcase_tr; [exact rcase1_wf|reflexivity]]. Qed.

(** ... and running pad, forward and backward for every pass gives the input times the padded size. *)
Theorem C52_roundtrip_partial : forall t, rwf t -> forall f F h W x m0 rs,
  let W0 := getW F W in let N := routputSize t in
  loop_trace (rR t) (rincrement t) 0 rs ->
  ainplace t = (W0 =? F) ->
  reals f (aL t) x m0 -> dalloc F (2 * N) m0 -> dalloc W0 (2 * rworkSizeW t) m0 -> dalloc h (aL t) m0 ->
  dapart f (aL t) F (2 * N) -> dapart f (aL t) W0 (2 * rworkSizeW t) ->
  dapart h (aL t) F (2 * N) -> dapart h (aL t) W0 (2 * rworkSizeW t) -> dapart f (aL t) h (aL t) ->
  (W0 = F \/ dapart W0 (2 * rworkSizeW t) F (2 * N)) ->
  WP (rloop rs (fun r => Seq (rPad t W0) (Seq (rforward t f F r W) (rbackward t F h r W)))) m0 (fun m' =>
    reals h (aL t) (fun j => INR (gM t) * x j)%R m' /\
    reals f (aL t) x m' /\
    ronly (fun a => dspan F (2 * N) a \/ dspan W0 (2 * rworkSizeW t) a \/ dspan h (aL t) a) m0 m').
Proof. exact rroundtrip_thm. Qed.
Print Assumptions C52_roundtrip_partial.
Example C52_roundtrip_partial_case : WP (rloop [0; 1] (fun r => Seq (rPad rcase1 200) (Seq (rforward rcase1 0 100 r (Some 200)) (rbackward rcase1 100 300 r (Some 200))))) (rm0 4)
    (fun m' => m' 302 = Val 24%R) /\
  WP (rloop [0; 1; 2; 3] (fun r => Seq (rPad rcase4 200) (Seq (rforward rcase4 0 100 r (Some 200)) (rbackward rcase4 100 300 r (Some 200))))) (rm0 7)
    (fun m' => m' 306 = Val 168%R) /\
  WP (rloop [0; 1] (fun r => Seq (rPad rcase3 200) (Seq (rforward rcase3 0 100 r (Some 200)) (rbackward rcase3 100 300 r (Some 200))))) (rm0 3)
    (fun m' => m' 302 = Val 45%R).
Proof. exact (conj rcase1_roundtrip (conj rcase4_roundtrip rcase3_roundtrip)). Qed.

(** No access leaves the input, inputSize, outputSize and workSizeW words: with only those allocated
    forward has one outcome, no undefined behaviour ... *)
Theorem C52_forward_in_bounds_partial : forall t, rwf t -> forall f F W r x m0 rs,
  let W0 := getW F W in let N := routputSize t in
  loop_trace (rR t) (rincrement t) 0 rs -> In r rs ->
  ainplace t = (W0 =? F) ->
  reals f (aL t) x m0 -> dalloc F (2 * N) m0 -> dalloc W0 (2 * rworkSizeW t) m0 ->
  dapart f (aL t) F (2 * N) -> dapart f (aL t) W0 (2 * rworkSizeW t) ->
  (W0 = F \/ dapart W0 (2 * rworkSizeW t) F (2 * N)) ->
  rpadded t W0 m0 ->
  (forall a, ~ dspan f (aL t) a -> ~ dspan F (2 * N) a -> ~ dspan W0 (2 * rworkSizeW t) a -> m0 a = Unalloc) ->
  exists m', forall o, exec (rforward t f F r W) m0 o <-> o = OK m'.
Proof. exact rinbounds_thm. Qed.
Print Assumptions C52_forward_in_bounds_partial.
Example C52_forward_in_bounds_partial_case : routputSize rcase4 = 4 /\ rworkSizeW rcase4 = 4 /\ routputSize rcase5 = 5.
Proof. repeat split; reflexivity. Qed.

(** ... and the same for backward. *)
Theorem C52_backward_in_bounds_partial : forall t, rwf t -> forall f F W r y acc m0 rs,
  let W0 := getW F W in let N := routputSize t in
  loop_trace (rR t) (rincrement t) 0 rs -> In r rs ->
  ainplace t = (W0 =? F) ->
  complexes F (rnoutputs t r) y m0 ->
  (forall i, i < rnoutputs t r -> (2 * rfreq (gM t) (gq t) (am t) r i) mod gM t = 0 -> im (y i) = 0%R) ->
  (r <> 0 -> reals f (aL t) acc m0) ->
  dalloc f (aL t) m0 -> dalloc F (2 * N) m0 -> dalloc W0 (2 * rworkSizeW t) m0 ->
  dapart f (aL t) F (2 * N) -> dapart f (aL t) W0 (2 * rworkSizeW t) ->
  (W0 = F \/ dapart W0 (2 * rworkSizeW t) F (2 * N)) ->
  (forall a, ~ dspan f (aL t) a -> ~ dspan F (2 * N) a -> ~ dspan W0 (2 * rworkSizeW t) a -> m0 a = Unalloc) ->
  exists m', forall o, exec (rbackward t F f r W) m0 o <-> o = OK m'.
Proof. exact rbinbounds_thm. Qed.
Print Assumptions C52_backward_in_bounds_partial.
Example C52_backward_in_bounds_partial_case : routputSize rcase3 = 6 /\ rworkSizeW rcase3 = 6.
Proof. repeat split; reflexivity. Qed.

(** fftBase::index reports the stored frequency for the middle passes when D=1 ... *)
Theorem C52_index_middle_passes : forall t, rwf t -> aD t = 1 -> forall r i, 1 <= r -> 2 * r < gq t -> i < rnoutputs t r ->
  rindex t r i = rfreq (gM t) (gq t) (am t) r i.
Proof. exact rindex_mid_thm. Qed.
Print Assumptions C52_index_middle_passes.
Example C52_index_middle_passes_case : rindex rcase4 1 3 = 19 /\ rfreq (gM rcase4) (gq rcase4) (am rcase4) 1 3 = 19.
Proof. split; reflexivity. Qed.

(** ... but not in general: refuted for pass 0, where the stored frequency is the negative one. *)
Theorem C52_index_refuted : ~ (forall t, rwf t -> forall f F W r x m0 rs,
  let W0 := getW F W in let N := routputSize t in
  loop_trace (rR t) (rincrement t) 0 rs -> In r rs ->
  ainplace t = (W0 =? F) ->
  reals f (aL t) x m0 -> dalloc F (2 * N) m0 -> dalloc W0 (2 * rworkSizeW t) m0 ->
  dapart f (aL t) F (2 * N) -> dapart f (aL t) W0 (2 * rworkSizeW t) ->
  (W0 = F \/ dapart W0 (2 * rworkSizeW t) F (2 * N)) ->
  rpadded t W0 m0 ->
  WP (rforward t f F r W) m0 (fun m' =>
    complexes F (rnoutputs t r) (fun i => rdft (gM t) (aL t) x (rindex t r i)) m')).
Proof. exact rindex_refuted. Qed.
Print Assumptions C52_index_refuted.

