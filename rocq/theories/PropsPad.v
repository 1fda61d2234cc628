(** Property theorems C03, C05-C08, C14, C15 for the padded transforms (class fftPad).
    t ranges over every parameter set a constructor accepts: [wf t]. *)
From Coq Require Import Reals ZArith Arith Lia List Bool Permutation.
From Verif Require Import CNum Sums Mem PadModel PadKernels ConvModel PadSpec PadIndex PadRound PadBridge PadCases PadProofs.
Import ListNotations.

(** C03: p is the least number of blocks of m covering the data; P is p, or p/2 for p=2 and
    for even p in the centered case; n is the least multiplier with m*(P*n) >= M; q = P*n. *)
Theorem C03_geometry : forall (L M m : nat) (centered : bool), 1 <= L -> L <= M -> 1 <= m ->
  let p := param_p L m in let P := param_P centered p in
  let n := param_n L M m centered in let q := param_q L M m centered in
  least (fun p => L <= p * m) p /\
  P = (if (p =? 2) || (centered && Nat.even p) then p / 2 else p) /\
  least (fun n => M <= m * (P * n)) n /\
  q = P * n /\ M <= m * q /\ L <= m * q.
Proof. exact geometry_thm. Qed.
Print Assumptions C03_geometry.
Example C03_case : param_p 10 4 = 3 /\ param_n 10 20 4 false = 2 /\ param_q 10 20 4 false = 6
  /\ param_q 13 26 4 true = 8.
Proof. vm_compute. auto. Qed.

(** C06: the residue loop terminates, with a unique sequence of residues, ... *)
Theorem C06_residue_loop_terminates : forall t, wf t ->
  exists rs, loop_trace (gR t) (increment t) 0 rs /\
    forall rs', loop_trace (gR t) (increment t) 0 rs' -> rs' = rs.
Proof. exact loop_terminates_thm. Qed.
Print Assumptions C06_residue_loop_terminates.

(** ... and every residue class rr modulo q is produced by exactly one block of m outputs of
    exactly one pass. *)
Theorem C06_each_residue_once : forall t, wf t -> forall rs, loop_trace (gR t) (increment t) 0 rs ->
  forall rr, rr < gq t ->
  exists r e, In r rs /\ gm t * e < noutputs t r /\
    (forall k, k < gm t -> index t r (gm t * e + k) mod gq t = rr) /\
    (forall r' e', In r' rs -> gm t * e' < noutputs t r' ->
       (exists k, k < gm t /\ index t r' (gm t * e' + k) mod gq t = rr) -> r' = r /\ e' = e).
Proof. exact each_residue_thm. Qed.
Print Assumptions C06_each_residue_once.
Example C06_case : wf case1 /\ loop_trace (gR case1) (increment case1) 0 [0; 1] /\
  map (index case1 1) (seq 0 8) = [1; 4; 7; 10; 11; 2; 5; 8] /\ map (index case1 0) (seq 0 4) = [0; 3; 6; 9].
Proof.
  split; [exact case1_wf|]. split; [|vm_compute; auto].
  apply lt_step; [vm_compute; lia|]. apply lt_step; [vm_compute; lia|]. apply lt_stop. vm_compute. lia.
Qed.

(** C05: index is a bijection from the outputs of all passes onto {0,..,M-1}. *)
Theorem C05_index_bijection : forall t, wf t -> forall rs, loop_trace (gR t) (increment t) 0 rs ->
  Permutation (seq 0 (gM t)) (flat_map (fun r => map (index t r) (seq 0 (noutputs t r))) rs).
Proof. exact index_bijection_thm. Qed.
Print Assumptions C05_index_bijection.
Example C05_case : wf case3 /\ flat_map (fun r => map (index case3 r) (seq 0 (noutputs case3 r))) [0] =
  [0; 6; 2; 8; 4; 10; 1; 7; 3; 9; 5; 11].
Proof. split; [exact case3_wf|vm_compute; reflexivity]. Qed.

(** C07: every schedule of forward(f,F,r,W) gives the DFT of the zero-padded data. *)
Theorem C07_forward_is_padded_dft : forall t, wf t -> goverwrite t = false ->
  forall f F W r x m0 rs,
  let W0 := getW F W in let N := noutputs t r in
  let L := gL t in let S := gS t in let C := gC t in
  loop_trace (gR t) (increment t) 0 rs -> In r rs ->
  ainplace t = (W0 =? F) ->
  separate S C f L W0 N -> separate S C f L F N -> (W0 = F \/ separate S C W0 N F N) ->
  has S C f L x m0 -> allocated S C W0 N m0 -> allocated S C F N m0 -> padded t W0 N m0 ->
  WP (forward t f F r W) m0 (fun m' =>
    has S C F N (fun i c => pdft (gM t) L (fun j => x j c) (index t r i)) m' /\
    has S C f L x m' /\ padded t W0 N m' /\
    only (fun a => word S C F N a \/ word S C W0 N a) m0 m').
Proof. exact forward_thm. Qed.
Print Assumptions C07_forward_is_padded_dft.

(** C07: pad(W) establishes the padding forward relies on, once for all passes. *)
Theorem C07_pad_establishes_padding : forall t, wf t -> forall W m0,
  allocated (gS t) (gC t) W (gl t * gD t) m0 ->
  WP (padW t W) m0 (fun m' =>
    (forall r, padded t W (noutputs t r) m') /\
    only (word (gS t) (gC t) W (gl t * gD t)) m0 m').
Proof. exact pad_thm. Qed.
Print Assumptions C07_pad_establishes_padding.

(** C07, overwrite mode: all p+1 residues at once, the first p of them replacing the data. *)
Theorem C07_forward_overwrite : forall t, wf t -> goverwrite t = true ->
  forall f F r W x m0,
  let L := gL t in let S := gS t in let C := gC t in let m := gm t in let M := gM t in
  let p := gp t in let q := gq t in
  separate S C f L F m -> has S C f L x m0 -> allocated S C F m m0 ->
  WP (forward t f F r W) m0 (fun m' =>
    (forall u, u < p -> has S C (f + S * (m * u)) m (fun k c => pdft M L (fun j => x j c) (q * k + u)) m') /\
    has S C F m (fun k c => pdft M L (fun j => x j c) (q * k + (if p =? 2 then M - 1 else p))) m' /\
    only (fun a => word S C F m a \/ word S C f L a) m0 m').
Proof. exact oforward_thm. Qed.
Print Assumptions C07_forward_overwrite.

(** a concrete case: residue 1 of case1 with f at 0, F at 100, W at 200 *)
Example C07_case : WP (forward case1 0 100 1 (Some 200)) (m0case 3) (fun m' =>
  m' 101 = Val (Cadd (Cadd C1 (Cmul (RtoC 2) (expi (2 * PI * 4 / 12)))) (Cmul (RtoC 3) (expi (2 * PI * 8 / 12))))).
Proof. exact case1_forward. Qed.
Example C07_overwrite_case : WP (forward case2o 0 100 0 None) (m0case 4) (fun m' =>
  has 1 1 100 2 (fun k c => pdft 6 4 (fun j => RtoC (INR (j + 1))) (3 * k + 5)) m').
Proof. exact case2o_forward. Qed.

(** C08: one pass of backward adds exactly its share of the inverse transform, ... *)
Theorem C08_backward_pass : forall t, wf t -> goverwrite t = false ->
  forall f F W r y acc m0 rs,
  let W0 := getW F W in let N := noutputs t r in
  let L := gL t in let S := gS t in let C := gC t in
  loop_trace (gR t) (increment t) 0 rs -> In r rs ->
  ainplace t = (W0 =? F) ->
  separate S C f L W0 N -> separate S C f L F N -> (W0 = F \/ separate S C W0 N F N) ->
  has S C F N y m0 -> allocated S C W0 N m0 -> allocated S C f L m0 ->
  (r <> 0 -> has S C f L acc m0) ->
  WP (backward t F f r W) m0 (fun m' =>
    has S C f L (fun j c => Cadd (if r =? 0 then C0 else acc j c)
       (partial_inverse (gM t) N (index t r) (fun i => y i c) j)) m' /\
    only (fun a => word S C f L a \/ word S C W0 N a) m0 m').
Proof. exact backward_thm. Qed.
Print Assumptions C08_backward_pass.

(** ... the shares of all passes add up to the whole (unnormalised) inverse DFT, ... *)
Theorem C08_passes_add_up : forall t, wf t -> forall rs (y : nat -> C) j,
  loop_trace (gR t) (increment t) 0 rs ->
  Clist rs (fun r => partial_inverse (gM t) (noutputs t r) (index t r) (fun i => y (index t r i)) j)
  = ipdft (gM t) y j.
Proof. exact passes_b. Qed.
Print Assumptions C08_passes_add_up.

(** ... so pad, forward and backward over all residues multiplies the data by M. *)
Theorem C08_roundtrip : forall t, wf t -> goverwrite t = false ->
  forall f F h W x m0 rs,
  let W0 := getW F W in let N := gl t * gD t in
  let L := gL t in let S := gS t in let C := gC t in
  loop_trace (gR t) (increment t) 0 rs ->
  ainplace t = (W0 =? F) ->
  separate S C f L W0 N -> separate S C f L F N -> (W0 = F \/ separate S C W0 N F N) ->
  separate S C h L W0 N -> separate S C h L F N -> separate S C f L h L ->
  has S C f L x m0 -> allocated S C W0 N m0 -> allocated S C F N m0 -> allocated S C h L m0 ->
  WP (rfor rs (fun r => Seq (match W with Some w => padW t w | None => Skip end)
        (Seq (forward t f F r W) (backward t F h r W)))) m0 (fun m' =>
    has S C h L (fun j c => Cmul (RtoC (INR (gM t))) (x j c)) m' /\
    has S C f L x m' /\
    only (fun a => word S C F N a \/ word S C W0 N a \/ word S C h L a) m0 m').
Proof. exact roundtrip_thm. Qed.
Print Assumptions C08_roundtrip.

(** C08, overwrite mode. *)
Theorem C08_backward_overwrite : forall t, wf t -> goverwrite t = true ->
  forall f F r W (Y : nat -> nat -> C) m0,
  let L := gL t in let S := gS t in let C := gC t in let m := gm t in let M := gM t in
  let p := gp t in let q := gq t in
  separate S C f L F m ->
  (forall u, u < p -> has S C (f + S * (m * u)) m (fun k c => Y c (q * k + u)) m0) ->
  has S C F m (fun k c => Y c ((q * k + (if p =? 2 then M - 1 else p)) mod M)) m0 ->
  WP (backward t F f r W) m0 (fun m' =>
    has S C f L (fun j c => ipdft M (Y c) j) m' /\
    only (fun a => word S C F m a \/ word S C f L a) m0 m').
Proof. exact obackward_thm. Qed.
Print Assumptions C08_backward_overwrite.

Example C08_case : WP (rfor [0; 1] (fun r => Seq (padW case1 200)
        (Seq (forward case1 0 100 r (Some 200)) (backward case1 100 300 r (Some 200))))) (m0case 3)
  (fun m' => m' 301 = Val (RtoC 24)).
Proof. exact case1_roundtrip. Qed.
Example C08_overwrite_case : WP (Seq (forward case2o 0 100 0 None) (backward case2o 100 0 0 None)) (m0case 4)
  (fun m' => m' 3 = Val (RtoC 24)).
Proof. exact case2o_roundtrip. Qed.

(** C15: with nothing allocated but the documented extents, and F and W uninitialised, no
    execution of forward reads or writes outside them, reads an uninitialised word or has a
    data race. *)
Theorem C15_forward_in_bounds : forall t, wf t -> goverwrite t = false ->
  forall f F W r x m0 rs,
  let W0 := getW F W in let N := noutputs t r in
  let L := gL t in let S := gS t in let C := gC t in
  loop_trace (gR t) (increment t) 0 rs -> In r rs ->
  ainplace t = (W0 =? F) ->
  separate S C f L W0 N -> separate S C f L F N -> (W0 = F \/ separate S C W0 N F N) ->
  has S C f L x m0 -> padded t W0 N m0 ->
  (forall a, word S C F N a \/ word S C W0 N a -> m0 a <> Unalloc) ->
  (forall a, ~ word S C f L a -> ~ word S C F N a -> ~ word S C W0 N a -> m0 a = Unalloc) ->
  forall o, exec (forward t f F r W) m0 o -> o <> UB /\ o <> ExitErr.
Proof. exact forward_inbounds_thm. Qed.
Print Assumptions C15_forward_in_bounds.

Theorem C15_backward_in_bounds : forall t, wf t -> goverwrite t = false ->
  forall f F W r y acc m0 rs,
  let W0 := getW F W in let N := noutputs t r in
  let L := gL t in let S := gS t in let C := gC t in
  loop_trace (gR t) (increment t) 0 rs -> In r rs ->
  ainplace t = (W0 =? F) ->
  separate S C f L W0 N -> separate S C f L F N -> (W0 = F \/ separate S C W0 N F N) ->
  has S C F N y m0 -> (r <> 0 -> has S C f L acc m0) ->
  (forall a, word S C f L a \/ word S C W0 N a -> m0 a <> Unalloc) ->
  (forall a, ~ word S C f L a -> ~ word S C F N a -> ~ word S C W0 N a -> m0 a = Unalloc) ->
  forall o, exec (backward t F f r W) m0 o -> o <> UB /\ o <> ExitErr.
Proof. exact backward_inbounds_thm. Qed.
Print Assumptions C15_backward_in_bounds.

(** every pass fits the documented buffer sizes *)
Theorem C15_pass_fits : forall t, wf t -> forall r, gS t * noutputs t r <= outputSize t.
Proof. exact pass_fits_thm. Qed.
Print Assumptions C15_pass_fits.

Example C15_case : exists m0 : mem C,
  (forall a, 300 <= a -> m0 a = Unalloc) /\ m0 150 = Unalloc /\ m0 100 = Undef /\
  forall o, exec (forward case1 0 100 1 (Some 200)) m0 o -> o <> UB /\ o <> ExitErr.
Proof. exact case1_inbounds. Qed.

(** C14: two executions of a transform (any thread counts, any schedules) end in the same
    memory; [exec] ranges over all interleavings and treats data races as undefined. *)
Theorem C14_forward_deterministic : forall t, wf t -> goverwrite t = false ->
  forall f F W r x m0 rs,
  let W0 := getW F W in let N := noutputs t r in
  let L := gL t in let S := gS t in let C := gC t in
  loop_trace (gR t) (increment t) 0 rs -> In r rs ->
  ainplace t = (W0 =? F) ->
  separate S C f L W0 N -> separate S C f L F N -> (W0 = F \/ separate S C W0 N F N) ->
  has S C f L x m0 -> allocated S C W0 N m0 -> allocated S C F N m0 -> padded t W0 N m0 ->
  exists m', forall o, exec (forward t f F r W) m0 o <-> o = OK m'.
Proof. exact forward_det_thm. Qed.
Print Assumptions C14_forward_deterministic.

Theorem C14_backward_deterministic : forall t, wf t -> goverwrite t = false ->
  forall f F W r y acc m0 rs,
  let W0 := getW F W in let N := noutputs t r in
  let L := gL t in let S := gS t in let C := gC t in
  loop_trace (gR t) (increment t) 0 rs -> In r rs ->
  ainplace t = (W0 =? F) ->
  separate S C f L W0 N -> separate S C f L F N -> (W0 = F \/ separate S C W0 N F N) ->
  has S C F N y m0 -> allocated S C W0 N m0 -> allocated S C f L m0 ->
  (r <> 0 -> has S C f L acc m0) ->
  exists m', forall o, exec (backward t F f r W) m0 o <-> o = OK m'.
Proof. exact backward_det_thm. Qed.
Print Assumptions C14_backward_deterministic.
