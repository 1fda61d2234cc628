(** Properties of the centered padded transforms (fftPadCentered). *)
From Coq Require Import Reals ZArith Arith Lia List Bool Permutation.
From Verif Require Import CNum Sums Mem PadModel PadKernels PadSpec PadCases CenModel CenSpec CenCases.
Import ListNotations.

(** C19: every schedule of forward(f,F,r,W) gives the DFT of length M of the data with origin
    at element floor(L/2), at the frequencies reported by index(r,i). *)
Theorem C19_forward_is_centered_dft : forall t, kwf t -> koverwrite t = false ->
  forall f F W r x m0 rs,
  let W0 := getW F W in let N := knoutputs t r in
  let L := aL t in let S := aS t in let C := aC t in
  loop_trace (kR t) (kincrement t) 0 rs -> In r rs ->
  ainplace t = (W0 =? F) ->
  separate S C f L W0 N -> separate S C f L F N -> (W0 = F \/ separate S C W0 N F N) ->
  has S C f L x m0 -> allocated S C W0 N m0 -> allocated S C F N m0 ->
  WP (cforward t f F r W) m0 (fun m' =>
    has S C F N (fun i c => cpdft (kM t) L (fun j => x j c) (kindex t r i)) m' /\
    has S C f L x m' /\
    only (fun a => word S C F N a \/ word S C W0 N a) m0 m').
Proof. exact cforward_thm. Qed.
Print Assumptions C19_forward_is_centered_dft.
Example C19_case : WP (cforward ccase1 0 100 1 (Some 200)) (m0case 7) (fun m' =>
  has 1 1 100 8 (fun i _ => cpdft 16 7 (fun j => RtoC (INR (j + 1))) (nth i [1; 5; 9; 13; 15; 3; 7; 11] 0)) m' /\ m' 3 = Val (RtoC 4)).
Proof. exact ccase1_forward. Qed.

(** moving the origin to element 0 gives the transform of fftPad *)
Theorem C19_centered_is_shifted : forall M L x k, 1 <= M ->
  Cmul (cpdft M L x k) (expi (2 * PI * (INR (L / 2) * INR k) / INR M)) = pdft M L x k.
Proof. exact cpdft_shift_thm. Qed.
Print Assumptions C19_centered_is_shifted.

(** the residue loop terminates and its outputs cover every frequency exactly once *)
Theorem C19_residue_loop_terminates : forall t, kwf t ->
  exists rs, loop_trace (kR t) (kincrement t) 0 rs /\
    forall rs', loop_trace (kR t) (kincrement t) 0 rs' -> rs' = rs.
Proof. exact kloop_thm. Qed.
Print Assumptions C19_residue_loop_terminates.
Theorem C19_index_bijection : forall t, kwf t -> forall rs, loop_trace (kR t) (kincrement t) 0 rs ->
  Permutation (seq 0 (kM t)) (flat_map (fun r => map (kindex t r) (seq 0 (knoutputs t r))) rs).
Proof. exact kindex_bijection_thm. Qed.
Print Assumptions C19_index_bijection.
Example C19_index_case : kwf ccase1 /\ kwf ccase2 /\
  loop_trace (kR ccase1) (kincrement ccase1) 0 [0; 1] /\ loop_trace (kR ccase2) (kincrement ccase2) 0 [0; 1; 2] /\
  map (kindex ccase1 0) (seq 0 8) = [0; 4; 8; 12; 2; 6; 10; 14] /\ map (kindex ccase1 1) (seq 0 8) = [1; 5; 9; 13; 15; 3; 7; 11] /\
  map (kindex ccase2 1) (seq 0 4) = [1; 7; 4; 10].
Proof. split; [exact ccase1_wf|]. split; [exact ccase2_wf|]. split; [exact ctr1|]. split; [exact ctr2|]. vm_compute. auto. Qed.

(** overwrite mode: the three residues 0, 1 and -1 at once, the first two replacing the data *)
Theorem C19_forward_overwrite : forall t, kwf t -> koverwrite t = true ->
  forall f F r W x m0,
  let L := aL t in let S := aS t in let C := aC t in let m := am t in let M := kM t in
  let q := kq t in let n := kn t in let l := kl t in
  separate S C f L F l -> has S C f L x m0 -> allocated S C F l m0 ->
  WP (cforward t f F r W) m0 (fun m' =>
    (forall u, u < kP t ->
       has S C (f + S * (m * u)) m (fun k c => cpdft M L (fun j => x j c) (q * k + n * u)) m' /\
       has S C (f + S * (l + m * u)) m (fun k c => cpdft M L (fun j => x j c) (q * k + n * u + 1)) m' /\
       has S C (F + S * (m * u)) m (fun k c => cpdft M L (fun j => x j c) (q * k + n * u + (M - 1))) m') /\
    only (fun a => word S C F l a \/ word S C f L a) m0 m').
Proof. exact coforward_thm. Qed.
Print Assumptions C19_forward_overwrite.
Example C19_overwrite_case : kwf ccase2o /\ koverwrite ccase2o = true /\ (kP ccase2o, kl ccase2o, kn ccase2o, kq ccase2o, kM ccase2o) = (2, 4, 3, 6, 12).
Proof. split; [exact ccase2o_wf|]. vm_compute. auto. Qed.

(** no execution of forward touches a word outside the documented extents, reads an
    uninitialised word or has a data race, ... *)
Theorem C19_forward_in_bounds : forall t, kwf t -> koverwrite t = false ->
  forall f F W r x m0 rs,
  let W0 := getW F W in let N := knoutputs t r in
  let L := aL t in let S := aS t in let C := aC t in
  loop_trace (kR t) (kincrement t) 0 rs -> In r rs ->
  ainplace t = (W0 =? F) ->
  separate S C f L W0 N -> separate S C f L F N -> (W0 = F \/ separate S C W0 N F N) ->
  has S C f L x m0 ->
  (forall a, word S C F N a \/ word S C W0 N a -> m0 a <> Unalloc) ->
  (forall a, ~ word S C f L a -> ~ word S C F N a -> ~ word S C W0 N a -> m0 a = Unalloc) ->
  forall o, exec (cforward t f F r W) m0 o -> o <> UB /\ o <> ExitErr.
Proof. exact cforward_inbounds_thm. Qed.
Print Assumptions C19_forward_in_bounds.
Theorem C19_pass_fits : forall t, kwf t -> forall r, aS t * knoutputs t r <= koutputSize t.
Proof. exact kpass_fits_thm. Qed.
Print Assumptions C19_pass_fits.

(** ... and all executions end in the same memory. *)
Theorem C19_forward_deterministic : forall t, kwf t -> koverwrite t = false ->
  forall f F W r x m0 rs,
  let W0 := getW F W in let N := knoutputs t r in
  let L := aL t in let S := aS t in let C := aC t in
  loop_trace (kR t) (kincrement t) 0 rs -> In r rs ->
  ainplace t = (W0 =? F) ->
  separate S C f L W0 N -> separate S C f L F N -> (W0 = F \/ separate S C W0 N F N) ->
  has S C f L x m0 -> allocated S C W0 N m0 -> allocated S C F N m0 ->
  exists m', forall o, exec (cforward t f F r W) m0 o <-> o = OK m'.
Proof. exact cforward_det_thm. Qed.
Print Assumptions C19_forward_deterministic.
