(** Properties of the backward transforms of fftPadCentered. *)
From Coq Require Import Reals ZArith Arith Lia List Bool Permutation.
From Verif Require Import CNum Sums Mem PadModel PadKernels PadSpec PadCases ConvModel CenModel CenSpec CenCases CenBackward CenBCases.
Import ListNotations.

(** C46: one pass of backward adds exactly its share of the inverse centered transform, ... *)
Theorem C46_backward_pass : forall t, kwf t -> koverwrite t = false ->
  forall f F W r y acc m0 rs,
  let W0 := getW F W in let N := knoutputs t r in
  let L := aL t in let S := aS t in let C := aC t in
  loop_trace (kR t) (kincrement t) 0 rs -> In r rs ->
  ainplace t = (W0 =? F) ->
  separate S C f L W0 N -> separate S C f L F N -> (W0 = F \/ separate S C W0 N F N) ->
  has S C F N y m0 -> allocated S C W0 N m0 -> allocated S C f L m0 ->
  (r <> 0 -> has S C f L acc m0) ->
  WP (cbackward t F f r W) m0 (fun m' =>
    has S C f L (fun j c => Cadd (if r =? 0 then C0 else acc j c)
       (cpartial_inverse (kM t) L N (kindex t r) (fun i => y i c) j)) m' /\
    only (fun a => word S C f L a \/ word S C W0 N a \/ word S C F N a) m0 m').
Proof. exact cbackward_thm. Qed.
Print Assumptions C46_backward_pass.

(** ... the shares of all passes add up to the whole (unnormalised) inverse, ... *)
Theorem C46_passes_add_up : forall t, kwf t -> forall rs (y : nat -> C) j,
  loop_trace (kR t) (kincrement t) 0 rs ->
  Clist rs (fun r => cpartial_inverse (kM t) (aL t) (knoutputs t r) (kindex t r) (fun i => y (kindex t r i)) j)
  = cipdft (kM t) (aL t) y j.
Proof. exact cpasses_b. Qed.
Print Assumptions C46_passes_add_up.

(** ... so forward and backward over all residues multiplies the data by M. *)
Theorem C46_roundtrip : forall t, kwf t -> koverwrite t = false ->
  forall f F h W x m0 rs,
  let W0 := getW F W in let N := kl t * kD t in
  let L := aL t in let S := aS t in let C := aC t in
  loop_trace (kR t) (kincrement t) 0 rs ->
  ainplace t = (W0 =? F) ->
  separate S C f L W0 N -> separate S C f L F N -> (W0 = F \/ separate S C W0 N F N) ->
  separate S C h L W0 N -> separate S C h L F N -> separate S C f L h L ->
  has S C f L x m0 -> allocated S C W0 N m0 -> allocated S C F N m0 -> allocated S C h L m0 ->
  WP (rfor rs (fun r => Seq (cforward t f F r W) (cbackward t F h r W))) m0 (fun m' =>
    has S C h L (fun j c => Cmul (RtoC (INR (kM t))) (x j c)) m' /\
    has S C f L x m' /\
    only (fun a => word S C F N a \/ word S C W0 N a \/ word S C h L a) m0 m').
Proof. exact croundtrip_thm. Qed.
Print Assumptions C46_roundtrip.
Example C46_case : WP (rfor [0; 1] (fun r => Seq (cforward ccase1 0 100 r (Some 200)) (cbackward ccase1 100 300 r (Some 200)))) (m0case 7)
  (fun m' => m' 302 = Val (RtoC 48)).
Proof. exact ccase1_roundtrip. Qed.

(** overwrite mode: the inverse of the three interleaved residues held in f and F *)
Theorem C46_backward_overwrite : forall t, kwf t -> koverwrite t = true ->
  forall f F r W (Y : nat -> nat -> C) m0,
  let L := aL t in let S := aS t in let C := aC t in let m := am t in let M := kM t in
  let q := kq t in let n := kn t in let l := kl t in
  separate S C f L F l ->
  (forall u, u < kP t ->
     has S C (f + S * (m * u)) m (fun k c => Y c (q * k + n * u)) m0 /\
     has S C (f + S * (l + m * u)) m (fun k c => Y c (q * k + n * u + 1)) m0 /\
     has S C (F + S * (m * u)) m (fun k c => Y c ((q * k + n * u + (M - 1)) mod M)) m0) ->
  WP (cbackward t F f r W) m0 (fun m' =>
    has S C f L (fun j c => cipdft M L (Y c) j) m' /\
    only (fun a => word S C F l a \/ word S C f L a) m0 m').
Proof. exact cobackward_thm. Qed.
Print Assumptions C46_backward_overwrite.
Theorem C46_roundtrip_overwrite : forall t, kwf t -> koverwrite t = true ->
  forall f F r W x m0,
  let L := aL t in let S := aS t in let C := aC t in let l := kl t in
  separate S C f L F l -> has S C f L x m0 -> allocated S C F l m0 ->
  WP (Seq (cforward t f F r W) (cbackward t F f r W)) m0 (fun m' =>
    has S C f L (fun j c => Cmul (RtoC (INR (kM t))) (x j c)) m' /\
    only (fun a => word S C F l a \/ word S C f L a) m0 m').
Proof. exact coroundtrip_thm. Qed.
Print Assumptions C46_roundtrip_overwrite.
Example C46_overwrite_case : WP (Seq (cforward ccase2o 0 100 0 None) (cbackward ccase2o 100 0 0 None)) (m0case 8)
  (fun m' => m' 3 = Val (RtoC 48)).
Proof. exact ccase2o_roundtrip. Qed.

(** no execution of backward touches a word outside the documented extents, reads an
    uninitialised word or has a data race, ... *)
Theorem C46_backward_in_bounds : forall t, kwf t -> koverwrite t = false ->
  forall f F W r y acc m0 rs,
  let W0 := getW F W in let N := knoutputs t r in
  let L := aL t in let S := aS t in let C := aC t in
  loop_trace (kR t) (kincrement t) 0 rs -> In r rs ->
  ainplace t = (W0 =? F) ->
  separate S C f L W0 N -> separate S C f L F N -> (W0 = F \/ separate S C W0 N F N) ->
  has S C F N y m0 ->
  (r <> 0 -> has S C f L acc m0) ->
  (forall a, word S C f L a \/ word S C W0 N a -> m0 a <> Unalloc) ->
  (forall a, ~ word S C f L a -> ~ word S C F N a -> ~ word S C W0 N a -> m0 a = Unalloc) ->
  forall o, exec (cbackward t F f r W) m0 o -> o <> UB /\ o <> ExitErr.
Proof. exact cbackward_inbounds_thm. Qed.
Print Assumptions C46_backward_in_bounds.

(** ... and all executions end in the same memory. *)
Theorem C46_backward_deterministic : forall t, kwf t -> koverwrite t = false ->
  forall f F W r y acc m0 rs,
  let W0 := getW F W in let N := knoutputs t r in
  let L := aL t in let S := aS t in let C := aC t in
  loop_trace (kR t) (kincrement t) 0 rs -> In r rs ->
  ainplace t = (W0 =? F) ->
  separate S C f L W0 N -> separate S C f L F N -> (W0 = F \/ separate S C W0 N F N) ->
  has S C F N y m0 -> allocated S C W0 N m0 -> allocated S C f L m0 ->
  (r <> 0 -> has S C f L acc m0) ->
  exists m', forall o, exec (cbackward t F f r W) m0 o <-> o = OK m'.
Proof. exact cbackward_det_thm. Qed.
Print Assumptions C46_backward_deterministic.
