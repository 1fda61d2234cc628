(** The distributed convolution (mpi/mpiconvolve.h, Convolution2MPI).

    f[a] is an Lx x Ly array distributed by columns over P processes; a, al: the blocking parameters of the
    transposes; the theorems hold for every choice.  [always_ends] (MpiTrSpec.v): all executions, i.e. every
    interleaving of the processes and any buffering of sends, end, without undefined behaviour, in a state
    as stated.  [columns], [padkern], [pipeline], [lin2]: MpiCSpec.v.  _partial: the modes overwrite and loop2
    of fftx, and thereby overlapped transposes, are not modelled; the local kernels are atomic. *)
From Coq Require Import Reals ZArith List Arith Bool Lia Lra.
From Verif Require Import CNum Sums PadSpec MpiMachine MpiTrModel MpiTrSpec MpiTrTop MpiCModel MpiCSpec MpiCProofs PadModel.
Import ListNotations.
Local Open Scope nat_scope.

(** *** C57 *)

(** with the transforms of any padded transform t and any convolution [row] of the rows: the result is
    the inverse transform in x of the rows convolved at each of the M frequencies; on several processes
    [row] must not look at its index *)
Theorem C57_padded_partial : forall t : pad, wf t -> forall rs, loop_trace (gR t) (increment t) 0 rs ->
  forall Ly P a al A B off, 0 < Ly -> 0 < P -> 0 < a -> P = 1 \/ 1 < Ly ->
  forall row : nat -> (nat -> nat -> C) -> nat -> nat -> C,
  (forall q w w' b j, (forall a j, a < A -> j < Ly -> w a j = w' a j) -> row q w b j = row q w' b j) ->
  P = 1 \/ (forall q q' w b j, row q w b j = row q' w b j) ->
  let c := tcfg (gl t * gD t) Ly P a al in let K := padkern t rs row in
  forall scale f mem0 bsz0, enough (gl t * gD t) Ly P A B (gL t) off K bsz0 ->
  (forall r b, r < P -> b < Nat.max A B -> columns (gL t) Ly P off (f b) r (mem0 r (fb A B b))) ->
  always_ends C P (initialM c mem0 bsz0 (fun r => convolveM c A B (gL t) off K scale r (Halt C)))
    (fun gf => forall r, r < P ->
       (forall b, b < B -> columns (gL t) Ly P off
          (fun x j => Cmul (RtoC scale) (ipdft (gM t) (fun q => row q (fun a j => pdft (gM t) (gL t) (fun x => f a x j) q) b j) x))
          r (mem C (snd (gf r)) (fb A B b))) /\
       (forall b, B <= b < A -> columns (gL t) Ly P off (f b) r (mem C (snd (gf r)) (fb A B b)))).
Proof. exact padded_thm. Qed.
Print Assumptions C57_padded_partial.
(** two inputs, one output, rows convolved (and multiplied by s) linearly, M >= 2 Lx - 1, scale = 1/(s M):
    the linear convolution in two dimensions; the second input is kept *)
Theorem C57_linear_partial : forall (t : pad) rs Ly P a al off row (s : R) f mem0 bsz0, wf t -> loop_trace (gR t) (increment t) 0 rs ->
  0 < Ly -> 0 < P -> 0 < a -> P = 1 \/ 1 < Ly -> 2 * gL t <= gM t + 1 -> s <> 0%R ->
  (forall q w w' b j, (forall a j, a < 2 -> j < Ly -> w a j = w' a j) -> row q w b j = row q w' b j) ->
  (forall q q' w b j, row q w b j = row q' w b j) ->
  (forall q w j, j < Ly -> row q w 0 j = Cmul (RtoC s) (Csum (S j) (fun u => Cmul (w 0 u) (w 1 (j - u))))) ->
  let X := gl t * gD t in let K := padkern t rs row in
  enough X Ly P 2 1 (gL t) off K bsz0 ->
  (forall r b, r < P -> b < 2 -> columns (gL t) Ly P off (f b) r (mem0 r (fb 2 1 b))) ->
  always_ends C P (initialM (tcfg X Ly P a al) mem0 bsz0 (fun r => convolveM (tcfg X Ly P a al) 2 1 (gL t) off K (/ (s * INR (gM t))) r (Halt C)))
    (fun gf => forall r, r < P ->
       columns (gL t) Ly P off (lin2 (f 0) (f 1)) r (mem C (snd (gf r)) (fb 2 1 0)) /\
       columns (gL t) Ly P off (f 1) r (mem C (snd (gf r)) (fb 2 1 1))).
Proof. exact linear_thm. Qed.
Print Assumptions C57_linear_partial.
(** any number of calls on the same arrays, with any kernels that only use their inputs, A inputs, B outputs
    and blocks: every call has the effect [pipeline]; nothing else is changed.  Row k of the X rows is convolved
    with the index k mod ceil(X/P). *)
Theorem C57_history_partial : forall X Y P a al A B Lx off (K : kern), 0 < X -> 0 < Y -> 0 < P -> 0 < a -> P = 1 \/ 1 < Y ->
  0 < nblocks K -> (forall i, i < nblocks K -> kblock K i <= X) -> local_kernels A Lx Y K ->
  let c := tcfg X Y P a al in
  forall scale n f mem0 bsz0, enough X Y P A B Lx off K bsz0 ->
  (forall r b, r < P -> b < Nat.max A B -> columns Lx Y P off (f b) r (mem0 r (fb A B b))) ->
  always_ends C P (initialM c mem0 bsz0 (fun r => convolvesM c A B Lx off K scale r n (Halt C)))
    (fun gf => forall r, r < P ->
       (forall b, b < Nat.max A B -> columns Lx Y P off (Nat.iter n (pipeline X P B K scale) f b) r (mem C (snd (gf r)) (fb A B b))) /\
       (0 < count X P r + count Y P r -> forall b o, b < Nat.max A B -> o < off \/ off + Lx * count Y P r <= o ->
          mem C (snd (gf r)) (fb A B b) o = mem0 r (fb A B b) o) /\
       (forall b o, 3 * Nat.max A B + 1 <= b -> mem C (snd (gf r)) b o = mem0 r b o)).
Proof. exact history_thm. Qed.
Print Assumptions C57_history_partial.
(** A case: L=2, M=6, three residue blocks, 3 columns on 2 processes, rows multiplied by 5 *)
Example C57_case : wf mt /\ loop_trace (gR mt) (increment mt) 0 [0; 1; 2] /\ (gL mt, gM mt, gl mt * gD mt, noutputs mt 2) = (2, 6, 2, 2) /\
  2 * gL mt <= gM mt + 1 /\ enough (gl mt * gD mt) 3 2 2 1 (gL mt) 1 (padkern mt [0; 1; 2] mrow) (fun _ _ => 100) /\
  (forall q w w' b j, (forall a j, a < 2 -> j < 3 -> w a j = w' a j) -> mrow q w b j = mrow q w' b j) /\
  (forall q q' w b j, mrow q w b j = mrow q' w b j) /\
  (forall q w j, j < 3 -> mrow q w 0 j = Cmul (RtoC 5) (Csum (S j) (fun u => Cmul (w 0 u) (w 1 (j - u))))) /\
  (forall f r b, b < 2 -> columns 2 3 2 1 (f b) r (spread 2 3 2 1 2 1 f r (fb 2 1 b))) /\
  local_kernels 2 2 3 (padkern mt [0; 1; 2] mrow) /\ nblocks (padkern mt [0; 1; 2] mrow) = 3.
Proof.
  split; [exact mt_wf|]. split; [exact mt_trace|]. split; [reflexivity|]. split; [vm_compute; lia|]. split; [exact mt_enough|].
  split; [exact mrow_local|]. split; [reflexivity|].
  split; [intros q w j Hj; unfold mrow; destruct (Nat.ltb_spec j 3); [reflexivity|lia]|].
  split; [intros; apply spread_columns; assumption|]. split; [|reflexivity]. exact (pad_local mt [0; 1; 2] 3 2 mrow mrow_local).
Qed.

(** A multiplier that looks at its index is called with the wrong one: with L=1, M=2 and the multiplication of each
    frequency q by q, one process computes f/2, two processes compute 0. *)
Theorem C57_index_refuted : exists (t : pad) rs row, wf t /\ loop_trace (gR t) (increment t) 0 rs /\ gL t = 1 /\ gM t = 2 /\ gl t * gD t = 2 /\
  (forall q w w' b j, (forall a j, a < 1 -> j < 2 -> w a j = w' a j) -> row q w b j = row q w' b j) /\
  (forall f : nat -> nat -> nat -> C, let h := fun x j => Cmul (RtoC (/ 2)) (ipdft 2 (fun q => row q (fun a j => pdft 2 1 (fun x => f a x j) q) 0 j) x) in
     (forall j, j < 2 -> h 0 j = Cmul (RtoC (/ 2)) (f 0 0 j)) /\
     forall a al off mem0 bsz0, 0 < a ->
     (enough 2 2 1 1 1 1 off (padkern t rs row) bsz0 -> (forall r, r < 1 -> columns 1 2 1 off (f 0) r (mem0 r (fb 1 1 0))) ->
      always_ends C 1 (initialM (tcfg 2 2 1 a al) mem0 bsz0 (fun r => convolveM (tcfg 2 2 1 a al) 1 1 1 off (padkern t rs row) (/ 2) r (Halt C)))
        (fun gf => forall r, r < 1 -> columns 1 2 1 off h r (mem C (snd (gf r)) (fb 1 1 0)))) /\
     (enough 2 2 2 1 1 1 off (padkern t rs row) bsz0 -> (forall r, r < 2 -> columns 1 2 2 off (f 0) r (mem0 r (fb 1 1 0))) ->
      always_ends C 2 (initialM (tcfg 2 2 2 a al) mem0 bsz0 (fun r => convolveM (tcfg 2 2 2 a al) 1 1 1 off (padkern t rs row) (/ 2) r (Halt C)))
        (fun gf => forall r, r < 2 -> columns 1 2 2 off (fun _ _ => C0) r (mem C (snd (gf r)) (fb 1 1 0))))).
Proof.
  exists it, [0], irow. split; [exact it_wf|]. split; [exact it_trace|]. split; [reflexivity|]. split; [reflexivity|]. split; [reflexivity|].
  split; [exact irow_local|]. intros f h. split; [exact (correct_is f)|]. intros a al off mem0 bsz0 Ha.
  split; intros Hen HG; [apply (index_one a al off f mem0 bsz0 Ha Hen HG)|apply (index_two a al off f mem0 bsz0 Ha Hen HG)].
Qed.
Print Assumptions C57_index_refuted.
