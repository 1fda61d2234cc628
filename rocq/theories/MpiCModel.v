(** Model of the distributed convolution of mpi/mpiconvolve.h:80-193, Convolution2MPI, with the parts of
    convolve.h:1240-1500, Convolution2, that it inherits, on the message passing machine.
    A memory word is one Complex number.  Arrays: F[a] is number a < N = max(A,B), the work array shared
    by the transposes is number N, f[a] is number N+1+a and V[b] is number N+1+N+b.
    Simplified: the transforms fftx->Forward and fftx->Backward of one column, and the convolution
    convolvey->convolveRaw of one row, are atomic kernels that read all their input before they write
    their output (their own code is the subject of C01-C19); fftx has C = S = d.y;
    fftx->overwrite and fftx->loop2() are false, so that overlap is false and all transposes are the
    blocking localize1 and localize0.  The loop marked PARALLEL is executed sequentially. *)
From Coq Require Import Reals List Arith Bool.
From Verif Require Import CNum Sums MpiMachine MpiTrModel MpiTrTop.
Import ListNotations.
Local Open Scope nat_scope.
Notation cmdC := (prog C -> prog C).

(** read the n words at the addresses [adr 0], .., [adr (n-1)], each an array and an offset *)
Fixpoint rdm (adr : nat -> nat * nat) (n : nat) (acc : nat -> C) (k : (nat -> C) -> prog C) : prog C :=
  match n with
  | 0 => k acc
  | S n => Rd C (fst (adr n)) (snd (adr n)) (fun v => rdm adr n (fun j => if j =? n then v else acc j) k)
  end.
(** write f j at adr j for j < n *)
Fixpoint wrm (adr : nat -> nat * nat) (n : nat) (f : nat -> C) : cmdC :=
  match n with
  | 0 => skip C
  | S n => seqc C (Wr C (fst (adr n)) (snd (adr n)) (f n)) (wrm adr n f)
  end.
(** M kernels, one after the other; kernel h turns n words into n' words *)
Definition kernels (n n' : nat) (tr : nat -> (nat -> C) -> nat -> C) (M : nat) (ain aout : nat -> nat -> nat * nat) : cmdC :=
  forc C M (fun h k => rdm (ain h) n (fun _ => C0) (fun x => wrm (aout h) n' (tr h x) k)).

(** What the two transforms and the one-dimensional convolution compute: nblocks residue blocks; block i
    has (fftx->blocksize) [kblock i] rows; row k of block i of the forward transform of column x; what
    Backward adds to row x of the output for the block i of the column y; and the words in row b of the
    arrays after convolveRaw on rows of the A arrays, when index[0] is [fst] [snd] = (i,row).  For b >= B
    this is whatever convolveRaw leaves in F[b]. *)
Record kern := mkKern {
  nblocks : nat;
  kblock : nat -> nat;
  kfwd : nat -> nat -> (nat -> C) -> C;
  kbwd : nat -> nat -> (nat -> C) -> C;
  krow : nat -> nat -> (nat -> nat -> C) -> nat -> nat -> C }.

Section Conv.
Variable c : cfg.             (* the transposes: c = mkCfg (fftx->l*fftx->D) Ly 1 1 P a alltoall *)
Variables (A B Lx off : nat). (* off: the argument offset *)
Variable K : kern.
Variable scale : R.
Variable r : nat.             (* rank *)
Definition nN : nat := Nat.max A B.
Definition fb (a : nat) : nat := nN + 1 + a.
Definition vb (b : nat) : nat := nN + 1 + nN + b.
(** mpitranspose.h class split: d.x and d.y *)
Notation X := (cN c). Notation Y := (cM c).
Notation lx := (ldim (cN c) (cP c) r). Notation ly := (ldim (cM c) (cP c) r).
(** mpiconvolve.h:95-107: the transpose object T[a] works on F[a]; none if d.y = d.Y *)
Definition turn (d : bool) (a : nat) : cmdC :=
  if ly <? Y then call_cmd C c (fun r => ldim X (cP c) r) (fun r => ldim Y (cP c) r) nN r (mkCall d a a) else skip C.
(** fftx->Forward(f[a]+offset,F[a],rx,W): the ly columns, stride ly *)
Definition fwd1 (i a : nat) : cmdC :=
  kernels Lx (kblock K i) (fun _ x k => kfwd K i k x) ly
    (fun j t => (fb a, off + (t * ly + j))) (fun j k => (a, k * ly + j)).
(** mpiconvolve.h:135-154 forward(f,F,rx,0,A,offset): overwrite = 0, cutoff = 0 *)
Definition forwardM (i : nat) : cmdC :=
  forc C A (fun a => seqc C (fwd1 i a) (turn false a)).
(** convolve.h:1404-1414 subconvolution(F,rx), with blocksizex(rx) = d.x and stridex() = d.Y
    (mpiconvolve.h:156-162); word t of the A rows is word t mod Y of array t/Y *)
Definition subconv (i : nat) : cmdC :=
  kernels (A * Y) (nN * Y) (fun k x t => krow K i k (fun a j => x (a * Y + j)) (t / Y) (t mod Y)) lx
    (fun k t => (t / Y, k * Y + t mod Y)) (fun k t => (t / Y, k * Y + t mod Y)).
(** fftx->Backward(F[b],h[b]+o,rx,W0): overwrites h for the first block, adds to it for the others;
    the words read are those of F[b] and then those of h[b] *)
Definition bwd1 (i : nat) (h : nat -> nat) (o b : nat) : cmdC :=
  kernels (kblock K i + Lx) Lx
    (fun _ x k => if i =? 0 then kbwd K i k x else Cadd (x (kblock K i + k)) (kbwd K i k x)) ly
    (fun j t => if t <? kblock K i then (b, t * ly + j) else (h b, o + ((t - kblock K i) * ly + j)))
    (fun j k => (h b, o + (k * ly + j))).
(** mpiconvolve.h:164-186 backward(F,h0,rx,0,B,Offset,W) *)
Definition backwardM (i : nat) (h : nat -> nat) (o : nat) : cmdC :=
  seqc C (forc C B (fun b => turn true b)) (forc C B (fun b => bwd1 i h o b)).
(** convolve.h:1459-1497 convolveRaw, the last branch *)
Definition copyV : cmdC :=
  forc C B (fun b => kernels 1 1 (fun _ x _ => x 0) (Lx * ly) (fun h _ => (vb b, h)) (fun h _ => (fb b, off + h))).
Definition convolveRawM : cmdC :=
  let many := 1 <? nblocks K in
  let h0 := if many then vb else fb in
  let o := if many then 0 else off in
  seqc C (forc C (nblocks K) (fun i => seqc C (forwardM i) (seqc C (subconv i) (backwardM i h0 o))))
         (if many then copyV else skip C).
(** convolve.h:1429-1442 normalize; inputLengthy() is d.y (mpiconvolve.h:188-190) *)
Definition normalizeM : cmdC :=
  forc C B (fun b => kernels 1 1 (fun _ x _ => Cmul (RtoC scale) (x 0)) (Lx * ly) (fun h _ => (fb b, off + h)) (fun h _ => (fb b, off + h))).
(** convolve.h:1502-1505 *)
Definition convolveM : cmdC := seqc C convolveRawM normalizeM.
End Conv.
(** [n] calls of convolve on the same arrays *)
Fixpoint convolvesM (c : cfg) (A B Lx off : nat) (K : kern) (scale : R) (r n : nat) (k : prog C) : prog C :=
  match n with 0 => k | S n => convolveM c A B Lx off K scale r (convolvesM c A B Lx off K scale r n k) end.
