(** Model of the distributed Hermitian symmetrization: mpi/mpiconvolve.h:299-314 HermitianSymmetrizeX(split,f)
    and mpi/mpiconvolve.cc:11-150 HermitianSymmetrizeXY(split3,f,u), on the message passing machine.
    A memory word is one Complex number; array 0 is f, array 1 is u, given by the caller (u != NULL).
    The machine's first P processes are those of the communicator d.XYplane (d.z0 = 0), in the order
    of their ranks; the others have d.z0 != 0.  P is at least 2 (for one process the serial routine of C55 is called).
    Simplified: unsigned arithmetic does not wrap; d.reflect, which the first call computes
    (mpiconvolve.cc:37-69: Allgather of the extents, table [process] on rank 0, sent entry by entry), enters these
    two routines as the entry of that table; the messages that compute it are modelled by setupR at the end.  The loops marked PARALLELIF are executed in order. *)
From Coq Require Import Reals List Arith Bool.
From Verif Require Import CNum Sums MpiMachine MpiTrModel MpiCModel.
Import ListNotations.
Local Open Scope nat_scope.

(** one word to one word *)
Definition mapw (M : nat) (tr : C -> C) (ain aout : nat -> nat * nat) : cmdC :=
  kernels 1 1 (fun _ x _ => tr (x 0)) M (fun h _ => ain h) (fun h _ => aout h).
(** store v in M places *)
Definition fill (M : nat) (v : C) (aout : nat -> nat * nat) : cmdC :=
  kernels 0 1 (fun _ _ _ => v) M (fun _ _ => (0, 0)) (fun h _ => aout h).
(** blocking MPI_Send and MPI_Recv of n words of u *)
Definition sendu (dst n : nat) : cmdC := fun k => Post C 0 0 false [Snd dst 0 1 0 n] (Wait C [(0, 0)] k).
Definition recvu (src n : nat) : cmdC := fun k => Post C 0 0 false [Rcv src 0 1 0 n] (Wait C [(0, 0)] k).

(** mpiconvolve.cc:49-54 process[y]: the loop over p overwrites *)
Fixpoint owner (Y P y n : nat) : nat :=
  match n with
  | 0 => 0
  | S n => if (lbeg Y P n <=? y) && (y <? lbeg Y P n + ldim Y P n) then n else owner Y P y n
  end.

(** mpiconvolve.cc:13-16 and 24-27 *)
Definition mxH (X : nat) : nat := cq X 2.
Definition compact1 (X : nat) : nat := if mxH X =? X / 2 then 0 else 1.
Definition extra1 (X : nat) : nat := if compact1 X =? 0 then 1 else 0.
Definition orig (X : nat) : nat := mxH X - compact1 X.

Section HermXY.
Variables (X Y P : nat).   (* d.X, d.Y, the size of d.XYplane *)
Variable dz : nat.         (* d.z *)
Variable dn : nat.         (* d.n *)
Variable r : nat.          (* rank in d.XYplane *)
(** mpiconvolve.cc:24-31 *)
Definition nxH : nat := X - extra1 X.
Definition hy0 : nat := lbeg Y P r.
Definition hdy : nat := ldim Y P r.
Definition j0H : nat := if hy0 =? 0 then extra1 Y else 0.
Definition startH : nat := if hy0 <? orig Y then orig Y - hy0 else 0.
Definition strideH : nat := hdy * dz.
(** mpiconvolve.cc:56-57 d.reflect[j] *)
Definition reflect (j : nat) : nat := owner Y P (2 * orig Y - hy0 - j) P.
(** mpiconvolve.cc:84-114, body of the first loop *)
Definition copyback (off : nat) : cmdC :=
  forc C nxH (fun i => fun k =>
    Rd C 1 i (fun v => if strideH * (i + extra1 X) + off <? dn then Wr C 0 (strideH * (i + extra1 X) + off) v k else Fail C)).
Definition originH (j : nat) : cmdC :=
  let o := strideH * orig X + dz * j in
  seqc C (mapw 1 (fun v => RtoC (re v)) (fun _ => (0, o)) (fun _ => (0, o)))
         (mapw (mxH X - 1) Cconj (fun i => (0, o + (i + 1) * strideH)) (fun i => (0, o - (i + 1) * strideH))).
Definition upper (j : nat) : cmdC :=
  seqc C (mapw nxH Cconj (fun i => (0, strideH * (X - 1 - i) + dz * j)) (fun i => (1, i)))
    (if negb (reflect j =? r) then sendu (reflect j) nxH
     else if negb (hy0 + j =? orig Y) then copyback (dz * (2 * (orig Y - hy0) - j))
     else originH j).
(** mpiconvolve.cc:116-123, body of the second loop *)
Definition lower (j : nat) : cmdC :=
  if negb (reflect j =? r) then
    seqc C (recvu (reflect j) nxH) (mapw nxH (fun v => v) (fun i => (1, i)) (fun i => (0, strideH * (i + extra1 X) + dz * j)))
  else skip C.
(** mpiconvolve.cc:125-145; [dy'], [y0']: the members d.y and d.y0, equal to d.xy.y and d.xy.y0 for
    split3(...,spectral=true) *)
Definition nyquist (dy' y0' : nat) : cmdC :=
  seqc C (if extra1 X =? 1 then fill (dy' * dz) C0 (fun h => (0, dz * (h / dz) + h mod dz)) else skip C)
         (if (extra1 Y =? 1) && (y0' =? 0) then fill (X * dz) C0 (fun h => (0, dy' * dz * (h / dz) + h mod dz)) else skip C).
Definition symXY : cmdC :=
  let top := Nat.min hdy startH in
  seqc C (floop C startH (hdy - startH) upper)
    (seqc C (forc C (top - j0H) (fun s => lower (top - 1 - s))) (nyquist hdy hy0)).
(** the processes r >= P have d.z0 != 0 and return (mpiconvolve.cc:40,70) *)
Definition symXYall : cmdC := if r <? P then symXY else skip C.
End HermXY.

(** mpiconvolve.h:299-314, with convolve.h:1146-1174 called on d.y columns for d.y0 = 0 *)
Definition symX (X Y P r : nat) : cmdC :=
  let Hx := cq X 2 in let dy := ldim Y P r in let x0 := X / 2 in
  let o := x0 * dy in
  if lbeg Y P r =? 0 then
    seqc C (mapw (Hx - 1) Cconj (fun i => (0, o + (i + 1) * dy)) (fun i => (0, o - (i + 1) * dy)))
      (seqc C (mapw 1 (fun v => RtoC (re v)) (fun _ => (0, o)) (fun _ => (0, o)))
         (if x0 =? Hx then fill dy C0 (fun h => (0, h)) else skip C))
  else if x0 =? Hx then fill dy C0 (fun h => (0, h)) else skip C.

(** mpiconvolve.cc:37-69, the first call: d.reflect of the processes of d.XYplane.  A word is an int; array 2
    is rank 0's table process[d.Y], array 3 is d.reflect.  Simplified: the results n[p], start[p] of the two
    MPI_Allgather calls are taken as known; the tag j of a message is its context. *)
Section Setup.
Variables (Y P r : nat).
Notation cmdN := (prog nat -> prog nat).
Definition sendp (p j : nat) : cmdN := fun k => Post nat 0 0 false [Snd p j 2 (2 * orig Y - lbeg Y P p - j) 1] (Wait nat [(0, 0)] k).
Definition recvp (j : nat) : cmdN := fun k => Post nat 0 0 false [Rcv 0 j 3 j 1] (Wait nat [(0, 0)] k).
Definition table : cmdN :=
  forc nat P (fun p => forc nat (ldim Y P p) (fun j => Wr nat 2 (lbeg Y P p + j) p)).
Definition setupR : cmdN :=
  if r =? 0 then
    seqc nat table
      (seqc nat (floop nat (j0H Y P 0) (ldim Y P 0 - j0H Y P 0) (fun j k => Rd nat 2 (2 * orig Y - lbeg Y P 0 - j) (fun v => Wr nat 3 j v k)))
         (floop nat 1 (P - 1) (fun p => let j0 := if lbeg Y P p =? 0 then extra1 Y else 0 in
            floop nat j0 (ldim Y P p - j0) (fun j => sendp p j))))
  else forc nat (ldim Y P r) recvp.
End Setup.
