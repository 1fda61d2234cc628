(** Model of the data-distribution arithmetic of fftwpp's MPI layer
    (mpi/mpitranspose.h, mpi/mpitranspose.cc, mpi/mpigroup.h).
    [int] and [unsigned int] are 32 bits, [size_t] 64 bits.  A C++ [int] result outside
    the representable range and a division by zero are [None] (undefined behaviour);
    [unsigned int] results wrap modulo 2^32. *)
From Coq Require Import ZArith List Bool.
Import ListNotations.
Local Open Scope Z_scope.

Definition bind {A B : Type} (x : option A) (k : A -> option B) : option B :=
  match x with Some a => k a | None => None end.
Notation "'do' x <- e ; k" := (bind e (fun x => k))
  (at level 200, x name, e at level 100, k at level 200).
Notation "'do' ( x , y ) <- e ; k" := (bind e (fun p => match p with (x, y) => k end))
  (at level 200, x name, y name, e at level 100, k at level 200).

(** signed 32-bit result or undefined behaviour *)
Definition sint (x : Z) : option Z :=
  if (- 2 ^ 31 <=? x) && (x <? 2 ^ 31) then Some x else None.
(** unsigned 32-bit result *)
Definition u32 (x : Z) : Z := x mod 2 ^ 32.
(** conversion of a 64-bit word to int (implementation defined: wraps) *)
Definition to_int (x : Z) : Z := (x + 2 ^ 31) mod 2 ^ 32 - 2 ^ 31.

(** align.h:97-100 ceilquotient(size_t a, size_t b) = (a+b-1)/b *)
Definition ceilq (a b : Z) : option Z :=
  let a := a mod 2 ^ 64 in let b := b mod 2 ^ 64 in
  if b =? 0 then None else Some (((a + b - 1) mod 2 ^ 64) / b).

(** mpi/mpitranspose.h:114-127 localdimension(int N, int rank, int size): (n, start) *)
Definition localdimension (N rank size : Z) : option (Z * Z) :=
  do q <- ceilq N size;
  let n := to_int q in
  do start <- sint (n * rank);
  do extra <- sint (N - start);
  let extra := if extra <? 0 then 0 else extra in
  let n := if extra <? n then extra else n in
  Some (n, start).

(** mpi/mpigroup.h:68-104 class split: X*y local matrix, x*Y local transposed matrix *)
Record split := mkSplit { sX : Z; sY : Z; sx : Z; sy : Z; sx0 : Z; sy0 : Z; sn : Z }.

(** mpi/mpigroup.h:77-96 split(X,Y,communicator), with the rank and size that
    MPI_Comm_rank and MPI_Comm_size return for the communicator *)
Definition split_make (X Y rank size : Z) : option split :=
  do (xn, xs) <- localdimension X rank size;
  do (yn, ys) <- localdimension Y rank size;
  Some (mkSplit X Y xn yn xs ys (Z.max (u32 (X * yn)) (u32 (xn * Y)))).

(** mpi/mpigroup.h:113-169 class split3 *)
Record split3 := mkSplit3 {
  s3n : Z; s3n2 : Z; s3X : Z; s3Y : Z; s3Y2 : Z; s3Z : Z;
  s3x : Z; s3y : Z; s3z : Z; s3x0 : Z; s3y0 : Z; s3z0 : Z;
  s3yz : split; s3xy : split }.

(** mpi/mpigroup.h:126-142 split3::init; [r1],[p1] = rank and size in group.communicator,
    [r2],[p2] = rank and size in group.communicator2; [xyf] = the flag xy *)
Definition split3_make (X Y Y2 Zd r1 p1 r2 p2 : Z) (xyf : bool) : option split3 :=
  do xy <- split_make X Y r1 p1;
  do yz <- split_make Y2 Zd r2 p2;
  let '(y, y0) := if xyf then (sy xy, sy0 xy) else (sx yz, sx0 yz) in
  Some (mkSplit3 (Z.max (u32 (sn xy * sy yz)) (u32 (sx xy * sn yz))) (sn yz)
                 X Y Y2 Zd (sx xy) y (sy yz) (sx0 xy) y0 (sy0 yz) yz xy).

(** MPI_Comm_split(comm,color,key): the rank and the size of process [r] in the new
    communicator, for a communicator with processes 0..[size]-1.  MPI orders the members
    of a color by key, ties by old rank. *)
Definition split_members (size : nat) (color : nat -> Z) (r : nat) : list nat :=
  filter (fun s => color s =? color r) (seq 0 size).
Definition split_before (color key : nat -> Z) (r s : nat) : bool :=
  (key s <? key r) || ((key s =? key r) && (Nat.ltb s r)).
Definition split_size (size : nat) (color : nat -> Z) (r : nat) : nat :=
  length (split_members size color r).
Definition split_rank (size : nat) (color key : nat -> Z) (r : nat) : nat :=
  length (filter (split_before color key r) (split_members size color r)).

(** mpi/mpigroup.h:23-29 MPIgroup(comm,X): the number of active processes *)
Definition group1_size (X size : Z) : option Z :=
  do xblock <- ceilq X size;
  do s <- ceilq X (u32 xblock);
  Some (to_int s).

(** mpi/mpigroup.h:32-49 MPIgroup(comm,X,Y,allowPencil): number of active processes, and
    [major], the number of columns *)
Definition group2_size (X Y size : Z) (allowPencil : bool) : option (Z * Z) :=
  do x <- ceilq X size;
  let x := u32 x in
  do y <- (if allowPencil then
             if X =? 0 then None
             else do q <- ceilq Y (u32 (size * x) / X); Some (u32 q)
           else Some Y);
  do qx <- ceilq X x;
  do qy <- ceilq Y y;
  let size := to_int ((qx * qy) mod 2 ^ 64) in
  do major <- ceilq size X;
  Some (size, to_int major).

(** mpi/mpigroup.h:42-48: (p,q) of an active process: colour and key of communicator are
    (p,q), of communicator2 (q,p) *)
Definition group2_pq (major : Z) (r : nat) : Z * Z :=
  (Z.rem (Z.of_nat r) major, Z.quot (Z.of_nat r) major).

(** mpi/mpigroup.h:46-47: colour and key of process [s] *)
Definition gcolor (major : Z) (s : nat) : Z := fst (group2_pq major s).
Definition gkey (major : Z) (s : nat) : Z := snd (group2_pq major s).

(** the split3 object active process [r] of [A] computes: mpi/mpigroup.h:46-47 (the two
    communicators) and 126-142 (split3::init).  In communicator the colour is p and the key
    q, in communicator2 the other way round. *)
Definition group_split3 (X Y Y2 Zd major : Z) (A r : nat) (xyf : bool) : option split3 :=
  split3_make X Y Y2 Zd
    (Z.of_nat (split_rank A (gcolor major) (gkey major) r)) (Z.of_nat (split_size A (gcolor major) r))
    (Z.of_nat (split_rank A (gkey major) (gcolor major) r)) (Z.of_nat (split_size A (gkey major) r)) xyf.
(** a member of the object, 0 if its construction failed *)
Definition get (f : split3 -> Z) (s : option split3) : Z := match s with Some s => f s | None => 0 end.

(** mpi/mpitranspose.cc:31-57 fill1_comm_sched: the body of the loop over pe, as the list
    of values it appends to sched *)
Definition sched_body (which_pe npes n pe : Z) : list Z :=
  (if Z.rem npes 2 =? 0 then
     if pe =? which_pe then [npes - 1]
     else if npes - 1 =? which_pe then [pe] else []
   else if pe =? which_pe then [pe] else []) ++
  (if negb (pe =? which_pe) && (which_pe <? n - 1) then
     let i := Z.rem (pe - which_pe + (n - 1)) (n - 1) in
     let i' := Z.rem (which_pe - pe + (n - 1)) (n - 1) in
     (if i <? Z.quot n 2 then [Z.rem (pe + i) (n - 1)] else []) ++
     (if i' <? Z.quot n 2 then [Z.rem (pe - i' + (n - 1)) (n - 1)] else [])
   else []).

(** mpi/mpitranspose.cc:31-57 fill1_comm_sched(sched,which_pe,npes): the sequence of
    values written to sched[0], sched[1], ... *)
Definition fill1_comm_sched (which_pe npes : Z) : list Z :=
  let even := Z.rem npes 2 =? 0 in
  let n := if even then npes else npes + 1 in
  (if even then [which_pe] else []) ++
  flat_map (fun pe => sched_body which_pe npes n (Z.of_nat pe)) (seq 0 (Z.to_nat (n - 1))).
