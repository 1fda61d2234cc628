(** Properties of the MPI layer (mpi/). *)
From Coq Require Import ZArith List Bool Lia Permutation.
Import ListNotations.
From Verif Require Import MpiModel MpiSpec MpiDims MpiSched.
Local Open Scope Z_scope.

(** *** C33: local dimensions *)

(** localdimension(N,rank,size) on all ranks: the intervals partition 0..N-1 in rank order *)
Theorem C33_localdimension : forall N size, 0 <= N -> (0 < size)%nat -> N + Z.of_nat size < 2 ^ 31 ->
  exists ext start,
   (forall r, (r < size)%nat -> localdimension N (Z.of_nat r) (Z.of_nat size) = Some (ext r, start r)) /\
   partitions N size ext start.
Proof. exact localdimension_partitions. Qed.
Print Assumptions C33_localdimension.
(** a rank's start is computed before it is clipped, so near 2^31 it overflows int *)
Theorem C33_overflow_refuted :
  localdimension (2 ^ 31 - 1) (2 ^ 30 + 1) (2 ^ 30 + 2) = None /\
  0 <= 2 ^ 31 - 1 /\ 0 <= 2 ^ 30 + 1 < 2 ^ 30 + 2 /\ 2 ^ 31 - 1 < 2 ^ 31.
Proof. exact localdimension_overflow. Qed.
Print Assumptions C33_overflow_refuted.
(** split(X,Y,comm): the two distributions and the storage needed *)
Theorem C33_split : forall X Y r size,
  0 <= X -> 0 <= Y -> 0 <= r < size -> X + size < 2 ^ 31 -> Y + size < 2 ^ 31 ->
  exists s, split_make X Y r size = Some s /\ sX s = X /\ sY s = Y /\
    localdimension X r size = Some (sx s, sx0 s) /\
    localdimension Y r size = Some (sy s, sy0 s) /\
    (X * sy s < 2 ^ 32 -> sx s * Y < 2 ^ 32 -> sn s = Z.max (X * sy s) (sx s * Y)).
Proof. exact split_correct. Qed.
Print Assumptions C33_split.
(** MPIgroup(comm,X): every active process owns at least one index *)
Theorem C33_group1 : forall X size, 0 < X -> 0 < size -> X + size < 2 ^ 31 ->
  exists A, group1_size X size = Some A /\ 0 < A <= size /\
    forall r, 0 <= r < A -> exists n s, localdimension X r A = Some (n, s) /\ 0 < n.
Proof. exact group1_correct. Qed.
Print Assumptions C33_group1.
(** MPIgroup(comm,X,Y,allowPencil) and split3: the three distributions (x,y), (x,z), (y,z)
    are tilings of the planes by the active processes, none of which is idle *)
Theorem C33_group2 : forall X Y Zd size pencil,
  0 < X < 2 ^ 30 -> 0 < Y < 2 ^ 30 -> 0 <= Zd < 2 ^ 30 -> 0 < size < 2 ^ 30 ->
  exists (A : nat) major,
    group2_size X Y size pencil = Some (Z.of_nat A, major) /\ 0 < Z.of_nat A <= size /\
    forall xyf, let S r := group_split3 X Y Y Zd major A r xyf in
    (forall r, (r < A)%nat -> S r <> None) /\
    tiles X Y A (fun r => get s3x (S r)) (fun r => get s3x0 (S r))
      (fun r => get (fun s => sx (s3yz s)) (S r)) (fun r => get (fun s => sx0 (s3yz s)) (S r)) /\
    tiles X Zd A (fun r => get s3x (S r)) (fun r => get s3x0 (S r))
      (fun r => get s3z (S r)) (fun r => get s3z0 (S r)) /\
    tiles Y Zd A (fun r => get (fun s => sy (s3xy s)) (S r)) (fun r => get (fun s => sy0 (s3xy s)) (S r))
      (fun r => get s3z (S r)) (fun r => get s3z0 (S r)) /\
    (forall r, (r < A)%nat -> 0 < get s3x (S r) /\ 0 < get (fun s => sx (s3yz s)) (S r)).
Proof. exact group2_correct. Qed.
Print Assumptions C33_group2.
(** split3::n words hold each of the three local arrays *)
Theorem C33_group2_storage : forall X Y Zd w K r xyf,
  0 <= X < 2 ^ 30 -> 0 <= Y < 2 ^ 30 -> 0 <= Zd < 2 ^ 30 ->
  (0 < w)%nat -> (r < K * w)%nat -> Z.of_nat (K * w) < 2 ^ 30 ->
  exists s, group_split3 X Y Y Zd (Z.of_nat w) (K * w) r xyf = Some s /\
   (X * sy (s3xy s) * s3z s < 2 ^ 32 -> s3x s * Y * s3z s < 2 ^ 32 ->
    s3x s * sx (s3yz s) * Zd < 2 ^ 32 ->
    X * sy (s3xy s) < 2 ^ 32 -> s3x s * Y < 2 ^ 32 -> Y * s3z s < 2 ^ 32 -> sx (s3yz s) * Zd < 2 ^ 32 ->
    s3n s = Z.max (X * sy (s3xy s) * s3z s) (Z.max (s3x s * Y * s3z s) (s3x s * sx (s3yz s) * Zd))).
Proof. exact group2_storage. Qed.
Print Assumptions C33_group2_storage.
Example C33_case :
  map (fun r => localdimension 10 r 4) [0; 1; 2; 3] = [Some (3, 0); Some (3, 3); Some (3, 6); Some (1, 9)] /\
  map (fun r => localdimension 9 r 6) [0; 3; 4; 5] = [Some (2, 0); Some (2, 6); Some (1, 8); Some (0, 10)] /\
  group1_size 9 6 = Some 5 /\ group2_size 4 6 11 true = Some (8, 2) /\
  get s3y0 (group_split3 4 6 6 5 2 8 5 false) = 3 /\ get s3x (group_split3 4 6 6 5 2 8 5 false) = 1.
Proof. vm_compute. repeat split. Qed.

(** *** C34: communication schedule *)
Theorem C34_schedule : forall npes, (0 < npes)%nat ->
  matched_schedule npes (fun r => fill1_comm_sched (Z.of_nat r) (Z.of_nat npes)).
Proof. exact sched_matched. Qed.
Print Assumptions C34_schedule.
Example C34_case :
  map (fun r => fill1_comm_sched r 4) [0; 1; 2; 3] = [[0; 3; 2; 1]; [1; 2; 3; 0]; [2; 1; 0; 3]; [3; 0; 1; 2]] /\
  map (fun r => fill1_comm_sched r 3) [0; 1; 2] = [[0; 2; 1]; [2; 1; 0]; [1; 0; 2]].
Proof. vm_compute. repeat split. Qed.
