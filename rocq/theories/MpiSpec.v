(** What the MPI data distribution must satisfy, stated without the code. *)
From Coq Require Import ZArith List Permutation.
Import ListNotations.
Local Open Scope Z_scope.

(** Ranks 0..P-1 own the intervals [start r, start r + ext r) of 0..N-1: every index has
    exactly one owner, intervals lie inside the extent, and follow each other in rank order. *)
Definition partitions (N : Z) (P : nat) (ext start : nat -> Z) : Prop :=
  (forall i, 0 <= i < N ->
     exists r, (r < P)%nat /\ start r <= i < start r + ext r /\
       forall s, (s < P)%nat -> start s <= i < start s + ext s -> s = r) /\
  (forall r, (r < P)%nat -> 0 <= ext r /\ (0 < ext r -> 0 <= start r /\ start r + ext r <= N)) /\
  (forall r s, (r < s)%nat -> (s < P)%nat -> 0 < ext s -> start r + ext r <= start s).

(** Ranks 0..P-1 own rectangles tiling an X by Y plane *)
Definition tiles (X Y : Z) (P : nat) (ex x0 ey y0 : nat -> Z) : Prop :=
  (forall i j, 0 <= i < X -> 0 <= j < Y ->
     exists r, (r < P)%nat /\ x0 r <= i < x0 r + ex r /\ y0 r <= j < y0 r + ey r /\
       forall s, (s < P)%nat -> x0 s <= i < x0 s + ex s -> y0 s <= j < y0 s + ey s -> s = r) /\
  (forall r, (r < P)%nat -> 0 <= ex r /\ 0 <= ey r /\
     (0 < ex r -> 0 <= x0 r /\ x0 r + ex r <= X) /\
     (0 < ey r -> 0 <= y0 r /\ y0 r + ey r <= Y)).

(** Every rank's schedule lists every rank once, and at each step the partners agree. *)
Definition matched_schedule (P : nat) (sched : nat -> list Z) : Prop :=
  (forall a, (a < P)%nat -> Permutation (sched a) (map Z.of_nat (seq 0 P))) /\
  (forall a k, (a < P)%nat -> (k < P)%nat ->
     exists b, (b < P)%nat /\ nth_error (sched a) k = Some (Z.of_nat b) /\
       nth_error (sched b) k = Some (Z.of_nat a)).
