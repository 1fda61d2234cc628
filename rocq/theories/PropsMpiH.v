(** The distributed Hermitian symmetrization: HermitianSymmetrizeX(split,f) (mpi/mpiconvolve.h) and
    HermitianSymmetrizeXY(split3,f,u) (mpi/mpiconvolve.cc).  [always_ends] (MpiTrSpec.v): all executions, i.e. every
    interleaving of the processes and any buffering of sends, end, without deadlock or undefined behaviour, in a
    state as stated.  [hermitian2], [hermitian3], [slab], [columns2]: MpiHSpec.v; [count], [first]: the
    distribution (MpiTrSpec.v).  Array 0 is f, array 1 is the work array u. *)
From Coq Require Import Reals ZArith List Arith Bool Lia Lra.
From Verif Require Import CNum Sums MpiMachine MpiTrModel MpiTrSpec MpiTrTop MpiCModel MpiHModel MpiHSpec MpiH3 MpiH4 MpiHProofs.
Import ListNotations.
Local Open Scope nat_scope.

(** *** C58 *)

(** three dimensions: P processes share the plane z=0 (all of them with slabs), N-P do not; dz planes, dn = d.n words
    of storage.  With one process in all (N=1) the code calls the serial routine (C55) instead.
    _partial: d.reflect is that of C58_reflect. *)
Theorem C58_symmetrize3_partial : forall X Y P N dz (dn : nat -> nat) G mem0 bsz0, 0 < X -> 0 < Y -> 0 < P -> P <= N -> 0 < dz ->
  (forall r, r < P -> X * (count Y P r * dz) <= dn r /\ X * (count Y P r * dz) <= bsz0 r 0 /\ X <= bsz0 r 1) ->
  (forall r, r < P -> slab X Y P dz r (mem0 r 0) G) ->
  always_ends C N (fun r => (symXYall X Y P dz (dn r) r (Halt C), start1 (mem0 r) (bsz0 r)))
    (fun gf => (forall r, r < P -> slab X Y P dz r (mem C (snd (gf r)) 0) (hermitian3 X Y G) /\
                   (forall o, X * (count Y P r * dz) <= o -> mem C (snd (gf r)) 0 o = mem0 r 0 o) /\
                   (forall b o, 2 <= b -> mem C (snd (gf r)) b o = mem0 r b o)) /\
               (forall r, P <= r < N -> forall b o, mem C (snd (gf r)) b o = mem0 r b o)).
Proof. exact xy_thm. Qed.
Print Assumptions C58_symmetrize3_partial.
(** A case: 4 x 5 modes on 3 processes (2, 2 and 1 columns), two planes *)
Example C58_case : (forall G, let mem0 := fun r b o => if b =? 0 then stored 5 3 2 G r o else C0 in let bsz0 := fun _ b => if b =? 0 then 16 else 4 in
    (forall r, r < 3 -> 4 * (count 5 3 r * 2) <= 16 /\ 4 * (count 5 3 r * 2) <= bsz0 r 0 /\ 4 <= bsz0 r 1) /\
    (forall r, r < 3 -> slab 4 5 3 2 r (mem0 r 0) G)) /\
  map (count 5 3) [0; 1; 2] = [2; 2; 1] /\
  (let G := fun x y k => mkC (INR (x + 10 * y + 100 * k)) 1 in
    hermitian3 4 5 G 0 3 1 = C0 /\ hermitian3 4 5 G 1 0 0 = mkC (INR 43) (-1) /\ hermitian3 4 5 G 2 2 0 = mkC (INR 22) 0 /\ hermitian3 4 5 G 1 0 1 = G 1 0 1).
Proof.
  split; [|split; [reflexivity|]].
  - intros G mem0 bsz0. split.
    + intros r Hr. destruct r as [|[|[|r]]]; [vm_compute; lia|vm_compute; lia|vm_compute; lia|lia].
    + intros r Hr. exact (stored_slab 4 5 3 2 G r).
  - repeat split; reflexivity.
Qed.

(** two dimensions *)
Theorem C58_symmetrize2 : forall X Y P G mem0 bsz0, 0 < X -> 0 < Y -> 0 < P -> (forall r, r < P -> X * count Y P r <= bsz0 r 0) ->
  (forall r, r < P -> columns2 X Y P r (mem0 r 0) G) ->
  always_ends C P (fun r => (symX X Y P r (Halt C), start1 (mem0 r) (bsz0 r)))
    (fun gf => forall r, r < P -> columns2 X Y P r (mem C (snd (gf r)) 0) (hermitian2 X G) /\
                   (forall o, X * count Y P r <= o -> mem C (snd (gf r)) 0 o = mem0 r 0 o) /\
                   (forall b o, 1 <= b -> mem C (snd (gf r)) b o = mem0 r b o)).
Proof. exact x_thm. Qed.
Print Assumptions C58_symmetrize2.
Example C58_case2 : forall G : nat -> nat -> C, let mem0 := fun r (_ : nat) o => stored 5 3 1 (fun x y _ => G x y) r o in
  (forall r, r < 3 -> 4 * count 5 3 r <= 16) /\ (forall r, r < 3 -> columns2 4 5 3 r (mem0 r 0) G).
Proof.
  intros G mem0. split.
  - intros r Hr. destruct r as [|[|[|r]]]; [vm_compute; lia|vm_compute; lia|vm_compute; lia|lia].
  - intros r Hr x j Hx Hj. unfold mem0. pose proof (stored_slab 4 5 3 1 (fun x y _ => G x y) r x j 0 Hx Hj ltac:(lia)) as H. cbv beta in H. rewrite <- H. f_equal. lia.
Qed.

(** the first call: each process learns who holds the mirror image 2 (Y/2) - y of each of its columns y
    (there is none for y=0 when Y is even) *)
Theorem C58_reflect : forall Y P, 0 < Y -> 0 < P -> forall bsz0 mem0, Y <= bsz0 0 2 -> (forall r, r < P -> count Y P r <= bsz0 r 3) ->
  always_ends nat P (fun r => (setupR Y P r (Halt nat), start1n (mem0 r) (bsz0 r)))
    (fun gf => forall r, r < P ->
       (forall j, j < count Y P r -> (Nat.even Y = true -> 0 < first Y P r + j) ->
          exists q, q < P /\ first Y P q <= 2 * (Y / 2) - (first Y P r + j) < first Y P q + count Y P q /\ mem nat (snd (gf r)) 3 j = q) /\
       (forall b o, (b <> 2 /\ b <> 3) \/ (0 < r /\ b = 2) \/ (b = 2 /\ Y <= o) \/ (b = 3 /\ count Y P r <= o) -> mem nat (snd (gf r)) b o = mem0 r b o)).
Proof. exact reflect_thm. Qed.
Print Assumptions C58_reflect.
Example C58_reflect_case : 5 <= 5 /\ (forall r, r < 3 -> count 5 3 r <= 2) /\ map (first 5 3) [0; 1; 2] = [0; 2; 4].
Proof. split; [lia|]. split; [|reflexivity]. intros r Hr. destruct r as [|[|[|r]]]; [vm_compute; lia|vm_compute; lia|vm_compute; lia|lia]. Qed.

(** what is computed is the data of a real function: opposite modes are conjugate *)
Theorem C58_symmetric : forall X Y G x y, x < X -> y < Y -> (Nat.even X = true -> 0 < x) -> (Nat.even Y = true -> 0 < y) ->
  hermitian3 X Y G (2 * (X / 2) - x) (2 * (Y / 2) - y) 0 = Cconj (hermitian3 X Y G x y 0).
Proof. exact sym_thm. Qed.
Print Assumptions C58_symmetric.
Example C58_symmetric_case : 1 < 4 /\ 0 < 5 /\ (Nat.even 4 = true -> 0 < 1) /\ (Nat.even 5 = true -> 0 < 0) /\ 2 * (4 / 2) - 1 = 3 /\ 2 * (5 / 2) - 0 = 4.
Proof. repeat split; try lia; discriminate. Qed.

(** With a pencil decomposition the processes that do not hold the plane z=0 keep their Nyquist modes, which the
    serial routine removes on all planes: 2 x 2 x 2 modes on 2 x 2 processes. *)
Theorem C58_pencil_refuted : exists G : nat -> nat -> nat -> C, hermitian3 2 2 G 0 0 1 = C0 /\
  forall mem0 bsz0, (forall r, r < 2 -> 2 <= bsz0 r 0 /\ 2 <= bsz0 r 1) ->
  (forall q r, q < 2 -> r < 2 -> slab 2 2 2 1 r (mem0 (2 * q + r) 0) (fun x y _ => G x y q)) ->
  always_ends C 4 (fun r => (symXYall 2 2 2 1 2 r (Halt C), start1 (mem0 r) (bsz0 r)))
    (fun gf => (forall r, r < 2 -> slab 2 2 2 1 r (mem C (snd (gf r)) 0) (fun x y _ => hermitian3 2 2 G x y 0)) /\
               mem C (snd (gf 2)) 0 0 = RtoC 1).
Proof. exact pencil_ref. Qed.
Print Assumptions C58_pencil_refuted.
