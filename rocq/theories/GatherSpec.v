(** What gathering a distributed array must do, stated without the code. *)
From Coq Require Import Arith List.
From Verif Require Import MpiMachine MpiTrSpec GatherModel.
Local Open Scope nat_scope.

(** an X x Y x Z array of elements of type D *)
Definition array3 (D : Type) : Type := nat -> nat -> nat -> D.

(** [m] stores, in row-major order, the box [x0,x0+x) x [y0,y0+y) x [z0,z0+z) of G *)
Definition stores_box {D : Type} (G : array3 D) (x0 x y0 y z0 z : nat) (m : nat -> cell D) : Prop :=
  forall i j k, i < x -> j < y -> k < z -> m ((i * y + j) * z + k) = Dat (G (x0 + i) (y0 + j) (z0 + k)).

(** The processes r < P run [program r]; process r owns a box of G, stored in its buffer 0
    (part); buffer 1 of process 0 (whole) has room for the array; buffers 2 and 3 are unused.
    Then every execution ends, without deadlock or error, with the whole array on process 0,
    everything else as before and no memory left allocated. *)
Definition gathers (D : Type) (P : nat) (program : nat -> prog (cell D) -> prog (cell D))
    (G : array3 D) (X Y Z : nat) (x0 x y0 y z0 z : nat -> nat) : Prop :=
  forall (mem0 : nat -> nat -> nat -> cell D) (bsz0 : nat -> nat -> nat),
  (forall r, r < P -> stores_box G (x0 r) (x r) (y0 r) (y r) (z0 r) (z r) (mem0 r 0) /\
     x r * y r * z r <= bsz0 r 0 /\ bsz0 r 2 = 0 /\ bsz0 r 3 = 0) ->
  X * Y * Z <= bsz0 0 1 ->
  always_ends (cell D) P (fun r => (program r (Halt (cell D)), before D (mem0 r) (bsz0 r)))
    (fun gf =>
      stores_box G 0 X 0 Y 0 Z (mem (cell D) (snd (gf 0)) 1) /\
      (forall o, X * Y * Z <= o -> mem (cell D) (snd (gf 0)) 1 o = mem0 0 1 o) /\
      (forall r b o, r < P -> b <> 2 -> b <> 3 -> (r = 0 -> b <> 1) -> mem (cell D) (snd (gf r)) b o = mem0 r b o) /\
      (forall r b, r < P -> bsz (cell D) (snd (gf r)) b = bsz0 r b)).
