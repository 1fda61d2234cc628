(** Specification vocabulary for Array.h / align.h. *)
From Coq Require Import Arith ZArith List Bool.
Import ListNotations.
From Verif Require Import ArrayModel.

(** dims: extents; offs: lowest index in each direction; idx: subscripts *)
Fixpoint in_box (dims offs idx : list Z) : Prop :=
  match dims, offs, idx with
  | n :: dims, o :: offs, i :: idx => (o <= i < o + n)%Z /\ in_box dims offs idx
  | [], [], [] => True
  | _, _, _ => False
  end.
Fixpoint volume (dims : list Z) : Z := match dims with [] => 1%Z | n :: d => (n * volume d)%Z end.
(** row-major position *)
Fixpoint position (dims offs idx : list Z) : Z :=
  match dims, offs, idx with
  | _ :: dims, o :: offs, i :: idx => ((i - o) * volume dims + position dims offs idx)%Z
  | _, _, _ => 0%Z
  end.
(** subscripting gives the row-major element for subscripts in the box, in every build; in a
    checking build anything else exits *)
Definition indexes (dims offs idx : list Z) (v : Z) (checked unchecked : acc) : Prop :=
  (in_box dims offs idx -> checked = At (v + position dims offs idx) /\ unchecked = At (v + position dims offs idx)) /\
  (~ in_box dims offs idx -> checked = Exited).

(** a pointer into storage that is live *)
Definition live_range (s : ast) (p : ptr) (n : nat) : Prop :=
  match p with
  | Some (b, off) => exists k l, s_blk s b = Some (Live k l) /\ off + n <= l
  | None => False
  end.
Definition owns (s : ast) (o b : nat) : Prop :=
  exists a, s_obj s o = Some a /\ a_alloc a = true /\ a_v a = Some (b, 0).
(** storage allocated by the library so far, when the caller had n0 blocks of its own *)
Definition allocated_block (n0 : nat) (s : ast) (b : nat) : Prop := n0 <= b < s_next s.

(** Calls that keep to the ownership discipline: an array that owns storage is not pointed
    elsewhere (Set, Dimension(n,v), Dimension(A), swaparray, shifts), resized in place
    (Dimension(n), Allocate), frozen or held; Deallocate, Reallocate, assignment, copies, views and
    destruction are free.  Aligned arrays are not empty. *)
Definition not_owner (s : ast) (o : nat) : Prop := forall a, s_obj s (S o) = Some a -> a_alloc a = false.
Definition nonempty_if (al : bool) (n : nat) : Prop := al = true -> 0 < n.
Definition disciplined (op : aop) (s : ast) : Prop :=
  match op with
  | NewN o n al => nonempty_if al n
  | OAllocate o n al => not_owner s o /\ nonempty_if al n
  | OReallocate o n al => nonempty_if al n
  | ODimension o _ | ODimensionV o _ _ | ODimensionA o _ | OSet o _ | OFreeze o | OHold o => not_owner s o
  | OSwap a b => not_owner s a /\ not_owner s b
  | OLeft a b c | ORight a b c => not_owner s a /\ not_owner s b /\ not_owner s c
  | _ => True
  end.
Fixpoint disciplined_run (md : mode) (h : list aop) (s : ast) : Prop :=
  match h with
  | [] => True
  | op :: h => disciplined op s /\ forall s', astep md op s = Ok s' -> disciplined_run md h s'
  end.
