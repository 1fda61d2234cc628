(** What a distributed transpose must do, stated without the code.  [V] = bytes. *)
From Coq Require Import Arith Bool List.
From Verif Require Import MpiMachine.
Import ListNotations.
Local Open Scope nat_scope.

(** Block distribution of N indices over P processes: blocks of the rounded-up quotient,
    the last one possibly shorter, the remaining processes empty. *)
Definition blocklen (N P : nat) : nat := (N + P - 1) / P.
Definition first (N P r : nat) : nat := blocklen N P * r.
Definition count (N P r : nat) : nat := Nat.min (blocklen N P) (N - first N P r).

Section Layout.
Variable V : Type.
(** an N x M matrix of elements of S bytes: byte t of element (i,j) *)
Variables (N M S P : nat).
Definition matrix : Type := nat -> nat -> nat -> V.

(** process r stores its rows (all M columns) *)
Definition has_rows (G : matrix) (r : nat) (mem : nat -> V) : Prop :=
  forall i j t, i < count N P r -> j < M -> t < S ->
    mem ((i * M + j) * S + t) = G (first N P r + i) j t.
(** process r stores its columns of all N rows *)
Definition has_cols (G : matrix) (r : nat) (mem : nat -> V) : Prop :=
  forall i j t, i < N -> j < count M P r -> t < S ->
    mem ((i * count M P r + j) * S + t) = G i (first M P r + j) t.
(** bytes an array of process r needs: max(n*M,N*m) elements *)
Definition storage (r : nat) : nat := Nat.max (count N P r * M) (N * count M P r) * S.

(** what is known about an array: nothing, or the matrix it holds distributed by rows
    ([true]) or by columns ([false]) *)
Definition know : Type := option (bool * matrix).
Definition agrees (k : know) (r : nat) (mem : nat -> V) : Prop :=
  match k with
  | None => True
  | Some (true, G) => has_rows G r mem
  | Some (false, G) => has_cols G r mem
  end.
End Layout.

(** Every execution of the [P] processes, whatever the interleaving and whether or not sends
    are buffered, is error free and finite, cannot get stuck before the end, and ends in the
    one final state, which satisfies [Q]. *)
Definition always_ends (V : Type) (P : nat) (g : gst V) (Q : gst V -> Prop) : Prop :=
  exists n gf, done V P gf /\ Q gf /\
    forall eager k g1, steps V eager P k g g1 ->
      k <= n /\ ~ bad V P g1 /\
      steps V false P (n - k) g1 gf /\
      ((forall g2, ~ step V eager P g1 g2) -> g1 = gf).
