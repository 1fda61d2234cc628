(** Vocabulary for the direct convolutions: where arrays are stored, and which data are those of real functions. *)
From Coq Require Import Reals ZArith Arith.
From Verif Require Import CNum Mem WrapSpec.
Notation mem := (Mem.mem C).
Local Open Scope nat_scope.

(** the n values x are at p; n x n' values in rows S words apart; n x n' x n'' values in planes S, rows S' words apart *)
Definition data (p n : nat) (x : nat -> C) (m : mem) : Prop := forall j, j < n -> m (p + j) = Val (x j).
Definition data2 (p S n n' : nat) (x : nat -> nat -> C) (m : mem) : Prop := forall i j, i < n -> j < n' -> m (p + (S * i + j)) = Val (x i j).
Definition data3 (p S S' n n' n'' : nat) (x : nat -> nat -> nat -> C) (m : mem) : Prop := forall i j l, i < n -> j < n' -> l < n'' -> m (p + (S * i + S' * j + l)) = Val (x i j l).
(** the words of these arrays *)
Definition cells2 (p S n n' : nat) (a : addr) : Prop := exists i j, i < n /\ j < n' /\ a = p + (S * i + j).
Definition cells3 (p S S' n n' n'' : nat) (a : addr) : Prop := exists i j l, i < n /\ j < n' /\ l < n'' /\ a = p + (S * i + S' * j + l).
(** stored modes (Nyquist modes excepted) that are those of a real function *)
Definition hermitian_data2 (L H : nat) (x : nat -> nat -> C) : Prop :=
  forall i j, i < L -> j < H -> (2 * Z.abs (wave L i) < Z.of_nat L)%Z -> x i j = her2 L H x (wave L i) (Z.of_nat j).
Definition hermitian_data3 (L L' H : nat) (x : nat -> nat -> nat -> C) : Prop :=
  forall i j l, i < L -> j < L' -> l < H -> (2 * Z.abs (wave L i) < Z.of_nat L)%Z -> (2 * Z.abs (wave L' j) < Z.of_nat L')%Z -> x i j l = her3 L L' H x (wave L i) (wave L' j) (Z.of_nat l).
(** the n words at p and the n' words at q *)
Definition disjoint (p n q n' : nat) : Prop := forall a, p <= a < p + n -> q <= a < q + n' -> False.
