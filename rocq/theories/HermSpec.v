(** Vocabulary for Hermitian symmetrization: centred arrays indexed by signed wave numbers. *)
From Coq Require Import Reals ZArith Arith.
From Verif Require Import CNum Mem FftwModel FftwSpec.

(** the row that stores wave number a when wave number 0 is in row x0 *)
Definition row (x0 : nat) (a : Z) : nat := Z.to_nat (Z.of_nat x0 + a).
(** where mode (a,j) of a 2D array with row stride Sx is, and mode (a,b,k) of a 3D array *)
Definition mode2 (f x0 Sx : nat) (a : Z) (j : nat) : addr := f + 2 * (row x0 a * Sx + j).
Definition mode3 (f x0 y0 Sx Sy : nat) (a b : Z) (k : nat) : addr :=
  f + 2 * (row x0 a * Sx + row y0 b * Sy + k).
(** the two doubles of the Complex at p *)
Definition word_of (p a : addr) : Prop := a = p \/ a = p + 1.
(** |a| < H *)
Definition inside (H : nat) (a : Z) : Prop := (- Z.of_nat H < a < Z.of_nat H)%Z.
