(** Specification vocabulary for the Hermitian transforms (independent of the kernels). *)
From Coq Require Import Reals ZArith Arith List Bool.
From Verif Require Import CNum Sums Mem.

(** DFT at frequency k of the sequence f_{-(H-1)} .. f_{H-1} with f_{-j} = conj f_j, of which
    f_0 .. f_{H-1} are given, padded with zeros to length M *)
Definition hdft (M H : nat) (f : nat -> C) (k : nat) : C :=
  Cadd (f 0) (Csum (H - 1) (fun i =>
    Cadd (Cmul (f (i + 1)) (expi (2 * PI * (INR (i + 1) * INR k) / INR M)))
         (Cmul (Cconj (f (i + 1))) (expi (- (2 * PI * (INR (i + 1) * INR k) / INR M)))))).
(** the part of the unnormalised inverse DFT, at position j, contributed by the n real values d_i of
    frequencies freq i *)
Definition hpartial_inverse (M n : nat) (freq : nat -> nat) (d : nat -> R) (j : nat) : C :=
  Csum n (fun i => Cmul (RtoC (d i)) (expi (- (2 * PI * (INR j * INR (freq i)) / INR M)))).

(** n words from base *)
Definition span_of (base n : nat) (a : nat) : Prop := base <= a < base + n.
Definition apart (a n b k : nat) : Prop := forall x, span_of a n x -> span_of b k x -> False.
Definition alloc (base n : nat) (m : mem C) : Prop := forall a, span_of base n a -> m a <> Unalloc.
(** C interleaved complex sequences of length N *)
Definition hasC (CC base N : nat) (x : nat -> nat -> C) (m : mem C) : Prop :=
  forall j c, j < N -> c < CC -> m (base + CC * j + c) = Val (x j c).
(** double number i of an array of doubles that starts at word base (two doubles in a word) *)
Definition dbl (m : mem C) (base i : nat) (v : R) : Prop :=
  exists w, m (base + i / 2) = Val w /\ (if Nat.even i then re w else im w) = v.
(** C interleaved real sequences of length N *)
Definition hasR (CC base N : nat) (d : nat -> nat -> R) (m : mem C) : Prop :=
  forall j c, j < N -> c < CC -> dbl m base (CC * j + c) (d j c).
