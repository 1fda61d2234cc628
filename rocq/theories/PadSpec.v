(** Specification vocabulary for the padded transforms (independent of the kernels). *)
From Coq Require Import Reals ZArith Arith Lia List Bool.
From Verif Require Import CNum Sums Mem PadModel.
Import ListNotations.

(** DFT of x_0 .. x_{L-1} padded with zeros to length M, at frequency k *)
Definition pdft (M L : nat) (x : nat -> C) (k : nat) : C :=
  Csum L (fun j => Cmul (x j) (expi (2 * PI * INR (j * k) / INR M))).
(** unnormalised inverse DFT of the M values y, at position j *)
Definition ipdft (M : nat) (y : nat -> C) (j : nat) : C :=
  Csum M (fun k => Cmul (y k) (expi (- (2 * PI * INR (j * k) / INR M)))).

(** the words b[S*i+c], i < n, c < C, of a buffer at b *)
Definition word (S C b n a : nat) : Prop := exists i c, i < n /\ c < C /\ a = b + S * i + c.
(** two strided buffers share no word *)
Definition separate (S C b n b' n' : nat) : Prop := forall a, word S C b n a -> word S C b' n' a -> False.
(** the buffer at b holds x: element i of copy c is x i c *)
Definition has (S C b n : nat) (x : nat -> nat -> CNum.C) (m : mem CNum.C) : Prop :=
  forall i c, i < n -> c < C -> m (b + S * i + c) = Val (x i c).
Definition allocated (S C b n : nat) (m : mem CNum.C) : Prop :=
  forall i c, i < n -> c < C -> m (b + S * i + c) <> Unalloc.
(** m' differs from m only in the words satisfying P, and nothing was freed *)
Definition only (P : nat -> Prop) (m m' : mem CNum.C) : Prop :=
  (forall a, ~ P a -> m' a = m a) /\ (forall a, m a <> Unalloc -> m' a <> Unalloc).

(** The words of the work array W that pad(W) sets to zero and that out-of-place transforms
    with data shorter than a row (L < m) rely on. *)
Definition padded (t : pad) (W N : nat) (mm : mem CNum.C) : Prop :=
  ainplace t = false -> gL t < gm t -> gq t <> 1 ->
  forall i c, i < N -> c < gC t -> gL t <= i mod gm t -> mm (W + gS t * i + c) = Val C0.

(** the trace of for(r=r0; r < R; r += incr(r)): the values of r at which the body runs.
    A trace exists iff the loop terminates. *)
Inductive loop_trace (R : nat) (incr : nat -> nat) : nat -> list nat -> Prop :=
| lt_stop r : R <= r -> loop_trace R incr r []
| lt_step r l : r < R -> loop_trace R incr (r + incr r) l -> loop_trace R incr r (r :: l).

(** sum_i y_i exp(-2 pi i j k_i / M) over n outputs with frequencies k_i = freq i *)
Definition partial_inverse (M n : nat) (freq : nat -> nat) (y : nat -> C) (j : nat) : C :=
  Csum n (fun i => Cmul (y i) (expi (- (2 * PI * INR (j * freq i) / INR M)))).
(** sum over a list *)
Definition Clist (l : list nat) (f : nat -> C) : C := fold_right (fun r a => Cadd (f r) a) C0 l.
(** least natural number satisfying P *)
Definition least (P : nat -> Prop) (n : nat) : Prop := P n /\ forall k, P k -> n <= k.
