(** Specification vocabulary for the centered padded transforms (independent of the kernels):
    element L/2 of the data is the origin. *)
From Coq Require Import Reals ZArith Arith List.
From Verif Require Import CNum Sums.

(** DFT at frequency k of x_0 .. x_{L-1}, where x_j sits at position j - floor(L/2), padded with
    zeros to length M *)
Definition cpdft (M L : nat) (x : nat -> C) (k : nat) : C :=
  Csum L (fun j => Cmul (x j) (expi (2 * PI * ((INR j - INR (L / 2)) * INR k) / INR M))).
(** the part of the unnormalised inverse, at position j - floor(L/2), contributed by n values
    y_i of frequencies freq i *)
Definition cpartial_inverse (M L n : nat) (freq : nat -> nat) (y : nat -> C) (j : nat) : C :=
  Csum n (fun i => Cmul (y i) (expi (- (2 * PI * ((INR j - INR (L / 2)) * INR (freq i)) / INR M)))).
(** the whole unnormalised inverse *)
Definition cipdft (M L : nat) (y : nat -> C) (j : nat) : C :=
  cpartial_inverse M L M (fun k => k) y j.
