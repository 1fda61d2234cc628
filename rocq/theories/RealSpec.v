(** Specification vocabulary for the transforms of real data (independent of the kernels).
    Memory has one word per double. *)
From Coq Require Import Reals ZArith Arith List Bool.
From Verif Require Import CNum Sums Mem PadModel PadSpec.
Import ListNotations.

(** the DFT, at frequency k, of the real numbers x_0 .. x_{L-1} padded with zeros to length M, is
    [pdft M L (fun j => RtoC (x j)) k] (PadSpec) *)
Definition rdft (M L : nat) (x : nat -> R) (k : nat) : C := pdft M L (fun j => RtoC (x j)) k.

(** Which frequency is stored in output i of pass r, for subtransforms of length m, padded length
    M=m*q: pass 0 holds the frequencies 0, -q, -2q, ... (mod M), up to m/2 of them; the pass with
    2r=q holds r, r+2q, r+4q, ...; any other pass holds rows of m outputs, row d being the
    frequencies r+d, r+d+q, r+d+2q, ...
    The frequency M-k is never stored with k, unless they are equal: its value is the conjugate. *)
Definition rfreq (M q m r i : nat) : nat :=
  if r =? 0 then (M - q * i) mod M
  else if 2 * r =? q then r + 2 * q * i
  else q * (i mod m) + r + i / m.
(** a stored value stands for itself and for its conjugate at frequency M-k *)
Definition rweight (M k : nat) : R := if (2 * k) mod M =? 0 then 1%R else 2%R.
Definition mirror (M k : nat) : list nat := if (2 * k) mod M =? 0 then [k] else [k; M - k].

(** contribution of n stored values y_i of frequencies freq i to the unnormalised inverse DFT at
    position j *)
Definition rpartial_inverse (M n : nat) (freq : nat -> nat) (y : nat -> C) (j : nat) : R :=
  re (Csum n (fun i => Cmul (RtoC (rweight M (freq i)))
                         (Cmul (y i) (expi (- (2 * PI * INR (j * freq i) / INR M)))))).

Definition Rlist (l : list nat) (f : nat -> R) : R := fold_right (fun r a => (f r + a)%R) 0%R l.

(** n doubles from base *)
Definition dspan (base n a : nat) : Prop := base <= a < base + n.
Definition dapart (a n b k : nat) : Prop := forall x, dspan a n x -> dspan b k x -> False.
Definition dalloc (base n : nat) (m : mem R) : Prop := forall a, dspan base n a -> m a <> Unalloc.
(** n real numbers; n complex numbers (real part, imaginary part) *)
Definition reals (base n : nat) (x : nat -> R) (m : mem R) : Prop :=
  forall k, k < n -> m (base + k) = Val (x k).
Definition complexes (base n : nat) (y : nat -> C) (m : mem R) : Prop :=
  forall i, i < n -> m (base + 2 * i) = Val (re (y i)) /\ m (base + 2 * i + 1) = Val (im (y i)).
(** m' differs from m only in the doubles satisfying P, and nothing was freed *)
Definition ronly (P : nat -> Prop) (m m' : mem R) : Prop :=
  (forall a, ~ P a -> m' a = m a) /\ (forall a, m a <> Unalloc -> m' a <> Unalloc).
(** the doubles of the work array that pad(W) sets to zero and that out-of-place transforms rely on:
    blocks of w complex numbers, all but the first L of each zero *)
Definition zero_tails (base w count L : nat) (m : mem R) : Prop :=
  forall d s, d < count -> L <= s < w -> m (base + 2 * (w * d + s)) = Val 0%R /\ m (base + 2 * (w * d + s) + 1) = Val 0%R.

(** what pad(W) establishes: with one subtransform (p=1) and out of place, the tails of the D blocks of
    m complex numbers (m/2 if q=2) are zero *)
Definition padw (t : pad) : nat := if gq t =? 2 then am t / 2 else am t.
Definition rpadded (t : pad) (W : nat) (mm : mem R) : Prop :=
  gp t = 1 -> ainplace t = false -> gq t <> 1 -> zero_tails W (padw t) (aD t) (aL t) mm.
