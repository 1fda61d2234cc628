(** What the distributed convolution must do, stated without the code. *)
From Coq Require Import Reals ZArith List Arith Bool.
From Verif Require Import CNum Sums PadModel PadSpec MpiTrSpec MpiCModel.
Import ListNotations.
Local Open Scope nat_scope.

(** process r holds, from word off on, its columns of the Lx x Ly array G, row by row *)
Definition columns (Lx Ly P off : nat) (G : nat -> nat -> C) (r : nat) (m : nat -> C) : Prop :=
  forall x j, x < Lx -> j < count Ly P r -> m (off + (x * count Ly P r + j)) = G x (first Ly P r + j).

(** transform the columns of the A inputs, convolve every row, transform back the columns of the B results and
    add up the residue blocks; row k is handled by the process that owns it, with the number of the row
    within the X/P rows of that process as its index *)
Definition pipeline (X P B : nat) (K : kern) (scale : R) (f : nat -> nat -> nat -> C) (b x j : nat) : C :=
  if b <? B then
    Cmul (RtoC scale) (Csum (nblocks K) (fun i => kbwd K i x (fun k =>
      krow K i (k mod blocklen X P) (fun a j => kfwd K i k (fun x => f a x j)) b j)))
  else f b x j.
(** the kernels only use their inputs: the Lx words of a column, the rows of a block, the A rows *)
Definition local_kernels (A Lx Ly : nat) (K : kern) : Prop :=
  (forall i k x x', i < nblocks K -> k < kblock K i -> (forall t, t < Lx -> x t = x' t) -> kfwd K i k x = kfwd K i k x') /\
  (forall i t y y', i < nblocks K -> (forall k, k < kblock K i -> y k = y' k) -> kbwd K i t y = kbwd K i t y') /\
  (forall i k w w' b j, i < nblocks K -> (forall a j, a < A -> j < Ly -> w a j = w' a j) -> krow K i k w b j = krow K i k w' b j).

(** The transforms of a padded transform [t] whose blocks of residues start at rs: word k of the block r is the
    Fourier coefficient [index t r k] of the zero-padded column, and Backward adds up the inverse transform of the
    coefficients of the block (this is what C07 and C08 establish for fftPad); [row q] convolves the rows when
    index[0]=q. *)
Definition padkern (t : pad) (rs : list nat) (row : nat -> (nat -> nat -> C) -> nat -> nat -> C) : kern :=
  mkKern (length rs) (fun i => noutputs t (nth i rs 0))
    (fun i k x => pdft (gM t) (gL t) x (index t (nth i rs 0) k))
    (fun i x y => partial_inverse (gM t) (noutputs t (nth i rs 0)) (index t (nth i rs 0)) y x)
    (fun i k => row (index t (nth i rs 0) k)).

(** linear convolution in two dimensions *)
Definition lin2 (f g : nat -> nat -> C) (x y : nat) : C :=
  Csum (S x) (fun i => Csum (S y) (fun j => Cmul (f i j) (g (x - i) (y - j)))).
