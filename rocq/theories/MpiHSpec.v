(** Specification of the distributed Hermitian symmetrization, without reference to the code. *)
From Coq Require Import Reals List Arith Bool.
From Verif Require Import CNum MpiTrSpec.
Local Open Scope nat_scope.

(** An X x Y x Z array of Fourier modes; the mode (kx,ky,kz) is stored at (X/2+kx, Y/2+ky, kz), kz >= 0.
    Its Hermitian symmetrization: for even X (Y) the modes at x=0 (y=0) have no counterpart and are removed; on the plane
    kz=0 the modes with ky<0, or ky=0 and kx<0, become the conjugates of those at the opposite mode; the
    mode at the origin becomes real; the others are kept. *)
Definition hermitian3 (X Y : nat) (G : nat -> nat -> nat -> C) (x y k : nat) : C :=
  if Nat.even X && (x =? 0) || Nat.even Y && (y =? 0) then C0
  else if (k =? 0) && ((y <? Y / 2) || (y =? Y / 2) && (x <? X / 2)) then Cconj (G (2 * (X / 2) - x) (2 * (Y / 2) - y) 0)
  else if (k =? 0) && (y =? Y / 2) && (x =? X / 2) then mkC (re (G x y k)) 0
  else G x y k.
(** in two dimensions: the mode (kx,ky) is stored at (X/2+kx,ky), ky >= 0 *)
Definition hermitian2 (X : nat) (G : nat -> nat -> C) (x y : nat) : C :=
  if Nat.even X && (x =? 0) then C0
  else if (y =? 0) && (x <? X / 2) then Cconj (G (2 * (X / 2) - x) 0)
  else if (y =? 0) && (x =? X / 2) then mkC (re (G x y)) 0
  else G x y.

(** process r holds, at m, its columns in y of the first dz planes *)
Definition slab (X Y P dz : nat) (r : nat) (m : nat -> C) (G : nat -> nat -> nat -> C) : Prop :=
  forall x j k, x < X -> j < count Y P r -> k < dz -> m (count Y P r * dz * x + dz * j + k) = G x (first Y P r + j) k.
Definition columns2 (X Y P : nat) (r : nat) (m : nat -> C) (G : nat -> nat -> C) : Prop :=
  forall x j, x < X -> j < count Y P r -> m (count Y P r * x + j) = G x (first Y P r + j).
