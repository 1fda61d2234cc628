(** Specification vocabulary for the wrappers (independent of the algorithm).
    The Hermitian array that stored data determine, as a function on integer wave vectors, and the
    convolution of two such arrays. *)
From Coq Require Import Reals ZArith Arith List Bool.
From Verif Require Import CNum Sums.
Import ListNotations.
Local Open Scope Z_scope.

(** the sum of f i over |i| < K *)
Definition zsum (K : nat) (f : Z -> C) : C := Csum (2 * K - 1) (fun a => f (Z.of_nat a - (Z.of_nat K - 1))).

(** One dimension: x 0 .. x (H-1) stored; f(i)=x i for i > 0, f(0) = Re x 0, f(-i) = conj f(i), zero for |i| >= H *)
Definition her1 (H : nat) (x : nat -> C) (i : Z) : C :=
  if Z.abs i <? Z.of_nat H then
    if 0 <? i then x (Z.to_nat i) else if i =? 0 then RtoC (re (x 0%nat)) else Cconj (x (Z.to_nat (- i)))
  else C0.
Definition zconv1 (H : nat) (f g : Z -> C) (i : Z) : C := zsum H (fun i1 => Cmul (f i1) (g (i - i1))).

(** Two dimensions: x i j stored for 0 <= i < L, 0 <= j < H, the wave vector (0,0) at i=L/2, j=0.  The values with
    j > 0, or j=0 and i > 0, are those stored; f(0,0) is the real part of the stored value; f(-i,-j) = conj f(i,j);
    zero if 2|i| >= L (in particular at the Nyquist mode i=-L/2 of an even L) or |j| >= H. *)
Definition her2 (L H : nat) (x : nat -> nat -> C) (i j : Z) : C :=
  let c := Z.of_nat (L / 2) in
  if (2 * Z.abs i <? Z.of_nat L) && (Z.abs j <? Z.of_nat H) then
    if (0 <? j) || ((j =? 0) && (0 <? i)) then x (Z.to_nat (c + i)) (Z.to_nat j)
    else if (j =? 0) && (i =? 0) then RtoC (re (x (Z.to_nat c) 0%nat))
    else Cconj (x (Z.to_nat (c - i)) (Z.to_nat (- j)))
  else C0.
(** K: the number of wave numbers 0 <= i < L/2 *)
Definition zconv2 (L H : nat) (f g : Z -> Z -> C) (i j : Z) : C :=
  zsum ((L + 1) / 2) (fun i1 => zsum H (fun j1 => Cmul (f i1 j1) (g (i - i1) (j - j1)))).

(** Three dimensions: x i j l stored for 0 <= i < L, 0 <= j < L', 0 <= l < H, the origin at i=L/2, j=L'/2, l=0. *)
Definition her3 (L L' H : nat) (x : nat -> nat -> nat -> C) (i j l : Z) : C :=
  let c := Z.of_nat (L / 2) in let c' := Z.of_nat (L' / 2) in
  if (2 * Z.abs i <? Z.of_nat L) && (2 * Z.abs j <? Z.of_nat L') && (Z.abs l <? Z.of_nat H) then
    if (0 <? l) || ((l =? 0) && ((0 <? j) || ((j =? 0) && (0 <? i)))) then x (Z.to_nat (c + i)) (Z.to_nat (c' + j)) (Z.to_nat l)
    else if (l =? 0) && (j =? 0) && (i =? 0) then RtoC (re (x (Z.to_nat c) (Z.to_nat c') 0%nat))
    else Cconj (x (Z.to_nat (c - i)) (Z.to_nat (c' - j)) (Z.to_nat (- l)))
  else C0.
Definition zconv3 (L L' H : nat) (f g : Z -> Z -> Z -> C) (i j l : Z) : C :=
  zsum ((L + 1) / 2) (fun i1 => zsum ((L' + 1) / 2) (fun j1 => zsum H (fun l1 =>
    Cmul (f i1 j1 l1) (g (i - i1) (j - j1) (l - l1))))).

(** the two arrays of shape (n0), (n0,n1), (n0,n1,n2) hold the data x 0 and x 1 *)
Definition wave (n : nat) (i : nat) : Z := Z.of_nat i - Z.of_nat (n / 2).
