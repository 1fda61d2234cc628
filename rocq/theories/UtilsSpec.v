(** What the size helpers are documented to compute, stated without the code. *)
From Coq Require Import NArith.
Local Open Scope N_scope.

(** x is a power of p *)
Definition power_of (p x : N) : Prop := exists k, x = p ^ k.

(** x has the form 2^a 3^b 5^c 7^d *)
Definition smooth7 (x : N) : Prop :=
  exists a b c d, x = 2 ^ a * 3 ^ b * 5 ^ c * 7 ^ d.

(** x is a power of 2, 3, 5 or 7 *)
Definition pure (x : N) : Prop :=
  power_of 2 x \/ power_of 3 x \/ power_of 5 x \/ power_of 7 x.

(** y is the least element of P that is >= n *)
Definition least_ge (P : N -> Prop) (n y : N) : Prop :=
  P y /\ n <= y /\ forall z, P z -> n <= z -> y <= z.

(** y = ceil(a/b) *)
Definition is_ceil (a b y : N) : Prop := b * y < a + b /\ a <= b * y.
