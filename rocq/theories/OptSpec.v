(** What a usable parameter set is, stated without the search (convolve.h, the comments on p, q, n
    and the validity rules of the four classes). *)
From Coq Require Import NArith ZArith.
From Verif Require Import UtilsSpec OptModel.
Local Open Scope N_scope.

(** The classes whose transforms pair residues halve an even p; every class halves p = 2. *)
Definition halved (k : kind) (p : N) : Prop :=
  p = 2 \/ ((k = KCentered \/ k = KHermitian) /\ N.Even p).

(** p blocks of m cover the L data; n residues of P*m cover the M modes; q = P*n. *)
Definition geometry (k : kind) (L M m p n q : N) : Prop :=
  1 <= m /\ is_ceil L m p /\
  exists P, (halved k p -> 2 * P = p) /\ (~ halved k p -> P = p) /\
            1 <= P /\ is_ceil M (P * m) n /\ q = P * n.

(** D residues at a time: all of them, or an even number below; more than one only without stride *)
Definition blocks (S n D : N) : Prop := D = 1 \/ (S = 1 /\ (D = n \/ (D < n /\ N.Even D))).

Definition usable (k : kind) (S m p n q D : N) : Prop :=
  match k with
  | KComplex => (q = 1 -> D = 1) /\ blocks S n D
  | KCentered => (q = 1 -> D = 1) /\ blocks S n D /\ (q = 1 \/ N.Even p)
  | KHermitian => (D = 1 /\ q = 1) \/ (D = 2 /\ N.Even p /\ (p = 2 \/ S = 1))
  | KReal => blocks S ((n - 1) / 2) D /\ (N.Odd n \/ N.Even p \/ p <= 2) /\ (N.Odd q \/ N.Even m)
  end.

(** stride actually used *)
Definition stride (k : kind) (C S : N) : N :=
  match k with KHermitian => C | _ => if S =? 0 then C else S end.

(** the caller's choice of in-place: -1 is free, otherwise nonzero means in-place *)
Definition inplace_ok (k : kind) (C : N) (I : Z) (b : bool) : Prop :=
  (I = (-1)%Z -> 1 < C -> k <> KReal -> b = true) /\ (I <> (-1)%Z -> (b = true <-> I <> 0%Z)).

(** The arguments covered: positive data length L <= M <= 2^26, stride at least C, a forced m of at
    most 2^32 (0: free), any forced D (0: free), any forced I (-1: free). *)
Definition in_domain (g : cfg) (am : N) : Prop :=
  1 <= cL g /\ cL g <= cM g /\ cM g <= 2 ^ 26 /\ cC g <= stride (kd g) (cC g) (cS0 g) /\
  am <= 2 ^ 32 /\ appD g < 2 ^ 64 /\ (- 2 ^ 63 <= appI g < 2 ^ 63 - 1)%Z.

(** iterations allowed to every loop: the searches are proved to end within this many *)
Definition enough (g : cfg) (fuel : nat) : Prop := (150 + N.to_nat (cM g) <= fuel)%nat.
