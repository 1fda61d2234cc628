(** Specification vocabulary for C26-C28. *)
From Coq Require Import Reals.
From Verif Require Import CNum ComplexModel.
Local Open Scope R_scope.

(** the Complex stored at address a *)
Definition at_ (m : dmem) (a : nat) : C := mkC (m a) (m (S a)).
(** two Complex objects: the same one, or not overlapping *)
Definition disjoint_or_same (x y : nat) : Prop := x = y \/ (x + 2 <= y)%nat \/ (y + 2 <= x)%nat.
Definition neg_real (z : C) : Prop := im z = 0 /\ re z < 0.
(** z^n by repeated multiplication *)
Fixpoint Cpow (z : C) (n : nat) : C := match n with O => C1 | S k => Cmul z (Cpow z k) end.
