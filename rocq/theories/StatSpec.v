(** Specification vocabulary for C24, C25: statistics of a list of samples. *)
From Coq Require Import Reals List Sorted Permutation.
From Verif Require Import StatModel.
Import ListNotations.
Local Open Scope R_scope.

Definition Rsum (l : list R) : R := fold_right Rplus 0 l.
(** arithmetic mean *)
Definition Rmean (l : list R) : R := Rsum l / INR (length l).
(** sum of squared deviations from the mean *)
Definition deviation2 (l : list R) : R := Rsum (map (fun x => (x - Rmean l) ^ 2) l).
Definition is_min (v : R) (l : list R) : Prop := In v l /\ forall x, In x l -> v <= x.
Definition is_max (v : R) (l : list R) : Prop := In v l /\ forall x, In x l -> x <= v.
(** v is the median of l: with l sorted as y_0 <= .. <= y_{n-1},
    v = (y_{floor((n-1)/2)} + y_{floor(n/2)})/2 *)
Definition is_median (v : R) (l : list R) : Prop :=
  exists y, Permutation l y /\ StronglySorted Rle y /\
    v = (nth ((length l - 1) / 2) y 0 + nth (length l / 2) y 0) / 2.
(** the samples added since the last clear() *)
Fixpoint samples (os : list sop) (acc : list R) : list R :=
  match os with [] => acc | Add t :: os => samples os (acc ++ [t]) | Clear :: os => samples os [] end.
(** samples are doubles: at most DBL_MAX in magnitude *)
Definition doubles (os : list sop) : Prop :=
  forall t, In (Add t) os -> - DBL_MAX <= t <= DBL_MAX.
