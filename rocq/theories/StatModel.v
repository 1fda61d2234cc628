(** Model of statistics.h (class utils::statistics).  [double] is idealised as R.
    std::priority_queue is modelled by the sorted list of its elements, top first;
    top()/pop() of an empty queue is undefined behaviour ([None]). *)
From Coq Require Import Reals List.
Import ListNotations.
Local Open Scope R_scope.

Definition DBL_MAX : R := (2 - / 2 ^ 52) * 2 ^ 1023.       (* <cfloat> *)

(** push on a queue ordered by [before] (top first) *)
Fixpoint push (before : R -> R -> bool) (t : R) (q : list R) : list R :=
  match q with
  | [] => [t]
  | x :: q' => if before t x then t :: q else x :: push before t q'
  end.
Definition gtb (x y : R) : bool := if Rlt_dec y x then true else false.
Definition ltb (x y : R) : bool := if Rlt_dec x y then true else false.
(** statistics.h:30: std::priority_queue<double> s, largest on top *)
Definition push_s := push gtb.
(** statistics.h:32: std::greater, smallest on top *)
Definition push_g := push ltb.

(** statistics.h:20-32 *)
Record stat := mkstat { sN : nat; sA : R; svarL : R; svarH : R; sm : R; sM : R;
                        sMedian : R; scomputeMedian : bool; ss : list R; sg : list R }.

(** statistics.h:38 *)
Definition clear (st : stat) : stat :=
  mkstat 0 0 0 0 DBL_MAX (- DBL_MAX) (sMedian st) (scomputeMedian st) [] [].
(** statistics.h:35-37; Median is uninitialised, represented by an arbitrary junk value *)
Definition stat_new (junk : R) (computeMedian : bool) : stat :=
  clear (mkstat 0 0 0 0 0 0 junk computeMedian [] []).

(** the heap part of add, statistics.h:57-94; N is the count after ++N *)
Definition add_median (N : nat) (t Median : R) (s g : list R) : option (R * list R * list R) :=
  if Nat.eqb N 1 then Some (t, push_s t s, g)                          (* 58-59 *)
  else if Nat.ltb (length g) (length s) then                            (* 61 *)
    let r := if Rlt_dec t Median then                                   (* 63-66 *)
               match s with [] => None | top :: s' => Some (push_s t s', push_g top g) end
             else Some (s, push_g t g) in                               (* 68 *)
    match r with
    | Some (a :: s', b :: g') => Some (/ 2 * (a + b), a :: s', b :: g') (* 70 *)
    | _ => None
    end
  else if Nat.eqb (length s) (length g) then                            (* 73 *)
    if Rlt_dec t Median then
      match push_s t s with a :: s' => Some (a, a :: s', g) | [] => None end      (* 75-76 *)
    else
      match push_g t g with b :: g' => Some (b, s, b :: g') | [] => None end      (* 78-79 *)
  else
    let r := if Rlt_dec Median t then                                   (* 84-87 *)
               match g with [] => None | top :: g' => Some (push_s top s, push_g t g') end
             else Some (push_s t s, g) in                               (* 89 *)
    match r with
    | Some (a :: s', b :: g') => Some (/ 2 * (a + b), a :: s', b :: g') (* 91 *)
    | _ => None
    end.

(** statistics.h:44-95 *)
Definition add (st : stat) (t : R) : option stat :=
  let N := S (sN st) in
  let diff := t - sA st in
  let A := sA st + diff / INR N in
  let v := diff * (t - A) in
  let varL := if Rlt_dec diff 0 then svarL st + v else svarL st in
  let varH := if Rlt_dec diff 0 then svarH st else svarH st + v in
  let m := if Rlt_dec t (sm st) then t else sm st in
  let M := if Rlt_dec (sM st) t then t else sM st in
  if scomputeMedian st then
    match add_median N t (sMedian st) (ss st) (sg st) with
    | Some (Md, s, g) => Some (mkstat N A varL varH m M Md true s g)
    | None => None
    end
  else Some (mkstat N A varL varH m M (sMedian st) false (ss st) (sg st)).

(** statistics.h:39-43 *)
Definition st_count (st : stat) : R := INR (sN st).
Definition st_mean (st : stat) : R := sA st.
Definition st_max (st : stat) : R := sM st.
Definition st_min (st : stat) : R := sm st.
Definition st_sum (st : stat) : R := INR (sN st) * sA st.
(** statistics.h:97-100 *)
Definition stdevf (st : stat) (var f : R) : R :=
  if Rle_dec (INR (sN st)) f then DBL_MAX else sqrt (var * f / (INR (sN st) - f)).
(** statistics.h:101-112 *)
Definition st_stdev (st : stat) : R := stdevf st (svarL st + svarH st) 1.
Definition st_stdevL (st : stat) : R := stdevf st (svarL st) 2.
Definition st_stdevH (st : stat) : R := stdevf st (svarH st) 2.
Definition st_stderror (st : stat) : R := st_stdev st / sqrt (INR (sN st)).
(** statistics.h:113-119: None is exit(-1) *)
Definition st_median (st : stat) : option R := if scomputeMedian st then Some (sMedian st) else None.

(** what a user does with the object *)
Inductive sop := Add (t : R) | Clear.
Definition step (o : sop) (st : stat) : option stat :=
  match o with Add t => add st t | Clear => Some (clear st) end.
Fixpoint steps (os : list sop) (st : stat) : option stat :=
  match os with [] => Some st | o :: os => match step o st with Some st' => steps os st' | None => None end end.
