(** Model of the thread table (fftw++.h:492-525): keytype, keyless and the std::map built on it. *)
From Coq Require Import Arith List Bool.
Import ListNotations.

(** fftw++.h:507-515 *)
Record keytype := mkkey { k_nx : nat; k_M : nat; k_threads : nat; k_inplace : bool }.

(** a.inplace < b.inplace on bool *)
Definition bool_lt (a b : bool) : bool := negb a && b.

(** keyless::operator(), fftw++.h:517-525 *)
Definition keyless (a b : keytype) : bool :=
  (k_nx a <? k_nx b) || ((k_nx a =? k_nx b) &&
    ((k_M a <? k_M b) || ((k_M a =? k_M b) &&
       ((k_threads a <? k_threads b) || ((k_threads a =? k_threads b) && bool_lt (k_inplace a) (k_inplace b)))))).

(** std::map<keytype,size_t,keyless>.  The search tree is simplified to the sorted sequence of
    its entries; as in the standard, the map compares keys only with keyless. *)
Definition table := list (keytype * nat).

(** map::find: the first entry not less than the key, if the key is not less than it *)
Fixpoint map_find (t : table) (key : keytype) : option nat :=
  match t with
  | [] => None
  | (k, v) :: t => if keyless k key then map_find t key else if keyless key k then None else Some v
  end.
(** map::operator[] followed by an assignment *)
Fixpoint map_set (t : table) (key : keytype) (v : nat) : table :=
  match t with
  | [] => [(key, v)]
  | (k, w) :: t' =>
      if keyless k key then (k, w) :: map_set t' key v
      else if keyless key k then (key, v) :: t
      else (k, v) :: t'
  end.

(** Threadtable::Lookup and Store, fftw++.h:497-504 *)
Definition Lookup (t : table) (key : keytype) : nat := match map_find t key with Some v => v | None => 0 end.
Definition Store (t : table) (key : keytype) (v : nat) : table := map_set t key v.

(** a history of Store calls, oldest first *)
Definition stores (h : list (keytype * nat)) : table := fold_left (fun t kv => Store t (fst kv) (snd kv)) h [].
