(** What a distributed Fourier transform must do, stated without the code.  The distribution of an
    array over the processes ([has_rows], [has_cols], [count], [first], [storage]) and the statement
    about all executions ([always_ends]) are those of MpiTrSpec. *)
From Coq Require Import Reals ZArith List Arith Bool.
From Verif Require Import CNum Sums MpiMachine MpiTrSpec.
Import ListNotations.
Local Open Scope nat_scope.

(** sum over i < X, j < Y of G(i,j) exp(2 pi i sg (i kx/X + j ky/Y)) *)
Definition fourier2 (sg : Z) (X Y : nat) (G : nat -> nat -> C) (kx ky : nat) : C :=
  Csum X (fun i => Csum Y (fun j =>
    Cmul (G i j) (expi (2 * PI * (IZR sg * (INR i * INR kx / INR X + INR j * INR ky / INR Y)))))).
Definition fourier3 (sg : Z) (X Y Z : nat) (G : nat -> nat -> nat -> C) (kx ky kz : nat) : C :=
  Csum X (fun i => Csum Y (fun j => Csum Z (fun l =>
    Cmul (G i j l) (expi (2 * PI * (IZR sg * (INR i * INR kx / INR X + INR j * INR ky / INR Y + INR l * INR kz / INR Z))))))).

(** process r holds its rows (its columns) of the X x Y array G, row by row *)
Definition rows2 (X Y P : nat) (G : nat -> nat -> C) (r : nat) (mem : nat -> C) : Prop :=
  forall i j, i < count X P r -> j < Y -> mem (i * Y + j) = G (first X P r + i) j.
Definition cols2 (X Y P : nat) (G : nat -> nat -> C) (r : nat) (mem : nat -> C) : Prop :=
  forall i j, i < X -> j < count Y P r -> mem (i * count Y P r + j) = G i (first Y P r + j).
(** process r holds its slabs X/P x Y x Z (its slabs X x Y/P x Z) of the X x Y x Z array G *)
Definition rows3 (X Y Z P : nat) (G : nat -> nat -> nat -> C) (r : nat) (mem : nat -> C) : Prop :=
  forall i j l, i < count X P r -> j < Y -> l < Z -> mem ((i * Y + j) * Z + l) = G (first X P r + i) j l.
Definition cols3 (X Y Z P : nat) (G : nat -> nat -> nat -> C) (r : nat) (mem : nat -> C) : Prop :=
  forall i j l, i < X -> j < count Y P r -> l < Z -> mem ((i * count Y P r + j) * Z + l) = G i (first Y P r + j) l.
(** words that an array of process r needs: split::n, split3::n *)
Definition words (X Y Z P r : nat) : nat := Nat.max (count X P r * Y) (X * count Y P r) * Z.

(** Histories: what is known about each array: nothing, or an array held by rows ([true]) or by columns.
    A call transforms array cin to array cout: forward ([true]) from rows to columns with the sign sg,
    backward from columns to rows with -sg; a backward call with different arrays may destroy its input. *)
Record tcall := mkT { tfwd : bool; tin : nat; tout : nat }.
Definition know3 : Type := option (bool * (nat -> nat -> nat -> C)).
Definition teffect (four : Z -> (nat -> nat -> nat -> C) -> nat -> nat -> nat -> C) (sg : Z) (x : tcall) (k : nat -> know3) : nat -> know3 :=
  fun b => if b =? tout x then match k (tin x) with
             | Some (_, G) => Some (negb (tfwd x), four (if tfwd x then sg else (- sg)%Z) G)
             | None => None end
           else if (b =? tin x) && negb (tfwd x) then None else k b.
(** the input of every call is known, in the layout that the call expects, and the calls use an
    array in place exactly if the constructor was told so *)
Fixpoint tlegal four (sg : Z) (inplace : bool) (bs : list nat) (l : list tcall) (k : nat -> know3) : Prop :=
  match l with
  | [] => True
  | x :: l => In (tin x) bs /\ In (tout x) bs /\ inplace = (tin x =? tout x) /\
      (exists G, k (tin x) = Some (tfwd x, G)) /\ tlegal four sg inplace bs l (teffect four sg x k)
  end.
Definition teffects four (sg : Z) (l : list tcall) (k : nat -> know3) : nat -> know3 :=
  fold_left (fun k x => teffect four sg x k) l k.
Definition held (X Y Z P : nat) (k : know3) (r : nat) (mem : nat -> C) : Prop :=
  match k with
  | None => True
  | Some (true, G) => rows3 X Y Z P G r mem
  | Some (false, G) => cols3 X Y Z P G r mem
  end.
