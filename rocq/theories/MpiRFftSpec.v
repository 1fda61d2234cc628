(** What a distributed real Fourier transform must do, stated without the code.  The distribution of
    the arrays ([count], [first], [storage]) and the statement about all executions ([always_ends]) are
    those of MpiTrSpec, the Fourier sum that of MpiFftSpec.  A memory word is one double. *)
From Coq Require Import Reals ZArith List Arith Bool.
From Verif Require Import CNum Sums MpiMachine MpiTrSpec MpiFftSpec.
Import ListNotations.
Local Open Scope nat_scope.

(** sum over i < X, j < Y of G(i,j) exp(-2 pi i (i kx/X + j ky/Y)) for real G *)
Definition rfourier2 (X Y : nat) (G : nat -> nat -> R) (kx ky : nat) : C :=
  fourier2 (-1) X Y (fun i j => RtoC (G i j)) kx ky.
(** H, given for ky <= Y/2, extended to all ky < Y by H(-kx,-ky) = conj H(kx,ky) *)
Definition full2 (X Y : nat) (H : nat -> nat -> C) (kx ky : nat) : C :=
  if 2 * ky <=? Y then H kx ky else Cconj (H ((X - kx) mod X) (Y - ky)).
(** the symmetry that the columns ky = 0 and ky = Y/2 of the transform of a real array have *)
Definition symmetric2 (X Y : nat) (H : nat -> nat -> C) : Prop :=
  forall kx ky, kx < X -> ky = 0 \/ 2 * ky = Y -> H ((X - kx) mod X) ky = Cconj (H kx ky).
(** the real array sum over kx < X, ky < Y of H(kx,ky) exp(2 pi i (i kx/X + j ky/Y)) *)
Definition rinverse2 (X Y : nat) (H : nat -> nat -> C) (i j : nat) : R :=
  re (fourier2 1 X Y (full2 X Y H) i j).
(** the same sums with the modes in x counted from -X/2: index kx stands for the mode kx - X/2 *)
Definition rfourier2_0 (X Y : nat) (G : nat -> nat -> R) (kx ky : nat) : C :=
  Csum X (fun i => Csum Y (fun j =>
    Cmul (RtoC (G i j)) (expi (- (2 * PI * (INR i * (INR kx - INR (X / 2)) / INR X + INR j * INR ky / INR Y)))))).
Definition rinverse2_0 (X Y : nat) (H : nat -> nat -> C) (i j : nat) : R :=
  re (Csum X (fun kx => Csum Y (fun ky =>
    Cmul (full2 X Y H kx ky) (expi (2 * PI * (INR i * (INR kx - INR (X / 2)) / INR X + INR j * INR ky / INR Y)))))).
(** without the Nyquist modes: mode -X/2 (index 0) in x for even X, mode Y/2 in y for even Y *)
Definition denyquist (X Y : nat) (H : nat -> nat -> C) (kx ky : nat) : C :=
  if (Nat.even X && (kx =? 0)) || (Nat.even Y && (2 * ky =? Y)) then C0 else H kx ky.

(** process r holds its rows of the real X x Y array G, dist doubles apart *)
Definition rrows (X Y P dist : nat) (G : nat -> nat -> R) (r : nat) (mem : nat -> R) : Prop :=
  forall i j, i < count X P r -> j < Y -> mem (i * dist + j) = G (first X P r + i) j.
(** process r holds its columns of the Complex X x (Y/2+1) array H *)
Definition ccols (X Y P : nat) (H : nat -> nat -> C) (r : nat) (mem : nat -> R) : Prop :=
  forall i j, i < X -> j < count (Y / 2 + 1) P r ->
    mem (2 * (i * count (Y / 2 + 1) P r + j)) = re (H i (first (Y / 2 + 1) P r + j)) /\
    mem (2 * (i * count (Y / 2 + 1) P r + j) + 1) = im (H i (first (Y / 2 + 1) P r + j)).
(** distance of the real rows: padded in place, dense out of place *)
Definition rowdist (Y : nat) (inplace : bool) : nat := if inplace then 2 * (Y / 2 + 1) else Y.
(** doubles that an array of process r needs *)
Definition doubles (X Y P r : nat) : nat := 2 * Nat.max (count X P r * (Y / 2 + 1)) (X * count (Y / 2 + 1) P r).

(** Histories: what is known about each array: nothing, a real array held by rows, a Complex array held
    by columns.  A call transforms array i to array o ([r0]: with the shifted origin), divides the real
    array b by X*Y, or removes the Nyquist modes of the Complex array b. *)
Inductive rknow := KNone | KReal (G : nat -> nat -> R) | KCplx (H : nat -> nat -> C).
Inductive rcall := RTrans (fwd r0 : bool) (i o : nat) | RNorm (b : nat) | RDeny (b : nat).
Definition reffect (X Y : nat) (x : rcall) (k : nat -> rknow) : nat -> rknow := fun b =>
  match x with
  | RTrans fwd r0 i o =>
    if b =? o then
      match k i with
      | KReal G => KCplx (if r0 then rfourier2_0 X Y G else rfourier2 X Y G)
      | KCplx H => KReal (if r0 then rinverse2_0 X Y H else rinverse2 X Y H)
      | KNone => KNone
      end
    else if (b =? i) && (negb fwd || r0) then KNone else k b
  | RNorm o => if b =? o then match k o with KReal G => KReal (fun i j => (G i j / INR (X * Y))%R) | _ => KNone end else k b
  | RDeny o => if b =? o then match k o with KCplx H => KCplx (denyquist X Y H) | _ => KNone end else k b
  end.
Definition reffects (X Y : nat) (l : list rcall) (k : nat -> rknow) : nat -> rknow :=
  fold_left (fun k x => reffect X Y x k) l k.
(** No process has an empty share of the columns that starts exactly at the end Y/2+1 *)
Definition no_empty_end (Y P : nat) : Prop :=
  forall r, r < P -> count (Y / 2 + 1) P r = 0 -> first (Y / 2 + 1) P r <> Y / 2 + 1.
(** the input of every call is known, of the kind that the call expects (symmetric for a backward call),
    arrays are used in place exactly if the constructor was told so, the origin is shifted only if X is
    even, and Nyquist modes are removed only without such an empty share or for odd Y *)
Fixpoint rlegal (X Y P : nat) (inplace : bool) (bs : list nat) (l : list rcall) (k : nat -> rknow) : Prop :=
  match l with
  | [] => True
  | x :: l =>
      match x with
      | RTrans fwd r0 i o => In i bs /\ In o bs /\ inplace = (i =? o) /\ (r0 = true -> Nat.even X = true) /\
          match k i with
          | KNone => False
          | KReal _ => fwd = true
          | KCplx H => fwd = false /\ symmetric2 X Y H
          end
      | RNorm b => In b bs /\ exists G, k b = KReal G
      | RDeny b => In b bs /\ (exists H, k b = KCplx H) /\ (Nat.even Y = true -> no_empty_end Y P)
      end /\ rlegal X Y P inplace bs l (reffect X Y x k)
  end.
Definition rheld (X Y P : nat) (inplace : bool) (k : rknow) (r : nat) (mem : nat -> R) : Prop :=
  match k with
  | KNone => True
  | KReal G => rrows X Y P (rowdist Y inplace) G r mem
  | KCplx H => ccols X Y P H r mem
  end.
