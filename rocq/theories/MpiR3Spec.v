(** What a distributed real Fourier transform in three dimensions must do, stated without the code. *)
From Coq Require Import Reals ZArith List Arith Bool.
From Verif Require Import CNum Sums MpiMachine MpiTrSpec MpiFftSpec MpiRFftSpec.
Import ListNotations.
Local Open Scope nat_scope.

(** sum over i < X, j < Y, l < Z of G(i,j,l) exp(-2 pi i (i kx/X + j ky/Y + l kz/Z)) for real G *)
Definition rfourier3 (X Y Z : nat) (G : nat -> nat -> nat -> R) (kx ky kz : nat) : C :=
  fourier3 (-1) X Y Z (fun i j l => RtoC (G i j l)) kx ky kz.
(** H, given for kz <= Z/2, extended to all kz < Z by H(-k) = conj H(k) *)
Definition full3r (X Y Z : nat) (H : nat -> nat -> nat -> C) (kx ky kz : nat) : C :=
  if 2 * kz <=? Z then H kx ky kz else Cconj (H ((X - kx) mod X) ((Y - ky) mod Y) (Z - kz)).
(** the symmetry that the planes kz = 0 and kz = Z/2 of the transform of a real array have *)
Definition symmetric3 (X Y Z : nat) (H : nat -> nat -> nat -> C) : Prop :=
  forall kx ky kz, kx < X -> ky < Y -> kz = 0 \/ 2 * kz = Z -> H ((X - kx) mod X) ((Y - ky) mod Y) kz = Cconj (H kx ky kz).
Definition rinverse3 (X Y Z : nat) (H : nat -> nat -> nat -> C) (i j l : nat) : R :=
  re (fourier3 1 X Y Z (full3r X Y Z H) i j l).
(** the same sums with the modes in x and y counted from -X/2 and -Y/2 *)
Definition rfourier3_0 (X Y Z : nat) (G : nat -> nat -> nat -> R) (kx ky kz : nat) : C :=
  Csum X (fun i => Csum Y (fun j => Csum Z (fun l =>
    Cmul (RtoC (G i j l)) (expi (- (2 * PI * (INR i * (INR kx - INR (X / 2)) / INR X + INR j * (INR ky - INR (Y / 2)) / INR Y + INR l * INR kz / INR Z))))))).
Definition rinverse3_0 (X Y Z : nat) (H : nat -> nat -> nat -> C) (i j l : nat) : R :=
  re (Csum X (fun kx => Csum Y (fun ky => Csum Z (fun kz =>
    Cmul (full3r X Y Z H kx ky kz) (expi (2 * PI * (INR i * (INR kx - INR (X / 2)) / INR X + INR j * (INR ky - INR (Y / 2)) / INR Y + INR l * INR kz / INR Z))))))).
(** without the Nyquist modes: modes -X/2 and -Y/2 (index 0) for even X and Y, mode Z/2 in z for even Z *)
Definition denyquist3 (X Y Z : nat) (H : nat -> nat -> nat -> C) (kx ky kz : nat) : C :=
  if (Nat.even X && (kx =? 0)) || (Nat.even Y && (ky =? 0)) || (Nat.even Z && (2 * kz =? Z)) then C0 else H kx ky kz.

(** process r holds its slab of the real X x Y x Z array G, rows dist doubles apart *)
Definition rslab (X Y Z P dist : nat) (G : nat -> nat -> nat -> R) (r : nat) (mem : nat -> R) : Prop :=
  forall i j l, i < count X P r -> j < Y -> l < Z -> mem ((i * Y + j) * dist + l) = G (first X P r + i) j l.
(** process r holds its slab X x Y/P x (Z/2+1) of the Complex array H *)
Definition cslab (X Y Z P : nat) (H : nat -> nat -> nat -> C) (r : nat) (mem : nat -> R) : Prop :=
  forall i j k, i < X -> j < count Y P r -> k < Z / 2 + 1 ->
    let a := (i * count Y P r + j) * (Z / 2 + 1) + k in
    mem (2 * a) = re (H i (first Y P r + j) k) /\ mem (2 * a + 1) = im (H i (first Y P r + j) k).
(** doubles that an array of process r needs *)
Definition doubles3 (X Y Z P r : nat) : nat := 2 * (Nat.max (count X P r * Y) (X * count Y P r) * (Z / 2 + 1)).

(** Histories of calls, as in MpiRFftSpec *)
Inductive rknow3 := KNone3 | KReal3 (G : nat -> nat -> nat -> R) | KCplx3 (H : nat -> nat -> nat -> C).
Definition reffect3 (X Y Z : nat) (x : rcall) (k : nat -> rknow3) : nat -> rknow3 := fun b =>
  match x with
  | RTrans fwd r0 i o =>
    if b =? o then
      match k i with
      | KReal3 G => KCplx3 (if r0 then rfourier3_0 X Y Z G else rfourier3 X Y Z G)
      | KCplx3 H => KReal3 (if r0 then rinverse3_0 X Y Z H else rinverse3 X Y Z H)
      | KNone3 => KNone3
      end
    else if (b =? i) && (negb fwd || r0) then KNone3 else k b
  | RNorm o => if b =? o then match k o with KReal3 G => KReal3 (fun i j l => (G i j l / INR (X * Y * Z))%R) | _ => KNone3 end else k b
  | RDeny o => if b =? o then match k o with KCplx3 H => KCplx3 (denyquist3 X Y Z H) | _ => KNone3 end else k b
  end.
Definition reffects3 (X Y Z : nat) (l : list rcall) (k : nat -> rknow3) : nat -> rknow3 :=
  fold_left (fun k x => reffect3 X Y Z x k) l k.
(** the input of every call is known, of the kind that the call expects (symmetric for a backward call),
    arrays are used in place exactly if the constructor was told so, and the origin is shifted only if X
    and Y are even *)
Fixpoint rlegal3 (X Y Z : nat) (inplace : bool) (bs : list nat) (l : list rcall) (k : nat -> rknow3) : Prop :=
  match l with
  | [] => True
  | x :: l =>
      match x with
      | RTrans fwd r0 i o => In i bs /\ In o bs /\ inplace = (i =? o) /\ (r0 = true -> Nat.even X = true /\ Nat.even Y = true) /\
          match k i with
          | KNone3 => False
          | KReal3 _ => fwd = true
          | KCplx3 H => fwd = false /\ symmetric3 X Y Z H
          end
      | RNorm b => In b bs /\ exists G, k b = KReal3 G
      | RDeny b => In b bs /\ exists H, k b = KCplx3 H
      end /\ rlegal3 X Y Z inplace bs l (reffect3 X Y Z x k)
  end.
Definition rheld3 (X Y Z P : nat) (inplace : bool) (k : rknow3) (r : nat) (mem : nat -> R) : Prop :=
  match k with
  | KNone3 => True
  | KReal3 G => rslab X Y Z P (rowdist Z inplace) G r mem
  | KCplx3 H => cslab X Y Z P H r mem
  end.
