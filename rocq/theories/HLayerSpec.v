(** Specification vocabulary for multidimensional Hermitian convolutions (independent of the algorithm).
    [ocyc2] and the blocks of memory are stated with the vocabulary of LayerSpec and HConvSpec. *)
From Coq Require Import Reals ZArith Arith List Bool.
From Verif Require Import CNum Sums Mem PadModel CenModel HerModel ConvModel ConvSpec HConvModel HConvSpec Team LayerModel LayerSpec HLayerModel Xf.
Import ListNotations.

(** the work memory of one Convolution object on a fftPadHermitian: max(A,B) blocks of outputSize() words,
    B blocks of workSizeV() words, one block of workSizeW() words *)
Definition hroom_blocks (al : nat) (t : pad) (rm : room) : list block :=
  map (fun a => (rF rm a, houtputSize al t)) (seq 0 (max (PadModel.aA t) (PadModel.aB t))) ++
  map (fun b => (rV rm b, hworkSizeV t)) (seq 0 (PadModel.aB t)) ++ [(rW rm, hworkSizeW al t)].
(** the work memory of a Convolution2 object with T threads *)
Definition hwork2 (al : nat) (tx : xf) (ty : pad) (T : nat) (F V : nat -> addr) (w : addr) (rooms : nat -> room) : list block :=
  own_blocks tx F V w ++ flat_map (fun th => hroom_blocks al ty (rooms th)) (seq 0 T).

(** Data of 2D Hermitian arrays: of the values f(i,j) with -c <= i <= c (c the origin in x), |j| < H and
    f(-i,-j) = conj f(i,j), those with j >= 0 are stored, x(i+c,j) for i+c < L; row i+c = L (which exists
    if L=2c, L even) is zero.
    [hermitian0]: the stored values with j=0 satisfy that symmetry. *)
Definition hermitian0 (c L : nat) (x : nat -> nat -> C) : Prop :=
  forall i, i < L -> x i 0 = if (i <=? 2 * c) && (2 * c - i <? L) then Cconj (x (2 * c - i) 0) else C0.
(** the whole array, as values at 0 <= i' <= 2c, 0 <= j' <= 2H-2; origin at (c,H-1) *)
Definition full2 (c L H : nat) (x : nat -> nat -> C) (i j : nat) : C :=
  if H - 1 <=? j then (if i <? L then x i (j - (H - 1)) else C0)
  else if 2 * c - i <? L then Cconj (x (2 * c - i) (H - 1 - j)) else C0.
(** cyclic 2D convolution about an origin: indices equal modulo (M,M') *)
Definition ocyc2 (c M L c' M' L' : nat) (f g : nat -> nat -> C) (i j : nat) : C :=
  Csum L (fun i1 => Csum L (fun i2 => Csum L' (fun j1 => Csum L' (fun j2 =>
    if ((i1 + i2) mod M =? (i + c) mod M) && ((j1 + j2) mod M' =? (j + c') mod M') then Cmul (f i1 j1) (g i2 j2) else C0)))).

(** M points in x are enough to free the convolution from aliases: M > 3c; if L=2c, M >= 3c-1 is enough
    provided the row of the Nyquist mode i=-c is zero (HermitianSymmetrizeX zeroes it) *)
Definition unaliased2 (c L H M : nat) (x : nat -> nat -> C) : Prop :=
  3 * c < M \/ (L <= 2 * c /\ 3 * c <= M + 1 /\ forall j, j < H -> x 0 j = C0).

(** What the transforms passed to Convolution2(fftx,ffty) must satisfy: fftx transforms
    C=ceil(Ly/2)=ffty->inputLength() columns, a single column is not batched (D=1); two inputs, one output;
    the Hermitian transform is explicit or takes its residues in pairs (see C50 for odd n). *)
Record hagree2 (tx : xf) (ty : pad) : Prop := mkhagree2 {
  hag_C : gC tx = hH ty;
  hag_D : gS tx = 1 -> gD tx = 1;
  hag_Ax : aA tx = 2; hag_Bx : aB tx = 1;
  hag_Ay : PadModel.aA ty = 2; hag_By : PadModel.aB ty = 1;
  hag_Cy : PadModel.aC ty = 1;
  hag_n : kq ty = 1 \/ kn ty mod 2 = 0
}.

(** *** three dimensions *)
Definition hroom2_blocks (al : nat) (tx : xf) (ty : pad) (rm : room2) : list block :=
  hwork2 al tx ty (r2T rm) (r2F rm) (r2V rm) (r2W rm) (r2rooms rm).
(** the work memory of a Convolution3 object with T threads *)
Definition hwork3 (al : nat) (tx ty : xf) (tz : pad) (T : nat) (F V : nat -> addr) (w : addr) (rooms : nat -> room2) : list block :=
  own_blocks tx F V w ++ flat_map (fun th => hroom2_blocks al ty tz (rooms th)) (seq 0 T).
(** Data of 3D Hermitian arrays: of the values f(i,j,l) with -c <= i <= c, -c' <= j <= c', |l| < H and
    f(-i,-j,-l) = conj f(i,j,l), those with l >= 0 are stored, x(i+c,j+c',l) for i+c < L, j+c' < L'.
    [hermitian00]: the stored values with l=0 satisfy that symmetry. *)
Definition hermitian00 (c L c' L' : nat) (x : nat -> nat -> nat -> C) : Prop :=
  forall i j, i < L -> j < L' -> x i j 0 =
    if (i <=? 2 * c) && (2 * c - i <? L) && ((j <=? 2 * c') && (2 * c' - j <? L')) then Cconj (x (2 * c - i) (2 * c' - j) 0) else C0.
(** the whole array; origin at (c,c',H-1) *)
Definition full3 (c L c' L' H : nat) (x : nat -> nat -> nat -> C) (i j l : nat) : C :=
  if H - 1 <=? l then (if (i <? L) && (j <? L') then x i j (l - (H - 1)) else C0)
  else if (2 * c - i <? L) && (2 * c' - j <? L') then Cconj (x (2 * c - i) (2 * c' - j) (H - 1 - l)) else C0.
Definition ocyc3 (c M L c' M' L' c'' M'' L'' : nat) (f g : nat -> nat -> nat -> C) (i j l : nat) : C :=
  Csum L (fun i1 => Csum L (fun i2 => Csum L' (fun j1 => Csum L' (fun j2 => Csum L'' (fun l1 => Csum L'' (fun l2 =>
    if ((i1 + i2) mod M =? (i + c) mod M) && ((j1 + j2) mod M' =? (j + c') mod M') && ((l1 + l2) mod M'' =? (l + c'') mod M'')
    then Cmul (f i1 j1 l1) (g i2 j2 l2) else C0)))))).
(** M and M' points in x and y are enough; as in two dimensions *)
Definition unaliased3 (c L M c' L' M' H : nat) (x : nat -> nat -> nat -> C) : Prop :=
  (3 * c < M \/ (L <= 2 * c /\ 3 * c <= M + 1 /\ forall j l, j < L' -> l < H -> x 0 j l = C0)) /\
  (3 * c' < M' \/ (L' <= 2 * c' /\ 3 * c' <= M' + 1 /\ forall i l, i < L -> l < H -> x i 0 l = C0)).
Record hagree3 (tx ty : xf) (tz : pad) : Prop := mkhagree3 {
  hag3_yz : hagree2 ty tz;
  hag3_S : aL ty * gS ty <= gS tx;
  hag3_C : gC tx = if gS ty =? gC ty then aL ty * gS ty else gC ty;
  hag3_D : gS tx = 1 -> gD tx = 1;
  hag3_A : aA tx = 2; hag3_B : aB tx = 1
}.
