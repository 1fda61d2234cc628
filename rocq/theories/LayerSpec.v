(** Specification vocabulary for two- and three-dimensional convolutions. *)
From Coq Require Import Reals ZArith Arith List Bool.
From Verif Require Import CNum Sums Mem PadModel PadSpec ConvModel ConvSpec Team LayerModel Xf.
Import ListNotations.

(** a memory block: first word and number of words *)
Definition block : Type := (addr * nat)%type.
(** no two blocks of the list share a word *)
Definition separated (l : list block) : Prop :=
  ForallOrdPairs (fun x y => apart (fst x) (snd x) (fst y) (snd y)) l.
Definition provided (l : list block) (m : mem C) : Prop :=
  forall b n i, In (b, n) l -> i < n -> m (b + i) <> Unalloc.
Definition elsewhere (l : list block) (a : addr) : Prop :=
  forall b n, In (b, n) l -> a < b \/ b + n <= a.

(** the data arrays of a transform t: A blocks of S*L words, starting offset words into f a *)
Definition data_blocks (t : xf) (f : nat -> addr) (offset : nat) : list block :=
  map (fun a => (f a + offset, gS t * gL t)) (seq 0 (aA t)).
(** the work memory of one object: max(A,B) blocks of outputSize() words, B blocks of workSizeV()
    words, one block of workSizeW() words *)
Definition own_blocks (t : xf) (F V : nat -> addr) (w : addr) : list block :=
  map (fun a => (F a, outputSize t)) (seq 0 (max (aA t) (aB t))) ++
  map (fun b => (V b, workSizeV t)) (seq 0 (aB t)) ++ [(w, workSizeW t)].
Definition room_blocks (t : xf) (rm : room) : list block := own_blocks t (rF rm) (rV rm) (rW rm).
(** the work memory of a Convolution2 object with T threads *)
Definition work2 (tx ty : xf) (T : nat) (F V : nat -> addr) (w : addr) (rooms : nat -> room) : list block :=
  own_blocks tx F V w ++ flat_map (fun th => room_blocks ty (rooms th)) (seq 0 T).
Definition room2_blocks (tx ty : xf) (rm : room2) : list block :=
  work2 tx ty (r2T rm) (r2F rm) (r2V rm) (r2W rm) (r2rooms rm).
(** the work memory of a Convolution3 object with T threads *)
Definition work3 (tx ty tz : xf) (T : nat) (F V : nat -> addr) (w : addr) (rooms : nat -> room2) : list block :=
  own_blocks tx F V w ++ flat_map (fun th => room2_blocks ty tz (rooms th)) (seq 0 T).

(** a multiplication routine that consists of loops over array elements (no library calls, no exit;
    an Ext with a false precondition is a dereferenced null pointer, which is undefined behaviour) *)
Fixpoint plain (c : cmd C) : Prop :=
  match c with
  | Skip => True | Seq a b => plain a /\ plain b | Par n f => True | Ext pre _ => forall m, ~ pre m | Exit => False
  end.
Definition plain_mult (mult : multiplier) : Prop := forall P n r off, plain (mult P n r off).

(** A arrays of n x k elements, rows S words apart, at f a + offset *)
Definition holds2 (A n k S : nat) (f : nat -> addr) (offset : nat) (x : nat -> nat -> nat -> C) (m : mem C) : Prop :=
  forall a i j, a < A -> i < n -> j < k -> m (f a + offset + S * i + j) = Val (x a i j).
(** A arrays of n x k x h elements, planes S words apart, rows S' words apart *)
Definition holds3 (A n k h S S' : nat) (f : nat -> addr) (offset : nat) (x : nat -> nat -> nat -> nat -> C) (m : mem C) : Prop :=
  forall a i j l, a < A -> i < n -> j < k -> l < h -> m (f a + offset + S * i + S' * j + l) = Val (x a i j l).

(** the word ad is an element of one of these arrays *)
Definition element2 (A n k S : nat) (f : nat -> addr) (offset : nat) (ad : addr) : Prop :=
  exists a i j, a < A /\ i < n /\ j < k /\ ad = f a + offset + S * i + j.
Definition element3 (A n k h S S' : nat) (f : nat -> addr) (offset : nat) (ad : addr) : Prop :=
  exists a i j l, a < A /\ i < n /\ j < k /\ l < h /\ ad = f a + offset + S * i + S' * j + l.

(** two- and three-dimensional DFTs, zero padded from L to M in each dimension, of data with its
    origin at (c,c') or (c,c',c'') (zero for fftPad), and the unnormalized inverses *)
Definition odft2 (c M L c' M' L' : nat) (x : nat -> nat -> C) (kx ky : nat) : C :=
  Csum L (fun i => Csum L' (fun j => Cmul (x i j)
    (Cmul (expi (2 * PI * ((INR i - INR c) * INR kx) / INR M)) (expi (2 * PI * ((INR j - INR c') * INR ky) / INR M'))))).
Definition oidft2 (c M c' M' : nat) (y : nat -> nat -> C) (i j : nat) : C :=
  Csum M (fun kx => Csum M' (fun ky => Cmul (y kx ky)
    (Cmul (expi (- (2 * PI * ((INR i - INR c) * INR kx) / INR M)))
          (expi (- (2 * PI * ((INR j - INR c') * INR ky) / INR M')))))).
Definition odft3 (c M L c' M' L' c'' M'' L'' : nat) (x : nat -> nat -> nat -> C) (kx ky kz : nat) : C :=
  Csum L (fun i => Csum L' (fun j => Csum L'' (fun l => Cmul (x i j l)
    (Cmul (expi (2 * PI * ((INR i - INR c) * INR kx) / INR M))
      (Cmul (expi (2 * PI * ((INR j - INR c') * INR ky) / INR M'))
            (expi (2 * PI * ((INR l - INR c'') * INR kz) / INR M''))))))).
Definition oidft3 (c M c' M' c'' M'' : nat) (y : nat -> nat -> nat -> C) (i j l : nat) : C :=
  Csum M (fun kx => Csum M' (fun ky => Csum M'' (fun kz => Cmul (y kx ky kz)
    (Cmul (expi (- (2 * PI * ((INR i - INR c) * INR kx) / INR M)))
      (Cmul (expi (- (2 * PI * ((INR j - INR c') * INR ky) / INR M')))
            (expi (- (2 * PI * ((INR l - INR c'') * INR kz) / INR M'')))))))).

(** linear convolutions of two- and three-dimensional arrays *)
Definition linconv2 (f g : nat -> nat -> C) (i j : nat) : C :=
  Csum (S i) (fun i' => Csum (S j) (fun j' => Cmul (f i' j') (g (i - i') (j - j')))).
Definition linconv3 (f g : nat -> nat -> nat -> C) (i j l : nat) : C :=
  Csum (S i) (fun i' => Csum (S j) (fun j' => Csum (S l) (fun l' =>
    Cmul (f i' j' l') (g (i - i') (j - j') (l - l'))))).

(** the same for data with origin (c,c') or (c,c',c''): the sum of the products f(i1,j1) g(i2,j2) with
    (i1-c)+(i2-c) = i-c and (j1-c')+(j2-c') = j-c' *)
Definition oconv2 (c L c' L' : nat) (f g : nat -> nat -> C) (i j : nat) : C :=
  Csum L (fun i1 => Csum L (fun i2 => Csum L' (fun j1 => Csum L' (fun j2 =>
    if (i1 + i2 =? i + c) && (j1 + j2 =? j + c') then Cmul (f i1 j1) (g i2 j2) else C0)))).
Definition oconv3 (c L c' L' c'' L'' : nat) (f g : nat -> nat -> nat -> C) (i j l : nat) : C :=
  Csum L (fun i1 => Csum L (fun i2 => Csum L' (fun j1 => Csum L' (fun j2 => Csum L'' (fun l1 => Csum L'' (fun l2 =>
    if (i1 + i2 =? i + c) && (j1 + j2 =? j + c') && (l1 + l2 =? l + c'')
    then Cmul (f i1 j1 l1) (g i2 j2 l2) else C0)))))).

(** What the transforms passed to Convolution2(fftx,ffty) must satisfy: ffty has unit stride and as many
    inputs and outputs as fftx, fftx transforms C=Ly columns; a single column is not batched (D=1); fewer outputs than
    inputs, and if there are two residue loops the special case of convolve.h:399-401 applies with one
    spare buffer (see C10 for its condition in one dimension). *)
Record agree2 (tx ty : xf) : Prop := mkagree2 {
  ag_S : gS ty = 1;
  ag_C : gC tx = aL ty;
  ag_D : gS tx = 1 -> gD tx = 1;
  ag_A : aA ty = aA tx; ag_B : aB ty = aB tx; ag_BA : aB tx <= aA tx;
  ag_l2x : loop2 tx = true -> aA tx = aB tx + 1;
  ag_l2y : loop2 ty = true -> Nat.divide (aA tx - aB tx) (aB tx)
}.
(** Convolution3(fftx,ffty,fftz): ffty and fftz as above; the strides fit (convolve.h:1572-1582) *)
Record agree3 (tx ty tz : xf) : Prop := mkagree3 {
  ag3_yz : agree2 ty tz;
  ag3_S : aL ty * gS ty <= gS tx;
  ag3_C : gC tx = if gS ty =? gC ty then aL ty * gS ty else gC ty;
  ag3_D : gS tx = 1 -> gD tx = 1;
  ag3_A : aA ty = aA tx; ag3_B : aB ty = aB tx;
  ag3_l2 : loop2 tx = true -> aA tx = aB tx + 1
}.

(** construct the object, then convolve(f,offset) *)
Definition construct_convolve2 (tx ty : xf) (mult : nat -> multiplier) (T : nat) (sch : nat -> nat -> list nat)
    (F V : nat -> addr) (w : addr) (rooms : nat -> room) (f : nat -> addr) (offset : nat) : tc C :=
  TSeq (emb (convolution2_cmd tx ty mult T w rooms))
       (lconvolve (convolution2 tx ty mult T sch F V w rooms) (arr (aA tx) f) offset).
Definition construct_convolve3 (tx ty tz : xf) (mult : nat -> nat -> multiplier) (T : nat) (sch : nat -> nat -> list nat)
    (F V : nat -> addr) (w : addr) (rooms : nat -> room2) (schy : nat -> nat -> nat -> nat -> list nat)
    (f : nat -> addr) (offset : nat) : tc C :=
  TSeq (emb (convolution3_cmd tx ty tz mult T w rooms))
       (lconvolve (convolution3 tx ty tz mult T sch F V w rooms schy) (arr (aA tx) f) offset).

(** construct the object, then for each caller action u of a list: run u, convolve(f,offset) *)
Fixpoint calls (call : tc C) (us : list (mem C -> mem C)) : tc C :=
  match us with
  | [] => tskip
  | u :: us => TSeq (TExt (fun _ => True) (fun m m' => m' = u m)) (TSeq call (calls call us))
  end.
(** u stores data; it changes no word of the object's work memory and frees nothing *)
Definition keeps (work : list block) (u : mem C -> mem C) : Prop :=
  forall m, (forall b n i, In (b, n) work -> i < n -> u m (b + i) = m (b + i)) /\ (forall a, m a <> Unalloc -> u m a <> Unalloc).
