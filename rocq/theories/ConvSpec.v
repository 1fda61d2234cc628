(** Specification vocabulary for the convolution properties: what the caller supplies and
    what a convolution, correlation or round trip is.  Independent of the algorithm. *)
From Coq Require Import Reals ZArith Arith List Bool.
From Verif Require Import CNum Sums Mem Xf ConvModel.
Import ListNotations.

(** [f 0 .. f (L-1)] * [g 0 .. g (L-1)], entry j < L of the linear (not cyclic) convolution *)
Definition linconv (f g : nat -> C) (j : nat) : C := Csum (S j) (fun i => Cmul (f i) (g (j - i))).
(** entry j < L of the linear correlation: sum over i with i, i+j < L of f(i+j) conj(g(i)) *)
Definition lincorr (L : nat) (f g : nat -> C) (j : nat) : C :=
  Csum (L - j) (fun i => Cmul (f (j + i)) (Cconj (g i))).

(** entry j of the cyclic convolution of period M (each product lands at a+b modulo M) *)
Definition cycconv (M L : nat) (f g : nat -> C) (j : nat) : C :=
  Csum L (fun a => Csum L (fun b => if (a + b) mod M =? j mod M then Cmul (f a) (g b) else C0)).

(** The same with the origin of all the data (inputs and outputs) at index c: entry j is the sum of
    f(i) g(k) over the i,k < L with (i-c)+(k-c) = j-c, ... *)
Definition oconv (c L : nat) (f g : nat -> C) (j : nat) : C :=
  Csum L (fun i => Csum L (fun k => if i + k =? j + c then Cmul (f i) (g k) else C0)).
(** ... the sum of f(i) conj(g(k)) over the i,k < L with (i-c)-(k-c) = j-c, ... *)
Definition ocorr (c L : nat) (f g : nat -> C) (j : nat) : C :=
  Csum L (fun i => Csum L (fun k => if i + c =? j + k then Cmul (f i) (Cconj (g k)) else C0)).
(** ... or that of the i,k < L with (i-c)+(k-c) = j-c modulo M. *)
Definition ocyc (c M L : nat) (f g : nat -> C) (j : nat) : C :=
  Csum L (fun i => Csum L (fun k => if (i + k) mod M =? (j + c) mod M then Cmul (f i) (g k) else C0)).
(** M points are enough for the convolution of L values about the origin c to be free of aliases *)
Definition enough (c L M : nat) : Prop := 2 * L <= M + 1 + c /\ L + c <= M.

(** the transform of L values padded to length M, about the origin c, at frequency k,
    and the unnormalized inverse *)
Definition odft (c M L : nat) (x : nat -> C) (k : nat) : C :=
  Csum L (fun j => Cmul (x j) (expi (2 * PI * ((INR j - INR c) * INR k) / INR M))).
Definition oidft (c M : nat) (y : nat -> C) (j : nat) : C :=
  Csum M (fun k => Cmul (y k) (expi (- (2 * PI * ((INR j - INR c) * INR k) / INR M)))).

(** two memory blocks share no word *)
Definition apart (a n b k : nat) : Prop := n = 0 \/ k = 0 \/ a + n <= b \/ b + k <= a.

(** The memory of one Convolution object and its caller: N=max(A,B) data arrays of L words at
    g 0 .., N transform buffers of outputSize() words at F 0 .., B accumulators of
    workSizeV() words at V 0 .., and a work buffer of workSizeW() words at w (the sizes the
    documentation asks of a caller who supplies these arrays, convolve.h:983-989; zero
    means that the array need not exist); all allocated, none overlapping. *)
Record buffers (t : xf) (g F V : nat -> addr) (w : addr) (m : mem C) : Prop := {
  b_gg : forall a b, a < max (aA t) (aB t) -> b < max (aA t) (aB t) -> a <> b -> apart (g a) (aL t) (g b) (aL t);
  b_FF : forall a b, a < max (aA t) (aB t) -> b < max (aA t) (aB t) -> a <> b ->
           apart (F a) (outputSize t) (F b) (outputSize t);
  b_VV : forall a b, a < aB t -> b < aB t -> a <> b -> apart (V a) (workSizeV t) (V b) (workSizeV t);
  b_gF : forall a b, a < max (aA t) (aB t) -> b < max (aA t) (aB t) -> apart (g a) (aL t) (F b) (outputSize t);
  b_gV : forall a b, a < max (aA t) (aB t) -> b < aB t -> apart (g a) (aL t) (V b) (workSizeV t);
  b_VF : forall a b, a < aB t -> b < max (aA t) (aB t) -> apart (V a) (workSizeV t) (F b) (outputSize t);
  b_gw : forall a, a < max (aA t) (aB t) -> apart (g a) (aL t) w (workSizeW t);
  b_Fw : forall a, a < max (aA t) (aB t) -> apart (F a) (outputSize t) w (workSizeW t);
  b_Vw : forall a, a < aB t -> apart (V a) (workSizeV t) w (workSizeW t);
  b_ga : forall a i, a < max (aA t) (aB t) -> i < aL t -> m (g a + i) <> Unalloc;
  b_Fa : forall a i, a < max (aA t) (aB t) -> i < outputSize t -> m (F a + i) <> Unalloc;
  b_Va : forall a i, a < aB t -> i < workSizeV t -> m (V a + i) <> Unalloc;
  b_wa : forall i, i < workSizeW t -> m (w + i) <> Unalloc
}.

(** a word outside every buffer of the object and its caller *)
Definition outside (t : xf) (g F V : nat -> addr) (w : addr) (a : addr) : Prop :=
  (forall b, b < max (aA t) (aB t) -> a < g b \/ g b + aL t <= a) /\
  (forall b, b < max (aA t) (aB t) -> a < F b \/ F b + outputSize t <= a) /\
  (forall b, b < aB t -> a < V b \/ V b + workSizeV t <= a) /\
  (a < w \/ w + workSizeW t <= a).

(** the A inputs x 0 .. x (A-1) are in the data arrays *)
Definition holds (N L : nat) (g : nat -> addr) (x : nat -> nat -> C) (m : mem C) : Prop :=
  forall a i, a < N -> i < L -> m (g a + i) = Val (x a i).

(** What is required of a multiplication routine on max(A,B) arrays: given separate arrays
    holding the A inputs x 0 .. x (A-1) in their first n words, it stores in word i of output b
    the value phi r (offset+i) b (x_0[i], .., x_{A-1}[i]) and writes nowhere else. *)
Definition pointwise (A B : nat) (mult : multiplier) (phi : nat -> nat -> nat -> (nat -> C) -> C) : Prop :=
  forall (h : nat -> addr) (n r offset : nat) (x : nat -> nat -> C) (m0 : mem C),
  (forall a b, a < max A B -> b < max A B -> a <> b -> apart (h a) n (h b) n) ->
  holds A n h x m0 ->
  (forall a i, a < max A B -> i < n -> m0 (h a + i) <> Unalloc) ->
  WP (mult (arr (max A B) h) n r offset) m0 (fun m' =>
    holds B n h (fun b i => phi r (offset + i) b (fun a => x a i)) m' /\
    (forall a, (forall b, b < max A B -> a < h b \/ h b + n <= a) -> m' a = m0 a) /\
    (forall a, m0 a <> Unalloc -> m' a <> Unalloc)).
(** phi depends only on the A inputs *)
Definition of_inputs {T} (A : nat) (phi : (nat -> C) -> T) : Prop :=
  forall v v', (forall a, a < A -> v a = v' a) -> phi v = phi v'.

(** the object that the constructor builds (own work memory) *)
Definition object (t : xf) (mult : multiplier) (F V : nat -> addr) (w : addr) : conv :=
  cinit t mult (arr (max (aA t) (aB t)) F) (arr (aB t) V) false w.
(** construct it, then convolve(g) *)
Definition construct_convolve (t : xf) (mult : multiplier) (F V : nat -> addr) (w : addr) (g : nat -> addr) : cmd C :=
  let obj := object t mult F V w in
  Seq (cinit_cmd obj) (convolve obj (arr (max (aA t) (aB t)) g)).
(** construct it, then for each caller action u of a list: run u, convolve(g) *)
Fixpoint usage (t : xf) (obj : conv) (g : nat -> addr) (us : list (mem C -> mem C)) : cmd C :=
  match us with
  | [] => Skip
  | u :: us => Seq (Ext (fun _ => True) (fun m m' => m' = u m))
                   (Seq (convolve obj (arr (max (aA t) (aB t)) g)) (usage t obj g us))
  end.
Definition construct_usage t mult F V w g us : cmd C :=
  let obj := object t mult F V w in Seq (cinit_cmd obj) (usage t obj g us).
(** the caller action u stores the inputs x; it may change any word except those of the
    object's work array w, and frees nothing *)
Definition stores (t : xf) (g F V : nat -> addr) (w : addr) (u : mem C -> mem C) (x : nat -> nat -> C) : Prop :=
  forall m, buffers t g F V w m ->
    holds (aA t) (aL t) g x (u m) /\ (forall a, w <= a < w + workSizeW t -> u m a = m a) /\
    (forall a, m a <> Unalloc -> u m a <> Unalloc).
