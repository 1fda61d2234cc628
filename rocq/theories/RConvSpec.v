(** Specification vocabulary for convolutions of real data (independent of the algorithm). *)
From Coq Require Import Reals ZArith Arith List Bool.
From Verif Require Import CNum Sums Mem PadModel RealModel RealSpec RConvModel.

(** entry j of the linear convolution of two real sequences; ... *)
Definition rlinconv (x y : nat -> R) (j : nat) : R := sum_f_R0 (fun i => x i * y (j - i)%nat)%R j.
(** ... and of the cyclic convolution of period M of sequences of length L: each product x(a) y(b)
    lands at a+b modulo M *)
Definition rcycconv (M L : nat) (x y : nat -> R) (j : nat) : R :=
  sum_f_R0 (fun a => sum_f_R0 (fun b => if (a + b) mod M =? j mod M then (x a * y b)%R else 0%R) (L - 1)) (L - 1).

(** The memory of one Convolution object (with a fftPadReal) and its caller, in doubles: N=max(A,B)
    data arrays of L doubles at g 0 .., N transform buffers of outputSize() Complex words at F 0 .., B
    accumulators of workSizeV() Complex words at V 0 .., a work buffer of workSizeW() Complex words at
    w; all allocated, none overlapping. *)
Record rbuffers (t : pad) (g F V : nat -> nat) (w : nat) (m : mem R) : Prop := {
  rb_gg : forall a b, a < max (aA t) (aB t) -> b < max (aA t) (aB t) -> a <> b -> dapart (g a) (aL t) (g b) (aL t);
  rb_FF : forall a b, a < max (aA t) (aB t) -> b < max (aA t) (aB t) -> a <> b ->
            dapart (F a) (2 * routputSize t) (F b) (2 * routputSize t);
  rb_gF : forall a b, a < max (aA t) (aB t) -> b < max (aA t) (aB t) -> dapart (g a) (aL t) (F b) (2 * routputSize t);
  rb_gV : forall a b, a < max (aA t) (aB t) -> b < aB t -> dapart (g a) (aL t) (V b) (2 * rworkSizeV t);
  rb_VV : forall a b, a < aB t -> b < aB t -> a <> b -> dapart (V a) (2 * rworkSizeV t) (V b) (2 * rworkSizeV t);
  rb_VF : forall a b, a < aB t -> b < max (aA t) (aB t) -> dapart (V a) (2 * rworkSizeV t) (F b) (2 * routputSize t);
  rb_gw : forall a, a < max (aA t) (aB t) -> dapart (g a) (aL t) w (2 * rworkSizeW t);
  rb_Fw : forall a, a < max (aA t) (aB t) -> dapart (F a) (2 * routputSize t) w (2 * rworkSizeW t);
  rb_Vw : forall a, a < aB t -> dapart (V a) (2 * rworkSizeV t) w (2 * rworkSizeW t);
  rb_ga : forall a, a < max (aA t) (aB t) -> dalloc (g a) (aL t) m;
  rb_Fa : forall a, a < max (aA t) (aB t) -> dalloc (F a) (2 * routputSize t) m;
  rb_Va : forall a, a < aB t -> dalloc (V a) (2 * rworkSizeV t) m;
  rb_wa : dalloc w (2 * rworkSizeW t) m
}.
(** a double outside the object's arrays and the array that receives the result *)
Definition routside (t : pad) (g F V : nat -> nat) (w : nat) (a : nat) : Prop :=
  (forall b, b < aB t -> ~ dspan (g b) (aL t) a) /\
  (forall b, b < max (aA t) (aB t) -> ~ dspan (F b) (2 * routputSize t) a) /\
  (forall b, b < aB t -> ~ dspan (V b) (2 * rworkSizeV t) a) /\
  ~ dspan w (2 * rworkSizeW t) a.
(** the object's own arrays *)
Definition rown (t : pad) (F V : nat -> nat) (w : nat) (a : nat) : Prop :=
  (exists b, b < max (aA t) (aB t) /\ dspan (F b) (2 * routputSize t) a) \/
  (exists b, b < aB t /\ dspan (V b) (2 * rworkSizeV t) a) \/
  dspan w (2 * rworkSizeW t) a.
(** Memories that a program using one Convolution object can reach: after the constructor, after any
    call of convolve on arrays that hold data, and after anything the program does without touching the
    object's arrays. *)
Inductive rreach (t : pad) (mult : rmultiplier) (F V : nat -> nat) (w : nat) : mem R -> Prop :=
| rreach_new m m' : dalloc w (2 * rworkSizeW t) m -> exec (rcinit_cmd t w) m (OK m') -> rreach t mult F V w m'
| rreach_call g x m m' : rreach t mult F V w m -> rbuffers t g F V w m ->
    (forall a, a < aA t -> reals (g a) (aL t) (x a) m) ->
    exec (rconvolve_call t mult F V w g) m (OK m') -> rreach t mult F V w m'
| rreach_user m m' : rreach t mult F V w m -> (forall a, rown t F V w a -> m' a = m a) -> rreach t mult F V w m'.
