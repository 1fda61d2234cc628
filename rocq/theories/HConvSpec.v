(** Specification vocabulary for Hermitian convolutions (independent of the algorithm).
    Convolutions about an origin, [oconv] and [ocyc], are those of ConvSpec. *)
From Coq Require Import Reals ZArith Arith List Bool.
From Verif Require Import CNum Sums Mem PadModel CenModel HerModel HerSpec ConvSpec HConvModel.

(** The sequence f_{-(H-1)} .. f_{H-1} with f_{-j} = conj f_j, of which f_0 .. f_{H-1} are given,
    as an array of 2H-1 values: its origin is at H-1. *)
Definition hseq (H : nat) (f : nat -> C) (i : nat) : C :=
  if i <? H - 1 then Cconj (f (H - 1 - i)) else f (i - (H - 1)).

(** The memory of one Convolution object (with a fftPadHermitian) and its caller: N=max(A,B) data
    arrays of ceil(L/2) words at g 0 .., N transform buffers of outputSize() words at F 0 .., B
    accumulators of workSizeV() words at V 0 .., a work buffer of workSizeW() words at w; all
    allocated, none overlapping. *)
Record hbuffers (al : nat) (t : pad) (g F V : nat -> addr) (w : addr) (m : mem C) : Prop := {
  hb_gg : forall a b, a < max (aA t) (aB t) -> b < max (aA t) (aB t) -> a <> b -> HerSpec.apart (g a) (hH t) (g b) (hH t);
  hb_FF : forall a b, a < max (aA t) (aB t) -> b < max (aA t) (aB t) -> a <> b ->
            HerSpec.apart (F a) (houtputSize al t) (F b) (houtputSize al t);
  hb_gF : forall a b, a < max (aA t) (aB t) -> b < max (aA t) (aB t) -> HerSpec.apart (g a) (hH t) (F b) (houtputSize al t);
  hb_gV : forall a b, a < max (aA t) (aB t) -> b < aB t -> HerSpec.apart (g a) (hH t) (V b) (hworkSizeV t);
  hb_VV : forall a b, a < aB t -> b < aB t -> a <> b -> HerSpec.apart (V a) (hworkSizeV t) (V b) (hworkSizeV t);
  hb_VF : forall a b, a < aB t -> b < max (aA t) (aB t) -> HerSpec.apart (V a) (hworkSizeV t) (F b) (houtputSize al t);
  hb_gw : forall a, a < max (aA t) (aB t) -> HerSpec.apart (g a) (hH t) w (hworkSizeW al t);
  hb_Fw : forall a, a < max (aA t) (aB t) -> HerSpec.apart (F a) (houtputSize al t) w (hworkSizeW al t);
  hb_Vw : forall a, a < aB t -> HerSpec.apart (V a) (hworkSizeV t) w (hworkSizeW al t);
  hb_ga : forall a, a < max (aA t) (aB t) -> alloc (g a) (hH t) m;
  hb_Fa : forall a, a < max (aA t) (aB t) -> alloc (F a) (houtputSize al t) m;
  hb_Va : forall a, a < aB t -> alloc (V a) (hworkSizeV t) m;
  hb_wa : alloc w (hworkSizeW al t) m
}.
(** a word outside every buffer *)
Definition houtside (al : nat) (t : pad) (g F V : nat -> addr) (w : addr) (a : addr) : Prop :=
  (forall b, b < max (aA t) (aB t) -> ~ span_of (g b) (hH t) a) /\
  (forall b, b < max (aA t) (aB t) -> ~ span_of (F b) (houtputSize al t) a) /\
  (forall b, b < aB t -> ~ span_of (V b) (hworkSizeV t) a) /\
  ~ span_of w (hworkSizeW al t) a.
(** the words of the transform buffers have been initialised *)
Definition initialised (al : nat) (t : pad) (F : nat -> addr) (m : mem C) : Prop :=
  forall a i, a < max (aA t) (aB t) -> i < houtputSize al t -> exists v, m (F a + i) = Val v.
