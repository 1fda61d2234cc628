(** Model of the class Convolution2 (convolve.h:1240-1507) on Hermitian data: fftx is a complex
    transform (fftPadCentered in practice, fftPad accepted), ffty a fftPadHermitian with C=1.  The code
    around the row operation is [layer] of LayerModel; each row of the x transform holds
    ffty->inputLength()=ceil(Ly/2) complex words and is convolved by a Convolution object on ffty
    (HConvModel). *)
From Coq Require Import Reals ZArith Arith List Bool.
From Verif Require Import CNum Sums Mem PadModel CenModel HerModel ConvModel HConvModel Team LayerModel Xf.
Import ListNotations.

(** convolve.cc:7736-7743 *)
Definition hconvolveRawAt (al : nat) (t : pad) (c : hconv) (f : parr) (offset : nat) : cmd C :=
  hconvolveRaw al t c (fun a => if a <? PadModel.aA t then option_map (fun x => x + offset) (f a) else None).

Section H2.
Variables (al : nat) (tx : xf) (ty : pad) (mult : multiplier).
(** convolve.h:1285-1287: one Convolution object per thread *)
Definition hobj (rm : room) : hconv :=
  hcinit al ty mult (arr (max (PadModel.aA ty) (PadModel.aB ty)) (rF rm)) (arr (PadModel.aB ty) (rV rm)) (rW rm).
(** convolve.h:1274-1351; normalization()=Mx*My *)
Definition hconvolution2 (T : nat) (sch : nat -> nat -> list nat) (F V : nat -> addr) (w : addr)
    (rooms : nat -> room) : layer :=
  let Fa := arr (max (aA tx) (aB tx)) F in
  mklayer tx 1 0 1 0 (hH ty) T sch
    (fun th k P offset => emb (hconvolveRawAt al ty (hobj (rooms th)) P offset))
    (/ (INR (gM tx) * INR (kM ty)))
    Fa (lay_Fp tx Fa) (arr (aB tx) V) (lay_W tx w) (lay_W0 tx Fa w).
(** the constructor's effect on memory: the Convolution objects have Pad=padNone; (fftx->*Pad)(W) *)
Definition hconvolution2_cmd (w : addr) : cmd C := padOpt tx (lay_W tx w).
(** construct the object, then convolve(f,offset) *)
Definition hconstruct_convolve2 (T : nat) (sch : nat -> nat -> list nat) (F V : nat -> addr) (w : addr)
    (rooms : nat -> room) (f : nat -> addr) (offset : nat) : tc C :=
  TSeq (emb (hconvolution2_cmd w))
       (lconvolve (hconvolution2 T sch F V w rooms) (arr (aA tx) f) offset).
End H2.

(** *** class Convolution3 (convolve.h:1509-1839) on Hermitian data: fftx, ffty complex, fftz a fftPadHermitian *)
Section H3.
Variables (al : nat) (tx ty : xf) (tz : pad) (mult : multiplier).
Definition hconvolution3 (T : nat) (sch : nat -> nat -> list nat) (F V : nat -> addr) (w : addr)
    (rooms : nat -> room2) (schy : nat -> nat -> nat -> nat -> list nat) : layer :=
  let Fa := arr (max (aA tx) (aB tx)) F in
  mklayer tx (if contiguous ty then 1 else gL ty) (if contiguous ty then 0 else gS ty)
    (gL ty) (gS ty) (hH tz) T sch
    (fun th k P offset => let rm := rooms th in
       lconvolveRaw (hconvolution2 al ty tz mult (r2T rm) (schy th k) (r2F rm) (r2V rm) (r2W rm) (r2rooms rm)) P offset)
    (/ (INR (gM tx) * (INR (gM ty) * INR (kM tz))))
    Fa (lay_Fp tx Fa) (arr (aB tx) V) (lay_W tx w) (lay_W0 tx Fa w).
(** the constructor: the T Convolution2 objects, checkStrides (exit(-1) on failure), pad *)
Definition hconvolution3_cmd (T : nat) (w : addr) (rooms : nat -> room2) : cmd C :=
  Seq (cfor T (fun th => hconvolution2_cmd ty (r2W (rooms th))))
      (if checkStrides tx ty then padOpt tx (lay_W tx w) else Exit).
Definition hconstruct_convolve3 (T : nat) (sch : nat -> nat -> list nat) (F V : nat -> addr) (w : addr)
    (rooms : nat -> room2) (schy : nat -> nat -> nat -> nat -> list nat) (f : nat -> addr) (offset : nat) : tc C :=
  TSeq (emb (hconvolution3_cmd T w rooms))
       (lconvolve (hconvolution3 T sch F V w rooms schy) (arr (aA tx) f) offset).
End H3.
