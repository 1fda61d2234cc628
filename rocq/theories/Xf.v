(** The two kinds of complex padded transform that the convolution classes accept, through the
    interface of their base class fftBase (convolve.h:196-454).  The names below hide those of
    PadModel, PadKernels and PadIndex, which are about fftPad only. *)
From Coq Require Import Arith List Bool.
From Verif Require Import CNum Mem PadModel PadKernels PadIndex.
From Verif Require CenModel.
Import ListNotations.

(** an fftPad or an fftPadCentered object *)
Inductive xf : Type := FP (t : pad) | CP (t : pad).
Coercion FP : pad >-> xf.
Definition xpad (t : xf) : pad := match t with FP t => t | CP t => t end.
(** the index of the element that a transform takes as origin: 0 or floor(L/2) *)
Definition origin (t : xf) : nat := match t with FP _ => 0 | CP t => aL t / 2 end.

(** constructor arguments, convolve.h:266-285 *)
Definition aA (t : xf) := PadModel.aA (xpad t).
Definition aB (t : xf) := PadModel.aB (xpad t).
Definition aL (t : xf) := PadModel.aL (xpad t).
Definition aM (t : xf) := PadModel.aM (xpad t).
Definition ainplace (t : xf) := PadModel.ainplace (xpad t).
Definition gL (t : xf) := aL t.
Definition gC (t : xf) := PadModel.gC (xpad t).
Definition gS (t : xf) := PadModel.gS (xpad t).
Definition gm (t : xf) := PadModel.gm (xpad t).
Definition gp (t : xf) := PadModel.gp (xpad t).

(** parameters and common, convolve.cc:387-394, 477-545; fftPad::init, convolve.cc:495-712 *)
Definition gn (t : xf) : nat := match t with FP t => PadModel.gn t | CP t => CenModel.kn t end.
Definition gq (t : xf) : nat := match t with FP t => PadModel.gq t | CP t => CenModel.kq t end.
Definition gM (t : xf) : nat := match t with FP t => PadModel.gM t | CP t => CenModel.kM t end.
Definition gD (t : xf) : nat := match t with FP t => PadModel.gD t | CP t => CenModel.kD t end.
Definition gD0 (t : xf) : nat := match t with FP t => PadModel.gD0 t | CP t => CenModel.kD0 t end.
Definition gl (t : xf) : nat := match t with FP t => PadModel.gl t | CP t => CenModel.kl t end.
Definition gR (t : xf) : nat := match t with FP t => PadModel.gR t | CP t => CenModel.kR t end.
Definition gdr (t : xf) : nat := match t with FP t => PadModel.gdr t | CP t => CenModel.kdr t end.
Definition goverwrite (t : xf) : bool := match t with FP t => PadModel.goverwrite t | CP t => CenModel.koverwrite t end.
Definition valid (t : xf) : bool := match t with FP t => PadModel.valid t | CP t => CenModel.kvalid t end.
Definition wf (t : xf) : Prop := match t with FP t => PadModel.wf t | CP t => CenModel.kwf t end.
(** convolve.h:391-393 *)
Definition increment (t : xf) (r : nat) : nat := match t with FP t => PadModel.increment t r | CP t => CenModel.kincrement t r end.
(** convolve.h:289-316 *)
Definition index (t : xf) (r i : nat) : nat := match t with FP t => PadModel.index t r i | CP t => CenModel.kindex t r i end.

(** methods of fftBase *)
Definition gb (t : xf) : nat := gS t * gl t.                        (* convolve.cc:529, 545 *)
Definition outputSize (t : xf) : nat := gb t * gD t.                (* convolve.h:424-426 *)
Definition blocksize (t : xf) (r : nat) : nat := gl t.              (* convolve.h:429-431 *)
Definition noutputs (t : xf) (r : nat) : nat :=                     (* convolve.h:433-436 *)
  blocksize t r * (if r =? 0 then gD0 t else gD t).
Definition span (t : xf) (r : nat) : nat := gS t * noutputs t r.    (* convolve.h:439-441 *)
Definition workSizeW (t : xf) : nat := if ainplace t then 0 else outputSize t. (* convolve.h:443-445 *)
Definition repad (t : xf) : bool := negb (ainplace t) && (gL t <? gm t).       (* convolve.h:447-449 *)
(** for(size_t r=0; r < R; r += increment(r)), convolve.h:395-398 *)
Section Loop.
Variable t : xf.
Fixpoint rloop (fuel r : nat) : list nat :=
  match fuel with
  | O => []
  | S k => if r <? gR t then r :: rloop k (r + increment t r) else []
  end.
(** fuel R suffices: every increment is positive *)
Definition residues : list nat := rloop (gR t) 0.
End Loop.

(** convolve.h:232-245 *)
Definition forward (t : xf) (f F : addr) (r : nat) (W : option addr) : cmd C :=
  match t with FP t => PadKernels.forward t f F r W | CP t => CenModel.cforward t f F r W end.
Definition backward (t : xf) (F f : addr) (r : nat) (W : option addr) : cmd C :=
  match t with FP t => PadKernels.backward t F f r W | CP t => CenModel.cbackward t F f r W end.
(** pad(W): fftPadCentered has p even or q=1, so Pad is padNone (convolve.cc:489, 653-676) *)
Definition padW (t : xf) (W : addr) : cmd C :=
  match t with FP t => PadKernels.padW t W | CP t => Skip end.
