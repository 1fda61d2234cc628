(** Model of class Convolution (convolve.h:952-1140, convolve.cc:7651-7724) with the transforms of real
    data of fftPadReal (RealModel: C=S=1, p<=2).  Memory has one word per double.
    The names repeat those of ConvModel (which is about the complex transforms) with a prefix r.
    fftPadReal never sets overwrite (convolve.cc:492), so that branch of convolveRaw is left out. *)
From Coq Require Import Reals ZArith Arith List Bool.
From Verif Require Import CNum Sums Roots Mem VecModel PadModel PadKernels CenModel HerModel ConvModel RealModel.
Import ListNotations.

(** reading a pointer array; outside it is undefined behaviour *)
Definition rpget (P : parr) (i : nat) (k : addr -> rcmd) : rcmd :=
  match P i with Some a => k a | None => Par 1 (fun _ => Fault) end.
(** typedef void multiplier (convolve.h:78-79): pointer array, number of Complex words, indices->r,
    indices->offset *)
Definition rmultiplier := parr -> nat -> nat -> nat -> rcmd.
(** multBinary, convolve.cc:33-54 *)
Definition rmultBinary : rmultiplier := fun F n _ _ =>
  rpget F 0 (fun F0 => rpget F 1 (fun F1 =>
    rFor 0 n (fun j => rdC F0 j (fun x => rdC F1 j (fun y => wrC F0 j (Cmul x y) Ret))))).

Section Obj.
Variable t : pad.
Notation A := (PadModel.aA t). Notation B := (PadModel.aB t).

(** convolve.h:392-397: for(r=0; r < R; r += increment(r)) *)
Fixpoint rrloop (fuel r : nat) : list nat :=
  match fuel with
  | O => []
  | S k => if r <? rR t then r :: rrloop k (r + rincrement t r) else []
  end.
Definition rresidues : list nat := rrloop (rR t) 0.
Definition rnloops : nat := length rresidues.
(** convolve.h:399-401; overwrite=false *)
Definition rloop2 : bool := (rnloops =? 2) && (B <? A).
(** convolve.h:439-441 in Complex words: doubles()=wordSize()*S*inputLength()=L (convolve.h:902-905) *)
Definition rworkSizeV : nat := if (rnloops =? 1) || rloop2 then 0 else cq (aL t) 2.

(** The state after init() (convolve.h:999-1058) *)
Record rconv := mkrconv {
  rcmult : rmultiplier;
  rcF : parr; rcFp : parr; rcV : parr;
  rcW : option addr; rcW0 : option addr;
  rcPad : bool                      (* Pad is fft->Pad (true) or padNone (false) *) }.
(** convolve.h:999-1058 without a caller-supplied W (see C11 for that); [Wnew] is the block that
    ComplexAlign(workSizeW) returns.  The arrays V are those of initV() (convolve.h:1060-1066). *)
Definition rcuseF : bool := negb (gq t =? 1) && (negb rloop2 && (B <? A) && negb (ainplace t) &&
              (rworkSizeW t <=? routputSize t)).
Definition rcinit (mult : rmultiplier) (F V : parr) (Wnew : addr) : rconv :=
  let W := if ainplace t then None else Some Wnew in
  mkrconv mult F (initFp A B F) V W (if rcuseF then F B else W) (negb rcuseF).
(** ... and the memory effect of init(): (fft->*Pad)(W), convolve.h:1032-1033; with W=NULL (in place)
    Pad is padNone *)
Definition rcinit_cmd (Wnew : addr) : rcmd :=
  if gq t =? 1 then Skip else if ainplace t then Skip else rPad t Wnew.

Variable c : rconv.
(** convolve.h:1082-1086 *)
Definition rcforward (f F : parr) (r start stop : nat) : rcmd :=
  cfor (stop - start) (fun i => let a := start + i in
    rpget f a (fun fa => rpget F a (fun Fa => rforward t fa Fa r (rcW c)))).
(** convolve.h:1088-1106: blocks d=1,2,.. while b*d < span(r)=noutputs(r); b=S*l (convolve.cc:5640) *)
Fixpoint roploop (fuel d : nat) (F : parr) (r : nat) : rcmd :=
  match fuel with
  | O => Skip
  | S k =>
    if rl t * d <? rnoutputs t r then
      let G : parr := fun a => if a <? A then option_map (fun x => x + 2 * (rl t * d)) (F a) else None in
      Seq (rcmult c G (rblocksize t r) r (rnoutputs t 0 * d)) (roploop k (S d) F r)
    else Skip
  end.
Definition roperate (F : parr) (r : nat) : rcmd :=
  Seq (rcmult c F (rblocksize t r) r 0) (roploop (rnoutputs t r) 1 F r).
(** convolve.h:1108-1113 *)
Definition rcbackward (F f : parr) (r start stop : nat) (W0 : option addr) : rcmd :=
  cfor (stop - start) (fun i => let b := start + i in
    rpget F b (fun Fb => rpget f b (fun fb => rbackward t Fb fb r W0))).
(** convolve.h:1115-1120: if(W && W == W0) Pad(W0) *)
Definition rcbackwardPad (F f : parr) (r start stop : nat) (W0 : option addr) : rcmd :=
  Seq (rcbackward F f r start stop W0)
      (match rcW c, W0 with
       | Some w, Some w0 => if (w =? w0) && rcPad c then rPad t w0 else Skip
       | _, _ => Skip end).
(** convolve.cc:7710-7717: wordSize()*inputLength()=L doubles *)
Definition rcopyback (h0 g : parr) : rcmd :=
  cfor B (fun b => rpget g b (fun gb => rpget h0 b (fun hb =>
    cfor (aL t) (fun i => rDo (Rd (hb + i) (fun x => Wr (gb + i) x Ret)))))).
(** convolve.cc:7684-7695: for(; a+C <= B; a += C) *)
Fixpoint rl2loop (fuel a : nat) (g : parr) (r : nat) (k : nat -> rcmd) : rcmd :=
  match fuel with
  | O => k a
  | S fu =>
    let c0 := A - B in
    if a + c0 <=? B then
      Seq (rcforward g (rcFp c) r a (a + c0))
     (Seq (rcbackwardPad (rcF c) g 0 a (a + c0) (rcW0 c))
          (rl2loop fu (a + c0) g r k))
    else k a
  end.
(** convolve.cc:7651-7724 *)
Definition rconvolveRaw (g : parr) : rcmd :=
  if gq t =? 1 then
    Seq (rcforward g (rcF c) 0 0 A)
   (Seq (rcmult c (rcF c) (rblocksize t 0) 0 0)
        (rcbackward (rcF c) g 0 0 B (rcW c)))
  else if rloop2 then
    let r := rincrement t 0 in
    Seq (rcforward g (rcF c) 0 0 A)
   (Seq (roperate (rcF c) 0)
        (rl2loop B 0 g r (fun a =>
           Seq (rcforward g (rcFp c) r a A)
          (Seq (roperate (rcFp c) r)
               (rcbackwardPad (rcFp c) g r 0 B (rcW0 c))))))
  else
    let h0 := if 1 <? rnloops then rcV c else g in
    Seq (RealModel.rloop rresidues (fun r =>
           Seq (rcforward g (rcF c) r 0 A)
          (Seq (roperate (rcF c) r)
               (rcbackwardPad (rcF c) h0 r 0 B (rcW0 c)))))
        (if 1 <? rnloops then rcopyback h0 g else Skip).
(** convolve.h:1074-1080, 1128-1131; scale=1/M with M=m*q *)
Definition rnormalize (h : parr) : rcmd :=
  cfor B (fun b => rpget h b (fun hb =>
    cfor (aL t) (fun i => rDo (Rd (hb + i) (fun x => Wr (hb + i) (x * / INR (gM t))%R Ret))))).
Definition rconvolve (f : parr) : rcmd := Seq (rconvolveRaw f) (rnormalize f).
End Obj.

(** construct the object (own work memory), then call convolve on each of the pointer arrays in gs *)
Definition robject (t : pad) (mult : rmultiplier) (F V : nat -> addr) (w : addr) : rconv :=
  rcinit t mult (arr (max (PadModel.aA t) (PadModel.aB t)) F) (arr (PadModel.aB t) V) w.
Definition rconvolve_call (t : pad) (mult : rmultiplier) (F V : nat -> addr) (w : addr) (g : nat -> addr) : rcmd :=
  rconvolve t (robject t mult F V w) (arr (max (PadModel.aA t) (PadModel.aB t)) g).
Definition rconstruct_convolve (t : pad) (mult : rmultiplier) (F V : nat -> addr) (w : addr) (g : nat -> addr) : rcmd :=
  Seq (rcinit_cmd t w) (rconvolve_call t mult F V w g).
