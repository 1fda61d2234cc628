(** Model of the classes Convolution2 (convolve.h:1240-1507) and Convolution3
    (convolve.h:1509-1839), complex data.  Both classes contain the same code around
    different row operations: Convolution2 convolves each row of the x transform with a
    Convolution, Convolution3 each plane with a Convolution2.  [layer] is that common code;
    [convolution2] and [convolution3] instantiate it.
    Not modelled: the MPI subclasses, the caller supplied F, V (they only replace addresses);
    a caller supplied W is discarded by init, as in class Convolution (see C11). *)
From Coq Require Import Reals ZArith Arith List Bool Permutation.
From Verif Require Import CNum Sums Roots Mem VecModel PadModel PadKernels ConvModel Team Xf.

Record layer := mklayer {
  lpad : xf;                 (* *fftx *)
  (* forward and backward transform the columns of a row in lJ groups, group j starting at
     column lSy*j: one group in Convolution2 and in Convolution3 if contiguous(), Ly groups of
     Lz columns otherwise (convolve.h:1680-1696, 1718-1733) *)
  lJ : nat; lSy : nat;
  (* the loops of normalize and of the copy after the residue loop run over lcJ groups of lcC
     columns, group j starting at column lcS*j (convolve.h:1425-1437, 1483-1498 with one group of
     inputLengthy() columns; 1745-1762, 1808-1830 with inputLengthy() groups of
     inputLengthz() columns) *)
  lcJ : nat; lcS : nat; lcC : nat;
  lT : nat;                   (* threads *)
  (* which iterations of the parallel loop of subconvolution(F,rx) each thread executes, in
     order: OpenMP may distribute them in any way; see [schedule] *)
  lsch : nat -> nat -> list nat;
  (* row th k F offset: convolvey[th]->convolveRaw(F,offset,&indices) with
     indices.index[0]=k (Convolution2), convolveyz[th]->convolveRaw with index[1]=k *)
  lrow : nat -> nat -> parr -> nat -> tc C;
  lscale : R;                 (* scale=1/normalization() *)
  lF : parr; lFp : parr; lV : parr; lW : option addr; lW0 : option addr
}.

(** a distribution of the iterations 0..n-1 over T threads *)
Definition schedule (T n : nat) (s : nat -> list nat) : Prop :=
  Permutation (concat (map s (seq 0 T))) (seq 0 n).

(** init(), convolve.h:1296-1351, 1584-1645: work arrays.  W is the block that
    ComplexAlign(workSizeW) returns if it is called (allocateW=!W && !inplace, W=NULL passed). *)
Definition lay_W (t : xf) (w : addr) : option addr := if ainplace t then None else Some w.
(** Fp[0]=F[A-1], Fp[a]=F[a-1] (convolve.h:1327-1334, 1621-1628) *)
Definition lay_Fp (t : xf) (F : parr) : parr :=
  fun a => if a =? 0 then F (aA t - 1) else if a <? aA t then F (a - 1) else None.
(** convolve.h:1337-1340, 1631-1634 *)
Definition lay_W0 (t : xf) (F : parr) (w : addr) : option addr :=
  let extra := if loop2 t then 1 else 0 in
  if (aB t + extra <? aA t) && negb (ainplace t) && (workSizeW t <=? outputSize t)
  then F (aB t) else lay_W t w.

Section Methods.
Variable ly : layer.
Notation t := (lpad ly).
Notation A := (aA t). Notation B := (aB t).

(** convolve.h:1386-1391, 1680-1696 *)
Definition lforward (f F : parr) (rx start stop offset : nat) : cmd C :=
  cfor (stop - start) (fun i => let a := start + i in
    pget f a (fun fa => pget F a (fun Fa =>
      cfor (lJ ly) (fun j => forward t (fa + offset + lSy ly * j) (Fa + lSy ly * j) rx (lW ly))))).

(** convolve.h:1401-1411, 1706-1716 *)
Definition lsub (F : parr) (rx offset : nat) : tc C :=
  TPar (lT ly) (fun th => tlist (lsch ly rx th) (fun i =>
    lrow ly th (index t rx i) F (offset + i * gS t))).

(** convolve.h:1413-1419, 1718-1735 *)
Definition lbackward (F f : parr) (rx start stop offset : nat) (W0 : option addr) : cmd C :=
  Seq (cfor (stop - start) (fun i => let b := start + i in
         pget F b (fun Fb => pget f b (fun fb =>
           cfor (lJ ly) (fun j => backward t (Fb + lSy ly * j) (fb + offset + lSy ly * j) rx W0)))))
      (match lW ly with
       | Some w => if opt_eqb (lW ly) W0 then padOpt t W0 else Skip
       | None => Skip
       end).

(** the words of the rows that normalize and the copy loop visit, one block *)
Definition lrows (body : nat -> prog C) : cmd C :=
  Do (pForR 0 (gL t) (fun i => pForR 0 (lcJ ly) (fun j => pForR 0 (lcC ly) (fun k =>
        body (gS t * i + lcS ly * j + k))))).

(** convolve.h:1425-1437, 1745-1762 *)
Definition lnormalize (h : parr) (offset : nat) : cmd C :=
  cfor B (fun b => pget h b (fun hb =>
    lrows (fun o => x <- hb + offset + o ;; hb + offset + o ::= Cmul x (RtoC (lscale ly)) ;; Ret))).

(** convolve.h:1483-1498, 1808-1830 *)
Definition lcopy (h0 f : parr) (offset : nat) : cmd C :=
  cfor B (fun b => pget f b (fun fb => pget h0 b (fun hb =>
    lrows (fun o => x <- hb + o ;; fb + offset + o ::= x ;; Ret)))).

Fixpoint tfor (n : nat) (f : nat -> tc C) : tc C :=
  match n with O => tskip | S k => TSeq (tfor k f) (f k) end.

(** convolve.h:1458-1461, 1783-1786: for(; a+C <= B; a += C) *)
Fixpoint ll2loop (fuel a : nat) (f : parr) (offset r : nat) (k : nat -> tc C) : tc C :=
  match fuel with
  | O => k a
  | S fu =>
    let c0 := A - B in
    if a + c0 <=? B then
      TSeq (emb (lforward f (lFp ly) r a (a + c0) offset))
     (TSeq (emb (lbackward (lF ly) f 0 a (a + c0) offset (lW0 ly)))
           (ll2loop fu (a + c0) f offset r k))
    else k a
  end.

(** convolve.h:1441-1501, 1766-1833 *)
Definition lconvolveRaw (f : parr) (offset : nat) : tc C :=
  if goverwrite t then
    let final := gn t - 1 in
    TSeq (emb (lforward f (lF ly) 0 0 A offset))
   (TSeq (tfor final (fun r => lsub f r (offset + gS t * r * gl t)))
   (TSeq (lsub (lF ly) final 0)
         (emb (lbackward (lF ly) f 0 0 B offset (lW ly)))))
  else if loop2 t then
    let r := increment t 0 in
    TSeq (emb (lforward f (lF ly) 0 0 A offset))
   (TSeq (lsub (lF ly) 0 0)
         (ll2loop B 0 f offset r (fun a =>
            TSeq (emb (lforward f (lFp ly) r a A offset))
           (TSeq (lsub (lFp ly) r 0)
                 (emb (lbackward (lFp ly) f r 0 B offset (lW0 ly)))))))
  else
    let h0 := if 1 <? nloops t then lV ly else f in
    let Offset := if 1 <? nloops t then 0 else offset in
    TSeq (tlist (residues t) (fun rx =>
            TSeq (emb (lforward f (lF ly) rx 0 A offset))
           (TSeq (lsub (lF ly) rx 0)
                 (emb (lbackward (lF ly) h0 rx 0 B Offset (lW ly))))))
         (if 1 <? nloops t then emb (lcopy h0 f offset) else tskip).

(** convolve.h:1503-1506, 1835-1838 *)
Definition lconvolve (f : parr) (offset : nat) : tc C :=
  TSeq (lconvolveRaw f offset) (emb (lnormalize f offset)).
End Methods.

(** *** class Convolution2 *)
(** the work memory of one Convolution object: F, V, W *)
Record room := mkroom { rF : nat -> addr; rV : nat -> addr; rW : addr }.
Section C2.
Variables (tx ty : xf) (mult : nat -> multiplier).   (* mult k: called with index[0]=k *)
Definition cobj (rm : room) (k : nat) : conv :=
  cinit ty (mult k) (arr (max (aA ty) (aB ty)) (rF rm)) (arr (aB ty) (rV rm)) false (rW rm).
(** convolve.h:1274-1351; fftx->l < threads moves the threads to the rows, which changes
    only the number of threads of each loop *)
Definition convolution2 (T : nat) (sch : nat -> nat -> list nat) (F V : nat -> addr) (w : addr)
    (rooms : nat -> room) : layer :=
  let Fa := arr (max (aA tx) (aB tx)) F in
  mklayer tx 1 0 1 0 (gL ty) T sch
    (fun th k P offset => emb (convolveRawAt (cobj (rooms th) k) P offset))
    (/ (INR (gM tx) * INR (gM ty)))
    Fa (lay_Fp tx Fa) (arr (aB tx) V) (lay_W tx w) (lay_W0 tx Fa w).
(** the constructor's effect on memory: convolvey[t]=new Convolution(ffty) (convolve.h:1285-1287),
    then (fftx->*Pad)(W) (convolve.h:1322) *)
Definition convolution2_cmd (T : nat) (w : addr) (rooms : nat -> room) : cmd C :=
  Seq (cfor T (fun th => cinit_cmd (cobj (rooms th) 0))) (padOpt tx (lay_W tx w)).
End C2.

(** *** class Convolution3 *)
Record room2 := mkroom2 { r2F : nat -> addr; r2V : nat -> addr; r2W : addr; r2T : nat; r2rooms : nat -> room }.
Section C3.
Variables (tx ty tz : xf) (mult : nat -> nat -> multiplier). (* index[1]=kx, index[0]=ky *)
(** convolve.h:1568-1570 *)
Definition contiguous : bool := gS ty =? gC ty.
(** convolve.h:1572-1582 *)
Definition checkStrides : bool :=
  (gL ty * gS ty <=? gS tx) && (gC tx =? (if contiguous then gL ty * gS ty else gC ty)).
(** convolve.h:1544-1645.  schy th k rx: how the object convolveyz[th], working on plane k, distributes
    the rows of its own parallel loops. *)
Definition convolution3 (T : nat) (sch : nat -> nat -> list nat) (F V : nat -> addr) (w : addr)
    (rooms : nat -> room2) (schy : nat -> nat -> nat -> nat -> list nat) : layer :=
  let Fa := arr (max (aA tx) (aB tx)) F in
  mklayer tx (if contiguous then 1 else gL ty) (if contiguous then 0 else gS ty)
    (gL ty) (gS ty) (gL tz) T sch
    (fun th k P offset => let rm := rooms th in
       lconvolveRaw (convolution2 ty tz (mult k) (r2T rm) (schy th k) (r2F rm) (r2V rm) (r2W rm) (r2rooms rm)) P offset)
    (/ (INR (gM tx) * (INR (gM ty) * INR (gM tz))))
    Fa (lay_Fp tx Fa) (arr (aB tx) V) (lay_W tx w) (lay_W0 tx Fa w).
(** the constructor: the T Convolution2 objects, checkStrides (exit(-1) on failure), pad *)
Definition convolution3_cmd (T : nat) (w : addr) (rooms : nat -> room2) : cmd C :=
  Seq (cfor T (fun th => convolution2_cmd ty tz (mult 0) (r2T (rooms th)) (r2W (rooms th)) (r2rooms (rooms th))))
      (if checkStrides then padOpt tx (lay_W tx w) else Exit).
End C3.
