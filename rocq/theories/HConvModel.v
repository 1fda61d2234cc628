(** Model of class Convolution (convolve.h:952-1140, convolve.cc:7651-7724) with the Hermitian
    transforms of fftPadHermitian (C=1), whose outputs are real: two doubles in each word of F.
    The names repeat those of ConvModel (which is about the complex transforms) with a prefix h. *)
From Coq Require Import Reals ZArith Arith List Bool.
From Verif Require Import CNum Sums Roots Mem VecModel PadModel PadKernels CenModel HerModel ConvModel.
Import ListNotations.

(** realMultBinary, convolve.cc:57-81: F0[j] *= F1[j] for the doubles j < n.  The iterations 2w and
    2w+1, which touch the two doubles of word w, are one iteration of the model. *)
Definition realMultBinary : multiplier := fun F n _ _ =>
  pget F 0 (fun F0 => pget F 1 (fun F1 =>
    ParFor 0 (cq n 2) (fun w => x <- F0 + w ;; y <- F1 + w ;;
      F0 + w ::= mkC (re x * re y)%R (if 2 * w + 1 <? n then (im x * im y)%R else im x) ;; Ret))).

Section Obj.
Variable al : nat.
Variable t : pad.
Notation A := (PadModel.aA t). Notation B := (PadModel.aB t).

(** convolve.h:392-397: for(r=0; r < R; r += increment(r)) *)
Fixpoint hrloop (fuel r : nat) : list nat :=
  match fuel with
  | O => []
  | S k => if r <? hR t then r :: hrloop k (r + hincrement t r) else []
  end.
Definition hresidues : list nat := hrloop (hR t) 0.
Definition hnloops : nat := length hresidues.
(** convolve.h:399-401; overwrite=false (convolve.cc:492) *)
Definition hloop2 : bool := (hnloops =? 2) && (B <? A).
(** convolve.h:439-441: ceilquotient(doubles(),2), doubles()=2*S*inputLength() *)
Definition hworkSizeV : nat := if (hnloops =? 1) || hloop2 then 0 else cq (2 * aS t * hH t) 2.

(** The state after init() (convolve.h:999-1058) *)
Record hconv := mkhconv {
  hcmult : multiplier;
  hcF : parr; hcFp : parr; hcV : parr;
  hcW : option addr; hcW0 : option addr }.
(** convolve.h:999-1058 without a caller-supplied W (see C11 for that); [Wnew] is the block that
    ComplexAlign(workSizeW) returns; Pad is padNone. *)
Definition hcinit (mult : multiplier) (F V : parr) (Wnew : addr) : hconv :=
  let W := if ainplace t then None else Some Wnew in
  let useF := negb (kq t =? 1) && (negb hloop2 && (B <? A) && negb (ainplace t) &&
              (hworkSizeW al t <=? houtputSize al t)) in
  mkhconv mult F (initFp A B F) V W (if useF then F B else W).

Variable c : hconv.
(** convolve.h:1082-1086 *)
Definition hcforward (f F : parr) (r start stop : nat) : cmd C :=
  cfor (stop - start) (fun i => let a := start + i in
    pget f a (fun fa => pget F a (fun Fa => hforward al t fa Fa r (hcW c)))).
(** convolve.h:1088-1106: blocks d=1,2,.. while b*d < span(r)=2*b *)
Fixpoint hoploop (fuel d : nat) (F : parr) (r : nat) : cmd C :=
  match fuel with
  | O => Skip
  | S k =>
    if hb al t * d <? hspan al t then
      let G : parr := fun a => if a <? A then option_map (fun x => x + hb al t * d) (F a) else None in
      Seq (hcmult c G (hblocksize t) r (aS t * hnoutputs t * d)) (hoploop k (S d) F r)
    else Skip
  end.
Definition hoperate (F : parr) (r : nat) : cmd C :=
  Seq (hcmult c F (hblocksize t) r 0) (hoploop (hspan al t) 1 F r).
(** convolve.h:1108-1120 (Pad is padNone) *)
Definition hcbackward (F f : parr) (r start stop : nat) (W0 : option addr) : cmd C :=
  cfor (stop - start) (fun i => let b := start + i in
    pget F b (fun Fb => pget f b (fun fb => hbackward al t Fb fb r W0))).
(** convolve.cc:7710-7717: wordSize()*inputLength() doubles *)
Definition hcopyback (h0 g : parr) : cmd C :=
  cfor B (fun b => pget g b (fun gb => pget h0 b (fun hb =>
    Do (pForR 0 (hH t) (fun i => x <- hb + i ;; gb + i ::= x ;; Ret))))).
(** convolve.cc:7684-7695: for(; a+C <= B; a += C) *)
Fixpoint hl2loop (fuel a : nat) (g : parr) (r : nat) (k : nat -> cmd C) : cmd C :=
  match fuel with
  | O => k a
  | S fu =>
    let c0 := A - B in
    if a + c0 <=? B then
      Seq (hcforward g (hcFp c) r a (a + c0))
     (Seq (hcbackward (hcF c) g 0 a (a + c0) (hcW0 c))
          (hl2loop fu (a + c0) g r k))
    else k a
  end.
(** convolve.cc:7651-7724 *)
Definition hconvolveRaw (g : parr) : cmd C :=
  if kq t =? 1 then
    Seq (hcforward g (hcF c) 0 0 A)
   (Seq (hcmult c (hcF c) (hblocksize t) 0 0)
        (hcbackward (hcF c) g 0 0 B (hcW c)))
  else if hloop2 then
    let r := hincrement t 0 in
    Seq (hcforward g (hcF c) 0 0 A)
   (Seq (hoperate (hcF c) 0)
        (hl2loop B 0 g r (fun a =>
           Seq (hcforward g (hcFp c) r a A)
          (Seq (hoperate (hcFp c) r)
               (hcbackward (hcFp c) g r 0 B (hcW0 c))))))
  else
    let h0 := if 1 <? hnloops then hcV c else g in
    Seq (rfor hresidues (fun r =>
           Seq (hcforward g (hcF c) r 0 A)
          (Seq (hoperate (hcF c) r)
               (hcbackward (hcF c) h0 r 0 B (hcW0 c)))))
        (if 1 <? hnloops then hcopyback h0 g else Skip).
(** convolve.h:1074-1080, 1128-1131; scale=1/M *)
Definition hnormalize (h : parr) : cmd C :=
  cfor B (fun b => pget h b (fun hb =>
    Do (pForR 0 (hH t) (fun i => x <- hb + i ;; hb + i ::= Cmul x (RtoC (/ INR (kM t))) ;; Ret)))).
Definition hconvolve (f : parr) : cmd C := Seq (hconvolveRaw f) (hnormalize f).
End Obj.

(** construct the object (own work memory), then convolve(g) *)
Definition hconstruct_convolve (al : nat) (t : pad) (mult : multiplier) (F V : nat -> addr) (w : addr) (g : nat -> addr) : cmd C :=
  let N := max (PadModel.aA t) (PadModel.aB t) in
  hconvolve al t (hcinit al t mult (arr N F) (arr (PadModel.aB t) V) w) (arr N g).
