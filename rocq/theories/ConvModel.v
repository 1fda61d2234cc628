(** Model of class Convolution (one-dimensional convolutions), convolve.h:952-1140 and
    convolve.cc:7650-7738, on top of the models of fftPad and fftPadCentered ([xf]) with S=C=1.
    Pointer arrays (Complex ** in the code) are partial functions from indices to addresses:
    reading an entry outside the array is undefined behaviour. *)
From Coq Require Import Reals ZArith Arith List Bool.
From Verif Require Import CNum Sums Roots Mem VecModel PadModel PadKernels PadIndex Xf.

(** undefined behaviour as a command *)
Definition UBc : cmd C := Ext (fun _ => False) (fun _ _ => True).
Definition parr := nat -> option addr.
(** an array of n pointers h 0 .. h (n-1) *)
Definition arr (n : nat) (h : nat -> addr) : parr := fun i => if i <? n then Some (h i) else None.
Definition pget (P : parr) (i : nat) (k : addr -> cmd C) : cmd C :=
  match P i with Some a => k a | None => UBc end.
Definition pset (P : parr) (i : nat) (a : option addr) : parr := fun j => if i =? j then a else P j.

(** typedef void multiplier(Complex **F, size_t n, Indices *indices, size_t threads)
    (convolve.h:78-79): pointer array, number of words, indices->r, indices->offset. *)
Definition multiplier := parr -> nat -> nat -> nat -> cmd C.

(** *** the library's complex multipliers, convolve.cc:26-106 *)
Definition multNone : multiplier := fun _ _ _ _ => Skip.                       (* :26-29 *)
Definition multBinary : multiplier := fun F n _ _ =>                           (* :33-54 *)
  pget F 0 (fun F0 => pget F 1 (fun F1 =>
    ParFor 0 n (fun j => x <- F0 + j ;; y <- F1 + j ;; F0 + j ::= Cmul x y ;; Ret))).
Definition multcorrelation : multiplier := fun F n _ _ =>                      (* :83-104 *)
  pget F 0 (fun F0 => pget F 1 (fun F1 =>
    ParFor 0 n (fun j => x <- F0 + j ;; y <- F1 + j ;; F0 + j ::= Cmul x (Cconj y) ;; Ret))).

(** convolve.h:395-398: number of passes of the residue loop *)
Definition nloops (t : xf) : nat := length (residues t).
(** convolve.h:399-401 *)
Definition loop2 (t : xf) : bool := (nloops t =? 2) && (aB t <? aA t) && negb (goverwrite t).
(** convolve.h:439-441 with doubles()=2*S*L (convolve.h:404-416) *)
Definition workSizeV (t : xf) : nat :=
  if (nloops t =? 1) || loop2 t then 0 else cq (2 * gS t * gL t) 2.

(** The state of a Convolution object after init() (convolve.h:999-1058). *)
Record conv := mkconv {
  cpad : xf;                  (* *fft *)
  cmult : multiplier;         (* app.mult *)
  cF : parr;                  (* F: max(A,B) blocks of outputSize() words *)
  cFp : parr;                 (* Fp (only used if loop2) *)
  cV : parr;                  (* V: B blocks of workSizeV() words *)
  cW : option addr;           (* W *)
  cW0 : option addr;          (* W0 *)
  cPadNone : bool             (* Pad == &fftBase::padNone forced by init *)
}.

(** for(size_t b=0; b < B; b += C) body b (C > 0): convolve.h:1045 *)
Fixpoint stepfor {T} (fuel b B c : nat) (body : nat -> T -> T) (s : T) : T :=
  match fuel with
  | O => s
  | S k => if b <? B then stepfor k (b + c) B c body (body b s) else s
  end.
(** for(size_t c=lo; c < hi; c++) *)
Fixpoint upfor {T} (n lo : nat) (body : nat -> T -> T) (s : T) : T :=
  match n with O => s | S k => upfor k (S lo) body (body lo s) end.

(** convolve.h:1038-1047 *)
Definition initFp (A B : nat) (F : parr) : parr :=
  let c0 := A - B in
  let Fp := upfor c0 0 (fun c Fp => pset Fp c (F (B + c))) (fun _ => None) in
  stepfor B 0 B c0 (fun b Fp => upfor (B - b) b (fun c Fp => pset Fp (c0 + c) (F c)) Fp) Fp.

(** convolve.h:999-1058.  [userW]: the caller passed a nonnull W; [Wnew] is the block that
    ComplexAlign(workSizeW) returns.  V is either the caller's block or the one initV()
    (convolve.h:1060-1066) allocates on first use.  (fft->*Pad)(W) is [cinit_cmd]. *)
Definition cinit (t : xf) (mult : multiplier) (F V : parr) (userW : bool) (Wnew : addr) : conv :=
  let A := aA t in let B := aB t in
  let allocateW := negb userW && negb (ainplace t) in
  let W := if allocateW then Some Wnew else None in
  let useF := negb (gq t =? 1) && (negb (loop2 t) && (B <? A) && negb (ainplace t) && (workSizeW t <=? outputSize t)) in
  mkconv t mult F (initFp A B F) V W (if useF then F B else W) useF.

Definition padOpt (t : xf) (W : option addr) : cmd C :=
  match W with Some w => padW t w | None => if (gq t =? 1) || negb (gp t =? 1) || negb (repad t) then Skip else UBc end.

(** convolve.h:1034: (fft->*Pad)(W), executed by the constructor when q > 1 *)
Definition cinit_cmd (c : conv) : cmd C := if gq (cpad c) =? 1 then Skip else padOpt (cpad c) (cW c).

Section Methods.
Variable c : conv.
Notation t := (cpad c).
Notation A := (aA t). Notation B := (aB t).

(** convolve.h:1082-1086 *)
Definition cforward (f F : parr) (r start stop : nat) : cmd C :=
  cfor (stop - start) (fun i => let a := start + i in
    pget f a (fun fa => pget F a (fun Fa => forward t fa Fa r (cW c)))).

(** convolve.h:1088-1106 *)
Fixpoint oploop (fuel d : nat) (F : parr) (r : nat) : cmd C :=
  match fuel with
  | O => Skip
  | S k =>
    if gb t * d <? span t r then
      let G : parr := fun a => if a <? A then option_map (fun x => x + gb t * d) (F a) else None in
      Seq (cmult c G (blocksize t r) r (gS t * noutputs t 0 * d)) (oploop k (S d) F r)
    else Skip
  end.
Definition operate (F : parr) (r : nat) : cmd C :=
  Seq (cmult c F (blocksize t r) r 0) (oploop (span t r) 1 F r).

(** convolve.h:1108-1113 *)
Definition cbackward (F f : parr) (r start stop : nat) (W0 : option addr) : cmd C :=
  cfor (stop - start) (fun i => let b := start + i in
    pget F b (fun Fb => pget f b (fun fb => backward t Fb fb r W0))).

Definition opt_eqb (a b : option addr) : bool :=
  match a, b with Some x, Some y => x =? y | None, None => true | _, _ => false end.
(** convolve.h:1115-1120 *)
Definition cbackwardPad (F f : parr) (r start stop : nat) (W0 : option addr) : cmd C :=
  Seq (cbackward F f r start stop W0)
      (match cW c with
       | Some w => if opt_eqb (cW c) W0 then (if cPadNone c then Skip else padW t w) else Skip
       | None => Skip
       end).

(** convolve.cc:7713-7719 (nloops > 1): copy h0[b] to g[b].  The code copies 2*L doubles. *)
Definition copyback (h0 g : parr) : cmd C :=
  cfor B (fun b => pget g b (fun gb => pget h0 b (fun hb =>
    Do (pForR 0 (gL t) (fun i => x <- hb + i ;; gb + i ::= x ;; Ret))))).

Fixpoint rfor (rs : list nat) (body : nat -> cmd C) : cmd C :=
  match rs with nil => Skip | cons r rs => Seq (body r) (rfor rs body) end.

(** convolve.cc:7684-7695: for(; a+C <= B; a += C) *)
Fixpoint l2loop (fuel a : nat) (g : parr) (r : nat) (k : nat -> cmd C) : cmd C :=
  match fuel with
  | O => k a
  | S fu =>
    let c0 := A - B in
    if a + c0 <=? B then
      Seq (cforward g (cFp c) r a (a + c0))
     (Seq (cbackwardPad (cF c) g 0 a (a + c0) (cW0 c))
          (l2loop fu (a + c0) g r k))
    else k a
  end.

(** convolve.cc:7651-7724 *)
Definition convolveRaw (g : parr) : cmd C :=
  if gq t =? 1 then
    Seq (cforward g (cF c) 0 0 A)
   (Seq (cmult c (cF c) (blocksize t 0) 0 0)
        (cbackward (cF c) g 0 0 B (cW c)))
  else if goverwrite t then
    let final := gn t - 1 in
    Seq (cforward g (cF c) 0 0 A)
   (Seq (cfor final (fun r =>
           let h : parr := fun a => if a <? A then option_map (fun x => x + r * blocksize t r) (g a) else None in
           cmult c h (blocksize t r) r 0))
   (Seq (cmult c (cF c) (blocksize t final) final 0)
        (cbackward (cF c) g 0 0 B None)))
  else if loop2 t then
    let r := increment t 0 in
    Seq (cforward g (cF c) 0 0 A)
   (Seq (operate (cF c) 0)
        (l2loop B 0 g r (fun a =>
           Seq (cforward g (cFp c) r a A)
          (Seq (operate (cFp c) r)
               (cbackwardPad (cFp c) g r 0 B (cW0 c))))))
  else
    let h0 := if 1 <? nloops t then cV c else g in
    Seq (rfor (residues t) (fun r =>
           Seq (cforward g (cF c) r 0 A)
          (Seq (operate (cF c) r)
               (cbackwardPad (cF c) h0 r 0 B (cW0 c)))))
        (if 1 <? nloops t then copyback h0 g else Skip).

(** convolve.cc:7736-7743: Complex *G[A] *)
Definition convolveRawAt (f : parr) (offset : nat) : cmd C :=
  convolveRaw (fun a => if a <? A then option_map (fun x => x + offset) (f a) else None).

(** convolve.h:1074-1080, scale=1/normalization()=1/M (convolve.h:1010, 422) *)
Definition normalize (h : parr) (offset : nat) : cmd C :=
  cfor B (fun b => pget h b (fun hb0 => let hb := hb0 + offset in
    Do (pForR 0 (gL t) (fun i => x <- hb + i ;; hb + i ::= Cmul x (RtoC (/ INR (gM t))) ;; Ret)))).

(** convolve.h:1128-1136 *)
Definition convolve (f : parr) : cmd C := Seq (convolveRaw f) (normalize f 0).
Definition convolveAt (f : parr) (offset : nat) : cmd C :=
  Seq (convolveRawAt f offset) (normalize f offset).
End Methods.
