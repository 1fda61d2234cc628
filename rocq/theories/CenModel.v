(** Model of class fftPadCentered (convolve.h:590-697, convolve.cc:2107-4446): padded transforms
    of data whose origin is at index floor(L/2).
    The record [pad] holds the constructor arguments, as for fftPad.  size_t is [nat].
    The PARALLELIF thresholds are not modelled: [Par] covers both branches.
    Pointers such as fmH=f-mH point before the array and are only used at indices that bring
    them back into it; f+s-mH is their use at index s. *)
From Coq Require Import Reals ZArith Arith List Bool.
From Verif Require Import CNum Sums Roots Mem VecModel PadModel PadKernels.

Section Geometry.
Variable t : pad.
Notation m := (am t).
Definition kp : nat := param_p (aL t) m.                         (* convolve.cc:387-395, centered *)
Definition kn : nat := param_n (aL t) (aM t) m true.
Definition kq : nat := param_q (aL t) (aM t) m true.
Definition kM : nat := m * kq.                                   (* convolve.cc:488 *)
Definition kD : nat := if kq =? 1 then 1 else aD t.              (* convolve.cc:527 *)
Definition kP : nat := if kp =? 2 then 1 else kp / 2.            (* convolve.cc:536-542 *)
Definition kl : nat := if kq =? 1 then kM else m * kP.           (* convolve.cc:528, 544 *)
Definition kb : nat := aS t * kl.                                (* convolve.cc:529, 545 *)
Definition kSm : nat := aS t * m.
Definition kCm : nat := aC t * m.
(** convolve.h:647 *)
Definition kconjugates : bool := (1 <? kD) && ((kp =? 1) || (kp mod 2 =? 0)).
(** convolve.h:385-389 *)
Definition kresidueBlocks : nat := if kconjugates then cq kn 2 else kn.
Definition kR : nat := if kq =? 1 then 1 else kresidueBlocks.
Definition kdr : nat := if kq =? 1 then 1 else if kconjugates then kD / 2 else kD.
(** convolve.cc:668-669 *)
Definition kD0 : nat := if kq =? 1 then 1 else if kn mod kD =? 0 then kD else kn mod kD.
(** convolve.cc:554-555 with centered=true *)
Definition koverwrite : bool :=
  if kq =? 1 then false
  else ainplace t && (aL t =? kp * m) && (kn =? 3) && (kD =? 1) && (aB t <=? aA t) && aoverwrite t.
(** convolve.h:391-393 *)
Definition kincrement (r : nat) : nat :=
  if 0 <? r then kdr else if kconjugates then cq kD0 2 else kD0.
Definition koutputSize : nat := kb * kD.                         (* convolve.h:424-426 *)
Definition knoutputs (r : nat) : nat := kl * (if r =? 0 then kD0 else kD).   (* convolve.h:429-436 *)
(** convolve.h:602-604 and 476-479 *)
Definition kvalid : bool :=
  if kq =? 1 then kD =? 1
  else (kp mod 2 =? 0) &&
       ((kD =? 1) || ((aS t =? 1) && (((kD <? kn) && (kD mod 2 =? 0)) || (kD =? kn)))).
(** What a successful construction guarantees: checkParameters (convolve.cc:464-475), the
    validity test of convolve.h:637, the exit of common() (convolve.cc:481-485), and the
    documented positivity of the sizes. *)
Definition kwf : Prop :=
  1 <= aL t /\ aL t <= aM t /\ 1 <= aC t /\ aC t <= aS t /\ 1 <= m /\ 1 <= aD t /\
  aM t <= kM /\ kvalid = true.

(** convolve.h:289-316 with centered=true *)
Definition kindex (r i : nat) : nat :=
  if kq =? 1 then i else
  let s := i mod m in
  if (1 <? kD) && ((kp mod 2 =? 0) || (kp <=? 2)) then
    let P := cq kp 2 in
    let u := (i / m) mod P in
    let offset := if (r =? 0) && (P * m <=? i) && (kD0 mod 2 =? 1) then 1 else 0 in
    let incr := (i + P * m * offset) / (2 * P * m) in
    let r := r + incr in
    if i / (P * m) + offset =? 2 * incr + 1 then
      let s := if (0 <? r) && (u =? 0) then (if 0 <? s then s - 1 else m - 1) else s in
      if r =? 0 then kq * s + kn * u + kn / 2
      else let r' := kn - r in
           let u := if 0 <? u then u - 1 else P - 1 in
           kq * s + kn * u + r'
    else kq * s + kn * u + r
  else
    let u := (i / m) mod kp in
    let r := r + i / (kp * m) in
    kq * s + kn * u + r.

(** convolve.cc:690: initZetaqm(q,centered && p == 2 ? m+1 : m) *)
Definition kZqm : table := initZetaqm kM kq (if kp =? 2 then m + 1 else m).
(** convolve.cc:539-540, 592-596: P1=P+1 *)
Definition kZqp : table := initZetaqp kq kn (kP + 1).
(** convolve.cc:2265-2277: ZetaShift[q*s+r]=expi(factor*(q*s+r)), factor=L/2*twopi/M (integer L/2) *)
Definition kShift : table :=
  tloop kq (fun r T => tloop m (fun s T =>
    tset T (r + kq * s) (expi (INR (aL t / 2) * twopi / INR kM * INR (kq * s + r)))) T)
    (fun _ => None).

(** convolve.cc:508-516 (q=1), 557-563, 671-676, 599-605 *)
Definition kfftm (sg : Z) : plan :=
  if kq =? 1 then
    (if aS t =? 1 then mkplan m sg 1 1 0 (ainplace t)
     else mkplan m sg (aC t) (aS t) 1 (ainplace t))
  else if aS t =? 1 then mkplan m sg (aC t * kD * kP) 1 m (ainplace t)
  else mkplan m sg (aC t) (aS t) 1 (ainplace t).
Definition kfftm0 (sg : Z) : plan := mkplan m sg (kD0 * kP) 1 m (ainplace t).
Definition kfftp (sg : Z) : plan :=
  if aS t =? aC t then mkplan kP sg kCm kCm 1 true
  else mkplan kP sg (aC t) kSm 1 true.
End Geometry.

(** a table entry loaded outside a parallel loop *)
Definition cget (T : table) (i : nat) (k : C -> cmd C) : cmd C :=
  match T i with Some v => k v | None => Do Fault end.
Notation "x <== T [ i ] ;;; k" := (cget T i (fun x => k))
  (at level 61, T at next level, i at next level, right associativity).

Section Kernels.
Variable t : pad.
Notation L := (aL t).  Notation CC := (aC t).  Notation SS := (aS t).  Notation m := (am t).
Notation p := (kp t).  Notation q := (kq t).   Notation n := (kn t).   Notation M := (kM t).
Notation D := (kD t).  Notation D0 := (kD0 t). Notation dr := (kdr t). Notation b := (kb t).
Notation Sm := (kSm t). Notation zqm := (kZqm t). Notation zqp := (kZqp t).

(** *** q=1: explicit zero padding *)
(** convolve.cc:2146-2176 *)
Definition cforwardExplicitFast (f F : addr) (W : option addr) : cmd C :=
  let W := getW F W in
  let H := cq (M - L) 2 in
  let FH := W + SS * H in
  Seq (ParFor 0 H (fun s => W + s ::= C0 ;; Ret))
 (Seq (ParFor 0 L (fun s => x <- f + s ;; FH + s ::= x ;; Ret))
 (Seq (ParFor (H + L) M (fun s => W + s ::= C0 ;; Ret))
 (Seq (fft (kfftm t 1) W F)
      (ParFor 0 (m / 2) (fun k => let s := 1 + 2 * k in     (* s=1; s < m; s += 2 *)
         x <- F + s ;; F + s ::= Cmul x (Copp C1) ;; Ret))))).

(** convolve.cc:2178-2198 *)
Definition cbackwardExplicitFast (F f : addr) (W : option addr) : cmd C :=
  let W := getW F W in
  let H := cq (M - L) 2 in
  let FH := W + SS * H in
  Seq (ParFor 0 (m / 2) (fun k => let s := 1 + 2 * k in
         x <- F + s ;; F + s ::= Cmul x (Copp C1) ;; Ret))
 (Seq (fft (kfftm t (-1)) F W)
      (ParFor 0 L (fun s => x <- FH + s ;; f + s ::= x ;; Ret))).

(** convolve.cc:2200-2241 *)
Definition cforwardExplicitManyFast (f F : addr) (W : option addr) : cmd C :=
  let W := getW F W in
  let H := cq (M - L) 2 in
  let FH := W + SS * H in
  Seq (ParFor 0 H (fun s => let Fs := W + SS * s in pForR 0 CC (fun c => Fs + c ::= C0 ;; Ret)))
 (Seq (ParFor 0 L (fun s => let fs := f + SS * s in let FHs := FH + SS * s in
         pForR 0 CC (fun c => x <- fs + c ;; FHs + c ::= x ;; Ret)))
 (Seq (ParFor (H + L) M (fun s => let Fs := W + SS * s in pForR 0 CC (fun c => Fs + c ::= C0 ;; Ret)))
 (Seq (fft (kfftm t 1) W F)
      (ParFor 0 (m / 2) (fun k => let s := 1 + 2 * k in let Fs := F + SS * s in
         pForR 0 CC (fun c => x <- Fs + c ;; Fs + c ::= Cmul x (Copp C1) ;; Ret)))))).

(** convolve.cc:2243-2263 *)
Definition cbackwardExplicitManyFast (F f : addr) (W : option addr) : cmd C :=
  let W := getW F W in
  let H := cq (M - L) 2 in
  let FH := W + SS * H in
  Seq (ParFor 0 (m / 2) (fun k => let s := 1 + 2 * k in let Fs := F + SS * s in
         pForR 0 CC (fun c => x <- Fs + c ;; Fs + c ::= Cmul x (Copp C1) ;; Ret)))
 (Seq (fft (kfftm t (-1)) F W)
      (ParFor 0 L (fun s => let fs := f + SS * s in let FHs := FH + SS * s in
         pForR 0 CC (fun c => x <- FHs + c ;; fs + c ::= x ;; Ret)))).

(** convolve.cc:2279-2289; fftPad::forwardExplicit is the uncentered kernel *)
Definition cforwardExplicitSlow (f F : addr) (W : option addr) : cmd C :=
  Seq (forwardExplicit t f F W)
      (ParFor 0 m (fun s => x <- F + s ;; z <~ kShift t [s] ;; F + s ::= Cmul x (Cconj z) ;; Ret)).
(** convolve.cc:2291-2301 *)
Definition cbackwardExplicitSlow (F f : addr) (W : option addr) : cmd C :=
  Seq (ParFor 0 m (fun s => x <- F + s ;; z <~ kShift t [s] ;; F + s ::= Cmul x z ;; Ret))
      (backwardExplicit t F f W).
(** convolve.cc:2303-2316 *)
Definition cforwardExplicitManySlow (f F : addr) (W : option addr) : cmd C :=
  Seq (forwardExplicitMany t f F W)
      (ParFor 0 m (fun s => let Fs := F + SS * s in z <~ kShift t [s] ;;
         pForR 0 CC (fun c => x <- Fs + c ;; Fs + c ::= Cmul x (Cconj z) ;; Ret))).
(** convolve.cc:2318-2331 *)
Definition cbackwardExplicitManySlow (F f : addr) (W : option addr) : cmd C :=
  Seq (ParFor 0 m (fun s => let Fs := F + SS * s in z <~ kShift t [s] ;;
         pForR 0 CC (fun c => x <- Fs + c ;; Fs + c ::= Cmul x z ;; Ret)))
      (backwardExplicitMany t F f W).

(** *** p=2 *)
(** convolve.cc:2338-2371 *)
Definition cforward2All (f F : addr) : cmd C :=
  let g := f + m in
  let Zr := (m + 1) * 1 in
  Seq (Do (V0 <- f ;; Z <~ zqm [Zr + m] ;;
           let Zetam := CONJ Z in
           let A := vmul Zetam (UNPACKL V0 V0) in
           let B := ZMULTI (vmul Zetam (UNPACKH V0 V0)) in
           V1 <- g ;;
           f ::= vadd V0 V1 ;;
           g ::= vadd (vadd V1 A) B ;;
           F ::= vadd V1 (CONJ (vsub A B)) ;; Ret))
 (Seq (ParFor 1 m (fun s =>
         let v0 := f + s in let v1 := g + s in
         Zeta <~ zqm [Zr + s] ;; Z <~ zqm [Zr + m - s] ;;
         let Zetam := CONJ Z in
         V0 <- v0 ;; V1 <- v1 ;;
         let A := vadd (vmul Zetam (UNPACKL V0 V0)) (vmul Zeta (UNPACKL V1 V1)) in
         let B := ZMULTI (vadd (vmul Zetam (UNPACKH V0 V0)) (vmul Zeta (UNPACKH V1 V1))) in
         v0 ::= vadd V0 V1 ;;
         v1 ::= vadd A B ;;
         F + s ::= CONJ (vsub A B) ;; Ret))
 (Seq (fft (kfftm t 1) f f)
 (Seq (fft (kfftm t 1) g g)
      (fft (kfftm t 1) F F)))).

(** convolve.cc:2447-2471 (D=1): residue r of forward2, written to W *)
Definition cforward2_residue1 (f W : addr) (r : nat) : cmd C :=
  let H := L / 2 in
  let mH := m - H in
  let LH := L - H in
  let fH := f + H in
  let Zr := (m + 1) * r in
  Seq (ParFor 0 mH (fun s => z <~ zqm [Zr + s] ;; x <- fH + s ;; W + s ::= Cmul z x ;; Ret))
 (Seq (ParFor mH LH (fun s =>
         Zeta <~ zqm [Zr + s] ;; Zetam <~ zqm [Zr + m - s] ;;
         fs <- fH + s ;; fms <- f + s - mH ;;
         W + s ::= vadd (ZCMULT Zetam fms) (ZMULT Zeta fs) ;; Ret))
      (ParFor LH m (fun s => z <~ zqm [Zr + m - s] ;; x <- f + s - mH ;;
         W + s ::= Cmul (Cconj z) x ;; Ret))).

(** convolve.cc:2473-2512 (D>1): residues r and -r of forward2, written to F and G=F+m *)
Definition cforward2_residue2 (f F : addr) (r : nat) : cmd C :=
  let H := L / 2 in
  let mH := m - H in
  let LH := L - H in
  let fH := f + H in
  let G := F + m in
  let Zr := (m + 1) * r in
  Seq (ParFor 0 mH (fun s =>
         Zeta <~ zqm [Zr + s] ;; fs <- fH + s ;;
         let A := vmul Zeta (UNPACKL fs fs) in
         let B := ZMULTI (vmul Zeta (UNPACKH fs fs)) in
         F + s ::= vadd A B ;;
         G + s ::= CONJ (vsub A B) ;; Ret))
 (Seq (ParFor mH LH (fun s =>
         Zeta <~ zqm [Zr + s] ;; Z <~ zqm [Zr + m - s] ;;
         let Zetam := CONJ Z in
         fms <- f + s - mH ;; fs <- fH + s ;;
         let A := vadd (vmul Zetam (UNPACKL fms fms)) (vmul Zeta (UNPACKL fs fs)) in
         let B := ZMULTI (vadd (vmul Zetam (UNPACKH fms fms)) (vmul Zeta (UNPACKH fs fs))) in
         F + s ::= vadd A B ;;
         G + s ::= CONJ (vsub A B) ;; Ret))
      (ParFor LH m (fun s =>
         Z <~ zqm [Zr + m - s] ;;
         let Zetam := CONJ Z in
         fms <- f + s - mH ;;
         let A := vmul Zetam (UNPACKL fms fms) in
         let B := ZMULTI (vmul Zetam (UNPACKH fms fms)) in
         F + s ::= vadd A B ;;
         G + s ::= CONJ (vsub A B) ;; Ret))).

(** convolve.cc:2439-2515: the part of forward2 after residue 0 *)
Definition cforward2_tail (f F0 W0 W : addr) (r0 dr0 : nat) (plan1 : plan) : cmd C :=
  Seq (if D =? 1 then (if 0 <? dr0 then cforward2_residue1 f W r0 else Skip)
       else cfor dr0 (fun d => cforward2_residue2 f (W + 2 * m * d) (r0 + d)))
      (fft plan1 W0 F0).

(** convolve.cc:2387-2402: residue 0 of forward2 (D=1 or q odd) *)
Definition cforward2_zero1 (f W : addr) : cmd C :=
  let H := L / 2 in
  let mH := m - H in
  let LH := L - H in
  let fH := f + H in
  Seq (ParFor 0 mH (fun s => x <- fH + s ;; W + s ::= x ;; Ret))
 (Seq (ParFor mH LH (fun s => x <- f + s - mH ;; y <- fH + s ;; W + s ::= Cadd x y ;; Ret))
      (ParFor LH m (fun s => x <- f + s - mH ;; W + s ::= x ;; Ret))).

(** convolve.cc:2403-2434: residues 0 and q/2 of forward2 (D>1 and q even) *)
Definition cforward2_zero2 (f W : addr) : cmd C :=
  let H := L / 2 in
  let mH := m - H in
  let LH := L - H in
  let fH := f + H in
  let q2 := q / 2 in
  let V := W + m in
  let Zr := (m + 1) * q2 in
  Seq (ParFor 0 mH (fun s => A <- fH + s ;; W + s ::= A ;;
         z <~ zqm [Zr + s] ;; V + s ::= Cmul z A ;; Ret))
 (Seq (ParFor mH LH (fun s => B <- f + s - mH ;; A <- fH + s ;;
         W + s ::= Cadd A B ;;
         z <~ zqm [Zr + s] ;; V + s ::= Cmul z (Csub A B) ;; Ret))
      (ParFor LH m (fun s => B <- f + s - mH ;; W + s ::= B ;;
         z <~ zqm [Zr + s] ;; V + s ::= Cmul (Copp z) B ;; Ret))).

(** convolve.cc:2373-2516 *)
Definition cforward2 (f F0 : addr) (r0 : nat) (W : option addr) : cmd C :=
  let W := getW F0 W in
  let W0 := W in
  if r0 =? 0 then
    let q2 := q / 2 in
    let plan1 := if D0 =? D then kfftm t 1 else kfftm0 t 1 in
    if (D =? 1) || (2 * q2 <? q) then
      let residues := 1 in
      Seq (cforward2_zero1 f W)
          (cforward2_tail f F0 W0 (W + residues * m) 1 ((D0 - residues) / 2) plan1)
    else
      let residues := 2 in
      Seq (cforward2_zero2 f W)
          (cforward2_tail f F0 W0 (W + residues * m) 1 ((D0 - residues) / 2) plan1)
  else cforward2_tail f F0 W0 W r0 dr (kfftm t 1).

(** convolve.cc:2518-2569 *)
Definition cforward2ManyAll (f F : addr) : cmd C :=
  let g := f + Sm in
  let Zr := (m + 1) * 1 in
  Z <== zqm [Zr + m] ;;;
  let Zetam := CONJ Z in
  Seq (ParFor 0 CC (fun c =>
         let v0 := f + c in let v1 := g + c in
         V0 <- v0 ;;
         let A := vmul Zetam (UNPACKL V0 V0) in
         let B := ZMULTI (vmul Zetam (UNPACKH V0 V0)) in
         V1 <- v1 ;;
         v0 ::= vadd V0 V1 ;;
         v1 ::= vadd (vadd V1 A) B ;;
         F + c ::= vadd V1 (CONJ (vsub A B)) ;; Ret))
 (Seq (ParFor 1 m (fun s => let Ss := SS * s in
         let v0 := f + Ss in let v1 := g + Ss in let v2 := F + Ss in
         Zeta <~ zqm [Zr + s] ;; Zetam <~ zqm [Zr + m - s] ;;
         let X := UNPACKL Zeta Zeta in let Y := UNPACKH Zeta (vneg Zeta) in
         let Xm := UNPACKL Zetam Zetam in let Ym := UNPACKH (vneg Zetam) Zetam in
         pForR 0 CC (fun c =>
           V0 <- v0 + c ;; V1 <- v1 + c ;;
           let A := vadd (vmul Xm V0) (vmul X V1) in
           let B := FLIP (vadd (vmul Ym V0) (vmul Y V1)) in
           v0 + c ::= vadd V0 V1 ;;
           v1 + c ::= vadd A B ;;
           v2 + c ::= vsub A B ;; Ret)))
 (Seq (fft (kfftm t 1) f f)
 (Seq (fft (kfftm t 1) g g)
      (fft (kfftm t 1) F F)))).

(** convolve.cc:2571-2660 *)
Definition cforward2Many (f F : addr) (r : nat) (W : option addr) : cmd C :=
  let W := getW F W in
  let H := L / 2 in
  let mH := m - H in
  let LH := L - H in
  let fH := f + SS * H in
  Seq
  (if r =? 0 then
     Seq (ParFor 0 mH (fun s => let Ss := SS * s in let Fs := W + Ss in let fHs := fH + Ss in
            pForR 0 CC (fun c => x <- fHs + c ;; Fs + c ::= x ;; Ret)))
    (Seq (ParFor mH LH (fun s => let Ss := SS * s in
            let Fs := W + Ss in let fmHs := f + Ss - SS * mH in let fHs := fH + Ss in
            pForR 0 CC (fun c => x <- fmHs + c ;; y <- fHs + c ;; Fs + c ::= Cadd x y ;; Ret)))
         (ParFor LH m (fun s => let Ss := SS * s in let Fs := W + Ss in let fmHs := f + Ss - SS * mH in
            pForR 0 CC (fun c => x <- fmHs + c ;; Fs + c ::= x ;; Ret))))
   else
     let Zr := (m + 1) * r in
     Seq (ParFor 0 mH (fun s => let Ss := SS * s in let Fs := W + Ss in let fHs := fH + Ss in
            Zeta <~ zqm [Zr + s] ;;
            let X := UNPACKL Zeta Zeta in let Y := UNPACKH Zeta (vneg Zeta) in
            pForR 0 CC (fun c => x <- fHs + c ;; Fs + c ::= ZMULTxy X Y x ;; Ret)))
    (Seq (ParFor mH LH (fun s => let Ss := SS * s in
            let Fs := W + Ss in let fHs := fH + Ss in let fmHs := f + Ss - SS * mH in
            Zeta <~ zqm [Zr + s] ;; Zetam <~ zqm [Zr + m - s] ;;
            let X := UNPACKL Zeta Zeta in let Y := UNPACKH Zeta (vneg Zeta) in
            let Xm := UNPACKL Zetam Zetam in let Ym := UNPACKH (vneg Zetam) Zetam in
            pForR 0 CC (fun c => y <- fmHs + c ;; x <- fHs + c ;;
              Fs + c ::= vadd (ZMULTxy Xm Ym y) (ZMULTxy X Y x) ;; Ret)))
         (ParFor LH m (fun s => let Ss := SS * s in let Fs := W + Ss in let fmHs := f + Ss - SS * mH in
            Zetam <~ zqm [Zr + m - s] ;;
            let Xm := UNPACKL Zetam Zetam in let Ym := UNPACKH (vneg Zetam) Zetam in
            pForR 0 CC (fun c => y <- fmHs + c ;; Fs + c ::= ZMULTxy Xm Ym y ;; Ret)))))
  (fft (kfftm t 1) W F).

(** convolve.cc:2662-2694 *)
Definition cbackward2All (F f : addr) : cmd C :=
  let g := f + m in
  let Zr := (m + 1) * 1 in
  Seq (fft (kfftm t (-1)) f f)
 (Seq (fft (kfftm t (-1)) g g)
 (Seq (fft (kfftm t (-1)) F F)
 (Seq (Do (V0 <- f ;; V1 <- g ;; V2 <- F ;;
           z <~ zqm [Zr + m] ;;
           f ::= vadd V0 (ZMULT2 z V1 V2) ;;
           g ::= vadd (vadd V0 V1) V2 ;; Ret))
      (ParFor 1 m (fun s =>
         let v0 := f + s in let v1 := g + s in
         V0 <- v0 ;; V1 <- v1 ;; V2 <- F + s ;;
         zm <~ zqm [Zr + m - s] ;; z <~ zqm [Zr + s] ;;
         v0 ::= vadd V0 (ZMULT2 zm V1 V2) ;;
         v1 ::= vadd V0 (ZMULT2 z V2 V1) ;; Ret))))).

(** convolve.cc:2750-2761 (D=1): residue r of backward2, read from W *)
Definition cbackward2_residue1 (f W : addr) (r : nat) : cmd C :=
  let H := L / 2 in
  let mH := m - H in
  let LH := L - H in
  let fH := f + H in
  let Zr := (m + 1) * r in
  Seq (ParFor mH m (fun s => x <- f + s - mH ;; z <~ zqm [Zr + m - s] ;; y <- W + s ;;
         f + s - mH ::= Cadd x (Cmul z y) ;; Ret))
      (ParFor 0 LH (fun s => x <- fH + s ;; z <~ zqm [Zr + s] ;; y <- W + s ;;
         fH + s ::= Cadd x (Cmul (Cconj z) y) ;; Ret)).

(** convolve.cc:2762-2791 (D>1): residues r and -r of backward2, read from U and V=U+m *)
Definition cbackward2_residue2 (f U : addr) (r : nat) : cmd C :=
  let H := L / 2 in
  let odd := L - 2 * H in
  let mH := m - H in
  let fH := f + H in
  let V := U + m in
  let Zr := (m + 1) * r in
  Seq (ParFor H m (fun s => x <- f + s - mH ;; z <~ zqm [Zr + m - s] ;; Us <- U + s ;; Vs <- V + s ;;
         f + s - mH ::= vadd x (ZMULT2 z Us Vs) ;; Ret))
 (Seq (ParFor mH H (fun s => Us <- U + s ;; Vs <- V + s ;;
         Zeta <~ zqm [Zr + s] ;; Zetam <~ zqm [Zr + m - s] ;;
         x <- f + s - mH ;;
         f + s - mH ::= vadd x (ZMULT2 Zetam Us Vs) ;;
         y <- fH + s ;;
         fH + s ::= vadd y (ZMULT2 Zeta Vs Us) ;; Ret))
 (Seq (ParFor 0 mH (fun s => x <- fH + s ;; z <~ zqm [Zr + s] ;; Vs <- V + s ;; Us <- U + s ;;
         fH + s ::= vadd x (ZMULT2 z Vs Us) ;; Ret))
      (if 0 <? odd then
         Do (x <- fH + H ;; z <~ zqm [Zr + H] ;; Vs <- V + H ;; Us <- U + H ;;
             fH + H ::= vadd x (ZMULT2 z Vs Us) ;; Ret)
       else Skip))).

(** convolve.cc:2712-2722: residue 0 of backward2 (D=1 or q odd) *)
Definition cbackward2_zero1 (f W : addr) : cmd C :=
  let H := L / 2 in
  let mH := m - H in
  let LH := L - H in
  let fH := f + H in
  Seq (ParFor mH m (fun s => x <- W + s ;; f + s - mH ::= x ;; Ret))
      (ParFor 0 LH (fun s => x <- W + s ;; fH + s ::= x ;; Ret)).

(** convolve.cc:2723-2738: residues 0 and q/2 of backward2 (D>1 and q even) *)
Definition cbackward2_zero2 (f W : addr) : cmd C :=
  let H := L / 2 in
  let mH := m - H in
  let LH := L - H in
  let fH := f + H in
  let q2 := q / 2 in
  let V := W + m in
  let Zr := (m + 1) * q2 in
  Seq (ParFor mH m (fun s => x <- W + s ;; z <~ zqm [Zr + m - s] ;; y <- V + s ;;
         f + s - mH ::= Cadd x (Cmul z y) ;; Ret))
      (ParFor 0 LH (fun s => x <- W + s ;; z <~ zqm [Zr + s] ;; y <- V + s ;;
         fH + s ::= Cadd x (Cmul (Cconj z) y) ;; Ret)).

(** convolve.cc:2696-2793 *)
Definition cbackward2 (F0 f : addr) (r0 : nat) (W : option addr) : cmd C :=
  let W := getW F0 W in
  let tail (W : addr) (r0 dr0 : nat) :=
    if D =? 1 then (if 0 <? dr0 then cbackward2_residue1 f W r0 else Skip)
    else cfor dr0 (fun d => cbackward2_residue2 f (W + 2 * m * d) (r0 + d)) in
  Seq (fft (if (0 <? r0) || (D0 =? D) then kfftm t (-1) else kfftm0 t (-1)) F0 W)
  (if r0 =? 0 then
     let q2 := q / 2 in
     if (D =? 1) || (2 * q2 <? q) then
       let residues := 1 in
       Seq (cbackward2_zero1 f W) (tail (W + residues * m) 1 ((D0 - residues) / 2))
     else
       let residues := 2 in
       Seq (cbackward2_zero2 f W) (tail (W + residues * m) 1 ((D0 - residues) / 2))
   else tail W r0 dr).

(** convolve.cc:2795-2842 *)
Definition cbackward2ManyAll (F f : addr) : cmd C :=
  let g := f + Sm in
  let Zr := (m + 1) * 1 in
  Seq (fft (kfftm t (-1)) f f)
 (Seq (fft (kfftm t (-1)) g g)
 (Seq (fft (kfftm t (-1)) F F)
 (Zetam <== zqm [Zr + m] ;;;
  let Xm := UNPACKL Zetam Zetam in let Ym := UNPACKH Zetam (vneg Zetam) in
  Seq (ParFor 0 CC (fun c =>
         let v0 := f + c in let v1 := g + c in
         V0 <- v0 ;; V1 <- v1 ;; V2 <- F + c ;;
         v0 ::= vadd V0 (ZMULT2xy Xm Ym V1 V2) ;;
         v1 ::= vadd (vadd V0 V1) V2 ;; Ret))
      (ParFor 1 m (fun s => let Ss := SS * s in
         let v0 := f + Ss in let v1 := g + Ss in let v2 := F + Ss in
         Zetam <~ zqm [Zr + m - s] ;; Zeta <~ zqm [Zr + s] ;;
         let Xm := UNPACKL Zetam Zetam in let Ym := UNPACKH Zetam (vneg Zetam) in
         let X := UNPACKL Zeta Zeta in let Y := UNPACKH (vneg Zeta) Zeta in
         pForR 0 CC (fun c =>
           V0 <- v0 + c ;; V1 <- v1 + c ;; V2 <- v2 + c ;;
           v0 + c ::= vadd V0 (ZMULT2xy Xm Ym V1 V2) ;;
           v1 + c ::= vadd V0 (ZMULT2xy X Y V1 V2) ;; Ret)))))).

(** convolve.cc:2844-2960 *)
Definition cbackward2Many (F f : addr) (r : nat) (W : option addr) : cmd C :=
  let W := getW F W in
  let H := L / 2 in
  let odd := L - 2 * H in
  let mH := m - H in
  let fH := f + SS * H in
  Seq (fft (kfftm t (-1)) F W)
  (if r =? 0 then
     Seq (ParFor H m (fun s => let Ss := SS * s in let fmHs := f + Ss - SS * mH in let Fs := W + Ss in
            pForR 0 CC (fun c => x <- Fs + c ;; fmHs + c ::= x ;; Ret)))
    (Seq (ParFor mH H (fun s => let Ss := SS * s in
            let fmHs := f + Ss - SS * mH in let fHs := fH + Ss in let Fs := W + Ss in
            pForR 0 CC (fun c => x <- Fs + c ;; fmHs + c ::= x ;; y <- fmHs + c ;; fHs + c ::= y ;; Ret)))
    (Seq (ParFor 0 mH (fun s => let Ss := SS * s in let fHs := fH + Ss in let Fs := W + Ss in
            pForR 0 CC (fun c => x <- Fs + c ;; fHs + c ::= x ;; Ret)))
         (if 0 <? odd then
            let fHs := fH + SS * H in let Fs := W + SS * H in
            ParFor 0 CC (fun c => x <- Fs + c ;; fHs + c ::= x ;; Ret)
          else Skip)))
   else
     let Zr := (m + 1) * r in
     Seq (ParFor H m (fun s => let Ss := SS * s in let fmHs := f + Ss - SS * mH in let Fs := W + Ss in
            Zetam <~ zqm [Zr + m - s] ;;
            let Xm := UNPACKL Zetam Zetam in let Ym := UNPACKH Zetam (vneg Zetam) in
            pForR 0 CC (fun c => x <- fmHs + c ;; y <- Fs + c ;;
              fmHs + c ::= vadd x (ZMULTxy Xm Ym y) ;; Ret)))
    (Seq (ParFor mH H (fun s => let Ss := SS * s in
            let fmHs := f + Ss - SS * mH in let fHs := fH + Ss in let Fs := W + Ss in
            Zetam <~ zqm [Zr + m - s] ;; Zeta <~ zqm [Zr + s] ;;
            let Xm := UNPACKL Zetam Zetam in let Ym := UNPACKH Zetam (vneg Zetam) in
            let X := UNPACKL Zeta Zeta in let Y := UNPACKH (vneg Zeta) Zeta in
            pForR 0 CC (fun c => Fsc <- Fs + c ;; x <- fmHs + c ;;
              fmHs + c ::= vadd x (ZMULTxy Xm Ym Fsc) ;;
              y <- fHs + c ;;
              fHs + c ::= vadd y (ZMULTxy X Y Fsc) ;; Ret)))
    (Seq (ParFor 0 mH (fun s => let Ss := SS * s in let fHs := fH + Ss in let Fs := W + Ss in
            Zeta <~ zqm [Zr + s] ;;
            let X := UNPACKL Zeta Zeta in let Y := UNPACKH (vneg Zeta) Zeta in
            pForR 0 CC (fun c => x <- fHs + c ;; y <- Fs + c ;;
              fHs + c ::= vadd x (ZMULTxy X Y y) ;; Ret)))
         (if 0 <? odd then
            let fHs := fH + SS * H in let Fs := W + SS * H in
            Zeta <== zqm [Zr + H] ;;;
            let X := UNPACKL Zeta Zeta in let Y := UNPACKH (vneg Zeta) Zeta in
            ParFor 0 CC (fun c => x <- fHs + c ;; y <- Fs + c ;;
              fHs + c ::= vadd x (ZMULTxy X Y y) ;; Ret)
          else Skip)))).

(** *** p>2 even.  p2=p/2, H=L/2, m0=p2*m-H, m1=L-H-(p2-1)*m, fm0=f-m0, fH=f+H. *)
Notation p2 := (p / 2). Notation p2s1 := (p / 2 - 1).
Definition kH : nat := L / 2.
Definition km0 : nat := p2 * m - kH.
Definition km1 : nat := L - kH - p2s1 * m.

(** convolve.cc:2962-3026 *)
Definition cforwardInnerAll (f F : addr) : cmd C :=
  let g := f + b in
  Z <== zqp [p] ;;;
  let Zetanr := CONJ Z in
  Seq (ParFor 0 m (fun s =>
         let v0 := f + s in let v1 := g + s in let v2 := F + s in
         V0 <- v0 ;; V1 <- v1 ;;
         let A := vmul Zetanr (UNPACKL V0 V0) in
         let B := ZMULTI (vmul Zetanr (UNPACKH V0 V0)) in
         v0 ::= vadd V0 V1 ;;
         v1 ::= vadd (vadd A B) V1 ;;
         v2 ::= vadd (CONJ (vsub A B)) V1 ;; Ret))
 (Seq (ParFor 1 p2 (fun t' => let tm := t' * m in
         let v0 := f + tm in let v1 := g + tm in let v2 := F + tm in
         Zeta <~ zqp [p2 + t'] ;;
         let Zetam := ZMULT Zeta Zetanr in
         pForR 0 m (fun s =>
           V0 <- v0 + s ;; V1 <- v1 + s ;;
           let A := vadd (vmul Zetam (UNPACKL V0 V0)) (vmul Zeta (UNPACKL V1 V1)) in
           let B := ZMULTI (vadd (vmul Zetam (UNPACKH V0 V0)) (vmul Zeta (UNPACKH V1 V1))) in
           v0 + s ::= vadd V0 V1 ;;
           v1 + s ::= vadd A B ;;
           v2 + s ::= CONJ (vsub A B) ;; Ret)))
 (Seq (fft (kfftp t 1) f f)
 (Seq (fft (kfftp t 1) g g)
 (Seq (fft (kfftp t 1) F F)
 (Seq (ParFor 1 m (fun s => Zeta <~ zqm [m + s] ;;
         x <- g + s ;; g + s ::= Cmul x Zeta ;;
         y <- F + s ;; F + s ::= Cmul y (Cconj Zeta) ;; Ret))
 (Seq (ParFor 1 p2 (fun u => let mu := m * u in
         pseq (pForR 1 m (fun s => x <- f + mu + s ;; z <~ zqm [n * mu + s] ;;
                 f + mu + s ::= Cmul x z ;; Ret))
        (pseq (pForR 1 m (fun s => x <- g + mu + s ;; z <~ zqm [n * mu + m + s] ;;
                 g + mu + s ::= Cmul x z ;; Ret))
              (pForR 1 m (fun s => x <- F + mu + s ;; z <~ zqm [n * mu - m + s] ;;
                 F + mu + s ::= Cmul x z ;; Ret)))))
 (Seq (fft (kfftm t 1) f f)
 (Seq (fft (kfftm t 1) g g)
      (fft (kfftm t 1) F F))))))))).

(** convolve.cc:3193-3257 (D=1): residue r of forwardInner, written to W *)
Definition cforwardInner_residue1 (f W : addr) (r : nat) : cmd C :=
  let fH := f + kH in let m0 := km0 in let m1 := km1 in let p2s1m := p2s1 * m in
  let Zq := p2 * r in
  Z <== zqp [Zq + p2] ;;;
  let Zetanr := CONJ Z in
  Seq (ParFor 0 m0 (fun s => x <- fH + s ;; W + s ::= x ;; Ret))
 (let X := UNPACKL Zetanr Zetanr in let Y := UNPACKH Zetanr (vneg Zetanr) in
  Seq (ParFor m0 m (fun s => x <- f + s - m0 ;; y <- fH + s ;;
         W + s ::= vadd (ZMULTxy X Y x) y ;; Ret))
 (Seq (ParFor 1 p2s1 (fun t' => let tm := t' * m in
         Zeta <~ zqp [Zq + t'] ;;
         let Zetam := ZMULT Zeta Zetanr in
         let Xm := UNPACKL Zetam Zetam in let Ym := UNPACKH Zetam (vneg Zetam) in
         let X := UNPACKL Zeta Zeta in let Y := UNPACKH Zeta (vneg Zeta) in
         pForR 0 m (fun s => x <- f + tm - m0 + s ;; y <- fH + tm + s ;;
           W + tm + s ::= vadd (ZMULTxy Xm Ym x) (ZMULTxy X Y y) ;; Ret)))
 (Zeta <== zqp [Zq + p2s1] ;;;
  let Zetam := ZMULT Zeta Zetanr in
  let Xm := UNPACKL Zetam Zetam in let Ym := UNPACKH Zetam (vneg Zetam) in
  let X := UNPACKL Zeta Zeta in let Y := UNPACKH Zeta (vneg Zeta) in
  Seq (ParFor 0 m1 (fun s => x <- f + p2s1m - m0 + s ;; y <- fH + p2s1m + s ;;
         W + p2s1m + s ::= vadd (ZMULTxy Xm Ym x) (ZMULTxy X Y y) ;; Ret))
 (Seq (ParFor m1 m (fun s => x <- f + p2s1m - m0 + s ;;
         W + p2s1m + s ::= ZMULTxy Xm Ym x ;; Ret))
 (Seq (fft (kfftp t 1) W W)
 (let Zr := m * r in
  Seq (ParFor 1 m (fun s => x <- W + s ;; z <~ zqm [Zr + s] ;; W + s ::= Cmul x z ;; Ret))
      (ParFor 1 p2 (fun u => let mu := m * u in
         pForR 1 m (fun s => x <- W + mu + s ;; z <~ zqm [Zr + n * mu + s] ;;
           W + mu + s ::= Cmul x z ;; Ret))))))))).

(** convolve.cc:3259-3353 (D>1): residues r and -r of forwardInner, written to F and G=F+b *)
Definition cforwardInner_residue2 (f F : addr) (r : nat) : cmd C :=
  let fH := f + kH in let m0 := km0 in let m1 := km1 in let p2s1m := p2s1 * m in
  let Zq := p2 * r in
  Z <== zqp [Zq + p2] ;;;
  let Zetanr := CONJ Z in
  let G := F + b in
  Seq (ParFor 0 m0 (fun s => x <- fH + s ;; F + s ::= x ;; y <- F + s ;; G + s ::= y ;; Ret))
 (Seq (ParFor m0 m (fun s => fm0ts <- f + s - m0 ;; fHts <- fH + s ;;
         let A := vmul Zetanr (UNPACKL fm0ts fm0ts) in
         let B := ZMULTI (vmul Zetanr (UNPACKH fm0ts fm0ts)) in
         F + s ::= vadd (vadd A B) fHts ;;
         G + s ::= vadd (CONJ (vsub A B)) fHts ;; Ret))
 (Seq (ParFor 1 p2s1 (fun t' => let tm := t' * m in
         Zeta <~ zqp [Zq + t'] ;;
         let Zetam := ZMULT Zeta Zetanr in
         pForR 0 m (fun s => fm0ts <- f + tm - m0 + s ;; fHts <- fH + tm + s ;;
           let A := vadd (vmul Zetam (UNPACKL fm0ts fm0ts)) (vmul Zeta (UNPACKL fHts fHts)) in
           let B := ZMULTI (vadd (vmul Zetam (UNPACKH fm0ts fm0ts)) (vmul Zeta (UNPACKH fHts fHts))) in
           F + tm + s ::= vadd A B ;;
           G + tm + s ::= CONJ (vsub A B) ;; Ret)))
 (Zeta <== zqp [Zq + p2s1] ;;;
  let Zetam := ZMULT Zeta Zetanr in
  Seq (ParFor 0 m1 (fun s => fm0ts <- f + p2s1m - m0 + s ;; fHts <- fH + p2s1m + s ;;
         let A := vadd (vmul Zetam (UNPACKL fm0ts fm0ts)) (vmul Zeta (UNPACKL fHts fHts)) in
         let B := ZMULTI (vadd (vmul Zetam (UNPACKH fm0ts fm0ts)) (vmul Zeta (UNPACKH fHts fHts))) in
         F + p2s1m + s ::= vadd A B ;;
         G + p2s1m + s ::= CONJ (vsub A B) ;; Ret))
 (Seq (ParFor m1 m (fun s => fm0ts <- f + p2s1m - m0 + s ;;
         let A := vmul Zetam (UNPACKL fm0ts fm0ts) in
         let B := ZMULTI (vmul Zetam (UNPACKH fm0ts fm0ts)) in
         F + p2s1m + s ::= vadd A B ;;
         G + p2s1m + s ::= CONJ (vsub A B) ;; Ret))
 (Seq (fft (kfftp t 1) F F)
 (Seq (fft (kfftp t 1) G G)
 (let mr := m * r in
  Seq (ParFor 1 m (fun s => Zeta <~ zqm [mr + s] ;;
         x <- F + s ;; F + s ::= Cmul x Zeta ;;
         y <- G + s ;; G + s ::= Cmul y (Cconj Zeta) ;; Ret))
      (ParFor 1 p2 (fun u => let mu := m * u in
         pseq (pForR 1 m (fun s => x <- F + mu + s ;; z <~ zqm [n * mu + mr + s] ;;
                 F + mu + s ::= Cmul x z ;; Ret))
              (pForR 1 m (fun s => x <- G + mu + s ;; z <~ zqm [n * mu - mr + s] ;;
                 G + mu + s ::= Cmul x z ;; Ret))))))))))).

(** convolve.cc:3190-3355: the part of forwardInner after residue 0 *)
Definition cforwardInner_tail (f F0 W0 W : addr) (r0 dr0 : nat) (plan1 : plan) : cmd C :=
  Seq (if D =? 1 then (if 0 <? dr0 then cforwardInner_residue1 f W r0 else Skip)
       else cfor dr0 (fun d => cforwardInner_residue2 f (W + 2 * b * d) (r0 + d)))
      (fft plan1 W0 F0).

(** convolve.cc:3046-3095: residue 0 of forwardInner (D=1 or n odd) *)
Definition cforwardInner_zero1 (f W : addr) : cmd C :=
  let fH := f + kH in let m0 := km0 in let m1 := km1 in let p2s1m := p2s1 * m in
  Seq (ParFor 0 m0 (fun s => x <- fH + s ;; W + s ::= x ;; Ret))
 (Seq (ParFor m0 m (fun s => x <- f + s - m0 ;; y <- fH + s ;; W + s ::= Cadd x y ;; Ret))
 (Seq (ParFor 1 p2s1 (fun t' => let tm := t' * m in
         pForR 0 m (fun s => x <- f + tm - m0 + s ;; y <- fH + tm + s ;;
           W + tm + s ::= Cadd x y ;; Ret)))
 (Seq (ParFor 0 m1 (fun s => x <- f + p2s1m - m0 + s ;; y <- fH + p2s1m + s ;;
         W + p2s1m + s ::= Cadd x y ;; Ret))
 (Seq (ParFor m1 m (fun s => x <- f + p2s1m - m0 + s ;; W + p2s1m + s ::= x ;; Ret))
 (Seq (fft (kfftp t 1) W W)
      (cfor (p2 - 1) (fun u' => let u := 1 + u' in      (* u=1; u < p2 *)
         ParFor 1 m (fun s => x <- W + u * m + s ;; z <~ zqm [m * n * u + s] ;;
           W + u * m + s ::= Cmul x z ;; Ret)))))))).

(** convolve.cc:3096-3180: residues 0 and n/2 of forwardInner (D>1 and n even) *)
Definition cforwardInner_zero2 (f W : addr) : cmd C :=
  let fH := f + kH in let m0 := km0 in let m1 := km1 in let p2s1m := p2s1 * m in
  let n2 := n / 2 in
  let V := W + b in
  let Zq := p2 * n2 in
  Seq (ParFor 0 m0 (fun s => x <- fH + s ;; W + s ::= x ;; y <- W + s ;; V + s ::= y ;; Ret))
 (Seq (ParFor m0 m (fun s => fm0s <- f + s - m0 ;; fHs <- fH + s ;;
         W + s ::= Cadd fm0s fHs ;;
         V + s ::= Cadd (Copp fm0s) fHs ;; Ret))
 (Seq (ParFor 1 p2s1 (fun t' => let tm := t' * m in
         Zeta <~ zqp [Zq + t'] ;;
         pForR 0 m (fun s => fm0ts <- f + tm - m0 + s ;; fHts <- fH + tm + s ;;
           W + tm + s ::= Cadd fm0ts fHts ;;
           V + tm + s ::= Cmul Zeta (Csub fHts fm0ts) ;; Ret)))
 (Zeta <== zqp [Zq + p2s1] ;;;
  Seq (ParFor 0 m1 (fun s => fm0ts <- f + p2s1m - m0 + s ;; fHts <- fH + p2s1m + s ;;
         W + p2s1m + s ::= Cadd fm0ts fHts ;;
         V + p2s1m + s ::= Cmul Zeta (Csub fHts fm0ts) ;; Ret))
 (Seq (ParFor m1 m (fun s => fm0ts <- f + p2s1m - m0 + s ;;
         W + p2s1m + s ::= fm0ts ;;
         V + p2s1m + s ::= Cmul (Copp Zeta) fm0ts ;; Ret))
 (Seq (fft (kfftp t 1) W W)
 (Seq (fft (kfftp t 1) V V)
 (Seq (ParFor 0 m (fun s => x <- V + s ;; z <~ zqm [m * n2 + s] ;; V + s ::= Cmul x z ;; Ret))
      (ParFor 1 p2 (fun u => let um := u * m in
         pseq (pForR 1 m (fun s => x <- W + um + s ;; z <~ zqm [m * n * u + s] ;;
                 W + um + s ::= Cmul x z ;; Ret))
              (pForR 1 m (fun s => x <- V + um + s ;; z <~ zqm [m * n * u + m * n2 + s] ;;
                 V + um + s ::= Cmul x z ;; Ret))))))))))).

(** convolve.cc:3028-3356 *)
Definition cforwardInner (f F0 : addr) (r0 : nat) (W : option addr) : cmd C :=
  let W := getW F0 W in
  let W0 := W in
  if r0 =? 0 then
    let n2 := n / 2 in
    let plan1 := if D0 =? D then kfftm t 1 else kfftm0 t 1 in
    if (D =? 1) || (2 * n2 <? n) then
      let residues := 1 in
      Seq (cforwardInner_zero1 f W)
          (cforwardInner_tail f F0 W0 (W + residues * b) 1 ((D0 - residues) / 2) plan1)
    else
      let residues := 2 in
      Seq (cforwardInner_zero2 f W)
          (cforwardInner_tail f F0 W0 (W + residues * b) 1 ((D0 - residues) / 2) plan1)
  else cforwardInner_tail f F0 W0 W r0 dr (kfftm t 1).

(** convolve.cc:3398-3409, 3563-3567: the radix-p2 stage of the Many kernels *)
Definition cfftpAll (sg : Z) (W : addr) : cmd C :=
  if SS =? CC then fft (kfftp t sg) W W
  else cfor m (fun s => fft (kfftp t sg) (W + SS * s) (W + SS * s)).

(** convolve.cc:3358-3485 *)
Definition cforwardInnerManyAll (f F : addr) : cmd C :=
  let g := f + b in
  Z <== zqp [p] ;;;
  let Zetanr := CONJ Z in
  Seq (ParFor 0 m (fun s => let Ss := SS * s in
         let v0 := f + Ss in let v1 := g + Ss in let v2 := F + Ss in
         pForR 0 CC (fun c =>
           V0 <- v0 + c ;; V1 <- v1 + c ;;
           let A := vmul Zetanr (UNPACKL V0 V0) in
           let B := ZMULTI (vmul Zetanr (UNPACKH V0 V0)) in
           v0 + c ::= vadd V0 V1 ;;
           v1 + c ::= vadd (vadd A B) V1 ;;
           v2 + c ::= vadd (CONJ (vsub A B)) V1 ;; Ret)))
 (Seq (ParFor 1 p2 (fun t' => let tm := t' * Sm in
         let v0 := f + tm in let v1 := g + tm in let v2 := F + tm in
         Zeta <~ zqp [p2 + t'] ;;
         let Zetam := ZMULT Zeta Zetanr in
         pForR 0 m (fun s => let Ss := SS * s in
           pForR 0 CC (fun c =>
             V0 <- v0 + Ss + c ;; V1 <- v1 + Ss + c ;;
             let A := vadd (vmul Zetam (UNPACKL V0 V0)) (vmul Zeta (UNPACKL V1 V1)) in
             let B := ZMULTI (vadd (vmul Zetam (UNPACKH V0 V0)) (vmul Zeta (UNPACKH V1 V1))) in
             v0 + Ss + c ::= vadd V0 V1 ;;
             v1 + Ss + c ::= vadd A B ;;
             v2 + Ss + c ::= CONJ (vsub A B) ;; Ret))))
 (Seq (if SS =? CC then
         Seq (fft (kfftp t 1) f f) (Seq (fft (kfftp t 1) g g) (fft (kfftp t 1) F F))
       else cfor m (fun s => let Ss := SS * s in
         Seq (fft (kfftp t 1) (f + Ss) (f + Ss))
        (Seq (fft (kfftp t 1) (g + Ss) (g + Ss)) (fft (kfftp t 1) (F + Ss) (F + Ss)))))
 (Seq (ParFor 1 m (fun s => Zeta <~ zqm [m + s] ;;
         let gs := g + SS * s in let Fs := F + SS * s in
         pForR 0 CC (fun c =>
           x <- gs + c ;; gs + c ::= Cmul x Zeta ;;
           y <- Fs + c ;; Fs + c ::= Cmul y (Cconj Zeta) ;; Ret)))
 (Seq (ParFor 1 p2 (fun u => let Smu := Sm * u in let nmu := n * m * u in
         pseq (pForR 1 m (fun s => z <~ zqm [nmu + s] ;; let fus := f + Smu + SS * s in
                 pForR 0 CC (fun c => x <- fus + c ;; fus + c ::= Cmul x z ;; Ret)))
        (pseq (pForR 1 m (fun s => z <~ zqm [nmu + m + s] ;; let Wus := g + Smu + SS * s in
                 pForR 0 CC (fun c => x <- Wus + c ;; Wus + c ::= Cmul x z ;; Ret)))
              (pForR 1 m (fun s => z <~ zqm [nmu - m + s] ;; let Vus := F + Smu + SS * s in
                 pForR 0 CC (fun c => x <- Vus + c ;; Vus + c ::= Cmul x z ;; Ret))))))
      (cfor p2 (fun t' => let Smt := Sm * t' in
         Seq (fft (kfftm t 1) (f + Smt) (f + Smt))
        (Seq (fft (kfftm t 1) (g + Smt) (g + Smt)) (fft (kfftm t 1) (F + Smt) (F + Smt))))))))).

(** convolve.cc:3487-3688 *)
Definition cforwardInnerMany (f F : addr) (r : nat) (W : option addr) : cmd C :=
  let W := getW F W in
  let fH := f + SS * kH in let m0 := km0 in let m1 := km1 in let p2s1Sm := SS * (p2s1 * m) in
  let Sm0 := SS * m0 in
  Seq
  (if r =? 0 then
     Seq (ParFor 0 m0 (fun s => let Ws := W + SS * s in let fHs := fH + SS * s in
            pForR 0 CC (fun c => x <- fHs + c ;; Ws + c ::= x ;; Ret)))
    (Seq (ParFor m0 m (fun s => let Ws := W + SS * s in
            let fm0s := f + SS * s - Sm0 in let fHs := fH + SS * s in
            pForR 0 CC (fun c => x <- fm0s + c ;; y <- fHs + c ;; Ws + c ::= Cadd x y ;; Ret)))
    (Seq (ParFor 1 p2s1 (fun t' => let tm := t' * Sm in
            pForR 0 m (fun s => let Ss := SS * s in
              pForR 0 CC (fun c => x <- f + tm - Sm0 + Ss + c ;; y <- fH + tm + Ss + c ;;
                W + tm + Ss + c ::= Cadd x y ;; Ret))))
    (Seq (ParFor 0 m1 (fun s => let Ss := SS * s in
            pForR 0 CC (fun c => x <- f + p2s1Sm - Sm0 + Ss + c ;; y <- fH + p2s1Sm + Ss + c ;;
              W + p2s1Sm + Ss + c ::= Cadd x y ;; Ret)))
    (Seq (ParFor m1 m (fun s => let Ss := SS * s in
            pForR 0 CC (fun c => x <- f + p2s1Sm - Sm0 + Ss + c ;;
              W + p2s1Sm + Ss + c ::= x ;; Ret)))
    (Seq (cfftpAll 1 W)
         (cfor (p2 - 1) (fun u' => let u := 1 + u' in
            ParFor 1 m (fun s => let Wus := W + u * Sm + SS * s in
              Zeta <~ zqm [m * n * u + s] ;;
              let X := UNPACKL Zeta Zeta in let Y := UNPACKH Zeta (vneg Zeta) in
              pForR 0 CC (fun c => x <- Wus + c ;; Wus + c ::= ZMULTxy X Y x ;; Ret)))))))))
   else
     let Zq := p2 * r in
     Z <== zqp [Zq + p2] ;;;
     let Zetanr := CONJ Z in
     Seq (ParFor 0 m0 (fun s => let Ws := W + SS * s in let fHs := fH + SS * s in
            pForR 0 CC (fun c => x <- fHs + c ;; Ws + c ::= x ;; Ret)))
    (let X := UNPACKL Zetanr Zetanr in let Y := UNPACKH Zetanr (vneg Zetanr) in
     Seq (ParFor m0 m (fun s => let Ws := W + SS * s in
            let fm0s := f + SS * s - Sm0 in let fHs := fH + SS * s in
            pForR 0 CC (fun c => x <- fm0s + c ;; y <- fHs + c ;;
              Ws + c ::= vadd (ZMULTxy X Y x) y ;; Ret)))
    (Seq (ParFor 1 p2s1 (fun t' => let tm := t' * Sm in
            Zeta <~ zqp [Zq + t'] ;;
            let Zetam := ZMULT Zeta Zetanr in
            let Xm := UNPACKL Zetam Zetam in let Ym := UNPACKH Zetam (vneg Zetam) in
            let X := UNPACKL Zeta Zeta in let Y := UNPACKH Zeta (vneg Zeta) in
            pForR 0 m (fun s => let Ss := SS * s in
              pForR 0 CC (fun c => x <- f + tm - Sm0 + Ss + c ;; y <- fH + tm + Ss + c ;;
                W + tm + Ss + c ::= vadd (ZMULTxy Xm Ym x) (ZMULTxy X Y y) ;; Ret))))
    (Zeta <== zqp [Zq + p2s1] ;;;
     let Zetam := ZMULT Zeta Zetanr in
     let Xm := UNPACKL Zetam Zetam in let Ym := UNPACKH Zetam (vneg Zetam) in
     let X := UNPACKL Zeta Zeta in let Y := UNPACKH Zeta (vneg Zeta) in
     Seq (ParFor 0 m1 (fun s => let Ss := SS * s in
            pForR 0 CC (fun c => x <- f + p2s1Sm - Sm0 + Ss + c ;; y <- fH + p2s1Sm + Ss + c ;;
              W + p2s1Sm + Ss + c ::= vadd (ZMULTxy Xm Ym x) (ZMULTxy X Y y) ;; Ret)))
    (Seq (ParFor m1 m (fun s => let Ss := SS * s in
            pForR 0 CC (fun c => x <- f + p2s1Sm - Sm0 + Ss + c ;;
              W + p2s1Sm + Ss + c ::= ZMULTxy Xm Ym x ;; Ret)))
    (Seq (cfftpAll 1 W)
         (cfor p2 (fun u => let mu := m * u in
            ParFor 1 m (fun s => let Wus := W + SS * mu + SS * s in
              Zeta <~ zqm [n * mu + m * r + s] ;;
              let X := UNPACKL Zeta Zeta in let Y := UNPACKH Zeta (vneg Zeta) in
              pForR 0 CC (fun c => x <- Wus + c ;; Wus + c ::= ZMULTxy X Y x ;; Ret))))))))))
  (cfor p2 (fun t' => let Smt := Sm * t' in fft (kfftm t 1) (W + Smt) (F + Smt))).

(** convolve.cc:3690-3770 *)
Definition cbackwardInnerAll (F f : addr) : cmd C :=
  let g := f + b in
  Seq (fft (kfftm t (-1)) f f)
 (Seq (fft (kfftm t (-1)) g g)
 (Seq (fft (kfftm t (-1)) F F)
 (Zetanr <== zqp [p] ;;;
  Seq (ParFor 1 m (fun s => Zeta <~ zqm [m + s] ;;
         x <- g + s ;; g + s ::= Cmul x (Cconj Zeta) ;;
         y <- F + s ;; F + s ::= Cmul y Zeta ;; Ret))
 (Seq (ParFor 1 p2 (fun u => let mu := m * u in
         pseq (pForR 1 m (fun s => x <- f + mu + s ;; z <~ zqm [n * mu + s] ;;
                 f + mu + s ::= Cmul x (Cconj z) ;; Ret))
        (pseq (pForR 1 m (fun s => x <- g + mu + s ;; z <~ zqm [n * mu + m + s] ;;
                 g + mu + s ::= Cmul x (Cconj z) ;; Ret))
              (pForR 1 m (fun s => x <- F + mu + s ;; z <~ zqm [n * mu - m + s] ;;
                 F + mu + s ::= Cmul x (Cconj z) ;; Ret)))))
 (Seq (fft (kfftp t (-1)) f f)
 (Seq (fft (kfftp t (-1)) g g)
 (Seq (fft (kfftp t (-1)) F F)
 (let Xm := UNPACKL Zetanr Zetanr in let Ym := UNPACKH Zetanr (vneg Zetanr) in
  Seq (ParFor 0 m (fun s =>
         let v0s := f + s in let v1s := g + s in
         V0 <- v0s ;; V1 <- v1s ;; V2 <- F + s ;;
         v0s ::= vadd V0 (ZMULT2xy Xm Ym V1 V2) ;;
         v1s ::= vadd (vadd V0 V1) V2 ;; Ret))
      (ParFor 1 p2 (fun t' => let tm := t' * m in
         let v0 := f + tm in let v1 := g + tm in let v2 := F + tm in
         Zeta <~ zqp [p2 + t'] ;;
         let X := UNPACKL Zeta Zeta in let Y := UNPACKH Zeta (vneg Zeta) in
         let Zeta2 := ZMULTxy X (vneg Y) Zetanr in
         let Xm := UNPACKL Zeta2 Zeta2 in let Ym := UNPACKH Zeta2 (vneg Zeta2) in
         pForR 0 m (fun s =>
           V0 <- v0 + s ;; V1 <- v1 + s ;; V2 <- v2 + s ;;
           v0 + s ::= vadd V0 (ZMULT2xy Xm Ym V1 V2) ;;
           v1 + s ::= vadd V0 (ZMULT2xy X Y V2 V1) ;; Ret))))))))))).

(** convolve.cc:3803-3845: residue 0 of backwardInner (D=1 or n odd) *)
Definition cbackwardInner_zero1 (f W : addr) : cmd C :=
  let fH := f + kH in let m0 := km0 in let m1 := km1 in let p2s1m := p2s1 * m in
  Seq (cfor (p2 - 1) (fun u' => let u := 1 + u' in
         ParFor 1 m (fun s => x <- W + u * m + s ;; z <~ zqm [m * n * u + s] ;;
           W + u * m + s ::= Cmul x (Cconj z) ;; Ret)))
 (Seq (fft (kfftp t (-1)) W W)
 (Seq (ParFor 0 m0 (fun s => x <- W + s ;; fH + s ::= x ;; Ret))
 (Seq (ParFor m0 m (fun s => x <- W + s ;; f + s - m0 ::= x ;; y <- f + s - m0 ;; fH + s ::= y ;; Ret))
 (Seq (cfor (p2s1 - 1) (fun t0 => let tm := (1 + t0) * m in
         ParFor 0 m (fun s => x <- W + tm + s ;; f + tm - m0 + s ::= x ;;
           y <- f + tm - m0 + s ;; fH + tm + s ::= y ;; Ret)))
 (Seq (ParFor 0 m1 (fun s => x <- W + p2s1m + s ;; f + p2s1m - m0 + s ::= x ;;
         y <- f + p2s1m - m0 + s ;; fH + p2s1m + s ::= y ;; Ret))
      (ParFor m1 m (fun s => x <- W + p2s1m + s ;; f + p2s1m - m0 + s ::= x ;; Ret))))))).

(** convolve.cc:3847-3925: residues 0 and n/2 of backwardInner (D>1 and n even) *)
Definition cbackwardInner_zero2 (f W : addr) : cmd C :=
  let fH := f + kH in let m0 := km0 in let m1 := km1 in let p2s1m := p2s1 * m in
  let n2 := n / 2 in
  let V := W + b in
  let Zq := p2 * n2 in
  Seq (ParFor 1 m (fun s => x <- V + s ;; z <~ zqm [m * n2 + s] ;; V + s ::= Cmul x (Cconj z) ;; Ret))
 (Seq (ParFor 1 p2 (fun u => let mu := m * u in
         pseq (pForR 1 m (fun s => x <- W + mu + s ;; z <~ zqm [m * n * u + s] ;;
                 W + mu + s ::= Cmul x (Cconj z) ;; Ret))
              (pForR 1 m (fun s => x <- V + mu + s ;; z <~ zqm [m * n * u + m * n2 + s] ;;
                 V + mu + s ::= Cmul x (Cconj z) ;; Ret))))
 (Seq (fft (kfftp t (-1)) W W)
 (Seq (fft (kfftp t (-1)) V V)
 (Seq (ParFor 0 m0 (fun s => x <- W + s ;; y <- V + s ;; fH + s ::= Cadd x y ;; Ret))
 (Seq (ParFor m0 m (fun s => x <- W + s ;; y <- V + s ;;
         f + s - m0 ::= Csub x y ;; fH + s ::= Cadd x y ;; Ret))
 (Seq (ParFor 1 p2s1 (fun t' => let tm := t' * m in
         z <~ zqp [Zq + t'] ;;
         let Zeta := Cconj z in
         pForR 0 m (fun s => x <- W + tm + s ;; y <- V + tm + s ;;
           f + tm - m0 + s ::= Csub x (Cmul Zeta y) ;;
           fH + tm + s ::= Cadd x (Cmul Zeta y) ;; Ret)))
 (z <== zqp [Zq + p2s1] ;;;
  let Zeta := Cconj z in
  Seq (ParFor 0 m1 (fun s => x <- W + p2s1m + s ;; y <- V + p2s1m + s ;;
         f + p2s1m - m0 + s ::= Csub x (Cmul Zeta y) ;;
         fH + p2s1m + s ::= Cadd x (Cmul Zeta y) ;; Ret))
      (ParFor m1 m (fun s => x <- W + p2s1m + s ;; y <- V + p2s1m + s ;;
         f + p2s1m - m0 + s ::= Csub x (Cmul Zeta y) ;; Ret))))))))).

(** convolve.cc:3932-4004 (D=1): residue r of backwardInner, read from W *)
Definition cbackwardInner_residue1 (f W : addr) (r : nat) : cmd C :=
  let fH := f + kH in let m0 := km0 in let m1 := km1 in let p2s1m := p2s1 * m in
  let Zq := p2 * r in
  Zetanr <== zqp [Zq + p2] ;;;
  let Zr := m * r in
  Seq (ParFor 1 m (fun s => x <- W + s ;; z <~ zqm [Zr + s] ;; W + s ::= Cmul x (Cconj z) ;; Ret))
 (Seq (ParFor 1 p2 (fun u => let mu := m * u in
         pForR 1 m (fun s => x <- W + mu + s ;; z <~ zqm [Zr + n * mu + s] ;;
           W + mu + s ::= Cmul x (Cconj z) ;; Ret)))
 (Seq (fft (kfftp t (-1)) W W)
 (Seq (ParFor 0 m0 (fun s => x <- fH + s ;; y <- W + s ;; fH + s ::= Cadd x y ;; Ret))
 (let Xm := UNPACKL Zetanr Zetanr in let Ym := UNPACKH Zetanr (vneg Zetanr) in
  Seq (ParFor m0 m (fun s => Fts <- W + s ;;
         x <- f + s - m0 ;; f + s - m0 ::= vadd x (ZMULTxy Xm Ym Fts) ;;
         y <- fH + s ;; fH + s ::= vadd y Fts ;; Ret))
 (Seq (ParFor 1 p2s1 (fun t' => let tm := t' * m in
         Zeta <~ zqp [Zq + t'] ;;
         let X := UNPACKL Zeta Zeta in let Y := UNPACKH (vneg Zeta) Zeta in
         let Zeta2 := ZMULTxy X Y Zetanr in
         let Xm := UNPACKL Zeta2 Zeta2 in let Ym := UNPACKH Zeta2 (vneg Zeta2) in
         pForR 0 m (fun s => Fts <- W + tm + s ;;
           x <- f + tm - m0 + s ;; f + tm - m0 + s ::= vadd x (ZMULTxy Xm Ym Fts) ;;
           y <- fH + tm + s ;; fH + tm + s ::= vadd y (ZMULTxy X Y Fts) ;; Ret)))
 (Zeta <== zqp [Zq + p2s1] ;;;
  let X := UNPACKL Zeta Zeta in let Y := UNPACKH (vneg Zeta) Zeta in
  let Zeta2 := ZMULTxy X Y Zetanr in
  let Xm := UNPACKL Zeta2 Zeta2 in let Ym := UNPACKH Zeta2 (vneg Zeta2) in
  Seq (ParFor 0 m1 (fun s => Fts <- W + p2s1m + s ;;
         x <- f + p2s1m - m0 + s ;; f + p2s1m - m0 + s ::= vadd x (ZMULTxy Xm Ym Fts) ;;
         y <- fH + p2s1m + s ;; fH + p2s1m + s ::= vadd y (ZMULTxy X Y Fts) ;; Ret))
      (ParFor m1 m (fun s => x <- f + p2s1m - m0 + s ;; Fts <- W + p2s1m + s ;;
         f + p2s1m - m0 + s ::= vadd x (ZMULTxy Xm Ym Fts) ;; Ret)))))))).

(** convolve.cc:4006-4104 (D>1): residues r and -r of backwardInner, read from F and G=F+b *)
Definition cbackwardInner_residue2 (f F : addr) (r : nat) : cmd C :=
  let fH := f + kH in let m0 := km0 in let m1 := km1 in let p2s1m := p2s1 * m in
  let Zq := p2 * r in
  Zetanr <== zqp [Zq + p2] ;;;
  let G := F + b in
  let mr := m * r in
  Seq (ParFor 1 m (fun s => Zeta <~ zqm [mr + s] ;;
         x <- F + s ;; F + s ::= Cmul x (Cconj Zeta) ;;
         y <- G + s ;; G + s ::= Cmul y Zeta ;; Ret))
 (Seq (ParFor 1 p2 (fun u => let mu := m * u in
         pseq (pForR 1 m (fun s => x <- F + mu + s ;; z <~ zqm [n * mu + mr + s] ;;
                 F + mu + s ::= Cmul x (Cconj z) ;; Ret))
              (pForR 1 m (fun s => x <- G + mu + s ;; z <~ zqm [n * mu - mr + s] ;;
                 G + mu + s ::= Cmul x (Cconj z) ;; Ret))))
 (Seq (fft (kfftp t (-1)) F F)
 (Seq (fft (kfftp t (-1)) G G)
 (Seq (ParFor 0 m0 (fun s => x <- fH + s ;; y <- F + s ;; z <- G + s ;;
         fH + s ::= Cadd x (Cadd y z) ;; Ret))
 (let Xm := UNPACKL Zetanr Zetanr in let Ym := UNPACKH Zetanr (vneg Zetanr) in
  Seq (ParFor m0 m (fun s => Fts <- F + s ;; Gts <- G + s ;;
         x <- f + s - m0 ;; f + s - m0 ::= vadd x (ZMULT2xy Xm Ym Fts Gts) ;;
         y <- fH + s ;; fH + s ::= vadd (vadd y Fts) Gts ;; Ret))
 (Seq (ParFor 1 p2s1 (fun t' => let tm := t' * m in
         Zeta <~ zqp [Zq + t'] ;;
         let X := UNPACKL Zeta Zeta in let Y := UNPACKH Zeta (vneg Zeta) in
         let Zeta2 := ZMULTxy X (vneg Y) Zetanr in
         let Xm := UNPACKL Zeta2 Zeta2 in let Ym := UNPACKH Zeta2 (vneg Zeta2) in
         pForR 0 m (fun s => Fts <- F + tm + s ;; Gts <- G + tm + s ;;
           x <- f + tm - m0 + s ;; f + tm - m0 + s ::= vadd x (ZMULT2xy Xm Ym Fts Gts) ;;
           y <- fH + tm + s ;; fH + tm + s ::= vadd y (ZMULT2xy X Y Gts Fts) ;; Ret)))
 (Zeta <== zqp [Zq + p2s1] ;;;
  let X := UNPACKL Zeta Zeta in let Y := UNPACKH Zeta (vneg Zeta) in
  let Zeta2 := ZMULTxy X (vneg Y) Zetanr in
  let Xm := UNPACKL Zeta2 Zeta2 in let Ym := UNPACKH Zeta2 (vneg Zeta2) in
  Seq (ParFor 0 m1 (fun s => Fts <- F + p2s1m + s ;; Gts <- G + p2s1m + s ;;
         x <- f + p2s1m - m0 + s ;; f + p2s1m - m0 + s ::= vadd x (ZMULT2xy Xm Ym Fts Gts) ;;
         y <- fH + p2s1m + s ;; fH + p2s1m + s ::= vadd y (ZMULT2xy X Y Gts Fts) ;; Ret))
      (ParFor m1 m (fun s => x <- f + p2s1m - m0 + s ;; Fts <- F + p2s1m + s ;; Gts <- G + p2s1m + s ;;
         f + p2s1m - m0 + s ::= vadd x (ZMULT2xy Xm Ym Fts Gts) ;; Ret))))))))).

(** convolve.cc:3772-4106 *)
Definition cbackwardInner (F0 f : addr) (r0 : nat) (W : option addr) : cmd C :=
  let W := getW F0 W in
  let tail (W : addr) (r0 dr0 : nat) :=
    if D =? 1 then (if 0 <? dr0 then cbackwardInner_residue1 f W r0 else Skip)
    else cfor dr0 (fun d => cbackwardInner_residue2 f (W + 2 * b * d) (r0 + d)) in
  Seq (fft (if (0 <? r0) || (D0 =? D) then kfftm t (-1) else kfftm0 t (-1)) F0 W)
  (if r0 =? 0 then
     let n2 := n / 2 in
     if (D =? 1) || (2 * n2 <? n) then
       let residues := 1 in
       Seq (cbackwardInner_zero1 f W) (tail (W + residues * b) 1 ((D0 - residues) / 2))
     else
       let residues := 2 in
       Seq (cbackwardInner_zero2 f W) (tail (W + residues * b) 1 ((D0 - residues) / 2))
   else tail W r0 dr).

(** convolve.cc:4108-4229 *)
Definition cbackwardInnerManyAll (F f : addr) : cmd C :=
  let g := f + b in
  Seq (cfor p2 (fun t' => let Smt := Sm * t' in
         Seq (fft (kfftm t (-1)) (f + Smt) (f + Smt))
        (Seq (fft (kfftm t (-1)) (g + Smt) (g + Smt)) (fft (kfftm t (-1)) (F + Smt) (F + Smt)))))
 (Zetanr <== zqp [p] ;;;
  Seq (ParFor 1 m (fun s => Zeta <~ zqm [m + s] ;;
         let gs := g + SS * s in let Fs := F + SS * s in
         pForR 0 CC (fun c =>
           x <- gs + c ;; gs + c ::= Cmul x (Cconj Zeta) ;;
           y <- Fs + c ;; Fs + c ::= Cmul y Zeta ;; Ret)))
 (Seq (ParFor 1 p2 (fun u => let Smu := Sm * u in let nmu := n * m * u in
         pseq (pForR 1 m (fun s => z <~ zqm [nmu + s] ;; let fus := f + Smu + SS * s in
                 pForR 0 CC (fun c => x <- fus + c ;; fus + c ::= Cmul x (Cconj z) ;; Ret)))
        (pseq (pForR 1 m (fun s => z <~ zqm [nmu + m + s] ;; let Wus := g + Smu + SS * s in
                 pForR 0 CC (fun c => x <- Wus + c ;; Wus + c ::= Cmul x (Cconj z) ;; Ret)))
              (pForR 1 m (fun s => z <~ zqm [nmu - m + s] ;; let Vus := F + Smu + SS * s in
                 pForR 0 CC (fun c => x <- Vus + c ;; Vus + c ::= Cmul x (Cconj z) ;; Ret))))))
 (Seq (if SS =? CC then
         Seq (fft (kfftp t (-1)) f f) (Seq (fft (kfftp t (-1)) g g) (fft (kfftp t (-1)) F F))
       else cfor m (fun s => let Ss := SS * s in
         Seq (fft (kfftp t (-1)) (f + Ss) (f + Ss))
        (Seq (fft (kfftp t (-1)) (g + Ss) (g + Ss)) (fft (kfftp t (-1)) (F + Ss) (F + Ss)))))
 (let Xm := UNPACKL Zetanr Zetanr in let Ym := UNPACKH Zetanr (vneg Zetanr) in
  Seq (ParFor 0 m (fun s => let Ss := SS * s in
         let v0 := f + Ss in let v1 := g + Ss in let v2 := F + Ss in
         pForR 0 CC (fun c =>
           V0 <- v0 + c ;; V1 <- v1 + c ;; V2 <- v2 + c ;;
           v0 + c ::= vadd V0 (ZMULT2xy Xm Ym V1 V2) ;;
           v1 + c ::= vadd (vadd V0 V1) V2 ;; Ret)))
      (ParFor 1 p2 (fun t' => let tm := t' * Sm in
         let v0 := f + tm in let v1 := g + tm in let v2 := F + tm in
         Zeta <~ zqp [p2 + t'] ;;
         let X := UNPACKL Zeta Zeta in let Y := UNPACKH Zeta (vneg Zeta) in
         let Zeta2 := ZMULTxy X (vneg Y) Zetanr in
         let Xm := UNPACKL Zeta2 Zeta2 in let Ym := UNPACKH Zeta2 (vneg Zeta2) in
         pForR 0 m (fun s => let Ss := SS * s in
           pForR 0 CC (fun c =>
             V0 <- v0 + Ss + c ;; V1 <- v1 + Ss + c ;; V2 <- v2 + Ss + c ;;
             v0 + Ss + c ::= vadd V0 (ZMULT2xy Xm Ym V1 V2) ;;
             v1 + Ss + c ::= vadd V0 (ZMULT2xy X Y V2 V1) ;; Ret)))))))).

(** convolve.cc:4231-4446 *)
Definition cbackwardInnerMany (F f : addr) (r : nat) (W : option addr) : cmd C :=
  let W := getW F W in
  let fH := f + SS * kH in let m0 := km0 in let m1 := km1 in let p2s1Sm := SS * (p2s1 * m) in
  let Sm0 := SS * m0 in
  Seq (cfor p2 (fun t' => let Smt := Sm * t' in fft (kfftm t (-1)) (F + Smt) (W + Smt)))
  (if r =? 0 then
     Seq (cfor (p2 - 1) (fun u' => let u := 1 + u' in
            ParFor 1 m (fun s => let Wus := W + u * Sm + SS * s in
              Zeta <~ zqm [m * n * u + s] ;;
              let X := UNPACKL Zeta Zeta in let Y := UNPACKH (vneg Zeta) Zeta in
              pForR 0 CC (fun c => x <- Wus + c ;; Wus + c ::= ZMULTxy X Y x ;; Ret))))
    (Seq (cfftpAll (-1) W)
    (Seq (ParFor 0 m0 (fun s => let Ws := W + SS * s in let fHs := fH + SS * s in
            pForR 0 CC (fun c => x <- Ws + c ;; fHs + c ::= x ;; Ret)))
    (Seq (ParFor m0 m (fun s => let Ws := W + SS * s in
            let fm0s := f + SS * s - Sm0 in let fHs := fH + SS * s in
            pForR 0 CC (fun c => x <- Ws + c ;; fm0s + c ::= x ;; y <- fm0s + c ;; fHs + c ::= y ;; Ret)))
    (Seq (ParFor 1 p2s1 (fun t' => let tm := t' * Sm in
            pForR 0 m (fun s => let Ss := SS * s in
              pForR 0 CC (fun c => x <- W + tm + Ss + c ;; f + tm - Sm0 + Ss + c ::= x ;;
                y <- f + tm - Sm0 + Ss + c ;; fH + tm + Ss + c ::= y ;; Ret))))
    (Seq (ParFor 0 m1 (fun s => let Ss := SS * s in
            pForR 0 CC (fun c => x <- W + p2s1Sm + Ss + c ;; f + p2s1Sm - Sm0 + Ss + c ::= x ;;
              y <- f + p2s1Sm - Sm0 + Ss + c ;; fH + p2s1Sm + Ss + c ::= y ;; Ret)))
         (ParFor m1 m (fun s => let Ss := SS * s in
            pForR 0 CC (fun c => x <- W + p2s1Sm + Ss + c ;; f + p2s1Sm - Sm0 + Ss + c ::= x ;; Ret))))))))
   else
     let Zq := p2 * r in
     Zetanr <== zqp [Zq + p2] ;;;
     Seq (cfor p2 (fun u => let mu := m * u in
            ParFor 1 m (fun s => let Wus := W + u * Sm + SS * s in
              Zeta <~ zqm [m * r + n * mu + s] ;;
              let X := UNPACKL Zeta Zeta in let Y := UNPACKH (vneg Zeta) Zeta in
              pForR 0 CC (fun c => x <- Wus + c ;; Wus + c ::= ZMULTxy X Y x ;; Ret))))
    (Seq (cfftpAll (-1) W)
    (Seq (ParFor 0 m0 (fun s => let Ws := W + SS * s in let fHs := fH + SS * s in
            pForR 0 CC (fun c => x <- fHs + c ;; y <- Ws + c ;; fHs + c ::= Cadd x y ;; Ret)))
    (let Xm := UNPACKL Zetanr Zetanr in let Ym := UNPACKH Zetanr (vneg Zetanr) in
     Seq (ParFor m0 m (fun s => let Ws := W + SS * s in
            let fm0s := f + SS * s - Sm0 in let fHs := fH + SS * s in
            pForR 0 CC (fun c => Ftsc <- Ws + c ;;
              x <- fm0s + c ;; fm0s + c ::= vadd x (ZMULTxy Xm Ym Ftsc) ;;
              y <- fHs + c ;; fHs + c ::= vadd y Ftsc ;; Ret)))
    (Seq (ParFor 1 p2s1 (fun t' => let tm := t' * Sm in
            Zeta <~ zqp [Zq + t'] ;;
            let X := UNPACKL Zeta Zeta in let Y := UNPACKH (vneg Zeta) Zeta in
            let Zeta2 := ZMULTxy X Y Zetanr in
            let Xm := UNPACKL Zeta2 Zeta2 in let Ym := UNPACKH Zeta2 (vneg Zeta2) in
            pForR 0 m (fun s => let Ss := SS * s in
              pForR 0 CC (fun c => Ftsc <- W + tm + Ss + c ;;
                x <- f + tm - Sm0 + Ss + c ;; f + tm - Sm0 + Ss + c ::= vadd x (ZMULTxy Xm Ym Ftsc) ;;
                y <- fH + tm + Ss + c ;; fH + tm + Ss + c ::= vadd y (ZMULTxy X Y Ftsc) ;; Ret))))
    (Zeta <== zqp [Zq + p2s1] ;;;
     let X := UNPACKL Zeta Zeta in let Y := UNPACKH (vneg Zeta) Zeta in
     let Zeta2 := ZMULTxy X Y Zetanr in
     let Xm := UNPACKL Zeta2 Zeta2 in let Ym := UNPACKH Zeta2 (vneg Zeta2) in
     Seq (ParFor 0 m1 (fun s => let Ss := SS * s in
            pForR 0 CC (fun c => Ftsc <- W + p2s1Sm + Ss + c ;;
              x <- f + p2s1Sm - Sm0 + Ss + c ;; f + p2s1Sm - Sm0 + Ss + c ::= vadd x (ZMULTxy Xm Ym Ftsc) ;;
              y <- fH + p2s1Sm + Ss + c ;; fH + p2s1Sm + Ss + c ::= vadd y (ZMULTxy X Y Ftsc) ;; Ret)))
         (ParFor m1 m (fun s => let Ss := SS * s in
            pForR 0 CC (fun c => x <- f + p2s1Sm - Sm0 + Ss + c ;; Ftsc <- W + p2s1Sm + Ss + c ;;
              f + p2s1Sm - Sm0 + Ss + c ::= vadd x (ZMULTxy Xm Ym Ftsc) ;; Ret))))))))).

(** The routine selected by init(), convolve.cc:503-658 and 2107-2144, called through
    forward()/backward() (convolve.h:247-253). *)
Definition cforward (f F : addr) (r : nat) (W : option addr) : cmd C :=
  if q =? 1 then
    (if M mod 2 =? 0 then
       (if SS =? 1 then cforwardExplicitFast f F W else cforwardExplicitManyFast f F W)
     else (if SS =? 1 then cforwardExplicitSlow f F W else cforwardExplicitManySlow f F W))
  else if 2 <? p then
    (if SS =? 1 then (if koverwrite t then cforwardInnerAll f F else cforwardInner f F r W)
     else (if koverwrite t then cforwardInnerManyAll f F else cforwardInnerMany f F r W))
  else
    (if SS =? 1 then (if koverwrite t then cforward2All f F else cforward2 f F r W)
     else (if koverwrite t then cforward2ManyAll f F else cforward2Many f F r W)).
Definition cbackward (F f : addr) (r : nat) (W : option addr) : cmd C :=
  if q =? 1 then
    (if M mod 2 =? 0 then
       (if SS =? 1 then cbackwardExplicitFast F f W else cbackwardExplicitManyFast F f W)
     else (if SS =? 1 then cbackwardExplicitSlow F f W else cbackwardExplicitManySlow F f W))
  else if 2 <? p then
    (if SS =? 1 then (if koverwrite t then cbackwardInnerAll F f else cbackwardInner F f r W)
     else (if koverwrite t then cbackwardInnerManyAll F f else cbackwardInnerMany F f r W))
  else
    (if SS =? 1 then (if koverwrite t then cbackward2All F f else cbackward2 F f r W)
     else (if koverwrite t then cbackward2ManyAll F f else cbackward2Many F f r W)).
End Kernels.
