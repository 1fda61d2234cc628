(** Model of the transform kernels of class fftPad, convolve.cc:729-2090.
    Pointers are addresses; W=None models the NULL default argument.
    The PARALLELIF thresholds are not modelled: [Par] covers both branches. *)
From Coq Require Import Reals ZArith Arith List Bool.
From Verif Require Import CNum Sums Roots Mem VecModel PadModel.

Section Kernels.
Variable t : pad.
Notation L := (gL t).  Notation CC := (gC t).  Notation SS := (gS t).  Notation m := (gm t).
Notation p := (gp t).  Notation q := (gq t).   Notation n := (gn t).   Notation M := (gM t).
Notation D := (gD t).  Notation D0 := (gD0 t). Notation dr := (gdr t). Notation b := (gb t).
Notation Sm := (gSm t). Notation inplace := (ainplace t).
Notation zqm := (Zetaqm t). Notation zqp := (Zetaqp t). Notation zqmS := (ZetaqmS t).

Definition getW (F : addr) (W : option addr) : addr :=
  match W with Some w => w | None => F end.         (* if(W == NULL) W=F; *)

(** convolve.cc:729-740 *)
Definition padSingle (W : addr) : cmd C :=
  let mp := m * p in
  cfor D (fun d => let F := W + m * d in
    ParFor L mp (fun s => F + s ::= C0 ;; Ret)).

(** convolve.cc:742-753 *)
Definition padMany (W : addr) : cmd C :=
  let mp := m * p in
  ParFor L mp (fun s => let F := W + SS * s in
    pForR 0 CC (fun c => F + c ::= C0 ;; Ret)).

(** convolve.cc:755-770 *)
Definition forwardExplicit (f F : addr) (W : option addr) : cmd C :=
  let W := getW F W in
  Seq (ParFor 0 L (fun s => x <- f + s ;; W + s ::= x ;; Ret))
 (Seq (ParFor L M (fun s => W + s ::= C0 ;; Ret))
      (fft (fftm t 1) W F)).

(** convolve.cc:772-782 *)
Definition backwardExplicit (F f : addr) (W : option addr) : cmd C :=
  let W := getW F W in
  Seq (fft (fftm t (-1)) F W)
      (ParFor 0 L (fun s => x <- W + s ;; f + s ::= x ;; Ret)).

(** convolve.cc:784-801 *)
Definition forwardExplicitMany (f F : addr) (W : option addr) : cmd C :=
  let W := getW F W in
  Seq (ParFor 0 L (fun s => let Ss := SS * s in let Ws := W + Ss in let fs := f + Ss in
         pForR 0 CC (fun c => x <- fs + c ;; Ws + c ::= x ;; Ret)))
 (Seq (padMany W)
      (fft (fftm t 1) W F)).

(** convolve.cc:803-818 *)
Definition backwardExplicitMany (F f : addr) (W : option addr) : cmd C :=
  let W := getW F W in
  Seq (fft (fftm t (-1)) F W)
      (ParFor 0 L (fun s => let Ss := SS * s in let fs := f + Ss in let Ws := W + Ss in
         pForR 0 CC (fun c => x <- Ws + c ;; fs + c ::= x ;; Ret))).

(** convolve.cc:820-831 *)
Definition forward1All (f F : addr) : cmd C :=
  Seq (Do (x <- f ;; F ::= x ;; Ret))
 (Seq (ParFor 1 m (fun s => z <~ zqm [m + s] ;; x <- f + s ;; F + s ::= Cmul z x ;; Ret))
 (Seq (fft (fftm t 1) f f)
      (fft (fftm t 1) F F))).

(** convolve.cc:887-941: the part of forward1 after residue 0 *)
Definition forward1_tail (f F0 W0 W : addr) (r0 dr0 : nat) (plan1 : plan) : cmd C :=
  Seq
   (if D =? 1 then
      if 0 <? dr0 then
        Seq (Do (x <- f ;; W ::= x ;; Ret))
       (Seq (ParFor 1 L (fun s => z <~ zqm [m * r0 + s] ;; x <- f + s ;;
                                  W + s ::= Cmul z x ;; Ret))
            (if inplace then ParFor L m (fun s => W + s ::= C0 ;; Ret) else Skip))
      else Skip
    else
      Seq (cfor dr0 (fun d =>
             let F := W + 2 * m * d in
             let G := F + m in
             let r := r0 + d in
             Seq (Do (x <- f ;; G ::= x ;; F ::= x ;; Ret))
                 (ParFor 1 L (fun s =>
                    Zeta <~ zqm [m * r + s] ;;
                    fs <- f + s ;;
                    let A := vmul Zeta (UNPACKL fs fs) in
                    let B := ZMULTI (vmul Zeta (UNPACKH fs fs)) in
                    F + s ::= vadd A B ;;
                    G + s ::= CONJ (vsub A B) ;; Ret))))
          (if inplace then
             cfor dr0 (fun d =>
               let F := W + 2 * m * d in
               let G := F + m in
               Seq (ParFor L m (fun s => F + s ::= C0 ;; Ret))
                   (ParFor L m (fun s => G + s ::= C0 ;; Ret)))
           else Skip))
   (fft plan1 W0 F0).

(** convolve.cc:833-942 *)
Definition forward1 (f F0 : addr) (r0 : nat) (W : option addr) : cmd C :=
  let W := getW F0 W in
  let W0 := W in
  if r0 =? 0 then
    let q2 := q / 2 in
    if (D =? 1) || (2 * q2 <? q) then
      if negb inplace && (D =? 1) && (m <=? L) then fft (fftm t 1) f F0
      else
        let residues := 1 in
        Seq (if W =? f then Skip
             else ParFor 0 L (fun s => x <- f + s ;; W + s ::= x ;; Ret))
       (Seq (if inplace then ParFor L m (fun s => W + s ::= C0 ;; Ret) else Skip)
            (forward1_tail f F0 W0 (W + residues * m) 1 ((D0 - residues) / 2)
               (if D0 =? D then fftm t 1 else fftm0 t 1)))
    else
      let residues := 2 in
      let V := W + m in
      Seq (Do (x <- f ;; W ::= x ;; V ::= x ;; Ret))
     (Seq (ParFor 1 L (fun s => fs <- f + s ;; z <~ zqm [m * q2 + s] ;;
                                W + s ::= fs ;; V + s ::= Cmul z fs ;; Ret))
     (Seq (if inplace then ParFor L m (fun s => V + s ::= C0 ;; Ret) else Skip)
     (Seq (if inplace then ParFor L m (fun s => W + s ::= C0 ;; Ret) else Skip)
          (forward1_tail f F0 W0 (W + residues * m) 1 ((D0 - residues) / 2)
               (if D0 =? D then fftm t 1 else fftm0 t 1)))))
  else forward1_tail f F0 W0 W r0 dr (fftm t 1).

(** convolve.cc:944-966 *)
Definition forward1ManyAll (f F : addr) : cmd C :=
  Seq (ParFor 0 CC (fun c => x <- f + c ;; F + c ::= x ;; Ret))
 (Seq (ParFor 1 m (fun s => let Ss := SS * s in let fs := f + Ss in let Fs := F + Ss in
         Zeta <~ zqm [m + s] ;;
         let X := UNPACKL Zeta Zeta in let Y := UNPACKH Zeta (vneg Zeta) in
         pForR 0 CC (fun c => x <- fs + c ;; Fs + c ::= ZMULTxy X Y x ;; Ret)))
 (Seq (fft (fftm t 1) f f)
      (fft (fftm t 1) F F))).

(** convolve.cc:968-1014 *)
Definition forward1Many (f F : addr) (r : nat) (W : option addr) : cmd C :=
  let W := getW F W in
  Seq (if inplace then
         ParFor L m (fun s => let Ws := W + SS * s in
           pForR 0 CC (fun c => Ws + c ::= C0 ;; Ret))
       else Skip)
  (if r =? 0 then
     if negb inplace && (m <=? L) && (SS =? CC) then fft (fftm t 1) f F
     else
       Seq (ParFor 0 L (fun s => let Ss := SS * s in let Ws := W + Ss in let fs := f + Ss in
              pForR 0 CC (fun c => x <- fs + c ;; Ws + c ::= x ;; Ret)))
           (fft (fftm t 1) W F)
   else
     Seq (ParFor 0 CC (fun c => x <- f + c ;; W + c ::= x ;; Ret))
    (Seq (ParFor 1 L (fun s => let Ss := SS * s in let Ws := W + Ss in let fs := f + Ss in
            Zeta <~ zqm [m * r + s] ;;
            let X := UNPACKL Zeta Zeta in let Y := UNPACKH Zeta (vneg Zeta) in
            pForR 0 CC (fun c => x <- fs + c ;; Ws + c ::= ZMULTxy X Y x ;; Ret)))
         (fft (fftm t 1) W F))).

(** convolve.cc:1016-1047 *)
Definition forward2All (f F : addr) : cmd C :=
  let g := f + m in
  Seq (Do (V1 <- g ;; Zetam <~ zqmS [L] ;;
           let A := vmul Zetam (UNPACKL V1 V1) in
           let B := ZMULTI (vmul Zetam (UNPACKH V1 V1)) in
           V0 <- f ;;
           f ::= vadd V0 V1 ;;
           g ::= vadd (vadd V0 A) B ;;
           F ::= vadd V0 (CONJ (vsub A B)) ;; Ret))
 (Seq (ParFor 1 m (fun s =>
         let v0 := f + s in let v1 := g + s in
         V0 <- v0 ;; V1 <- v1 ;;
         Zeta <~ zqm [m + s] ;; Zetam <~ zqmS [L + s] ;;
         let A := vadd (vmul Zeta (UNPACKL V0 V0)) (vmul Zetam (UNPACKL V1 V1)) in
         let B := ZMULTI (vadd (vmul Zeta (UNPACKH V0 V0)) (vmul Zetam (UNPACKH V1 V1))) in
         v0 ::= vadd V0 V1 ;;
         v1 ::= vadd A B ;;
         F + s ::= CONJ (vsub A B) ;; Ret))
 (Seq (fft (fftm t 1) f f)
 (Seq (fft (fftm t 1) g g)
      (fft (fftm t 1) F F)))).

(** convolve.cc:1106-1180: the part of forward2 after residue 0 *)
Definition forward2_tail (f F0 W0 W : addr) (r0 dr0 : nat) (plan1 : plan) : cmd C :=
  let Lm := L - m in
  let fm := f + m in
  Seq
   (if D =? 1 then
      if 0 <? dr0 then
        Seq (Do (x <- f ;; z <~ zqmS [Lm * r0 + m] ;; y <- fm ;; W ::= Cadd x (Cmul z y) ;; Ret))
       (Seq (ParFor 1 Lm (fun s =>
               Zeta <~ zqm [m * r0 + s] ;; Zeta2 <~ zqmS [Lm * r0 + m + s] ;;
               fs <- f + s ;; fms <- fm + s ;;
               W + s ::= vadd (ZMULT Zeta fs) (ZMULT Zeta2 fms) ;; Ret))
            (ParFor Lm m (fun s => z <~ zqm [m * r0 + s] ;; x <- f + s ;;
                                   W + s ::= Cmul z x ;; Ret)))
      else Skip
    else
      cfor dr0 (fun d =>
        let F := W + 2 * m * d in
        let G := F + m in
        let r := r0 + d in
        Seq (Do (fs <- f ;; fms <- fm ;; Zetam <~ zqmS [Lm * r + m] ;;
                 let A := vmul Zetam (UNPACKL fms fms) in
                 let B := ZMULTI (vmul Zetam (UNPACKH fms fms)) in
                 F ::= vadd (vadd fs A) B ;;
                 G ::= vadd fs (CONJ (vsub A B)) ;; Ret))
       (Seq (ParFor 1 Lm (fun s =>
               fs <- f + s ;; fms <- fm + s ;;
               Zeta <~ zqm [m * r + s] ;; Zetam <~ zqmS [Lm * r + m + s] ;;
               let A := vadd (vmul Zeta (UNPACKL fs fs)) (vmul Zetam (UNPACKL fms fms)) in
               let B := ZMULTI (vadd (vmul Zeta (UNPACKH fs fs)) (vmul Zetam (UNPACKH fms fms))) in
               F + s ::= vadd A B ;;
               G + s ::= CONJ (vsub A B) ;; Ret))
            (ParFor Lm m (fun s =>
               fs <- f + s ;; Zeta <~ zqm [m * r + s] ;;
               let A := vmul Zeta (UNPACKL fs fs) in
               let B := ZMULTI (vmul Zeta (UNPACKH fs fs)) in
               F + s ::= vadd A B ;;
               G + s ::= CONJ (vsub A B) ;; Ret)))))
   (fft plan1 W0 F0).

(** convolve.cc:1049-1181 *)
Definition forward2 (f F0 : addr) (r0 : nat) (W : option addr) : cmd C :=
  let W := getW F0 W in
  let W0 := W in
  let Lm := L - m in
  let fm := f + m in
  if r0 =? 0 then
    let q2 := q / 2 in
    if (D =? 1) || (2 * q2 <? q) then
      let residues := 1 in
      Seq (ParFor 0 Lm (fun s => x <- f + s ;; y <- fm + s ;; W + s ::= Cadd x y ;; Ret))
     (Seq (ParFor Lm m (fun s => x <- f + s ;; W + s ::= x ;; Ret))
          (forward2_tail f F0 W0 (W + residues * m) 1 ((D0 - residues) / 2)
             (if D0 =? D then fftm t 1 else fftm0 t 1)))
    else
      let residues := 2 in
      let V := W + m in
      Seq (Do (f0 <- f ;; fm0 <- fm ;; W ::= Cadd f0 fm0 ;; V ::= Csub f0 fm0 ;; Ret))
     (Seq (ParFor 1 Lm (fun s => fs <- f + s ;; fms <- fm + s ;;
             W + s ::= Cadd fs fms ;;
             z <~ zqm [m * q2 + s] ;;
             V + s ::= Cmul (Cconj z) (Csub fs fms) ;; Ret))
     (Seq (ParFor Lm m (fun s => fs <- f + s ;; W + s ::= fs ;;
             z <~ zqm [m * q2 + s] ;;
             V + s ::= Cmul (Cconj z) fs ;; Ret))
          (forward2_tail f F0 W0 (W + residues * m) 1 ((D0 - residues) / 2)
             (if D0 =? D then fftm t 1 else fftm0 t 1))))
  else forward2_tail f F0 W0 W r0 dr (fftm t 1).

(** convolve.cc:1183-1226 *)
Definition forward2ManyAll (f F : addr) : cmd C :=
  let g := f + Sm in
  Seq (ParFor 0 CC (fun c =>
         Zetam <~ zqmS [L] ;;
         let v0 := f + c in let v1 := g + c in
         V1 <- v1 ;;
         let A := vmul Zetam (UNPACKL V1 V1) in
         let B := ZMULTI (vmul Zetam (UNPACKH V1 V1)) in
         V0 <- v0 ;;
         v0 ::= vadd V0 V1 ;;
         v1 ::= vadd (vadd V0 A) B ;;
         F + c ::= vadd V0 (CONJ (vsub A B)) ;; Ret))
 (Seq (ParFor 1 m (fun s =>
         let Ss := SS * s in
         let v0 := f + Ss in let v1 := g + Ss in let v2 := F + Ss in
         Zeta <~ zqm [m + s] ;; Zetam <~ zqmS [L + s] ;;
         pForR 0 CC (fun c =>
           V0 <- v0 + c ;; V1 <- v1 + c ;;
           let A := vadd (vmul Zeta (UNPACKL V0 V0)) (vmul Zetam (UNPACKL V1 V1)) in
           let B := ZMULTI (vadd (vmul Zeta (UNPACKH V0 V0)) (vmul Zetam (UNPACKH V1 V1))) in
           v0 + c ::= vadd V0 V1 ;;
           v1 + c ::= vadd A B ;;
           v2 + c ::= CONJ (vsub A B) ;; Ret)))
 (Seq (fft (fftm t 1) f f)
 (Seq (fft (fftm t 1) g g)
      (fft (fftm t 1) F F)))).

(** convolve.cc:1228-1287 *)
Definition forward2Many (f F : addr) (r : nat) (W : option addr) : cmd C :=
  let W := getW F W in
  let Lm := L - m in
  Seq
  (if r =? 0 then
     Seq (ParFor 0 Lm (fun s => let Ss := SS * s in
            let Fs := W + Ss in let fs := f + Ss in let fms := f + Sm + Ss in
            pForR 0 CC (fun c => x <- fs + c ;; y <- fms + c ;; Fs + c ::= Cadd x y ;; Ret)))
         (ParFor Lm m (fun s => let Ss := SS * s in
            let Fs := W + Ss in let fs := f + Ss in
            pForR 0 CC (fun c => x <- fs + c ;; Fs + c ::= x ;; Ret)))
   else
     let fm := f + Sm in
     Seq (ParFor 0 CC (fun c => Zeta2 <~ zqmS [Lm * r + m] ;;
            x <- f + c ;; y <- fm + c ;; W + c ::= Cadd x (Cmul Zeta2 y) ;; Ret))
    (Seq (ParFor 1 Lm (fun s => let Ss := SS * s in
            let Fs := W + Ss in let fs := f + Ss in let fms := f + Sm + Ss in
            Zetars <~ zqm [m * r + s] ;; Zetarms <~ zqmS [Lm * r + m + s] ;;
            pForR 0 CC (fun c => x <- fs + c ;; y <- fms + c ;;
              Fs + c ::= Cadd (Cmul Zetars x) (Cmul Zetarms y) ;; Ret)))
         (ParFor Lm m (fun s => let Ss := SS * s in
            let Fs := W + Ss in let fs := f + Ss in
            Zetars <~ zqm [m * r + s] ;;
            pForR 0 CC (fun c => x <- fs + c ;; Fs + c ::= Cmul Zetars x ;; Ret)))))
  (fft (fftm t 1) W F).

(** convolve.cc:1348-1387: one residue r of forwardInner, written to F *)
Definition forwardInner_residue (f F : addr) (r : nat) : cmd C :=
  let pm1 := p - 1 in
  let mpm1 := m * pm1 in
  let stop := L - mpm1 in
  Seq (ParFor 0 m (fun s => x <- f + s ;; F + s ::= x ;; Ret))
 (Seq (ParFor 1 pm1 (fun t' => let mt := m * t' in
         let Ft := F + mt in let ft := f + mt in
         Zeta <~ zqp [pm1 * r + t'] ;;
         pForR 0 m (fun s => x <- ft + s ;; Ft + s ::= Cmul Zeta x ;; Ret)))
 (Seq (ParFor 0 stop (fun s => Zeta <~ zqp [pm1 * r + pm1] ;;
         x <- f + mpm1 + s ;; F + mpm1 + s ::= Cmul Zeta x ;; Ret))
 (Seq (ParFor stop m (fun s => F + mpm1 + s ::= C0 ;; Ret))
 (Seq (fft (fftp t 1) F F)
      (ParFor 0 p (fun t' => let R := n * t' + r in
         let Ft := F + m * t' in
         pForR 1 m (fun s => x <- Ft + s ;; z <~ zqm [m * R + s] ;;
           Ft + s ::= Cmul x z ;; Ret))))))).

(** convolve.cc:1289-1389 *)
Definition forwardInner (f F0 : addr) (r0 : nat) (W : option addr) : cmd C :=
  let W := getW F0 W in
  let W0 := W in
  let pm1 := p - 1 in
  let mpm1 := m * pm1 in
  let stop := L - mpm1 in
  let tail (W : addr) (r0 dr0 : nat) (plan1 : plan) :=
    Seq (cfor dr0 (fun d => forwardInner_residue f (W + b * d) (r0 + d)))
        (fft plan1 W0 F0) in
  if r0 =? 0 then
    Seq (ParFor 0 pm1 (fun t' => let mt := m * t' in
           let Ft := W + mt in let ft := f + mt in
           pForR 0 m (fun s => x <- ft + s ;; Ft + s ::= x ;; Ret)))
   (Seq (ParFor 0 stop (fun s => x <- f + mpm1 + s ;; W + mpm1 + s ::= x ;; Ret))
   (Seq (ParFor stop m (fun s => W + mpm1 + s ::= C0 ;; Ret))
   (Seq (fft (fftp t 1) W W)
   (Seq (ParFor 1 p (fun t' => let R := n * t' in
           let Ft := W + m * t' in
           pForR 1 m (fun s => x <- Ft + s ;; z <~ zqm [m * R + s] ;;
             Ft + s ::= Cmul x z ;; Ret)))
        (tail (W + b) 1 (D0 - 1) (if D0 =? D then fftm t 1 else fftm0 t 1))))))
  else tail W r0 dr (fftm t 1).

(** convolve.cc:1433-1437, 1504-1508: fftp over all columns *)
Definition fftpAll (sg : Z) (W : addr) : cmd C :=
  if SS =? CC then fft (fftp t sg) W W
  else cfor m (fun s => fft (fftp t sg) (W + SS * s) (W + SS * s)).

(** convolve.cc:1391-1528 *)
Definition forwardInnerMany (f F : addr) (r : nat) (W : option addr) : cmd C :=
  let W := getW F W in
  let pm1 := p - 1 in
  let stop := L - m * pm1 in
  Seq
  (if r =? 0 then
     Seq (ParFor 0 pm1 (fun t' => let Smt := Sm * t' in
            let Ft := W + Smt in let ft := f + Smt in
            pForR 0 m (fun s => let Ss := SS * s in
              let Fts := Ft + Ss in let fts := ft + Ss in
              pForR 0 CC (fun c => x <- fts + c ;; Fts + c ::= x ;; Ret))))
    (Seq (ParFor 0 stop (fun s => let Ss := SS * s in
            let Fts := W + Sm * pm1 + Ss in let fts := f + Sm * pm1 + Ss in
            pForR 0 CC (fun c => x <- fts + c ;; Fts + c ::= x ;; Ret)))
    (Seq (ParFor stop m (fun s =>
            let Fts := W + Sm * pm1 + SS * s in
            pForR 0 CC (fun c => Fts + c ::= C0 ;; Ret)))
    (Seq (fftpAll 1 W)
         (ParFor 1 p (fun t' => let R := n * t' in
            let Wt := W + Sm * t' in
            pForR 1 m (fun s => let Wts := Wt + SS * s in
              Zetars <~ zqm [m * R + s] ;;
              pForR 0 CC (fun c => x <- Wts + c ;; Wts + c ::= Cmul x Zetars ;; Ret)))))))
   else
     Seq (ParFor 0 m (fun s => let Ss := SS * s in
            let Ws := W + Ss in let fs := f + Ss in
            pForR 0 CC (fun c => x <- fs + c ;; Ws + c ::= x ;; Ret)))
    (Seq (ParFor 1 pm1 (fun t' => let Smt := Sm * t' in
            let Wt := W + Smt in let ft := f + Smt in
            Zeta <~ zqp [pm1 * r + t'] ;;
            pForR 0 m (fun s => let Ss := SS * s in
              let Wts := Wt + Ss in let fts := ft + Ss in
              pForR 0 CC (fun c => x <- fts + c ;; Wts + c ::= Cmul Zeta x ;; Ret))))
    (Seq (ParFor 0 stop (fun s => let Ss := SS * s in
            let Wts := W + Sm * pm1 + Ss in let fts := f + Sm * pm1 + Ss in
            Zeta <~ zqp [pm1 * r + pm1] ;;
            let X := UNPACKL Zeta Zeta in let Y := UNPACKH Zeta (vneg Zeta) in
            pForR 0 CC (fun c => x <- fts + c ;; Wts + c ::= ZMULTxy X Y x ;; Ret)))
    (Seq (ParFor stop m (fun s =>
            let Wts := W + Sm * pm1 + SS * s in
            pForR 0 CC (fun c => Wts + c ::= C0 ;; Ret)))
    (Seq (fftpAll 1 W)
         (ParFor 0 p (fun t' => let R := n * t' + r in
            let Ft := W + Sm * t' in
            pForR 1 m (fun s => let Fts := Ft + SS * s in
              Zetars <~ zqm [m * R + s] ;;
              let X := UNPACKL Zetars Zetars in let Y := UNPACKH Zetars (vneg Zetars) in
              pForR 0 CC (fun c => x <- Fts + c ;; Fts + c ::= ZMULTxy X Y x ;; Ret)))))))))
  (cfor p (fun t' => let Smt := Sm * t' in fft (fftm t 1) (W + Smt) (F + Smt))).

(** convolve.cc:1530-1542 *)
Definition backward1All (F f : addr) : cmd C :=
  Seq (fft (fftm t (-1)) f f)
 (Seq (fft (fftm t (-1)) F F)
 (Seq (Do (x <- f ;; y <- F ;; f ::= Cadd x y ;; Ret))
      (ParFor 1 m (fun s => x <- f + s ;; z <~ zqm [m + s] ;; y <- F + s ;;
         f + s ::= Cadd x (Cmul (Cconj z) y) ;; Ret)))).

(** convolve.cc:1582-1607: the part of backward1 after residue 0 *)
Definition backward1_tail (f W : addr) (r0 dr0 : nat) : cmd C :=
  if D =? 1 then
    if 0 <? dr0 then
      Seq (Do (x <- f ;; y <- W ;; f ::= Cadd x y ;; Ret))
          (ParFor 1 L (fun s => x <- f + s ;; z <~ zqm [m * r0 + s] ;; y <- W + s ;;
             f + s ::= Cadd x (Cmul (Cconj z) y) ;; Ret))
    else Skip
  else
    cfor dr0 (fun d =>
      let U := W + 2 * m * d in
      let V := U + m in
      let r := r0 + d in
      Seq (Do (x <- f ;; u <- U ;; v <- V ;; f ::= Cadd x (Cadd u v) ;; Ret))
          (ParFor 1 L (fun s =>
             Zeta <~ zqm [m * r + s] ;; Us <- U + s ;; Vs <- V + s ;;
             x <- f + s ;; f + s ::= vadd x (ZMULT2 Zeta Vs Us) ;; Ret))).

(** convolve.cc:1544-1608 *)
Definition backward1 (F0 f : addr) (r0 : nat) (W : option addr) : cmd C :=
  let W := getW F0 W in
  if (r0 =? 0) && negb inplace && (D =? 1) && (m <=? L) then fft (fftm t (-1)) F0 f
  else
    Seq (fft (if (0 <? r0) || (D0 =? D) then fftm t (-1) else fftm0 t (-1)) F0 W)
    (if r0 =? 0 then
       let q2 := q / 2 in
       if (D =? 1) || (2 * q2 <? q) then
         let residues := 1 in
         Seq (ParFor 0 L (fun s => x <- W + s ;; f + s ::= x ;; Ret))
             (backward1_tail f (W + residues * m) 1 ((D0 - residues) / 2))
       else
         let residues := 2 in
         let V := W + m in
         Seq (Do (x <- W ;; y <- V ;; f ::= Cadd x y ;; Ret))
        (Seq (ParFor 1 L (fun s => x <- W + s ;; z <~ zqm [m * q2 + s] ;; y <- V + s ;;
                f + s ::= Cadd x (Cmul (Cconj z) y) ;; Ret))
             (backward1_tail f (W + residues * m) 1 ((D0 - residues) / 2)))
     else backward1_tail f W r0 dr).

(** convolve.cc:1610-1633 *)
Definition backward1ManyAll (F f : addr) : cmd C :=
  Seq (fft (fftm t (-1)) f f)
 (Seq (fft (fftm t (-1)) F F)
 (Seq (ParFor 0 CC (fun c => x <- f + c ;; y <- F + c ;; f + c ::= Cadd x y ;; Ret))
      (ParFor 1 m (fun s => let Ss := SS * s in let fs := f + Ss in let Fs := F + Ss in
         Zeta <~ zqm [m + s] ;;
         let X := UNPACKL Zeta Zeta in let Y := UNPACKH (vneg Zeta) Zeta in
         pForR 0 CC (fun c => x <- fs + c ;; y <- Fs + c ;;
           fs + c ::= vadd x (ZMULTxy X Y y) ;; Ret))))).

(** convolve.cc:1635-1675 *)
Definition backward1Many (F f : addr) (r : nat) (W : option addr) : cmd C :=
  let W := getW F W in
  if (r =? 0) && negb inplace && (m <=? L) then fft (fftm t (-1)) F f
  else
    Seq (fft (fftm t (-1)) F W)
    (if r =? 0 then
       ParFor 0 L (fun s => let Ss := SS * s in let fs := f + Ss in let Fs := W + Ss in
         pForR 0 CC (fun c => x <- Fs + c ;; fs + c ::= x ;; Ret))
     else
       Seq (ParFor 0 CC (fun c => x <- f + c ;; y <- W + c ;; f + c ::= Cadd x y ;; Ret))
           (ParFor 1 L (fun s => let Ss := SS * s in let fs := f + Ss in let Fs := W + Ss in
              Zeta <~ zqm [m * r + s] ;;
              let X := UNPACKL Zeta Zeta in let Y := UNPACKH (vneg Zeta) Zeta in
              pForR 0 CC (fun c => x <- fs + c ;; y <- Fs + c ;;
                fs + c ::= vadd x (ZMULTxy X Y y) ;; Ret)))).

(** convolve.cc:1677-1704 *)
Definition backward2All (F f : addr) : cmd C :=
  let g := f + m in
  Seq (fft (fftm t (-1)) f f)
 (Seq (fft (fftm t (-1)) g g)
 (Seq (fft (fftm t (-1)) F F)
 (Seq (Do (V0 <- f ;; V1 <- g ;; V2 <- F ;;
           f ::= vadd (vadd V0 V1) V2 ;;
           z <~ zqmS [L] ;;
           g ::= vadd V0 (ZMULT2 z V2 V1) ;; Ret))
      (ParFor 1 m (fun s =>
         let v0 := f + s in let v1 := g + s in let v2 := F + s in
         V0 <- v0 ;; V1 <- v1 ;; V2 <- v2 ;;
         z <~ zqm [m + s] ;;
         v0 ::= vadd V0 (ZMULT2 z V2 V1) ;;
         z2 <~ zqmS [L + s] ;;
         v1 ::= vadd V0 (ZMULT2 z2 V2 V1) ;; Ret))))).

(** convolve.cc:1752-1795: the part of backward2 after residue 0.
    The pointers Wm=W-m, Um=U-m, Vm=V-m are only used at indices s >= m. *)
Definition backward2_tail (f W : addr) (r0 dr0 : nat) : cmd C :=
  let Lm := L - m in
  if D =? 1 then
    if 0 <? dr0 then
      Seq (Do (x <- f ;; y <- W ;; f ::= Cadd x y ;; Ret))
     (Seq (ParFor 1 m (fun s => x <- f + s ;; z <~ zqm [m * r0 + s] ;; y <- W + s ;;
             f + s ::= Cadd x (Cmul (Cconj z) y) ;; Ret))
          (ParFor m L (fun s => x <- f + s ;; z <~ zqmS [Lm * r0 + s] ;; y <- W + s - m ;;
             f + s ::= Cadd x (Cmul (Cconj z) y) ;; Ret)))
    else Skip
  else
    cfor dr0 (fun d =>
      let U := W + 2 * m * d in
      let V := U + m in
      let r := r0 + d in
      Seq (Do (x <- f ;; u <- U ;; v <- V ;; f ::= Cadd x (Cadd u v) ;; Ret))
     (Seq (ParFor 1 m (fun s =>
             x <- f + s ;; z <~ zqm [m * r + s] ;; v <- V + s ;; u <- U + s ;;
             f + s ::= vadd x (ZMULT2 z v u) ;; Ret))
          (ParFor m L (fun s =>
             x <- f + s ;; z <~ zqmS [Lm * r + s] ;; v <- V + s - m ;; u <- U + s - m ;;
             f + s ::= vadd x (ZMULT2 z v u) ;; Ret)))).

(** convolve.cc:1706-1795 *)
Definition backward2 (F0 f : addr) (r0 : nat) (W : option addr) : cmd C :=
  let W := getW F0 W in
  let Lm := L - m in
  Seq (fft (if (0 <? r0) || (D0 =? D) then fftm t (-1) else fftm0 t (-1)) F0 W)
  (if r0 =? 0 then
     let q2 := q / 2 in
     if (D =? 1) || (2 * q2 <? q) then
       let residues := 1 in
       Seq (ParFor 0 m (fun s => x <- W + s ;; f + s ::= x ;; Ret))
      (Seq (ParFor m L (fun s => x <- W + s - m ;; f + s ::= x ;; Ret))
           (backward2_tail f (W + residues * m) 1 ((D0 - residues) / 2)))
     else
       let residues := 2 in
       let V := W + m in
       Seq (Do (x <- W ;; y <- V ;; f ::= Cadd x y ;; Ret))
      (Seq (ParFor 1 m (fun s => x <- W + s ;; z <~ zqm [m * q2 + s] ;; y <- V + s ;;
              f + s ::= Cadd x (Cmul z y) ;; Ret))
      (Seq (ParFor m L (fun s => x <- W + s - m ;; z <~ zqmS [Lm * q2 + s] ;; y <- W + s ;;
              f + s ::= Cadd x (Cmul z y) ;; Ret))
           (backward2_tail f (W + residues * m) 1 ((D0 - residues) / 2))))
   else backward2_tail f W r0 dr).

(** convolve.cc:1797-1844 *)
Definition backward2ManyAll (F f : addr) : cmd C :=
  let g := f + Sm in
  Seq (fft (fftm t (-1)) f f)
 (Seq (fft (fftm t (-1)) g g)
 (Seq (fft (fftm t (-1)) F F)
 (Seq (ParFor 0 CC (fun c =>
         Zetam <~ zqmS [L] ;;
         let Xm := UNPACKL Zetam Zetam in let Ym := UNPACKH Zetam (vneg Zetam) in
         let v0 := f + c in let v1 := g + c in
         V0 <- v0 ;; V1 <- v1 ;; V2 <- F + c ;;
         v0 ::= vadd (vadd V0 V1) V2 ;;
         v1 ::= vadd V0 (ZMULT2xy Xm Ym V2 V1) ;; Ret))
      (ParFor 1 m (fun s => let Ss := SS * s in
         let v0 := f + Ss in let v1 := g + Ss in let v2 := F + Ss in
         Zeta <~ zqm [m + s] ;; Zetam <~ zqmS [L + s] ;;
         let X := UNPACKL Zeta Zeta in let Y := UNPACKH Zeta (vneg Zeta) in
         let Xm := UNPACKL Zetam Zetam in let Ym := UNPACKH Zetam (vneg Zetam) in
         pForR 0 CC (fun c =>
           V0 <- v0 + c ;; V1 <- v1 + c ;; V2 <- v2 + c ;;
           v0 + c ::= vadd V0 (ZMULT2xy X Y V2 V1) ;;
           v1 + c ::= vadd V0 (ZMULT2xy Xm Ym V2 V1) ;; Ret)))))).

(** convolve.cc:1846-1903 *)
Definition backward2Many (F f : addr) (r : nat) (W : option addr) : cmd C :=
  let W := getW F W in
  Seq (fft (fftm t (-1)) F W)
  (if r =? 0 then
     Seq (ParFor 0 m (fun s => let Ss := SS * s in let fs := f + Ss in let Fs := W + Ss in
            pForR 0 CC (fun c => x <- Fs + c ;; fs + c ::= x ;; Ret)))
         (ParFor m L (fun s => let Ss := SS * s in let fs := f + Ss in let Fs := W + Ss - Sm in
            pForR 0 CC (fun c => x <- Fs + c ;; fs + c ::= x ;; Ret)))
   else
     let Lm := L - m in
     Seq (ParFor 0 CC (fun c => x <- f + c ;; y <- W + c ;; f + c ::= Cadd x y ;; Ret))
    (Seq (ParFor 1 m (fun s => let Ss := SS * s in let fs := f + Ss in let Fs := W + Ss in
            z <~ zqm [m * r + s] ;;
            let Zetars := Cconj z in
            pForR 0 CC (fun c => x <- fs + c ;; y <- Fs + c ;;
              fs + c ::= Cadd x (Cmul Zetars y) ;; Ret)))
         (ParFor m L (fun s => let Ss := SS * s in let fs := f + Ss in let Fs := W + Ss - Sm in
            z <~ zqmS [Lm * r + s] ;;
            let Zetars2 := Cconj z in
            pForR 0 CC (fun c => x <- fs + c ;; y <- Fs + c ;;
              fs + c ::= Cadd x (Cmul Zetars2 y) ;; Ret))))).

(** convolve.cc:1953-1989: one residue r of backwardInner, read from F *)
Definition backwardInner_residue (f F : addr) (r : nat) : cmd C :=
  let pm1 := p - 1 in
  let stop := L - m * pm1 in
  Seq (ParFor 0 p (fun t' => let R := n * t' + r in let Ft := F + m * t' in
         pForR 1 m (fun s => x <- Ft + s ;; z <~ zqm [m * R + s] ;;
           Ft + s ::= Cmul x (Cconj z) ;; Ret)))
 (Seq (fft (fftp t (-1)) F F)
 (Seq (ParFor 0 m (fun s => x <- f + s ;; y <- F + s ;; f + s ::= Cadd x y ;; Ret))
 (Seq (ParFor 1 pm1 (fun t' => let mt := m * t' in let ft := f + mt in let Ft := F + mt in
         z <~ zqp [pm1 * r + t'] ;;
         let Zeta := Cconj z in
         pForR 0 m (fun s => x <- ft + s ;; y <- Ft + s ;;
           ft + s ::= Cadd x (Cmul Zeta y) ;; Ret)))
      (ParFor 0 stop (fun s => z <~ zqp [pm1 * r + pm1] ;;
         let Zeta := Cconj z in
         x <- f + m * pm1 + s ;; y <- F + m * pm1 + s ;;
         f + m * pm1 + s ::= Cadd x (Cmul Zeta y) ;; Ret))))).

(** convolve.cc:1905-1990 *)
Definition backwardInner (F0 f : addr) (r0 : nat) (W : option addr) : cmd C :=
  let W := getW F0 W in
  let pm1 := p - 1 in
  let stop := L - m * pm1 in
  let tail (W : addr) (r0 dr0 : nat) :=
    cfor dr0 (fun d => backwardInner_residue f (W + b * d) (r0 + d)) in
  Seq (fft (if (0 <? r0) || (D0 =? D) then fftm t (-1) else fftm0 t (-1)) F0 W)
  (if r0 =? 0 then
     Seq (ParFor 1 p (fun t' => let R := n * t' in let Ft := W + m * t' in
            pForR 1 m (fun s => x <- Ft + s ;; z <~ zqm [m * R + s] ;;
              Ft + s ::= Cmul x (Cconj z) ;; Ret)))
    (Seq (fft (fftp t (-1)) W W)
    (Seq (ParFor 0 pm1 (fun t' => let mt := m * t' in let ft := f + mt in let Ft := W + mt in
            pForR 0 m (fun s => x <- Ft + s ;; ft + s ::= x ;; Ret)))
    (Seq (ParFor 0 stop (fun s => x <- W + m * pm1 + s ;; f + m * pm1 + s ::= x ;; Ret))
         (tail (W + b) 1 (D0 - 1)))))
   else tail W r0 dr).

(** convolve.cc:1992-2106 *)
Definition backwardInnerMany (F f : addr) (r : nat) (W : option addr) : cmd C :=
  let W := getW F W in
  let pm1 := p - 1 in
  let stop := L - m * pm1 in
  Seq (cfor p (fun t' => let Smt := Sm * t' in fft (fftm t (-1)) (F + Smt) (W + Smt)))
  (if r =? 0 then
     Seq (ParFor 1 p (fun t' => let R := n * t' in let Ft := W + Sm * t' in
            pForR 1 m (fun s => let Fts := Ft + SS * s in
              z <~ zqm [m * R + s] ;;
              pForR 0 CC (fun c => x <- Fts + c ;; Fts + c ::= Cmul x (Cconj z) ;; Ret))))
    (Seq (fftpAll (-1) W)
    (Seq (ParFor 0 pm1 (fun t' => let ft := f + Sm * t' in let Ft := W + Sm * t' in
            pForR 0 m (fun s => let fts := ft + SS * s in let Fts := Ft + SS * s in
              pForR 0 CC (fun c => x <- Fts + c ;; fts + c ::= x ;; Ret))))
         (ParFor 0 stop (fun s =>
            let fts := f + Sm * pm1 + SS * s in let Fts := W + Sm * pm1 + SS * s in
            pForR 0 CC (fun c => x <- Fts + c ;; fts + c ::= x ;; Ret)))))
   else
     Seq (ParFor 0 p (fun t' => let R := n * t' + r in let Ft := W + Sm * t' in
            pForR 1 m (fun s => let Fts := Ft + SS * s in
              z <~ zqm [m * R + s] ;;
              let Zetars := Cconj z in
              pForR 0 CC (fun c => x <- Fts + c ;; Fts + c ::= Cmul x Zetars ;; Ret))))
    (Seq (fftpAll (-1) W)
    (Seq (ParFor 0 m (fun s => let Ss := SS * s in let fs := f + Ss in let Fs := W + Ss in
            pForR 0 CC (fun c => x <- fs + c ;; y <- Fs + c ;; fs + c ::= Cadd x y ;; Ret)))
    (Seq (ParFor 1 pm1 (fun t' => let Smt := Sm * t' in let ft := f + Smt in let Ft := W + Smt in
            z <~ zqp [pm1 * r + t'] ;;
            let Zeta := Cconj z in
            pForR 0 m (fun s => let Ss := SS * s in let fts := ft + Ss in let Fts := Ft + Ss in
              pForR 0 CC (fun c => x <- fts + c ;; y <- Fts + c ;;
                fts + c ::= Cadd x (Cmul Zeta y) ;; Ret))))
         (ParFor 0 stop (fun s => let Ss := SS * s in
            let fts := f + Sm * pm1 + Ss in let Fts := W + Sm * pm1 + Ss in
            z <~ zqp [pm1 * r + pm1] ;;
            let Zeta := Cconj z in
            pForR 0 CC (fun c => x <- fts + c ;; y <- Fts + c ;;
              fts + c ::= Cadd x (Cmul Zeta y) ;; Ret))))))).

(** The routine selected by init(), convolve.cc:503-658, called through
    forward()/backward() (convolve.h:247-253). *)
Definition forward (f F : addr) (r : nat) (W : option addr) : cmd C :=
  if q =? 1 then
    (if SS =? 1 then forwardExplicit f F W else forwardExplicitMany f F W)
  else if 2 <? p then
    (if SS =? 1 then forwardInner f F r W else forwardInnerMany f F r W)
  else if p =? 2 then
    (if SS =? 1 then (if goverwrite t then forward2All f F else forward2 f F r W)
     else (if goverwrite t then forward2ManyAll f F else forward2Many f F r W))
  else
    (if SS =? 1 then (if goverwrite t then forward1All f F else forward1 f F r W)
     else (if goverwrite t then forward1ManyAll f F else forward1Many f F r W)).

Definition backward (F f : addr) (r : nat) (W : option addr) : cmd C :=
  if q =? 1 then
    (if SS =? 1 then backwardExplicit F f W else backwardExplicitMany F f W)
  else if 2 <? p then
    (if SS =? 1 then backwardInner F f r W else backwardInnerMany F f r W)
  else if p =? 2 then
    (if SS =? 1 then (if goverwrite t then backward2All F f else backward2 F f r W)
     else (if goverwrite t then backward2ManyAll F f else backward2Many F f r W))
  else
    (if SS =? 1 then (if goverwrite t then backward1All F f else backward1 F f r W)
     else (if goverwrite t then backward1ManyAll F f else backward1Many F f r W)).

(** pad(W), convolve.h:242-245 with the Pad pointer of init() (convolve.cc:484, 633, 645) *)
Definition padW (W : addr) : cmd C :=
  if (q =? 1) || negb (p =? 1) || negb (repad t) then Skip
  else if SS =? 1 then padSingle W else padMany W.
End Kernels.
