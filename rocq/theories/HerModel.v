(** Model of class fftPadHermitian (convolve.h:699-800, convolve.cc:4448-5586): padded transforms
    of Hermitian-symmetric data (only the elements 0..ceil(L/2)-1 are stored) to real outputs.
    The record [pad] holds the constructor arguments, as for fftPad.  size_t is [nat].
    The PARALLELIF thresholds are not modelled: [Par] covers both branches.
    Real outputs are stored in the words of a Complex array, two doubles in each word, exactly as
    the casts of convolve.cc do it; when the number of doubles is odd the unused half of the last
    word is written as 0 by the model (no reader looks at it).
    fm-s is the pointer f+m-s. *)
From Coq Require Import Reals ZArith Arith List Bool.
From Verif Require Import CNum Sums Roots Mem VecModel PadModel PadKernels CenModel.

(** *** FFTW real transforms (crfft1d, mcrfft1d, rcfft1d, mrcfft1d; fftw++.h:905-1165).
    Row h of a plan has its complex elements at words h*rp_cd+s*rp_cs (s <= n/2) and its real
    elements at doubles h*rp_rd+k*rp_rs (k < n). *)
Record rplan := mkrplan { rp_n : nat; rp_M : nat; rp_cs : nat; rp_cd : nat; rp_rs : nat; rp_rd : nat;
  rp_inplace : bool }.
Definition cadr (P : rplan) (h s : nat) : nat := h * rp_cd P + s * rp_cs P.
Definition radr (P : rplan) (h k : nat) : nat := h * rp_rd P + k * rp_rs P.
Definition rp_e (P : rplan) : nat := rp_n P / 2 + 1.
Definition rp_N (P : rplan) : nat := rp_n P * rp_M P.            (* doubles *)
Definition rp_w (P : rplan) : nat := cq (rp_N P) 2.              (* words holding them *)

(** one of the two doubles of a word *)
Definition half (v : C) (i : nat) : R := if Nat.even i then re v else im v.

(** Hermitian extension of x_0..x_{n/2} *)
Definition herm (n : nat) (x : nat -> C) (j : nat) : C := if j <? n / 2 + 1 then x j else Cconj (x (n - j)).
(** FFTW complex-to-real (sign +1) and real-to-complex (sign -1) transforms *)
Definition c2r (n : nat) (x : nat -> C) (k : nat) : R := re (dft n 1 (herm n x) k).
Definition r2c (n : nat) (d : nat -> R) (s : nat) : C := dft n (-1) (fun k => RtoC (d k)) s.

(** the layout: neither the words nor the doubles overlap, and the doubles are exactly the first n*M *)
Definition rlayout (P : rplan) : Prop :=
  (1 <= rp_n P) /\
  (forall h h' s s', h < rp_M P -> h' < rp_M P -> s < rp_e P -> s' < rp_e P ->
     cadr P h s = cadr P h' s' -> h = h' /\ s = s') /\
  (forall h h' k k', h < rp_M P -> h' < rp_M P -> k < rp_n P -> k' < rp_n P ->
     radr P h k = radr P h' k' -> h = h' /\ k = k') /\
  (forall h k, h < rp_M P -> k < rp_n P -> radr P h k < rp_N P) /\
  (forall i, i < rp_N P -> exists h k, h < rp_M P /\ k < rp_n P /\ i = radr P h k).

Definition cword (P : rplan) (base a : addr) : Prop := exists h s, h < rp_M P /\ s < rp_e P /\ a = base + cadr P h s.
Definition rword (P : rplan) (base a : addr) : Prop := exists w, w < rp_w P /\ a = base + w.

(** FFTW requires the elements 0 and (n even) n/2 of each complex row to be real *)
Definition c2r_pre (P : rplan) (pin pout : addr) (m : mem C) : Prop :=
  rlayout P /\
  (forall h s, h < rp_M P -> s < rp_e P -> exists v, m (pin + cadr P h s) = Val v /\
     (s = 0 \/ 2 * s = rp_n P -> im v = 0%R)) /\
  (forall w, w < rp_w P -> m (pout + w) <> Unalloc) /\
  (pin = pout \/ forall a, cword P pin a -> ~ rword P pout a).
(** A complex-to-real transform destroys its input. *)
Definition c2r_post (P : rplan) (pin pout : addr) (m m' : mem C) : Prop :=
  (forall x d, (forall h s, h < rp_M P -> s < rp_e P -> m (pin + cadr P h s) = Val (x h s)) ->
     (forall h k, h < rp_M P -> k < rp_n P -> d (radr P h k) = c2r (rp_n P) (x h) k) ->
     (forall i, rp_N P <= i -> d i = 0%R) ->
     forall w, w < rp_w P -> m' (pout + w) = Val (mkC (d (2 * w)) (d (2 * w + 1)))) /\
  (forall a, cword P pin a -> ~ rword P pout a -> m' a = Undef) /\
  (forall a, ~ cword P pin a -> ~ rword P pout a -> m' a = m a).
Definition crfft (P : rplan) (pin pout : addr) : cmd C :=
  if Bool.eqb (rp_inplace P) (pin =? pout) then Ext (c2r_pre P pin pout) (c2r_post P pin pout) else Exit.

Definition r2c_pre (P : rplan) (pin pout : addr) (m : mem C) : Prop :=
  rlayout P /\
  (forall w, w < rp_w P -> exists v, m (pin + w) = Val v) /\
  (forall h s, h < rp_M P -> s < rp_e P -> m (pout + cadr P h s) <> Unalloc) /\
  (pin = pout \/ forall a, cword P pout a -> ~ rword P pin a).
Definition r2c_post (P : rplan) (pin pout : addr) (m m' : mem C) : Prop :=
  (forall d, (forall i, i < rp_N P -> exists v, m (pin + i / 2) = Val v /\ half v i = d i) ->
     forall h s, h < rp_M P -> s < rp_e P ->
       m' (pout + cadr P h s) = Val (r2c (rp_n P) (fun k => d (radr P h k)) s)) /\
  (forall a, ~ cword P pout a -> m' a = m a).
Definition rcfft (P : rplan) (pin pout : addr) : cmd C :=
  if Bool.eqb (rp_inplace P) (pin =? pout) then Ext (r2c_pre P pin pout) (r2c_post P pin pout) else Exit.

(** *** geometry.  al is ALIGNMENT/sizeof(Complex) (align.h:141-144). *)
Definition halign (al n : nat) : nat := cq n al * al.
Section Geometry.
Variable al : nat.
Variable t : pad.
Notation m := (am t).
Notation p := (kp t).  Notation q := (kq t).  Notation n := (kn t).
Definition he : nat := m / 2 + 1.                                (* convolve.cc:4452 *)
Definition hH : nat := cq (aL t) 2.                              (* convolve.cc:4586, inputLength convolve.h:772-774 *)
Definition hp2 : nat := p / 2.                                   (* convolve.cc:4489 *)
(** convolve.cc:4457, 4491-4496 *)
Definition hB : nat := if q =? 1 then aC t * he else halign al (hp2 * (aC t * he)).
Definition hb : nat := if q =? 1 then aC t * he
  else if ainplace t then hB else halign al (cq (hp2 * (aC t * m)) 2).
(** convolve.h:381-393 *)
Definition hconjugates : bool := (1 <? aD t) && ((p <=? 2) || (p mod 2 =? 0)).
Definition hresidueBlocks : nat := if hconjugates then cq n 2 else n.
Definition hR : nat := if q =? 1 then 1 else hresidueBlocks.     (* convolve.cc:4483, 4529 *)
Definition hdr : nat := if q =? 1 then 1 else if hconjugates then aD t / 2 else aD t.
Definition hD0 : nat := if q =? 1 then 1 else if n mod aD t =? 0 then aD t else n mod aD t.   (* convolve.cc:4530-4531 *)
Definition hincrement (r : nat) : nat := if 0 <? r then hdr else if hconjugates then cq hD0 2 else hD0.
(** convolve.h:776-797 *)
Definition hblocksize : nat := m * (if q =? 1 then 1 else p / 2).
Definition hnoutputs : nat := hblocksize.
Definition hspan : nat := 2 * hb.
Definition hworkSizeW : nat := if ainplace t then 0 else hB * aD t.
Definition houtputSize : nat := hb * aD t.
(** convolve.h:718-720, 750 *)
Definition hvalid : bool := (q =? 1) || ((aD t =? 2) && (p mod 2 =? 0) && ((p =? 2) || (aC t =? 1))).
(** What a successful construction guarantees: checkParameters (convolve.cc:464-475), the validity
    test of convolve.h:750, the exit of common() (convolve.cc:481-485), S=C (convolve.cc:4451), and
    the documented positivity of the sizes. *)
Definition hwf : Prop :=
  1 <= aL t /\ aL t <= aM t /\ 1 <= aC t /\ aS t = aC t /\ 1 <= m /\ 1 <= aD t /\
  aM t <= kM t /\ hvalid = true.
(** convolve.h:289-316 with centered=true and D not reset to 1 *)
Definition hindex (r i : nat) : nat :=
  if q =? 1 then i else
  let s := i mod m in
  if (1 <? aD t) && ((p mod 2 =? 0) || (p <=? 2)) then
    let P := cq p 2 in
    let u := (i / m) mod P in
    let offset := if (r =? 0) && (P * m <=? i) && (hD0 mod 2 =? 1) then 1 else 0 in
    let incr := (i + P * m * offset) / (2 * P * m) in
    let r := r + incr in
    if i / (P * m) + offset =? 2 * incr + 1 then
      let s := if (0 <? r) && (u =? 0) then (if 0 <? s then s - 1 else m - 1) else s in
      if r =? 0 then q * s + n * u + n / 2
      else let r' := n - r in
           let u := if 0 <? u then u - 1 else P - 1 in
           q * s + n * u + r'
    else q * s + n * u + r
  else
    let u := (i / m) mod p in
    let r := r + i / (p * m) in
    q * s + n * u + r.

(** convolve.cc:4554: initZetaqm(p == 2 ? q/2+1 : q,m) *)
Definition hZqm : table := initZetaqm (kM t) (if p =? 2 then q / 2 + 1 else q) m.
(** convolve.cc:4505-4513: Zetaqp[p2*r+t]=expi(r*t*twopi/q), r=1..n-1, t=1..p2 *)
Definition hZqp : table := initZetaqp q n (hp2 + 1).
(** convolve.cc:4464-4474 (q=1), 4533-4541 *)
Definition hcr : rplan :=
  if q =? 1 then
    (if aC t =? 1 then mkrplan m 1 1 0 1 0 (ainplace t)           (* crfft1d, rcfft1d *)
     else mkrplan m (aC t) (aC t) 1 (aC t) 1 (ainplace t))
  else if aC t =? 1 then mkrplan m hp2 1 he 1 m (ainplace t)
  else mkrplan m (aC t * hp2) (aC t) 1 (aC t) 1 (ainplace t).
(** convolve.cc:4515-4516 *)
Definition hfftp (sg : Z) : plan := mkplan hp2 sg (aC t * he) (aC t * he) 1 true.
End Geometry.

Section Kernels.
Variable al : nat.
Variable t : pad.
Notation L := (aL t).  Notation CC := (aC t).  Notation m := (am t).
Notation p := (kp t).  Notation q := (kq t).   Notation n := (kn t).
Notation e := (he t).  Notation B := (hB al t). Notation b := (hb al t).
Notation zqm := (hZqm t). Notation zqp := (hZqp t).

(** convolve.cc:4582-4600 *)
Definition hforwardExplicit (f F : addr) (W : option addr) : cmd C :=
  let W := getW F W in
  let H := cq L 2 in
  Seq (ParFor 0 H (fun s => x <- f + s ;; W + s ::= x ;; Ret))
 (Seq (ParFor H e (fun s => W + s ::= C0 ;; Ret))
      (crfft (hcr t) W F)).

(** convolve.cc:4602-4626 *)
Definition hforwardExplicitMany (f F : addr) (W : option addr) : cmd C :=
  let W := getW F W in
  let H := cq L 2 in
  Seq (ParFor 0 H (fun s => let Cs := CC * s in
         let Fs := W + Cs in let fs := f + Cs in
         pForR 0 CC (fun c => x <- fs + c ;; Fs + c ::= x ;; Ret)))
 (Seq (ParFor H e (fun s => let Fs := W + CC * s in
         pForR 0 CC (fun c => Fs + c ::= C0 ;; Ret)))
      (crfft (hcr t) W F)).

(** convolve.cc:4628-4642 *)
Definition hbackwardExplicit (F f : addr) (W : option addr) : cmd C :=
  let W := getW F W in
  let H := cq L 2 in
  Seq (rcfft (hcr t) F W)
      (ParFor 0 H (fun s => x <- W + s ;; f + s ::= x ;; Ret)).

(** convolve.cc:4644-4661 *)
Definition hbackwardExplicitMany (F f : addr) (W : option addr) : cmd C :=
  let W := getW F W in
  let H := cq L 2 in
  Seq (rcfft (hcr t) F W)
      (ParFor 0 H (fun s => let Cs := CC * s in
         let fs := f + Cs in let Fs := W + Cs in
         pForR 0 CC (fun c => x <- Fs + c ;; fs + c ::= x ;; Ret))).

(** convolve.cc:4663-4751 *)
Definition hforward2 (f F : addr) (r : nat) (W : option addr) : cmd C :=
  let W := getW F W in
  let fm := f + m in
  let H := cq L 2 in
  let mH1 := m - H + 1 in
  let G := F + b in
  let V := if W =? F then G else W + B in
  if r =? 0 then
    let q2 := q / 2 in
    if 2 * q2 <? q then
      Seq (ParFor 0 mH1 (fun s => x <- f + s ;; W + s ::= x ;; Ret))
     (Seq (ParFor mH1 e (fun s => x <- f + s ;; y <- fm - s ;; W + s ::= Cadd x (Cconj y) ;; Ret))
          (crfft (hcr t) W F))
    else
      let Zr := m * q2 in
      Seq (Do (x <- f ;; W ::= x ;; V ::= x ;; Ret))             (* V[0]=W[0]=f[0] *)
     (Seq (ParFor 1 mH1 (fun s => fs <- f + s ;; W + s ::= fs ;;
             z <~ zqm [Zr + s] ;; V + s ::= Cmul z fs ;; Ret))
     (Seq (ParFor mH1 e (fun s => fs <- f + s ;; y <- fm - s ;;
             let fms := Cconj y in
             W + s ::= Cadd fs fms ;;
             z <~ zqm [Zr + s] ;; V + s ::= Cmul z (Csub fs fms) ;; Ret))
     (Seq (crfft (hcr t) W F)
          (crfft (hcr t) V G))))
  else
    let Zr := m * r in
    let Zrm := Zr + m in
    Seq (Do (x <- f ;; W ::= x ;; V ::= x ;; Ret))
   (Seq (ParFor 1 mH1 (fun s => Zeta <~ zqm [Zr + s] ;; fs <- f + s ;;
           let A := vmul Zeta (UNPACKL fs fs) in
           let B := ZMULTI (vmul Zeta (UNPACKH fs fs)) in
           W + s ::= vadd A B ;;
           V + s ::= CONJ (vsub A B) ;; Ret))
   (Seq (ParFor mH1 e (fun s => Zeta <~ zqm [Zr + s] ;; Z <~ zqm [Zrm - s] ;;
           let Zetam := CONJ Z in
           fs <- f + s ;; fms <- fm - s ;;
           let A := vadd (vmul Zeta (UNPACKL fs fs)) (vmul Zetam (UNPACKL fms fms)) in
           let B := ZMULTI (vsub (vmul Zeta (UNPACKH fs fs)) (vmul Zetam (UNPACKH fms fms))) in
           W + s ::= vadd A B ;;
           V + s ::= CONJ (vsub A B) ;; Ret))
   (Seq (crfft (hcr t) W F)
        (crfft (hcr t) V G)))).

(** convolve.cc:4753-4886 *)
Definition hforward2Many (f F : addr) (r : nat) (W : option addr) : cmd C :=
  let W := getW F W in
  let fm := f + CC * m in
  let H := cq L 2 in
  let mH1 := m - H + 1 in
  let G := F + b in
  let V := if W =? F then G else W + B in
  if r =? 0 then
    let q2 := q / 2 in
    if 2 * q2 <? q then
      Seq (ParFor 0 mH1 (fun s => let Cs := CC * s in let Ws := W + Cs in let fs := f + Cs in
             pForR 0 CC (fun c => x <- fs + c ;; Ws + c ::= x ;; Ret)))
     (Seq (ParFor mH1 e (fun s => let Cs := CC * s in let Ws := W + Cs in let fs := f + Cs in
             let fms := fm - Cs in
             pForR 0 CC (fun c => x <- fs + c ;; y <- fms + c ;; Ws + c ::= Cadd x (Cconj y) ;; Ret)))
          (crfft (hcr t) W F))
    else
      let Zr := m * q2 in
      Seq (ParFor 0 CC (fun c => x <- f + c ;; W + c ::= x ;; V + c ::= x ;; Ret))
     (Seq (ParFor 1 mH1 (fun s => let Cs := CC * s in let fs := f + Cs in let Ws := W + Cs in
             let Vs := V + Cs in
             Zetars <~ zqm [Zr + s] ;;
             pForR 0 CC (fun c => fsc <- fs + c ;; Ws + c ::= fsc ;; Vs + c ::= Cmul Zetars fsc ;; Ret)))
     (Seq (ParFor mH1 e (fun s => let Cs := CC * s in let fs := f + Cs in let fms := fm - Cs in
             let Ws := W + Cs in let Vs := V + Cs in
             Zetars <~ zqm [Zr + s] ;;
             pForR 0 CC (fun c => fsc <- fs + c ;; y <- fms + c ;;
               let fmsc := Cconj y in
               Ws + c ::= Cadd fsc fmsc ;; Vs + c ::= Cmul Zetars (Csub fsc fmsc) ;; Ret)))
     (Seq (crfft (hcr t) W F)
          (crfft (hcr t) V G))))
  else
    let Zr := m * r in
    let Zrm := Zr + m in
    Seq (ParFor 0 CC (fun c => x <- f + c ;; W + c ::= x ;; V + c ::= x ;; Ret))
   (Seq (ParFor 1 mH1 (fun s => let Cs := CC * s in let Ws := W + Cs in let Vs := V + Cs in
           let fs := f + Cs in
           Zeta <~ zqm [Zr + s] ;;
           pForR 0 CC (fun c => fsc <- fs + c ;;
             let A := vmul Zeta (UNPACKL fsc fsc) in
             let B := ZMULTI (vmul Zeta (UNPACKH fsc fsc)) in
             Ws + c ::= vadd A B ;; Vs + c ::= CONJ (vsub A B) ;; Ret)))
   (Seq (ParFor mH1 e (fun s => let Cs := CC * s in let Ws := W + Cs in let Vs := V + Cs in
           let fs := f + Cs in let fms := fm - Cs in
           Zeta <~ zqm [Zr + s] ;; Z <~ zqm [Zrm - s] ;;
           let Zetam := CONJ Z in
           pForR 0 CC (fun c => fsc <- fs + c ;; fmsc <- fms + c ;;
             let A := vadd (vmul Zeta (UNPACKL fsc fsc)) (vmul Zetam (UNPACKL fmsc fmsc)) in
             let B := ZMULTI (vsub (vmul Zeta (UNPACKH fsc fsc)) (vmul Zetam (UNPACKH fmsc fmsc))) in
             Ws + c ::= vadd A B ;; Vs + c ::= CONJ (vsub A B) ;; Ret)))
   (Seq (crfft (hcr t) W F)
        (crfft (hcr t) V G)))).

(** convolve.cc:4888-4986.  for(s=lo; s <= me; ++s) is ParFor lo (me+1). *)
Definition hbackward2 (F f : addr) (r : nat) (W : option addr) : cmd C :=
  let W := getW F W in
  let even := m =? 2 * (e - 1) in
  let fm := f + m in
  let me := m - e in
  let H := cq L 2 in
  let mH1 := m - H + 1 in
  let G := F + b in
  let V := if W =? F then G else W + B in
  Seq (rcfft (hcr t) F W)
  (if r =? 0 then
    let q2 := q / 2 in
    if 2 * q2 <? q then
      Seq (ParFor 0 mH1 (fun s => x <- W + s ;; f + s ::= x ;; Ret))
     (Seq (ParFor mH1 (me + 1) (fun s => A <- W + s ;; f + s ::= A ;; fm - s ::= Cconj A ;; Ret))
          (if even then Do (x <- W + (e - 1) ;; f + (e - 1) ::= x ;; Ret) else Skip))
    else
      let Zr := m * q2 in
      Seq (rcfft (hcr t) G V)
     (Seq (Do (x <- W ;; y <- V ;; f ::= Cadd x y ;; Ret))
     (Seq (ParFor 1 mH1 (fun s => x <- W + s ;; z <~ zqm [Zr + s] ;; y <- V + s ;;
             f + s ::= Cadd x (Cmul (Cconj z) y) ;; Ret))
     (Seq (ParFor mH1 (me + 1) (fun s => A <- W + s ;; z <~ zqm [Zr + s] ;; y <- V + s ;;
             let B := Cmul (Cconj z) y in
             f + s ::= Cadd A B ;; fm - s ::= Cconj (Csub A B) ;; Ret))
          (if even then Do (x <- W + (e - 1) ;; y <- V + (e - 1) ;;
             f + (e - 1) ::= Csub x (Cmul Ci y) ;; Ret) else Skip))))
  else
    let Zr := m * r in
    let Zrm := Zr + m in
    Seq (rcfft (hcr t) G V)
   (Seq (Do (y <- f ;; x <- W ;; v <- V ;; f ::= Cadd y (Cadd x v) ;; Ret))
   (Seq (ParFor 1 mH1 (fun s => y <- f + s ;; z <~ zqm [Zr + s] ;; v <- V + s ;; x <- W + s ;;
           f + s ::= vadd y (ZMULT2 z v x) ;; Ret))
   (Seq (ParFor mH1 (me + 1) (fun s => Zeta <~ zqm [Zr + s] ;; Zetam <~ zqm [Zrm - s] ;;
           Ws <- W + s ;; Vs <- V + s ;; y <- f + s ;;
           f + s ::= vadd y (ZMULT2 Zeta Vs Ws) ;;
           y' <- fm - s ;; fm - s ::= vadd y' (CONJ (ZMULT2 Zetam Ws Vs)) ;; Ret))
        (if even then Do (y <- f + e - 1 ;; z <~ zqm [Zr + e - 1] ;; v <- V + e - 1 ;; x <- W + e - 1 ;;
           f + e - 1 ::= vadd y (ZMULT2 z v x) ;; Ret) else Skip))))).

(** convolve.cc:4988-5164 *)
Definition hbackward2Many (F f : addr) (r : nat) (W : option addr) : cmd C :=
  let W := getW F W in
  let even := m =? 2 * (e - 1) in
  let fm := f + CC * m in
  let me := m - e in
  let H := cq L 2 in
  let mH1 := m - H + 1 in
  let Ce1 := CC * (e - 1) in
  let G := F + b in
  let V := if W =? F then G else W + B in
  let fe := f + Ce1 in let We := W + Ce1 in let Ve := V + Ce1 in
  Seq (rcfft (hcr t) F W)
  (if r =? 0 then
    let q2 := q / 2 in
    if 2 * q2 <? q then
      Seq (ParFor 0 mH1 (fun s => let Cs := CC * s in let fs := f + Cs in let Ws := W + Cs in
             pForR 0 CC (fun c => x <- Ws + c ;; fs + c ::= x ;; Ret)))
     (Seq (ParFor mH1 (me + 1) (fun s => let Cs := CC * s in let fs := f + Cs in let fms := fm - Cs in
             let Ws := W + Cs in
             pForR 0 CC (fun c => A <- Ws + c ;; fs + c ::= A ;; fms + c ::= Cconj A ;; Ret)))
          (if even then ParFor 0 CC (fun c => x <- We + c ;; fe + c ::= x ;; Ret) else Skip))
    else
      let Zr := m * q2 in
      Seq (rcfft (hcr t) G V)
     (Seq (ParFor 0 CC (fun c => x <- W + c ;; y <- V + c ;; f + c ::= Cadd x y ;; Ret))
     (Seq (ParFor 1 mH1 (fun s => let Cs := CC * s in let fs := f + Cs in let Ws := W + Cs in
             let Vs := V + Cs in
             z <~ zqm [Zr + s] ;; let Zetars := Cconj z in
             pForR 0 CC (fun c => x <- Ws + c ;; y <- Vs + c ;; fs + c ::= Cadd x (Cmul Zetars y) ;; Ret)))
     (Seq (ParFor mH1 (me + 1) (fun s => let Cs := CC * s in let fs := f + Cs in let fms := fm - Cs in
             let Ws := W + Cs in let Vs := V + Cs in
             z <~ zqm [Zr + s] ;; let Zetars := Cconj z in
             pForR 0 CC (fun c => A <- Ws + c ;; y <- Vs + c ;;
               let B := Cmul Zetars y in
               fs + c ::= Cadd A B ;; fms + c ::= Cconj (Csub A B) ;; Ret)))
          (if even then ParFor 0 CC (fun c => x <- We + c ;; y <- Ve + c ;;
             fe + c ::= Csub x (Cmul Ci y) ;; Ret) else Skip))))
  else
    let Zr := m * r in
    let Zrm := Zr + m in
    Seq (rcfft (hcr t) G V)
   (Seq (ParFor 0 CC (fun c => y <- f + c ;; x <- W + c ;; v <- V + c ;; f + c ::= Cadd y (Cadd x v) ;; Ret))
   (Seq (ParFor 1 mH1 (fun s => let Cs := CC * s in let fs := f + Cs in let Ws := W + Cs in
           let Vs := V + Cs in
           Zeta <~ zqm [Zr + s] ;;
           pForR 0 CC (fun c => y <- fs + c ;; v <- Vs + c ;; x <- Ws + c ;;
             fs + c ::= vadd y (ZMULT2 Zeta v x) ;; Ret)))
   (Seq (ParFor mH1 (me + 1) (fun s => let Cs := CC * s in let fs := f + Cs in let fms := fm - Cs in
           let Ws := W + Cs in let Vs := V + Cs in
           Zeta <~ zqm [Zr + s] ;;
           let X := UNPACKL Zeta Zeta in let Y := UNPACKH Zeta (vneg Zeta) in
           Zetam <~ zqm [Zrm - s] ;;
           let Xm := UNPACKL Zetam (vneg Zetam) in let Ym := UNPACKH Zetam Zetam in
           pForR 0 CC (fun c => Wsc <- Ws + c ;; Vsc <- Vs + c ;; y <- fs + c ;;
             fs + c ::= vadd y (ZMULT2xy X Y Vsc Wsc) ;;
             y' <- fms + c ;; fms + c ::= vadd y' (ZMULT2xy Xm Ym Wsc Vsc) ;; Ret)))
        (if even then
           Zeta <== zqm [Zr + e - 1] ;;;
           let X := UNPACKL Zeta Zeta in let Y := UNPACKH Zeta (vneg Zeta) in
           ParFor 0 CC (fun c => y <- fe + c ;; v <- Ve + c ;; x <- We + c ;;
             fe + c ::= vadd y (ZMULT2xy X Y v x) ;; Ret)
         else Skip))))).

(** convolve.cc:5166-5335 *)
Definition hforwardInner (f F : addr) (r : nat) (W : option addr) : cmd C :=
  let W := getW F W in
  let p2 := hp2 t in
  let H := cq L 2 in
  let p2m := p2 * m in
  let p2mH := p2m - H in
  let m0 := Nat.min (p2mH + 1) e in
  let fm := f + p2m in
  if r =? 0 then
    let n2 := n / 2 in
    if 2 * n2 <? n then
      let mn := m * n in
      Seq (ParFor 0 m0 (fun s => x <- f + s ;; W + s ::= x ;; Ret))
     (Seq (ParFor m0 e (fun s => y <- fm - s ;; x <- f + s ;; W + s ::= Cadd (Cconj y) x ;; Ret))
     (Seq (ParFor 1 p2 (fun t' => let tm := t' * m in let te := t' * e in
             let fmt := fm - tm in let ft := f + tm in let Wt := W + te in
             pForR 0 e (fun s => y <- fmt - s ;; x <- ft + s ;; Wt + s ::= Cadd (Cconj y) x ;; Ret)))
     (Seq (fft (hfftp t 1) W W)
     (Seq (ParFor 1 p2 (fun u => let Wu := W + u * e in let Zeta0 := mn * u in
             pForR 1 e (fun s => x <- Wu + s ;; z <~ zqm [Zeta0 + s] ;; Wu + s ::= Cmul x z ;; Ret)))
          (crfft (hcr t) W F)))))
    else
      let V := W + B in
      let Zn2 := p2 * n2 in
      let mn := m * n in
      let mn2 := m * n2 in
      Seq (ParFor 0 m0 (fun s => x <- f + s ;; W + s ::= x ;; V + s ::= x ;; Ret))
     (Seq (ParFor m0 e (fun s => y <- fm - s ;; let fms := Cconj y in
             fs <- f + s ;;
             W + s ::= Cadd fms fs ;; V + s ::= Cadd (Copp fms) fs ;; Ret))
     (Seq (ParFor 1 p2 (fun t' => let tm := t' * m in let te := t' * e in
             let Wt := W + te in let Vt := V + te in let fmt := fm - tm in let ft := f + tm in
             Zeta <~ zqp [Zn2 + t'] ;;
             let X := UNPACKL Zeta Zeta in let Y := UNPACKH Zeta (vneg Zeta) in
             pForR 0 e (fun s => y <- fmt - s ;; let fmts := CONJ y in
               fts <- ft + s ;;
               Wt + s ::= vadd fmts fts ;; Vt + s ::= ZMULTxy X Y (vsub fts fmts) ;; Ret)))
     (Seq (fft (hfftp t 1) W W)
     (Seq (fft (hfftp t 1) V V)
     (Seq (ParFor 0 e (fun s => x <- V + s ;; z <~ zqm [mn2 + s] ;; V + s ::= Cmul x z ;; Ret))
     (Seq (ParFor 1 p2 (fun u => let ue := u * e in
             let Wu := W + ue in let Zeta0 := mn * u in let Vu := V + ue in
             let Zetan2 := Zeta0 + mn2 in
             pseq (pForR 1 e (fun s => x <- Wu + s ;; z <~ zqm [Zeta0 + s] ;; Wu + s ::= Cmul x z ;; Ret))
                  (pForR 1 e (fun s => x <- Vu + s ;; z <~ zqm [Zetan2 + s] ;; Vu + s ::= Cmul x z ;; Ret))))
     (Seq (crfft (hcr t) W F)
          (crfft (hcr t) V (F + b)))))))))
  else
    let G := F + b in
    let V := if W =? F then G else W + B in
    let Zqr := p2 * r in
    let mr := m * r in
    Z <== zqp [p2 * r + p2] ;;;
    let Zetanr := CONJ Z in
    Seq (ParFor 0 m0 (fun s => x <- f + s ;; W + s ::= x ;; V + s ::= x ;; Ret))
   (Seq (ParFor m0 e (fun s => y <- fm - s ;; let fms := CONJ y in
           fs <- f + s ;;
           let A := vmul Zetanr (UNPACKL fms fms) in
           let B := ZMULTI (vmul Zetanr (UNPACKH fms fms)) in
           W + s ::= vadd (vadd A B) fs ;; V + s ::= vadd (CONJ (vsub A B)) fs ;; Ret))
   (Seq (ParFor 1 p2 (fun t' => let tm := t' * m in let te := t' * e in
           let Wt := W + te in let Vt := V + te in let fmt := fm - tm in let ft := f + tm in
           Zeta <~ zqp [Zqr + t'] ;;
           let Zetam := ZMULT Zeta Zetanr in
           pForR 0 e (fun s => y <- fmt - s ;; let fmts := CONJ y in
             fts <- ft + s ;;
             let A := vadd (vmul Zetam (UNPACKL fmts fmts)) (vmul Zeta (UNPACKL fts fts)) in
             let B := ZMULTI (vadd (vmul Zetam (UNPACKH fmts fmts)) (vmul Zeta (UNPACKH fts fts))) in
             Wt + s ::= vadd A B ;; Vt + s ::= CONJ (vsub A B) ;; Ret)))
   (Seq (fft (hfftp t 1) W W)
   (Seq (fft (hfftp t 1) V V)
   (Seq (ParFor 1 e (fun s => Zeta <~ zqm [mr + s] ;;
           x <- W + s ;; W + s ::= Cmul x Zeta ;;
           y <- V + s ;; V + s ::= Cmul y (Cconj Zeta) ;; Ret))
   (Seq (ParFor 1 p2 (fun u => let mu := m * u in let eu := e * u in
           let Zetar0 := n * mu in let Zetar1 := Zetar0 + mr in let Wu := W + eu in
           let Zetar2 := Zetar0 - mr in let Vu := V + eu in
           pseq (pForR 1 e (fun s => x <- Wu + s ;; z <~ zqm [Zetar1 + s] ;; Wu + s ::= Cmul x z ;; Ret))
                (pForR 1 e (fun s => x <- Vu + s ;; z <~ zqm [Zetar2 + s] ;; Vu + s ::= Cmul x z ;; Ret))))
   (Seq (crfft (hcr t) W F)
        (crfft (hcr t) V G)))))))).

(** convolve.cc:5337-5586 *)
Definition hbackwardInner (F f : addr) (r : nat) (W : option addr) : cmd C :=
  let W := getW F W in
  let even := m =? 2 * (e - 1) in
  let p2 := hp2 t in
  let H := cq L 2 in
  let p2m := p2 * m in
  let p2mH := p2m - H in
  let me := m - e in
  let m0 := Nat.min (p2mH + 1) e in
  let fm := f + p2m in
  if r =? 0 then
    let n2 := n / 2 in
    if 2 * n2 <? n then
      Seq (rcfft (hcr t) F W)
     (Seq (ParFor 1 p2 (fun u => let mu := m * u in let eu := u * e in
             let Wu := W + eu in let Zeta0 := n * mu in
             pForR 1 e (fun s => x <- Wu + s ;; z <~ zqm [Zeta0 + s] ;; Wu + s ::= Cmul x (Cconj z) ;; Ret)))
     (Seq (fft (hfftp t (-1)) W W)
     (Seq (ParFor 0 m0 (fun s => x <- W + s ;; f + s ::= x ;; Ret))
     (Seq (ParFor m0 (me + 1) (fun s => Ws <- W + s ;; f + s ::= Ws ;; fm - s ::= Cconj Ws ;; Ret))
     (Seq (ParFor 1 p2 (fun t' => let tm := t' * m in let te := t' * e in
             let Wt := W + te in let ft := f + tm in let fmt := fm - tm in
             x <- Wt ;; ft ::= x ;;
             pForR 1 (me + 1) (fun s => Wts <- Wt + s ;; ft + s ::= Wts ;; fmt - s ::= Cconj Wts ;; Ret)))
          (if even then
             let fe1 := f + e - 1 in let We1 := W + e - 1 in
             ParFor 0 p2 (fun t' => x <- We1 + t' * e ;; fe1 + t' * m ::= x ;; Ret)
           else Skip))))))
    else
      let V := W + B in
      let G := F + b in
      let mn := m * n in
      let mn2 := m * n2 in
      let Zn2 := p2 * n2 in
      Seq (rcfft (hcr t) F W)
     (Seq (rcfft (hcr t) G V)
     (Seq (ParFor 1 e (fun s => x <- V + s ;; z <~ zqm [mn2 + s] ;; V + s ::= Cmul x (Cconj z) ;; Ret))
     (Seq (ParFor 1 p2 (fun u => let eu := u * e in
             let Wu := W + eu in let Zeta0 := mn * u in let Vu := V + eu in
             let Zetan2 := Zeta0 + mn2 in
             pseq (pForR 1 e (fun s => x <- Wu + s ;; z <~ zqm [Zeta0 + s] ;; Wu + s ::= Cmul x (Cconj z) ;; Ret))
                  (pForR 1 e (fun s => x <- Vu + s ;; z <~ zqm [Zetan2 + s] ;; Vu + s ::= Cmul x (Cconj z) ;; Ret))))
     (Seq (fft (hfftp t (-1)) W W)
     (Seq (fft (hfftp t (-1)) V V)
     (Seq (ParFor 0 m0 (fun s => x <- W + s ;; y <- V + s ;; f + s ::= Cadd x y ;; Ret))
     (Seq (ParFor m0 (me + 1) (fun s => Wts <- W + s ;; Vts <- V + s ;;
             fm - s ::= Cconj (Csub Wts Vts) ;; f + s ::= Cadd Wts Vts ;; Ret))
     (Seq (ParFor 1 p2 (fun t' => let tm := t' * m in let te := t' * e in
             let Wt := W + te in let Vt := V + te in let ft := f + tm in let fmt := fm - tm in
             Zeta <~ zqp [Zn2 + t'] ;;
             let X := UNPACKL Zeta Zeta in let Y := UNPACKH (vneg Zeta) Zeta in
             x <- Wt ;; y <- Vt ;; ft ::= vadd x (ZMULTxy X Y y) ;;
             pForR 1 (me + 1) (fun s => Wts <- Wt + s ;; y <- Vt + s ;;
               let Vts := ZMULTxy X Y y in
               fmt - s ::= CONJ (vsub Wts Vts) ;; ft + s ::= vadd Wts Vts ;; Ret)))
          (if even then
             let e1 := e - 1 in
             let fe1 := f + e1 in let We1 := W + e1 in let Ve1 := V + e1 in
             Seq (Do (x <- We1 ;; y <- Ve1 ;; fe1 ::= Cadd x y ;; Ret))
                 (ParFor 1 p2 (fun t' => x <- We1 + t' * e ;; z <~ zqp [Zn2 + t'] ;; y <- Ve1 + t' * e ;;
                    fe1 + t' * m ::= Cadd x (Cmul (Cconj z) y) ;; Ret))
           else Skip)))))))))
  else
    let V := W + B in
    let G := F + b in
    let mr := m * r in
    let Zqr := p2 * r in
    Seq (rcfft (hcr t) F W)
   (Seq (rcfft (hcr t) G V)
   (Zetanr <== zqp [p2 * r + p2] ;;;
    Seq (ParFor 1 e (fun s => Zeta <~ zqm [mr + s] ;;
           x <- W + s ;; W + s ::= Cmul x (Cconj Zeta) ;;
           y <- V + s ;; V + s ::= Cmul y Zeta ;; Ret))
   (Seq (ParFor 1 p2 (fun u => let eu := u * e in
           let Zetar0 := n * m * u in let Zetar1 := Zetar0 + mr in let Wu := W + eu in
           let Zetar2 := Zetar0 - mr in let Vu := V + eu in
           pseq (pForR 1 e (fun s => x <- Wu + s ;; z <~ zqm [Zetar1 + s] ;; Wu + s ::= Cmul x (Cconj z) ;; Ret))
                (pForR 1 e (fun s => x <- Vu + s ;; z <~ zqm [Zetar2 + s] ;; Vu + s ::= Cmul x (Cconj z) ;; Ret))))
   (Seq (fft (hfftp t (-1)) W W)
   (Seq (fft (hfftp t (-1)) V V)
   (Seq (ParFor 0 m0 (fun s => y <- f + s ;; x <- W + s ;; v <- V + s ;; f + s ::= Cadd y (Cadd x v) ;; Ret))
   (let Xm := UNPACKL Zetanr Zetanr in let Ym := UNPACKH Zetanr (vneg Zetanr) in
    Seq (ParFor m0 (me + 1) (fun s => Wts <- W + s ;; Vts <- V + s ;;
           y' <- fm - s ;; fm - s ::= vadd y' (CONJ (ZMULT2xy Xm Ym Wts Vts)) ;;
           y <- f + s ;; f + s ::= vadd (vadd y Wts) Vts ;; Ret))
   (Seq (ParFor 1 p2 (fun t' => let tm := t' * m in let te := t' * e in
           let Wt := W + te in let Vt := V + te in let ft := f + tm in let fmt := fm - tm in
           Zeta <~ zqp [Zqr + t'] ;;
           let X := UNPACKL Zeta Zeta in let Y := UNPACKH Zeta (vneg Zeta) in
           y0 <- ft ;; v0 <- Vt ;; x0 <- Wt ;; ft ::= vadd y0 (ZMULT2xy X Y v0 x0) ;;
           let Zeta2 := ZMULTxy X (vneg Y) Zetanr in
           let Xm := UNPACKL Zeta2 Zeta2 in let Ym := UNPACKH Zeta2 (vneg Zeta2) in
           pForR 1 (me + 1) (fun s => Wts <- Wt + s ;; Vts <- Vt + s ;;
             y' <- fmt - s ;; fmt - s ::= vadd y' (CONJ (ZMULT2xy Xm Ym Wts Vts)) ;;
             y <- ft + s ;; ft + s ::= vadd y (ZMULT2xy X Y Vts Wts) ;; Ret)))
        (if even then
           let fe1 := f + e - 1 in let We1 := W + e - 1 in let Ve1 := V + e - 1 in
           Seq (Do (y <- fe1 ;; x <- We1 ;; v <- Ve1 ;; fe1 ::= Cadd y (Cadd x v) ;; Ret))
               (ParFor 1 p2 (fun t' => Zeta <~ zqp [Zqr + t'] ;;
                  let X := UNPACKL Zeta Zeta in let Y := UNPACKH Zeta (vneg Zeta) in
                  y <- fe1 + t' * m ;; v <- Ve1 + t' * e ;; x <- We1 + t' * e ;;
                  fe1 + t' * m ::= vadd y (ZMULT2xy X Y v x) ;; Ret))
         else Skip))))))))).

(** Forward and Backward point to (convolve.cc:4460-4474, 4499-4526) *)
Definition hforward (f F : addr) (r : nat) (W : option addr) : cmd C :=
  if q =? 1 then (if CC =? 1 then hforwardExplicit f F W else hforwardExplicitMany f F W)
  else if 2 <? p then hforwardInner f F r W
  else if CC =? 1 then hforward2 f F r W else hforward2Many f F r W.
Definition hbackward (F f : addr) (r : nat) (W : option addr) : cmd C :=
  if q =? 1 then (if CC =? 1 then hbackwardExplicit F f W else hbackwardExplicitMany F f W)
  else if 2 <? p then hbackwardInner F f r W
  else if CC =? 1 then hbackward2 F f r W else hbackward2Many F f r W.
End Kernels.
