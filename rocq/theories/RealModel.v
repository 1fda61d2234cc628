(** Model of class fftPadReal (convolve.h:802-950, convolve.cc:5590-7033): padded transforms of real
    data.  Modelled: C=S=1 and p<=2, that is the kernels forwardExplicit, backwardExplicit,
    forward1, backward1, forward2, backward2 and padSingle.  NOT modelled: the Many kernels (S > 1)
    and the Inner kernels (p > 2).
    Memory here has one word per double: the Complex array element P[i] is the doubles P+2*i (real
    part) and P+2*i+1 (imaginary part), exactly the layout that the casts to double*  rely on.
    The record [pad] holds the constructor arguments, as for fftPad.  size_t is [nat].
    The PARALLELIF thresholds are not modelled: [Par] covers both branches. *)
From Coq Require Import Reals ZArith Arith List Bool.
From Verif Require Import CNum Sums Roots Mem VecModel PadModel PadKernels CenModel HerModel.

(** *** loops and accesses *)
Notation rprog := (prog R).
Notation rcmd := (cmd R).
Notation rmem := (Mem.mem R).
(** for(s=lo; s < hi; ++s) body s, parallel (PARALLELIF) *)
Definition rFor (lo hi : nat) (body : nat -> rprog) : rcmd := Par (hi - lo) (fun i => body (lo + i)).
(** straight-line code outside a parallel loop *)
Definition rDo (p : rprog) : rcmd := Par 1 (fun _ => p).
(** reading a root table; outside the table is a fault *)
Definition rtget (T : table) (i : nat) (k : C -> rprog) : rprog :=
  match T i with Some v => k v | None => Fault end.
(** Complex accesses *)
Definition rdC (P i : addr) (k : C -> rprog) : rprog :=
  Rd (P + 2 * i) (fun a => Rd (P + 2 * i + 1) (fun b => k (mkC a b))).
Definition wrC (P i : addr) (v : C) (k : rprog) : rprog :=
  Wr (P + 2 * i) (re v) (Wr (P + 2 * i + 1) (im v) k).
(** fr[s] += v *)
Definition addR (a : addr) (v : R) (k : rprog) : rprog := Rd a (fun x => Wr a (x + v)%R k).
(** Complex.h:276-280 *)
Definition realProduct (x y : C) : R := (re x * re y + im x * im y)%R.

(** *** FFTW transforms on arrays of doubles.
    rd_cfft: mfft1d(n,sg,M,1,n) (fftw++.h:821-890): M complex rows of length n, contiguous.
    rd_r2c, rd_c2r: mrcfft1d(n,1,...), rcfft1d(n), mcrfft1d(n,1,...), crfft1d(n) (fftw++.h:905-1165).
    Executing a plan created in place on distinct arrays, or the converse, exits (fftw++.h:479-483). *)
Definition rspan (base n : nat) (a : addr) : Prop := base <= a < base + n.
Definition rapart (a n b k : nat) : Prop := forall x, rspan a n x -> rspan b k x -> False.

Definition cfft_pre (n M : nat) (pin pout : addr) (m : rmem) : Prop :=
  1 <= n /\
  (forall a, rspan pin (2 * (n * M)) a -> exists v, m a = Val v) /\
  (forall a, rspan pout (2 * (n * M)) a -> m a <> Unalloc) /\
  (pin = pout \/ rapart pin (2 * (n * M)) pout (2 * (n * M))).
Definition cfft_post (n M : nat) (sg : Z) (pin pout : addr) (m m' : rmem) : Prop :=
  (forall x, (forall h s, h < M -> s < n -> m (pin + 2 * (n * h + s)) = Val (re (x h s)) /\
                                           m (pin + 2 * (n * h + s) + 1) = Val (im (x h s))) ->
     forall h k, h < M -> k < n -> m' (pout + 2 * (n * h + k)) = Val (re (dft n sg (x h) k)) /\
                                   m' (pout + 2 * (n * h + k) + 1) = Val (im (dft n sg (x h) k))) /\
  (forall a, ~ rspan pout (2 * (n * M)) a -> m' a = m a).
Definition rd_cfft (n M : nat) (sg : Z) (inplace : bool) (pin pout : addr) : rcmd :=
  if Bool.eqb inplace (pin =? pout) then Ext (cfft_pre n M pin pout) (cfft_post n M sg pin pout) else Exit.

Definition rd_r2c_pre (n : nat) (pin pout : addr) (m : rmem) : Prop :=
  1 <= n /\
  (forall a, rspan pin n a -> exists v, m a = Val v) /\
  (forall a, rspan pout (2 * (n / 2 + 1)) a -> m a <> Unalloc) /\
  (pin = pout \/ rapart pin n pout (2 * (n / 2 + 1))).
Definition rd_r2c_post (n : nat) (pin pout : addr) (m m' : rmem) : Prop :=
  (forall d, (forall k, k < n -> m (pin + k) = Val (d k)) ->
     forall s, s < n / 2 + 1 -> m' (pout + 2 * s) = Val (re (r2c n d s)) /\
                                m' (pout + 2 * s + 1) = Val (im (r2c n d s))) /\
  (forall a, ~ rspan pout (2 * (n / 2 + 1)) a -> m' a = m a).
Definition rd_r2c (n : nat) (inplace : bool) (pin pout : addr) : rcmd :=
  if Bool.eqb inplace (pin =? pout) then Ext (rd_r2c_pre n pin pout) (rd_r2c_post n pin pout) else Exit.

(** FFTW requires the elements 0 and (n even) n/2 of the complex row to be real, and destroys it. *)
Definition rd_c2r_pre (n : nat) (pin pout : addr) (m : rmem) : Prop :=
  1 <= n /\
  (forall s, s < n / 2 + 1 -> exists v w, m (pin + 2 * s) = Val v /\ m (pin + 2 * s + 1) = Val w /\
     (s = 0 \/ 2 * s = n -> w = 0%R)) /\
  (forall a, rspan pout n a -> m a <> Unalloc) /\
  (pin = pout \/ rapart pin (2 * (n / 2 + 1)) pout n).
Definition rd_c2r_post (n : nat) (pin pout : addr) (m m' : rmem) : Prop :=
  (forall x, (forall s, s < n / 2 + 1 -> m (pin + 2 * s) = Val (re (x s)) /\
                                        m (pin + 2 * s + 1) = Val (im (x s))) ->
     forall k, k < n -> m' (pout + k) = Val (c2r n x k)) /\
  (forall a, rspan pin (2 * (n / 2 + 1)) a -> ~ rspan pout n a -> m' a = Undef) /\
  (forall a, ~ rspan pin (2 * (n / 2 + 1)) a -> ~ rspan pout n a -> m' a = m a).
Definition rd_c2r (n : nat) (inplace : bool) (pin pout : addr) : rcmd :=
  if Bool.eqb inplace (pin =? pout) then Ext (rd_c2r_pre n pin pout) (rd_c2r_post n pin pout) else Exit.

(** *** geometry (C=S=1, p<=2); p, n, q are those of fftPad (convolve.h:866, 884: parameters with
    centered=false), and n=q because P=1 *)
Section Geometry.
Variable t : pad.
Notation m := (am t).
Definition re_ : nat := am t / 2 + 1.                             (* convolve.cc:5593 *)
Definition rl : nat := if gq t =? 1 then re_ else am t.           (* convolve.cc:5599, 5632 *)
Definition rn : nat := if gq t =? 1 then 1 else gn t.             (* convolve.cc:5628 *)
(** convolve.h:916-918 *)
Definition rresidueBlocks : nat := cq (rn + 1) 2.
Definition rR : nat := if gq t =? 1 then 1 else rresidueBlocks.   (* convolve.cc:5628, 5750 *)
(** convolve.cc:5628, 5751-5752 *)
Definition rD0 : nat := if gq t =? 1 then 1
  else if ((rn - 1) / 2) mod aD t =? 0 then aD t else ((rn - 1) / 2) mod aD t.
(** convolve.h:920-922 *)
Definition rincrement (r : nat) : nat := if 1 <? r then aD t else if r =? 1 then rD0 else 1.
(** convolve.h:925-929 *)
Definition rblocksize (r : nat) : nat := if r =? 0 then re_ else if 2 * r =? rn then re_ - 1 else rl.
(** convolve.h:932-935 *)
Definition rnoutputs (r : nat) : nat :=
  if r =? 0 then re_
  else rblocksize r * (if 2 * r =? rn then 1 else if r =? 1 then rD0 else aD t).
(** convolve.h:907-910 *)
Definition routputSize : nat := if rn =? 2 then re_ else rl * aD t.
(** convolve.h:443-445 *)
Definition rworkSizeW : nat := if ainplace t then 0 else routputSize.
(** convolve.h:447-449 *)
Definition rrepad : bool := negb (ainplace t) && (aL t <? am t).
(** convolve.h:830-833, 885 *)
Definition rvalid : bool := (gq t =? 1) ||
  ((gn t mod 2 =? 1) || ((gp t mod 2 =? 0) || (gp t <=? 2))) && ((gq t mod 2 =? 1) || (am t mod 2 =? 0)) &&
  ((aD t =? 1) || ((aS t =? 1) && (((aD t <? (gn t - 1) / 2) && (aD t mod 2 =? 0)) || (aD t =? (gn t - 1) / 2)))).
(** What a successful construction guarantees: checkParameters (convolve.cc:464-475), the validity
    test of convolve.h:885, the exit of common() (convolve.cc:481-485), and the documented
    positivity of the sizes; and the restriction of this model to C=S=1 and p<=2. *)
Definition rwf : Prop :=
  1 <= aL t /\ aL t <= aM t /\ aC t = 1 /\ aS t = 1 /\ 1 <= m /\ 1 <= aD t /\
  aM t <= m * gq t /\ rvalid = true /\ gp t <= 2.
(** convolve.h:289-316 with centered=false: fftBase::index, which fftPadReal does not override.
    Its D is the constructor argument. *)
Definition rindex (r i : nat) : nat :=
  if gq t =? 1 then i else
  let s := i mod m in
  if (1 <? aD t) && (gp t <=? 2) then
    let P := cq (gp t) 2 in
    let u := (i / m) mod P in
    let offset := if (r =? 0) && (P * m <=? i) && (rD0 mod 2 =? 1) then 1 else 0 in
    let incr := (i + P * m * offset) / (2 * P * m) in
    let r := r + incr in
    if i / (P * m) + offset =? 2 * incr + 1 then
      let s := if (gp t =? 2) || ((0 <? r) && (u =? 0)) then (if 0 <? s then s - 1 else m - 1) else s in
      if r =? 0 then gq t * s + gn t * u + gn t / 2
      else let r' := gn t - r in
           let u := if 0 <? u then u - 1 else P - 1 in
           gq t * s + gn t * u + r'
    else gq t * s + gn t * u + r
  else
    let u := (i / m) mod gp t in
    let r := r + i / (gp t * m) in
    gq t * s + gn t * u + r.
(** convolve.cc:5764, 5703-5707 *)
Definition rZqm : table := initZetaqm (gM t) (gq t) m.
Definition rZqmS : table := initZetaqmS (gM t) (gq t) (aL t) m.
End Geometry.

Section Kernels.
Variable t : pad.
Notation L := (aL t).  Notation m := (am t).  Notation D := (aD t).
Notation q := (gq t).  Notation e := (re_ t).  Notation D0 := (rD0 t).
Notation inplace := (ainplace t).
Notation zqm := (rZqm t).  Notation zqmS := (rZqmS t).

(** convolve.cc:5834-5848 *)
Definition rpadSingle (W : addr) : rcmd :=
  let m := if q =? 2 then m / 2 else m in
  let mp := m * gp t in
  cfor D (fun d => let F := W + 2 * (m * d) in
    rFor L mp (fun s => wrC F s C0 Ret)).
(** Pad (convolve.cc:5673-5675; padNone otherwise) *)
Definition rPad (W : addr) : rcmd :=
  if (1 <? q) && (gp t =? 1) && rrepad t then rpadSingle W else Skip.

(** convolve.cc:5867-5884 *)
Definition rforwardExplicit (f F : addr) (W : option addr) : rcmd :=
  let W := getW F W in
  Seq (rFor 0 L (fun s => Rd (f + s) (fun x => Wr (W + s) x Ret)))
 (Seq (rFor L m (fun s => Wr (W + s) 0%R Ret))
      (rd_r2c m inplace W F)).

(** convolve.cc:6743-6757 *)
Definition rbackwardExplicit (F f : addr) (W : option addr) : rcmd :=
  let W := getW F W in
  Seq (rd_c2r m inplace F W)
      (rFor 0 L (fun s => Rd (W + s) (fun x => Wr (f + s) x Ret))).

(** convolve.cc:5912-5989 *)
Definition rforward1 (f F : addr) (r0 : nat) (W : option addr) : rcmd :=
  let W := getW F W in
  if r0 =? 0 then
    let repad := inplace || (q =? 2) || negb (L mod 2 =? 0) in
    let Wr' := if repad then W else W + L in
    Seq (rFor 0 L (fun s => Rd (f + s) (fun x => Wr (Wr' + s) x Ret)))
   (Seq (if repad then rFor L m (fun s => Wr (Wr' + s) 0%R Ret) else Skip)
        (rd_r2c m inplace Wr' F))
  else if 2 * r0 <? q then
    let remainder := (r0 =? 1) && negb (D0 =? D) in
    let Dstop := if remainder then D0 else D in
    Seq (cfor Dstop (fun d =>
      let r := r0 + d in
      let U := W + 2 * (m * d) in
      Seq (rDo (Rd f (fun x => wrC U 0 (RtoC x) Ret)))
     (Seq (rFor 1 L (fun s => rtget zqm (m * r + s) (fun z => Rd (f + s) (fun x => wrC U s (Cscal x z) Ret))))
          (if inplace then rFor L m (fun s => wrC U s C0 Ret) else Skip))))
     (rd_cfft m Dstop 1 inplace W F)
  else
    let h := e - 1 in
    let frh := f + h in
    let Lmh := if L <=? h then 0 else L - h in
    let stop := if L <=? h then L else h in
    Seq (if L <=? h then rDo (Rd f (fun x => wrC W 0 (RtoC x) Ret))
         else rDo (Rd f (fun x => Rd frh (fun y => wrC W 0 (mkC x y) Ret))))
   (Seq (rFor 1 Lmh (fun s => rtget zqm (m * r0 + s) (fun z =>
           Rd (f + s) (fun x => Rd (frh + s) (fun y => wrC W s (Cmul z (mkC x y)) Ret)))))
   (Seq (rFor Lmh stop (fun s => rtget zqm (m * r0 + s) (fun z =>
           Rd (f + s) (fun x => wrC W s (Cscal x z) Ret))))
   (Seq (if inplace then rFor L h (fun s => wrC W s C0 Ret) else Skip)
        (rd_cfft h 1 1 inplace W F)))).

(** convolve.cc:6777-6844 *)
Definition rbackward1 (F f : addr) (r0 : nat) (W : option addr) : rcmd :=
  let W := getW F W in
  if r0 =? 0 then
    Seq (rd_c2r m inplace F W)
        (rFor 0 L (fun s => Rd (W + s) (fun x => Wr (f + s) x Ret)))
  else if 2 * r0 <? q then
    let remainder := (r0 =? 1) && negb (D0 =? D) in
    let Dstop := if remainder then D0 else D in
    Seq (rd_cfft m Dstop (-1) inplace F W)
        (cfor Dstop (fun d =>
          let r := r0 + d in
          let U := W + 2 * (m * d) in
          Seq (rDo (Rd U (fun x => addR f (2 * x)%R Ret)))
              (rFor 1 L (fun s => rtget zqm (m * r + s) (fun z => rdC U s (fun u =>
                 addR (f + s) (2 * realProduct z u)%R Ret))))))
  else
    let h := e - 1 in
    let frh := f + h in
    let Lmh := if L <=? h then 1 else L - h in
    let stop := if L <=? h then L else h in
    Seq (rd_cfft h 1 (-1) inplace F W)
   (Seq (rDo (rdC W 0 (fun z => addR f (2 * re z)%R
              (if L <=? h then Ret else addR frh (2 * im z)%R Ret))))
   (Seq (rFor 1 Lmh (fun s => rtget zqm (m * r0 + s) (fun z => rdC W s (fun w =>
           let z := Cmul (Cscal 2 (Cconj z)) w in
           addR (f + s) (re z) (addR (frh + s) (im z) Ret)))))
        (rFor Lmh stop (fun s => rtget zqm (m * r0 + s) (fun z => rdC W s (fun w =>
           addR (f + s) (2 * realProduct z w)%R Ret)))))).

(** convolve.cc:6107-6184 *)
Definition rforward2 (f F : addr) (r0 : nat) (W : option addr) : rcmd :=
  let W := getW F W in
  let frm := f + m in
  let Lm := L - m in
  if r0 =? 0 then
    Seq (rFor 0 Lm (fun s => Rd (f + s) (fun x => Rd (frm + s) (fun y => Wr (W + s) (x + y)%R Ret))))
   (Seq (rFor Lm m (fun s => Rd (f + s) (fun x => Wr (W + s) x Ret)))
        (rd_r2c m inplace W F))
  else if 2 * r0 <? q then
    let remainder := (r0 =? 1) && negb (D0 =? D) in
    let Dstop := if remainder then D0 else D in
    Seq (cfor Dstop (fun d =>
      let r := r0 + d in
      let U := W + 2 * (m * d) in
      Seq (rDo (rtget zqmS (Lm * r + m) (fun z2 => Rd f (fun x => Rd frm (fun y =>
             wrC U 0 (Cadd (RtoC x) (Cscal y z2)) Ret)))))
     (Seq (rFor 1 Lm (fun s => rtget zqm (m * r + s) (fun z => rtget zqmS (Lm * r + m + s) (fun z2 =>
             Rd (f + s) (fun x => Rd (frm + s) (fun y =>
             wrC U s (Cadd (Cscal x z) (Cscal y z2)) Ret))))))
          (rFor Lm m (fun s => rtget zqm (m * r + s) (fun z => Rd (f + s) (fun x =>
             wrC U s (Cscal x z) Ret)))))))
     (rd_cfft m Dstop 1 inplace W F)
  else
    let h := e - 1 in
    let frh := f + h in
    let frhm := frh + m in
    let mh := m + h in
    let stop1 := if mh <? L then L - mh else 1 in
    let stop2 := if mh <? L then h else L - m in
    Seq (if mh <? L then
           rDo (Rd f (fun x => Rd frm (fun y => Rd frh (fun u => Rd frhm (fun v =>
             wrC W 0 (mkC (x - y) (u - v)) Ret)))))
         else
           rDo (Rd f (fun x => Rd frm (fun y => Rd frh (fun u =>
             wrC W 0 (mkC (x - y) u) Ret)))))
   (Seq (rFor 1 stop1 (fun s => rtget zqm (m * r0 + s) (fun z =>
           Rd (f + s) (fun x => Rd (frm + s) (fun y => Rd (frh + s) (fun u => Rd (frhm + s) (fun v =>
             wrC W s (Cmul z (mkC (x - y) (u - v))) Ret)))))))
   (Seq (rFor stop1 stop2 (fun s => rtget zqm (m * r0 + s) (fun z =>
           Rd (f + s) (fun x => Rd (frm + s) (fun y => Rd (frh + s) (fun u =>
             wrC W s (Cmul z (mkC (x - y) u)) Ret))))))
   (Seq (rFor stop2 h (fun s => rtget zqm (m * r0 + s) (fun z =>
           Rd (f + s) (fun x => Rd (frh + s) (fun u =>
             wrC W s (Cmul z (mkC x u)) Ret)))))
        (rd_cfft h 1 1 inplace W F)))).

(** convolve.cc:6931-7033 *)
Definition rbackward2 (F f : addr) (r0 : nat) (W : option addr) : rcmd :=
  let W := getW F W in
  let Lm := L - m in
  if r0 =? 0 then
    Seq (rd_c2r m inplace F W)
   (Seq (rFor 0 m (fun s => Rd (W + s) (fun x => Wr (f + s) x Ret)))
        (rFor m L (fun s => Rd (W + s - m) (fun x => Wr (f + s) x Ret))))
  else if 2 * r0 <? q then
    let remainder := (r0 =? 1) && negb (D0 =? D) in
    let Dstop := if remainder then D0 else D in
    Seq (rd_cfft m Dstop (-1) inplace F W)
        (cfor Dstop (fun d =>
          let r := r0 + d in
          let U := W + 2 * (m * d) in
          Seq (rDo (Rd U (fun x => addR f (2 * x)%R Ret)))
         (Seq (rFor 1 m (fun s => rtget zqm (m * r + s) (fun z => rdC U s (fun u =>
                 addR (f + s) (2 * realProduct z u)%R Ret))))
              (rFor m L (fun s => rtget zqmS (Lm * r + s) (fun z => rdC U (s - m) (fun u =>
                 addR (f + s) (2 * realProduct z u)%R Ret)))))))
  else
    let h := e - 1 in
    let mh := m + h in
    let frh := f + h in
    let frm := f + m in
    let frhm := frh + m in
    let stop1 := if mh <? L then L - mh else 1 in
    let stop2 := if mh <? L then h else L - m in
    Seq (rd_cfft h 1 (-1) inplace F W)
   (Seq (rDo (rdC W 0 (fun w =>
           let z0 := Cscal 2 w in
           addR f (re z0) (addR frm (- re z0)%R (addR frh (im z0)
             (if mh <? L then addR frhm (- im z0)%R Ret else Ret))))))
   (Seq (rFor 1 stop1 (fun s => rtget zqm (m * r0 + s) (fun z => rdC W s (fun w =>
           let z := Cmul (Cscal 2 (Cconj z)) w in
           addR (f + s) (re z) (addR (frh + s) (im z)
           (addR (frm + s) (- re z)%R (addR (frhm + s) (- im z)%R Ret)))))))
   (Seq (rFor stop1 stop2 (fun s => rtget zqm (m * r0 + s) (fun z => rdC W s (fun w =>
           let z := Cmul (Cscal 2 (Cconj z)) w in
           addR (f + s) (re z) (addR (frh + s) (im z) (addR (frm + s) (- re z)%R Ret))))))
        (rFor stop2 h (fun s => rtget zqm (m * r0 + s) (fun z => rdC W s (fun w =>
           let z := Cmul (Cscal 2 (Cconj z)) w in
           addR (f + s) (re z) (addR (frh + s) (im z) Ret)))))))).

(** the member-function pointers Forward and Backward (convolve.cc:5605-5606, 5667-5668, 5686-5687) *)
Definition rforward (f F : addr) (r : nat) (W : option addr) : rcmd :=
  if q =? 1 then rforwardExplicit f F W
  else if gp t =? 1 then rforward1 f F r W else rforward2 f F r W.
Definition rbackward (F f : addr) (r : nat) (W : option addr) : rcmd :=
  if q =? 1 then rbackwardExplicit F f W
  else if gp t =? 1 then rbackward1 F f r W else rbackward2 F f r W.
End Kernels.

(** for(r=0; r < R; r += increment(r)) body(r), given the values of r that are visited *)
Fixpoint rloop (rs : list nat) (body : nat -> rcmd) : rcmd :=
  match rs with nil => Skip | cons r rs => Seq (body r) (rloop rs body) end.
