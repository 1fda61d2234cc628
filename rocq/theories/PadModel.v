(** Model of class fftPad (complex, uncentered padded transforms), convolve.h:87-560 and
    convolve.cc:387-1530: geometry, root tables, plans.
    size_t is [nat] without wrap-around (stated in DESIGN.md). *)
From Coq Require Import Reals ZArith Arith List Bool.
From Verif Require Import CNum Sums Roots Mem VecModel.
Import ListNotations.

(** align.h:97-100 (b >= 1 at every call) *)
Definition cq (a b : nat) : nat := (a + b - 1) / b.

(** Constructor arguments of fftPad (convolve.h:522-531) plus the fields of Application
    that init() reads (convolve.h:75-113). *)
Record pad := mkpad {
  aL : nat;        (* L: number of data values *)
  aM : nat;        (* M: requested padded length *)
  aC : nat;        (* C: number of interleaved copies *)
  aS : nat;        (* S: stride between successive elements *)
  am : nat;        (* m: subtransform size *)
  aD : nat;        (* D: residues per pass *)
  ainplace : bool;
  aA : nat; aB : nat;   (* app.A, app.B: numbers of inputs and outputs *)
  aoverwrite : bool     (* app.overwrite *)
}.

(** convolve.cc:387-394 *)
Definition param_p (L m : nat) : nat := cq L m.
Definition param_P (centered : bool) (p : nat) : nat :=
  if (centered && (p =? 2 * (p / 2))) || (p =? 2) then p / 2 else p.
Definition param_n (L M m : nat) (centered : bool) : nat :=
  cq M (param_P centered (param_p L m) * m).
Definition param_q (L M m : nat) (centered : bool) : nat :=
  param_P centered (param_p L m) * param_n L M m centered.

Section Geometry.
Variable t : pad.
Definition gL := aL t.
Definition gC := aC t.
Definition gS := aS t.
Definition gm := am t.
Definition gp : nat := param_p (aL t) (am t).
Definition gn : nat := param_n (aL t) (aM t) (am t) false.
Definition gq : nat := param_q (aL t) (aM t) (am t) false.
Definition gSm : nat := gS * gm.                     (* convolve.cc:487 *)
Definition gCm : nat := gC * gm.                     (* convolve.cc:486 *)
Definition gM : nat := gm * gq.                      (* convolve.cc:488: M=m*q *)
(** convolve.cc:527 for q=1: dr=D=D0=R=1 *)
Definition gD : nat := if gq =? 1 then 1 else aD t.
(** convolve.cc:536-542: P=P1=1 if p=2, else p (uncentered) *)
Definition gP : nat := if gp =? 2 then 1 else gp.
Definition gl : nat := if gq =? 1 then gM else gm * gP.     (* convolve.cc:528, 544 *)
Definition gb : nat := gS * gl.                             (* convolve.cc:529, 545 *)
(** convolve.h:381-383 with centered=false *)
Definition conjugates : bool := (1 <? gD) && (gp <=? 2).
(** convolve.h:385-387 *)
Definition residueBlocks : nat := if conjugates then cq gn 2 else gn.
Definition gR : nat := if gq =? 1 then 1 else residueBlocks.
(** convolve.h:389 *)
Definition gDr : nat := if conjugates then gD / 2 else gD.
Definition gdr : nat := if gq =? 1 then 1 else gDr.
(** convolve.cc:668-669 *)
Definition gD0 : nat := if gq =? 1 then 1 else if gn mod gD =? 0 then gD else gn mod gD.
(** convolve.cc:554-555, 567 *)
Definition goverwrite : bool :=
  if gq =? 1 then false
  else ainplace t && (gL =? gp * gm) && (gn =? gp + 1) && (gD =? 1) &&
       (aB t <=? aA t) && aoverwrite t && negb (2 <? gp).
(** convolve.h:391-393 *)
Definition increment (r : nat) : nat :=
  if 0 <? r then gdr else if conjugates then cq gD0 2 else gD0.
(** convolve.h:424-426 *)
Definition outputSize : nat := gb * gD.
(** convolve.h:429-436 *)
Definition blocksize (r : nat) : nat := gl.
Definition noutputs (r : nat) : nat := blocksize r * (if r =? 0 then gD0 else gD).
(** convolve.h:439-441 *)
Definition span (r : nat) : nat := gS * noutputs r.
(** convolve.h:448-450 *)
Definition workSizeW : nat := if ainplace t then 0 else outputSize.
(** convolve.h:452-454 *)
Definition repad : bool := negb (ainplace t) && (gL <? gm).

(** convolve.h:476-479 *)
Definition valid : bool :=
  if gq =? 1 then gD =? 1
  else (gD =? 1) || ((gS =? 1) && (((gD <? gn) && (gD mod 2 =? 0)) || (gD =? gn))).

(** What a successful construction guarantees: checkParameters (convolve.cc:464-475), the
    validity test of convolve.h:528, the exit of common() (convolve.cc:481-485), and the
    documented positivity of the sizes. *)
Definition wf : Prop :=
  1 <= gL /\ gL <= aM t /\ 1 <= gC /\ gC <= gS /\ 1 <= gm /\ 1 <= aD t /\
  aM t <= gm * gq /\ valid = true.

(** convolve.h:289-316 (centered=false).  The C++ stores the quotient incr in a double;
    it is an exact integer. *)
Definition index (r i : nat) : nat :=
  if gq =? 1 then i else
  let s := i mod gm in
  if (1 <? gD) && (gp <=? 2) then
    let P := cq gp 2 in
    let u := (i / gm) mod P in
    let offset := if (r =? 0) && (P * gm <=? i) && (gD0 mod 2 =? 1) then 1 else 0 in
    let incr := (i + P * gm * offset) / (2 * P * gm) in
    let r := r + incr in
    if i / (P * gm) + offset =? 2 * incr + 1 then
      let s := if (gp =? 2) || ((0 <? r) && (u =? 0))
               then (if 0 <? s then s - 1 else gm - 1) else s in
      if r =? 0 then gq * s + gn * u + gn / 2
      else let r' := gn - r in
           let u := if 0 <? u then u - 1 else P - 1 in
           gq * s + gn * u + r'
    else gq * s + gn * u + r
  else
    let u := (i / gm) mod gp in
    let r := r + i / (gp * gm) in
    gq * s + gn * u + r.
End Geometry.

(** *** Root tables.  A table is a partial function; reading outside it is a fault. *)
Definition table := nat -> option C.
Definition tset (T : table) (i : nat) (v : C) : table := fun j => if i =? j then Some v else T j.
Fixpoint tloop (n : nat) (f : nat -> table -> table) (T : table) : table :=
  match n with O => T | S k => f k (tloop k f T) end.

Definition twopi : R := (2 * PI)%R.     (* convolve.cc:24 *)

(** convolve.cc:121-135, initZetaqm(q,m): Zetaqm[m*r]=1, Zetaqm[m*r+s]=expi(r*s*twopi/M). *)
Definition initZetaqm (M q m : nat) : table :=
  tloop (q - 1) (fun r' T =>
    let r := S r' in let mr := m * r in
    tloop (m - 1) (fun s' T =>
      let s := S s' in
      tset T (mr + s) (expi (INR (r * s) * (twopi / INR M))))
      (tset T mr C1))
    (fun _ => None).

(** convolve.cc:592-596: Zetaqp[(P1-1)*r+t]=expi(r*t*twopi/q), r=1..n-1, t=1..P1-1 *)
Definition initZetaqp (q n P1 : nat) : table :=
  tloop (n - 1) (fun r' T => let r := S r' in
    tloop (P1 - 1) (fun t' T => let t := S t' in
      tset T ((P1 - 1) * r + t) (expi (INR (r * t) * (twopi / INR q)))) T)
    (fun _ => None).

(** convolve.cc:608-614: ZetaqmS[Lm*r+s]=expi(r*s*twopi/M), r=1..q-1, s=m..L-1 *)
Definition initZetaqmS (M q L m : nat) : table :=
  let Lm := L - m in
  tloop (q - 1) (fun r' T => let r := S r' in
    tloop Lm (fun s' T => let s := m + s' in
      tset T (Lm * r + s) (expi (INR (r * s) * (twopi / INR M)))) T)
    (fun _ => None).

Definition Zetaqm (t : pad) : table := initZetaqm (gM t) (gq t) (gm t).
Definition Zetaqp (t : pad) : table := initZetaqp (gq t) (gn t) (gP t).
Definition ZetaqmS (t : pad) : table := initZetaqmS (gM t) (gq t) (gL t) (gm t).

(** table access inside a loop body *)
Definition tget (T : table) (i : nat) (k : C -> prog C) : prog C :=
  match T i with Some v => k v | None => Fault end.

Notation "x <- a ;; k" := (Rd a (fun x => k)) (at level 61, a at next level, right associativity).
Notation "x <~ T [ i ] ;; k" := (tget T i (fun x => k))
  (at level 61, T at next level, i at next level, right associativity).
Notation "a ::= v ;; k" := (Wr a v k) (at level 61, v at next level, right associativity).

(** for(s=lo; s < hi; ++s) body s, parallel (PARALLELIF) *)
Definition ParFor (lo hi : nat) (body : nat -> prog C) : cmd C :=
  Par (hi - lo) (fun i => body (lo + i)).
(** straight-line code outside a parallel loop: a "loop" of one iteration *)
Definition Do (p : prog C) : cmd C := Par 1 (fun _ => p).
(** sequential inner loop  for(s=lo; s < hi; ++s) *)
Definition pForR (lo hi : nat) (body : nat -> prog C) : prog C :=
  pfor (hi - lo) (fun i => body (lo + i)).

(** *** FFTW plans.  [mfft n sg M stride dist inpl] is mfft1d(n,sg,M,stride,dist,G,H) with
    inpl=(G==H) (fftw++.h:821-890, 763-815).  Executing it on (in,out) is the FFTW
    call documented as: for every h < M,
      out[h*dist+k*stride] = sum_j in[h*dist+j*stride] exp(2 pi i sg j k/n).
    FFTW is external (trusted): its contract is [fft_pre]/[fft_post].
    Setout (fftw++.h:316-323) exits if the in-place status differs from the plan's. *)
Record plan := mkplan { pl_n : nat; pl_sign : Z; pl_M : nat; pl_stride : nat; pl_dist : nat; pl_inplace : bool }.

Definition lay (P : plan) (h k : nat) : nat := h * pl_dist P + k * pl_stride P.

Definition fft_pre (P : plan) (pin pout : addr) (m : mem C) : Prop :=
  (1 <= pl_n P) /\
  (* the layout does not overlap itself *)
  (forall h h' k k', h < pl_M P -> h' < pl_M P -> k < pl_n P -> k' < pl_n P ->
     lay P h k = lay P h' k' -> h = h' /\ k = k') /\
  (* input initialised, output allocated *)
  (forall h k, h < pl_M P -> k < pl_n P -> exists v, m (pin + lay P h k) = Val v) /\
  (forall h k, h < pl_M P -> k < pl_n P -> m (pout + lay P h k) <> Unalloc) /\
  (* in place, or input and output disjoint *)
  (pin = pout \/ forall h h' k k', h < pl_M P -> h' < pl_M P -> k < pl_n P -> k' < pl_n P ->
     pin + lay P h k <> pout + lay P h' k').

Definition fft_out (P : plan) (pout : addr) (a : addr) : Prop :=
  exists h k, h < pl_M P /\ k < pl_n P /\ a = pout + lay P h k.

(** unnormalised DFT of x_0..x_{n-1}: sum_j x_j exp(2 pi i sg j k/n) *)
Definition dft (n : nat) (sg : Z) (x : nat -> C) (k : nat) : C :=
  Csum n (fun j => Cmul (x j) (zeta n (sg * Z.of_nat j * Z.of_nat k))).

Definition fft_post (P : plan) (pin pout : addr) (m m' : mem C) : Prop :=
  (forall a, ~ fft_out P pout a -> m' a = m a) /\
  (forall h, h < pl_M P -> forall x, (forall j, j < pl_n P -> m (pin + lay P h j) = Val (x j)) ->
     forall k, k < pl_n P -> m' (pout + lay P h k) = Val (dft (pl_n P) (pl_sign P) x k)).

Definition fft (P : plan) (pin pout : addr) : cmd C :=
  if Bool.eqb (pl_inplace P) (pin =? pout)
  then Ext (fft_pre P pin pout) (fft_post P pin pout)
  else Exit.

Section Plans.
Variable t : pad.
(** convolve.cc:508-516 (q=1) and 557-563 *)
Definition fftm (sg : Z) : plan :=
  if gq t =? 1 then
    (if gS t =? 1 then mkplan (gm t) sg 1 1 0 (ainplace t)       (* fft1d *)
     else mkplan (gm t) sg (gC t) (gS t) 1 (ainplace t))
  else if gS t =? 1 then mkplan (gm t) sg (gC t * gD t * gP t) 1 (gm t) (ainplace t)
  else mkplan (gm t) sg (gC t) (gS t) 1 (ainplace t).
(** convolve.cc:671-676 *)
Definition fftm0 (sg : Z) : plan := mkplan (gm t) sg (gD0 t * gP t) 1 (gm t) (ainplace t).
(** convolve.cc:599-605 *)
Definition fftp (sg : Z) : plan :=
  if gS t =? gC t then mkplan (gP t) sg (gCm t) (gCm t) 1 true
  else mkplan (gP t) sg (gC t) (gSm t) 1 true.
End Plans.
