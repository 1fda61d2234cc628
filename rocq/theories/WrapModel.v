(** Model of the wrappers: wrappers/HybridConvolution.h (C++), wrappers/cfftw++.cc (C) and wrappers/fftwpp.py
    (Python), on the model of the classes Convolution, Convolution2, Convolution3.
    Memory of Complex words (a store to the imaginary part alone is a read of the word and a store of the
    word: simplification).  The optimizer's choice of m, D and inplace is a parameter. *)
From Coq Require Import Reals ZArith Arith List Bool.
From Verif Require Import CNum Sums Mem PadModel CenModel HerModel ConvModel HConvModel Team LayerModel HLayerModel Xf.
Import ListNotations.

(** what the optimizer chose for one transform *)
Record choice := mkch { ch_m : nat; ch_D : nat; ch_inplace : bool }.

(** *** HybridConvolution.h *)
(** HybridConvolution.h:20, 60-61, 117-119: if(M == 0) M=A*L-A+1 *)
Definition padded (A L M : nat) : nat := if M =? 0 then A * L - A + 1 else M.
(** HybridConvolution.h:40, 91-92, 151-153: if(M == 0) M=3*ceilquotient(L,2)-2*(L%2) *)
Definition paddedHermitian (L M : nat) : nat := if M =? 0 then 3 * cq L 2 - 2 * (L mod 2) else M.
(** Application(A,B,mult,threads) with overwrite=true (convolve.h:97-112) and a transform
    (L,M,app,C), S=C *)
Definition transform (A B L M C : nat) (ch : choice) : pad :=
  mkpad L M C C (ch_m ch) (ch_D ch) (ch_inplace ch) A B true.

(** HybridConvolution.h:19-24 *)
Definition HybridConvolution (L M A B : nat) (ch : choice) : xf := FP (transform A B L (padded A L M) 1 ch).
(** HybridConvolution.h:39-44 *)
Definition HybridConvolutionHermitian (L M A B : nat) (ch : choice) : pad := transform A B L (paddedHermitian L M) 1 ch.
(** HybridConvolution.h:58-67: (fftx,ffty) *)
Definition HybridConvolution2 (Lx Ly Mx My A B : nat) (chx chy : choice) : xf * xf :=
  (FP (transform A B Lx (padded A Lx Mx) Ly chx), FP (transform A B Ly (padded A Ly My) 1 chy)).
(** HybridConvolution.h:86-99 *)
Definition HybridConvolutionHermitian2 (Lx Ly Mx My A B : nat) (chx chy : choice) : xf * pad :=
  let Hy := cq Ly 2 in
  (CP (transform A B Lx (paddedHermitian Lx Mx) Hy chx), transform A B Ly (paddedHermitian Ly My) 1 chy).
(** HybridConvolution.h:115-127 *)
Definition HybridConvolution3 (Lx Ly Lz Mx My Mz A B : nat) (chx chy chz : choice) : xf * xf * xf :=
  (FP (transform A B Lx (padded A Lx Mx) (Ly * Lz) chx), FP (transform A B Ly (padded A Ly My) Lz chy),
   FP (transform A B Lz (padded A Lz Mz) 1 chz)).
(** HybridConvolution.h:149-163 *)
Definition HybridConvolutionHermitian3 (Lx Ly Lz Mx My Mz A B : nat) (chx chy chz : choice) : xf * xf * pad :=
  let Hz := cq Lz 2 in
  (CP (transform A B Lx (paddedHermitian Lx Mx) (Ly * Hz) chx), CP (transform A B Ly (paddedHermitian Ly My) Hz chy),
   transform A B Lz (paddedHermitian Lz Mz) 1 chz).

(** *** cfftw++.cc:49-164: the C functions create the objects with the default M, A=2, B=1 *)
Definition create_conv1d (L : nat) (ch : choice) := HybridConvolution L 0 2 1 ch.
Definition create_hconv1d (L : nat) (ch : choice) := HybridConvolutionHermitian L 0 2 1 ch.
Definition create_conv2d (Lx Ly : nat) (chx chy : choice) := HybridConvolution2 Lx Ly 0 0 2 1 chx chy.
Definition create_hconv2d (Lx Ly : nat) (chx chy : choice) := HybridConvolutionHermitian2 Lx Ly 0 0 2 1 chx chy.
Definition create_conv3d (Lx Ly Lz : nat) (chx chy chz : choice) := HybridConvolution3 Lx Ly Lz 0 0 0 2 1 chx chy chz.
Definition create_hconv3d (Lx Ly Lz : nat) (chx chy chz : choice) := HybridConvolutionHermitian3 Lx Ly Lz 0 0 0 2 1 chx chy chz.

(** *** HermitianSymmetrize* (convolve.h:1140-1238) on Complex words *)
(** f[d]=conj(f[s]); an access in front of address 0 is undefined behaviour *)
Definition conjC (f : addr) (d s : Z) : prog C :=
  let D := (Z.of_nat f + d)%Z in let S := (Z.of_nat f + s)%Z in
  if ((0 <=? D) && (0 <=? S))%Z then Rd (Z.to_nat S) (fun x => Wr (Z.to_nat D) (Cconj x) Ret) else Fault.
(** f[d].im=0.0 *)
Definition realC (f : addr) (d : nat) : prog C := Rd (f + d) (fun x => Wr (f + d) (RtoC (re x)) Ret).
Definition zeroW (f : addr) (d : nat) : prog C := Wr (f + d) C0 Ret.

(** convolve.h:1140-1143 *)
Definition symmetrize (f : addr) : cmd C := Par 1 (fun _ => realC f 0).
(** convolve.h:1146-1169; the loop variable i is Sx*(k+1) *)
Definition symmetrizeX (Hx Hy x0 : nat) (f : addr) (Sx : nat) : cmd C :=
  let F := x0 * Sx in
  Seq (Par (Hx - 1) (fun k => let i := Sx * (k + 1) in conjC f (Z.of_nat F - Z.of_nat i) (Z.of_nat F + Z.of_nat i)))
 (Seq (Par 1 (fun _ => realC f F))
      (if x0 =? Hx then Par Hy (fun j => zeroW f j) else Skip)).
(** convolve.h:1179-1227; in the second loop i is Sx*(k-(Hx-1)), 0 <= k < 2*Hx-1 *)
Definition symmetrizeXY (Hx Hy Hz x0 y0 : nat) (f : addr) (Sx Sy : nat) : cmd C :=
  let origin := x0 * Sx + y0 * Sy in
  Seq (Par (Hx - 1) (fun k => let i := Sx * (k + 1) in conjC f (Z.of_nat origin - Z.of_nat i) (Z.of_nat origin + Z.of_nat i)))
 (Seq (Par 1 (fun _ => realC f origin))
 (Seq (Par (2 * Hx - 1) (fun k =>
         let i := ((Z.of_nat k - (Z.of_nat Hx - 1)) * Z.of_nat Sx)%Z in
         let m := (Z.of_nat origin - i)%Z in
         let p := (Z.of_nat origin + i)%Z in
         pfor (Hy - 1) (fun l => let j := Sy * (l + 1) in conjC f (m - Z.of_nat j) (p + Z.of_nat j))))
 (Seq (if x0 =? Hx then
         let Ly := y0 + Hy in Par Ly (fun j => pfor Hz (fun k => zeroW f (Sy * j + k)))
       else Skip)
      (if y0 =? Hy then
         let Lx := x0 + Hx in Par Lx (fun i => pfor Hz (fun k => zeroW f (Sx * i + k)))
       else Skip)))).

(** *** fftwpp.py.  A numpy array: the address of its first word and its shape; C-contiguous, complex128 *)
Record ndarray := mknd { nd_base : addr; nd_shape : list nat }.
Fixpoint same_shape (a b : list nat) : bool :=
  match a, b with [], [] => true | x :: a, y :: b => (x =? y) && same_shape a b | _, _ => false end.
(** assert f.shape == self.shape (fftwpp.py:217-218); a failed assertion is an error exit *)
Definition assert_shape (shape : list nat) (f : ndarray) (k : tc C) : tc C :=
  if same_shape (nd_shape f) shape then k else TExit.
Definition pair_of (f g : ndarray) (a : nat) : addr := nd_base (if a =? 0 then f else g).
Definition shape_at (f : ndarray) (i : nat) : nat := nth i (nd_shape f) 0.

(** Convolution.convolve (fftwpp.py:211-220), by dimension; cfftw++.cc:58-62, 99-104, 141-145.
    t: the object created by Convolution(shape); F, V, w: its work memory *)
Definition py_object1 (t : xf) (F V : nat -> addr) (w : addr) : conv :=
  cinit t multBinary (arr (max (aA t) (aB t)) F) (arr (aB t) V) false w.
Definition py_convolve1 (shape : list nat) (t : xf) (F V : nat -> addr) (w : addr) (f g : ndarray) : tc C :=
  assert_shape shape f (assert_shape shape g (
    emb (convolve (py_object1 t F V w) (arr (max (aA t) (aB t)) (pair_of f g))))).
Definition py_convolve2 (shape : list nat) (tx ty : xf) (T : nat) (sch : nat -> nat -> list nat)
    (F V : nat -> addr) (w : addr) (rooms : nat -> room) (f g : ndarray) : tc C :=
  assert_shape shape f (assert_shape shape g (
    lconvolve (convolution2 tx ty (fun _ => multBinary) T sch F V w rooms) (arr (aA tx) (pair_of f g)) 0)).
Definition py_convolve3 (shape : list nat) (tx ty tz : xf) (T : nat) (sch : nat -> nat -> list nat)
    (F V : nat -> addr) (w : addr) (rooms : nat -> room2) (schy : nat -> nat -> nat -> nat -> list nat) (f g : ndarray) : tc C :=
  assert_shape shape f (assert_shape shape g (
    lconvolve (convolution3 tx ty tz (fun _ _ => multBinary) T sch F V w rooms schy) (arr (aA tx) (pair_of f g)) 0)).

(** HConvolution.convolve (fftwpp.py:320-349), by dimension: Hermitian symmetry is first enforced on f and g
    (with the shape of f); cfftw++.cc:73-85, 91-94, 117-121, 133-139, 159-164 *)
Definition hpy_convolve1 (al : nat) (t : pad) (F V : nat -> addr) (w : addr) (f g : ndarray) : tc C :=
  TSeq (emb (symmetrize (nd_base f)))
 (TSeq (emb (symmetrize (nd_base g)))
       (emb (hconstruct_convolve al t realMultBinary F V w (pair_of f g)))).
Definition hpy_convolve2 (al : nat) (tx : xf) (ty : pad) (T : nat) (sch : nat -> nat -> list nat)
    (F V : nat -> addr) (w : addr) (rooms : nat -> room) (f g : ndarray) : tc C :=
  let Lx := shape_at f 0 in
  let Hx := (Lx + 1) / 2 in
  let Hy := shape_at f 1 in
  let x0 := Lx / 2 in
  TSeq (emb (symmetrizeX Hx Hy x0 (nd_base f) Hy))
 (TSeq (emb (symmetrizeX Hx Hy x0 (nd_base g) Hy))
       (lconvolve (hconvolution2 al tx ty realMultBinary T sch F V w rooms) (arr (aA tx) (pair_of f g)) 0)).
Definition hpy_convolve3 (al : nat) (tx ty : xf) (tz : pad) (T : nat) (sch : nat -> nat -> list nat)
    (F V : nat -> addr) (w : addr) (rooms : nat -> room2) (schy : nat -> nat -> nat -> nat -> list nat) (f g : ndarray) : tc C :=
  let Lx := shape_at f 0 in
  let Hx := (Lx + 1) / 2 in
  let Ly := shape_at f 1 in
  let Hy := (Ly + 1) / 2 in
  let Hz := shape_at f 2 in
  let x0 := Lx / 2 in
  let y0 := Ly / 2 in
  TSeq (emb (symmetrizeXY Hx Hy Hz x0 y0 (nd_base f) ((y0 + Hy) * Hz) Hz))
 (TSeq (emb (symmetrizeXY Hx Hy Hz x0 y0 (nd_base g) ((y0 + Hy) * Hz) Hz))
       (lconvolve (hconvolution3 al tx ty tz realMultBinary T sch F V w rooms schy) (arr (aA tx) (pair_of f g)) 0)).

(** fftwpp.py:182-200: Convolution(shape) creates the object for its dimension; :291-312: HConvolution(shape)
    passes 2*shape[-1]-1 for the length of the last dimension *)
Definition hlength (n : nat) : nat := 2 * n - 1.
