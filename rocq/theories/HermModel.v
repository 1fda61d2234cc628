(** Model of HermitianSymmetrize, HermitianSymmetrizeX and HermitianSymmetrizeXY (convolve.h).
    Memory of doubles as in FftwModel: the Complex array element f[n] is the two doubles at
    f+2*n.  Index arithmetic is exact (no wraparound of size_t; the deliberate wrap of
    (-Hx+1)*Sx to a negative ptrdiff_t is its integer value); an access in front of address 0
    is undefined behaviour. *)
From Coq Require Import Reals ZArith Arith Bool.
From Verif Require Import CNum Mem FftwModel.

(** f[d]=conj(f[s]) with integer offsets d, s from f  (Complex.h conj and operator =) *)
Definition conjTo (f : addr) (d s : Z) : dprog :=
  let D := (Z.of_nat f + 2 * d)%Z in
  let S := (Z.of_nat f + 2 * s)%Z in
  if ((0 <=? D) && (0 <=? S))%Z then
    let D := Z.to_nat D in let S := Z.to_nat S in
    Rd S (fun x => Rd (S + 1) (fun y => Wr D x (Wr (D + 1) (- y)%R Ret)))
  else Fault.

(** for(ptrdiff_t i=lo; i < hi; i += inc) *)
Definition nstepsZ (lo hi inc : Z) : nat := Z.to_nat ((hi - lo + (inc - 1)) / inc).

(** convolve.h:1140-1143 *)
Definition HermitianSymmetrize (f : addr) : dcmd := Par 1 (fun _ => Wr (f + 1) 0%R Ret).

(** convolve.h:1146-1169 *)
Definition HermitianSymmetrizeX (Hx Hy x0 : nat) (f : addr) (Sx : nat) : dcmd :=
  let F := x0 * Sx in
  let stop := Hx * Sx in
  Seq (ParStep Sx stop Sx (fun i => conjTo f (Z.of_nat F - Z.of_nat i) (Z.of_nat F + Z.of_nat i)))
 (Seq (Par 1 (fun _ => Wr (f + 2 * F + 1) 0%R Ret))
      (if x0 =? Hx then Par Hy (fun j => zeroC (f + 2 * j)) else Skip)).

(** convolve.h:1171-1175 *)
Definition HermitianSymmetrizeX' (Hx Hy x0 : nat) (f : addr) : dcmd := HermitianSymmetrizeX Hx Hy x0 f Hy.

(** convolve.h:1179-1227 *)
Definition HermitianSymmetrizeXY (Hx Hy Hz x0 y0 : nat) (f : addr) (Sx Sy : nat) : dcmd :=
  let origin := x0 * Sx + y0 * Sy in
  let stop := Hx * Sx in
  Seq (ParStep Sx stop Sx (fun i =>
         conjTo f (Z.of_nat origin - Z.of_nat i) (Z.of_nat origin + Z.of_nat i)))
 (Seq (Par 1 (fun _ => Wr (f + 2 * origin + 1) 0%R Ret))
 (Seq (let lo := ((- Z.of_nat Hx + 1) * Z.of_nat Sx)%Z in
       Par (nstepsZ lo (Z.of_nat stop) (Z.of_nat Sx)) (fun n =>
         let i := (lo + Z.of_nat Sx * Z.of_nat n)%Z in
         let m := (Z.of_nat origin - i)%Z in
         let p := (Z.of_nat origin + i)%Z in
         pStep Sy (Sy * Hy) Sy (fun j => conjTo f (m - Z.of_nat j) (p + Z.of_nat j))))
 (Seq (if x0 =? Hx then
         let Ly := y0 + Hy in
         Par Ly (fun j => pfor Hz (fun k => zeroC (f + 2 * (Sy * j + k))))
       else Skip)
      (if y0 =? Hy then
         let Lx := x0 + Hx in
         Par Lx (fun i => pfor Hz (fun k => zeroC (f + 2 * (Sx * i + k))))
       else Skip)))).
