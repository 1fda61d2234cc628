(** Model of the direct convolutions of tests/direct.h and tests/direct.cc, the reference results of the tests.
    A memory word is one Complex number, as in WrapModel; T = Complex.  The code is sequential.
    Simplified: index arithmetic is exact: size_t and int do not overflow, an index that is negative after the
    deliberate mixing of int and size_t is its integer value, and an access in front of address 0 is
    undefined behaviour.  The two factors of a product are read left to right. *)
From Coq Require Import Reals ZArith Arith Bool.
From Verif Require Import CNum Mem WrapModel.
Local Open Scope nat_scope.

(** for(i=0; i < n; ++i) body i, for a loop that updates the variable sum *)
Fixpoint sumloop (n : nat) (body : nat -> C -> (C -> prog C) -> prog C) (s : C) (k : C -> prog C) : prog C :=
  match n with
  | 0 => k s
  | S n => sumloop n body s (fun s => body n s k)
  end.
Definition rdZ (p : addr) (d : Z) (k : C -> prog C) : prog C :=
  if (0 <=? Z.of_nat p + d)%Z then Rd (Z.to_nat (Z.of_nat p + d)) k else Fault.
Definition wrZ (p : addr) (d : Z) (v : C) (k : prog C) : prog C :=
  if (0 <=? Z.of_nat p + d)%Z then Wr (Z.to_nat (Z.of_nat p + d)) v k else Fault.
(** sum += f[a]*g[b] *)
Definition madd (a b : addr) (s : C) (k : C -> prog C) : prog C :=
  Rd a (fun u => Rd b (fun v => k (Cadd s (Cmul u v)))).
(** sum += f[a]*conj(g[b]) and sum += conj(f[a])*g[b] *)
Definition maddC (a b : addr) (s : C) (k : C -> prog C) : prog C :=
  Rd a (fun u => Rd b (fun v => k (Cadd s (Cmul u (Cconj v))))).
Definition maddc (a b : addr) (s : C) (k : C -> prog C) : prog C :=
  Rd a (fun u => Rd b (fun v => k (Cadd s (Cmul (Cconj u) v)))).
(** h[a]=sum *)
Definition put (a : addr) (s : C) : prog C := Wr a s Ret.

(** direct.h:19-26 directconv::convolve *)
Definition dconv (m : nat) (h f g : addr) : prog C :=
  pfor m (fun i => sumloop (i + 1) (fun j => madd (f + j) (g + (i - j))) C0 (put (h + i))).
(** direct.h:27-39 directconv::convolveC *)
Definition dconvC (m : nat) (h f g : addr) : prog C :=
  pseq (pfor (m / 2) (fun i => sumloop (m - (i + 1)) (fun t => let j := i + 1 + t in madd (f + j) (g + (m + i - j))) C0 (put (h + (i + (m + 1) / 2)))))
       (pfor (m - m / 2) (fun t => let i := m / 2 + t in sumloop (i + 1) (fun j => madd (f + j) (g + (i - j))) C0 (put (h + (i - m / 2))))).
(** direct.h:40-47 directconv::autoconvolve *)
Definition dauto (m : nat) (h f : addr) : prog C :=
  pfor m (fun i => sumloop (i + 1) (fun j => madd (f + j) (f + (i - j))) C0 (put (h + i))).
(** direct.cc:5-14 directconvh::convolve *)
Definition dconvh (m : nat) (h f g : addr) : prog C :=
  pfor m (fun i =>
    sumloop (i + 1) (fun j => madd (f + j) (g + (i - j))) C0 (fun s =>
    sumloop (m - (i + 1)) (fun t => let j := i + 1 + t in maddC (f + j) (g + (j - i))) s (fun s =>
    sumloop (m - i - 1) (fun t => let j := 1 + t in maddc (f + j) (g + (i + j))) s (put (h + i))))).
(** direct.h:77-88 directconv2::convolve; [Sx] is the member, my if the argument is 0 (direct.h:72-75) *)
Definition stride2 (my Sx : nat) : nat := if Sx =? 0 then my else Sx.
Definition dconv2 (mx my Sx : nat) (h f g : addr) : prog C :=
  pfor mx (fun i => pfor my (fun j =>
    sumloop (i + 1) (fun k s cont => sumloop (j + 1) (fun p => madd (f + (Sx * k + p)) (g + (Sx * (i - k) + j - p))) s cont) C0
      (put (h + (i * my + j))))).
(** direct.h:122-136 directconv3::convolve and its constructor *)
Definition stride3y (mz Sy : nat) : nat := if Sy =? 0 then mz else Sy.
Definition stride3x (my mz Sx Sy : nat) : nat := if Sx =? 0 then my * stride3y mz Sy else Sx.
Definition dconv3 (mx my mz Sx Sy : nat) (h f g : addr) : prog C :=
  pfor mx (fun i => pfor my (fun j => pfor mz (fun k =>
    sumloop (i + 1) (fun r s cont => sumloop (j + 1) (fun p s cont => sumloop (k + 1) (fun q =>
      madd (f + (r * Sx + p * Sy + q)) (g + ((i - r) * Sx + (j - p) * Sy + (k - q)))) s cont) s cont) C0
      (put (h + (i * (my * mz) + j * mz + k)))))).

(** direct.cc:39-42 the factor f at (px,py), Hermitian in (px,py) *)
Definition half2 (Sx xo : Z) (f : addr) (px py : Z) (k : C -> prog C) : prog C :=
  if (0 <=? py)%Z then rdZ f ((xo + px) * Sx + py) k else rdZ f ((xo - px) * Sx - py) (fun v => k (Cconj v)).
(** direct.cc:26-51 the loops of directconvh2::convolve; xc = xcompact; the assignment to h is inside the loop over px *)
Definition loops2 (mx my : nat) (xc : bool) (Sx : nat) (h f g : addr) : prog C :=
  let xo := (Z.of_nat mx - Z.b2z xc)%Z in
  let xstart := (- xo)%Z in
  let x1 := (xstart + Z.b2z (negb xc))%Z in
  let ystart := (1 - Z.of_nat my)%Z in
  let xstop := Z.of_nat mx in
  let ystop := Z.of_nat my in
  pfor (Z.to_nat (xstop - xstart)) (fun a => let kx := (xstart + Z.of_nat a)%Z in
    pfor my (fun b => let ky := Z.of_nat b in
      sumloop (Z.to_nat (xstop - x1)) (fun c s cont => let px := (x1 + Z.of_nat c)%Z in
        sumloop (Z.to_nat (ystop - ystart)) (fun d s cont => let py := (ystart + Z.of_nat d)%Z in
          let qx := (kx - px)%Z in
          if ((x1 <=? qx) && (qx <? xstop))%Z then
            let qy := (ky - py)%Z in
            if ((ystart <=? qy) && (qy <? ystop))%Z then
              half2 (Z.of_nat Sx) xo f px py (fun u => half2 (Z.of_nat Sx) xo g qx qy (fun v => cont (Cadd s (Cmul u v))))
            else cont s
          else cont s) s (fun s => wrZ h ((xo + kx) * Z.of_nat my + ky) s (cont s))) C0 (fun _ => Ret))).
(** direct.cc:16-51; the member Sx is my if the argument is 0 (direct.h:98-101); the 4-argument HermitianSymmetrizeX takes the row stride my (convolve.h:1171-1175) *)
Definition dconvh2 (mx my : nat) (xc : bool) (Sx : nat) (symm : bool) (h f g : addr) : cmd C :=
  let xo := mx - (if xc then 1 else 0) in
  let conv := Par 1 (fun _ => loops2 mx my xc Sx h f g) in
  if symm then Seq (symmetrizeX mx my xo f my) (Seq (symmetrizeX mx my xo g my) conv) else conv.

(** direct.cc:84-87 *)
Definition half3 (Sx Sy xo yo : Z) (f : addr) (px py pz : Z) (k : C -> prog C) : prog C :=
  if (0 <=? pz)%Z then rdZ f (Sx * (xo + px) + Sy * (yo + py) + pz) k
  else rdZ f (Sx * (xo - px) + Sy * (yo - py) - pz) (fun v => k (Cconj v)).
(** direct.cc:64-106 *)
Definition loops3 (mx my mz : nat) (xc yc : bool) (Sx Sy : nat) (h f g : addr) : prog C :=
  let xo := (Z.of_nat mx - Z.b2z xc)%Z in
  let yo := (Z.of_nat my - Z.b2z yc)%Z in
  let ny := (2 * Z.of_nat my - Z.b2z yc)%Z in
  let xstart := (- xo)%Z in
  let ystart := (- yo)%Z in
  let x1 := (xstart + Z.b2z (negb xc))%Z in
  let y1 := (ystart + Z.b2z (negb yc))%Z in
  let zstart := (1 - Z.of_nat mz)%Z in
  let xstop := Z.of_nat mx in
  let ystop := Z.of_nat my in
  let zstop := Z.of_nat mz in
  pfor (Z.to_nat (xstop - xstart)) (fun a => let kx := (xstart + Z.of_nat a)%Z in
    pfor (Z.to_nat (ystop - ystart)) (fun b => let ky := (ystart + Z.of_nat b)%Z in
      pfor mz (fun c => let kz := Z.of_nat c in
        sumloop (Z.to_nat (xstop - x1)) (fun a' s cont => let px := (x1 + Z.of_nat a')%Z in
          sumloop (Z.to_nat (ystop - y1)) (fun b' s cont => let py := (y1 + Z.of_nat b')%Z in
            sumloop (Z.to_nat (zstop - zstart)) (fun c' s cont => let pz := (zstart + Z.of_nat c')%Z in
              let qx := (kx - px)%Z in
              if ((x1 <=? qx) && (qx <? xstop))%Z then
                let qy := (ky - py)%Z in
                if ((y1 <=? qy) && (qy <? ystop))%Z then
                  let qz := (kz - pz)%Z in
                  if ((zstart <=? qz) && (qz <? zstop))%Z then
                    half3 (Z.of_nat Sx) (Z.of_nat Sy) xo yo f px py pz (fun u =>
                    half3 (Z.of_nat Sx) (Z.of_nat Sy) xo yo g qx qy qz (fun v => cont (Cadd s (Cmul u v))))
                  else cont s
                else cont s
              else cont s) s cont) s cont) C0
          (fun s => wrZ h (((xo + kx) * ny + yo + ky) * Z.of_nat mz + kz) s Ret)))).
(** direct.cc:53-106; the members Sy and Sx are mz and (2*my-ycompact)*Sy if the arguments are 0 (direct.h:147-153); HermitianSymmetrizeXY with 6 arguments takes the strides mz and (y0+my)*mz (convolve.h:1231-1236) *)
Definition dconvh3 (mx my mz : nat) (xc yc : bool) (Sx Sy : nat) (symm : bool) (h f g : addr) : cmd C :=
  let xo := mx - (if xc then 1 else 0) in
  let yo := my - (if yc then 1 else 0) in
  let sym p := symmetrizeXY mx my mz xo yo p ((yo + my) * mz) mz in
  let conv := Par 1 (fun _ => loops3 mx my mz xc yc Sx Sy h f g) in
  if symm then Seq (sym f) (Seq (sym g) conv) else conv.
