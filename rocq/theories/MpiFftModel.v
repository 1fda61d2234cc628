(** Model of the distributed complex transforms of mpi/mpifftw++.h and mpi/mpifftw++.cc: fft2dMPI, and
    fft3dMPI in the slab decomposition (d.yz.x = d.Y, so that Tyz=NULL), on the message passing machine.
    A memory word is one Complex number, hence csz = 1 in the configuration of the transposes.
    Loops marked PARALLEL are executed sequentially here (the threads of the local transforms are the
    subject of C14 and C20). *)
From Coq Require Import Reals ZArith List Arith Bool.
From Verif Require Import CNum Sums Roots PadModel MpiMachine MpiTrModel MpiTrTop.
Import ListNotations.
Local Open Scope nat_scope.
Notation cmdC := (prog C -> prog C).

(** read b[adr 0], .., b[adr (n-1)] *)
Fixpoint rdv (b : nat) (adr : nat -> nat) (n : nat) (acc : nat -> C) (k : (nat -> C) -> prog C) : prog C :=
  match n with
  | 0 => k acc
  | S n => Rd C b (adr n) (fun v => rdv b adr n (upd acc n v) k)
  end.
(** b[adr j]=f j for j < n *)
Fixpoint wrv (b : nat) (adr : nat -> nat) (n : nat) (f : nat -> C) : cmdC :=
  match n with
  | 0 => skip C
  | S n => seqc C (Wr C b (adr n) (f n)) (wrv b adr n f)
  end.
(** An FFTW plan for M transforms [tr] of n words each, word j of transform h being at adr h j in the
    input and in the output: simplified to one transform after the other, each reading all its input
    before it writes its output. *)
Definition mfft (n : nat) (tr : (nat -> C) -> nat -> C) (M : nat) (adr : nat -> nat -> nat) (bi bo : nat) : cmdC :=
  forc C M (fun h k => rdv bi (adr h) n (fun _ => C0) (fun x => wrv bo (adr h) n (tr x) k)).
(** fftw++.h:821-960 mfft1d(n,sign,M,stride,dist,in,out) *)
Definition mfft1d (n : nat) (sg : Z) (M stride dist : nat) (bi bo : nat) : cmdC :=
  mfft n (dft n sg) M (fun h j => h * dist + j * stride) bi bo.
(** fftw++.h:1193-1230 fft2d(ny,nz,sign,in,out), executed at offset h*ny*nz for h < M *)
Definition dft2 (ny nz : nat) (sg : Z) (x : nat -> C) (k : nat) : C :=
  dft ny sg (fun a => dft nz sg (fun b => x (a * nz + b)) (k mod nz)) (k / nz).
Definition mfft2d (ny nz : nat) (sg : Z) (M : nat) (bi bo : nat) : cmdC :=
  mfft (ny * nz) (dft2 ny nz sg) M (fun h j => h * (nz * ny) + j) bi bo.
(** fftw++.h:430-490 Transpose(rows,cols,1,out,out), executed in place *)
Definition transpose1 (rows cols b : nat) : cmdC :=
  if (rows =? 0) || (cols =? 0) then skip C
  else Move C b 0 (rows * cols) b 0 (rows * cols) (tidx rows cols 1) true.

(** fftw++.h:316-323 Setout, with the constructor's arrays [inplace]; a NULL output is the input *)
Definition setout (inplace : bool) (bi : nat) (out : option nat) (f : nat -> cmdC) : cmdC :=
  let bo := match out with Some b => b | None => bi end in
  if Bool.eqb inplace (bi =? bo) then f bo else fun _ => Fail C.
(** work on a null pointer, w words of it: nothing if w=0, otherwise undefined behaviour (the
    erroneous state of the machine) *)
Definition nonnull (w : nat) (out : option nat) (f : nat -> cmdC) : cmdC :=
  match out with Some b => f b | None => if w =? 0 then skip C else fun _ => Fail C end.

Section Transforms.
Variable c : cfg.             (* the transpose object: c = mkCfg X Y L 1 P a alltoall *)
Variable sign : Z.
Variable inplace : bool.      (* the constructor was given in == out *)
Variable bw : nat.            (* the work array of the transpose *)
Variable r : nat.             (* rank *)
(** mpitranspose.h:163-205 class split: d.x and d.y *)
Notation X := (cN c). Notation Y := (cM c).
Notation x := (ldim (cN c) (cP c) r). Notation y := (ldim (cM c) (cP c) r).
Definition localize (d : bool) (b : nat) : cmdC :=
  call_cmd C c (fun r => ldim (cN c) (cP c) r) (fun r => ldim (cM c) (cP c) r) bw r (mkCall d b b).

(** mpifftw++.h:54: d.y & (d.y-1) *)
Definition strided : bool := negb (Nat.land y (y - 1) =? 0).
(** mpifftw++.h:55-63 and 98-100: the transforms in x of the array X x y *)
Definition xfft (sg : Z) (bi bo : nat) : cmdC :=
  if strided then mfft1d X sg y y 1 bi bo
  else seqc C (transpose1 X y bi) (seqc C (mfft1d X sg y 1 X bi bo) (transpose1 y X bo)).
(** mpifftw++.cc:7-12 *)
Definition iForward (bi : nat) (out : option nat) : cmdC :=
  setout inplace bi out (fun bo => seqc C (mfft1d Y sign x 1 Y bi bo) (localize true bo)).
(** mpifftw++.h:95-101, after T->wait() *)
Definition ForwardWait (out : option nat) : cmdC := nonnull y out (fun bo => xfft sign bo bo).
(** mpifftw++.h:102-105 *)
Definition Forward (bi : nat) (out : option nat) : cmdC := seqc C (iForward bi out) (ForwardWait out).
(** mpifftw++.cc:14-21 *)
Definition iBackward (bi : nat) (out : option nat) : cmdC :=
  setout inplace bi out (fun bo => seqc C (xfft (- sign) bi bo) (localize false bo)).
(** mpifftw++.h:107-110 *)
Definition BackwardWait (out : option nat) : cmdC := nonnull x out (fun bo => mfft1d Y (- sign) x 1 Y bo bo).
(** mpifftw++.h:111-114 *)
Definition Backward (bi : nat) (out : option nat) : cmdC := seqc C (iBackward bi out) (BackwardWait out).

(** *** fft3dMPI, slabs: X x Y x Z, distributed over x, then over y; Z = cL c *)
Notation Z_ := (cL c).
(** mpifftw++.cc:23-39, the branch Tyz = NULL *)
Definition iForward3 (bi : nat) (out : option nat) : cmdC :=
  setout inplace bi out (fun bo => seqc C (mfft2d Y Z_ sign x bi bo) (localize true bo)).
(** mpifftw++.h:217-224 *)
Definition ForwardWait3 (out : option nat) : cmdC :=
  nonnull (y * Z_) out (fun bo => mfft1d X sign (y * Z_) (y * Z_) 1 bo bo).
(** mpifftw++.h:225-228 *)
Definition Forward3 (bi : nat) (out : option nat) : cmdC := seqc C (iForward3 bi out) (ForwardWait3 out).
(** mpifftw++.cc:54-59 *)
Definition iBackward3 (bi : nat) (out : option nat) : cmdC :=
  setout inplace bi out (fun bo => seqc C (mfft1d X (- sign) (y * Z_) (y * Z_) 1 bi bo) (localize false bo)).
(** mpifftw++.cc:61-80 with Tyz = NULL, mpifftw++.h:231-236 *)
Definition BackwardWait3 (out : option nat) : cmdC :=
  nonnull x out (fun bo => mfft2d Y Z_ (- sign) x bo bo).
(** mpifftw++.h:241-244 *)
Definition Backward3 (bi : nat) (out : option nat) : cmdC := seqc C (iBackward3 bi out) (BackwardWait3 out).

(** fftw++.h:351-357 Normalize(out) on the first [words] Complex words of out; norm = 1/N *)
Definition normalize (N words : nat) (out : nat) : cmdC :=
  forc C words (fun i k => Rd C out i (fun v => Wr C out i (Cmul (RtoC (/ INR N)) v) k)).
End Transforms.
