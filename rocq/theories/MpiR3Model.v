(** Model of the distributed real transforms in three dimensions of mpi/mpifftw++.h:395-610 and
    mpi/mpifftw++.cc:121-193, rcfft3dMPI, with the slab decomposition (dc.yz.x = dc.Y, so that Tyz is
    NULL), on the message passing machine.  A memory word is one double; plans as in MpiRFftModel.
    Loops marked PARALLEL and omp parallel for are executed sequentially here (C14, C20). *)
From Coq Require Import Reals ZArith List Arith Bool.
From Verif Require Import CNum Sums Roots PadModel HerModel MpiMachine MpiTrModel MpiTrTop MpiRFftModel MpiRFftSpec.
Import ListNotations.
Local Open Scope nat_scope.

Section Transforms.
Variable c : cfg.             (* the transpose Txy: c = mkCfg X Y (Z/2+1) 2 P a alltoall *)
Variable Zr : nat.            (* dr.Z *)
Variable inplace : bool.      (* the constructor was given in == out *)
Variable junk : nat -> nat -> R. (* what a complex-to-real transform leaves in its input *)
Variable bw : nat.            (* the work array of the transpose *)
Variable r : nat.             (* rank *)
(** mpitranspose.h class split3: dc.x = dr.x, dr.x0, dc.xy.y, dc.xy.y0; slabs: dr.yz.x = dc.Y, dr.yz.x0 = 0, dc.z = dc.Z, dc.z0 = 0 *)
Notation X := (cN c). Notation Y := (cM c). Notation Zc := (cL c).
Notation lx := (ldim (cN c) (cP c) r). Notation ly := (ldim (cM c) (cP c) r).
Notation lx0 := (lbeg (cN c) (cP c) r). Notation ly0 := (lbeg (cM c) (cP c) r).
(** mpifftw++.h:479; fftw++.h realsize *)
Definition rdist3 : nat := if inplace then 2 * Zc else Zr.
(** mpifftw++.h:455-458: M = dr.x*dr.yz.x transforms *)
Definition zForward (bi bo : nat) : cmdR :=
  rplanw Zr (2 * Zc) (r2cw Zr) always None (lx * Y) (fun h j => h * rdist3 + j) (fun h t => h * (2 * Zc) + t) bi bo.
Definition zBackward (bi bo : nat) : cmdR :=
  rplanw (2 * Zc) Zr (c2rw Zr) (c2rok Zr) (Some junk) (lx * Y) (fun h t => h * (2 * Zc) + t) (fun h j => h * rdist3 + j) bi bo.
(** mpifftw++.h:460-461 and mpifftw++.cc:126-131, 170-175: for each i < dc.x, dc.z transforms in y of stride dc.z;
    transform h is number h mod dc.z of i = h/dc.z *)
Definition yadr (h t : nat) : nat := ((h / Zc * Y + t / 2) * Zc + h mod Zc) * 2 + t mod 2.
Definition yfft3 (sg : Z) (b : nat) : cmdR :=
  rplanw (2 * Y) (2 * Y) (dftw Y sg) always None (lx * Zc) yadr yadr b b.
(** mpifftw++.h:463-465, M = dc.xy.y*dc.z transforms in x of stride M *)
Definition xadr (h t : nat) : nat := (t / 2 * (ly * Zc) + h) * 2 + t mod 2.
Definition xfft3 (sg : Z) (b : nat) : cmdR :=
  rplanw (2 * X) (2 * X) (dftw X sg) always None (ly * Zc) xadr xadr b b.

(** mpifftw++.cc:121-133; zForward->fft sets a NULL output to the input, but only for itself: the other
    steps then work on the null pointer, which is undefined unless the process holds nothing at all *)
Definition iForward3R (bi : nat) (out : option nat) : cmdR :=
  seqc R (setoutR inplace bi out (zForward bi))
    match out with
    | Some b => seqc R (yfft3 (-1) b) (localizeR c bw r true b)
    | None => if (lx =? 0) && (ly =? 0) then localizeR c bw r true bi else fun _ => Fail R
    end.
(** mpifftw++.cc:135-147 does nothing when Tyz is NULL; mpifftw++.h:560-563, after Txy->wait() *)
Definition ForwardWait3R (out : option nat) : cmdR := nonnullR (ly * Zc) out (fun b => xfft3 (-1) b).
(** mpifftw++.h:568-571 *)
Definition Forward3R (bi : nat) (out : option nat) : cmdR := seqc R (iForward3R bi out) (ForwardWait3R out).
(** mpifftw++.cc:149-153 *)
Definition iBackward3R (bi : nat) : cmdR := seqc R (xfft3 1 bi) (localizeR c bw r false bi).
(** mpifftw++.cc:155-167, mpifftw++.h:579-582 *)
Definition BackwardWait3R (bi : nat) (out : option nat) : cmdR :=
  seqc R (yfft3 1 bi) (setoutR inplace bi out (zBackward bi)).
(** mpifftw++.h:587-590 *)
Definition Backward3R (bi : nat) (out : option nat) : cmdR := seqc R (iBackward3R bi) (BackwardWait3R bi out).

(** mpifftw++.cc:169-191 Shift; h = i*(dr.Y/2)+(j-ystart)/2.  exit(1) is the erroneous state of the machine. *)
Definition sadr (h j : nat) : nat :=
  let i := h / (Y / 2) in (i * Y + ((i + lx0 + 0 + 1) mod 2 + 2 * (h mod (Y / 2)))) * rdist3 + j.
Definition Shift3R (b : nat) : cmdR :=
  if (X mod 2 =? 0) && (Y mod 2 =? 0) then
    rplanw Zr Zr (fun x j => Ropp (x j)) always None (lx * (Y / 2)) sadr sadr b b
  else fun _ => Fail R.
(** mpifftw++.h:572-575, 591-594; a NULL output of Backward0 is passed to Shift *)
Definition Forward03R (bi : nat) (out : option nat) : cmdR := seqc R (Shift3R bi) (Forward3R bi out).
Definition Backward03R (bi : nat) (out : option nat) : cmdR :=
  seqc R (Backward3R bi out)
    match out with
    | Some b => Shift3R b
    | None => if (X mod 2 =? 0) && (Y mod 2 =? 0) && (lx * (Y / 2) =? 0) then skip R else fun _ => Fail R
    end.
(** mpifftw++.h:523-545; with slabs every process is the last in z *)
Definition deNyquist3 (b : nat) : cmdR :=
  seqc R (if X mod 2 =? 0 then wrw R b (fun t => t) (2 * (ly * Zc)) (fun _ => 0%R) else skip R)
 (seqc R (if (Y mod 2 =? 0) && (ly0 =? 0) then
            wrw R b (fun t => t / (2 * Zc) * (2 * (ly * Zc)) + t mod (2 * Zc)) (X * (2 * Zc)) (fun _ => 0%R)
          else skip R)
         (if Zr mod 2 =? 0 then
            wrw R b (fun t => (t / 2 * Zc + Zc - 1) * 2 + t mod 2) (2 * (X * ly)) (fun _ => 0%R)
          else skip R)).
(** fftw++.h:351-357 Normalize(out): every double of the array, norm = 1/(X*Y*Z) *)
Definition normalize3R (b : nat) : cmdR :=
  rplanw 1 1 (fun x _ => (/ INR (X * Y * Zr) * x 0%nat)%R) always None (lx * Y * rdist3) (fun h _ => h) (fun h _ => h) b b.
End Transforms.

(** The program of process r that makes the calls of the list; [junk n]: what the complex-to-real
    transforms of the n-th last call leave in their input *)
Definition r3cmd (c : cfg) (Z : nat) (inplace : bool) (junk : nat -> nat -> R) (bw r : nat) (x : rcall) : cmdR :=
  match x with
  | RTrans true false i o => Forward3R c Z inplace bw r i (Some o)
  | RTrans true true i o => Forward03R c Z inplace bw r i (Some o)
  | RTrans false false i o => Backward3R c Z inplace junk bw r i (Some o)
  | RTrans false true i o => Backward03R c Z inplace junk bw r i (Some o)
  | RNorm b => normalize3R c Z inplace r b
  | RDeny b => deNyquist3 c Z r b
  end.
Fixpoint r3calls (c : cfg) (Z : nat) (inplace : bool) (junk : nat -> nat -> nat -> nat -> R) (bw r : nat) (l : list rcall) (k : prog R) : prog R :=
  match l with
  | [] => k
  | x :: l => r3cmd c Z inplace (junk (length l) r) bw r x (r3calls c Z inplace junk bw r l k)
  end.
