(** Model of the distributed real transforms of mpi/mpifftw++.h:282-395 and mpi/mpifftw++.cc:82-125,
    rcfft2dMPI, on the message passing machine.  A memory word is one double, so that csz = 2 in the
    configuration of the transposes and Complex number i of an array is the words 2*i and 2*i+1.
    Loops marked PARALLEL and omp parallel for are executed sequentially here (C14, C20). *)
From Coq Require Import Reals ZArith List Arith Bool.
From Verif Require Import CNum Sums Roots PadModel HerModel MpiMachine MpiTrModel MpiTrTop.
Import ListNotations.
Local Open Scope nat_scope.

Section Words.
Variable V : Type.
Notation cmdV := (prog V -> prog V).
(** read b[adr 0], .., b[adr (n-1)] *)
Fixpoint rdw (b : nat) (adr : nat -> nat) (n : nat) (acc : nat -> V) (k : (nat -> V) -> prog V) : prog V :=
  match n with
  | 0 => k acc
  | S n => Rd V b (adr n) (fun v => rdw b adr n (fun i => if i =? n then v else acc i) k)
  end.
(** b[adr j]=f j for j < n *)
Fixpoint wrw (b : nat) (adr : nat -> nat) (n : nat) (f : nat -> V) : cmdV :=
  match n with
  | 0 => skip V
  | S n => seqc V (Wr V b (adr n) (f n)) (wrw b adr n f)
  end.
(** An FFTW plan for M transforms [tr] of n words to n' words, word j of the input of transform h being
    at adri h j of array bi, word k of its output at adro h k of bo: simplified to one transform after
    the other, each reading all its input before it writes its output.  [ok]: what the transform demands
    of its input; without it the outcome is the erroneous state of the machine.  [junk]: with Some f the
    transform also overwrites its input, with arbitrary words f. *)
Definition plan (dflt : V) (n n' : nat) (tr : (nat -> V) -> nat -> V) (ok : (nat -> V) -> bool) (junk : option (nat -> nat -> V))
    (M : nat) (adri adro : nat -> nat -> nat) (bi bo : nat) : cmdV :=
  forc V M (fun h k => rdw bi (adri h) n (fun _ => dflt) (fun x =>
    if ok x then
      match junk with Some f => wrw bi (adri h) n (f h) | None => skip V end (wrw bo (adro h) n' (tr x) k)
    else Fail V)).
End Words.
Notation cmdR := (prog R -> prog R).
Definition rplanw := plan R 0%R.

(** words as Complex numbers *)
Definition cw (x : nat -> R) (k : nat) : C := mkC (x (2 * k)) (x (2 * k + 1)).
Definition wc (z : nat -> C) (t : nat) : R := if t mod 2 =? 0 then re (z (t / 2)) else im (z (t / 2)).
(** what fftw++.h:1066-1190 mrcfft1d and mcrfft1d compute of one row of n reals, n/2+1 Complex numbers *)
Definition r2cw (n : nat) (x : nat -> R) : nat -> R := wc (r2c n x).
Definition c2rw (n : nat) (x : nat -> R) : nat -> R := c2r n (cw x).
(** A complex-to-real transform is only defined for an input whose numbers 0 and n/2 (n even) are real *)
Definition c2rok (n : nat) (x : nat -> R) : bool :=
  (if Req_EM_T (x 1) 0%R then true else false) &&
  (if n mod 2 =? 0 then if Req_EM_T (x (n + 1)) 0%R then true else false else true).
Definition dftw (n : nat) (sg : Z) (x : nat -> R) : nat -> R := wc (dft n sg (cw x)).
Definition always (x : nat -> R) : bool := true.

(** fftw++.h:316-323 Setout; a NULL output is the input *)
Definition setoutR (inplace : bool) (bi : nat) (out : option nat) (f : nat -> cmdR) : cmdR :=
  let bo := match out with Some b => b | None => bi end in
  if Bool.eqb inplace (bi =? bo) then f bo else fun _ => Fail R.
(** work on a null pointer, w words of it: nothing if w=0, otherwise undefined behaviour *)
Definition nonnullR (w : nat) (out : option nat) (f : nat -> cmdR) : cmdR :=
  match out with Some b => f b | None => if w =? 0 then skip R else fun _ => Fail R end.

Section Transforms.
Variable c : cfg.             (* the transpose object: c = mkCfg X (Y/2+1) 1 2 P a alltoall *)
Variable Yr : nat.            (* dr.Y *)
Variable inplace : bool.      (* the constructor was given in == out *)
Variable junk : nat -> nat -> R. (* what a complex-to-real transform leaves in its input *)
Variable bw : nat.            (* the work array of the transpose *)
Variable r : nat.             (* rank *)
(** mpitranspose.h:163-205 class split: dc.X, dc.Y, dc.x = dr.x, dc.x0 = dr.x0, dc.y, dc.y0 *)
Notation X := (cN c). Notation e := (cM c).
Notation lx := (ldim (cN c) (cP c) r). Notation ly := (ldim (cM c) (cP c) r).
Notation lx0 := (lbeg (cN c) (cP c) r). Notation ly0 := (lbeg (cM c) (cP c) r).
Definition localizeR (d : bool) (b : nat) : cmdR :=
  call_cmd R c (fun r => ldim (cN c) (cP c) r) (fun r => ldim (cM c) (cP c) r) bw r (mkCall d b b).
(** mpifftw++.h:308-309; fftw++.h realsize *)
Definition rdist : nat := if inplace then 2 * e else Yr.
(** mpifftw++.h:310-318 *)
Definition yForward (bi bo : nat) : cmdR :=
  rplanw Yr (2 * e) (r2cw Yr) always None lx (fun h j => h * rdist + j) (fun h t => h * (2 * e) + t) bi bo.
Definition yBackward (bi bo : nat) : cmdR :=
  rplanw (2 * e) Yr (c2rw Yr) (c2rok Yr) (Some junk) lx (fun h t => h * (2 * e) + t) (fun h j => h * rdist + j) bi bo.
(** mpifftw++.h:320-321 xForward (sg=-1) and xBackward (sg=1), executed in place *)
Definition xfftR (sg : Z) (b : nat) : cmdR :=
  rplanw (2 * X) (2 * X) (dftw X sg) always None ly (fun h t => (t / 2 * ly + h) * 2 + t mod 2) (fun h t => (t / 2 * ly + h) * 2 + t mod 2) b b.

(** mpifftw++.cc:107-112 *)
Definition iForwardR (bi : nat) (out : option nat) : cmdR :=
  setoutR inplace bi out (fun bo => seqc R (yForward bi bo) (localizeR true bo)).
(** mpifftw++.h:361-364, after T->wait() *)
Definition ForwardWaitR (out : option nat) : cmdR := nonnullR ly out (fun bo => xfftR (-1) bo).
(** mpifftw++.h:365-368 *)
Definition ForwardR (bi : nat) (out : option nat) : cmdR := seqc R (iForwardR bi out) (ForwardWaitR out).
(** mpifftw++.cc:114-119 *)
Definition iBackwardR (bi : nat) (out : option nat) : cmdR :=
  setoutR inplace bi out (fun _ => seqc R (xfftR 1 bi) (localizeR false bi)).
(** mpifftw++.h:375-379 *)
Definition BackwardWaitR (bi : nat) (out : option nat) : cmdR :=
  setoutR inplace bi out (fun bo => yBackward bi bo).
(** mpifftw++.h:380-383 *)
Definition BackwardR (bi : nat) (out : option nat) : cmdR := seqc R (iBackwardR bi out) (BackwardWaitR bi out).

(** mpifftw++.cc:82-105 Shift: p[j]=-p[j] in every second row; a row is read before it is written.
    exit(1) is the erroneous state of the machine. *)
Definition shiftStart : nat := (lx0 + 1) mod 2.
Definition ShiftR (b : nat) : cmdR :=
  if X mod 2 =? 0 then
    rplanw Yr Yr (fun x j => Ropp (x j)) always None ((lx - shiftStart + 1) / 2)
      (fun h j => (shiftStart + 2 * h) * rdist + j) (fun h j => (shiftStart + 2 * h) * rdist + j) b b
  else fun _ => Fail R.
(** mpifftw++.h:369-372, 384-387; a NULL output of Backward0 is passed to Shift *)
Definition Forward0R (bi : nat) (out : option nat) : cmdR := seqc R (ShiftR bi) (ForwardR bi out).
Definition Backward0R (bi : nat) (out : option nat) : cmdR :=
  seqc R (BackwardR bi out)
    match out with
    | Some b => ShiftR b
    | None => if (X mod 2 =? 0) && ((lx - shiftStart + 1) / 2 =? 0) then skip R else fun _ => Fail R
    end.
(** mpifftw++.h:346-354; the index (i+1)*dc.y-1 is -1 when dc.y = 0, a write outside the array *)
Definition deNyquist (b : nat) : cmdR :=
  seqc R (if X mod 2 =? 0 then wrw R b (fun t => t) (2 * ly) (fun _ => 0%R) else skip R)
    (if (Yr mod 2 =? 0) && (ly0 + ly =? e) then
       if ly =? 0 then fun _ => Fail R
       else wrw R b (fun t => ((t / 2 + 1) * ly - 1) * 2 + t mod 2) (2 * X) (fun _ => 0%R)
     else skip R).
(** fftw++.h:351-357 Normalize(out): every double of the array, norm = 1/(X*Y) *)
Definition normalizeR (b : nat) : cmdR :=
  rplanw 1 1 (fun x _ => (/ INR (X * Yr) * x 0%nat)%R) always None (lx * rdist) (fun h _ => h) (fun h _ => h) b b.
End Transforms.
