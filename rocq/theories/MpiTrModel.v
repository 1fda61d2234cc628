(** Model of mpi/mpitranspose.h: class mpitranspose, on the message passing machine.
    Memory is addressed in bytes; [sz] = sizeof(T).  Buffers: the arrays passed as
    input and output (equal for the in-place calls) and the work array.  Request arrays:
    0 = request, 1 = Request.  Loops marked PARALLEL are executed sequentially here.
    Sizes are mathematical integers ([nat]): the theorems assume that all byte counts fit
    the C++ types used. *)
From Coq Require Import List Arith Bool Lia.
From Verif Require Import MpiMachine MpiModel.
From Coq Require Import ZArith.
Import ListNotations.
Local Open Scope nat_scope.

(** align.h:97-100 ceilquotient, no wrap *)
Definition cq (a b : nat) : nat := (a + b - 1) / b.

(** mpitranspose.h:114-127 localdimension(N,rank,size), no wrap (see MpiModel.localdimension) *)
Definition lbeg (N size rank : nat) : nat := cq N size * rank.
Definition ldim (N size rank : nat) : nat := Nat.min (cq N size) (N - lbeg N size rank).

(** The constructor arguments, and what the search of setup() leaves in options
    ([oa] = options.a, [oall] = options.alltoall, after mpitranspose.h:314-366). *)
Record cfg := mkCfg {
  cN : nat; cM : nat; cL : nat; csz : nat;
  cP : nat;                       (* size of the communicator passed in *)
  oa : nat; oall : nat }.

Section Setup.
Variable c : cfg.
Definition S_ : nat := csz c * cL c.        (* bytes per block *)

(** mpitranspose.h:266-272 *)
Definition n0 : nat := ldim (cN c) (cP c) 0.
Definition nlast : nat := Nat.min (cq (cN c) n0) (cP c) - 1.
Definition np : nat := ldim (cN c) (cP c) nlast.
Definition m0 : nat := ldim (cM c) (cP c) 0.
Definition mlast : nat := Nat.min (cq (cM c) m0) (cP c) - 1.
Definition mp : nat := ldim (cM c) (cP c) mlast.

(** mpitranspose.h:281-282 *)
Definition Pbar : nat :=
  Nat.min (nlast + (if n0 =? np then 1 else 0)) (mlast + (if m0 =? mp then 1 else 0)).
Definition size : nat := if cP c =? 1 then 1 else Nat.max (nlast + 1) (mlast + 1).

(** mpitranspose.h:207-210 *)
Definition divisible (size M N : nat) : bool :=
  (size <=? N) && (size <=? M) && (N mod size =? 0) && (M mod size =? 0).
Definition Uniform : bool := divisible size (cM c) (cN c).

(** mpitranspose.h:368-370: a and b *)
Definition ab : nat * nat :=
  let a := oa c in
  let b := if (1 <? a) || Uniform then Pbar / a else Pbar + 1 in
  if b =? 1 then (1, a) else (a, b).
Definition a_ : nat := if cP c =? 1 then 1 else fst ab.
Definition b_ : nat := if cP c =? 1 then 1 else snd ab.
(** mpitranspose.h:376 *)
Definition uniform : bool := Uniform && (a_ * b_ =? size).

(** mpitranspose.h:440-506 init() *)
Definition compact : bool := uniform && (oall c =? 2).
Definition subblock (r : nat) : bool := (1 <? a_) && (r <? a_ * b_).
Definition last : nat := Nat.min nlast mlast.
Definition schedule : bool := (oall c =? 0) || (negb uniform && (1 <? a_)).

(** MPI_Comm_split(comm,color,0,...): members of the new communicator in rank order *)
Definition csplit (ms : list nat) (color : nat -> nat) (r : nat) : list nat :=
  filter (fun s => color s =? color r) ms.
Definition crank (ms : list nat) (r : nat) : nat := length (filter (fun s => s <? r) ms).

(** communicators: members; context of point-to-point and of collective messages *)
Record comm := mkComm { cmem : list nat; cp2p : nat; ccol : nat }.
Definition communicator : comm := mkComm (seq 0 size) 0 1.
(** mpitranspose.h:470-475; color rank < last *)
Definition splitv (r : nat) : comm :=
  if uniform then communicator
  else mkComm (csplit (seq 0 size) (fun s => if s <? last then 1 else 0) r) 2 3.
(** mpitranspose.h:477-497 *)
Definition block (r : nat) : comm :=
  mkComm (csplit (seq 0 size) (fun s => if s <? a_ * b_ then 1 else 0) r) 4 5.
Definition split (r : nat) : comm :=
  if a_ =? 1 then communicator
  else if r <? a_ * b_ then mkComm (csplit (cmem (block r)) (fun s => s / b_) r) 6 7
  else block r.
Definition split2 (r : nat) : comm :=
  if a_ =? 1 then communicator
  else if r <? a_ * b_ then mkComm (csplit (cmem (block r)) (fun s => s mod b_) r) 8 9
  else block r.
Definition splitsize (r : nat) : nat :=
  if (negb (a_ =? 1)) && negb (r <? a_ * b_) then size else length (cmem (split r)).
Definition split2size (r : nat) : nat :=
  if (negb (a_ =? 1)) && negb (r <? a_ * b_) then size else length (cmem (split2 r)).
Definition splitrank (r : nat) : nat :=
  if (negb (a_ =? 1)) && negb (r <? a_ * b_) then r else crank (cmem (split r)) r.
Definition split2rank (r : nat) : nat :=
  if (negb (a_ =? 1)) && negb (r <? a_ * b_) then r else crank (cmem (split2 r)) r.

(** mpitranspose.cc:31-57 *)
Definition mksched (which npes : nat) : list nat :=
  map Z.to_nat (fill1_comm_sched (Z.of_nat which) (Z.of_nat npes)).

Definition sched (r : nat) : list nat := mksched r size.
Definition sched1 (r : nat) : option (list nat) :=
  if schedule then Some (mksched (splitrank r) (splitsize r)) else None.
Definition sched2 (r : nat) : option (list nat) :=
  if schedule then Some (mksched (split2rank r) (split2size r)) else None.

(** mpitranspose.h:437 Size(start) *)
Definition Size (r start : nat) : nat := size - (if start <=? r then 1 else start).

(** mpitranspose.h:499-520: sizes of the request arrays *)
Definition reqsize (r a : nat) : nat :=
  match a with
  | 0 => if uniform then 0
         else if schedule then 2 * Size r (if 1 <? a_ then a_ * b_ else 0)
         else 2 * Size r last + 1
  | 1 => if schedule then 2 * (Nat.max (splitsize r) (split2size r) - 1) else 1
  | _ => 0
  end.

(** mpitranspose.h:569-570 ni, mi *)
Definition ni (P : nat) : nat := if P <? nlast then n0 else if P =? nlast then np else 0.
Definition mi (P : nat) : nat := if P <? mlast then m0 else if P =? mlast then mp else 0.

End Setup.

Section Programs.
Variable V : Type.
Variable c : cfg.
(** this process: rank, the local dimensions n and m passed to the constructor, and the
    arrays (buffer numbers) of the current call; [dw] says whether the transpose plans
    were made for equal arrays *)
Variables (r n m : nat) (bi bo bw : nat) .
Notation cmd := (prog V -> prog V).
Notation S := (S_ c).

Definition skip : cmd := fun k => k.
Definition seqc (c1 c2 : cmd) : cmd := fun k => c1 (c2 k).
Fixpoint floop (i cnt : nat) (body : nat -> cmd) : cmd :=
  match cnt with 0 => skip | Datatypes.S cnt => seqc (body i) (floop (Datatypes.S i) cnt body) end.
(** for(i=0; i < cnt; ++i) body(i) *)
Definition forc (cnt : nat) (body : nat -> cmd) : cmd := floop 0 cnt body.
Definition ifc (b : bool) (c1 c2 : cmd) : cmd := if b then c1 else c2.

(** mpitranspose.h:49-57 copy (on bytes) *)
Definition copyb (b1 o1 b2 o2 len : nat) : cmd :=
  Move V b1 o1 len b2 o2 len (fun o => o) false.
(** mpitranspose.h:49-57 copy on elements of type T; offsets and length in words *)
Definition copy (b1 o1 b2 o2 len : nat) : cmd :=
  copyb b1 (csz c * o1) b2 (csz c * o2) (csz c * len).
(** mpitranspose.h:60-69 *)
Definition copytoblock (b1 o1 b2 o2 count length stride : nat) : cmd :=
  forc count (fun i => copy b1 (o1 + i * stride) b2 (o2 + i * length) length).
(** mpitranspose.h:72-81 *)
Definition copyfromblock (b1 o1 b2 o2 count length stride : nat) : cmd :=
  forc count (fun i => copy b1 (o1 + i * length) b2 (o2 + i * stride) length).

(** fftw++.h:430-490 class Transpose: the plan is made for arrays data and work; executing
    it with in==out although it was made for data != work (or conversely) is an error exit.
    rows x cols x length words; FFTW's rank-0 guru plan moves element (i,j,t) to (j,i,t). *)
Definition tidx (rows cols len o : nat) : nat :=
  (((o / len) mod rows) * cols + (o / len) / rows) * len + o mod len.
Definition transpose (b1 b2 rows cols length : nat) : cmd := fun k =>
  if (rows =? 0) || (cols =? 0) then k
  else if xorb (compact c) (b1 =? b2) then Fail V
  else let len := csz c * length in
       Move V b1 0 (rows * cols * len) b2 0 (rows * cols * len) (tidx rows cols len) true k.

(** mpitranspose.h:129-160 Ialltoall; [arr],[base] = the request pointer *)
Definition Ialltoall (sb count rb : nat) (cm : comm) (arr base : nat)
    (sched : option (list nat)) : cmd :=
  let ms := cmem cm in
  let sz := length ms in
  let rk := crank ms r in
  match sched with
  | None =>
      Post V arr base (sb =? rb)
        (flat_map (fun P => [Rcv (nth P ms 0) (ccol cm) rb (P * count) count;
                             Snd (nth P ms 0) (ccol cm) sb (P * count) count]) (seq 0 sz))
  | Some sc =>
      seqc (forc sz (fun p => let P := nth p sc 0 in
        ifc (negb (P =? rk))
          (let index := if P <? rk then P else P - 1 in
           seqc (Post V arr (base + index) false [Rcv (nth P ms 0) (cp2p cm) rb (P * count) count])
                (Post V arr (base + (sz - 1) + index) false
                   [Snd (nth P ms 0) (cp2p cm) sb (P * count) count]))
          skip))
        (copyb sb (rk * count) rb (rk * count) count)
  end.

(** mpitranspose.h:99-112 Wait(count,request,schedule) and Wait(request) *)
Definition waitc (arr count : nat) (sch : bool) : cmd :=
  Wait V (map (fun i => (arr, i)) (seq 0 (if sch then count else 1))).

(** mpitranspose.h:572-602 Ialltoallout *)
Definition Ialltoallout (sb rb start : nat) : cmd :=
  let srq := Size c r start in
  let nS := n * S in
  let mS := m * S in
  let nm0 := nS * m0 c in
  let mn0 := mS * n0 c in
  seqc (forc (size c) (fun p => let P := nth p (sched c r) 0 in
    ifc (negb (P =? r) && ((start <=? r) || (start <=? P)))
      (let index := if start <=? r then (if P <? r then P else P - 1) else P - start in
       let count := mS * ni c P in
       let count2 := nS * mi c P in
       seqc (ifc (0 <? count)
               (Post V 0 index false [Rcv P 0 rb (mn0 * P) count])
               (SetNull V 0 index))
            (ifc (0 <? count2)
               (Post V 0 (srq + index) false [Snd P 0 sb (nm0 * P) count2])
               (SetNull V 0 (srq + index))))
      skip))
    (ifc (start <=? r) (copyb sb (nm0 * r) rb (mn0 * r) (nS * mi c r)) skip).

(** mpitranspose.h:604-634 Ialltoallin *)
Definition Ialltoallin (sb rb start : nat) : cmd :=
  let srq := Size c r start in
  let nS := n * S in
  let mS := m * S in
  let nm0 := nS * m0 c in
  let mn0 := mS * n0 c in
  seqc (forc (size c) (fun p => let P := nth p (sched c r) 0 in
    ifc (negb (P =? r) && ((start <=? r) || (start <=? P)))
      (let index := if start <=? r then (if P <? r then P else P - 1) else P - start in
       let count := nS * mi c P in
       let count2 := mS * ni c P in
       seqc (ifc (0 <? count)
               (Post V 0 index false [Rcv P 0 rb (nm0 * P) count])
               (SetNull V 0 index))
            (ifc (0 <? count2)
               (Post V 0 (srq + index) false [Snd P 0 sb (mn0 * P) count2])
               (SetNull V 0 (srq + index))))
      skip))
    (ifc (start <=? r) (copyb sb (mn0 * r) rb (nm0 * r) (mS * ni c r)) skip).

(** a > 1 ? a*b : 0 *)
Definition start_ : nat := if 1 <? a_ c then a_ c * b_ c else 0.

(** mpitranspose.h:636-656 inphase0 (work = output when compact) *)
Definition inphase0 : cmd :=
  if size c <=? r then skip
  else if size c =? 1 then
    ifc (negb (bi =? bo)) (copy bi 0 bo 0 (cN c * m * cL c)) skip
  else
    seqc (ifc (uniform c || subblock c r)
            (Ialltoall bi (n * m * csz c * (if 1 <? a_ c then b_ c else a_ c) * cL c) bw
               (split2 c r) 1 0 (sched2 c r))
            skip)
         (ifc (negb (uniform c))
            (ifc (schedule c) (Ialltoallin bi bw start_)
               (seqc (ifc (r <? last c)
                        (Ialltoall bi (n * m * csz c * cL c) bw (splitv c r) 0 (2 * Size c r (last c)) None)
                        skip)
                     (Ialltoallin bi bw (last c))))
            skip).

(** mpitranspose.h:658-668 insync0 *)
Definition insync0 : cmd :=
  if (size c =? 1) || (size c <=? r) then skip
  else
    seqc (ifc (uniform c || subblock c r) (waitc 1 (2 * (split2size c r - 1)) (schedule c)) skip)
         (ifc (negb (uniform c))
            (ifc (schedule c) (waitc 0 (2 * Size c r start_) true)
                 (waitc 0 (2 * Size c r (last c) + (if r <? last c then 1 else 0)) true))
            skip).

(** mpitranspose.h:670-676 inphase1 *)
Definition inphase1 : cmd :=
  if size c <=? r then skip
  else ifc (subblock c r)
    (seqc (transpose bw bo (a_ c) (n * b_ c) (m * cL c))
          (Ialltoall bo (n * m * csz c * a_ c * cL c) bw (split c r) 1 0 (sched1 c r)))
    skip.

(** mpitranspose.h:678-682 insync1 *)
Definition insync1 : cmd :=
  if size c <=? r then skip
  else ifc (subblock c r) (waitc 1 (2 * (splitsize c r - 1)) (schedule c)) skip.

(** mpitranspose.h:684-743 inpost *)
Definition inpost : cmd :=
  if (size c =? 1) || (size c <=? r) then skip
  else if uniform c then transpose bw bo (b_ c) (n * a_ c) (m * cL c)
  else if subblock c r then
    let block := m0 c * cL c in
    let cols := n * a_ c in
    let istride := cols * block in
    let ostride := b_ c * block in
    let extra := (cM c - m0 c * a_ c * b_ c) * cL c in
    seqc (forc n (fun i =>
            let ai := a_ c * i in
            let src := ai * block in
            let dest := ai * ostride + i * extra in
            forc (a_ c) (fun j => copytoblock bw (src + j * block) bo (dest + j * ostride) (b_ c) block istride)))
      (ifc (0 <? extra)
         (let lastblock := mp c * cL c in
          let istride := n * block in
          let ostride := mlast c * block + lastblock in
          let ab := a_ c * b_ c in
          let src := ab * istride in
          let dest := ab * block in
          let count := mlast c - ab in
          seqc (ifc (0 <? count)
                  (forc n (fun j => copytoblock bw (src + j * block) bo (dest + j * ostride) count block istride))
                  skip)
               (let src2 := mlast c * istride in
                let dest2 := mlast c * block in
                forc n (fun j => copy bw (src2 + j * lastblock) bo (dest2 + j * ostride) lastblock)))
         skip)
  else
    let lastblock := mp c * cL c in
    let block := m0 c * cL c in
    let istride := n * block in
    let mlastblock := mlast c * block in
    let ostride := mlastblock + lastblock in
    let work2 := mlast c * istride in
    forc n (fun j =>
      let dest := j * ostride in
      seqc (copytoblock bw (j * block) bo dest (mlast c) block istride)
           (copy bw (work2 + j * lastblock) bo (dest + mlastblock) lastblock)).

(** mpitranspose.h:829-845 outphase *)
Definition outphase : cmd :=
  if (size c =? 1) || (size c <=? r) then skip
  else
    seqc (ifc (subblock c r) (transpose bo bw (n * b_ c) (a_ c) (m * cL c)) skip)
   (seqc (ifc (negb (uniform c))
            (ifc (schedule c) (Ialltoallout bw bo start_)
               (seqc (ifc (r <? last c)
                        (Ialltoall bw (n * m * csz c * cL c) bo (splitv c r) 0 (2 * Size c r (last c)) None)
                        skip)
                     (Ialltoallout bw bo (last c))))
            skip)
         (ifc (uniform c || subblock c r)
            (Ialltoall bw (n * m * csz c * (if 1 <? a_ c then b_ c else a_ c) * cL c) bo
               (split2 c r) 1 0 (sched2 c r))
            skip)).

(** mpitranspose.h:851-862 outsync *)
Definition outsync : cmd :=
  if (size c =? 1) || (size c <=? r) then skip
  else
    seqc (ifc (negb (uniform c))
            (ifc (schedule c) (waitc 0 (2 * Size c r start_) true)
                 (waitc 0 (2 * Size c r (last c) + (if r <? last c then 1 else 0)) true))
            skip)
         (ifc (uniform c || subblock c r) (waitc 1 (2 * (split2size c r - 1)) (schedule c)) skip).

(** mpitranspose.h:745-820 outphase0 *)
Definition outphase0 : cmd :=
  if size c <=? r then skip
  else if size c =? 1 then
    ifc (negb (bi =? bo)) (copy bi 0 bo 0 (n * cM c * cL c)) skip
  else
    seqc
     (if uniform c then transpose bi bw (n * a_ c) (b_ c) (m * cL c)
      else if subblock c r then
        let block := m0 c * cL c in
        let cols := n * a_ c in
        let istride := cols * block in
        let ostride := b_ c * block in
        let extra := (cM c - m0 c * a_ c * b_ c) * cL c in
        seqc (forc n (fun i =>
                let ai := a_ c * i in
                let src := ai * ostride + i * extra in
                let dest := ai * block in
                forc (a_ c) (fun j =>
                  copyfromblock bi (src + j * ostride) bw (dest + j * block) (b_ c) block istride)))
          (ifc (0 <? extra)
             (let lastblock := mp c * cL c in
              let istride := n * block in
              let ostride := mlast c * block + lastblock in
              let ab := a_ c * b_ c in
              let count := mlast c - ab in
              let src := ab * block in
              let dest := ab * istride in
              seqc (ifc (0 <? count)
                      (forc n (fun j =>
                         copyfromblock bi (src + j * ostride) bw (dest + j * block) count block istride))
                      skip)
                   (let src2 := mlast c * block in
                    let dest2 := mlast c * istride in
                    forc n (fun j => copy bi (src2 + j * ostride) bw (dest2 + j * lastblock) lastblock)))
             skip)
      else
        let lastblock := mp c * cL c in
        let block := m0 c * cL c in
        let istride := n * block in
        let ostride := mlast c * block + lastblock in
        let mlastblock := mlast c * block in
        let dest := mlast c * istride in
        forc n (fun j =>
          let src := j * ostride in
          seqc (copyfromblock bi src bw (j * block) (mlast c) block istride)
               (copy bi (src + mlastblock) bw (dest + j * lastblock) lastblock)))
     (if subblock c r
      then Ialltoall bw (n * m * csz c * a_ c * cL c) bo (split c r) 1 0 (sched1 c r)
      else outphase).

(** mpitranspose.h:822-827 outsync0 *)
Definition outsync0 : cmd :=
  if size c <=? r then skip
  else if subblock c r then waitc 1 (2 * (splitsize c r - 1)) (schedule c) else outsync.

(** mpitranspose.h:847-849, 864-866 outphase1, outsync1 *)
Definition outphase1 : cmd := ifc (subblock c r) outphase skip.
Definition outsync1 : cmd := ifc (subblock c r) outsync skip.

(** mpitranspose.h:868-901 (with allowOverlap = true, its initial value): the non-blocking
    interface.  ilocalize0; wait0; wait1 *)
Definition ilocalize0 : cmd := outphase0.
Definition wait0_out : cmd := seqc outsync0 outphase1.
Definition wait1_out : cmd := outsync1.
Definition ilocalize1 : cmd := inphase0.
Definition wait0_in : cmd := seqc insync0 inphase1.
Definition wait1_in : cmd := seqc insync1 inpost.

(** mpitranspose.h:903-913 localize0, localize1 *)
Definition localize0 : cmd := seqc ilocalize0 (seqc wait0_out wait1_out).
Definition localize1 : cmd := seqc ilocalize1 (seqc wait0_in wait1_in).
End Programs.
