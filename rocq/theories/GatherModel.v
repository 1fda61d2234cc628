(** Model of the gather routines of mpi/mpiutils.h on the message passing machine.
    A memory cell holds an unsigned int ([Num]) or an element of type ftype ([Dat]); message
    lengths are counted in cells (the code counts sizeof(ftype) bytes for the data).
    Buffers: 0 = part, 1 = whole, 2 = dims, 3 = C.  Products of sizes are mathematical
    integers: overflow of [int] and [unsigned int] is not modelled here. *)
From Coq Require Import List Arith Bool ZArith.
From Verif Require Import MpiMachine MpiModel.
Import ListNotations.
Local Open Scope nat_scope.

Inductive cell (D : Type) := Num (n : nat) | Dat (d : D).
Arguments Num {D}. Arguments Dat {D}.

Section Gather.
Variable D : Type.
Notation V := (cell D).
Notation cmd := (prog V -> prog V).

Definition seqc (c1 c2 : cmd) : cmd := fun k => c1 (c2 k).
Definition skip : cmd := fun k => k.
(** for(i=i0; i < i0+cnt; ++i) *)
Fixpoint floop (i cnt : nat) (body : nat -> cmd) : cmd :=
  match cnt with 0 => skip | S cnt => seqc (body i) (floop (S i) cnt body) end.

(** MPI_Send and MPI_Recv return when the request is complete *)
Definition mpi_send (b len dst : nat) : cmd := fun k => Post V 0 0 false [Snd dst 0 b 0 len] (Wait V [(0, 0)] k).
Definition mpi_recv (b len src : nat) : cmd := fun k => Post V 0 0 false [Rcv src 0 b 0 len] (Wait V [(0, 0)] k).

(** mpitranspose.h:49-57 copy, 72-81 copyfromblock: [b1]+o1 to [b2]+o2 *)
Definition copy (b1 o1 b2 o2 len : nat) : cmd := Move V b1 o1 len b2 o2 len (fun o => o) false.
Definition copyfromblock (b1 o1 b2 o2 count length stride : nat) : cmd :=
  floop 0 count (fun i => copy b1 (o1 + i * length) b2 (o2 + i * stride) length).

(** reading dims[i..i+cnt-1] into variables; a cell that is not a number cannot be used *)
Fixpoint read_dims (i cnt : nat) (acc : list nat) (body : list nat -> cmd) : cmd :=
  match cnt with
  | 0 => body acc
  | S cnt => fun k => Rd V 2 i (fun v => match v with
                                        | Num n => read_dims (S i) cnt (acc ++ [n]) body k
                                        | Dat _ => Fail V end)
  end.
(** unsigned int dims[]={...} *)
Fixpoint write_dims (i : nat) (l : list nat) : cmd :=
  match l with [] => skip | n :: l => fun k => Wr V 2 i (Num n) (write_dims (S i) l k) end.

Definition new_ (b n : nat) : cmd := Alloc V b n.
Definition delete_ (b : nat) : cmd := Free V b.

(** the members of split and split3 are unsigned int *)
Notation u := Z.to_nat.

(** mpiutils.h:13-56 gatherx *)
Definition gatherx (size rank : nat) (d : split) (Z : nat) : cmd :=
  let Y := u (sY d) in
  let x := u (sx d) in
  let x0 := u (sx0 d) in
  if rank =? 0 then
    seqc (let offset := x0 * Y * Z in
          let count := x in
          let length := Y * Z in
          let stride := Y * Z in
          copyfromblock 0 0 1 offset count length stride)
      (floop 1 (size - 1) (fun p =>
         seqc (new_ 2 2) (seqc (mpi_recv 2 2 p)
         (read_dims 0 2 [] (fun dims =>
            let x := nth 0 dims 0 in
            let x0 := nth 1 dims 0 in
            let n := Z * x * Y in
            seqc (if 0 <? n then
                    seqc (new_ 3 n) (seqc (mpi_recv 3 n p)
                    (seqc (let offset := x0 * Y * Z in
                           let count := x in
                           let length := Y * Z in
                           let stride := Y * Z in
                           copyfromblock 3 0 1 offset count length stride)
                          (delete_ 3)))
                  else skip)
                 (delete_ 2))))))
  else
    seqc (new_ 2 2) (seqc (write_dims 0 [x; x0]) (seqc (mpi_send 2 2 0)
      (let n := Z * x * Y in
       seqc (if 0 <? n then mpi_send 0 n 0 else skip) (delete_ 2)))).

(** mpiutils.h:61-104 gathery *)
Definition gathery (size rank : nat) (d : split) (Z : nat) : cmd :=
  let X := u (sX d) in
  let Y := u (sY d) in
  let y := u (sy d) in
  let y0 := u (sy0 d) in
  if rank =? 0 then
    seqc (let offset := y0 * Z in
          let count := X in
          let length := y * Z in
          let stride := Y * Z in
          copyfromblock 0 0 1 offset count length stride)
      (floop 1 (size - 1) (fun p =>
         seqc (new_ 2 2) (seqc (mpi_recv 2 2 p)
         (read_dims 0 2 [] (fun dims =>
            let y := nth 0 dims 0 in
            let y0 := nth 1 dims 0 in
            let n := Z * X * y in
            seqc (if 0 <? n then
                    seqc (new_ 3 n) (seqc (mpi_recv 3 n p)
                    (seqc (let offset := y0 * Z in
                           let count := X in
                           let length := y * Z in
                           let stride := Y * Z in
                           copyfromblock 3 0 1 offset count length stride)
                          (delete_ 3)))
                  else skip)
                 (delete_ 2))))))
  else
    seqc (new_ 2 2) (seqc (write_dims 0 [y; y0]) (seqc (mpi_send 2 2 0)
      (let n := Z * X * y in
       seqc (if 0 <? n then mpi_send 0 n 0 else skip) (delete_ 2)))).

(** mpiutils.h:109-166 gatheryz *)
Definition gatheryz (size rank : nat) (d : split3) : cmd :=
  let X := u (s3X d) in
  let Y := u (s3Y d) in
  let Z := u (s3Z d) in
  let y := u (sy (s3xy d)) in
  let z := u (s3z d) in
  let y0 := u (sy0 (s3xy d)) in
  let z0 := u (s3z0 d) in
  if rank =? 0 then
    seqc (let count := y in
          let stride := Z in
          let length := z in
          floop 0 X (fun i =>
            let outoffset := i * Y * Z + y0 * Z + z0 in
            let inoffset := i * y * z in
            copyfromblock 0 inoffset 1 outoffset count length stride))
      (floop 1 (size - 1) (fun p =>
         seqc (new_ 2 4) (seqc (mpi_recv 2 4 p)
         (read_dims 0 4 [] (fun dims =>
            let y := nth 0 dims 0 in
            let z := nth 1 dims 0 in
            let y0 := nth 2 dims 0 in
            let z0 := nth 3 dims 0 in
            let n := X * y * z in
            seqc (if 0 <? n then
                    seqc (new_ 3 n) (seqc (mpi_recv 3 n p)
                    (seqc (let count := y in
                           let stride := Z in
                           let length := z in
                           floop 0 X (fun i =>
                             let outoffset := i * Y * Z + y0 * Z + z0 in
                             let inoffset := i * y * z in
                             copyfromblock 3 inoffset 1 outoffset count length stride))
                          (delete_ 3)))
                  else skip)
                 (delete_ 2))))))
  else
    seqc (new_ 2 4) (seqc (write_dims 0 [y; z; y0; z0]) (seqc (mpi_send 2 4 0)
      (let n := X * y * z in
       seqc (if 0 <? n then mpi_send 0 n 0 else skip) (delete_ 2)))).

(** mpiutils.h:171-231 gatherxy *)
Definition gatherxy (size rank : nat) (d : split3) : cmd :=
  let Y := u (s3Y d) in
  let Z := u (s3Z d) in
  let x := u (s3x d) in
  let y := u (sx (s3yz d)) in
  let x0 := u (s3x0 d) in
  let y0 := u (sx0 (s3yz d)) in
  if rank =? 0 then
    seqc (let count := y in
          let stride := Z in
          let length := Z in
          floop 0 x (fun i =>
            let poffset := i * y * Z in
            let woffset := (x0 + i) * Y * Z + y0 * Z in
            copyfromblock 0 poffset 1 woffset count length stride))
      (floop 1 (size - 1) (fun p =>
         seqc (new_ 2 4) (seqc (mpi_recv 2 4 p)
         (read_dims 0 4 [] (fun dims =>
            let x := nth 0 dims 0 in
            let y := nth 1 dims 0 in
            let x0 := nth 2 dims 0 in
            let y0 := nth 3 dims 0 in
            let n := x * y * Z in
            seqc (if 0 <? n then
                    seqc (new_ 3 n) (seqc (mpi_recv 3 n p)
                    (seqc (let count := y in
                           let stride := Z in
                           let length := Z in
                           floop 0 x (fun i =>
                             let poffset := i * y * Z in
                             let woffset := (x0 + i) * Y * Z + y0 * Z in
                             copyfromblock 3 poffset 1 woffset count length stride))
                          (delete_ 3)))
                  else skip)
                 (delete_ 2))))))
  else
    seqc (new_ 2 4) (seqc (write_dims 0 [x; y; x0; y0]) (seqc (mpi_send 2 4 0)
      (let n := x * y * Z in
       seqc (if 0 <? n then mpi_send 0 n 0 else skip) (delete_ 2)))).

(** the state of a process before the call *)
Definition before (mem : nat -> nat -> V) (bsz : nat -> nat) : loc V :=
  mkLoc V mem bsz (fun _ _ => Uninit) (fun _ => 1) (fun _ _ => []) (fun _ _ => []).
End Gather.
