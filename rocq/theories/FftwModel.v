(** Model of the fftw++.h wrapper classes: Shift, Normalize, fft/fftNormalized/fft0,
    deNyquist, and the fftwblock thread blocking.
    Memory is an array of doubles (idealised as R); a Complex at double address a is the pair
    of doubles a, a+1, so a Complex* p + k is the address p + 2*k. *)
From Coq Require Import Reals ZArith Arith List Bool.
From Verif Require Import CNum Sums Roots Mem.
Import ListNotations.

Notation dmem := (mem R).
Notation dprog := (prog R).
Notation dcmd := (cmd R).

(** number of iterations of  for(i=lo; i < hi; i += inc) *)
Definition nsteps (lo hi inc : nat) : nat := (hi - lo + (inc - 1)) / inc.
(** a strided sequential loop *)
Definition pStep (lo hi inc : nat) (body : nat -> dprog) : dprog :=
  pfor (nsteps lo hi inc) (fun k => body (lo + inc * k)).
(** #pragma omp parallel for  over a strided loop *)
Definition ParStep (lo hi inc : nat) (body : nat -> dprog) : dcmd :=
  Par (nsteps lo hi inc) (fun k => body (lo + inc * k)).

(** *p=-*p for a double and for a Complex (Complex.h:146-149) *)
Definition negD (a : addr) : dprog := Rd a (fun x => Wr a (- x)%R Ret).
Definition negC (a : addr) : dprog :=
  Rd a (fun x => Rd (a + 1) (fun y => Wr a (- x)%R (Wr (a + 1) (- y)%R Ret))).
(** *p *= norm for a double and for a Complex (Complex.h:86-90) *)
Definition scaleD (norm : R) (a : addr) : dprog := Rd a (fun x => Wr a (x * norm)%R Ret).
Definition scaleC (norm : R) (a : addr) : dprog :=
  Rd a (fun x => Wr a (x * norm)%R (Rd (a + 1) (fun y => Wr (a + 1) (y * norm)%R Ret))).
(** f[k]=0.0 for a Complex (Complex.h:47) *)
Definition zeroC (a : addr) : dprog := Wr a 0%R (Wr (a + 1) 0%R Ret).

(** fftw++.h:145-162 *)
Definition Shift2C (data nx ny : nat) : dcmd :=
  let nyp := ny / 2 + 1 in
  let stop := nx * nyp in
  if nx mod 2 =? 0 then
    let inc := 2 * nyp in
    ParStep nyp stop inc (fun i =>
      let p := data + 2 * i in
      pfor nyp (fun j => negC (p + 2 * j)))
  else Exit.

(** fftw++.h:165-181 *)
Definition Shift2D (data nx ny : nat) : dcmd :=
  if nx mod 2 =? 0 then
    let stop := nx * ny in
    let inc := 2 * ny in
    ParStep ny stop inc (fun i =>
      let p := data + i in
      pfor ny (fun j => negD (p + j)))
  else Exit.

(** fftw++.h:184-204; the pointer loop is over the offset p-pstart *)
Definition Shift3C (data nx ny nz : nat) : dcmd :=
  let nzp := nz / 2 + 1 in
  let nyzp := ny * nzp in
  if (nx mod 2 =? 0) && (ny mod 2 =? 0) then
    let pinc := 2 * nzp in
    Par nx (fun i =>
      let pstart := data + 2 * (i * nyzp) in
      pStep ((1 - i mod 2) * nzp) nyzp pinc (fun o =>
        let p := pstart + 2 * o in
        pfor nzp (fun k => negC (p + 2 * k))))
  else Exit.

(** fftw++.h:207-226 *)
Definition Shift3D (data nx ny nz : nat) : dcmd :=
  let nyz := ny * nz in
  if (nx mod 2 =? 0) && (ny mod 2 =? 0) then
    let pinc := 2 * nz in
    Par nx (fun i =>
      let pstart := data + i * nyz in
      pStep ((1 - i mod 2) * nz) nyz pinc (fun o =>
        let p := pstart + o in
        pfor nz (fun k => negD (p + k))))
  else Exit.

(** overload resolution: data passed as Complex* or as double* *)
Definition Shift2 (asC : bool) := if asC then Shift2C else Shift2D.
Definition Shift3 (asC : bool) := if asC then Shift3C else Shift3D.

(** fftw++.h:351-357 (Complex) and 359-364 (double) *)
Definition NormalizeC (doubles : nat) (norm : R) (out : addr) : dcmd :=
  let stop := doubles / 2 in Par stop (fun i => scaleC norm (out + 2 * i)).
Definition NormalizeD (doubles : nat) (norm : R) (out : addr) : dcmd :=
  Par doubles (fun i => scaleD norm (out + i)).

(** fftw++.h:404-418, template<class O>; osz=1 for O=double, 2 for O=Complex.
    The pointer loop is over the offset p-out-i, from 0 to M*odist. *)
Definition NormalizeS (osz : nat) (norm : R) (nx M ostride odist : nat) (out : addr) : dcmd :=
  let stop := nx * ostride in
  ParStep 0 stop ostride (fun i =>
    pStep 0 (M * odist) odist (fun o =>
      let p := out + osz * (i + o) in
      if osz =? 1 then scaleD norm p else scaleC norm p)).

(** deNyquist: fftw++.h:1271-1286 (rcfft2d) = 1340-1355 (crfft2d) *)
Definition deNyquist2 (nx ny : nat) (f : addr) : dcmd :=
  let nyp := ny / 2 + 1 in
  Seq (if nx mod 2 =? 0 then Par nyp (fun j => zeroC (f + 2 * j)) else Skip)
      (if ny mod 2 =? 0 then Par nx (fun i => zeroC (f + 2 * ((i + 1) * nyp - 1))) else Skip).

(** deNyquist: fftw++.h:1462-1491 (rcfft3d) = 1546-1575 (crfft3d) *)
Definition deNyquist3 (nx ny nz : nat) (f : addr) : dcmd :=
  let nzp := nz / 2 + 1 in
  let yz := ny * nzp in
  Seq (if nx mod 2 =? 0 then Par yz (fun k => zeroC (f + 2 * k)) else Skip)
 (Seq (if ny mod 2 =? 0 then
         Par nx (fun i => let iyz := i * yz in pfor nzp (fun k => zeroC (f + 2 * (iyz + k))))
       else Skip)
      (if nz mod 2 =? 0 then
         Par nx (fun i => pfor ny (fun j => zeroC (f + 2 * (i * yz + (j + 1) * nzp - 1))))
       else Skip)).

(** *** FFTW itself: its documented contract for rank 1, 2 and 3 transforms.
    Rank-2 data is rank-3 data with n1=1, rank-1 data has n1=n2=1. *)

(** unnormalised DFT with phase sign sg *)
Definition dft3 (n1 n2 n3 : nat) (sg : Z) (f : nat -> nat -> nat -> C) (a b c : nat) : C :=
  Csum n1 (fun i => Csum n2 (fun j => Csum n3 (fun k =>
    Cmul (f i j k) (Cmul (zeta n1 (sg * Z.of_nat i * Z.of_nat a))
                   (Cmul (zeta n2 (sg * Z.of_nat j * Z.of_nat b))
                         (zeta n3 (sg * Z.of_nat k * Z.of_nat c))))))).

Definition cell_C (m : dmem) (a : addr) (z : C) : Prop := m a = Val (re z) /\ m (a + 1) = Val (im z).
Definition allocated (m : dmem) (a : addr) : Prop := m a <> Unalloc.
Definition defined (m : dmem) (a : addr) : Prop := exists v, m a = Val v.

(** the layouts: full complex, half complex, real (padded rows when in place) *)
Definition atC (n2 n3 : nat) (base i j k : nat) : addr := base + 2 * ((i * n2 + j) * n3 + k).
Definition atH (n2 n3 : nat) (base i j k : nat) : addr := base + 2 * ((i * n2 + j) * (n3 / 2 + 1) + k).
(** fftw++.h:82-85 *)
Definition realsize (n : nat) (inplace : bool) : nat := if inplace then 2 * (n / 2 + 1) else n.
Definition atR (n2 n3 : nat) (inplace : bool) (base i j k : nat) : addr :=
  base + (i * n2 + j) * realsize n3 inplace + k.

Inductive fkind := c2c | r2c | c2r.
Record fobj := mkfobj {
  o_kind : fkind; o_n1 : nat; o_n2 : nat; o_n3 : nat; o_sign : Z;
  o_doubles : nat; o_norm : R; o_inplace : bool }.

Definition in_words (o : fobj) : nat :=
  match o_kind o with
  | c2c => 2 * (o_n1 o * o_n2 o * o_n3 o)
  | r2c => o_n1 o * o_n2 o * realsize (o_n3 o) (o_inplace o)
  | c2r => 2 * (o_n1 o * o_n2 o * (o_n3 o / 2 + 1))
  end.
Definition out_words (o : fobj) : nat :=
  match o_kind o with
  | c2c => 2 * (o_n1 o * o_n2 o * o_n3 o)
  | r2c => 2 * (o_n1 o * o_n2 o * (o_n3 o / 2 + 1))
  | c2r => o_n1 o * o_n2 o * realsize (o_n3 o) (o_inplace o)
  end.

(** a full spectrum is Hermitian: F(-k)=conj F(k), indices modulo the sizes *)
Definition hermitian3 (n1 n2 n3 : nat) (F : nat -> nat -> nat -> C) : Prop :=
  forall a b c, a < n1 -> b < n2 -> c < n3 ->
    F ((n1 - a) mod n1) ((n2 - b) mod n2) ((n3 - c) mod n3) = Cconj (F a b c).

Definition data_in (o : fobj) (i j k : nat) : Prop :=
  i < o_n1 o /\ j < o_n2 o /\ k < (match o_kind o with c2r => o_n3 o / 2 + 1 | _ => o_n3 o end).
Definition data_out (o : fobj) (i j k : nat) : Prop :=
  i < o_n1 o /\ j < o_n2 o /\ k < (match o_kind o with r2c => o_n3 o / 2 + 1 | _ => o_n3 o end).

(** precondition: the input is defined, the output allocated, and out of place they are disjoint *)
Definition fftw_pre (o : fobj) (pin pout : addr) (m : dmem) : Prop :=
  (forall i j k, data_in o i j k ->
     match o_kind o with
     | c2c => defined m (atC (o_n2 o) (o_n3 o) pin i j k) /\
              defined m (atC (o_n2 o) (o_n3 o) pin i j k + 1)
     | r2c => defined m (atR (o_n2 o) (o_n3 o) (o_inplace o) pin i j k)
     | c2r => defined m (atH (o_n2 o) (o_n3 o) pin i j k) /\
              defined m (atH (o_n2 o) (o_n3 o) pin i j k + 1)
     end) /\
  (forall d, d < out_words o -> allocated m (pout + d)) /\
  (pin = pout \/ pin + in_words o <= pout \/ pout + out_words o <= pin).

(** postcondition: the DFT of the input; a c2r transform needs a Hermitian spectrum (otherwise
    its result is unspecified), destroys its input out of place, and leaves the row padding
    unspecified in place *)
Definition fftw_post (o : fobj) (pin pout : addr) (m m' : dmem) : Prop :=
  let n1 := o_n1 o in let n2 := o_n2 o in let n3 := o_n3 o in
  match o_kind o with
  | c2c =>
      (forall f, (forall i j k, data_in o i j k -> cell_C m (atC n2 n3 pin i j k) (f i j k)) ->
       forall a b c, data_out o a b c ->
         cell_C m' (atC n2 n3 pout a b c) (dft3 n1 n2 n3 (o_sign o) f a b c)) /\
      (forall d, ~ (pout <= d < pout + out_words o) -> m' d = m d)
  | r2c =>
      (forall f, (forall i j k, data_in o i j k -> m (atR n2 n3 (o_inplace o) pin i j k) = Val (f i j k)) ->
       forall a b c, data_out o a b c ->
         cell_C m' (atH n2 n3 pout a b c)
                (dft3 n1 n2 n3 (-1) (fun i j k => RtoC (f i j k)) a b c)) /\
      (forall d, ~ (pout <= d < pout + out_words o) -> m' d = m d)
  | c2r =>
      (forall F, hermitian3 n1 n2 n3 F ->
         (forall i j k, data_in o i j k -> cell_C m (atH n2 n3 pin i j k) (F i j k)) ->
       forall a b c, data_out o a b c ->
         m' (atR n2 n3 (o_inplace o) pout a b c) = Val (re (dft3 n1 n2 n3 1 F a b c))) /\
      (forall d, pout <= d < pout + out_words o -> defined m' d) /\
      (forall d, pin <= d < pin + in_words o -> allocated m d -> allocated m' d) /\
      (forall d, ~ (pout <= d < pout + out_words o) -> ~ (pin <= d < pin + in_words o) -> m' d = m d)
  end.

(** fftw_execute_dft, _r2c, _c2r *)
Definition fftw_execute (o : fobj) (pin pout : addr) : dcmd :=
  Ext (fftw_pre o pin pout) (fftw_post o pin pout).

(** Constructors.  fftw::fftw, fftw++.h:229-232: norm=1/(n ? n : doubles/2).
    [inplace] is the value computed by Setup, 273-276 (out NULL or out == in). *)
Definition fftw_norm (doubles n : nat) : R := (1 / INR (if n =? 0 then doubles / 2 else n))%R.
Definition mkobj (k : fkind) (n1 n2 n3 : nat) (sg : Z) (doubles n : nat) (inplace : bool) : fobj :=
  mkfobj k n1 n2 n3 sg doubles (fftw_norm doubles n) inplace.
Definition fft1d (nx : nat) (sg : Z) (ip : bool) := mkobj c2c 1 1 nx sg (2 * nx) 0 ip.                (* 554-556 *)
Definition fft2d (nx ny : nat) (sg : Z) (ip : bool) := mkobj c2c 1 nx ny sg (2 * nx * ny) 0 ip.       (* 1189-1191 *)
Definition fft3d (nx ny nz : nat) (sg : Z) (ip : bool) := mkobj c2c nx ny nz sg (2 * nx * ny * nz) 0 ip.  (* 1390-1393 *)
Definition rcfft1d (nx : nat) (ip : bool) := mkobj r2c 1 1 nx (-1) (2 * (nx / 2 + 1)) nx ip.          (* 914-919 *)
Definition rcfft2d (nx ny : nat) (ip : bool) :=
  mkobj r2c 1 nx ny (-1) (2 * nx * (ny / 2 + 1)) (nx * ny) ip.                                        (* 1243-1251 *)
Definition rcfft3d (nx ny nz : nat) (ip : bool) :=
  mkobj r2c nx ny nz (-1) (2 * nx * ny * (nz / 2 + 1)) (nx * ny * nz) ip.                             (* 1434-1444 *)
Definition crfft1d (nx : nat) (ip : bool) := mkobj c2r 1 1 nx 1 (realsize nx ip) nx ip.               (* 952-957 *)
Definition crfft2d (nx ny : nat) (ip : bool) := mkobj c2r 1 nx ny 1 (nx * realsize ny ip) (nx * ny) ip.   (* 1314-1322 *)
Definition crfft3d (nx ny nz : nat) (ip : bool) :=
  mkobj c2r nx ny nz 1 (nx * ny * realsize nz ip) (nx * ny * nz) ip.                                  (* 1519-1527 *)

(** fftw++.h:316-323: constructor and call must be both in place or both out of place.
    [pout] is already resolved: a NULL out argument is pout = pin (CheckAlign, 258-269). *)
Definition Setout (o : fobj) (pin pout : addr) (k : dcmd) : dcmd :=
  if xorb (o_inplace o) (pout =? pin) then Exit else k.

(** Execute with shift=false: 312-314, 926-928, 963-965, 1263-1266 … *)
Definition fft (o : fobj) (pin pout : addr) : dcmd := Setout o pin pout (fftw_execute o pin pout).  (* 325-328 *)

(** the Shift selected by rcfft2d/crfft2d::Execute (1259-1262, 1331-1334), rank 3: 1452-1456, 1537-1540 *)
Definition shift_of (rank3 : bool) (o : fobj) (data : addr) : dcmd :=
  if rank3 then
    if o_inplace o then Shift3C data (o_n1 o) (o_n2 o) (o_n3 o) else Shift3D data (o_n1 o) (o_n2 o) (o_n3 o)
  else
    if o_inplace o then Shift2C data (o_n2 o) (o_n3 o) else Shift2D data (o_n2 o) (o_n3 o).

(** fft0, 338-341, with Execute(in,out,true) *)
Definition fft0 (rank3 : bool) (o : fobj) (pin pout : addr) : dcmd :=
  Setout o pin pout
    match o_kind o with
    | r2c => Seq (shift_of rank3 o pin) (fftw_execute o pin pout)      (* 1258-1266, 1451-1458 *)
    | c2r => Seq (fftw_execute o pin pout) (shift_of rank3 o pout)     (* 1329-1336, 1534-1541 *)
    | c2c => fftw_execute o pin pout                                   (* fftw::Execute ignores shift *)
    end.

(** fftNormalized: 366-371 and 379-383 (Complex out), 373-377 (double out); the overload is fixed by the type
    of the out argument: [asC] = out passed (or defaulted) as Complex*.  *)
Definition fftNormalized (asC : bool) (o : fobj) (pin pout : addr) : dcmd :=
  Setout o pin pout (Seq (fftw_execute o pin pout)
    (if asC then NormalizeC (o_doubles o) (o_norm o) pout else NormalizeD (o_doubles o) (o_norm o) pout)).
(** fft0Normalized: 385-402 *)
Definition fft0Normalized (rank3 asC : bool) (o : fobj) (pin pout : addr) : dcmd :=
  Seq (fft0 rank3 o pin pout)
    (if asC then NormalizeC (o_doubles o) (o_norm o) pout else NormalizeD (o_doubles o) (o_norm o) pout).

(** *** M strided transforms: fftwblock and Mfft1d/Mrcfft1d/Mcrfft1d *)

(** fftw++.h:128-130 *)
Definition Dist (n stride dist : nat) : nat := if dist =? 0 then (if stride =? 1 then n else 1) else dist.

(** one side of an FFTW many-plan: element size in doubles, elements per vector, stride, dist *)
Record vlay := mkvlay { v_sz : nat; v_len : nat; v_stride : nat; v_dist : nat }.
(** the double addresses of vector k of an array at base, in order *)
Definition vaddrs (l : vlay) (base k : nat) : list addr :=
  flat_map (fun s => map (fun c => base + v_sz l * (v_stride l * s + v_dist l * k) + c) (seq 0 (v_sz l)))
           (seq 0 (v_len l)).

Fixpoint preads (l : list addr) (k : list R -> dprog) : dprog :=
  match l with [] => k [] | a :: l => Rd a (fun v => preads l (fun vs => k (v :: vs))) end.
Fixpoint preadss (ls : list (list addr)) (k : list (list R) -> dprog) : dprog :=
  match ls with [] => k [] | l :: ls => preads l (fun v => preadss ls (fun vs => k (v :: vs))) end.
Fixpoint pwrites (l : list addr) (vs : list R) (p : dprog) : dprog :=
  match l, vs with a :: l, v :: vs => Wr a v (pwrites l vs p) | _, _ => p end.
Fixpoint pwritess (ls : list (list addr)) (vss : list (list R)) : dprog :=
  match ls, vss with l :: ls, vs :: vss => pwrites l vs (pwritess ls vss) | _, _ => Ret end.

(** fftw_execute_* of a many-plan of Q vectors run by one thread: [xf] maps the doubles of one
    input vector to the doubles of its transform *)
Definition many_execute (xf : list R -> list R) (li lo : vlay) (Q : nat) (pin pout : addr) : dprog :=
  preadss (map (vaddrs li pin) (seq 0 Q)) (fun xs =>
  pwritess (map (vaddrs lo pout) (seq 0 Q)) (map xf xs)).

(** fftwblock::Execute, fftw++.h:739-748: the first transform and the number of transforms of block i *)
Definition block_part (T Q RR i : nat) : nat * nat :=
  let extra := T - RR in
  let iQ := i * Q in
  if i <? extra then (iQ, Q) else (iQ + i - extra, Q + 1).
(** fftwblock::Execute, fftw++.h:733-751; plan1 transforms Q vectors, plan2 Q+1 (block_init below) *)
Definition block_Execute (xf : list R -> list R) (li lo : vlay) (M T Q RR : nat) (pin pout : addr) : dcmd :=
  if T =? 1 then Par 1 (fun _ => many_execute xf li lo M pin pout)
  else
    Par T (fun i =>
      let '(off, cnt) := block_part T Q RR i in
      many_execute xf li lo cnt (pin + v_sz li * (off * v_dist li)) (pout + v_sz lo * (off * v_dist lo))).

(** what FFTW computes for one vector of doubles: fftw_plan_many_dft and fftw_plan_many_dft_r2c *)
Definition dft_c (n : nat) (sg : Z) (l : list R) : list R :=
  flat_map (fun s => let z := dft3 1 1 n sg (fun _ _ i => mkC (nth (2 * i) l 0%R) (nth (2 * i + 1) l 0%R)) 0 0 s in
                     [re z; im z]) (seq 0 n).
Definition dft_r (n : nat) (l : list R) : list R :=
  flat_map (fun s => let z := dft3 1 1 n (-1) (fun _ _ i => RtoC (nth i l 0%R)) 0 0 s in
                     [re z; im z]) (seq 0 (n / 2 + 1)).

(** fftwblock::init, fftw++.h:588-654.  Plans are identified by the number of vectors they
    transform; None is NULL.  [tsetup] is the thread count left by Setup, [timing] the answer of
    time(), [guard] the in-place overlap test of 615-617, [data] the table entry. *)
Record block := mkblock { b_T : nat; b_Q : nat; b_R : nat;
                          b_plan : option nat; b_plan1 : option nat; b_plan2 : option nat }.
Definition block_guard (inplace : bool) (li lo : vlay) : bool :=
  let ilength := if (v_sz li =? 1) || (v_sz lo =? 1) then v_len li else 0 in
  let olength := if (v_sz li =? 1) || (v_sz lo =? 1) then v_len lo else 0 in
  negb inplace ||
  ((v_stride lo * olength * v_sz lo <=? v_dist li * v_sz li) &&
   (v_stride li * ilength * v_sz li <=? v_dist lo * v_sz lo)).
(** Plan(in,out), 712-718: (plan2, plan) for the current Q and R *)
Definition block_Plan (Q RR : nat) (plan2 : option nat) : option nat * option nat :=
  (if 0 <? RR then Some (Q + 1) else plan2, Some Q).
Definition block_init (M Threads : nat) (tsetup : nat -> nat) (guard : bool) (data : nat) (timing : bool) : block :=
  let Threads := if (M <? Threads) && (1 <? M) then M else Threads in      (* 594 *)
  let '(plan2, plan) := block_Plan M 0 None in                             (* 597 *)
  let Threads := tsetup Threads in                                         (* 598 *)
  let T0 := Threads in
  let fftw_threads := mkblock 1 M 0 plan None None in
  if 1 <? T0 then
    if guard then
      let T := T0 in
      let Q := if 0 <? T then M / T else 0 in
      let RR := M - Q * T in
      if data =? 1 then mkblock 1 Q RR plan None None                      (* 623-624, 636-637 *)
      else
        let '(plan2, plan') := block_Plan Q RR plan2 in                    (* 627-628 *)
        let plan1 := plan' in
        if data =? T then mkblock T Q RR None plan1 plan2                  (* 629-632 *)
        else if timing then mkblock 1 Q RR plan None None                  (* 636-644 *)
        else mkblock T Q RR plan plan1 plan2                               (* 649-653 *)
    else fftw_threads
  else fftw_threads.

(** Mfft1d constructors: doubles, fftw++.h:766-792 (the general one) *)
Definition Mfft1d_doubles (nx M istride ostride idist odist : nat) : nat :=
  Nat.max (2 * ((nx - 1) * istride + (M - 1) * Dist nx istride idist + 1))
          (2 * ((nx - 1) * ostride + (M - 1) * Dist nx ostride odist + 1)).
