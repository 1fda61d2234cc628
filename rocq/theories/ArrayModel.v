(** Model of Array.h and align.h: indexing, diagonal loops, storage ownership, aligned
    allocation.  size_t and ptrdiff_t arithmetic is idealised to Z/nat without wrap-around,
    except in [deleteAlign], where the wrap of len-1 for len=0 is explicit. *)
From Coq Require Import Arith ZArith List Bool.
Import ListNotations.

(** * Indexing *)
Section Indexing.
Open Scope Z_scope.

(** Result of evaluating a subscript: the element (or sub-array) at offset k from the start of the
    underlying storage, or ArrayExit. *)
Inductive acc := At (k : Z) | Exited.

(** Check, Array.h:220-235, under the macro __check, Array.h:32-45 (nd = NDEBUG) *)
Definition chk (nd : bool) (i n : Z) (k : acc) : acc :=
  if nd then k else if (i <? 0) || (n <=? i) then Exited else k.
Definition sub (a : acc) (f : Z -> acc) : acc := match a with At v => f v | Exited => Exited end.

(** array1::operator [] and (), Array.h:245-246; v is the storage pointer *)
Definition array1_at nd (v n ix : Z) := chk nd ix n (At (v + ix)).

(** array2: operator (), Array.h:458-462; operator [] Array.h:448-457.  Without __check the two
    versions of operator [] denote the same address. *)
Definition array2_at nd (v nx ny ix iy : Z) := chk nd ix nx (chk nd iy ny (At (v + (ix * ny + iy)))).
Definition array2_sub nd (v nx ny ix : Z) := chk nd ix nx (At (v + ix * ny)).
Definition array2_chain nd v nx ny ix iy := sub (array2_sub nd v nx ny ix) (fun v => array1_at nd v ny iy).
(** array2::operator ()(i), Array.h:463-466; the same code in array3..array5 *)
Definition flat_at nd (v size i : Z) := chk nd i size (At (v + i)).

(** array3: Dimension Array.h:557-560 (nyz=ny*nz), operator [] 588-591, operator () 592-597 *)
Definition array3_at nd (v nx ny nz ix iy iz : Z) :=
  let nyz := ny * nz in
  chk nd ix nx (chk nd iy ny (chk nd iz nz (At (v + (ix * nyz + iy * nz + iz))))).
Definition array3_sub nd (v nx ny nz ix : Z) := let nyz := ny * nz in chk nd ix nx (At (v + ix * nyz)).
Definition array3_chain nd v nx ny nz ix iy iz :=
  sub (array3_sub nd v nx ny nz ix) (fun v => array2_chain nd v ny nz iy iz).

(** array4: Dimension Array.h:681-685, operator [] 713-716, operator () 717-723 *)
Definition array4_at nd (v nx ny nz nw ix iy iz iw : Z) :=
  let nzw := nz * nw in let nyzw := ny * nzw in
  chk nd ix nx (chk nd iy ny (chk nd iz nz (chk nd iw nw (At (v + (ix * nyzw + iy * nzw + iz * nw + iw)))))).
Definition array4_sub nd (v nx ny nz nw ix : Z) :=
  let nzw := nz * nw in let nyzw := ny * nzw in chk nd ix nx (At (v + ix * nyzw)).
Definition array4_chain nd v nx ny nz nw ix iy iz iw :=
  sub (array4_sub nd v nx ny nz nw ix) (fun v => array3_chain nd v ny nz nw iy iz iw).

(** array5: Dimension Array.h:793-798, operator [] 827-830, operator () 831-838 *)
Definition array5_at nd (v nx ny nz nw nv ix iy iz iw iv : Z) :=
  let nwv := nw * nv in let nzwv := nz * nwv in let nyzwv := ny * nzwv in
  chk nd ix nx (chk nd iy ny (chk nd iz nz (chk nd iw nw (chk nd iv nv
    (At (v + (ix * nyzwv + iy * nzwv + iz * nwv + iw * nv + iv))))))).
Definition array5_sub nd (v nx ny nz nw nv ix : Z) :=
  let nwv := nw * nv in let nzwv := nz * nwv in let nyzwv := ny * nzwv in chk nd ix nx (At (v + ix * nyzwv)).
Definition array5_chain nd v nx ny nz nw nv ix iy iz iw iv :=
  sub (array5_sub nd v nx ny nz nw nv ix) (fun v => array4_chain nd v ny nz nw nv iy iz iw iv).

(** the offset classes; __check(i,n,o) is Check(i-(o),n), Array.h:910-914 *)
(** Array1: Offsets Array.h:922-924, operator [] 967 *)
Definition Array1_at nd (v n ox ix : Z) := let voff := v - ox in chk nd (ix - ox) n (At (voff + ix)).
(** Array2: Offsets Array.h:1006-1009, operator [] 1042-1051, operator () 1053-1057 *)
Definition Array2_at nd (v nx ny ox oy ix iy : Z) :=
  let vtemp := v - ox * ny in let voff := vtemp - oy in
  chk nd (ix - ox) nx (chk nd (iy - oy) ny (At (voff + (ix * ny + iy)))).
Definition Array2_sub nd (v nx ny ox ix : Z) := let vtemp := v - ox * ny in chk nd (ix - ox) nx (At (vtemp + ix * ny)).
Definition Array2_chain nd v nx ny ox oy ix iy := sub (Array2_sub nd v nx ny ox ix) (fun v => Array1_at nd v ny oy iy).
(** the unchecked operator [] followed by the built-in [], Array.h:1043-1045 *)
Definition Array2_raw (v ny ox oy ix iy : Z) :=
  let vtemp := v - ox * ny in let voff := vtemp - oy in At (voff + ix * ny + iy).
(** Array3: Offsets Array.h:1098-1101, operator [] 1135-1138, operator () 1139-1144 *)
Definition Array3_at nd (v nx ny nz ox oy oz ix iy iz : Z) :=
  let nyz := ny * nz in
  let vtemp := v - ox * nyz in let voff := vtemp - oy * nz - oz in
  chk nd (ix - ox) nx (chk nd (iy - oy) ny (chk nd (iz - oz) nz (At (voff + (ix * nyz + iy * nz + iz))))).
Definition Array3_sub nd (v nx ny nz ox ix : Z) :=
  let nyz := ny * nz in let vtemp := v - ox * nyz in chk nd (ix - ox) nx (At (vtemp + ix * nyz)).
Definition Array3_chain nd v nx ny nz ox oy oz ix iy iz :=
  sub (Array3_sub nd v nx ny nz ox ix) (fun v => Array2_chain nd v ny nz oy oz iy iz).
(** Array4: Offsets Array.h:1191-1194, operator [] 1234-1238, operator () 1239-1245 *)
Definition Array4_at nd (v nx ny nz nw ox oy oz ow ix iy iz iw : Z) :=
  let nzw := nz * nw in let nyzw := ny * nzw in
  let vtemp := v - ox * nyzw in let voff := vtemp - oy * nzw - oz * nw - ow in
  chk nd (ix - ox) nx (chk nd (iy - oy) ny (chk nd (iz - oz) nz (chk nd (iw - ow) nw
    (At (voff + (ix * nyzw + iy * nzw + iz * nw + iw)))))).
Definition Array4_sub nd (v nx ny nz nw ox ix : Z) :=
  let nzw := nz * nw in let nyzw := ny * nzw in let vtemp := v - ox * nyzw in
  chk nd (ix - ox) nx (At (vtemp + ix * nyzw)).
Definition Array4_chain nd v nx ny nz nw ox oy oz ow ix iy iz iw :=
  sub (Array4_sub nd v nx ny nz nw ox ix) (fun v => Array3_chain nd v ny nz nw oy oz ow iy iz iw).
(** Array5: Offsets Array.h:1305-1308, operator [] 1351-1355, operator () 1356-1364 *)
Definition Array5_at nd (v nx ny nz nw nv ox oy oz ow ov ix iy iz iw iv : Z) :=
  let nwv := nw * nv in let nzwv := nz * nwv in let nyzwv := ny * nzwv in
  let vtemp := v - ox * nyzwv in let voff := vtemp - oy * nzwv - oz * nwv - ow * nv - ov in
  chk nd (ix - ox) nx (chk nd (iy - oy) ny (chk nd (iz - oz) nz (chk nd (iw - ow) nw (chk nd (iv - ov) nv
    (At (voff + (ix * nyzwv + iy * nzwv + iz * nwv + iw * nv + iv))))))).
Definition Array5_sub nd (v nx ny nz nw nv ox ix : Z) :=
  let nwv := nw * nv in let nzwv := nz * nwv in let nyzwv := ny * nzwv in let vtemp := v - ox * nyzwv in
  chk nd (ix - ox) nx (At (vtemp + ix * nyzwv)).
Definition Array5_chain nd v nx ny nz nw nv ox oy oz ow ov ix iy iz iw iv :=
  sub (Array5_sub nd v nx ny nz nw nv ox ix) (fun v => Array4_chain nd v ny nz nw nv oy oz ow ov iy iz iw iv).

(** Array4 = array4 with argument checking on, Array.h:1270-1284: the shape test.  (a1..a4) is
    the shape of the right-hand side; lines 1275-1278 compare all four extents with A.Nx(). *)
Definition eqs (l : list (Z * Z)) : bool := forallb (fun ab => fst ab =? snd ab) l.
Definition Array4_assign_array4_accepts (nx ny nz nw ox oy oz ow a1 a2 a3 a4 : Z) : bool :=
  eqs [(nx, a1); (ny, a2); (nz, a3); (nw, a4); (nx, a1); (ny, a1); (nz, a1); (nw, a1);
       (ox, 0); (oy, 0); (oz, 0); (ow, 0)].
(** Array3 = array3, Array.h:1163-1173 *)
Definition Array3_assign_array3_accepts (nx ny nz ox oy oz a1 a2 a3 : Z) : bool :=
  eqs [(nx, a1); (ny, a2); (nz, a3); (ox, 0); (oy, 0); (oz, 0)].
(** Array4 = Array4, Array.h:1256-1268 *)
Definition Array4_assign_Array4_accepts (nx ny nz nw ox oy oz ow a1 a2 a3 a4 b1 b2 b3 b4 : Z) : bool :=
  eqs [(nx, a1); (ny, a2); (nz, a3); (nw, a4); (ox, b1); (oy, b2); (oz, b3); (ow, b4)].
(** Array5 = array5, Array.h:1390-1404 *)
Definition Array5_assign_array5_accepts (nx ny nz nw nv ox oy oz ow ov a1 a2 a3 a4 a5 : Z) : bool :=
  eqs [(nx, a1); (ny, a2); (nz, a3); (nw, a4); (nv, a5); (ox, 0); (oy, 0); (oz, 0); (ow, 0); (ov, 0)].
End Indexing.

(** * Whole-array loops.  The contents of an array are a function from the flat index. *)
Section ArrayLoops.
Context {V : Type}.
Definition contents := nat -> V.
Definition set_at (a : contents) (i : nat) (x : V) : contents := fun k => if k =? i then x else a k.

(** for(size_t i=i0; i < size; i += inc) v[i]=g(v[i]);  [fuel] bounds the number of iterations and
    is always taken large enough (theorem [stride_loop_spec] needs inc >= 1, fuel >= size). *)
Fixpoint stride_loop (fuel : nat) (g : nat -> V -> V) (i inc size : nat) (a : contents) : contents :=
  match fuel with
  | 0 => a
  | S f => if i <? size then stride_loop f g (i + inc) inc size (set_at a i (g i (a i))) else a
  end.

(** array1::Load(T), Array.h:254-257 *)
Definition Load (x : V) (size : nat) (a : contents) := stride_loop size (fun _ _ => x) 0 1 size a.
(** array1::Load(const T *a), Array.h:258-260; b are the contents of the distinct source *)
Definition LoadP (b : contents) (size : nat) (a : contents) := stride_loop size (fun i _ => b i) 0 1 size a.
(** array1::operator += (const array1&) and the like, Array.h:299-318, 476-485 *)
Definition opArray (op : V -> V -> V) (b : contents) (size : nat) (a : contents) :=
  stride_loop size (fun i x => op x (b i)) 0 1 size a.
(** array1::operator += (T) and the like, Array.h:320-334; array2 *= (T) 500-504 *)
Definition opScalar (op : V -> V -> V) (x : V) (size : nat) (a : contents) :=
  stride_loop size (fun _ y => op y x) 0 1 size a.
(** array2::operator += (T) and -= (T), Array.h:488-499 *)
Definition array2_addscalar (op : V -> V -> V) (x : V) (nx ny : nat) (a : contents) :=
  stride_loop (nx * ny) (fun _ y => op y x) 0 (ny + 1) (nx * ny) a.
(** array2::Identity, Array.h:506-511 *)
Definition Identity (zero one : V) (nx ny : nat) (a : contents) :=
  stride_loop (nx * ny) (fun _ _ => one) 0 (ny + 1) (nx * ny) (Load zero (nx * ny) a).
(** array3::operator += (T), Array.h:627-632 *)
Definition array3_addscalar (op : V -> V -> V) (x : V) (nx ny nz : nat) (a : contents) :=
  stride_loop (nx * (ny * nz)) (fun _ y => op y x) 0 (ny * nz + nz + 1) (nx * (ny * nz)) a.
(** array4::operator += (T), Array.h:754-759 *)
Definition array4_addscalar (op : V -> V -> V) (x : V) (nx ny nz nw : nat) (a : contents) :=
  let nzw := nz * nw in let nyzw := ny * nzw in
  stride_loop (nx * nyzw) (fun _ y => op y x) 0 (nyzw + nzw + nw + 1) (nx * nyzw) a.
(** array5::operator += (T), Array.h:870-875 *)
Definition array5_addscalar (op : V -> V -> V) (x : V) (nx ny nz nw nv : nat) (a : contents) :=
  let nwv := nw * nv in let nzwv := nz * nwv in let nyzwv := ny * nzwv in
  stride_loop (nx * nyzwv) (fun _ y => op y x) 0 (nyzwv + nzwv + nwv + nv + 1) (nx * nyzwv) a.

(** array1::Min, Array.h:265-271: None is ArrayExit on an empty array *)
Definition Min (lt : V -> V -> bool) (size : nat) (a : contents) : option V :=
  match size with
  | 0 => None
  | S n => Some (fold_left (fun m i => if lt (a i) m then a i else m) (seq 1 n) (a 0))
  end.
(** array1::Max, Array.h:272-278 *)
Definition Max (lt : V -> V -> bool) (size : nat) (a : contents) : option V :=
  match size with
  | 0 => None
  | S n => Some (fold_left (fun m i => if lt m (a i) then a i else m) (seq 1 n) (a 0))
  end.
End ArrayLoops.

(** * Storage ownership *)
Inductive kind := KNew | KAligned | KUser.  (* new[] / aligned allocation / owned by the caller *)
Inductive blk := Live (k : kind) (len : nat) | Freed.
(** what goes wrong: freeing freed storage, freeing with the wrong function, running destructors
    outside the block, using freed storage, accessing outside the block or through no block *)
Inductive err := DoubleFree | WrongFree | BadDestroy | UseAfterFree | OutOfBounds.
Definition ptr := option (nat * nat).   (* block and element offset; None is NULL *)

(** array1 members, Array.h:134-139; state is the set of flags allocated=1, temporary=2, aligned=4 *)
Record arr := mkarr { a_v : ptr; a_size : nat; a_alloc : bool; a_temp : bool; a_align : bool }.
(** s_frees counts the deallocations of each block *)
Record ast := mkast { s_obj : nat -> option arr; s_blk : nat -> option blk;
                      s_data : nat -> nat -> option Z; s_frees : nat -> nat; s_next : nat }.
Inductive res := Ok (s : ast) | Fail (e : err) | Stop.   (* Stop: ArrayExit *)
Definition andthen (r : res) (f : ast -> res) : res := match r with Ok s => f s | _ => r end.

(** build flags: NDEBUG; and whether deleteAlign is the one of align.h (fftw++.h included first) *)
Record mode := mkmode { ndebug : bool; alignh : bool }.

Definition put_obj (s : ast) (o : nat) (a : option arr) : ast :=
  mkast (fun k => if k =? o then a else s_obj s k) (s_blk s) (s_data s) (s_frees s) (s_next s).
Definition put_blk (s : ast) (b : nat) (x : option blk) : ast :=
  mkast (s_obj s) (fun k => if k =? b then x else s_blk s k) (s_data s) (s_frees s) (s_next s).
Definition count_free (s : ast) (b : nat) : ast :=
  mkast (s_obj s) (s_blk s) (s_data s) (fun k => if k =? b then S (s_frees s k) else s_frees s k) (s_next s).

Definition kind_eqb (a b : kind) : bool :=
  match a, b with KNew, KNew | KAligned, KAligned | KUser, KUser => true | _, _ => false end.

(** delete [] v (k = KNew) or free(v)/free0(v) (k = KAligned) *)
Definition free_blk (k : kind) (p : ptr) (s : ast) : res :=
  match p with
  | Some (b, 0) => match s_blk s b with
                   | Some (Live k' _) => if kind_eqb k k' then Ok (count_free (put_blk s b (Some Freed)) b) else Fail WrongFree
                   | Some Freed => Fail DoubleFree
                   | None => Fail WrongFree
                   end
  | _ => Fail WrongFree
  end.
(** deleteAlign, Array.h:117-127 (loop from len-1, which wraps for len=0) and align.h:75-83 *)
Definition destroys_ok (md : mode) (p : ptr) (len : nat) (s : ast) : bool :=
  match p with
  | Some (b, off) => match s_blk s b with
                     | Some (Live _ l) => if alignh md then off + len <=? l else (0 <? len) && (off + len <=? l)
                     | _ => false
                     end
  | None => false
  end.
Definition deleteAlign (md : mode) (p : ptr) (len : nat) (s : ast) : res :=
  match p with
  | Some (b, _) => match s_blk s b with
                   | Some Freed => Fail DoubleFree
                   | _ => if destroys_ok md p len s then free_blk KAligned p s else Fail BadDestroy
                   end
  | None => Fail BadDestroy
  end.

(** new T[n] or newAlign: a fresh block with indeterminate contents.  Failure to allocate (an
    exception, resp. ArrayExit) is not modelled. *)
Definition alloc_blk (k : kind) (n : nat) (s : ast) : ast * ptr :=
  (mkast (s_obj s) (fun b => if b =? s_next s then Some (Live k n) else s_blk s b)
         (fun b => if b =? s_next s then fun _ => None else s_data s b) (s_frees s) (S (s_next s)),
   Some (s_next s, 0)).

(** Deallocate, Array.h:174-180 *)
Definition Deallocate (md : mode) (o : nat) (s : ast) : res :=
  match s_obj s o with
  | None => Ok s
  | Some a =>
      if a_alloc a then
        andthen (if a_align a then deleteAlign md (a_v a) (a_size a) s else free_blk KNew (a_v a) s)
                (fun s => Ok (put_obj s o (Some (mkarr (a_v a) (a_size a) false false false))))
      else Ok s
  end.
(** Activate, Array.h:161-169; align = 0 is false *)
Definition Activate (o : nat) (align : bool) (s : ast) : res :=
  match s_obj s o with
  | None => Ok s
  | Some a =>
      let '(s, p) := alloc_blk (if align then KAligned else KNew) (a_size a) s in
      Ok (put_obj s o (Some (mkarr p (a_size a) true (a_temp a) (align || a_align a))))
  end.
(** __checkActivate, Array.h:36,41 with CheckActivate(int,size_t), Array.h:170-173 *)
Definition checkActivate (md : mode) (o : nat) (align : bool) (s : ast) : res :=
  if ndebug md then Activate o align s else andthen (Deallocate md o s) (Activate o align).
(** Dimension(n), Array.h:181 *)
Definition Dimension (o n : nat) (s : ast) : res :=
  match s_obj s o with
  | None => Ok s
  | Some a => Ok (put_obj s o (Some (mkarr (a_v a) n (a_alloc a) (a_temp a) (a_align a))))
  end.
(** Dimension(n,v0), Array.h:182-184 *)
Definition DimensionV (o n : nat) (p : ptr) (s : ast) : res :=
  match s_obj s o with
  | None => Ok s
  | Some a => Ok (put_obj s o (Some (mkarr p n false (a_temp a) (a_align a))))
  end.
(** Dimension(const array1&), Array.h:185-187: state=A.test(temporary) *)
Definition DimensionA (o src : nat) (s : ast) : res :=
  match s_obj s o, s_obj s src with
  | Some _, Some A => Ok (put_obj s o (Some (mkarr (a_v A) (a_size A) false (a_temp A) false)))
  | _, _ => Ok s
  end.
(** Allocate, Array.h:193-196; Reallocate 198-201 *)
Definition Allocate (md : mode) (o n : nat) (align : bool) (s : ast) : res :=
  andthen (Dimension o n s) (checkActivate md o align).
Definition Reallocate (md : mode) (o n : nat) (align : bool) (s : ast) : res :=
  andthen (Deallocate md o s) (Allocate md o n align).
(** Freeze, Hold, Purge, Array.h:216-218 *)
Definition Freeze (o : nat) (s : ast) : res :=
  match s_obj s o with
  | None => Ok s
  | Some a => Ok (put_obj s o (Some (mkarr (a_v a) (a_size a) false false false)))
  end.
Definition Hold (o : nat) (s : ast) : res :=
  match s_obj s o with
  | None => Ok s
  | Some a => if a_alloc a then Ok (put_obj s o (Some (mkarr (a_v a) (a_size a) false true false))) else Ok s
  end.
Definition Purge (md : mode) (o : nat) (s : ast) : res :=
  match s_obj s o with
  | None => Ok s
  | Some a => if a_temp a then andthen (Deallocate md o s) (Freeze o) else Ok s
  end.
(** Set(T *a), Array.h:264 *)
Definition SetV (o : nat) (p : ptr) (s : ast) : res :=
  match s_obj s o with
  | None => Ok s
  | Some a => Ok (put_obj s o (Some (mkarr p (a_size a) false (a_temp a) (a_align a))))
  end.

(** one element *)
Definition rd_elt (s : ast) (p : ptr) (i : nat) : option Z + err :=
  match p with
  | None => inr OutOfBounds
  | Some (b, off) => match s_blk s b with
                     | Some (Live _ l) => if off + i <? l then inl (s_data s b (off + i)) else inr OutOfBounds
                     | Some Freed => inr UseAfterFree
                     | None => inr OutOfBounds
                     end
  end.
Definition wr_elt (s : ast) (p : ptr) (i : nat) (x : option Z) : res :=
  match p with
  | None => Fail OutOfBounds
  | Some (b, off) => match s_blk s b with
                     | Some (Live _ l) => if off + i <? l
                         then Ok (mkast (s_obj s) (s_blk s)
                                (fun b' k => if (b' =? b) && (k =? off + i) then x else s_data s b' k) (s_frees s) (s_next s))
                         else Fail OutOfBounds
                     | Some Freed => Fail UseAfterFree
                     | None => Fail OutOfBounds
                     end
  end.
(** Load(const T *a), Array.h:258-260: the next n elements from index i *)
Fixpoint copy_elts (n : nat) (dst src : ptr) (i : nat) (s : ast) : res :=
  match n with
  | 0 => Ok s
  | S n => match rd_elt s src i with
           | inl x => andthen (wr_elt s dst i x) (copy_elts n dst src (S i))
           | inr e => Fail e
           end
  end.
Definition Load1 (o src : nat) (s : ast) : res :=
  match s_obj s o, s_obj s src with
  | Some a, Some A => copy_elts (a_size a) (a_v a) (a_v A) 0 s
  | _, _ => Ok s
  end.
(** array1::operator = (const array1&), Array.h:289-297 *)
Definition Assign (md : mode) (o src : nat) (s : ast) : res :=
  match s_obj s o, s_obj s src with
  | Some a, Some A =>
      andthen (if a_size a =? a_size A then Ok s
               else andthen (Deallocate md o s) (Allocate md o (a_size A) false)) (fun s =>
      andthen (Load1 o src s) (Purge md src))
  | _, _ => Ok s
  end.
(** element access, Array.h:245-246 with __check *)
Definition Get (md : mode) (o i : nat) (s : ast) : res :=
  match s_obj s o with
  | None => Ok s
  | Some a => if negb (ndebug md) && (a_size a <=? i) then Stop
              else match rd_elt s (a_v a) i with inl _ => Ok s | inr e => Fail e end
  end.
Definition Put (md : mode) (o i : nat) (x : Z) (s : ast) : res :=
  match s_obj s o with
  | None => Ok s
  | Some a => if negb (ndebug md) && (a_size a <=? i) then Stop else wr_elt s (a_v a) i (Some x)
  end.

(** constructors, Array.h:203-212 *)
Definition fresh_arr : arr := mkarr None 0 false false false.
(** A local array1 C is represented by an object name the caller cannot use, [tmp]. *)
Definition tmp : nat := 0.
Definition Destroy (md : mode) (o : nat) (s : ast) : res :=   (* ~array1, Array.h:214 *)
  andthen (Deallocate md o s) (fun s => Ok (put_obj s o None)).
(** swaparray, Array.h:374-381; leftshiftarray 383-391; rightshiftarray 393-401 *)
Definition swaparray (md : mode) (A B : nat) (s : ast) : res :=
  andthen (andthen (andthen (DimensionA tmp A (put_obj s tmp (Some fresh_arr))) (DimensionA A B)) (DimensionA B tmp))
          (Destroy md tmp).
Definition leftshiftarray (md : mode) (A B C : nat) (s : ast) : res :=
  andthen (andthen (andthen (andthen (DimensionA tmp A (put_obj s tmp (Some fresh_arr))) (DimensionA A B)) (DimensionA B C))
          (DimensionA C tmp)) (Destroy md tmp).
Definition rightshiftarray (md : mode) (A B C : nat) (s : ast) : res :=
  andthen (andthen (andthen (andthen (DimensionA tmp C (put_obj s tmp (Some fresh_arr))) (DimensionA C B)) (DimensionA B A))
          (DimensionA A tmp)) (Destroy md tmp).

(** The calls a program can make.  An object name o stands for the variable number o+1; a call on
    an object that does not exist (or the construction of one that does) cannot be written in C++
    and is ignored. *)
Inductive aop :=
| New0 (o : nat) | NewN (o n : nat) (align : bool) | NewV (o n : nat) (p : ptr)
| NewCopy (o a : nat) | NewPlus (o a i : nat)
| OAllocate (o n : nat) (align : bool) | OReallocate (o n : nat) (align : bool) | ODeallocate (o : nat)
| ODimension (o n : nat) | ODimensionV (o n : nat) (p : ptr) | ODimensionA (o a : nat)
| OSet (o : nat) (p : ptr) | OFreeze (o : nat) | OHold (o : nat) | OPurge (o : nat)
| OSwap (a b : nat) | OLeft (a b c : nat) | ORight (a b c : nat)
| OAssign (o a : nat) | OGet (o i : nat) | OPut (o i : nat) (x : Z) | ODestroy (o : nat).

Definition construct (s : ast) (o : nat) (f : res) : res := match s_obj s o with Some _ => Ok s | None => f end.
Definition have2 (s : ast) (a b : nat) (r : res) : res :=
  match s_obj s a, s_obj s b with Some _, Some _ => r | _, _ => Ok s end.
Definition have3 (s : ast) (a b c : nat) (r : res) : res :=
  match s_obj s a, s_obj s b, s_obj s c with Some _, Some _, Some _ => r | _, _, _ => Ok s end.

Definition astep (md : mode) (op : aop) (s : ast) : res :=
  match op with
  | New0 o => construct s (S o) (Ok (put_obj s (S o) (Some fresh_arr)))                     (* Array.h:203 *)
  | NewN o n al => construct s (S o) (Allocate md (S o) n al (put_obj s (S o) (Some fresh_arr)))   (* 205-207 *)
  | NewV o n p => construct s (S o) (Ok (put_obj s (S o) (Some (mkarr p n false false false))))  (* 208-209 *)
  | NewCopy o a => construct s (S o) (match s_obj s (S a) with                            (* 210-212 *)
        | Some A => Ok (put_obj s (S o) (Some (mkarr (a_v A) (a_size A) false (a_temp A) false))) | None => Ok s end)
  | NewPlus o a i => construct s (S o) (match s_obj s (S a) with                          (* operator +, 250 *)
        | Some A => Ok (put_obj s (S o) (Some (mkarr (match a_v A with Some (b, k) => Some (b, k + i) | None => None end)
                                           (a_size A - i) false false false))) | None => Ok s end)
  | OAllocate o n al => Allocate md (S o) n al s
  | OReallocate o n al => Reallocate md (S o) n al s
  | ODeallocate o => Deallocate md (S o) s
  | ODimension o n => Dimension (S o) n s
  | ODimensionV o n p => DimensionV (S o) n p s
  | ODimensionA o a => DimensionA (S o) (S a) s
  | OSet o p => SetV (S o) p s
  | OFreeze o => Freeze (S o) s
  | OHold o => Hold (S o) s
  | OPurge o => Purge md (S o) s
  | OSwap a b => have2 s (S a) (S b) (swaparray md (S a) (S b) s)
  | OLeft a b c => have3 s (S a) (S b) (S c) (leftshiftarray md (S a) (S b) (S c) s)
  | ORight a b c => have3 s (S a) (S b) (S c) (rightshiftarray md (S a) (S b) (S c) s)
  | OAssign o a => Assign md (S o) (S a) s
  | OGet o i => Get md (S o) i s
  | OPut o i x => Put md (S o) i x s
  | ODestroy o => match s_obj s (S o) with None => Ok s | Some _ => Destroy md (S o) s end
  end.
Fixpoint arun (md : mode) (h : list aop) (s : ast) : res :=
  match h with [] => Ok s | op :: h => andthen (astep md op s) (arun md h) end.
(** no arrays yet; [n] blocks owned by the caller, block b of length len b *)
Definition astart (n : nat) (len : nat -> nat) (data : nat -> nat -> option Z) : ast :=
  mkast (fun _ => None) (fun b => if b <? n then Some (Live KUser (len b)) else None) data (fun _ => 0) n.

(** * swaparray on array3 (Array.h:374-381).  array3 inherits Dimension(const array1&), Array.h:185-187,
    by the using-declaration of Array.h:555: it copies the size and the pointer only. *)
Record arr3 := mkarr3 { t_v : Z; t_size : Z; t_nx : Z; t_ny : Z; t_nz : Z }.
Definition Dimension3 (o a : arr3) : arr3 := mkarr3 (t_v a) (t_size a) (t_nx o) (t_ny o) (t_nz o).
Definition swaparray3 (A B : arr3) : arr3 * arr3 :=
  let C := Dimension3 (mkarr3 0 0 0 0 0) A in
  let A' := Dimension3 A B in
  let B' := Dimension3 B C in
  (A', B').
Definition arr3_at (nd : bool) (A : arr3) (i j k : Z) : acc := array3_at nd (t_v A) (t_nx A) (t_ny A) (t_nz A) i j k.

(** * Aligned allocation.  Addresses are bytes (Z). *)
Section Align.
Open Scope Z_scope.
(** posix_memalign0, align.h:37-47 (= Array.h:83-94).  [malloc n] is the allocator's answer, 0 for
    failure; result: return code, p and the word stored just before p. *)
Inductive mares := EINVAL | ENOMEM | Aligned (p stored_at stored : Z).
Definition posix_memalign0 (sizeof_ptr : Z) (malloc : Z -> Z) (alignment size : Z) : mares :=
  if negb (alignment mod sizeof_ptr =? 0) || negb (Z.land alignment (alignment - 1) =? 0) then EINVAL
  else
    let p0 := malloc (size + alignment) in
    if p0 =? 0 then ENOMEM
    else
      let p := Z.land (p0 + alignment) (Z.lnot (alignment - 1)) in
      Aligned p (p - sizeof_ptr) p0.
(** free0, align.h:49-52: the address passed to free, given the word read just before p *)
Definition free0 (p stored : Z) : option Z := if p =? 0 then None else Some stored.

(** ceilquotient, align.h:94-97 *)
Definition ceilquotient (a b : Z) : Z := (a + b - 1) / b.
(** ComplexAlign(n,size), align.h:109-118, given the address B returned by ComplexAlign(len): the
    requested length and the n buffer addresses, in elements of sizeof(Complex)=16 bytes *)
Definition ComplexAlign_len (ALIGNMENT n size : Z) : Z :=
  let Size := ALIGNMENT * ceilquotient size ALIGNMENT in (n - 1) * Size + size.
Definition ComplexAlign_buf (sizeofT ALIGNMENT size B i : Z) : Z :=
  let Size := ALIGNMENT * ceilquotient size ALIGNMENT in B + i * Size * sizeofT.
(** align, align.h:141-144 *)
Definition align (ALIGNMENT n : Z) : Z := ceilquotient (n * 16) ALIGNMENT * ALIGNMENT / 16.
(** the elements destroyed by deleteAlign(v,len): align.h:78 and Array.h:120-121 (size_t wraps) *)
Fixpoint down_from (k : nat) : list Z := match k with O => [] | S j => Z.of_nat j :: down_from j end.
Definition alignh_destroys (len : nat) : list Z := down_from len.
Definition arrayh_first (len : Z) : Z := (len - 1) mod 2 ^ 64.     (* size_t i=len-1 *)
(** for(i=len-1; i > 0; i--) ...; then element 0: the elements destroyed are i, i-1, ..., 0 *)
Definition arrayh_destroys_index (len k : Z) : Prop := 0 <= k <= arrayh_first len.
(** newAlign when the allocator fails: Array.h:107-108 exits, align.h:70-73 goes on with NULL *)
Inductive newalign := NewOK (p : Z) | NewExit | NewNull.
Definition newAlign_arrayh (r : mares) : newalign :=
  match r with EINVAL | ENOMEM => NewExit | Aligned p _ _ => NewOK p end.
Definition newAlign_alignh (r : mares) (len : Z) : newalign :=
  match r with EINVAL | ENOMEM => NewNull | Aligned p _ _ => NewOK p end.
End Align.
