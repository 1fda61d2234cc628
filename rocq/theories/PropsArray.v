(** Properties of Array.h and align.h. *)
From Coq Require Import Arith ZArith List Bool Lia.
Import ListNotations.
From Verif Require Import ArrayModel ArraySpec ArrayOwn ArrayDisc ArrayProofs ArrayProofs2.

(** *** C29: indexing *)

(** the row-major position is a bijection from the index box onto [0,volume) *)
Theorem C29_position_bijective : forall dims offs, length offs = length dims -> Forall (fun n => (0 <= n)%Z) dims ->
  (forall idx, in_box dims offs idx -> (0 <= position dims offs idx < volume dims)%Z) /\
  (forall idx idx', in_box dims offs idx -> in_box dims offs idx' ->
     position dims offs idx = position dims offs idx' -> idx = idx') /\
  (forall k, (0 <= k < volume dims)%Z -> exists idx, in_box dims offs idx /\ position dims offs idx = k).
Proof.
  exact (fun dims offs L F => conj (position_range dims offs)
    (conj (position_inj dims offs) (fun k => position_surj dims offs k L F))).
Qed.
Print Assumptions C29_position_bijective.
(** array1..array5: a(i,j,...) and a[i][j]... *)
Theorem C29_array1 : forall v n i, indexes [n] [0%Z] [i] v (array1_at false v n i) (array1_at true v n i).
Proof. exact array1_thm. Qed.
Theorem C29_array2 : forall v nx ny ix iy,
  indexes [nx; ny] [0; 0]%Z [ix; iy] v (array2_at false v nx ny ix iy) (array2_at true v nx ny ix iy) /\
  indexes [nx; ny] [0; 0]%Z [ix; iy] v (array2_chain false v nx ny ix iy) (array2_chain true v nx ny ix iy).
Proof. exact array2_thm. Qed.
Theorem C29_array3 : forall v nx ny nz ix iy iz,
  indexes [nx; ny; nz] [0; 0; 0]%Z [ix; iy; iz] v (array3_at false v nx ny nz ix iy iz) (array3_at true v nx ny nz ix iy iz) /\
  indexes [nx; ny; nz] [0; 0; 0]%Z [ix; iy; iz] v (array3_chain false v nx ny nz ix iy iz) (array3_chain true v nx ny nz ix iy iz).
Proof. exact array3_thm. Qed.
Theorem C29_array4 : forall v nx ny nz nw ix iy iz iw,
  indexes [nx; ny; nz; nw] [0; 0; 0; 0]%Z [ix; iy; iz; iw] v
    (array4_at false v nx ny nz nw ix iy iz iw) (array4_at true v nx ny nz nw ix iy iz iw) /\
  indexes [nx; ny; nz; nw] [0; 0; 0; 0]%Z [ix; iy; iz; iw] v
    (array4_chain false v nx ny nz nw ix iy iz iw) (array4_chain true v nx ny nz nw ix iy iz iw).
Proof. exact array4_thm. Qed.
Theorem C29_array5 : forall v nx ny nz nw nv ix iy iz iw iv,
  indexes [nx; ny; nz; nw; nv] [0; 0; 0; 0; 0]%Z [ix; iy; iz; iw; iv] v
    (array5_at false v nx ny nz nw nv ix iy iz iw iv) (array5_at true v nx ny nz nw nv ix iy iz iw iv) /\
  indexes [nx; ny; nz; nw; nv] [0; 0; 0; 0; 0]%Z [ix; iy; iz; iw; iv] v
    (array5_chain false v nx ny nz nw nv ix iy iz iw iv) (array5_chain true v nx ny nz nw nv ix iy iz iw iv).
Proof. exact array5_thm. Qed.
(** Array1..Array5: lowest indices ox, oy, ... *)
Theorem C29_Array1 : forall v n o i, indexes [n] [o] [i] v (Array1_at false v n o i) (Array1_at true v n o i).
Proof. exact Array1_thm. Qed.
Theorem C29_Array2 : forall v nx ny ox oy ix iy,
  indexes [nx; ny] [ox; oy] [ix; iy] v (Array2_at false v nx ny ox oy ix iy) (Array2_at true v nx ny ox oy ix iy) /\
  indexes [nx; ny] [ox; oy] [ix; iy] v (Array2_chain false v nx ny ox oy ix iy) (Array2_chain true v nx ny ox oy ix iy) /\
  (in_box [nx; ny] [ox; oy] [ix; iy] -> Array2_raw v ny ox oy ix iy = At (v + position [nx; ny] [ox; oy] [ix; iy])).
Proof. exact Array2_thm. Qed.
Theorem C29_Array3 : forall v nx ny nz ox oy oz ix iy iz,
  indexes [nx; ny; nz] [ox; oy; oz] [ix; iy; iz] v
    (Array3_at false v nx ny nz ox oy oz ix iy iz) (Array3_at true v nx ny nz ox oy oz ix iy iz) /\
  indexes [nx; ny; nz] [ox; oy; oz] [ix; iy; iz] v
    (Array3_chain false v nx ny nz ox oy oz ix iy iz) (Array3_chain true v nx ny nz ox oy oz ix iy iz).
Proof. exact Array3_thm. Qed.
Theorem C29_Array4 : forall v nx ny nz nw ox oy oz ow ix iy iz iw,
  indexes [nx; ny; nz; nw] [ox; oy; oz; ow] [ix; iy; iz; iw] v
    (Array4_at false v nx ny nz nw ox oy oz ow ix iy iz iw) (Array4_at true v nx ny nz nw ox oy oz ow ix iy iz iw) /\
  indexes [nx; ny; nz; nw] [ox; oy; oz; ow] [ix; iy; iz; iw] v
    (Array4_chain false v nx ny nz nw ox oy oz ow ix iy iz iw) (Array4_chain true v nx ny nz nw ox oy oz ow ix iy iz iw).
Proof. exact Array4_thm. Qed.
Theorem C29_Array5 : forall v nx ny nz nw nv ox oy oz ow ov ix iy iz iw iv,
  indexes [nx; ny; nz; nw; nv] [ox; oy; oz; ow; ov] [ix; iy; iz; iw; iv] v
    (Array5_at false v nx ny nz nw nv ox oy oz ow ov ix iy iz iw iv) (Array5_at true v nx ny nz nw nv ox oy oz ow ov ix iy iz iw iv) /\
  indexes [nx; ny; nz; nw; nv] [ox; oy; oz; ow; ov] [ix; iy; iz; iw; iv] v
    (Array5_chain false v nx ny nz nw nv ox oy oz ow ov ix iy iz iw iv) (Array5_chain true v nx ny nz nw nv ox oy oz ow ov ix iy iz iw iv).
Proof. exact Array5_thm. Qed.
Print Assumptions C29_array1. Print Assumptions C29_array2. Print Assumptions C29_array3. Print Assumptions C29_array4.
Print Assumptions C29_array5. Print Assumptions C29_Array1. Print Assumptions C29_Array2. Print Assumptions C29_Array3.
Print Assumptions C29_Array4. Print Assumptions C29_Array5.
Example C29_case : (in_box [4; 3; 5] [-1; 0; 2] [1; 2; 6] /\
  Array3_at false 100 4 3 5 (-1) 0 2 1 2 6 = At 144 /\ Array3_chain false 100 4 3 5 (-1) 0 2 1 2 6 = At 144 /\
  Array3_at false 100 4 3 5 (-1) 0 2 1 3 6 = Exited /\ Array3_at false 100 4 3 5 (-1) 0 2 (-2) 2 6 = Exited)%Z.
Proof. cbn. repeat split; lia. Qed.

(** *** C30: storage *)

(** whatever is called in whatever order, in every build, no storage is freed twice and the
    caller's storage is never freed *)
Theorem C30_no_double_free : forall md history n len data,
  let r := arun md history (astart n len data) in
  r <> Fail DoubleFree /\
  forall s b, r = Ok s -> s_frees s b <= 1 /\ (b < n -> s_frees s b = 0).
Proof. exact no_double_free_thm. Qed.
Print Assumptions C30_no_double_free.
(** disciplined histories: every block the library allocated is either unfreed with exactly one
    owner or has been freed exactly once and has none; when all arrays are gone all are freed *)
Theorem C30_freed_exactly_once : forall md history n len data,
  disciplined_run md history (astart n len data) ->
  let r := arun md history (astart n len data) in
  (forall e, r = Fail e -> e = OutOfBounds \/ e = UseAfterFree) /\
  forall s, r = Ok s ->
    (forall b, allocated_block n s b ->
       (s_frees s b = 0 /\ exists o, owns s o b /\ forall o', owns s o' b -> o' = o) \/
       (s_frees s b = 1 /\ forall o, ~ owns s o b)) /\
    ((forall o, s_obj s o = None) -> forall b, allocated_block n s b -> s_frees s b = 1).
Proof. exact exactly_once_thm. Qed.
Print Assumptions C30_freed_exactly_once.
(** an owner can always read and write its elements; a write changes that element only *)
Theorem C30_owner_access : forall md history n len data s o a i x,
  disciplined_run md history (astart n len data) -> arun md history (astart n len data) = Ok s ->
  s_obj s (S o) = Some a -> a_alloc a = true -> i < a_size a ->
  astep md (OGet o i) s = Ok s /\
  exists s', astep md (OPut o i x) s = Ok s' /\ rd_elt s' (a_v a) i = inl (Some x) /\
    forall p j, (forall b off, a_v a = Some (b, off) -> forall off', p = Some (b, off') -> off' + j <> off + i) ->
      rd_elt s' p j = rd_elt s p j.
Proof. exact owner_access_thm. Qed.
Print Assumptions C30_owner_access.
(** assignment copies, between arrays in different storage *)
Theorem C30_assignment_copies : forall md history n len data s o src a A,
  disciplined_run md history (astart n len data) -> arun md history (astart n len data) = Ok s ->
  s_obj s (S o) = Some a -> s_obj s (S src) = Some A -> o <> src ->
  live_range s (a_v A) (a_size A) -> (a_size a = a_size A -> live_range s (a_v a) (a_size a)) ->
  block_of (a_v a) <> block_of (a_v A) ->
  exists s' a', astep md (OAssign o src) s = Ok s' /\ s_obj s' (S o) = Some a' /\ s_obj s' (S src) = Some A /\
    a_size a' = a_size A /\
    forall i, i < a_size A -> rd_elt s' (a_v a') i = rd_elt s (a_v A) i /\ rd_elt s' (a_v A) i = rd_elt s (a_v A) i.
Proof. exact assign_thm. Qed.
Print Assumptions C30_assignment_copies.
(** but assigning to an array a view of its own storage of another size reads freed storage *)
Theorem C30_self_view_refuted : forall md history n len data s o src b off a A,
  disciplined_run md history (astart n len data) -> arun md history (astart n len data) = Ok s ->
  s_obj s (S o) = Some a -> a_alloc a = true -> a_v a = Some (b, 0) ->
  s_obj s (S src) = Some A -> a_v A = Some (b, off) -> o <> src -> a_size a <> a_size A -> 0 < a_size A ->
  astep md (OAssign o src) s = Fail UseAfterFree.
Proof. exact self_view_thm. Qed.
Print Assumptions C30_self_view_refuted.
(** storage of an array that is held, or swapped, is never freed, whatever is called afterwards *)
Theorem C30_hold_leaks_refuted : forall md history n len data s o b rest s',
  arun md history (astart n len data) = Ok s -> owns s (S o) b ->
  arun md (OHold o :: rest) s = Ok s' -> s_frees s' b = 0.
Proof. exact hold_leaks_thm. Qed.
Print Assumptions C30_hold_leaks_refuted.
Theorem C30_swap_leaks_refuted : forall md history n len data s a b blk rest s',
  arun md history (astart n len data) = Ok s -> a <> b -> owns s (S a) blk -> (exists x, s_obj s (S b) = Some x) ->
  arun md (OSwap a b :: rest) s = Ok s' -> s_frees s' blk = 0.
Proof. exact swap_leaks_thm. Qed.
Print Assumptions C30_swap_leaks_refuted.
(** with NDEBUG a second Allocate loses the first block *)
Theorem C30_allocate_leaks_refuted : forall ah n1 n2 al rest s',
  arun (mkmode true ah) ([NewN 0 n1 al; OAllocate 0 n2 al] ++ rest) (astart 0 (fun _ => 0) (fun _ _ => None)) = Ok s' ->
  s_frees s' 0 = 0.
Proof. exact allocate_leaks_thm. Qed.
Print Assumptions C30_allocate_leaks_refuted.
(** an aligned array that was Set elsewhere and allocated again is freed with the wrong function *)
Theorem C30_wrong_free_refuted : forall md n p,
  arun md [NewN 0 (S n) true; OSet 0 p; OAllocate 0 (S n) false; ODestroy 0] (astart 1 (fun _ => S n) (fun _ _ => None)) = Fail WrongFree.
Proof. exact wrong_free_thm. Qed.
Print Assumptions C30_wrong_free_refuted.
(** destructors run outside the block: an empty aligned array (with the deleteAlign of Array.h), and an
    aligned array enlarged with Allocate in a checking build *)
Theorem C30_empty_aligned_refuted : forall nd,
  arun (mkmode nd false) [NewN 0 0 true; ODestroy 0] (astart 0 (fun _ => 0) (fun _ _ => None)) = Fail BadDestroy /\
  exists s, arun (mkmode nd true) [NewN 0 0 true; ODestroy 0] (astart 0 (fun _ => 0) (fun _ _ => None)) = Ok s /\ s_frees s 0 = 1.
Proof. exact empty_aligned_thm. Qed.
Print Assumptions C30_empty_aligned_refuted.
Theorem C30_grow_aligned_refuted : forall ah n k, 0 < n ->
  arun (mkmode false ah) [NewN 0 n true; OAllocate 0 (n + S k) true] (astart 0 (fun _ => 0) (fun _ _ => None)) = Fail BadDestroy.
Proof. exact grow_aligned_thm. Qed.
Print Assumptions C30_grow_aligned_refuted.
(** a disciplined history: two owners, a copy, a row view, assignment with a change of size,
    Reallocate, swap of the views, destruction of everything; blocks 1..4 freed once each *)
Definition h30 : list aop :=
  [NewN 0 3 false; NewN 1 2 true; OPut 0 0 7; OPut 0 1 8; OPut 0 2 9; NewCopy 2 0; NewPlus 3 0 1; OSwap 2 3;
   OGet 2 1; OAssign 1 0; OGet 1 2; OReallocate 0 5 true; ODestroy 1; ODestroy 2; ODestroy 0; ODestroy 3].
Example C30_case : disciplined_run (mkmode false false) h30 (astart 1 (fun _ => 4) (fun _ _ => None)) /\
  match arun (mkmode false false) h30 (astart 1 (fun _ => 4) (fun _ _ => None)) with
  | Ok s => s_next s = 5 /\ map (s_frees s) [0; 1; 2; 3; 4; 5] = [0; 1; 1; 1; 1; 0] /\ map (s_obj s) [0; 1; 2; 3; 4] = [None; None; None; None; None]
  | _ => False
  end.
Proof.
  split; [|cbv; auto].
  unfold h30. cbn [disciplined_run].
  repeat (split; [cbv; try (intros; congruence); repeat split; try lia; intros ? E; inversion E; reflexivity|intros s' E; vm_compute in E; injection E as <-]).
  exact I.
Qed.

(** *** C31: diagonals *)
Theorem C31_identity : forall (V : Type) (zero one : V) nx ny a i j, nx <= ny + 1 -> i < nx -> j < ny ->
  Identity zero one nx ny a (i * ny + j) = (if i =? j then one else zero).
Proof. exact @Identity_thm. Qed.
Print Assumptions C31_identity.
Theorem C31_add_scalar : forall (V : Type) (op : V -> V -> V) x nx ny a i j, nx <= ny + 1 -> i < nx -> j < ny ->
  array2_addscalar op x nx ny a (i * ny + j) = (if i =? j then op (a (i * ny + j)) x else a (i * ny + j)).
Proof. exact @addscalar2_thm. Qed.
Print Assumptions C31_add_scalar.
Theorem C31_nothing_else : forall (V : Type) (op : V -> V -> V) x (zero one : V) nx ny a k, nx * ny <= k ->
  array2_addscalar op x nx ny a k = a k /\ Identity zero one nx ny a k = a k.
Proof. exact @outside_thm. Qed.
Print Assumptions C31_nothing_else.
(** with more than ny+1 rows, element (ny+1,0) is taken for a diagonal element *)
Theorem C31_tall_identity_refuted : forall (V : Type) (zero one : V) nx ny a, 0 < ny -> ny + 1 < nx ->
  Identity zero one nx ny a ((ny + 1) * ny + 0) = one.
Proof. exact @Identity_wrong. Qed.
Print Assumptions C31_tall_identity_refuted.
Theorem C31_tall_add_refuted : forall (V : Type) (op : V -> V -> V) x nx ny a, 0 < ny -> ny + 1 < nx ->
  array2_addscalar op x nx ny a ((ny + 1) * ny + 0) = op (a ((ny + 1) * ny + 0)) x.
Proof. exact @addscalar_wrong. Qed.
Print Assumptions C31_tall_add_refuted.
(** array3: right on cubes; on a 3x3x1 array element (1,2,0) is changed *)
Theorem C31_array3_add_scalar : forall (V : Type) (op : V -> V -> V) x n a i j k, i < n -> j < n -> k < n ->
  let p := i * (n * n) + j * n + k in
  array3_addscalar op x n n n a p = (if (i =? j) && (j =? k) then op (a p) x else a p).
Proof. exact @addscalar3_thm. Qed.
Print Assumptions C31_array3_add_scalar.
Theorem C31_array3_refuted : forall (V : Type) (op : V -> V -> V) x a,
  array3_addscalar op x 3 3 1 a (1 * (3 * 1) + 2 * 1 + 0) = op (a 5) x.
Proof. exact @addscalar3_wrong. Qed.
Print Assumptions C31_array3_refuted.
Example C31_case : map (Identity 0 1 3 2 (fun _ => 9)) (seq 0 7) = [1; 0; 0; 1; 0; 0; 9] /\
  map (Identity 0 1 4 2 (fun _ => 9)) (seq 0 9) = [1; 0; 0; 1; 0; 0; 1; 0; 9].
Proof. split; reflexivity. Qed.

(** *** C32: aligned allocation *)

(** for every answer of malloc that is word aligned: p is aligned, p and the word before it lie in
    the block malloc returned, and free0 passes malloc's pointer to free *)
Theorem C32_posix_memalign : forall w malloc alignment size,
  (0 < w -> 0 < alignment -> 0 <= size -> alignment mod w = 0 -> Z.land alignment (alignment - 1) = 0 ->
  let p0 := malloc (size + alignment) in 0 <= p0 -> p0 mod w = 0 ->
  match posix_memalign0 w malloc alignment size with
  | EINVAL => False
  | ENOMEM => p0 = 0
  | Aligned p stored_at stored =>
      p mod alignment = 0 /\ p0 <= stored_at /\ stored_at + w <= p /\ p + size <= p0 + (size + alignment) /\
      free0 p stored = Some p0
  end)%Z.
Proof. exact memalign_thm. Qed.
Print Assumptions C32_posix_memalign.
Theorem C32_bad_alignment_rejected : forall w malloc alignment size, (0 < w)%Z ->
  (alignment mod w <> 0 \/ Z.land alignment (alignment - 1) <> 0)%Z -> posix_memalign0 w malloc alignment size = EINVAL.
Proof. exact memalign_einval. Qed.
Print Assumptions C32_bad_alignment_rejected.
(** alignment 0 is accepted, yields NULL and writes before it *)
Theorem C32_zero_alignment_refuted : forall w malloc size, (0 < w)%Z -> malloc size <> 0%Z ->
  posix_memalign0 w malloc 0 size = Aligned 0 (- w) (malloc size).
Proof. exact memalign_zero. Qed.
Print Assumptions C32_zero_alignment_refuted.
(** ComplexAlign(n,size) and doubleAlign(n,size): n aligned, pairwise disjoint buffers of [size]
    elements inside the one allocation, the first at its start *)
Theorem C32_buffers : forall sz ALIGNMENT n size B,
  (0 < sz -> 0 < ALIGNMENT -> 0 < n -> 0 < size -> B mod ALIGNMENT = 0 ->
  let buf := ComplexAlign_buf sz ALIGNMENT size B in
  let top := B + sz * ComplexAlign_len ALIGNMENT n size in
  (forall i, 0 <= i < n -> buf i mod ALIGNMENT = 0 /\ B <= buf i /\ buf i + sz * size <= top) /\
  (forall i j, 0 <= i < j -> j < n -> buf i + sz * size <= buf j) /\ buf 0 = B)%Z.
Proof. exact buffers_thm. Qed.
Print Assumptions C32_buffers.
(** align(n): the least count >= n whose size in bytes is a multiple of ALIGNMENT *)
Theorem C32_align : forall ALIGNMENT n, (0 < ALIGNMENT -> ALIGNMENT mod 16 = 0 -> 0 <= n ->
  let a := align ALIGNMENT n in
  n <= a /\ (16 * a) mod ALIGNMENT = 0 /\ (forall b, n <= b -> (16 * b) mod ALIGNMENT = 0 -> a <= b))%Z.
Proof. exact align_thm. Qed.
Print Assumptions C32_align.
(** deleteAlign destroys each element exactly once (align.h; Array.h for len > 0) *)
Theorem C32_delete : forall len k, (In k (alignh_destroys len) <-> (0 <= k < Z.of_nat len)%Z) /\ NoDup (alignh_destroys len).
Proof. exact destroys_thm. Qed.
Print Assumptions C32_delete.
Theorem C32_delete_Array_h : forall len k, (0 < len < 2 ^ 64 -> (arrayh_destroys_index len k <-> 0 <= k < len))%Z.
Proof. exact arrayh_destroys_thm. Qed.
Print Assumptions C32_delete_Array_h.
Theorem C32_delete_empty_refuted : arrayh_destroys_index 0 (2 ^ 64 - 1).
Proof. exact arrayh_zero. Qed.
Print Assumptions C32_delete_empty_refuted.
Example C32_case : posix_memalign0 8 (fun _ => 4104)%Z 32 100 = Aligned 4128 4120 4104 /\
  map (ComplexAlign_buf 16 32 40 4128) [0; 1; 2]%Z = [4128; 5152; 6176]%Z /\ ComplexAlign_len 32 3 40 = 168%Z /\ align 32 5 = 6%Z.
Proof. repeat split. Qed.

(** *** C43: whole-array operations *)
Theorem C43_elementwise : forall (V : Type) (op : V -> V -> V) (x : V) (b : nat -> V) size a k,
  Load x size a k = (if k <? size then x else a k) /\
  LoadP b size a k = (if k <? size then b k else a k) /\
  opArray op b size a k = (if k <? size then op (a k) (b k) else a k) /\
  opScalar op x size a k = (if k <? size then op (a k) x else a k).
Proof. exact @elementwise_thm. Qed.
Print Assumptions C43_elementwise.
Theorem C43_min_max : forall (V : Type) (lt : V -> V -> bool) size (a : nat -> V),
  (forall x y z, lt x y = false -> lt y z = false -> lt x z = false) -> (forall x y, lt x y = true -> lt y x = false) ->
  (forall x, lt x x = false) ->
  (size = 0 -> Min lt size a = None /\ Max lt size a = None) /\
  (0 < size ->
   (exists m, Min lt size a = Some m /\ (exists i, i < size /\ m = a i) /\ forall i, i < size -> lt (a i) m = false) /\
   (exists m, Max lt size a = Some m /\ (exists i, i < size /\ m = a i) /\ forall i, i < size -> lt m (a i) = false)).
Proof. exact @Min_thm. Qed.
Print Assumptions C43_min_max.
Example C43_case : Min Nat.ltb 4 (fun i => nth i [5; 3; 8; 3] 0) = Some 3 /\ Max Nat.ltb 4 (fun i => nth i [5; 3; 8; 3] 0) = Some 8 /\
  map (opArray Nat.add (fun i => 10 * i) 2 (fun i => i)) [0; 1; 2] = [0; 11; 2].
Proof. repeat split. Qed.

(** *** C44: shapes in assignment, swaparray *)
Theorem C44_Array3_accepts : forall nx ny nz a1 a2 a3,
  Array3_assign_array3_accepts nx ny nz 0 0 0 a1 a2 a3 = true <-> (nx = a1 /\ ny = a2 /\ nz = a3).
Proof. exact Array3_accepts_thm. Qed.
Print Assumptions C44_Array3_accepts.
Theorem C44_Array4_accepts : forall nx ny nz nw ox oy oz ow a1 a2 a3 a4 b1 b2 b3 b4,
  Array4_assign_Array4_accepts nx ny nz nw ox oy oz ow a1 a2 a3 a4 b1 b2 b3 b4 = true <->
  (nx = a1 /\ ny = a2 /\ nz = a3 /\ nw = a4 /\ ox = b1 /\ oy = b2 /\ oz = b3 /\ ow = b4).
Proof. exact Array4_accepts_thm. Qed.
Print Assumptions C44_Array4_accepts.
Theorem C44_Array5_accepts : forall nx ny nz nw nv a1 a2 a3 a4 a5,
  Array5_assign_array5_accepts nx ny nz nw nv 0 0 0 0 0 a1 a2 a3 a4 a5 = true <->
  (nx = a1 /\ ny = a2 /\ nz = a3 /\ nw = a4 /\ nv = a5).
Proof. exact Array5_accepts_thm. Qed.
Print Assumptions C44_Array5_accepts.
(** Array4 = array4 of the same shape is accepted only when all four extents are equal *)
Theorem C44_Array4_array4_refuted : forall nx ny nz nw, ~ (nx = ny /\ nx = nz /\ nx = nw) ->
  Array4_assign_array4_accepts nx ny nz nw 0 0 0 0 nx ny nz nw = false.
Proof. exact Array4_array4_thm. Qed.
Print Assumptions C44_Array4_array4_refuted.
(** swaparray exchanges two array1 objects (pointer and size) without moving data *)
Theorem C44_swap : forall md s a b xa xb, a <> b -> s_obj s (S a) = Some xa -> s_obj s (S b) = Some xb ->
  exists s' ya yb, astep md (OSwap a b) s = Ok s' /\ s_obj s' (S a) = Some ya /\ s_obj s' (S b) = Some yb /\
    a_v ya = a_v xb /\ a_size ya = a_size xb /\ a_v yb = a_v xa /\ a_size yb = a_size xa /\ s_data s' = s_data s.
Proof. exact swap_exchanges_thm. Qed.
Print Assumptions C44_swap.
(** array3 arrays of the same shape are exchanged; of different shapes they keep their old extents *)
Theorem C44_swap_array3 : forall A B nd i j k, t_nx A = t_nx B -> t_ny A = t_ny B -> t_nz A = t_nz B ->
  arr3_at nd (fst (swaparray3 A B)) i j k = arr3_at nd B i j k /\ arr3_at nd (snd (swaparray3 A B)) i j k = arr3_at nd A i j k.
Proof. exact swap3_thm. Qed.
Print Assumptions C44_swap_array3.
Theorem C44_swap_array3_refuted : forall A B, (0 < t_nx A -> 0 < t_ny A -> 0 < t_nz A -> t_nx A <= t_nx B -> t_ny A <= t_ny B -> t_nz B > t_nz A -> t_ny A > 1 ->
  exists i j k, in_box [t_nx B; t_ny B; t_nz B] [0; 0; 0] [i; j; k] /\
    arr3_at true (fst (swaparray3 A B)) i j k <> arr3_at true B i j k)%Z.
Proof. exact swap3_wrong. Qed.
Print Assumptions C44_swap_array3_refuted.
Example C44_case : Array4_assign_array4_accepts 2 3 4 5 0 0 0 0 2 3 4 5 = false /\
  Array4_assign_Array4_accepts 2 3 4 5 0 1 0 (-1) 2 3 4 5 0 1 0 (-1) = true /\
  arr3_at true (fst (swaparray3 (mkarr3 0 12 2 3 2) (mkarr3 50 24 2 3 4))) 0 1 0 = At 52 /\
  arr3_at true (mkarr3 50 24 2 3 4) 0 1 0 = At 54.
Proof. repeat split. Qed.
