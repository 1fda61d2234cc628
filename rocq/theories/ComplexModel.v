(** Model of the rest of Complex.h (CNum.v has the basic operators) and of the SSE2 branch of
    cmult-sse2.h.  [double] is idealised as R; libm functions are the real functions. *)
From Coq Require Import Reals ZArith Bool.
From Verif Require Import CNum VecModel.
Local Open Scope R_scope.

(** *** mixed operators *)
Definition Cadd_d (x : C) (y : R) : C := mkC (re x + y) (im x).                 (* Complex.h:161-164 *)
Definition d_addC (x : R) (y : C) : C := mkC (x + re y) (im y).                 (* 166-169 *)
Definition Csub_d (x : C) (y : R) : C := mkC (re x - y) (im x).                 (* 176-179 *)
Definition d_subC (x : R) (y : C) : C := mkC (x - re y) (- im y).               (* 181-184 *)
Definition multconj (x y : C) : C :=                                            (* 191-194 *)
  mkC (re x * re y + im x * im y) (im x * re y - re x * im y).
Definition Cmul_d (x : C) (y : R) : C := mkC (re x * y) (im x * y).             (* 196-199 *)
Definition d_mulC (x : R) (y : C) : C := mkC (x * re y) (x * im y).             (* 201-204 *)
Definition Cdiv_d (x : C) (y : R) : C := mkC (re x / y) (im x / y).             (* 214-217 *)
Definition d_divC (x : R) (y : C) : C :=                                        (* 219-224 *)
  let factor := 1 / (re y * re y + im y * im y) in
  mkC (x * re y * factor) (- x * im y * factor).

(** *** comparisons, 126-144 *)
Definition Reqb (x y : R) : bool := if Req_EM_T x y then true else false.
Definition Ceqb (x y : C) : bool := Reqb (re x) (re y) && Reqb (im x) (im y).       (* 126-129 *)
Definition Ceqb_d (x : C) (y : R) : bool := Reqb (im x) 0 && Reqb (re x) y.         (* 131-134 *)
Definition Cneqb (x y : C) : bool := negb (Reqb (re x) (re y)) || negb (Reqb (im x) (im y)).  (* 136-139 *)
Definition Cneqb_d (x : C) (y : R) : bool := negb (Reqb (im x) 0) || negb (Reqb (re x) y).    (* 141-144 *)

(** *** functions *)
Definition abs2 (x : C) : R := re x * re x + im x * im x.                        (* 236-239 *)
Definition cabs (x : C) : R := sqrt (abs2 x).                                    (* 241-244 *)
(** libm atan2 *)
Definition atan2 (y x : R) : R :=
  if Rlt_dec 0 x then atan (y / x)
  else if Rlt_dec x 0 then (if Rle_dec 0 y then atan (y / x) + PI else atan (y / x) - PI)
  else if Rlt_dec 0 y then PI / 2 else if Rlt_dec y 0 then - (PI / 2) else 0.
Definition arg (x : C) : R := if Reqb (im x) 0 then 0 else atan2 (im x) (re x).  (* 246-249 *)
Definition csqrt (x : C) : C :=                                                  (* 252-264 *)
  let mag := cabs x in
  if Reqb mag 0 then mkC 0 0
  else if Rlt_dec 0 (re x) then
    let r := sqrt (/ 2 * (mag + re x)) in mkC r (/ 2 * im x / r)
  else
    let i := sqrt (/ 2 * (mag - re x)) in
    let i := if Rlt_dec (im x) 0 then - i else i in
    mkC (/ 2 * im x / i) i.
Definition polar (r t : R) : C := mkC (r * cos t) (r * sin t).                   (* 266-269 *)
Definition realProduct (x y : C) : R := re x * re y + im x * im y.               (* 277-280 *)
Definition cexp (z : C) : C := d_mulC (exp (re z)) (expi (im z)).                (* 297-300 *)
Definition pow (z w : C) : C :=                                                  (* 302-311 *)
  let u := re w in let v := im w in
  if Ceqb_d z 0 then (if Ceqb_d w 0 then RtoC 1 else RtoC 0) else
  let logr := / 2 * ln (abs2 z) in
  let th := arg z in
  let phi := logr * v + th * u in
  d_mulC (exp (logr * u - th * v)) (mkC (cos phi) (sin phi)).
Definition pow_d (z : C) (u : R) : C :=                                          (* 313-319 *)
  if Ceqb_d z 0 then (if Reqb u 0 then RtoC 1 else RtoC 0) else
  let logr := / 2 * ln (abs2 z) in
  let theta := u * arg z in
  d_mulC (exp (logr * u)) (mkC (cos theta) (sin theta)).

(** *** compound assignment: programs on memory.  A Complex at address a has re at a and im
    at a+1; the argument y may be the object itself. *)
Definition dmem := nat -> R.
Definition wr (a : nat) (v : R) (m : dmem) : dmem := fun b => if Nat.eqb b a then v else m b.
Definition addeqC (x y : nat) (m : dmem) : dmem :=                               (* 74-77 *)
  let m := wr x (m x + m y) m in wr (S x) (m (S x) + m (S y)) m.
Definition addeqd (x : nat) (y : R) (m : dmem) : dmem := wr x (m x + y) m.       (* 79-82 *)
Definition subeqC (x y : nat) (m : dmem) : dmem :=                               (* 84-87 *)
  let m := wr x (m x - m y) m in wr (S x) (m (S x) - m (S y)) m.
Definition subeqd (x : nat) (y : R) (m : dmem) : dmem := wr x (m x - y) m.       (* 89-92 *)
Definition muleqC (x y : nat) (m : dmem) : dmem :=                               (* 94-100 *)
  let r := m x * m y - m (S x) * m (S y) in
  let m := wr (S x) (m x * m (S y) + m (S x) * m y) m in
  wr x r m.
Definition muleqd (x : nat) (y : R) (m : dmem) : dmem :=                         (* 102-105 *)
  let m := wr x (m x * y) m in wr (S x) (m (S x) * y) m.
Definition diveqC (x y : nat) (m : dmem) : dmem :=                               (* 107-115 *)
  let t2 := 1 / (m y * m y + m (S y) * m (S y)) in
  let t1 := t2 * m y in
  let t2 := t2 * m (S y) in
  let t3 := m x in
  let m := wr x (m x * t1) m in
  let m := wr x (m x + m (S x) * t2) m in
  let m := wr (S x) (m (S x) * t1) m in
  wr (S x) (m (S x) - t3 * t2) m.
Definition diveqd (x : nat) (y : R) (m : dmem) : dmem :=                         (* 117-122 *)
  let m := wr x (m x / y) m in wr (S x) (m (S x) / y) m.

(** *** SSE2 branch of cmult-sse2.h.  A __m128d has lanes 0 (low) and 1 (high); a Complex in
    memory is loaded as (re,im).  Intrinsics as documented by Intel. *)
Definition mm_unpacklo (a b : Vec) : Vec := mkC (re a) (re b).
Definition mm_unpackhi (a b : Vec) : Vec := mkC (im a) (im b).
Definition mm_shuffle (a b : Vec) (imm : Z) : Vec :=
  mkC (if Z.testbit imm 0 then im a else re a) (if Z.testbit imm 1 then im b else re b).
(** _mm_xor_pd with a constant: the only bit patterns whose effect is a real function are 0
    and the sign bit; anything else is [None] *)
Definition lane_bits (u : nat -> Z) (i : nat) : Z := (u (2 * i)%nat + 2 ^ 32 * u (2 * i + 1)%nat)%Z.
Definition xor_lane (bits : Z) (x : R) : option R :=
  if (bits =? 0)%Z then Some x else if (bits =? 2 ^ 63)%Z then Some (- x) else None.
Definition mm_xor (u : nat -> Z) (z : Vec) : option Vec :=
  match xor_lane (lane_bits u 0) (re z), xor_lane (lane_bits u 1) (im z) with
  | Some a, Some b => Some (mkC a b) | _, _ => None end.
(** convolve.cc:15-21 *)
Definition sse2_pm (k : nat) : Z := match k with 3 => 0x80000000%Z | _ => 0%Z end.
Definition sse2_mm (k : nat) : Z := match k with 1 | 3 => 0x80000000%Z | _ => 0%Z end.
Definition sse_neg (a : Vec) : option Vec := mm_xor sse2_mm a.                   (* cmult-sse2.h:40-43 *)
Definition sse_UNPACKL (z w : Vec) : Vec := mm_unpacklo z w.                     (* 77-80 *)
Definition sse_UNPACKH (z w : Vec) : Vec := mm_unpackhi z w.                     (* 83-86 *)
Definition sse_FLIP (z : Vec) : Vec := mm_shuffle z z 1.                         (* 89-92 *)
Definition sse_CONJ (z : Vec) : option Vec := mm_xor sse2_pm z.                  (* 110-113 *)
Definition sse_ZMULTI (z : Vec) : option Vec :=                                  (* 116-119 *)
  match sse_neg z with Some n => Some (mm_shuffle n z 1) | None => None end.
(** other portable helpers: 197-205, 212-226 *)
Definition REFL (z : Vec) : Vec := mkC (- re z) (im z).
Definition LOADFLIP (z : C) : Vec := mkC (im z) (re z).
