(** Model of cmult-sse2.h (both the SSE2 branch and the portable branch compute these
    functions of the two lanes) and of the compound operators used by the kernels.
    A Vec is a pair of doubles (x,y); LOAD/STORE of a Complex reinterprets (re,im). *)
From Coq Require Import Reals Ring.
From Verif Require Import CNum.
Local Open Scope R_scope.

Definition Vec := C.                                            (* cmult-sse2.h:29, 128-155 *)
Definition vadd (a b : Vec) : Vec := mkC (re a + re b) (im a + im b).  (* 45-48, 162-165 *)
Definition vsub (a b : Vec) : Vec := mkC (re a - re b) (im a - im b).  (* 50-53, 167-170 *)
Definition vmul (a b : Vec) : Vec := mkC (re a * re b) (im a * im b).  (* 55-58, 172-175 *)
Definition vneg (a : Vec) : Vec := mkC (- re a) (- im a).              (* 40-43, 157-160 *)
Definition UNPACKL (z w : Vec) : Vec := mkC (re z) (re w).             (* 77-80, 177-180 *)
Definition UNPACKH (z w : Vec) : Vec := mkC (im z) (im w).             (* 83-86, 182-185 *)
Definition FLIP (z : Vec) : Vec := mkC (im z) (re z).                  (* 89-92, 187-190 *)
Definition CONJ (z : Vec) : Vec := mkC (re z) (- im z).                (* 110-113, 192-195 *)
Definition LOAD2 (x : R) : Vec := mkC x x.                             (* 94-97, 202-205 *)
Definition ZMULTI (z : Vec) : Vec := mkC (- im z) (re z).              (* 116-119, 218-221 *)
(** 251-254 *)
Definition ZMULT (z w : Vec) : Vec :=
  vadd (vmul (UNPACKL z z) w) (vmul (UNPACKH (vneg z) z) (FLIP w)).
(** 257-260 *)
Definition ZCMULT (z w : Vec) : Vec :=
  vadd (vmul (UNPACKL z z) w) (vmul (UNPACKH z (vneg z)) (FLIP w)).
(** 263-266: ZMULT(z,I*w) *)
Definition ZMULTI2 (z w : Vec) : Vec :=
  vsub (vmul (UNPACKL (vneg z) z) (FLIP w)) (vmul (UNPACKH z z) w).
(** 269-272: ZMULT(CONJ(z),I*w) *)
Definition ZCMULTI (z w : Vec) : Vec :=
  vadd (vmul (UNPACKL (vneg z) z) (FLIP w)) (vmul (UNPACKH z z) w).
(** 275-278: ZMULT(z,w)+ZCMULT(z,v) *)
Definition ZMULT2 (z w v : Vec) : Vec :=
  vsub (vmul (UNPACKL z z) (vadd w v)) (vmul (UNPACKH z (vneg z)) (FLIP (vsub w v))).
(** 281-284: ZMULT(z,w) given x=(z.re,z.re), y=(z.im,-z.im) *)
Definition ZMULTxy (x y w : Vec) : Vec := vsub (vmul x w) (vmul y (FLIP w)).
(** 287-291 *)
Definition ZMULT2xy (x y w v : Vec) : Vec :=
  vsub (vmul x (vadd w v)) (vmul y (FLIP (vsub w v))).
(** 294-297: ZMULT(z,I*w) given x=(z.re,-z.re), y=(z.im,z.im) *)
Definition ZMULTIxy (x y w : Vec) : Vec := vsub (FLIP (vmul x w)) (vmul y w).
