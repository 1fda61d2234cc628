From Coq Require Import Reals Ring.
From Verif Require Import CNum VecModel.
Local Open Scope C_scope.

Ltac vec := apply C_ext; unfold ZMULT, ZCMULT, ZMULTI2, ZCMULTI, ZMULT2, ZMULTxy, ZMULT2xy, ZMULTIxy,
   ZMULTI, vadd, vsub, vmul, vneg, UNPACKL, UNPACKH, FLIP, CONJ, LOAD2, Cconj, Ci; simpl; try ring.

Lemma vadd_eq a b : vadd a b = a + b. Proof. vec. Qed.
Lemma vsub_eq a b : vsub a b = a - b. Proof. vec. Qed.
Lemma CONJ_eq a : CONJ a = Cconj a. Proof. vec. Qed.
Lemma ZMULTI_eq a : ZMULTI a = Ci * a. Proof. vec. Qed.
Lemma ZMULT_eq z w : ZMULT z w = z * w. Proof. vec. Qed.
Lemma ZCMULT_eq z w : ZCMULT z w = Cconj z * w. Proof. vec. Qed.
Lemma ZMULTI2_eq z w : ZMULTI2 z w = z * (Ci * w). Proof. vec. Qed.
Lemma ZCMULTI_eq z w : ZCMULTI z w = Cconj z * (Ci * w). Proof. vec. Qed.
Lemma ZMULT2_eq z w v : ZMULT2 z w v = z * w + Cconj z * v. Proof. vec. Qed.
Lemma ZMULTxy_eq z w : ZMULTxy (UNPACKL z z) (UNPACKH z (vneg z)) w = z * w. Proof. vec. Qed.
Lemma ZMULTxy_conj_eq z w : ZMULTxy (UNPACKL z z) (UNPACKH (vneg z) z) w = Cconj z * w. Proof. vec. Qed.
Lemma ZMULT2xy_eq z w v : ZMULT2xy (UNPACKL z z) (UNPACKH z (vneg z)) w v = z * w + Cconj z * v.
Proof. vec. Qed.
Lemma ZMULTIxy_eq z w : ZMULTIxy (UNPACKL z (vneg z)) (UNPACKH z z) w = z * (Ci * w). Proof. vec. Qed.

(** The pair (Zeta*f, conj(Zeta)*f) computed with two real-lane products. *)
Lemma pair_plus z f :
  vadd (vmul z (UNPACKL f f)) (ZMULTI (vmul z (UNPACKH f f))) = z * f.
Proof. vec. Qed.
Lemma pair_minus z f :
  CONJ (vsub (vmul z (UNPACKL f f)) (ZMULTI (vmul z (UNPACKH f f)))) = Cconj z * f.
Proof. vec. Qed.
Lemma pair2_plus z w f g :
  vadd (vadd (vmul z (UNPACKL f f)) (vmul w (UNPACKL g g)))
       (ZMULTI (vadd (vmul z (UNPACKH f f)) (vmul w (UNPACKH g g)))) = z * f + w * g.
Proof. vec. Qed.
Lemma pair2_minus z w f g :
  CONJ (vsub (vadd (vmul z (UNPACKL f f)) (vmul w (UNPACKL g g)))
       (ZMULTI (vadd (vmul z (UNPACKH f f)) (vmul w (UNPACKH g g))))) = Cconj z * f + Cconj w * g.
Proof. vec. Qed.
