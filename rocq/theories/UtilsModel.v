(** Model of the size helpers of fftwpp: utils.h, align.h, convolve.cc.
    Machine words (size_t, 64 bits) are [N] reduced modulo 2^64 after every arithmetic
    operation that can exceed the word.  A C++ loop whose termination is not structural
    runs on explicit fuel; [None] = "still running when the fuel ran out". *)
From Coq Require Import NArith.
Local Open Scope N_scope.

Definition W64 : N := 2 ^ 64.

(** size_t arithmetic wraps (C++ unsigned overflow). *)
Definition w64 (x : N) : N := x mod W64.
Definition mul64 (x y : N) : N := w64 (x * y).
Definition add64 (x y : N) : N := w64 (x + y).
(** [--n] on size_t: 0 wraps to 2^64-1. *)
Definition pred64 (x : N) : N := w64 (x + (W64 - 1)).

(** align.h:97-100  ceilquotient(a,b) = (a+b-1)/b, with the wrap of a+b-1.
    (b = 0 is a division by zero in C++; callers here pass b >= 1.) *)
Definition ceilquotient (a b : N) : N := add64 a (pred64 b) / b.

(** one step of utils.h:199-204:  n |= n >> k *)
Definition smear (k n : N) : N := N.lor n (N.shiftr n k).

(** utils.h:197-206 *)
Definition ceilpow2 (n : N) : N :=
  let n := pred64 n in
  let n := smear 1 n in
  let n := smear 2 n in
  let n := smear 4 n in
  let n := smear 8 n in
  let n := smear 16 n in
  let n := smear 32 n in
  add64 n 1.

(** utils.h:36-47, the [while(true)] loop of pow with T=size_t. *)
Fixpoint pow_loop (fuel : nat) (x r y : N) : option N :=
  match fuel with
  | O => None
  | S k =>
      let r := if N.odd y then mul64 r x else r in   (* if(y & 1) r *= x *)
      let y := N.shiftr y 1 in                       (* y >>= 1 *)
      if y =? 0 then Some r
      else pow_loop k (mul64 x x) r y                (* x *= x *)
  end.

Definition pow (fuel : nat) (x y : N) : option N :=
  if y =? 0 then Some 1 else if x =? 0 then Some 0 else pow_loop fuel x 1 y.

(** utils.h:215-219:  while(n > x) {x *= x; l=u; u *= 2;} *)
Fixpoint ceilpow_grow (fuel : nat) (n x u l : N) : option (N * N * N) :=
  match fuel with
  | O => None
  | S k => if x <? n then ceilpow_grow k n (mul64 x x) (mul64 u 2) u
           else Some (x, u, l)
  end.

(** utils.h:222-228: bisection *)
Fixpoint ceilpow_bisect (fuel : nat) (p n l u : N) : option N :=
  match fuel with
  | O => None
  | S k =>
      if l <? u then
        let i := N.shiftr (add64 l u) 1 in
        match pow k p i with
        | None => None
        | Some pi => if pi <? n then ceilpow_bisect k p n (add64 i 1) u
                     else ceilpow_bisect k p n l i
        end
      else Some u
  end.

(** utils.h:210-230 *)
Definition ceilpow (fuel : nat) (p n : N) : option N :=
  match ceilpow_grow fuel n p 1 0 with
  | None => None
  | Some (x, u, l) =>
      if n =? x then Some n
      else match ceilpow_bisect fuel p n l u with
           | None => None
           | Some u => pow fuel p u
           end
  end.

(** convolve.cc:115-116: innermost loop  for(nk=nj; nk < N; nk *= 3) *)
Fixpoint nfs_k (fuel : nat) (m nk N0 : N) : option N :=
  match fuel with
  | O => None
  | S f => if nk <? N0
           then nfs_k f m (mul64 nk 3)
                  (N.min N0 (mul64 nk (ceilpow2 (ceilquotient m nk))))
           else Some N0
  end.

(** convolve.cc:114: for(nj=ni; nj < N; nj *= 5) *)
Fixpoint nfs_j (fuel : nat) (m nj N0 : N) : option N :=
  match fuel with
  | O => None
  | S f => if nj <? N0
           then match nfs_k f m nj N0 with
                | None => None
                | Some N1 => nfs_j f m (mul64 nj 5) N1
                end
           else Some N0
  end.

(** convolve.cc:113: for(ni=1; ni < N; ni *= 7) *)
Fixpoint nfs_i (fuel : nat) (m ni N0 : N) : option N :=
  match fuel with
  | O => None
  | S f => if ni <? N0
           then match nfs_j f m ni N0 with
                | None => None
                | Some N1 => nfs_i f m (mul64 ni 7) N1
                end
           else Some N0
  end.

(** convolve.cc:108-119 *)
Definition nextfftsize (fuel : nat) (m : N) : option N :=
  let N0 := ceilpow2 m in
  if m =? N0 then Some m else nfs_i fuel m 1 N0.

(** convolve.cc:139-152 *)
Definition nextpuresize (fuel : nat) (m : N) : option N :=
  let M := ceilpow2 m in
  if m =? M then Some m else
  match ceilpow fuel 3 m with
  | None => None
  | Some c3 =>
      let M := N.min M c3 in
      if m =? M then Some m else
      match ceilpow fuel 5 m with
      | None => None
      | Some c5 =>
          let M := N.min M c5 in
          if m =? M then Some m else
          match ceilpow fuel 7 m with
          | None => None
          | Some c7 => Some (N.min M c7)
          end
      end
  end.

(** convolve.cc:155-157 *)
Definition ispow2 (m : N) : bool := N.land m (pred64 m) =? 0.

(** convolve.cc:160-172 *)
Definition ispure (fuel : nat) (m : N) : option bool :=
  if ispow2 m then Some true else
  match ceilpow fuel 3 m with
  | None => None
  | Some c3 =>
      if m =? c3 then Some true else
      match ceilpow fuel 5 m with
      | None => None
      | Some c5 =>
          if m =? c5 then Some true else
          match ceilpow fuel 7 m with
          | None => None
          | Some c7 => Some (m =? c7)
          end
      end
  end.

(** utils.h:232-252: paddings for complex, Hermitian and ternary convolutions. *)
Definition cpadding (m : N) : N := ceilpow2 (pred64 (mul64 2 m)).
Definition hpadding (m : N) : N := ceilpow2 (pred64 (pred64 (mul64 3 m))).
Definition tpadding (m : N) : N := ceilpow2 (pred64 (pred64 (pred64 (mul64 4 m)))).
