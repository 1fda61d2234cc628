(** Model of the parameter search of the padded transforms: fftBase::OptBase
    (convolve.h:156-216, convolve.cc:232-454) with the Opt classes of fftPad, fftPadCentered,
    fftPadHermitian and fftPadReal, and the "normal entry point" constructors that use it.
    size_t arithmetic is [N] modulo 2^64 (UtilsModel).  The wall clock is an oracle: the k-th
    timing of a run returns [clock k].  Not modelled: messages on cout/cerr. *)
From Coq Require Import NArith ZArith List Bool.
From Verif Require Import UtilsModel.
Import ListNotations.
Local Open Scope N_scope.

(** Result of a piece of code: a value; a crash (division by zero, call through a null function
    pointer); [exit(-1)]; or still running when the fuel ran out. *)
Inductive out (A : Type) := Ret (a : A) | Crash | Stop | Hang.
Arguments Ret {A}. Arguments Crash {A}. Arguments Stop {A}. Arguments Hang {A}.
Definition bind {A B} (o : out A) (f : A -> out B) : out B :=
  match o with Ret a => f a | Crash => Crash | Stop => Stop | Hang => Hang end.
Definition lift {A} (o : option A) : out A := match o with Some a => Ret a | None => Hang end.
Notation "x <- o ; f" := (bind o (fun x => f)) (at level 61, o at next level, right associativity).

(** The four classes with an optimizer. *)
Inductive kind := KComplex | KCentered | KHermitian | KReal.

(** convolve.h:487, 600, 716, 828: the last argument of scan *)
Definition centered (k : kind) : bool :=
  match k with KCentered | KHermitian => true | _ => false end.

(** convolve.h:176, 840 *)
Definition isreal (k : kind) : bool := match k with KReal => true | _ => false end.

(** convolve.h:476-479 *)
Definition valid_pad (m p q n D S : N) : bool :=
  if q =? 1 then D =? 1
  else (D =? 1) || ((S =? 1) && (((D <? n) && (D mod 2 =? 0)) || (D =? n))).

(** convolve.h:490-492, 603-605, 719-721, 831-834.  (n-1 is a size_t subtraction.) *)
Definition valid (k : kind) (m p q n D S : N) : bool :=
  match k with
  | KComplex => valid_pad m p q n D S
  | KCentered => ((q =? 1) || (p mod 2 =? 0)) && valid_pad m p q n D S
  | KHermitian => ((D =? 1) && (q =? 1)) ||
                  ((D =? 2) && (p mod 2 =? 0) && ((p =? 2) || (S =? 1)))
  | KReal => ((n mod 2 =? 1) || ((p mod 2 =? 0) || (p <=? 2))) &&
             ((q mod 2 =? 1) || (m mod 2 =? 0)) &&
             ((D =? 1) ||
              ((S =? 1) && (((D <? pred64 n / 2) && (D mod 2 =? 0)) || (D =? pred64 n / 2))))
  end.

(** convolve.h:494-496, 607-609, 723-725, 836-838 *)
Definition maxD (k : kind) (n : N) : N :=
  match k with KReal => if 2 <? n then pred64 n / 2 else 1 | _ => n end.

(** convolve.cc:387-394.  Division by zero crashes. *)
Definition parameters (L M m : N) (c : bool) : out (N * N * N) :=
  if m =? 0 then Crash else
  let p := ceilquotient L m in
  let P := if (c && (p =? 2 * (p / 2))) || (p =? 2) then p / 2 else p in
  let Pm := mul64 P m in
  if Pm =? 0 then Crash else
  let n := ceilquotient M Pm in
  Ret (p, n, mul64 P n).

(** What the constructor is given: the class, L, M, C, S, Explicit, and from the Application
    the forced D (0: free) and I (-1: free).  The forced m is passed separately, because
    optloop changes it through a reference. *)
Record cfg := mkcfg {
  kd : kind; cL : N; cM : N; cC : N; cS0 : N; cExpl : bool; appD : N; appI : Z }.

(** convolve.h:228, 239: S(S == 0 ? C : S); the Hermitian class has S = C (convolve.h:716, 736) *)
Definition cS (g : cfg) : N :=
  match kd g with KHermitian => cC g | _ => if cS0 g =? 0 then cC g else cS0 g end.

(** convolve.cc:464-475: true when it does not exit *)
Definition checkParameters (g : cfg) (M : N) : bool := (cL g <=? M) && (cC g <=? cS g).

(** convolve.cc:477-485 (the exit of common()) *)
Definition common (g : cfg) (M m : N) : out (N * N * N) :=
  t <- parameters (cL g) M m (centered (kd g));
  let '(p, n, q) := t in
  if mul64 q m <? M then Stop else Ret (p, n, q).

(** The constructor with given m, D, inplace (convolve.h:522-531, 634-645, 746-755, 866-877),
    as far as its exits. *)
Definition fixed_pad (g : cfg) (M m D : N) : out (N * N * N) :=
  if checkParameters g M then
    t <- parameters (cL g) M m (centered (kd g));
    let '(p, n, q) := t in
    if (1 <? q) && negb (valid (kd g) m p q n D (cS g)) then Stop else common g M m
  else Stop.

(** A measured time: a double is an integer multiple of 2^-1074; None is a NaN. *)
Definition time := option Z.
(** DBL_MAX in units of 2^-1074 *)
Definition DBL_MAX : Z := ((2 ^ 53 - 1) * 2 ^ 2045)%Z.
Definition tlt (t : time) (T : Z) : bool := match t with Some z => (z <? T)%Z | None => false end.

Definition cand := (N * N * bool)%type.   (* m, D, inplace *)

(** The fields of OptBase (convolve.h:158-166) except mForced and DForced (passed below); mlist is
    kept with its back() first, so that the reverse iteration of scan reads it front to back.
    Ghost fields: [seen] the valid candidates met without timing, [timed] the timings made,
    [emptyback] whether back() was ever called on the empty list. *)
Record st := mkst {
  counter : N; sm : N; sD : N; sI : bool; mlist : list N; sT : Z;
  seen : list cand; timed : list (cand * time); emptyback : bool }.

Section Search.
Variable clock : nat -> time.
Variable empty_back : N.     (* what mlist.back() yields on an empty list (undefined behaviour) *)
Variable g : cfg.
Variable fuel : nat.

(** Opt::time (convolve.h:498-503, 611-616, 727-731, 842-847): builds the pad, then measures. *)
Definition time_call (M m D : N) (s : st) : out time :=
  _ <- fixed_pad g M m D;
  Ret (clock (length (timed s))).

(** convolve.cc:354-385 *)
Definition check (M m p q n D : N) (inplace useTimer : bool) (s : st) : out st :=
  if valid (kd g) m p q n D (cS g) then
    if useTimer then
      t <- time_call M m D s;
      let tm := timed s ++ [((m, D, inplace), t)] in
      match t with
      | Some z =>
          if (z <? sT s)%Z
          then Ret (mkst (counter s) m D inplace (mlist s) z (seen s) tm (emptyback s))
          else Ret (mkst (counter s) (sm s) (sD s) (sI s) (mlist s) (sT s) (seen s) tm
                      (emptyback s))
      | None => Ret (mkst (counter s) (sm s) (sD s) (sI s) (mlist s) (sT s) (seen s) tm
                       (emptyback s))
      end
    else
      let c := add64 (counter s) 1 in
      let back := match mlist s with [] => empty_back | b :: _ => b end in
      let eb := match mlist s with [] => true | _ => emptyback s end in
      let ml := if negb (m =? back) then m :: mlist s else mlist s in
      let sn := seen s ++ [(m, D, inplace)] in
      if c =? 1 then Ret (mkst c m D inplace ml (sT s) sn (timed s) eb)
      else Ret (mkst c (sm s) (sD s) (sI s) ml (sT s) sn (timed s) eb)
  else Ret s.

(** convolve.cc:273-274: for(inplace=Istart; inplace < Istop; ++inplace) *)
Fixpoint iloop (f : nat) (M m p q n D : N) (useTimer : bool) (i Istop : N) (s : st) : out st :=
  match f with
  | O => Hang
  | S f' =>
      if i <? Istop then
        s <- check M m p q n D (negb (i =? 0)) useTimer s;
        iloop f' M m p q n D useTimer (add64 i 1) Istop s
      else Ret s
  end.

(** convolve.cc:267-269: conversion of the ptrdiff_t app.I to size_t *)
Definition z64 (z : Z) : N := Z.to_N (z mod 2 ^ 64)%Z.
Definition Istart : N :=
  if (appI g =? -1)%Z then (if (1 <? cC g) && negb (isreal (kd g)) then 1 else 0)
  else z64 (appI g).
Definition Istop : N := if (appI g =? -1)%Z then 2 else z64 (appI g + 1).

(** convolve.cc:271-275: for(D=Dstart; D < Dstop2; D *= 2) *)
Fixpoint dloop (f : nat) (M m p q n D Dstop Dstop2 : N) (useTimer : bool) (s : st) : out st :=
  match f with
  | O => Hang
  | S f' =>
      if D <? Dstop2 then
        let D := if Dstop <? D then Dstop else D in
        s <- iloop fuel M m p q n D useTimer Istart Istop s;
        dloop f' M m p q n (mul64 D 2) Dstop Dstop2 useTimer s
      else Ret s
  end.

(** convolve.cc:407 *)
Definition DForced : bool := 0 <? appD g.

(** the function pointer nextInnerSize; NULL is the default argument (convolve.h:209) *)
Inductive nextfun := FPow2 | FPure | FNull.
Definition callnext (nf : nextfun) (m : N) : out N :=
  match nf with
  | FPow2 => Ret (ceilpow2 m)
  | FPure => lift (nextpuresize fuel m)
  | FNull => Crash
  end.

(** convolve.cc:246-290: while(i < itmax) *)
Fixpoint oloop (f : nat) (inner : bool) (i m M itmax : N) (mForced useTimer : bool)
    (nf : nextfun) (s : st) : out (N * st) :=
  match f with
  | O => Hang
  | S f' =>
      if i <? itmax then
        t <- parameters (cL g) M m (centered (kd g));
        let '(p, n, q) := t in
        pure_p <- (if inner then lift (ispure fuel p) else Ret true);
        if inner && (((negb pure_p || (p =? q)) && negb mForced) ||
                     (centered (kd g) && negb (p mod 2 =? 0)))
        then
          m <- callnext nf (add64 m 1);
          oloop f' inner m m M itmax mForced useTimer nf s
        else
          let Dstart := if DForced then appD g else 1 in
          let Dstop := if DForced then appD g else maxD (kd g) n in
          let Dstop2 := mul64 2 Dstop in
          s <- dloop fuel M m p q n Dstart Dstop Dstop2 useTimer s;
          if mForced then Ret (m, s) else
          if inner then
            m <- callnext nf (add64 m 1);
            oloop f' inner m m M itmax mForced useTimer nf s
          else
            pure_m <- lift (ispure fuel m);
            if pure_m && (i <? itmax) then
              m <- lift (nextfftsize fuel (add64 m 1)); Ret (m, s)
            else
              let i := add64 i 1 in
              if i <? itmax then
                m <- lift (nextfftsize fuel (add64 m 1));
                oloop f' inner i m M itmax mForced useTimer nf s
              else oloop f' inner i m M itmax mForced useTimer nf s
      else Ret (m, s)
  end.

(** convolve.cc:232-291; returns the new value of the reference argument m. *)
Definition optloop (m M itmax : N) (mForced useTimer : bool) (nf : nextfun) (s : st) :
    out (N * st) :=
  if m =? 0 then Crash else
  let inner := 2 <? ceilquotient (cL g) m in
  oloop fuel inner (if inner then m else 0) m M itmax mForced useTimer nf s.

(** convolve.cc:293-352; [am] is app.m, returned because optloop may change it *)
Definition opt (am minsize itmax : N) (mForced useTimer : bool) (s : st) : out (N * st) :=
  let L := cL g in let M := cM g in
  if negb (cExpl g) then
    let nf := if ispow2 L then FPow2 else FPure in
    let H := ceilquotient L 2 in
    if mForced then
      if H <=? am then optloop am M 1 mForced useTimer FNull s
      else optloop am M (add64 am 1) mForced useTimer nf s
    else
      m <- callnext nf minsize;
      r <- optloop m M H mForced useTimer nf s;
      m <- lift (nextfftsize fuel H);
      r <- optloop m M itmax mForced useTimer FNull (snd r);
      let Mhalf := ceilquotient M 2 in
      r <- (if Mhalf <? L then
              m <- lift (nextfftsize fuel (N.max Mhalf (add64 (fst r) 1)));
              r <- optloop m M itmax mForced useTimer FNull (snd r);
              m <- lift (nextfftsize fuel (N.max L (add64 (fst r) 1)));
              optloop m M itmax mForced useTimer FNull (snd r)
            else
              m <- lift (nextfftsize fuel (N.max L (add64 (fst r) 1)));
              r <- optloop m M itmax mForced useTimer FNull (snd r);
              r <- (if (16 <? M) && (fst r <? 16)
                    then optloop 16 M 1 mForced useTimer FNull (snd r) else Ret r);
              if (32 <? M) && (fst r <? 32)
              then optloop 32 M 1 mForced useTimer FNull (snd r) else Ret r);
      m <- lift (nextfftsize fuel (N.max M (fst r)));
      r <- optloop m M itmax mForced useTimer FNull (snd r);
      let c := ceilpow2 M in
      if (fst r <? c) && (cC g =? 1)
      then r <- optloop c M 1 mForced useTimer FNull (snd r); Ret (am, snd r)
      else Ret (am, snd r)
  else
    m <- lift (nextfftsize fuel M);
    r <- optloop m m itmax mForced useTimer FNull s;
    let c := ceilpow2 M in
    if (fst r <? c) && (cC g =? 1)
    then r <- optloop c M 1 mForced useTimer FNull (snd r); Ret (am, snd r)
    else Ret (am, snd r).

(** convolve.cc:422-425: for(r=mlist.rbegin(); ...) {App.m=*r; opt(...);} *)
Fixpoint retime (ms : list N) (s : st) : out st :=
  match ms with
  | [] => Ret s
  | m :: ms => r <- opt m 2 3 true true s; retime ms (snd r)
  end.

(** convolve.cc:396-429; returns app.m as the search leaves it and the final search state *)
Definition scan (am : N) : out (N * st) :=
  let s0 := mkst 0 (cM g) 1 false [] DBL_MAX [] [] false in
  r <- opt am 2 3 (1 <=? am) false s0;
  let s := snd r in
  if 1 <? counter s then s <- retime (mlist s) s; Ret (fst r, s)
  else Ret r.

(** What a constructed pad records (convolve.h:508-519, 620-632, 734-745, 852-864). *)
Record built := mkbuilt { bm : N; bD : N; bI : bool; bp : N; bn : N; bq : N }.

(** The normal entry points, up to the exit of common(): the result is the pad, the caller's
    app.m afterwards, and the search state. *)
Definition construct (am : N) : out (built * N * st) :=
  if checkParameters g (cM g) then
    r <- scan am;
    let s := snd r in
    let M := if cExpl g then sm s else cM g in   (* if(Explicit) M=m: the parameter, not the field *)
    _ <- parameters (cL g) M (sm s) (centered (kd g));
    t <- common g (cM g) (sm s);
    let '(p, n, q) := t in
    Ret (mkbuilt (sm s) (sD s) (sI s) p n q, fst r, s)
  else Stop.
End Search.
