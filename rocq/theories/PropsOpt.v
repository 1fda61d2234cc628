(** Property theorems C04: the parameter search of the padded transforms.
    In every theorem [clock] is an arbitrary timing oracle (including NaN answers) and [eb] is
    whatever std::list::back() yields on the empty list (see C04_back_on_empty_list_refuted). *)
From Coq Require Import NArith ZArith List Bool.
From Verif Require PadModel.
From Verif Require Import UtilsModel UtilsSpec OptModel OptSpec OptTop.
Import ListNotations.
Local Open Scope N_scope.

(** C04: for all four classes, all lengths, copies and strides, explicit or not, whatever is forced
    and whatever the timings, the search ends and the constructor delivers a pad whose parameters
    satisfy the class's rules: p blocks of m cover L, q*m covers M, D is admissible. *)
Theorem C04_always_built : forall clock eb g am fuel, in_domain g am -> enough g fuel ->
  exists b am' s, construct clock eb g fuel am = Ret (b, am', s) /\
    geometry (kd g) (cL g) (cM g) (bm b) (bp b) (bn b) (bq b) /\
    usable (kd g) (stride (kd g) (cC g) (cS0 g)) (bm b) (bp b) (bn b) (bq b) (bD b) /\
    1 <= bD b /\ cM g <= bq b * bm b /\ (cExpl g = true -> cM g <= bm b /\ bq b = 1).
Proof. exact always_built. Qed.
Print Assumptions C04_always_built.

(** Hermitian class, L=8, M=15: four sizes are met and timed in reverse order. *)
Example C04_case_hermitian : in_domain (mkcfg KHermitian 8 15 1 0 false 0 (-1)) 0 /\
  enough (mkcfg KHermitian 8 15 1 0 false 0 (-1)) 200 /\
  summary (construct ck 0 (mkcfg KHermitian 8 15 1 0 false 0 (-1)) 200 0) =
  Some (mkbuilt 2 2 true 4 4 8, 0,
   [(2,2,false);(2,2,true);(4,2,false);(4,2,true);(15,1,false);(15,1,true);(16,1,false);(16,1,true)],
   [(16,1,false);(16,1,true);(15,1,false);(15,1,true);(4,2,false);(4,2,true);(2,2,false);(2,2,true)]).
Proof. split; [apply in_domain_dec; reflexivity|]. split; [|vm_compute; reflexivity].
  apply (Compare_dec.leb_complete 165 200); reflexivity. Qed.

(** complex class, L=17, M=30: inner, p=2 and p=1 sizes, D=1, even D and D=n all occur *)
Example C04_case_complex :
  match construct ck 0 (mkcfg KComplex 17 30 1 0 false 0 (-1)) 200 0 with
  | Ret (b, _, s) => map (fun x => fst (fst x)) (filter (fun x => snd x) (seen s)) =
      [2; 2; 4; 4; 5; 5; 7; 7; 8; 8; 9; 9; 9; 15; 15; 16; 16; 20; 20; 21; 21; 24; 24; 30; 32]
      /\ map fst (timed s) <> [] /\ bm b = 2
  | _ => False
  end.
Proof. vm_compute. repeat split; discriminate. Qed.

(** C04: the constructor stops exactly on the documented argument errors L > M and S < C. *)
Theorem C04_argument_errors_stop : forall clock eb g am fuel,
  ~ (cL g <= cM g /\ cC g <= stride (kd g) (cC g) (cS0 g)) -> construct clock eb g fuel am = Stop.
Proof. exact stops. Qed.
Print Assumptions C04_argument_errors_stop.

Example C04_stop_case : construct ck 0 (mkcfg KComplex 5 4 1 0 false 0 (-1)) 200 0 = Stop /\
  construct ck 0 (mkcfg KReal 4 8 3 2 false 0 (-1)) 200 0 = Stop.
Proof. split; reflexivity. Qed.

(** C04: the delivered pad either is the documented fallback (m=M, D=1, out of place) or honours
    every forced parameter. *)
Theorem C04_forced_or_fallback : forall clock eb g am fuel b am' s,
  in_domain g am -> enough g fuel -> construct clock eb g fuel am = Ret (b, am', s) ->
  (bm b = cM g /\ bD b = 1 /\ bI b = false) \/
  ((1 <= am -> cExpl g = false -> bm b = am) /\ (1 <= appD g -> bD b = appD g) /\
   inplace_ok (kd g) (cC g) (appI g) (bI b)).
Proof. exact forced_or_fallback. Qed.
Print Assumptions C04_forced_or_fallback.

Example C04_fallback_case :   (* D=7 is not admissible for m=4 *)
  summary (construct ck 0 (mkcfg KComplex 8 30 1 0 false 7 1) 200 4)
  = Some (mkbuilt 30 1 false 1 1 1, 4, [], []).
Proof. vm_compute; reflexivity. Qed.

(** C04: a forced m and D that are usable are used, and the caller's object is left alone. *)
Theorem C04_usable_choice_is_used : forall clock eb g am fuel b am' s p n q,
  in_domain g am -> enough g fuel -> cExpl g = false ->
  1 <= am -> 1 <= appD g -> appD g < 2 ^ 63 ->
  geometry (kd g) (cL g) (cM g) am p n q ->
  usable (kd g) (stride (kd g) (cC g) (cS0 g)) am p n q (appD g) ->
  construct clock eb g fuel am = Ret (b, am', s) ->
  bm b = am /\ bD b = appD g /\ inplace_ok (kd g) (cC g) (appI g) (bI b) /\ am' = am.
Proof. exact forced_used. Qed.
Print Assumptions C04_usable_choice_is_used.

Example C04_choice_case :   (* m=4, D=8 = n for L=8, M=30 *)
  geometry KComplex 8 30 4 2 8 8 /\ usable KComplex 1 4 2 8 8 8 /\
  summary (construct ck 0 (mkcfg KComplex 8 30 1 0 false 8 1) 200 4)
  = Some (mkbuilt 4 8 true 2 8 8, 4, [(4, 8, true)], []).
Proof.
  split; [|split; [|vm_compute; reflexivity]].
  - split; [discriminate|]. split; [split; [reflexivity|discriminate]|].
    exists 1. repeat split; try reflexivity; try discriminate.
    intros H. exfalso. apply H. left. reflexivity.
  - split; [discriminate|]. right. split; [reflexivity|]. left. reflexivity.
Qed.

(** C04: the choice is the fastest of everything that was timed (the k-th timing is the clock's k-th
    answer); and outside the Explicit mode everything met in the first pass is timed, provided the
    read of the empty list yields 0 (as the list header of libstdc++ does). *)
Theorem C04_fastest : forall clock eb g am fuel b am' s,
  in_domain g am -> enough g fuel -> construct clock eb g fuel am = Ret (b, am', s) ->
  map snd (timed s) = map clock (seq 0 (length (timed s))) /\
  (forall x z, In (x, Some z) (timed s) -> (z < DBL_MAX)%Z ->
     exists T, In ((bm b, bD b, bI b), Some T) (timed s) /\ (T <= z)%Z) /\
  (1 < counter s -> cExpl g = false -> eb = 0 ->
     forall x, In x (seen s) -> exists t, In (x, t) (timed s)).
Proof. exact fastest. Qed.
Print Assumptions C04_fastest.

(** In the Explicit mode sizes are met, counted among the algorithms to time, and never timed:
    here m=14 and m=15. *)
Theorem C04_explicit_never_timed_refuted : exists g, in_domain g 0 /\ cExpl g = true /\ enough g 200 /\
  exists b am' s, construct ck 0 g 200 0 = Ret (b, am', s) /\ 1 < counter s /\
    In (14, 1, false) (seen s) /\ ~ exists t, In ((14, 1, false), t) (timed s).
Proof. exact explicit_never_timed. Qed.
Print Assumptions C04_explicit_never_timed_refuted.

(** C04 (defect): every default construction calls std::list::back() on an empty list
    (convolve.cc:376), which is undefined behaviour in C++. *)
Theorem C04_back_on_empty_list_refuted : forall clock eb g fuel b am' s,
  in_domain g 0 -> appD g = 0 -> enough g fuel ->
  construct clock eb g fuel 0 = Ret (b, am', s) -> emptyback s = true.
Proof. exact back_empty. Qed.
Print Assumptions C04_back_on_empty_list_refuted.

(** C04: the forced m of the caller's Application object is left unchanged except in one case ... *)
Theorem C04_application_kept : forall clock eb g am fuel b am' s,
  in_domain g am -> enough g fuel -> construct clock eb g fuel am = Ret (b, am', s) ->
  (kd g = KCentered \/ kd g = KHermitian -> cExpl g = false -> 1 <= am ->
     forall p, is_ceil (cL g) am p -> p <= 2 \/ N.Even p) ->
  am' = am.
Proof. exact app_m_kept. Qed.
Print Assumptions C04_application_kept.

(** ... the defect: with a forced m for which p is odd, the centered and Hermitian constructors
    overwrite the caller's m (here 3 becomes 4) besides falling back to explicit padding. *)
Theorem C04_application_changed_refuted : exists g, in_domain g 3 /\ enough g 200 /\
  exists b s, construct ck 0 g 200 3 = Ret (b, 4, s).
Proof. exact application_changed. Qed.
Print Assumptions C04_application_changed_refuted.

(** C04 for the complex class: the pad satisfies the well-formedness hypothesis of C05-C12. *)
Theorem C04_complex_pad_wellformed : forall clock eb g am fuel b am' s A B ow,
  in_domain g am -> enough g fuel -> kd g = KComplex -> 1 <= cC g ->
  construct clock eb g fuel am = Ret (b, am', s) ->
  PadModel.wf (PadModel.mkpad (N.to_nat (cL g)) (N.to_nat (cM g)) (N.to_nat (cC g))
    (N.to_nat (stride KComplex (cC g) (cS0 g))) (N.to_nat (bm b)) (N.to_nat (bD b)) (bI b) A B ow).
Proof. exact complex_wf. Qed.
Print Assumptions C04_complex_pad_wellformed.
