(** Basic facts on the optimizer model: outcomes, parameters, the D and inplace loops. *)
From Coq Require Import NArith ZArith List Bool Lia.
From Verif Require Import UtilsModel UtilsSpec UtilsProofs OptModel OptSpec.
Import ListNotations.
Local Open Scope N_scope.

Definition ok {A} (o : out A) (Q : A -> Prop) : Prop := match o with Ret a => Q a | _ => False end.

Lemma ok_bind {A B} (o : out A) (f : A -> out B) P Q :
  ok o P -> (forall a, P a -> ok (f a) Q) -> ok (bind o f) Q.
Proof. destruct o; simpl; try contradiction. intros H F. apply F, H. Qed.

Lemma ok_mono {A} (o : out A) (P Q : A -> Prop) : ok o P -> (forall a, P a -> Q a) -> ok o Q.
Proof. destruct o; simpl; try contradiction. intros H F. apply F, H. Qed.

Lemma ok_inv {A} (o : out A) (P : A -> Prop) : ok o P -> exists a, o = Ret a /\ P a.
Proof. destruct o; simpl; try contradiction. intros H. exists a; auto. Qed.

Lemma add64_small a b : a + b < W64 -> add64 a b = a + b.
Proof. intros. apply w64_small, H. Qed.
Lemma mul64_small a b : a * b < W64 -> mul64 a b = a * b.
Proof. intros. apply w64_small, H. Qed.

(** *** parameters *)
Definition effP (c : bool) (p : N) : N :=
  if (c && (p =? 2 * (p / 2))) || (p =? 2) then p / 2 else p.

Lemma even_half p : (p =? 2 * (p / 2)) = true <-> N.Even p.
Proof.
  rewrite N.eqb_eq. split.
  - intros E. exists (p / 2). exact E.
  - intros [k ->]. rewrite (N.mul_comm 2 k), N.div_mul by discriminate. lia.
Qed.

Lemma effP_pos c p : 1 <= p -> 1 <= effP c p <= p.
Proof.
  intros H. unfold effP. destruct (_ || _) eqn:E; [|lia].
  apply orb_prop in E. destruct E as [E|E].
  - apply andb_prop in E. destruct E as [_ E]. apply N.eqb_eq in E.
    assert (p / 2 <> 0) by (intros Z; rewrite Z in E; lia). lia.
  - apply N.eqb_eq in E. subst. change (2 / 2) with 1. lia.
Qed.

Definition rng (x : N) : Prop := 1 <= x /\ x <= 2 ^ 33.

Lemma rng_W64 a b : rng a -> rng b -> a + b <= W64.
Proof. unfold rng. rewrite W64_val. change (2 ^ 33) with 8589934592. lia. Qed.

Lemma ceil_pos a b y : 1 <= a -> is_ceil a b y -> 1 <= y.
Proof. unfold is_ceil. intros. destruct y; lia. Qed.

Lemma cq_ok a b : rng a -> rng b -> is_ceil a b (ceilquotient a b) /\ 1 <= ceilquotient a b <= a.
Proof.
  intros Ha Hb. assert (H : is_ceil a b (ceilquotient a b)).
  { apply ceilquotient_spec; [apply Hb|apply rng_W64; auto]. }
  split; auto. split; [eapply ceil_pos; [apply Ha|eauto]|].
  destruct H as [H _]. destruct Ha as [Ha _], Hb as [Hb _].
  set (y := ceilquotient a b) in *. clearbody y.
  destruct (N.le_gt_cases y a); auto. nia.
Qed.

Lemma parameters_unf L M m c : parameters L M m c =
  if m =? 0 then Crash else
  if mul64 (effP c (ceilquotient L m)) m =? 0 then Crash else
  Ret (ceilquotient L m, ceilquotient M (mul64 (effP c (ceilquotient L m)) m),
       mul64 (effP c (ceilquotient L m)) (ceilquotient M (mul64 (effP c (ceilquotient L m)) m))).
Proof. reflexivity. Qed.

Lemma parameters_ok L M m c : rng L -> rng M -> rng m ->
  let p := ceilquotient L m in let P := effP c p in
  exists n, parameters L M m c = Ret (p, n, P * n) /\
    is_ceil L m p /\ is_ceil M (P * m) n /\ 1 <= p <= L /\ 1 <= n <= M /\ P * m < L + m.
Proof.
  intros HL HM Hm p P. rewrite parameters_unf.
  destruct (cq_ok L m HL Hm) as (Hp & Hp1 & Hp2). fold p in Hp, Hp1, Hp2.
  assert (Em : (m =? 0) = false) by (apply N.eqb_neq; destruct Hm; lia). rewrite Em.
  fold p. fold P.
  pose proof (effP_pos c p Hp1) as (HP1 & HP2). fold P in HP1, HP2.
  assert (Hlt : P * m < L + m).
  { destruct Hp as [Hp _]. nia. }
  assert (HPm1 : 1 <= P * m) by (destruct Hm; nia).
  assert (HW : L + m <= W64) by (apply rng_W64; auto).
  rewrite (mul64_small P m) by lia.
  assert (E0 : (P * m =? 0) = false) by (apply N.eqb_neq; lia). rewrite E0.
  assert (HMP : M + P * m <= W64).
  { destruct HM, HL, Hm. rewrite W64_val. change (2 ^ 33) with 8589934592 in *. lia. }
  pose proof (ceilquotient_spec M (P * m) HPm1 HMP) as Hn.
  set (n := ceilquotient M (P * m)) in *. exists n.
  assert (Hn1 : 1 <= n) by (eapply ceil_pos; [apply HM|eauto]).
  assert (Hn2 : n <= M).
  { destruct Hn as [Hn _], HM as [HM _]. destruct (N.le_gt_cases n M); auto. nia. }
  rewrite (mul64_small P n).
  - repeat split; auto; try apply Hp; try apply Hn.
  - destruct HL as [_ HL], HM as [_ HM]. change (2 ^ 33) with 8589934592 in *.
    rewrite W64_val. assert (P * n <= 8589934592 * n) by (apply N.mul_le_mono_r; lia).
    destruct Hn as [Hn _]. destruct Hm as [Hm1 Hm2].
    assert (P * n <= (P * m) * n).
    { replace (P * m * n) with (P * n * m) by ring.
      rewrite <- (N.mul_1_r (P * n)) at 1. apply N.mul_le_mono_l. exact Hm1. }
    clear H.
    change (2 ^ 33) with 8589934592 in *. lia.
Qed.

(** with m >= M >= L everything is 1 *)
Lemma parameters_explicit L M m c : rng L -> rng M -> rng m -> L <= M -> M <= m ->
  parameters L M m c = Ret (1, 1, 1).
Proof.
  intros HL HM Hm H1 H2. destruct (parameters_ok L M m c HL HM Hm) as (n & E & Hp & Hn & _).
  assert (Ep : ceilquotient L m = 1).
  { eapply is_ceil_unique; [|exact Hp|]; destruct Hm, HL; auto. unfold is_ceil; lia. }
  rewrite E. rewrite Ep in Hn |- *.
  assert (EP : effP c 1 = 1) by (destruct c; reflexivity). rewrite EP in Hn |- *.
  assert (En : n = 1).
  { eapply is_ceil_unique; [|exact Hn|]; destruct Hm, HM; try lia. unfold is_ceil; lia. }
  rewrite En. reflexivity.
Qed.

(** *** folds *)
Fixpoint foldM {A} (f : A -> st -> out st) (l : list A) (s : st) : out st :=
  match l with [] => Ret s | a :: l => bind (f a s) (fun s => foldM f l s) end.

Lemma foldM_app {A} (f : A -> st -> out st) l1 l2 s :
  foldM f (l1 ++ l2) s = bind (foldM f l1 s) (fun s => foldM f l2 s).
Proof.
  revert s. induction l1; intros s; simpl; auto.
  destruct (f a s); simpl; auto.
Qed.

Lemma z64_0 z : (- 2 ^ 63 <= z < 2 ^ 63 - 1)%Z -> (z64 z =? 0) = (z =? 0)%Z.
Proof.
  intros H. unfold z64. destruct (Z.eqb_spec z 0) as [->|n]; [reflexivity|].
  apply N.eqb_neq. intros E. assert (E' : (z mod 2 ^ 64 = 0)%Z).
  { pose proof (Z.mod_pos_bound z (2 ^ 64) ltac:(lia)). lia. }
  apply Z.mod_divide in E'; [|lia]. destruct E' as [k E'].
  change (2 ^ 63)%Z with 9223372036854775808%Z in H.
  change (2 ^ 64)%Z with 18446744073709551616%Z in E'. lia.
Qed.

Lemma z64_succ z : (- 2 ^ 63 <= z < 2 ^ 63 - 1)%Z -> z <> (-1)%Z ->
  z64 (z + 1) = z64 z + 1 /\ z64 z + 1 < W64.
Proof.
  intros H n. unfold z64. rewrite W64_val.
  change (2 ^ 63)%Z with 9223372036854775808%Z in H.
  change (2 ^ 64)%Z with 18446744073709551616%Z.
  assert (E : ((z + 1) mod 18446744073709551616 = z mod 18446744073709551616 + 1)%Z).
  { symmetry. apply Z.mod_unique with (q := (z / 18446744073709551616)%Z).
    - left. pose proof (Z.mod_pos_bound z 18446744073709551616 ltac:(lia)).
      pose proof (Z.div_mod z 18446744073709551616 ltac:(lia)). lia.
    - pose proof (Z.div_mod z 18446744073709551616 ltac:(lia)). lia. }
  rewrite E. pose proof (Z.mod_pos_bound z 18446744073709551616 ltac:(lia)).
  pose proof (Z.mod_pos_bound (z + 1) 18446744073709551616 ltac:(lia)). lia.
Qed.

Lemma maxD_rng k n : rng n -> rng (maxD k n).
Proof.
  intros Hn. unfold maxD. destruct k; auto.
  destruct (N.ltb_spec 2 n) as [H|H]; [|unfold rng; change (2 ^ 33) with 8589934592; lia].
  destruct Hn as [H1 H2]. rewrite pred64_pos; [|lia|rewrite W64_val; change (2 ^ 33) with 8589934592 in *; lia].
  split.
  - apply N.div_le_lower_bound; lia.
  - transitivity n; auto. apply N.div_le_upper_bound; lia.
Qed.

Section L.
Variable clock : nat -> time.
Variable empty_back : N.
Variable g : cfg.
Variable fuel : nat.
Hypothesis Hfuel : (150 <= fuel)%nat.
Hypothesis HI : (- 2 ^ 63 <= appI g < 2 ^ 63 - 1)%Z.
Hypothesis HD : appD g < W64.

Notation chk := (check clock empty_back g).

(** the inplace values tried *)
Definition ivals : list bool :=
  if (appI g =? -1)%Z then
    if (1 <? cC g) && negb (isreal (kd g)) then [true] else [false; true]
  else [negb (appI g =? 0)%Z].

Lemma iloop_fold M m p q n D t s :
  iloop clock empty_back g fuel M m p q n D t (Istart g) (Istop g) s =
  foldM (fun I s => chk M m p q n D I t s) ivals s.
Proof.
  destruct fuel as [|[|[|f]]]; try lia.
  unfold Istart, Istop, ivals. destruct (Z.eqb_spec (appI g) (-1)) as [E|n0].
  - destruct ((1 <? cC g) && negb (isreal (kd g))); simpl.
    + destruct (chk M m p q n D true t s); reflexivity.
    + destruct (chk M m p q n D false t s); simpl; try reflexivity.
  - destruct (z64_succ _ HI n0) as [E L]. rewrite E. simpl iloop.
    assert (E1 : (z64 (appI g) <? z64 (appI g) + 1) = true) by (apply N.ltb_lt; lia).
    rewrite E1. rewrite (z64_0 _ HI). simpl.
    destruct (chk M m p q n D _ t s); simpl; try reflexivity.
    rewrite add64_small by lia. rewrite N.ltb_irrefl. reflexivity.
Qed.

(** the D values tried *)
Fixpoint dvals (f : nat) (D Dstop Dstop2 : N) : option (list N) :=
  match f with
  | O => None
  | S f' =>
      if D <? Dstop2 then
        let D := if Dstop <? D then Dstop else D in
        match dvals f' (mul64 D 2) Dstop Dstop2 with
        | Some l => Some (D :: l) | None => None end
      else Some []
  end.

Lemma dloop_fold f : forall M m p q n D Ds Ds2 t s l, dvals f D Ds Ds2 = Some l ->
  dloop clock empty_back g fuel f M m p q n D Ds Ds2 t s =
  foldM (fun D s => foldM (fun I s => chk M m p q n D I t s) ivals s) l s.
Proof.
  induction f as [|f IH]; simpl; intros; [discriminate|].
  destruct (D <? Ds2); [|inversion H; reflexivity].
  destruct (dvals f (mul64 (if Ds <? D then Ds else D) 2) Ds Ds2) eqn:E; [|discriminate].
  inversion H; subst l. cbn [foldM]. rewrite iloop_fold.
  destruct (foldM _ ivals s); cbn [bind]; auto.
Qed.

Lemma dvals_free f : forall D Ds j, rng Ds -> 1 <= D -> D <= 2 * Ds -> (N.to_nat j < f)%nat ->
  2 * Ds <= D * 2 ^ j ->
  exists l, dvals f D Ds (2 * Ds) = Some l /\ Forall (fun d => 1 <= d <= Ds) l /\
            (D <= Ds -> In D l).
Proof.
  induction f as [|f IH]; intros D Ds j HDs H1 H2 Hf Hj; [lia|]. simpl.
  destruct (N.ltb_spec D (2 * Ds)) as [Hlt|Hge].
  - assert (HW : 2 * Ds < W64).
    { destruct HDs. rewrite W64_val. change (2 ^ 33) with 8589934592 in *. lia. }
    assert (Hj0 : j <> 0) by (intros ->; rewrite N.pow_0_r in Hj; lia).
    assert (Ej : 2 ^ j = 2 * 2 ^ (j - 1)).
    { replace j with (N.succ (j - 1)) at 1 by lia. apply N.pow_succ_r'. }
    assert (Hp : 1 <= 2 ^ (j - 1)).
    { pose proof (N.pow_nonzero 2 (j - 1)). lia. }
    destruct (N.ltb_spec Ds D) as [Hc|Hc].
    + rewrite mul64_small by lia.
      destruct (IH (Ds * 2) Ds (j - 1) HDs) as (l & E & F & _); try lia.
      { nia. }
      rewrite E. eexists; split; [reflexivity|]. split; [|lia].
      constructor; auto. destruct HDs; lia.
    + rewrite mul64_small by lia.
      destruct (IH (D * 2) Ds (j - 1) HDs) as (l & E & F & _); try lia.
      rewrite E. eexists; split; [reflexivity|]. split; [constructor; auto; lia|].
      intros _. left; reflexivity.
  - eexists; split; [reflexivity|]. split; [constructor|]. destruct HDs. lia.
Qed.

Definition Dstart : N := if DForced g then appD g else 1.
Definition Dstop (n : N) : N := if DForced g then appD g else maxD (kd g) n.
Definition dlist (n : N) : list N :=
  match dvals fuel Dstart (Dstop n) (mul64 2 (Dstop n)) with Some l => l | None => [] end.

Lemma dlist_ok n : rng n ->
  dvals fuel Dstart (Dstop n) (mul64 2 (Dstop n)) = Some (dlist n) /\
  Forall (fun d => 1 <= d /\ (0 < appD g -> d = appD g)) (dlist n) /\
  (appD g = 0 -> In 1 (dlist n)) /\
  (0 < appD g -> appD g < 2 ^ 63 -> dlist n = [appD g]).
Proof.
  intros Hn. unfold dlist, Dstart, Dstop, DForced.
  destruct (N.ltb_spec 0 (appD g)) as [H|H].
  - destruct fuel as [|[|f]]; try lia. cbn [dvals].
    destruct (N.ltb_spec (appD g) (mul64 2 (appD g))) as [Hc|Hc].
    + rewrite N.ltb_irrefl. rewrite (N.mul_comm 2) || idtac.
      replace (mul64 2 (appD g)) with (mul64 (appD g) 2) in *
        by (unfold mul64; f_equal; apply N.mul_comm).
      rewrite N.ltb_irrefl. repeat split; try (intros; lia).
      * constructor; [|constructor]. split; [lia|auto].
    + repeat split; try (intros; lia); [constructor|].
      intros _ Hs. exfalso. rewrite mul64_small in Hc.
      * lia.
      * rewrite W64_val. change (2 ^ 63) with 9223372036854775808 in Hs. lia.
  - assert (E0 : appD g = 0) by lia.
    pose proof (maxD_rng (kd g) n Hn) as Hr.
    assert (HW : 2 * maxD (kd g) n < W64).
    { destruct Hr. rewrite W64_val. change (2 ^ 33) with 8589934592 in *. lia. }
    rewrite (mul64_small 2) by exact HW.
    destruct (dvals_free fuel 1 (maxD (kd g) n) 34 Hr) as (l & E & F & G); try (destruct Hr; lia).
    rewrite E. repeat split.
    + eapply Forall_impl; [|exact F]. intros a Ha. cbn in Ha. split; [lia|intros; lia].
    + intros _. apply G. destruct Hr; lia.
    + lia.
Qed.

(** all (D, inplace) pairs tried for given m *)
Definition DI (n : N) : list (N * bool) := list_prod (dlist n) ivals.

Lemma foldM_map {A B} (h : A -> B) f l s : foldM f (map h l) s = foldM (fun a => f (h a)) l s.
Proof. revert s. induction l; simpl; intros; auto. destruct (f (h a) s); simpl; auto. Qed.

Lemma foldM_ext {A} f1 f2 (l : list A) s : (forall a s, f1 a s = f2 a s) ->
  foldM f1 l s = foldM f2 l s.
Proof. intros H. revert s. induction l; simpl; intros; auto. rewrite H. destruct (f2 a s); simpl; auto. Qed.

Lemma dloop_DI M m p q n t s : rng n ->
  dloop clock empty_back g fuel fuel M m p q n Dstart (Dstop n) (mul64 2 (Dstop n)) t s =
  foldM (fun di s => chk M m p q n (fst di) (snd di) t s) (DI n) s.
Proof.
  intros Hn. rewrite (dloop_fold fuel M m p q n _ _ _ t s (dlist n)) by apply (dlist_ok n Hn).
  unfold DI. generalize (dlist n). intros l. revert s.
  induction l; intros s; simpl; auto. rewrite foldM_app, foldM_map. cbn [fst snd].
  destruct (foldM _ ivals s); cbn [bind]; auto.
Qed.
End L.
