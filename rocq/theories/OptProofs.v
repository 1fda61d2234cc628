(** The search as a whole: every run ends with a usable parameter set. *)
From Coq Require Import NArith ZArith List Bool Lia.
From Verif Require Import UtilsModel UtilsSpec UtilsProofs OptModel OptSpec OptLemmas OptLoop.
Import ListNotations.
Local Open Scope N_scope.

(** *** validity = usability *)
Lemma even_mod x : x mod 2 = 0 <-> N.Even x.
Proof.
  split; intros H.
  - exists (x / 2). pose proof (N.div_mod x 2 ltac:(lia)). lia.
  - destruct H as [k ->]. rewrite N.mul_comm. apply N.mod_mul. lia.
Qed.
Lemma odd_mod x : x mod 2 = 1 <-> N.Odd x.
Proof.
  split; intros H.
  - exists (x / 2). pose proof (N.div_mod x 2 ltac:(lia)). lia.
  - destruct H as [k ->]. rewrite N.add_comm, N.mul_comm, N.mod_add; [reflexivity|lia].
Qed.

Lemma valid_pad_iff m p q n D S :
  valid_pad m p q n D S = true <-> (q = 1 -> D = 1) /\ blocks S n D.
Proof.
  unfold valid_pad, blocks. destruct (N.eqb_spec q 1) as [E|E].
  - rewrite N.eqb_eq. split; [intros ->; auto|intros [H _]; auto].
  - rewrite !orb_true_iff, !andb_true_iff, orb_true_iff, andb_true_iff, !N.eqb_eq, N.ltb_lt, even_mod.
    split; [intros H; split; [intros; contradiction|]|intros [_ H]]; tauto.
Qed.

Lemma valid_iff k m p q n D S : 1 <= n -> n < W64 ->
  (valid k m p q n D S = true <-> usable k S m p n q D).
Proof.
  intros Hn HW. destruct k; unfold valid, usable.
  - apply valid_pad_iff.
  - rewrite andb_true_iff, orb_true_iff, !N.eqb_eq, even_mod, valid_pad_iff. tauto.
  - rewrite orb_true_iff, !andb_true_iff, orb_true_iff, !N.eqb_eq, even_mod. tauto.
  - rewrite pred64_pos by auto. unfold blocks.
    rewrite !andb_true_iff, !orb_true_iff, !andb_true_iff, !orb_true_iff, !andb_true_iff,
      !N.eqb_eq, N.ltb_lt, N.leb_le, !even_mod, !odd_mod. tauto.
Qed.

Lemma effP_halved k p : effP (centered k) p = if (centered k && (p =? 2 * (p / 2))) || (p =? 2) then p / 2 else p.
Proof. reflexivity. Qed.

Lemma halved_iff k p : ((centered k && (p =? 2 * (p / 2))) || (p =? 2)) = true <-> halved k p.
Proof.
  unfold halved. rewrite orb_true_iff, andb_true_iff, even_half, N.eqb_eq.
  assert (centered k = true <-> (k = KCentered \/ k = KHermitian)).
  { destruct k; simpl; split; intros; auto; try discriminate; destruct H; discriminate. }
  tauto.
Qed.

Lemma parameters_geometry k L M m p n q : rng L -> rng M -> rng m ->
  parameters L M m (centered k) = Ret (p, n, q) ->
  geometry k L M m p n q /\ 1 <= n <= M /\ p = ceilquotient L m /\ M <= q * m /\ mul64 q m = q * m.
Proof.
  intros HL HM Hm E.
  destruct (parameters_ok L M m (centered k) HL HM Hm) as (n' & E' & Hp & Hn & Hp1 & Hn1 & HPm).
  rewrite E in E'. inversion E'; subst p n' q. clear E'.
  set (p := ceilquotient L m) in *. set (P := effP (centered k) p) in *.
  split; [|split; [auto|split; [auto|]]].
  - split; [apply Hm|]. split; auto. exists P. repeat split; try apply Hn.
    + intros Hh. apply halved_iff in Hh. unfold P, effP. rewrite Hh.
      apply orb_prop in Hh. destruct Hh as [Hh|Hh].
      * apply andb_prop in Hh. destruct Hh as [_ Hh]. apply N.eqb_eq in Hh. lia.
      * apply N.eqb_eq in Hh. rewrite Hh. reflexivity.
    + intros Hh. unfold P, effP. destruct (_ || _) eqn:Eh; auto. exfalso. apply Hh, halved_iff, Eh.
    + apply effP_pos. lia.
  - assert (Eq : P * n * m = P * m * n) by ring.
    destruct Hn as [Hn2 Hn3]. rewrite Eq. split; [exact Hn3|].
    rewrite mul64_small; auto. rewrite Eq.
    destruct HL, HM, Hm. rewrite W64_val. change (2 ^ 33) with 8589934592 in *. lia.
Qed.

Section Scan.
Set Default Proof Using "All".
Variable clock : nat -> time.
Variable empty_back : N.
Variable g : cfg.
Variable fuel : nat.
Variable am : N.
Hypothesis Hfuel : (150 <= fuel)%nat.
Hypothesis Hfuel2 : (N.to_nat (cM g) < fuel)%nat.
Hypothesis HI : (- 2 ^ 63 <= appI g < 2 ^ 63 - 1)%Z.
Hypothesis HD : appD g < W64.
Hypothesis HL1 : 1 <= cL g.
Hypothesis HLM : cL g <= cM g.
Hypothesis HM : cM g <= 2 ^ 26.
Hypothesis Ham : am <= 2 ^ 32.
Hypothesis HCS : cC g <= cS g.

Notation chk := (check clock empty_back g).
Notation c := (centered (kd g)).
Notation L := (cL g).
Notation M := (cM g).
Notation DIl := (DI g fuel).
Notation vld := (fun m p q n D => valid (kd g) m p q n D (cS g)).

Lemma rL : rng L. Proof. apply (rngL g); auto. Qed.
Lemma rM : rng M. Proof. apply (rngM g); auto. Qed.

Definition Allowed (m : N) : Prop :=
  (cExpl g = true -> M <= m) /\ (cExpl g = false -> 1 <= am -> m = am).

Definition good (x : cand) : Prop :=
  let '(m, D, ip) := x in
  rng m /\ m <= 2 ^ 32 /\ Allowed m /\
  exists p n q, parameters L M m c = Ret (p, n, q) /\ gate g p /\ In (D, ip) (DIl n) /\
    valid (kd g) m p q n D (cS g) = true.

Definition mgood (m : N) : Prop := rng m /\ m <= 2 ^ 32 /\ Allowed m /\ gate g (pOf g m).

Lemma parameters_p m p n q : parameters L M m c = Ret (p, n, q) -> p = pOf g m.
Proof.
  rewrite parameters_unf. destruct (m =? 0); [discriminate|].
  destruct (_ =? 0); [discriminate|]. intros E. inversion E. reflexivity.
Qed.

Lemma good_mgood m D ip : good (m, D, ip) -> mgood m.
Proof.
  intros (A & B & Ce & p & n & q & E & G & _). split; auto. split; auto. split; auto.
  rewrite <- (parameters_p m p n q E). exact G.
Qed.

(** covered by the record R *)
Definition covered (R : st -> list cand) (m : N) (s : st) : Prop :=
  forall p n q D ip, parameters L M m c = Ret (p, n, q) -> In (D, ip) (DIl n) ->
    valid (kd g) m p q n D (cS g) = true -> In (m, D, ip) (R s).

Lemma fold_cov (R : st -> list cand) (J : st -> Prop) t M' m p n q :
  parameters L M m c = Ret (p, n, q) ->
  (forall D ip s, In (D, ip) (DIl n) -> J s ->
     ok (chk M' m p q n D ip t s) (fun s' => J s' /\ incl (R s) (R s') /\
       (valid (kd g) m p q n D (cS g) = true -> In (m, D, ip) (R s')))) ->
  forall s, J s -> ok (body clock empty_back g fuel M' m p n q t s)
    (fun s' => J s' /\ covered R m s' /\ forall m', covered R m' s -> covered R m' s').
Proof.
  intros E H. unfold body.
  assert (G : forall l s, incl l (DIl n) -> J s ->
    ok (foldM (fun di s => chk M' m p q n (fst di) (snd di) t s) l s)
       (fun s' => J s' /\ incl (R s) (R s') /\
          forall D ip, In (D, ip) l -> valid (kd g) m p q n D (cS g) = true -> In (m, D, ip) (R s'))).
  { induction l as [|[D ip] l IH]; intros s Hl HJ.
    - simpl. repeat split; auto. apply incl_refl. intros ? ? [].
    - cbn [foldM fst snd]. eapply ok_bind; [apply H; auto; apply Hl; left; auto|].
      intros s1 (A1 & A2 & A3). eapply ok_mono; [apply IH; auto|].
      + intros x Hx. apply Hl. right; auto.
      + cbn beta. intros s2 (B1 & B2 & B3). split; auto. split; [eapply incl_tran; eauto|].
        intros D' ip' [X|X] V; [inversion X; subst; auto|auto]. }
  intros s HJ. eapply ok_mono; [apply G; auto using incl_refl|]. cbn beta.
  intros s' (A1 & A2 & A3). split; auto. split.
  - intros p' n' q' D ip E' HIn V. rewrite E in E'. inversion E'; subst p' n' q'. auto.
  - intros m' Hc p' n' q' D ip E' HIn V. apply A2. eapply Hc; eauto.
Qed.

(** *** first stage: no timing *)
Definition cur (s : st) : cand := (sm s, sD s, sI s).
Definition cmm (x : cand) : N := fst (fst x).

Record J1 (s : st) : Prop := {
  j1_timed : timed s = [];
  j1_T : sT s = DBL_MAX;
  j1_seen : Forall good (seen s);
  j1_ml : Forall mgood (mlist s);
  j1_sel : (seen s = [] /\ counter s = 0 /\ cur s = (M, 1, false)) \/ In (cur s) (seen s);
  j1_eb : seen s <> [] \/ mlist s <> [] -> emptyback s = true;
  j1_back : empty_back = 0 -> forall x, In x (seen s) -> In (cmm x) (mlist s) }.

Lemma check1_ok M' m p q n D ip s :
  rng m -> m <= 2 ^ 32 -> Allowed m -> gate g p -> parameters L M m c = Ret (p, n, q) ->
  In (D, ip) (DIl n) -> J1 s ->
  ok (chk M' m p q n D ip false s) (fun s' => J1 s' /\ incl (seen s) (seen s') /\
     (valid (kd g) m p q n D (cS g) = true -> In (m, D, ip) (seen s'))).
Proof.
  intros Hm Hm2 HA Hg E HIn HJ. unfold check.
  destruct (valid (kd g) m p q n D (cS g)) eqn:V.
  2:{ simpl. split; auto. split; [apply incl_refl|discriminate]. }
  set (eb := match mlist s with [] => true | _ => emptyback s end).
  set (bk := match mlist s with [] => empty_back | b :: _ => b end).
  set (ml := if negb (m =? bk) then m :: mlist s else mlist s).
  assert (Hgood : good (m, D, ip)).
  { split; auto. split; auto. split; auto. exists p, n, q. auto. }
  assert (Hmg : mgood m) by (eapply good_mgood; exact Hgood).
  assert (Hseen : Forall good (seen s ++ [(m, D, ip)])).
  { apply Forall_app. split; [apply HJ|]. constructor; auto. }
  assert (Hml : Forall mgood ml).
  { unfold ml. destruct (negb _); [constructor; auto|]; apply HJ. }
  assert (Heb : eb = true).
  { unfold eb. destruct (mlist s) eqn:X; auto. apply (j1_eb s HJ). right. rewrite X. discriminate. }
  assert (Hback : empty_back = 0 -> forall x, In x (seen s ++ [(m, D, ip)]) -> In (cmm x) ml).
  { intros H0 x Hx. apply in_app_or in Hx. destruct Hx as [Hx|[<-|[]]].
    - assert (In (cmm x) (mlist s)) by (apply (j1_back s HJ); auto).
      unfold ml. destruct (negb _); [right|]; auto.
    - unfold ml, cmm. cbn [fst]. destruct (N.eqb_spec m bk) as [X|X]; cbn [negb]; [|left; auto].
      unfold bk in X. destruct (mlist s); [|left; auto]. destruct Hm. lia. }
  assert (Hincl : incl (seen s) (seen s ++ [(m, D, ip)])) by (apply incl_appl, incl_refl).
  assert (Hlast : In (m, D, ip) (seen s ++ [(m, D, ip)])) by (apply in_or_app; right; left; auto).
  destruct (N.eqb_spec (add64 (counter s) 1) 1) as [Ec|Ec]; simpl.
  - split; [|auto]. constructor; simpl; auto; try apply HJ.
  - split; [|auto]. constructor; simpl; auto; try apply HJ.
    right. destruct (j1_sel s HJ) as [(_ & C0 & _)|Hs].
    + exfalso. apply Ec. rewrite C0. reflexivity.
    + apply Hincl, Hs.
Qed.

Lemma body1 : body_ok clock empty_back g fuel J1 (covered seen) Allowed false.
Proof.
  intros M' m p n q s Hm Hm2 HM' HpM HA Hg E HJ.
  rewrite (param_same g HL1 HLM HM M' m HM' Hm HpM) in E.
  apply (fold_cov seen J1 false M' m p n q E); auto.
  intros D ip s' HIn HJ'. apply check1_ok; auto.
Qed.

(** *** second stage: timing *)
Variable s1 : st.
Hypothesis Hs1 : J1 s1.

Definition tcands (s : st) : list cand := map fst (timed s).

Record J2 (s : st) : Prop := {
  j2_seen : seen s = seen s1;
  j2_cnt : counter s = counter s1;
  j2_eb : emptyback s = emptyback s1;
  j2_timed : Forall good (tcands s);
  j2_sel : cur s = cur s1 \/ In (cur s) (tcands s);
  j2_T : (sT s <= DBL_MAX)%Z;
  j2_best : forall x z, In (x, Some z) (timed s) -> (sT s <= z)%Z;
  j2_cur : (sT s < DBL_MAX)%Z -> In (cur s, Some (sT s)) (timed s);
  j2_clock : map snd (timed s) = map clock (seq 0 (length (timed s))) }.

Lemma fixed_ok M' m p n q D : rng m -> rng M' -> pM g M' m ->
  parameters L M' m c = Ret (p, n, q) -> valid (kd g) m p q n D (cS g) = true ->
  fixed_pad g M' m D = Ret (p, n, q).
Proof.
  intros Hm HM' HpM E V. unfold fixed_pad, checkParameters.
  assert (E1 : (L <=? M') && (cC g <=? cS g) = true).
  { apply andb_true_intro. split; apply N.leb_le; auto. destruct HpM as [->|[A _]]; lia. }
  rewrite E1, E. cbn [bind]. rewrite V, andb_false_r. unfold common. rewrite E. cbn [bind].
  destruct (parameters_geometry (kd g) L M' m p n q rL HM' Hm E) as (_ & _ & _ & A & B).
  rewrite B. destruct (N.ltb_spec (q * m) M'); [lia|auto].
Qed.

Lemma check2_ok M' m p q n D ip s :
  rng m -> m <= 2 ^ 32 -> Allowed m -> gate g p -> rng M' -> pM g M' m ->
  parameters L M m c = Ret (p, n, q) -> In (D, ip) (DIl n) -> J2 s ->
  ok (chk M' m p q n D ip true s) (fun s' => J2 s' /\ incl (tcands s) (tcands s') /\
     (valid (kd g) m p q n D (cS g) = true -> In (m, D, ip) (tcands s'))).
Proof.
  intros Hm Hm2 HA Hg HM' HpM E HIn HJ. unfold check.
  destruct (valid (kd g) m p q n D (cS g)) eqn:V.
  2:{ simpl. split; auto. split; [apply incl_refl|discriminate]. }
  unfold time_call.
  assert (E' : parameters L M' m c = Ret (p, n, q)).
  { rewrite (param_same g HL1 HLM HM M' m HM' Hm HpM). exact E. }
  rewrite (fixed_ok M' m p n q D Hm HM' HpM E' V). cbn [bind].
  set (t := clock (length (timed s))).
  set (tm := timed s ++ [(m, D, ip, t)]).
  assert (Hgood : good (m, D, ip)).
  { split; auto. split; auto. split; auto. exists p, n, q. auto. }
  assert (Htm : map fst tm = tcands s ++ [(m, D, ip)]) by (unfold tm; rewrite map_app; reflexivity).
  assert (Htg : Forall good (map fst tm)).
  { rewrite Htm. apply Forall_app. split; [apply HJ|]. constructor; auto. }
  assert (Hck : map snd tm = map clock (seq 0 (length tm))).
  { unfold tm. rewrite map_app, app_length, seq_app, map_app, (j2_clock s HJ). reflexivity. }
  assert (Hincl : incl (tcands s) (map fst tm)) by (rewrite Htm; apply incl_appl, incl_refl).
  assert (Hlast : In (m, D, ip) (map fst tm)) by (rewrite Htm; apply in_or_app; right; left; auto).
  assert (Hin_tm : forall x, In x (timed s) -> In x tm) by (intros; apply in_or_app; auto).
  assert (Hold : forall b : bool, (forall z, t = Some z -> (sT s <= z)%Z) ->
    J2 {| counter := counter s; sm := sm s; sD := sD s; sI := sI s; mlist := mlist s; sT := sT s;
          seen := seen s; timed := tm; emptyback := emptyback s |}).
  { intros _ Ht. constructor; simpl; auto; try apply HJ.
    - destruct (j2_sel s HJ) as [X|X]; [left; exact X|right; apply Hincl; exact X].
    - intros x z Hx. apply in_app_or in Hx. destruct Hx as [Hx|[Hx|[]]].
      + eapply (j2_best s HJ); eauto.
      + inversion Hx. apply Ht. auto.
    - intros Hx. apply Hin_tm. apply (j2_cur s HJ Hx). }
  destruct t as [z|] eqn:Et.
  - destruct (Z.ltb_spec z (sT s)) as [Hz|Hz]; simpl.
    + split; [|auto]. constructor; simpl; auto; try apply HJ.
      * pose proof (j2_T s HJ). lia.
      * intros x w Hx. apply in_app_or in Hx. destruct Hx as [Hx|[Hx|[]]].
        -- pose proof (j2_best s HJ x w Hx). lia.
        -- inversion Hx. lia.
      * intros _. apply in_or_app. right. left. reflexivity.
    + split; [|auto]. apply (Hold true). intros w Hw. inversion Hw. lia.
  - simpl. split; [|auto]. apply (Hold true). discriminate.
Qed.

Lemma body2 : body_ok clock empty_back g fuel J2 (covered tcands) Allowed true.
Proof.
  intros M' m p n q s Hm Hm2 HM' HpM HA Hg E HJ.
  rewrite (param_same g HL1 HLM HM M' m HM' Hm HpM) in E.
  apply (fold_cov tcands J2 true M' m p n q E); auto.
  intros D ip s' HIn HJ'. apply check2_ok; auto.
Qed.

Lemma AllowedE : cExpl g = true -> forall m, M <= m -> Allowed m.
Proof. intros E m H. split; auto. intros X. rewrite E in X. discriminate. Qed.

Lemma retime_ok ms : forall s, Forall mgood ms -> J2 s ->
  ok (retime clock empty_back g fuel ms s)
     (fun s' => J2 s' /\ (forall m, covered tcands m s -> covered tcands m s') /\
                (cExpl g = false -> forall m, In m ms -> covered tcands m s')).
Proof.
  induction ms as [|m ms IH]; intros s Hms HJ.
  - simpl. split; [auto|split; [auto|intros _ m []]].
  - inversion Hms as [|? ? (Hm & Hm2 & HA & Hg) Hr]; subst. cbn [retime].
    destruct (cExpl g) eqn:EE.
    + eapply ok_bind.
      * apply (opt_expl clock empty_back g fuel Hfuel HI HD HL1 HLM HM J2 (covered tcands) Allowed true
                 body2 m true s EE); auto. apply AllowedE; auto.
      * intros r (A1 & A2 & A3 & A4). eapply ok_mono; [apply IH; auto|].
        cbn beta. intros s' (B1 & B2 & B3). split; [auto|split; [auto|discriminate]].
    + eapply ok_bind.
      * apply (opt_forced clock empty_back g fuel Hfuel HI HD HL1 HLM HM J2 (covered tcands) Allowed true
                 body2 m s EE); auto. apply Hm.
      * intros r (A1 & A2 & A3 & A4). eapply ok_mono; [apply IH; auto|].
        cbn beta. intros s' (B1 & B2 & B3). split; [auto|split; [auto|]].
        intros _ m' [<-|Hin]; auto.
Qed.
End Scan.
