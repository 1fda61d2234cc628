(** Assembly of the optimizer results. *)
From Coq Require Import NArith ZArith List Bool Lia.
From Verif Require Import UtilsModel UtilsSpec UtilsProofs OptModel OptSpec OptLemmas OptLoop OptProofs.
Import ListNotations.
Local Open Scope N_scope.

Section Main.
Variable clock : nat -> time.
Variable empty_back : N.
Variable g : cfg.
Variable fuel : nat.
Variable am : N.
Hypothesis Hfuel : (150 <= fuel)%nat.
Hypothesis Hfuel2 : (N.to_nat (cM g) < fuel)%nat.
Hypothesis HI : (- 2 ^ 63 <= appI g < 2 ^ 63 - 1)%Z.
Hypothesis HD : appD g < W64.
Hypothesis HL1 : 1 <= cL g.
Hypothesis HLM : cL g <= cM g.
Hypothesis HM : cM g <= 2 ^ 26.
Hypothesis Ham : am <= 2 ^ 32.
Hypothesis HCS : cC g <= cS g.
Set Default Proof Using "All".

Notation c := (centered (kd g)).
Notation good := (good g fuel am).
Notation covered := (covered g fuel).
Notation J1 := (J1 empty_back g fuel am).
Notation J2 := (J2 clock g fuel am).

Record final (am' : N) (s : st) : Prop := {
  f_sel : good (cur s) \/ (cur s = (cM g, 1, false) /\ seen s = []);
  f_forced : 1 <= am -> cExpl g = false -> gate g (pOf g am) -> covered seen am s;
  f_free : am = 0 \/ cExpl g = true -> exists m, cM g <= m /\ rng m /\ covered seen m s;
  f_eb : seen s <> [] -> emptyback s = true;
  f_am : am' = am \/ (1 <= am /\ cExpl g = false /\ ~ gate g (pOf g am));
  f_seen : Forall good (seen s);
  f_all : 1 < counter s -> cExpl g = false -> empty_back = 0 -> incl (seen s) (map fst (timed s));
  f_best : forall x z, In (x, Some z) (timed s) -> (z < DBL_MAX)%Z ->
             exists T, In (cur s, Some T) (timed s) /\ (T <= z)%Z;
  f_clock : map snd (timed s) = map clock (seq 0 (length (timed s))) }.

Lemma J1_init : J1 (mkst 0 (cM g) 1 false [] DBL_MAX [] [] false).
Proof.
  constructor; simpl; auto.
  - intros [X|X]; contradiction.
Qed.

Lemma J1_J2 s : J1 s -> J2 s s.
Proof.
  intros H. constructor; auto.
  - unfold tcands. rewrite (j1_timed _ _ _ _ _ H). constructor.
  - rewrite (j1_T _ _ _ _ _ H). lia.
  - rewrite (j1_timed _ _ _ _ _ H). intros x z [].
  - rewrite (j1_T _ _ _ _ _ H). lia.
  - rewrite (j1_timed _ _ _ _ _ H). reflexivity.
Qed.

Lemma stage1 : ok (opt clock empty_back g fuel am 2 3 (1 <=? am) false
                     (mkst 0 (cM g) 1 false [] DBL_MAX [] [] false))
  (fun r => J1 (snd r) /\
    (1 <= am -> cExpl g = false -> gate g (pOf g am) -> covered seen am (snd r)) /\
    (am = 0 \/ cExpl g = true -> exists m, cM g <= m /\ rng m /\ covered seen m (snd r)) /\
    (fst r = am \/ (1 <= am /\ cExpl g = false /\ ~ gate g (pOf g am)))).
Proof.
  pose proof (body1 clock empty_back g fuel am) as B. 
  pose proof J1_init as I0.
  destruct (cExpl g) eqn:EE.
  - eapply ok_mono.
    + apply (opt_expl clock empty_back g fuel Hfuel HI HD HL1 HLM HM J1 (covered seen) (Allowed g am) false
               ltac:(apply B; auto) am (1 <=? am)
               _ EE); auto. intros m Hm. split; [auto|intros X; rewrite EE in X; discriminate].
    + cbn beta. intros r (A1 & A2 & A3 & A4). split; [auto|]. split; [discriminate|]. auto.
  - destruct (N.leb_spec 1 am) as [H1|H1].
    + eapply ok_mono.
      * apply (opt_forced clock empty_back g fuel Hfuel HI HD HL1 HLM HM J1 (covered seen) (Allowed g am) false
                 ltac:(apply B; auto) am _ EE); auto.
        split; [intros X; rewrite EE in X; discriminate|auto].
      * cbn beta. intros r (A1 & A2 & A3 & A4). split; [auto|]. split; [auto|].
        split; [intros [X|X]; [lia|discriminate]|]. destruct A4; auto.
    + eapply ok_mono.
      * apply (opt_free clock empty_back g fuel Hfuel HI HD HL1 HLM HM J1 (covered seen) (Allowed g am) false
                 ltac:(apply B; auto) am _ EE); auto.
        intros m. split; [intros X; rewrite EE in X; discriminate|intros; lia].
      * cbn beta. intros r (A1 & A2 & A3 & A4). split; [auto|]. split; [intros; lia|]. auto.
Qed.

Lemma J1_good_cur s : J1 s -> good (cur s) \/ (cur s = (cM g, 1, false) /\ seen s = []).
Proof.
  intros H. destruct (j1_sel _ _ _ _ _ H) as [(A & _ & B)|A]; auto.
  left. pose proof (j1_seen _ _ _ _ _ H) as F. rewrite Forall_forall in F. apply F, A.
Qed.

Lemma scan_ok : ok (scan clock empty_back g fuel am) (fun r => final (fst r) (snd r)).
Proof.
  unfold scan. eapply ok_bind; [apply stage1|]. intros r (H1 & H2 & H3 & H4).
  set (s1 := snd r) in *.
  destruct (N.ltb_spec 1 (counter s1)) as [Hc|Hc].
  - eapply ok_bind.
    + apply (retime_ok clock empty_back g fuel am Hfuel Hfuel2 HI HD HL1 HLM HM Ham HCS s1 H1 (mlist s1) s1).
      * apply (j1_ml _ _ _ _ _ H1).
      * apply J1_J2, H1.
    + intros s (A1 & _ & A3). simpl. destruct A1 as [B1 B2 B3 B4 B5 B6 B7 B8 B9]. constructor.
      * rewrite B1. destruct B5 as [X|X].
        -- rewrite X. apply J1_good_cur, H1.
        -- left. rewrite Forall_forall in B4. apply B4, X.
      * intros X Y Z. specialize (H2 X Y Z). unfold OptProofs.covered in *. rewrite B1. exact H2.
      * intros X. destruct (H3 X) as (m & Y1 & Y2 & Y3). exists m. repeat split; auto; try apply Y2.
        unfold OptProofs.covered in *. rewrite B1. exact Y3.
      * rewrite B1, B3. intros X. apply (j1_eb _ _ _ _ _ H1). auto.
      * auto.
      * rewrite B1. apply H1.
      * intros _ Hex He. rewrite B1. intros [[m D] ip] Hx.
        pose proof (j1_back _ _ _ _ _ H1 He _ Hx) as Hm. cbn in Hm.
        pose proof (j1_seen _ _ _ _ _ H1) as F. rewrite Forall_forall in F.
        destruct (F _ Hx) as (G1 & G2 & G3 & p & n & q & G4 & G5 & G6 & G7).
        exact (A3 Hex m Hm p n q D ip G4 G6 G7).
      * intros x z Hx Hz. exists (sT s). pose proof (B7 x z Hx). split; auto. apply B8. lia.
      * auto.
  - simpl. pose proof (j1_timed _ _ _ _ _ H1) as Et. constructor; auto.
    + apply J1_good_cur, H1.
    + intros X. apply (j1_eb _ _ _ _ _ H1). auto.
    + apply H1.
    + intros X. fold s1 in X. lia.
    + fold s1. rewrite Et. intros x z [].
    + fold s1. rewrite Et. reflexivity.
Qed.

Lemma rngLx : rng (cL g). Proof. apply rngL; auto. Qed.
Lemma rngMx : rng (cM g). Proof. apply rngM; auto. Qed.

Lemma valid_one k m S : valid k m 1 1 1 1 S = true.
Proof. destruct k; reflexivity. Qed.

Definition built_ok (b : built) (am' : N) (s : st) : Prop :=
  final am' s /\ cur s = (bm b, bD b, bI b) /\ rng (bm b) /\
  parameters (cL g) (cM g) (bm b) c = Ret (bp b, bn b, bq b) /\
  valid (kd g) (bm b) (bp b) (bq b) (bn b) (bD b) (cS g) = true /\ 1 <= bD b.

Lemma good_DI m D ip : good (m, D, ip) ->
  1 <= D /\ (0 < appD g -> D = appD g) /\ In ip (ivals g).
Proof.
  intros (A & _ & _ & p & n & q & E & _ & HIn & _).
  destruct (parameters_geometry (kd g) _ _ m p n q rngLx rngMx A E) as (_ & Hn & _).
  assert (Hr : rng n) by (pose proof rngMx as [_ X]; split; lia).
  apply in_prod_iff in HIn. destruct HIn as [H1 H2].
  destruct (dlist_ok clock g fuel Hfuel HI HD n Hr) as (_ & F & _).
  rewrite Forall_forall in F. destruct (F D H1). auto.
Qed.

Lemma construct_ok : ok (construct clock empty_back g fuel am) (fun '(b, am', s) => built_ok b am' s).
Proof.
  unfold construct, checkParameters.
  assert (E1 : (cL g <=? cM g) && (cC g <=? cS g) = true).
  { apply andb_true_intro; split; apply N.leb_le; auto. }
  rewrite E1. eapply ok_bind; [apply scan_ok|]. intros [am' s] Hf. cbn [fst snd] in Hf |- *.
  assert (X : rng (sm s) /\ 1 <= sD s /\ (cExpl g = true -> cM g <= sm s) /\
    exists p n q, parameters (cL g) (cM g) (sm s) c = Ret (p, n, q) /\
      valid (kd g) (sm s) p q n (sD s) (cS g) = true).
  { destruct (f_sel _ _ Hf) as [G|[G _]].
    - pose proof G as (A1 & A2 & A3 & p & n & q & A4 & _ & A6 & A7).
      destruct (good_DI _ _ _ G) as (D1 & _).
      split; auto. split; auto. split; [apply A3|]. exists p, n, q. auto.
    - unfold cur in G. inversion G as [[Em ED Ei]]. rewrite Em, ED.
      split; [apply rngMx|]. split; [lia|]. split; [intros; lia|]. exists 1, 1, 1.
      split; [|apply valid_one].
      apply parameters_explicit; auto using rngLx, rngMx; lia. }
  destruct X as (Hm & HD1 & HE & p & n & q & Ep & V).
  assert (Ep2 : ok (parameters (cL g) (if cExpl g then sm s else cM g) (sm s) c) (fun _ => True)).
  { destruct (cExpl g).
    - rewrite parameters_explicit; auto using rngLx; try lia; exact I || (specialize (HE eq_refl); lia).
    - rewrite Ep. exact I. }
  eapply ok_bind; [exact Ep2|]. intros _ _.
  unfold common. rewrite Ep. cbn [bind].
  destruct (parameters_geometry (kd g) _ _ (sm s) p n q rngLx rngMx Hm Ep) as (_ & _ & _ & A & B).
  rewrite B. destruct (N.ltb_spec (q * sm s) (cM g)); [lia|]. simpl.
  split; auto.
Qed.

Lemma ivals_ok ip : In ip (ivals g) -> inplace_ok (kd g) (cC g) (appI g) ip.
Proof.
  unfold ivals, inplace_ok. destruct (Z.eqb_spec (appI g) (-1)) as [E|E].
  - intros H. split; [|intros X; contradiction]. intros _ HC Hk.
    destruct (N.ltb_spec 1 (cC g)); [|lia]. destruct (kd g); try contradiction; simpl in H;
      destruct H as [<-|[]]; reflexivity.
  - intros [<-|[]]. split; [intros; contradiction|]. intros _.
    destruct (Z.eqb_spec (appI g) 0); simpl; split; intros; auto; try discriminate; contradiction.
Qed.

Lemma ivals_ne : exists ip, In ip (ivals g).
Proof.
  unfold ivals. destruct (_ =? _)%Z; [destruct (_ && _)|]; eexists; left; reflexivity.
Qed.

Lemma usable_gate p n q D : usable (kd g) (cS g) am p n q D ->
  geometry (kd g) (cL g) (cM g) am p n q -> 1 <= n -> gate g p.
Proof.
  intros U (_ & _ & P & P1 & P2 & P3 & Hn & Eq) Hn1 H2 Hc. apply even_mod.
  assert (Hq : q <> 1).
  { destruct (N.Even_or_Odd p) as [He|Ho].
    - assert (2 * P = p); [|].
      { apply P1. right. split; auto. destruct (kd g); try discriminate; auto. }
      assert (Hp4 : 2 <= P) by (destruct He as [x Hx]; lia). nia.
    - assert (P = p).
      { apply P2. intros [->|[_ [x Hx]]]; [lia|]. destruct Ho as [y Hy]. lia. }
      subst P. nia. }
  destruct (kd g); try discriminate; unfold usable in U.
  - destruct U as (_ & _ & [X|X]); [contradiction|auto].
  - destruct U as [[_ X]|(_ & X & _)]; [contradiction|auto].
Qed.
End Main.
