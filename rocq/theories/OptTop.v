(** The optimizer results in the vocabulary of OptSpec. *)
From Coq Require Import NArith ZArith List Bool Lia Arith.
From Verif Require Import PadModel.
From Verif Require Import UtilsModel UtilsSpec UtilsProofs OptModel OptSpec OptLemmas OptLoop OptProofs
  OptMain.
Import ListNotations.
Local Open Scope N_scope.

Lemma run clock eb g am fuel : in_domain g am -> enough g fuel ->
  ok (construct clock eb g fuel am) (fun '(b, am', s) => built_ok clock eb g fuel am b am' s).
Proof.
  intros (A1 & A2 & A3 & A4 & A5 & A6 & A7) Hf. unfold enough in Hf.
  apply construct_ok; auto; try lia.
Qed.

Lemma dom_rng g am : in_domain g am -> rng (cL g) /\ rng (cM g).
Proof.
  intros (A1 & A2 & A3 & _). assert (2 ^ 26 <= 2 ^ 33) by (apply pow2_le; lia).
  split; split; lia.
Qed.

Lemma always_built clock eb g am fuel : in_domain g am -> enough g fuel ->
  exists b am' s, construct clock eb g fuel am = Ret (b, am', s) /\
    geometry (kd g) (cL g) (cM g) (bm b) (bp b) (bn b) (bq b) /\
    usable (kd g) (stride (kd g) (cC g) (cS0 g)) (bm b) (bp b) (bn b) (bq b) (bD b) /\
    1 <= bD b /\ cM g <= bq b * bm b /\ (cExpl g = true -> cM g <= bm b /\ bq b = 1).
Proof.
  intros Hd Hf. pose proof (run clock eb g am fuel Hd Hf) as R.
  apply ok_inv in R. destruct R as ([[b am'] s] & E & (Fn & Cu & Hm & Ep & V & D1)).
  exists b, am', s. split; auto.
  destruct (dom_rng g am Hd) as [rl rm].
  destruct (parameters_geometry (kd g) _ _ _ _ _ _ rl rm Hm Ep) as (G & Hn & Hp & Hq & _).
  split; auto. split; [|split; [auto|split; [auto|]]].
  - apply valid_iff in V; auto; try lia. destruct rm. rewrite W64_val.
    change (2 ^ 33) with 8589934592 in *. lia.
  - intros He. assert (Hle : cM g <= bm b).
    { destruct (f_sel _ _ _ _ _ _ _ Fn) as [G'|[G' _]]; rewrite Cu in G'.
      - destruct G' as (_ & _ & [X _] & _). auto.
      - inversion G'. lia. }
    split; auto. rewrite parameters_explicit in Ep; auto; try (destruct Hd as (? & ? & _); lia).
    inversion Ep. auto.
Qed.

Lemma forced_or_fallback clock eb g am fuel b am' s : in_domain g am -> enough g fuel ->
  construct clock eb g fuel am = Ret (b, am', s) ->
  (bm b = cM g /\ bD b = 1 /\ bI b = false) \/
  ((1 <= am -> cExpl g = false -> bm b = am) /\ (1 <= appD g -> bD b = appD g) /\
   inplace_ok (kd g) (cC g) (appI g) (bI b)).
Proof.
  intros Hd Hf E. pose proof (run clock eb g am fuel Hd Hf) as R. rewrite E in R.
  destruct R as (Fn & Cu & _). destruct (f_sel _ _ _ _ _ _ _ Fn) as [G|[G _]]; rewrite Cu in G.
  - right. pose proof G as (_ & _ & [_ X] & _).
    destruct Hd as (A1 & A2 & A3 & A4 & A5 & A6 & A7). unfold enough in Hf.
    destruct (good_DI clock eb g fuel am ltac:(lia) ltac:(lia) A7 A6 A1 A2 A3 A5 A4 _ _ _ G) as (_ & B & C).
    split; auto. split; [intros; apply B; lia|].
    exact (ivals_ok clock eb g fuel am ltac:(lia) ltac:(lia) A7 A6 A1 A2 A3 A5 A4 _ C).
  - left. inversion G. auto.
Qed.

Lemma forced_used clock eb g am fuel b am' s p n q : in_domain g am -> enough g fuel ->
  cExpl g = false -> 1 <= am -> 1 <= appD g -> appD g < 2 ^ 63 ->
  geometry (kd g) (cL g) (cM g) am p n q ->
  usable (kd g) (stride (kd g) (cC g) (cS0 g)) am p n q (appD g) ->
  construct clock eb g fuel am = Ret (b, am', s) ->
  bm b = am /\ bD b = appD g /\ inplace_ok (kd g) (cC g) (appI g) (bI b) /\ am' = am.
Proof.
  intros Hd Hf HE H1 HD1 HD2 Hg U E. pose proof (run clock eb g am fuel Hd Hf) as R. rewrite E in R.
  destruct R as (Fn & Cu & _). destruct (dom_rng g am Hd) as [rl rm].
  pose proof Hd as (A1 & A2 & A3 & A4 & A5 & A6 & A7). unfold enough in Hf.
  assert (rma : rng am).
  { split; auto. eapply N.le_trans; [exact A5|apply pow2_le; lia]. }
  destruct (parameters_ok (cL g) (cM g) am (centered (kd g)) rl rm rma) as (n' & Ep & _).
  destruct (parameters_geometry (kd g) _ _ _ _ _ _ rl rm rma Ep) as (G' & Hn' & _).
  set (p' := ceilquotient (cL g) am) in *. set (q' := effP (centered (kd g)) p' * n') in *.
  assert (X : p = p' /\ n = n' /\ q = q').
  { destruct Hg as (g1 & g2 & P & g3 & g4 & g5 & g6 & g7).
    destruct G' as (h1 & h2 & P' & h3 & h4 & h5 & h6 & h7).
    assert (p = p') by (apply (is_ceil_unique (cL g) am p p' H1 g2 h2)). subst p.
    assert (P = P').
    { destruct (halved_iff (kd g) p') as [Z1 Z2]. destruct (_ || _).
      - specialize (g3 (Z1 eq_refl)). specialize (h3 (Z1 eq_refl)). lia.
      - assert (~ halved (kd g) p') by (intros Y; apply Z2 in Y; discriminate).
        rewrite (g4 H), (h4 H). reflexivity. }
    subst P'. assert (HPm : 1 <= P * am) by nia.
    assert (n = n') by (apply (is_ceil_unique (cM g) (P * am) n n' HPm g6 h6)). subst n. split; auto. split; auto. lia. }
  destruct X as (-> & -> & ->).
  assert (Hgate : gate g p').
  { eapply (usable_gate clock eb g fuel am); eauto; try lia. }
  pose proof (f_forced _ _ _ _ _ _ _ Fn H1 HE Hgate) as Cov.
  assert (HnW : n' < W64).
  { destruct rm. rewrite W64_val. change (2 ^ 33) with 8589934592 in *. lia. }
  assert (V : valid (kd g) am p' q' n' (appD g) (cS g) = true).
  { apply valid_iff; auto. lia. }
  assert (Hr : rng n') by (destruct rm; split; lia).
  destruct (ivals_ne clock eb g fuel am ltac:(lia) ltac:(lia) A7 A6 A1 A2 A3 A5 A4) as [ip Hip].
  assert (HIn : In (appD g, ip) (DI g fuel n')).
  { apply in_prod; auto. destruct (dlist_ok clock g fuel ltac:(lia) A7 A6 n' Hr) as (_ & _ & _ & X).
    rewrite X; [left; auto|lia|auto]. }
  specialize (Cov _ _ _ _ _ Ep HIn V).
  assert (Hne : seen s <> []) by (intros X; rewrite X in Cov; destruct Cov).
  destruct (f_sel _ _ _ _ _ _ _ Fn) as [G|[_ G]]; [|contradiction]. rewrite Cu in G.
  pose proof G as (_ & _ & [_ X] & _).
  destruct (good_DI clock eb g fuel am ltac:(lia) ltac:(lia) A7 A6 A1 A2 A3 A5 A4 _ _ _ G) as (_ & B & C).
  repeat split; auto.
  - apply B. lia.
  - apply (ivals_ok clock eb g fuel am ltac:(lia) ltac:(lia) A7 A6 A1 A2 A3 A5 A4 _ C).
  - apply (ivals_ok clock eb g fuel am ltac:(lia) ltac:(lia) A7 A6 A1 A2 A3 A5 A4 _ C); auto.
  - apply (ivals_ok clock eb g fuel am ltac:(lia) ltac:(lia) A7 A6 A1 A2 A3 A5 A4 _ C); auto.
  - destruct (f_am _ _ _ _ _ _ _ Fn) as [Y|(_ & _ & Y)]; auto. contradiction.
Qed.

Lemma fastest clock eb g am fuel b am' s : in_domain g am -> enough g fuel ->
  construct clock eb g fuel am = Ret (b, am', s) ->
  map snd (timed s) = map clock (seq 0 (length (timed s))) /\
  (forall x z, In (x, Some z) (timed s) -> (z < DBL_MAX)%Z ->
     exists T, In ((bm b, bD b, bI b), Some T) (timed s) /\ (T <= z)%Z) /\
  (1 < counter s -> cExpl g = false -> eb = 0 ->
     forall x, In x (seen s) -> exists t, In (x, t) (timed s)).
Proof.
  intros Hd Hf E. pose proof (run clock eb g am fuel Hd Hf) as R. rewrite E in R.
  destruct R as (Fn & Cu & _). split; [apply Fn|]. split.
  - rewrite <- Cu. apply Fn.
  - intros H1 H2 H3 x Hx. apply (f_all _ _ _ _ _ _ _ Fn H1 H2 H3) in Hx.
    apply in_map_iff in Hx. destruct Hx as ([y t] & Ey & Hy). exists t. cbn in Ey. subst. auto.
Qed.

Lemma stops clock eb g am fuel : ~ (cL g <= cM g /\ cC g <= stride (kd g) (cC g) (cS0 g)) ->
  construct clock eb g fuel am = Stop.
Proof.
  intros H. unfold construct, checkParameters. destruct (_ && _) eqn:E; auto.
  exfalso. apply H. apply andb_prop in E. rewrite !N.leb_le in E. exact E.
Qed.

Lemma app_m_kept clock eb g am fuel b am' s : in_domain g am -> enough g fuel ->
  construct clock eb g fuel am = Ret (b, am', s) ->
  (kd g = KCentered \/ kd g = KHermitian -> cExpl g = false -> 1 <= am -> forall p, is_ceil (cL g) am p ->
     p <= 2 \/ N.Even p) -> am' = am.
Proof.
  intros Hd Hf E Hx. pose proof (run clock eb g am fuel Hd Hf) as R. rewrite E in R.
  destruct R as (Fn & _). destruct (f_am _ _ _ _ _ _ _ Fn) as [Y|(Y1 & Y2 & Y3)]; auto.
  exfalso. apply Y3. intros H2 Hc. apply even_mod.
  destruct (dom_rng g am Hd) as [rl rm].
  assert (rma : rng am).
  { split; auto. destruct Hd as (_ & _ & _ & _ & A5 & _).
    eapply N.le_trans; [exact A5|apply pow2_le; lia]. }
  destruct (Hx ltac:(destruct (kd g); try discriminate; auto) Y2 Y1 _
             (proj1 (cq_ok _ _ rl rma))) as [Z|Z]; auto. unfold pOf in H2. lia.
Qed.

Lemma back_empty clock eb g fuel b am' s : in_domain g 0 -> appD g = 0 -> enough g fuel ->
  construct clock eb g fuel 0 = Ret (b, am', s) -> emptyback s = true.
Proof.
  intros Hd HD0 Hf E. pose proof (run clock eb g 0 fuel Hd Hf) as R. rewrite E in R.
  destruct R as (Fn & _). destruct (dom_rng g 0 Hd) as [rl rm].
  pose proof Hd as (A1 & A2 & A3 & A4 & A5 & A6 & A7). unfold enough in Hf.
  destruct (f_free _ _ _ _ _ _ _ Fn) as (m & Hm1 & Hm2 & Cov); auto.
  apply (f_eb _ _ _ _ _ _ _ Fn).
  destruct (ivals_ne clock eb g fuel 0 ltac:(lia) ltac:(lia) A7 A6 A1 A2 A3 A5 A4) as [ip Hip].
  assert (r1 : rng 1) by (split; [lia|change (2 ^ 33) with 8589934592; lia]).
  assert (HIn : In (1, ip) (DI g fuel 1)).
  { apply in_prod; auto. destruct (dlist_ok clock g fuel ltac:(lia) A7 A6 1 r1) as (_ & _ & X & _). auto. }
  specialize (Cov 1 1 1 1 ip (parameters_explicit _ _ _ _ rl rm Hm2 A2 Hm1) HIn).
  intros X. rewrite X in Cov. apply Cov. destruct (kd g); reflexivity.
Qed.

(** *** the complex class: the pad built satisfies the well-formedness used by C05-C12 *)
Lemma cq_nat a b y : 1 <= b -> is_ceil a b y -> cq (N.to_nat a) (N.to_nat b) = N.to_nat y.
Proof.
  intros Hb [H1 H2]. unfold cq. symmetry.
  assert (E1 : (N.to_nat (b * y) < N.to_nat (a + b))%nat) by lia.
  assert (E2 : (N.to_nat a <= N.to_nat (b * y))%nat) by lia.
  rewrite N2Nat.inj_mul in E1, E2. rewrite N2Nat.inj_add in E1.
  set (A := N.to_nat a) in *. set (Bn := N.to_nat b) in *. set (Y := N.to_nat y) in *.
  assert (HB : (1 <= Bn)%nat) by lia.
  apply (Nat.div_unique (A + Bn - 1) Bn Y (A + Bn - 1 - Bn * Y)); lia.
Qed.

Lemma complex_wf clock eb g am fuel b am' s A B ow : in_domain g am -> enough g fuel ->
  kd g = KComplex -> 1 <= cC g ->
  construct clock eb g fuel am = Ret (b, am', s) ->
  wf (mkpad (N.to_nat (cL g)) (N.to_nat (cM g)) (N.to_nat (cC g))
        (N.to_nat (stride KComplex (cC g) (cS0 g))) (N.to_nat (bm b)) (N.to_nat (bD b)) (bI b) A B ow).
Proof.
  intros Hd Hf Hk HC E.
  destruct (always_built clock eb g am fuel Hd Hf) as (b2 & a2 & s2 & E2 & G & U & D1 & Hq & _).
  rewrite E in E2. inversion E2; subst b2 a2 s2. clear E2. rewrite Hk in G, U.
  destruct Hd as (A1 & A2 & A3 & A4 & _). rewrite Hk in A4.
  destruct G as (G1 & G2 & P & G3 & G4 & G5 & G6 & G7). destruct U as [U1 U2].
  set (t := mkpad _ _ _ _ _ _ _ _ _ _).
  assert (Ep : gp t = N.to_nat (bp b)).
  { unfold gp, param_p. cbn [aL PadModel.am t]. apply cq_nat; auto. }
  assert (EP : param_P false (gp t) = N.to_nat P).
  { rewrite Ep. unfold param_P. cbn [andb orb].
    destruct (Nat.eqb_spec (N.to_nat (bp b)) 2) as [X|X].
    - assert (Y : bp b = 2) by lia. specialize (G3 (or_introl Y)). rewrite Y.
      assert (P = 1) by lia. subst P. reflexivity.
    - assert (Y : ~ halved KComplex (bp b)).
      { intros [Y|[[Y|Y] _]]; [lia|discriminate|discriminate]. }
      rewrite (G4 Y). reflexivity. }
  assert (En : gn t = N.to_nat (bn b)).
  { unfold gn, param_n. fold (gp t). change (param_p (aL t) (PadModel.am t)) with (gp t). rewrite EP.
    cbn [aM PadModel.am t]. rewrite <- N2Nat.inj_mul. apply cq_nat; auto. nia. }
  assert (Eq : gq t = N.to_nat (bq b)).
  { unfold gq, param_q. change (param_p (aL t) (PadModel.am t)) with (gp t).
    change (param_n (aL t) (aM t) (PadModel.am t) false) with (gn t). rewrite EP, En, G7. lia. }
  unfold wf. unfold gL, gC, gS, gm. cbn [aL aM aC aS PadModel.am aD t].
  repeat split; try lia.
  unfold PadModel.valid, gD, gS. rewrite Eq, En. cbn [aD aS t].
    destruct (Nat.eqb_spec (N.to_nat (bq b)) 1) as [X|X]; [reflexivity|].
    destruct U2 as [U2|(U2 & U3)].
    + rewrite U2. reflexivity.
    + assert (ES : N.to_nat (stride KComplex (cC g) (cS0 g)) = 1%nat) by lia. rewrite ES.
      cbn [Nat.eqb andb]. apply orb_true_iff. right. apply orb_true_iff.
      destruct U3 as [->|[U3 [x Hx]]].
      * right. apply Nat.eqb_refl.
      * left. apply andb_true_iff. split; [apply Nat.ltb_lt; lia|].
        apply Nat.eqb_eq. rewrite Hx, N2Nat.inj_mul. rewrite Nat.mul_comm. apply Nat.mod_mul. lia.
Qed.

(** *** concrete runs *)
Lemma in_domain_dec g am :
  (1 <=? cL g) && (cL g <=? cM g) && (cM g <=? 2 ^ 26) && (cC g <=? stride (kd g) (cC g) (cS0 g)) &&
  (am <=? 2 ^ 32) && (appD g <? 2 ^ 64) && (- 2 ^ 63 <=? appI g)%Z && (appI g <? 2 ^ 63 - 1)%Z = true ->
  in_domain g am.
Proof.
  rewrite !andb_true_iff, !N.leb_le, N.ltb_lt, Z.leb_le, Z.ltb_lt. unfold in_domain. tauto.
Qed.

(** a clock that reports 1000, 999, ...: the last candidate timed wins *)
Definition ck : nat -> time := fun k => Some (1000 - Z.of_nat k)%Z.
Definition summary (o : out (built * N * st)) :=
  match o with
  | Ret (b, a, s) => Some (b, a, seen s, map fst (timed s))
  | _ => None
  end.

Lemma application_changed : exists g, in_domain g 3 /\ enough g 200 /\
  exists b s, construct ck 0 g 200 3 = Ret (b, 4, s).
Proof.
  exists (mkcfg KCentered 9 16 1 0 false 0 (-1)). split; [apply in_domain_dec; reflexivity|].
  split; [apply (Nat.leb_le 166 200); reflexivity|].
  eexists _, _. vm_compute. reflexivity.
Qed.

Lemma explicit_never_timed : exists g, in_domain g 0 /\ cExpl g = true /\ enough g 200 /\
  exists b am' s, construct ck 0 g 200 0 = Ret (b, am', s) /\ 1 < counter s /\
    In (14, 1, false) (seen s) /\ ~ exists t, In ((14, 1, false), t) (timed s).
Proof.
  exists (mkcfg KComplex 8 11 1 0 true 0 (-1)). split; [apply in_domain_dec; reflexivity|].
  split; [reflexivity|]. split; [apply (Nat.leb_le 161 200); reflexivity|].
  eexists _, _, _. split; [vm_compute; reflexivity|]. cbn [counter seen timed].
  split; [reflexivity|]. split; [right; right; left; reflexivity|].
  intros [t H]. repeat (destruct H as [H|H]; [discriminate H|]). exact H.
Qed.
