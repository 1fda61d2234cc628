(** The exchanges of mpitranspose: what every process holds afterwards. *)
From Coq Require Import List Arith Bool Lia ZArith Permutation.
From Verif Require Import MpiModel MpiDims MpiMachine MpiRun MpiTrModel MpiTrGeom MpiLinks MpiTrForm MpiTrComm MpiTrPhase.
Import ListNotations.
Local Open Scope nat_scope.
Set Default Proof Using "All".

Lemma fchoice : forall (A : Type) (R : nat -> A -> Prop) (x0 : A), (forall r, exists x, R r x) ->
  forall K, exists f : nat -> A, forall r, r < K -> R r (f r).
Proof.
  intros A R x0 H K. induction K as [|K [f IH]]; [exists (fun _ => x0); lia|].
  destruct (H K) as [x Hx]. exists (fun r => if r =? K then x else f r). intros r Hr.
  destruct (Nat.eqb_spec r K) as [->|]; auto. apply IH. lia.
Qed.

Section Xch.
Variable V : Type.
Variable c : cfg.
Context {Hc : good c}.
Notation S := (S_ c).
Notation "'U0'" := (n0 c * m0 c * S_ c).
Notation loc := (loc V). Notation prog := (prog V). Notation gst := (gst V).
Notation cmd := (prog -> prog).

Definition LL (d : bool) (r : nat) : list link := if d then LA c d r ++ LB c r else LB c r ++ LA c d r.
Definition itX (d : bool) (sb rb r : nat) : list item :=
  if d then itA c d sb rb r ++ itB c sb rb r else itB c sb rb r ++ itA c d sb rb r.
Lemma LL_perm : forall d r, Permutation (LL d r) (LA c d r ++ LB c r).
Proof. intros [] r; unfold LL; [reflexivity|apply Permutation_app_comm]. Qed.
Lemma LL_in : forall d r x, In x (LL d r) <-> In x (LA c d r ++ LB c r).
Proof. intros. apply Permutation_in'; auto. apply LL_perm. Qed.
Lemma itX_perm : forall d sb rb r, Permutation (itX d sb rb r) (itA c d sb rb r ++ itB c sb rb r).
Proof. intros [] sb rb r; unfold itX; [reflexivity|apply Permutation_app_comm]. Qed.
Lemma itX_in : forall d sb rb r x, In x (itX d sb rb r) <-> In x (itA c d sb rb r ++ itB c sb rb r).
Proof. intros. apply Permutation_in'; auto. apply itX_perm. Qed.
Lemma itX_specs : forall d sb rb r, specs (itX d sb rb r) = specs_of sb rb (LL d r).
Proof.
  intros [] sb rb r; unfold itX, LL; rewrite specs_app, specs_of_app, itA_specs, itB_specs; auto.
Qed.

Definition xpost (d : bool) (sb rb r : nat) (k : prog) : prog :=
  if d then post_items V (itA c d sb rb r) (ocopy V sb rb (cpA c d r) (post_items V (itB c sb rb r) (ocopy V sb rb (cpB c r) k)))
  else post_items V (itB c sb rb r) (ocopy V sb rb (cpB c r) (post_items V (itA c d sb rb r) (ocopy V sb rb (cpA c d r) k))).
Definition wlA (r : nat) : list (list (nat * nat)) := if uniform c then [] else [map (fun i => (0, i)) (seq 0 (cntA c r))].
Definition wlB (r : nat) : list (list (nat * nat)) := if grp c r then [map (fun i => (1, i)) (seq 0 (cntB c))] else [].
Definition xwl (d : bool) (r : nat) : list (list (nat * nat)) := if d then wlA r ++ wlB r else wlB r ++ wlA r.

Lemma wlA_in : forall d sb rb r a i, r < size c -> (In (a, i) (concat (wlA r)) <-> In (a, i) (map islot (itA c d sb rb r))).
Proof.
  intros d sb rb r a i Hr. unfold wlA. destruct (uniform c) eqn:U.
  - unfold itA. rewrite U. reflexivity.
  - destruct (itA_slots c d sb rb r Hr U) as [_ Q]. rewrite Q. cbn [concat]. rewrite app_nil_r, in_map_iff. split.
    + intros (j & E & I). inversion E. apply in_seq in I. lia.
    + intros [-> I]. exists i. split; auto. apply in_seq. lia.
Qed.
Lemma wlB_in : forall sb rb r a i, r < size c -> (In (a, i) (concat (wlB r)) <-> In (a, i) (map islot (itB c sb rb r))).
Proof.
  intros sb rb r a i Hr. unfold wlB. destruct (grp c r) eqn:G.
  - destruct (itB_slots c sb rb r Hr G) as [_ Q]. rewrite Q. cbn [concat]. rewrite app_nil_r, in_map_iff. split.
    + intros (j & E & I). inversion E. apply in_seq in I. lia.
    + intros [-> I]. exists i. split; auto. apply in_seq. lia.
  - unfold itB. rewrite G. reflexivity.
Qed.
Lemma xwl_in : forall d sb rb r a i, r < size c -> (In (a, i) (concat (xwl d r)) <-> In (a, i) (map islot (itX d sb rb r))).
Proof.
  intros d sb rb r a i Hr. unfold xwl, itX.
  destruct d; rewrite concat_app, map_app, !in_app_iff, (wlB_in sb rb) by auto;
  [rewrite (wlA_in true sb rb) by auto|rewrite (wlA_in false sb rb) by auto]; tauto.
Qed.
Lemma slots_seq : forall a n, NoDup (map (fun i : nat => (a : nat, i)) (seq 0 n)).
Proof. intros. apply NoDup_map_inj; [apply seq_NoDup|]. intros x y _ _ E. inversion E; auto. Qed.
Lemma xwl_nodup : forall d r, NoDup (concat (xwl d r)).
Proof.
  intros d r.
  assert (Q : NoDup (concat (wlA r ++ wlB r))).
  { rewrite concat_app. apply NoDup_app_intro.
    - unfold wlA. destruct (uniform c); cbn [concat]; [constructor|rewrite app_nil_r; apply slots_seq].
    - unfold wlB. destruct (grp c r); cbn [concat]; [rewrite app_nil_r; apply slots_seq|constructor].
    - unfold wlA, wlB. destruct (uniform c), (grp c r); cbn [concat]; rewrite ?app_nil_r; try (intros x []; fail); try (intros x _ []; fail).
      intros x I J. apply in_map_iff in I. apply in_map_iff in J. destruct I as (i & <- & _). destruct J as (j & E & _). inversion E. }
  destruct d; auto. unfold xwl. eapply Permutation_NoDup; [|exact Q]. rewrite !concat_app. apply Permutation_app_comm.
Qed.
Lemma itX_nodup : forall d sb rb r, r < size c -> NoDup (map islot (itX d sb rb r)).
Proof.
  intros d sb rb r Hr.
  apply (Permutation_NoDup (l := map islot (itA c d sb rb r ++ itB c sb rb r))).
  { apply Permutation_map. symmetry. apply itX_perm. }
  rewrite map_app. apply NoDup_app_intro.
  - destruct (uniform c) eqn:U; [unfold itA; rewrite U; constructor|apply (itA_slots c); auto].
  - destruct (grp c r) eqn:G; [apply (itB_slots c); auto|unfold itB; rewrite G; constructor].
  - intros [a i] I J. apply (wlA_in d sb rb) in I; auto. apply (wlB_in sb rb) in J; auto. unfold wlA, wlB in *.
    destruct (uniform c), (grp c r); cbn [concat] in *; rewrite ?app_nil_r in *; auto.
    apply in_map_iff in I. apply in_map_iff in J. destruct I as (i1 & E1 & _). destruct J as (j & E2 & _).
    inversion E1. inversion E2. lia.
Qed.

(** the state between the phases *)
Record okst (s : nat -> loc) (bs : list nat) : Prop := mkOk {
  ok_bal : balanced V (size c) s;
  ok_quiet : forall r, r < size c -> quiet V (s r);
  ok_slots : forall r a, r < size c -> reqsize c r a <= slsz V (s r) a;
  ok_bufs : forall r b, r < size c -> In b bs -> cap c r <= bsz V (s r) b }.

Definition direct (r P : nat) : Prop := uniform c = false /\ (grp c r = true -> grp c P = true -> False).

Theorem phaseX : forall d (g : gst) (pl : nat -> cmd) (k : nat -> prog) (s : nat -> loc) (m1 : nat -> nat -> nat -> V) sb rb bs,
  (sb <> rb \/ (uniform c = true /\ schedule c = false)) -> In sb bs -> In rb bs ->
  okst s bs ->
  (forall r, r < size c -> g r = (pl r (xpost d sb rb r (waits V (xwl d r) (k r))), s r)) ->
  (forall r, r < size c -> runs V (pl r) (s r) (setmem V (s r) (m1 r))) ->
  exists n g2 s2, steps V false (size c) n g g2 /\
    (forall r, r < size c -> g2 r = (k r, s2 r)) /\ (forall r, size c <= r -> g2 r = g r) /\
    okst s2 bs /\ (forall r, r < size c -> bsz V (s2 r) = bsz V (s r) /\ slsz V (s2 r) = slsz V (s r)) /\
    (forall r, r < size c ->
      (forall P t, P < size c -> direct r P -> t < xlen c d r P ->
         mem V (s2 r) rb (ustr c d r * P + t) = m1 P sb (ustr c (negb d) P * r + t)) /\
      (forall j t, grp c r = true -> j < cnt2 c -> t < U0 * w2 c ->
         mem V (s2 r) rb (U0 * w2 c * j + t) = m1 (nm2 c r j) sb (U0 * w2 c * rk2 c r + t)) /\
      (forall b o, b <> rb -> mem V (s2 r) b o = m1 r b o)).
Proof.
  intros d g pl k s m1 sb rb bs Hb Isb Irb [Bal Qt Sl Bf] Eg Loc.
  assert (Pre : forall r, exists s1, r < size c ->
    runs V (fun k => pl r (xpost d sb rb r k)) (s r) s1 /\ Posted V (s r) s1 (m1 r) (itX d sb rb r) /\
    (forall b o, b <> rb -> mem V s1 b o = m1 r b o) /\
    (forall t, uniform c = false -> xstart c <= r -> t < xlen c d r r ->
       mem V s1 rb (ustr c d r * r + t) = m1 r sb (ustr c (negb d) r * r + t)) /\
    (forall t, grp c r = true -> schedule c = true -> t < U0 * w2 c ->
       mem V s1 rb (U0 * w2 c * rk2 c r + t) = m1 r sb (U0 * w2 c * rk2 c r + t))).
  { intros r. destruct (Nat.lt_ge_cases r (size c)) as [Hr|]; [|exists (s r); lia].
    set (s0 := setmem V (s r) (m1 r)).
    assert (Q0 : quiet V s0) by (apply (Qt r Hr)).
    assert (NDs : NoDup (map islot (itX d sb rb r))) by (apply itX_nodup; auto).
    assert (Szs : forall x, In x (itX d sb rb r) -> snd (islot x) < slsz V s0 (fst (islot x))).
    { intros x I. apply itX_in in I. pose proof (slot_bound c d sb rb r x Hr I). pose proof (Sl r (fst (islot x)) Hr).
      unfold s0; cbn [slsz setmem]. lia. }
    assert (Ks : NoDup (map lkey (LL d r))).
    { eapply Permutation_NoDup; [|apply (keys c d r Hr)]. apply Permutation_map. symmetry. apply LL_perm. }
    assert (NDL : NoDup (LL d r)) by (eapply NoDup_map_inv; eauto).
    assert (Rg : regions_disj (LL d r)).
    { intros x y o Ix Iy. apply LL_in in Ix. apply LL_in in Iy. apply (regions c d r Hr x y o); auto. }
    assert (Bd : forall x, In x (LL d r) -> (0 < lslen x -> lsoff x + lslen x <= bsz V s0 sb) /\ (0 < lrlen x -> lroff x + lrlen x <= bsz V s0 rb)).
    { intros x I. apply LL_in in I. destruct (bounds c d r x Hr I) as [B1 B2]. unfold s0; cbn [bsz setmem].
      pose proof (Bf r sb Hr Isb). pose proof (Bf r rb Hr Irb). split; intros; [specialize (B1 H1)|specialize (B2 H1)]; lia. }
    assert (CA : copy_ok (LL d r) (bsz V s0 sb) (bsz V s0 rb) (cpA c d r)).
    { pose proof (copyA_ok c d r (bsz V s0 sb) (bsz V s0 rb) Hr (Bf r sb Hr Isb) (Bf r rb Hr Irb)) as Q.
      destruct (cpA c d r) as [[[o1 o2] len]|]; auto. destruct Q as (Q1 & Q2 & Q3). split; auto. split; auto.
      intros x o I. apply LL_in in I. apply Q3; auto. }
    assert (CB : copy_ok (LL d r) (bsz V s0 sb) (bsz V s0 rb) (cpB c r)).
    { pose proof (copyB_ok c d r (bsz V s0 sb) (bsz V s0 rb) Hr (Bf r sb Hr Isb) (Bf r rb Hr Irb)) as Q.
      destruct (cpB c r) as [[[o1 o2] len]|]; auto. destruct Q as (Q1 & Q2 & Q3). split; auto. split; auto.
      intros x o I. apply LL_in in I. apply Q3; auto. }
    destruct (Nat.eq_dec sb rb) as [E|E].
    - (* in place: one collective *)
      destruct Hb as [Hb|[U Sc]]; [contradiction|]. 
      assert (G : grp c r = true) by (unfold grp; rewrite U; auto).
      assert (EA : itA c d sb rb r = []) by (unfold itA; rewrite U; auto).
      assert (ELA : LA c d r = []) by (unfold LA; rewrite U; auto).
      assert (EcA : cpA c d r = None) by (unfold cpA; rewrite U; auto).
      assert (EcB : cpB c r = None) by (unfold cpB, a2a_copy; rewrite G, Sc; auto).
      assert (ELL : LL d r = LB c r) by (unfold LL; rewrite ELA; destruct d; auto using app_nil_r).
      assert (EX : itX d sb rb r = itB c sb rb r) by (unfold itX; rewrite EA; destruct d; auto using app_nil_r).
      assert (EB : itB c sb rb r = [(1, 0, sb =? rb, Some (specs_of sb rb (LB c r)))]).
      { unfold itB, LB, a2a_items, a2a_links. rewrite G, Sc. auto. }
      rewrite ELL in *. rewrite EX in *.
      destruct (coll_run V sb rb 1 0 (LB c r) s0) as (s1 & R1 & P1 & M1); auto.
      { apply (Szs (1, 0, sb =? rb, Some (specs_of sb rb (LB c r)))). rewrite EB. left; auto. }
      exists s1. intros _. rewrite EB. split; [|split; [|split; [|split]]].
      + apply (runs_seq V (pl r) (xpost d sb rb r) (s r) s0); [apply Loc; auto|].
        unfold xpost. rewrite EA, EB, EcA, EcB. destruct d; exact R1.
      + apply (Posted_pre V (s r) s1 (m1 r) _ (m1 r)). exact P1.
      + intros b o _. rewrite M1. auto.
      + intros; congruence.
      + intros; congruence.
    - assert (Ru : exists s1, runs V (xpost d sb rb r) s0 s1 /\ Posted V s0 s1 (m1 r) (itX d sb rb r) /\
        (mem V s1 = omem V sb rb (cpB c r) (omem V sb rb (cpA c d r) (m1 r)) \/
         mem V s1 = omem V sb rb (cpA c d r) (omem V sb rb (cpB c r) (m1 r)))).
      { pose proof (itX_specs d sb rb r) as Sp. destruct d; unfold itX, xpost in *.
        - destruct (pre_run V sb rb (itA c true sb rb r) (itB c sb rb r) (cpA c true r) (cpB c r) (LL true r) s0) as (s1 & R1 & P1 & M1); auto.
          exists s1. split; auto.
        - destruct (pre_run V sb rb (itB c sb rb r) (itA c false sb rb r) (cpB c r) (cpA c false r) (LL false r) s0) as (s1 & R1 & P1 & M1); auto.
          exists s1. split; auto. }
      destruct Ru as (s1 & R1 & P1 & M1). exists s1. intros _.
      split; [|split; [|split]].
      + apply (runs_seq V (pl r) (xpost d sb rb r) (s r) s0); [apply Loc; auto|auto].
      + apply (Posted_pre V (s r) s1 (m1 r) _ (m1 r)). exact P1.
      + intros b o H. destruct M1 as [-> | ->]; rewrite !omem_other; auto.
      + (* at most one copy *)
        assert (One : cpA c d r = None \/ cpB c r = None).
        { unfold cpA, cpB. destruct (uniform c) eqn:U; auto. destruct (Nat.leb_spec (xstart c) r); auto.
          destruct (grp c r) eqn:G; auto. destruct (grp_start c r Hr U G) as (_ & _ & L & _). lia. }
        split.
        * intros t U Xs Ht. unfold cpA in *. rewrite U in *. destruct (Nat.leb_spec (xstart c) r); [|lia].
          destruct One as [One|One]; [discriminate|]. rewrite One in M1.
          destruct M1 as [-> | ->]; unfold omem at 1; [fold (omem V sb rb None)|];
            apply (omem_in V sb rb (ustr c (negb d) r * r) (ustr c d r * r) (xlen c d r r)); auto.
        * intros t G Sc Ht. unfold cpB, a2a_copy in *. rewrite G, Sc in *. rewrite count2_eq in * by auto.
          rewrite (Nat.mul_comm (rk2 c r)) in *.
          destruct One as [One|One]; [|discriminate]. rewrite One in M1.
          destruct M1 as [-> | ->]; cbn [omem];
            apply (omem_in V sb rb (U0 * w2 c * rk2 c r) (U0 * w2 c * rk2 c r) (U0 * w2 c)); auto. }
  assert (CH : exists s1 : nat -> loc, forall r, r < size c ->
    runs V (fun k => pl r (xpost d sb rb r k)) (s r) (s1 r) /\ Posted V (s r) (s1 r) (m1 r) (itX d sb rb r) /\
    (forall b o, b <> rb -> mem V (s1 r) b o = m1 r b o) /\
    (forall t, uniform c = false -> xstart c <= r -> t < xlen c d r r ->
       mem V (s1 r) rb (ustr c d r * r + t) = m1 r sb (ustr c (negb d) r * r + t)) /\
    (forall t, grp c r = true -> schedule c = true -> t < U0 * w2 c ->
       mem V (s1 r) rb (U0 * w2 c * rk2 c r + t) = m1 r sb (U0 * w2 c * rk2 c r + t))).
  { apply (fchoice loc (fun r s1 => r < size c ->
    runs V (fun k => pl r (xpost d sb rb r k)) (s r) s1 /\ Posted V (s r) s1 (m1 r) (itX d sb rb r) /\
    (forall b o, b <> rb -> mem V s1 b o = m1 r b o) /\
    (forall t, uniform c = false -> xstart c <= r -> t < xlen c d r r ->
       mem V s1 rb (ustr c d r * r + t) = m1 r sb (ustr c (negb d) r * r + t)) /\
    (forall t, grp c r = true -> schedule c = true -> t < U0 * w2 c ->
       mem V s1 rb (U0 * w2 c * rk2 c r + t) = m1 r sb (U0 * w2 c * rk2 c r + t))) (s 0)) with (K := size c) in Pre.
    destruct Pre as (s1 & H). exists s1. intros r Hr. apply H; auto. }
  clear Pre. destruct CH as (s1 & CH).
  destruct (link_phase V (size c) g (fun r k => pl r (xpost d sb rb r k)) (xwl d) k s s1 (itX d sb rb) m1 sb rb (LL d))
    as (n & g2 & s2 & St & E2 & Eo & B2 & Q2 & Z2 & X2); auto.
  - intros r Hr. destruct (CH r Hr) as (C1 & C2 & _). auto.
  - intros r a i Hr. apply xwl_in; auto.
  - intros r Hr. apply xwl_nodup.
  - intros r x Hr I. apply itX_in in I. pose proof (slot_bound c d sb rb r x Hr I). pose proof (Sl r (fst (islot x)) Hr). lia.
  - intros r Hr. apply itX_specs.
  - intros r Hr. split.
    + eapply Permutation_NoDup; [|apply (keys c d r Hr)]. apply Permutation_map. symmetry. apply LL_perm.
    + intros x y o Ix Iy. apply LL_in in Ix. apply LL_in in Iy. apply (regions c d r Hr x y o); auto.
  - intros r x Hr I. apply LL_in in I. destruct (symm c d r x Hr I) as (S1 & y & Iy & S2). split; auto.
    exists y. split; auto. apply LL_in. auto.
  - exists n, g2, s2. split; auto. split; auto. split; auto. split; [|split; auto].
    { constructor; auto.
      - intros r a Hr. destruct (Z2 r Hr) as [_ ->]. apply Sl; auto.
      - intros r b Hr I. destruct (Z2 r Hr) as [-> _]. apply Bf; auto. }
    intros r Hr. destruct (X2 r Hr) as [XR XO]. destruct (CH r Hr) as (C1 & C2 & C3 & C4 & C5).
    split; [|split].
    + (* direct *)
      intros P t HP [U Dr] Ht.
      assert (P2P : P <> r -> xstart c <= r \/ xstart c <= P -> mem V (s2 r) rb (ustr c d r * P + t) = m1 P sb (ustr c (negb d) P * r + t)).
      { intros Hne Hx. apply (XR (lkd c d r P) (lkd c d P r) t); auto; apply LL_in, in_or_app; left; apply LA_in; auto;
        constructor; auto; cbn [lpeer lkd]; tauto. }
      destruct (Nat.le_gt_cases (xstart c) r) as [Hx|Hx]; [destruct (Nat.eq_dec P r) as [->|Hne]|].
      * (* own copy *)
        rewrite XO; [apply C4; auto|]. intros _ x I. apply LL_in in I.
        pose proof (copyA_ok c d r (cap c r) (cap c r) Hr (le_n _) (le_n _)) as Q. unfold cpA in Q. rewrite U in Q.
        destruct (Nat.leb_spec (xstart c) r); [|lia]. cbn [copy_ok] in Q. destruct Q as (_ & _ & Q).
        apply Q; auto. lia.
      * apply P2P; auto.
      * destruct (Nat.le_gt_cases (xstart c) P) as [Hp|Hp].
        { apply P2P; auto; lia. }
        assert (Sc : schedule c = false).
        { destruct (schedule c) eqn:Sc; auto. exfalso. unfold xstart, start_ in Hx, Hp. rewrite Sc in Hx, Hp.
          destruct (Nat.ltb_spec 1 (a_ c)); [|lia]. apply Dr; unfold grp, subblock; rewrite U; cbn [orb];
          rewrite andb_true_iff, !Nat.ltb_lt; lia. }
        assert (Hl : r < last c /\ P < last c) by (unfold xstart in *; rewrite Sc in *; auto). destruct Hl as [Hl1 Hl2].
        destruct (full_last c r Hl1) as [F1 F2]. destruct (full_last c P Hl2) as [F3 F4].
        rewrite xlen_full in Ht by auto. rewrite !ustr_full by auto.
        apply (XR (mkLink P 3 (U0 * P) U0 (U0 * P) U0) (mkLink r 3 (U0 * r) U0 (U0 * r) U0) t); auto;
          cbn [lpeer]; apply LL_in, in_or_app; left; apply LA_in; auto; constructor; auto.
    + intros j t G Hj Ht. destruct (split2_peer c r j Hr G Hj) as (G1 & G2 & G3 & G4).
      destruct (split2_is c r Hr G) as (Cm & K1 & K2 & K3 & K4 & K5 & K6).
      assert (Hsc : schedule c = true /\ j = rk2 c r \/ (schedule c = true -> j <> rk2 c r)).
      { destruct (schedule c); [|right; discriminate]. destruct (Nat.eq_dec j (rk2 c r)); auto. }
      destruct Hsc as [[Sc ->]|Hsc].
      * rewrite K6. rewrite XO; [apply C5; auto|]. intros _ x I. apply LL_in in I.
        pose proof (copyB_ok c d r (cap c r) (cap c r) Hr (le_n _) (le_n _)) as Q. unfold cpB, a2a_copy in Q. rewrite G, Sc in Q.
        cbn [copy_ok] in Q. destruct Q as (_ & _ & Q). rewrite count2_eq in Q by auto. rewrite (Nat.mul_comm (rk2 c r)) in Q.
        apply Q; auto. lia.
      * set (ctx := if schedule c then (if a_ c =? 1 then 0 else 8) else (if a_ c =? 1 then 1 else 9)).
        apply (XR (mkLink (nm2 c r j) ctx (U0 * w2 c * j) (U0 * w2 c) (U0 * w2 c * j) (U0 * w2 c))
                  (mkLink (nm2 c (nm2 c r j) (rk2 c r)) ctx (U0 * w2 c * rk2 c r) (U0 * w2 c) (U0 * w2 c * rk2 c r) (U0 * w2 c)) t); auto.
        -- apply LL_in, in_or_app. right. apply LB_in; auto. constructor; auto.
        -- cbn [lpeer]. apply LL_in, in_or_app. right. apply LB_in; auto. constructor; auto. intros Q. rewrite G3. intros Q'. apply Hsc; auto.
        -- cbn [lpeer]. rewrite G4. auto.
    + intros b o Hb'. rewrite XO; auto; intros; contradiction.
Qed.
End Xch.
