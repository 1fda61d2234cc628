(** localize0 and localize1 of mpitranspose: what a run produces. *)
From Coq Require Import List Arith Bool Lia ZArith Permutation.
From Verif Require Import MpiModel MpiDims MpiMachine MpiRun MpiTrModel MpiTrGeom MpiLinks MpiTrForm MpiTrComm MpiTrPhase MpiTrXch MpiTrXchA MpiTrProg MpiTrLocal MpiTrStage.
Import ListNotations.
Local Open Scope nat_scope.
Set Default Proof Using "All".

Section Main.
Variable V : Type.
Variable c : cfg.
Context {Hc : good c}.
Notation S := (S_ c).
Notation "'U0'" := (n0 c * m0 c * S_ c).
Notation loc := (loc V). Notation prog := (prog V). Notation gst := (gst V).
Notation cmd := (prog -> prog).
Variable G : nat -> nat -> nat -> V.
Notation N := (cN c). Notation M := (cM c). Notation a := (a_ c). Notation b := (b_ c).
Notation rowsL := (rowsL V c G). Notation colsL := (colsL V c G). Notation dirL := (dirL V c G).
Notation subL := (subL V c G). Notation midL := (midL V c G). Notation midT := (midT V c G).

Lemma compact_facts : compact c = true -> uniform c = true /\ schedule c = false.
Proof.
  unfold compact, schedule. rewrite andb_true_iff, Nat.eqb_eq. intros [-> ->]. auto.
Qed.
Lemma tS : forall e w t, e < w -> t < S -> e * S + t < w * S.
Proof. intros. apply pbound; auto. Qed.
Lemma sub_N : forall P i, 1 < a -> P < a * b -> i < n0 c -> n0 c * P + i < N.
Proof.
  intros P i A1 HP Hi. pose proof (ab_Pbar c A1). assert (Hq : P < Pbar c) by lia. pose proof (full_ni c _ Hq) as F.
  pose proof (ni_end c P) as En. rewrite F in En. specialize (En ltac:(lia)). lia.
Qed.

(** the first exchange inside the blocks *)
Lemma S_mid : forall r (m1 m2 : nat -> nat -> nat -> V) sb rb, subblock c r = true ->
  (forall r, r < size c -> subL (m1 r) sb r) ->
  (forall j t, j < b -> t < U0 * a -> m2 r rb (U0 * a * j + t) = m1 (nm1 c r j) sb (U0 * a * rk1 c r + t)) ->
  midL (m2 r) rb r.
Proof.
  intros r m1 m2 sb rb Hs HL HX _ k i j x Hk Hi Hj Hx t Ht.
  destruct (split_is c r Hs) as (C & E1 & E2 & E3 & E4 & E5 & E6). destruct (split_peer c r k Hs Hk) as (P1 & P2 & P3 & P4).
  assert (B : ((i * a + j) * m0 c + x) * S + t < U0 * a).
  { replace (U0 * a) with (n0 c * a * m0 c * S) by ring. apply tS; auto. apply pbound; auto. apply pbound; auto. }
  replace ((((k * n0 c + i) * a + j) * m0 c + x) * S + t) with (U0 * a * k + (((i * a + j) * m0 c + x) * S + t)) by ring.
  rewrite HX by auto.
  replace (U0 * a * rk1 c r + (((i * a + j) * m0 c + x) * S + t)) with ((((rk1 c r * n0 c + i) * a + j) * m0 c + x) * S + t) by ring.
  apply (HL (nm1 c r k) P2 P1); auto.
Qed.
Lemma S_sub : forall r (m1 m2 : nat -> nat -> nat -> V) sb rb, subblock c r = true ->
  (forall r, r < size c -> midL (m1 r) sb r) ->
  (forall j t, j < b -> t < U0 * a -> m2 r rb (U0 * a * j + t) = m1 (nm1 c r j) sb (U0 * a * rk1 c r + t)) ->
  subL (m2 r) rb r.
Proof.
  intros r m1 m2 sb rb Hs HL HX _ k i j x Hk Hi Hj Hx t Ht.
  destruct (split_is c r Hs) as (C & E1 & E2 & E3 & E4 & E5 & E6). destruct (split_peer c r k Hs Hk) as (P1 & P2 & P3 & P4).
  assert (B : ((i * a + j) * m0 c + x) * S + t < U0 * a).
  { replace (U0 * a) with (n0 c * a * m0 c * S) by ring. apply tS; auto. apply pbound; auto. apply pbound; auto. }
  replace ((((k * n0 c + i) * a + j) * m0 c + x) * S + t) with (U0 * a * k + (((i * a + j) * m0 c + x) * S + t)) by ring.
  rewrite HX by auto.
  replace (U0 * a * rk1 c r + (((i * a + j) * m0 c + x) * S + t)) with ((((rk1 c r * n0 c + i) * a + j) * m0 c + x) * S + t) by ring.
  rewrite (HL (nm1 c r k) P2 P1 (rk1 c r) i j x E5 Hi Hj Hx t Ht).
  fold (rk1 c (nm1 c r k)). rewrite P3. f_equal. f_equal. f_equal. fold (nm1 c (nm1 c r k) (rk1 c r)). rewrite P4. exact E6.
Qed.

(** the second exchange *)
Lemma X_cols : forall r (m1 : nat -> nat -> nat -> V) (m2 : nat -> nat -> V) sb rb, r < size c ->
  (forall r, r < size c -> dirL (m1 r) sb r /\ midT (m1 r) sb r) ->
  (forall P t, P < size c -> direct c r P -> t < xlen c true r P ->
         m2 rb (ustr c true r * P + t) = m1 P sb (ustr c (negb true) P * r + t)) ->
  (forall j t, grp c r = true -> j < cnt2 c -> t < U0 * w2 c ->
         m2 rb (U0 * w2 c * j + t) = m1 (nm2 c r j) sb (U0 * w2 c * rk2 c r + t)) ->
  colsL m2 rb r.
Proof.
  intros r m1 m2 sb rb Hr HL HD HG I j HI Hj t Ht.
  destruct (row_owner c I HI) as (O1 & O2 & O3). remember (I / n0 c) as P eqn:EP. remember (I mod n0 c) as i eqn:Ei. clear EP Ei.
  subst I. destruct (HL P O1) as [LD LT].
  (* both in blocks, more than one block *)
  assert (Two : subblock c r = true -> subblock c P = true -> m2 rb (((n0 c * P + i) * mi c r + j) * S + t) = G (n0 c * P + i) (m0 c * r + j) t).
  { intros Sr Sp. destruct (sub_facts c r Sr) as (A1 & A2 & A3 & A4 & A5 & A6 & A7).
    destruct (sub_facts c P Sp) as (B1 & B2 & B3 & B4 & B5 & B6 & B7). destruct (subblock_full c r Sr) as (_ & _ & F1 & F2).
    destruct (subblock_full c P Sp) as (_ & _ & F3 & F4).
    assert (Gr : grp c r = true) by (unfold grp; rewrite Sr; apply orb_true_r).
    assert (E2 : cnt2 c = a /\ w2 c = b /\ rk2 c r = r / b /\ nm2 c r (P / b) = P / b * b + r mod b).
    { unfold cnt2, w2, rk2, nm2. destruct (Nat.eqb_spec a 1); [lia|]. auto. }
    destruct E2 as (E21 & E22 & E23 & E24). rewrite F2 in *. rewrite F3 in O2.
    assert (Bt : ((P mod b * n0 c + i) * m0 c + j) * S + t < U0 * b).
    { replace (U0 * b) with (b * n0 c * m0 c * S) by ring. apply tS; auto. apply pbound; auto. apply pbound; auto. }
    specialize (HG (P / b) (((P mod b * n0 c + i) * m0 c + j) * S + t)). rewrite E21, E22, E23, E24 in HG.
    specialize (HG Gr B4 Bt).
    replace (((n0 c * P + i) * m0 c + j) * S + t) with (U0 * b * (P / b) + (((P mod b * n0 c + i) * m0 c + j) * S + t)).
    2:{ rewrite B6 at 3. ring. }
    rewrite HG.
    replace (U0 * b * (r / b) + (((P mod b * n0 c + i) * m0 c + j) * S + t)) with ((((r / b * b + P mod b) * n0 c + i) * m0 c + j) * S + t) by ring.
    set (R := P / b * b + r mod b).
    assert (HRR : R < a * b) by (apply pbound; auto).
    assert (HR : R < size c) by (pose proof (ab_size c A1); lia).
    assert (SR : subblock c R = true) by (unfold subblock; rewrite andb_true_iff, !Nat.ltb_lt; auto).
    assert (Rd : R / b = P / b) by (unfold R; rewrite Nat.div_add_l by lia; rewrite (Nat.div_small (r mod b)) by auto; lia).
    assert (Rm : R mod b = r mod b) by (unfold R; rewrite (Nat.add_comm _ (r mod b)), Nat.mod_add by lia; apply Nat.mod_small; auto).
    destruct (HL R HR) as [_ LR]. rewrite (LR SR (P mod b) i (r / b) j B5 O2 A4 Hj t Ht).
    rewrite Rd, Rm. rewrite <- B6, <- A6. reflexivity. }
  destruct (uniform c) eqn:U.
  - destruct (uniform_U c U) as [U' Eab]. destruct (unif_full c U' r Hr) as [F1 F2]. destruct (unif_full c U' P O1) as [F3 F4].
    destruct (Nat.eq_dec a 1) as [A1|A1].
    + assert (E2 : cnt2 c = size c /\ w2 c = 1 /\ rk2 c r = r /\ nm2 c r P = P).
      { unfold cnt2, w2, rk2, nm2. rewrite A1. auto. }
      destruct E2 as (E21 & E22 & E23 & E24). rewrite F2 in *. rewrite F3 in O2.
      assert (Gr : grp c r = true) by (unfold grp; rewrite U; auto).
      assert (Bt : (i * m0 c + j) * S + t < U0 * 1). { rewrite Nat.mul_1_r. apply tS; auto. apply pbound; auto. }
      specialize (HG P ((i * m0 c + j) * S + t)). rewrite E21, E22, E23, E24 in HG. specialize (HG Gr O1 Bt).
      replace (((n0 c * P + i) * m0 c + j) * S + t) with (U0 * 1 * P + ((i * m0 c + j) * S + t)) by ring.
      rewrite HG.
      assert (Sp : subblock c P = false) by (unfold subblock; rewrite A1; reflexivity).
      assert (Dd : subblock c P = false \/ a * b <= r) by auto. assert (Hi' : i < ni c P) by lia. assert (Hj' : j < mi c r) by lia.
      rewrite <- (LD r i j Hr Dd Hi' Hj' t Ht). rewrite F2, F3. apply f_equal. ring.
    + pose proof (a_pos c). apply Two; unfold subblock; rewrite andb_true_iff, !Nat.ltb_lt; lia.
  - destruct (subblock c r) eqn:Sr; [destruct (subblock c P) eqn:Sp; [apply Two; auto|]|].
    + assert (Bt : (i * mi c r + j) * S + t < xlen c true r P).
      { unfold xlen. replace (mi c r * S * ni c P) with (ni c P * mi c r * S) by ring. apply tS; auto. apply pbound; auto. }
      assert (Dr : direct c r P) by (split; auto; unfold grp; rewrite U, Sp; cbn [orb]; discriminate).
      specialize (HD P _ O1 Dr Bt).
      replace (((n0 c * P + i) * mi c r + j) * S + t) with (ustr c true r * P + ((i * mi c r + j) * S + t)) by (unfold ustr; ring).
      rewrite HD. assert (Dd : subblock c P = false \/ a * b <= r) by auto.
      rewrite <- (LD r i j Hr Dd O2 Hj t Ht). apply f_equal. unfold ustr. cbn [negb]. ring.
    + assert (Bt : (i * mi c r + j) * S + t < xlen c true r P).
      { unfold xlen. replace (mi c r * S * ni c P) with (ni c P * mi c r * S) by ring. apply tS; auto. apply pbound; auto. }
      assert (Dr : direct c r P) by (split; auto; unfold grp; rewrite U, Sr; cbn [orb]; discriminate).
      specialize (HD P _ O1 Dr Bt).
      replace (((n0 c * P + i) * mi c r + j) * S + t) with (ustr c true r * P + ((i * mi c r + j) * S + t)) by (unfold ustr; ring).
      rewrite HD. assert (Dd : subblock c P = false \/ a * b <= r).
      { destruct (subblock c P) eqn:Sp; auto. right. destruct (sub_facts c P Sp) as (B1 & _).
        unfold subblock in Sr. rewrite andb_false_iff, !Nat.ltb_ge in Sr. lia. }
      rewrite <- (LD r i j Hr Dd O2 Hj t Ht). apply f_equal. unfold ustr. cbn [negb]. ring.
Qed.

Lemma X_in : forall r (m1 : nat -> nat -> nat -> V) (m2 : nat -> nat -> V) sb rb, r < size c ->
  (forall r, r < size c -> colsL (m1 r) sb r) ->
  (forall P t, P < size c -> direct c r P -> t < xlen c false r P ->
         m2 rb (ustr c false r * P + t) = m1 P sb (ustr c (negb false) P * r + t)) ->
  (forall j t, grp c r = true -> j < cnt2 c -> t < U0 * w2 c ->
         m2 rb (U0 * w2 c * j + t) = m1 (nm2 c r j) sb (U0 * w2 c * rk2 c r + t)) ->
  dirL m2 rb r /\ midT m2 rb r.
Proof.
  intros r m1 m2 sb rb Hr HL HD HG. split.
  - intros P i j HP Hd Hi Hj t Ht.
    pose proof (ni_end c r ltac:(lia)) as En.
    destruct (uniform c) eqn:U.
    + destruct (uniform_U c U) as [U' Eab]. destruct (unif_full c U' r Hr) as [F1 F2]. destruct (unif_full c U' P HP) as [F3 F4].
      destruct Hd as [Hd|Hd]; [|lia].
      assert (A1 : a = 1). { unfold subblock in Hd. rewrite andb_false_iff, !Nat.ltb_ge in Hd. pose proof (a_pos c). lia. }
      assert (E2 : cnt2 c = size c /\ w2 c = 1 /\ rk2 c r = r /\ nm2 c r P = P).
      { unfold cnt2, w2, rk2, nm2. rewrite A1. auto. }
      destruct E2 as (E21 & E22 & E23 & E24).
      assert (Gr : grp c r = true) by (unfold grp; rewrite U; auto).
      rewrite F1 in Hi. rewrite F4 in Hj.
      assert (Bt : (i * m0 c + j) * S + t < U0 * 1). { rewrite Nat.mul_1_r. apply tS; auto. apply pbound; auto. }
      specialize (HG P ((i * m0 c + j) * S + t)). rewrite E21, E22, E23, E24 in HG. specialize (HG Gr HP Bt).
      rewrite F1, F4.
      replace ((n0 c * m0 c * P + i * m0 c + j) * S + t) with (U0 * 1 * P + ((i * m0 c + j) * S + t)) by ring.
      rewrite HG. assert (HI : n0 c * r + i < N) by lia. assert (Hj' : j < mi c P) by lia.
      rewrite <- (HL P HP (n0 c * r + i) j HI Hj' t Ht). rewrite F4. apply f_equal. ring.
    + assert (Bt : (i * mi c P + j) * S + t < xlen c false r P).
      { unfold xlen. replace (ni c r * S * mi c P) with (ni c r * mi c P * S) by ring. apply tS; auto. apply pbound; auto. }
      assert (Dr : direct c r P).
      { split; auto. unfold grp. rewrite U. cbn [orb]. intros Q1 Q2. destruct Hd as [Hd|Hd]; [congruence|].
        destruct (sub_facts c P Q2) as (_ & B2 & _). lia. }
      specialize (HD P _ HP Dr Bt).
      replace ((ni c r * m0 c * P + i * mi c P + j) * S + t) with (ustr c false r * P + ((i * mi c P + j) * S + t)) by (unfold ustr; ring).
      rewrite HD. assert (HI : n0 c * r + i < N) by lia.
      rewrite <- (HL P HP (n0 c * r + i) j HI Hj t Ht). apply f_equal. unfold ustr. cbn [negb]. ring.
  - intros Sr k i j x Hk Hi Hj Hx t Ht. destruct (sub_facts c r Sr) as (A1 & A2 & A3 & A4 & A5 & A6 & A7).
    assert (Gr : grp c r = true) by (unfold grp; rewrite Sr; apply orb_true_r).
    assert (E2 : cnt2 c = a /\ w2 c = b /\ rk2 c r = r / b /\ nm2 c r j = j * b + r mod b).
    { unfold cnt2, w2, rk2, nm2. destruct (Nat.eqb_spec a 1); [lia|]. auto. }
    destruct E2 as (E21 & E22 & E23 & E24).
    assert (Bt : ((k * n0 c + i) * m0 c + x) * S + t < U0 * b).
    { replace (U0 * b) with (b * n0 c * m0 c * S) by ring. apply tS; auto. apply pbound; auto. apply pbound; auto. }
    specialize (HG j (((k * n0 c + i) * m0 c + x) * S + t)). rewrite E21, E22, E23, E24 in HG. specialize (HG Gr Hj Bt).
    replace ((((j * b + k) * n0 c + i) * m0 c + x) * S + t) with (U0 * b * j + (((k * n0 c + i) * m0 c + x) * S + t)) by ring.
    rewrite HG.
    set (R := j * b + r mod b) in *. assert (HRR : R < a * b) by (apply pbound; auto).
    assert (HR : R < size c) by (pose proof (ab_size c A1); lia).
    assert (SR : subblock c R = true) by (unfold subblock; rewrite andb_true_iff, !Nat.ltb_lt; auto).
    destruct (subblock_full c R SR) as (_ & _ & F1 & F2).
    assert (HI : n0 c * (r / b * b + k) + i < N) by (apply sub_N; auto; apply pbound; auto).
    assert (Hx' : x < mi c R) by lia.
    rewrite <- (HL R HR (n0 c * (r / b * b + k) + i) x HI Hx' t Ht). rewrite F2. apply f_equal. ring.
Qed.

(** ** localize0 *)
Theorem out_run : forall (g : gst) (k : nat -> prog) (s : nat -> loc) bi bo bw bs, size c <> 1 ->
  (compact c = false /\ bi <> bw /\ bo <> bw \/ compact c = true /\ bi = bo /\ bo = bw) ->
  In bi bs -> In bo bs -> In bw bs -> okst V c s bs ->
  (forall r, r < size c -> g r = (localize0 V c r (ni c r) (mi c r) bi bo bw (k r), s r)) ->
  (forall r, r < size c -> rowsL (mem V (s r)) bi r) ->
  exists n g2 s2, steps V false (size c) n g g2 /\
    (forall r, r < size c -> g2 r = (k r, s2 r)) /\ (forall r, size c <= r -> g2 r = g r) /\
    okst V c s2 bs /\ (forall r, r < size c -> bsz V (s2 r) = bsz V (s r) /\ slsz V (s2 r) = slsz V (s r)) /\
    (forall r, r < size c -> colsL (mem V (s2 r)) bo r /\ forall bf o, bf <> bo -> bf <> bw -> mem V (s2 r) bf o = mem V (s r) bf o).
Proof.
  intros g k s bi bo bw bs H1 Hb Ibi Ibo Ibw Ok Eg HL.
  assert (Cq : compact c = true -> uniform c = true /\ schedule c = false) by apply compact_facts.
  (* repack *)
  assert (Rp : forall r, exists m1, r < size c -> runs V (repack V c r bi bw) (s r) (setmem V (s r) m1) /\
    (forall bf o, bf <> bw -> m1 bf o = mem V (s r) bf o) /\ dirL m1 bw r /\ subL m1 bw r).
  { intros r. destruct (Nat.lt_ge_cases r (size c)) as [Hr|]; [|exists (fun _ _ => G 0 0 0); lia].
    destruct (repack_run V c G r bi bw (s r)) as (m1 & R1 & R2 & R3 & R4); auto.
    - destruct Hb as [[? [? ?]]|[? [? ?]]]; [left|right]; auto. split; congruence.
    - apply Ok; auto. - apply Ok; auto. - apply Ok; auto.
    - exists m1. auto. }
  apply (fchoice _ (fun r m1 => r < size c -> runs V (repack V c r bi bw) (s r) (setmem V (s r) m1) /\
    (forall bf o, bf <> bw -> m1 bf o = mem V (s r) bf o) /\ dirL m1 bw r /\ subL m1 bw r) (fun _ _ => G 0 0 0)) with (K := size c) in Rp.
  destruct Rp as (m1 & Rp).
  destruct (phaseS V c g (fun r => repack V c r bi bw)
    (fun r => trout V c r bo bw (xpost V c true bw bo r (waits V (xwl c true r) (k r)))) s m1 bw bo bs)
    as (n1 & g1 & s1 & St1 & E1 & O1 & Ok1 & Z1 & X1); auto.
  { destruct Hb as [[? [? ?]]|[Cp _]]; [left; auto|right; apply Cq; auto]. }
  { intros r Hr. rewrite Eg by auto. rewrite (localize0_eq V c r Hr H1). reflexivity. }
  { intros r Hr. apply Rp; auto. }
  assert (Mid : forall r, r < size c -> dirL (mem V (s1 r)) bw r /\ midL (mem V (s1 r)) bo r).
  { intros r Hr. destruct (X1 r Hr) as [XS XO]. destruct (Rp r Hr Hr) as (_ & _ & LD & LS). split.
    - intros P i j HP Hd Hi Hj t Ht. rewrite XO; [apply LD; auto|]. destruct Hd as [Hd|Hd]; auto.
      destruct Hb as [[? [? ?]]|[Cp [? ?]]]; auto. exfalso. destruct (Cq Cp) as [U _]. destruct (uniform_U c U) as [_ Eab]. lia.
    - destruct (subblock c r) eqn:Hs; [|intros Z; congruence].
      apply (S_mid r m1 (fun r => mem V (s1 r)) bw bo); auto. intros q Hq. apply Rp; auto. }
  (* transpose *)
  assert (Tr : forall r, exists m2, r < size c -> runs V (trout V c r bo bw) (s1 r) (setmem V (s1 r) m2) /\
    (forall bf o, bf <> bw -> m2 bf o = mem V (s1 r) bf o) /\ dirL m2 bw r /\ midT m2 bw r).
  { intros r. destruct (Nat.lt_ge_cases r (size c)) as [Hr|]; [|exists (fun _ _ => G 0 0 0); lia].
    destruct (Mid r Hr) as [M1 M2].
    destruct (trout_run V c G r bo bw (s1 r)) as (m2 & R1 & R2 & R3 & R4); auto.
    - destruct Hb as [[? [? ?]]|[? [? ?]]]; [left|right]; auto.
    - apply Ok1; auto. - apply Ok1; auto. - apply Ok1; auto.
    - exists m2. auto. }
  apply (fchoice _ (fun r m2 => r < size c -> runs V (trout V c r bo bw) (s1 r) (setmem V (s1 r) m2) /\
    (forall bf o, bf <> bw -> m2 bf o = mem V (s1 r) bf o) /\ dirL m2 bw r /\ midT m2 bw r) (fun _ _ => G 0 0 0)) with (K := size c) in Tr.
  destruct Tr as (m2 & Tr).
  destruct (phaseX V c true g1 (fun r => trout V c r bo bw) k s1 m2 bw bo bs)
    as (n2 & g2 & s2 & St2 & E2 & O2 & Ok2 & Z2 & X2); auto.
  { destruct Hb as [[? [? ?]]|[Cp _]]; [left; auto|right; apply Cq; auto]. }
  { intros r Hr. apply Tr; auto. }
  exists (n1 + n2), g2, s2. split; [eapply steps_trans; eauto|]. split; auto. split; [|split; auto; split].
  - intros r Hr. rewrite O2, O1; auto.
  - intros r Hr. destruct (Z1 r Hr) as [<- <-]. auto.
  - intros r Hr. destruct (X2 r Hr) as (XD & XG & XO). split.
    + apply (X_cols r m2 (mem V (s2 r)) bw bo); auto. intros q Hq. apply Tr; auto.
    + intros bf o Hbo Hbw. rewrite XO by auto. destruct (Tr r Hr Hr) as (_ & -> & _); auto.
      destruct (X1 r Hr) as [_ ->]; auto. destruct (Rp r Hr Hr) as (_ & -> & _); auto.
Qed.

(** ** localize1 *)
Theorem in_run : forall (g : gst) (k : nat -> prog) (s : nat -> loc) bi bo bw bs, size c <> 1 ->
  (compact c = false /\ bi <> bw /\ bo <> bw \/ compact c = true /\ bo = bw) ->
  In bi bs -> In bo bs -> In bw bs -> okst V c s bs ->
  (forall r, r < size c -> g r = (localize1 V c r (ni c r) (mi c r) bi bo bw (k r), s r)) ->
  (forall r, r < size c -> colsL (mem V (s r)) bi r) ->
  exists n g2 s2, steps V false (size c) n g g2 /\
    (forall r, r < size c -> g2 r = (k r, s2 r)) /\ (forall r, size c <= r -> g2 r = g r) /\
    okst V c s2 bs /\ (forall r, r < size c -> bsz V (s2 r) = bsz V (s r) /\ slsz V (s2 r) = slsz V (s r)) /\
    (forall r, r < size c -> rowsL (mem V (s2 r)) bo r /\ forall bf o, bf <> bo -> bf <> bw -> mem V (s2 r) bf o = mem V (s r) bf o).
Proof.
  intros g k s bi bo bw bs H1 Hb Ibi Ibo Ibw Ok Eg HL.
  assert (Cq : compact c = true -> uniform c = true /\ schedule c = false) by apply compact_facts.
  destruct (phaseX V c false g (fun r k => k)
    (fun r => trin V c r bw bo (spost V c bo bw r (waits V (wlS c r) (inpost V c r (ni c r) (mi c r) bo bw (k r))))) s (fun r => mem V (s r)) bi bw bs)
    as (n1 & g1 & s1 & St1 & E1 & O1 & Ok1 & Z1 & X1); auto.
  { destruct Hb as [[? [? ?]]|[Cp _]]; [left; auto|right; apply Cq; auto]. }
  { intros r Hr. rewrite Eg by auto. rewrite (localize1_eq V c r Hr H1). reflexivity. }
  { intros r Hr. rewrite setmem_mem. apply runs_skip. }
  assert (A : forall r, r < size c -> dirL (mem V (s1 r)) bw r /\ midT (mem V (s1 r)) bw r).
  { intros r Hr. destruct (X1 r Hr) as (XD & XG & XO). apply (X_in r (fun r => mem V (s r)) (mem V (s1 r)) bi bw); auto. }
  assert (Tr : forall r, exists m2, r < size c -> runs V (trin V c r bw bo) (s1 r) (setmem V (s1 r) m2) /\
    (forall bf o, bf <> bo -> m2 bf o = mem V (s1 r) bf o) /\ dirL m2 bw r /\ midL m2 bo r).
  { intros r. destruct (Nat.lt_ge_cases r (size c)) as [Hr|]; [|exists (fun _ _ => G 0 0 0); lia].
    destruct (A r Hr) as [M1 M2].
    destruct (trin_run V c G r bw bo (s1 r)) as (m2 & R1 & R2 & R3 & R4); auto.
    - destruct Hb as [[? [? ?]]|[? ?]]; [left|right]; auto.
    - apply Ok1; auto. - apply Ok1; auto. - apply Ok1; auto.
    - exists m2. auto. }
  apply (fchoice _ (fun r m2 => r < size c -> runs V (trin V c r bw bo) (s1 r) (setmem V (s1 r) m2) /\
    (forall bf o, bf <> bo -> m2 bf o = mem V (s1 r) bf o) /\ dirL m2 bw r /\ midL m2 bo r) (fun _ _ => G 0 0 0)) with (K := size c) in Tr.
  destruct Tr as (m2 & Tr).
  destruct (phaseS V c g1 (fun r => trin V c r bw bo) (fun r => inpost V c r (ni c r) (mi c r) bo bw (k r)) s1 m2 bo bw bs)
    as (n2 & g2 & s2 & St2 & E2 & O2 & Ok2 & Z2 & X2); auto.
  { destruct Hb as [[? [? ?]]|[Cp _]]; [left; auto|right; apply Cq; auto]. }
  { intros r Hr. apply Tr; auto. }
  assert (B : forall r, r < size c -> dirL (mem V (s2 r)) bw r /\ subL (mem V (s2 r)) bw r).
  { intros r Hr. destruct (X2 r Hr) as [XS XO]. destruct (Tr r Hr Hr) as (_ & _ & LD & LS). split.
    - intros P i j HP Hd Hi Hj t Ht. rewrite XO; [apply LD; auto|]. right. destruct Hd as [Hd|Hd]; auto.
      destruct (subblock c r) eqn:Hs; auto. right. pose proof (dir_high V c G r P i j t Hs Hd Hi Hj).
      replace (U0 * a * b) with (b * n0 c * a * m0 c * S) by ring. auto.
    - destruct (subblock c r) eqn:Hs; [|intros Z; congruence].
      apply (S_sub r m2 (fun r => mem V (s2 r)) bo bw); auto. intros q Hq. apply Tr; auto. }
  assert (Ip : forall r, exists m3, r < size c -> runs V (inpost V c r (ni c r) (mi c r) bo bw) (s2 r) (setmem V (s2 r) m3) /\
    (forall bf o, bf <> bo -> m3 bf o = mem V (s2 r) bf o) /\ rowsL m3 bo r).
  { intros r. destruct (Nat.lt_ge_cases r (size c)) as [Hr|]; [|exists (fun _ _ => G 0 0 0); lia].
    destruct (B r Hr) as [M1 M2].
    destruct (inpost_run V c G r bw bo (s2 r)) as (m3 & R1 & R2 & R3); auto.
    - destruct Hb as [[? [? ?]]|[? ?]]; [left|right]; auto.
    - apply Ok2; auto. - apply Ok2; auto. - apply Ok2; auto.
    - exists m3. auto. }
  apply (fchoice _ (fun r m3 => r < size c -> runs V (inpost V c r (ni c r) (mi c r) bo bw) (s2 r) (setmem V (s2 r) m3) /\
    (forall bf o, bf <> bo -> m3 bf o = mem V (s2 r) bf o) /\ rowsL m3 bo r) (fun _ _ => G 0 0 0)) with (K := size c) in Ip.
  destruct Ip as (m3 & Ip).
  set (s3 := fun r => setmem V (s2 r) (m3 r)).
  set (g3 := fun r => if r <? size c then (k r, s3 r) else g2 r).
  destruct (all_local V false (size c) g2 g3) as (n3 & St3).
  { intros r Hr. rewrite E2 by auto. unfold g3. destruct (Nat.ltb_spec r (size c)); [|lia]. destruct (Ip r Hr Hr) as (R & _). apply R. }
  { intros r Hr. unfold g3. destruct (Nat.ltb_spec r (size c)); [lia|auto]. }
  exists (n1 + n2 + n3), g3, s3. split; [eapply steps_trans; [eapply steps_trans|]; eauto|]. split; [|split; [|split; [|split]]].
  - intros r Hr. unfold g3. destruct (Nat.ltb_spec r (size c)); [auto|lia].
  - intros r Hr. unfold g3. destruct (Nat.ltb_spec r (size c)); [lia|]. rewrite O2, O1; auto.
  - destruct Ok2 as [K1 K2 K3 K4]. constructor; auto.
  - intros r Hr. unfold s3. cbn [bsz slsz setmem]. destruct (Z2 r Hr) as [-> ->]. auto.
  - intros r Hr. destruct (Ip r Hr Hr) as (_ & I2 & I3). split; auto.
    intros bf o Hbo Hbw. unfold s3; cbn [mem setmem]. rewrite I2 by auto. destruct (X2 r Hr) as [_ ->]; auto.
    destruct (Tr r Hr Hr) as (_ & -> & _); auto. destruct (X1 r Hr) as (_ & _ & ->); auto.
Qed.
End Main.
