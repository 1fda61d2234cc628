(** The m loop of the optimizer: termination, and a generic invariant rule. *)
From Coq Require Import NArith ZArith List Bool Lia.
From Verif Require Import UtilsModel UtilsSpec UtilsProofs OptModel OptSpec OptLemmas.
Import ListNotations.
Local Open Scope N_scope.

Lemma pow2_le a b : a <= b -> 2 ^ a <= 2 ^ b.
Proof. intros. apply N.pow_le_mono_r; [discriminate|auto]. Qed.

Definition nextok (x : N) (o : out N) : Prop :=
  ok o (fun y => x <= y /\ forall k, k <= 63 -> x <= 2 ^ k -> y <= 2 ^ k).

Lemma pow2_63 x : x <= 2 ^ 33 -> x <= 2 ^ 63.
Proof. intros. eapply N.le_trans; [eassumption|apply pow2_le; lia]. Qed.

Lemma nextfft_ok fuel x : (150 <= fuel)%nat -> rng x -> nextok x (lift (nextfftsize fuel x)).
Proof.
  intros Hf [H1 H2]. destruct (nextfftsize_least x H1 ltac:(eapply N.le_trans; [eassumption|apply pow2_le; lia]) fuel ltac:(lia)) as (r & E & (S & G & Lst)).
  rewrite E. simpl. split; auto. intros k _ Hk. apply Lst; auto.
  exists k, 0, 0, 0. rewrite !N.pow_0_r. lia.
Qed.

Lemma callnext_ok fuel nf x : (150 <= fuel)%nat -> 1 <= x -> x <= 2 ^ 32 -> nf <> FNull ->
  nextok x (callnext fuel nf x).
Proof.
  intros Hf H1 H2 Hn. destruct nf; [| |contradiction]; simpl callnext.
  - destruct (ceilpow2_least x H1) as (_ & G & Lst).
    { eapply N.le_trans; [eassumption|apply pow2_le; lia]. }
    simpl. split; auto. intros k _ Hk. apply Lst; auto. exists k; auto.
  - destruct (nextpuresize_least fuel x Hf H1 H2) as (r & E & (_ & G & Lst)).
    rewrite E. simpl. split; auto. intros k _ Hk. apply Lst; auto. left. exists k; auto.
Qed.

Section Loop.
Set Default Proof Using "All".
Variable clock : nat -> time.
Variable empty_back : N.
Variable g : cfg.
Variable fuel : nat.
Hypothesis Hfuel : (150 <= fuel)%nat.
Hypothesis HI : (- 2 ^ 63 <= appI g < 2 ^ 63 - 1)%Z.
Hypothesis HD : appD g < W64.
Hypothesis HL1 : 1 <= cL g.
Hypothesis HLM : cL g <= cM g.
Hypothesis HM : cM g <= 2 ^ 26.

Notation chk := (check clock empty_back g).
Notation c := (centered (kd g)).
Notation L := (cL g).
Notation DIl := (DI g fuel).

Lemma HM33 : cM g <= 2 ^ 33.
Proof using HL1 HLM HM. clear - HL1 HLM HM. eapply N.le_trans; [exact HM|apply pow2_le; lia]. Qed.
Lemma rngL : rng L. Proof using HL1 HLM HM. clear - HL1 HLM HM. split; auto. pose proof HM33. lia. Qed.
Lemma rngM : rng (cM g). Proof using HL1 HLM HM. clear - HL1 HLM HM. split; [lia|]. apply HM33. Qed.

Definition pM (M' m : N) : Prop := M' = cM g \/ (cM g <= M' /\ M' <= m).

Lemma param_same M' m : rng M' -> rng m -> pM M' m -> parameters L M' m c = parameters L (cM g) m c.
Proof using HL1 HLM HM. clear - HL1 HLM HM.
  intros H1 H2 [->|[A B]]; auto.
  rewrite !parameters_explicit; auto using rngL, rngM; lia.
Qed.

Definition gate (p : N) : Prop := 2 < p -> c = true -> p mod 2 = 0.

Variable J : st -> Prop.
Variable K : N -> st -> Prop.
Variable Allowed : N -> Prop.

Definition body (M' m p n q : N) (t : bool) (s : st) : out st :=
  foldM (fun di s => chk M' m p q n (fst di) (snd di) t s) (DIl n) s.

Definition body_ok (t : bool) : Prop := forall M' m p n q s,
  rng m -> m <= 2 ^ 32 -> rng M' -> pM M' m -> Allowed m -> gate p ->
  parameters L M' m c = Ret (p, n, q) -> J s ->
  ok (body M' m p n q t s) (fun s' => J s' /\ K m s' /\ forall m', K m' s -> K m' s').

Definition pOf (m : N) : N := ceilquotient L m.

Lemma oloop_ok t (HB : body_ok t) f : forall inner i m M' itmax mF nf s k,
  k <= 32 -> (mF = false \/ inner = true -> k <= 31) -> 1 <= m -> m <= 2 ^ k ->
  (inner = true -> nf <> FNull /\ i = m /\ itmax <= 2 ^ k /\ (mF = true -> itmax <= m + 1 /\ 2 < pOf m)) ->
  (inner = false -> L <= 2 * m /\ itmax <= 2 ^ 33) ->
  rng M' -> pM M' m -> (N.to_nat (itmax - i) < f)%nat ->
  Allowed m -> (mF = false -> forall m', m <= m' -> Allowed m') -> J s ->
  ok (oloop clock empty_back g fuel f inner i m M' itmax mF t nf s)
     (fun r => m <= fst r /\ fst r <= 2 ^ (k + 1) /\ J (snd r) /\
        (forall m', K m' s -> K m' (snd r)) /\
        (i < itmax -> inner = false \/ (mF = true /\ gate (pOf m)) -> K m (snd r)) /\
        (mF = true -> fst r = m \/ (inner = true /\ ~ gate (pOf m)))).
Proof.
  induction f as [|f IH]; intros inner i m M' itmax mF nf s k Hk Hk1 Hm1 Hm2 Hin Hnin HM' HpM Hf HA HAll HJ;
    [lia|]. cbn [oloop].
  assert (Hk33 : 2 ^ k <= 2 ^ 33) by (apply pow2_le; lia).
  assert (Hkk : 2 ^ k <= 2 ^ (k + 1)) by (apply pow2_le; lia).
  assert (Hm : rng m) by (split; lia).
  destruct (N.ltb_spec i itmax) as [Hlt|Hge].
  2:{ simpl. repeat split; auto; try lia. }
  destruct (parameters_ok L M' m c rngL HM' Hm) as (n & E & Hp & Hn & Hp1 & Hn1 & HPm).
  fold (pOf m) in E, Hp, Hn, Hp1, HPm.
  set (p := pOf m) in *. set (q := effP c p * n) in *. rewrite E. cbn [bind].
  assert (Hprng : p <= 2 ^ 32).
  { assert (2 ^ 26 <= 2 ^ 32) by (apply pow2_le; lia). lia. }
  assert (Hnrng : rng n) by (split; destruct HM'; lia).
  assert (Epure : ok (if inner then lift (ispure fuel p) else Ret true) (fun _ => True)).
  { destruct inner; simpl; auto. destruct (ispure_spec fuel p Hfuel ltac:(lia) Hprng) as (b & Eb & _).
    rewrite Eb. exact I. }
  eapply ok_bind; [exact Epure|]. intros pp _. clear Epure.
  destruct (inner && _) eqn:Ebr.
  - (* skip to the next inner size *)
    apply andb_prop in Ebr. destruct Ebr as [-> Ebr]. destruct (Hin eq_refl) as (Hnf & -> & Hit & HmF).
    specialize (Hk1 (or_intror eq_refl)).
    assert (Hx : m + 1 <= 2 ^ k) by lia.
    assert (Hx32 : m + 1 <= 2 ^ 32).
    { eapply N.le_trans; [exact Hx|apply pow2_le; lia]. }
    assert (HW : m + 1 < W64).
    { rewrite W64_val. change (2 ^ 32) with 4294967296 in Hx32. lia. }
    rewrite (add64_small m 1) by exact HW.
    eapply ok_bind; [apply (callnext_ok fuel nf (m + 1) Hfuel ltac:(lia) Hx32 Hnf)|].
    intros y (Hy1 & Hy2). specialize (Hy2 k ltac:(lia) Hx).
    destruct mF.
    + (* forced: the loop ends *)
      destruct (HmF eq_refl) as [HmF1 Hp2]. fold p in Hp2. destruct f as [|f'].
      { exfalso. lia. }
      cbn [oloop]. destruct (N.ltb_spec y itmax) as [Hc|Hc]; [lia|].
      assert (Hng : ~ gate p).
      { rewrite andb_false_r in Ebr. cbn [orb] in Ebr. apply andb_prop in Ebr.
        destruct Ebr as [Ec Ep]. intros G.
        specialize (G Hp2 Ec). rewrite G in Ep. discriminate. }
      simpl. repeat split; auto; try lia.
      intros _ [Hx0|[_ Hg]]; [discriminate|contradiction].
    + eapply ok_mono; [apply (IH true y y M' itmax false nf s k); auto; try lia; try (apply HAll; auto; lia); try (intros; apply HAll; auto; lia)|].
      * intros _. repeat split; auto; discriminate.
      * destruct HpM as [->|[A B]]; [left; auto|right; lia].
      * cbn beta. intros r (A1 & A2 & A3 & A4 & A5 & A6). repeat split; auto; try lia.
  - (* the body *)
    assert (Hg : gate p).
    { intros H2 Hc. apply andb_false_iff in Ebr. destruct Ebr as [->|Ebr].
      - destruct (Hnin eq_refl) as [Hle _]. exfalso. destruct Hp as [Hp _]. nia.
      - apply orb_false_iff in Ebr. destruct Ebr as [_ Ebr]. rewrite Hc in Ebr. cbn [andb] in Ebr.
        apply negb_false_iff, N.eqb_eq in Ebr. exact Ebr. }
    change (if DForced g then appD g else 1) with (Dstart g).
    change (if DForced g then appD g else maxD (kd g) n) with (Dstop g n).
    rewrite (dloop_DI clock empty_back g fuel Hfuel HI HD M' m p q n t s Hnrng).
    fold (body M' m p n q t s).
    assert (Hmk32 : m <= 2 ^ 32) by (eapply N.le_trans; [exact Hm2|apply pow2_le; lia]).
    eapply ok_bind; [apply HB; auto|].
    intros s1 (HJ1 & HK1 & HKm).
    destruct mF; [simpl; repeat split; auto; lia|].
    specialize (Hk1 (or_introl eq_refl)).
    assert (Hk32 : 2 ^ (k + 1) <= 2 ^ 32) by (apply pow2_le; lia).
    assert (E2k : 2 ^ (k + 1) = 2 * 2 ^ k) by (rewrite N.add_1_r; apply N.pow_succ_r').
    assert (Hm32 : m + 1 <= 2 ^ (k + 1)) by lia.
    assert (HW : m + 1 < W64).
    { rewrite W64_val. change (2 ^ 32) with 4294967296 in Hk32. lia. }
    rewrite (add64_small m 1) by exact HW.
    destruct inner.
    + destruct (Hin eq_refl) as (Hnf & -> & Hit & _).
      assert (Hx : m + 1 <= 2 ^ k) by lia.
      eapply ok_bind; [apply (callnext_ok fuel nf (m + 1) Hfuel ltac:(lia)); [lia|exact Hnf]|].
      intros y (Hy1 & Hy2). specialize (Hy2 k ltac:(lia) Hx).
      eapply ok_mono; [apply (IH true y y M' itmax false nf s1 k); auto; try lia; try (apply HAll; auto; lia); try (intros; apply HAll; auto; lia)|].
      * intros _. repeat split; auto; discriminate.
      * destruct HpM as [->|[A B]]; [left; auto|right; lia].
      * cbn beta. intros r (A1 & A2 & A3 & A4 & A5 & A6). repeat split; auto; try lia.
    + destruct (Hnin eq_refl) as [Hle Hit].
      assert (Hm32' : m <= 2 ^ 32) by lia.
      destruct (ispure_spec fuel m Hfuel Hm1 Hm32') as (b & Eb & Hb). rewrite Eb. cbn [lift bind].
      assert (Hnx : rng (m + 1)).
      { split; [lia|]. assert (2 ^ 32 <= 2 ^ 33) by (apply pow2_le; lia). lia. }
      pose proof (nextfft_ok fuel (m + 1) Hfuel Hnx) as Hnext.
      rewrite andb_true_r.
      destruct b.
      * eapply ok_bind; [exact Hnext|]. intros y (Hy1 & Hy2).
        specialize (Hy2 (k + 1) ltac:(lia) Hm32). simpl. repeat split; auto; try lia.
      * assert (HWi : i + 1 < W64).
        { rewrite W64_val. change (2 ^ 33) with 8589934592 in Hit. lia. }
        rewrite (add64_small i 1) by exact HWi.
        assert (Hmk : m <> 2 ^ k).
        { intros ->. assert (false = true); [|discriminate]. apply Hb. left. exists k; auto. }
        destruct (N.ltb_spec (i + 1) itmax) as [Hi|Hi].
        -- eapply ok_bind; [exact Hnext|]. intros y (Hy1 & Hy2).
           specialize (Hy2 k ltac:(lia) ltac:(lia)).
           eapply ok_mono; [apply (IH false (i + 1) y M' itmax false nf s1 k); auto; try lia; try (apply HAll; auto; lia); try (intros; apply HAll; auto; lia)|].
           ++ destruct HpM as [->|[A B]]; [left; auto|right; lia].
           ++ cbn beta. intros r (A1 & A2 & A3 & A4 & A5 & A6). repeat split; auto; try lia.
        -- destruct f as [|f']; [exfalso; lia|]. cbn [oloop].
           destruct (N.ltb_spec (i + 1) itmax) as [Hc|Hc]; [lia|].
           simpl. repeat split; auto; try lia.
Qed.

Lemma pOf_ceil m : rng m -> is_ceil L m (pOf m).
Proof using HL1 HLM HM. clear - HL1 HLM HM. intros. apply (cq_ok L m rngL H). Qed.

Lemma pOf_le2 m : rng m -> L <= 2 * m -> pOf m <= 2.
Proof using HL1 HLM HM. clear - HL1 HLM HM.
  intros Hm H. destruct (pOf_ceil m Hm) as [A _]. destruct Hm as [H1 _].
  destruct (N.le_gt_cases (pOf m) 2) as [B|B]; auto. exfalso.
  assert (m * 3 <= m * pOf m) by (apply N.mul_le_mono_l; lia). lia.
Qed.

Lemma pOf_gt2 m : rng m -> 2 * m < L -> 2 < pOf m.
Proof using HL1 HLM HM. clear - HL1 HLM HM.
  intros Hm H. destruct (pOf_ceil m Hm) as [_ A].
  destruct (N.le_gt_cases (pOf m) 2) as [B|B]; auto. exfalso.
  assert (m * pOf m <= m * 2) by (apply N.mul_le_mono_l; lia). lia.
Qed.

Definition post (k m : N) (mF run : bool) (s : st) (r : N * st) : Prop :=
  m <= fst r /\ fst r <= 2 ^ (k + 1) /\ J (snd r) /\ (forall m', K m' s -> K m' (snd r)) /\
  (run = true -> K m (snd r)) /\ (mF = true -> fst r = m).

(** the calls without nextInnerSize *)
Lemma optloop_outer t (HB : body_ok t) m M' itmax mF s k :
  k <= 32 -> (mF = false -> k <= 31) -> 1 <= m -> m <= 2 ^ k -> L <= 2 * m ->
  1 <= itmax -> (N.to_nat itmax < fuel)%nat -> itmax <= 2 ^ 33 ->
  rng M' -> pM M' m -> Allowed m -> (mF = false -> forall m', m <= m' -> Allowed m') -> J s ->
  ok (optloop clock empty_back g fuel m M' itmax mF t FNull s) (post k m mF true s).
Proof.
  intros Hk Hk1 Hm1 Hm2 HL Hit Hf Hit2 HM' HpM HA HAll HJ. unfold optloop.
  assert (Hm : rng m).
  { split; auto. eapply N.le_trans; [exact Hm2|apply pow2_le; lia]. }
  rewrite (proj2 (N.eqb_neq m 0)) by lia.
  assert (E : (2 <? ceilquotient L m) = false).
  { apply N.ltb_ge. apply (pOf_le2 m Hm HL). }
  rewrite E. eapply ok_mono.
  - apply (oloop_ok t HB fuel false 0 m M' itmax mF FNull s k); auto; try lia.
  - cbn beta. intros r (A1 & A2 & A3 & A4 & A5 & A6). unfold post. repeat split; auto.
    + intros _. apply A5; auto. lia.
    + intros H. destruct (A6 H) as [B|[B _]]; auto. discriminate.
Qed.

(** the free inner loop (it may start beyond H for tiny L) *)
Lemma optloop_inner t (HB : body_ok t) m itmax nf s :
  1 <= m -> m <= 2 ^ 26 -> itmax <= 2 ^ 26 -> (N.to_nat itmax < fuel)%nat -> nf <> FNull ->
  (forall m', Allowed m') -> J s ->
  ok (optloop clock empty_back g fuel m (cM g) itmax false t nf s)
     (fun r => J (snd r) /\ forall m', K m' s -> K m' (snd r)).
Proof.
  intros Hm1 Hm2 Hit Hf Hnf HA HJ. unfold optloop.
  assert (Hm : rng m).
  { split; auto. eapply N.le_trans; [exact Hm2|apply pow2_le; lia]. }
  assert (H33 : 2 ^ 26 <= 2 ^ 33) by (apply pow2_le; lia).
  rewrite (proj2 (N.eqb_neq m 0)) by lia.
  destruct (N.ltb_spec 2 (ceilquotient L m)) as [Hc|Hc]; cbv beta iota zeta.
  - eapply ok_mono.
    + apply (oloop_ok t HB fuel true m m (cM g) itmax false nf s 26); auto; try lia.
      * intros _. repeat split; auto; try lia; discriminate.
      * apply rngM.
      * left; auto.
    + cbn beta. intros r (_ & _ & A3 & A4 & _). auto.
  - assert (HL : L <= 2 * m).
    { destruct (N.le_gt_cases L (2 * m)) as [B|B]; auto. apply (pOf_gt2 m Hm) in B.
      unfold pOf in B. lia. }
    eapply ok_mono.
    + apply (oloop_ok t HB fuel false 0 m (cM g) itmax false nf s 26); auto; try lia.
      * apply rngM.
      * left; auto.
    + cbn beta. intros r (_ & _ & A3 & A4 & _). auto.
Qed.

Lemma cqH : is_ceil L 2 (ceilquotient L 2) /\ 1 <= ceilquotient L 2 <= L.
Proof using HL1 HLM HM. clear - HL1 HLM HM. apply cq_ok; [apply rngL|]. split; [lia|]. change (2 ^ 33) with 8589934592. lia. Qed.

Lemma opt_forced t (HB : body_ok t) am s :
  cExpl g = false -> 1 <= am -> am <= 2 ^ 32 -> (N.to_nat (cM g) < fuel)%nat ->
  Allowed am -> J s ->
  ok (opt clock empty_back g fuel am 2 3 true t s)
     (fun r => J (snd r) /\ (forall m', K m' s -> K m' (snd r)) /\
       (gate (pOf am) -> K am (snd r)) /\ (fst r = am \/ ~ gate (pOf am))).
Proof.
  intros HE H1 H2 Hf HA HJ. unfold opt. rewrite HE. cbn [negb].
  destruct cqH as [[Hh1 Hh2] Hh3]. set (H := ceilquotient L 2) in *.
  assert (Hm : rng am).
  { split; auto. eapply N.le_trans; [exact H2|apply pow2_le; lia]. }
  destruct (N.leb_spec H am) as [Hc|Hc].
  - eapply ok_mono.
    + apply (optloop_outer t HB am (cM g) 1 true s 32); auto; try lia; try apply rngM.
      * left; auto.
    + intros r (A1 & A2 & A3 & A4 & A5 & A6). auto 6.
  - assert (HW : am + 1 < W64).
    { rewrite W64_val. change (2 ^ 32) with 4294967296 in H2. lia. }
    rewrite (add64_small am 1) by exact HW. unfold optloop.
    rewrite (proj2 (N.eqb_neq am 0)) by lia.
    assert (Hp2 : 2 < pOf am) by (apply pOf_gt2; auto; lia).
    assert (E : (2 <? ceilquotient L am) = true) by (apply N.ltb_lt; exact Hp2).
    rewrite E. cbv beta iota zeta.
    assert (H31 : 2 ^ 26 <= 2 ^ 31) by (apply pow2_le; lia).
    eapply ok_mono.
    + apply (oloop_ok t HB fuel true am am (cM g) (am + 1) true
               (if ispow2 L then FPow2 else FPure) s 31); auto; try lia.
      * intros _. repeat split; auto; try lia. destruct (ispow2 L); discriminate.
      * apply rngM.
      * left; auto.
    + cbn beta. intros r (A1 & A2 & A3 & A4 & A5 & A6). repeat split; auto.
      * intros Hg. apply A5; auto. lia.
      * destruct (A6 eq_refl) as [B|[_ B]]; auto.
Qed.

Lemma opt_expl t (HB : body_ok t) am mF s :
  cExpl g = true -> (forall m', cM g <= m' -> Allowed m') -> J s ->
  ok (opt clock empty_back g fuel am 2 3 mF t s)
     (fun r => J (snd r) /\ (forall m', K m' s -> K m' (snd r)) /\ fst r = am /\
       exists m, cM g <= m /\ rng m /\ K m (snd r)).
Proof.
  intros HE HA HJ. unfold opt. rewrite HE. cbn [negb].
  pose proof rngM as rM.
  eapply ok_bind; [apply (nextfft_ok fuel (cM g) Hfuel rM)|]. intros m (Hm1 & Hm2).
  specialize (Hm2 26 ltac:(lia) HM).
  assert (H33 : 2 ^ 26 <= 2 ^ 33) by (apply pow2_le; lia).
  assert (rm : rng m) by (destruct rM; split; lia).
  eapply ok_bind; [apply (optloop_outer t HB m m 3 mF s 26); auto; try lia; try (right; lia); try (intros; apply HA; lia)|].
  intros r (A1 & A2 & A3 & A4 & A5 & A6).
  destruct ((fst r <? ceilpow2 (cM g)) && (cC g =? 1)).
  - destruct (ceilpow2_least (cM g)) as (_ & G & Lst).
    { destruct rM; auto. }
    { eapply N.le_trans; [exact HM|apply pow2_le; lia]. }
    assert (Hc : ceilpow2 (cM g) <= 2 ^ 26).
    { apply Lst; auto. exists 26; auto. }
    eapply ok_bind.
    + apply (optloop_outer t HB (ceilpow2 (cM g)) (cM g) 1 mF (snd r) 26); auto; try lia; try (left; auto; fail); try (intros; apply HA; lia).
    + intros r2 (B1 & B2 & B3 & B4 & B5 & B6). simpl. repeat split; auto.
      exists m; repeat split; auto; lia || apply rm.
  - simpl. repeat split; auto. exists m; repeat split; auto; lia || apply rm.
Qed.

Lemma opt_free t (HB : body_ok t) am s :
  cExpl g = false -> (N.to_nat (cM g) < fuel)%nat -> (forall m', Allowed m') -> J s ->
  ok (opt clock empty_back g fuel am 2 3 false t s)
     (fun r => J (snd r) /\ (forall m', K m' s -> K m' (snd r)) /\ fst r = am /\
       exists m, cM g <= m /\ rng m /\ K m (snd r)).
Proof.
  intros HE Hf HA HJ. unfold opt. rewrite HE. cbn [negb].
  pose proof rngM as rM. pose proof rngL as rL.
  destruct cqH as [[Hh1 Hh2] Hh3]. set (H := ceilquotient L 2) in *.
  assert (r2 : rng 2) by (split; [lia|change (2 ^ 33) with 8589934592; lia]).
  assert (p26 : 2 ^ 26 = 67108864) by reflexivity.
  assert (p28 : 2 ^ 28 = 268435456) by reflexivity.
  assert (p33 : 2 ^ 33 = 8589934592) by reflexivity.
  set (nf := if ispow2 L then FPow2 else FPure).
  assert (Hnf : nf <> FNull) by (unfold nf; destruct (ispow2 L); discriminate).
  eapply ok_bind; [apply (callnext_ok fuel nf 2 Hfuel); auto; [lia|change (2 ^ 32) with 4294967296; lia]|].
  intros m0 (H01 & H02). specialize (H02 1 ltac:(lia) ltac:(change (2 ^ 1) with 2; lia)).
  change (2 ^ 1) with 2 in H02.
  eapply ok_bind; [apply (optloop_inner t HB m0 H nf s); auto; lia|].
  intros q0 (J0 & K0).
  assert (rH : rng H) by (split; lia).
  eapply ok_bind; [apply (nextfft_ok fuel H Hfuel rH)|]. intros m1 (H11 & H12).
  specialize (H12 26 ltac:(lia) ltac:(lia)).
  eapply ok_bind; [apply (optloop_outer t HB m1 (cM g) 3 false (snd q0) 26); auto; try lia; left; auto|].
  intros q1 (A1 & A2 & A3 & A4 & A5 & _). change (26 + 1) with 27 in A2.
  destruct (cq_ok (cM g) 2 rM r2) as ([Hq1 Hq2] & Hq3). set (Mh := ceilquotient (cM g) 2) in *.
  assert (p27 : 2 ^ 27 = 134217728) by reflexivity.
  assert (p29 : 2 ^ 29 = 536870912) by reflexivity.
  assert (p30 : 2 ^ 30 = 1073741824) by reflexivity.
  assert (p31 : 2 ^ 31 = 2147483648) by reflexivity.
  assert (p32 : 2 ^ 32 = 4294967296) by reflexivity.
  assert (Hadd : forall x, x <= 2 ^ 31 -> add64 x 1 = x + 1).
  { intros x Hx. apply add64_small. rewrite W64_val. lia. }
  eapply ok_bind with (P := fun r => L <= 2 * fst r /\ 1 <= fst r /\ fst r <= 2 ^ 31 /\ J (snd r) /\
                              forall m', K m' s -> K m' (snd r)).
  { rewrite (Hadd (fst q1)) by lia.
    destruct (N.ltb_spec Mh L) as [Hc|Hc].
    - assert (rx : rng (N.max Mh (fst q1 + 1))) by (split; lia).
      eapply ok_bind; [apply (nextfft_ok fuel _ Hfuel rx)|]. intros m2 (H21 & H22).
      specialize (H22 28 ltac:(lia) ltac:(lia)).
      eapply ok_bind; [apply (optloop_outer t HB m2 (cM g) 3 false (snd q1) 28); auto; try lia; left; auto|].
      intros q2 (B1 & B2 & B3 & B4 & B5 & _). change (28 + 1) with 29 in B2.
      rewrite (Hadd (fst q2)) by lia.
      assert (ry : rng (N.max L (fst q2 + 1))) by (split; lia).
      eapply ok_bind; [apply (nextfft_ok fuel _ Hfuel ry)|]. intros m3 (H31 & H32).
      specialize (H32 30 ltac:(lia) ltac:(lia)).
      eapply ok_mono; [apply (optloop_outer t HB m3 (cM g) 3 false (snd q2) 30); auto; try lia; left; auto|].
      intros q3 (C1 & C2 & C3 & C4 & C5 & _). change (30 + 1) with 31 in C2.
      repeat split; auto; lia.
    - assert (rx : rng (N.max L (fst q1 + 1))) by (split; lia).
      eapply ok_bind; [apply (nextfft_ok fuel _ Hfuel rx)|]. intros m2 (H21 & H22).
      specialize (H22 28 ltac:(lia) ltac:(lia)).
      eapply ok_bind; [apply (optloop_outer t HB m2 (cM g) 3 false (snd q1) 28); auto; try lia; left; auto|].
      intros q2 (B1 & B2 & B3 & B4 & B5 & _). change (28 + 1) with 29 in B2.
      eapply ok_bind with (P := fun r => L <= fst r /\ 1 <= fst r /\ fst r <= 2 ^ 30 /\
                                 J (snd r) /\ forall m', K m' s -> K m' (snd r)).
      { destruct ((16 <? cM g) && (fst q2 <? 16)) eqn:E16.
        - apply andb_prop in E16. destruct E16 as [_ E16]. apply N.ltb_lt in E16.
          eapply ok_mono; [apply (optloop_outer t HB 16 (cM g) 1 false (snd q2) 4); auto; try lia; left; auto|].
          intros q3 (C1 & C2 & C3 & C4 & C5 & _). change (2 ^ (4 + 1)) with 32 in C2.
          repeat split; auto; lia.
        - simpl. repeat split; auto; lia. }
      intros q3 (D1 & D2 & D3 & D4 & D5).
      destruct ((32 <? cM g) && (fst q3 <? 32)) eqn:E32.
      + apply andb_prop in E32. destruct E32 as [_ E32]. apply N.ltb_lt in E32.
        eapply ok_mono; [apply (optloop_outer t HB 32 (cM g) 1 false (snd q3) 5); auto; try lia; left; auto|].
        intros q4 (C1 & C2 & C3 & C4 & C5 & _). change (2 ^ (5 + 1)) with 64 in C2.
        repeat split; auto; lia.
      + simpl. repeat split; auto; lia. }
  intros q5 (E1 & E2 & E3 & E4 & E5).
  assert (rx : rng (N.max (cM g) (fst q5))) by (split; lia).
  eapply ok_bind; [apply (nextfft_ok fuel _ Hfuel rx)|]. intros m6 (H61 & H62).
  specialize (H62 31 ltac:(lia) ltac:(lia)).
  eapply ok_bind; [apply (optloop_outer t HB m6 (cM g) 3 false (snd q5) 31); auto; try lia; left; auto|].
  intros q6 (F1 & F2 & F3 & F4 & F5 & _).
  assert (Hex : forall r, (forall m', K m' (snd q6) -> K m' (snd r)) ->
     exists m, cM g <= m /\ rng m /\ K m (snd (A := N) r)).
  { intros r Hr. exists m6. split; [lia|]. split; [split; lia|]. auto. }
  destruct ((fst q6 <? ceilpow2 (cM g)) && (cC g =? 1)).
  - destruct (ceilpow2_least (cM g)) as (_ & G & Lst).
    { destruct rM; auto. }
    { eapply N.le_trans; [exact HM|apply pow2_le; lia]. }
    assert (Hc : ceilpow2 (cM g) <= 2 ^ 26).
    { apply Lst; auto. exists 26; auto. }
    eapply ok_bind.
    + apply (optloop_outer t HB (ceilpow2 (cM g)) (cM g) 1 false (snd q6) 26); auto; try lia.
      left; auto.
    + intros r3 (B1 & B2 & B3 & B4 & B5 & B6). simpl. repeat split; auto.
  - simpl. repeat split; auto.
Qed.
End Loop.
