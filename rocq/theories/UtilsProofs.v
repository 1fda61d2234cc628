From Coq Require Import NArith ZArith Lia Bool.
From Coq Require Import ZifyBool ZifyN.
From Verif Require Import UtilsModel UtilsSpec.
Local Open Scope N_scope.
Arguments N.mul : simpl never.
Arguments N.add : simpl never.
Arguments N.pow : simpl never.

Lemma W64_val : W64 = 18446744073709551616. Proof. reflexivity. Qed.

Lemma w64_small x : x < W64 -> w64 x = x.
Proof. intros. unfold w64. apply N.mod_small; assumption. Qed.

Lemma w64_lt x : w64 x < W64.
Proof. unfold w64. apply N.mod_lt. rewrite W64_val. lia. Qed.

Lemma pred64_pos x : 1 <= x -> x < W64 -> pred64 x = x - 1.
Proof.
  intros H1 H2. unfold pred64, w64. rewrite W64_val in *.
  replace (x + (18446744073709551616 - 1)) with ((x - 1) + 1 * 18446744073709551616) by lia.
  rewrite N.mod_add by lia. apply N.mod_small. lia.
Qed.

Lemma ceilquotient_spec a b :
  1 <= b -> a + b <= W64 -> is_ceil a b (ceilquotient a b).
Proof.
  intros Hb Hab. unfold ceilquotient, is_ceil.
  destruct (N.eq_dec b W64) as [->|Hne].
  { assert (a = 0) by lia. subst a.
    change (pred64 W64) with (W64 - 1). unfold add64. rewrite w64_small by (rewrite W64_val; lia).
    rewrite N.div_small by (rewrite W64_val; lia). rewrite W64_val. lia. }
  rewrite pred64_pos by lia. unfold add64. rewrite w64_small by lia.
  pose proof (N.div_mod (a + (b - 1)) b ltac:(lia)) as E.
  pose proof (N.mod_lt (a + (b - 1)) b ltac:(lia)) as Hm.
  set (q := (a + (b - 1)) / b) in *. set (r := (a + (b - 1)) mod b) in *. lia.
Qed.

Lemma is_ceil_unique a b y z : 1 <= b -> is_ceil a b y -> is_ceil a b z -> y = z.
Proof. unfold is_ceil. intros Hb [H1 H2] [H3 H4]. nia. Qed.

(** *** ceilpow2 *)

Definition covers (w x y : N) : Prop :=
  forall i, N.testbit y i = true <-> exists d, d < w /\ N.testbit x (i + d) = true.

Lemma covers_init x : covers 1 x x.
Proof.
  intros i. split.
  - intros H. exists 0. rewrite N.add_0_r. split; [lia|assumption].
  - intros (d & Hd & H). assert (d = 0) by lia. subst. rewrite N.add_0_r in H. assumption.
Qed.

Lemma covers_smear w x y : covers w x y -> covers (w + w) x (smear w y).
Proof.
  intros Hc i. unfold smear. rewrite N.lor_spec, N.shiftr_spec by lia.
  rewrite orb_true_iff, (Hc i), (Hc (i + w)). split.
  - intros [(d & Hd & H)|(d & Hd & H)].
    + exists d. split; [lia|assumption].
    + exists (w + d). split; [lia|]. rewrite N.add_assoc. assumption.
  - intros (d & Hd & H). destruct (N.lt_ge_cases d w) as [Hlt|Hge].
    + left. exists d. split; assumption.
    + right. exists (d - w). split; [lia|].
      replace (i + w + (d - w)) with (i + d) by lia. assumption.
Qed.

Lemma smear_all x :
  0 < x -> x < W64 ->
  smear 32 (smear 16 (smear 8 (smear 4 (smear 2 (smear 1 x))))) = N.ones (N.log2 x + 1).
Proof.
  intros Hx Hlt.
  assert (Hc : covers 64 x (smear 32 (smear 16 (smear 8 (smear 4 (smear 2 (smear 1 x))))))).
  { change 64 with (32 + 32). apply covers_smear.
    change (covers (16 + 16) x (smear 16 (smear 8 (smear 4 (smear 2 (smear 1 x)))))).
    apply covers_smear.
    change (covers (8 + 8) x (smear 8 (smear 4 (smear 2 (smear 1 x))))). apply covers_smear.
    change (covers (4 + 4) x (smear 4 (smear 2 (smear 1 x)))). apply covers_smear.
    change (covers (2 + 2) x (smear 2 (smear 1 x))). apply covers_smear.
    change (covers (1 + 1) x (smear 1 x)). apply covers_smear. apply covers_init. }
  assert (Hl : N.log2 x < 64). { apply N.log2_lt_pow2; [assumption|exact Hlt]. }
  apply N.bits_inj. intros i.
  destruct (N.lt_ge_cases i (N.log2 x + 1)) as [Hi|Hi].
  - rewrite N.ones_spec_low by assumption. apply Hc. exists (N.log2 x - i). split; [lia|].
    replace (i + (N.log2 x - i)) with (N.log2 x) by lia. apply N.bit_log2. lia.
  - rewrite N.ones_spec_high by assumption.
    match goal with |- ?b = false => destruct b eqn:E; [|reflexivity] end.
    apply Hc in E. destruct E as (d & Hd & H).
    rewrite N.bits_above_log2 in H by lia. discriminate.
Qed.

Lemma ceilpow2_eq n :
  2 <= n -> n <= W64 / 2 -> ceilpow2 n = 2 ^ (N.log2 (n - 1) + 1).
Proof.
  intros H1 H2. change (W64 / 2) with (2 ^ 63) in H2.
  assert (HW : 2 ^ 63 < W64) by reflexivity.
  unfold ceilpow2. cbv zeta. rewrite pred64_pos by lia.
  rewrite smear_all by lia. unfold add64. rewrite N.ones_equiv.
  assert (Hl : N.log2 (n - 1) < 63). { apply N.log2_lt_pow2; lia. }
  assert (Hp : 2 ^ (N.log2 (n - 1) + 1) <= 2 ^ 63) by (apply N.pow_le_mono_r; lia).
  assert (0 < 2 ^ (N.log2 (n - 1) + 1)) by (apply N.neq_0_lt_0, N.pow_nonzero; lia).
  rewrite w64_small by lia. lia.
Qed.

Lemma ceilpow2_1 : ceilpow2 1 = 1. Proof. reflexivity. Qed.

Lemma ceilpow2_least n :
  1 <= n -> n <= 2 ^ 63 -> least_ge (power_of 2) n (ceilpow2 n).
Proof.
  intros H1 H2. destruct (N.eq_dec n 1) as [->|Hn].
  { rewrite ceilpow2_1. split; [exists 0; reflexivity|]. split; [lia|]. intros; lia. }
  rewrite ceilpow2_eq by (try change (W64 / 2) with (2 ^ 63); lia).
  pose proof (N.log2_spec (n - 1) ltac:(lia)) as [Hl Hu].
  rewrite <- N.add_1_r in Hu.
  split; [eexists; reflexivity|]. split; [lia|].
  intros z (k & ->) Hz.
  apply N.pow_le_mono_r; [lia|].
  assert (N.log2 (n - 1) < k); [|lia].
  apply (N.pow_lt_mono_r_iff 2); [lia|]. lia.
Qed.

Lemma ceilpow2_zero : ceilpow2 0 = 0. Proof. reflexivity. Qed.

Lemma ceilpow2_overflow n : 2 ^ 63 < n -> n < W64 -> ceilpow2 n = 0.
Proof.
  intros H1 H2. unfold ceilpow2. cbv zeta.
  assert (1 <= n) by (pose proof (N.pow_nonzero 2 63); lia).
  rewrite pred64_pos by lia.
  assert (2 ^ 63 <> 0) by (apply N.pow_nonzero; lia).
  rewrite smear_all by lia.
  assert (N.log2 (n - 1) = 63) as ->.
  { apply N.log2_unique'  with (c := n - 1 - 2 ^ 63); [lia| |lia].
    change W64 with (2 * 2 ^ 63) in H2. lia. }
  reflexivity.
Qed.

Lemma least_ge_unique (P : N -> Prop) n y z : least_ge P n y -> least_ge P n z -> y = z.
Proof. intros (A & B & C) (D & E & F). specialize (C z D E). specialize (F y A B). lia. Qed.

Lemma least_ge_self (P : N -> Prop) n : P n -> least_ge P n n.
Proof. intros H. split; [assumption|]. split; [lia|]. auto. Qed.

(** *** pow *)

Lemma pow_loop_ok fuel :
  forall x r y, 0 < y -> y < 2 ^ N.of_nat fuel -> 0 < r -> 0 < x ->
    r * x ^ y < W64 ->
    pow_loop fuel x r y = Some (r * x ^ y).
Proof.
  induction fuel as [|k IH]; intros x r y Hy Hlt Hr Hx Hov.
  { simpl in Hlt. change (2 ^ 0) with 1 in Hlt. lia. }
  cbn [pow_loop]. 
  assert (Ey : y = 2 * N.shiftr y 1 + (if N.odd y then 1 else 0)).
  { rewrite N.shiftr_div_pow2. change (2 ^ 1) with 2.
    rewrite (N.div_mod y 2) at 1 by lia. f_equal.
    rewrite <- N.bit0_odd, N.bit0_eqb. destruct (N.mod_lt y 2); [lia|].
    pose proof (N.mod_lt y 2 ltac:(lia)).
    destruct (N.eqb_spec (y mod 2) 1); lia. }
  set (h := N.shiftr y 1) in *.
  assert (Hsq : x ^ y = (x * x) ^ h * (if N.odd y then x else 1)).
  { rewrite Ey at 1. rewrite N.pow_add_r, N.pow_mul_r. rewrite N.pow_2_r.
    destruct (N.odd y); [rewrite N.pow_1_r|rewrite N.pow_0_r]; reflexivity. }
  assert (Hr' : (if N.odd y then mul64 r x else r) = r * (if N.odd y then x else 1)).
  { destruct (N.odd y); [|lia]. unfold mul64. apply w64_small.
    assert ((x * x) ^ h <> 0) by (apply N.pow_nonzero; lia). nia. }
  rewrite Hr'.
  destruct (N.eqb_spec h 0) as [H0|H0].
  - rewrite Hsq, H0, N.pow_0_r. f_equal. lia.
  - assert (Hxx : mul64 x x = x * x).
    { unfold mul64. apply w64_small.
      assert (x * x <= (x * x) ^ h).
      { rewrite <- (N.pow_1_r (x * x)) at 1. apply N.pow_le_mono_r; lia. }
      destruct (N.odd y); nia. }
    rewrite Hxx. rewrite IH.
    + f_equal. rewrite Hsq. destruct (N.odd y); lia.
    + lia.
    + rewrite Nat2N.inj_succ, N.pow_succ_r' in Hlt. destruct (N.odd y); lia.
    + destruct (N.odd y); nia.
    + nia.
    + rewrite Hsq in Hov. destruct (N.odd y); nia.
Qed.

Lemma pow_ok fuel p i :
  (64 <= fuel)%nat -> 0 < p -> i < 2 ^ 64 -> p ^ i < W64 -> pow fuel p i = Some (p ^ i).
Proof.
  intros Hf Hp Hi Hov. unfold pow.
  destruct (N.eqb_spec i 0) as [->|Hi0]; [rewrite N.pow_0_r; reflexivity|].
  destruct (N.eqb_spec p 0); [lia|].
  rewrite pow_loop_ok; [f_equal; lia|lia| |lia|lia|rewrite N.mul_1_l; assumption].
  eapply N.lt_le_trans; [exact Hi|]. apply N.pow_le_mono_r; lia.
Qed.

(** *** ceilpow *)

Lemma ceilpow_grow_ok fuel :
  forall p n k u l, 2 <= p -> n <= 2 ^ 32 ->
    u = 2 ^ k -> p ^ u < W64 ->
    (l < u) -> (l = 0 \/ p ^ l < n) ->
    k < 40 -> (50 <= N.of_nat fuel + k) ->
    exists u' l', ceilpow_grow fuel n (p ^ u) u l = Some (p ^ u', u', l') /\
      n <= p ^ u' /\ (l' = 0 \/ p ^ l' < n) /\ l' < u' /\ p ^ u' < W64 /\ u' < 2 ^ 40.
Proof.
  induction fuel as [|f IH]; intros p n k u l Hp Hn Hu Hov Hl Hl' Hk Hf; [lia|].
  cbn [ceilpow_grow]. destruct (N.ltb_spec (p ^ u) n) as [Hlt|Hge].
  - assert (Hk6 : k < 6).
    { destruct (N.lt_ge_cases k 6) as [|Hge]; [assumption|exfalso].
      assert (2 ^ 64 <= p ^ u); [|change W64 with (2 ^ 64) in Hov; lia].
      transitivity (2 ^ u).
      - apply N.pow_le_mono_r; [lia|]. subst u. change 64 with (2 ^ 6).
        apply N.pow_le_mono_r; lia.
      - apply N.pow_le_mono_l. assumption. }
    assert (E : mul64 (p ^ u) (p ^ u) = p ^ (u * 2)).
    { unfold mul64. rewrite w64_small.
      - rewrite N.pow_mul_r, N.pow_2_r. reflexivity.
      - change W64 with (2 ^ 32 * 2 ^ 32). nia. }
    assert (Eu : mul64 u 2 = u * 2).
    { unfold mul64. apply w64_small. subst u.
      assert (2 ^ k <= 2 ^ 6) by (apply N.pow_le_mono_r; lia). 
      change (2 ^ 6) with 64 in *. rewrite W64_val. lia. }
    rewrite E, Eu. 
    apply (IH p n (k + 1) (u * 2) u); try assumption; try lia.
    + subst u. rewrite N.pow_add_r. reflexivity.
    + rewrite <- E. unfold mul64. apply w64_lt.
  - exists u, l. split; [reflexivity|]. repeat split; try assumption; try lia.
    subst u. apply N.pow_lt_mono_r; lia.
Qed.

Lemma ceilpow_bisect_ok fuel :
  forall p n l u, 2 <= p -> l <= u -> u < 2 ^ 40 ->
    u - l < 2 ^ (N.of_nat fuel - 70) -> (70 <= fuel)%nat ->
    n <= p ^ u -> (l = 0 \/ p ^ (l - 1) < n) -> p ^ u < W64 ->
    exists u', ceilpow_bisect fuel p n l u = Some u' /\ u' <= u /\ n <= p ^ u' /\
               (u' = 0 \/ p ^ (u' - 1) < n).
Proof.
  induction fuel as [|f IH]; intros p n l u Hp Hlu Hu Hd Hf Hn Hl Hov; [lia|].
  cbn [ceilpow_bisect]. destruct (N.ltb_spec l u) as [Hlt|Hge].
  - assert (Ha : add64 l u = l + u).
    { unfold add64. apply w64_small. change (2 ^ 40) with 1099511627776 in Hu. rewrite W64_val. lia. }
    rewrite Ha. rewrite N.shiftr_div_pow2. change (2 ^ 1) with 2.
    set (i := (l + u) / 2).
    assert (Hi : l + u = 2 * i + (l + u) mod 2) by (apply N.div_mod; lia).
    pose proof (N.mod_lt (l + u) 2 ltac:(lia)) as Hm.
    assert (Hiu : i < u) by lia. assert (Hil : l <= i) by lia.
    assert (p ^ i <= p ^ u) by (apply N.pow_le_mono_r; lia).
    assert (Hf1 : (70 <= f)%nat).
    { assert (f <> 69)%nat; [|lia]. intros ->. simpl in Hd. change (2 ^ (70 - 70)) with 1 in Hd. lia. }
    rewrite pow_ok; [|lia|lia|change (2 ^ 40) with 1099511627776 in Hu; change (2 ^ 64) with 18446744073709551616; lia|lia].
    assert (Hd' : 2 ^ (N.of_nat (S f) - 70) = 2 * 2 ^ (N.of_nat f - 70)).
    { rewrite <- N.pow_succ_r'. f_equal. lia. }
    rewrite Hd' in Hd.
    destruct (N.ltb_spec (p ^ i) n) as [Hpi|Hpi].
    + assert (Hi1 : add64 i 1 = i + 1).
      { unfold add64. apply w64_small. change (2 ^ 40) with 1099511627776 in Hu. rewrite W64_val. lia. }
      rewrite Hi1.
      destruct (IH p n (i + 1) u) as (u' & E & A & B & C); try assumption; try lia.
      * right. replace (i + 1 - 1) with i by lia. assumption.
      * exists u'. auto.
    + destruct (IH p n l i) as (u' & E & A & B & C); try assumption; try lia.
      exists u'. repeat split; try assumption; lia.
  - exists u. assert (l = u) by lia. subst l. repeat split; try assumption; lia.
Qed.

Lemma least_pow_intro p n u :
  2 <= p -> n <= p ^ u -> (u = 0 \/ p ^ (u - 1) < n) -> least_ge (power_of p) n (p ^ u).
Proof.
  intros Hp Hn Hu. split; [eexists; reflexivity|]. split; [assumption|].
  intros z (k & ->) Hz. apply N.pow_le_mono_r; [lia|].
  destruct Hu as [->|Hu]; [lia|].
  assert (u - 1 < k); [|lia]. apply (N.pow_lt_mono_r_iff p); lia.
Qed.

Lemma ceilpow_least fuel p n :
  (150 <= fuel)%nat -> 2 <= p -> p < W64 -> 1 <= n -> n <= 2 ^ 32 ->
  exists r, ceilpow fuel p n = Some r /\ least_ge (power_of p) n r.
Proof.
  intros Hf Hp HpW Hn1 Hn. unfold ceilpow.
  destruct (ceilpow_grow_ok fuel p n 0 1 0) as (u & l & E & A & B & C & D & F); try lia.
  all: try reflexivity; try (rewrite N.pow_1_r; assumption).
  rewrite N.pow_1_r in E. rewrite E.
  destruct (N.eqb_spec n (p ^ u)) as [->|Hne].
  { exists (p ^ u). split; [reflexivity|]. apply least_ge_self. eexists; reflexivity. }
  destruct (ceilpow_bisect_ok fuel p n l u) as (u' & E' & A' & B' & C'); try assumption; try lia.
  { assert (2 ^ 40 <= 2 ^ (N.of_nat fuel - 70)) by (apply N.pow_le_mono_r; lia). lia. }
  { destruct B as [B|B]; [left; assumption|right].
    eapply N.le_lt_trans; [|exact B]. apply N.pow_le_mono_r; lia. }
  rewrite E'. exists (p ^ u'). split.
  - assert (p ^ u' <= p ^ u) by (apply N.pow_le_mono_r; lia).
    apply pow_ok; lia.
  - apply least_pow_intro; assumption.
Qed.

(** Divergence of ceilpow for large arguments *)

Fixpoint sqs (k : nat) (x : N) : N := match k with O => x | S k => sqs k (mul64 x x) end.

Lemma grow_diverges_tail fuel : forall n u l, 1 < n -> ceilpow_grow fuel n 1 u l = None.
Proof.
  induction fuel as [|f IH]; intros n u l Hn; [reflexivity|].
  cbn [ceilpow_grow]. destruct (N.ltb_spec 1 n); [|lia].
  change (mul64 1 1) with 1. apply IH; assumption.
Qed.

Fixpoint all_below (k : nat) (n x : N) : bool :=
  match k with
  | O => x =? 1
  | S k => (x <? n) && all_below k n (mul64 x x)
  end.

Lemma grow_diverges k : forall fuel n x u l, 1 < n -> all_below k n x = true ->
  ceilpow_grow fuel n x u l = None.
Proof.
  induction k as [|k IH]; intros fuel n x u l Hn H; cbn [all_below] in H.
  - apply N.eqb_eq in H. subst x. apply grow_diverges_tail; assumption.
  - apply andb_true_iff in H. destruct H as [H1 H2].
    destruct fuel; [reflexivity|]. cbn [ceilpow_grow]. rewrite H1. apply IH; assumption.
Qed.

Lemma ceilpow_diverges : forall fuel, ceilpow fuel 3 (2 ^ 64 - 1) = None.
Proof.
  intros fuel. unfold ceilpow. rewrite (grow_diverges 70); [reflexivity|reflexivity|].
  vm_compute. reflexivity.
Qed.

(** *** nextpuresize, ispow2, ispure *)

Lemma least_ge_min (P Q : N -> Prop) n y z :
  least_ge P n y -> least_ge Q n z -> least_ge (fun x => P x \/ Q x) n (N.min y z).
Proof.
  intros (A & B & C) (D & E & F). split.
  - destruct (N.min_spec y z) as [[_ ->]|[_ ->]]; auto.
  - split; [lia|]. intros w [Hw|Hw] Hn; [specialize (C w Hw Hn)|specialize (F w Hw Hn)]; lia.
Qed.

Lemma least_ge_ext (P Q : N -> Prop) n y : (forall x, P x <-> Q x) -> least_ge P n y -> least_ge Q n y.
Proof. intros H (A & B & C). split; [apply H; assumption|]. split; [assumption|].
  intros z Hz. apply C. apply H. assumption. Qed.

Lemma nextpuresize_least fuel m :
  (150 <= fuel)%nat -> 1 <= m -> m <= 2 ^ 32 ->
  exists r, nextpuresize fuel m = Some r /\ least_ge pure m r.
Proof.
  intros Hf H1 H2.
  assert (H63 : m <= 2 ^ 63) by (change (2 ^ 32) with 4294967296 in *; change (2 ^ 63) with 9223372036854775808; lia).
  pose proof (ceilpow2_least m H1 H63) as P2.
  destruct (ceilpow_least fuel 3 m) as (r3 & E3 & P3); try assumption; try lia; [reflexivity|].
  destruct (ceilpow_least fuel 5 m) as (r5 & E5 & P5); try assumption; try lia; [reflexivity|].
  destruct (ceilpow_least fuel 7 m) as (r7 & E7 & P7); try assumption; try lia; [reflexivity|].
  unfold nextpuresize. cbv zeta.
  destruct (N.eqb_spec m (ceilpow2 m)) as [E|_].
  { exists m. split; [reflexivity|]. apply least_ge_self. left. rewrite E. apply P2. }
  rewrite E3. pose proof (least_ge_min _ _ _ _ _ P2 P3) as P23.
  destruct (N.eqb_spec m (N.min (ceilpow2 m) r3)) as [E|_].
  { exists m. split; [reflexivity|]. apply least_ge_self. rewrite E. unfold pure.
    destruct P23 as [P23 _]. tauto. }
  rewrite E5. pose proof (least_ge_min _ _ _ _ _ P23 P5) as P235.
  destruct (N.eqb_spec m (N.min (N.min (ceilpow2 m) r3) r5)) as [E|_].
  { exists m. split; [reflexivity|]. apply least_ge_self. rewrite E. unfold pure.
    destruct P235 as [P235 _]. tauto. }
  rewrite E7. eexists. split; [reflexivity|].
  eapply least_ge_ext; [|exact (least_ge_min _ _ _ _ _ P235 P7)].
  intros x. unfold pure. tauto.
Qed.

Lemma pow2_or_between m : 1 <= m -> exists k, 2 ^ k <= m < 2 ^ (k + 1).
Proof. intros H. exists (N.log2 m). rewrite N.add_1_r. apply N.log2_spec. lia. Qed.

Lemma ispow2_spec m : 1 <= m -> m < W64 -> (ispow2 m = true <-> power_of 2 m).
Proof.
  intros H1 H2. unfold ispow2. rewrite pred64_pos by assumption.
  rewrite N.eqb_eq. split.
  - intros H. exists (N.log2 m). 
    pose proof (N.log2_spec m ltac:(lia)) as [Hl Hu].
    destruct (N.eq_dec m (2 ^ N.log2 m)) as [E|Hne]; [assumption|exfalso].
    assert (HB : N.testbit (N.land m (m - 1)) (N.log2 m) = true).
    { rewrite N.land_spec, N.bit_log2 by lia.
      assert (N.log2 (m - 1) = N.log2 m) as <-.
      { apply N.log2_unique; [lia|]. split; [lia|]. lia. }
      rewrite N.bit_log2; [reflexivity|]. 
      assert (2 ^ N.log2 m <> 0) by (apply N.pow_nonzero; lia). lia. }
    rewrite H in HB. rewrite N.bits_0 in HB. discriminate.
  - intros (k & ->). assert (0 < 2 ^ k) by lia.
    rewrite N.sub_1_r, <- N.ones_equiv. rewrite N.land_ones. 
    apply N.mod_same. lia.
Qed.

Lemma eq_least_iff (P : N -> Prop) m r : least_ge P m r -> (m = r <-> P m).
Proof. intros (A & B & C). split; [intros ->; assumption|]. intros H. specialize (C m H). lia. Qed.

Lemma ispure_spec fuel m :
  (150 <= fuel)%nat -> 1 <= m -> m <= 2 ^ 32 ->
  exists b, ispure fuel m = Some b /\ (b = true <-> pure m).
Proof.
  intros Hf H1 H2.
  assert (HW : m < W64) by (change (2 ^ 32) with 4294967296 in *; rewrite W64_val; lia).
  destruct (ceilpow_least fuel 3 m) as (r3 & E3 & P3); try assumption; try lia; [reflexivity|].
  destruct (ceilpow_least fuel 5 m) as (r5 & E5 & P5); try assumption; try lia; [reflexivity|].
  destruct (ceilpow_least fuel 7 m) as (r7 & E7 & P7); try assumption; try lia; [reflexivity|].
  apply eq_least_iff in P3, P5, P7.
  pose proof (ispow2_spec m H1 HW) as P2. unfold pure.
  unfold ispure. rewrite E3, E5, E7.
  destruct (ispow2 m). { exists true. split; [reflexivity|]. tauto. }
  destruct (N.eqb_spec m r3). { exists true. split; [reflexivity|]. tauto. }
  destruct (N.eqb_spec m r5). { exists true. split; [reflexivity|]. tauto. }
  eexists. split; [reflexivity|]. rewrite N.eqb_eq. 
  assert (~ power_of 2 m) by (rewrite <- P2; discriminate). tauto.
Qed.

(** *** nextfftsize *)

Definition odd357 (x : N) := exists b c d, x = 3 ^ b * 5 ^ c * 7 ^ d.

Section NFS.
Variable m : N.
Hypothesis Hm1 : 1 <= m.
Hypothesis Hm2 : m <= 2 ^ 61.

Lemma m_bound : m <= 2305843009213693952. Proof. exact Hm2. Qed.

(** candidate for an odd part k: k*ceilpow2(ceil(m/k)) is the least k*2^a >= m *)
Definition cand (k : N) := mul64 k (ceilpow2 (ceilquotient m k)).

Lemma cand_least k : 1 <= k -> k < 2 ^ 61 ->
  least_ge (fun x => exists a, x = k * 2 ^ a) m (cand k).
Proof.
  intros Hk1 Hk2. unfold cand. pose proof m_bound as HB.
  change (2 ^ 61) with 2305843009213693952 in Hk2.
  assert (Hc : is_ceil m k (ceilquotient m k)) by (apply ceilquotient_spec; [assumption|rewrite W64_val; lia]).
  set (c := ceilquotient m k) in *. destruct Hc as [Hc1 Hc2].
  assert (Hcm : 1 <= c) by nia. assert (c <= m) by nia.
  assert (Hc63 : c <= 2 ^ 63) by (change (2 ^ 63) with 9223372036854775808; lia).
  destruct (ceilpow2_least c Hcm Hc63) as ((a & Ea) & Hge & Hmin).
  assert (Hup : ceilpow2 c < 2 * c).
  { destruct (N.eq_dec c 1) as [E|Hc]; [rewrite E; reflexivity|].
    destruct (pow2_or_between (c - 1)) as (j & Hj1 & Hj2); [lia|].
    rewrite N.add_1_r, N.pow_succ_r' in Hj2.
    specialize (Hmin (2 * 2 ^ j)). 
    assert (ceilpow2 c <= 2 * 2 ^ j); [|lia]. apply Hmin; [|lia].
    exists (N.succ j). rewrite N.pow_succ_r'. reflexivity. }
  assert (Hsm : mul64 k (ceilpow2 c) = k * ceilpow2 c).
  { unfold mul64. apply w64_small. rewrite W64_val. nia. }
  rewrite Hsm. split; [exists a; rewrite Ea; reflexivity|]. split; [nia|].
  intros z (a' & ->) Hz.
  apply N.mul_le_mono_l. apply Hmin; [eexists; reflexivity|].
  (* c <= 2^a' since k*2^a' >= m *)
  nia.
Qed.

(** loop invariant on N: a 7-smooth number >= m not above 2^61 *)
Definition okN (x : N) := smooth7 x /\ m <= x /\ x <= 2 ^ 61.

Lemma okN_min x k : odd357 k -> 1 <= k -> okN x -> k < x -> okN (N.min x (cand k)).
Proof.
  intros (b & c & d & Ek) Hk1 (Hs & Hx1 & Hx2) Hlt.
  destruct (cand_least k Hk1) as ((a & Ea) & Hge & _); [lia|].
  split.
  - destruct (N.min_spec x (cand k)) as [[_ ->]|[_ ->]]; [assumption|].
    exists a, b, c, d. rewrite Ea, Ek. lia.
  - split; lia.
Qed.

(** "N is at most every smooth number >= m whose odd part belongs to the set S". *)
Definition below (x : N) (S : N -> Prop) := forall k a, S k -> m <= k * 2 ^ a -> x <= k * 2 ^ a.

Lemma below_mono x y S : y <= x -> below x S -> below y S.
Proof. intros H HB k a Hk Hm. specialize (HB k a Hk Hm). lia. Qed.

Lemma odd357_pos k : odd357 k -> 1 <= k.
Proof.
  intros (b & c & d & ->).
  assert (3 ^ b <> 0) by (apply N.pow_nonzero; lia).
  assert (5 ^ c <> 0) by (apply N.pow_nonzero; lia).
  assert (7 ^ d <> 0) by (apply N.pow_nonzero; lia). nia.
Qed.

Lemma mul_small k x c : k < x -> x <= 2 ^ 61 -> c <= 7 -> mul64 k c = k * c.
Proof.
  intros H1 H2 H3. unfold mul64. apply w64_small. change (2 ^ 61) with 2305843009213693952 in H2.
  rewrite W64_val. nia.
Qed.

Definition fok (c fuel : nat) (k x : N) : Prop :=
  (c <= fuel)%nat /\ x <= k * 2 ^ N.of_nat (fuel - c).

Lemma fok_more c f k x : fok c (S f) k x -> k < x -> (c <= f)%nat /\
  forall e y, 2 <= e -> y <= x -> fok c f (k * e) y.
Proof.
  intros [H1 H2] Hlt. assert (Hcf : (c <= f)%nat).
  { assert (c <> S f); [|lia]. intros ->. replace (S f - S f)%nat with 0%nat in H2 by lia.
    change (2 ^ N.of_nat 0) with 1 in H2. lia. }
  split; [assumption|]. intros e y He Hy. split; [assumption|].
  replace (S f - c)%nat with (S (f - c)) in H2 by lia.
  rewrite Nat2N.inj_succ, N.pow_succ_r' in H2.
  assert (2 ^ N.of_nat (f - c) <> 0) by (apply N.pow_nonzero; lia). nia.
Qed.

Lemma fok_inner c f k x : fok (S c) (S f) k x -> fok c f k x.
Proof. intros [H1 H2]. split; [lia|]. replace (S f - S c)%nat with (f - c)%nat in H2 by lia. assumption. Qed.

Lemma fok_le c f k x y : fok c f k x -> y <= x -> fok c f k y.
Proof. intros [H1 H2] H. split; [assumption|lia]. Qed.

Lemma odd357_mul3 k : odd357 k -> odd357 (k * 3).
Proof. intros (b & c & d & ->). exists (N.succ b), c, d. rewrite N.pow_succ_r'. lia. Qed.
Lemma odd357_mul5 k : odd357 k -> odd357 (k * 5).
Proof. intros (b & c & d & ->). exists b, (N.succ c), d. rewrite N.pow_succ_r'. lia. Qed.
Lemma odd357_mul7 k : odd357 k -> odd357 (k * 7).
Proof. intros (b & c & d & ->). exists b, c, (N.succ d). rewrite N.pow_succ_r'. lia. Qed.

Lemma nfs_k_ok fuel : forall k x, odd357 k -> okN x -> fok 1 fuel k x ->
  exists y, nfs_k fuel m k x = Some y /\ okN y /\ y <= x /\
            below y (fun z => exists b, z = k * 3 ^ b).
Proof.
  induction fuel as [|f IH]; intros k x Hk Hx Hf; [destruct Hf; lia|].
  pose proof (odd357_pos k Hk) as Hk1.
  cbn [nfs_k]. destruct (N.ltb_spec k x) as [Hlt|Hge].
  - fold (cand k). pose proof Hx as (_ & _ & HxB).
    rewrite (mul_small k x 3) by (assumption || lia).
    destruct (fok_more _ _ _ _ Hf Hlt) as [_ Hf'].
    destruct (IH (k * 3) (N.min x (cand k))) as (y & E & Hy & Hyx & HB).
    + apply odd357_mul3; assumption.
    + apply okN_min; assumption.
    + apply Hf'; lia.
    + exists y. split; [assumption|]. split; [assumption|]. split; [lia|].
      intros z a (b & ->) Hz. destruct (N.eq_dec b 0) as [->|Hb].
      * rewrite N.pow_0_r, N.mul_1_r in *.
        destruct (cand_least k Hk1) as (_ & _ & Hmin); [lia|].
        specialize (Hmin (k * 2 ^ a) (ex_intro _ a eq_refl) Hz). lia.
      * assert (E3 : k * 3 ^ b = k * 3 * 3 ^ (b - 1)).
        { replace b with (N.succ (b - 1)) at 1 by lia. rewrite N.pow_succ_r'. lia. }
        rewrite E3 in *. apply HB; [eexists; reflexivity|assumption].
  - exists x. split; [reflexivity|]. split; [assumption|]. split; [lia|].
    intros z a (b & ->) _.
    assert (2 ^ a <> 0) by (apply N.pow_nonzero; lia).
    assert (3 ^ b <> 0) by (apply N.pow_nonzero; lia).
    assert (k * 1 * 1 <= k * 3 ^ b * 2 ^ a) by (repeat apply N.mul_le_mono; lia). lia.
Qed.

Lemma nfs_j_ok fuel : forall k x, odd357 k -> okN x -> fok 2 fuel k x ->
  exists y, nfs_j fuel m k x = Some y /\ okN y /\ y <= x /\
            below y (fun z => exists b c, z = k * 3 ^ b * 5 ^ c).
Proof.
  induction fuel as [|f IH]; intros k x Hk Hx Hf; [destruct Hf; lia|].
  pose proof (odd357_pos k Hk) as Hk1.
  cbn [nfs_j]. destruct (N.ltb_spec k x) as [Hlt|Hge].
  - pose proof Hx as (_ & _ & HxB).
    destruct (nfs_k_ok f k x Hk Hx (fok_inner _ _ _ _ Hf)) as (y0 & E0 & Hy0 & Hyx0 & HB0).
    rewrite E0.
    rewrite (mul_small k x 5) by (assumption || lia).
    destruct (fok_more _ _ _ _ Hf Hlt) as [_ Hf'].
    destruct (IH (k * 5) y0) as (y & E & Hy & Hyx & HB).
    + apply odd357_mul5; assumption.
    + assumption.
    + apply Hf'; lia.
    + exists y. split; [assumption|]. split; [assumption|]. split; [lia|].
      intros z a (b & c & ->) Hz. destruct (N.eq_dec c 0) as [->|Hb].
      * rewrite N.pow_0_r, N.mul_1_r in *.
        assert (y0 <= k * 3 ^ b * 2 ^ a) by (apply HB0; [eexists; reflexivity|assumption]). lia.
      * assert (E3 : k * 3 ^ b * 5 ^ c = k * 5 * 3 ^ b * 5 ^ (c - 1)).
        { replace c with (N.succ (c - 1)) at 1 by lia. rewrite N.pow_succ_r'. lia. }
        rewrite E3 in *. apply HB; [do 2 eexists; reflexivity|assumption].
  - exists x. split; [reflexivity|]. split; [assumption|]. split; [lia|].
    intros z a (b & c & ->) _.
    assert (2 ^ a <> 0) by (apply N.pow_nonzero; lia).
    assert (3 ^ b <> 0) by (apply N.pow_nonzero; lia).
    assert (5 ^ c <> 0) by (apply N.pow_nonzero; lia).
    assert (k * 1 * 1 * 1 <= k * 3 ^ b * 5 ^ c * 2 ^ a)
      by (repeat apply N.mul_le_mono; lia). lia.
Qed.

Lemma nfs_i_ok fuel : forall k x, odd357 k -> okN x -> fok 3 fuel k x ->
  exists y, nfs_i fuel m k x = Some y /\ okN y /\ y <= x /\
            below y (fun z => exists b c d, z = k * 3 ^ b * 5 ^ c * 7 ^ d).
Proof.
  induction fuel as [|f IH]; intros k x Hk Hx Hf; [destruct Hf; lia|].
  pose proof (odd357_pos k Hk) as Hk1.
  cbn [nfs_i]. destruct (N.ltb_spec k x) as [Hlt|Hge].
  - pose proof Hx as (_ & _ & HxB).
    destruct (nfs_j_ok f k x Hk Hx (fok_inner _ _ _ _ Hf)) as (y0 & E0 & Hy0 & Hyx0 & HB0).
    rewrite E0.
    rewrite (mul_small k x 7) by (assumption || lia).
    destruct (fok_more _ _ _ _ Hf Hlt) as [_ Hf'].
    destruct (IH (k * 7) y0) as (y & E & Hy & Hyx & HB).
    + apply odd357_mul7; assumption.
    + assumption.
    + apply Hf'; lia.
    + exists y. split; [assumption|]. split; [assumption|]. split; [lia|].
      intros z a (b & c & d & ->) Hz. destruct (N.eq_dec d 0) as [->|Hb].
      * rewrite N.pow_0_r, N.mul_1_r in *.
        assert (y0 <= k * 3 ^ b * 5 ^ c * 2 ^ a) by (apply HB0; [do 2 eexists; reflexivity|assumption]). lia.
      * assert (E3 : k * 3 ^ b * 5 ^ c * 7 ^ d = k * 7 * 3 ^ b * 5 ^ c * 7 ^ (d - 1)).
        { replace d with (N.succ (d - 1)) at 1 by lia. rewrite N.pow_succ_r'. lia. }
        rewrite E3 in *. apply HB; [do 3 eexists; reflexivity|assumption].
  - exists x. split; [reflexivity|]. split; [assumption|]. split; [lia|].
    intros z a (b & c & d & ->) _.
    assert (2 ^ a <> 0) by (apply N.pow_nonzero; lia).
    assert (3 ^ b <> 0) by (apply N.pow_nonzero; lia).
    assert (5 ^ c <> 0) by (apply N.pow_nonzero; lia).
    assert (7 ^ d <> 0) by (apply N.pow_nonzero; lia).
    assert (k * 1 * 1 * 1 * 1 <= k * 3 ^ b * 5 ^ c * 7 ^ d * 2 ^ a)
      by (repeat apply N.mul_le_mono; lia). lia.
Qed.

Lemma nextfftsize_least fuel : (64 <= fuel)%nat ->
  exists r, nextfftsize fuel m = Some r /\ least_ge smooth7 m r.
Proof.
  intros Hf. unfold nextfftsize. cbv zeta.
  assert (H63 : m <= 2 ^ 63).
  { pose proof m_bound. change (2 ^ 63) with 9223372036854775808. lia. }
  destruct (ceilpow2_least m Hm1 H63) as ((a & Ea) & Hge & Hmin).
  destruct (N.eqb_spec m (ceilpow2 m)) as [E|Hne].
  { exists m. split; [reflexivity|]. apply least_ge_self.
    exists a, 0, 0, 0. rewrite !N.pow_0_r, !N.mul_1_r. congruence. }
  assert (H61 : ceilpow2 m <= 2 ^ 61) by (apply Hmin; [eexists; reflexivity|exact Hm2]).
  destruct (nfs_i_ok fuel 1 (ceilpow2 m)) as (y & E & (Hs & Hy & _) & Hyx & HB).
  - exists 0, 0, 0. reflexivity.
  - split; [|split; [lia|assumption]]. exists a, 0, 0, 0.
    rewrite !N.pow_0_r, !N.mul_1_r. assumption.
  - split; [lia|]. rewrite N.mul_1_l. transitivity (2 ^ 61); [assumption|].
    apply N.pow_le_mono_r; lia.
  - exists y. split; [assumption|]. split; [assumption|]. split; [assumption|].
    intros z (a' & b & c & d & ->) Hz.
    replace (2 ^ a' * 3 ^ b * 5 ^ c * 7 ^ d) with (3 ^ b * 5 ^ c * 7 ^ d * 2 ^ a') in * by lia.
    apply HB; [|assumption]. exists b, c, d. rewrite N.mul_1_l. reflexivity.
Qed.
End NFS.

(** *** failures outside the representable range *)

Lemma ceilpow_wrong : 
  ceilpow 300 3 (3 ^ 39) = Some 5756027422282277481 /\ 
  ~ power_of 3 5756027422282277481 /\ 3 ^ 39 < W64.
Proof.
  split; [vm_compute; reflexivity|]. split; [|reflexivity].
  intros (k & E). destruct (N.lt_ge_cases k 40) as [H|H].
  - assert (3 ^ k <= 3 ^ 39) by (apply N.pow_le_mono_r; lia).
    change (3 ^ 39) with 4052555153018976267 in *. lia.
  - assert (3 ^ 40 <= 3 ^ k) by (apply N.pow_le_mono_r; lia).
    change (3 ^ 40) with 12157665459056928801 in *. lia.
Qed.

Lemma ispure_wrong : ispure 300 (3 ^ 39) = Some false /\ pure (3 ^ 39).
Proof. split; [vm_compute; reflexivity|]. right; left. exists 39. reflexivity. Qed.

Lemma paddings_least m : 1 <= m -> m <= 2 ^ 61 ->
  least_ge (power_of 2) (2 * m - 1) (cpadding m) /\
  least_ge (power_of 2) (3 * m - 2) (hpadding m) /\
  least_ge (power_of 2) (4 * m - 3) (tpadding m).
Proof.
  intros H1 H2. assert (HW : 4 * 2 ^ 61 < W64) by reflexivity. assert (H3 : 4 * 2 ^ 61 = 2 ^ 63) by reflexivity.
  unfold cpadding, hpadding, tpadding, mul64, w64.
  rewrite !N.mod_small by lia.
  rewrite (pred64_pos (2 * m)), (pred64_pos (3 * m)), (pred64_pos (4 * m)) by lia.
  rewrite (pred64_pos (3 * m - 1)), (pred64_pos (4 * m - 1)) by lia.
  rewrite (pred64_pos (4 * m - 1 - 1)) by lia.
  replace (3 * m - 1 - 1) with (3 * m - 2) by lia. replace (4 * m - 1 - 1 - 1) with (4 * m - 3) by lia.
  split; [|split]; apply ceilpow2_least; lia.
Qed.
