(** Hermitian symmetrization of Complex words. *)
From Coq Require Import Reals ZArith Arith Lia List Bool Classical_Prop.
From Verif Require Import CNum Sums Mem PadModel PadSpec ConvModel LayerSpec WrapModel WrapSpec.
Import ListNotations.
Notation mem := (Mem.mem C).

(** words written independently of each other *)
Lemma scatter n (dst : nat -> addr) (R : nat -> addr -> Prop) (v : nat -> C) body (m : mem) :
  (forall i j, i < n -> j < n -> dst i = dst j -> i = j) ->
  (forall i j, i < n -> j < n -> i <> j -> ~ R j (dst i)) ->
  (forall i, i < n -> wp (R i) (eq (dst i)) (body i) m (fun m' => m' (dst i) = Val (v i))) ->
  WP (Par n body) m (fun m' => (forall i, i < n -> m' (dst i) = Val (v i)) /\
     only (fun a => exists i, i < n /\ a = dst i) m m').
Proof.
  intros Hi HR Hb.
  eapply WP_mono; [|apply (WP_par C n R (fun i => eq (dst i)) (fun i m' => m' (dst i) = Val (v i)))].
  - intros m' [A [B _]]. split; [exact A|].
    assert (HB : forall a, ~ (exists i, i < n /\ a = dst i) -> m' a = m a).
    { intros a Ha. apply B. intros (i & Hi' & E). apply Ha. exists i. auto. }
    split; [exact HB|]. intros a Ha. destruct (classic (exists i, i < n /\ a = dst i)) as [(i & Hi' & ->)|Hn].
    + rewrite A by assumption. discriminate.
    + rewrite HB; assumption.
  - intros i j a H1 H2 Hne <- [B|B]; [exact (HR i j H1 H2 Hne B)|]. apply Hne. symmetry. apply Hi; auto.
  - intros i H m1 m2 E G. rewrite <- E by (right; reflexivity). exact G.
  - exact Hb.
Qed.
Lemma scatter2 n n' (dst : nat -> nat -> addr) (R : nat -> nat -> addr -> Prop) (v : nat -> nat -> C) body (m : mem) :
  (forall i j i' j', i < n -> j < n' -> i' < n -> j' < n' -> dst i j = dst i' j' -> i = i' /\ j = j') ->
  (forall i j i' j', i < n -> j < n' -> i' < n -> j' < n' -> ~ R i' j' (dst i j)) ->
  (forall i j, i < n -> j < n' -> wp (R i j) (eq (dst i j)) (body i j) m (fun m' => m' (dst i j) = Val (v i j))) ->
  WP (Par n (fun i => pfor n' (body i))) m (fun m' => (forall i j, i < n -> j < n' -> m' (dst i j) = Val (v i j)) /\
     only (fun a => exists i j, i < n /\ j < n' /\ a = dst i j) m m').
Proof.
  intros Hi HR Hb.
  set (W := fun i a => exists j, j < n' /\ dst i j = a). set (RR := fun i a => exists j, j < n' /\ R i j a).
  eapply WP_mono; [|apply (WP_par C n RR W (fun i m' => forall j, j < n' -> m' (dst i j) = Val (v i j)))].
  - intros m' [A [B _]]. split; [intros i j H1 H2; apply A; assumption|].
    assert (HB : forall a, ~ (exists i j, i < n /\ j < n' /\ a = dst i j) -> m' a = m a).
    { intros a Ha. apply B. intros (i & Hi' & (j & Hj & E)). apply Ha. exists i, j. auto. }
    split; [exact HB|]. intros a Ha. destruct (classic (exists i j, i < n /\ j < n' /\ a = dst i j)) as [(i & j & Hi' & Hj & ->)|Hn].
    + rewrite A by assumption. discriminate.
    + rewrite HB; assumption.
  - intros i i' a H1 H2 Hne (j & Hj & <-) [(j' & Hj' & B)|(j' & Hj' & B)].
    + exact (HR i j i' j' H1 Hj H2 Hj' B).
    + apply Hne. symmetry. apply (Hi i' j' i j); auto.
  - intros i H m1 m2 E G j Hj. rewrite <- E; [apply G; exact Hj|]. right. exists j. auto.
  - intros i H.
    eapply wp_mono; [|apply (wp_pfor C n' (R i) (fun j => eq (dst i j)) (fun j m' => m' (dst i j) = Val (v i j)))].
    + intros m' [A _]. exact A.
    + intros j j' a H1 H2 Hne <- [B|B]; [exact (HR i j i j' H H1 H H2 B)|]. apply Hne. symmetry. apply (Hi i j' i j); auto.
    + intros j Hj m1 m2 E G. rewrite <- E by (right; reflexivity). exact G.
    + intros j a Hj Hw. left. exists j. auto.
    + intros j a Hj <-. exists j. auto.
    + intros j Hj. apply Hb; assumption.
Qed.

Lemma wp_conjC f d s m z (R W : addr -> Prop) : (0 <= d)%Z -> (0 <= s)%Z -> m (f + Z.to_nat s) = Val z -> m (f + Z.to_nat d) <> Unalloc ->
  R (f + Z.to_nat s) -> W (f + Z.to_nat d) ->
  wp R W (conjC f d s) m (fun m' => m' (f + Z.to_nat d) = Val (Cconj z)).
Proof.
  intros Hd Hs Hz Ha HR HW. unfold conjC.
  replace ((0 <=? Z.of_nat f + d) && (0 <=? Z.of_nat f + s))%Z with true by (symmetry; apply andb_true_iff; split; apply Z.leb_le; lia).
  replace (Z.to_nat (Z.of_nat f + d)) with (f + Z.to_nat d) by lia. replace (Z.to_nat (Z.of_nat f + s)) with (f + Z.to_nat s) by lia.
  cbn [wp]. split; [left; exact HR|]. exists z. split; [exact Hz|]. split; [exact HW|]. split; [exact Ha|]. apply upd_eq.
Qed.
Lemma WP_realC f d (m : mem) z : m (f + d) = Val z ->
  WP (Par 1 (fun _ => realC f d)) m (fun m' => m' (f + d) = Val (RtoC (re z)) /\ only (eq (f + d)) m m').
Proof.
  intros Hz. eapply WP_mono; [|apply (scatter 1 (fun _ => f + d) (fun _ => eq (f + d)) (fun _ => RtoC (re z)))].
  - intros m' [A [B1 B2]]. split; [apply (A 0); lia|]. split; [|exact B2]. intros a Ha. apply B1. intros (i & _ & ->). apply Ha. reflexivity.
  - intros; lia.
  - intros; lia.
  - intros i _. unfold realC. cbn [wp]. split; [left; reflexivity|]. exists z. split; [exact Hz|]. split; [reflexivity|]. split; [rewrite Hz; discriminate|]. apply upd_eq.
Qed.
Lemma only_trans P m1 m2 m3 : only P m1 m2 -> only P m2 m3 -> only P m1 m3.
Proof. intros [A B] [C' D]. split; [intros a Ha; rewrite C', A; auto|auto]. Qed.
Lemma only_sub (P Q : nat -> Prop) m1 m2 : only P m1 m2 -> (forall a, P a -> Q a) -> only Q m1 m2.
Proof. intros [A B] H. split; [intros a Ha; apply A; auto|auto]. Qed.

(** *** one dimension *)
Definition block (f n : nat) (a : addr) : Prop := f <= a < f + n.
Lemma symmetrize_spec f H x (m : mem) : 1 <= H -> (forall j, j < H -> m (f + j) = Val (x j)) ->
  WP (symmetrize f) m (fun m' => (forall j, j < H -> m' (f + j) = Val (if j =? 0 then RtoC (re (x 0)) else x j)) /\ only (block f H) m m').
Proof.
  intros HH Hx. eapply WP_mono; [|apply (WP_realC f 0 m (x 0)), Hx; lia]. intros m' [A B]. split.
  - intros j Hj. destruct (Nat.eqb_spec j 0) as [->|Hn]; [exact A|]. rewrite (proj1 B) by lia. apply Hx; assumption.
  - eapply only_sub; [exact B|]. intros a <-. unfold block. lia.
Qed.

(** *** two dimensions: what is stored after symmetrizeX *)
Definition sX (L : nat) (x : nat -> nat -> C) (i j : nat) : C :=
  let c := L / 2 in
  if (L mod 2 =? 0) && (i =? 0) then C0 else
  if j =? 0 then (if c <? i then x i 0 else if i =? c then RtoC (re (x c 0)) else Cconj (x (2 * c - i) 0)) else x i j.

Lemma row_eq H i j i' : j < H -> H * i + j = H * i' -> i = i' /\ j = 0.
Proof.
  intros Hj E. destruct (Nat.lt_trichotomy i i') as [Hl|[->|Hl]]; [|lia|].
  - exfalso. assert (H * (i + 1) <= H * i') by (apply Nat.mul_le_mono_l; lia). lia.
  - exfalso. assert (H * (i' + 1) <= H * i) by (apply Nat.mul_le_mono_l; lia). lia.
Qed.
Lemma half_eq L : L / 2 + (L + 1) / 2 = L /\ ((L mod 2 = 0 /\ (L + 1) / 2 = L / 2) \/ (L mod 2 = 1 /\ (L + 1) / 2 = L / 2 + 1)).
Proof. pose proof (Nat.div_mod_eq L 2). pose proof (Nat.mod_upper_bound L 2). pose proof (Nat.div_mod_eq (L + 1) 2). pose proof (Nat.mod_upper_bound (L + 1) 2). lia. Qed.

Lemma symmetrizeX_spec f L H x (m : mem) : 1 <= L -> 1 <= H -> (forall i j, i < L -> j < H -> m (f + H * i + j) = Val (x i j)) ->
  WP (symmetrizeX ((L + 1) / 2) H (L / 2) f H) m (fun m' =>
    (forall i j, i < L -> j < H -> m' (f + H * i + j) = Val (sX L x i j)) /\ only (block f (H * L)) m m').
Proof.
  intros HL HH Hx. destruct (half_eq L) as [E1 E2]. set (c := L / 2) in *. set (K := (L + 1) / 2) in *. unfold symmetrizeX. cbv zeta.
  assert (Hmono : forall i, i < L -> H * i + H <= H * L). { intros i Hi. replace (H * i + H) with (H * (i + 1)) by lia. apply Nat.mul_le_mono_l. lia. }
  assert (HcL : c < L) by lia.
  apply WP_seq. eapply WP_mono; [|apply (scatter (K - 1) (fun k => f + H * (c - (k + 1))) (fun k => eq (f + H * (c + (k + 1)))) (fun k => Cconj (x (c + (k + 1)) 0)))].
  - intros m1 [A1 B1]. apply WP_seq. eapply WP_mono; [|apply (WP_realC f (c * H) m1 (x c 0))].
    + intros m2 [A2 B2].
      assert (V2 : forall i j, i < L -> j < H -> (L mod 2 = 0 -> 0 < i) -> m2 (f + H * i + j) = Val (if j =? 0 then (if c <? i then x i 0 else if i =? c then RtoC (re (x c 0)) else Cconj (x (2 * c - i) 0)) else x i j)).
      { intros i j Hi Hj Hev. destruct (Nat.eqb_spec j 0) as [->|Hj0].
        - rewrite Nat.add_0_r. destruct (Nat.eqb_spec i c) as [->|Hc].
          + replace (f + H * c) with (f + c * H) by lia. rewrite A2, Nat.ltb_irrefl. reflexivity.
          + rewrite (proj1 B2). 2:{ intros E. apply Hc. assert (H * i + 0 = H * c) by lia. apply row_eq in H0; lia. }
            destruct (Nat.ltb_spec c i) as [Hlt|Hge].
            * rewrite (proj1 B1). { specialize (Hx i 0 Hi HH). rewrite Nat.add_0_r in Hx. exact Hx. }
              intros (k & Hk & E). assert (H * i + 0 = H * (c - (k + 1))) by lia. apply row_eq in H0; lia.
            * specialize (A1 (c - i - 1) ltac:(lia)). replace (c - (c - i - 1 + 1)) with i in A1 by lia. rewrite A1. do 3 f_equal. lia.
        - rewrite (proj1 B2). 2:{ intros E. assert (E' : H * i + j = H * c) by lia. apply row_eq in E'; lia. }
          rewrite (proj1 B1); [apply Hx; assumption|]. intros (k & Hk & E). assert (E' : H * i + j = H * (c - (k + 1))) by lia. apply row_eq in E'; lia. }
      assert (O2 : only (block f (H * L)) m m2).
      { eapply only_trans; [eapply only_sub; [exact B1|]|eapply only_sub; [exact B2|]].
        - intros a (k & Hk & ->). unfold block. specialize (Hmono (c - (k + 1)) ltac:(lia)). revert Hmono. generalize (H * (c - (k + 1))). intros; lia.
        - intros a <-. unfold block. specialize (Hmono c HcL). lia. }
      destruct (Nat.eqb_spec c K) as [EK|EK].
      * eapply WP_mono; [|apply (scatter H (fun j => f + j) (fun _ _ => False) (fun _ => C0))].
        -- intros m3 [A3 B3]. split.
           ++ intros i j Hi Hj. unfold sX. fold c. replace (L mod 2 =? 0) with true by (symmetry; apply Nat.eqb_eq; lia). cbn [andb].
              destruct (Nat.eqb_spec i 0) as [->|Hi0]; [rewrite Nat.mul_0_r, Nat.add_0_r; apply A3; assumption|].
              rewrite (proj1 B3); [apply V2; auto; lia|]. intros (j' & Hj' & E).
              assert (H * 1 <= H * i) by (apply Nat.mul_le_mono_l; lia). lia.
           ++ eapply only_trans; [exact O2|]. eapply only_sub; [exact B3|]. intros a (j & Hj & ->). unfold block. specialize (Hmono 0 ltac:(lia)). lia.
        -- intros; lia.
        -- intros; auto.
        -- intros j Hj. unfold zeroW. cbn [wp]. split; [reflexivity|]. split; [|apply upd_eq]. apply (proj2 O2).
           specialize (Hx 0 j ltac:(lia) Hj). rewrite Nat.mul_0_r, Nat.add_0_r in Hx. rewrite Hx. discriminate.
      * apply WP_skip. split; [|exact O2]. intros i j Hi Hj. unfold sX. fold c. replace (L mod 2 =? 0) with false by (symmetry; apply Nat.eqb_neq; lia). cbn [andb].
        apply V2; auto. lia.
    + rewrite (proj1 B1). { specialize (Hx c 0 HcL HH). replace (f + c * H) with (f + H * c + 0) by lia. exact Hx. }
      intros (k & Hk & E). assert (E' : H * c + 0 = H * (c - (k + 1))) by lia. apply row_eq in E'; lia.
  - intros i j Hi Hj E. assert (E' : H * (c - (i + 1)) + 0 = H * (c - (j + 1))) by lia. apply row_eq in E'; lia.
  - intros i j Hi Hj _ E. assert (E' : H * (c - (i + 1)) + 0 = H * (c + (j + 1))) by lia. apply row_eq in E'; lia.
  - intros k Hk. assert (Es : H * (k + 1) <= H * c) by (apply Nat.mul_le_mono_l; lia).
    assert (Ed : Z.to_nat (Z.of_nat (c * H) - Z.of_nat (H * (k + 1))) = H * (c - (k + 1))). { rewrite Nat.mul_sub_distr_l. lia. }
    assert (Eu : Z.to_nat (Z.of_nat (c * H) + Z.of_nat (H * (k + 1))) = H * (c + (k + 1))). { rewrite Nat.mul_add_distr_l. lia. }
    rewrite <- Ed. apply wp_conjC; try lia.
    + rewrite Eu. specialize (Hx (c + (k + 1)) 0 ltac:(lia) HH). rewrite Nat.add_0_r in Hx. exact Hx.
    + rewrite Ed. specialize (Hx (c - (k + 1)) 0 ltac:(lia) HH). rewrite Nat.add_0_r in Hx. rewrite Hx. discriminate.
Qed.

(** *** three dimensions *)
Definition sXY (L L' : nat) (x : nat -> nat -> nat -> C) (i j l : nat) : C :=
  let c := L / 2 in let c' := L' / 2 in
  if ((L mod 2 =? 0) && (i =? 0)) || ((L' mod 2 =? 0) && (j =? 0)) then C0 else
  if l =? 0 then
    (if c' <? j then x i j 0
     else if j =? c' then (if c <? i then x i c' 0 else if i =? c then RtoC (re (x c c' 0)) else Cconj (x (2 * c - i) c' 0))
     else Cconj (x (2 * c - i) (2 * c' - j) 0))
  else x i j l.

Lemma euclid H a b a' b' : b < H -> b' < H -> H * a + b = H * a' + b' -> a = a' /\ b = b'.
Proof.
  intros Hb Hb' E. destruct (Nat.lt_trichotomy a a') as [Hl|[->|Hl]]; [|lia|]; exfalso.
  - assert (H * (a + 1) <= H * a') by (apply Nat.mul_le_mono_l; lia). lia.
  - assert (H * (a' + 1) <= H * a) by (apply Nat.mul_le_mono_l; lia). lia.
Qed.
Definition a3 (L' H i j l : nat) : nat := (L' * H) * i + H * j + l.
Lemma a3_inj L' H i j l i' j' l' : j < L' -> l < H -> j' < L' -> l' < H -> a3 L' H i j l = a3 L' H i' j' l' -> i = i' /\ j = j' /\ l = l'.
Proof.
  unfold a3. intros H1 H2 H3 H4 E. assert (E' : H * (L' * i + j) + l = H * (L' * i' + j') + l') by lia.
  apply euclid in E'; [|assumption|assumption]. destruct E' as [E' ->]. apply euclid in E'; [|assumption|assumption]. tauto.
Qed.
Lemma a3_lt L L' H i j l : i < L -> j < L' -> l < H -> a3 L' H i j l < L' * H * L.
Proof.
  unfold a3. intros Hi Hj Hl. assert (L' * H * (i + 1) <= L' * H * L) by (apply Nat.mul_le_mono_l; lia).
  assert (H * (j + 1) <= H * L') by (apply Nat.mul_le_mono_l; lia). lia.
Qed.

Section XY.
Variables (f L L' H : nat) (x : nat -> nat -> nat -> C) (m : mem).
Hypothesis (HL : 1 <= L) (HL' : 1 <= L') (HH : 1 <= H).
Hypothesis Hx : forall i j l, i < L -> j < L' -> l < H -> m (f + a3 L' H i j l) = Val (x i j l).
Notation c := (L / 2). Notation c' := (L' / 2). Notation K := ((L + 1) / 2). Notation K' := ((L' + 1) / 2).
Notation S := (L' * H).
Notation blk := (block f (S * L)).
Notation at3 m i j l := (m (f + a3 L' H i j l)).
Lemma in_blk i j l : i < L -> j < L' -> l < H -> blk (f + a3 L' H i j l).
Proof. intros. pose proof (a3_lt L L' H i j l). unfold block. lia. Qed.
Lemma other3 i j l i' j' l' : j < L' -> l < H -> j' < L' -> l' < H -> ~ (i = i' /\ j = j' /\ l = l') -> f + a3 L' H i j l <> f + a3 L' H i' j' l'.
Proof. intros H1 H2 H3 H4 Hn E. apply Hn. apply (a3_inj L' H); try assumption. lia. Qed.
Lemma c_bd : c < L /\ c + K = L /\ c <= K <= c + 1 \/ c < L /\ c + K = L /\ K = c.
Proof. destruct (half_eq L) as [E1 [E2|E2]]; lia. Qed.

Lemma symmetrizeXY_spec :
  WP (symmetrizeXY K K' H c c' f ((c' + K') * H) H) m (fun m' =>
    (forall i j l, i < L -> j < L' -> l < H -> at3 m' i j l = Val (sXY L L' x i j l)) /\ only blk m m').
Proof.
  destruct (half_eq L) as [E1 E2]. destruct (half_eq L') as [E1' E2']. rewrite E1'. unfold symmetrizeXY. cbv zeta.
  assert (Hcc : c < L /\ c' < L' /\ 1 <= K /\ 1 <= K' /\ K <= c + 1 /\ K' <= c' + 1) by lia.
  set (c0 := c) in *. set (c1 := c') in *. set (K0 := K) in *. set (K1 := K') in *.
  assert (Eo : c0 * S + c1 * H = a3 L' H c0 c1 0) by (unfold a3; lia). rewrite Eo.
  (* first loop *)
  apply WP_seq. eapply WP_mono; [|apply (scatter (K0 - 1) (fun k => f + a3 L' H (c0 - (k + 1)) c1 0) (fun k => eq (f + a3 L' H (c0 + (k + 1)) c1 0)) (fun k => Cconj (x (c0 + (k + 1)) c1 0)))].
  2:{ intros i j Hi Hj E. assert (E' : a3 L' H (c0 - (i + 1)) c1 0 = a3 L' H (c0 - (j + 1)) c1 0) by lia. apply a3_inj in E'; lia. }
  2:{ intros i j Hi Hj _ E. assert (E' : a3 L' H (c0 - (i + 1)) c1 0 = a3 L' H (c0 + (j + 1)) c1 0) by lia. apply a3_inj in E'; lia. }
  2:{ intros k Hk. assert (Es : S * (k + 1) <= S * c0) by (apply Nat.mul_le_mono_l; lia).
      assert (Ed : Z.to_nat (Z.of_nat (a3 L' H c0 c1 0) - Z.of_nat (S * (k + 1))) = a3 L' H (c0 - (k + 1)) c1 0). { unfold a3. rewrite (Nat.mul_sub_distr_l c0 (k + 1) S). lia. }
      assert (Eu : Z.to_nat (Z.of_nat (a3 L' H c0 c1 0) + Z.of_nat (S * (k + 1))) = a3 L' H (c0 + (k + 1)) c1 0). { unfold a3. rewrite (Nat.mul_add_distr_l S c0 (k + 1)). lia. }
      rewrite <- Ed. apply wp_conjC.
      - unfold a3. lia.
      - lia.
      - rewrite Eu. apply Hx; lia.
      - rewrite Ed, Hx by lia. discriminate.
      - rewrite Eu. reflexivity.
      - reflexivity. }
  intros m1 [A1 B1].
  assert (U1 : forall i j l, i < L -> j < L' -> l < H -> ~ (j = c1 /\ l = 0 /\ i < c0) -> at3 m1 i j l = Val (x i j l)).
  { intros i j l Hi Hj Hl Hn. rewrite (proj1 B1); [apply Hx; assumption|]. intros (k & Hk & E). revert E. apply other3; lia. }
  (* the origin *)
  apply WP_seq. eapply WP_mono; [|apply (WP_realC f (a3 L' H c0 c1 0) m1 (x c0 c1 0)); apply U1; lia].
  intros m2 [A2 B2].
  assert (U2 : forall i j l, i < L -> j < L' -> l < H -> ~ (j = c1 /\ l = 0 /\ i <= c0) -> at3 m2 i j l = Val (x i j l)).
  { intros i j l Hi Hj Hl Hn. rewrite (proj1 B2); [apply U1; try assumption; lia|]. apply other3; lia. }
  assert (V2 : forall i, i < c0 -> c0 - i < K0 -> at3 m2 i c1 0 = Val (Cconj (x (2 * c0 - i) c1 0))).
  { intros i Hi Hk. rewrite (proj1 B2) by (apply other3; lia). specialize (A1 (c0 - i - 1) ltac:(lia)).
    replace (c0 - (c0 - i - 1 + 1)) with i in A1 by lia. rewrite A1. do 3 f_equal. lia. }
  assert (O2 : only blk m m2).
  { eapply only_trans; [eapply only_sub; [exact B1|]|eapply only_sub; [exact B2|]].
    - intros a (k & Hk & ->). apply in_blk; lia.
    - intros a <-. apply in_blk; lia. }
  (* second loop *)
  apply WP_seq. eapply WP_mono; [|apply (scatter2 (2 * K0 - 1) (K1 - 1) (fun k l => f + a3 L' H (c0 + (K0 - 1) - k) (c1 - (l + 1)) 0)
    (fun k l => eq (f + a3 L' H (c0 + k - (K0 - 1)) (c1 + (l + 1)) 0)) (fun k l => Cconj (x (c0 + k - (K0 - 1)) (c1 + (l + 1)) 0)))].
  2:{ intros i j i' j' Hi Hj Hi' Hj' E.
      assert (E' : a3 L' H (c0 + (K0 - 1) - i) (c1 - (j + 1)) 0 = a3 L' H (c0 + (K0 - 1) - i') (c1 - (j' + 1)) 0) by lia. apply a3_inj in E'; lia. }
  2:{ intros i j i' j' Hi Hj Hi' Hj' E.
      assert (E' : a3 L' H (c0 + (K0 - 1) - i) (c1 - (j + 1)) 0 = a3 L' H (c0 + i' - (K0 - 1)) (c1 + (j' + 1)) 0) by lia. apply a3_inj in E'; lia. }
  2:{ intros k l Hk Hl.
      set (o := Z.of_nat (a3 L' H c0 c1 0)). set (i := ((Z.of_nat k - (Z.of_nat K0 - 1)) * Z.of_nat S)%Z).
      assert (Dd : (o - i - Z.of_nat (H * (l + 1)) = Z.of_nat (a3 L' H (c0 + (K0 - 1) - k) (c1 - (l + 1)) 0))%Z).
      { assert (EA : Z.of_nat (c0 + (K0 - 1) - k) = (Z.of_nat c0 + Z.of_nat K0 - 1 - Z.of_nat k)%Z) by lia. assert (EB : Z.of_nat (c1 - (l + 1)) = (Z.of_nat c1 - Z.of_nat l - 1)%Z) by lia.
        unfold o, i, a3. revert EA EB. generalize (c0 + (K0 - 1) - k) (c1 - (l + 1)). intros u v EA EB. rewrite !Nat2Z.inj_add, !Nat2Z.inj_mul, EA, EB, !Nat2Z.inj_add. cbn [Z.of_nat]. ring. }
      assert (Du : (o + i + Z.of_nat (H * (l + 1)) = Z.of_nat (a3 L' H (c0 + k - (K0 - 1)) (c1 + (l + 1)) 0))%Z).
      { assert (EA : Z.of_nat (c0 + k - (K0 - 1)) = (Z.of_nat c0 + Z.of_nat k - Z.of_nat K0 + 1)%Z) by lia. assert (EB : Z.of_nat (c1 + (l + 1)) = (Z.of_nat c1 + Z.of_nat l + 1)%Z) by lia.
        unfold o, i, a3. revert EA EB. generalize (c0 + k - (K0 - 1)) (c1 + (l + 1)). intros u v EA EB. rewrite !Nat2Z.inj_add, !Nat2Z.inj_mul, EA, EB, !Nat2Z.inj_add. cbn [Z.of_nat]. ring. }
      rewrite Dd, Du. eapply wp_mono; [|apply (wp_conjC f (Z.of_nat (a3 L' H (c0 + (K0 - 1) - k) (c1 - (l + 1)) 0)) (Z.of_nat (a3 L' H (c0 + k - (K0 - 1)) (c1 + (l + 1)) 0)) m2 (x (c0 + k - (K0 - 1)) (c1 + (l + 1)) 0))];
        rewrite ?Nat2Z.id; try lia.
      - intros m' Hm'; rewrite ?Nat2Z.id in Hm'; exact Hm'.
      - apply U2; lia.
      - rewrite U2 by lia. discriminate. }
  intros m3 [A3 B3].
  assert (U3 : forall i j l, i < L -> j < L' -> l < H -> ~ (j < c1 /\ l = 0) -> at3 m3 i j l = at3 m2 i j l).
  { intros i j l Hi Hj Hl Hn. rewrite (proj1 B3); [reflexivity|]. intros (k & l' & Hk & Hl' & E). revert E. apply other3; lia. }
  assert (V3 : forall i j, c0 < i + K0 -> i < c0 + K0 -> j < c1 -> c1 - j < K1 -> at3 m3 i j 0 = Val (Cconj (x (2 * c0 - i) (2 * c1 - j) 0))).
  { intros i j Hi Hi' Hj Hk. specialize (A3 (c0 + (K0 - 1) - i) (c1 - j - 1) ltac:(lia) ltac:(lia)).
    replace (c0 + (K0 - 1) - (c0 + (K0 - 1) - i)) with i in A3 by lia. replace (c1 - (c1 - j - 1 + 1)) with j in A3 by lia.
    rewrite A3. replace (c0 + (c0 + (K0 - 1) - i) - (K0 - 1)) with (2 * c0 - i) by lia. replace (c1 + (c1 - j - 1 + 1)) with (2 * c1 - j) by lia. reflexivity. }
  assert (O3 : only blk m m3).
  { eapply only_trans; [exact O2|]. eapply only_sub; [exact B3|]. intros a (k & l & Hk & Hl & ->). apply in_blk; lia. }
  assert (W3 : forall i j l, i < L -> j < L' -> l < H -> ~ (L mod 2 = 0 /\ i = 0) -> ~ (L' mod 2 = 0 /\ j = 0) -> at3 m3 i j l = Val (
    if l =? 0 then
    (if c1 <? j then x i j 0
     else if j =? c1 then (if c0 <? i then x i c1 0 else if i =? c0 then RtoC (re (x c0 c1 0)) else Cconj (x (2 * c0 - i) c1 0))
     else Cconj (x (2 * c0 - i) (2 * c1 - j) 0))
    else x i j l)).
  { intros i j l Hi Hj Hl Hn1 Hn2. destruct (Nat.eqb_spec l 0) as [->|Hl0].
    - destruct (Nat.ltb_spec c1 j) as [Hlt|Hge]; [rewrite U3, U2 by lia; reflexivity|].
      destruct (Nat.eqb_spec j c1) as [->|Hj1].
      + rewrite U3 by lia. destruct (Nat.ltb_spec c0 i); [rewrite U2 by lia; reflexivity|].
        destruct (Nat.eqb_spec i c0) as [->|Hi0]; [exact A2|]. apply V2; lia.
      + apply V3; lia.
    - rewrite U3, U2 by lia. reflexivity. }
  assert (Al : forall i j l, i < L -> j < L' -> l < H -> at3 m i j l <> Unalloc) by (intros i j l Hi Hj Hl; rewrite Hx by assumption; discriminate).
  (* Nyquist planes *)
  set (Z4 := if c0 =? K0 then Par (c1 + K1) (fun j => pfor H (fun k => zeroW f (H * j + k))) else Skip).
  assert (Hz4 : WP Z4 m3 (fun m4 => (forall i j l, i < L -> j < L' -> l < H -> at3 m4 i j l = if (L mod 2 =? 0) && (i =? 0) then Val C0 else at3 m3 i j l) /\ only blk m3 m4)).
  { unfold Z4. destruct (Nat.eqb_spec c0 K0) as [EK|EK].
    - rewrite E1'. eapply WP_mono; [|apply (scatter2 L' H (fun j k => f + a3 L' H 0 j k) (fun _ _ _ => False) (fun _ _ => C0))].
      + intros m4 [A4 B4]. split.
        * intros i j l Hi Hj Hl. replace (L mod 2 =? 0) with true by (symmetry; apply Nat.eqb_eq; lia). cbn [andb].
          destruct (Nat.eqb_spec i 0) as [->|Hi0]; [apply A4; assumption|]. apply (proj1 B4). intros (j' & k' & Hj' & Hk' & E). revert E. apply other3; lia.
        * eapply only_sub; [exact B4|]. intros a (j & k & Hj & Hk & ->). apply in_blk; lia.
      + intros i j i' j' Hi Hj Hi' Hj' E. assert (E' : a3 L' H 0 i j = a3 L' H 0 i' j') by lia. apply a3_inj in E'; lia.
      + intros; auto.
      + intros j k Hj Hk. unfold zeroW. replace (H * j + k) with (a3 L' H 0 j k) by (unfold a3; lia). cbn [wp]. split; [reflexivity|]. split; [|apply upd_eq].
        apply (proj2 O3), Al; lia.
    - apply WP_skip. split; [|split; auto]. intros i j l Hi Hj Hl. replace (L mod 2 =? 0) with false by (symmetry; apply Nat.eqb_neq; lia). reflexivity. }
  apply WP_seq. eapply WP_mono; [|exact Hz4]. intros m4 [A4 B4].
  destruct (Nat.eqb_spec c1 K1) as [EK|EK].
  - rewrite E1. eapply WP_mono; [|apply (scatter2 L H (fun i k => f + a3 L' H i 0 k) (fun _ _ _ => False) (fun _ _ => C0))].
    + intros m5 [A5 B5]. split.
      * intros i j l Hi Hj Hl. unfold sXY. fold c0 c1. replace (L' mod 2 =? 0) with true by (symmetry; apply Nat.eqb_eq; lia). cbn [andb].
        destruct (Nat.eqb_spec j 0) as [->|Hj0]; [rewrite orb_true_r; apply A5; assumption|]. rewrite orb_false_r, (proj1 B5) by (intros (i' & k' & Hi' & Hk' & E); revert E; apply other3; lia).
        rewrite A4 by assumption. destruct ((L mod 2 =? 0) && (i =? 0)) eqn:En; [reflexivity|]. apply W3; try assumption; try lia.
        intros [Hn1 ->]. rewrite Hn1 in En. discriminate.
      * eapply only_trans; [exact O3|]. eapply only_trans; [exact B4|]. eapply only_sub; [exact B5|]. intros a (i & k & Hi & Hk & ->). apply in_blk; lia.
    + intros i j i' j' Hi Hj Hi' Hj' E. assert (E' : a3 L' H i 0 j = a3 L' H i' 0 j') by lia. apply a3_inj in E'; lia.
    + intros; auto.
    + intros i k Hi Hk. unfold zeroW. replace (S * i + k) with (a3 L' H i 0 k) by (unfold a3; lia). cbn [wp]. split; [reflexivity|]. split; [|apply upd_eq].
      apply (proj2 B4), (proj2 O3), Al; lia.
  - apply WP_skip. split; [|eapply only_trans; eassumption]. intros i j l Hi Hj Hl. unfold sXY. fold c0 c1.
    replace (L' mod 2 =? 0) with false by (symmetry; apply Nat.eqb_neq; lia). cbn [andb]. rewrite orb_false_r, A4 by assumption.
    destruct ((L mod 2 =? 0) && (i =? 0)) eqn:En; [reflexivity|]. apply W3; try assumption; try lia. intros [Hn1 ->]. rewrite Hn1 in En. discriminate.
Qed.
End XY.
