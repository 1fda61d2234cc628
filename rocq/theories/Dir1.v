(** Sequential loops that sum and store. *)
From Coq Require Import Reals ZArith Arith Lia List Bool FunctionalExtensionality.
From Verif Require Import CNum Sums Mem PadModel PadSpec ConvSpec LayerSpec WrapModel WrapSpec Wrap1 Wrap2 DirModel DirSpec.
Import ListNotations.
Notation mem := (Mem.mem C).
Local Open Scope nat_scope.
Definition T : addr -> Prop := fun _ => True.

Lemma upd_upd (m : mem) p a b : upd (upd m p a) p b = upd m p b.
Proof. apply functional_extensionality. intros q. unfold upd. destruct (p =? q); reflexivity. Qed.

(** the body reads, and adds v i *)
Lemma wp_sum n body v (m : mem) Q : forall s k,
  (forall i s k, i < n -> wp T T (k (Cadd s (v i))) m Q -> wp T T (body i s k) m Q) ->
  wp T T (k (Cadd s (Csum n v))) m Q -> wp T T (sumloop n body s k) m Q.
Proof.
  induction n as [|n IH]; intros s k Hb Hk; cbn [sumloop Csum] in *.
  - rewrite Cadd_0_r in Hk. exact Hk.
  - apply IH; [intros i s' k' Hi; apply Hb; lia|]. apply Hb; [lia|].
    replace (Cadd (Cadd s (Csum n v)) (v n)) with (Cadd s (Cadd (Csum n v) (v n))) by apply Cadd_assoc. exact Hk.
Qed.
(** the body also stores the sum at p *)
Lemma wp_sumw n body v p (m : mem) Q : forall s k,
  (forall i s k c, i < S n -> wp T T (k (Cadd s (v i))) (upd m p (Val (Cadd s (v i)))) Q -> wp T T (body i s k) (upd m p (Val c)) Q) ->
  (forall s k, wp T T (k (Cadd s (v 0))) (upd m p (Val (Cadd s (v 0)))) Q -> wp T T (body 0 s k) m Q) ->
  wp T T (k (Cadd s (Csum (S n) v))) (upd m p (Val (Cadd s (Csum (S n) v)))) Q -> wp T T (sumloop (S n) body s k) m Q.
Proof.
  induction n as [|n IH]; intros s k Hb H0 Hk.
  - cbn [sumloop Csum] in *. apply H0. rewrite Cadd_0_l in Hk. exact Hk.
  - change (sumloop (S (S n)) body s k) with (sumloop (S n) body s (fun s => body (S n) s k)).
    apply IH; [intros i s' k' c Hi; apply Hb; lia|exact H0|]. apply Hb; [lia|].
    replace (Cadd (Cadd s (Csum (S n) v)) (v (S n))) with (Cadd s (Csum (S (S n)) v)); [exact Hk|]. change (Csum (S (S n)) v) with (Cadd (Csum (S n) v) (v (S n))). apply Cadd_assoc.
Qed.
Lemma wp_loop n body (I : nat -> mem -> Prop) : forall m,
  I 0 m -> (forall i m, i < n -> I i m -> wp T T (body i) m (I (S i))) -> wp T T (pfor n body) m (I n).
Proof.
  induction n as [|n IH]; intros m H0 Hs; cbn [pfor].
  - exact H0.
  - apply wp_pseq. eapply wp_mono; [|apply (IH m H0); intros i m' Hi; apply Hs; lia]. intros m' Hm'. apply Hs; [lia|exact Hm'].
Qed.
Lemma WP_seqprog (p : prog C) (m : mem) Q : wp T T p m Q -> WP (Par 1 (fun _ => p)) m Q.
Proof.
  intros Hp. eapply WP_mono; [|apply (WP_par C 1 (fun _ => T) (fun _ => T) (fun _ => Q))].
  - intros m' [A _]. exact (A 0 Nat.lt_0_1).
  - intros i j a Hi Hj. lia.
  - intros i Hi m1 m2 E H. assert (m1 = m2) as <-; [|exact H]. apply functional_extensionality. intros a. apply E. right. exact Logic.I.
  - intros i Hi. exact Hp.
Qed.
Lemma wp_madd a b u v s k (m : mem) Q : m a = Val u -> m b = Val v -> wp T T (k (Cadd s (Cmul u v))) m Q -> wp T T (madd a b s k) m Q.
Proof. intros Ha Hb H. unfold madd. cbn [wp]. split; [left; exact Logic.I|]. exists u. split; [exact Ha|]. split; [left; exact Logic.I|]. exists v. split; [exact Hb|exact H]. Qed.
Lemma wp_maddC a b u v s k (m : mem) Q : m a = Val u -> m b = Val v -> wp T T (k (Cadd s (Cmul u (Cconj v)))) m Q -> wp T T (maddC a b s k) m Q.
Proof. intros Ha Hb H. unfold maddC. cbn [wp]. split; [left; exact Logic.I|]. exists u. split; [exact Ha|]. split; [left; exact Logic.I|]. exists v. split; [exact Hb|exact H]. Qed.
Lemma wp_maddc a b u v s k (m : mem) Q : m a = Val u -> m b = Val v -> wp T T (k (Cadd s (Cmul (Cconj u) v))) m Q -> wp T T (maddc a b s k) m Q.
Proof. intros Ha Hb H. unfold maddc. cbn [wp]. split; [left; exact Logic.I|]. exists u. split; [exact Ha|]. split; [left; exact Logic.I|]. exists v. split; [exact Hb|exact H]. Qed.
Lemma wp_put a s (m : mem) (Q : mem -> Prop) : m a <> Unalloc -> Q (upd m a (Val s)) -> wp T T (put a s) m Q.
Proof. intros Ha H. unfold put. cbn [wp]. split; [exact Logic.I|]. split; [exact Ha|exact H]. Qed.

(** a loop that stores v i at dst i; [keep]: the words it may read stay the same *)
Lemma wp_store n body (v : nat -> C) (dst : nat -> addr) (blk : addr -> Prop) (m : mem) :
  (forall i, i < n -> blk (dst i)) -> (forall i, i < n -> m (dst i) <> Unalloc) ->
  (forall i j, i < n -> j < n -> dst i = dst j -> i = j) ->
  (forall i m1 (Q : mem -> Prop), i < n -> only blk m m1 -> Q (upd m1 (dst i) (Val (v i))) -> wp T T (body i) m1 Q) ->
  wp T T (pfor n body) m (fun m' => (forall i, i < n -> m' (dst i) = Val (v i)) /\ only (fun a => exists i, i < n /\ a = dst i) m m').
Proof.
  intros Hbl Ha Hinj Hb. apply (wp_loop n body (fun i m' => (forall i', i' < i -> m' (dst i') = Val (v i')) /\ only (fun a => exists i, i < n /\ a = dst i) m m')).
  - split; [intros; lia|]. split; auto.
  - intros i m1 Hi [A [B1 B2]]. apply Hb; [assumption|split; [intros a Hn; apply B1; intros (i' & Hi' & ->); apply Hn; auto|exact B2]|]. split.
    + intros i' Hi'. destruct (Nat.eq_dec i' i) as [->|Hne]; [apply upd_eq|]. rewrite upd_neq; [apply A; lia|]. intros E. apply Hne. symmetry. apply Hinj; [lia|lia|exact E].
    + split.
      * intros a Hn. rewrite upd_neq; [apply B1; exact Hn|]. intros E. apply Hn. exists i. auto.
      * intros a Hn. unfold upd. destruct (dst i =? a); [discriminate|apply B2; exact Hn].
Qed.
(** two nested loops; the outer one repeats the inner one on other words *)
Lemma wp_nest n (body : nat -> prog C) (Pi : nat -> mem -> Prop) (blk : nat -> addr -> Prop) (m : mem) :
  (forall i m1 m2, (forall a, blk i a -> m1 a = m2 a) -> Pi i m1 -> Pi i m2) ->
  (forall i j a, i < n -> j < n -> blk i a -> blk j a -> i = j) ->
  (forall i m1, i < n -> only (fun a => exists i, i < n /\ blk i a) m m1 -> wp T T (body i) m1 (fun m2 => Pi i m2 /\ only (blk i) m1 m2)) ->
  wp T T (pfor n body) m (fun m' => (forall i, i < n -> Pi i m') /\ only (fun a => exists i, i < n /\ blk i a) m m').
Proof.
  intros Hext Hdis Hb. apply (wp_loop n body (fun i m' => (forall i', i' < i -> Pi i' m') /\ only (fun a => exists i, i < n /\ blk i a) m m')).
  - split; [intros; lia|]. split; auto.
  - intros i m1 Hi [A B]. eapply wp_mono; [|apply Hb; [exact Hi|exact B]]. intros m2 [D1 D2]. split.
    + intros i' Hi'. destruct (Nat.eq_dec i' i) as [->|Hne]; [exact D1|]. apply (Hext i' m1); [|apply A; lia].
      intros a Ha. symmetry. apply D2. intros Hc. apply Hne. apply (Hdis i' i a); auto; lia.
    + eapply only_trans; [exact B|]. eapply only_sub; [exact D2|]. intros a Ha. exists i. auto.
Qed.

(** *** one and more dimensions, no symmetry *)
Lemma data_only p n x b l (m m1 : mem) : (forall a, block p n a -> block b l a -> False) -> only (block b l) m m1 -> data p n x m -> data p n x m1.
Proof. intros Hs [A _] Hd j Hj. rewrite A; [apply Hd; exact Hj|]. intros Hc. apply (Hs (p + j)); [unfold block; lia|exact Hc]. Qed.

Section One.
Variables (m h f g : nat) (x y : nat -> C) (m0 : mem).
Hypothesis Hx : data f m x m0.
Hypothesis Hy : data g m y m0.
Hypothesis Hh : forall j, j < m -> m0 (h + j) <> Unalloc.
Hypothesis Sf : forall a, block f m a -> block h m a -> False.
Hypothesis Sg : forall a, block g m a -> block h m a -> False.
Lemma st1 n (dst : nat -> nat) v body : (forall i, i < n -> dst i < m) -> (forall i j, i < n -> j < n -> dst i = dst j -> i = j) ->
  (forall i m1 (Q : mem -> Prop), i < n -> data f m x m1 -> data g m y m1 -> m1 (h + dst i) <> Unalloc -> Q (upd m1 (h + dst i) (Val (v i))) -> wp T T (body i) m1 Q) ->
  forall m1, only (block h m) m0 m1 -> wp T T (pfor n body) m1 (fun m' => (forall i, i < n -> m' (h + dst i) = Val (v i)) /\ only (fun a => exists i, i < n /\ a = h + dst i) m1 m').
Proof.
  intros Hd Hinj Hb m1 Hm1. apply (wp_store n body v (fun i => h + dst i) (block h m)).
  - intros i Hi. specialize (Hd i Hi). unfold block. lia.
  - intros i Hi. apply (proj2 Hm1). apply Hh. auto.
  - intros i j Hi Hj E. apply Hinj; [assumption|assumption|]. lia.
  - intros i m2 Q Hi Hm2 HQ. pose proof (only_trans _ _ _ _ Hm1 Hm2) as Hm. apply Hb; [exact Hi|apply (data_only f m x h m m0); assumption|apply (data_only g m y h m m0); assumption| |exact HQ].
    apply (proj2 Hm). apply Hh. auto.
Qed.
Lemma sub_block n (dst : nat -> nat) m1 m2 : (forall i, i < n -> dst i < m) -> only (fun a => exists i, i < n /\ a = h + dst i) m1 m2 -> only (block h m) m1 m2.
Proof. intros Hd H. eapply only_sub; [exact H|]. intros a (i & Hi & ->). specialize (Hd i Hi). unfold block. lia. Qed.

Lemma dconv_ok : WP (Par 1 (fun _ => dconv m h f g)) m0 (fun m' => (forall i, i < m -> m' (h + i) = Val (linconv x y i)) /\ only (block h m) m0 m').
Proof.
  apply WP_seqprog. unfold dconv. eapply wp_mono; [|apply (st1 m (fun i => i) (linconv x y)); [auto|auto| |apply (only_sub (fun _ => False)); [split; auto|intros a []]]].
  - intros m' [A B]. split; [exact A|]. apply (sub_block m (fun i => i)); [auto|exact B].
  - intros i m1 Q Hi Dx Dy Ha HQ. apply (wp_sum _ _ (fun j => Cmul (x j) (y (i - j)))).
    + intros j s k Hj Hk. eapply wp_madd; [apply Dx; lia|apply Dy; lia|exact Hk].
    + apply wp_put; [exact Ha|]. rewrite Cadd_0_l. replace (i + 1) with (S i) by lia. exact HQ.
Qed.

Lemma oconv_at i s : s <= i -> i < m + s -> s < m \/ True -> oconv s m x y (i - s) = Csum m (fun j => if (j <=? i) && (i - j <? m) then Cmul (x j) (y (i - j)) else C0).
Proof.
  intros Hs Hi _. unfold oconv. apply Csum_ext. intros j Hj. replace (i - s + s) with i by lia.
  destruct (Nat.leb_spec j i) as [Hji|Hji]; cbn [andb].
  - destruct (Nat.ltb_spec (i - j) m) as [Hm|Hm].
    + rewrite (Csum_single m (i - j)); [|assumption|intros k Hk Hne; destruct (Nat.eqb_spec (j + k) i); [lia|reflexivity]].
      destruct (Nat.eqb_spec (j + (i - j)) i); [reflexivity|lia].
    + apply Csum_zero. intros k Hk. destruct (Nat.eqb_spec (j + k) i); [lia|reflexivity].
  - apply Csum_zero. intros k Hk. destruct (Nat.eqb_spec (j + k) i); [lia|reflexivity].
Qed.
Lemma dconvC_ok : WP (Par 1 (fun _ => dconvC m h f g)) m0 (fun m' => (forall i, i < m -> m' (h + i) = Val (oconv (m / 2) m x y i)) /\ only (block h m) m0 m').
Proof.
  destruct (half_eq m) as [E1 E2]. set (c := m / 2) in *. set (K := (m + 1) / 2) in *.
  apply WP_seqprog. unfold dconvC. fold c K. apply wp_pseq.
  eapply wp_mono; [|apply (st1 c (fun i => i + K) (fun i => oconv c m x y (i + K))); [intros i Hi; lia|intros; lia| |apply (only_sub (fun _ => False)); [split; auto|intros a []]]].
  - intros m1 [A1 B1]. pose proof (sub_block c (fun i => i + K) m0 m1 ltac:(intros i Hi; cbv beta; lia) B1) as B1'.
    eapply wp_mono; [|apply (st1 (m - c) (fun t => c + t - c) (fun t => oconv c m x y (c + t - c))); [intros i Hi; lia|intros; lia| |exact B1']].
    + intros m2 [A2 B2]. split.
      * intros i Hi. destruct (le_lt_dec (m - c) i) as [Hl|Hl].
        -- specialize (A1 (i - K) ltac:(lia)). cbv beta in A1. replace (i - K + K) with i in A1 by lia. rewrite (proj1 B2); [exact A1|]. intros (t & Ht & E). lia.
        -- specialize (A2 i Hl). cbv beta in A2. replace (c + i - c) with i in A2 by lia. exact A2.
      * eapply only_trans; [exact B1'|]. apply (sub_block (m - c) (fun t => c + t - c)); [intros i Hi; lia|exact B2].
    + intros t m2 Q Ht Dx Dy Ha HQ. cbv zeta. set (i := c + t) in *. apply (wp_sum _ _ (fun j => Cmul (x j) (y (i - j)))).
      * intros j s k Hj Hk. eapply wp_madd; [apply Dx; lia|apply Dy; lia|exact Hk].
      * apply wp_put; [exact Ha|]. rewrite Cadd_0_l. replace (Csum (i + 1) (fun j => Cmul (x j) (y (i - j)))) with (oconv c m x y (i - c)); [exact HQ|].
        rewrite (oconv_at i c) by first [lia|right; exact Logic.I]. rewrite (Csum_pad (i + 1) m); [|lia|intros j Hj1 Hj2; cbv beta; destruct (Nat.leb_spec j i); [lia|reflexivity]].
        apply Csum_ext. intros j Hj. destruct (Nat.leb_spec j i); [|lia]. destruct (Nat.ltb_spec (i - j) m); [reflexivity|lia].
  - intros i m1 Q Hi Dx Dy Ha HQ. cbv zeta. apply (wp_sum _ _ (fun t => Cmul (x (i + 1 + t)) (y (m + i - (i + 1 + t))))).
    + intros t s k Ht Hk. eapply wp_madd; [apply Dx; lia|apply Dy; lia|exact Hk].
    + apply wp_put; [exact Ha|]. rewrite Cadd_0_l. replace (Csum (m - (i + 1)) (fun t => Cmul (x (i + 1 + t)) (y (m + i - (i + 1 + t))))) with (oconv c m x y (i + K)); [exact HQ|].
      replace (i + K) with (m + i - c) by lia. rewrite (oconv_at (m + i) c) by first [lia|right; exact Logic.I]. match goal with |- Csum m ?F = _ => replace (Csum m F) with (Csum (i + 1 + (m - (i + 1))) F) by (f_equal; lia) end. rewrite Csum_split.
      rewrite (Csum_zero (i + 1)), Cadd_0_l by (intros j Hj; cbv beta; destruct (Nat.ltb_spec (m + i - j) m); [lia|rewrite andb_false_r; reflexivity]).
      apply Csum_ext. intros t Ht. destruct (Nat.leb_spec (i + 1 + t) (m + i)); [|lia]. destruct (Nat.ltb_spec (m + i - (i + 1 + t)) m); [reflexivity|lia].
Qed.
(** Hermitian: the data are those of real functions *)
Lemma her_sum i : i < m -> x 0 = RtoC (re (x 0)) -> y 0 = RtoC (re (y 0)) ->
  zconv1 m (her1 m x) (her1 m y) (Z.of_nat i) =
  Cadd (Cadd (Csum (i + 1) (fun j => Cmul (x j) (y (i - j)))) (Csum (m - (i + 1)) (fun t => Cmul (x (i + 1 + t)) (Cconj (y (i + 1 + t - i))))))
       (Csum (m - i - 1) (fun t => Cmul (Cconj (x (1 + t))) (y (i + (1 + t))))).
Proof.
  intros Hi X0 Y0.
  assert (Hp : forall z : nat -> C, z 0 = RtoC (re (z 0)) -> forall j, j < m -> her1 m z (Z.of_nat j) = z j).
  { intros z Z0 j Hj. unfold her1. destruct (Z.ltb_spec (Z.abs (Z.of_nat j)) (Z.of_nat m)); [|lia]. destruct (Z.ltb_spec 0 (Z.of_nat j)); [f_equal; lia|]. destruct (Z.eqb_spec (Z.of_nat j) 0); [|lia]. replace j with 0 by lia. symmetry. exact Z0. }
  assert (Hn : forall (z : nat -> C) j, 0 < j -> j < m -> her1 m z (- Z.of_nat j) = Cconj (z j)).
  { intros z j H0 Hj. unfold her1. destruct (Z.ltb_spec (Z.abs (- Z.of_nat j)) (Z.of_nat m)); [|lia]. destruct (Z.ltb_spec 0 (- Z.of_nat j)); [lia|]. destruct (Z.eqb_spec (- Z.of_nat j) 0); [lia|]. do 2 f_equal. lia. }
  unfold zconv1, zsum. replace (2 * m - 1) with (i + ((m - i - 1) + ((i + 1) + (m - (i + 1))))) by lia. rewrite (Csum_split i), (Csum_split (m - i - 1)), (Csum_split (i + 1)).
  rewrite (Csum_zero i), Cadd_0_l.
  2:{ intros a Ha. rewrite (her1_out m y), Cmul_0_r by lia. reflexivity. }
  rewrite Cadd_comm. f_equal; [f_equal|].
  - apply Csum_ext. intros j Hj. cbv beta.
    replace (Z.of_nat (i + (m - i - 1 + j)) - (Z.of_nat m - 1))%Z with (Z.of_nat j) by lia. replace (Z.of_nat i - Z.of_nat j)%Z with (Z.of_nat (i - j)) by lia.
    rewrite (Hp x X0), (Hp y Y0) by lia. reflexivity.
  - apply Csum_ext. intros t Ht. replace (Z.of_nat (i + (m - i - 1 + (i + 1 + t))) - (Z.of_nat m - 1))%Z with (Z.of_nat (i + 1 + t)) by lia.
    replace (Z.of_nat i - Z.of_nat (i + 1 + t))%Z with (- Z.of_nat (i + 1 + t - i))%Z by lia. rewrite (Hp x X0), (Hn y) by lia. reflexivity.
  - rewrite Csum_rev. apply Csum_ext. intros t Ht. replace (Z.of_nat (i + (m - i - 1 - 1 - t)) - (Z.of_nat m - 1))%Z with (- Z.of_nat (1 + t))%Z by lia.
    replace (Z.of_nat i - - Z.of_nat (1 + t))%Z with (Z.of_nat (i + (1 + t))) by lia. rewrite (Hn x), (Hp y Y0) by lia. reflexivity.
Qed.
Lemma dconvh_ok : x 0 = RtoC (re (x 0)) -> y 0 = RtoC (re (y 0)) ->
  WP (Par 1 (fun _ => dconvh m h f g)) m0 (fun m' => (forall i, i < m -> m' (h + i) = Val (zconv1 m (her1 m x) (her1 m y) (Z.of_nat i))) /\ only (block h m) m0 m').
Proof.
  intros X0 Y0. apply WP_seqprog. unfold dconvh.
  eapply wp_mono; [|apply (st1 m (fun i => i) (fun i => zconv1 m (her1 m x) (her1 m y) (Z.of_nat i))); [auto|auto| |apply (only_sub (fun _ => False)); [split; auto|intros a []]]].
  - intros m' [A B]. split; [exact A|]. apply (sub_block m (fun i => i)); [auto|exact B].
  - intros i m1 Q Hi Dx Dy Ha HQ. cbv beta in HQ. rewrite her_sum in HQ by assumption.
    apply (wp_sum _ _ (fun j => Cmul (x j) (y (i - j)))).
    { intros j s k Hj Hk. eapply wp_madd; [apply Dx; lia|apply Dy; lia|exact Hk]. }
    rewrite Cadd_0_l. apply (wp_sum _ _ (fun t => Cmul (x (i + 1 + t)) (Cconj (y (i + 1 + t - i))))).
    { intros t s k Ht Hk. cbv zeta. eapply wp_maddC; [apply Dx; lia|apply Dy; lia|exact Hk]. }
    apply (wp_sum _ _ (fun t => Cmul (Cconj (x (1 + t))) (y (i + (1 + t))))).
    { intros t s k Ht Hk. cbv zeta. eapply wp_maddc; [apply Dx; lia|apply Dy; lia|exact Hk]. }
    apply wp_put; [exact Ha|exact HQ].
Qed.
End One.
Lemma dauto_ok m h f x (m0 : mem) : data f m x m0 -> (forall j, j < m -> m0 (h + j) <> Unalloc) -> (forall a, block f m a -> block h m a -> False) ->
  WP (Par 1 (fun _ => dauto m h f)) m0 (fun m' => (forall i, i < m -> m' (h + i) = Val (linconv x x i)) /\ only (block h m) m0 m').
Proof. intros Hx Hh Hs. apply (dconv_ok m h f f x x m0); assumption. Qed.
