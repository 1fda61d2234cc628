(** Direct convolutions in two and three dimensions. *)
From Coq Require Import Reals ZArith Arith Lia List Bool FunctionalExtensionality.
From Verif Require Import CNum Sums Mem PadModel PadSpec ConvSpec LayerSpec WrapModel WrapSpec Wrap1 Wrap2 DirModel DirSpec Dir1.
Import ListNotations.
Notation mem := (Mem.mem C).
Local Open Scope nat_scope.

Lemma st2 n n' (dst : nat -> nat -> addr) v body (blk : addr -> Prop) (m0 : mem) :
  (forall i j, i < n -> j < n' -> blk (dst i j)) -> (forall i j, i < n -> j < n' -> m0 (dst i j) <> Unalloc) ->
  (forall i j i' j', i < n -> j < n' -> i' < n -> j' < n' -> dst i j = dst i' j' -> i = i' /\ j = j') ->
  (forall i j m1 (Q : mem -> Prop), i < n -> j < n' -> only blk m0 m1 -> m1 (dst i j) <> Unalloc -> Q (upd m1 (dst i j) (Val (v i j))) -> wp T T (body i j) m1 Q) ->
  forall m1, only blk m0 m1 -> wp T T (pfor n (fun i => pfor n' (body i))) m1 (fun m' => (forall i j, i < n -> j < n' -> m' (dst i j) = Val (v i j)) /\ only (fun a => exists i j, i < n /\ j < n' /\ a = dst i j) m1 m').
Proof.
  intros Hbl Ha Hinj Hb m1 Hm1.
  eapply wp_mono; [|apply (wp_nest n _ (fun i m => forall j, j < n' -> m (dst i j) = Val (v i j)) (fun i a => exists j, j < n' /\ a = dst i j))].
  - intros m' [A B]. split; [intros i j Hi Hj; apply A; assumption|]. eapply only_sub; [exact B|]. intros a (i & Hi & j & Hj & ->). exists i, j. auto.
  - intros i m2 m3 E H j Hj. rewrite <- E; [apply H; exact Hj|]. exists j. auto.
  - intros i j a Hi Hj (j1 & H1 & ->) (j2 & H2 & E). apply Hinj in E; tauto.
  - intros i m2 Hi Hm2.
    assert (Hm : only blk m0 m2). { eapply only_trans; [exact Hm1|]. eapply only_sub; [exact Hm2|]. intros a (i' & Hi' & j' & Hj' & ->). auto. }
    apply (wp_store n' (body i) (v i) (dst i) blk m2).
    + intros j Hj. auto.
    + intros j Hj. apply (proj2 Hm). auto.
    + intros j j' Hj Hj' E. apply Hinj in E; tauto.
    + intros j m3 Q Hj Hm3 HQ. pose proof (only_trans _ _ _ _ Hm Hm3) as Hm'. apply Hb; try assumption. apply (proj2 Hm'). auto.
Qed.
Lemma st3 n n' n'' (dst : nat -> nat -> nat -> addr) v body (blk : addr -> Prop) (m0 : mem) :
  (forall i j l, i < n -> j < n' -> l < n'' -> blk (dst i j l)) -> (forall i j l, i < n -> j < n' -> l < n'' -> m0 (dst i j l) <> Unalloc) ->
  (forall i j l i' j' l', i < n -> j < n' -> l < n'' -> i' < n -> j' < n' -> l' < n'' -> dst i j l = dst i' j' l' -> i = i' /\ j = j' /\ l = l') ->
  (forall i j l m1 (Q : mem -> Prop), i < n -> j < n' -> l < n'' -> only blk m0 m1 -> m1 (dst i j l) <> Unalloc -> Q (upd m1 (dst i j l) (Val (v i j l))) -> wp T T (body i j l) m1 Q) ->
  wp T T (pfor n (fun i => pfor n' (fun j => pfor n'' (body i j)))) m0 (fun m' => (forall i j l, i < n -> j < n' -> l < n'' -> m' (dst i j l) = Val (v i j l)) /\
    only blk m0 m').
Proof.
  intros Hbl Ha Hinj Hb.
  eapply wp_mono; [|apply (wp_nest n _ (fun i m => forall j l, j < n' -> l < n'' -> m (dst i j l) = Val (v i j l)) (fun i a => exists j l, j < n' /\ l < n'' /\ a = dst i j l))].
  - intros m' [A B]. split; [intros i j l Hi Hj Hl; apply A; assumption|]. eapply only_sub; [exact B|]. intros a (i & Hi & j & l & Hj & Hl & ->). auto.
  - intros i m2 m3 E H j l Hj Hl. rewrite <- E; [apply H; assumption|]. exists j, l. auto.
  - intros i j a Hi Hj (j1 & l1 & H1 & H1' & ->) (j2 & l2 & H2 & H2' & E). apply Hinj in E; tauto.
  - intros i m2 Hi Hm2.
    assert (Hm : only blk m0 m2). { eapply only_sub; [exact Hm2|]. intros a (i' & Hi' & j' & l' & Hj' & Hl' & ->). auto. }
    apply (st2 n' n'' (dst i) (v i) (body i) blk m0).
    + intros j l Hj Hl. auto.
    + intros j l Hj Hl. auto.
    + intros j l j' l' Hj Hl Hj' Hl' E. apply Hinj in E; tauto.
    + intros j l m3 Q Hj Hl Hm3 Ha3 HQ. apply Hb; assumption.
    + exact Hm.
Qed.

(** *** complex data *)
Lemma data2_only p S n n' x (blk : addr -> Prop) (m m1 : mem) : (forall a, cells2 p S n n' a -> blk a -> False) -> only blk m m1 -> data2 p S n n' x m -> data2 p S n n' x m1.
Proof. intros Hs [A _] Hd i j Hi Hj. rewrite A; [apply Hd; assumption|]. intros Hc. apply (Hs (p + (S * i + j))); [exists i, j; auto|exact Hc]. Qed.
Lemma data3_only p S S' n n' n'' x (blk : addr -> Prop) (m m1 : mem) : (forall a, cells3 p S S' n n' n'' a -> blk a -> False) -> only blk m m1 -> data3 p S S' n n' n'' x m -> data3 p S S' n n' n'' x m1.
Proof. intros Hs [A _] Hd i j l Hi Hj Hl. rewrite A; [apply Hd; assumption|]. intros Hc. apply (Hs (p + (S * i + S' * j + l))); [exists i, j, l; auto|exact Hc]. Qed.
Lemma dense2 H i j i' j' : j < H -> j' < H -> i * H + j = i' * H + j' -> i = i' /\ j = j'.
Proof. intros Hj Hj' E. apply (euclid H); [assumption|assumption|]. lia. Qed.
Lemma dense2_lt n n' i j : i < n -> j < n' -> i * n' + j < n * n'.
Proof. intros Hi Hj. assert (n' * (i + 1) <= n' * n) by (apply Nat.mul_le_mono_l; lia). lia. Qed.

Lemma dconv2_ok mx my Sx h f g x y (m0 : mem) : let S := stride2 my Sx in
  data2 f S mx my x m0 -> data2 g S mx my y m0 -> (forall o, o < mx * my -> m0 (h + o) <> Unalloc) ->
  (forall a, cells2 f S mx my a -> block h (mx * my) a -> False) -> (forall a, cells2 g S mx my a -> block h (mx * my) a -> False) ->
  WP (Par 1 (fun _ => dconv2 mx my S h f g)) m0 (fun m' => (forall i j, i < mx -> j < my -> m' (h + (i * my + j)) = Val (linconv2 x y i j)) /\ only (block h (mx * my)) m0 m').
Proof.
  intros S Hx Hy Hh Sf Sg. apply WP_seqprog. unfold dconv2.
  eapply wp_mono; [|apply (st2 mx my (fun i j => h + (i * my + j)) (linconv2 x y) _ (block h (mx * my)) m0)].
  - intros m' [A B]. split; [exact A|]. eapply only_sub; [exact B|]. intros a (i & j & Hi & Hj & ->). pose proof (dense2_lt mx my i j Hi Hj). unfold block. lia.
  - intros i j Hi Hj. pose proof (dense2_lt mx my i j Hi Hj). unfold block. lia.
  - intros i j Hi Hj. apply Hh. apply dense2_lt; assumption.
  - intros i j i' j' Hi Hj Hi' Hj' E. apply (dense2 my); [assumption|assumption|lia].
  - intros i j m1 Q Hi Hj Hm1 Ha HQ.
    pose proof (data2_only _ _ _ _ _ _ _ _ Sf Hm1 Hx) as Dx. pose proof (data2_only _ _ _ _ _ _ _ _ Sg Hm1 Hy) as Dy.
    apply (wp_sum _ _ (fun i' => Csum (j + 1) (fun j' => Cmul (x i' j') (y (i - i') (j - j'))))).
    + intros k s cont Hk Hc. apply (wp_sum _ _ (fun j' => Cmul (x k j') (y (i - k) (j - j')))); [|exact Hc].
      intros p s' cont' Hp Hc'. eapply wp_madd; [apply Dx; lia| |exact Hc']. rewrite <- Nat.add_sub_assoc by lia. apply Dy; lia.
    + apply wp_put; [exact Ha|]. rewrite Cadd_0_l. unfold linconv2 in HQ. replace (i + 1) with (Datatypes.S i) by lia. replace (j + 1) with (Datatypes.S j) by lia. exact HQ.
  - split; auto.
Qed.
Lemma dense3_lt n n' n'' i j l : i < n -> j < n' -> l < n'' -> i * (n' * n'') + j * n'' + l < n * n' * n''.
Proof.
  intros Hi Hj Hl. pose proof (dense2_lt n' n'' j l Hj Hl). pose proof (dense2_lt n (n' * n'') i (j * n'' + l) Hi ltac:(lia)). lia.
Qed.
Lemma dense3 n' n'' i j l i' j' l' : j < n' -> l < n'' -> j' < n' -> l' < n'' -> i * (n' * n'') + j * n'' + l = i' * (n' * n'') + j' * n'' + l' -> i = i' /\ j = j' /\ l = l'.
Proof.
  intros H1 H2 H3 H4 E. pose proof (dense2_lt n' n'' j l H1 H2). pose proof (dense2_lt n' n'' j' l' H3 H4).
  destruct (dense2 (n' * n'') i (j * n'' + l) i' (j' * n'' + l')) as [-> E']; [assumption|assumption|lia|]. destruct (dense2 n'' j l j' l') as [-> ->]; [assumption|assumption|exact E'|]. auto.
Qed.
Lemma dconv3_ok mx my mz Sx Sy h f g x y (m0 : mem) : let S' := stride3y mz Sy in let S := stride3x my mz Sx Sy in
  data3 f S S' mx my mz x m0 -> data3 g S S' mx my mz y m0 -> (forall o, o < mx * my * mz -> m0 (h + o) <> Unalloc) ->
  (forall a, cells3 f S S' mx my mz a -> block h (mx * my * mz) a -> False) -> (forall a, cells3 g S S' mx my mz a -> block h (mx * my * mz) a -> False) ->
  WP (Par 1 (fun _ => dconv3 mx my mz S S' h f g)) m0 (fun m' => (forall i j l, i < mx -> j < my -> l < mz -> m' (h + (i * (my * mz) + j * mz + l)) = Val (linconv3 x y i j l)) /\ only (block h (mx * my * mz)) m0 m').
Proof.
  intros S' S Hx Hy Hh Sf Sg. apply WP_seqprog. unfold dconv3.
  apply (st3 mx my mz (fun i j l => h + (i * (my * mz) + j * mz + l)) (linconv3 x y) _ (block h (mx * my * mz)) m0).
  - intros i j l Hi Hj Hl. pose proof (dense3_lt mx my mz i j l Hi Hj Hl). unfold block. lia.
  - intros i j l Hi Hj Hl. apply Hh. apply dense3_lt; assumption.
  - intros i j l i' j' l' Hi Hj Hl Hi' Hj' Hl' E. apply (dense3 my mz); try assumption. lia.
  - intros i j l m1 Q Hi Hj Hl Hm1 Ha HQ.
    pose proof (data3_only _ _ _ _ _ _ _ _ _ _ Sf Hm1 Hx) as Dx. pose proof (data3_only _ _ _ _ _ _ _ _ _ _ Sg Hm1 Hy) as Dy.
    apply (wp_sum _ _ (fun i' => Csum (j + 1) (fun j' => Csum (l + 1) (fun l' => Cmul (x i' j' l') (y (i - i') (j - j') (l - l')))))).
    + intros r s cont Hr Hc. apply (wp_sum _ _ (fun j' => Csum (l + 1) (fun l' => Cmul (x r j' l') (y (i - r) (j - j') (l - l'))))); [|exact Hc].
      intros p s' cont' Hp Hc'. apply (wp_sum _ _ (fun l' => Cmul (x r p l') (y (i - r) (j - p) (l - l')))); [|exact Hc'].
      intros q s'' cont'' Hq Hc''. eapply wp_madd; [| |exact Hc'']; rewrite (Nat.mul_comm _ S), (Nat.mul_comm _ S'); [apply Dx; lia|apply Dy; lia].
    + apply wp_put; [exact Ha|]. rewrite Cadd_0_l. unfold linconv3 in HQ. replace (i + 1) with (Datatypes.S i) by lia. replace (j + 1) with (Datatypes.S j) by lia. replace (l + 1) with (Datatypes.S l) by lia. exact HQ.
Qed.
