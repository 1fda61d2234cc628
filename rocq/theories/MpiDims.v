(** Proofs about the local dimensions and process groups (C33). *)
From Coq Require Import ZArith List Bool Lia Znumtheory.
From Verif Require Import MpiModel MpiSpec.
Import ListNotations.
Local Open Scope Z_scope.

(** ceil(a/b) for b>0 *)
Definition cdiv (a b : Z) : Z := (a + b - 1) / b.

Lemma cdiv_spec : forall a b, 0 < b -> b * (cdiv a b) < a + b /\ a <= b * cdiv a b.
Proof.
  intros a b Hb. unfold cdiv.
  pose proof (Z.div_mod (a + b - 1) b ltac:(lia)) as E.
  pose proof (Z.mod_pos_bound (a + b - 1) b Hb). lia.
Qed.

Lemma cdiv_unique : forall a b q, 0 < b -> b * q < a + b -> a <= b * q -> cdiv a b = q.
Proof.
  intros a b q Hb H1 H2. pose proof (cdiv_spec a b Hb) as [H3 H4].
  destruct (Z.lt_trichotomy (cdiv a b) q) as [C|[C|C]]; auto; nia.
Qed.

Lemma cdiv_nonneg : forall a b, 0 <= a -> 0 < b -> 0 <= cdiv a b.
Proof. intros. unfold cdiv. apply Z.div_pos; lia. Qed.

Lemma cdiv_pos : forall a b, 0 < a -> 0 < b -> 0 < cdiv a b.
Proof. intros a b Ha Hb. pose proof (cdiv_spec a b Hb). nia. Qed.

Lemma cdiv_le : forall a b, 0 <= a -> 0 < b -> cdiv a b <= a.
Proof. intros a b Ha Hb. pose proof (cdiv_spec a b Hb). nia. Qed.

Lemma ceilq_some : forall a b, 0 <= a -> 0 < b -> a + b <= 2 ^ 63 -> ceilq a b = Some (cdiv a b).
Proof.
  intros a b Ha Hb H. unfold ceilq. rewrite (Z.mod_small a), (Z.mod_small b) by lia.
  destruct (Z.eqb_spec b 0); [lia|]. rewrite Z.mod_small by lia. reflexivity.
Qed.

Lemma sint_some : forall x, - 2 ^ 31 <= x < 2 ^ 31 -> sint x = Some x.
Proof.
  intros x H. unfold sint. destruct (Z.leb_spec (- 2 ^ 31) x), (Z.ltb_spec x (2 ^ 31)); simpl; auto; lia.
Qed.

Lemma to_int_id : forall x, 0 <= x < 2 ^ 31 -> to_int x = x.
Proof. intros x H. unfold to_int. rewrite Z.mod_small by lia. lia. Qed.

Lemma u32_id : forall x, 0 <= x < 2 ^ 32 -> u32 x = x.
Proof. intros x H. unfold u32. apply Z.mod_small; lia. Qed.

(** exact values *)
Definition lstart (N rank size : Z) : Z := cdiv N size * rank.
Definition lext (N rank size : Z) : Z := Z.min (cdiv N size) (Z.max 0 (N - lstart N rank size)).

Lemma localdimension_val : forall N rank size,
  0 <= N -> 0 <= rank < size -> N + size < 2 ^ 31 ->
  localdimension N rank size = Some (lext N rank size, lstart N rank size).
Proof.
  intros N rank size HN Hr HB. unfold localdimension.
  rewrite ceilq_some by lia. unfold bind.
  pose proof (cdiv_spec N size ltac:(lia)) as [H1 H2].
  pose proof (cdiv_nonneg N size HN ltac:(lia)) as H0.
  pose proof (cdiv_le N size HN ltac:(lia)) as H3.
  rewrite to_int_id by lia.
  assert (0 <= cdiv N size * rank <= size * cdiv N size) by nia.
  rewrite sint_some by lia. rewrite sint_some by lia.
  unfold lext, lstart. do 2 f_equal.
  destruct (Z.ltb_spec (N - cdiv N size * rank) 0);
  match goal with |- context [?x <? ?y] => destruct (Z.ltb_spec x y) end; lia.
Qed.

Lemma owner : forall N size i, 0 <= i < N -> 0 < size ->
  exists r, 0 <= r < size /\ lstart N r size <= i < lstart N r size + lext N r size /\
   forall s, 0 <= s < size -> lstart N s size <= i < lstart N s size + lext N s size -> s = r.
Proof.
  intros N size i Hi Hs. unfold lext, lstart.
  pose proof (cdiv_spec N size Hs) as [H1 H2].
  pose proof (cdiv_pos N size ltac:(lia) Hs) as H0.
  set (q := cdiv N size) in *.
  pose proof (Z.div_mod i q ltac:(lia)) as E.
  pose proof (Z.mod_pos_bound i q H0) as B.
  assert (0 <= i / q) by (apply Z.div_pos; lia).
  exists (i / q). split; [split; [lia|nia]|]. split; [lia|].
  intros s Hss Hin. assert (q * s <= i < q * s + q) by lia.
  assert (q * (i / q) <= i < q * (i / q) + q) by lia.
  assert (q * s < q * (i / q) + q) by lia. assert (q * (i / q) < q * s + q) by lia. nia.
Qed.

Lemma lext_bounds : forall N r size, 0 <= N -> 0 <= r < size ->
  0 <= lext N r size /\ (0 < lext N r size -> 0 <= lstart N r size /\
    lstart N r size + lext N r size <= N).
Proof.
  intros N r size HN Hr. unfold lext. pose proof (cdiv_nonneg N size HN ltac:(lia)).
  assert (0 <= lstart N r size) by (unfold lstart; nia). lia.
Qed.

Lemma lext_order : forall N r s size, 0 <= N -> 0 <= r -> r < s -> s < size ->
  lstart N r size + lext N r size <= lstart N s size.
Proof.
  intros N r s size HN Hr Hrs Hss. unfold lext.
  pose proof (cdiv_nonneg N size HN ltac:(lia)).
  assert (lstart N r size + cdiv N size <= lstart N s size) by (unfold lstart; nia). lia.
Qed.

Theorem localdimension_partitions : forall N size,
  0 <= N -> (0 < size)%nat -> N + Z.of_nat size < 2 ^ 31 ->
  exists ext start,
   (forall r, (r < size)%nat ->
      localdimension N (Z.of_nat r) (Z.of_nat size) = Some (ext r, start r)) /\
   partitions N size ext start.
Proof.
  intros N size HN Hs HB.
  exists (fun r => lext N (Z.of_nat r) (Z.of_nat size)), (fun r => lstart N (Z.of_nat r) (Z.of_nat size)).
  split. { intros r Hr. apply localdimension_val; lia. }
  split; [|split].
  - intros i Hi. destruct (owner N (Z.of_nat size) i Hi ltac:(lia)) as (r & R1 & R2 & R3).
    exists (Z.to_nat r). rewrite Z2Nat.id by lia. split; [lia|]. split; [lia|].
    intros s Hss Hin. specialize (R3 (Z.of_nat s) ltac:(lia) Hin). lia.
  - intros r Hr. apply lext_bounds; lia.
  - intros r s Hrs Hss _. apply lext_order; lia.
Qed.

(** ranks beyond the int range: the start overflows *)
Theorem localdimension_overflow :
  localdimension (2 ^ 31 - 1) (2 ^ 30 + 1) (2 ^ 30 + 2) = None /\
  0 <= 2 ^ 31 - 1 /\ 0 <= 2 ^ 30 + 1 < 2 ^ 30 + 2 /\ 2 ^ 31 - 1 < 2 ^ 31.
Proof. split; [vm_compute; reflexivity|lia]. Qed.

(** split *)
Theorem split_correct : forall X Y r size,
  0 <= X -> 0 <= Y -> 0 <= r < size -> X + size < 2 ^ 31 -> Y + size < 2 ^ 31 ->
  exists s, split_make X Y r size = Some s /\ sX s = X /\ sY s = Y /\
    localdimension X r size = Some (sx s, sx0 s) /\
    localdimension Y r size = Some (sy s, sy0 s) /\
    (X * sy s < 2 ^ 32 -> sx s * Y < 2 ^ 32 ->
     sn s = Z.max (X * sy s) (sx s * Y)).
Proof.
  intros X Y r size HX HY Hr H1 H2. unfold split_make.
  rewrite !localdimension_val by lia. cbn [bind]. eexists. split; [reflexivity|]. cbn.
  repeat match goal with |- _ /\ _ => split; auto end.
  intros B1 B2. pose proof (lext_bounds X r size HX Hr). pose proof (lext_bounds Y r size HY Hr).
  rewrite !u32_id by nia. reflexivity.
Qed.

(** ranks in the row and column communicators *)
Lemma filter_app' : forall (A : Type) (f : A -> bool) l1 l2, filter f (l1 ++ l2) = filter f l1 ++ filter f l2.
Proof. intros; apply filter_app. Qed.

Lemma filter_none : forall (A : Type) (f : A -> bool) l, (forall x, In x l -> f x = false) -> filter f l = [].
Proof.
  intros A f l H. induction l as [|a l IH]; auto. simpl. rewrite H by (left; auto).
  apply IH. intros; apply H; right; auto.
Qed.
Lemma filter_all : forall (A : Type) (f : A -> bool) l, (forall x, In x l -> f x = true) -> filter f l = l.
Proof.
  intros A f l H. induction l as [|a l IH]; auto. simpl. rewrite H by (left; auto).
  f_equal. apply IH. intros; apply H; right; auto.
Qed.
Lemma filter_ext_in' : forall (A : Type) (f g : A -> bool) l, (forall x, In x l -> f x = g x) -> filter f l = filter g l.
Proof. intros; apply filter_ext_in; auto. Qed.

(** block k of width w: only k*w+p has remainder p *)
Lemma filter_block : forall w p base, (p < w)%nat ->
  filter (fun s => Nat.eqb s (base + p)%nat) (seq base w) = [(base + p)%nat].
Proof.
  intros w p base Hp.
  replace w with (p + S (w - p - 1))%nat by lia. rewrite seq_app, filter_app. simpl.
  rewrite Nat.eqb_refl. rewrite !filter_none; auto;
  intros x Hx; apply in_seq in Hx; apply Nat.eqb_neq; lia.
Qed.

Lemma nat_rem : forall r w, (0 < w)%nat -> Z.rem (Z.of_nat r) (Z.of_nat w) = Z.of_nat (r mod w).
Proof. intros. rewrite Z.rem_mod_nonneg by lia. symmetry; apply Nat2Z.inj_mod. Qed.
Lemma nat_quot : forall r w, (0 < w)%nat -> Z.quot (Z.of_nat r) (Z.of_nat w) = Z.of_nat (r / w).
Proof. intros. rewrite Z.quot_div_nonneg by lia. symmetry; apply Nat2Z.inj_div. Qed.

Lemma column : forall w p K, (p < w)%nat ->
  filter (fun s => Nat.eqb (s mod w) p) (seq 0 (K * w)) = map (fun k => k * w + p)%nat (seq 0 K).
Proof.
  intros w p K Hp. induction K as [|K IH]; auto.
  replace (S K * w)%nat with (K * w + w)%nat by lia. rewrite seq_app, filter_app, IH.
  replace (S K) with (K + 1)%nat by lia. rewrite (seq_app K 1), map_app. f_equal. simpl.
  rewrite (filter_ext_in' _ _ (fun s => Nat.eqb s (K * w + p))).
  - apply filter_block; auto.
  - intros x Hx. apply in_seq in Hx.
    assert (x mod w = x - K * w)%nat as ->.
    { symmetry; apply Nat.mod_unique with K; lia. }
    destruct (Nat.eqb_spec (x - K * w) p), (Nat.eqb_spec x (K * w + p)); auto; lia.
Qed.

Lemma row : forall w q K, (0 < w)%nat -> (q < K)%nat ->
  filter (fun s => Nat.eqb (s / w) q) (seq 0 (K * w)) = seq (q * w) w.
Proof.
  intros w q K Hw Hq.
  replace (K * w)%nat with (q * w + (w + (K - q - 1) * w))%nat by nia.
  rewrite !seq_app, !filter_app. simpl.
  rewrite (filter_none _ _ (seq 0 (q * w))).
  2:{ intros x Hx. apply in_seq in Hx. apply Nat.eqb_neq. intros E.
      pose proof (Nat.div_mod x w ltac:(lia)). rewrite E in *. nia. }
  rewrite (filter_all _ _ (seq (q * w) w)).
  2:{ intros x Hx. apply in_seq in Hx. apply Nat.eqb_eq.
      symmetry; apply Nat.div_unique with (x - q * w)%nat; lia. }
  rewrite filter_none, app_nil_r; auto.
  intros x Hx. apply in_seq in Hx. apply Nat.eqb_neq. intros E.
  pose proof (Nat.div_mod x w ltac:(lia)). pose proof (Nat.mod_upper_bound x w ltac:(lia)).
  rewrite E in *. nia.
Qed.

Lemma seq_shift_map : forall b n, seq b n = map (fun k => b + k)%nat (seq 0 n).
Proof.
  intros b n. induction n as [|n IH]; auto.
  replace (S n) with (n + 1)%nat by lia. rewrite !seq_app, map_app, IH. auto.
Qed.

Section Grid.
Variables (w K r : nat).
Hypothesis Hw : (0 < w)%nat.
Hypothesis Hr : (r < K * w)%nat.
Let colp (s : nat) := fst (group2_pq (Z.of_nat w) s).
Let keyq (s : nat) := snd (group2_pq (Z.of_nat w) s).

Lemma grid_r : (r / w < K)%nat /\ (r mod w < w)%nat /\ r = (r / w * w + r mod w)%nat.
Proof.
  pose proof (Nat.div_mod r w ltac:(lia)). pose proof (Nat.mod_upper_bound r w ltac:(lia)).
  repeat split; try lia; try nia.
Qed.

Lemma grid_col_members :
  split_members (K * w) colp r = map (fun k => k * w + r mod w)%nat (seq 0 K).
Proof.
  destruct grid_r as (G1 & G2 & G3).
  unfold split_members, colp, group2_pq; cbn [fst].
  rewrite <- column by auto. apply filter_ext. intros s.
  rewrite !nat_rem by auto.
  destruct (Z.eqb_spec (Z.of_nat (s mod w)) (Z.of_nat (r mod w))), (Nat.eqb_spec (s mod w) (r mod w)); auto; lia.
Qed.

Lemma grid_col_size : split_size (K * w) colp r = K.
Proof. unfold split_size. rewrite grid_col_members, map_length, seq_length; auto. Qed.

Lemma map_filter : forall (A B : Type) (f : A -> B) (g : B -> bool) l,
  filter g (map f l) = map f (filter (fun x => g (f x)) l).
Proof. intros. induction l as [|x l IH]; auto. simpl. destruct (g (f x)); simpl; rewrite IH; auto. Qed.

Lemma count_lt : forall q n, (q <= n)%nat -> filter (fun k => Nat.ltb k q) (seq 0 n) = seq 0 q.
Proof.
  intros q n H. replace n with (q + (n - q))%nat by lia. rewrite seq_app, filter_app. simpl.
  rewrite filter_all, filter_none, app_nil_r; auto;
  intros x Hx; apply in_seq in Hx; [apply Nat.ltb_ge|apply Nat.ltb_lt]; lia.
Qed.

Lemma grid_col_rank : split_rank (K * w) colp keyq r = (r / w)%nat.
Proof.
  destruct grid_r as (G1 & G2 & G3).
  unfold split_rank. rewrite grid_col_members, map_filter, map_length.
  rewrite (filter_ext_in' _ _ (fun k => Nat.ltb k (r / w))).
  - rewrite count_lt, seq_length by lia; auto.
  - intros k Hk. apply in_seq in Hk. unfold split_before, keyq, group2_pq; cbn [snd].
    rewrite !nat_quot by auto.
    assert (((k * w + r mod w) / w)%nat = k) as -> by (symmetry; apply Nat.div_unique with (r mod w)%nat; lia).
    set (R := (r / w)%nat) in *.
    destruct (Nat.ltb_spec k R), (Z.ltb_spec (Z.of_nat k) (Z.of_nat R)),
      (Z.eqb_spec (Z.of_nat k) (Z.of_nat R)); simpl; auto; try lia.
    apply Nat.ltb_ge. nia.
Qed.

Lemma grid_row_members :
  split_members (K * w) keyq r = seq (r / w * w) w.
Proof.
  destruct grid_r as (G1 & G2 & G3).
  unfold split_members, keyq, group2_pq; cbn [snd].
  rewrite <- (row w (r / w) K) by auto. apply filter_ext. intros s.
  rewrite !nat_quot by auto.
  destruct (Z.eqb_spec (Z.of_nat (s / w)) (Z.of_nat (r / w))), (Nat.eqb_spec (s / w) (r / w)); auto; lia.
Qed.

Lemma grid_row_size : split_size (K * w) keyq r = w.
Proof. unfold split_size. rewrite grid_row_members, seq_length; auto. Qed.

Lemma grid_row_rank : split_rank (K * w) keyq colp r = (r mod w)%nat.
Proof.
  destruct grid_r as (G1 & G2 & G3).
  unfold split_rank. rewrite grid_row_members.
  replace (seq (r / w * w) w) with (map (fun k => r / w * w + k)%nat (seq 0 w)).
  2:{ symmetry. apply seq_shift_map. }
  rewrite map_filter, map_length.
  rewrite (filter_ext_in' _ _ (fun k => Nat.ltb k (r mod w))).
  - rewrite count_lt, seq_length by lia; auto.
  - intros k Hk. apply in_seq in Hk. unfold split_before, colp, group2_pq; cbn [fst].
    rewrite !nat_rem by auto.
    assert (((r / w * w + k) mod w)%nat = k) as -> by (symmetry; apply Nat.mod_unique with (r / w)%nat; lia).
    destruct (Nat.ltb_spec k (r mod w)), (Z.ltb_spec (Z.of_nat k) (Z.of_nat (r mod w))),
      (Z.eqb_spec (Z.of_nat k) (Z.of_nat (r mod w))); simpl; auto; try lia.
    apply Nat.ltb_ge. lia.
Qed.
End Grid.

(** ceil(X/ceil(X/s)) processes each get ceil(X/s) *)
Lemma cdiv_cdiv : forall X s, 0 < X -> 0 < s ->
  let k := cdiv X (cdiv X s) in 0 < k <= s /\ cdiv X k = cdiv X s.
Proof.
  intros X s HX Hs k.
  pose proof (cdiv_spec X s Hs) as [A1 A2]. pose proof (cdiv_pos X s HX Hs) as A0.
  pose proof (cdiv_spec X (cdiv X s) A0) as [B1 B2]. pose proof (cdiv_pos X (cdiv X s) HX A0) as B0.
  fold k in B0, B1, B2. set (x := cdiv X s) in *.
  assert (k <= s) by nia. split; [lia|].
  apply cdiv_unique; try lia; nia.
Qed.

Lemma lext_pos : forall X k r, 0 < X -> 0 < k -> cdiv X (cdiv X k) = k -> 0 <= r < k -> 0 < lext X r k.
Proof.
  intros X k r HX Hk E Hr. unfold lext, lstart.
  pose proof (cdiv_pos X k HX Hk). pose proof (cdiv_spec X (cdiv X k) ltac:(lia)) as [B1 B2].
  rewrite E in *. set (q := cdiv X k) in *.
  assert (q * r <= q * (k - 1)) by nia. lia.
Qed.

(** the 1D group: every active process owns part of X *)
Theorem group1_correct : forall X size, 0 < X -> 0 < size -> X + size < 2 ^ 31 ->
  exists A, group1_size X size = Some A /\ 0 < A <= size /\
    forall r, 0 <= r < A -> exists n s, localdimension X r A = Some (n, s) /\ 0 < n.
Proof.
  intros X size HX Hs HB. unfold group1_size.
  pose proof (cdiv_pos X size HX Hs). pose proof (cdiv_le X size ltac:(lia) Hs).
  rewrite ceilq_some by lia. cbn [bind]. rewrite u32_id by lia.
  rewrite ceilq_some by lia. cbn [bind].
  destruct (cdiv_cdiv X size HX Hs) as (C1 & C2).
  rewrite to_int_id by lia. eexists. split; [reflexivity|]. split; auto.
  intros r Hr. rewrite localdimension_val by lia. eexists _, _. split; [reflexivity|].
  apply lext_pos; auto; try lia. rewrite C2; auto.
Qed.

Lemma group2_val : forall X Y size pencil, 0 < X -> 0 < Y -> 0 < size ->
  X < 2 ^ 30 -> Y < 2 ^ 30 -> size < 2 ^ 30 ->
  exists K w, group2_size X Y size pencil = Some (Z.of_nat (K * w), Z.of_nat w) /\
    (0 < K)%nat /\ (0 < w)%nat /\ Z.of_nat (K * w) <= size /\
    cdiv X (cdiv X (Z.of_nat K)) = Z.of_nat K /\ cdiv Y (cdiv Y (Z.of_nat w)) = Z.of_nat w.
Proof.
  intros X Y size pencil HX HY Hs BX BY BS. unfold group2_size.
  pose proof (cdiv_pos X size HX Hs) as Px. pose proof (cdiv_le X size ltac:(lia) Hs) as Lx.
  pose proof (cdiv_spec X size Hs) as [S1 S2].
  rewrite ceilq_some by lia. cbn [bind]. rewrite !(u32_id (cdiv X size)) by lia.
  set (x := cdiv X size) in *.
  assert (Q : exists y, 0 < y <= Y /\
     (if pencil then if X =? 0 then None else
        do q <- ceilq Y (u32 (size * x) / X); Some (u32 q) else Some Y) = Some y /\
     cdiv X x * cdiv Y y <= size /\
     cdiv (cdiv X x * cdiv Y y) X = cdiv Y y /\ cdiv Y (cdiv Y (cdiv Y y)) = cdiv Y y).
  { assert (c1 : cdiv Y Y = 1) by (apply cdiv_unique; lia).
    assert (cX : 0 < cdiv X x <= size /\ cdiv X (cdiv X x) = x) by (apply cdiv_cdiv; auto).
    pose proof (cdiv_le X x ltac:(lia) Px) as LL.
    assert (Yone : cdiv X x * cdiv Y Y <= size /\ cdiv (cdiv X x * cdiv Y Y) X = cdiv Y Y /\
       cdiv Y (cdiv Y (cdiv Y Y)) = cdiv Y Y).
    { rewrite c1, Z.mul_1_r. split; [lia|]. split; [apply cdiv_unique; lia|].
      replace (cdiv Y 1) with Y by (symmetry; apply cdiv_unique; lia). auto. }
    destruct pencil.
    - destruct (Z.eqb_spec X 0); [lia|]. rewrite u32_id by nia.
      destruct (Z.le_gt_cases X size) as [C|C].
      + assert (E : x = 1) by (unfold x; apply cdiv_unique; lia). rewrite E in *.
        rewrite Z.mul_1_r. set (d := size / X).
        assert (Dd : X * d <= size < X * d + X).
        { pose proof (Z.div_mod size X ltac:(lia)). pose proof (Z.mod_pos_bound size X HX). unfold d; lia. }
        assert (0 < d) by (unfold d; apply Z.div_str_pos; lia).
        assert (d <= size) by nia.
        rewrite ceilq_some by lia. cbn [bind].
        pose proof (cdiv_pos Y d HY ltac:(lia)). pose proof (cdiv_le Y d ltac:(lia) ltac:(lia)).
        rewrite u32_id by lia. exists (cdiv Y d). split; [lia|]. split; auto.
        destruct (cdiv_cdiv Y d HY ltac:(lia)) as [D1 D2].
        assert (EX : cdiv X 1 = X) by (apply cdiv_unique; lia). rewrite EX.
        split; [nia|]. split.
        * apply cdiv_unique; nia.
        * rewrite D2. auto.
      + assert (E : size * x / X = 1).
        { symmetry. apply Z.div_unique with (size * x - X); nia. }
        rewrite E. rewrite ceilq_some by lia. cbn [bind].
        replace (cdiv Y 1) with Y by (symmetry; apply cdiv_unique; lia).
        rewrite u32_id by lia. exists Y. split; [lia|]. split; auto.
    - exists Y. split; [lia|]. split; auto. }
  destruct Q as (y & Y1 & -> & Y2 & Y3 & Y4). cbn [bind].
  pose proof (cdiv_pos X x HX Px). pose proof (cdiv_pos Y y HY ltac:(lia)).
  pose proof (cdiv_le X x ltac:(lia) Px). pose proof (cdiv_le Y y ltac:(lia) ltac:(lia)).
  rewrite (ceilq_some X) by lia. cbn [bind]. rewrite (ceilq_some Y) by lia. cbn [bind].
  rewrite Z.mod_small by lia. rewrite to_int_id by nia.
  rewrite ceilq_some by nia. cbn [bind]. rewrite Y3.
  rewrite to_int_id by lia.
  exists (Z.to_nat (cdiv X x)), (Z.to_nat (cdiv Y y)).
  rewrite Nat2Z.inj_mul, !Z2Nat.id by lia. repeat split; auto; try lia.
  destruct (cdiv_cdiv X size HX Hs) as (_ & C2). fold x in C2. rewrite C2; auto.
Qed.

Lemma group_split3_val : forall X Y Y2 Zd w K r xyf,
  0 <= X < 2 ^ 30 -> 0 <= Y < 2 ^ 30 -> 0 <= Y2 < 2 ^ 30 -> 0 <= Zd < 2 ^ 30 ->
  (0 < w)%nat -> (r < K * w)%nat -> Z.of_nat (K * w) < 2 ^ 30 ->
  exists s, group_split3 X Y Y2 Zd (Z.of_nat w) (K * w) r xyf = Some s /\
    s3x s = lext X (Z.of_nat (r / w)) (Z.of_nat K) /\
    s3x0 s = lstart X (Z.of_nat (r / w)) (Z.of_nat K) /\
    sy (s3xy s) = lext Y (Z.of_nat (r / w)) (Z.of_nat K) /\
    sy0 (s3xy s) = lstart Y (Z.of_nat (r / w)) (Z.of_nat K) /\
    sx (s3yz s) = lext Y2 (Z.of_nat (r mod w)) (Z.of_nat w) /\
    sx0 (s3yz s) = lstart Y2 (Z.of_nat (r mod w)) (Z.of_nat w) /\
    s3z s = lext Zd (Z.of_nat (r mod w)) (Z.of_nat w) /\
    s3z0 s = lstart Zd (Z.of_nat (r mod w)) (Z.of_nat w) /\
    (s3y s, s3y0 s) = (if xyf then (sy (s3xy s), sy0 (s3xy s)) else (sx (s3yz s), sx0 (s3yz s))) /\
    s3n2 s = Z.max (u32 (Y2 * s3z s)) (u32 (sx (s3yz s) * Zd)) /\
    s3n s = Z.max (u32 (Z.max (u32 (X * sy (s3xy s))) (u32 (s3x s * Y)) * s3z s)) (u32 (s3x s * s3n2 s)).
Proof.
  intros X Y Y2 Zd w K r xyf HX HY HY2 HZ Hw Hr HB.
  destruct (grid_r w K r Hw Hr) as (G1 & G2 & G3).
  assert (K <= K * w)%nat by nia. assert (w <= K * w)%nat by nia.
  unfold group_split3, gcolor, gkey.
  rewrite grid_col_rank, grid_col_size, grid_row_rank, grid_row_size by auto.
  unfold split3_make, split_make. rewrite !localdimension_val by lia. cbn [bind].
  destruct xyf; (eexists; split; [reflexivity|]); cbn; repeat split; reflexivity.
Qed.

(** product partition *)
Lemma tiles_grid : forall X Y w K,
  0 <= X -> 0 <= Y -> (0 < w)%nat -> (0 < K)%nat ->
  tiles X Y (K * w)
    (fun r => lext X (Z.of_nat (r / w)) (Z.of_nat K)) (fun r => lstart X (Z.of_nat (r / w)) (Z.of_nat K))
    (fun r => lext Y (Z.of_nat (r mod w)) (Z.of_nat w)) (fun r => lstart Y (Z.of_nat (r mod w)) (Z.of_nat w)).
Proof.
  intros X Y w K HX HY Hw HK. split.
  - intros i j Hi Hj.
    destruct (owner X (Z.of_nat K) i Hi ltac:(lia)) as (q & Q1 & Q2 & Q3).
    destruct (owner Y (Z.of_nat w) j Hj ltac:(lia)) as (p & P1 & P2 & P3).
    set (r := (Z.to_nat q * w + Z.to_nat p)%nat).
    assert (D : (r / w)%nat = Z.to_nat q).
    { symmetry. apply Nat.div_unique with (Z.to_nat p); unfold r; lia. }
    assert (M : (r mod w)%nat = Z.to_nat p).
    { symmetry. apply Nat.mod_unique with (Z.to_nat q); unfold r; lia. }
    exists r. rewrite D, M, !Z2Nat.id by lia.
    split. { unfold r. assert (Z.to_nat q < K)%nat by lia. assert (Z.to_nat p < w)%nat by lia. nia. }
    split; [lia|]. split; [lia|].
    intros s Hs I1 I2. destruct (grid_r w K s Hw Hs) as (G1 & G2 & G3).
    specialize (Q3 (Z.of_nat (s / w)) ltac:(lia) I1). specialize (P3 (Z.of_nat (s mod w)) ltac:(lia) I2).
    rewrite G3. unfold r. assert (s / w = Z.to_nat q)%nat as -> by lia.
    assert (s mod w = Z.to_nat p)%nat as -> by lia. auto.
  - intros r Hr. destruct (grid_r w K r Hw Hr) as (G1 & G2 & G3).
    pose proof (lext_bounds X (Z.of_nat (r / w)) (Z.of_nat K) HX ltac:(lia)).
    pose proof (lext_bounds Y (Z.of_nat (r mod w)) (Z.of_nat w) HY ltac:(lia)). tauto.
Qed.

Lemma tiles_ext : forall X Y P ex x0 ey y0 ex' x0' ey' y0',
  (forall r, (r < P)%nat -> ex r = ex' r /\ x0 r = x0' r /\ ey r = ey' r /\ y0 r = y0' r) ->
  tiles X Y P ex x0 ey y0 -> tiles X Y P ex' x0' ey' y0'.
Proof.
  intros X Y P ex x0 ey y0 ex' x0' ey' y0' E [T1 T2]. split.
  - intros i j Hi Hj. destruct (T1 i j Hi Hj) as (r & R1 & R2 & R3 & R4). exists r.
    destruct (E r R1) as (-> & -> & -> & ->) in R2, R3. split; auto. split; auto. split; auto.
    intros s Hs. destruct (E s Hs) as (E1 & E2 & E3 & E4). rewrite <- E1, <- E2, <- E3, <- E4. auto.
  - intros r Hr. destruct (E r Hr) as (E1 & E2 & E3 & E4). rewrite <- E1, <- E2, <- E3, <- E4. auto.
Qed.


(** the 3D group: pencils tile, and every active process owns part of X and part of Y *)
Theorem group2_correct : forall X Y Zd size pencil,
  0 < X < 2 ^ 30 -> 0 < Y < 2 ^ 30 -> 0 <= Zd < 2 ^ 30 -> 0 < size < 2 ^ 30 ->
  exists (A : nat) major,
    group2_size X Y size pencil = Some (Z.of_nat A, major) /\ 0 < Z.of_nat A <= size /\
    forall xyf, let S r := group_split3 X Y Y Zd major A r xyf in
    (forall r, (r < A)%nat -> S r <> None) /\
    tiles X Y A (fun r => get s3x (S r)) (fun r => get s3x0 (S r))
      (fun r => get (fun s => sx (s3yz s)) (S r)) (fun r => get (fun s => sx0 (s3yz s)) (S r)) /\
    tiles X Zd A (fun r => get s3x (S r)) (fun r => get s3x0 (S r))
      (fun r => get s3z (S r)) (fun r => get s3z0 (S r)) /\
    tiles Y Zd A (fun r => get (fun s => sy (s3xy s)) (S r)) (fun r => get (fun s => sy0 (s3xy s)) (S r))
      (fun r => get s3z (S r)) (fun r => get s3z0 (S r)) /\
    (forall r, (r < A)%nat -> 0 < get s3x (S r) /\ 0 < get (fun s => sx (s3yz s)) (S r)).
Proof.
  intros X Y Zd size pencil HX HY HZ Hs.
  destruct (group2_val X Y size pencil) as (K & w & E & K0 & w0 & B & CX & CY); try lia.
  exists (K * w)%nat, (Z.of_nat w). split; auto.
  split. { split; [|lia]. assert (0 < K * w)%nat by nia. lia. }
  intros xyf S.
  assert (V : forall r, (r < K * w)%nat ->
    get s3x (S r) = lext X (Z.of_nat (r / w)) (Z.of_nat K) /\
    get s3x0 (S r) = lstart X (Z.of_nat (r / w)) (Z.of_nat K) /\
    get (fun s => sy (s3xy s)) (S r) = lext Y (Z.of_nat (r / w)) (Z.of_nat K) /\
    get (fun s => sy0 (s3xy s)) (S r) = lstart Y (Z.of_nat (r / w)) (Z.of_nat K) /\
    get (fun s => sx (s3yz s)) (S r) = lext Y (Z.of_nat (r mod w)) (Z.of_nat w) /\
    get (fun s => sx0 (s3yz s)) (S r) = lstart Y (Z.of_nat (r mod w)) (Z.of_nat w) /\
    get s3z (S r) = lext Zd (Z.of_nat (r mod w)) (Z.of_nat w) /\
    get s3z0 (S r) = lstart Zd (Z.of_nat (r mod w)) (Z.of_nat w) /\ S r <> None).
  { intros r Hr. destruct (group_split3_val X Y Y Zd w K r xyf) as (s & Es & V); try lia.
    unfold S. rewrite Es. unfold get. destruct V as (V1 & V2 & V3 & V4 & V5 & V6 & V7 & V8 & _).
    repeat split; auto; congruence. }
  repeat match goal with |- _ /\ _ => split end.
  - intros r Hr. apply (V r Hr).
  - eapply tiles_ext; [|apply (tiles_grid X Y w K); lia].
    intros r Hr. destruct (V r Hr) as (V1 & V2 & V3 & V4 & V5 & V6 & V7 & V8 & _). auto.
  - eapply tiles_ext; [|apply (tiles_grid X Zd w K); lia].
    intros r Hr. destruct (V r Hr) as (V1 & V2 & V3 & V4 & V5 & V6 & V7 & V8 & _). auto.
  - eapply tiles_ext; [|apply (tiles_grid Y Zd w K); lia].
    intros r Hr. destruct (V r Hr) as (V1 & V2 & V3 & V4 & V5 & V6 & V7 & V8 & _). auto.
  - intros r Hr. destruct (V r Hr) as (V1 & V2 & V3 & V4 & V5 & V6 & V7 & V8 & _).
    rewrite V1, V5. destruct (grid_r w K r w0 Hr) as (G1 & G2 & G3).
    split; apply lext_pos; auto; lia.
Qed.

(** storage *)
Theorem group2_storage : forall X Y Zd w K r xyf,
  0 <= X < 2 ^ 30 -> 0 <= Y < 2 ^ 30 -> 0 <= Zd < 2 ^ 30 ->
  (0 < w)%nat -> (r < K * w)%nat -> Z.of_nat (K * w) < 2 ^ 30 ->
  exists s, group_split3 X Y Y Zd (Z.of_nat w) (K * w) r xyf = Some s /\
   (X * sy (s3xy s) * s3z s < 2 ^ 32 -> s3x s * Y * s3z s < 2 ^ 32 ->
    s3x s * sx (s3yz s) * Zd < 2 ^ 32 ->
    X * sy (s3xy s) < 2 ^ 32 -> s3x s * Y < 2 ^ 32 -> Y * s3z s < 2 ^ 32 -> sx (s3yz s) * Zd < 2 ^ 32 ->
    s3n s = Z.max (X * sy (s3xy s) * s3z s) (Z.max (s3x s * Y * s3z s) (s3x s * sx (s3yz s) * Zd))).
Proof.
  intros X Y Zd w K r xyf HX HY HZ Hw Hr HB.
  destruct (group_split3_val X Y Y Zd w K r xyf) as (s & Es & V1 & V2 & V3 & V4 & V5 & V6 & V7 & V8 & V9 & V10 & V11);
    try lia.
  exists s. split; auto. intros B1 B2 B3 B4 B5 B6 B7.
  destruct (grid_r w K r Hw Hr) as (G1 & G2 & G3).
  pose proof (lext_bounds X (Z.of_nat (r / w)) (Z.of_nat K) ltac:(lia) ltac:(lia)) as [L1 _].
  pose proof (lext_bounds Y (Z.of_nat (r / w)) (Z.of_nat K) ltac:(lia) ltac:(lia)) as [L2 _].
  pose proof (lext_bounds Y (Z.of_nat (r mod w)) (Z.of_nat w) ltac:(lia) ltac:(lia)) as [L3 _].
  pose proof (lext_bounds Zd (Z.of_nat (r mod w)) (Z.of_nat w) ltac:(lia) ltac:(lia)) as [L4 _].
  rewrite <- V1 in L1. rewrite <- V3 in L2. rewrite <- V5 in L3. rewrite <- V7 in L4.
  rewrite V11, V10. set (x := s3x s) in *. set (y := sy (s3xy s)) in *. set (y2 := sx (s3yz s)) in *.
  set (z := s3z s) in *. clearbody x y y2 z.
  clear - B1 B2 B3 B4 B5 B6 B7 L1 L2 L3 L4 HX HY HZ.
  assert (P1 : 0 <= X * y) by (apply Z.mul_nonneg_nonneg; lia).
  assert (P2 : 0 <= x * Y) by (apply Z.mul_nonneg_nonneg; lia).
  assert (P3 : 0 <= Y * z) by (apply Z.mul_nonneg_nonneg; lia).
  assert (P4 : 0 <= y2 * Zd) by (apply Z.mul_nonneg_nonneg; lia).
  rewrite (u32_id (X * y)), (u32_id (x * Y)), (u32_id (Y * z)), (u32_id (y2 * Zd)) by (split; assumption).
  rewrite <- Z.mul_max_distr_nonneg_r by assumption.
  rewrite <- Z.mul_max_distr_nonneg_l by assumption.
  rewrite (Z.mul_assoc x Y z), (Z.mul_assoc x y2 Zd).
  assert (Q1 : 0 <= X * y * z) by (apply Z.mul_nonneg_nonneg; lia).
  assert (Q2 : 0 <= x * Y * z) by (apply Z.mul_nonneg_nonneg; lia).
  assert (Q3 : 0 <= x * y2 * Zd).
  { rewrite <- Z.mul_assoc. apply Z.mul_nonneg_nonneg; lia. }
  generalize dependent (X * y * z). generalize dependent (x * Y * z). generalize dependent (x * y2 * Zd).
  intros c B3 Q3 b B2 Q2 a B1 Q1. clear - B1 B2 B3 Q1 Q2 Q3.
  rewrite !u32_id by lia. lia.
Qed.
