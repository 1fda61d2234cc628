(** The communicators mpitranspose creates. *)
From Coq Require Import List Arith Bool Lia ZArith Permutation.
From Verif Require Import MpiModel MpiDims MpiMachine MpiRun MpiTrModel MpiTrGeom MpiLinks MpiTrForm.
Import ListNotations.
Local Open Scope nat_scope.

Set Default Proof Using "All".
Section Comm.
Variable c : cfg.
Context {Hc : good c}.

Definition grp (r : nat) : bool := uniform c || subblock c r.
Definition cnt2 : nat := if a_ c =? 1 then size c else a_ c.
Definition nm2 (r j : nat) : nat := if a_ c =? 1 then j else j * b_ c + r mod b_ c.
Definition rk2 (r : nat) : nat := if a_ c =? 1 then r else r / b_ c.
Definition nm1 (r k : nat) : nat := r / b_ c * b_ c + k.
Definition rk1 (r : nat) : nat := r mod b_ c.

Lemma ab_size : 1 < a_ c -> a_ c * b_ c <= size c.
Proof. intros H. pose proof (ab_Pbar c H). pose proof (Pbar_le c). lia. Qed.

Lemma filter_below : forall n m, m <= n -> filter (fun s => s <? m) (seq 0 n) = seq 0 m.
Proof.
  intros n m H. replace n with (m + (n - m)) by lia. rewrite seq_app, filter_app.
  rewrite filter_all, filter_none, app_nil_r; auto; intros x I; apply in_seq in I.
  - apply Nat.ltb_ge. lia. - apply Nat.ltb_lt. lia.
Qed.
Lemma block_mem : forall r, 1 < a_ c -> r < a_ c * b_ c -> cmem (block c r) = seq 0 (a_ c * b_ c).
Proof.
  intros r H Hr. unfold block, csplit. cbn [cmem]. rewrite <- (filter_below (size c) (a_ c * b_ c)) by (apply ab_size; auto).
  apply filter_ext. intros s. destruct (Nat.ltb_spec r (a_ c * b_ c)); [|lia]. destruct (s <? a_ c * b_ c); auto.
Qed.

Lemma sub_facts : forall r, subblock c r = true ->
  1 < a_ c /\ r < a_ c * b_ c /\ 0 < b_ c /\ r / b_ c < a_ c /\ r mod b_ c < b_ c /\ r = r / b_ c * b_ c + r mod b_ c /\ r < size c.
Proof.
  intros r H. unfold subblock in H. rewrite andb_true_iff, !Nat.ltb_lt in H. destruct H as [H1 H2].
  assert (0 < b_ c) by (destruct (b_ c); lia). split; auto. split; auto. split; auto.
  split. { apply Nat.div_lt_upper_bound; [lia|]. rewrite Nat.mul_comm. auto. }
  split. { apply Nat.mod_upper_bound; lia. }
  split. { rewrite Nat.mul_comm. apply Nat.div_mod. lia. }
  pose proof (ab_size H1). lia.
Qed.

(** split: teams of b neighbours *)
Lemma split_is : forall r, subblock c r = true -> commis (split c r) (b_ c) (nm1 r) /\
  cp2p (split c r) = 6 /\ ccol (split c r) = 7 /\ splitrank c r = rk1 r /\ splitsize c r = b_ c /\
  rk1 r < b_ c /\ nm1 r (rk1 r) = r.
Proof.
  intros r H. destruct (sub_facts r H) as (H1 & H2 & H3 & H4 & H5 & H6 & H7).
  assert (C : commis (split c r) (b_ c) (nm1 r)).
  { unfold split. destruct (Nat.eqb_spec (a_ c) 1); [lia|]. destruct (Nat.ltb_spec r (a_ c * b_ c)); [|lia].
    constructor; cbn [cmem].
    - unfold csplit. rewrite block_mem by auto. rewrite row by lia. rewrite seq_shift_map. auto.
    - intros i j Hi Hj. unfold nm1. lia. }
  assert (R : nm1 r (rk1 r) = r) by (unfold nm1, rk1; lia).
  split; auto. split; [|split; [|split; [|split; [|split]]]]; auto.
  - unfold split. destruct (Nat.eqb_spec (a_ c) 1); [lia|]. destruct (Nat.ltb_spec r (a_ c * b_ c)); [auto|lia].
  - unfold split. destruct (Nat.eqb_spec (a_ c) 1); [lia|]. destruct (Nat.ltb_spec r (a_ c * b_ c)); [auto|lia].
  - unfold splitrank. destruct (Nat.ltb_spec r (a_ c * b_ c)); [|lia]. rewrite andb_false_r.
    rewrite <- R at 2. apply (ci_rank _ _ _ _ C). auto.
  - unfold splitsize. destruct (Nat.ltb_spec r (a_ c * b_ c)); [|lia]. rewrite andb_false_r. apply (ci_len _ _ _ C).
Qed.
Lemma split_peer : forall r k, subblock c r = true -> k < b_ c ->
  subblock c (nm1 r k) = true /\ nm1 r k < size c /\ rk1 (nm1 r k) = k /\ (forall k', nm1 (nm1 r k) k' = nm1 r k').
Proof.
  intros r k H Hk. destruct (sub_facts r H) as (H1 & H2 & H3 & H4 & H5 & H6 & H7).
  assert (D : nm1 r k / b_ c = r / b_ c).
  { unfold nm1. rewrite Nat.div_add_l by lia. rewrite (Nat.div_small k) by auto. lia. }
  assert (L : nm1 r k < a_ c * b_ c).
  { unfold nm1. assert (Q0 : (r / b_ c + 1) * b_ c <= a_ c * b_ c) by (apply Nat.mul_le_mono_r; lia).
    rewrite Nat.mul_add_distr_r in Q0. lia. }
  split. { unfold subblock. rewrite andb_true_iff, !Nat.ltb_lt. auto. }
  split. { pose proof (ab_size H1). lia. }
  split. { unfold rk1, nm1. rewrite Nat.add_comm, Nat.mod_add by lia. apply Nat.mod_small; auto. }
  intros k'. unfold nm1 at 1. rewrite D. auto.
Qed.

(** split2: across the teams *)
Lemma split2_is : forall r, r < size c -> grp r = true -> commis (split2 c r) cnt2 (nm2 r) /\
  cp2p (split2 c r) = (if a_ c =? 1 then 0 else 8) /\ ccol (split2 c r) = (if a_ c =? 1 then 1 else 9) /\
  split2rank c r = rk2 r /\ split2size c r = cnt2 /\ rk2 r < cnt2 /\ nm2 r (rk2 r) = r.
Proof.
  intros r Hr H. unfold cnt2, nm2, rk2.
  destruct (Nat.eqb_spec (a_ c) 1) as [E|E].
  - assert (C : commis (split2 c r) (size c) (fun j => j)).
    { unfold split2. rewrite E. cbn [Nat.eqb]. constructor; cbn [cmem communicator].
      - rewrite map_id; auto. - auto. }
    assert (split2 c r = communicator c) as Q by (unfold split2; rewrite E; auto).
    assert (R : crank (cmem (split2 c r)) r = r) by (apply (ci_rank _ _ _ r C Hr)).
    split; auto. rewrite Q. split; auto. split; auto.
    unfold split2rank, split2size. rewrite E. cbn [Nat.eqb negb andb]. split; auto. split; auto. apply (ci_len _ _ _ C).
  - assert (Sb : subblock c r = true).
    { unfold grp in H. rewrite orb_true_iff in H. destruct H as [H|H]; auto.
      destruct (uniform_U c H) as [_ Es]. pose proof (a_pos c). unfold subblock. rewrite andb_true_iff, !Nat.ltb_lt. lia. }
    destruct (sub_facts r Sb) as (H1 & H2 & H3 & H4 & H5 & H6 & H7).
    assert (C : commis (split2 c r) (a_ c) (fun j => j * b_ c + r mod b_ c)).
    { unfold split2. destruct (Nat.eqb_spec (a_ c) 1); [lia|]. destruct (Nat.ltb_spec r (a_ c * b_ c)); [|lia].
      constructor; cbn [cmem].
      - unfold csplit. rewrite block_mem by auto. apply column; auto.
      - intros i j Hi Hj. assert (Q0 : (i + 1) * b_ c <= j * b_ c) by (apply Nat.mul_le_mono_r; lia).
        rewrite Nat.mul_add_distr_r in Q0. lia. }
    split; auto. split; [|split; [|split; [|split; [|split]]]]; auto.
    + unfold split2. destruct (Nat.eqb_spec (a_ c) 1); [lia|]. destruct (Nat.ltb_spec r (a_ c * b_ c)); [auto|lia].
    + unfold split2. destruct (Nat.eqb_spec (a_ c) 1); [lia|]. destruct (Nat.ltb_spec r (a_ c * b_ c)); [auto|lia].
    + unfold split2rank. destruct (Nat.ltb_spec r (a_ c * b_ c)); [|lia]. rewrite andb_false_r.
      rewrite H6 at 2. apply (ci_rank _ _ _ _ C). auto.
    + unfold split2size. destruct (Nat.ltb_spec r (a_ c * b_ c)); [|lia]. rewrite andb_false_r. apply (ci_len _ _ _ C).
Qed.
Lemma grp_sub : forall r, r < size c -> grp r = true -> a_ c <> 1 -> subblock c r = true.
Proof.
  intros r Hr H E. unfold grp in H. rewrite orb_true_iff in H. destruct H as [H|H]; auto.
  destruct (uniform_U c H) as [_ Es]. pose proof (a_pos c). unfold subblock. rewrite andb_true_iff, !Nat.ltb_lt. lia.
Qed.
Lemma split2_peer : forall r j, r < size c -> grp r = true -> j < cnt2 ->
  grp (nm2 r j) = true /\ nm2 r j < size c /\ rk2 (nm2 r j) = j /\ (forall j', nm2 (nm2 r j) j' = nm2 r j').
Proof.
  intros r j Hr H Hj. unfold cnt2 in Hj. unfold nm2 at 1 2 3, rk2.
  destruct (Nat.eqb_spec (a_ c) 1) as [E|E].
  - split. { unfold grp in *. rewrite orb_true_iff in *. destruct H as [H|H]; auto. unfold subblock in H. rewrite E in H. discriminate. }
    split; auto. split; auto. intros. unfold nm2. rewrite E. auto.
  - pose proof (grp_sub r Hr H E) as Sb. destruct (sub_facts r Sb) as (H1 & H2 & H3 & H4 & H5 & H6 & H7).
    assert (L : j * b_ c + r mod b_ c < a_ c * b_ c).
    { assert (Q0 : (j + 1) * b_ c <= a_ c * b_ c) by (apply Nat.mul_le_mono_r; lia). rewrite Nat.mul_add_distr_r in Q0. lia. }
    split. { unfold grp. rewrite orb_true_iff. right. unfold subblock. rewrite andb_true_iff, !Nat.ltb_lt. auto. }
    split. { pose proof (ab_size H1). lia. }
    split. { rewrite Nat.div_add_l by lia. rewrite (Nat.div_small (r mod b_ c)) by auto. lia. }
    intros j'. unfold nm2. destruct (Nat.eqb_spec (a_ c) 1); [lia|].
    assert ((j * b_ c + r mod b_ c) mod b_ c = r mod b_ c) as ->; auto.
    rewrite Nat.add_comm, Nat.mod_add by lia. apply Nat.mod_mod. lia.
Qed.

(** splitv: the ranks below last *)
Lemma splitv_is : forall r, uniform c = false -> r < last c -> commis (splitv c r) (last c) (fun j => j) /\ ccol (splitv c r) = 3.
Proof.
  intros r U Hr. unfold splitv. rewrite U. split; auto. constructor; cbn [cmem].
  - rewrite map_id. unfold csplit. rewrite <- (filter_below (size c) (last c)).
    + apply filter_ext. intros s. destruct (Nat.ltb_spec r (last c)); [|lia]. destruct (s <? last c); auto.
    + pose proof (last_lt c). lia.
  - auto.
Qed.
End Comm.
