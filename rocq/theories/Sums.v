(** Finite sums of complex numbers. *)
From Coq Require Import Reals Lia Arith PeanoNat ZArith.
From Verif Require Import CNum.
Local Open Scope C_scope.

Fixpoint Csum (n : nat) (f : nat -> C) : C :=
  match n with O => C0 | S k => Csum k f + f k end.

Lemma Csum_ext n f g : (forall i, (i < n)%nat -> f i = g i) -> Csum n f = Csum n g.
Proof.
  induction n as [|k IH]; intros H; simpl; [reflexivity|].
  rewrite IH by (intros; apply H; lia). rewrite H by lia. reflexivity.
Qed.

Lemma Csum_zero n f : (forall i, (i < n)%nat -> f i = C0) -> Csum n f = C0.
Proof.
  induction n as [|k IH]; intros H; simpl; [reflexivity|].
  rewrite IH by (intros; apply H; lia). rewrite H by lia. ring.
Qed.

Lemma Csum_add n f g : Csum n (fun i => f i + g i) = Csum n f + Csum n g.
Proof. induction n as [|k IH]; simpl; [|rewrite IH]; ring. Qed.

Lemma Csum_mul_l n a f : Csum n (fun i => a * f i) = a * Csum n f.
Proof. induction n as [|k IH]; simpl; [|rewrite IH]; ring. Qed.

Lemma Csum_mul_r n a f : Csum n (fun i => f i * a) = Csum n f * a.
Proof. induction n as [|k IH]; simpl; [|rewrite IH]; ring. Qed.

Lemma Csum_opp n f : Csum n (fun i => - f i) = - Csum n f.
Proof. induction n as [|k IH]; simpl; [|rewrite IH]; ring. Qed.

Lemma Csum_conj n f : Cconj (Csum n f) = Csum n (fun i => Cconj (f i)).
Proof. induction n as [|k IH]; simpl; [apply Cconj_0|]. rewrite Cconj_add, IH. reflexivity. Qed.

Lemma Csum_split a b f : Csum (a + b) f = Csum a f + Csum b (fun i => f (a + i)%nat).
Proof.
  induction b as [|k IH]; simpl.
  - rewrite Nat.add_0_r. ring.
  - rewrite Nat.add_succ_r. simpl. rewrite IH. ring.
Qed.

Lemma Csum_S_l n f : Csum (S n) f = f 0%nat + Csum n (fun i => f (S i)).
Proof.
  change (S n) with (1 + n)%nat. rewrite Csum_split. simpl. ring.
Qed.

(** zero-padding does not change a sum *)
Lemma Csum_pad n N f : (n <= N)%nat -> (forall i, (n <= i)%nat -> (i < N)%nat -> f i = C0) ->
  Csum N f = Csum n f.
Proof.
  intros H H0. replace N with (n + (N - n))%nat by lia. rewrite Csum_split.
  rewrite (Csum_zero (N - n)) by (intros; apply H0; lia). ring.
Qed.

Lemma Csum_swap n k (f : nat -> nat -> C) :
  Csum n (fun i => Csum k (fun j => f i j)) = Csum k (fun j => Csum n (fun i => f i j)).
Proof.
  induction n as [|n IH]; simpl.
  - rewrite Csum_zero; reflexivity.
  - rewrite IH, <- Csum_add. apply Csum_ext. intros. reflexivity.
Qed.

(** sum over i < a*b as a double sum, i = b*u + v *)
Lemma Csum_mul_nat a b f :
  Csum (a * b) f = Csum a (fun u => Csum b (fun v => f (b * u + v)%nat)).
Proof.
  induction a as [|a IH]; [reflexivity|].
  simpl. rewrite (Nat.add_comm b). rewrite Csum_split, IH. f_equal.
  apply Csum_ext. intros. f_equal. lia.
Qed.

Lemma Csum_const n a : Csum n (fun _ => a) = RtoC (INR n) * a.
Proof.
  induction n as [|n IH]; simpl Csum.
  - simpl. change (RtoC 0) with C0. ring.
  - rewrite IH, S_INR, RtoC_add. change (RtoC 1) with C1. ring.
Qed.

(** Kronecker sum *)
Lemma Csum_single n k f : (k < n)%nat -> (forall i, (i < n)%nat -> i <> k -> f i = C0) ->
  Csum n f = f k.
Proof.
  revert k. induction n as [|n IH]; intros k Hk H; [lia|]. simpl.
  destruct (Nat.eq_dec k n) as [->|Hne].
  - rewrite Csum_zero by (intros; apply H; lia). ring.
  - rewrite (IH k) by (try lia; intros; apply H; lia).
    rewrite (H n) by lia. ring.
Qed.

(** reversal *)
Lemma Csum_rev n f : Csum n f = Csum n (fun i => f (n - 1 - i)%nat).
Proof.
  revert f; induction n as [|n IH]; intros f; [reflexivity|].
  rewrite Csum_S_l. rewrite (IH (fun i => f (S i))). simpl.
  rewrite Cadd_comm. f_equal.
  - apply Csum_ext. intros i Hi. f_equal. lia.
  - f_equal. lia.
Qed.

(** Reindexing by a bijection of [0,n): via removal of one element *)
Lemma Csum_remove n k f : (k < S n)%nat ->
  Csum (S n) f = f k + Csum n (fun i => f (if Nat.ltb i k then i else S i)).
Proof.
  intros Hk. replace (S n) with (k + (1 + (n - k)))%nat at 1 by lia.
  rewrite Csum_split, Csum_split. cbn [Csum].
  replace n with (k + (n - k))%nat at 2 by lia. rewrite Csum_split.
  rewrite (Csum_ext k (fun i => f (if Nat.ltb i k then i else S i)) f).
  2:{ intros i Hi. destruct (Nat.ltb_spec i k); [reflexivity|lia]. }
  rewrite (Csum_ext (n - k) (fun i => f (if Nat.ltb (k + i) k then (k + i)%nat else S (k + i)))
             (fun i => f (k + (1 + i))%nat)).
  2:{ intros i Hi. destruct (Nat.ltb_spec (k + i) k); [lia|]. f_equal. lia. }
  rewrite Nat.add_0_r. ring.
Qed.

Lemma Csum_reindex n (f : nat -> C) (s : nat -> nat) :
  (forall i, (i < n)%nat -> (s i < n)%nat) ->
  (forall i j, (i < n)%nat -> (j < n)%nat -> s i = s j -> i = j) ->
  Csum n (fun i => f (s i)) = Csum n f.
Proof.
  revert f s. induction n as [|n IH]; intros f s Hr Hi; [reflexivity|].
  rewrite (Csum_remove n (s n) f) by (apply Hr; lia).
  set (k := s n).
  set (t := fun i => if Nat.ltb (s i) k then s i else (s i - 1)%nat).
  rewrite <- (IH (fun i => f (if Nat.ltb i k then i else S i)) t).
  - cbn [Csum]. rewrite Cadd_comm. f_equal. apply Csum_ext. intros i Hin.
    assert (s i <> k). { intros E. apply Hi in E; lia. }
    unfold t. destruct (Nat.ltb_spec (s i) k) as [Hlt|Hge].
    + destruct (Nat.ltb_spec (s i) k); [reflexivity|lia].
    + destruct (Nat.ltb_spec (s i - 1) k) as [Hl|Hl]; [lia|]. f_equal. lia.
  - intros i Hin. unfold t. pose proof (Hr i ltac:(lia)).
    assert (s i <> k). { intros E. apply Hi in E; lia. }
    pose proof (Hr n ltac:(lia)) as Hrn. change (s n) with k in Hrn.
    destruct (Nat.ltb_spec (s i) k); lia.
  - intros i j Hin Hjn E. apply Hi; [lia|lia|]. unfold t in E.
    assert (s i <> k). { intros E'. apply Hi in E'; lia. }
    assert (s j <> k). { intros E'. apply Hi in E'; lia. }
    destruct (Nat.ltb_spec (s i) k), (Nat.ltb_spec (s j) k); lia.
Qed.
