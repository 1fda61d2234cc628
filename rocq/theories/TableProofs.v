(** The key order is a strict total order; lookups return the last value stored under the key. *)
From Coq Require Import Arith List Bool Lia.
From Verif Require Import TableModel.
Import ListNotations.

Lemma keyless_spec a b : keyless a b = true <->
  k_nx a < k_nx b \/ (k_nx a = k_nx b /\ (k_M a < k_M b \/ (k_M a = k_M b /\
    (k_threads a < k_threads b \/ (k_threads a = k_threads b /\ k_inplace a = false /\ k_inplace b = true))))).
Proof.
  unfold keyless, bool_lt. rewrite !orb_true_iff, !andb_true_iff, !orb_true_iff, !andb_true_iff, !orb_true_iff, !andb_true_iff.
  rewrite !Nat.ltb_lt, !Nat.eqb_eq, negb_true_iff. tauto.
Qed.
Lemma keyless_false a b : keyless a b = false <-> ~ (keyless a b = true).
Proof. destruct (keyless a b); split; intros; congruence. Qed.
Lemma keyless_irrefl a : keyless a a = false.
Proof. apply keyless_false. rewrite keyless_spec. destruct (k_inplace a); intuition (lia || congruence). Qed.
Lemma keyless_trans a b c : keyless a b = true -> keyless b c = true -> keyless a c = true.
Proof. rewrite !keyless_spec. destruct (k_inplace a), (k_inplace b), (k_inplace c); intuition (lia || congruence). Qed.
Lemma keyless_total a b : keyless a b = false -> keyless b a = false -> a = b.
Proof.
  rewrite !keyless_false, !keyless_spec. destruct a as [a1 a2 a3 a4], b as [b1 b2 b3 b4]. cbn [k_nx k_M k_threads k_inplace]. intros H1 H2.
  assert (a1 = b1) by lia. subst. assert (a2 = b2) by lia. subst. assert (a3 = b3) by lia. subst.
  destruct a4, b4; try reflexivity; exfalso; [apply H2|apply H1]; auto 10.
Qed.

Lemma key_dec (a b : keytype) : {a = b} + {a <> b}.
Proof. decide equality; try apply Nat.eq_dec. apply bool_dec. Qed.

(** sorted: every later key is greater *)
Fixpoint sorted (t : table) : Prop :=
  match t with [] => True | (k, _) :: t => (forall k' v', In (k', v') t -> keyless k k' = true) /\ sorted t end.

Lemma find_above t key : (forall k v, In (k, v) t -> keyless key k = true) -> map_find t key = None.
Proof.
  destruct t as [|[k v] t]; intros H; [reflexivity|]. simpl. assert (A : keyless key k = true) by (apply (H k v); left; reflexivity).
  destruct (keyless k key) eqn:E; [|rewrite A; reflexivity]. pose proof (keyless_trans _ _ _ A E) as B. rewrite keyless_irrefl in B. discriminate.
Qed.
Lemma set_in t key v k' v' : In (k', v') (map_set t key v) -> (k' = key /\ v' = v) \/ In (k', v') t.
Proof.
  induction t as [|[k w] t IH]; simpl.
  - intros [E|[]]. injection E as <- <-. auto.
  - destruct (keyless k key) eqn:E1; [|destruct (keyless key k) eqn:E2]; simpl.
    + intros [E|H]; [auto|]. destruct (IH H); auto.
    + intros [E|H]; [injection E as <- <-; auto|auto].
    + rewrite (keyless_total _ _ E1 E2). intros [E|H]; [injection E as <- <-; auto|auto].
Qed.
Lemma set_sorted t key v : sorted t -> sorted (map_set t key v).
Proof.
  induction t as [|[k w] t IH]; simpl; intros Hs.
  - split; [intros ? ? []|exact I].
  - destruct Hs as [H1 H2]. destruct (keyless k key) eqn:E1; [|destruct (keyless key k) eqn:E2]; simpl.
    + split; [|auto]. intros k' v' H. destruct (set_in _ _ _ _ _ H) as [[-> ->]|H']; [assumption|eauto].
    + split; [|split; assumption]. intros k' v' [E|H]; [injection E as <- <-; assumption|].
      eapply keyless_trans; [exact E2|eauto].
    + split; assumption.
Qed.
Lemma find_set t key v k : sorted t -> map_find (map_set t key v) k = if key_dec key k then Some v else map_find t k.
Proof.
  induction t as [|[k0 w] t IH]; intros Hs.
  - simpl. destruct (key_dec key k) as [->|N]; [rewrite keyless_irrefl; reflexivity|].
    destruct (keyless key k) eqn:E1; [reflexivity|]. destruct (keyless k key) eqn:E2; [reflexivity|].
    exfalso. apply N, keyless_total; assumption.
  - destruct Hs as [H1 H2]. simpl map_set. destruct (keyless k0 key) eqn:E1; [|destruct (keyless key k0) eqn:E2].
    + simpl. rewrite IH by assumption. destruct (keyless k0 k) eqn:F1; [reflexivity|].
      destruct (key_dec key k) as [->|N]; [congruence|]. reflexivity.
    + simpl. destruct (key_dec key k) as [->|N].
      * rewrite keyless_irrefl. reflexivity.
      * destruct (keyless key k) eqn:F1; [reflexivity|]. destruct (keyless k key) eqn:F2; [|exfalso; apply N, keyless_total; assumption].
        pose proof (keyless_trans _ _ _ F2 E2) as F3. destruct (keyless k0 k) eqn:F4; [|rewrite F3; reflexivity].
        pose proof (keyless_trans _ _ _ F3 F4) as F5. rewrite keyless_irrefl in F5. discriminate.
    + pose proof (keyless_total _ _ E1 E2) as E. subst k0. simpl. destruct (key_dec key k) as [->|N].
      * rewrite keyless_irrefl. reflexivity.
      * destruct (keyless key k) eqn:F1; [reflexivity|]. destruct (keyless k key) eqn:F2; [reflexivity|].
        exfalso. apply N, keyless_total; assumption.
Qed.

(** the value most recently stored under exactly this key, 0 if none *)
Fixpoint last_stored (h : list (keytype * nat)) (key : keytype) (d : nat) : nat :=
  match h with
  | [] => d
  | (k, v) :: h => last_stored h key (if key_dec k key then v else d)
  end.

Lemma lookup_thm h key : Lookup (stores h) key = last_stored h key 0.
Proof.
  assert (G : forall h t, sorted t -> Lookup (fold_left (fun t kv => Store t (fst kv) (snd kv)) h t) key = last_stored h key (Lookup t key)).
  { clear h. induction h as [|[k v] h IH]; intros t Hs; [reflexivity|]. simpl fold_left. rewrite IH by (apply set_sorted; assumption).
    cbn [last_stored]. f_equal. unfold Lookup, Store. rewrite find_set by assumption. destruct (key_dec k key); reflexivity. }
  unfold stores. rewrite G by exact I. reflexivity.
Qed.
