(** Ownership invariants of the array classes. *)
From Coq Require Import Arith ZArith List Bool Lia.
Import ListNotations.
From Verif Require Import ArrayModel ArraySpec.

Section Own.
Variable n0 : nat.
(** general invariant; blocks in X are live but owned by nobody *)
Record Inv (X : nat -> Prop) (s : ast) : Prop := mkInv {
  i_own : forall o a, s_obj s o = Some a -> a_alloc a = true ->
          exists b k l, a_v a = Some (b, 0) /\ s_blk s b = Some (Live k l) /\ k <> KUser /\ b < s_next s;
  i_uni : forall o o' b, owns s o b -> owns s o' b -> o = o';
  i_new : forall b, s_next s <= b -> s_blk s b = None;
  i_old : forall b, b < s_next s -> s_blk s b <> None;
  i_usr : forall b, b < n0 -> exists l, s_blk s b = Some (Live KUser l);
  i_fre : forall b, s_frees s b = match s_blk s b with Some Freed => 1 | _ => 0 end;
  i_n0 : n0 <= s_next s;
  i_lib : forall b, n0 <= b -> forall l, s_blk s b <> Some (Live KUser l);
  i_lost : forall b, X b -> (exists k l, s_blk s b = Some (Live k l)) /\ forall o, ~ owns s o b }.

Definition good (P : ast -> Prop) (r : res) : Prop :=
  match r with Ok s => P s | Fail DoubleFree => False | _ => True end.
Lemma good_then P Q r f : good P r -> (forall s, P s -> good Q (f s)) -> good Q (andthen r f).
Proof. destruct r as [s|[]|]; simpl; auto. Qed.
Lemma good_mono (P Q : ast -> Prop) r : (forall s, P s -> Q s) -> good P r -> good Q r.
Proof. destruct r as [s|[]|]; simpl; auto. Qed.

Lemma put_obj_obj s o a k : s_obj (put_obj s o a) k = if k =? o then a else s_obj s k.
Proof. reflexivity. Qed.

(** replacing an object by one that does not own anything *)
Lemma inv_put_nonown X s o a : Inv X s -> (forall a', a = Some a' -> a_alloc a' = false) -> Inv X (put_obj s o a).
Proof.
  intros I H.
  assert (O : forall o' b, owns (put_obj s o a) o' b -> owns s o' b).
  { intros o' b (a' & E & Al & V). rewrite put_obj_obj in E. destruct (o' =? o) eqn:Eo; [|exists a'; auto].
    apply H in E. congruence. }
  destruct I. constructor; simpl; auto.
  - intros o' a' E Al. destruct (o' =? o) eqn:Eo; [apply H in E; congruence|eauto].
  - intros o1 o2 b H1 H2. apply (i_uni0 o1 o2 b); auto.
  - intros b Xb. destruct (i_lost0 b Xb) as [L N]. split; auto. intros o' Ow. apply (N o'); auto.
Qed.

Lemma inv_put_same X s o a a0 : Inv X s -> s_obj s o = Some a0 -> a_alloc a = a_alloc a0 -> a_v a = a_v a0 ->
  Inv X (put_obj s o (Some a)).
Proof.
  intros I E0 Al V.
  assert (O : forall o' b, owns (put_obj s o (Some a)) o' b -> owns s o' b).
  { intros o' b (a' & E & Al' & V'). rewrite put_obj_obj in E. destruct (o' =? o) eqn:Eo; [|exists a'; auto].
    apply Nat.eqb_eq in Eo; subst. inversion E; subst. exists a0. repeat split; congruence. }
  destruct I. constructor; simpl; auto.
  - intros o' a' E Al'. destruct (o' =? o) eqn:Eo; [|eauto].
    inversion E; subst. apply Nat.eqb_eq in Eo; subst. destruct (i_own0 o a0 E0) as (b & k & l & W); [congruence|].
    exists b, k, l. rewrite V. exact W.
  - intros o1 o2 b H1 H2. apply (i_uni0 o1 o2 b); auto.
  - intros b Xb. destruct (i_lost0 b Xb) as [L N]. split; auto. intros o' Ow. apply (N o'); auto.
Qed.

(** freeing the block of o, which then stops owning *)
Lemma inv_free X s o a b a' : Inv X s -> s_obj s o = Some a -> a_alloc a = true -> a_v a = Some (b, 0) -> a_alloc a' = false ->
  Inv X (put_obj (count_free (put_blk s b (Some Freed)) b) o (Some a')).
Proof.
  intros I E Al V Al'.
  assert (Ob : owns s o b) by (exists a; auto).
  assert (O : forall o' b', owns (put_obj (count_free (put_blk s b (Some Freed)) b) o (Some a')) o' b' -> o' <> o /\ b' <> b /\ owns s o' b').
  { intros o' b' (x & Ex & Ax & Vx). rewrite put_obj_obj in Ex. destruct (Nat.eqb_spec o' o) as [->|Ne].
    - inversion Ex; subst. congruence.
    - assert (owns s o' b') by (exists x; auto). repeat split; auto. intros ->. apply Ne. eapply (i_uni X s I); eauto. }
  destruct I as [I1 I2 I3 I4 I5 I6 I7 I8 I9].
  destruct (I1 o a E Al) as (b0 & k & l & V0 & B0 & K0 & L0). rewrite V in V0. inversion V0; subst b0.
  constructor; simpl; auto.
  - intros o' x Ex Ax. destruct (Nat.eqb_spec o' o) as [->|Ne]; [inversion Ex; subst; congruence|].
    destruct (I1 o' x Ex Ax) as (b1 & k1 & l1 & V1 & B1 & W). exists b1, k1, l1. repeat split; try tauto.
    destruct (Nat.eqb_spec b1 b) as [->|]; auto.
    exfalso. apply Ne. apply (I2 o' o b); auto. exists x; auto.
  - intros o1 o2 b' H1 H2. apply O in H1. apply O in H2. apply (I2 o1 o2 b'); tauto.
  - intros b' H. destruct (Nat.eqb_spec b' b); auto. subst. lia.
  - intros b' H. destruct (Nat.eqb_spec b' b); [discriminate|auto].
  - intros b' H. destruct (Nat.eqb_spec b' b); auto. subst. destruct (I5 b H). congruence.
  - intros b'. destruct (Nat.eqb_spec b' b); auto. subst. rewrite I6, B0. reflexivity.
  - intros b' H l'. destruct (Nat.eqb_spec b' b); [discriminate|auto].
  - intros b' Xb. destruct (I9 b' Xb) as [L N]. destruct (Nat.eqb_spec b' b) as [->|].
    + exfalso. apply (N o). auto.
    + split; auto. intros o' Ow. apply O in Ow. apply (N o'); tauto.
Qed.

Lemma dealloc_good md X s o : Inv X s ->
  good (fun s' => Inv X s' /\ (forall a, s_obj s' o = Some a -> a_alloc a = false)) (Deallocate md o s).
Proof.
  intros I. unfold Deallocate. destruct (s_obj s o) as [a|] eqn:E; [|split; auto; congruence].
  destruct (a_alloc a) eqn:Al; [|simpl; split; auto; congruence].
  destruct (i_own X s I o a E Al) as (b & k & l & V & B & K & L).
  destruct (a_align a); unfold deleteAlign, free_blk; rewrite V, ?B.
  - destruct (destroys_ok md (Some (b, 0)) (a_size a) s); simpl; auto. destruct k; simpl; auto.
    split; [|rewrite Nat.eqb_refl; intros x Hx; inversion Hx; reflexivity].
    eapply inv_free; eauto.
  - destruct k; simpl; auto. split; [|rewrite Nat.eqb_refl; intros x Hx; inversion Hx; reflexivity].
    eapply inv_free; eauto.
Qed.

Lemma activate_inv X s o al a : Inv X s -> s_obj s o = Some a ->
  exists s', Activate o al s = Ok s' /\ Inv X s' /\ s_obj s' o = Some (mkarr (Some (s_next s, 0)) (a_size a) true (a_temp a) (al || a_align a)) /\
    (forall o', o' <> o -> s_obj s' o' = s_obj s o') /\ s_next s' = S (s_next s) /\
    (forall b, s_blk s' b = if b =? s_next s then Some (Live (if al then KAligned else KNew) (a_size a)) else s_blk s b) /\
    s_frees s' = s_frees s /\ (forall b, b <> s_next s -> s_data s' b = s_data s b).
Proof.
  intros I E. unfold Activate. rewrite E. simpl. eexists. split; [reflexivity|].
  assert (O : forall o' b', owns (put_obj
     (mkast (s_obj s) (fun b => if b =? s_next s then Some (Live (if al then KAligned else KNew) (a_size a)) else s_blk s b)
        (fun b => if b =? s_next s then fun _ => None else s_data s b) (s_frees s) (S (s_next s))) o
     (Some (mkarr (Some (s_next s, 0)) (a_size a) true (a_temp a) (al || a_align a)))) o' b' ->
     (o' = o /\ b' = s_next s) \/ (o' <> o /\ b' < s_next s /\ owns s o' b')).
  { intros o' b' (x & Ex & Ax & Vx). rewrite put_obj_obj in Ex. destruct (Nat.eqb_spec o' o) as [->|Ne].
    - left. inversion Ex; subst. simpl in Vx. inversion Vx. auto.
    - right. simpl in Ex. destruct (i_own X s I o' x Ex Ax) as (b & k & l & V & _ & _ & Lb). rewrite Vx in V. inversion V; subst.
      repeat split; auto. exists x; auto. }
  destruct I as [I1 I2 I3 I4 I5 I6 I7 I8 I9].
  split; [|simpl; rewrite Nat.eqb_refl; repeat split; auto].
  2:{ intros o' Ne. destruct (Nat.eqb_spec o' o); congruence. }
  2:{ intros b Ne. destruct (Nat.eqb_spec b (s_next s)); congruence. }
  constructor; simpl; auto.
  - intros o' x Ex Ax. destruct (Nat.eqb_spec o' o) as [->|Ne].
    + inversion Ex; subst. simpl. exists (s_next s), (if al then KAligned else KNew), (a_size a). rewrite Nat.eqb_refl.
      repeat split; auto. destruct al; discriminate.
    + destruct (I1 o' x Ex Ax) as (b1 & k1 & l1 & V1 & B1 & K1 & L1). exists b1, k1, l1.
      destruct (Nat.eqb_spec b1 (s_next s)); [lia|]. repeat split; auto.
  - intros o1 o2 b' H1 H2. apply O in H1. apply O in H2.
    destruct H1 as [[-> ->]|(? & ? & ?)], H2 as [[-> ?]|(? & ? & ?)]; try lia; auto. apply (I2 o1 o2 b'); auto.
  - intros b H. destruct (Nat.eqb_spec b (s_next s)); [lia|apply I3; lia].
  - intros b H. destruct (Nat.eqb_spec b (s_next s)); [discriminate|apply I4; lia].
  - intros b H. destruct (Nat.eqb_spec b (s_next s)); [lia|apply I5; lia].
  - intros b. destruct (Nat.eqb_spec b (s_next s)); auto. subst. rewrite I6, (I3 (s_next s)) by lia. reflexivity.
  - intros b H l. destruct (Nat.eqb_spec b (s_next s)); [destruct al; discriminate|auto].
  - intros b Xb. destruct (I9 b Xb) as [[k [l Lb]] N]. split.
    + exists k, l. destruct (Nat.eqb_spec b (s_next s)); auto. subst. rewrite I3 in Lb by lia. discriminate.
    + intros o' Ow. apply O in Ow. destruct Ow as [[-> ->]|(? & ? & ?)]; [|apply (N o'); auto].
      rewrite I3 in Lb by lia. discriminate.
Qed.

Lemma activate_good X s o al : Inv X s -> good (Inv X) (Activate o al s).
Proof.
  intros I. destruct (s_obj s o) as [a|] eqn:E.
  - destruct (activate_inv X s o al a I E) as (s' & -> & I' & _). exact I'.
  - unfold Activate. rewrite E. exact I.
Qed.
Lemma dimension_good X s o n : Inv X s -> good (Inv X) (Dimension o n s).
Proof.
  intros I. unfold Dimension. destruct (s_obj s o) as [a|] eqn:E; [|exact I]. simpl. eapply inv_put_same; eauto.
Qed.
Lemma dimensionA_good X s o a : Inv X s -> good (Inv X) (DimensionA o a s).
Proof.
  intros I. unfold DimensionA. destruct (s_obj s o) eqn:E, (s_obj s a) eqn:E'; try exact I.
  apply inv_put_nonown; auto. intros a' H; inversion H; auto.
Qed.
Lemma dealloc_good' md X s o : Inv X s -> good (Inv X) (Deallocate md o s).
Proof. intros I. eapply good_mono; [|apply dealloc_good, I]. intros s1 H; exact (proj1 H). Qed.
Lemma allocate_good md X s o n al : Inv X s -> good (Inv X) (Allocate md o n al s).
Proof.
  intros I. unfold Allocate, checkActivate. eapply good_then; [apply dimension_good, I|]. intros s' I'.
  destruct (ndebug md); [apply activate_good, I'|].
  eapply good_then; [apply dealloc_good', I'|]. intros. apply activate_good; auto.
Qed.
Lemma freeze_good X s o : Inv X s -> good (Inv X) (Freeze o s).
Proof.
  intros I. unfold Freeze. destruct (s_obj s o); [|exact I]. apply inv_put_nonown; auto. intros a' H; inversion H; auto.
Qed.
Lemma purge_good md X s o : Inv X s -> good (Inv X) (Purge md o s).
Proof.
  intros I. unfold Purge. destruct (s_obj s o) as [a|]; [|exact I]. destruct (a_temp a); [|exact I].
  eapply good_then; [apply dealloc_good', I|]. intros; apply freeze_good; auto.
Qed.
Lemma destroy_good md X s o : Inv X s -> good (Inv X) (Destroy md o s).
Proof.
  intros I. unfold Destroy. eapply good_then; [apply dealloc_good', I|]. intros s' I'. apply inv_put_nonown; auto.
  discriminate.
Qed.

(** copying elements changes data only *)
Definition same_shape (s s' : ast) : Prop :=
  s_obj s' = s_obj s /\ s_blk s' = s_blk s /\ s_frees s' = s_frees s /\ s_next s' = s_next s.
Lemma same_inv X s s' : same_shape s s' -> Inv X s -> Inv X s'.
Proof.
  intros (E1 & E2 & E3 & E4) []. constructor; unfold owns in *; rewrite ?E1, ?E2, ?E3, ?E4; auto.
Qed.
Lemma wr_shape s p i x : match wr_elt s p i x with Ok s' => same_shape s s' | Fail e => e = OutOfBounds \/ e = UseAfterFree | Stop => False end.
Proof.
  unfold wr_elt. destruct p as [[b off]|]; auto. destruct (s_blk s b) as [[k l|]|]; auto.
  destruct (off + i <? l); auto. repeat split; auto.
Qed.
Lemma copy_shape n d p : forall i s,
  match copy_elts n d p i s with Ok s' => same_shape s s' | Fail e => e = OutOfBounds \/ e = UseAfterFree | Stop => False end.
Proof.
  induction n; intros i s; simpl; [repeat split|].
  destruct (rd_elt s p i) as [x|e] eqn:E.
  - pose proof (wr_shape s d i x) as W. destruct (wr_elt s d i x) as [s'|e|]; simpl; auto.
    specialize (IHn (S i) s'). destruct (copy_elts n d p (S i) s') as [s''| |]; auto.
    destruct W as (W1 & W2 & W3 & W4), IHn as (V1 & V2 & V3 & V4). repeat split; congruence.
  - revert E. unfold rd_elt. destruct p as [[b off]|]; [|intros H; inversion H; auto].
    destruct (s_blk s b) as [[k l|]|]; try (intros H; inversion H; auto; fail).
    destruct (off + i <? l); intros H; inversion H; auto.
Qed.
Lemma load_good X s o a : Inv X s -> good (Inv X) (Load1 o a s).
Proof.
  intros I. unfold Load1. destruct (s_obj s o) as [x|], (s_obj s a) as [y|]; try exact I.
  pose proof (copy_shape (a_size x) (a_v x) (a_v y) 0 s) as C.
  destruct (copy_elts (a_size x) (a_v x) (a_v y) 0 s) as [s'|[]|]; simpl; auto; try (destruct C; discriminate).
  eapply same_inv; eauto.
Qed.
Lemma assign_good md X s o a : Inv X s -> good (Inv X) (Assign md o a s).
Proof.
  intros I. unfold Assign. destruct (s_obj s o) as [x|], (s_obj s a) as [y|]; try exact I.
  apply good_then with (P := Inv X).
  - destruct (a_size x =? a_size y); [exact I|].
    eapply good_then; [apply dealloc_good', I|]. intros; apply allocate_good; auto.
  - intros s' I'. eapply good_then; [apply load_good, I'|]. intros; apply purge_good; auto.
Qed.
Lemma get_good md X s o i : Inv X s -> good (Inv X) (Get md o i s).
Proof.
  intros I. unfold Get. destruct (s_obj s o) as [a|]; [|exact I].
  destruct (negb (ndebug md) && (a_size a <=? i)); [exact Logic.I|].
  unfold rd_elt. destruct (a_v a) as [[b off]|]; [|exact Logic.I].
  destruct (s_blk s b) as [[k l|]|]; try exact Logic.I. destruct (off + i <? l); [exact I|exact Logic.I].
Qed.
Lemma put_good md X s o i x : Inv X s -> good (Inv X) (Put md o i x s).
Proof.
  intros I. unfold Put. destruct (s_obj s o) as [a|]; [|exact I].
  destruct (negb (ndebug md) && (a_size a <=? i)); [exact Logic.I|].
  pose proof (wr_shape s (a_v a) i (Some x)) as W. destruct (wr_elt s (a_v a) i (Some x)) as [s'|[]|]; simpl; auto; try (destruct W; discriminate).
  eapply same_inv; eauto.
Qed.
Lemma tmp_inv X s : Inv X s -> Inv X (put_obj s tmp (Some fresh_arr)).
Proof. intros. apply inv_put_nonown; auto. intros a' E; inversion E; auto. Qed.

Lemma step_good md X op s : Inv X s -> good (Inv X) (astep md op s).
Proof.
  intros I. destruct op; simpl; unfold construct, have2, have3.
  - destruct (s_obj s (S o)); [exact I|]. apply inv_put_nonown; auto. intros a' E; inversion E; auto.
  - destruct (s_obj s (S o)); [exact I|]. apply allocate_good. apply inv_put_nonown; auto. intros a' E; inversion E; auto.
  - destruct (s_obj s (S o)); [exact I|]. apply inv_put_nonown; auto. intros a' E; inversion E; auto.
  - destruct (s_obj s (S o)); [exact I|]. destruct (s_obj s (S a)); [|exact I]. apply inv_put_nonown; auto. intros a' E; inversion E; auto.
  - destruct (s_obj s (S o)); [exact I|]. destruct (s_obj s (S a)); [|exact I]. apply inv_put_nonown; auto. intros a' E; inversion E; auto.
  - apply allocate_good, I.
  - eapply good_then; [apply dealloc_good', I|]. intros; apply allocate_good; auto.
  - apply dealloc_good', I.
  - apply dimension_good, I.
  - unfold DimensionV. destruct (s_obj s (S o)); [|exact I]. apply inv_put_nonown; auto. intros a' E; inversion E; auto.
  - apply dimensionA_good, I.
  - unfold SetV. destruct (s_obj s (S o)); [|exact I]. apply inv_put_nonown; auto. intros a' E; inversion E; auto.
  - apply freeze_good, I.
  - unfold Hold. destruct (s_obj s (S o)) as [a|]; [|exact I]. destruct (a_alloc a); [|exact I].
    apply inv_put_nonown; auto. intros a' E; inversion E; auto.
  - apply purge_good, I.
  - destruct (s_obj s (S a)), (s_obj s (S b)); try exact I. unfold swaparray.
    eapply good_then; [|intros; apply destroy_good; eassumption].
    eapply good_then; [|intros; apply dimensionA_good; eassumption].
    eapply good_then; [|intros; apply dimensionA_good; eassumption].
    apply dimensionA_good, tmp_inv, I.
  - destruct (s_obj s (S a)), (s_obj s (S b)), (s_obj s (S c)); try exact I. unfold leftshiftarray.
    eapply good_then; [|intros; apply destroy_good; eassumption].
    eapply good_then; [|intros; apply dimensionA_good; eassumption].
    eapply good_then; [|intros; apply dimensionA_good; eassumption].
    eapply good_then; [|intros; apply dimensionA_good; eassumption].
    apply dimensionA_good, tmp_inv, I.
  - destruct (s_obj s (S a)), (s_obj s (S b)), (s_obj s (S c)); try exact I. unfold rightshiftarray.
    eapply good_then; [|intros; apply destroy_good; eassumption].
    eapply good_then; [|intros; apply dimensionA_good; eassumption].
    eapply good_then; [|intros; apply dimensionA_good; eassumption].
    eapply good_then; [|intros; apply dimensionA_good; eassumption].
    apply dimensionA_good, tmp_inv, I.
  - apply assign_good, I.
  - apply get_good, I.
  - apply put_good, I.
  - destruct (s_obj s (S o)); [|exact I]. apply destroy_good, I.
Qed.
Lemma run_good md X h : forall s, Inv X s -> good (Inv X) (arun md h s).
Proof.
  induction h as [|op h IH]; intros s I; simpl; [exact I|].
  eapply good_then; [apply step_good, I|]. auto.
Qed.
End Own.

Lemma start_inv n len data : Inv n (fun _ => False) (astart n len data).
Proof.
  constructor; simpl; try discriminate; try lia; auto.
  - intros o o' b (a & E & _). discriminate.
  - intros b H. destruct (Nat.ltb_spec b n); [lia|auto].
  - intros b H. destruct (Nat.ltb_spec b n); [discriminate|lia].
  - intros b H. destruct (Nat.ltb_spec b n); [eauto|lia].
  - intros b. destruct (b <? n); auto.
  - intros b H l. destruct (Nat.ltb_spec b n); [lia|discriminate].
Qed.
