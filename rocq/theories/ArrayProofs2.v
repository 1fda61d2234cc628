(** Proofs about Array.h and align.h: ownership histories and aligned allocation. *)
From Coq Require Import Arith ZArith List Bool Lia.
Import ListNotations.
From Verif Require Import ArrayModel ArraySpec ArrayOwn ArrayDisc.

Lemma no_double_free_thm md h n len data : let r := arun md h (astart n len data) in
  r <> Fail DoubleFree /\
  forall s b, r = Ok s -> s_frees s b <= 1 /\ (b < n -> s_frees s b = 0).
Proof.
  intros r. pose proof (run_good n md _ h _ (start_inv n len data)) as G. fold r in G. split.
  - intros E. rewrite E in G. exact G.
  - intros s b E. rewrite E in G. split.
    + rewrite (i_fre _ _ _ G). destruct (s_blk s b) as [[]|]; lia.
    + intros H. rewrite (i_fre _ _ _ G). destruct (i_usr _ _ _ G b H) as (l & ->). reflexivity.
Qed.

Lemma exactly_once_thm md h n len data : disciplined_run md h (astart n len data) ->
  let r := arun md h (astart n len data) in
  (forall e, r = Fail e -> e = OutOfBounds \/ e = UseAfterFree) /\
  forall s, r = Ok s ->
    (forall b, allocated_block n s b ->
       (s_frees s b = 0 /\ exists o, owns s o b /\ forall o', owns s o' b -> o' = o) \/
       (s_frees s b = 1 /\ forall o, ~ owns s o b)) /\
    ((forall o, s_obj s o = None) -> forall b, allocated_block n s b -> s_frees s b = 1).
Proof.
  intros H r. pose proof (run_dis n md h _ (start_dis n len data) H) as G. fold r in G. split.
  - intros e E. rewrite E in G. destruct e; simpl in G; tauto.
  - intros s E. rewrite E in G. destruct G as [D _]. pose proof (d_inv _ _ D) as I.
    assert (A : forall b, allocated_block n s b ->
       (s_frees s b = 0 /\ exists o, owns s o b /\ forall o', owns s o' b -> o' = o) \/
       (s_frees s b = 1 /\ forall o, ~ owns s o b)).
    { intros b [B1 B2]. rewrite (i_fre _ _ _ I). pose proof (i_old _ _ _ I b B2) as Ne.
      destruct (s_blk s b) as [[k l|]|] eqn:Eb; [left|right|congruence].
      - split; auto. destruct (d_live _ _ D b k l B1 Eb) as (o & Ho). exists o. split; auto.
        intros o' Ho'. apply (i_uni _ _ _ I o' o b); auto.
      - split; auto. intros o (a & Ea & Al & V). destruct (i_own _ _ _ I o a Ea Al) as (b' & k & l & V' & B' & _).
        rewrite V in V'. inversion V'; subst. congruence. }
    split; [exact A|]. intros None b Hb. destruct (A b Hb) as [(_ & o & (a & Ea & _) & _)|[F _]]; [|exact F].
    rewrite None in Ea. discriminate.
Qed.

Lemma owner_access_thm md h n len data s o a i x : disciplined_run md h (astart n len data) ->
  arun md h (astart n len data) = Ok s -> s_obj s (S o) = Some a -> a_alloc a = true -> i < a_size a ->
  astep md (OGet o i) s = Ok s /\
  exists s', astep md (OPut o i x) s = Ok s' /\ rd_elt s' (a_v a) i = inl (Some x) /\
    forall p j, (forall b off, a_v a = Some (b, off) -> forall off', p = Some (b, off') -> off' + j <> off + i) ->
      rd_elt s' p j = rd_elt s p j.
Proof.
  intros H E Ea Al Hi. pose proof (run_dis n md h _ (start_dis n len data) H) as G. rewrite E in G. destruct G as [D _].
  destruct (d_kind _ _ D _ a Ea Al) as (b & V & B & _).
  simpl. unfold Get, Put. rewrite Ea. destruct (Nat.leb_spec (a_size a) i); [lia|]. rewrite andb_false_r.
  unfold rd_elt, wr_elt. rewrite V, B. simpl. destruct (Nat.ltb_spec i (a_size a)); [|lia]. split; auto.
  eexists. split; [reflexivity|]. simpl. rewrite B. destruct (Nat.ltb_spec i (a_size a)); [|lia].
  rewrite !Nat.eqb_refl. split; auto. intros p j Hp. destruct p as [[b' off']|]; auto.
  destruct (s_blk s b') as [[k l|]|]; auto. destruct (off' + j <? l); auto.
  destruct (Nat.eqb_spec b' b); auto. subst. simpl. destruct (Nat.eqb_spec (off' + j) i); auto.
  exfalso. apply (Hp b 0 eq_refl off' eq_refl). lia.
Qed.

(** ** Assignment *)
Definition block_of (p : ptr) : option nat := match p with Some (b, _) => Some b | None => None end.
Lemma copy_spec n d off sb soff : d <> sb -> forall i s,
  live_range s (Some (d, off)) (i + n) -> live_range s (Some (sb, soff)) (i + n) ->
  exists s', copy_elts n (Some (d, off)) (Some (sb, soff)) i s = Ok s' /\ same_shape s s' /\
    (forall b k, s_data s' b k = if (b =? d) && (off + i <=? k) && (k <? off + i + n) then s_data s sb (soff + (k - off)) else s_data s b k).
Proof.
  intros Ne. induction n; intros i s L1 L2.
  - exists s. simpl. repeat split. intros b k. destruct (Nat.leb_spec (off + i) k), (Nat.ltb_spec k (off + i + 0)); try lia; rewrite ?andb_false_r; auto.
  - destruct L1 as (k1 & l1 & B1 & R1), L2 as (k2 & l2 & B2 & R2). cbn [copy_elts]. unfold rd_elt, wr_elt. rewrite B2, B1.
    destruct (Nat.ltb_spec (soff + i) l2); [|lia]. destruct (Nat.ltb_spec (off + i) l1); [|lia]. cbn [andthen].
    match goal with |- context [copy_elts n _ _ _ ?x] => set (s1 := x) end.
    destruct (IHn (S i) s1) as (s' & R & Sh & Da).
    + exists k1, l1. split; [exact B1|lia].
    + exists k2, l2. split; [exact B2|lia].
    + exists s'. split; [exact R|]. split; [exact Sh|]. intros b k. rewrite Da. unfold s1. cbn [s_data].
      destruct (Nat.eqb_spec b d) as [->|]; [|reflexivity].
      destruct (Nat.eqb_spec sb d); [congruence|]. simpl.
      destruct (Nat.leb_spec (off + S i) k), (Nat.ltb_spec k (off + S i + n)), (Nat.leb_spec (off + i) k), (Nat.ltb_spec k (off + i + S n)), (Nat.eqb_spec k (off + i)); try lia; simpl; auto.
      subst. f_equal. lia.
Qed.
Lemma rd_data_eq s s' b off i : s_blk s' b = s_blk s b -> s_data s' b (off + i) = s_data s b (off + i) ->
  rd_elt s' (Some (b, off)) i = rd_elt s (Some (b, off)) i.
Proof. intros E1 E2. unfold rd_elt. rewrite E1, E2. reflexivity. Qed.

Lemma purge_keeps md s o b : Inv b (fun _ => False) s -> (forall a, s_obj s o = Some a -> a_temp a = true -> a_alloc a = false) ->
  exists s', Purge md o s = Ok s' /\ s_blk s' = s_blk s /\ s_data s' = s_data s /\ s_frees s' = s_frees s /\
    (forall o', o' <> o -> s_obj s' o' = s_obj s o').
Proof.
  intros I H. unfold Purge. destruct (s_obj s o) as [a|] eqn:E; [|exists s; auto 6]. destruct (a_temp a) eqn:T; [|exists s; auto 6].
  unfold Deallocate. rewrite E, (H a eq_refl T). cbn [andthen]. unfold Freeze. rewrite E.
  eexists. split; [reflexivity|]. repeat split. intros o' Ne. rewrite put_obj_obj. destruct (Nat.eqb_spec o' o); congruence.
Qed.

(** no disciplined array is both temporary and an owner *)
Definition TempOk (s : ast) : Prop := forall o a, s_obj s o = Some a -> a_temp a = false.
Lemma temp_put s o a : TempOk s -> (forall x, a = Some x -> a_temp x = false) -> TempOk (put_obj s o a).
Proof. intros T H o' x E. rewrite put_obj_obj in E. destruct (o' =? o); [apply H; auto|eapply T; eauto]. Qed.
Lemma temp_dealloc md s o s' : TempOk s -> Deallocate md o s = Ok s' -> TempOk s'.
Proof.
  intros T. unfold Deallocate. destruct (s_obj s o) as [a|] eqn:E; [|intros H; inversion H; subst; auto].
  destruct (a_alloc a); [|intros H; inversion H; subst; auto].
  assert (F : forall k p s1, free_blk k p s = Ok s1 -> TempOk s1).
  { intros k p s1. unfold free_blk. destruct p as [[b []]|]; try discriminate. destruct (s_blk s b) as [[k' l|]|]; try discriminate.
    destruct (kind_eqb k k'); [|discriminate]. intros H; inversion H; subst. exact T. }
  assert (G : forall s1, (if a_align a then deleteAlign md (a_v a) (a_size a) s else free_blk KNew (a_v a) s) = Ok s1 -> TempOk s1).
  { intros s1. destruct (a_align a); [|apply F]. unfold deleteAlign. destruct (a_v a) as [[b off]|]; [|discriminate].
    destruct (s_blk s b) as [[k l|]|]; try discriminate; destruct (destroys_ok _ _ _ _); try discriminate; apply F. }
  destruct (if a_align a then deleteAlign md (a_v a) (a_size a) s else free_blk KNew (a_v a) s) as [s1| |]; try discriminate.
  simpl. intros H; inversion H; subst. apply temp_put; [apply G; auto|]. intros x Hx; inversion Hx; auto.
Qed.
Lemma temp_allocate md s o n al s' : TempOk s -> Allocate md o n al s = Ok s' -> TempOk s'.
Proof.
  intros T. unfold Allocate.
  assert (T1 : forall s1, Dimension o n s = Ok s1 -> TempOk s1).
  { intros s1. unfold Dimension. destruct (s_obj s o) as [a|] eqn:E; intros H; inversion H; subst; auto.
    apply temp_put; auto. intros x Hx; inversion Hx; simpl. eapply T; eauto. }
  destruct (Dimension o n s) as [s1| |]; try discriminate. specialize (T1 s1 eq_refl). cbn [andthen].
  assert (T2 : forall s2, TempOk s2 -> Activate o al s2 = Ok s' -> TempOk s').
  { intros s2 T2. unfold Activate. destruct (s_obj s2 o) as [a|] eqn:E; intros H; inversion H; subst; auto.
    apply temp_put; auto. intros x Hx; inversion Hx; simpl. eapply T2; eauto. }
  unfold checkActivate. destruct (ndebug md); [apply T2; auto|].
  destruct (Deallocate md o s1) as [s2| |] eqn:E2; try discriminate. simpl. apply T2. eapply temp_dealloc; eauto.
Qed.
Lemma temp_shape s s' : same_shape s s' -> TempOk s -> TempOk s'.
Proof. intros (E & _) T o a. rewrite E. apply T. Qed.
Lemma temp_dimA s o a s' : TempOk s -> DimensionA o a s = Ok s' -> TempOk s'.
Proof.
  intros T. unfold DimensionA. destruct (s_obj s o) eqn:E, (s_obj s a) eqn:E'; intros H; inversion H; subst; auto.
  apply temp_put; auto. intros x Hx; inversion Hx; simpl. eapply T; eauto.
Qed.
Ltac peel := match goal with |- andthen ?r _ = Ok _ -> _ => destruct r eqn:?; try discriminate; cbn [andthen] end.
Lemma temp_step md op s s' : TempOk s -> disciplined op s -> astep md op s = Ok s' -> TempOk s'.
Proof.
  intros T D. destruct op; simpl in *; unfold construct, have2, have3.
  - destruct (s_obj s (S o)); intros H; inversion H; subst; auto. apply temp_put; auto. intros x Hx; inversion Hx; auto.
  - destruct (s_obj s (S o)); [intros H; inversion H; subst; auto|]. apply temp_allocate. apply temp_put; auto. intros x Hx; inversion Hx; auto.
  - destruct (s_obj s (S o)); intros H; inversion H; subst; auto. apply temp_put; auto. intros x Hx; inversion Hx; auto.
  - destruct (s_obj s (S o)); [intros H; inversion H; subst; auto|]. destruct (s_obj s (S a)) as [A|] eqn:EA; intros H; inversion H; subst; auto.
    apply temp_put; auto. intros x Hx; inversion Hx; simpl. eapply T; eauto.
  - destruct (s_obj s (S o)); [intros H; inversion H; subst; auto|]. destruct (s_obj s (S a)) as [A|] eqn:EA; intros H; inversion H; subst; auto.
    apply temp_put; auto. intros x Hx; inversion Hx; auto.
  - apply temp_allocate; auto.
  - unfold Reallocate. peel. apply temp_allocate. eapply temp_dealloc; eauto.
  - apply temp_dealloc; auto.
  - unfold Dimension. destruct (s_obj s (S o)) eqn:E; intros H; inversion H; subst; auto. apply temp_put; auto. intros x Hx; inversion Hx; simpl. eapply T; eauto.
  - unfold DimensionV. destruct (s_obj s (S o)) eqn:E; intros H; inversion H; subst; auto. apply temp_put; auto. intros x Hx; inversion Hx; simpl. eapply T; eauto.
  - apply temp_dimA; auto.
  - unfold SetV. destruct (s_obj s (S o)) eqn:E; intros H; inversion H; subst; auto. apply temp_put; auto. intros x Hx; inversion Hx; simpl. eapply T; eauto.
  - unfold Freeze. destruct (s_obj s (S o)) eqn:E; intros H; inversion H; subst; auto. apply temp_put; auto. intros x Hx; inversion Hx; auto.
  - unfold Hold. destruct (s_obj s (S o)) as [a|] eqn:E; [|intros H; inversion H; subst; auto]. rewrite (D a E). intros H; inversion H; subst; auto.
  - unfold Purge. destruct (s_obj s (S o)) as [a|] eqn:E; [|intros H; inversion H; subst; auto]. rewrite (T _ _ E). intros H; inversion H; subst; auto.
  - destruct (s_obj s (S a)), (s_obj s (S b)); try (intros H; inversion H; subst; auto; fail). unfold swaparray.
    assert (T0 : TempOk (put_obj s tmp (Some fresh_arr))) by (apply temp_put; auto; intros x Hx; inversion Hx; auto).
    destruct (DimensionA tmp (S a) (put_obj s tmp (Some fresh_arr))) as [s1| |] eqn:E1; try discriminate; cbn [andthen].
    pose proof (temp_dimA _ _ _ _ T0 E1) as T1.
    destruct (DimensionA (S a) (S b) s1) as [s2| |] eqn:E2; try discriminate; cbn [andthen]. pose proof (temp_dimA _ _ _ _ T1 E2) as T2.
    destruct (DimensionA (S b) tmp s2) as [s3| |] eqn:E3; try discriminate; cbn [andthen]. pose proof (temp_dimA _ _ _ _ T2 E3) as T3.
    unfold Destroy. destruct (Deallocate md tmp s3) as [s4| |] eqn:E4; try discriminate; cbn [andthen].
    intros H; inversion H; subst. apply temp_put; [eapply temp_dealloc; [exact T3|exact E4]|discriminate].
  - destruct (s_obj s (S a)), (s_obj s (S b)), (s_obj s (S c)); try (intros H; inversion H; subst; auto; fail). unfold leftshiftarray.
    assert (T0 : TempOk (put_obj s tmp (Some fresh_arr))) by (apply temp_put; auto; intros x Hx; inversion Hx; auto).
    destruct (DimensionA tmp (S a) (put_obj s tmp (Some fresh_arr))) as [s1| |] eqn:E1; try discriminate; cbn [andthen].
    pose proof (temp_dimA _ _ _ _ T0 E1) as T1.
    destruct (DimensionA (S a) (S b) s1) as [s2| |] eqn:E2; try discriminate; cbn [andthen]. pose proof (temp_dimA _ _ _ _ T1 E2) as T2.
    destruct (DimensionA (S b) (S c) s2) as [s3| |] eqn:E3; try discriminate; cbn [andthen]. pose proof (temp_dimA _ _ _ _ T2 E3) as T3.
    destruct (DimensionA (S c) tmp s3) as [s4| |] eqn:E4; try discriminate; cbn [andthen]. pose proof (temp_dimA _ _ _ _ T3 E4) as T4.
    unfold Destroy. destruct (Deallocate md tmp s4) as [s5| |] eqn:E5; try discriminate; cbn [andthen].
    intros H; inversion H; subst. apply temp_put; [eapply temp_dealloc; [exact T4|exact E5]|discriminate].
  - destruct (s_obj s (S a)), (s_obj s (S b)), (s_obj s (S c)); try (intros H; inversion H; subst; auto; fail). unfold rightshiftarray.
    assert (T0 : TempOk (put_obj s tmp (Some fresh_arr))) by (apply temp_put; auto; intros x Hx; inversion Hx; auto).
    destruct (DimensionA tmp (S c) (put_obj s tmp (Some fresh_arr))) as [s1| |] eqn:E1; try discriminate; cbn [andthen].
    pose proof (temp_dimA _ _ _ _ T0 E1) as T1.
    destruct (DimensionA (S c) (S b) s1) as [s2| |] eqn:E2; try discriminate; cbn [andthen]. pose proof (temp_dimA _ _ _ _ T1 E2) as T2.
    destruct (DimensionA (S b) (S a) s2) as [s3| |] eqn:E3; try discriminate; cbn [andthen]. pose proof (temp_dimA _ _ _ _ T2 E3) as T3.
    destruct (DimensionA (S a) tmp s3) as [s4| |] eqn:E4; try discriminate; cbn [andthen]. pose proof (temp_dimA _ _ _ _ T3 E4) as T4.
    unfold Destroy. destruct (Deallocate md tmp s4) as [s5| |] eqn:E5; try discriminate; cbn [andthen].
    intros H; inversion H; subst. apply temp_put; [eapply temp_dealloc; [exact T4|exact E5]|discriminate].
  - unfold Assign. destruct (s_obj s (S o)) as [x|] eqn:E, (s_obj s (S a)) as [y|]; try (intros H; inversion H; subst; auto; fail).
    assert (T1 : forall s1, (if a_size x =? a_size y then Ok s else andthen (Deallocate md (S o) s) (Allocate md (S o) (a_size y) false)) = Ok s1 -> TempOk s1).
    { intros s1. destruct (a_size x =? a_size y); [intros H; inversion H; subst; auto|]. peel. apply temp_allocate. eapply temp_dealloc; eauto. }
    destruct (if a_size x =? a_size y then Ok s else andthen (Deallocate md (S o) s) (Allocate md (S o) (a_size y) false)) as [s1| |]; try discriminate; cbn [andthen].
    specialize (T1 s1 eq_refl).
    assert (T2 : forall s2, Load1 (S o) (S a) s1 = Ok s2 -> TempOk s2).
    { intros s2. unfold Load1. destruct (s_obj s1 (S o)) as [u|], (s_obj s1 (S a)) as [v|]; try (intros H; inversion H; subst; auto; fail).
      pose proof (copy_shape (a_size u) (a_v u) (a_v v) 0 s1) as C. intros H. rewrite H in C. eapply temp_shape; eauto. }
    destruct (Load1 (S o) (S a) s1) as [s2| |]; try discriminate; cbn [andthen]. specialize (T2 s2 eq_refl).
    unfold Purge. destruct (s_obj s2 (S a)) as [z|] eqn:Ez; [|intros H; inversion H; subst; auto]. rewrite (T2 _ _ Ez). intros H; inversion H; subst; auto.
  - unfold Get. destruct (s_obj s (S o)) as [a|]; [|intros H; inversion H; subst; auto].
    destruct (negb (ndebug md) && (a_size a <=? i)); [discriminate|]. destruct (rd_elt s (a_v a) i); intros H; inversion H; subst; auto.
  - unfold Put. destruct (s_obj s (S o)) as [a|]; [|intros H; inversion H; subst; auto].
    destruct (negb (ndebug md) && (a_size a <=? i)); [discriminate|]. pose proof (wr_shape s (a_v a) i (Some x)) as W.
    intros H. rewrite H in W. eapply temp_shape; eauto.
  - destruct (s_obj s (S o)) eqn:E; [|intros H; inversion H; subst; auto]. unfold Destroy. peel.
    intros H; inversion H; subst. apply temp_put; [eapply temp_dealloc; eauto|discriminate].
Qed.
Lemma temp_run md h : forall s s', TempOk s -> disciplined_run md h s -> arun md h s = Ok s' -> TempOk s'.
Proof.
  induction h as [|op h IH]; intros s s' T D; simpl in *; [intros H; inversion H; subst; auto|]. destruct D as [D1 D2].
  destruct (astep md op s) as [s1| |] eqn:E; try discriminate. simpl. apply IH; auto. eapply temp_step; eauto.
Qed.

Lemma dealloc_res md o s : match Deallocate md o s with Fail OutOfBounds | Fail UseAfterFree | Stop => False | _ => True end.
Proof.
  unfold Deallocate. destruct (s_obj s o) as [a|]; auto. destruct (a_alloc a); auto.
  assert (F : forall k p, match andthen (free_blk k p s) (fun s => Ok (put_obj s o (Some (mkarr (a_v a) (a_size a) false false false)))) with Fail OutOfBounds | Fail UseAfterFree | Stop => False | _ => True end).
  { intros k p. unfold free_blk. destruct p as [[b []]|]; simpl; auto. destruct (s_blk s b) as [[k' l|]|]; simpl; auto. destruct (kind_eqb k k'); simpl; auto. }
  destruct (a_align a); [|apply F]. unfold deleteAlign. destruct (a_v a) as [[b off]|]; [|exact I].
  destruct (s_blk s b) as [[k l|]|]; try exact I; match goal with |- context [destroys_ok ?x ?y ?z ?w] => destruct (destroys_ok x y z w) end; try exact I; apply F.
Qed.
Lemma allocate_res md o n al s : match Allocate md o n al s with Fail OutOfBounds | Fail UseAfterFree | Stop => False | _ => True end.
Proof.
  unfold Allocate. assert (exists s1, Dimension o n s = Ok s1) as (s1 & ->).
  { unfold Dimension. destruct (s_obj s o); eauto. }
  cbn [andthen]. assert (A : forall s2, exists s3, Activate o al s2 = Ok s3).
  { intros s2. unfold Activate. destruct (s_obj s2 o); simpl; eauto. }
  unfold checkActivate. destruct (ndebug md); [destruct (A s1) as (? & ->); auto|].
  pose proof (dealloc_res md o s1) as R. destruct (Deallocate md o s1) as [s2|[]|]; cbn [andthen]; auto. destruct (A s2) as (? & ->); auto.
Qed.
Lemma assign_thm md h n len data s o src a A : disciplined_run md h (astart n len data) ->
  arun md h (astart n len data) = Ok s ->
  s_obj s (S o) = Some a -> s_obj s (S src) = Some A -> o <> src ->
  live_range s (a_v A) (a_size A) ->
  (a_size a = a_size A -> live_range s (a_v a) (a_size a)) ->
  block_of (a_v a) <> block_of (a_v A) ->
  exists s' a', astep md (OAssign o src) s = Ok s' /\ s_obj s' (S o) = Some a' /\ s_obj s' (S src) = Some A /\
    a_size a' = a_size A /\
    forall i, i < a_size A -> rd_elt s' (a_v a') i = rd_elt s (a_v A) i /\ rd_elt s' (a_v A) i = rd_elt s (a_v A) i.
Proof.
  intros H E Ea EA Ne LA La Nb.
  pose proof (run_dis n md h _ (start_dis n len data) H) as G. rewrite E in G. destruct G as [D _].
  assert (T : TempOk s). { eapply temp_run; [|exact H|exact E]. intros x y Hx. discriminate. }
  destruct (a_v A) as [[sb soff]|] eqn:VA; [|destruct LA].
  cbn [astep]. unfold Assign. rewrite Ea, EA.
  (* the state before Load *)
  assert (P : exists s1 a1 d off, (if a_size a =? a_size A then Ok s else andthen (Deallocate md (S o) s) (Allocate md (S o) (a_size A) false)) = Ok s1 /\
     s_obj s1 (S o) = Some a1 /\ a_size a1 = a_size A /\ a_v a1 = Some (d, off) /\ d <> sb /\ s_obj s1 (S src) = Some A /\
     live_range s1 (Some (d, off)) (a_size A) /\ live_range s1 (Some (sb, soff)) (a_size A) /\ TempOk s1 /\
     s_blk s1 sb = s_blk s sb /\ s_data s1 sb = s_data s sb).
  { destruct (Nat.eqb_spec (a_size a) (a_size A)) as [Es|Es].
    - specialize (La Es). rewrite Es in La. destruct (a_v a) as [[d off]|] eqn:Va; [|destruct La].
      exists s, a, d, off. simpl in Nb. repeat split; auto; congruence.
    - pose proof (dealloc_dis n md s (S o) D) as Dd. pose proof (dealloc_res md (S o) s) as Rd.
      destruct (Deallocate md (S o) s) as [s0|[]|] eqn:Ed; simpl in Dd; try tauto. clear Rd.
      destruct Dd as (D0 & N0 & O0 & A0 & Da0 & Nx0 & B0). destruct (A0 a Ea) as (a0 & E0 & Sz0 & _). cbn [andthen].
      pose proof (allocate_dis n md s0 (S o) (a_size A) false a0 D0 N0 E0) as Al.
      assert (Al' := Al ltac:(unfold nonempty_if; discriminate)). clear Al. pose proof (allocate_res md (S o) (a_size A) false s0) as Rd.
      destruct (Allocate md (S o) (a_size A) false s0) as [s1|[]|] eqn:El; simpl in Al'; try tauto. clear Rd.
      destruct Al' as (D1 & E1 & O1 & Nx1 & B1 & Da1).
      assert (Hsb : sb < s_next s).
      { destruct LA as (k & l & Hb & _). destruct (le_lt_dec (s_next s) sb); auto.
        rewrite (i_new _ _ _ (d_inv _ _ D)) in Hb by auto. discriminate. }
      exists s1, (mkarr (Some (s_next s0, 0)) (a_size A) true (a_temp a0) false), (s_next s0), 0.
      assert (Hb : s_blk s1 sb = s_blk s sb).
      { rewrite B1, B0. - destruct (Nat.eqb_spec sb (s_next s0)); [lia|reflexivity].
        - intros (x & Ex & _ & Vx). rewrite Ea in Ex. inversion Ex; subst. rewrite Vx in Nb. simpl in Nb. congruence. }
      split; [reflexivity|]. split; [exact E1|]. split; [reflexivity|]. split; [reflexivity|]. split; [lia|].
      split; [rewrite O1 by congruence; rewrite O0 by congruence; exact EA|].
      split; [eexists _, _; rewrite B1, Nat.eqb_refl; split; [reflexivity|lia]|].
      split; [destruct LA as (k & l & HL & HR); exists k, l; rewrite Hb; auto|].
      split; [eapply temp_allocate; [|exact El]; eapply temp_dealloc; eauto|].
      split; [exact Hb|]. rewrite Da1 by lia. rewrite Da0. reflexivity. }
  destruct P as (s1 & a1 & d & off & -> & E1 & Sz & V1 & Nd & EA1 & L1 & L2 & T1 & B1 & Da1). cbn [andthen].
  unfold Load1. rewrite E1, EA1, V1, VA, Sz.
  destruct (copy_spec (a_size A) d off sb soff Nd 0 s1 L1 L2) as (s2 & -> & Sh & Da2). cbn [andthen].
  pose proof Sh as (O2 & B2 & _). unfold Purge. rewrite O2, EA1, (T1 _ _ EA1).
  exists s2, a1. split; [reflexivity|]. split; [congruence|]. split; [congruence|]. split; [exact Sz|].
  intros i Hi. rewrite V1. destruct L1 as (k1 & l1 & Hb1 & Hr1), L2 as (k2 & l2 & Hb2 & Hr2).
  unfold rd_elt. rewrite B2, Hb1, Hb2, <- B1, Hb2. destruct (Nat.ltb_spec (off + i) l1); [|lia]. destruct (Nat.ltb_spec (soff + i) l2); [|lia].
  rewrite !Da2, Nat.eqb_refl. destruct (Nat.eqb_spec sb d); [congruence|]. rewrite <- Da1. simpl.
  destruct (Nat.leb_spec (off + 0) (off + i)); [|lia]. destruct (Nat.ltb_spec (off + i) (off + 0 + a_size A)); [|lia].
  simpl. split; auto. do 2 f_equal. lia.
Qed.

(** ** What leaks *)
Lemma lost_forever md n X h s s' b : Inv n X s -> X b -> arun md h s = Ok s' -> s_frees s' b = 0.
Proof.
  intros I Xb E. pose proof (run_good n md X h s I) as G. rewrite E in G.
  destruct (i_lost _ _ _ G b Xb) as [(k & l & L) _]. rewrite (i_fre _ _ _ G), L. reflexivity.
Qed.
(** if nobody owns a live block any more, it is lost *)
Lemma lose n s b : Inv n (fun _ => False) s -> (exists k l, s_blk s b = Some (Live k l)) -> (forall o, ~ owns s o b) -> Inv n (fun x => x = b) s.
Proof. intros [] L N. constructor; auto. intros b' ->. auto. Qed.
Lemma owned_live n s o b : Inv n (fun _ => False) s -> owns s o b -> exists k l, s_blk s b = Some (Live k l).
Proof.
  intros I (a & E & Al & V). destruct (i_own _ _ _ I o a E Al) as (b' & k & l & V' & B & _). rewrite V in V'. inversion V'; subst. eauto.
Qed.
Lemma hold_leaks_thm md h n len data s o b h' s' : arun md h (astart n len data) = Ok s -> owns s (S o) b ->
  arun md (OHold o :: h') s = Ok s' -> s_frees s' b = 0.
Proof.
  intros E O E'. pose proof (run_good n md _ h _ (start_inv n len data)) as G. rewrite E in G. simpl in G.
  pose proof (step_good n md _ (OHold o) s G) as G1. simpl in E', G1. destruct (Hold (S o) s) as [s1|e|] eqn:EH; try discriminate.
  apply (lost_forever md n (fun x => x = b) h' s1 s' b); auto. apply lose; [exact G1|..].
  - destruct (owned_live _ _ _ _ G O) as (k & l & L). revert EH. unfold Hold. destruct (s_obj s (S o)) as [a|]; [destruct (a_alloc a)|]; intros EH; inversion EH; subst; simpl; eauto.
  - destruct O as (a & Ea & Al & V). unfold Hold in EH. rewrite Ea, Al in EH. inversion EH; subst.
    intros o' (x & Ex & Ax & Vx). rewrite put_obj_obj in Ex. destruct (Nat.eqb_spec o' (S o)); [inversion Ex; subst; discriminate|].
    apply n0. apply (i_uni _ _ _ G o' (S o) b); [exists x|exists a]; auto.
Qed.
Lemma swap_leaks_thm md h n len data s a b blk h' s' : arun md h (astart n len data) = Ok s -> a <> b -> owns s (S a) blk ->
  (exists x, s_obj s (S b) = Some x) ->
  arun md (OSwap a b :: h') s = Ok s' -> s_frees s' blk = 0.
Proof.
  intros E Ne O (xb & Eb) E'. pose proof (run_good n md _ h _ (start_inv n len data)) as G. rewrite E in G. simpl in G.
  pose proof (step_good n md _ (OSwap a b) s G) as G1. simpl in E', G1.
  pose proof O as (xa & Ea & Al & V). destruct (owned_live _ _ _ _ G O) as (k & l & L).
  unfold have2 in *. rewrite Ea, Eb in *.
  assert (R : swaparray md (S a) (S b) s = Ok (put_obj (put_obj (put_obj (put_obj (put_obj s tmp (Some fresh_arr)) tmp
      (Some (mkarr (a_v xa) (a_size xa) false (a_temp xa) false))) (S a) (Some (mkarr (a_v xb) (a_size xb) false (a_temp xb) false)))
      (S b) (Some (mkarr (a_v xa) (a_size xa) false (a_temp xa) false))) tmp None)).
  { unfold swaparray, DimensionA, Destroy, Deallocate. simpl. rewrite Ea. simpl. rewrite Ea, Eb. simpl.
    destruct (Nat.eqb_spec b a); [congruence|]. rewrite Eb. simpl. reflexivity. }
  rewrite R in *. apply (lost_forever md n (fun x => x = blk) h' _ s' blk) in E'; auto. apply lose; [exact G1|simpl; eauto|].
  intros o (x & Ex & Ax & Vx). rewrite !put_obj_obj in Ex.
  destruct (o =? tmp); [discriminate|]. destruct (o =? S b); [inversion Ex; subst; discriminate|].
  destruct (Nat.eqb_spec o (S a)); [inversion Ex; subst; discriminate|].
  apply n0. apply (i_uni _ _ _ G o (S a) blk); [exists x|exists xa]; auto.
Qed.
Lemma allocate_leaks_thm al' n1 n2 al h' s' : arun (mkmode true al') ([NewN 0 n1 al; OAllocate 0 n2 al] ++ h') (astart 0 (fun _ => 0) (fun _ _ => None)) = Ok s' ->
  s_frees s' 0 = 0.
Proof.
  pose proof (run_good 0 (mkmode true al') _ [NewN 0 n1 al; OAllocate 0 n2 al] _ (start_inv 0 (fun _ => 0) (fun _ _ => None))) as G.
  cbn in G. intros E. cbn in E. eapply (lost_forever (mkmode true al') 0 (fun x => x = 0)); [|reflexivity|exact E].
  apply lose; [exact G| |].
  - cbn. eauto.
  - intros o (x & Ex & Ax & Vx). cbn in Ex. destruct o as [|[|o]]; [discriminate| |discriminate]. inversion Ex; subst. discriminate.
Qed.
Lemma wrong_free_thm md n p : arun md [NewN 0 (S n) true; OSet 0 p; OAllocate 0 (S n) false; ODestroy 0] (astart 1 (fun _ => S n) (fun _ _ => None)) = Fail WrongFree.
Proof.
  destruct md as [nd ah]. destruct nd, ah; cbv -[Nat.leb Nat.ltb]; rewrite ?Nat.leb_refl; reflexivity.
Qed.
Lemma self_view_thm md h n len data s o src b off a A : disciplined_run md h (astart n len data) ->
  arun md h (astart n len data) = Ok s ->
  s_obj s (S o) = Some a -> a_alloc a = true -> a_v a = Some (b, 0) ->
  s_obj s (S src) = Some A -> a_v A = Some (b, off) -> o <> src -> a_size a <> a_size A -> 0 < a_size A ->
  astep md (OAssign o src) s = Fail UseAfterFree.
Proof.
  intros H E Ea Al Va EA VA Ne Es Hp.
  pose proof (run_dis n md h _ (start_dis n len data) H) as G. rewrite E in G. destruct G as [D _].
  assert (Ob : owns s (S o) b) by (exists a; auto).
  destruct (i_own _ _ _ (d_inv _ _ D) _ _ Ea Al) as (b0 & k & l & V0 & B0 & K0 & Lb). rewrite Va in V0. inversion V0; subst b0.
  assert (Hn : n <= b). { destruct (le_lt_dec n b); auto. destruct (i_usr _ _ _ (d_inv _ _ D) b) as (l' & El); auto. rewrite El in B0. inversion B0; congruence. }
  cbn [astep]. unfold Assign. rewrite Ea, EA. destruct (Nat.eqb_spec (a_size a) (a_size A)); [tauto|].
  pose proof (dealloc_dis n md s (S o) D) as Dd. pose proof (dealloc_res md (S o) s) as Rd.
  destruct (Deallocate md (S o) s) as [s0|[]|] eqn:Ed; simpl in Dd; try tauto. clear Rd.
  destruct Dd as (D0 & N0 & O0 & A0 & Da0 & Nx0 & Bk0). destruct (A0 a Ea) as (a0 & E0 & Sz0 & _). cbn [andthen].
  assert (F : s_blk s0 b = Some Freed).
  { destruct (s_blk s0 b) as [[k' l'|]|] eqn:Eb; auto.
    - exfalso. destruct (d_live _ _ D0 b k' l' Hn Eb) as (o' & x & Ex & Ax & Vx). destruct (Nat.eq_dec o' (S o)) as [->|No].
      + rewrite (N0 x Ex) in Ax. discriminate.
      + apply No. apply (i_uni _ _ _ (d_inv _ _ D) o' (S o) b); [|exact Ob]. rewrite O0 in Ex by auto. exists x; auto.
    - exfalso. apply (i_old _ _ _ (d_inv _ _ D0) b); auto. lia. }
  pose proof (allocate_dis n md s0 (S o) (a_size A) false a0 D0 N0 E0) as Al2.
  assert (Al' := Al2 ltac:(unfold nonempty_if; discriminate)). clear Al2. pose proof (allocate_res md (S o) (a_size A) false s0) as Rd.
  destruct (Allocate md (S o) (a_size A) false s0) as [s1|[]|] eqn:El; simpl in Al'; try tauto. clear Rd.
  destruct Al' as (D1 & E1 & O1 & Nx1 & B1 & Da1). cbn [andthen]. unfold Load1.
  rewrite E1, O1, O0, EA by congruence. cbn [a_size a_v]. rewrite VA. destruct (a_size A) as [|m]; [lia|]. cbn [copy_elts]. unfold rd_elt at 1.
  rewrite B1. destruct (Nat.eqb_spec b (s_next s0)); [lia|]. rewrite F. reflexivity.
Qed.
Lemma empty_aligned_thm nd : arun (mkmode nd false) [NewN 0 0 true; ODestroy 0] (astart 0 (fun _ => 0) (fun _ _ => None)) = Fail BadDestroy /\
  exists s, arun (mkmode nd true) [NewN 0 0 true; ODestroy 0] (astart 0 (fun _ => 0) (fun _ _ => None)) = Ok s /\ s_frees s 0 = 1.
Proof. destruct nd; split; try reflexivity; eexists; split; reflexivity. Qed.
Lemma grow_aligned_thm ah n k : 0 < n -> arun (mkmode false ah) [NewN 0 n true; OAllocate 0 (n + S k) true] (astart 0 (fun _ => 0) (fun _ _ => None)) = Fail BadDestroy.
Proof.
  intros. destruct ah; cbn; destruct (Nat.leb_spec (n + S k) n); try lia; rewrite ?andb_false_r; reflexivity.
Qed.
(** swaparray on array1 exchanges the two arrays *)
Lemma swap_exchanges_thm md s a b xa xb : a <> b -> s_obj s (S a) = Some xa -> s_obj s (S b) = Some xb ->
  exists s' ya yb, astep md (OSwap a b) s = Ok s' /\ s_obj s' (S a) = Some ya /\ s_obj s' (S b) = Some yb /\
    a_v ya = a_v xb /\ a_size ya = a_size xb /\ a_v yb = a_v xa /\ a_size yb = a_size xa /\ s_data s' = s_data s.
Proof.
  intros Ne Ea Eb. simpl. unfold have2. rewrite Ea, Eb.
  unfold swaparray, DimensionA, Destroy, Deallocate. simpl. rewrite Ea. simpl. rewrite Ea, Eb. simpl.
  destruct (Nat.eqb_spec b a); [congruence|]. rewrite Eb. simpl.
  eexists _, _, _. split; [reflexivity|]. simpl. destruct (Nat.eqb_spec a b); [congruence|]. rewrite !Nat.eqb_refl. simpl. repeat split.
Qed.

(** ** Aligned allocation *)
Section AlignP.
Open Scope Z_scope.
Lemma pow2_of_land a : 0 < a -> Z.land a (a - 1) = 0 -> exists k, 0 <= k /\ a = 2 ^ k.
Proof.
  intros H L. exists (Z.log2 a). split; [apply Z.log2_nonneg|].
  destruct (Z.log2_spec a H) as [L1 L2]. destruct (Z.eq_dec a (2 ^ Z.log2 a)) as [|N]; auto. exfalso.
  assert (L3 : Z.log2 (a - 1) = Z.log2 a) by (apply Z.log2_unique; [apply Z.log2_nonneg|lia]).
  assert (B : Z.testbit (Z.land a (a - 1)) (Z.log2 a) = true).
  { rewrite Z.land_spec, Z.bit_log2 by lia. rewrite <- L3, Z.bit_log2; [reflexivity|].
    assert (0 < 2 ^ Z.log2 a) by (apply Z.pow_pos_nonneg; [lia|apply Z.log2_nonneg]). lia. }
  rewrite L, Z.bits_0 in B. discriminate.
Qed.
Lemma land_lnot x k : 0 <= k -> Z.land x (Z.lnot (2 ^ k - 1)) = 2 ^ k * (x / 2 ^ k).
Proof.
  intros. rewrite <- Z.ldiff_land. replace (2 ^ k - 1) with (Z.ones k) by (rewrite Z.ones_equiv; lia).
  rewrite Z.ldiff_ones_r by auto. rewrite Z.shiftl_mul_pow2, Z.shiftr_div_pow2 by auto. ring.
Qed.
Lemma memalign_thm w malloc alignment size : 0 < w -> 0 < alignment -> 0 <= size -> alignment mod w = 0 -> Z.land alignment (alignment - 1) = 0 ->
  let p0 := malloc (size + alignment) in 0 <= p0 -> p0 mod w = 0 ->
  match posix_memalign0 w malloc alignment size with
  | EINVAL => False
  | ENOMEM => p0 = 0
  | Aligned p stored_at stored =>
      p mod alignment = 0 /\ p0 <= stored_at /\ stored_at + w <= p /\ p + size <= p0 + (size + alignment) /\
      free0 p stored = Some p0
  end.
Proof.
  intros Hw Ha Hs Hm Hp p0 H0 Hm0. unfold posix_memalign0. rewrite Hm, Hp. cbn [negb orb Z.eqb]. cbv zeta. fold p0.
  destruct (Z.eqb_spec p0 0); auto.
  destruct (pow2_of_land alignment Ha Hp) as (k & Hk & ->). rewrite land_lnot by auto. set (al := 2 ^ k) in *.
  pose proof (Z.div_mod (p0 + al) al ltac:(lia)) as DM. pose proof (Z.mod_pos_bound (p0 + al) al Ha) as MB.
  set (p := al * ((p0 + al) / al)) in *.
  assert (Hr : ((p0 + al) mod al) mod w = 0).
  { rewrite <- Znumtheory.Zmod_div_mod; auto; [|apply Z.mod_divide; lia]. rewrite Z.add_mod, Hm0, Hm by lia. reflexivity. }
  assert (Hd : exists c, al = c * w) by (exists (al / w); rewrite Z.mul_comm; apply Z.div_exact; lia). destruct Hd as (c & Hc).
  assert (Hd' : exists c', (p0 + al) mod al = c' * w).
  { exists (((p0 + al) mod al) / w). rewrite Z.mul_comm. apply Z.div_exact; lia. }
  destruct Hd' as (c' & Hc').
  assert (w <= al - (p0 + al) mod al).
  { rewrite Hc'. rewrite Hc' in MB. clear - MB Hc Hw. set (x := al) in *. clearbody x. subst x. assert (c' < c) by nia. nia. }
  repeat split; try lia.
  - unfold p. rewrite Z.mul_comm. apply Z.mod_mul. lia.
  - unfold free0. destruct (Z.eqb_spec p 0); [lia|reflexivity].
Qed.
Lemma memalign_einval w malloc alignment size : 0 < w -> alignment mod w <> 0 \/ Z.land alignment (alignment - 1) <> 0 ->
  posix_memalign0 w malloc alignment size = EINVAL.
Proof.
  intros Hw H. unfold posix_memalign0. destruct (Z.eqb_spec (alignment mod w) 0), (Z.eqb_spec (Z.land alignment (alignment - 1)) 0); simpl; auto. tauto.
Qed.
Lemma memalign_zero w malloc size : 0 < w -> malloc size <> 0 -> posix_memalign0 w malloc 0 size = Aligned 0 (- w) (malloc size).
Proof.
  intros Hw Hm. unfold posix_memalign0. rewrite Z.mod_0_l by lia. simpl. rewrite Z.add_0_r. destruct (Z.eqb_spec (malloc size) 0); [tauto|].
  rewrite Z.land_0_r. reflexivity.
Qed.
Lemma ceilq_spec a b : 0 < b -> 0 <= a -> let q := ceilquotient a b in (q - 1) * b < a <= q * b \/ (a = 0 /\ q = 0).
Proof.
  intros Hb Ha q. unfold q, ceilquotient. pose proof (Z.div_mod (a + b - 1) b ltac:(lia)). pose proof (Z.mod_pos_bound (a + b - 1) b Hb).
  set (d := (a + b - 1) / b) in *. clearbody d. left. nia.
Qed.
Lemma buffers_thm sz ALIGNMENT n size B : 0 < sz -> 0 < ALIGNMENT -> 0 < n -> 0 < size -> B mod ALIGNMENT = 0 ->
  let buf := ComplexAlign_buf sz ALIGNMENT size B in
  let top := B + sz * ComplexAlign_len ALIGNMENT n size in
  (forall i, 0 <= i < n -> buf i mod ALIGNMENT = 0 /\ B <= buf i /\ buf i + sz * size <= top) /\
  (forall i j, 0 <= i < j -> j < n -> buf i + sz * size <= buf j) /\ buf 0 = B.
Proof.
  intros Hs Ha Hn Hz HB buf top. unfold buf, top, ComplexAlign_buf, ComplexAlign_len.
  set (q := ceilquotient size ALIGNMENT).
  assert (Q : size <= q * ALIGNMENT). { pose proof (ceilq_spec size ALIGNMENT Ha ltac:(lia)) as Q. cbv zeta in Q. fold q in Q. lia. }
  assert (Q0 : 0 <= q). { unfold q, ceilquotient. apply Z.div_pos; lia. }
  clearbody q. split; [|split].
  - intros i Hi. split; [|split].
    + replace (B + i * (ALIGNMENT * q) * sz) with (B + (i * q * sz) * ALIGNMENT) by ring. rewrite Z.mod_add; lia.
    + assert (0 <= i * (ALIGNMENT * q) * sz) by (repeat apply Z.mul_nonneg_nonneg; lia). lia.
    + assert (i * (ALIGNMENT * q) <= (n - 1) * (ALIGNMENT * q)) by (apply Z.mul_le_mono_nonneg_r; nia). nia.
  - intros i j Hi Hj. assert ((i + 1) * (ALIGNMENT * q) <= j * (ALIGNMENT * q)) by (apply Z.mul_le_mono_nonneg_r; nia). nia.
  - ring.
Qed.
Lemma align_thm ALIGNMENT n : 0 < ALIGNMENT -> ALIGNMENT mod 16 = 0 -> 0 <= n ->
  let a := align ALIGNMENT n in
  n <= a /\ (16 * a) mod ALIGNMENT = 0 /\ (forall b, n <= b -> (16 * b) mod ALIGNMENT = 0 -> a <= b).
Proof.
  intros Ha Hm Hn a. unfold a, align. assert (exists c, ALIGNMENT = c * 16 /\ 0 < c) as (c & E & Hc).
  { exists (ALIGNMENT / 16). pose proof (Z.div_mod ALIGNMENT 16 ltac:(lia)). lia. }
  set (q := ceilquotient (n * 16) ALIGNMENT).
  replace (q * ALIGNMENT / 16) with (q * c) by (rewrite E, Z.mul_assoc, Z.div_mul; lia).
  pose proof (ceilq_spec (n * 16) ALIGNMENT Ha ltac:(lia)) as QQ. cbv zeta in QQ. fold q in QQ. clearbody q. destruct QQ as [Q|[Q1 Q2]]; subst ALIGNMENT.
  - split; [nia|]. split.
    + replace (16 * (q * c)) with (q * (c * 16)) by ring. apply Z.mod_mul. lia.
    + intros b Hb Hbm. apply Z.mod_divide in Hbm; [|lia]. destruct Hbm as (d & Hd).
      assert (b = d * c) by nia. assert ((q - 1) * c < d * c) by nia. assert (q - 1 < d) by nia. nia.
  - subst q. split; [lia|]. split; [reflexivity|]. intros. lia.
Qed.
Lemma destroys_thm len k : (In k (alignh_destroys len) <-> 0 <= k < Z.of_nat len) /\ NoDup (alignh_destroys len).
Proof.
  unfold alignh_destroys. induction len; cbn [down_from In]; [split; [lia|constructor]|].
  destruct IHlen as [IH1 IH2]. split.
  - rewrite IH1. lia.
  - constructor; auto. intros H. clear - H. revert H. assert (forall m j, In (Z.of_nat j) (down_from m) -> (j < m)%nat).
    { induction m; simpl; [tauto|]. intros j [E|E]; [lia|]. apply IHm in E. lia. } intros E. apply H in E. lia.
Qed.
Lemma arrayh_destroys_thm len k : 0 < len < 2 ^ 64 -> (arrayh_destroys_index len k <-> 0 <= k < len).
Proof. intros. unfold arrayh_destroys_index, arrayh_first. rewrite Z.mod_small by lia. lia. Qed.
Lemma arrayh_zero : arrayh_destroys_index 0 (2 ^ 64 - 1).
Proof. unfold arrayh_destroys_index, arrayh_first. change ((0 - 1) mod 2 ^ 64) with (2 ^ 64 - 1). lia. Qed.
End AlignP.
Section Shapes.
Open Scope Z_scope.
Lemma eqs_cons a b l : eqs ((a, b) :: l) = true <-> a = b /\ eqs l = true.
Proof. unfold eqs. cbn [forallb fst snd]. rewrite andb_true_iff, Z.eqb_eq. tauto. Qed.
Lemma eqs_nil : eqs [] = true <-> True. Proof. tauto. Qed.
Lemma Array3_accepts_thm nx ny nz a1 a2 a3 :
  Array3_assign_array3_accepts nx ny nz 0 0 0 a1 a2 a3 = true <-> (nx = a1 /\ ny = a2 /\ nz = a3).
Proof. unfold Array3_assign_array3_accepts. rewrite !eqs_cons, eqs_nil. tauto. Qed.
Lemma Array4_accepts_thm nx ny nz nw ox oy oz ow a1 a2 a3 a4 b1 b2 b3 b4 :
  Array4_assign_Array4_accepts nx ny nz nw ox oy oz ow a1 a2 a3 a4 b1 b2 b3 b4 = true <->
  (nx = a1 /\ ny = a2 /\ nz = a3 /\ nw = a4 /\ ox = b1 /\ oy = b2 /\ oz = b3 /\ ow = b4).
Proof. unfold Array4_assign_Array4_accepts. rewrite !eqs_cons, eqs_nil. tauto. Qed.
Lemma Array5_accepts_thm nx ny nz nw nv a1 a2 a3 a4 a5 :
  Array5_assign_array5_accepts nx ny nz nw nv 0 0 0 0 0 a1 a2 a3 a4 a5 = true <->
  (nx = a1 /\ ny = a2 /\ nz = a3 /\ nw = a4 /\ nv = a5).
Proof. unfold Array5_assign_array5_accepts. rewrite !eqs_cons, eqs_nil. tauto. Qed.
Lemma Array4_array4_thm nx ny nz nw : ~ (nx = ny /\ nx = nz /\ nx = nw) ->
  Array4_assign_array4_accepts nx ny nz nw 0 0 0 0 nx ny nz nw = false.
Proof.
  intros H. destruct (Array4_assign_array4_accepts nx ny nz nw 0 0 0 0 nx ny nz nw) eqn:E; auto. exfalso. apply H.
  unfold Array4_assign_array4_accepts in E. rewrite !eqs_cons in E. intuition congruence.
Qed.
Lemma swap3_thm A B nd i j k : t_nx A = t_nx B -> t_ny A = t_ny B -> t_nz A = t_nz B ->
  arr3_at nd (fst (swaparray3 A B)) i j k = arr3_at nd B i j k /\ arr3_at nd (snd (swaparray3 A B)) i j k = arr3_at nd A i j k.
Proof. intros E1 E2 E3. unfold arr3_at, swaparray3, Dimension3. simpl. rewrite E1, E2, E3. auto. Qed.
Lemma swap3_wrong A B : 0 < t_nx A -> 0 < t_ny A -> 0 < t_nz A -> t_nx A <= t_nx B -> t_ny A <= t_ny B -> t_nz B > t_nz A -> t_ny A > 1 ->
  exists i j k, in_box [t_nx B; t_ny B; t_nz B] [0; 0; 0] [i; j; k] /\
    arr3_at true (fst (swaparray3 A B)) i j k <> arr3_at true B i j k.
Proof.
  intros. exists 0, 1, 0. split; [cbn [in_box]; lia|]. unfold arr3_at, swaparray3, Dimension3, array3_at, chk. cbn [fst t_v t_nx t_ny t_nz].
  intros E. assert (E1 := f_equal (fun a => match a with At k => k | Exited => 0 end) E). cbv beta iota in E1. clear E. lia.
Qed.
End Shapes.
