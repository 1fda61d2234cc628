(** Disciplined histories: exactly-once deallocation. *)
From Coq Require Import Arith ZArith List Bool Lia.
Import ListNotations.
From Verif Require Import ArrayModel ArraySpec ArrayOwn.

Ltac csplit := repeat match goal with |- _ /\ _ => split end.
Section Disc.
Variable n0 : nat.
Definition Inv0 := Inv n0 (fun _ => False).
Record Dis (s : ast) : Prop := mkDis {
  d_inv : Inv0 s;
  d_al : forall o a, s_obj s o = Some a -> a_align a = true -> a_alloc a = true;
  d_kind : forall o a, s_obj s o = Some a -> a_alloc a = true ->
     exists b, a_v a = Some (b, 0) /\ s_blk s b = Some (Live (if a_align a then KAligned else KNew) (a_size a)) /\
               (a_align a = true -> 0 < a_size a);
  d_live : forall b k l, n0 <= b -> s_blk s b = Some (Live k l) -> exists o, owns s o b }.

Definition good2 (P : ast -> Prop) (r : res) : Prop :=
  match r with Ok s => P s | Fail OutOfBounds | Fail UseAfterFree | Stop => True | Fail _ => False end.
Lemma good2_then P Q r f : good2 P r -> (forall s, P s -> good2 Q (f s)) -> good2 Q (andthen r f).
Proof. destruct r as [s|[]|]; simpl; auto. Qed.
Lemma good2_mono (P Q : ast -> Prop) r : (forall s, P s -> Q s) -> good2 P r -> good2 Q r.
Proof. destruct r as [s|[]|]; simpl; auto. Qed.

Definition nown (s : ast) (o : nat) : Prop := forall a, s_obj s o = Some a -> a_alloc a = false.

Lemma dis_put_nonown s o a : Dis s -> nown s o -> (forall a', a = Some a' -> a_alloc a' = false /\ a_align a' = false) ->
  Dis (put_obj s o a).
Proof.
  intros D N H. destruct D. constructor.
  - apply inv_put_nonown; auto. intros a' E. apply H; auto.
  - intros o' a' E Al. rewrite put_obj_obj in E. destruct (Nat.eqb_spec o' o); [|eauto]. apply H in E. destruct E; congruence.
  - intros o' a' E Al. rewrite put_obj_obj in E. destruct (Nat.eqb_spec o' o); [|simpl; eauto]. apply H in E. destruct E; congruence.
  - intros b k l Hb Hl. destruct (d_live0 b k l Hb Hl) as (o' & x & Ex & Ax & Vx).
    exists o', x. rewrite put_obj_obj. destruct (Nat.eqb_spec o' o); auto. subst. rewrite (N x Ex) in Ax. discriminate.
Qed.

Lemma dealloc_dis md s o : Dis s -> good2 (fun s' => Dis s' /\ nown s' o /\
    (forall o', o' <> o -> s_obj s' o' = s_obj s o') /\
    (forall a, s_obj s o = Some a -> exists a', s_obj s' o = Some a' /\ a_size a' = a_size a /\ (a_alloc a = true -> a_temp a' = false)) /\
    s_data s' = s_data s /\ s_next s' = s_next s /\
    (forall b, ~ owns s o b -> s_blk s' b = s_blk s b)) (Deallocate md o s).
Proof.
  intros D. unfold Deallocate. destruct (s_obj s o) as [a|] eqn:E.
  2:{ simpl. csplit; auto; intros x H; congruence. }
  destruct (a_alloc a) eqn:Al.
  2:{ simpl. csplit; auto. - intros x H; congruence. - intros x H. inversion H; subst. exists x. csplit; auto. congruence. }
  destruct (d_kind s D o a E Al) as (b & V & B & P).
  assert (R : (if a_align a then deleteAlign md (a_v a) (a_size a) s else free_blk KNew (a_v a) s) =
              Ok (count_free (put_blk s b (Some Freed)) b)).
  { rewrite V. destruct (a_align a) eqn:A; unfold deleteAlign, free_blk, destroys_ok; rewrite ?B; simpl; auto.
    specialize (P eq_refl). rewrite Nat.leb_refl. destruct (Nat.ltb_spec 0 (a_size a)); [|lia]. destruct (alignh md); reflexivity. }
  rewrite R. cbn [andthen good2].
  assert (Ob : owns s o b) by (exists a; auto).
  csplit; [constructor| | | | | | ]; auto.
  - eapply inv_free; eauto. apply D.
  - intros o' x Ex Ax. rewrite put_obj_obj in Ex. destruct (Nat.eqb_spec o' o); [inversion Ex; subst; discriminate|].
    eapply (d_al s D); eauto.
  - intros o' x Ex Ax. rewrite put_obj_obj in Ex. destruct (Nat.eqb_spec o' o); [inversion Ex; subst; discriminate|].
    destruct (d_kind s D o' x Ex Ax) as (b1 & V1 & B1 & P1). exists b1. simpl. destruct (Nat.eqb_spec b1 b); auto.
    subst. exfalso. apply n. eapply (i_uni n0 _ s (d_inv s D)); [exists x; eauto|auto].
  - intros b' k l Hb Hl. simpl in Hl. destruct (Nat.eqb_spec b' b); [discriminate|].
    destruct (d_live s D b' k l Hb Hl) as (o' & x & Ex & Ax & Vx). exists o', x. rewrite put_obj_obj.
    destruct (Nat.eqb_spec o' o); auto. subst. rewrite E in Ex. inversion Ex; subst. congruence.
  - intros x Hx. rewrite put_obj_obj, Nat.eqb_refl in Hx. inversion Hx; reflexivity.
  - intros o' Ne. rewrite put_obj_obj. destruct (Nat.eqb_spec o' o); [congruence|]. reflexivity.
  - intros x Hx. rewrite put_obj_obj, Nat.eqb_refl. inversion Hx; subst. eexists. repeat split.
  - intros b' Nb. simpl. destruct (Nat.eqb_spec b' b); auto. subst. tauto.
Qed.

Lemma activate_dis s o al a : Dis s -> s_obj s o = Some a -> a_alloc a = false -> (al = true -> 0 < a_size a) ->
  exists s', Activate o al s = Ok s' /\ Dis s' /\ s_obj s' o = Some (mkarr (Some (s_next s, 0)) (a_size a) true (a_temp a) al) /\
    (forall o', o' <> o -> s_obj s' o' = s_obj s o') /\ s_next s' = S (s_next s) /\
    (forall b, s_blk s' b = if b =? s_next s then Some (Live (if al then KAligned else KNew) (a_size a)) else s_blk s b) /\
    (forall b, b <> s_next s -> s_data s' b = s_data s b).
Proof.
  intros D E N P. destruct (activate_inv n0 _ s o al a (d_inv s D) E) as (s' & R & I & E' & O & Nx & B & F & Da).
  assert (G : a_align a = false). { destruct (a_align a) eqn:A; auto. rewrite (d_al s D o a E A) in N. discriminate. }
  rewrite G, orb_false_r in E'.
  exists s'. csplit; [auto|constructor|..]; auto.
  - intros o' x Ex Ax. destruct (Nat.eq_dec o' o) as [->|Ne]; [rewrite E' in Ex; inversion Ex; reflexivity|].
    rewrite O in Ex by auto. eapply (d_al s D); eauto.
  - intros o' x Ex Ax. destruct (Nat.eq_dec o' o) as [->|Ne].
    + rewrite E' in Ex. inversion Ex; subst. simpl. exists (s_next s). rewrite B, Nat.eqb_refl. auto.
    + rewrite O in Ex by auto. destruct (d_kind s D o' x Ex Ax) as (b1 & V1 & B1 & P1). exists b1. rewrite B.
      destruct (Nat.eqb_spec b1 (s_next s)); auto. subst. rewrite (i_new n0 _ s (d_inv s D)) in B1 by lia. discriminate.
  - intros b k l Hb Hl. rewrite B in Hl. destruct (Nat.eqb_spec b (s_next s)) as [->|].
    + exists o. eexists. split; [exact E'|]. auto.
    + destruct (d_live s D b k l Hb Hl) as (o' & x & Ex & Ax & Vx). exists o', x. rewrite O; auto. intros ->. congruence.
Qed.

Lemma dimension_dis s o n : Dis s -> nown s o -> good2 (fun s' => Dis s' /\ nown s' o /\
    (forall a, s_obj s' o = Some a -> a_size a = n) /\
    (forall o', o' <> o -> s_obj s' o' = s_obj s o') /\ s_data s' = s_data s /\ s_next s' = s_next s /\ s_blk s' = s_blk s /\
    (forall a, s_obj s o = Some a -> exists a', s_obj s' o = Some a' /\ a_temp a' = a_temp a)) (Dimension o n s).
Proof.
  intros D N. unfold Dimension. destruct (s_obj s o) as [a|] eqn:E.
  2:{ simpl. csplit; auto; try congruence; intros; congruence. }
  simpl. pose proof (N a E) as Al.
  assert (G : a_align a = false). { destruct (a_align a) eqn:A; auto. rewrite (d_al s D o a E A) in Al. discriminate. }
  assert (Dis (put_obj s o (Some (mkarr (a_v a) n (a_alloc a) (a_temp a) (a_align a))))).
  { apply dis_put_nonown; auto. intros a' H; inversion H; subst; simpl. rewrite Al, G. auto. }
  split; auto. unfold nown. simpl. rewrite Nat.eqb_refl. csplit; try reflexivity.
  - intros x H1; inversion H1; auto.
  - intros x H1; inversion H1; auto.
  - intros o' Ne. destruct (Nat.eqb_spec o' o); congruence.
  - intros x H1. eexists. split; [reflexivity|]. inversion H1; auto.
Qed.

Lemma allocate_dis md s o n al a : Dis s -> nown s o -> s_obj s o = Some a -> nonempty_if al n ->
  good2 (fun s' => Dis s' /\ s_obj s' o = Some (mkarr (Some (s_next s, 0)) n true (a_temp a) al) /\
    (forall o', o' <> o -> s_obj s' o' = s_obj s o') /\ s_next s' = S (s_next s) /\
    (forall b, s_blk s' b = if b =? s_next s then Some (Live (if al then KAligned else KNew) n) else s_blk s b) /\
    (forall b, b <> s_next s -> s_data s' b = s_data s b)) (Allocate md o n al s).
Proof.
  intros D N E P. unfold Allocate.
  eapply good2_then; [apply (dimension_dis s o n D N)|].
  intros s1 (D1 & N1 & Z1 & O1 & Da1 & Nx1 & B1 & T1).
  destruct (T1 a E) as (a1 & E1 & Te1).
  assert (A : forall s2, s2 = s1 -> good2 (fun s' => Dis s' /\ s_obj s' o = Some (mkarr (Some (s_next s, 0)) n true (a_temp a) al) /\
    (forall o', o' <> o -> s_obj s' o' = s_obj s o') /\ s_next s' = S (s_next s) /\
    (forall b, s_blk s' b = if b =? s_next s then Some (Live (if al then KAligned else KNew) n) else s_blk s b) /\
    (forall b, b <> s_next s -> s_data s' b = s_data s b)) (Activate o al s2)).
  { intros s2 ->. destruct (activate_dis s1 o al a1 D1 E1 (N1 a1 E1)) as (s' & R & D' & E' & O' & Nx' & B' & Da').
    { rewrite (Z1 a1 E1). exact P. }
    rewrite R. simpl. rewrite (Z1 a1 E1), Nx1, Te1 in *. rewrite B1, Da1 in *.
    csplit; auto. intros o' Ne. rewrite O', O1; auto. }
  unfold checkActivate. destruct (ndebug md); [apply A; auto|].
  unfold Deallocate. rewrite E1, (N1 a1 E1). simpl. apply A; auto.
Qed.

Lemma same_dis s s' : same_shape s s' -> Dis s -> Dis s'.
Proof.
  intros Sh D. pose proof (same_inv n0 _ s s' Sh (d_inv s D)) as I. destruct Sh as (E1 & E2 & E3 & E4), D.
  constructor; unfold owns in *; rewrite ?E1, ?E2, ?E3, ?E4; auto.
Qed.
Lemma load_dis s o a : Dis s -> good2 (fun s' => Dis s' /\ same_shape s s') (Load1 o a s).
Proof.
  intros I. assert (same_shape s s) by (repeat split; auto).
  unfold Load1. destruct (s_obj s o) as [x|], (s_obj s a) as [y|]; try (split; auto; fail).
  pose proof (copy_shape (a_size x) (a_v x) (a_v y) 0 s) as C.
  destruct (copy_elts (a_size x) (a_v x) (a_v y) 0 s) as [s'|e|]; simpl; auto.
  - split; auto. eapply same_dis; eauto.
  - destruct C; subst; auto.
Qed.
Lemma purge_dis md s o : Dis s -> good2 Dis (Purge md o s).
Proof.
  intros D. unfold Purge. destruct (s_obj s o) as [a|] eqn:E; [|exact D]. destruct (a_temp a); [|exact D].
  eapply good2_then; [apply (dealloc_dis md s o D)|]. intros s' (D' & N' & _). unfold Freeze.
  destruct (s_obj s' o); [|exact D']. apply dis_put_nonown; auto. intros x H; inversion H; auto.
Qed.
Lemma dimensionA_dis s o a : Dis s -> nown s o -> exists s', DimensionA o a s = Ok s' /\ Dis s' /\ nown s' o /\
  (forall o', o' <> o -> s_obj s' o' = s_obj s o').
Proof.
  intros D N. unfold DimensionA. destruct (s_obj s o) eqn:E, (s_obj s a) eqn:E'; try (exists s; auto; fail).
  eexists. split; [reflexivity|]. split; [|split].
  - apply dis_put_nonown; auto. intros a' H; inversion H; auto.
  - intros x H. rewrite put_obj_obj, Nat.eqb_refl in H. inversion H; auto.
  - intros o' Ne. rewrite put_obj_obj. destruct (Nat.eqb_spec o' o); congruence.
Qed.
Definition Dt (s : ast) := Dis s /\ s_obj s tmp = None.
Lemma destroy_dis md s o : Dis s -> good2 (fun s' => Dis s' /\ s_obj s' o = None /\ forall o', o' <> o -> s_obj s' o' = s_obj s o') (Destroy md o s).
Proof.
  intros D. unfold Destroy. eapply good2_then; [apply (dealloc_dis md s o D)|]. intros s' (D' & N' & O' & _).
  simpl. rewrite Nat.eqb_refl. split; [apply (dis_put_nonown s' o None D' N'); discriminate|split; [reflexivity|]].
  intros o' Ne. destruct (Nat.eqb_spec o' o); [congruence|auto].
Qed.
(** keeping track of an object name that never owns (locals of swaparray) *)
Lemma nown_other s s' o : (s_obj s' o = s_obj s o) -> nown s o -> nown s' o.
Proof. unfold nown. intros ->. auto. Qed.

Lemma tmp_frame {s s' o} : s_obj s tmp = None -> (forall o', o' <> S o -> s_obj s' o' = s_obj s o') -> s_obj s' tmp = None.
Proof. intros T O. rewrite O; [auto|discriminate]. Qed.

Lemma shift_dis md a b c s : Dt s -> nown s (S a) -> nown s (S b) -> nown s (S c) ->
  good2 Dt (leftshiftarray md (S a) (S b) (S c) s).
Proof.
  intros [D T] Na Nb Nc. unfold leftshiftarray.
  assert (D0 : Dis (put_obj s tmp (Some fresh_arr))).
  { apply dis_put_nonown; auto. - intros x H; congruence. - intros x H; inversion H; auto. }
  assert (N0 : forall k, nown s (S k) -> nown (put_obj s tmp (Some fresh_arr)) (S k)) by (intros k H x; apply H).
  assert (Nt : nown (put_obj s tmp (Some fresh_arr)) tmp) by (intros x H; inversion H; auto).
  destruct (dimensionA_dis _ tmp (S a) D0 Nt) as (s1 & -> & D1 & Nt1 & O1). cbn [andthen].
  assert (N1 : forall k, nown s (S k) -> nown s1 (S k)) by (intros k H; apply (nown_other _ _ _ (O1 (S k) ltac:(discriminate))); auto).
  destruct (dimensionA_dis s1 (S a) (S b) D1 (N1 a Na)) as (s2 & -> & D2 & Na2 & O2). cbn [andthen].
  assert (N2 : forall k, nown s (S k) -> nown s2 (S k)).
  { intros k H. destruct (Nat.eq_dec (S k) (S a)) as [->|Ne]; auto. apply (nown_other _ _ _ (O2 (S k) Ne)); auto. }
  destruct (dimensionA_dis s2 (S b) (S c) D2 (N2 b Nb)) as (s3 & -> & D3 & Nb3 & O3). cbn [andthen].
  assert (N3 : forall k, nown s (S k) -> nown s3 (S k)).
  { intros k H. destruct (Nat.eq_dec (S k) (S b)) as [->|Ne]; auto. apply (nown_other _ _ _ (O3 (S k) Ne)); auto. }
  destruct (dimensionA_dis s3 (S c) tmp D3 (N3 c Nc)) as (s4 & -> & D4 & Nc4 & O4). cbn [andthen].
  eapply good2_mono; [|apply (destroy_dis md s4 tmp D4)]. intros s' (Ds & Ts & _). split; auto.
Qed.
Lemma swap_dis md a b s : Dt s -> nown s (S a) -> nown s (S b) -> good2 Dt (swaparray md (S a) (S b) s).
Proof.
  intros [D T] Na Nb. unfold swaparray.
  assert (D0 : Dis (put_obj s tmp (Some fresh_arr))).
  { apply dis_put_nonown; auto. - intros x H; congruence. - intros x H; inversion H; auto. }
  assert (N0 : forall k, nown s (S k) -> nown (put_obj s tmp (Some fresh_arr)) (S k)) by (intros k H x; apply H).
  assert (Nt : nown (put_obj s tmp (Some fresh_arr)) tmp) by (intros x H; inversion H; auto).
  destruct (dimensionA_dis _ tmp (S a) D0 Nt) as (s1 & -> & D1 & Nt1 & O1). cbn [andthen].
  assert (N1 : forall k, nown s (S k) -> nown s1 (S k)) by (intros k H; apply (nown_other _ _ _ (O1 (S k) ltac:(discriminate))); auto).
  destruct (dimensionA_dis s1 (S a) (S b) D1 (N1 a Na)) as (s2 & -> & D2 & Na2 & O2). cbn [andthen].
  assert (N2 : forall k, nown s (S k) -> nown s2 (S k)).
  { intros k H. destruct (Nat.eq_dec (S k) (S a)) as [->|Ne]; auto. apply (nown_other _ _ _ (O2 (S k) Ne)); auto. }
  destruct (dimensionA_dis s2 (S b) tmp D2 (N2 b Nb)) as (s3 & -> & D3 & Nb3 & O3). cbn [andthen].
  eapply good2_mono; [|apply (destroy_dis md s3 tmp D3)]. intros s' (Ds & Ts & _). split; auto.
Qed.

Lemma not_owner_nown s o : not_owner s o -> nown s (S o).
Proof. auto. Qed.

Lemma dt_put s o a : Dt s -> nown s (S o) -> (forall a', a = Some a' -> a_alloc a' = false /\ a_align a' = false) -> Dt (put_obj s (S o) a).
Proof. intros [D T] N H. split; [apply dis_put_nonown; auto|exact T]. Qed.
Lemma dt_allocate md s o n al a : Dt s -> nown s (S o) -> s_obj s (S o) = Some a -> nonempty_if al n -> good2 Dt (Allocate md (S o) n al s).
Proof.
  intros [D T] N E P. eapply good2_mono; [|apply (allocate_dis md s (S o) n al a D N E P)].
  intros s' (D' & _ & O & _). split; auto. apply (tmp_frame T O).
Qed.
Lemma dt_allocate0 md s o n al : Dt s -> nown s (S o) -> nonempty_if al n -> good2 Dt (Allocate md (S o) n al s).
Proof.
  intros D N P. destruct (s_obj s (S o)) as [a|] eqn:E; [eapply dt_allocate; eauto|].
  unfold Allocate, Dimension. rewrite E. simpl. unfold checkActivate, Deallocate, Activate.
  destruct (ndebug md); rewrite ?E; simpl; rewrite ?E; exact D.
Qed.
Lemma dt_dealloc md s o : Dt s -> good2 (fun s' => Dt s' /\ nown s' (S o) /\ forall a, s_obj s (S o) = Some a -> exists a', s_obj s' (S o) = Some a') (Deallocate md (S o) s).
Proof.
  intros [D T]. eapply good2_mono; [|apply (dealloc_dis md s (S o) D)].
  intros s' (D' & N & O & A & _). split; [split; auto; apply (tmp_frame T O)|]. split; auto.
  intros a E. destruct (A a E) as (a' & E' & _). eauto.
Qed.
Lemma dt_purge md s o : Dt s -> good2 Dt (Purge md (S o) s).
Proof.
  intros D. unfold Purge. destruct (s_obj s (S o)) as [a|] eqn:E; [|exact D]. destruct (a_temp a); [|exact D].
  eapply good2_then; [apply (dt_dealloc md s o D)|]. intros s' (D' & N' & _). unfold Freeze.
  destruct (s_obj s' (S o)); [|exact D']. apply dt_put; auto. intros x H; inversion H; auto.
Qed.

Lemma step_dis md op s : Dt s -> disciplined op s -> good2 Dt (astep md op s).
Proof.
  intros D H. destruct op; simpl in *; unfold construct, have2, have3.
  - destruct (s_obj s (S o)) eqn:E; [exact D|]. apply dt_put; auto; [intros x Hx; congruence|intros x Hx; inversion Hx; auto].
  - destruct (s_obj s (S o)) eqn:E; [exact D|].
    assert (D1 : Dt (put_obj s (S o) (Some fresh_arr))).
    { apply dt_put; auto; [intros x Hx; congruence|intros x Hx; inversion Hx; auto]. }
    apply dt_allocate0; auto. intros x Hx. rewrite put_obj_obj, Nat.eqb_refl in Hx. inversion Hx; auto.
  - destruct (s_obj s (S o)) eqn:E; [exact D|]. apply dt_put; auto; [intros x Hx; congruence|intros x Hx; inversion Hx; auto].
  - destruct (s_obj s (S o)) eqn:E; [exact D|]. destruct (s_obj s (S a)); [|exact D]. apply dt_put; auto; [intros x Hx; congruence|intros x Hx; inversion Hx; auto].
  - destruct (s_obj s (S o)) eqn:E; [exact D|]. destruct (s_obj s (S a)); [|exact D]. apply dt_put; auto; [intros x Hx; congruence|intros x Hx; inversion Hx; auto].
  - apply dt_allocate0; [exact D|apply H|apply H].
  - eapply good2_then; [apply (dt_dealloc md s o D)|]. intros s' (D' & N' & _). apply dt_allocate0; auto.
  - eapply good2_mono; [|apply (dt_dealloc md s o D)]. intros s' H'; apply H'.
  - eapply good2_mono; [|apply (dimension_dis s (S o) n (proj1 D) H)]. intros s' (D' & N' & _ & O' & _).
    split; auto. apply (tmp_frame (proj2 D) O').
  - unfold DimensionV. destruct (s_obj s (S o)) as [a|] eqn:E; [|exact D].
    assert (G : a_align a = false). { destruct (a_align a) eqn:A; auto. pose proof (H a E). rewrite (d_al s (proj1 D) _ a E A) in *. discriminate. }
    apply dt_put; [exact D|exact H|intros x Hx; inversion Hx; auto].
  - destruct (dimensionA_dis s (S o) (S a) (proj1 D) H) as (s' & -> & D' & _ & O'). split; auto. apply (tmp_frame (proj2 D) O').
  - unfold SetV. destruct (s_obj s (S o)) as [a|] eqn:E; [|exact D].
    assert (G : a_align a = false). { destruct (a_align a) eqn:A; auto. pose proof (H a E). rewrite (d_al s (proj1 D) _ a E A) in *. discriminate. }
    apply dt_put; [exact D|exact H|intros x Hx; inversion Hx; auto].
  - unfold Freeze. destruct (s_obj s (S o)) as [a|] eqn:E; [|exact D].
    apply dt_put; [exact D|exact H|intros x Hx; inversion Hx; auto].
  - unfold Hold. destruct (s_obj s (S o)) as [a|] eqn:E; [|exact D]. rewrite (H a E). exact D.
  - apply dt_purge, D.
  - destruct (s_obj s (S a)), (s_obj s (S b)); try exact D. apply swap_dis; tauto.
  - destruct (s_obj s (S a)), (s_obj s (S b)), (s_obj s (S c)); try exact D. apply shift_dis; tauto.
  - destruct (s_obj s (S a)), (s_obj s (S b)), (s_obj s (S c)); try exact D.
    apply (shift_dis md c b a); tauto.
  - unfold Assign. destruct (s_obj s (S o)) as [x|] eqn:E, (s_obj s (S a)) as [y|]; try exact D.
    apply good2_then with (P := Dt).
    + destruct (a_size x =? a_size y); [exact D|].
      eapply good2_then; [apply (dt_dealloc md s o D)|]. intros s' (D' & N' & _). apply dt_allocate0; auto. discriminate.
    + intros s' D'. eapply good2_then; [apply (load_dis s' (S o) (S a) (proj1 D'))|].
      intros s2 (D2 & Sh). apply dt_purge. split; auto. destruct Sh as (-> & _). apply D'.
  - unfold Get. destruct (s_obj s (S o)) as [a|]; [|exact D].
    destruct (negb (ndebug md) && (a_size a <=? i)); [exact Logic.I|].
    unfold rd_elt. destruct (a_v a) as [[b off]|]; [|exact Logic.I].
    destruct (s_blk s b) as [[k l|]|]; try exact Logic.I. destruct (off + i <? l); [exact D|exact Logic.I].
  - unfold Put. destruct (s_obj s (S o)) as [a|]; [|exact D].
    destruct (negb (ndebug md) && (a_size a <=? i)); [exact Logic.I|].
    pose proof (wr_shape s (a_v a) i (Some x)) as W. destruct (wr_elt s (a_v a) i (Some x)) as [s'|e|]; simpl; auto; [|destruct W; subst; auto].
    split; [eapply same_dis; [eauto|apply D]|]. destruct W as (-> & _). apply D.
  - destruct (s_obj s (S o)) eqn:E; [|exact D]. eapply good2_mono; [|apply (destroy_dis md s (S o) (proj1 D))].
    intros s' (D' & _ & O'). split; auto. apply (tmp_frame (proj2 D) O').
Qed.
Lemma run_dis md h : forall s, Dt s -> disciplined_run md h s -> good2 Dt (arun md h s).
Proof.
  induction h as [|op h IH]; intros s D H; simpl; [exact D|]. destruct H as [H1 H2].
  pose proof (step_dis md op s D H1) as S1. destruct (astep md op s) as [s'|[]|]; simpl in *; auto.
Qed.
End Disc.
Lemma start_dis n len data : Dt n (astart n len data).
Proof.
  split; [|reflexivity]. constructor; try (intros; discriminate).
  - apply start_inv.
  - intros b k l Hb Hl. simpl in Hl. destruct (Nat.ltb_spec b n); [lia|discriminate].
Qed.
