(** Rules for building one rendezvous run, phase by phase. *)
From Coq Require Import List Arith Bool Lia FunctionalExtensionality.
From Verif Require Import MpiMachine.
Import ListNotations.

Section Run.
Variable V : Type.
Notation loc := (loc V). Notation prog := (prog V). Notation pst := (pst V). Notation gst := (gst V).
Notation cmd := (prog -> prog).

Inductive lstar : pst -> pst -> Prop :=
| ls_0 : forall x, lstar x x
| ls_S : forall x y z, lstep V x y -> lstar y z -> lstar x z.

Lemma lstar_trans : forall x y z, lstar x y -> lstar y z -> lstar x z.
Proof. intros x y z H. revert z. induction H; auto. intros. econstructor; eauto. Qed.

Definition runs (c : cmd) (s s' : loc) : Prop := forall k, lstar (c k, s) (k, s').

Lemma runs_seq : forall (c1 c2 : cmd) s s1 s2, runs c1 s s1 -> runs c2 s1 s2 -> runs (fun k => c1 (c2 k)) s s2.
Proof. intros c1 c2 s s1 s2 H1 H2 k. eapply lstar_trans; [apply H1|apply H2]. Qed.
Lemma runs_skip : forall s, runs (fun k => k) s s.
Proof. intros s k. constructor. Qed.

(** ** Moving all processes *)
Lemma steps_trans : forall e P n1 n2 g1 g2 g3, steps V e P n1 g1 g2 -> steps V e P n2 g2 g3 ->
  steps V e P (n1 + n2) g1 g3.
Proof. intros e P n1 n2 g1 g2 g3 H. revert n2 g3. induction H; intros; simpl; auto. econstructor; eauto. Qed.

Lemma upd_id : forall (A : Type) (f : nat -> A) i, upd f i (f i) = f.
Proof.
  intros. apply functional_extensionality. intros j. unfold upd. destruct (Nat.eqb_spec j i); subst; auto.
Qed.
Lemma upd_upd : forall (A : Type) (f : nat -> A) i x y, upd (upd f i x) i y = upd f i y.
Proof. intros. apply functional_extensionality. intros j. unfold upd. destruct (Nat.eqb j i); auto. Qed.

Lemma lstar_steps : forall e P (g : gst) r x y, r < P -> g r = x -> lstar x y ->
  exists n, steps V e P n g (upd g r y).
Proof.
  intros e P g r x y R E S. revert g E. induction S as [x|x y z A B IH]; intros g E; subst.
  - exists 0. rewrite upd_id. constructor.
  - destruct (IH (upd g r y) (upd_eq _ _ _ _)) as [n Hn]. rewrite upd_upd in Hn.
    exists (S n). econstructor; eauto. constructor; auto. apply p_loc. auto.
Qed.

Definition mix (g g1 : gst) (j : nat) : gst := fun r => if r <? j then g1 r else g r.

Lemma mix_0 : forall g g1, mix g g1 0 = g.
Proof. intros. apply functional_extensionality. intros. reflexivity. Qed.
Lemma mix_S : forall g g1 j, mix g g1 (S j) = upd (mix g g1 j) j (g1 j).
Proof.
  intros. apply functional_extensionality. intros r. unfold mix, upd.
  destruct (Nat.eqb_spec r j), (Nat.ltb_spec r (S j)), (Nat.ltb_spec r j); subst; auto; lia.
Qed.
Lemma mix_at : forall g g1 j, mix g g1 j j = g j.
Proof. intros. unfold mix. destruct (Nat.ltb_spec j j); auto; lia. Qed.
Lemma mix_all : forall g g1 P, (forall r, P <= r -> g1 r = g r) -> mix g g1 P = g1.
Proof.
  intros g g1 P H. apply functional_extensionality. intros r. unfold mix.
  destruct (Nat.ltb_spec r P); auto. symmetry; auto.
Qed.

Lemma all_local : forall e P (g g1 : gst), (forall r, r < P -> lstar (g r) (g1 r)) ->
  (forall r, P <= r -> g1 r = g r) -> exists n, steps V e P n g g1.
Proof.
  intros e P g g1 H Ho. rewrite <- (mix_all g g1 P Ho).
  assert (Q : forall j, j <= P -> exists n, steps V e P n g (mix g g1 j)).
  { induction j as [|j IH]; intros Hj.
    - exists 0. rewrite mix_0. constructor.
    - destruct IH as [n Hn]; [lia|]. rewrite mix_S.
      destruct (lstar_steps e P (mix g g1 j) j (g j) (g1 j) ltac:(lia) (mix_at _ _ _) (H j ltac:(lia))) as [n' Hn'].
      exists (n + n'). eapply steps_trans; eauto. }
  apply Q; auto.
Qed.

(** chains of waits *)
Fixpoint waits (wl : list (list (nat * nat))) : cmd :=
  match wl with [] => fun k => k | ids :: wl => fun k => Wait V ids (waits wl k) end.

Definition allreqs (s : loc) (wl : list (list (nat * nat))) : list (rq) :=
  flat_map (reqs V s) wl.

(** state after all waits *)
Definition clearl (s : loc) (wl : list (list (nat * nat))) : nat -> nat -> slot :=
  fun a i => if in_dec (fun x y : nat * nat => ltac:(decide equality; apply Nat.eq_dec)) (a, i) (concat wl)
             then Null else sl V s a i.

Definition waited (g : gst) (r : nat) (s : loc) (wl : list (list (nat * nat))) : loc :=
  mkLoc V (deliver V g r (mem V s) (allreqs s wl)) (bsz V s) (clearl s wl) (slsz V s) (slog V s) (rlog V s).

Lemma loc_eta : forall s : loc, mkLoc V (mem V s) (bsz V s) (sl V s) (slsz V s) (slog V s) (rlog V s) = s.
Proof. intros []; reflexivity. Qed.

Lemma waits_steps : forall P (g : gst) r k, r < P -> forall wl g' s,
  g' r = (waits wl k, s) -> gle V g g' -> ids_legal V s (concat wl) ->
  NoDup (concat wl) ->
  (forall x, In x (allreqs s wl) -> complete V false g r x) ->
  exists n, steps V false P n g' (upd g' r (k, waited g r s wl)).
Proof.
  intros P g r k R wl. induction wl as [|ids wl IH]; intros g' s E G L ND C.
  - exists 0. simpl in E.
    assert (waited g r s [] = s) as -> by (unfold waited, clearl; simpl; apply loc_eta).
    rewrite <- E, upd_id. constructor.
  - simpl in E.
    set (s1 := mkLoc V (deliver V g r (mem V s) (reqs V s ids)) (bsz V s) (clear V s ids) (slsz V s)
                       (slog V s) (rlog V s)).
    assert (St : pstep V false g' r (waits wl k, s1)).
    { unfold s1. rewrite <- (deliver_gle V false g g' r (reqs V s ids) (mem V s) G).
      - apply p_wait; auto.
        + intros a i I. apply L. simpl. apply in_or_app; auto.
        + intros x Hx. eapply complete_gle; eauto. apply C. simpl. apply in_or_app; auto.
      - intros x Hx. apply C. simpl. apply in_or_app; auto. }
    assert (NDs : forall p, In p (concat wl) -> ~ In p ids).
    { intros p I1 I2. simpl in ND. clear -ND I1 I2. induction ids as [|q ids IH]; simpl in *; [auto|].
      inversion ND; subst. destruct I2 as [->|I2]; auto. apply H1. apply in_or_app; auto. }
    assert (Sl : forall a i, In (a, i) (concat wl) -> sl V s1 a i = sl V s a i).
    { intros a i I. unfold s1; cbn [sl]. unfold clear. destruct in_dec as [J|J]; auto. exfalso. eapply NDs; eauto. }
    assert (Rq : allreqs s1 wl = allreqs s wl).
    { clear - Sl. unfold allreqs. induction wl as [|w wl IHw]; simpl; auto. f_equal.
      - unfold reqs. clear IHw. simpl in Sl.
        assert (Q : forall a i, In (a, i) w -> sl V s1 a i = sl V s a i).
        { intros a i I. apply Sl. apply in_or_app; auto. }
        clearbody s1. clear Sl. induction w as [|[a i] w IHp]; cbn [flat_map fst snd]; auto.
        rewrite (Q a i) by (left; auto). f_equal.
        apply IHp. intros; apply Q; right; auto.
      - apply IHw. intros a i I. apply Sl. simpl. apply in_or_app; auto. }
    destruct (IH (upd g' r (waits wl k, s1)) s1) as [n Hn].
    + apply upd_eq.
    + intros p. destruct (G p) as [G1 G2]. eapply grows_trans; [split; eauto|]. eapply gle_upd; eauto.
    + intros a i I. rewrite Sl by auto. unfold s1; cbn [slsz]. apply L. simpl. apply in_or_app; auto.
    + simpl in ND. clear - ND. induction ids; simpl in *; auto. inversion ND; auto.
    + intros x Hx. rewrite Rq in Hx. apply C. simpl. apply in_or_app; auto.
    + rewrite upd_upd in Hn. exists (S n). econstructor; [constructor; eauto|].
      replace (waited g r s (ids :: wl)) with (waited g r s1 wl); auto.
      unfold waited. rewrite Rq. unfold s1; cbn [mem bsz slsz slog rlog sl]. f_equal.
      * unfold deliver. simpl. rewrite fold_left_app. reflexivity.
      * apply functional_extensionality; intros a. apply functional_extensionality; intros i.
        unfold clearl; cbn [sl]. unfold clear. simpl.
        destruct (in_dec _ (a, i) (concat wl)) as [I|I];
        destruct (in_dec _ (a, i) (ids ++ concat wl)) as [J|J]; auto.
        -- exfalso. apply J. apply in_or_app; auto.
        -- destruct (in_dec _ (a, i) ids) as [K|K]; auto. exfalso. apply in_app_or in J. tauto.
        -- destruct (in_dec _ (a, i) ids) as [K|K]; auto. exfalso. apply J. apply in_or_app; auto.
Qed.

Lemma all_waits : forall P (g g1 : gst) (wl : nat -> list (list (nat * nat))) (k : nat -> prog) (s : nat -> loc),
  (forall r, r < P -> g r = (waits (wl r) (k r), s r)) ->
  (forall r, r < P -> ids_legal V (s r) (concat (wl r)) /\ NoDup (concat (wl r)) /\
     forall x, In x (allreqs (s r) (wl r)) -> complete V false g r x) ->
  (forall r, g1 r = if r <? P then (k r, waited g r (s r) (wl r)) else g r) ->
  exists n, steps V false P n g g1.
Proof.
  intros P g g1 wl k s E H E1.
  rewrite <- (mix_all g g1 P).
  2:{ intros r Hr. rewrite E1. destruct (Nat.ltb_spec r P); auto; lia. }
  assert (Q : forall j, j <= P -> exists n, steps V false P n g (mix g g1 j) /\ gle V g (mix g g1 j)).
  { induction j as [|j IH]; intros Hj.
    - exists 0. rewrite mix_0. split; [constructor|]. intros p. apply grows_refl.
    - destruct IH as (n & Hn & G); [lia|]. rewrite mix_S. destruct (H j ltac:(lia)) as (L & ND & C).
      destruct (waits_steps P g j (k j) ltac:(lia) (wl j) (mix g g1 j) (s j)) as [n' Hn']; auto.
      + rewrite mix_at. apply E; lia.
      + replace (g1 j) with (k j, waited g j (s j) (wl j)).
        2:{ rewrite E1. destruct (Nat.ltb_spec j P); auto; lia. }
        exists (n + n'). split; [eapply steps_trans; eauto|].
        intros p. destruct (Nat.eq_dec p j) as [->|N].
        * rewrite upd_eq. cbn [snd]. rewrite E by lia. cbn [snd]. apply grows_eq; reflexivity.
        * rewrite upd_neq by auto. apply G. }
  destruct (Q P ltac:(lia)) as (n & Hn & _). exists n; auto.
Qed.

(** ** Posting *)
(** a slot and what is posted there; [None] = MPI_REQUEST_NULL *)
Definition item := (nat * nat * bool * option (list spec))%type.
Definition islot (x : item) : nat * nat := fst (fst x).
Definition ispecs (x : item) : list spec := match snd x with Some l => l | None => [] end.
Definition specs (l : list item) : list spec := flat_map ispecs l.
Definition post_item (x : item) : cmd :=
  match x with
  | (a, i, inpl, Some l) => Post V a i inpl l
  | (a, i, _, None) => SetNull V a i
  end.
Fixpoint post_items (l : list item) : cmd :=
  match l with [] => fun k => k | x :: l => fun k => post_item x (post_items l k) end.

Definition skey (x : spec) : bool * nat * nat :=
  match x with Snd d c _ _ _ => (false, d, c) | Rcv d c _ _ _ => (true, d, c) end.
Definition rq_of (s : loc) (x : spec) : rq :=
  match x with
  | Snd d c b off len => RSnd d c (length (slog V s d c)) b off len
  | Rcv d c b off len => RRcv d c (length (rlog V s d c)) b off len
  end.

Record Posted (s s1 : loc) (ms : nat -> nat -> V) (l : list item) : Prop := mkPosted {
  po_bsz : bsz V s1 = bsz V s;
  po_slsz : slsz V s1 = slsz V s;
  po_s0 : forall d c, (forall b off len, ~ In (Snd d c b off len) (specs l)) -> slog V s1 d c = slog V s d c;
  po_s1 : forall d c b off len, In (Snd d c b off len) (specs l) ->
    exists dat, slog V s1 d c = slog V s d c ++ [mkMsg V len dat] /\ forall t, t < len -> dat t = ms b (off + t);
  po_r0 : forall d c, (forall b off len, ~ In (Rcv d c b off len) (specs l)) -> rlog V s1 d c = rlog V s d c;
  po_r1 : forall d c b off len, In (Rcv d c b off len) (specs l) -> rlog V s1 d c = rlog V s d c ++ [len];
  po_sl0 : forall a i, ~ In (a, i) (map islot l) -> sl V s1 a i = sl V s a i;
  po_sl1 : forall x, In x l -> sl V s1 (fst (islot x)) (snd (islot x)) =
     match snd x with Some sp => Act (map (rq_of s) sp) | None => Null end }.

Lemma Posted_nil : forall s ms m, Posted s (setmem V s m) ms [].
Proof. intros. constructor; simpl; auto; try tauto. Qed.

Lemma Posted_mem : forall s s1 ms l m, Posted s s1 ms l -> Posted s (setmem V s1 m) ms l.
Proof. intros s s1 ms l m [? ? ? ? ? ? ? ?]. constructor; simpl; auto. Qed.

Lemma specs_app : forall l1 l2, specs (l1 ++ l2) = specs l1 ++ specs l2.
Proof. intros. unfold specs. apply flat_map_app. Qed.

Lemma key_snd : forall l d c b off len, In (Snd d c b off len) l -> In (false, d, c) (map skey l).
Proof. intros. apply in_map_iff. eexists; split; [|eauto]. reflexivity. Qed.
Lemma key_rcv : forall l d c b off len, In (Rcv d c b off len) l -> In (true, d, c) (map skey l).
Proof. intros. apply in_map_iff. eexists; split; [|eauto]. reflexivity. Qed.

Lemma NoDup_app_not : forall (A : Type) (l1 l2 : list A) x, NoDup (l1 ++ l2) -> In x l1 -> In x l2 -> False.
Proof.
  intros A l1 l2 x. induction l1 as [|y l1 IH]; simpl; intros ND I1 I2; auto. inversion ND; subst.
  destruct I1 as [->|I1]; auto. apply H1. apply in_or_app; auto.
Qed.

Lemma Posted_app : forall s s1 s2 ms l1 l2, Posted s s1 ms l1 -> Posted s1 s2 ms l2 ->
  NoDup (map skey (specs (l1 ++ l2))) -> NoDup (map islot (l1 ++ l2)) -> Posted s s2 ms (l1 ++ l2).
Proof.
  intros s s1 s2 ms l1 l2 A B ND NDs. rewrite specs_app, map_app in ND. rewrite map_app in NDs.
  destruct A as [A1 A2 A3 A4 A5 A6 A7 A8], B as [B1 B2 B3 B4 B5 B6 B7 B8].
  assert (SN : forall d c b off len, In (Snd d c b off len) (specs l1) -> forall b off len, ~ In (Snd d c b off len) (specs l2)).
  { intros d c b off len I b' off' len' J. eapply NoDup_app_not; [exact ND|eapply key_snd; eauto|eapply key_snd; eauto]. }
  assert (RN : forall d c b off len, In (Rcv d c b off len) (specs l1) -> forall b off len, ~ In (Rcv d c b off len) (specs l2)).
  { intros d c b off len I b' off' len' J. eapply NoDup_app_not; [exact ND|eapply key_rcv; eauto|eapply key_rcv; eauto]. }
  constructor.
  - congruence.
  - congruence.
  - intros d c H. rewrite specs_app in H. rewrite B3, A3; auto; intros b off len I; eapply H; apply in_or_app; eauto.
  - intros d c b off len I. rewrite specs_app in I. apply in_app_or in I. destruct I as [I|I].
    + rewrite B3 by (eapply SN; eauto). apply (A4 _ _ _ _ _ I).
    + destruct (B4 _ _ _ _ _ I) as (dat & E & D). exists dat. split; auto. rewrite E. f_equal. apply A3.
      intros b' off' len' J. eapply SN; eauto.
  - intros d c H. rewrite specs_app in H. rewrite B5, A5; auto; intros b off len I; eapply H; apply in_or_app; eauto.
  - intros d c b off len I. rewrite specs_app in I. apply in_app_or in I. destruct I as [I|I].
    + rewrite B5 by (eapply RN; eauto). eapply A6; eauto.
    + rewrite (B6 _ _ _ _ _ I). f_equal. apply A5. intros b' off' len' J. eapply RN; eauto.
  - intros a i H. rewrite map_app in H. rewrite B7, A7; auto; intros I; apply H; apply in_or_app; auto.
  - intros x I. apply in_app_or in I. destruct I as [I|I].
    + rewrite B7. { apply A8; auto. }
      intros J. eapply NoDup_app_not; [exact NDs|apply in_map; exact I|]. destruct (islot x); auto.
    + rewrite B8 by auto. destruct (snd x) as [sp|] eqn:Ex; auto. f_equal.
      apply map_ext_in. intros y Hy.
      assert (Iy : In y (specs l2)).
      { unfold specs. apply in_flat_map. exists x. split; auto. unfold ispecs. rewrite Ex; auto. }
      destruct y as [d c b off len|d c b off len]; simpl; f_equal; f_equal.
      * apply A3. intros b' off' len' J. eapply SN; eauto.
      * apply A5. intros b' off' len' J. eapply RN; eauto.
Qed.

(** posting a list with distinct channels *)
Lemma upd2_eq : forall (A : Type) (f : nat -> nat -> A) i j x, upd2 f i j x i j = x.
Proof. intros. unfold upd2. rewrite !Nat.eqb_refl. auto. Qed.
Lemma upd2_neq : forall (A : Type) (f : nat -> nat -> A) i j x i' j', (i', j') <> (i, j) -> upd2 f i j x i' j' = f i' j'.
Proof.
  intros. unfold upd2. destruct (Nat.eqb_spec i' i), (Nat.eqb_spec j' j); subst; simpl; auto. contradiction.
Qed.

Lemma postl_unique : forall l s, NoDup (map skey l) ->
  let '(rs, s1) := postl V s l in
  rs = map (rq_of s) l /\ mem V s1 = mem V s /\ bsz V s1 = bsz V s /\ sl V s1 = sl V s /\ slsz V s1 = slsz V s /\
  (forall d c, (forall b off len, ~ In (Snd d c b off len) l) -> slog V s1 d c = slog V s d c) /\
  (forall d c b off len, In (Snd d c b off len) l ->
     slog V s1 d c = slog V s d c ++ [mkMsg V len (fun t => mem V s b (off + t))]) /\
  (forall d c, (forall b off len, ~ In (Rcv d c b off len) l) -> rlog V s1 d c = rlog V s d c) /\
  (forall d c b off len, In (Rcv d c b off len) l -> rlog V s1 d c = rlog V s d c ++ [len]).
Proof.
  induction l as [|x l IH]; intros s ND.
  - simpl. repeat split; auto; intros; tauto.
  - simpl map in ND. inversion ND as [|? ? NI ND']; subst. simpl postl.
    destruct (post1 V s x) as [q s1] eqn:E1. specialize (IH s1 ND').
    destruct (postl V s1 l) as [rs s2]. destruct IH as (I1 & I2 & I3 & I4 & I5 & I6 & I7 & I8 & I9).
    assert (Rq : map (rq_of s1) l = map (rq_of s) l).
    { apply map_ext_in. intros y Hy. destruct x as [d c b off len|d c b off len]; simpl in E1; inversion E1; subst;
      destruct y as [d' c' b' off' len'|d' c' b' off' len']; cbn [rq_of slog rlog]; auto; rewrite upd2_neq; auto;
      intros Q; inversion Q; subst; apply NI; [eapply key_snd|eapply key_rcv]; eauto. }
    destruct x as [d c b off len|d c b off len]; simpl in E1; inversion E1; subst; clear E1;
      cbn [mem bsz sl slsz slog rlog] in *.
    + repeat match goal with |- _ /\ _ => split end; try congruence.
      * simpl. f_equal. auto.
      * intros d' c' H. rewrite I6 by (intros b' o' l' J; eapply H; right; eauto).
        apply upd2_neq. intros Q; inversion Q; subst. eapply H; left; reflexivity.
      * intros d' c' b' off' len' [J|J].
        -- inversion J; subst. rewrite I6. { rewrite upd2_eq; auto. }
           intros b1 o1 l1 K. apply NI. eapply key_snd; eauto.
        -- rewrite (I7 _ _ _ _ _ J). rewrite upd2_neq; auto. intros Q; inversion Q; subst. apply NI. eapply key_snd; eauto.
      * intros d' c' H. apply I8. intros b' o' l' J; eapply H; right; eauto.
      * intros d' c' b' off' len' [J|J]; [discriminate|]. eapply I9; eauto.
    + repeat match goal with |- _ /\ _ => split end; try congruence.
      * simpl. f_equal. auto.
      * intros d' c' H. apply I6. intros b' o' l' J; eapply H; right; eauto.
      * intros d' c' b' off' len' [J|J]; [discriminate|]. eapply I7; eauto.
      * intros d' c' H. rewrite I8 by (intros b' o' l' J; eapply H; right; eauto).
        apply upd2_neq. intros Q; inversion Q; subst. eapply H; left; reflexivity.
      * intros d' c' b' off' len' [J|J].
        -- inversion J; subst. rewrite I8. { rewrite upd2_eq; auto. }
           intros b1 o1 l1 K. apply NI. eapply key_rcv; eauto.
        -- rewrite (I9 _ _ _ _ _ J). rewrite upd2_neq; auto. intros Q; inversion Q; subst. apply NI. eapply key_rcv; eauto.
Qed.

Lemma inactive_slots : forall s a i, inactive V s a i -> forall l, sl V s a i <> Act l.
Proof. intros s a i [_ H]; auto. Qed.

Lemma Posted_one : forall s a i inpl l, NoDup (map skey l) ->
  Posted s (do_post V s a i l) (mem V s) [(a, i, inpl, Some l)] /\ mem V (do_post V s a i l) = mem V s.
Proof.
  intros s a i inpl l ND. pose proof (postl_unique l s ND) as H. unfold do_post.
  destruct (postl V s l) as [rs s1]. destruct H as (I1 & I2 & I3 & I4 & I5 & I6 & I7 & I8 & I9).
  split; [|simpl; auto].
  assert (Sp : specs [(a, i, inpl, Some l)] = l) by (unfold specs; simpl; apply app_nil_r).
  constructor; rewrite ?Sp; simpl; auto.
  - intros d c b off len J. eexists. split; [eapply I7; eauto|]. reflexivity.
  - intros a' i' H. rewrite upd2_neq by (intros Q; apply H; left; auto). rewrite I4; auto.
  - intros x [<-|[]]. simpl. rewrite upd2_eq, I1. auto.
Qed.

Lemma Posted_null : forall s a i inpl, Posted s (setsl V s a i Null) (mem V s) [(a, i, inpl, None)].
Proof.
  intros. constructor; simpl; auto; try tauto.
  - intros a' i' H. apply upd2_neq. intros Q; apply H; left; auto.
  - intros x [<-|[]]. simpl. apply upd2_eq.
Qed.

(** pending regions after posting *)
Lemma Posted_pendR : forall s s1 ms l b o, Posted s s1 ms l -> (forall x, In x l -> inactive V s (fst (islot x)) (snd (islot x))) ->
  pendR V s1 b o -> pendR V s b o \/ inR (specs l) b o.
Proof.
  intros s s1 ms l b o Po _ (a & i & lr & src & c & q & off & len & E & I & R).
  destruct (in_dec (fun x y : nat * nat => ltac:(decide equality; apply Nat.eq_dec)) (a, i) (map islot l)) as [J|J].
  - right. apply in_map_iff in J. destruct J as (x & Ex & Ix). pose proof (po_sl1 _ _ _ _ Po x Ix) as H.
    rewrite Ex in H. simpl in H. rewrite E in H. destruct (snd x) as [sp|] eqn:Es; [|discriminate].
    inversion H; subst. apply in_map_iff in I. destruct I as (y & Ey & Iy).
    destruct y as [d' c' b' off' len'|d' c' b' off' len']; simpl in Ey; inversion Ey; subst.
    exists src, c, off, len. split; auto. unfold specs. apply in_flat_map. exists x. split; auto. unfold ispecs. rewrite Es; auto.
  - left. rewrite (po_sl0 _ _ _ _ Po _ _ J) in E. exists a, i, lr, src, c, q, off, len. auto.
Qed.
Lemma Posted_pendS : forall s s1 ms l b o, Posted s s1 ms l ->
  pendS V s1 b o -> pendS V s b o \/ inS (specs l) b o.
Proof.
  intros s s1 ms l b o Po (a & i & lr & src & c & q & off & len & E & I & R).
  destruct (in_dec (fun x y : nat * nat => ltac:(decide equality; apply Nat.eq_dec)) (a, i) (map islot l)) as [J|J].
  - right. apply in_map_iff in J. destruct J as (x & Ex & Ix). pose proof (po_sl1 _ _ _ _ Po x Ix) as H.
    rewrite Ex in H. simpl in H. rewrite E in H. destruct (snd x) as [sp|] eqn:Es; [|discriminate].
    inversion H; subst. apply in_map_iff in I. destruct I as (y & Ey & Iy).
    destruct y as [d' c' b' off' len'|d' c' b' off' len']; simpl in Ey; inversion Ey; subst.
    exists src, c, off, len. split; auto. unfold specs. apply in_flat_map. exists x. split; auto. unfold ispecs. rewrite Es; auto.
  - left. rewrite (po_sl0 _ _ _ _ Po _ _ J) in E. exists a, i, lr, src, c, q, off, len. auto.
Qed.

Lemma recvs_disj_app : forall l1 l2, recvs_disj (l1 ++ l2) ->
  recvs_disj l1 /\ recvs_disj l2 /\ forall b o, inR l1 b o -> inR l2 b o -> False.
Proof.
  induction l1 as [|x l1 IH]; intros l2 H; simpl in *.
  - split; auto. split; auto. intros b o (? & ? & ? & ? & [] & _).
  - destruct x as [d c b off len|d c b off len].
    + destruct (IH l2 H) as (A & B & C). split; auto. split; auto.
      intros b' o' (s' & c' & o1 & l' & [I|I] & R); [discriminate|]. intros; eapply C; eauto. exists s', c', o1, l'. auto.
    + destruct H as [H1 H]. destruct (IH l2 H) as (A & B & C). split.
      { split; auto. intros o Ho J. apply (H1 o Ho). destruct J as (s' & c' & o1 & l' & I & R).
        exists s', c', o1, l'. split; auto. apply in_or_app; auto. }
      split; auto.
      intros b' o' (s' & c' & o1 & l' & [I|I] & R) J.
      * inversion I; subst. apply (H1 o' R). destruct J as (s2 & c2 & o2 & l2' & I2 & R2).
        exists s2, c2, o2, l2'. split; auto. apply in_or_app; auto.
      * eapply C; eauto. exists s', c', o1, l'. auto.
Qed.

Lemma inS_app : forall l1 l2 b o, inS (l1 ++ l2) b o <-> inS l1 b o \/ inS l2 b o.
Proof.
  intros. split.
  - intros (d & c & off & len & I & R). apply in_app_or in I. destruct I; [left|right]; exists d, c, off, len; auto.
  - intros [(d & c & off & len & I & R)|(d & c & off & len & I & R)]; exists d, c, off, len; split; auto; apply in_or_app; auto.
Qed.
Lemma inR_app : forall l1 l2 b o, inR (l1 ++ l2) b o <-> inR l1 b o \/ inR l2 b o.
Proof.
  intros. split.
  - intros (d & c & off & len & I & R). apply in_app_or in I. destruct I; [left|right]; exists d, c, off, len; auto.
  - intros [(d & c & off & len & I & R)|(d & c & off & len & I & R)]; exists d, c, off, len; split; auto; apply in_or_app; auto.
Qed.

Lemma specs_cons : forall x l, specs (x :: l) = ispecs x ++ specs l.
Proof. reflexivity. Qed.

(** what is needed between two parts of a posting sequence *)
Lemma NoDup_app_l : forall (A : Type) (l1 l2 : list A), NoDup (l1 ++ l2) -> NoDup l1.
Proof.
  induction l1 as [|x l1 IH]; intros l2 H; simpl in *; constructor; inversion H; subst.
  - intros I. apply H2. apply in_or_app; auto.
  - eauto.
Qed.
Lemma NoDup_app_r : forall (A : Type) (l1 l2 : list A), NoDup (l1 ++ l2) -> NoDup l2.
Proof. induction l1 as [|x l1 IH]; intros l2 H; simpl in *; auto. inversion H; auto. Qed.

Lemma runs_post : forall s a i inpl l, post_legal V s a i inpl l -> runs (Post V a i inpl l) s (do_post V s a i l).
Proof. intros s a i inpl l H k. econstructor; [apply l_post; auto|constructor]. Qed.
Lemma runs_null : forall s a i, inactive V s a i -> runs (SetNull V a i) s (setsl V s a i Null).
Proof. intros s a i H k. econstructor; [apply l_null; auto|constructor]. Qed.

(** postable for lists without in-place collective calls *)
Lemma post_items_run : forall l s,
  NoDup (map islot l) -> NoDup (map skey (specs l)) ->
  (forall x, In x l -> inactive V s (fst (islot x)) (snd (islot x))) ->
  (forall b o, inS (specs l) b o -> o < bsz V s b /\ ~ pendR V s b o) ->
  (forall b o, inR (specs l) b o -> o < bsz V s b /\ ~ pendR V s b o /\ ~ pendS V s b o) ->
  recvs_disj (specs l) ->
  (forall b o, inS (specs l) b o -> inR (specs l) b o -> False) ->
  exists s1, runs (post_items l) s s1 /\ Posted s s1 (mem V s) l /\ mem V s1 = mem V s.
Proof.
  induction l as [|x l IH]; intros s H1 H2 H3 H4 H5 H6 H7.
  - exists s. split; [apply runs_skip|]. split; auto.
    replace s with (setmem V s (mem V s)) at 2 by (destruct s; reflexivity). apply Posted_nil.
  - assert (Q : exists s1, runs (post_item x) s s1 /\ Posted s s1 (mem V s) [x] /\ mem V s1 = mem V s).
    { destruct x as [[[a i] inpl] [sp|]].
      - rewrite specs_cons in *. cbn [ispecs snd] in *.
        destruct (Posted_one s a i inpl sp) as [P1 P2]. { rewrite map_app in H2. eapply NoDup_app_l; eauto. }
        exists (do_post V s a i sp). split; [|auto]. apply runs_post.
        destruct (recvs_disj_app _ _ H6) as (R1 & R2 & R3).
        split; [apply (H3 _ (or_introl eq_refl))|]. split; [|split; [|split]]; auto.
        + intros b o I. apply H4. apply inS_app; auto.
        + intros b o I. apply H5. apply inR_app; auto.
        + intros _ b o I J. apply (H7 b o); [apply inS_app|apply inR_app]; auto.
      - exists (setsl V s a i Null). split; [apply runs_null; apply (H3 _ (or_introl eq_refl))|].
        split; auto. apply Posted_null. }
    destruct Q as (s1 & R1 & P1 & M1).
    rewrite specs_cons in H2, H4, H5, H6, H7. destruct (recvs_disj_app _ _ H6) as (D1 & D2 & D3).
    simpl map in H1. inversion H1 as [|? ? N1 N2]; subst.
    assert (Sp1 : specs [x] = ispecs x) by (unfold specs; simpl; apply app_nil_r).
    assert (Act1 : forall y, In y [x] -> inactive V s (fst (islot y)) (snd (islot y))).
    { intros y [<-|[]]. apply H3. left; auto. }
    destruct (IH s1) as (s2 & R2 & P2 & M2); auto.
    + rewrite map_app in H2. eapply NoDup_app_r; eauto.
    + intros y Hy. destruct (H3 y (or_intror Hy)) as [A B]. split.
      * rewrite (po_slsz _ _ _ _ P1). auto.
      * rewrite (po_sl0 _ _ _ _ P1); auto. intros [E|[]]. apply N1. apply in_map_iff. exists y. split; auto.
        rewrite E. destruct (islot y); auto.
    + intros b o I. destruct (H4 b o) as [A B]; [apply inS_app; auto|]. rewrite (po_bsz _ _ _ _ P1). split; auto.
      intros Pd. destruct (Posted_pendR _ _ _ _ _ _ P1 Act1 Pd) as [Pd'|Pd']; auto. rewrite Sp1 in Pd'.
      apply (H7 b o); [apply inS_app|apply inR_app]; auto.
    + intros b o I. destruct (H5 b o) as (A & B & C); [apply inR_app; auto|]. rewrite (po_bsz _ _ _ _ P1).
      split; auto. split.
      * intros Pd. destruct (Posted_pendR _ _ _ _ _ _ P1 Act1 Pd) as [Pd'|Pd']; auto. rewrite Sp1 in Pd'. eauto.
      * intros Pd. destruct (Posted_pendS _ _ _ _ _ _ P1 Pd) as [Pd'|Pd']; auto. rewrite Sp1 in Pd'.
        apply (H7 b o); [apply inS_app|apply inR_app]; auto.
    + intros b o I J. apply (H7 b o); [apply inS_app|apply inR_app]; auto.
    + exists s2. split; [|split].
      * apply (runs_seq (post_item x) (post_items l) s s1 s2); auto.
      * change (x :: l) with ([x] ++ l). rewrite M1 in P2. apply (Posted_app s s1 s2 (mem V s)); auto.
      * congruence.
Qed.

(** ** A communication phase *)
Definition quiet (s : loc) : Prop := forall a i l, sl V s a i <> Act l.
Definition balanced (P : nat) (s : nat -> loc) : Prop :=
  forall p q c, p < P -> q < P -> length (slog V (s p) q c) = length (rlog V (s q) p c).

Lemma deliver_char : forall g r l m b o,
  (exists src c q off len d, In (RRcv src c q b off len) l /\ off <= o < off + len /\
     matched V g r src c q = Some d /\ deliver V g r m l b o = mdat V d (o - off)) \/
  ((forall src c q off len d, In (RRcv src c q b off len) l -> off <= o < off + len ->
     matched V g r src c q <> Some d) /\ deliver V g r m l b o = m b o).
Proof.
  intros g r l. induction l as [|x l IH] using rev_ind; intros m b o.
  - right. split; auto.
  - unfold deliver in *. rewrite fold_left_app. simpl. destruct x as [dst c q b' off len|src c q b' off len]; simpl.
    + destruct (IH m b o) as [(src & c' & q' & off' & len' & d & I & R & M & E)|[N E]].
      * left. exists src, c', q', off', len', d. split; [apply in_or_app; auto|]. auto.
      * right. split; auto. intros src c' q' off' len' d I. apply in_app_or in I. destruct I as [I|[I|[]]]; [|discriminate].
        eapply N; eauto.
    + destruct (matched V g r src c q) as [d|] eqn:M.
      * destruct (Nat.eqb_spec b b'); [subst b'|]; simpl.
        -- destruct (Nat.leb_spec off o), (Nat.ltb_spec o (off + len)); simpl.
           ++ left. exists src, c, q, off, len, d. split; [apply in_or_app; right; left; auto|]. auto.
           ++ destruct (IH m b o) as [(src' & c' & q' & off' & len' & d' & I & R & M' & E)|[N E]].
              ** left. exists src', c', q', off', len', d'. split; [apply in_or_app; auto|]. auto.
              ** right. split; auto. intros src' c' q' off' len' d' I R. apply in_app_or in I. destruct I as [I|[I|[]]].
                 { eapply N; eauto. } { inversion I; subst. lia. }
           ++ destruct (IH m b o) as [(src' & c' & q' & off' & len' & d' & I & R & M' & E)|[N E]].
              ** left. exists src', c', q', off', len', d'. split; [apply in_or_app; auto|]. auto.
              ** right. split; auto. intros src' c' q' off' len' d' I R. apply in_app_or in I. destruct I as [I|[I|[]]].
                 { eapply N; eauto. } { inversion I; subst. lia. }
           ++ destruct (IH m b o) as [(src' & c' & q' & off' & len' & d' & I & R & M' & E)|[N E]].
              ** left. exists src', c', q', off', len', d'. split; [apply in_or_app; auto|]. auto.
              ** right. split; auto. intros src' c' q' off' len' d' I R. apply in_app_or in I. destruct I as [I|[I|[]]].
                 { eapply N; eauto. } { inversion I; subst. lia. }
        -- destruct (IH m b o) as [(src' & c' & q' & off' & len' & d' & I & R & M' & E)|[N E]].
              ** left. exists src', c', q', off', len', d'. split; [apply in_or_app; auto|]. auto.
              ** right. split; auto. intros src' c' q' off' len' d' I R. apply in_app_or in I. destruct I as [I|[I|[]]].
                 { eapply N; eauto. } { inversion I; subst. contradiction. }
      * destruct (IH m b o) as [(src' & c' & q' & off' & len' & d' & I & R & M' & E)|[N E]].
        -- left. exists src', c', q', off', len', d'. split; [apply in_or_app; auto|]. auto.
        -- right. split; auto. intros src' c' q' off' len' d' I R. apply in_app_or in I. destruct I as [I|[I|[]]].
           { eapply N; eauto. } { inversion I; subst. congruence. }
Qed.

(** the result of a phase for process [r]: data of the matching send in every receive
    region, everything else as before the wait *)
Definition exchanged (items : nat -> list item) (ms : nat -> nat -> nat -> V) (r : nat) (m1 m2 : nat -> nat -> V) : Prop :=
  forall b o,
   (exists src c off len bs offs, In (Rcv src c b off len) (specs (items r)) /\ off <= o < off + len /\
      In (Snd r c bs offs len) (specs (items src)) /\ m2 b o = ms src bs (offs + (o - off))) \/
   (~ inR (specs (items r)) b o /\ m2 b o = m1 b o).

Theorem phase : forall P (g : gst) (pre : nat -> cmd) (wl : nat -> list (list (nat * nat)))
    (k : nat -> prog) (s s1 : nat -> loc) (items : nat -> list item) (ms : nat -> nat -> nat -> V),
  (forall r, r < P -> g r = (pre r (waits (wl r) (k r)), s r)) ->
  balanced P s ->
  (forall r, r < P -> quiet (s r)) ->
  (forall r, r < P -> runs (pre r) (s r) (s1 r) /\ Posted (s r) (s1 r) (ms r) (items r)) ->
  (forall r a i, r < P -> In (a, i) (concat (wl r)) <-> In (a, i) (map islot (items r))) ->
  (forall r, r < P -> NoDup (concat (wl r))) ->
  (forall r x, r < P -> In x (items r) -> snd (islot x) < slsz V (s r) (fst (islot x))) ->
  (forall r, r < P -> NoDup (map skey (specs (items r)))) ->
  (forall r q c b off len, r < P -> In (Rcv q c b off len) (specs (items r)) ->
     q < P /\ exists b' off', In (Snd r c b' off' len) (specs (items q))) ->
  (forall r q c b off len, r < P -> In (Snd q c b off len) (specs (items r)) ->
     q < P /\ exists b' off', In (Rcv r c b' off' len) (specs (items q))) ->
  exists n g2 s2, steps V false P n g g2 /\
    (forall r, r < P -> g2 r = (k r, s2 r)) /\ (forall r, P <= r -> g2 r = g r) /\
    balanced P s2 /\ (forall r, r < P -> quiet (s2 r)) /\
    (forall r, r < P -> bsz V (s2 r) = bsz V (s r) /\ slsz V (s2 r) = slsz V (s r)) /\
    (forall r, r < P -> exchanged items ms r (mem V (s1 r)) (mem V (s2 r))).
Proof.
  intros P g pre wl k s s1 items ms Eg Bal Qt Run Ids ND Szs Key MR MS.
  set (g1 := fun r => if r <? P then (waits (wl r) (k r), s1 r) else g r).
  assert (E1 : forall r, r < P -> g1 r = (waits (wl r) (k r), s1 r)).
  { intros r Hr. unfold g1. destruct (Nat.ltb_spec r P); auto; lia. }
  destruct (all_local false P g g1) as [n1 S1].
  { intros r Hr. rewrite Eg, E1 by auto. apply Run; auto. }
  { intros r Hr. unfold g1. destruct (Nat.ltb_spec r P); auto; lia. }
  set (s2 := fun r => waited g1 r (s1 r) (wl r)).
  set (g2 := fun r => if r <? P then (k r, s2 r) else g1 r).
  assert (Slots : forall r a i, r < P -> In (a, i) (concat (wl r)) ->
     i < slsz V (s1 r) a /\ exists x, In x (items r) /\ islot x = (a, i) /\
       sl V (s1 r) a i = match snd x with Some sp => Act (map (rq_of (s r)) sp) | None => Null end).
  { intros r a i Hr I. apply Ids in I; auto. apply in_map_iff in I. destruct I as (x & Ex & Ix).
    destruct (Run r Hr) as [_ Po]. pose proof (po_sl1 _ _ _ _ Po x Ix) as Q.
    pose proof (Szs r x Hr Ix) as Z. rewrite Ex in *. cbn [fst snd] in *.
    split; [rewrite (po_slsz _ _ _ _ Po); auto|]. exists x. auto. }
  assert (Rq : forall r x, r < P -> In x (allreqs (s1 r) (wl r)) -> exists y, In y (specs (items r)) /\ x = rq_of (s r) y).
  { intros r x Hr I. unfold allreqs in I. apply in_flat_map in I. destruct I as (w & Iw & I).
    unfold reqs in I. apply in_flat_map in I. destruct I as ([a i] & Ii & I). cbn [fst snd] in I.
    destruct (Slots r a i Hr) as (_ & y & Iy & Ey & Sy). { apply in_concat. exists w. auto. }
    rewrite Sy in I. destruct (snd y) as [sp|] eqn:Es; [|destruct I].
    apply in_map_iff in I. destruct I as (z & <- & Iz). exists z. split; auto.
    unfold specs. apply in_flat_map. exists y. split; auto. unfold ispecs. rewrite Es; auto. }
  assert (RqC : forall r y, r < P -> In y (specs (items r)) -> In (rq_of (s r) y) (allreqs (s1 r) (wl r))).
  { intros r y Hr I. unfold specs in I. apply in_flat_map in I. destruct I as (x & Ix & I).
    assert (J : In (islot x) (map islot (items r))) by (apply in_map; auto).
    destruct (islot x) as [a i] eqn:Ex. apply Ids in J; auto. apply in_concat in J. destruct J as (w & Iw & Ii).
    unfold allreqs. apply in_flat_map. exists w. split; auto. unfold reqs. apply in_flat_map. exists (a, i).
    split; auto. cbn [fst snd]. destruct (Run r Hr) as [_ Po]. pose proof (po_sl1 _ _ _ _ Po x Ix) as Q.
    rewrite Ex in Q. cbn [fst snd] in Q. rewrite Q. unfold ispecs in I. destruct (snd x); [|destruct I]. apply in_map; auto. }
  assert (Mat : forall r q c b off len, r < P -> In (Rcv q c b off len) (specs (items r)) ->
     exists d b' off', matched V g1 r q c (length (rlog V (s r) q c)) = Some d /\ mlen V d = len /\
       In (Snd r c b' off' len) (specs (items q)) /\ forall t, t < len -> mdat V d t = ms q b' (off' + t)).
  { intros r q c b off len Hr I. destruct (MR r q c b off len Hr I) as (Hq & b' & off' & I').
    destruct (Run q Hq) as [_ Po]. destruct (po_s1 _ _ _ _ Po _ _ _ _ _ I') as (dat & El & Hd).
    exists (mkMsg V len dat), b', off'. split; auto.
    unfold matched. rewrite E1 by auto. cbn [snd]. rewrite El. rewrite <- (Bal q r c Hq Hr).
    rewrite nth_error_app2 by lia. rewrite Nat.sub_diag. auto. }
  assert (Cmp : forall r x, r < P -> In x (allreqs (s1 r) (wl r)) -> complete V false g1 r x).
  { intros r x Hr I. destruct (Rq r x Hr I) as (y & Iy & ->). destruct y as [q c b off len|q c b off len]; simpl.
    - destruct (MS r q c b off len Hr Iy) as (Hq & b' & off' & I'). rewrite E1 by auto. cbn [snd].
      destruct (Run q Hq) as [_ Po]. rewrite (po_r1 _ _ _ _ Po _ _ _ _ _ I'). rewrite app_length. simpl.
      rewrite (Bal r q c Hr Hq). lia.
    - destruct (Mat r q c b off len Hr Iy) as (d & b' & off' & M & L & _). exists d. auto. }
  destruct (all_waits P g1 g2 wl k s1) as [n2 S2].
  { auto. }
  { intros r Hr. split; [|split]; auto.
    intros a i I. destruct (Slots r a i Hr I) as (Z & x & Ix & Ex & Sx). split; auto. rewrite Sx. destruct (snd x); discriminate. }
  { intros r. unfold g2, s2. auto. }
  exists (n1 + n2), g2, s2. split; [eapply steps_trans; eauto|]. split.
  { intros r Hr. unfold g2. destruct (Nat.ltb_spec r P); auto; lia. }
  split. { intros r Hr. unfold g2, g1. destruct (Nat.ltb_spec r P); auto; lia. }
  split.
  { intros p q c Hp Hq. unfold s2, waited; cbn [slog rlog].
    destruct (Run p Hp) as [_ Pp]. destruct (Run q Hq) as [_ Pq].
    assert (Dec : forall (l : list spec), (exists b off len, In (Snd q c b off len) l) \/ (forall b off len, ~ In (Snd q c b off len) l)).
    { clear. induction l as [|x l IH]; [right; auto|].
      destruct IH as [(b & off & len & I)|N]; [left; exists b, off, len; right; auto|].
      destruct x as [d c' b off len|d c' b off len].
      - destruct (Nat.eq_dec d q) as [->|]; [destruct (Nat.eq_dec c' c) as [->|]|].
        + left. exists b, off, len. left; auto.
        + right. intros b' off' len' [E|E]; [inversion E; subst; contradiction|eapply N; eauto].
        + right. intros b' off' len' [E|E]; [inversion E; subst; contradiction|eapply N; eauto].
      - right. intros b' off' len' [E|E]; [discriminate|eapply N; eauto]. }
    destruct (Dec (specs (items p))) as [(b & off & len & I)|N].
    - destruct (MS p q c b off len Hp I) as (_ & b' & off' & I').
      destruct (po_s1 _ _ _ _ Pp _ _ _ _ _ I) as (dat & El & _). rewrite El.
      rewrite (po_r1 _ _ _ _ Pq _ _ _ _ _ I'). rewrite !app_length. simpl. rewrite (Bal p q c Hp Hq). auto.
    - rewrite (po_s0 _ _ _ _ Pp _ _ N). rewrite (po_r0 _ _ _ _ Pq). { apply Bal; auto. }
      intros b off len I. destruct (MR q p c b off len Hq I) as (_ & b' & off' & I'). eapply N; eauto. }
  split.
  { intros r Hr a i l. unfold s2, waited; cbn [sl]. unfold clearl. destruct in_dec as [J|J]; [discriminate|].
    destruct (Run r Hr) as [_ Po]. rewrite (po_sl0 _ _ _ _ Po); [apply Qt; auto|]. intros I. apply J. apply Ids; auto. }
  split. { intros r Hr. unfold s2, waited; cbn [bsz slsz]. destruct (Run r Hr) as [_ Po].
    split; [apply (po_bsz _ _ _ _ Po)|apply (po_slsz _ _ _ _ Po)]. }
  intros r Hr b o. unfold s2, waited; cbn [mem].
  destruct (deliver_char g1 r (allreqs (s1 r) (wl r)) (mem V (s1 r)) b o) as [(src & c & q & off & len & d & I & R & M & E)|[N E]].
  - left. destruct (Rq r _ Hr I) as (y & Iy & Ey). destruct y as [q' c' b' off' len'|q' c' b' off' len']; simpl in Ey; inversion Ey; subst.
    destruct (Mat r _ _ _ _ _ Hr Iy) as (d' & b2 & off2 & M' & L & I' & D). rewrite M in M'. inversion M'; subst d'.
    eexists _, _, _, _, b2, off2. split; [eauto|]. split; [auto|]. split; [eauto|]. rewrite E, D by lia. auto.
  - right. split; auto. intros (src & c & off & len & I & R).
    destruct (Mat r _ _ _ _ _ Hr I) as (d & b2 & off2 & M & _). eapply N; eauto.
    apply (RqC r _ Hr I).
Qed.
End Run.
