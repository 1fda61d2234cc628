(** A machine for message passing programs: the part of MPI that fftwpp's transpose and
    gather routines use.

    Every process runs its own program on its own memory.  A program step is a local copy,
    a local rearrangement, a local read or write, the posting of non-blocking sends and
    receives into a request slot, or a wait on request slots.  The processes are
    interleaved arbitrarily.

    Modelled rules of the MPI standard:
    - the k-th send from p to q on a communicator matches the k-th receive q posts for p on
      it (messages do not overtake); the communicator is [ctx] (point-to-point and
      collective traffic of one communicator have different contexts);
    - a receive completes when the matching send was posted; a send *may* complete at once
      (eager) and *must* complete once the matching receive was posted (rendezvous);
    - a buffer with a pending receive must not be read, written or passed to another
      request, a buffer with a pending send must not be written or passed to a receive;
      the program is erroneous otherwise;
    - the lengths of matching messages must agree (stricter than MPI, which allows a
      shorter message than the receive);
    - an active request must not be overwritten; waiting on an uninitialised request or a
      slot outside its array is erroneous; a null request completes at once.
    Since a buffer of a pending send is not modified, its data are read when it is posted;
    since a buffer of a pending receive is not read, its data are stored by the wait. *)
From Coq Require Import List Arith Bool Lia FunctionalExtensionality.
Import ListNotations.

Section Machine.
Variable V : Type.

Inductive spec :=
| Snd (dst ctx b off len : nat)
| Rcv (src ctx b off len : nat).

(** posted requests carry their sequence number on the channel *)
Inductive rq :=
| RSnd (dst ctx seq b off len : nat)
| RRcv (src ctx seq b off len : nat).

Inductive slot := Uninit | Null | Act (l : list rq).

Inductive prog :=
| Halt
| Fail                                                   (* exit with an error message *)
| Rd (b o : nat) (k : V -> prog)
| Wr (b o : nat) (v : V) (k : prog)
| Move (b1 o1 n1 b2 o2 n2 : nat) (g : nat -> nat) (inpl : bool) (k : prog)
    (* b2[o2+o] = b1[o1+g(o)] for all o<n2 *)
| Alloc (b n : nat) (k : prog)
| Free (b : nat) (k : prog)
| Post (a i : nat) (inpl : bool) (l : list spec) (k : prog)
| SetNull (a i : nat) (k : prog)
| Wait (ids : list (nat * nat)) (k : prog).

Record msg := mkMsg { mlen : nat; mdat : nat -> V }.

Record loc := mkLoc {
  mem : nat -> nat -> V;
  bsz : nat -> nat;                 (* buffer sizes; 0 = not allocated *)
  sl : nat -> nat -> slot;          (* request arrays *)
  slsz : nat -> nat;                (* their sizes *)
  slog : nat -> nat -> list msg;    (* messages sent: destination, context *)
  rlog : nat -> nat -> list nat }.  (* receives posted: source, context; their lengths *)

Definition pst := (prog * loc)%type.
Definition gst := nat -> pst.

Definition upd {A : Type} (f : nat -> A) (i : nat) (x : A) : nat -> A :=
  fun j => if Nat.eqb j i then x else f j.
Definition upd2 {A : Type} (f : nat -> nat -> A) (i j : nat) (x : A) : nat -> nat -> A :=
  fun i' j' => if Nat.eqb i' i && Nat.eqb j' j then x else f i' j'.

(** pending regions *)
Definition pendR (s : loc) (b o : nat) : Prop :=
  exists a i l src c q off len, sl s a i = Act l /\ In (RRcv src c q b off len) l /\ off <= o < off + len.
Definition pendS (s : loc) (b o : nat) : Prop :=
  exists a i l dst c q off len, sl s a i = Act l /\ In (RSnd dst c q b off len) l /\ off <= o < off + len.

Definition inactive (s : loc) (a i : nat) : Prop :=
  i < slsz s a /\ forall l, sl s a i <> Act l.

(** a cell belongs to a send (receive) of a list of specs *)
Definition inS (l : list spec) (b o : nat) : Prop :=
  exists dst c off len, In (Snd dst c b off len) l /\ off <= o < off + len.
Definition inR (l : list spec) (b o : nat) : Prop :=
  exists src c off len, In (Rcv src c b off len) l /\ off <= o < off + len.
(** receives of one call do not overlap each other *)
Fixpoint recvs_disj (l : list spec) : Prop :=
  match l with
  | [] => True
  | Snd _ _ _ _ _ :: l => recvs_disj l
  | Rcv _ _ b off len :: l => (forall o, off <= o < off + len -> ~ inR l b o) /\ recvs_disj l
  end.

Definition post_legal (s : loc) (a i : nat) (inpl : bool) (l : list spec) : Prop :=
  inactive s a i /\
  (forall b o, inS l b o -> o < bsz s b /\ ~ pendR s b o) /\
  (forall b o, inR l b o -> o < bsz s b /\ ~ pendR s b o /\ ~ pendS s b o) /\
  recvs_disj l /\
  (inpl = false -> forall b o, inS l b o -> inR l b o -> False).

(** effect of posting *)
Definition post1 (s : loc) (x : spec) : rq * loc :=
  match x with
  | Snd dst c b off len =>
      (RSnd dst c (length (slog s dst c)) b off len,
       mkLoc (mem s) (bsz s) (sl s) (slsz s)
         (upd2 (slog s) dst c (slog s dst c ++ [mkMsg len (fun t => mem s b (off + t))])) (rlog s))
  | Rcv src c b off len =>
      (RRcv src c (length (rlog s src c)) b off len,
       mkLoc (mem s) (bsz s) (sl s) (slsz s) (slog s)
         (upd2 (rlog s) src c (rlog s src c ++ [len])))
  end.
Fixpoint postl (s : loc) (l : list spec) : list rq * loc :=
  match l with
  | [] => ([], s)
  | x :: l => let '(r, s1) := post1 s x in let '(rs, s2) := postl s1 l in (r :: rs, s2)
  end.
Definition setsl (s : loc) (a i : nat) (x : slot) : loc :=
  mkLoc (mem s) (bsz s) (upd2 (sl s) a i x) (slsz s) (slog s) (rlog s).
Definition setmem (s : loc) (m : nat -> nat -> V) : loc :=
  mkLoc m (bsz s) (sl s) (slsz s) (slog s) (rlog s).
Definition setbsz (s : loc) (f : nat -> nat) : loc :=
  mkLoc (mem s) f (sl s) (slsz s) (slog s) (rlog s).
Definition do_post (s : loc) (a i : nat) (l : list spec) : loc :=
  let '(rs, s') := postl s l in setsl s' a i (Act rs).

Definition move_mem (m : nat -> nat -> V) (b1 o1 b2 o2 n2 : nat) (g : nat -> nat) : nat -> nat -> V :=
  fun b o => if Nat.eqb b b2 && Nat.leb o2 o && Nat.ltb o (o2 + n2)
             then m b1 (o1 + g (o - o2)) else m b o.

(** one local step (everything but a wait) *)
Inductive lstep : pst -> pst -> Prop :=
| l_rd : forall b o k s, o < bsz s b -> ~ pendR s b o -> lstep (Rd b o k, s) (k (mem s b o), s)
| l_wr : forall b o v k s, o < bsz s b -> ~ pendR s b o -> ~ pendS s b o ->
    lstep (Wr b o v k, s) (k, setmem s (upd2 (mem s) b o v))
| l_move : forall b1 o1 n1 b2 o2 n2 g inpl k s,
    (forall o, o < n2 -> g o < n1) ->
    (forall o, o < n1 -> o1 + o < bsz s b1 /\ ~ pendR s b1 (o1 + o)) ->
    (forall o, o < n2 -> o2 + o < bsz s b2 /\ ~ pendR s b2 (o2 + o) /\ ~ pendS s b2 (o2 + o)) ->
    (b1 <> b2 \/ (inpl = true /\ o1 = o2 /\ n1 = n2) \/ o1 + n1 <= o2 \/ o2 + n2 <= o1) ->
    lstep (Move b1 o1 n1 b2 o2 n2 g inpl k, s) (k, setmem s (move_mem (mem s) b1 o1 b2 o2 n2 g))
| l_alloc : forall b n k s, bsz s b = 0 -> lstep (Alloc b n k, s) (k, setbsz s (upd (bsz s) b n))
| l_free : forall b k s, (forall o, ~ pendR s b o /\ ~ pendS s b o) ->
    lstep (Free b k, s) (k, setbsz s (upd (bsz s) b 0))
| l_post : forall a i inpl l k s, post_legal s a i inpl l ->
    lstep (Post a i inpl l k, s) (k, do_post s a i l)
| l_null : forall a i k s, inactive s a i -> lstep (SetNull a i k, s) (k, setsl s a i Null).

(** the requests waited for *)
Definition reqs (s : loc) (ids : list (nat * nat)) : list rq :=
  flat_map (fun p => match sl s (fst p) (snd p) with Act l => l | _ => [] end) ids.

Definition ids_legal (s : loc) (ids : list (nat * nat)) : Prop :=
  forall a i, In (a, i) ids -> i < slsz s a /\ sl s a i <> Uninit.

Definition clear (s : loc) (ids : list (nat * nat)) : nat -> nat -> slot :=
  fun a i => if in_dec (fun x y : nat * nat => ltac:(decide equality; apply Nat.eq_dec)) (a, i) ids
             then Null else sl s a i.

(** the message a receive of process [r] matches *)
Definition matched (g : gst) (r : nat) (src c q : nat) : option msg :=
  nth_error (slog (snd (g src)) r c) q.

(** data delivered by the wait *)
Definition deliver1 (g : gst) (r : nat) (m : nat -> nat -> V) (x : rq) : nat -> nat -> V :=
  match x with
  | RSnd _ _ _ _ _ _ => m
  | RRcv src c q b off len =>
      match matched g r src c q with
      | Some d => fun b' o => if Nat.eqb b' b && Nat.leb off o && Nat.ltb o (off + len)
                              then mdat d (o - off) else m b' o
      | None => m
      end
  end.
Definition deliver (g : gst) (r : nat) (m : nat -> nat -> V) (l : list rq) : nat -> nat -> V :=
  fold_left (deliver1 g r) l m.

(** completion of a request: receives need the matching send; in the rendezvous mode sends
    need the matching receive *)
Definition complete (eager : bool) (g : gst) (r : nat) (x : rq) : Prop :=
  match x with
  | RSnd dst c q b off len => if eager then True else q < length (rlog (snd (g dst)) r c)
  | RRcv src c q b off len => exists d, matched g r src c q = Some d /\ mlen d = len
  end.

Inductive pstep (eager : bool) (g : gst) (r : nat) : pst -> Prop :=
| p_loc : forall st, lstep (g r) st -> pstep eager g r st
| p_wait : forall ids k s, g r = (Wait ids k, s) -> ids_legal s ids ->
    (forall x, In x (reqs s ids) -> complete eager g r x) ->
    pstep eager g r (k, mkLoc (deliver g r (mem s) (reqs s ids)) (bsz s) (clear s ids) (slsz s)
                              (slog s) (rlog s)).

(** an interleaving step of [P] processes *)
Inductive step (eager : bool) (P : nat) (g : gst) : gst -> Prop :=
| step_i : forall r st, r < P -> pstep eager g r st -> step eager P g (upd g r st).

Inductive steps (eager : bool) (P : nat) : nat -> gst -> gst -> Prop :=
| steps_0 : forall g, steps eager P 0 g g
| steps_S : forall n g g1 g2, step eager P g g1 -> steps eager P n g1 g2 -> steps eager P (S n) g g2.

(** a process about to do something erroneous *)
Definition erroneous (g : gst) (r : nat) : Prop :=
  match g r with
  | (Halt, _) => False
  | (Wait ids k, s) => ~ ids_legal s ids \/
      exists src c q b off len d, In (RRcv src c q b off len) (reqs s ids) /\
        matched g r src c q = Some d /\ mlen d <> len
  | st => forall st', ~ lstep st st'
  end.

Definition bad (P : nat) (g : gst) : Prop := exists r, r < P /\ erroneous g r.
Definition done (P : nat) (g : gst) : Prop := forall r, r < P -> fst (g r) = Halt.

(** ** Interleavings commute *)

Lemma lstep_det : forall st a b, lstep st a -> lstep st b -> a = b.
Proof. intros st a b H1 H2. inversion H1; subst; inversion H2; subst; reflexivity. Qed.

Lemma pstep_det : forall e1 e2 g r a b, pstep e1 g r a -> pstep e2 g r b -> a = b.
Proof.
  intros e1 e2 g r a b H1 H2. inversion H1; subst; inversion H2; subst.
  - eapply lstep_det; eauto.
  - rewrite H0 in H. inversion H.
  - rewrite H in H4. inversion H4.
  - rewrite H in H4. inversion H4; subst. reflexivity.
Qed.

(** logs only grow *)
Definition grows (s s' : loc) : Prop :=
  (forall d c, exists l, slog s' d c = slog s d c ++ l) /\
  (forall d c, exists l, rlog s' d c = rlog s d c ++ l).

Lemma grows_refl : forall s, grows s s.
Proof. intros s; split; intros; exists []; rewrite app_nil_r; auto. Qed.

Lemma grows_trans : forall a b c, grows a b -> grows b c -> grows a c.
Proof.
  intros a b c [H1 H2] [H3 H4]. split; intros d x.
  - destruct (H1 d x) as [l1 E1], (H3 d x) as [l2 E2]. exists (l1 ++ l2). rewrite E2, E1, app_assoc; auto.
  - destruct (H2 d x) as [l1 E1], (H4 d x) as [l2 E2]. exists (l1 ++ l2). rewrite E2, E1, app_assoc; auto.
Qed.

Lemma grows_eq : forall s s', slog s' = slog s -> rlog s' = rlog s -> grows s s'.
Proof. intros s s' E1 E2. split; intros; exists []; rewrite app_nil_r, ?E1, ?E2; auto. Qed.

Lemma upd2_app : forall (A : Type) (f : nat -> nat -> list A) i j l d c,
  exists l', upd2 f i j (f i j ++ l) d c = f d c ++ l'.
Proof.
  intros. unfold upd2. destruct (Nat.eqb_spec d i), (Nat.eqb_spec c j); subst; simpl;
  [exists l|exists []|exists []|exists []]; rewrite ?app_nil_r; auto.
Qed.

Lemma post1_grows : forall s x, grows s (snd (post1 s x)).
Proof.
  intros s [dst c b off len|src c b off len]; simpl; split; simpl; intros;
  try (exists []; rewrite app_nil_r; reflexivity); apply upd2_app.
Qed.

Lemma postl_grows : forall l s, grows s (snd (postl s l)).
Proof.
  induction l as [|x l IH]; intros s; simpl; [apply grows_refl|].
  pose proof (post1_grows s x) as G. destruct (post1 s x) as [r s1].
  specialize (IH s1). destruct (postl s1 l) as [rs s2]. simpl in *. eapply grows_trans; eauto.
Qed.

Lemma lstep_grows : forall st st', lstep st st' -> grows (snd st) (snd st').
Proof.
  intros st st' H. destruct H; simpl; try apply grows_refl; try (apply grows_eq; reflexivity).
  unfold do_post. pose proof (postl_grows l s) as G. destruct (postl s l) as [rs s']. simpl in *.
  eapply grows_trans; eauto. apply grows_eq; reflexivity.
Qed.

Lemma pstep_grows : forall e g r st, pstep e g r st -> grows (snd (g r)) (snd st).
Proof.
  intros e g r st H. destruct H as [st H|ids k s E H1 H2].
  - apply lstep_grows; auto.
  - rewrite E. simpl. apply grows_eq; reflexivity.
Qed.

Lemma upd_eq : forall (A : Type) (f : nat -> A) i x, upd f i x i = x.
Proof. intros. unfold upd. rewrite Nat.eqb_refl; auto. Qed.
Lemma upd_neq : forall (A : Type) (f : nat -> A) i j x, j <> i -> upd f i x j = f j.
Proof. intros. unfold upd. destruct (Nat.eqb_spec j i); auto; contradiction. Qed.
Lemma upd_comm : forall (A : Type) (f : nat -> A) i j x y, i <> j -> upd (upd f i x) j y = upd (upd f j y) i x.
Proof.
  intros. apply functional_extensionality. intros k. unfold upd.
  destruct (Nat.eqb_spec k j), (Nat.eqb_spec k i); subst; auto; contradiction.
Qed.

(** state [g'] differs from [g] by larger logs, as seen by the others *)
Definition gle (g g' : gst) : Prop := forall p, grows (snd (g p)) (snd (g' p)).

Lemma gle_upd : forall e g r st, pstep e g r st -> gle g (upd g r st).
Proof.
  intros e g r st H p. destruct (Nat.eq_dec p r) as [->|N].
  - rewrite upd_eq. apply pstep_grows in H; auto.
  - rewrite upd_neq by auto. apply grows_refl.
Qed.

Lemma matched_gle : forall g g' r src c q d, gle g g' -> matched g r src c q = Some d -> matched g' r src c q = Some d.
Proof.
  intros g g' r src c q d H E. unfold matched in *. destruct (H src) as [H1 _]. destruct (H1 r c) as [l El].
  rewrite El. rewrite nth_error_app1; auto. apply nth_error_Some. congruence.
Qed.

Lemma complete_gle : forall e g g' r x, gle g g' -> complete e g r x -> complete e g' r x.
Proof.
  intros e g g' r [dst c q b off len|src c q b off len] H C; simpl in *.
  - destruct e; auto. destruct (H dst) as [_ H1]. destruct (H1 r c) as [l El]. rewrite El, app_length. lia.
  - destruct C as (d & E & L). exists d. split; auto. eapply matched_gle; eauto.
Qed.

Lemma deliver_gle : forall e g g' r l m, gle g g' -> (forall x, In x l -> complete e g r x) ->
  deliver g' r m l = deliver g r m l.
Proof.
  intros e g g' r l m H. revert m. unfold deliver. induction l as [|x l IH]; intros m C; simpl; auto.
  rewrite IH by (intros; apply C; right; auto). f_equal.
  specialize (C x (or_introl eq_refl)). destruct x as [|src c q b off len]; simpl in *; auto.
  destruct C as (d & E & _). rewrite E, (matched_gle _ _ _ _ _ _ _ H E). auto.
Qed.

Lemma pstep_gle : forall e g g' r st, gle g g' -> g' r = g r -> pstep e g r st -> pstep e g' r st.
Proof.
  intros e g g' r st H E S. destruct S as [st S|ids k s Eg H1 H2].
  - apply p_loc. rewrite E; auto.
  - rewrite <- (deliver_gle e g g' r (reqs s ids) (mem s) H H2).
    apply p_wait; auto; [congruence|]. intros x Hx. eapply complete_gle; eauto.
Qed.

(** the two kinds of steps commute *)
Lemma diamond : forall e1 e2 P g g1 g2, step e1 P g g1 -> step e2 P g g2 ->
  g1 = g2 \/ exists g3, step e2 P g1 g3 /\ step e1 P g2 g3.
Proof.
  intros e1 e2 P g g1 g2 [r1 s1 R1 S1] [r2 s2 R2 S2].
  destruct (Nat.eq_dec r1 r2) as [->|N].
  - left. rewrite (pstep_det _ _ _ _ _ _ S1 S2). auto.
  - right. exists (upd (upd g r1 s1) r2 s2). split.
    + constructor; auto. apply (pstep_gle e2 g (upd g r1 s1) r2 s2 (gle_upd _ _ _ _ S1)); auto.
      apply upd_neq; auto.
    + rewrite upd_comm by auto. constructor; auto.
      apply (pstep_gle e1 g (upd g r2 s2) r1 s1 (gle_upd _ _ _ _ S2)); auto. apply upd_neq; auto.
Qed.

Lemma steps_strip : forall e1 e2 P n g gf g1, steps e1 P n g gf -> done P gf -> step e2 P g g1 ->
  exists m, n = S m /\ steps e1 P m g1 gf.
Proof.
  intros e1 e2 P n. induction n as [|n IH]; intros g gf g1 S D S1.
  - inversion S; subst. destruct S1 as [r st R H]. exfalso. specialize (D r R).
    destruct H as [st H|ids k s E H1 H2].
    + destruct (gf r) as [p s]. simpl in D. subst p. inversion H.
    + rewrite E in D. discriminate.
  - inversion S as [|? ? g2 ? A B]; subst. exists n. split; auto.
    destruct (diamond _ _ _ _ _ _ A S1) as [->|(g3 & D1 & D2)]; auto.
    destruct (IH _ _ _ B D D1) as (m & -> & T). econstructor; eauto.
Qed.

(** an erroneous process stays erroneous *)
Lemma err_step : forall e P g g', bad P g -> step e P g g' -> bad P g'.
Proof.
  intros e P g g' (r & R & E) [q st Q S].
  destruct (Nat.eq_dec r q) as [->|N].
  - exfalso. unfold erroneous in E. destruct S as [st S|ids k s Eg H1 H2].
    + destruct (g q) as [p s]. destruct p; try (eapply E; eassumption); inversion S.
    + rewrite Eg in E. destruct E as [E|(src & c & x & b & off & len & d & I & M & L)]; auto.
      destruct (H2 _ I) as (d' & M' & L'). congruence.
  - exists r. split; auto. unfold erroneous in *. rewrite upd_neq by auto. destruct (g r) as [p s] eqn:Eg.
    destruct p; auto. destruct E as [E|(src & c & x & b & off & len & d & I & M & L)]; auto.
    right. exists src, c, x, b, off, len, d. split; auto. split; auto.
    eapply matched_gle; [eapply gle_upd; eauto|auto].
Qed.

Lemma bad_steps : forall e P n g g', bad P g -> steps e P n g g' -> bad P g'.
Proof. intros e P n g g' B S. induction S; auto. apply IHS. eapply err_step; eauto. Qed.

Lemma done_not_bad : forall P g, done P g -> ~ bad P g.
Proof.
  intros P g D (r & R & E). unfold erroneous in E. specialize (D r R). destruct (g r) as [p s].
  simpl in D. subst p. auto.
Qed.

(** One complete rendezvous run decides all runs: every interleaving, with any mixture of
    eager and rendezvous sends, is error free, is at most [n] steps long and can always be
    continued, even without any buffering of sends, to the same final state. *)
Theorem one_run_decides : forall P n g gf, steps false P n g gf -> done P gf ->
  forall e k g1, steps e P k g g1 ->
  k <= n /\ steps false P (n - k) g1 gf /\ ~ bad P g1.
Proof.
  intros P n g gf S D e k g1 S1. revert n S. induction S1 as [g|k g g2 g1 A B IH]; intros n S.
  - rewrite Nat.sub_0_r. split; [lia|]. split; auto.
    intros X. eapply done_not_bad; eauto. eapply bad_steps; eauto.
  - destruct (steps_strip _ _ _ _ _ _ _ S D A) as (m & -> & T). destruct (IH m T) as (I1 & I2 & I3).
    split; [lia|]. simpl. auto.
Qed.

End Machine.
