(** Exchanges described by links: pairs of a receive from and a send to the same peer. *)
From Coq Require Import List Arith Bool Lia.
From Verif Require Import MpiMachine MpiRun.
Import ListNotations.

Record link := mkLink { lpeer : nat; lctx : nat; lroff : nat; lrlen : nat; lsoff : nat; lslen : nat }.

Definition lr (rb : nat) (k : link) : list spec :=
  if 0 <? lrlen k then [Rcv (lpeer k) (lctx k) rb (lroff k) (lrlen k)] else [].
Definition ls (sb : nat) (k : link) : list spec :=
  if 0 <? lslen k then [Snd (lpeer k) (lctx k) sb (lsoff k) (lslen k)] else [].
Definition specs_of (sb rb : nat) (L : list link) : list spec := flat_map (fun k => lr rb k ++ ls sb k) L.

Lemma specs_of_rcv : forall sb rb L d c b o l, In (Rcv d c b o l) (specs_of sb rb L) <->
  exists k, In k L /\ 0 < lrlen k /\ d = lpeer k /\ c = lctx k /\ b = rb /\ o = lroff k /\ l = lrlen k.
Proof.
  intros. unfold specs_of. rewrite in_flat_map. split; intros (k & I & H); exists k.
  - apply in_app_or in H. unfold lr, ls in H. destruct (Nat.ltb_spec 0 (lrlen k)), (Nat.ltb_spec 0 (lslen k));
    simpl in H; destruct H as [[H|[]]|[H|[]]] || destruct H as [[H|[]]|[]] || destruct H as [[]|[H|[]]] || destruct H as [[]|[]];
    inversion H; subst; auto 10.
  - split; auto. destruct H as (H & -> & -> & -> & -> & ->). apply in_or_app. left. unfold lr.
    destruct (Nat.ltb_spec 0 (lrlen k)); [left; auto|lia].
Qed.
Lemma specs_of_snd : forall sb rb L d c b o l, In (Snd d c b o l) (specs_of sb rb L) <->
  exists k, In k L /\ 0 < lslen k /\ d = lpeer k /\ c = lctx k /\ b = sb /\ o = lsoff k /\ l = lslen k.
Proof.
  intros. unfold specs_of. rewrite in_flat_map. split; intros (k & I & H); exists k.
  - apply in_app_or in H. unfold lr, ls in H. destruct (Nat.ltb_spec 0 (lrlen k)), (Nat.ltb_spec 0 (lslen k));
    simpl in H; destruct H as [[H|[]]|[H|[]]] || destruct H as [[H|[]]|[]] || destruct H as [[]|[H|[]]] || destruct H as [[]|[]];
    inversion H; subst; auto 10.
  - split; auto. destruct H as (H & -> & -> & -> & -> & ->). apply in_or_app. right. unfold ls.
    destruct (Nat.ltb_spec 0 (lslen k)); [left; auto|lia].
Qed.

Definition lkey (k : link) : nat * nat := (lpeer k, lctx k).

Lemma specs_of_key : forall sb rb L bo d c, In (bo, d, c) (map skey (specs_of sb rb L)) -> In (d, c) (map lkey L).
Proof.
  intros sb rb L bo d c I. apply in_map_iff in I. destruct I as (x & E & I). destruct x as [d' c' b o l|d' c' b o l];
  simpl in E; inversion E; subst; [apply specs_of_snd in I|apply specs_of_rcv in I];
  destruct I as (k & I & _ & -> & -> & _); apply in_map_iff; exists k; auto.
Qed.
Lemma specs_of_keys : forall sb rb L, NoDup (map lkey L) -> NoDup (map skey (specs_of sb rb L)).
Proof.
  intros sb rb L. induction L as [|k L IH]; intros H; simpl; [constructor|]. inversion H; subst.
  unfold lr, ls. destruct (0 <? lrlen k), (0 <? lslen k); simpl; auto.
  - constructor; [|constructor; auto].
    + intros [E|E]; [discriminate|]. apply specs_of_key in E. auto.
    + intros E. apply specs_of_key in E. auto.
  - constructor; auto. intros E. apply specs_of_key in E. auto.
  - constructor; auto. intros E. apply specs_of_key in E. auto.
Qed.

(** receive regions do not overlap *)
Definition regions_disj (L : list link) : Prop :=
  forall k k' o, In k L -> In k' L -> lroff k <= o < lroff k + lrlen k -> lroff k' <= o < lroff k' + lrlen k' -> k = k'.

Lemma specs_of_disj : forall sb rb L, NoDup L -> regions_disj L -> recvs_disj (specs_of sb rb L).
Proof.
  intros sb rb L. induction L as [|k L IH]; intros ND H; simpl; auto. inversion ND; subst.
  assert (R : recvs_disj (specs_of sb rb L)).
  { apply IH; auto. intros k1 k2 o I1 I2. apply H; right; auto. }
  assert (N : forall o, lroff k <= o < lroff k + lrlen k -> ~ inR (specs_of sb rb L) rb o).
  { intros o Ho (src & c & off & len & I & Ho'). apply specs_of_rcv in I.
    destruct I as (k' & I & _ & _ & _ & _ & -> & ->).
    assert (k = k') by (apply (H k k' o); auto; [left|right]; auto). subst. auto. }
  unfold lr, ls. destruct (0 <? lrlen k), (0 <? lslen k); simpl; auto.
  split; auto. intros o Ho (src & c & off & len & [I|I] & Ho'); [discriminate|]. eapply N; eauto.
  exists src, c, off, len. auto.
Qed.

Lemma specs_of_app : forall sb rb L1 L2, specs_of sb rb (L1 ++ L2) = specs_of sb rb L1 ++ specs_of sb rb L2.
Proof. intros. unfold specs_of. apply flat_map_app. Qed.

(** items for point to point exchanges with the peers [Ps] *)
Definition items_of (arr sb rb : nat) (iR iS : nat -> nat) (lk : nat -> link) (Ps : list nat) : list item :=
  flat_map (fun P => let k := lk P in
    [(arr, iR P, false, if 0 <? lrlen k then Some [Rcv (lpeer k) (lctx k) rb (lroff k) (lrlen k)] else None);
     (arr, iS P, false, if 0 <? lslen k then Some [Snd (lpeer k) (lctx k) sb (lsoff k) (lslen k)] else None)]) Ps.
Lemma items_of_specs : forall arr sb rb iR iS lk Ps,
  specs (items_of arr sb rb iR iS lk Ps) = specs_of sb rb (map lk Ps).
Proof.
  intros. unfold items_of. induction Ps as [|k L IH]; auto. cbn [flat_map]. cbv zeta. rewrite specs_app, IH.
  cbn [map specs_of flat_map].
  f_equal. unfold specs, lr, ls, ispecs. destruct (0 <? lrlen (lk k)), (0 <? lslen (lk k)); auto.
Qed.
Lemma items_of_slots : forall arr sb rb iR iS lk Ps,
  map islot (items_of arr sb rb iR iS lk Ps) = flat_map (fun P => [(arr, iR P); (arr, iS P)]) Ps.
Proof. intros. induction Ps; auto. cbn [items_of flat_map app map islot fst]. f_equal. f_equal. apply IHPs. Qed.

Section Links.
Variable V : Type.
Notation loc := (loc V). Notation prog := (prog V). Notation gst := (gst V).
Notation cmd := (prog -> prog).

Lemma Posted_ms : forall s s1 ms ms' l, Posted V s s1 ms l ->
  (forall d c b off len, In (Snd d c b off len) (specs l) -> forall t, t < len -> ms' b (off + t) = ms b (off + t)) ->
  Posted V s s1 ms' l.
Proof.
  intros s s1 ms ms' l [A1 A2 A3 A4 A5 A6 A7 A8] H. constructor; auto.
  intros d c b off len I. destruct (A4 _ _ _ _ _ I) as (dat & E & D). exists dat. split; auto.
  intros t Ht. rewrite D by auto. symmetry. eapply H; eauto.
Qed.
Lemma Posted_pre : forall s s1 ms l m, Posted V (setmem V s m) s1 ms l -> Posted V s s1 ms l.
Proof.
  intros s s1 ms l m [A1 A2 A3 A4 A5 A6 A7 A8]. constructor; auto.
Qed.

(** the copy of the process's own part *)
Definition ocopy (sb rb : nat) (x : option (nat * nat * nat)) : cmd :=
  match x with Some (o1, o2, len) => Move V sb o1 len rb o2 len (fun o => o) false | None => fun k => k end.
Definition omem (sb rb : nat) (x : option (nat * nat * nat)) (m : nat -> nat -> V) : nat -> nat -> V :=
  match x with Some (o1, o2, len) => move_mem V m sb o1 rb o2 len (fun o => o) | None => m end.
Definition copy_ok (L : list link) (ns nr : nat) (x : option (nat * nat * nat)) : Prop :=
  match x with
  | Some (o1, o2, len) => (0 < len -> o1 + len <= ns) /\ (0 < len -> o2 + len <= nr) /\
      forall k o, In k L -> o2 <= o < o2 + len -> ~ (lroff k <= o < lroff k + lrlen k)
  | None => True
  end.

Lemma setmem_mem : forall s : loc, setmem V s (mem V s) = s.
Proof. intros []; reflexivity. Qed.
Lemma setmem_setmem : forall (s : loc) m m', setmem V (setmem V s m) m' = setmem V s m'.
Proof. intros []; reflexivity. Qed.
Lemma pendR_setmem : forall s m b o, pendR V (setmem V s m) b o <-> pendR V s b o.
Proof. intros. reflexivity. Qed.
Lemma pendS_setmem : forall s m b o, pendS V (setmem V s m) b o <-> pendS V s b o.
Proof. intros. reflexivity. Qed.

Lemma ocopy_run : forall sb rb x s, sb <> rb ->
  (forall b o, b = sb -> ~ pendR V s b o) ->
  (forall b o, b = rb -> ~ pendS V s b o) ->
  match x with Some (o1, o2, len) => (0 < len -> o1 + len <= bsz V s sb) /\ (0 < len -> o2 + len <= bsz V s rb) /\
     (forall o, o2 <= o < o2 + len -> ~ pendR V s rb o) | None => True end ->
  runs V (ocopy sb rb x) s (setmem V s (omem sb rb x (mem V s))).
Proof.
  intros sb rb [[[o1 o2] len]|] s Hne HR HS H; simpl.
  - intros k. eapply ls_S; [|apply ls_0]. destruct H as (H1 & H2 & H3). apply l_move; auto.
    + intros o Ho. split; [lia|]. apply HR; auto.
    + intros o Ho. split; [lia|]. split; [apply H3; lia|apply HS; auto].
  - rewrite setmem_mem. apply runs_skip.
Qed.

Lemma omem_other : forall sb rb x m b o, b <> rb -> omem sb rb x m b o = m b o.
Proof.
  intros sb rb [[[o1 o2] len]|] m b o H; simpl; auto. unfold move_mem.
  destruct (Nat.eqb_spec b rb); [contradiction|]. auto.
Qed.
Lemma omem_in : forall sb rb o1 o2 len m t, t < len -> omem sb rb (Some (o1, o2, len)) m rb (o2 + t) = m sb (o1 + t).
Proof.
  intros. simpl. unfold move_mem. rewrite Nat.eqb_refl. destruct (Nat.leb_spec o2 (o2 + t)); [|lia].
  destruct (Nat.ltb_spec (o2 + t) (o2 + len)); [|lia]. simpl. f_equal. lia.
Qed.
Lemma omem_out : forall sb rb o1 o2 len m o, ~ (o2 <= o < o2 + len) -> omem sb rb (Some (o1, o2, len)) m rb o = m rb o.
Proof.
  intros. simpl. unfold move_mem. rewrite Nat.eqb_refl. destruct (Nat.leb_spec o2 o); auto.
  destruct (Nat.ltb_spec o (o2 + len)); auto; lia.
Qed.

(** posting between two different buffers *)
Lemma pre_run : forall sb rb A B ca cb L (s : loc), sb <> rb -> quiet V s ->
  specs (A ++ B) = specs_of sb rb L -> NoDup (map islot (A ++ B)) ->
  (forall x, In x (A ++ B) -> snd (islot x) < slsz V s (fst (islot x))) ->
  NoDup (map lkey L) -> NoDup L -> regions_disj L ->
  (forall k, In k L -> (0 < lslen k -> lsoff k + lslen k <= bsz V s sb) /\ (0 < lrlen k -> lroff k + lrlen k <= bsz V s rb)) ->
  copy_ok L (bsz V s sb) (bsz V s rb) ca -> copy_ok L (bsz V s sb) (bsz V s rb) cb ->
  exists s1, runs V (fun k => post_items V A (ocopy sb rb ca (post_items V B (ocopy sb rb cb k)))) s s1 /\
    Posted V s s1 (mem V s) (A ++ B) /\ mem V s1 = omem sb rb cb (omem sb rb ca (mem V s)).
Proof.
  intros sb rb A B ca cb L s Hne Qt Sp NDs Szs NDk NDL Dj Bd Ca Cb.
  pose proof (specs_of_keys sb rb L NDk) as K. pose proof (specs_of_disj sb rb L NDL Dj) as RD.
  rewrite <- Sp in K, RD. rewrite specs_app in K, RD. destruct (recvs_disj_app _ _ RD) as (RA & RB & RAB).
  assert (InS : forall b o, inS (specs (A ++ B)) b o -> b = sb /\ o < bsz V s sb).
  { intros b o (d & c & off & len & I & Ho). rewrite Sp in I. apply specs_of_snd in I.
    destruct I as (k & I & Z & -> & -> & -> & -> & ->). split; auto. destruct (Bd k I) as [B1 B2]. specialize (B1 Z). lia. }
  assert (InR : forall b o, inR (specs (A ++ B)) b o -> b = rb /\ o < bsz V s rb /\ exists k, In k L /\ lroff k <= o < lroff k + lrlen k).
  { intros b o (d & c & off & len & I & Ho). rewrite Sp in I. apply specs_of_rcv in I.
    destruct I as (k & I & Z & -> & -> & -> & -> & ->). split; auto. destruct (Bd k I) as [B1 B2]. specialize (B2 Z). split; [lia|].
    exists k. auto. }
  assert (InSA : forall b o, inS (specs A) b o -> inS (specs (A ++ B)) b o) by (intros; rewrite specs_app; apply inS_app; auto).
  assert (InSB : forall b o, inS (specs B) b o -> inS (specs (A ++ B)) b o) by (intros; rewrite specs_app; apply inS_app; auto).
  assert (InRA : forall b o, inR (specs A) b o -> inR (specs (A ++ B)) b o) by (intros; rewrite specs_app; apply inR_app; auto).
  assert (InRB : forall b o, inR (specs B) b o -> inR (specs (A ++ B)) b o) by (intros; rewrite specs_app; apply inR_app; auto).
  assert (NR : forall b o, ~ pendR V s b o) by (intros b o (a & i & l & ? & ? & ? & ? & ? & E & _); apply (Qt a i l E)).
  assert (NS : forall b o, ~ pendS V s b o) by (intros b o (a & i & l & ? & ? & ? & ? & ? & E & _); apply (Qt a i l E)).
  assert (Ina : forall x, In x (A ++ B) -> inactive V s (fst (islot x)) (snd (islot x))).
  { intros x I. split; [apply Szs; auto|]. intros l. apply Qt. }
  rewrite map_app in NDs, K.
  destruct (post_items_run V A s) as (s1 & R1 & P1 & M1); auto.
  { eapply NoDup_app_l; eauto. } { eapply NoDup_app_l; eauto. }
  { intros x I. apply Ina. apply in_or_app; auto. }
  { intros b o I. destruct (InS b o) as [-> Q]; auto. }
  { intros b o I. destruct (InR b o) as (-> & Q & _); auto. }
  { intros b o I J. destruct (InS b o) as [-> Q]; auto. destruct (InR sb o) as (E & _); auto. }
  assert (PR1 : forall b o, pendR V s1 b o -> inR (specs A) b o).
  { intros b o Pd. destruct (Posted_pendR V _ _ _ _ _ _ P1 (fun x I => Ina x (in_or_app _ _ _ (or_introl I))) Pd); auto. exfalso; eapply NR; eauto. }
  assert (PS1 : forall b o, pendS V s1 b o -> inS (specs A) b o).
  { intros b o Pd. destruct (Posted_pendS V _ _ _ _ _ _ P1 Pd); auto. exfalso; eapply NS; eauto. }
  assert (Bz1 : bsz V s1 = bsz V s) by apply (po_bsz _ _ _ _ _ P1).
  assert (R2 : runs V (ocopy sb rb ca) s1 (setmem V s1 (omem sb rb ca (mem V s1)))).
  { apply ocopy_run; auto.
    - intros b o -> Pd. destruct (InR sb o) as (E & _); auto.
    - intros b o -> Pd. destruct (InS rb o) as [E Q]; auto.
    - destruct ca as [[[o1 o2] len]|]; auto. destruct Ca as (C1 & C2 & C3). rewrite Bz1. split; auto. split; auto.
      intros o Ho Pd. destruct (InR rb o) as (_ & _ & k & I & Hk); auto. apply (C3 k o); auto. }
  set (s2 := setmem V s1 (omem sb rb ca (mem V s1))) in *.
  destruct (post_items_run V B s2) as (s3 & R3 & P3 & M3); auto.
  { eapply NoDup_app_r; eauto. } { eapply NoDup_app_r; eauto. }
  { intros x I. destruct (Ina x (in_or_app _ _ _ (or_intror I))) as [I1 I2]. split.
    - unfold s2; cbn [slsz setmem]. rewrite (po_slsz _ _ _ _ _ P1). auto.
    - unfold s2; cbn [sl setmem]. rewrite (po_sl0 _ _ _ _ _ P1); auto. intros J.
      eapply NoDup_app_not; [exact NDs|exact J|]. apply in_map_iff. exists x. destruct (islot x); auto. }
  { intros b o I. destruct (InS b o) as [-> Q]; auto. unfold s2; cbn [bsz setmem]. rewrite Bz1. split; auto.
    intros Pd. destruct (InR sb o) as (E & _); auto. }
  { intros b o I. destruct (InR b o) as (-> & Q & _); auto. unfold s2; cbn [bsz setmem]. rewrite Bz1. split; auto. split.
    - intros Pd. apply (RAB rb o); auto.
    - intros Pd. destruct (InS rb o) as [E Q']; auto. }
  { intros b o I J. destruct (InS b o) as [-> Q]; auto. destruct (InR sb o) as (E & _); auto. }
  assert (Bz3 : bsz V s3 = bsz V s) by (rewrite (po_bsz _ _ _ _ _ P3); unfold s2; cbn [bsz setmem]; auto).
  assert (PA : Posted V s s3 (mem V s) (A ++ B)).
  { apply (Posted_app V s s2 s3); auto.
    - unfold s2. apply Posted_mem. auto.
    - apply (Posted_ms _ _ (mem V s2)); auto. intros d c b off len I t Ht.
      unfold s2; cbn [mem setmem]. rewrite M1. symmetry. apply omem_other.
      destruct (InS b (off + t)) as [-> Q]; auto. apply InSB. exists d, c, off, len. split; auto; lia.
    - rewrite specs_app, map_app. auto.
    - rewrite map_app; auto. }
  assert (R4 : runs V (ocopy sb rb cb) s3 (setmem V s3 (omem sb rb cb (mem V s3)))).
  { assert (PR3 : forall b o, pendR V s3 b o -> inR (specs (A ++ B)) b o).
    { intros b o Pd. destruct (Posted_pendR V _ _ _ _ _ _ PA Ina Pd); auto. exfalso; eapply NR; eauto. }
    assert (PS3 : forall b o, pendS V s3 b o -> inS (specs (A ++ B)) b o).
    { intros b o Pd. destruct (Posted_pendS V _ _ _ _ _ _ PA Pd); auto. exfalso; eapply NS; eauto. }
    apply ocopy_run; auto.
    - intros b o -> Pd. destruct (InR sb o) as (E & _); auto.
    - intros b o -> Pd. destruct (InS rb o) as [E Q]; auto.
    - destruct cb as [[[o1 o2] len]|]; auto. destruct Cb as (C1 & C2 & C3). rewrite Bz3. split; auto. split; auto.
      intros o Ho Pd. destruct (InR rb o) as (_ & _ & k & I & Hk); auto. apply (C3 k o); auto. }
  exists (setmem V s3 (omem sb rb cb (mem V s3))). split; [|split].
  - apply (runs_seq V (post_items V A) (fun k => ocopy sb rb ca (post_items V B (ocopy sb rb cb k))) s s1); auto.
    apply (runs_seq V (ocopy sb rb ca) (fun k => post_items V B (ocopy sb rb cb k)) s1 s2); auto.
    apply (runs_seq V (post_items V B) (ocopy sb rb cb) s2 s3); auto.
  - apply Posted_mem. auto.
  - cbn [mem setmem]. rewrite M3. unfold s2; cbn [mem setmem]. rewrite M1. auto.
Qed.

(** a single collective, possibly in place *)
Lemma coll_run : forall sb rb arr i L (s : loc), quiet V s -> i < slsz V s arr ->
  NoDup (map lkey L) -> NoDup L -> regions_disj L ->
  (forall k, In k L -> (0 < lslen k -> lsoff k + lslen k <= bsz V s sb) /\ (0 < lrlen k -> lroff k + lrlen k <= bsz V s rb)) ->
  exists s1, runs V (Post V arr i (sb =? rb) (specs_of sb rb L)) s s1 /\
    Posted V s s1 (mem V s) [(arr, i, sb =? rb, Some (specs_of sb rb L))] /\ mem V s1 = mem V s.
Proof.
  intros sb rb arr i L s Qt Sz NDk NDL Dj Bd.
  pose proof (specs_of_keys sb rb L NDk) as K. pose proof (specs_of_disj sb rb L NDL Dj) as RD.
  assert (NR : forall b o, ~ pendR V s b o) by (intros b o (a & j & l & ? & ? & ? & ? & ? & E & _); apply (Qt a j l E)).
  assert (NS : forall b o, ~ pendS V s b o) by (intros b o (a & j & l & ? & ? & ? & ? & ? & E & _); apply (Qt a j l E)).
  destruct (Posted_one V s arr i (sb =? rb) (specs_of sb rb L) K) as [P1 P2].
  exists (do_post V s arr i (specs_of sb rb L)). split; auto. apply runs_post.
  assert (InS : forall b o, inS (specs_of sb rb L) b o -> b = sb /\ o < bsz V s sb).
  { intros b o (d & c & off & len & I & Ho). apply specs_of_snd in I.
    destruct I as (k & I & Z & -> & -> & -> & -> & ->). split; auto. destruct (Bd k I) as [B1 B2]. specialize (B1 Z). lia. }
  assert (InR : forall b o, inR (specs_of sb rb L) b o -> b = rb /\ o < bsz V s rb).
  { intros b o (d & c & off & len & I & Ho). apply specs_of_rcv in I.
    destruct I as (k & I & Z & -> & -> & -> & -> & ->). split; auto. destruct (Bd k I) as [B1 B2]. specialize (B2 Z). lia. }
  split; [split; [auto|intros l; apply Qt]|]. split; [|split; [|split]]; auto.
  - intros b o I. destruct (InS b o I) as [-> Q]. auto.
  - intros b o I. destruct (InR b o I) as [-> Q]. auto.
  - destruct (Nat.eqb_spec sb rb); [discriminate|]. intros _ b o I J. destruct (InS b o I) as [-> _].
    destruct (InR sb o J) as [-> _]. auto.
Qed.

(** the exchange *)
Definition symmetric (P : nat) (L : nat -> list link) : Prop :=
  forall r k, r < P -> In k (L r) -> lpeer k < P /\
    exists k', In k' (L (lpeer k)) /\ lpeer k' = r /\ lctx k' = lctx k /\ lslen k' = lrlen k /\ lrlen k' = lslen k.

Theorem link_phase : forall P (g : gst) (pre : nat -> cmd) (wl : nat -> list (list (nat * nat)))
    (k : nat -> prog) (s s1 : nat -> loc) (items : nat -> list item) (ms : nat -> nat -> nat -> V)
    (sb rb : nat) (L : nat -> list link),
  (forall r, r < P -> g r = (pre r (waits V (wl r) (k r)), s r)) ->
  balanced V P s ->
  (forall r, r < P -> quiet V (s r)) ->
  (forall r, r < P -> runs V (pre r) (s r) (s1 r) /\ Posted V (s r) (s1 r) (ms r) (items r)) ->
  (forall r a i, r < P -> In (a, i) (concat (wl r)) <-> In (a, i) (map islot (items r))) ->
  (forall r, r < P -> NoDup (concat (wl r))) ->
  (forall r x, r < P -> In x (items r) -> snd (islot x) < slsz V (s r) (fst (islot x))) ->
  (forall r, r < P -> specs (items r) = specs_of sb rb (L r)) ->
  (forall r, r < P -> NoDup (map lkey (L r)) /\ regions_disj (L r)) ->
  symmetric P L ->
  exists n g2 s2, steps V false P n g g2 /\
    (forall r, r < P -> g2 r = (k r, s2 r)) /\ (forall r, P <= r -> g2 r = g r) /\
    balanced V P s2 /\ (forall r, r < P -> quiet V (s2 r)) /\
    (forall r, r < P -> bsz V (s2 r) = bsz V (s r) /\ slsz V (s2 r) = slsz V (s r)) /\
    (forall r, r < P ->
      (forall x y t, In x (L r) -> In y (L (lpeer x)) -> lpeer y = r -> lctx y = lctx x -> t < lrlen x ->
         mem V (s2 r) rb (lroff x + t) = ms (lpeer x) sb (lsoff y + t)) /\
      (forall b o, (b = rb -> forall x, In x (L r) -> ~ (lroff x <= o < lroff x + lrlen x)) ->
         mem V (s2 r) b o = mem V (s1 r) b o)).
Proof.
  intros P g pre wl k s s1 items ms sb rb L Eg Bal Qt Run Ids ND Szs Sp LK Sym.
  assert (Uq : forall r x y, r < P -> In x (L r) -> In y (L r) -> lkey x = lkey y -> x = y).
  { intros r x y Hr Ix Iy E. destruct (LK r Hr) as [NK _]. clear - NK Ix Iy E. induction (L r) as [|z l IH]; [destruct Ix|].
    simpl in NK. inversion NK; subst. destruct Ix as [->|Ix], Iy as [->|Iy]; auto.
    - exfalso. apply H1. rewrite E. apply in_map; auto.
    - exfalso. apply H1. rewrite <- E. apply in_map; auto. }
  destruct (phase V P g pre wl k s s1 items ms) as (n & g2 & s2 & St & E2 & Eo & B2 & Q2 & Z2 & X2); auto.
  - intros r Hr. rewrite Sp by auto. apply specs_of_keys. apply LK; auto.
  - intros r q c b off len Hr I. rewrite Sp in I by auto. apply specs_of_rcv in I.
    destruct I as (x & I & Z & -> & -> & -> & -> & ->). destruct (Sym r x Hr I) as (Hq & y & Iy & E1 & E3 & E4 & E5).
    split; auto. exists sb, (lsoff y). rewrite Sp by auto. apply specs_of_snd. exists y.
    split; [auto|]. split; [lia|]. split; [auto|]. split; [auto|]. auto.
  - intros r q c b off len Hr I. rewrite Sp in I by auto. apply specs_of_snd in I.
    destruct I as (x & I & Z & -> & -> & -> & -> & ->). destruct (Sym r x Hr I) as (Hq & y & Iy & E1 & E3 & E4 & E5).
    split; auto. exists rb, (lroff y). rewrite Sp by auto. apply specs_of_rcv. exists y.
    split; [auto|]. split; [lia|]. split; [auto|]. split; [auto|]. auto.
  - exists n, g2, s2. split; auto. split; auto. split; auto. split; auto. split; auto. split; auto.
    intros r Hr. specialize (X2 r Hr). split.
    + intros x y t Ix Iy Ey Ec Ht. destruct (X2 rb (lroff x + t)) as [(src & c & off & len & bs & offs & I1 & R & I2 & E)|[N _]].
      * rewrite Sp in I1 by auto. apply specs_of_rcv in I1. destruct I1 as (x' & I1 & Z & -> & -> & _ & -> & ->).
        assert (x' = x) as ->. { destruct (LK r Hr) as [_ Dj]. apply (Dj x' x (lroff x + t)); auto; lia. }
        destruct (Sym r x Hr Ix) as (Hq & _).
        rewrite Sp in I2 by auto. apply specs_of_snd in I2. destruct I2 as (y' & I2 & Z2' & E1 & E3 & -> & -> & E4).
        assert (y' = y) as ->. { apply (Uq (lpeer x)); auto. unfold lkey. f_equal; congruence. }
        rewrite E. f_equal. lia.
      * exfalso. apply N. exists (lpeer x), (lctx x), (lroff x), (lrlen x). rewrite Sp by auto. split; [|lia].
        apply specs_of_rcv. exists x. split; auto. split; [lia|]. auto.
    + intros b o H. destruct (X2 b o) as [(src & c & off & len & bs & offs & I1 & R & I2 & E)|[N E]]; auto.
      exfalso. rewrite Sp in I1 by auto. apply specs_of_rcv in I1. destruct I1 as (x' & I1 & Z & -> & -> & -> & -> & ->).
      apply (H eq_refl x'); auto.
Qed.
End Links.
