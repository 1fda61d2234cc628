(** Distributed Hermitian symmetrization: the first call's computation of d.reflect. *)
From Coq Require Import List Arith Bool Lia FunctionalExtensionality.
From Verif Require Import MpiMachine MpiRun MpiTrModel MpiTrGeom MpiTrPhase MpiTrXch MpiTrSpec MpiTrTop MpiColl MpiRFft1 MpiHModel MpiH1 MpiH3.
Import ListNotations.
Local Open Scope nat_scope.
Unset Default Proof Using.
Notation locN := (loc nat).
Definition start1n (mem : nat -> nat -> nat) (bsz : nat -> nat) : locN :=
  mkLoc nat mem bsz (fun _ _ => Uninit) (fun _ => 1) (fun _ _ => []) (fun _ _ => []).

Lemma floop_run : forall (V : Type) (body : nat -> prog V -> prog V) (J : nat -> loc V -> Prop) n i,
  (forall h s, i <= h < i + n -> J h s -> exists s', runs V (body h) s s' /\ J (S h) s') ->
  forall s, J i s -> exists s', runs V (floop V i n body) s s' /\ J (i + n) s'.
Proof.
  intros V body J n. induction n as [|n IH]; intros i H s HJ; cbn [floop].
  - exists s. split; [apply runs_skip|]. rewrite Nat.add_0_r. auto.
  - destruct (H i s ltac:(lia) HJ) as (s1 & R1 & J1).
    destruct (IH (S i) ltac:(intros; apply H; auto; lia) s1 J1) as (s2 & R2 & J2).
    exists s2. split; [intros k; unfold seqc; eapply lstar_trans; [apply R1|apply R2]|]. rewrite <- Nat.add_succ_comm. auto.
Qed.

Section S.
Variables (Y P : nat).
Hypothesis HY : 0 < Y. Hypothesis HP : 0 < P.
Variable bsz0 : nat -> nat -> nat.
Variable mem0 : nat -> nat -> nat -> nat.
Notation y0 := (lbeg Y P). Notation dy := (ldim Y P). Notation yc := (orig Y).
Hypothesis Hb2 : Y <= bsz0 0 2.
Hypothesis Hb3 : forall r, r < P -> dy r <= bsz0 r 3.
Definition own (r y : nat) : Prop := y0 r <= y < y0 r + dy r.

Lemma own_lt : forall r y, own r y -> y < Y.
Proof. intros r y H. unfold own in H. destruct (beg_dim Y P r); lia. Qed.

(** rank 0 builds the table and its own part *)
Lemma table_run : forall s : locN, quiet nat s -> bsz nat s = bsz0 0 -> exists m, runs nat (table Y P) s (setmem nat s m) /\
  (forall r y, r < P -> own r y -> m 2 y = r) /\ (forall b o, b <> 2 \/ Y <= o -> m b o = mem nat s b o).
Proof.
  intros s Q Z.
  set (J := fun p (s' : locN) => exists m, s' = setmem nat s m /\ (forall r y, r < p -> own r y -> m 2 y = r) /\ (forall b o, b <> 2 \/ Y <= o -> m b o = mem nat s b o)).
  destruct (floop_run nat (fun p => forc nat (dy p) (fun j => Wr nat 2 (y0 p + j) p)) J P 0) with (s := s) as (s' & R & (m & -> & A1 & A2)).
  - intros p s1 Hp (m & -> & A1 & A2).
    set (J' := fun j (s' : locN) => exists m, s' = setmem nat s m /\ (forall r y, r < p -> own r y -> m 2 y = r) /\ (forall i, i < j -> m 2 (y0 p + i) = p) /\ (forall b o, b <> 2 \/ Y <= o -> m b o = mem nat s b o)).
    destruct (floop_run nat (fun j => Wr nat 2 (y0 p + j) p) J' (dy p) 0) with (s := setmem nat s m) as (s2 & R2 & (m2 & -> & B1 & B2 & B3)).
    + intros j s2 Hj (m2 & -> & B1 & B2 & B3). exists (setmem nat s (upd2 m2 2 (y0 p + j) p)). split.
      * intros k. econstructor; [|constructor]. constructor; cbn [bsz setmem].
        -- rewrite Z. destruct (beg_dim Y P p); lia.
        -- apply (qpend nat (setmem nat s m2) 2 _ Q).
        -- apply (qpend nat (setmem nat s m2) 2 _ Q).
      * exists (upd2 m2 2 (y0 p + j) p). split; [reflexivity|]. split; [|split].
        -- intros r y Hr Ho. rewrite upd2_neq; [auto|]. intros E. injection E as E. subst y.
           pose proof (own_unique Y P (y0 p + j) r p ltac:(exact Ho) ltac:(lia)). lia.
        -- intros i Hi. destruct (Nat.eq_dec i j) as [->|N]; [apply upd2_eq|]. rewrite upd2_neq; [apply B2; lia|]. intros E. injection E as E. lia.
        -- intros b o Hbo. rewrite upd2_neq; [auto|]. intros E. injection E as -> ->. destruct (beg_dim Y P p); lia.
    + exists m. split; auto. split; auto. split; auto. intros; lia.
    + exists (setmem nat s m2). split; [exact R2|]. exists m2. split; auto. split; auto.
      intros r y Hr Ho. destruct (Nat.eq_dec r p) as [->|N]; [|apply B1; auto; lia]. replace y with (y0 p + (y - y0 p)) by (unfold own in Ho; lia). apply B2. unfold own in Ho. lia.
  - exists (mem nat s). rewrite setmem_sameV. split; auto. split; auto. intros; lia.
  - exists m. split; [exact R|]. split; auto.
Qed.
Lemma mirror_lt : forall r j, j < dy r -> (y0 r = 0 -> extra1 Y <= j) -> 2 * yc - y0 r - j < Y.
Proof. intros r j Hj H. destruct (half_facts Y) as (E & H1 & H2 & _). rewrite E. destruct (beg_dim Y P r); lia. Qed.
Lemma j0_pos : forall r, 0 < r -> y0 r <> 0.
Proof. intros r Hr E. destruct (beg0 Y P r HY HP E). lia. Qed.

Lemma zero_run : forall s : locN, quiet nat s -> bsz nat s = bsz0 0 -> exists m,
  runs nat (floop nat (j0H Y P 0) (dy 0 - j0H Y P 0) (fun j k => Rd nat 2 (2 * yc - y0 0 - j) (fun v => Wr nat 3 j v k))) s (setmem nat s m) /\
  (forall j, j0H Y P 0 <= j < dy 0 -> m 3 j = mem nat s 2 (2 * yc - y0 0 - j)) /\ (forall b o, b <> 3 \/ dy 0 <= o -> m b o = mem nat s b o).
Proof.
  intros s Q Z.
  set (J := fun p (s' : locN) => exists m, s' = setmem nat s m /\ (forall j, j0H Y P 0 <= j < p -> m 3 j = mem nat s 2 (2 * yc - y0 0 - j)) /\ (forall b o, b <> 3 \/ dy 0 <= o -> m b o = mem nat s b o)).
  destruct (floop_run nat (fun j k => Rd nat 2 (2 * yc - y0 0 - j) (fun v => Wr nat 3 j v k)) J (dy 0 - j0H Y P 0) (j0H Y P 0)) with (s := s) as (s' & R & (m & -> & A1 & A2)).
  - intros j s1 Hj (m & -> & A1 & A2).
    exists (setmem nat s (upd2 m 3 j (m 2 (2 * yc - y0 0 - j)))). split.
    + intros k. econstructor; [constructor; cbn [bsz setmem]|].
      * rewrite Z. assert (Hm : 2 * yc - y0 0 - j < Y); [|lia]. apply mirror_lt; [lia|]. intros E. unfold j0H, hy0 in Hj. rewrite E in Hj. cbn [Nat.eqb] in Hj. lia.
      * apply (qpend nat (setmem nat s m) 2 _ Q).
      * econstructor; [|constructor]. constructor; cbn [bsz setmem mem].
        -- rewrite Z. specialize (Hb3 0 HP). lia.
        -- apply (qpend nat (setmem nat s m) 3 _ Q).
        -- apply (qpend nat (setmem nat s m) 3 _ Q).
    + eexists. split; [reflexivity|]. split.
      * intros i Hi. destruct (Nat.eq_dec i j) as [->|N]; [rewrite upd2_eq; apply A2; lia|]. rewrite upd2_neq; [apply A1; lia|]. intros E. injection E as E. lia.
      * intros b o Hbo. rewrite upd2_neq; auto. intros E. injection E as -> ->. lia.
  - exists (mem nat s). rewrite setmem_sameV. split; auto. split; auto. intros; lia.
  - exists m. split; [exact R|]. split; auto. intros j Hj. apply A1. lia.
Qed.

(** ** The messages *)
Record J (m0 : nat -> nat -> nat) (p j : nat) (s : nat -> locN) : Prop := mkJ {
  j_bal : balanced nat P s;
  j_q : forall r, r < P -> quiet nat (s r);
  j_z : forall r, r < P -> bsz nat (s r) = bsz0 r;
  j_l : forall r, r < P -> 0 < slsz nat (s r) 0;
  j_m0 : mem nat (s 0) = m0;
  j_m : forall r i, 0 < r < P -> i < dy r -> r < p \/ (r = p /\ i < j) -> mem nat (s r) 3 i = m0 2 (2 * yc - y0 r - i);
  j_o : forall r b o, 0 < r < P -> b <> 3 \/ dy r <= o -> mem nat (s r) b o = mem0 r b o }.

Lemma msg : forall m0 p j (g : gst nat) k s, 0 < p < P -> j < dy p -> J m0 p j s ->
  (forall r, r < P -> g r = ((if r =? 0 then sendp Y P p j (k r) else if r =? p then recvp j (k r) else k r), s r)) ->
  exists n g2 s2, steps nat false P n g g2 /\ (forall r, r < P -> g2 r = (k r, s2 r)) /\ J m0 p (S j) s2 /\ (forall r, P <= r -> g2 r = g r).
Proof.
  intros m0 p j g k s Hp Hj [B Q Z L M0 M O] Eg.
  set (off := 2 * yc - y0 p - j).
  assert (Hoff : off < Y) by (apply mirror_lt; [auto|]; intros E; exfalso; apply (j0_pos p); lia).
  set (items := fun r => if r =? 0 then [((0, 0), false, Some [Snd p j 2 off 1])] else if r =? p then [((0, 0), false, Some [Rcv 0 j 3 j 1])] else [] : list item).
  set (pre := fun r => if r =? 0 then Post nat 0 0 false [Snd p j 2 off 1] else if r =? p then Post nat 0 0 false [Rcv 0 j 3 j 1] else skip nat).
  set (wl := fun r => if (r =? 0) || (r =? p) then [[(0, 0)]] else [] : list (list (nat * nat))).
  set (s1 := fun r => if r =? 0 then do_post nat (s 0) 0 0 [Snd p j 2 off 1] else if r =? p then do_post nat (s p) 0 0 [Rcv 0 j 3 j 1] else s r).
  set (ms := fun r => mem nat (s r)).
  assert (Np : p <> 0) by lia.
  assert (Eprog : forall r, r < P -> g r = (pre r (waits nat (wl r) (k r)), s r)).
  { intros r Hr. rewrite Eg by auto. f_equal. unfold pre, wl. destruct (Nat.eqb_spec r 0) as [->|N0]; [reflexivity|]. destruct (Nat.eqb_spec r p) as [->|N1]; reflexivity. }
  destruct (phase nat P g pre wl k s s1 items ms Eprog B Q) as (n1 & g1 & s2 & St1 & E1 & Ho1 & B1 & Q1 & Z1 & X1).
  - intros r Hr. unfold pre, s1, ms, items.
    destruct (Nat.eqb_spec r 0) as [->|N0]; [|destruct (Nat.eqb_spec r p) as [->|N1]].
    + split.
      * intros k0. econstructor; [|constructor]. constructor.
        repeat split; try (apply L; auto).
        -- intros l El. exact (Q 0 Hr 0 0 l El).
        -- destruct H as (dst & c & of' & len & [E|[]] & Ro). inversion E; subst. rewrite Z by auto. lia.
        -- apply (qpend nat (s 0) b o (Q 0 Hr)).
        -- destruct H as (dst & c & of' & len & [E|[]] & Ro). discriminate.
        -- apply (qpend nat (s 0) b o (Q 0 Hr)).
        -- apply (qpend nat (s 0) b o (Q 0 Hr)).
        -- intros _ b o _ (src & c & of' & len & [E|[]] & _). discriminate.
      * apply Posted_one. repeat constructor; auto.
    + split.
      * intros k0. econstructor; [|constructor]. constructor.
        repeat split; try (apply L; auto).
        -- intros l El. exact (Q p Hr 0 0 l El).
        -- destruct H as (dst & c & of' & len & [E|[]] & Ro). discriminate.
        -- apply (qpend nat (s p) b o (Q p Hr)).
        -- destruct H as (dst & c & of' & len & [E|[]] & Ro). inversion E; subst. rewrite Z by auto. specialize (Hb3 p Hr). lia.
        -- apply (qpend nat (s p) b o (Q p Hr)).
        -- apply (qpend nat (s p) b o (Q p Hr)).
        -- intros o Ro (src & c & of' & len & [] & _).
        -- intros _ b o (src & c & of' & len & [E|[]] & _). discriminate.
      * apply Posted_one. repeat constructor; auto.
    + split; [apply runs_skip|]. rewrite <- (setmem_sameV nat (s r)) at 2. apply Posted_nil.
  - intros r a i Hr. unfold wl, items. destruct (Nat.eqb_spec r 0), (Nat.eqb_spec r p); cbn; tauto.
  - intros r Hr. unfold wl. destruct ((r =? 0) || (r =? p)); cbn; repeat constructor; auto.
  - intros r x Hr Hx. unfold items in Hx. destruct (Nat.eqb_spec r 0), (Nat.eqb_spec r p); cbn [In] in Hx; destruct Hx as [<-|[]] || destruct Hx; cbn; apply L; auto.
  - intros r Hr. unfold items. destruct (Nat.eqb_spec r 0), (Nat.eqb_spec r p); cbn; repeat constructor; auto.
  - intros r q' c b of' len Hr. unfold items. destruct (Nat.eqb_spec r 0) as [->|]; [|destruct (Nat.eqb_spec r p) as [->|]]; cbn.
    + intros [E|[]]. discriminate.
    + intros [E|[]]. injection E as E1 E2 E3 E4 E5. rewrite <- E1, <- E2, <- E5. split; auto. cbn. exists 2, off. left. reflexivity.
    + intros [].
  - intros r q' c b of' len Hr. unfold items. destruct (Nat.eqb_spec r 0) as [->|]; [|destruct (Nat.eqb_spec r p) as [->|]]; cbn.
    + intros [E|[]]. injection E as E1 E2 E3 E4 E5. rewrite <- E1, <- E2, <- E5. split; [lia|]. destruct (Nat.eqb_spec p 0); [lia|]. rewrite Nat.eqb_refl. cbn. exists 3, j. left. reflexivity.
    + intros [E|[]]. discriminate.
    + intros [].
  - assert (Mr : forall r b o, r < P -> r <> p \/ b <> 3 \/ o <> j -> mem nat (s2 r) b o = mem nat (s r) b o).
    { intros r b o Hr H. assert (Es1 : mem nat (s1 r) = mem nat (s r)) by (unfold s1; destruct (Nat.eqb_spec r 0) as [->|]; [reflexivity|]; destruct (Nat.eqb_spec r p) as [->|]; reflexivity).
      destruct (X1 r Hr b o) as [(src & c & of' & len & bs & offs & Hi & Ro & _)|[_ E]]; [|rewrite E, Es1; auto].
      unfold items in Hi. destruct (Nat.eqb_spec r 0) as [->|]; [destruct Hi as [Hi|[]]; discriminate|]. destruct (Nat.eqb_spec r p) as [->|]; [|destruct Hi].
      destruct Hi as [Hi|[]]. inversion Hi; subst. lia. }
    assert (Mp : mem nat (s2 p) 3 j = m0 2 off).
    { destruct (X1 p ltac:(lia) 3 j) as [(src & c & of' & len & bs & offs & Hr & Ro & Hs & E)|[Ni E]].
      - unfold items in Hr. destruct (Nat.eqb_spec p 0); [lia|]. rewrite Nat.eqb_refl in Hr. destruct Hr as [Hr|[]]. inversion Hr; subst src c of' len.
        unfold items in Hs. cbn [Nat.eqb] in Hs. destruct Hs as [Hs|[]]. inversion Hs; subst bs offs. rewrite E. unfold ms. rewrite M0. f_equal. lia.
      - exfalso. apply Ni. unfold items. destruct (Nat.eqb_spec p 0); [lia|]. rewrite Nat.eqb_refl. exists 0, j, j, 1. split; [left; auto|lia]. }
    exists n1, g1, s2. split; auto. split; auto. split; auto.
    constructor; auto.
    + intros r Hr. destruct (Z1 r Hr) as [-> _]. auto.
    + intros r Hr. destruct (Z1 r Hr) as [_ ->]. auto.
    + rewrite <- M0. apply functional_extensionality. intros b. apply functional_extensionality. intros o. apply Mr; lia.
    + intros r i Hr Hi H. destruct (Nat.eq_dec r p) as [->|N].
      * destruct (Nat.eq_dec i j) as [->|Ni]; [exact Mp|]. rewrite Mr by lia. apply M; auto; lia.
      * rewrite Mr by lia. apply M; auto; lia.
    + intros r b o Hr H. rewrite Mr; [auto|lia|]. destruct (Nat.eq_dec r p) as [->|]; lia.
Qed.

Lemma msgs_p : forall m0 p n j (g : gst nat) k s, 0 < p < P -> j + n = dy p -> J m0 p j s ->
  (forall r, r < P -> g r = ((if r =? 0 then floop nat j n (sendp Y P p) (k r) else if r =? p then floop nat j n recvp (k r) else k r), s r)) ->
  exists N g2 s2, steps nat false P N g g2 /\ (forall r, r < P -> g2 r = (k r, s2 r)) /\ J m0 p (dy p) s2 /\ (forall r, P <= r -> g2 r = g r).
Proof.
  intros m0 p n. induction n as [|n IH]; intros j g k s Hp Hj I Eg.
  - exists 0, g, s. split; [constructor|]. split; [|split; auto].
    + intros r Hr. rewrite Eg by auto. destruct (r =? 0); [reflexivity|]. destruct (r =? p); reflexivity.
    + replace (dy p) with j by lia. auto.
  - destruct (msg m0 p j g (fun r => if r =? 0 then floop nat (S j) n (sendp Y P p) (k r) else if r =? p then floop nat (S j) n recvp (k r) else k r) s Hp ltac:(lia) I) as (n1 & g1 & s1 & S1 & E1 & I1 & O1).
    + intros r Hr. rewrite Eg by auto. destruct (Nat.eqb_spec r 0) as [->|N0]; [reflexivity|]. destruct (Nat.eqb_spec r p) as [->|N1]; reflexivity.
    + destruct (IH (S j) g1 k s1 Hp ltac:(lia) I1 E1) as (n2 & g2 & s2 & S2 & E2 & I2 & O2).
      exists (n1 + n2), g2, s2. split; [eapply steps_trans; eauto|]. split; auto. split; auto. intros r Hr. rewrite O2, O1; auto.
Qed.

Lemma J_next : forall m0 p s, J m0 p (dy p) s -> J m0 (S p) 0 s.
Proof.
  intros m0 p s [B Q Z L M0 M O]. constructor; auto. intros r i Hr Hi H. apply M; auto.
  destruct (Nat.eq_dec r p); [right; subst; auto|left; lia].
Qed.
Definition sends : nat -> prog nat -> prog nat := fun p => let j0 := if y0 p =? 0 then extra1 Y else 0 in floop nat j0 (dy p - j0) (fun j => sendp Y P p j).
Lemma msgs : forall m0 n p (g : gst nat) k s, p + n = P -> 0 < p -> J m0 p 0 s ->
  (forall r, r < P -> g r = ((if r =? 0 then floop nat p n sends (k r) else if r <? p then k r else forc nat (dy r) recvp (k r)), s r)) ->
  exists N g2 s2, steps nat false P N g g2 /\ (forall r, r < P -> g2 r = (k r, s2 r)) /\ J m0 P 0 s2 /\ (forall r, P <= r -> g2 r = g r).
Proof.
  intros m0 n. induction n as [|n IH]; intros p g k s Hn Hp I Eg.
  - assert (p = P) by lia. subst p. exists 0, g, s. split; [constructor|]. split; [|split; auto].
    intros r Hr. rewrite Eg by auto. destruct (r =? 0); [reflexivity|]. destruct (Nat.ltb_spec r P); [reflexivity|lia].
  - destruct (msgs_p m0 p (dy p) 0 g (fun r => if r =? 0 then floop nat (S p) n sends (k r) else if r <? S p then k r else forc nat (dy r) recvp (k r)) s ltac:(lia) ltac:(lia) I) as (n1 & g1 & s1 & S1 & E1 & I1 & O1).
    + intros r Hr. rewrite Eg by auto. f_equal. destruct (Nat.eqb_spec r 0) as [->|N0].
      * cbn [floop]. unfold seqc, sends at 1. pose proof (j0_pos p Hp). destruct (Nat.eqb_spec (y0 p) 0); [lia|]. rewrite Nat.sub_0_r. reflexivity.
      * destruct (Nat.eqb_spec r p) as [->|N1].
        -- destruct (Nat.ltb_spec p p); [lia|]. destruct (Nat.ltb_spec p (S p)); [|lia]. reflexivity.
        -- destruct (Nat.ltb_spec r p), (Nat.ltb_spec r (S p)); try lia; reflexivity.
    + destruct (IH (S p) g1 k s1 ltac:(lia) ltac:(lia) (J_next _ _ _ I1) E1) as (n2 & g2 & s2 & S2 & E2 & I2 & O2).
      exists (n1 + n2), g2, s2. split; [eapply steps_trans; eauto|]. split; auto. split; auto. intros r Hr. rewrite O2, O1; auto.
Qed.

Theorem setup_always :
  always_ends nat P (fun r => (setupR Y P r (Halt nat), start1n (mem0 r) (bsz0 r)))
    (fun gf => forall r, r < P ->
       (forall j, j < dy r -> (y0 r = 0 -> extra1 Y <= j) -> exists q, q < P /\ own q (2 * yc - y0 r - j) /\ mem nat (snd (gf r)) 3 j = q) /\
       (forall b o, (b <> 2 /\ b <> 3) \/ (0 < r /\ b = 2) \/ (b = 2 /\ Y <= o) \/ (b = 3 /\ dy r <= o) -> mem nat (snd (gf r)) b o = mem0 r b o)).
Proof.
  set (s0 := fun r => start1n (mem0 r) (bsz0 r)).
  assert (Q0 : forall r, quiet nat (s0 r)) by (intros r a i l; discriminate).
  destruct (table_run (s0 0) (Q0 0) eq_refl) as (m1 & R1 & T1 & F1).
  destruct (zero_run (setmem nat (s0 0) m1) (Q0 0) eq_refl) as (m2 & R2 & T2 & F2). cbn [mem setmem] in T2, F2.
  set (s1 := fun r => if r =? 0 then setmem nat (s0 0) m2 else s0 r).
  set (g0 := fun r => (setupR Y P r (Halt nat), s0 r)).
  set (g1 := fun r => if r <? P then ((if r =? 0 then floop nat 1 (P - 1) sends (Halt nat) else forc nat (dy r) recvp (Halt nat)), s1 r) else g0 r).
  destruct (all_local nat false P g0 g1) as [n1 St1].
  { intros r Hr. unfold g0, g1, s1, setupR. destruct (Nat.ltb_spec r P); [|lia]. destruct (Nat.eqb_spec r 0) as [->|N]; [|constructor].
    unfold seqc. eapply lstar_trans; [apply R1|]. eapply lstar_trans; [apply R2|]. constructor. }
  { intros r Hr. unfold g1. destruct (Nat.ltb_spec r P); [lia|auto]. }
  destruct (msgs m2 (P - 1) 1 g1 (fun _ => Halt nat) s1 ltac:(lia) ltac:(lia)) as (n2 & g2 & s2 & St2 & E2 & I2 & O2).
  { constructor.
    - intros p q c _ _. unfold s1. destruct (p =? 0), (q =? 0); reflexivity.
    - intros r _. unfold s1. destruct (r =? 0); [exact (Q0 0)|exact (Q0 r)].
    - intros r _. unfold s1. destruct (Nat.eqb_spec r 0); [subst|]; reflexivity.
    - intros r _. unfold s1. destruct (Nat.eqb_spec r 0); cbn; lia.
    - reflexivity.
    - intros r i Hr Hi H. lia.
    - intros r b o Hr H. unfold s1. destruct (Nat.eqb_spec r 0); [lia|reflexivity]. }
  { intros r Hr. unfold g1. destruct (Nat.ltb_spec r P); [|lia]. f_equal. destruct (Nat.eqb_spec r 0); auto. destruct (Nat.ltb_spec r 1); [lia|auto]. }
  eapply decides; [eapply steps_trans; [exact St1|exact St2]| |].
  - intros r Hr. rewrite E2 by auto. reflexivity.
  - destruct I2 as [_ _ _ _ M0 M O]. intros r Hr. rewrite E2 by auto. cbn [snd].
    destruct (Nat.eq_dec r 0) as [->|N].
    + rewrite M0. split.
      * intros j Hj Hj0. assert (Lm : 2 * yc - y0 0 - j < Y) by (apply mirror_lt; auto).
        destruct (own_ex Y P _ HP Lm) as (q & Hq & Oq). exists q. split; auto. split; auto.
        rewrite T2. { apply T1; auto. } unfold j0H, hy0. destruct (Nat.eqb_spec (y0 0) 0); [auto|lia].
      * intros b o H. rewrite F2, F1 by lia. reflexivity.
    + split.
      * intros j Hj Hj0. assert (Lm : 2 * yc - y0 r - j < Y) by (apply mirror_lt; auto).
        destruct (own_ex Y P _ HP Lm) as (q & Hq & Oq). exists q. split; auto. split; auto.
        rewrite M by lia. rewrite F2 by lia. apply T1; auto.
      * intros b o H. apply O; lia.
Qed.
End S.
