(** Teams of threads whose bodies are themselves compositions of loops and library calls.

    [tc] extends the command language of Mem.v with nested parallelism: [TPar n f] starts
    n threads f 0 .. f (n-1) and waits for all of them (parallel.h:28-65, a PARALLEL loop
    whose body calls other routines, as in convolve.h:1400-1411).  The semantics [texec] is
    small-step: at every point any enabled action of any thread may be next, so all
    interleavings of single word accesses of all threads are covered, at every nesting depth.
    Undefined behaviour: reading a word that holds no value, writing an unallocated word, a
    call whose precondition fails, and a data race, i.e. two threads of a team about to access the
    same word, at least one of them writing.
    A call [TExt pre post] is one action; it counts as writing every word that its
    precondition requires to be allocated. *)
From Coq Require Import Arith Lia List Bool FunctionalExtensionality.
From Verif Require Import Mem.

Section Team.
Variable V : Type.
Notation mem := (Mem.mem V).

Inductive tc : Type :=
| TP : prog V -> tc
| TSeq : tc -> tc -> tc
| TPar : nat -> (nat -> tc) -> tc
| TExt : (mem -> Prop) -> (mem -> mem -> Prop) -> tc
| TExit : tc.

Definition sett (f : nat -> tc) (i : nat) (t : tc) : nat -> tc := fun j => if i =? j then t else f j.

Inductive done : tc -> Prop :=
| d_ret : done (TP Ret)
| d_par n f : (forall i, i < n -> done (f i)) -> done (TPar n f).

Inductive tstep : tc -> mem -> tc -> mem -> Prop :=
| ts_rd a k m v : m a = Val v -> tstep (TP (Rd a k)) m (TP (k v)) m
| ts_wr a v p m : m a <> Unalloc -> tstep (TP (Wr a v p)) m (TP p) (upd m a (Val v))
| ts_seq a b m a' m' : tstep a m a' m' -> tstep (TSeq a b) m (TSeq a' b) m'
| ts_next a b m : done a -> tstep (TSeq a b) m b m
| ts_par n f m i t' m' : i < n -> tstep (f i) m t' m' -> tstep (TPar n f) m (TPar n (sett f i t')) m'
| ts_ext (pre : mem -> Prop) (post : mem -> mem -> Prop) m m' :
    pre m -> post m m' -> tstep (TExt pre post) m (TP Ret) m'.

(** the next action of t accesses the word a; w: it writes it *)
Inductive touch : tc -> addr -> bool -> Prop :=
| to_rd a k : touch (TP (Rd a k)) a false
| to_wr a v p : touch (TP (Wr a v p)) a true
| to_seq t u a w : touch t a w -> touch (TSeq t u) a w
| to_par n f i a w : i < n -> touch (f i) a w -> touch (TPar n f) a w
| to_ext (pre : mem -> Prop) (post : mem -> mem -> Prop) a :
    (forall m, pre m -> m a <> Unalloc) -> touch (TExt pre post) a true.

Inductive tfault : tc -> mem -> Prop :=
| tf_rd a k m : (forall v, m a <> Val v) -> tfault (TP (Rd a k)) m
| tf_wr a v p m : m a = Unalloc -> tfault (TP (Wr a v p)) m
| tf_fault m : tfault (TP Fault) m
| tf_ext (pre : mem -> Prop) (post : mem -> mem -> Prop) m : ~ pre m -> tfault (TExt pre post) m
| tf_seq t u m : tfault t m -> tfault (TSeq t u) m
| tf_par n f i m : i < n -> tfault (f i) m -> tfault (TPar n f) m
| tf_race n f i j a w m : i < n -> j < n -> i <> j ->
    touch (f i) a true -> touch (f j) a w -> tfault (TPar n f) m.

Inductive texit : tc -> Prop :=
| tx_exit : texit TExit
| tx_seq t u : texit t -> texit (TSeq t u)
| tx_par n f i : i < n -> texit (f i) -> texit (TPar n f).

Inductive texec : tc -> mem -> outcome V -> Prop :=
| te_done t m : done t -> texec t m (OK m)
| te_step t m t' m' o : tstep t m t' m' -> texec t' m' o -> texec t m o
| te_fault t m : tfault t m -> texec t m UB
| te_exit t m : texit t -> texec t m ExitErr.

(** as [WP]: some execution ends normally with Q, every execution has that outcome *)
Definition TWP (t : tc) (m : mem) (Q : mem -> Prop) : Prop :=
  exists m', texec t m (OK m') /\ Q m' /\ forall o, texec t m o -> o = OK m'.

Fixpoint emb (c : cmd V) : tc :=
  match c with
  | Skip => TP Ret
  | Seq a b => TSeq (emb a) (emb b)
  | Par n f => TPar n (fun i => TP (f i))
  | Ext pre post => TExt pre post
  | Exit => TExit
  end.

Definition tskip : tc := TP Ret.
(** a thread working through a list of iterations, in order *)
Fixpoint tlist (l : list nat) (f : nat -> tc) : tc :=
  match l with nil => tskip | cons i l => TSeq (f i) (tlist l f) end.

(** *** sequencing *)
Lemma done_step t : done t -> forall m t' m', ~ tstep t m t' m'.
Proof.
  induction 1 as [|n f H IH]; intros m t' m' Hs; inversion Hs; subst.
  eapply IH; eassumption.
Qed.
Lemma done_fault t : done t -> forall m, ~ tfault t m.
Proof.
  assert (Ht : forall t, done t -> forall a w, ~ touch t a w).
  { induction 1 as [|n f H IH]; intros a w Ht; inversion Ht; subst. eapply IH; eassumption. }
  induction 1 as [|n f H IH]; intros m Hs; inversion Hs; subst.
  - eapply IH; eassumption.
  - eapply (Ht (f i)); eauto.
Qed.
Lemma done_exit t : done t -> ~ texit t.
Proof. induction 1 as [|n f H IH]; intros Hs; inversion Hs; subst. eapply IH; eassumption. Qed.

Lemma texec_done t m o : done t -> texec t m o -> o = OK m.
Proof.
  intros Hd He. inversion He; subst; [reflexivity| | |].
  - exfalso. eapply done_step; eassumption.
  - exfalso. eapply done_fault; eassumption.
  - exfalso. eapply done_exit; eassumption.
Qed.

Lemma texec_seq_inv t m o : texec t m o -> forall a b, t = TSeq a b ->
  (exists m1, texec a m (OK m1) /\ texec b m1 o) \/ (o = UB /\ texec a m UB) \/ (o = ExitErr /\ texec a m ExitErr).
Proof.
  induction 1 as [t m Hd|t m t' m' o Hs He IH|t m Hf|t m Hx]; intros a b ->.
  - inversion Hd.
  - inversion Hs; subst.
    + destruct (IH _ _ eq_refl) as [(m1 & H1 & H2)|[[-> H1]|[-> H1]]].
      * left. exists m1. split; [eapply te_step; eassumption|assumption].
      * right; left. split; [reflexivity|eapply te_step; eassumption].
      * right; right. split; [reflexivity|eapply te_step; eassumption].
    + left. exists m'. split; [apply te_done; assumption|assumption].
  - right; left. inversion Hf; subst. split; [reflexivity|apply te_fault; assumption].
  - right; right. inversion Hx; subst. split; [reflexivity|apply te_exit; assumption].
Qed.
Lemma texec_seq a m m1 : texec a m (OK m1) -> forall b o, texec b m1 o -> texec (TSeq a b) m o.
Proof.
  remember (OK m1) as r eqn:E. induction 1 as [t m Hd|t m t' m' o Hs He IH|t m Hf|t m Hx]; intros b o' Hb.
  - injection E as ->. eapply te_step; [apply ts_next; assumption|assumption].
  - eapply te_step; [apply ts_seq; eassumption|apply IH; assumption].
  - discriminate.
  - discriminate.
Qed.
Lemma TWP_mono t m (Q Q' : mem -> Prop) : (forall m, Q m -> Q' m) -> TWP t m Q -> TWP t m Q'.
Proof. intros H (m' & He & Hq & Ha). exists m'. auto. Qed.
Lemma TWP_seq a b m (Q : mem -> Prop) : TWP a m (fun m1 => TWP b m1 Q) -> TWP (TSeq a b) m Q.
Proof.
  intros (m1 & He & (m2 & He2 & HQ & Hb) & Ha). exists m2. split; [eapply texec_seq; eassumption|].
  split; [assumption|]. intros o Ho. destruct (texec_seq_inv _ _ _ Ho a b eq_refl) as [(m3 & H1 & H2)|[[-> H1]|[-> H1]]].
  - apply Ha in H1. injection H1 as ->. apply Hb. assumption.
  - apply Ha in H1. discriminate.
  - apply Ha in H1. discriminate.
Qed.
Lemma TWP_skip m (Q : mem -> Prop) : Q m -> TWP tskip m Q.
Proof.
  intros H. exists m. split; [apply te_done; constructor|]. split; [assumption|].
  intros o Ho. eapply texec_done; [constructor|eassumption].
Qed.

(** *** the command language is embedded faithfully *)
Lemma texec_par_down n t m o : texec t m o -> forall f ps, t = TPar n f -> (forall i, i < n -> f i = TP (ps i)) ->
  par_exec V n ps m o.
Proof.
  induction 1 as [t m Hd|t m t' m' o Hs He IH|t m Hf|t m Hx]; intros f ps -> E.
  - apply pe_done. intros i Hi. inversion Hd as [|? ? H]; subst. specialize (H i Hi). rewrite E in H by assumption. inversion H. reflexivity.
  - inversion Hs as [| | | |? ? ? i t2 ? Hi Hs2|]; subst. rewrite E in Hs2 by assumption.
    inversion Hs2 as [a k ? v Hv E1|a v p ? Ha E1| | | |]; subst.
    + eapply pe_rd with (i := i); [assumption|symmetry; eassumption|eassumption|].
      eapply IH; [reflexivity|]. intros j Hj. unfold sett, setp. destruct (i =? j); auto.
    + eapply pe_wr with (i := i); [assumption|symmetry; eassumption|eassumption|].
      eapply IH; [reflexivity|]. intros j Hj. unfold sett, setp. destruct (i =? j); auto.
  - inversion Hf as [| | | | |? ? i ? Hi Hf2|? ? i j a w ? Hi Hj Hne H1 H2]; subst.
    + rewrite E in Hf2 by assumption. inversion Hf2; subst.
      * eapply pe_rd_ub with (i := i); eauto.
      * eapply pe_wr_ub with (i := i); eauto.
      * eapply pe_fault with (i := i); eauto.
    + rewrite E in H1, H2 by assumption. inversion H1; subst.
      eapply pe_race with (i := i) (j := j); [assumption|assumption|assumption|symmetry; eassumption|].
      inversion H2; subst; [left|right]; eauto.
  - exfalso. inversion Hx as [| |? ? i Hi Hx2]; subst. rewrite E in Hx2 by assumption. inversion Hx2.
Qed.
Lemma texec_par_up n ps m o : par_exec V n ps m o -> forall f, (forall i, i < n -> f i = TP (ps i)) -> texec (TPar n f) m o.
Proof.
  induction 1 as [ps m Hd|ps m i a k v o Hi Hp Hv Hex IH|ps m i a v p o Hi Hp Ha Hex IH
                 |ps m i a k Hi Hp Hv|ps m i a v p Hi Hp Ha|ps m i Hi Hp|ps m i i2 a v p Hi Hi2 Hne Hp Hp2]; intros f E.
  - apply te_done. constructor. intros i Hi. rewrite E, Hd by assumption. constructor.
  - eapply te_step; [apply ts_par with (i := i); [assumption|rewrite E, Hp by assumption; apply ts_rd; eassumption]|].
    apply IH. intros j Hj. unfold sett, setp. destruct (i =? j); auto.
  - eapply te_step; [apply ts_par with (i := i); [assumption|rewrite E, Hp by assumption; apply ts_wr; eassumption]|].
    apply IH. intros j Hj. unfold sett, setp. destruct (i =? j); auto.
  - apply te_fault. apply tf_par with (i := i); [assumption|]. rewrite E, Hp by assumption. apply tf_rd; assumption.
  - apply te_fault. apply tf_par with (i := i); [assumption|]. rewrite E, Hp by assumption. apply tf_wr; assumption.
  - apply te_fault. apply tf_par with (i := i); [assumption|]. rewrite E, Hp by assumption. apply tf_fault; assumption.
  - apply te_fault. destruct Hp2 as [(k & Hk)|(v' & p' & Hk)].
    + apply tf_race with (i := i) (j := i2) (a := a) (w := false); try assumption; rewrite E by assumption; rewrite ?Hp, ?Hk; constructor.
    + apply tf_race with (i := i) (j := i2) (a := a) (w := true); try assumption; rewrite E by assumption; rewrite ?Hp, ?Hk; constructor.
Qed.

Lemma emb_exec c : forall m o, texec (emb c) m o <-> exec c m o.
Proof.
  induction c as [|a IHa b IHb|n f|pre post|]; intros m o; cbn [emb].
  - split; intros H.
    + rewrite (texec_done _ _ _ d_ret H). constructor.
    + inversion H; subst. apply te_done. constructor.
  - split; intros H.
    + destruct (texec_seq_inv _ _ _ H _ _ eq_refl) as [(m1 & H1 & H2)|[[-> H1]|[-> H1]]].
      * eapply ex_seq; [apply IHa; eassumption|apply IHb; assumption].
      * apply ex_seq_ub. apply IHa. assumption.
      * apply ex_seq_exit. apply IHa. assumption.
    + inversion H as [|a' b' m' m1 o' H1 H2|? ? ? H1|? ? ? H1| | | |]; subst.
      * eapply texec_seq; [apply IHa; eassumption|apply IHb; assumption].
      * apply IHa in H1. clear - H1. remember UB as r eqn:E. induction H1 as [t m Hd|t m t' m' o Hs He IH|t m Hf|t m Hx]; try discriminate.
        -- eapply te_step; [apply ts_seq; eassumption|auto].
        -- apply te_fault, tf_seq. assumption.
      * apply IHa in H1. clear - H1. remember ExitErr as r eqn:E. induction H1 as [t m Hd|t m t' m' o Hs He IH|t m Hf|t m Hx]; try discriminate.
        -- eapply te_step; [apply ts_seq; eassumption|auto].
        -- apply te_exit, tx_seq. assumption.
  - split; intros H.
    + apply ex_par. eapply texec_par_down; [eassumption|reflexivity|]. reflexivity.
    + inversion H; subst. eapply texec_par_up; [eassumption|]. reflexivity.
  - split; intros H.
    + inversion H as [? ? Hd|? ? ? ? ? Hs He|? ? Hf|? ? Hx]; subst.
      * inversion Hd.
      * inversion Hs; subst. rewrite (texec_done _ _ _ d_ret He). constructor; assumption.
      * inversion Hf; subst. constructor. assumption.
      * inversion Hx.
    + inversion H; subst.
      * eapply te_step; [constructor; eassumption|apply te_done; constructor].
      * apply te_fault. constructor. assumption.
  - split; intros H.
    + inversion H as [? ? Hd|? ? ? ? ? Hs He|? ? Hf|? ? Hx]; subst; [inversion Hd|inversion Hs|inversion Hf|constructor].
    + inversion H; subst. apply te_exit. constructor.
Qed.
Lemma TWP_emb c m Q : WP c m Q -> TWP (emb c) m Q.
Proof.
  intros (m' & He & HQ & Ha). exists m'. split; [apply emb_exec; assumption|]. split; [assumption|].
  intros o Ho. apply Ha, emb_exec. assumption.
Qed.
Lemma emb_TWP c m Q : TWP (emb c) m Q -> WP c m Q.
Proof.
  intros (m' & He & HQ & Ha). exists m'. split; [apply emb_exec; assumption|]. split; [assumption|].
  intros o Ho. apply Ha, emb_exec. assumption.
Qed.

(** *** threads on disjoint parts of memory *)
Definition restr (S : addr -> bool) (m : mem) : mem := fun a => if S a then m a else Unalloc.

(** a call that needs only the words it names, whatever else is allocated *)
Definition good_ext (pre : mem -> Prop) (post : mem -> mem -> Prop) : Prop :=
  forall S m, pre (restr S m) -> pre m /\
    (forall m', post m m' -> post (restr S m) (restr S m') /\ forall a, S a = false -> m' a = m a) /\
    (forall rm, post (restr S m) rm -> exists m', post m m' /\ restr S m' = rm /\ forall a, S a = false -> m' a = m a).
Inductive tgood : tc -> Prop :=
| g_p p : tgood (TP p)
| g_seq a b : tgood a -> tgood b -> tgood (TSeq a b)
| g_par n f : (forall i, i < n -> tgood (f i)) -> tgood (TPar n f)
| g_ext (pre : mem -> Prop) (post : mem -> mem -> Prop) : good_ext pre post -> tgood (TExt pre post)
| g_exit : tgood TExit.

Lemma tgood_step t m t' m' : tstep t m t' m' -> tgood t -> tgood t'.
Proof.
  induction 1; intros Hg; inversion Hg; subst; try constructor; auto.
  intros j Hj. unfold sett. destruct (Nat.eqb_spec i j) as [<-|]; auto.
Qed.

Lemma restr_val S m a v : restr S m a = Val v -> S a = true /\ m a = Val v.
Proof. unfold restr. destruct (S a); [auto|discriminate]. Qed.
Lemma restr_alloc S m a : restr S m a <> Unalloc -> S a = true /\ m a <> Unalloc.
Proof. unfold restr. destruct (S a); [auto|congruence]. Qed.
Lemma restr_in S m a : S a = true -> restr S m a = m a.
Proof. unfold restr. intros ->. reflexivity. Qed.
Lemma restr_out S m a : S a = false -> restr S m a = Unalloc.
Proof. unfold restr. intros ->. reflexivity. Qed.
Lemma restr_upd S m a c : S a = true -> restr S (upd m a c) = upd (restr S m) a c.
Proof.
  intros H. apply functional_extensionality. intros b. unfold restr, upd.
  destruct (Nat.eqb_spec a b) as [<-|]; [rewrite H|]; reflexivity.
Qed.

Lemma fault_down S t m : tgood t -> tfault t m -> tfault t (restr S m).
Proof.
  intros Hg Hf. revert Hg. induction Hf; intros Hg; inversion Hg; subst.
  - apply tf_rd. intros v Hv. apply restr_val in Hv. destruct Hv as [_ Hv]. eapply H; eassumption.
  - apply tf_wr. unfold restr. destruct (S a); auto.
  - apply tf_fault.
  - apply tf_ext. intros Hp. match goal with X : good_ext _ _ |- _ => destruct (X _ _ Hp) as [Hm _] end. contradiction.
  - apply tf_seq. auto.
  - eapply tf_par; eauto.
  - eapply tf_race with (i := i) (j := j); eassumption.
Qed.

Lemma step_down S t m t' m' : tstep t m t' m' -> tgood t -> ~ tfault t (restr S m) ->
  tstep t (restr S m) t' (restr S m') /\ forall a, S a = false -> m' a = m a.
Proof.
  induction 1 as [a k m v Hv|a v p m Ha|a b m a' m' Hs IH|a b m Hd|n f m i t' m' Hi Hs IH|pre post m m' Hp Hq]; intros Hg Hn.
  - destruct (S a) eqn:E.
    + split; [|auto]. apply ts_rd. rewrite restr_in; assumption.
    + exfalso. apply Hn. apply tf_rd. intros w. rewrite restr_out by assumption. discriminate.
  - destruct (S a) eqn:E.
    + split.
      * rewrite restr_upd by assumption. apply ts_wr. rewrite restr_in; assumption.
      * intros b Hb. apply upd_neq. congruence.
    + exfalso. apply Hn. apply tf_wr. apply restr_out. assumption.
  - inversion Hg; subst. destruct IH as [J1 J2]; auto.
    { intros Hf. apply Hn. apply tf_seq. assumption. }
    split; [apply ts_seq; assumption|assumption].
  - split; [apply ts_next; assumption|auto].
  - inversion Hg; subst. destruct IH as [J1 J2]; auto.
    { intros Hf. apply Hn. eapply tf_par; eassumption. }
    split; [apply ts_par; assumption|assumption].
  - inversion Hg as [| | |? ? Hge|]; subst.
    assert (Hpr : pre (restr S m) \/ ~ pre (restr S m)) by apply Classical_Prop.classic.
    destruct Hpr as [Hpr|Hpr]; [|exfalso; apply Hn; apply tf_ext; assumption].
    destruct (Hge S m Hpr) as (_ & Hpost & _). destruct (Hpost m' Hq) as [H1 H2].
    split; [apply ts_ext; assumption|assumption].
Qed.

Lemma step_up S t m t' rm : tstep t (restr S m) t' rm -> tgood t ->
  exists m', tstep t m t' m' /\ restr S m' = rm /\ forall a, S a = false -> m' a = m a.
Proof.
  remember (restr S m) as m0 eqn:E.
  induction 1 as [a k m0 v Hv|a v p m0 Ha|a b m0 a' m' Hs IH|a b m0 Hd|n f m0 i t' m' Hi Hs IH|pre post m0 m' Hp Hq]; intros Hg; subst m0.
  - apply restr_val in Hv. exists m. split; [apply ts_rd; tauto|]. auto.
  - apply restr_alloc in Ha. destruct Ha as [Ha Hm]. exists (upd m a (Val v)). split; [apply ts_wr; assumption|].
    split; [apply restr_upd; assumption|]. intros b Hb. apply upd_neq. congruence.
  - inversion Hg; subst. destruct IH as (m1 & J1 & J2); auto. exists m1. split; [apply ts_seq; assumption|assumption].
  - exists m. split; [apply ts_next; assumption|auto].
  - inversion Hg; subst. destruct IH as (m1 & J1 & J2); auto. exists m1. split; [apply ts_par; assumption|assumption].
  - inversion Hg as [| | |? ? Hge|]; subst. destruct (Hge S m Hp) as (Hm & _ & Hup). destruct (Hup m' Hq) as (m1 & H1 & H2).
    exists m1. split; [apply ts_ext; assumption|assumption].
Qed.

Lemma touch_in S t m a w : ~ tfault t (restr S m) -> touch t a w -> S a = true.
Proof.
  intros Hn Ht. revert Hn. induction Ht; intros Hn.
  - destruct (S a) eqn:E; [reflexivity|]. exfalso. apply Hn, tf_rd. intros v. rewrite restr_out by assumption. discriminate.
  - destruct (S a) eqn:E; [reflexivity|]. exfalso. apply Hn, tf_wr. apply restr_out. assumption.
  - apply IHHt. intros Hf. apply Hn, tf_seq. assumption.
  - apply IHHt. intros Hf. apply Hn. eapply tf_par; eassumption.
  - destruct (S a) eqn:E; [reflexivity|]. exfalso. apply Hn, tf_ext. intros Hp. apply (H _ Hp). apply restr_out. assumption.
Qed.

Section Par.
Variable n : nat.
Variable S : nat -> addr -> bool.
Hypothesis Hdis : forall i j a, i < n -> j < n -> i <> j -> S i a = true -> S j a = false.
Variable mf : nat -> mem.

Definition owned (a : addr) : Prop := exists i, i < n /\ S i a = true.
Definition result_of (m m' : mem) : Prop :=
  (forall i, i < n -> restr (S i) m' = mf i) /\ (forall a, (forall i, i < n -> S i a = false) -> m' a = m a).
Definition runs_to (f : nat -> tc) (m : mem) : Prop := forall i, i < n ->
  tgood (f i) /\ forall o, texec (f i) (restr (S i) m) o -> o = OK (mf i).

Lemma runs_nofault f m i : runs_to f m -> i < n -> ~ tfault (f i) (restr (S i) m).
Proof. intros H Hi Hf. destruct (H i Hi) as [_ H2]. specialize (H2 UB (te_fault _ _ Hf)). discriminate. Qed.

Lemma restr_other i j m m' : i < n -> j < n -> i <> j -> (forall a, S i a = false -> m' a = m a) -> restr (S j) m' = restr (S j) m.
Proof.
  intros Hi Hj Hne H. apply functional_extensionality. intros a. unfold restr. destruct (S j a) eqn:E; [|reflexivity].
  apply H. destruct (S i a) eqn:E2; [|reflexivity]. rewrite (Hdis i j a) in E by auto. discriminate.
Qed.

Lemma runs_step f m i t' m' : runs_to f m -> i < n -> tstep (f i) m t' m' ->
  runs_to (sett f i t') m' /\ forall a, S i a = false -> m' a = m a.
Proof.
  intros H Hi Hs. destruct (step_down (S i) _ _ _ _ Hs) as [H1 H2].
  { apply (H i Hi). } { apply runs_nofault; assumption. }
  split; [|assumption]. intros j Hj. unfold sett. destruct (Nat.eqb_spec i j) as [<-|Hne].
  - destruct (H i Hi) as [Hg Hall]. split; [eapply tgood_step; eassumption|].
    intros o Ho. apply Hall. eapply te_step; eassumption.
  - rewrite (restr_other i j m m') by auto. apply H. assumption.
Qed.

Lemma par_sound t m o : texec t m o -> forall f, t = TPar n f -> runs_to f m -> exists m', o = OK m' /\ result_of m m'.
Proof.
  induction 1 as [t m Hd|t m t' m' o Hs He IH|t m Hf|t m Hx]; intros f -> HR.
  - exists m. split; [reflexivity|]. split; [|auto]. intros i Hi. inversion Hd as [|? ? H]; subst.
    destruct (HR i Hi) as [_ Hall]. specialize (Hall _ (te_done _ _ (H i Hi))). congruence.
  - inversion Hs as [| | | |? ? ? i t2 ? Hi Hs2|]; subst. destruct (runs_step f m i t2 m' HR Hi Hs2) as [HR' Hfr].
    destruct (IH _ eq_refl HR') as (m2 & -> & H1 & H2). exists m2. split; [reflexivity|]. split; [assumption|].
    intros a Ha. rewrite H2 by assumption. apply Hfr. auto.
  - exfalso. inversion Hf as [| | | | |? ? i ? Hi Hf2|? ? i j a w ? Hi Hj Hne H1 H2]; subst.
    + apply (runs_nofault f m i HR Hi). apply fault_down; [apply (HR i Hi)|assumption].
    + pose proof (touch_in (S i) _ m a _ (runs_nofault f m i HR Hi) H1) as E1.
      pose proof (touch_in (S j) _ m a _ (runs_nofault f m j HR Hj) H2) as E2.
      rewrite (Hdis i j a) in E2 by auto. discriminate.
  - exfalso. inversion Hx as [| |? ? i Hi Hx2]; subst. destruct (HR i Hi) as [_ Hall].
    specialize (Hall _ (te_exit _ (restr (S i) m) Hx2)). discriminate.
Qed.

Lemma par_thread i : i < n -> forall t m o, texec t m o -> forall rm, o = OK rm ->
  forall f M0, f i = t -> m = restr (S i) M0 -> runs_to f M0 ->
  (forall f' M', done (f' i) -> (forall j, j <> i -> f' j = f j) -> (forall a, S i a = false -> M' a = M0 a) ->
     runs_to f' M' -> exists r, texec (TPar n f') M' (OK r)) ->
  exists r, texec (TPar n f) M0 (OK r).
Proof.
  intros Hi. induction 1 as [t m Hd|t m t' m' o Hs He IH|t m Hf|t m Hx]; intros rm E f M0 Ef Em HR Hk; try discriminate.
  - apply Hk; auto. rewrite Ef. assumption.
  - subst m. destruct (step_up (S i) t M0 t' m' Hs) as (M1 & H1 & H2 & H3).
    { rewrite <- Ef. apply (HR i Hi). }
    rewrite <- Ef in H1. destruct (runs_step f M0 i t' M1 HR Hi H1) as [HR' _].
    destruct (IH rm E (sett f i t') M1) as (r & Hr); auto.
    { unfold sett. rewrite Nat.eqb_refl. reflexivity. }
    { intros f' M' Hd Hf' Hfr HRf. apply Hk; auto.
      - intros j Hj. rewrite Hf' by assumption. unfold sett. destruct (Nat.eqb_spec i j); [congruence|reflexivity].
      - intros a Ha. rewrite Hfr, H3 by assumption. reflexivity. }
    exists r. eapply te_step; [apply ts_par with (i := i); eassumption|assumption].
Qed.
Lemma par_progress : forall k f m, k <= n -> (forall i, i < n - k -> done (f i)) -> runs_to f m ->
  (forall i, i < n -> n - k <= i -> texec (f i) (restr (S i) m) (OK (mf i))) ->
  exists r, texec (TPar n f) m (OK r).
Proof.
  induction k as [|k IH]; intros f m Hk Hd HR Hex.
  - exists m. apply te_done. constructor. intros i Hi. apply Hd. lia.
  - set (i := n - Datatypes.S k). assert (Hi : i < n) by lia.
    pose proof (Hex i Hi ltac:(lia)) as He.
    eapply (par_thread i Hi _ _ _ He); eauto.
    intros f' M' Hdf Hf' Hfr HRf. apply IH; [lia| |assumption|].
    + intros j Hj. destruct (Nat.eq_dec j i) as [->|Hne]; [assumption|]. rewrite Hf' by assumption. apply Hd. lia.
    + intros j Hj Hjk. rewrite Hf' by lia. rewrite (restr_other i j m M') by (auto; lia). apply Hex; lia.
Qed.
End Par.

(** n threads, each correct on its own part of memory alone, are correct together. *)
Lemma TWP_par n (S : nat -> addr -> bool) (f : nat -> tc) (Q : nat -> mem -> Prop) m :
  (forall i j a, i < n -> j < n -> i <> j -> S i a = true -> S j a = false) ->
  (forall i, i < n -> tgood (f i)) ->
  (forall i, i < n -> TWP (f i) (restr (S i) m) (Q i)) ->
  TWP (TPar n f) m (fun m' => (forall i, i < n -> Q i (restr (S i) m')) /\
    (forall a, (forall i, i < n -> S i a = false) -> m' a = m a)).
Proof.
  intros Hdis Hg HW.
  assert (Hmf : exists mf : nat -> mem, forall i, i < n -> texec (f i) (restr (S i) m) (OK (mf i)) /\ Q i (mf i) /\
             forall o, texec (f i) (restr (S i) m) o -> o = OK (mf i)).
  { clear Hdis Hg. induction n as [|k IH].
    - exists (fun _ => m). intros; lia.
    - destruct IH as (mf & Hmf). { intros; apply HW; lia. }
      destruct (HW k (Nat.lt_succ_diag_r k)) as (mk & Hk). exists (fun j => if k =? j then mk else mf j).
      intros i Hi. destruct (Nat.eqb_spec k i) as [<-|Hne]; [exact Hk|]. apply Hmf. lia. }
  destruct Hmf as (mf & Hmf).
  assert (HR : runs_to n S mf f m). { intros i Hi. split; [auto|]. apply Hmf. assumption. }
  destruct (par_progress n S Hdis mf n f m) as (r & Hr); auto.
  { intros; lia. } { intros i Hi _. apply Hmf. assumption. }
  exists r. split; [assumption|]. destruct (par_sound n S Hdis mf _ _ _ Hr f eq_refl HR) as (r' & E & H1 & H2).
  injection E as <-. split.
  - split; [|assumption]. intros i Hi. rewrite H1 by assumption. apply Hmf. assumption.
  - intros o Ho. destruct (par_sound n S Hdis mf _ _ _ Ho f eq_refl HR) as (r2 & -> & G1 & G2). apply f_equal.
    apply functional_extensionality. intros a.
    destruct (Classical_Prop.classic (exists i, i < n /\ S i a = true)) as [(i & Hi & Ha)|Hn].
    + rewrite <- (restr_in (S i) r2 a Ha), <- (restr_in (S i) r a Ha), G1, H1 by assumption. reflexivity.
    + assert (Hno : forall i, i < n -> S i a = false).
      { intros i Hi. destruct (S i a) eqn:E; [|reflexivity]. exfalso. apply Hn. exists i. auto. }
      rewrite H2, G2 by assumption. reflexivity.
Qed.

(** good commands *)
Fixpoint cgood (c : cmd V) : Prop :=
  match c with
  | Seq a b => cgood a /\ cgood b
  | Ext pre post => good_ext pre post
  | _ => True
  end.
Lemma cgood_emb c : cgood c -> tgood (emb c).
Proof. induction c; cbn [cgood emb]; intros H; try (constructor; auto; fail); constructor; try tauto. intros; constructor. Qed.
Lemma cgood_cfor n (f : nat -> cmd V) : (forall i, i < n -> cgood (f i)) -> cgood (cfor n f).
Proof. induction n as [|n IH]; intros H; cbn [cfor cgood]; [exact I|]. split; [apply IH; intros; apply H; lia|apply H; lia]. Qed.
Lemma tgood_list l (f : nat -> tc) : (forall i, In i l -> tgood (f i)) -> tgood (tlist l f).
Proof. induction l; intros H; cbn [tlist]; constructor; auto using in_eq, in_cons. Qed.
End Team.

Arguments TP {V}.
Arguments TSeq {V}.
Arguments TPar {V}.
Arguments TExt {V}.
Arguments TExit {V}.
Arguments emb {V}.
Arguments texec {V}.
Arguments TWP {V}.
Arguments tlist {V}.
Arguments tskip {V}.
Arguments restr {V}.
Arguments tgood {V}.
Arguments cgood {V}.
Arguments good_ext {V}.
