(** Memory, loop bodies, parallel loops under every interleaving.

    This file is the semantic foundation for the kernels of convolve.cc and fftw++.h.
    - Memory is one flat address space of words (the word type [V] is a parameter:
      Complex words for complex kernels, doubles for real ones).
    - [prog] is a loop body: a tree of single-word reads and writes.
    - [Par n body] is an OpenMP work-sharing loop (parallel.h:28-65, PARALLEL and
      PARALLELIF): its iterations are interleaved arbitrarily at the granularity of
      single word accesses, so every thread count, chunking and schedule (including the
      sequential one chosen when threads=1 or the PARALLELIF condition fails) is covered.
    - Reading a word that is unallocated or uninitialised, and writing an unallocated
      word, is undefined behaviour: outcome [UB].
    - A data race (two iterations about to access the same word, at least one of them
      writing it) is undefined behaviour too, as in the C++ memory model.
    - [Ext pre post] is an external call (FFTW): UB if its precondition fails. *)
From Coq Require Import Arith Lia List Bool FunctionalExtensionality Classical_Prop.

Section Mem.
Variable V : Type.

Definition addr := nat.

Inductive cell : Type := Unalloc | Undef | Val (v : V).
Definition mem := addr -> cell.

Definition upd (m : mem) (a : addr) (c : cell) : mem :=
  fun b => if Nat.eqb a b then c else m b.

Inductive prog : Type :=
| Ret : prog
| Rd : addr -> (V -> prog) -> prog
| Wr : addr -> V -> prog -> prog
| Fault : prog.

Fixpoint pseq (p q : prog) : prog :=
  match p with
  | Ret => q
  | Rd a k => Rd a (fun v => pseq (k v) q)
  | Wr a v p => Wr a v (pseq p q)
  | Fault => Fault
  end.

(** for(i=0; i < n; ++i) body i, sequentially inside one iteration *)
Fixpoint pfor (n : nat) (body : nat -> prog) : prog :=
  match n with O => Ret | S k => pseq (pfor k body) (body k) end.

Inductive outcome : Type := OK (m : mem) | UB | ExitErr.

(** all interleavings of the threads ps 0 .. ps (n-1) *)
Definition setp (ps : nat -> prog) (i : nat) (p : prog) : nat -> prog :=
  fun j => if Nat.eqb i j then p else ps j.

Inductive par_exec (n : nat) : (nat -> prog) -> mem -> outcome -> Prop :=
| pe_done ps m : (forall i, i < n -> ps i = Ret) -> par_exec n ps m (OK m)
| pe_rd ps m i a k v o : i < n -> ps i = Rd a k -> m a = Val v ->
    par_exec n (setp ps i (k v)) m o -> par_exec n ps m o
| pe_wr ps m i a v p o : i < n -> ps i = Wr a v p -> m a <> Unalloc ->
    par_exec n (setp ps i p) (upd m a (Val v)) o -> par_exec n ps m o
| pe_rd_ub ps m i a k : i < n -> ps i = Rd a k -> (forall v, m a <> Val v) ->
    par_exec n ps m UB
| pe_wr_ub ps m i a v p : i < n -> ps i = Wr a v p -> m a = Unalloc -> par_exec n ps m UB
| pe_fault ps m i : i < n -> ps i = Fault -> par_exec n ps m UB
| pe_race ps m i j a v p : i < n -> j < n -> i <> j -> ps i = Wr a v p ->
    ((exists k, ps j = Rd a k) \/ (exists v' p', ps j = Wr a v' p')) -> par_exec n ps m UB.

Inductive cmd : Type :=
| Skip : cmd
| Seq : cmd -> cmd -> cmd
| Par : nat -> (nat -> prog) -> cmd
| Ext : (mem -> Prop) -> (mem -> mem -> Prop) -> cmd
| Exit : cmd.   (* exit(-1) after an error message *)

Inductive exec : cmd -> mem -> outcome -> Prop :=
| ex_skip m : exec Skip m (OK m)
| ex_seq a b m m1 o : exec a m (OK m1) -> exec b m1 o -> exec (Seq a b) m o
| ex_seq_ub a b m : exec a m UB -> exec (Seq a b) m UB
| ex_seq_exit a b m : exec a m ExitErr -> exec (Seq a b) m ExitErr
| ex_par n body m o : par_exec n body m o -> exec (Par n body) m o
| ex_ext (pre : mem -> Prop) (post : mem -> mem -> Prop) m m' :
    pre m -> post m m' -> exec (Ext pre post) m (OK m')
| ex_ext_ub (pre : mem -> Prop) (post : mem -> mem -> Prop) m :
    ~ pre m -> exec (Ext pre post) m UB
| ex_exit m : exec Exit m ExitErr.

(** sequential repetition at the command level: for(i=0; i < n; ++i) c i *)
Fixpoint cfor (n : nat) (c : nat -> cmd) : cmd :=
  match n with O => Skip | S k => Seq (cfor k c) (c k) end.

(** Total correctness over every schedule: some execution finishes normally, in a state
    satisfying Q, and every execution (every schedule) has that same outcome: no undefined
    behaviour, no data race, no error exit, the same final memory. *)
Definition WP (c : cmd) (m : mem) (Q : mem -> Prop) : Prop :=
  exists m', exec c m (OK m') /\ Q m' /\ forall o, exec c m o -> o = OK m'.

(** *** Local reasoning about one loop body *)

(** p, run from m reading only R or W and writing only W, ends in a state with Q. *)
Fixpoint wp (R W : addr -> Prop) (p : prog) (m : mem) (Q : mem -> Prop) : Prop :=
  match p with
  | Ret => Q m
  | Rd a k => (R a \/ W a) /\ exists v, m a = Val v /\ wp R W (k v) m Q
  | Wr a v p => W a /\ m a <> Unalloc /\ wp R W p (upd m a (Val v)) Q
  | Fault => False
  end.

Lemma upd_eq m a c : upd m a c a = c.
Proof. unfold upd. rewrite Nat.eqb_refl. reflexivity. Qed.
Lemma upd_neq m a b c : a <> b -> upd m a c b = m b.
Proof. intros H. unfold upd. apply Nat.eqb_neq in H. rewrite H. reflexivity. Qed.

Lemma wp_mono R W p : forall m (Q Q' : mem -> Prop),
  (forall m, Q m -> Q' m) -> wp R W p m Q -> wp R W p m Q'.
Proof.
  induction p as [|a k IH|a v p IH|]; cbn [wp]; intros m Q Q' H Hp.
  - auto.
  - destruct Hp as (HR & v & Hv & Hp). split; [assumption|]. exists v. split; [assumption|].
    eapply IH; eassumption.
  - destruct Hp as (HW & Ha & Hp). split; [assumption|]. split; [assumption|].
    eapply IH; eassumption.
  - assumption.
Qed.

Lemma wp_weaken (R W R' W' : addr -> Prop) p : forall m Q,
  (forall a, R a -> R' a \/ W' a) -> (forall a, W a -> W' a) ->
  wp R W p m Q -> wp R' W' p m Q.
Proof.
  induction p as [|a k IH|a v p IH|]; cbn [wp]; intros m Q HR HW Hp.
  - auto.
  - destruct Hp as (H & v & Hv & Hp). split; [destruct H; auto|]. exists v. split; [assumption|].
    eapply IH; eassumption.
  - destruct Hp as (H & Ha & Hp). split; [auto|]. split; [assumption|].
    eapply IH; eassumption.
  - assumption.
Qed.

Lemma wp_pseq R W p q : forall m Q,
  wp R W p m (fun m' => wp R W q m' Q) -> wp R W (pseq p q) m Q.
Proof.
  induction p as [|a k IH|a v p IH|]; cbn [wp pseq]; intros m Q Hp.
  - assumption.
  - destruct Hp as (H & v & Hv & Hp). split; [assumption|]. exists v. split; [assumption|].
    apply IH. assumption.
  - destruct Hp as (H & Ha & Hp). split; [assumption|]. split; [assumption|]. apply IH. assumption.
  - assumption.
Qed.

(** memory outside W unchanged, allocation preserved *)
Definition frame (W : addr -> Prop) (m m' : mem) : Prop :=
  (forall a, ~ W a -> m' a = m a) /\ (forall a, m a <> Unalloc -> m' a <> Unalloc).

Lemma frame_refl W m : frame W m m. Proof. split; auto. Qed.
Lemma frame_trans (W1 W2 W : addr -> Prop) m1 m2 m3 :
  frame W1 m1 m2 -> frame W2 m2 m3 -> (forall a, W1 a -> W a) -> (forall a, W2 a -> W a) ->
  frame W m1 m3.
Proof.
  intros [A1 B1] [A2 B2] H1 H2. split; [|auto].
  intros a Ha. rewrite A2, A1; auto.
Qed.
Lemma frame_weaken (W W' : addr -> Prop) m m' : frame W m m' -> (forall a, W a -> W' a) -> frame W' m m'.
Proof. intros [A B] H. split; auto. Qed.

Lemma wp_frame R W p : forall m Q,
  wp R W p m Q -> wp R W p m (fun m' => Q m' /\ frame W m m').
Proof.
  induction p as [|a k IH|a v p IH|]; cbn [wp]; intros m Q Hp.
  - split; [assumption|apply frame_refl].
  - destruct Hp as (H & v & Hv & Hp). split; [assumption|]. exists v. split; [assumption|].
    apply IH. assumption.
  - destruct Hp as (H & Ha & Hp). split; [assumption|]. split; [assumption|].
    eapply wp_mono; [|apply IH; eassumption].
    intros m' [HQ [A B]]. split; [assumption|]. split.
    + intros b Hb. rewrite A by assumption. apply upd_neq. intros ->. contradiction.
    + intros b Hb. apply B. unfold upd. destruct (Nat.eqb a b); [discriminate|assumption].
  - assumption.
Qed.

(** Q depends only on the words in S *)
Definition local (S : addr -> Prop) (Q : mem -> Prop) : Prop :=
  forall m m', (forall a, S a -> m a = m' a) -> Q m -> Q m'.

(** wp depends only on the footprint *)
Lemma wp_local R W p : forall Q, local (fun a => R a \/ W a) Q ->
  local (fun a => R a \/ W a) (fun m => wp R W p m Q).
Proof.
  induction p as [|a k IH|a v p IH|]; cbn [wp]; intros Q HQ m m' Hm Hp.
  - eapply HQ; eassumption.
  - destruct Hp as (H & v & Hv & Hp). split; [assumption|]. exists v. split.
    + rewrite <- Hm; assumption.
    + eapply IH; eassumption.
  - destruct Hp as (H & Ha & Hp). split; [assumption|]. split.
    + rewrite <- Hm by auto. assumption.
    + eapply IH; [eassumption| |eassumption].
      intros b Hb. unfold upd. destruct (Nat.eqb a b); auto.
  - assumption.
Qed.

Lemma par_exec_ext n ps ps' m o :
  (forall j, ps j = ps' j) -> par_exec n ps m o -> par_exec n ps' m o.
Proof.
  intros E H. revert ps' E.
  induction H as [ps m Hd|ps m i a k v o Hi Hp Hv Hex IH|ps m i a v p o Hi Hp Ha Hex IH
                 |ps m i a k Hi Hp Hv|ps m i a v p Hi Hp Ha|ps m i Hi Hp|ps m i i2 a v p Hi Hi2 Hne Hp Hp2]; intros ps' E;
    rewrite ?E in *.
  - apply pe_done. intros. rewrite <- E. auto.
  - eapply pe_rd with (i := i); [assumption|eassumption|eassumption|].
    apply IH. intros j. unfold setp. destruct (Nat.eqb i j); auto.
  - eapply pe_wr with (i := i); [assumption|eassumption|eassumption|].
    apply IH. intros j. unfold setp. destruct (Nat.eqb i j); auto.
  - eapply pe_rd_ub with (i := i); eassumption.
  - eapply pe_wr_ub with (i := i); eassumption.
  - eapply pe_fault with (i := i); assumption.
  - eapply pe_race with (i := i) (j := i2); eassumption.
Qed.

Section Indep.
Variable n : nat.
Variables R W : nat -> addr -> Prop.
Variable Q : nat -> mem -> Prop.

(** no iteration writes a word another iteration reads or writes *)
Definition indep : Prop :=
  forall i j a, i < n -> j < n -> i <> j -> W i a -> R j a \/ W j a -> False.

Hypothesis Hind : indep.
Hypothesis HQ : forall i, i < n -> local (fun a => R i a \/ W i a) (Q i).

Definition anyW (a : addr) : Prop := exists i, i < n /\ W i a.

Lemma par_sound_gen ps m o :
  par_exec n ps m o ->
  (forall i, i < n -> wp (R i) (W i) (ps i) m (Q i)) ->
  exists m', o = OK m' /\ (forall i, i < n -> Q i m') /\ frame anyW m m'.
Proof.
  induction 1 as [ps m Hd|ps m i a k v o Hi Hp Hv Hex IH|ps m i a v p o Hi Hp Ha Hex IH
                 |ps m i a k Hi Hp Hv|ps m i a v p Hi Hp Ha|ps m i Hi Hp|ps m i i2 a v p Hi Hi2 Hne Hp Hp2]; intros Hw.
  - exists m. split; [reflexivity|]. split; [|apply frame_refl].
    intros i Hi. specialize (Hw i Hi). rewrite (Hd i Hi) in Hw. exact Hw.
  - destruct IH as (m' & -> & HQ' & HF).
    { intros j Hj. unfold setp. destruct (Nat.eqb_spec i j) as [<-|Hne]; [|auto].
      specialize (Hw i Hi). rewrite Hp in Hw. cbn [wp] in Hw.
      destruct Hw as (_ & v' & Hv' & Hw). rewrite Hv in Hv'. injection Hv' as <-. assumption. }
    exists m'. auto.
  - pose proof (Hw i Hi) as Hwi. rewrite Hp in Hwi. cbn [wp] in Hwi.
    destruct Hwi as (HWa & _ & Hwi).
    destruct IH as (m' & -> & HQ' & [A B]).
    { intros j Hj. unfold setp. destruct (Nat.eqb_spec i j) as [<-|Hne]; [assumption|].
      eapply wp_local; [apply HQ; assumption| |apply Hw; assumption].
      intros b Hb. symmetry. apply upd_neq. intros ->. eapply (Hind i j); eassumption. }
    exists m'. split; [reflexivity|]. split; [assumption|]. split.
    + intros b Hb. rewrite A by assumption. apply upd_neq. intros ->. apply Hb. exists i; auto.
    + intros b Hb. apply B. unfold upd. destruct (Nat.eqb a b); [discriminate|assumption].
  - exfalso. specialize (Hw i Hi). rewrite Hp in Hw. cbn [wp] in Hw.
    destruct Hw as (_ & v & E & _). exact (Hv v E).
  - exfalso. specialize (Hw i Hi). rewrite Hp in Hw. cbn [wp] in Hw. tauto.
  - exfalso. specialize (Hw i Hi). rewrite Hp in Hw. exact Hw.
  - exfalso. pose proof (Hw i Hi) as Hwi. rewrite Hp in Hwi. cbn [wp] in Hwi.
    specialize (Hw i2 Hi2). destruct Hwi as (HWi & _).
    apply (Hind i i2 a Hi Hi2 Hne HWi).
    destruct Hp2 as [[k Ek]|(v' & p' & Ek)]; rewrite Ek in Hw; cbn [wp] in Hw; tauto.
Qed.

(** progress: the schedule that runs the iterations in order terminates *)
Lemma par_run_thread i : i < n -> forall p ps m Q0,
  ps i = p -> wp (R i) (W i) p m Q0 ->
  (forall m', Q0 m' -> frame (W i) m m' ->
      exists m'', par_exec n (setp ps i Ret) m' (OK m'')) ->
  exists m'', par_exec n ps m (OK m'').
Proof.
  intros Hi. induction p as [|a k IH|a v p IH|]; intros ps m Q0 Hp Hw Hk; cbn [wp] in Hw.
  - destruct (Hk m Hw (frame_refl _ _)) as (m'' & Hex). exists m''.
    eapply par_exec_ext; [|exact Hex]. intros j. unfold setp.
    destruct (Nat.eqb_spec i j) as [<-|]; auto.
  - destruct Hw as (_ & v & Hv & Hw).
    destruct (IH v (setp ps i (k v)) m Q0) as (m'' & Hex).
    + unfold setp. rewrite Nat.eqb_refl. reflexivity.
    + assumption.
    + intros m' HQ' HF. destruct (Hk m' HQ' HF) as (m'' & Hex). exists m''.
      eapply par_exec_ext; [|exact Hex]. intros j. unfold setp. destruct (Nat.eqb i j); reflexivity.
    + exists m''. eapply pe_rd with (i := i); eassumption.
  - destruct Hw as (HWa & Ha & Hw).
    destruct (IH (setp ps i p) (upd m a (Val v)) Q0) as (m'' & Hex).
    + unfold setp. rewrite Nat.eqb_refl. reflexivity.
    + assumption.
    + intros m' HQ' HF. destruct (Hk m' HQ') as (m'' & Hex).
      { destruct HF as [A B]. split.
        - intros b Hb. rewrite A by assumption. apply upd_neq. intros ->. contradiction.
        - intros b Hb. apply B. unfold upd. destruct (Nat.eqb a b); [discriminate|assumption]. }
      exists m''.
      eapply par_exec_ext; [|exact Hex]. intros j. unfold setp. destruct (Nat.eqb i j); reflexivity.
    + exists m''. eapply pe_wr with (i := i); eassumption.
  - contradiction.
Qed.

Lemma par_progress_gen : forall k ps m, k <= n ->
  (forall i, i < n -> (i < n - k) -> ps i = Ret) ->
  (forall i, i < n -> n - k <= i -> wp (R i) (W i) (ps i) m (Q i)) ->
  exists m', par_exec n ps m (OK m').
Proof.
  induction k as [|k IH]; intros ps m Hk Hret Hw.
  - exists m. apply pe_done. intros i Hi. apply Hret; lia.
  - set (i := n - S k). assert (Hi : i < n) by lia.
    eapply (par_run_thread i Hi (ps i) ps m (Q i)); [reflexivity|apply Hw; lia|].
    intros m' HQi [HF _].
    apply IH; [lia| |].
    + intros j Hj Hjk. unfold setp. destruct (Nat.eqb_spec i j); [reflexivity|].
      apply Hret; lia.
    + intros j Hj Hjk. unfold setp. destruct (Nat.eqb_spec i j); [lia|].
      eapply wp_local; [apply HQ; assumption| |apply Hw; lia].
      intros a Ha. symmetry. apply HF. intros HWa. eapply (Hind i j); eassumption.
Qed.

End Indep.

(** the single-threaded run of one iteration *)
Fixpoint run (p : prog) (m : mem) : option mem :=
  match p with
  | Ret => Some m
  | Rd a k => match m a with Val v => run (k v) m | _ => None end
  | Wr a v p => run p (upd m a (Val v))
  | Fault => None
  end.
Lemma wp_run R W p : forall m Q,
  wp R W p m Q -> wp R W p m (fun m' => Q m' /\ run p m = Some m').
Proof.
  induction p as [|a k IH|a v p IH|]; cbn [wp run]; intros m Q Hp.
  - auto.
  - destruct Hp as (H & v & Hv & Hp). split; [assumption|]. exists v. split; [assumption|].
    rewrite Hv. apply IH. assumption.
  - destruct Hp as (H & Ha & Hp). split; [assumption|]. split; [assumption|]. apply IH. assumption.
  - assumption.
Qed.

(** The independent-loop rule for parallel loops. *)
Lemma WP_par n (R W : nat -> addr -> Prop) (Q : nat -> mem -> Prop) :
  indep n R W -> (forall i, i < n -> local (fun a => R i a \/ W i a) (Q i)) ->
  forall body m,
  (forall i, i < n -> wp (R i) (W i) (body i) m (Q i)) ->
  WP (Par n body) m (fun m' => (forall i, i < n -> Q i m') /\ frame (anyW n W) m m').
Proof.
  intros Hind HQ body m Hw.
  set (Q' := fun i m' => Q i m' /\ exists m1, run (body i) m = Some m1 /\ forall a, W i a -> m' a = m1 a).
  assert (HQ' : forall i, i < n -> local (fun a => R i a \/ W i a) (Q' i)).
  { intros i Hi m1 m2 E [H1 (m3 & H2 & H3)]. split; [eapply HQ; eassumption|].
    exists m3. split; [assumption|]. intros a Ha. rewrite <- E by auto. auto. }
  assert (Hw' : forall i, i < n -> wp (R i) (W i) (body i) m (Q' i)).
  { intros i Hi. eapply wp_mono; [|apply wp_run, Hw, Hi].
    intros m' [H1 H2]. split; [assumption|]. exists m'. auto. }
  destruct (par_progress_gen n R W Q' Hind HQ' n body m) as (m' & H).
  { lia. } { intros; lia. } { intros; auto. }
  exists m'.
  pose proof (par_sound_gen n R W Q' Hind HQ' body m (OK m') H Hw') as (m'' & E & HA & HF).
  injection E as <-. split; [constructor; assumption|]. split.
  - split; [|assumption]. intros i Hi. apply HA. assumption.
  - intros o Hex. inversion Hex as [| | | |n' body' m0 o' Hpe| | |]; subst.
    destruct (par_sound_gen n R W Q' Hind HQ' body m o Hpe Hw') as (m'' & -> & HA2 & HF2).
    f_equal. apply functional_extensionality. intros a.
    destruct (classic (anyW n W a)) as [(i & Hi & Ha)|Hn].
    + destruct (HA i Hi) as [_ (m1 & E1 & G1)]. destruct (HA2 i Hi) as [_ (m2 & E2 & G2)].
      rewrite E1 in E2. injection E2 as <-. rewrite G1, G2 by assumption. reflexivity.
    + destruct HF as [F1 _], HF2 as [F2 _]. rewrite F1, F2 by assumption. reflexivity.
Qed.

(** The same rule for a sequential loop inside an iteration. *)
Lemma wp_pfor (n : nat) (R W : nat -> addr -> Prop) (Q : nat -> mem -> Prop)
  (RR WW : addr -> Prop) body m :
  indep n R W ->
  (forall i, i < n -> local (fun a => R i a \/ W i a) (Q i)) ->
  (forall i a, i < n -> R i a -> RR a \/ WW a) -> (forall i a, i < n -> W i a -> WW a) ->
  (forall i, i < n -> wp (R i) (W i) (body i) m (Q i)) ->
  wp RR WW (pfor n body) m
     (fun m' => (forall i, i < n -> Q i m') /\ frame (anyW n W) m m').
Proof.
  induction n as [|n IH]; intros Hind HQ HRR HWW Hw; cbn [pfor].
  - cbn [wp]. split; [intros; lia|apply frame_refl].
  - apply wp_pseq. eapply wp_mono; [|apply IH].
    + intros m1 [HQ1 HF1]. cbn beta.
      assert (Hn : wp (R n) (W n) (body n) m1 (Q n)).
      { eapply wp_local; [apply HQ; lia| |apply Hw; lia].
        intros a Ha. symmetry. apply HF1. intros (i & Hi & HWi).
        apply (Hind i n a); auto; lia. }
      apply wp_frame in Hn.
      eapply wp_weaken; [| |eapply wp_mono; [|exact Hn]].
      * intros a Ha. eapply HRR; [|eassumption]. lia.
      * intros a Ha. eapply HWW; [|eassumption]. lia.
      * intros m2 [HQn HF2]. split.
        -- intros i Hi. destruct (Nat.eq_dec i n) as [->|Hne]; [assumption|].
           eapply (HQ i); [lia| |apply HQ1; lia].
           intros a Ha. symmetry. apply HF2. intros HWa. apply (Hind n i a); auto; lia.
        -- eapply frame_trans; [exact HF1|exact HF2| |].
           ++ intros a (i & Hi & HWi). exists i. split; [lia|assumption].
           ++ intros a HWa. exists n. split; [lia|assumption].
    + intros i j a Hi Hj. apply Hind; lia.
    + intros i Hi. apply HQ; lia.
    + intros i a Hi. apply HRR; lia.
    + intros i a Hi. apply HWW; lia.
    + intros i Hi. apply Hw; lia.
Qed.

(** *** Command-level rules *)

Lemma WP_mono c m (Q Q' : mem -> Prop) : (forall m, Q m -> Q' m) -> WP c m Q -> WP c m Q'.
Proof. intros H (m' & He & Hq & Ha). exists m'. auto. Qed.

Lemma WP_skip m (Q : mem -> Prop) : Q m -> WP Skip m Q.
Proof.
  intros HQ. exists m. split; [constructor|]. split; [assumption|].
  intros o Ho. inversion Ho; subst. reflexivity.
Qed.

Lemma WP_seq a b m (Q : mem -> Prop) : WP a m (fun m1 => WP b m1 Q) -> WP (Seq a b) m Q.
Proof.
  intros (m1 & He & (m2 & He2 & HQ & Hb) & Ha). exists m2. split; [econstructor; eassumption|].
  split; [assumption|].
  intros o Ho. inversion Ho as [|a' b' m' m1' o' H1 H2|? ? ? H1|? ? ? H1| | | |]; subst.
  - apply Ha in H1. injection H1 as ->. apply Hb. assumption.
  - apply Ha in H1. discriminate.
  - apply Ha in H1. discriminate.
Qed.

Lemma WP_ext (pre : mem -> Prop) (post : mem -> mem -> Prop) m m' (Q : mem -> Prop) :
  pre m -> post m m' -> (forall m'', post m m'' -> m'' = m') -> Q m' -> WP (Ext pre post) m Q.
Proof.
  intros Hp He Hd HQ. exists m'. split; [constructor; assumption|]. split; [assumption|].
  intros o Ho. inversion Ho as [| | | | |? ? ? m1 H1 H2|? ? ? H1|]; subst.
  - f_equal. auto.
  - contradiction.
Qed.

(** invariant rule for a sequential command loop *)
Lemma WP_cfor n c (I : nat -> mem -> Prop) m :
  I 0 m -> (forall i m, i < n -> I i m -> WP (c i) m (I (S i))) -> WP (cfor n c) m (I n).
Proof.
  induction n as [|n IH]; intros H0 Hs; cbn [cfor].
  - apply WP_skip. assumption.
  - apply WP_seq. eapply WP_mono; [|apply IH; [assumption|intros; apply Hs; [lia|assumption]]].
    intros m1 H1. apply Hs; [lia|assumption].
Qed.

Lemma WP_consequence c m (Q : mem -> Prop) o : WP c m Q -> exec c m o -> o <> UB /\ o <> ExitErr.
Proof. intros (m' & _ & _ & H) Ho. rewrite (H o Ho). split; discriminate. Qed.
Lemma WP_all c m (Q : mem -> Prop) o : WP c m Q -> exec c m o -> exists m', o = OK m' /\ Q m'.
Proof. intros (m' & _ & HQ & H) Ho. exists m'. auto. Qed.
End Mem.

Arguments Unalloc {V}.
Arguments Undef {V}.
Arguments Val {V}.
Arguments Ret {V}.
Arguments Rd {V}.
Arguments Wr {V}.
Arguments Fault {V}.
Arguments Skip {V}.
Arguments Seq {V}.
Arguments Par {V}.
Arguments Ext {V}.
Arguments Exit {V}.
Arguments OK {V}.
Arguments UB {V}.
Arguments ExitErr {V}.
Arguments pseq {V}.
Arguments pfor {V}.
Arguments cfor {V}.
Arguments upd {V}.
Arguments wp {V}.
Arguments WP {V}.
Arguments exec {V}.
Arguments frame {V}.
Arguments local {V}.
