(** The distributed convolution as a collective step. *)
From Coq Require Import Reals List Arith Bool Lia FunctionalExtensionality.
From Verif Require Import CNum Sums MpiMachine MpiRun MpiTrModel MpiTrGeom MpiTrPhase MpiTrXch MpiTrSpec MpiTrTop MpiColl MpiFftModel MpiFft1 MpiRFft1 MpiCModel MpiC1 MpiC2.
Import ListNotations.
Local Open Scope nat_scope.
Arguments set1 {T}.

Section Whole.
Variable c : cfg.
Context {Hc : good c}.
Hypothesis Hz : csz c = 1. Hypothesis HL : cL c = 1.
Variables (A B Lx off : nat) (K : kern).
Notation X := (cN c). Notation Y := (cM c). Notation P := (cP c). Notation Z_ := (S_ c).
Notation N := (nN A B).
Notation fb := (fb A B). Notation vb := (vb A B).
Hypothesis HT : P = 1 \/ blocklen Y P < Y.
Hypothesis Hbk : forall i, i < nblocks K -> kblock K i <= X.
Hypothesis Kf : forall i k x x', i < nblocks K -> k < kblock K i -> (forall t, t < Lx -> x t = x' t) -> kfwd K i k x = kfwd K i k x'.
Hypothesis Kb : forall i t y y', i < nblocks K -> (forall k, k < kblock K i -> y k = y' k) -> kbwd K i t y = kbwd K i t y'.
Hypothesis Kr : forall i k w w' b j, i < nblocks K -> (forall a j, a < A -> j < Y -> w a j = w' a j) -> krow K i k w b j = krow K i k w' b j.
Variables (bsz0 : nat -> nat -> nat) (mem0 : nat -> nat -> nat -> C).
Notation many := (many K).
Hypothesis Hcap : forall r b, r < P -> b <= N -> storage X Y Z_ P r <= bsz0 r b.
Hypothesis Hf : forall r a, r < P -> a < N -> off + Lx * count Y P r <= bsz0 r (fb a).
Hypothesis Hv : many = true -> forall r b, r < P -> b < B -> Lx * count Y P r <= bsz0 r (vb b).
Hypothesis Hnb : 0 < nblocks K.
Notation Inv := (Inv c A B Lx off K bsz0 mem0).
Notation CollC := (Coll C c).
Notation none := (fun _ : nat => @None bool).

(** what block i contributes to word (x,j) of output b *)
Definition term (f : nat -> nat -> nat -> C) (i b x j : nat) : C :=
  kbwd K i x (fun k => krow K i (k mod blocklen X P) (fun a j => kfwd K i k (fun x => f a x j)) b j).
Definition addT (i : nat) (old t : nat -> nat -> C) (x j : nat) : C := if i =? 0 then t x j else Cadd (old x j) (t x j).
Fixpoint psum (f v0 : nat -> nat -> nat -> C) (i : nat) : nat -> nat -> nat -> C :=
  match i with
  | 0 => v0
  | S i => fun b => if b <? B then addT i (psum f v0 i b) (term f i b) else psum f v0 i b
  end.

Lemma forward_coll : forall f v i, i < nblocks K ->
  CollC (fun r => forwardM c A B Lx off K r i) (fun s => exists F, Inv none F f v s)
    (fun s => exists F, (forall a k j, a < A -> k < kblock K i -> F a k j = kfwd K i k (fun x => f a x j)) /\
       Inv (fun a => if a <? A then Some true else None) F f v s).
Proof.
  intros f v i Hi.
  pose (I := fun n s => exists F, (forall a k j, a < n -> k < kblock K i -> F a k j = kfwd K i k (fun x => f a x j)) /\
       Inv (fun a => if a <? n then Some true else None) F f v s).
  assert (H : CollC (fun r => forwardM c A B Lx off K r i) (I 0) (I A)).
  { unfold forwardM. apply (coll_forc C c (fun r a => seqc C (fwd1 c A B Lx off K r i a) (turn c A B r false a))). intros a Ha.
    assert (HaN : a < N) by (unfold nN; lia).
    apply coll_ex. intros F g k s [HF HI] Eg.
    destruct (inv_view c Hz HL A B Lx off K HT bsz0 mem0 _ F f v s a HaN HI) as [G HG].
    set (l1 := set1 (fun a0 => if a0 <? a then Some true else None) a (Some false)) in *.
    assert (E1 : l1 a = Some false) by (unfold l1, set1; rewrite Nat.eqb_refl; auto).
    set (F1 := set1 F a G) in *.
    pose proof (fwd1_phase c Hz HL A B Lx off K HT Hbk Kf bsz0 mem0 Hcap Hf l1 F1 f v i a Hi Ha E1) as C1.
    set (F2 := set1 F1 a (fun k j => if k <? kblock K i then kfwd K i k (fun x => f a x j) else F1 a k j)) in *.
    pose proof (turn_phase c Hz HL A B Lx off K HT bsz0 mem0 l1 F2 f v false a HaN E1) as C2.
    refine (coll_mono C c _ _ _ (I (S a)) _ (coll_seq C c _ _ _ _ _ C1 C2) g k s HG Eg).
    intros s' HI'. exists F2. split.
    - intros a' k' j Ha' Hk'. unfold F2, set1. destruct (Nat.eqb_spec a' a) as [->|Na].
      + destruct (Nat.ltb_spec k' (kblock K i)); [reflexivity|lia].
      + unfold F1, set1. destruct (Nat.eqb_spec a' a); [lia|]. apply HF; auto. lia.
    - revert HI'. apply (inv_fwd c Hz HL A B Lx off K HT). intros a' Ha'. unfold l1, set1. destruct (Nat.eqb_spec a' a) as [->|Na].
      + right. destruct (Nat.ltb_spec a (S a)); [auto|lia].
      + destruct (Nat.ltb_spec a' (S a)), (Nat.ltb_spec a' a); auto; lia. }
  eapply coll_pre; [|eapply coll_mono; [|exact H]].
  - intros s [F HI]. exists F. split; [intros; lia|]. exact HI.
  - intros s [F [HF HI]]. exists F. auto.
Qed.

Definition spF (f : nat -> nat -> nat -> C) (i : nat) (v0 : nat -> nat -> nat -> C) : nat -> nat -> nat -> C :=
  fun b => if b <? B then addT i (v0 b) (term f i b) else v0 b.
Lemma block_coll : forall f v i, i < nblocks K ->
  CollC (fun r => seqc C (forwardM c A B Lx off K r i) (seqc C (subconv c A B K r i) (backwardM c A B Lx K r i (if many then vb else fb) (if many then 0 else off))))
    (fun s => exists F, Inv none F f v s)
    (fun s => exists F, Inv none F (if many then f else spF f i f) (if many then spF f i v else v) s).
Proof.
  intros f v i Hi. assert (AN : A <= N /\ B <= N) by (unfold nN; lia).
  eapply coll_seq; [apply forward_coll; auto|]. apply coll_ex. intros F g k s [HF HI] Eg.
  revert g k s HI Eg. change (CollC (fun r => seqc C (subconv c A B K r i) (backwardM c A B Lx K r i (if many then vb else fb) (if many then 0 else off)))
    (Inv (fun a => if a <? A then Some true else None) F f v)
    (fun s => exists F, Inv none F (if many then f else spF f i f) (if many then spF f i v else v) s)).
  eapply coll_seq.
  { apply (sub_phase c Hz HL A B Lx off K HT Kr bsz0 mem0 Hcap); auto. intros a Ha. destruct (Nat.ltb_spec a A); [auto|lia]. }
  set (F1 := rowed c K i F).
  assert (E1 : forall b x j, kbwd K i x (fun k => F1 b k j) = term f i b x j).
  { intros b x j. unfold term. apply Kb; auto. intros k Hk. unfold F1, rowed. apply Kr; [auto|]. intros a j' Ha Hj. apply HF; auto. }
  unfold backwardM. eapply coll_seq.
  { apply (coll_forc C c (fun r b => turn c A B r true b) (fun n => Inv (fun a => if a <? n then Some false else Some true) F1 f v)). intros b Hb.
    eapply coll_mono; [|apply (turn_phase c Hz HL A B Lx off K HT bsz0 mem0 (fun a => if a <? b then Some false else Some true) F1 f v true b)].
    - intros s'. apply (inv_fwd c Hz HL A B Lx off K HT). intros a' Ha'. right. unfold set1. cbn [negb].
      destruct (Nat.eqb_spec a' b) as [Eb|Nb]; destruct (Nat.ltb_spec a' (S b)); destruct (Nat.ltb_spec a' b); try subst a'; auto; try lia.
    - lia.
    - destruct (Nat.ltb_spec b b); [lia|auto]. }
  set (l2 := fun a => if a <? B then Some false else Some true).
  pose (st := fun (n : nat) (w : nat -> nat -> nat -> C) b => if b <? n then added K i (w b) (F1 b) else w b).
  eapply coll_mono with (B := Inv l2 F1 (if many then f else st B f) (if many then st B v else v)).
  { intros s' HI. exists F1. revert HI.
    replace (st B f) with (spF f i f).
    2:{ unfold st, spF. apply functional_extensionality. intros b. destruct (b <? B); auto. unfold addT, added.
        apply functional_extensionality. intros x. apply functional_extensionality. intros j. rewrite E1. reflexivity. }
    replace (st B v) with (spF f i v).
    2:{ unfold st, spF. apply functional_extensionality. intros b. destruct (b <? B); auto. unfold addT, added.
        apply functional_extensionality. intros x. apply functional_extensionality. intros j. rewrite E1. reflexivity. }
    apply (inv_fwd c Hz HL A B Lx off K HT). auto. }
  eapply coll_pre.
  2:{ apply (coll_forc C c (fun r b => bwd1 c Lx K r i (if many then vb else fb) (if many then 0 else off) b)
       (fun n => Inv l2 F1 (if many then f else st n f) (if many then st n v else v))). intros b Hb.
      eapply coll_mono; [|apply (bwd1_phase c Hz HL A B Lx off K HT Hbk Kb bsz0 mem0 Hcap Hf Hv); auto].
      - intros s'. apply inv_eq.
        + destruct many; [reflexivity|]. apply functional_extensionality. intros b'. unfold set1, st.
          destruct (Nat.eqb_spec b' b) as [Eb|Nb]; destruct (Nat.ltb_spec b' (S b)); destruct (Nat.ltb_spec b' b); try subst b'; auto; try lia.
          all: destruct (Nat.ltb_spec b b); auto; lia.
        + destruct many; [|reflexivity]. apply functional_extensionality. intros b'. unfold set1, st.
          destruct (Nat.eqb_spec b' b) as [Eb|Nb]; destruct (Nat.ltb_spec b' (S b)); destruct (Nat.ltb_spec b' b); try subst b'; auto; try lia.
          all: destruct (Nat.ltb_spec b b); auto; lia.
      - unfold l2. destruct (Nat.ltb_spec b B); [auto|lia]. }
  intros s' HI. destruct many; exact HI.
Qed.

Definition fst_ (f v : nat -> nat -> nat -> C) (i : nat) := if many then f else psum f f i.
Definition snd_ (f v : nat -> nat -> nat -> C) (i : nat) := if many then psum f v i else v.
Definition raw (f v : nat -> nat -> nat -> C) : nat -> nat -> nat -> C :=
  fun b => if b <? B then psum f (if many then v else f) (nblocks K) b else f b.
Lemma psum_out : forall f v0 i b, B <= b -> psum f v0 i b = v0 b.
Proof. intros f v0 i b Hb. induction i as [|i IH]; [auto|]. cbn [psum]. destruct (Nat.ltb_spec b B); [lia|auto]. Qed.
Lemma raw_coll : forall f v,
  CollC (fun r => convolveRawM c A B Lx off K r) (fun s => exists F, Inv none F f v s)
    (fun s => exists F v', Inv none F (raw f v) v' s).
Proof.
  intros f v. unfold convolveRawM. change (1 <? nblocks K) with many.
  eapply coll_seq with (B := fun s => exists F, Inv none F (fst_ f v (nblocks K)) (snd_ f v (nblocks K)) s).
  - eapply coll_pre; [|apply (coll_forc C c _ (fun n s => exists F, Inv none F (fst_ f v n) (snd_ f v n) s))].
    + intros s HI. unfold fst_, snd_. destruct many; exact HI.
    + intros i Hi. eapply coll_mono; [|apply block_coll; auto]. cbv beta.
      intros s [F HI]. exists F. revert HI. apply inv_eq; unfold fst_, snd_; destruct many eqn:Em; try reflexivity.
      unfold many in Em. apply Nat.ltb_ge in Em. assert (i = 0) by lia. subst i. reflexivity.
  - apply coll_ex. intros F. unfold fst_, snd_.
    pose proof (fun w => map_phase c Hz HL A B Lx off K HT bsz0 mem0 Hf Hv none F w (psum f v (nblocks K)) (fun x => x) true) as MP.
    destruct many eqn:Em.
    + unfold copyV.
      eapply coll_mono; [|apply (coll_forc C c _ (fun n => Inv none F (fun b => if b <? n then psum f v (nblocks K) b else f b) (psum f v (nblocks K))))].
      * intros s HI. exists F, (psum f v (nblocks K)). revert HI. apply inv_eq; auto. unfold raw. rewrite Em. reflexivity.
      * intros b Hb.
        eapply coll_mono; [|apply (MP _ b); auto].
        intros s. apply inv_eq; auto. apply functional_extensionality. intros b'. unfold set1.
        destruct (Nat.eqb_spec b' b) as [Eb|Nb]; destruct (Nat.ltb_spec b' (S b)); destruct (Nat.ltb_spec b' b); try subst b'; auto; try lia.
          all: destruct (Nat.ltb_spec b b); auto; lia.
    + eapply coll_mono; [|apply coll_skip]. intros s HI. exists F, v. revert HI. apply inv_eq; auto.
      apply functional_extensionality. intros b. unfold raw. rewrite Em. destruct (Nat.ltb_spec b B); auto. apply psum_out; auto.
Qed.

(** the result of one call of convolve *)
Definition convf (scale : R) (f : nat -> nat -> nat -> C) : nat -> nat -> nat -> C :=
  fun b => if b <? B then fun x j => Cmul (RtoC scale) (Csum (nblocks K) (fun i => term f i b x j)) else f b.
Lemma psum_sum : forall f v0 n b x j, b < B -> psum f v0 (S n) b x j = Csum (S n) (fun i => term f i b x j).
Proof.
  intros f v0 n b x j Hb. induction n as [|n IH].
  - cbn [psum]. destruct (Nat.ltb_spec b B); [|lia]. unfold addT. cbn [Nat.eqb]. cbn [Csum]. rewrite Cadd_0_l. reflexivity.
  - cbn [psum] in IH |- *. destruct (Nat.ltb_spec b B); [|lia]. unfold addT at 1. cbn [Nat.eqb]. rewrite IH. reflexivity.
Qed.
Lemma convolve_coll : forall scale f v,
  CollC (fun r => convolveM c A B Lx off K scale r) (fun s => exists F, Inv none F f v s)
    (fun s => exists F v', Inv none F (convf scale f) v' s).
Proof.
  intros scale f v. unfold convolveM. eapply coll_seq; [apply raw_coll|].
  apply coll_ex. intros F. apply coll_ex. intros v'.
  unfold normalizeM.
  eapply coll_mono; [|eapply coll_pre; [|apply (coll_forc C c _ (fun n => Inv none F (fun b => if b <? n then fun x j => Cmul (RtoC scale) (raw f v b x j) else raw f v b) v'))]].
  - intros s HI. exists F, v'. revert HI. apply inv_eq; auto. apply functional_extensionality. intros b. unfold convf, raw.
    destruct (Nat.ltb_spec b B) as [Hb|]; auto. apply functional_extensionality. intros x. apply functional_extensionality. intros j.
    f_equal. assert (E : exists n, nblocks K = S n) by (exists (pred (nblocks K)); lia). destruct E as [n E]. rewrite E. apply psum_sum; auto.
  - intros s. apply inv_eq; auto.
  - intros b Hb.
    eapply coll_mono; [|apply (map_phase c Hz HL A B Lx off K HT bsz0 mem0 Hf Hv none F _ v' (fun x => Cmul (RtoC scale) x) false b); auto; discriminate].
    intros s. apply inv_eq; auto. apply functional_extensionality. intros b'. unfold set1.
    destruct (Nat.eqb_spec b' b) as [Eb|Nb]; destruct (Nat.ltb_spec b' (S b)); destruct (Nat.ltb_spec b' b); try subst b'; auto; try lia.
          all: destruct (Nat.ltb_spec b b); auto; lia.
Qed.
Fixpoint conviter (scale : R) (n : nat) (f : nat -> nat -> nat -> C) : nat -> nat -> nat -> C :=
  match n with 0 => f | S n => conviter scale n (convf scale f) end.
Lemma convolves_coll : forall scale n f v,
  CollC (fun r => convolvesM c A B Lx off K scale r n) (fun s => exists F, Inv none F f v s)
    (fun s => exists F v', Inv none F (conviter scale n f) v' s).
Proof.
  intros scale. induction n as [|n IH]; intros f v; cbn [convolvesM conviter].
  - eapply coll_mono; [|apply coll_skip]. intros s [F HI]. exists F, v. exact HI.
  - change (CollC (fun r => seqc C (convolveM c A B Lx off K scale r) (convolvesM c A B Lx off K scale r n))
      (fun s => exists F, Inv none F f v s) (fun s => exists F v', Inv none F (conviter scale n (convf scale f)) v' s)).
    eapply coll_seq; [apply convolve_coll|].
    eapply coll_pre; [|apply coll_ex; intros v'; apply (IH (convf scale f) v')]. intros s [F [v' HI]]. exists v', F. exact HI.
Qed.
End Whole.
