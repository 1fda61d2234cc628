(** Collective steps of the processes: local work and transposes, on words of any type. *)
From Coq Require Import List Arith Bool Lia FunctionalExtensionality.
From Verif Require Import MpiMachine MpiRun MpiTrModel MpiTrGeom MpiTrPhase MpiTrXch MpiTrSpec MpiTrTop.
Import ListNotations.
Local Open Scope nat_scope.

Lemma fin_choice' : forall (A : Type) (a0 : A) (R : nat -> A -> Prop) n, (forall r, r < n -> exists x, R r x) ->
  exists f, forall r, r < n -> R r (f r).
Proof.
  intros A a0 R n. induction n as [|n IH]; intros H.
  - exists (fun _ => a0). intros; lia.
  - destruct IH as [f Hf]; [intros; apply H; lia|]. destruct (H n) as [x Hx]; [lia|].
    exists (fun r => if r =? n then x else f r). intros r Hr. destruct (Nat.eqb_spec r n); [subst; auto|apply Hf; lia].
Qed.

Section Coll.
Variable V : Type.
Variable c : cfg.
Context {Hc : good c}.
Notation X := (cN c). Notation Y := (cM c). Notation P := (cP c). Notation Z_ := (S_ c).
Notation gst := (gst V). Notation loc := (loc V).
Definition localizeV (bw r : nat) (d : bool) (b : nat) : prog V -> prog V :=
  call_cmd V c (fun r => ldim X P r) (fun r => ldim Y P r) bw r (mkCall d b b).

Definition Coll (cm : nat -> prog V -> prog V) (A B : (nat -> loc) -> Prop) : Prop :=
  forall (g : gst) k s, A s -> (forall r, r < P -> g r = (cm r (k r), s r)) ->
  exists n g2 s2, steps V false P n g g2 /\ (forall r, r < P -> g2 r = (k r, s2 r)) /\ B s2.

Lemma coll_seq : forall c1 c2 A B D, Coll c1 A B -> Coll c2 B D -> Coll (fun r => seqc V (c1 r) (c2 r)) A D.
Proof.
  intros c1 c2 A B D H1 H2 g k s HA Eg.
  destruct (H1 g (fun r => c2 r (k r)) s HA Eg) as (n1 & g1 & s1 & S1 & E1 & B1).
  destruct (H2 g1 k s1 B1 E1) as (n2 & g2 & s2 & S2 & E2 & D2).
  exists (n1 + n2), g2, s2. split; [eapply steps_trans; eauto|auto].
Qed.
Lemma coll_mono : forall cm A (B B' : (nat -> loc) -> Prop), (forall s, B s -> B' s) -> Coll cm A B -> Coll cm A B'.
Proof. intros cm A B B' H Hc' g k s HA Eg. destruct (Hc' g k s HA Eg) as (n & g2 & s2 & S2 & E2 & B2). eauto 10. Qed.
Lemma coll_pre : forall cm (A A' : (nat -> loc) -> Prop) B, (forall s, A' s -> A s) -> Coll cm A B -> Coll cm A' B.
Proof. intros cm A A' B H Hc' g k s HA Eg. apply (Hc' g k s); auto. Qed.
Lemma coll_eq : forall cm cm' A B, (forall r k, r < P -> cm' r k = cm r k) -> Coll cm A B -> Coll cm' A B.
Proof. intros cm cm' A B H Hc' g k s HA Eg. apply (Hc' g k s); auto. intros r Hr. rewrite Eg, H by auto. auto. Qed.
Lemma coll_skip : forall A, Coll (fun _ => skip V) A A.
Proof. intros A g k s HA Eg. exists 0, g, s. split; [constructor|]. split; auto. Qed.

(** bs: the arrays that transposes use; E: what else is known of the memory of each active process *)
Variables (bs : list nat) (bsz0 : nat -> nat -> nat) (mem0 : nat -> nat -> nat -> V).
Record CInv (kn : nat -> know V) (E : nat -> (nat -> nat -> V) -> Prop) (fr : list nat) (s : nat -> loc) : Prop := mkCInv {
  ci_ok : okall V c s bs kn;
  ci_E : forall r, r < size c -> E r (mem V (s r));
  ci_bsz : forall r, r < P -> bsz V (s r) = bsz0 r;
  ci_fr : forall r b o, r < P -> ~ In b fr -> mem V (s r) b o = mem0 r b o }.

Lemma coll_local : forall cm kn kn' (E E' : nat -> (nat -> nat -> V) -> Prop) fr,
  (forall r k, size c <= r -> r < P -> cm r k = k) ->
  (forall r s, r < size c -> quiet V s -> bsz V s = bsz0 r -> (forall b, In b bs -> cap c r <= bsz V s b) ->
     (forall b, In b bs -> agrees V X Y Z_ P (kn b) r (mem V s b)) -> E r (mem V s) ->
     exists m', runs V (cm r) s (setmem V s m') /\ (forall b, In b bs -> agrees V X Y Z_ P (kn' b) r (m' b)) /\ E' r m' /\
       forall b o, ~ In b fr -> m' b o = mem V s b o) ->
  Coll cm (CInv kn E fr) (CInv kn' E' fr).
Proof.
  intros cm kn kn' E E' fr Hi Hl g k s [[Ok Ag] HE Zb Fr] Eg. pose proof (size_le c) as Le.
  destruct (fin_choice' (nat -> nat -> V) (mem V (s 0))
     (fun r m' => runs V (cm r) (s r) (setmem V (s r) m') /\ (forall b, In b bs -> agrees V X Y Z_ P (kn' b) r (m' b)) /\ E' r m' /\
       forall b o, ~ In b fr -> m' b o = mem V (s r) b o) (size c)) as [mf Hm].
  { intros r Hr. destruct Ok as [K1 K2 K3 K4]. apply Hl; auto. apply Zb. lia. }
  set (s2 := fun r => if r <? size c then setmem V (s r) (mf r) else s r).
  set (g2 := fun r => if r <? P then (k r, s2 r) else g r).
  destruct (all_local V false P g g2) as (n & St).
  { intros r Hr. unfold g2, s2. destruct (Nat.ltb_spec r P); [|lia]. rewrite Eg by auto.
    destruct (Nat.ltb_spec r (size c)).
    - apply Hm; auto.
    - rewrite Hi by auto. constructor. }
  { intros r Hr. unfold g2. destruct (Nat.ltb_spec r P); [lia|auto]. }
  exists n, g2, s2. split; auto. split.
  { intros r Hr. unfold g2. destruct (Nat.ltb_spec r P); [auto|lia]. }
  constructor.
  - split.
    + destruct Ok as [K1 K2 K3 K4]. unfold s2. constructor.
      * intros p q cx Hp Hq. destruct (Nat.ltb_spec p (size c)); [|lia]. destruct (Nat.ltb_spec q (size c)); [|lia].
        cbn [setmem slog rlog]. apply K1; auto.
      * intros r Hr. destruct (Nat.ltb_spec r (size c)); [|lia]. apply K2; auto.
      * intros r a' Hr. destruct (Nat.ltb_spec r (size c)); [|lia]. apply K3; auto.
      * intros r b Hr. destruct (Nat.ltb_spec r (size c)); [|lia]. apply K4; auto.
    + intros r b Hr Hb. unfold s2. destruct (Nat.ltb_spec r (size c)); [|lia]. apply Hm; auto.
  - intros r Hr. unfold s2. destruct (Nat.ltb_spec r (size c)); [|lia]. cbn [setmem mem]. apply Hm; auto.
  - intros r Hr. unfold s2. destruct (Nat.ltb_spec r (size c)); cbn [setmem bsz]; auto.
  - intros r b o Hr Hb. unfold s2. destruct (Nat.ltb_spec r (size c)); cbn [setmem mem]; auto.
    destruct (Hm r) as (_ & _ & _ & F); auto. rewrite F; auto.
Qed.

Lemma coll_call : forall d b bw kn (E E' : nat -> (nat -> nat -> V) -> Prop) fr, In bw bs -> legal_call V c bs bw (mkCall d b b) kn -> In b fr -> In bw fr ->
  (forall r m m', r < size c -> (forall b' o, b' <> b -> b' <> bw -> m' b' o = m b' o) -> E r m -> E' r m') ->
  Coll (fun r => localizeV bw r d b) (CInv kn E fr) (CInv (effect V bw (mkCall d b b) kn) E' fr).
Proof.
  intros d b bw kn E E' fr Ib Lg If Iw HEE g k s [Ok HE Zb Fr] Eg. pose proof (size_le c) as Le.
  destruct (call_run V c g k s bs bw (mkCall d b b) kn) as (n & g2 & s2 & St & E2 & O2 & Ok2 & Z2); auto.
  { intros r Hr. rewrite Eg by lia. reflexivity. }
  set (s2' := fun r => if r <? size c then s2 r else s r).
  exists n, g2, s2'. split; auto. split.
  { intros r Hr. unfold s2'. destruct (Nat.ltb_spec r (size c)); auto. rewrite O2, Eg by auto.
    unfold localizeV. rewrite (call_idle V c) by auto. auto. }
  constructor.
  - destruct Ok2 as [[K1 K2 K3 K4] K5]. unfold s2'. split; [constructor|].
    + intros p q cx Hp Hq. destruct (Nat.ltb_spec p (size c)); [|lia]. destruct (Nat.ltb_spec q (size c)); [|lia]. auto.
    + intros r Hr. destruct (Nat.ltb_spec r (size c)); [|lia]. auto.
    + intros r a' Hr. destruct (Nat.ltb_spec r (size c)); [|lia]. auto.
    + intros r b' Hr. destruct (Nat.ltb_spec r (size c)); [|lia]. auto.
    + intros r b' Hr. destruct (Nat.ltb_spec r (size c)); [|lia]. auto.
  - intros r Hr. unfold s2'. destruct (Nat.ltb_spec r (size c)) as [H|H]; [|lia]. apply (HEE r (mem V (s r))); auto.
    intros b' o N1 N2. destruct (Z2 r H) as [_ F]. rewrite F; auto.
  - intros r Hr. unfold s2'. destruct (Nat.ltb_spec r (size c)) as [H|H]; auto. destruct (Z2 r H) as [-> _]. auto.
  - intros r b' o Hr Hb. unfold s2'. destruct (Nat.ltb_spec r (size c)) as [H|H]; auto. destruct (Z2 r H) as [_ F].
    rewrite F; auto; cbn [cout]; intros ->; auto.
Qed.

Hypothesis Hcap : forall r b, r < P -> In b bs -> storage X Y Z_ P r <= bsz0 r b.
Lemma cinv_start : forall (kn : nat -> know V) (E : nat -> (nat -> nat -> V) -> Prop) (fr : list nat), (forall r b, r < P -> In b bs -> agrees V X Y Z_ P (kn b) r (mem0 r b)) ->
  (forall r, r < size c -> E r (mem0 r)) ->
  CInv kn E fr (fun r => start_loc V c r (mem0 r) (bsz0 r)).
Proof.
  intros kn E fr Hk HE. pose proof (size_le c) as Le. constructor; auto. split; [constructor|].
  + intros p q cx Hp Hq. reflexivity.
  + intros r Hr a' i l' E'. discriminate E'.
  + intros r a' Hr. apply Nat.le_refl.
  + intros r b Hr Hb. specialize (Hcap r b ltac:(lia) Hb). unfold cap. unfold storage in Hcap. cbn [start_loc bsz].
    change (count X P r) with (ldim X P r) in Hcap. change (count Y P r) with (ldim Y P r) in Hcap.
    rewrite <- (ni_ldim c), <- (mi_ldim c) in Hcap. auto.
  + intros r b Hr Hb. apply Hk; auto. lia.
Qed.
Lemma x_none : forall r, size c <= r -> count X P r = 0.
Proof. intros r H. change (count X P r) with (ldim X P r). rewrite <- (ni_ldim c). apply ni_idle; auto. Qed.
Lemma y_none : forall r, size c <= r -> count Y P r = 0.
Proof. intros r H. change (count Y P r) with (ldim Y P r). rewrite <- (mi_ldim c). apply mi_idle; auto. Qed.
Lemma cinv_end : forall (kn : nat -> know V) (E : nat -> (nat -> nat -> V) -> Prop) (fr : list nat) s, CInv kn E fr s -> forall r b, r < P -> In b bs -> agrees V X Y Z_ P (kn b) r (mem V (s r) b).
Proof.
  intros kn E fr s [[Ok Ag] HE Zb Fr] r b Hr Hb. destruct (Nat.lt_ge_cases r (size c)) as [Hs|Hs]; auto.
  pose proof (x_none r Hs) as E1. pose proof (y_none r Hs) as E2.
  destruct (kn b) as [[[] G]|]; cbn [agrees]; auto; unfold has_rows, has_cols; rewrite ?E1, ?E2; intros; lia.
Qed.
Theorem coll_always : forall cm (kn kn' : nat -> know V) (E E' : nat -> (nat -> nat -> V) -> Prop) (fr : list nat),
  (forall r b, r < P -> In b bs -> agrees V X Y Z_ P (kn b) r (mem0 r b)) -> (forall r, r < size c -> E r (mem0 r)) ->
  Coll cm (CInv kn E fr) (CInv kn' E' fr) ->
  always_ends V P (fun r => (cm r (Halt V), start_loc V c r (mem0 r) (bsz0 r)))
    (fun gf => forall r, r < P ->
       (forall b, In b bs -> agrees V X Y Z_ P (kn' b) r (mem V (snd (gf r)) b)) /\
       (r < size c -> E' r (mem V (snd (gf r)))) /\
       (forall b o, ~ In b fr -> mem V (snd (gf r)) b o = mem0 r b o)).
Proof.
  intros cm kn kn' E E' fr Hk HE Hcm.
  destruct (Hcm (fun r => (cm r (Halt V), start_loc V c r (mem0 r) (bsz0 r))) (fun _ => Halt V)
      (fun r => start_loc V c r (mem0 r) (bsz0 r))) as (n & g2 & s2 & St & E2 & I2).
  - apply cinv_start; auto.
  - auto.
  - eapply decides; [exact St| |].
    + intros r Hr. rewrite E2 by auto. reflexivity.
    + intros r Hr. rewrite E2 by auto. cbn [snd]. split; [|split].
      * intros b Hb. eapply cinv_end; eauto.
      * intros Hs. apply I2. auto.
      * intros b o Hb. apply I2; auto.
Qed.
End Coll.
