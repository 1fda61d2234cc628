(** Collective steps: local work of all processes, and transposes. *)
From Coq Require Import Reals ZArith List Arith Bool Lia FunctionalExtensionality.
From Verif Require Import CNum Sums Roots PadModel MpiMachine MpiRun MpiTrModel MpiTrGeom MpiTrPhase MpiTrXch MpiTrSpec MpiTrTop MpiFftModel MpiFftSpec MpiFft1.
Import ListNotations.
Local Open Scope nat_scope.

Lemma fin_choice : forall (A : Type) (a0 : A) (R : nat -> A -> Prop) n, (forall r, r < n -> exists x, R r x) ->
  exists f, forall r, r < n -> R r (f r).
Proof.
  intros A a0 R n. induction n as [|n IH]; intros H.
  - exists (fun _ => a0). intros; lia.
  - destruct IH as [f Hf]; [intros; apply H; lia|]. destruct (H n) as [x Hx]; [lia|].
    exists (fun r => if r =? n then x else f r). intros r Hr. destruct (Nat.eqb_spec r n); [subst; auto|apply Hf; lia].
Qed.

Section Coll.
Variable c : cfg.
Context {Hc : good c}.
Notation X := (cN c). Notation Y := (cM c). Notation P := (cP c). Notation Z_ := (S_ c).
Notation gstC := (gst C).

Definition Coll (cm : nat -> cmdC) (A B : (nat -> locC) -> Prop) : Prop :=
  forall (g : gstC) k s, A s -> (forall r, r < P -> g r = (cm r (k r), s r)) ->
  exists n g2 s2, steps C false P n g g2 /\ (forall r, r < P -> g2 r = (k r, s2 r)) /\ B s2.

Lemma coll_seq : forall c1 c2 A B D, Coll c1 A B -> Coll c2 B D -> Coll (fun r => seqc C (c1 r) (c2 r)) A D.
Proof.
  intros c1 c2 A B D H1 H2 g k s HA Eg.
  destruct (H1 g (fun r => c2 r (k r)) s HA Eg) as (n1 & g1 & s1 & S1 & E1 & B1).
  destruct (H2 g1 k s1 B1 E1) as (n2 & g2 & s2 & S2 & E2 & D2).
  exists (n1 + n2), g2, s2. split; [eapply steps_trans; eauto|auto].
Qed.
Lemma coll_mono : forall cm A (B B' : (nat -> locC) -> Prop), (forall s, B s -> B' s) -> Coll cm A B -> Coll cm A B'.
Proof. intros cm A B B' H Hc' g k s HA Eg. destruct (Hc' g k s HA Eg) as (n & g2 & s2 & S2 & E2 & B2). eauto 10. Qed.
Lemma coll_pre : forall cm (A A' : (nat -> locC) -> Prop) B, (forall s, A' s -> A s) -> Coll cm A B -> Coll cm A' B.
Proof. intros cm A A' B H Hc' g k s HA Eg. apply (Hc' g k s); auto. Qed.
Lemma coll_eq : forall cm cm' A B, (forall r k, r < P -> cm' r k = cm r k) -> Coll cm A B -> Coll cm' A B.
Proof. intros cm cm' A B H Hc' g k s HA Eg. apply (Hc' g k s); auto. intros r Hr. rewrite Eg, H by auto. auto. Qed.
Lemma coll_skip : forall A, Coll (fun _ => skip C) A A.
Proof. intros A g k s HA Eg. exists 0, g, s. split; [constructor|]. split; auto. Qed.

Variables (bs : list nat) (bsz0 : nat -> nat -> nat) (mem0 : nat -> nat -> nat -> C).
Record Inv (kn : nat -> know3) (fr : list nat) (s : nat -> locC) : Prop := mkInv {
  i_ok : okall C c s bs kn;
  i_bsz : forall r, r < P -> bsz C (s r) = bsz0 r;
  i_fr : forall r b o, r < P -> ~ In b fr -> mem C (s r) b o = mem0 r b o }.

Lemma inv_weaken : forall kn kn' fr s, (forall b, In b bs -> kn' b = kn b \/ kn' b = None) -> Inv kn fr s -> Inv kn' fr s.
Proof.
  intros kn kn' fr s H [[O A] B D]. constructor; auto. split; auto. intros r b Hr Hb.
  destruct (H b Hb) as [-> | ->]; [apply A; auto|exact I].
Qed.
Lemma inv_map : forall kn kn' fr s,
  (forall b r m, In b bs -> agrees C X Y Z_ P (kn b) r m -> agrees C X Y Z_ P (kn' b) r m) -> Inv kn fr s -> Inv kn' fr s.
Proof. intros kn kn' fr s H [[O A] B D]. constructor; auto. split; auto. Qed.

Lemma coll_local : forall cm kn kn' fr,
  (forall r k, size c <= r -> r < P -> cm r k = k) ->
  (forall r s, r < size c -> quiet C s -> (forall b, In b bs -> cap c r <= bsz C s b) ->
     (forall b, In b bs -> agrees C X Y Z_ P (kn b) r (mem C s b)) ->
     exists m', runsC (cm r) s (setmem C s m') /\ (forall b, In b bs -> agrees C X Y Z_ P (kn' b) r (m' b)) /\
       forall b o, ~ In b fr -> m' b o = mem C s b o) ->
  Coll cm (Inv kn fr) (Inv kn' fr).
Proof.
  intros cm kn kn' fr Hi Hl g k s [[Ok Ag] Zb Fr] Eg. pose proof (size_le c) as Le.
  destruct (fin_choice (nat -> nat -> C) (fun _ _ => C0)
     (fun r m' => runsC (cm r) (s r) (setmem C (s r) m') /\ (forall b, In b bs -> agrees C X Y Z_ P (kn' b) r (m' b)) /\
       forall b o, ~ In b fr -> m' b o = mem C (s r) b o) (size c)) as [mf Hm].
  { intros r Hr. destruct Ok as [K1 K2 K3 K4]. apply Hl; auto. }
  set (s2 := fun r => if r <? size c then setmem C (s r) (mf r) else s r).
  set (g2 := fun r => if r <? P then (k r, s2 r) else g r).
  destruct (all_local C false P g g2) as (n & St).
  { intros r Hr. unfold g2, s2. destruct (Nat.ltb_spec r P); [|lia]. rewrite Eg by auto.
    destruct (Nat.ltb_spec r (size c)).
    - apply Hm; auto.
    - rewrite Hi by auto. constructor. }
  { intros r Hr. unfold g2. destruct (Nat.ltb_spec r P); [lia|auto]. }
  exists n, g2, s2. split; auto. split.
  { intros r Hr. unfold g2. destruct (Nat.ltb_spec r P); [auto|lia]. }
  constructor.
  - split.
    + destruct Ok as [K1 K2 K3 K4]. unfold s2. constructor.
      * intros p q cx Hp Hq. destruct (Nat.ltb_spec p (size c)); [|lia]. destruct (Nat.ltb_spec q (size c)); [|lia].
        cbn [setmem slog rlog]. apply K1; auto.
      * intros r Hr. destruct (Nat.ltb_spec r (size c)); [|lia]. apply K2; auto.
      * intros r a' Hr. destruct (Nat.ltb_spec r (size c)); [|lia]. apply K3; auto.
      * intros r b Hr. destruct (Nat.ltb_spec r (size c)); [|lia]. apply K4; auto.
    + intros r b Hr Hb. unfold s2. destruct (Nat.ltb_spec r (size c)); [|lia]. apply Hm; auto.
  - intros r Hr. unfold s2. destruct (Nat.ltb_spec r (size c)); cbn [setmem bsz]; auto.
  - intros r b o Hr Hb. unfold s2. destruct (Nat.ltb_spec r (size c)); cbn [setmem mem]; auto.
    destruct (Hm r) as (_ & _ & F); auto. rewrite F; auto.
Qed.

Lemma coll_call : forall d b bw kn fr, In bw bs -> legal_call C c bs bw (mkCall d b b) kn -> In b fr -> In bw fr ->
  Coll (fun r => localize c bw r d b) (Inv kn fr) (Inv (effect C bw (mkCall d b b) kn) fr).
Proof.
  intros d b bw kn fr Ib Lg If Iw g k s [Ok Zb Fr] Eg. pose proof (size_le c) as Le.
  destruct (call_run C c g k s bs bw (mkCall d b b) kn) as (n & g2 & s2 & St & E2 & O2 & Ok2 & Z2); auto.
  { intros r Hr. rewrite Eg by lia. reflexivity. }
  set (s2' := fun r => if r <? size c then s2 r else s r).
  exists n, g2, s2'. split; auto. split.
  { intros r Hr. unfold s2'. destruct (Nat.ltb_spec r (size c)); auto. rewrite O2, Eg by auto.
    unfold localize. rewrite (call_idle C c) by auto. auto. }
  constructor.
  - destruct Ok2 as [[K1 K2 K3 K4] K5]. unfold s2'. split; [constructor|].
    + intros p q cx Hp Hq. destruct (Nat.ltb_spec p (size c)); [|lia]. destruct (Nat.ltb_spec q (size c)); [|lia]. auto.
    + intros r Hr. destruct (Nat.ltb_spec r (size c)); [|lia]. auto.
    + intros r a' Hr. destruct (Nat.ltb_spec r (size c)); [|lia]. auto.
    + intros r b' Hr. destruct (Nat.ltb_spec r (size c)); [|lia]. auto.
    + intros r b' Hr. destruct (Nat.ltb_spec r (size c)); [|lia]. auto.
  - intros r Hr. unfold s2'. destruct (Nat.ltb_spec r (size c)) as [H|H]; auto. destruct (Z2 r H) as [-> _]. auto.
  - intros r b' o Hr Hb. unfold s2'. destruct (Nat.ltb_spec r (size c)) as [H|H]; auto. destruct (Z2 r H) as [_ F].
    rewrite F; auto; cbn [cout]; intros ->; auto.
Qed.

(** *** starting and ending *)
Hypothesis Hcap : forall r b, r < P -> In b bs -> storage X Y Z_ P r <= bsz0 r b.
Lemma inv_start : forall kn, (forall r b, r < P -> In b bs -> agrees C X Y Z_ P (kn b) r (mem0 r b)) ->
  Inv kn [] (fun r => start_loc C c r (mem0 r) (bsz0 r)).
Proof.
  intros kn Hk. pose proof (size_le c) as Le. constructor; auto. split; [constructor|].
  + intros p q cx Hp Hq. reflexivity.
  + intros r Hr a' i l' E. discriminate E.
  + intros r a' Hr. apply Nat.le_refl.
  + intros r b Hr Hb. specialize (Hcap r b ltac:(lia) Hb). unfold cap. unfold storage in Hcap. cbn [start_loc bsz].
    change (count X P r) with (ldim X P r) in Hcap. change (count Y P r) with (ldim Y P r) in Hcap.
    rewrite <- (ni_ldim c), <- (mi_ldim c) in Hcap. auto.
  + intros r b Hr Hb. apply Hk; auto. lia.
Qed.
Lemma inv_fr : forall kn fr fr' s, incl fr fr' -> Inv kn fr s -> Inv kn fr' s.
Proof. intros kn fr fr' s H [A B D]. constructor; auto. Qed.
Lemma inv_end : forall kn fr s, Inv kn fr s -> forall r b, r < P -> In b bs -> agrees C X Y Z_ P (kn b) r (mem C (s r) b).
Proof.
  intros kn fr s [[Ok Ag] Zb Fr] r b Hr Hb. destruct (Nat.lt_ge_cases r (size c)) as [Hs|Hs]; auto.
  assert (E1 : count X P r = 0). { change (count X P r) with (ldim X P r). rewrite <- (ni_ldim c). apply ni_idle; auto. }
  assert (E2 : count Y P r = 0). { change (count Y P r) with (ldim Y P r). rewrite <- (mi_ldim c). apply mi_idle; auto. }
  destruct (kn b) as [[[] G]|]; cbn [agrees]; auto; unfold has_rows, has_cols; rewrite ?E1, ?E2; intros; lia.
Qed.

Theorem coll_always : forall cm kn kn' fr,
  (forall r b, r < P -> In b bs -> agrees C X Y Z_ P (kn b) r (mem0 r b)) ->
  Coll cm (Inv kn fr) (Inv kn' fr) ->
  always_ends C P (fun r => (cm r (Halt C), start_loc C c r (mem0 r) (bsz0 r)))
    (fun gf => forall r, r < P ->
       (forall b, In b bs -> agrees C X Y Z_ P (kn' b) r (mem C (snd (gf r)) b)) /\
       (forall b o, ~ In b fr -> mem C (snd (gf r)) b o = mem0 r b o)).
Proof.
  intros cm kn kn' fr Hk Hcm.
  destruct (Hcm (fun r => (cm r (Halt C), start_loc C c r (mem0 r) (bsz0 r))) (fun _ => Halt C)
      (fun r => start_loc C c r (mem0 r) (bsz0 r))) as (n & g2 & s2 & St & E2 & I2).
  - apply (inv_fr kn [] fr); [intros x []|]. apply inv_start; auto.
  - auto.
  - eapply decides; [exact St| |].
    + intros r Hr. rewrite E2 by auto. reflexivity.
    + intros r Hr. rewrite E2 by auto. cbn [snd]. split.
      * intros b Hb. eapply inv_end; eauto.
      * intros b o Hb. apply I2; auto.
Qed.
End Coll.
