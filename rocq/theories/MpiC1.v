(** Kernels on several arrays, loops of collective steps. *)
From Coq Require Import Reals List Arith Bool Lia FunctionalExtensionality.
From Verif Require Import CNum Sums MpiMachine MpiRun MpiTrModel MpiTrGeom MpiTrPhase MpiTrXch MpiTrSpec MpiTrTop MpiColl MpiFftModel MpiFft1 MpiRFft1 MpiCModel.
Import ListNotations.
Local Open Scope nat_scope.

Definition rd2 (m : nat -> nat -> C) (p : nat * nat) : C := m (fst p) (snd p).
Notation locC := (loc C).
Notation runsC := (runs C).

Lemma rdm_run : forall adr n acc k (s : locC), quiet C s -> (forall j, j < n -> snd (adr j) < bsz C s (fst (adr j))) ->
  lstar C (rdm adr n acc k, s) (k (fun j => if j <? n then rd2 (mem C s) (adr j) else acc j), s).
Proof.
  induction n as [|n IH]; intros acc k s Q B; cbn [rdm].
  - match goal with |- lstar _ (k ?a, _) (k ?b, _) => replace b with a; [constructor|] end.
    apply functional_extensionality. intros j. destruct (Nat.ltb_spec j 0); [lia|auto].
  - econstructor.
    + constructor; [apply B; lia|apply (qpend C s (fst (adr n)) (snd (adr n)) Q)].
    + eapply lstar_trans; [apply IH; auto|].
      match goal with |- lstar _ (k ?a, _) (k ?b, _) => replace b with a; [constructor|] end.
      apply functional_extensionality. intros j.
      destruct (Nat.ltb_spec j n), (Nat.ltb_spec j (S n)), (Nat.eqb_spec j n); subst; auto; lia.
Qed.
Lemma wrm_run : forall adr n f (s : locC), quiet C s -> (forall j, j < n -> snd (adr j) < bsz C s (fst (adr j))) ->
  (forall j j', j < n -> j' < n -> adr j = adr j' -> j = j') ->
  exists m', runsC (wrm adr n f) s (setmem C s m') /\ (forall j, j < n -> rd2 m' (adr j) = f j) /\
    (forall b o, (forall j, j < n -> (b, o) <> adr j) -> m' b o = mem C s b o).
Proof.
  intros adr n f. induction n as [|n IH]; intros s Q B I.
  - exists (mem C s). split; [rewrite setmem_sameV; apply runs_skip|]. split; [intros; lia|auto].
  - set (s1 := setmem C s (upd2 (mem C s) (fst (adr n)) (snd (adr n)) (f n))).
    destruct (IH s1) as (m' & R & W & F).
    + exact Q. + intros j Hj. apply B. lia. + intros j j' Hj Hj'. apply I; lia.
    + exists m'. split; [|split].
      * intros k. cbn [wrm]. unfold seqc. econstructor.
        { constructor; [apply B; lia| |]; apply (qpend C s (fst (adr n)) (snd (adr n)) Q). }
        apply R.
      * intros j Hj. destruct (Nat.eq_dec j n) as [->|N]; [|apply W; lia].
        unfold rd2. rewrite F.
        -- cbn [mem s1 setmem]. apply upd2_eq.
        -- intros j' Hj' E. rewrite <- surjective_pairing in E. apply I in E; lia.
      * intros b o H. rewrite F by (intros; apply H; lia).
        cbn [mem s1 setmem]. apply upd2_neq. intros E. apply (H n); [lia|]. rewrite (surjective_pairing (adr n)). auto.
Qed.
Lemma kernels_run : forall n n' tr M ain aout (s : locC), quiet C s ->
  (forall h x x', h < M -> (forall j, j < n -> x j = x' j) -> forall k, k < n' -> tr h x k = tr h x' k) ->
  (forall h j, h < M -> j < n -> snd (ain h j) < bsz C s (fst (ain h j))) ->
  (forall h k, h < M -> k < n' -> snd (aout h k) < bsz C s (fst (aout h k))) ->
  (forall h k h' k', h < M -> k < n' -> h' < M -> k' < n' -> aout h k = aout h' k' -> h = h' /\ k = k') ->
  (forall h j h' k, h < M -> j < n -> h' < M -> k < n' -> h <> h' -> ain h j <> aout h' k) ->
  exists m', runsC (kernels n n' tr M ain aout) s (setmem C s m') /\
    (forall h k, h < M -> k < n' -> rd2 m' (aout h k) = tr h (fun j => rd2 (mem C s) (ain h j)) k) /\
    (forall b o, (forall h k, h < M -> k < n' -> (b, o) <> aout h k) -> m' b o = mem C s b o).
Proof.
  intros n n' tr M ain aout s Q E B B' I' Ap.
  set (body := fun h (k : prog C) => rdm (ain h) n (fun _ => C0) (fun x => wrm (aout h) n' (tr h x) k)).
  assert (G : forall cnt i, i + cnt <= M -> forall s1, quiet C s1 -> bsz C s1 = bsz C s ->
    (forall h j, i <= h < M -> j < n -> rd2 (mem C s1) (ain h j) = rd2 (mem C s) (ain h j)) ->
    exists m', runsC (floop C i cnt body) s1 (setmem C s1 m') /\
      (forall h k, i <= h < i + cnt -> k < n' -> rd2 m' (aout h k) = tr h (fun j => rd2 (mem C s) (ain h j)) k) /\
      (forall b o, (forall h k, i <= h < i + cnt -> k < n' -> (b, o) <> aout h k) -> m' b o = mem C s1 b o)).
  { induction cnt as [|cnt IH]; intros i Hi s1 Q1 Z1 K1.
    - exists (mem C s1). split; [rewrite setmem_sameV; apply runs_skip|]. split; [intros; lia|auto].
    - set (x := fun j => if j <? n then rd2 (mem C s1) (ain i j) else C0).
      destruct (wrm_run (aout i) n' (tr i x) s1) as (m1 & R1 & W1 & F1); auto.
      { intros j Hj. rewrite Z1. apply B'; lia. }
      { intros j j' Hj Hj' Ej. apply (I' i j i j') in Ej; lia. }
      destruct (IH (S i) ltac:(lia) (setmem C s1 m1)) as (m2 & R2 & W2 & F2); auto.
      { intros h j Hh Hj. cbn [mem setmem]. rewrite <- K1 by lia. unfold rd2. apply F1.
        intros k Hk. rewrite <- surjective_pairing. apply Ap; lia. }
      exists m2. split; [|split].
      + intros k. cbn [floop]. unfold seqc, body at 1. eapply lstar_trans; [apply rdm_run; auto; intros j Hj; rewrite Z1; apply B; lia|].
        cbv beta. fold x. eapply lstar_trans; [apply R1|apply R2].
      + intros h k Hh Hk. destruct (Nat.eq_dec h i) as [->|N]; [|apply W2; lia].
        unfold rd2 at 1. rewrite F2.
        * cbn [mem setmem]. fold (rd2 m1 (aout i k)). rewrite W1 by auto. apply E; [lia| |auto].
          intros j Hj. unfold x. destruct (Nat.ltb_spec j n); [|lia]. apply K1; lia.
        * intros h' k' Hh' Hk' Ek. rewrite <- surjective_pairing in Ek. apply (I' i k h' k') in Ek; lia.
      + intros b o H1. rewrite F2 by (intros; apply H1; lia). cbn [mem setmem]. apply F1. intros; apply H1; lia. }
  destruct (G M 0 ltac:(lia) s Q eq_refl ltac:(auto)) as (m' & R & W & F). exists m'. split; [exact R|]. split.
  - intros h k Hh Hk. apply W; lia.
  - intros b o H1. apply F. intros; apply H1; lia.
Qed.

Section Coll.
Variable V : Type.
Variable c : cfg.
Context {Hc : good c}.
Lemma coll_floop : forall (body : nat -> nat -> prog V -> prog V) (I : nat -> (nat -> loc V) -> Prop) n i,
  (forall h, i <= h < i + n -> Coll V c (fun r => body r h) (I h) (I (S h))) ->
  Coll V c (fun r => floop V i n (body r)) (I i) (I (i + n)).
Proof.
  intros body I. induction n as [|n IH]; intros i H; cbn [floop].
  - rewrite Nat.add_0_r. apply coll_skip.
  - eapply coll_seq; [apply H; lia|]. rewrite <- Nat.add_succ_comm. apply IH. intros h Hh. apply H. lia.
Qed.
Lemma coll_forc : forall (body : nat -> nat -> prog V -> prog V) (I : nat -> (nat -> loc V) -> Prop) n,
  (forall h, h < n -> Coll V c (fun r => body r h) (I h) (I (S h))) ->
  Coll V c (fun r => forc V n (body r)) (I 0) (I n).
Proof. intros body I n H. apply (coll_floop body I n 0). intros h Hh. apply H. lia. Qed.
Lemma coll_ex : forall (T : Type) cm (A : T -> (nat -> loc V) -> Prop) B,
  (forall x, Coll V c cm (A x) B) -> Coll V c cm (fun s => exists x, A x s) B.
Proof. intros T cm A B H g k s [x HA] Eg. apply (H x g k s HA Eg). Qed.
Lemma coll_end : forall cm (A B : (nat -> loc V) -> Prop) (s0 : nat -> loc V) (Q : gst V -> Prop), Coll V c cm A B -> A s0 ->
  (forall s g, (forall r, r < cP c -> snd (g r) = s r) -> B s -> Q g) ->
  always_ends V (cP c) (fun r => (cm r (Halt V), s0 r)) Q.
Proof.
  intros cm A B s0 Q Hcm HA HQ.
  destruct (Hcm (fun r => (cm r (Halt V), s0 r)) (fun _ => Halt V) s0 HA) as (n & g2 & s2 & St & E2 & I2); [auto|].
  eapply decides; [exact St| |].
  - intros r Hr. rewrite E2 by auto. reflexivity.
  - apply (HQ s2); auto. intros r Hr. rewrite E2 by auto. reflexivity.
Qed.
End Coll.
