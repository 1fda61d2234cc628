(** Histories of distributed transforms. *)
From Coq Require Import Reals ZArith List Arith Bool Lia Lra FunctionalExtensionality.
From Verif Require Import CNum Sums Roots PadModel MpiMachine MpiRun MpiTrModel MpiTrGeom MpiTrPhase MpiTrXch MpiTrSpec MpiTrTop MpiTrProofs MpiFftModel MpiFftSpec MpiFft1 MpiFft2 MpiFft3.
Import ListNotations.
Local Open Scope nat_scope.

Section Hist.
Variable c : cfg.
Context {Hc : good c}.
Hypothesis Hz : csz c = 1.
Notation X := (cN c). Notation Y := (cM c). Notation P := (cP c). Notation Z_ := (S_ c).
Variable sign : Z.
Variable four : Z -> (nat -> nat -> nat -> C) -> nat -> nat -> nat -> C.
Hypothesis Hfour : forall sg G i j l, l < Z_ -> four sg G i j l = fourier3 sg X Y Z_ G i j l.
Variables cmR cmC : Z -> nat -> nat -> nat -> cmdC.
Hypothesis HR : forall sg, rowsPhase c sg (cmR sg).
Hypothesis HC : forall sg, colsPhase c sg (cmC sg).
Variables (bs : list nat) (bw : nat).
Hypothesis Hbw : ~ In bw bs.
Variables (bsz0 : nat -> nat -> nat) (mem0 : nat -> nat -> nat -> C).
Notation Inv' := (Inv c (bw :: bs) bsz0 mem0).
Notation Coll' := (Coll c).

Definition fwdC (bi bo : nat) : nat -> cmdC := fun r =>
  seqc C (seqc C (cmR sign bi bo r) (localize c bw r true bo)) (cmC sign bo bo r).
Definition bwdC (bi bo : nat) : nat -> cmdC := fun r =>
  seqc C (seqc C (cmC (- sign) bi bo r) (localize c bw r false bo)) (cmR (- sign) bo bo r).
Definition set1 (b : nat) (x : know3) (k : nat -> know3) : nat -> know3 := fun b' => if b' =? b then x else k b'.

Lemma rows_coll : forall sg bi bo G kn fr, In bi bs -> In bo bs -> incl (bw :: bs) fr -> kn bi = Some (true, G) ->
  Coll' (fun r => cmR sg bi bo r) (Inv' kn fr) (Inv' (set1 bo (Some (true, yz c sg G)) kn) fr).
Proof.
  intros sg bi bo G kn fr Ii Io If Ek. destruct (HR sg) as [H0 H1]. apply coll_local; auto.
  intros r s Hr Q Hcap Ha.
  destruct (H1 r s bi bo G) as (m' & R & W & F); auto.
  - apply Hcap. right; auto.
  - apply Hcap. right; auto.
  - specialize (Ha bi ltac:(right; auto)). rewrite Ek in Ha. exact Ha.
  - exists m'. split; [exact R|]. split.
    + intros b Hb. unfold set1. destruct (Nat.eqb_spec b bo); [subst; exact W|].
      specialize (Ha b Hb). replace (m' b) with (mem C s b); [exact Ha|]. apply functional_extensionality. intros o. rewrite F; auto.
    + intros b o Nb. apply F. intros ->. apply Nb, If. right; auto.
Qed.
Lemma cols_coll : forall sg bi bo G kn fr, In bi bs -> In bo bs -> incl (bw :: bs) fr -> kn bi = Some (false, G) ->
  Coll' (fun r => cmC sg bi bo r) (Inv' kn fr) (Inv' (set1 bo (Some (false, xs c sg G)) (set1 bi None kn)) fr).
Proof.
  intros sg bi bo G kn fr Ii Io If Ek. destruct (HC sg) as [H0 H1]. apply coll_local; auto.
  intros r s Hr Q Hcap Ha.
  destruct (H1 r s bi bo G) as (m' & R & W & F); auto.
  - apply Hcap. right; auto.
  - apply Hcap. right; auto.
  - specialize (Ha bi ltac:(right; auto)). rewrite Ek in Ha. exact Ha.
  - exists m'. split; [exact R|]. split.
    + intros b Hb. unfold set1. destruct (Nat.eqb_spec b bo); [subst; exact W|].
      destruct (Nat.eqb_spec b bi); [exact Logic.I|].
      specialize (Ha b Hb). replace (m' b) with (mem C s b); [exact Ha|]. apply functional_extensionality. intros o. rewrite F; auto.
    + intros b o Nb. apply F; intros ->; apply Nb, If; right; auto.
Qed.
Lemma nbw : forall b, In b bs -> b <> bw. Proof. intros b H ->. auto. Qed.

Lemma fwd_coll : forall bi bo G kn fr, In bi bs -> In bo bs -> incl (bw :: bs) fr -> kn bi = Some (true, G) ->
  Coll' (fwdC bi bo) (Inv' kn fr) (Inv' (set1 bw None (teffect four sign (mkT true bi bo) kn)) fr).
Proof.
  intros bi bo G kn fr Ii Io If Ek. pose proof (nbw bi Ii) as N1. pose proof (nbw bo Io) as N2. unfold fwdC.
  eapply coll_seq; [eapply coll_seq; [apply (rows_coll sign bi bo G); auto|]|].
  - apply (coll_call c); [left; auto| |apply If; right; assumption|apply If; left; reflexivity].
    unfold legal_call. cbn [cin cout cdir]. split; [right; auto|]. split; [right; auto|]. split; [auto|]. split; [auto|].
    split; [|auto]. exists (yz c sign G). unfold set1. rewrite Nat.eqb_refl. reflexivity.
  - eapply coll_mono; [|apply (cols_coll sign bo bo (yz c sign G)); auto].
    2:{ unfold effect, set1. cbn [cin cout cdir]. rewrite !Nat.eqb_refl. reflexivity. }
    intros s. apply inv_map; auto. intros b r m Hb. unfold set1, effect, teffect. cbn [cin cout cdir tin tout tfwd negb].
    rewrite Nat.eqb_refl, Ek, andb_false_r.
    destruct (Nat.eqb_spec b bw) as [->|Nb]; [intros; exact Logic.I|].
    destruct (Nat.eqb_spec b bo) as [->|No].
    + cbn [agrees]. intros H i j t Hi Hj Ht. rewrite H, Hfour, xs_yz by auto. reflexivity.
    + auto.
Qed.
Lemma bwd_coll : forall bi bo G kn fr, In bi bs -> In bo bs -> incl (bw :: bs) fr -> kn bi = Some (false, G) ->
  Coll' (bwdC bi bo) (Inv' kn fr) (Inv' (set1 bw None (teffect four sign (mkT false bi bo) kn)) fr).
Proof.
  intros bi bo G kn fr Ii Io If Ek. pose proof (nbw bi Ii) as N1. pose proof (nbw bo Io) as N2. unfold bwdC.
  eapply coll_seq; [eapply coll_seq; [apply (cols_coll (- sign) bi bo G); auto|]|].
  - apply (coll_call c); [left; auto| |apply If; right; assumption|apply If; left; reflexivity].
    unfold legal_call. cbn [cin cout cdir]. split; [right; auto|]. split; [right; auto|]. split; [auto|]. split; [auto|].
    split; [|discriminate]. exists (xs c (- sign) G). unfold set1. rewrite Nat.eqb_refl. reflexivity.
  - eapply coll_mono; [|apply (rows_coll (- sign) bo bo (xs c (- sign) G)); auto].
    2:{ unfold effect, set1. cbn [cin cout cdir]. rewrite !Nat.eqb_refl. reflexivity. }
    intros s. apply inv_map; auto. intros b r m Hb. unfold set1, effect, teffect. cbn [cin cout cdir tin tout tfwd negb].
    rewrite Nat.eqb_refl, Ek, andb_true_r.
    destruct (Nat.eqb_spec b bw) as [->|Nb]; [intros; exact Logic.I|].
    destruct (Nat.eqb_spec b bo) as [->|No].
    + cbn [agrees]. intros H i j t Hi Hj Ht. rewrite H, Hfour, yz_xs by auto. reflexivity.
    + destruct (Nat.eqb_spec b bi); auto.
Qed.
Definition oneC (x : tcall) : nat -> cmdC := if tfwd x then fwdC (tin x) (tout x) else bwdC (tin x) (tout x).
Fixpoint histC (l : list tcall) (r : nat) : cmdC :=
  match l with [] => skip C | x :: l => seqc C (oneC x r) (histC l r) end.

Lemma teffect_bw : forall x k k', In (tin x) bs -> (forall b, In b bs -> k b = k' b) ->
  forall b, In b bs -> teffect four sign x k b = teffect four sign x k' b.
Proof. intros x k k' Hx H b Hb. unfold teffect. rewrite (H (tin x)), (H b) by auto. reflexivity. Qed.
Lemma hist_coll : forall inplace l kn fr, incl (bw :: bs) fr -> tlegal four sign inplace bs l kn ->
  forall kn0, (forall b, In b bs -> kn0 b = kn b) -> kn0 bw = None ->
  Coll' (histC l) (Inv' kn0 fr) (Inv' (set1 bw None (teffects four sign l kn)) fr).
Proof.
  intros inplace l. induction l as [|x l IH]; intros kn fr If Lg kn0 E0 Eb.
  - eapply coll_mono; [|apply coll_skip]. intros s. apply inv_weaken; auto.
    intros b [<-|Hb]; unfold set1; [rewrite Nat.eqb_refl; auto|]. destruct (Nat.eqb_spec b bw); auto. left. cbn. symmetry. auto.
  - destruct Lg as (I1 & I2 & I3 & (G & E) & Lg). cbn [histC].
    eapply coll_seq with (B := Inv' (set1 bw None (teffect four sign x kn0)) fr).
    + unfold oneC. destruct x as [[] bi bo]; cbn [tfwd tin tout] in *.
      * apply (fwd_coll bi bo G); auto. rewrite E0; auto.
      * apply (bwd_coll bi bo G); auto. rewrite E0; auto.
    + unfold teffects. cbn [fold_left]. apply (IH (teffect four sign x kn) fr); auto.
      * intros b Hb. unfold set1. destruct (Nat.eqb_spec b bw); [subst; contradiction|]. apply teffect_bw; auto.
      * unfold set1. rewrite Nat.eqb_refl. reflexivity.
Qed.
Theorem hist_run : forall inplace l kn,
  (forall r b, r < P -> In b (bw :: bs) -> storage X Y Z_ P r <= bsz0 r b) ->
  (forall r b, r < P -> In b bs -> held X Y Z_ P (kn b) r (mem0 r b)) ->
  tlegal four sign inplace bs l kn ->
  always_ends C P (fun r => (histC l r (Halt C), start_loc C c r (mem0 r) (bsz0 r)))
    (fun gf => forall r, r < P ->
       (forall b, In b bs -> held X Y Z_ P (teffects four sign l kn b) r (mem C (snd (gf r)) b)) /\
       (forall b o, ~ In b (bw :: bs) -> mem C (snd (gf r)) b o = mem0 r b o)).
Proof.
  intros inplace l kn Hcap Hk Lg.
  pose proof (coll_always c (bw :: bs) bsz0 mem0 Hcap (histC l) (set1 bw None kn) (set1 bw None (teffects four sign l kn)) (bw :: bs)) as H.
  eapply ends_mono; [|apply H].
  - intros gf Hg r Hr. destruct (Hg r Hr) as [A B]. split; auto. intros b Hb. specialize (A b (or_intror Hb)). unfold set1 in A.
    destruct (Nat.eqb_spec b bw); [subst; contradiction|]. exact A.
  - intros r b Hr Hb. unfold set1. destruct (Nat.eqb_spec b bw); [exact Logic.I|].
    destruct Hb as [Hb|Hb]; [congruence|]. apply Hk; auto.
  - apply (hist_coll inplace l kn); auto.
    + apply incl_refl.
    + intros b Hb. unfold set1. destruct (Nat.eqb_spec b bw); [subst; contradiction|reflexivity].
    + unfold set1. rewrite Nat.eqb_refl. reflexivity.
Qed.
End Hist.
