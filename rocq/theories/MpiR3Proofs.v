(** The properties of the distributed real transforms in three dimensions. *)
From Coq Require Import Reals ZArith List Arith Bool Lia Lra FunctionalExtensionality.
From Verif Require Import CNum Sums Roots PadModel HerModel MpiMachine MpiRun MpiTrModel MpiTrGeom MpiTrPhase MpiTrXch MpiTrSpec MpiTrTop MpiTrProofs MpiColl MpiFftModel MpiFftSpec MpiFft1 MpiRFftModel MpiRFftSpec MpiRFft1 MpiRFft2 MpiRFft3 MpiRFftProofs MpiR3Model MpiR3Spec MpiR3a MpiR3b MpiR3c.
Import ListNotations.
Local Open Scope nat_scope.

Section Three.
Variables (X Y Z P a al : nat).
Hypotheses (HX : 0 < X) (HY : 0 < Y) (HZ : 0 < Z) (HP : 0 < P) (Ha : 0 < a).
Let c := mkCfg X Y (Z / 2 + 1) 2 P a al.
Local Instance goodR3 : good c.
Proof. constructor; cbn; auto; lia. Qed.

Lemma r3calls_hist : forall inplace junk bs bw r l kn k, rlegal3 X Y Z inplace bs l kn ->
  r3calls c Z inplace junk bw r l k = rhistC c Z inplace junk bw l r k.
Proof.
  intros inplace junk bs bw r l. induction l as [|x l IH]; intros kn k Lg; [reflexivity|].
  destruct Lg as (Lx & Lg). cbn [r3calls rhistC]. unfold seqc at 1. rewrite (IH _ _ Lg).
  unfold r3cmd, rcallC, fwdP, bwdP, Forward03R, Backward03R, Forward3R, Backward3R, iForward3R, iBackward3R, ForwardWait3R, BackwardWait3R, nonnullR, setoutR.
  destruct x as [[] [] i o|b|b]; cbn [fst] in *; try reflexivity;
    destruct Lx as (_ & _ & -> & _); rewrite Bool.eqb_reflx; reflexivity.
Qed.
Theorem rhistory3 : forall inplace junk bs bw kn l mem0 bsz0, ~ In bw bs ->
  (forall r b, r < P -> In b (bw :: bs) -> doubles3 X Y Z P r <= bsz0 r b) ->
  (forall r b, r < P -> In b bs -> rheld3 X Y Z P inplace (kn b) r (mem0 r b)) ->
  rlegal3 X Y Z inplace bs l kn ->
  always_ends R P (initialR c mem0 bsz0 (fun r => r3calls c Z inplace junk bw r l (Halt R)))
    (fun gf => forall r, r < P ->
       (forall b, In b bs -> rheld3 X Y Z P inplace (reffects3 X Y Z l kn b) r (mem R (snd (gf r)) b)) /\
       (forall b o, ~ In b (bw :: bs) -> mem R (snd (gf r)) b o = mem0 r b o)).
Proof.
  intros inplace junk bs bw kn l mem0 bsz0 Nb Hcap Hk Lg.
  pose proof (rhist_run c eq_refl Z eq_refl HZ inplace junk bs bw Nb bsz0 mem0 l kn Hcap Hk Lg) as H.
  unfold initialR.
  replace (fun r => (r3calls c Z inplace junk bw r l (Halt R), start_loc R c r (mem0 r) (bsz0 r)))
    with (fun r => (rhistC c Z inplace junk bw l r (Halt R), start_loc R c r (mem0 r) (bsz0 r))); [exact H|].
  apply functional_extensionality. intros r. rewrite (r3calls_hist inplace junk bs bw r l kn (Halt R) Lg). reflexivity.
Qed.
Definition know3 (b : nat) (x : rknow3) : nat -> rknow3 := fun b' => if b' =? b then x else KNone3.
Theorem rforward3 : forall bi bo bw G mem0 bsz0, bi <> bw -> bo <> bw ->
  (forall r b, r < P -> In b [bi; bo; bw] -> doubles3 X Y Z P r <= bsz0 r b) ->
  (forall r, r < P -> rslab X Y Z P (rowdist Z (bi =? bo)) G r (mem0 r bi)) ->
  always_ends R P (initialR c mem0 bsz0 (fun r => Forward3R c Z (bi =? bo) bw r bi (Some bo) (Halt R)))
    (fun gf => forall r, r < P -> cslab X Y Z P (rfourier3 X Y Z G) r (mem R (snd (gf r)) bo) /\
       (bi <> bo -> rslab X Y Z P (rowdist Z (bi =? bo)) G r (mem R (snd (gf r)) bi)) /\
       forall b o, b <> bi -> b <> bo -> b <> bw -> mem R (snd (gf r)) b o = mem0 r b o).
Proof.
  intros bi bo bw G mem0 bsz0 N1 N2 Hcap HG.
  pose proof (rhistory3 (bi =? bo) (fun _ _ _ _ => 0%R) [bi; bo] bw (know3 bi (KReal3 G)) [RTrans true false bi bo] mem0 bsz0) as H.
  cbn [r3calls r3cmd] in H.
  eapply (ends_mono R c); [|apply H]; clear H.
  - intros gf Hg r Hr. destruct (Hg r Hr) as [A B]. unfold reffects3 in A. cbn [fold_left reffect3 negb orb] in A. split; [|split].
    + specialize (A bo ltac:(cbn; auto)). unfold know3 in A. rewrite !Nat.eqb_refl in A. exact A.
    + intros N. specialize (A bi ltac:(cbn; auto)). unfold know3 in A. rewrite !Nat.eqb_refl in A.
      destruct (Nat.eqb_spec bi bo); [contradiction|]. exact A.
    + intros b o A1 A2 A3. apply B. cbn [In]. intros [E|[E|[E|[]]]]; congruence.
  - cbn [In]. intros [E|[E|[]]]; congruence.
  - intros r b Hr Hb. apply Hcap; auto. cbn [In] in *. tauto.
  - intros r b Hr Hb. unfold know3. destruct (Nat.eqb_spec b bi); [subst; apply HG; auto|exact Logic.I].
  - cbn [rlegal3 In]. split; [|exact Logic.I]. split; [auto|]. split; [auto|]. split; [auto|]. split; [discriminate|].
    unfold know3. rewrite Nat.eqb_refl. reflexivity.
Qed.
Theorem rbackward3 : forall junk bi bo bw H mem0 bsz0, bi <> bw -> bo <> bw ->
  (forall r b, r < P -> In b [bi; bo; bw] -> doubles3 X Y Z P r <= bsz0 r b) ->
  (forall r, r < P -> cslab X Y Z P H r (mem0 r bi)) -> symmetric3 X Y Z H ->
  always_ends R P (initialR c mem0 bsz0 (fun r => Backward3R c Z (bi =? bo) (junk r) bw r bi (Some bo) (Halt R)))
    (fun gf => forall r, r < P -> rslab X Y Z P (rowdist Z (bi =? bo)) (rinverse3 X Y Z H) r (mem R (snd (gf r)) bo) /\
       forall b o, b <> bi -> b <> bo -> b <> bw -> mem R (snd (gf r)) b o = mem0 r b o).
Proof.
  intros junk bi bo bw H0 mem0 bsz0 N1 N2 Hcap HG Sy.
  pose proof (rhistory3 (bi =? bo) (fun _ => junk) [bi; bo] bw (know3 bi (KCplx3 H0)) [RTrans false false bi bo] mem0 bsz0) as H.
  cbn [r3calls r3cmd] in H.
  eapply (ends_mono R c); [|apply H]; clear H.
  - intros gf Hg r Hr. destruct (Hg r Hr) as [A B]. unfold reffects3 in A. cbn [fold_left reffect3 negb orb] in A. split.
    + specialize (A bo ltac:(cbn; auto)). unfold know3 in A. rewrite !Nat.eqb_refl in A. exact A.
    + intros b o A1 A2 A3. apply B. cbn [In]. intros [E|[E|[E|[]]]]; congruence.
  - cbn [In]. intros [E|[E|[]]]; congruence.
  - intros r b Hr Hb. apply Hcap; auto. cbn [In] in *. tauto.
  - intros r b Hr Hb. unfold know3. destruct (Nat.eqb_spec b bi); [subst; apply HG; auto|exact Logic.I].
  - cbn [rlegal3 In]. split; [|exact Logic.I]. split; [auto|]. split; [auto|]. split; [auto|]. split; [discriminate|].
    unfold know3. rewrite Nat.eqb_refl. auto.
Qed.

Lemma xyz_nz : INR (X * Y * Z) <> 0%R.
Proof. apply not_0_INR. apply Nat.neq_mul_0. split; [apply Nat.neq_mul_0|]; lia. Qed.
Lemma inv_norm3 : forall G i j l, i < X -> j < Y -> l < Z -> (rinverse3 X Y Z (rfourier3 X Y Z G) i j l / INR (X * Y * Z) = G i j l)%R.
Proof. intros G i j l Hi Hj Hl. rewrite inverse_eq3 by auto. pose proof xyz_nz. field. auto. Qed.
Lemma rfourier3_0_fun : forall G, Nat.even X = true -> Nat.even Y = true -> rfourier3_0 X Y Z G = rfourier3 X Y Z (fun i j l => altsign2 i j (G i j l)).
Proof.
  intros G EvX EvY. apply functional_extensionality. intros kx. apply functional_extensionality. intros ky. apply functional_extensionality. intros kz.
  apply rfourier3_0_eq; auto.
Qed.
Lemma inv0_norm3 : forall G i j l, Nat.even X = true -> Nat.even Y = true -> i < X -> j < Y -> l < Z ->
  (rinverse3_0 X Y Z (rfourier3_0 X Y Z G) i j l / INR (X * Y * Z) = G i j l)%R.
Proof.
  intros G i j l EvX EvY Hi Hj Hl. rewrite rinverse3_0_eq, rfourier3_0_fun by auto. rewrite inverse_eq3 by auto. pose proof xyz_nz.
  unfold altsign2. destruct (Nat.even (i + j)); field; auto.
Qed.
Lemma symmetric3_0 : forall G, Nat.even X = true -> Nat.even Y = true -> symmetric3 X Y Z (rfourier3_0 X Y Z G).
Proof. intros G EvX EvY. rewrite rfourier3_0_fun by auto. apply rfourier3_symmetric; auto. Qed.
(** Forward(f,g); Backward(g,h); Normalize(h), and the same with the shifted origin *)
Theorem rroundtrip3 : forall (r0 : bool) junk b1 b2 b3 bw inplace G mem0 bsz0, (r0 = true -> Nat.even X = true /\ Nat.even Y = true) ->
  ~ In bw [b1; b2; b3] -> inplace = (b1 =? b2) -> inplace = (b2 =? b3) ->
  (forall r b, r < P -> In b [bw; b1; b2; b3] -> doubles3 X Y Z P r <= bsz0 r b) ->
  (forall r, r < P -> rslab X Y Z P (rowdist Z inplace) G r (mem0 r b1)) ->
  always_ends R P (initialR c mem0 bsz0 (fun r =>
       (if r0 then Forward03R c Z inplace bw r b1 (Some b2) else Forward3R c Z inplace bw r b1 (Some b2))
      ((if r0 then Backward03R c Z inplace (junk r) bw r b2 (Some b3) else Backward3R c Z inplace (junk r) bw r b2 (Some b3))
       (normalize3R c Z inplace r b3 (Halt R)))))
    (fun gf => forall r, r < P -> rslab X Y Z P (rowdist Z inplace) G r (mem R (snd (gf r)) b3)).
Proof.
  intros r0 junk b1 b2 b3 bw inplace G mem0 bsz0 Ev Nb E1 E2 Hcap HG.
  pose proof (rhistory3 inplace (fun _ => junk) [b1; b2; b3] bw (know3 b1 (KReal3 G)) [RTrans true r0 b1 b2; RTrans false r0 b2 b3; RNorm b3] mem0 bsz0) as H.
  cbn [r3calls] in H.
  eapply (ends_mono R c); [|].
  2:{ unfold initialR. unfold initialR in H. 
      match type of H with _ -> _ -> _ -> _ -> always_ends _ _ ?g _ => match goal with |- always_ends _ _ ?g' _ => replace g' with g end end;
      [apply H|apply functional_extensionality; intros r; destruct r0; reflexivity].
      - exact Nb.
      - intros r b Hr Hb. apply Hcap; auto.
      - intros r b Hr Hb. unfold know3. destruct (Nat.eqb_spec b b1); [subst b; apply HG; auto|exact Logic.I].
      - cbn [rlegal3 In]. split; [split; [auto|]; split; [auto|]; split; [auto|]; split; [auto|]|].
        { unfold know3. rewrite Nat.eqb_refl. reflexivity. }
        split; [split; [auto|]; split; [auto|]; split; [auto|]; split; [auto|]|].
        { unfold reffect3, know3. rewrite !Nat.eqb_refl. split; auto. destruct r0; [destruct (Ev eq_refl); apply symmetric3_0; auto|apply rfourier3_symmetric; auto]. }
        split; [|exact Logic.I]. split; [auto|]. unfold reffect3, know3. rewrite !Nat.eqb_refl. eexists. reflexivity. }
  intros gf Hg r Hr. destruct (Hg r Hr) as [A _]. specialize (A b3 ltac:(cbn; auto)).
  unfold reffects3 in A. cbn [fold_left reffect3] in A. unfold know3 in A. rewrite !Nat.eqb_refl in A. cbn [rheld3] in A.
  intros i j l Hi Hj Hl. rewrite A by auto. assert (first X P r + i < X) by (unfold count in Hi; lia).
  destruct r0; [destruct (Ev eq_refl); apply inv0_norm3; auto|apply inv_norm3; auto].
Qed.


(** *** the null output *)
Lemma coll_bad3 : forall (cm : nat -> cmdR) (rest : nat -> prog R) inplace bs bw kn kn' mem0 bsz0 r,
  (forall r b, r < P -> In b (bw :: bs) -> doubles3 X Y Z P r <= bsz0 r b) ->
  (forall r b, r < P -> In b bs -> iheld3 c Z inplace (kn b) r (mem0 r b)) -> kn bw = IN3 ->
  Coll R c cm (KI c Z inplace bs bw bsz0 mem0 kn) kn' -> r < P -> rest r = Fail R ->
  exists k g1, steps R false P k (initialR c mem0 bsz0 (fun r => cm r (rest r))) g1 /\ bad R P g1.
Proof.
  intros cm rest inplace bs bw kn kn' mem0 bsz0 r Hcap Hk Ew Hcm Hr Er.
  destruct (Hcm (initialR c mem0 bsz0 (fun r => cm r (rest r))) rest (fun r => start_loc R c r (mem0 r) (bsz0 r))) as (n & g2 & s2 & St & E2 & I2).
  - apply cinv_start.
    + exact goodR3.
    + intros r' b Hr' Hb. specialize (Hcap r' b Hr' Hb). unfold storage, doubles3 in *. eapply Nat.le_trans; [|exact Hcap]. unfold S_. cbn [cN cM cP cL csz c].
      apply Nat.eq_le_incl. ring.
    + intros r' b Hr' Hb. destruct Hb as [<-|Hb]; [rewrite Ew; exact Logic.I|]. apply (proj1 (ih_cases c Z inplace (fun _ _ _ _ => 0%R) bsz0 mem0 kn b r' (mem0 r' b))). apply Hk; auto.
    + intros r' Hr' b G Hb Eb. destruct Hb as [<-|Hb]; [congruence|]. pose proof (size_le c).
      apply (proj2 (proj1 (ih_cases c Z inplace (fun _ _ _ _ => 0%R) bsz0 mem0 kn b r' (mem0 r' b)) (Hk r' b ltac:(cbn in *; lia) Hb))). exact Eb.
  - intros r' Hr'. reflexivity.
  - exists n, g2. split; [exact St|]. exists r. split; auto. unfold erroneous. rewrite E2 by auto. rewrite Er. intros st' L. inversion L.
Qed.
Lemma lx0_pos : 0 < ldim X P 0.
Proof. change (ldim X P 0) with (count X P 0). eapply first_activeR; eauto. Qed.
Theorem rnull3 : forall b bw G mem0 bsz0, b <> bw ->
  (forall r b', r < P -> In b' [b; bw] -> doubles3 X Y Z P r <= bsz0 r b') ->
  (forall r, r < P -> rslab X Y Z P (rowdist Z true) G r (mem0 r b)) ->
  exists k g1, steps R false P k (initialR c mem0 bsz0 (fun r => Forward3R c Z true bw r b None (Halt R))) g1 /\ bad R P g1.
Proof.
  intros b bw G mem0 bsz0 N Hcap HG.
  assert (Nb : ~ In bw [b]) by (cbn; intros [E|[]]; congruence).
  assert (E : initialR c mem0 bsz0 (fun r => Forward3R c Z true bw r b None (Halt R)) =
    initialR c mem0 bsz0 (fun r => (fun r => zForward c Z true r b b) r
      ((fun r => (if (ldim (cN c) (cP c) r =? 0) && (ldim (cM c) (cP c) r =? 0) then localizeR c bw r true b else fun _ => Fail R)
         (ForwardWait3R c r None (Halt R))) r))).
  { unfold initialR, Forward3R, iForward3R, setoutR. rewrite Nat.eqb_refl. reflexivity. }
  rewrite E. set (kn := fun b' => if b' =? b then IR3 G else IN3).
  assert (Ek : kn b = IR3 G) by (unfold kn; rewrite Nat.eqb_refl; reflexivity).
  eapply (coll_bad3 (fun r => zForward c Z true r b b) _ true [b] bw kn _ mem0 bsz0 0).
  - intros r b' Hr Hb. apply Hcap; auto. cbn [In] in *. tauto.
  - intros r b' Hr [<-|[]]. rewrite Ek. cbn [iheld3]. apply HG; auto.
  - unfold kn. destruct (Nat.eqb_spec bw b); [congruence|reflexivity].
  - eapply (ik_phase c Z true (fun _ _ _ _ => 0%R) [b] bw bsz0 mem0 _ kn b b (IR3 G)); [left; auto|left; auto|exact Ek| |].
    + intros r k Hr Hp. unfold zForward. rewrite (xl c) by auto. reflexivity.
    + intros r s Hr Q B1 B2 HH. eapply (zForward_phase c eq_refl Z eq_refl HZ true); eauto. rewrite Nat.eqb_refl. reflexivity.
  - exact HP.
  - cbv beta. change (cN c) with X. change (cP c) with P. pose proof lx0_pos. destruct (Nat.eqb_spec (ldim X P 0) 0); [lia|reflexivity].
Qed.
Theorem rnull3_0 : forall junk b bw H mem0 bsz0, b <> bw -> Nat.even X = true -> Nat.even Y = true ->
  (forall r b', r < P -> In b' [b; bw] -> doubles3 X Y Z P r <= bsz0 r b') ->
  (forall r, r < P -> cslab X Y Z P H r (mem0 r b)) -> symmetric3 X Y Z H ->
  exists k g1, steps R false P k (initialR c mem0 bsz0 (fun r => Backward03R c Z true (junk r) bw r b None (Halt R))) g1 /\ bad R P g1.
Proof.
  intros junk b bw H mem0 bsz0 N EvX EvY Hcap HG Sy.
  assert (Nb : ~ In bw [b]) by (cbn; intros [E|[]]; congruence).
  assert (E : initialR c mem0 bsz0 (fun r => Backward03R c Z true (junk r) bw r b None (Halt R)) =
    initialR c mem0 bsz0 (fun r => bwdP c Z true (fun _ => junk) bw 0 b b r
      ((fun r => (if (cN c mod 2 =? 0) && (cM c mod 2 =? 0) && (ldim (cN c) (cP c) r * (cM c / 2) =? 0) then skip R else fun _ => Fail R) (Halt R)) r))).
  { unfold initialR, Backward03R, Backward3R, iBackward3R, BackwardWait3R, setoutR. rewrite Nat.eqb_refl. reflexivity. }
  rewrite E. set (kn := fun b' => if b' =? b then ICol3 H else IN3).
  assert (Ek : kn b = ICol3 H) by (unfold kn; rewrite Nat.eqb_refl; reflexivity).
  assert (Ew : kn bw = IN3) by (unfold kn; destruct (Nat.eqb_spec bw b); [congruence|reflexivity]).
  eapply (coll_bad3 (bwdP c Z true (fun _ => junk) bw 0 b b) _ true [b] bw kn _ mem0 bsz0 0).
  - intros r' b' Hr' Hb. apply Hcap; auto. cbn [In] in *. tauto.
  - intros r' b' Hr' [<-|[]]. rewrite Ek. apply (cols_eq c eq_refl Z eq_refl HZ true). apply HG; auto.
  - exact Ew.
  - eapply (bwd_coll c eq_refl Z eq_refl HZ true (fun _ => junk) [b] bw Nb bsz0 mem0 0 b b H); auto; try (left; auto).
    rewrite Nat.eqb_refl. reflexivity.
  - exact HP.
  - cbv beta. change (cN c) with X. change (cP c) with P. change (cM c) with Y. pose proof lx0_pos as L.
    assert (0 < Y / 2). { apply Nat.even_spec in EvY. destruct EvY as [q Eq]. rewrite Eq, Nat.mul_comm, Nat.div_mul; lia. }
    destruct (Nat.eqb_spec (ldim X P 0 * (Y / 2)) 0) as [Z0|Z0]; [apply Nat.eq_mul_0 in Z0; lia|].
    rewrite andb_false_r. reflexivity.
Qed.
End Three.
