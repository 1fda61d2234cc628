(** The properties of the distributed real transforms. *)
From Coq Require Import Reals ZArith List Arith Bool Lia Lra FunctionalExtensionality.
From Verif Require Import CNum Sums Roots PadModel HerModel MpiMachine MpiRun MpiTrModel MpiTrGeom MpiTrPhase MpiTrXch MpiTrSpec MpiTrTop MpiTrProofs MpiColl MpiFftModel MpiFftSpec MpiFft1 MpiRFftModel MpiRFftSpec MpiRFft1 MpiRFft2 MpiRFft3 MpiRFft4.
Import ListNotations.
Local Open Scope nat_scope.

(** The program of process r that makes the calls of the list; [junk n]: what the complex-to-real
    transforms of the n-th last call leave in their input *)
Definition rcmd (c : cfg) (Y : nat) (inplace : bool) (junk : nat -> nat -> R) (bw r : nat) (x : rcall) : cmdR :=
  match x with
  | RTrans true false i o => ForwardR c Y inplace bw r i (Some o)
  | RTrans true true i o => Forward0R c Y inplace bw r i (Some o)
  | RTrans false false i o => BackwardR c Y inplace junk bw r i (Some o)
  | RTrans false true i o => Backward0R c Y inplace junk bw r i (Some o)
  | RNorm b => normalizeR c Y inplace r b
  | RDeny b => deNyquist c Y r b
  end.
Fixpoint rcalls (c : cfg) (Y : nat) (inplace : bool) (junk : nat -> nat -> nat -> nat -> R) (bw r : nat) (l : list rcall) (k : prog R) : prog R :=
  match l with
  | [] => k
  | x :: l => rcmd c Y inplace (junk (length l) r) bw r x (rcalls c Y inplace junk bw r l k)
  end.
Definition initialR (c : cfg) (mem0 : nat -> nat -> nat -> R) (bsz0 : nat -> nat -> nat) (p : nat -> prog R) : gst R :=
  fun r => (p r, start_loc R c r (mem0 r) (bsz0 r)).

Section Two.
Variables (X Y P a al : nat).
Hypotheses (HX : 0 < X) (HY : 0 < Y) (HP : 0 < P) (Ha : 0 < a).
Let c := mkCfg X (Y / 2 + 1) 1 2 P a al.
Local Instance goodR : good c.
Proof. constructor; cbn; auto; lia. Qed.

Lemma rcalls_hist : forall inplace junk bs bw r l kn k, rlegal X Y P inplace bs l kn ->
  rcalls c Y inplace junk bw r l k = rhistC c Y inplace junk bw l r k.
Proof.
  intros inplace junk bs bw r l. induction l as [|x l IH]; intros kn k Lg; [reflexivity|].
  destruct Lg as (Lx & Lg). cbn [rcalls rhistC]. unfold seqc at 1. rewrite (IH _ _ Lg).
  unfold rcmd, rcallC, fwdP, bwdP, Forward0R, Backward0R, ForwardR, BackwardR, iForwardR, iBackwardR, ForwardWaitR, BackwardWaitR, nonnullR, setoutR.
  destruct x as [[] [] i o|b|b]; cbn [fst] in *; try reflexivity;
    destruct Lx as (_ & _ & -> & _); rewrite Bool.eqb_reflx; reflexivity.
Qed.
Theorem rhistory2 : forall inplace junk bs bw kn l mem0 bsz0, ~ In bw bs ->
  (forall r b, r < P -> In b (bw :: bs) -> doubles X Y P r <= bsz0 r b) ->
  (forall r b, r < P -> In b bs -> rheld X Y P inplace (kn b) r (mem0 r b)) ->
  rlegal X Y P inplace bs l kn ->
  always_ends R P (initialR c mem0 bsz0 (fun r => rcalls c Y inplace junk bw r l (Halt R)))
    (fun gf => forall r, r < P ->
       (forall b, In b bs -> rheld X Y P inplace (reffects X Y l kn b) r (mem R (snd (gf r)) b)) /\
       (forall b o, ~ In b (bw :: bs) -> mem R (snd (gf r)) b o = mem0 r b o)).
Proof.
  intros inplace junk bs bw kn l mem0 bsz0 Nb Hcap Hk Lg.
  pose proof (rhist_run c eq_refl eq_refl Y eq_refl HY inplace junk bs bw Nb bsz0 mem0 l kn Hcap Hk Lg) as H.
  unfold initialR.
  replace (fun r => (rcalls c Y inplace junk bw r l (Halt R), start_loc R c r (mem0 r) (bsz0 r)))
    with (fun r => (rhistC c Y inplace junk bw l r (Halt R), start_loc R c r (mem0 r) (bsz0 r))); [exact H|].
  apply functional_extensionality. intros r. rewrite (rcalls_hist inplace junk bs bw r l kn (Halt R) Lg). reflexivity.
Qed.
Definition know1 (b : nat) (x : rknow) : nat -> rknow := fun b' => if b' =? b then x else KNone.
Theorem rforward2 : forall bi bo bw G mem0 bsz0, bi <> bw -> bo <> bw ->
  (forall r b, r < P -> In b [bi; bo; bw] -> doubles X Y P r <= bsz0 r b) ->
  (forall r, r < P -> rrows X Y P (rowdist Y (bi =? bo)) G r (mem0 r bi)) ->
  always_ends R P (initialR c mem0 bsz0 (fun r => ForwardR c Y (bi =? bo) bw r bi (Some bo) (Halt R)))
    (fun gf => forall r, r < P -> ccols X Y P (rfourier2 X Y G) r (mem R (snd (gf r)) bo) /\
       (bi <> bo -> rrows X Y P (rowdist Y (bi =? bo)) G r (mem R (snd (gf r)) bi)) /\
       forall b o, b <> bi -> b <> bo -> b <> bw -> mem R (snd (gf r)) b o = mem0 r b o).
Proof.
  intros bi bo bw G mem0 bsz0 N1 N2 Hcap HG.
  pose proof (rhistory2 (bi =? bo) (fun _ _ _ _ => 0%R) [bi; bo] bw (know1 bi (KReal G)) [RTrans true false bi bo] mem0 bsz0) as H.
  cbn [rcalls rcmd] in H.
  eapply (ends_mono R c); [|apply H]; clear H.
  - intros gf Hg r Hr. destruct (Hg r Hr) as [A B]. unfold reffects in A. cbn [fold_left reffect negb orb] in A. split; [|split].
    + specialize (A bo ltac:(cbn; auto)). unfold know1 in A. rewrite !Nat.eqb_refl in A. exact A.
    + intros N. specialize (A bi ltac:(cbn; auto)). unfold know1 in A. rewrite !Nat.eqb_refl in A.
      destruct (Nat.eqb_spec bi bo); [contradiction|]. exact A.
    + intros b o A1 A2 A3. apply B. cbn [In]. intros [E|[E|[E|[]]]]; congruence.
  - cbn [In]. intros [E|[E|[]]]; congruence.
  - intros r b Hr Hb. apply Hcap; auto. cbn [In] in *. tauto.
  - intros r b Hr Hb. unfold know1. destruct (Nat.eqb_spec b bi); [subst; apply HG; auto|exact Logic.I].
  - cbn [rlegal In]. split; [|exact Logic.I]. split; [auto|]. split; [auto|]. split; [auto|]. split; [discriminate|].
    unfold know1. rewrite Nat.eqb_refl. reflexivity.
Qed.
Theorem rbackward2 : forall junk bi bo bw H mem0 bsz0, bi <> bw -> bo <> bw ->
  (forall r b, r < P -> In b [bi; bo; bw] -> doubles X Y P r <= bsz0 r b) ->
  (forall r, r < P -> ccols X Y P H r (mem0 r bi)) -> symmetric2 X Y H ->
  always_ends R P (initialR c mem0 bsz0 (fun r => BackwardR c Y (bi =? bo) (junk r) bw r bi (Some bo) (Halt R)))
    (fun gf => forall r, r < P -> rrows X Y P (rowdist Y (bi =? bo)) (rinverse2 X Y H) r (mem R (snd (gf r)) bo) /\
       forall b o, b <> bi -> b <> bo -> b <> bw -> mem R (snd (gf r)) b o = mem0 r b o).
Proof.
  intros junk bi bo bw H0 mem0 bsz0 N1 N2 Hcap HG Sy.
  pose proof (rhistory2 (bi =? bo) (fun _ => junk) [bi; bo] bw (know1 bi (KCplx H0)) [RTrans false false bi bo] mem0 bsz0) as H.
  cbn [rcalls rcmd] in H.
  eapply (ends_mono R c); [|apply H]; clear H.
  - intros gf Hg r Hr. destruct (Hg r Hr) as [A B]. unfold reffects in A. cbn [fold_left reffect negb orb] in A. split.
    + specialize (A bo ltac:(cbn; auto)). unfold know1 in A. rewrite !Nat.eqb_refl in A. exact A.
    + intros b o A1 A2 A3. apply B. cbn [In]. intros [E|[E|[E|[]]]]; congruence.
  - cbn [In]. intros [E|[E|[]]]; congruence.
  - intros r b Hr Hb. apply Hcap; auto. cbn [In] in *. tauto.
  - intros r b Hr Hb. unfold know1. destruct (Nat.eqb_spec b bi); [subst; apply HG; auto|exact Logic.I].
  - cbn [rlegal In]. split; [|exact Logic.I]. split; [auto|]. split; [auto|]. split; [auto|]. split; [discriminate|].
    unfold know1. rewrite Nat.eqb_refl. auto.
Qed.

Lemma inv_norm : forall G i j, i < X -> j < Y -> (rinverse2 X Y (rfourier2 X Y G) i j / INR (X * Y) = G i j)%R.
Proof.
  intros G i j Hi Hj. rewrite inverse_eq by auto. field. apply not_0_INR. apply Nat.neq_mul_0. lia.
Qed.
Lemma inv0_norm : forall G i j, Nat.even X = true -> i < X -> j < Y -> (rinverse2_0 X Y (rfourier2_0 X Y G) i j / INR (X * Y) = G i j)%R.
Proof.
  intros G i j Ev Hi Hj. rewrite rinverse2_0_eq by auto.
  replace (rfourier2_0 X Y G) with (rfourier2 X Y (fun i j => altsign i (G i j))).
  2:{ apply functional_extensionality. intros kx. apply functional_extensionality. intros ky. symmetry. apply rfourier2_0_eq; auto. }
  rewrite inverse_eq by auto. unfold altsign. destruct (Nat.even i); field; apply not_0_INR; apply Nat.neq_mul_0; lia.
Qed.
Lemma symmetric_0 : forall G, Nat.even X = true -> symmetric2 X Y (rfourier2_0 X Y G).
Proof.
  intros G Ev kx ky Hx Hy. rewrite !rfourier2_0_eq by auto. apply rfourier2_symmetric; auto.
Qed.
(** Forward(f,g); Backward(g,h); Normalize(h), and the same with the shifted origin *)
Theorem rroundtrip2 : forall (r0 : bool) junk b1 b2 b3 bw inplace G mem0 bsz0, (r0 = true -> Nat.even X = true) ->
  ~ In bw [b1; b2; b3] -> inplace = (b1 =? b2) -> inplace = (b2 =? b3) ->
  (forall r b, r < P -> In b [bw; b1; b2; b3] -> doubles X Y P r <= bsz0 r b) ->
  (forall r, r < P -> rrows X Y P (rowdist Y inplace) G r (mem0 r b1)) ->
  always_ends R P (initialR c mem0 bsz0 (fun r =>
       (if r0 then Forward0R c Y inplace bw r b1 (Some b2) else ForwardR c Y inplace bw r b1 (Some b2))
      ((if r0 then Backward0R c Y inplace (junk r) bw r b2 (Some b3) else BackwardR c Y inplace (junk r) bw r b2 (Some b3))
       (normalizeR c Y inplace r b3 (Halt R)))))
    (fun gf => forall r, r < P -> rrows X Y P (rowdist Y inplace) G r (mem R (snd (gf r)) b3)).
Proof.
  intros r0 junk b1 b2 b3 bw inplace G mem0 bsz0 Ev Nb E1 E2 Hcap HG.
  pose proof (rhistory2 inplace (fun _ => junk) [b1; b2; b3] bw (know1 b1 (KReal G)) [RTrans true r0 b1 b2; RTrans false r0 b2 b3; RNorm b3] mem0 bsz0) as H.
  cbn [rcalls] in H.
  eapply (ends_mono R c); [|].
  2:{ unfold initialR. unfold initialR in H. 
      match type of H with _ -> _ -> _ -> _ -> always_ends _ _ ?g _ => match goal with |- always_ends _ _ ?g' _ => replace g' with g end end;
      [apply H|apply functional_extensionality; intros r; destruct r0; reflexivity].
      - exact Nb.
      - intros r b Hr Hb. apply Hcap; auto.
      - intros r b Hr Hb. unfold know1. destruct (Nat.eqb_spec b b1); [subst b; apply HG; auto|exact Logic.I].
      - cbn [rlegal In]. split; [split; [auto|]; split; [auto|]; split; [auto|]; split; [auto|]|].
        { unfold know1. rewrite Nat.eqb_refl. reflexivity. }
        split; [split; [auto|]; split; [auto|]; split; [auto|]; split; [auto|]|].
        { unfold reffect, know1. rewrite !Nat.eqb_refl. split; auto. destruct r0; [apply symmetric_0; auto|apply rfourier2_symmetric; auto]. }
        split; [|exact Logic.I]. split; [auto|]. unfold reffect, know1. rewrite !Nat.eqb_refl. eexists. reflexivity. }
  intros gf Hg r Hr. destruct (Hg r Hr) as [A _]. specialize (A b3 ltac:(cbn; auto)).
  unfold reffects in A. cbn [fold_left reffect] in A. unfold know1 in A. rewrite !Nat.eqb_refl in A. cbn [rheld] in A.
  intros i j Hi Hj. rewrite A by auto. assert (first X P r + i < X) by (unfold count in Hi; lia).
  destruct r0; [apply inv0_norm; auto|apply inv_norm; auto].
Qed.

(** *** the null output *)
Lemma first_activeR : forall N, 0 < N -> 0 < count N P 0.
Proof.
  intros N HN. unfold count, first. rewrite Nat.mul_0_r, Nat.sub_0_r.
  apply Nat.min_glb_lt; auto. unfold blocklen. apply Nat.div_str_pos. lia.
Qed.
Lemma coll_bad : forall (cm : nat -> cmdR) (rest : nat -> prog R) inplace bs bw kn kn' mem0 bsz0 r,
  (forall r b, r < P -> In b (bw :: bs) -> doubles X Y P r <= bsz0 r b) ->
  (forall r b, r < P -> In b bs -> iheld c Y inplace (kn b) r (mem0 r b)) -> kn bw = IN ->
  Coll R c cm (KI c Y inplace bs bw bsz0 mem0 kn) kn' -> r < P -> rest r = Fail R ->
  exists k g1, steps R false P k (initialR c mem0 bsz0 (fun r => cm r (rest r))) g1 /\ bad R P g1.
Proof.
  intros cm rest inplace bs bw kn kn' mem0 bsz0 r Hcap Hk Ew Hcm Hr Er.
  destruct (Hcm (initialR c mem0 bsz0 (fun r => cm r (rest r))) rest (fun r => start_loc R c r (mem0 r) (bsz0 r))) as (n & g2 & s2 & St & E2 & I2).
  - apply cinv_start.
    + exact goodR.
    + intros r' b Hr' Hb. specialize (Hcap r' b Hr' Hb). unfold storage, doubles in *. replace (S_ c) with 2 by reflexivity. cbn [cN cM cP c]. lia.
    + intros r' b Hr' Hb. destruct Hb as [<-|Hb]; [rewrite Ew; exact Logic.I|]. apply (proj1 (ih_cases c Y inplace (fun _ _ _ _ => 0%R) bsz0 mem0 kn b r' (mem0 r' b))). apply Hk; auto.
    + intros r' Hr' b G Hb Eb. destruct Hb as [<-|Hb]; [congruence|]. pose proof (size_le c). 
      apply (proj2 (proj1 (ih_cases c Y inplace (fun _ _ _ _ => 0%R) bsz0 mem0 kn b r' (mem0 r' b)) (Hk r' b ltac:(cbn in *; lia) Hb))). exact Eb.
  - intros r' Hr'. reflexivity.
  - exists n, g2. split; [exact St|]. exists r. split; auto. unfold erroneous. rewrite E2 by auto. rewrite Er. intros st' L. inversion L.
Qed.
Theorem rnull2 : forall b bw G mem0 bsz0, b <> bw ->
  (forall r b', r < P -> In b' [b; bw] -> doubles X Y P r <= bsz0 r b') ->
  (forall r, r < P -> rrows X Y P (rowdist Y true) G r (mem0 r b)) ->
  exists k g1, steps R false P k (initialR c mem0 bsz0 (fun r => ForwardR c Y true bw r b None (Halt R))) g1 /\ bad R P g1.
Proof.
  intros b bw G mem0 bsz0 N Hcap HG.
  assert (Nb : ~ In bw [b]) by (cbn; intros [E|[]]; congruence).
  assert (E : initialR c mem0 bsz0 (fun r => ForwardR c Y true bw r b None (Halt R)) =
    initialR c mem0 bsz0 (fun r => (fun r => seqc R (yForward c Y true r b b) (localizeR c bw r true b)) r
      ((fun r => nonnullR (ldim (cM c) (cP c) r) None (fun bo => xfftR c r (-1) bo) (Halt R)) r))).
  { unfold initialR, ForwardR, iForwardR, ForwardWaitR, setoutR. rewrite Nat.eqb_refl. reflexivity. }
  rewrite E. set (kn := fun b' => if b' =? b then IR G else IN).
  assert (Ek : kn b = IR G) by (unfold kn; rewrite Nat.eqb_refl; reflexivity).
  eapply (coll_bad (fun r => seqc R (yForward c Y true r b b) (localizeR c bw r true b)) (fun r => nonnullR (ldim (cM c) (cP c) r) None (fun bo => xfftR c r (-1) bo) (Halt R)) true [b] bw kn _ mem0 bsz0 0).
  - intros r b' Hr Hb. apply Hcap; auto. cbn [In] in *. tauto.
  - intros r b' Hr [<-|[]]. rewrite Ek. cbn [iheld]. apply HG; auto.
  - unfold kn. destruct (Nat.eqb_spec bw b); [congruence|reflexivity].
  - eapply coll_seq; [eapply (ik_phase c Y true (fun _ _ _ _ => 0%R) [b] bw bsz0 mem0 _ kn b b (IR G)); [left; auto|left; auto|exact Ek| |]|].
    + intros r k Hr Hp. unfold yForward. rewrite (xl c) by auto. reflexivity.
    + intros r s Hr Q B1 B2 HH. eapply (yForward_phase c eq_refl eq_refl Y eq_refl HY true); eauto. rewrite Nat.eqb_refl. reflexivity.
    + apply (ik_call c Y true [b] bw Nb bsz0 mem0 true b (fun i => r2c Y (G i))).
      * left; auto.
      * unfold seti. rewrite Nat.eqb_refl. reflexivity.
  - exact HP.
  - unfold nonnullR. cbn [cM cP c]. assert (E1 : ldim (Y / 2 + 1) P 0 <> 0). { change (ldim (Y / 2 + 1) P 0) with (count (Y / 2 + 1) P 0). pose proof (first_activeR (Y / 2 + 1) ltac:(lia)). lia. }
    destruct (Nat.eqb_spec (ldim (Y / 2 + 1) P 0) 0); [contradiction|reflexivity].
Qed.
Theorem rnull2_0 : forall junk b bw H mem0 bsz0, b <> bw -> Nat.even X = true ->
  (forall r b', r < P -> In b' [b; bw] -> doubles X Y P r <= bsz0 r b') ->
  (forall r, r < P -> ccols X Y P H r (mem0 r b)) -> symmetric2 X Y H ->
  exists k g1, steps R false P k (initialR c mem0 bsz0 (fun r => Backward0R c Y true (junk r) bw r b None (Halt R))) g1 /\ bad R P g1.
Proof.
  intros junk b bw H mem0 bsz0 N Ev Hcap HG Sy.
  assert (Nb : ~ In bw [b]) by (cbn; intros [E|[]]; congruence).
  assert (E : initialR c mem0 bsz0 (fun r => Backward0R c Y true (junk r) bw r b None (Halt R)) =
    initialR c mem0 bsz0 (fun r => bwdP c Y true (fun _ => junk) bw 0 b b r
      ((fun r => (if (cN c mod 2 =? 0) && ((ldim (cN c) (cP c) r - shiftStart c r + 1) / 2 =? 0) then skip R else fun _ => Fail R) (Halt R)) r))).
  { unfold initialR, Backward0R, BackwardR, iBackwardR, BackwardWaitR, setoutR. rewrite Nat.eqb_refl. reflexivity. }
  rewrite E. set (kn := fun b' => if b' =? b then ICol H else IN).
  assert (Ek : kn b = ICol H) by (unfold kn; rewrite Nat.eqb_refl; reflexivity).
  assert (Ew : kn bw = IN) by (unfold kn; destruct (Nat.eqb_spec bw b); [congruence|reflexivity]).
  assert (HR : exists r, r < P /\ (ldim X P r - shiftStart c r + 1) / 2 <> 0).
  { assert (2 <= X). { apply Nat.even_spec in Ev. destruct Ev. lia. }
    destruct (Nat.le_gt_cases (count X P 0) 1) as [L|L].
    - pose proof (first_activeR X HX) as A.
      assert (B1 : blocklen X P = 1). { unfold count, first in *. rewrite Nat.mul_0_r, Nat.sub_0_r in *. lia. }
      assert (P1 : 1 < P). { destruct (Nat.eq_dec P 1) as [E1|]; [|lia]. unfold blocklen in B1. rewrite E1, Nat.div_1_r in B1. lia. }
      exists 1. split; auto. unfold shiftStart. cbn [cN cP c]. change (lbeg X P 1) with (first X P 1). change (ldim X P 1) with (count X P 1).
      unfold count, first. rewrite B1. cbn [Nat.mul]. replace (Nat.min 1 (X - (1 + 0))) with 1 by lia. vm_compute. discriminate.
    - exists 0. split; auto. unfold shiftStart. cbn [cN cP c]. change (lbeg X P 0) with (first X P 0). change (ldim X P 0) with (count X P 0).
      unfold first. rewrite Nat.mul_0_r. change ((0 + 1) mod 2) with 1.
      pose proof (Nat.div_mod (count X P 0 - 1 + 1) 2 ltac:(lia)). pose proof (Nat.mod_upper_bound (count X P 0 - 1 + 1) 2 ltac:(lia)). lia. }
  destruct HR as (r & Hr & Nr).
  eapply (coll_bad (bwdP c Y true (fun _ => junk) bw 0 b b) (fun r => (if (cN c mod 2 =? 0) && ((ldim (cN c) (cP c) r - shiftStart c r + 1) / 2 =? 0) then skip R else fun _ => Fail R) (Halt R)) true [b] bw kn _ mem0 bsz0 r).
  - intros r' b' Hr' Hb. apply Hcap; auto. cbn [In] in *. tauto.
  - intros r' b' Hr' [<-|[]]. rewrite Ek. apply (cols_eq c eq_refl eq_refl Y eq_refl HY true). apply HG; auto.
  - exact Ew.
  - eapply (bwd_coll c eq_refl eq_refl Y eq_refl HY true (fun _ => junk) [b] bw Nb bsz0 mem0 0 b b H); auto; try (left; auto).
    rewrite Nat.eqb_refl. reflexivity.
  - exact Hr.
  - cbv beta. change (cN c) with X. change (cP c) with P. destruct (Nat.eqb_spec ((ldim X P r - shiftStart c r + 1) / 2) 0); [contradiction|].
    rewrite andb_false_r. reflexivity.
Qed.
(** deNyquist on a process with an empty share at the end *)
Theorem rdeny_bad : forall b mem0 bsz0 r, Nat.even Y = true -> r < P ->
  count (Y / 2 + 1) P r = 0 -> first (Y / 2 + 1) P r = Y / 2 + 1 ->
  bad R P (initialR c mem0 bsz0 (fun r => deNyquist c Y r b (Halt R))).
Proof.
  intros b mem0 bsz0 r Ev Hr E0 E1. exists r. split; auto. unfold erroneous, initialR, deNyquist. rewrite !(even_mod c eq_refl eq_refl Y eq_refl HY), Ev.
  cbn [cN cM cP c]. change (ldim (Y / 2 + 1) P r) with (count (Y / 2 + 1) P r). change (lbeg (Y / 2 + 1) P r) with (first (Y / 2 + 1) P r).
  rewrite E0, E1, Nat.add_0_r, Nat.eqb_refl. cbn [andb Nat.eqb Nat.mul wrw]. unfold seqc, skip.
  destruct (Nat.even X); intros st' L; inversion L.
Qed.
End Two.
