(** Histories of calls on a rcfft2dMPI object. *)
From Coq Require Import Reals ZArith List Arith Bool Lia Lra FunctionalExtensionality.
From Verif Require Import CNum Sums Roots PadModel HerModel MpiMachine MpiRun MpiTrModel MpiTrGeom MpiTrPhase MpiTrXch MpiTrSpec MpiTrTop MpiTrProofs MpiColl MpiFftModel MpiFftSpec MpiFft1 MpiRFftModel MpiRFftSpec MpiRFft1 MpiRFft2 MpiRFft3.
Import ListNotations.
Local Open Scope nat_scope.

Section Hist.
Variable c : cfg.
Context {Hc : good c}.
Hypothesis Hz : csz c = 2. Hypothesis HL : cL c = 1.
Variable Yr : nat.
Hypothesis HY : cM c = Yr / 2 + 1.
Hypothesis HYr : 0 < Yr.
Variable inplace : bool.
Variable junk : nat -> nat -> nat -> nat -> R. (* left in the input by the last call but n, on process r *)
Variables (bs0 : list nat) (bw : nat).
Hypothesis Hbw : ~ In bw bs0.
Variables (bsz0 : nat -> nat -> nat) (mem0 : nat -> nat -> nat -> R).
Notation X := (cN c). Notation e := (cM c). Notation P := (cP c). Notation Z_ := (S_ c).
Notation bs := (bw :: bs0).
Notation ih := (iheld c Yr inplace).
Notation CollR := (Coll R c).

Definition KI (kn : nat -> ik) : (nat -> loc R) -> Prop :=
  CInv R c bs bsz0 mem0 (fun b => toK (kn b))
    (fun r m => forall b G, In b bs -> kn b = IR G -> rrows X Yr P (rdist c Yr inplace) G r (m b)) bs.
Definition seti (b : nat) (k : ik) (kn : nat -> ik) : nat -> ik := fun b' => if b' =? b then k else kn b'.

Lemma ih_cases : forall (kn : nat -> ik) b r m, ih (kn b) r m <->
  agrees R X e Z_ P (toK (kn b)) r m /\ (forall G, kn b = IR G -> rrows X Yr P (rdist c Yr inplace) G r m).
Proof.
  intros kn b r m. destruct (kn b) eqn:E; cbn [iheld toK agrees]; split; intros A; try (split; [|intros G' E']);
    try (inversion E'; subst); try tauto; try discriminate; auto.
  all: try (destruct A; auto). 
Qed.
Lemma ik_local : forall cm (kn kn' : nat -> ik),
  (forall r k, size c <= r -> r < P -> cm r k = k) ->
  (forall r s, r < size c -> quiet R s -> (forall b, In b bs -> cap c r <= bsz R s b) ->
     (forall b, In b bs -> ih (kn b) r (mem R s b)) ->
     exists m', runs R (cm r) s (setmem R s m') /\ (forall b, In b bs -> ih (kn' b) r (m' b)) /\
       forall b o, ~ In b bs -> m' b o = mem R s b o) ->
  CollR cm (KI kn) (KI kn').
Proof.
  intros cm kn kn' Hi Hl. apply coll_local; auto. intros r s Hr Q Zs Hcap Ha HE.
  destruct (Hl r s Hr Q Hcap) as (m' & Ru & W & F).
  - intros b Hb. apply ih_cases. split; [apply Ha; auto|]. intros G E. apply HE; auto.
  - exists m'. split; [exact Ru|]. split; [|split; [|exact F]].
    + intros b Hb. apply (proj1 (ih_cases kn' b r (m' b))). apply W; auto.
    + intros b G Hb E. apply (proj1 (ih_cases kn' b r (m' b))); auto.
Qed.
(** a phase that changes one array, and possibly destroys another *)
Lemma ik_phase : forall cm (kn : nat -> ik) bi bo v v', In bi bs0 -> In bo bs0 -> kn bi = v ->
  (forall r k, size c <= r -> r < P -> cm r k = k) ->
  (forall r s, r < size c -> quiet R s -> cap c r <= bsz R s bi -> cap c r <= bsz R s bo -> ih v r (mem R s bi) ->
     exists m', runs R (cm r) s (setmem R s m') /\ ih v' r (m' bo) /\
       forall b o, b <> bo -> m' b o = mem R s b o) ->
  CollR cm (KI kn) (KI (seti bo v' kn)).
Proof.
  intros cm kn bi bo v v' Ii Io Ek Hi Hl. apply ik_local; auto. intros r s Hr Q Hcap Ha.
  destruct (Hl r s Hr Q) as (m' & Ru & W & F); [apply Hcap; right; auto|apply Hcap; right; auto|rewrite <- Ek; apply Ha; right; auto|].
  exists m'. split; [exact Ru|]. split.
  - intros b Hb. unfold seti. destruct (Nat.eqb_spec b bo); [subst; exact W|].
    replace (m' b) with (mem R s b); [apply Ha; auto|]. apply functional_extensionality. intros o. rewrite F; auto.
  - intros b o Nb. apply F. intros ->. apply Nb. right; auto.
Qed.
Lemma ik_phase2 : forall cm (kn : nat -> ik) bi bo v v', In bi bs0 -> In bo bs0 -> kn bi = v ->
  (forall r k, size c <= r -> r < P -> cm r k = k) ->
  (forall r s, r < size c -> quiet R s -> cap c r <= bsz R s bi -> cap c r <= bsz R s bo -> ih v r (mem R s bi) ->
     exists m', runs R (cm r) s (setmem R s m') /\ ih v' r (m' bo) /\
       forall b o, b <> bo -> b <> bi -> m' b o = mem R s b o) ->
  CollR cm (KI kn) (KI (seti bo v' (seti bi IN kn))).
Proof.
  intros cm kn bi bo v v' Ii Io Ek Hi Hl. apply ik_local; auto. intros r s Hr Q Hcap Ha.
  destruct (Hl r s Hr Q) as (m' & Ru & W & F); [apply Hcap; right; auto|apply Hcap; right; auto|rewrite <- Ek; apply Ha; right; auto|].
  exists m'. split; [exact Ru|]. split.
  - intros b Hb. unfold seti. destruct (Nat.eqb_spec b bo); [subst; exact W|].
    destruct (Nat.eqb_spec b bi); [exact Logic.I|].
    replace (m' b) with (mem R s b); [apply Ha; auto|]. apply functional_extensionality. intros o. rewrite F; auto.
  - intros b o Nb. apply F; intros ->; apply Nb; right; auto.
Qed.
Lemma ik_call : forall (d : bool) b (H : nat -> nat -> C) kn, In b bs0 -> kn b = (if d then IRow H else ICol H) ->
  CollR (fun r => localizeR c bw r d b) (KI kn) (KI (seti b (if d then ICol H else IRow H) (seti bw IN kn))).
Proof.
  intros d b H kn Ib Ek. assert (N : b <> bw) by (intros ->; auto).
  unfold KI at 2. replace (fun b0 => toK (seti b (if d then ICol H else IRow H) (seti bw IN kn) b0))
    with (effect R bw (mkCall d b b) (fun b0 => toK (kn b0))).
  2:{ apply functional_extensionality. intros b'. unfold effect, seti. cbn [cin cout cdir]. rewrite Ek.
      destruct (Nat.eqb_spec b' b); [destruct d; reflexivity|]. destruct (Nat.eqb_spec b' bw); reflexivity. }
  apply coll_call; auto.
  - left; auto.
  - unfold legal_call. cbn [cin cout cdir]. repeat split; auto; try (right; auto).
    exists (dm H). rewrite Ek. destruct d; reflexivity.
  - right; auto.
  - left; auto.
  - intros r m m' Hr Fr HE b' G Hb E. unfold seti in E. destruct (Nat.eqb_spec b' b); [destruct d; discriminate|].
    destruct (Nat.eqb_spec b' bw); [discriminate|]. specialize (HE b' G Hb E).
    intros i j Hi Hj. rewrite Fr by auto. apply HE; auto.
Qed.

Lemma xl : forall r, size c <= r -> ldim X P r = 0. Proof. intros r H. rewrite <- (ni_ldim c). apply ni_idle; auto. Qed.
Lemma yl : forall r, size c <= r -> ldim e P r = 0. Proof. intros r H. rewrite <- (mi_ldim c). apply mi_idle; auto. Qed.
Lemma Xpos : 0 < X. Proof. exact (gN). Qed.

Definition fwdP (bi bo : nat) : nat -> cmdR := fun r =>
  seqc R (seqc R (yForward c Yr inplace r bi bo) (localizeR c bw r true bo)) (xfftR c r (-1) bo).
Definition bwdP (n bi bo : nat) : nat -> cmdR := fun r =>
  seqc R (seqc R (xfftR c r 1 bi) (localizeR c bw r false bi)) (yBackward c Yr inplace (junk n r) r bi bo).
Lemma fwd_coll : forall bi bo G kn, In bi bs0 -> In bo bs0 -> inplace = (bi =? bo) -> kn bi = IR G -> kn bw = IN ->
  CollR (fwdP bi bo) (KI kn) (KI (seti bo (ICol (rfourier2 X Yr G)) kn)).
Proof.
  intros bi bo G kn Ii Io Ep Ek Ew. unfold fwdP. set (R1 := fun i => r2c Yr (G i)).
  eapply coll_seq with (B := KI (seti bo (ICol R1) (seti bw IN (seti bo (IRow R1) kn)))).
  - eapply coll_seq with (B := KI (seti bo (IRow R1) kn)).
    + apply (ik_phase _ kn bi bo (IR G)); auto.
      * intros r k Hr Hp. unfold yForward. rewrite xl by auto. reflexivity.
      * intros r s Hr Q B1 B2 HG. apply yForward_phase; auto.
    + apply (ik_call true bo R1); auto. unfold seti. rewrite Nat.eqb_refl. reflexivity.
  - replace (seti bo (ICol (rfourier2 X Yr G)) kn) with
      (seti bo (ICol (fun kx ky => dft X (-1) (fun i => R1 i ky) kx)) (seti bo (ICol R1) (seti bw IN (seti bo (IRow R1) kn)))).
    2:{ apply functional_extensionality. intros b. unfold seti. destruct (Nat.eqb_spec b bo).
        - f_equal. apply functional_extensionality. intros kx. apply functional_extensionality. intros ky. apply forward_eq; auto. exact Xpos.
        - destruct (Nat.eqb_spec b bw); [subst; auto|reflexivity]. }
    apply (ik_phase _ _ bo bo (ICol R1)); auto.
    + unfold seti. rewrite Nat.eqb_refl. reflexivity.
    + intros r k Hr Hp. unfold xfftR. rewrite yl by auto. reflexivity.
    + intros r s Hr Q B1 B2 HG. apply xfft_phase; auto.
Qed.
Lemma bwd_coll : forall n bi bo H kn, In bi bs0 -> In bo bs0 -> inplace = (bi =? bo) -> kn bi = ICol H -> kn bw = IN -> symmetric2 X Yr H ->
  CollR (bwdP n bi bo) (KI kn) (KI (seti bo (IR (rinverse2 X Yr H)) (seti bi IN kn))).
Proof.
  intros n bi bo H kn Ii Io Ep Ek Ew Sy. unfold bwdP. set (W := fun i ky => dft X 1 (fun kx => H kx ky) i).
  eapply coll_seq with (B := KI (seti bi (IRow W) (seti bw IN (seti bi (ICol W) kn)))).
  - eapply coll_seq with (B := KI (seti bi (ICol W) kn)).
    + apply (ik_phase _ kn bi bi (ICol H)); auto.
      * intros r k Hr Hp. unfold xfftR. rewrite yl by auto. reflexivity.
      * intros r s Hr Q B1 B2 HG. apply xfft_phase; auto.
    + apply (ik_call false bi W); auto. unfold seti. rewrite Nat.eqb_refl. reflexivity.
  - replace (seti bo (IR (rinverse2 X Yr H)) (seti bi IN kn)) with
      (seti bo (IR (fun i => c2r Yr (W i))) (seti bi IN (seti bi (IRow W) (seti bw IN (seti bi (ICol W) kn))))).
    2:{ apply functional_extensionality. intros b. unfold seti. destruct (Nat.eqb_spec b bo).
        - f_equal. apply functional_extensionality. intros i. apply functional_extensionality. intros j. apply backward_eq; auto. exact Xpos.
        - destruct (Nat.eqb_spec b bi); [reflexivity|]. destruct (Nat.eqb_spec b bw); [subst; auto|reflexivity]. }
    apply (ik_phase2 _ _ bi bo (IRow W)); auto.
    + unfold seti. rewrite Nat.eqb_refl. reflexivity.
    + intros r k Hr Hp. unfold yBackward. rewrite xl by auto. reflexivity.
    + intros r s Hr Q B1 B2 HG. apply yBackward_phase; auto. intros i ky Hi Hk. unfold W. apply symmetric_real with (Y := Yr); auto; exact Xpos.
Qed.
Lemma shift_coll : forall b G kn, In b bs0 -> Nat.even X = true -> kn b = IR G ->
  CollR (fun r => ShiftR c Yr inplace r b) (KI kn) (KI (seti b (IR (fun i j => altsign i (G i j))) kn)).
Proof.
  intros b G kn Ib Ev Ek. apply (ik_phase _ kn b b (IR G)); auto.
  - intros r k Hr Hp. unfold ShiftR. rewrite xl by auto. replace (X mod 2 =? 0) with true; [reflexivity|].
    symmetry. apply Nat.eqb_eq. apply Nat.even_spec in Ev. destruct Ev as [q ->]. rewrite Nat.mul_comm. apply Nat.mod_mul. lia.
  - intros r s Hr Q B1 B2 HG. apply shift_phase; auto.
Qed.
Lemma norm_coll : forall b G kn, In b bs0 -> kn b = IR G ->
  CollR (fun r => normalizeR c Yr inplace r b) (KI kn) (KI (seti b (IR (fun i j => (G i j / INR (X * Yr))%R)) kn)).
Proof.
  intros b G kn Ib Ek. apply (ik_phase _ kn b b (IR G)); auto.
  - intros r k Hr Hp. unfold normalizeR. rewrite xl by auto. reflexivity.
  - intros r s Hr Q B1 B2 HG.
    replace (fun i j => (G i j / INR (X * Yr))%R) with (fun i j => (/ INR (X * Yr) * G i j)%R).
    + apply normalize_phase; auto.
    + apply functional_extensionality. intros i. apply functional_extensionality. intros j. unfold Rdiv. ring.
Qed.

(** *** the Nyquist modes *)
Lemma even_mod : forall n, (n mod 2 =? 0) = Nat.even n.
Proof.
  intros n. destruct (Nat.even n) eqn:E.
  - apply Nat.even_spec in E. destruct E as [q ->]. rewrite Nat.mul_comm, Nat.mod_mul by lia. reflexivity.
  - assert (O : Nat.odd n = true) by (unfold Nat.odd; rewrite E; auto). apply Nat.odd_spec in O. destruct O as [q ->].
    rewrite Nat.mul_comm, Nat.add_comm, Nat.mod_add by lia. reflexivity.
Qed.
Lemma deny_phase : forall r (s : loc R) b H, (Nat.even Yr = true -> count e P r = 0 -> first e P r <> e) ->
  quiet R s -> cap c r <= bsz R s b -> ih (ICol H) r (mem R s b) ->
  exists m', runs R (deNyquist c Yr r b) s (setmem R s m') /\
    ih (ICol (denyquist X Yr H)) r (m' b) /\ (forall b' o, b' <> b -> m' b' o = mem R s b' o).
Proof.
  intros r s b H Ne Q B HH. pose proof (capy c Hz HL r) as K. pose proof Xpos as HX.
  assert (HH' : forall i j t, i < X -> j < count e P r -> t < 2 -> mem R s b ((i * count e P r + j) * 2 + t) = dm H i (first e P r + j) t).
  { apply (cols_words c Hz HL Yr inplace H r). exact HH. }
  unfold deNyquist. rewrite !even_mod. change (ldim e P r) with (count e P r) in *. change (lbeg e P r) with (first e P r) in *.
  set (y := count e P r) in *. set (y0 := first e P r) in *.
  assert (S1 : exists m1, runs R (if Nat.even X then wrw R b (fun t => t) (2 * y) (fun _ => 0%R) else skip R) s (setmem R s m1) /\
    (forall i j t, i < X -> j < y -> t < 2 -> m1 b ((i * y + j) * 2 + t) = if Nat.even X && (i =? 0) then 0%R else dm H i (y0 + j) t) /\
    (forall b' o, b' <> b -> m1 b' o = mem R s b' o)).
  { destruct (Nat.even X).
    - destruct (wrw_run R b (fun t => t) (2 * y) (fun _ => 0%R) s Q) as (m1 & Ru & W & F).
      + intros j Hj. pose proof (Nat.mul_le_mono_r 1 X y HX). lia.
      + auto.
      + exists m1. split; [exact Ru|]. split; [|intros; apply F; auto].
        intros i j t Hi Hj Ht. cbn [andb]. destruct (Nat.eqb_spec i 0) as [->|Ni].
        * rewrite Nat.mul_0_l, Nat.add_0_l. apply W. lia.
        * rewrite F; [apply HH'; auto|]. right. intros o Ho. pose proof (Nat.mul_le_mono_r 1 i y ltac:(lia)). lia.
    - exists (mem R s). split; [rewrite setmem_sameV; apply runs_skip|]. split; [intros; cbn [andb]; apply HH'; auto|auto]. }
  destruct S1 as (m1 & R1 & W1 & F1).
  assert (Le : y0 <= e -> y0 + y <= e) by (unfold y, count; fold y0; lia).
  assert (He : forall ky, Nat.even Yr = true -> ky <= e - 1 -> (2 * ky =? Yr) = (ky =? e - 1)).
  { intros ky Ev Hk. apply Nat.even_spec in Ev. destruct Ev as [q Eq].
    assert (e = q + 1). { rewrite HY, Eq, Nat.mul_comm, Nat.div_mul by lia. reflexivity. }
    destruct (Nat.eqb_spec (2 * ky) Yr) as [A1|A1], (Nat.eqb_spec ky (e - 1)) as [A2|A2]; auto; exfalso; lia. }
  assert (Cy : forall j, j < y -> y0 + j <= e - 1) by (intros j Hj; unfold y, count in Hj; fold y0 in Hj; lia).
  destruct (Nat.even Yr && (y0 + y =? e)) eqn:Lt.
  - apply andb_true_iff in Lt. destruct Lt as [Ev El]. apply Nat.eqb_eq in El.
    destruct (Nat.eqb_spec y 0) as [Y0|Y0]. { exfalso. apply (Ne Ev Y0). lia. }
    destruct (wrw_run R b (fun t => ((t / 2 + 1) * y - 1) * 2 + t mod 2) (2 * X) (fun _ => 0%R) (setmem R s m1) Q) as (m2 & R2 & W2 & F2).
    + intros t Ht. cbn [bsz setmem]. assert (t / 2 < X) by (apply Nat.div_lt_upper_bound; lia).
      pose proof (Nat.mul_le_mono_r (t / 2 + 1) X y ltac:(lia)). pose proof (Nat.mul_le_mono_r 1 (t / 2 + 1) y ltac:(lia)).
      pose proof (Nat.mod_upper_bound t 2 ltac:(lia)). lia.
    + intros t t' Ht Ht' E. apply (split2 2) in E; try (apply Nat.mod_upper_bound; lia). destruct E as [E E2].
      pose proof (Nat.mul_le_mono_r 1 (t / 2 + 1) y ltac:(lia)). pose proof (Nat.mul_le_mono_r 1 (t' / 2 + 1) y ltac:(lia)).
      assert (E3 : t / 2 * y + (y - 1) = t' / 2 * y + (y - 1)) by lia. apply (split2 y) in E3; try lia.
      rewrite (Nat.div_mod t 2), (Nat.div_mod t' 2) by lia. lia.
    + exists m2. split; [|split].
      * intros k. unfold seqc. eapply lstar_trans; [apply R1|apply R2].
      * apply (cols_words c Hz HL Yr inplace). fold y y0. intros i j t Hi Hj Ht. unfold dm, denyquist.
        rewrite Ev, He by auto. cbn [andb].
        destruct (Nat.eqb_spec (y0 + j) (e - 1)) as [Ej|Nj].
        -- rewrite orb_true_r. assert (j = y - 1) by lia. subst j. specialize (W2 (2 * i + t) ltac:(lia)). cbv beta in W2.
           replace ((2 * i + t) / 2) with i in W2 by (rewrite Nat.mul_comm, Nat.div_add_l, Nat.div_small; lia).
           replace ((2 * i + t) mod 2) with t in W2 by (rewrite Nat.mul_comm, Nat.add_comm, Nat.mod_add, Nat.mod_small; lia).
           replace ((i + 1) * y - 1) with (i * y + (y - 1)) in W2 by lia. rewrite W2. destruct (t =? 0); reflexivity.
        -- rewrite orb_false_r, F2.
           ++ cbn [mem setmem]. rewrite W1 by auto. unfold dm. destruct (Nat.even X && (i =? 0)); auto. destruct (t =? 0); reflexivity.
           ++ right. intros t' Ht' E. apply (split2 2) in E; [|auto|apply Nat.mod_upper_bound; lia]. destruct E as [E _].
              pose proof (Nat.mul_le_mono_r 1 (t' / 2 + 1) y ltac:(lia)).
              assert (E3 : i * y + j = t' / 2 * y + (y - 1)) by lia. apply (split2 y) in E3; lia.
      * intros b' o N. rewrite F2 by auto. cbn [mem setmem]. auto.
  - exists m1. split; [|split; [|exact F1]].
    + intros k. unfold seqc, skip. apply R1.
    + apply (cols_words c Hz HL Yr inplace). fold y y0. intros i j t Hi Hj Ht. rewrite W1 by auto. unfold dm, denyquist.
      replace (Nat.even Yr && (2 * (y0 + j) =? Yr)) with false.
      * rewrite orb_false_r. destruct (Nat.even X && (i =? 0)); auto. destruct (t =? 0); reflexivity.
      * symmetry. destruct (Nat.even Yr) eqn:Ev; auto. cbn [andb] in *. rewrite He by auto. apply Nat.eqb_neq. apply Nat.eqb_neq in Lt.
        pose proof (Cy j Hj). lia.
Qed.
Lemma deny_coll : forall b H kn, In b bs0 -> kn b = ICol H -> (Nat.even Yr = true -> no_empty_end Yr P) ->
  CollR (fun r => deNyquist c Yr r b) (KI kn) (KI (seti b (ICol (denyquist X Yr H)) kn)).
Proof.
  intros b H kn Ib Ek Ne. unfold no_empty_end in Ne. rewrite <- HY in Ne. apply (ik_phase _ kn b b (ICol H)); auto.
  - intros r k Hr Hp. unfold deNyquist. rewrite !even_mod, yl by auto. rewrite Nat.mul_0_r. cbn [wrw].
    destruct (Nat.even Yr && (lbeg e P r + 0 =? e)) eqn:Lt.
    + exfalso. apply andb_true_iff in Lt. destruct Lt as [Ev El]. apply Nat.eqb_eq in El. rewrite Nat.add_0_r in El.
      apply (Ne Ev r Hp); [|exact El]. apply yl; auto.
    + destruct (Nat.even X); reflexivity.
  - intros r s Hr Q B1 B2 HG. apply deny_phase; auto. intros Ev. apply Ne; auto. pose proof (size_le c). lia.
Qed.

(** *** calls *)
Definition rcallC (n : nat) (x : rcall) (r : nat) : cmdR :=
  match x with
  | RTrans true false i o => fwdP i o r
  | RTrans true true i o => seqc R (ShiftR c Yr inplace r i) (fwdP i o r)
  | RTrans false false i o => bwdP n i o r
  | RTrans false true i o => seqc R (bwdP n i o r) (ShiftR c Yr inplace r o)
  | RNorm b => normalizeR c Yr inplace r b
  | RDeny b => deNyquist c Yr r b
  end.
Fixpoint rhistC (l : list rcall) (r : nat) : cmdR :=
  match l with [] => skip R | x :: l => seqc R (rcallC (length l) x r) (rhistC l r) end.
Definition ikof (k : rknow) : ik := match k with KNone => IN | KReal G => IR G | KCplx H => ICol H end.
Definition ext (kn : nat -> rknow) : nat -> ik := fun b => if b =? bw then IN else ikof (kn b).

Lemma ki_weaken : forall kn kn' s, (forall b, In b bs -> kn' b = kn b \/ kn' b = IN) -> KI kn s -> KI kn' s.
Proof.
  intros kn kn' s H [[O A] E B D]. constructor; auto.
  - split; auto. intros r b Hr Hb. destruct (H b Hb) as [-> | ->]; [apply A; auto|exact Logic.I].
  - intros r Hr b G Hb Eb. destruct (H b Hb) as [E1|E1]; [rewrite E1 in Eb; apply (E r Hr); auto|congruence].
Qed.
Lemma ext_in : forall kn b, In b bs0 -> ext kn b = ikof (kn b).
Proof. intros kn b Hb. unfold ext. destruct (Nat.eqb_spec b bw); [subst; contradiction|reflexivity]. Qed.
Lemma ext_bw : forall kn, ext kn bw = IN. Proof. intros. unfold ext. rewrite Nat.eqb_refl. reflexivity. Qed.

Ltac kiw :=
  let s := fresh "s" in let b := fresh "b" in
  intros s; apply ki_weaken; intros b [<-|Hb]; [right; apply ext_bw|left];
  unfold seti; rewrite !ext_in by auto; unfold reffect.
Ltac fx := f_equal; apply functional_extensionality; intros; apply functional_extensionality; intros.
Lemma call_coll : forall n x l kn, rlegal X Yr P inplace bs0 (x :: l) kn ->
  CollR (rcallC n x) (KI (ext kn)) (KI (ext (reffect X Yr x kn))).
Proof.
  intros n x l kn [Lx _]. destruct x as [fwd r0 i o|b|b].
  - destruct Lx as (Ii & Io & Ep & Ev & Lk).
    destruct (kn i) as [|G|H] eqn:Ek; [contradiction| |].
    + subst fwd. destruct r0; cbn [rcallC].
      * specialize (Ev eq_refl). eapply coll_mono; [|eapply coll_seq; [apply (shift_coll i G); auto; rewrite ext_in, Ek; auto|]].
        2:{ apply (fwd_coll i o (fun a b => altsign a (G a b))); auto.
            - unfold seti. rewrite Nat.eqb_refl. reflexivity.
            - unfold seti. destruct (Nat.eqb_spec bw i); [subst; contradiction|apply ext_bw]. }
        intros s; apply ki_weaken; intros b [<-|Hb]; [right; apply ext_bw|].
        unfold seti; rewrite !ext_in by auto; unfold reffect. rewrite Ek. cbn [negb orb]. rewrite andb_true_r.
        destruct (Nat.eqb_spec b o); cbn [ikof].
        { left. fx. apply rfourier2_0_eq; auto. exact Xpos. }
        destruct (Nat.eqb_spec b i); [right|left]; reflexivity.
      * eapply coll_mono; [|apply (fwd_coll i o G); auto; [rewrite ext_in, Ek; auto|apply ext_bw]].
        kiw. rewrite Ek. cbn [negb orb]. rewrite andb_false_r. destruct (Nat.eqb_spec b o); reflexivity.
    + destruct Lk as [-> Sy]. destruct r0; cbn [rcallC].
      * specialize (Ev eq_refl). eapply coll_mono; [|eapply coll_seq; [apply (bwd_coll n i o H); auto; [rewrite ext_in, Ek; auto|apply ext_bw]|]].
        2:{ apply (shift_coll o (rinverse2 X Yr H)); auto. unfold seti. rewrite Nat.eqb_refl. reflexivity. }
        kiw. rewrite Ek. cbn [negb orb]. rewrite andb_true_r.
        destruct (Nat.eqb_spec b o); cbn [ikof].
        { fx. apply rinverse2_0_eq; auto. exact Xpos. }
        destruct (Nat.eqb_spec b i); reflexivity.
      * eapply coll_mono; [|apply (bwd_coll n i o H); auto; [rewrite ext_in, Ek; auto|apply ext_bw]].
        kiw. rewrite Ek. cbn [negb orb]. rewrite andb_true_r. destruct (Nat.eqb_spec b o); [reflexivity|]. destruct (Nat.eqb_spec b i); reflexivity.
  - destruct Lx as (Ib & G & Ek). cbn [rcallC]. eapply coll_mono; [|apply (norm_coll b G); auto; rewrite ext_in, Ek; auto].
    intros s; apply ki_weaken; intros b' [<-|Hb]; [right; apply ext_bw|left]. unfold seti; rewrite !ext_in by auto; unfold reffect. rewrite Ek.
    destruct (Nat.eqb_spec b' b); reflexivity.
  - destruct Lx as (Ib & (H & Ek) & Ne). cbn [rcallC]. eapply coll_mono; [|apply (deny_coll b H); auto; rewrite ext_in, Ek; auto].
    intros s; apply ki_weaken; intros b' [<-|Hb]; [right; apply ext_bw|left]. unfold seti; rewrite !ext_in by auto; unfold reffect. rewrite Ek.
    destruct (Nat.eqb_spec b' b); reflexivity.
Qed.
Lemma hist_coll : forall l kn, rlegal X Yr P inplace bs0 l kn -> CollR (rhistC l) (KI (ext kn)) (KI (ext (reffects X Yr l kn))).
Proof.
  induction l as [|x l IH]; intros kn Lg.
  - apply coll_skip.
  - cbn [rhistC]. eapply coll_seq; [apply (call_coll (length l) x l kn Lg)|]. unfold reffects. cbn [fold_left]. apply IH. apply Lg.
Qed.
Lemma row_idle : forall d G r m, size c <= r -> rrows X Yr P d G r m.
Proof. intros d G r m Hr i j Hi. rewrite (x_none c) in Hi by auto. lia. Qed.
Lemma rows_dist : rdist c Yr inplace = rowdist Yr inplace.
Proof. unfold rdist, rowdist. rewrite HY. reflexivity. Qed.
Lemma cols_eq : forall H r m, agrees R X e Z_ P (Some (false, dm H)) r m <-> ccols X Yr P H r m.
Proof.
  intros H r m. pose proof (cols_words c Hz HL Yr inplace H r m) as E. cbn [iheld toK] in E. rewrite E. unfold ccols. rewrite <- HY.
  split.
  - intros A i j Hi Hj. pose proof (A i j 0 Hi Hj ltac:(lia)) as A0. pose proof (A i j 1 Hi Hj ltac:(lia)) as A1.
    rewrite Nat.add_0_r in A0. rewrite (Nat.mul_comm 2). split; [exact A0|exact A1].
  - intros A i j t Hi Hj Ht. destruct (A i j Hi Hj) as [A0 A1]. rewrite (Nat.mul_comm 2) in A0, A1. unfold dm.
    destruct t as [|[|t]]; [rewrite Nat.add_0_r; exact A0|exact A1|lia].
Qed.
Theorem rhist_run : forall l kn,
  (forall r b, r < P -> In b bs -> doubles X Yr P r <= bsz0 r b) ->
  (forall r b, r < P -> In b bs0 -> rheld X Yr P inplace (kn b) r (mem0 r b)) ->
  rlegal X Yr P inplace bs0 l kn ->
  always_ends R P (fun r => (rhistC l r (Halt R), start_loc R c r (mem0 r) (bsz0 r)))
    (fun gf => forall r, r < P ->
       (forall b, In b bs0 -> rheld X Yr P inplace (reffects X Yr l kn b) r (mem R (snd (gf r)) b)) /\
       (forall b o, ~ In b bs -> mem R (snd (gf r)) b o = mem0 r b o)).
Proof.
  intros l kn Hcap Hk Lg.
  assert (Hcap' : forall r b, r < P -> In b bs -> storage X e Z_ P r <= bsz0 r b).
  { intros r b Hr Hb. specialize (Hcap r b Hr Hb). unfold storage, doubles in *. rewrite <- HY in Hcap. rewrite (Z2 c Hz HL). lia. }
  eapply (ends_mono R c); [|eapply (coll_always R c bs bsz0 mem0 Hcap') with (cm := rhistC l) (fr := bs); [| |apply (hist_coll l kn Lg)]].
  - intros gf Hg r Hr. destruct (Hg r Hr) as (A & E & F). split; [|exact F]. intros b Hb.
    assert (Hb' : In b bs) by (right; auto). specialize (A b Hb'). cbv beta in A, E. rewrite ext_in in A by auto.
    destruct (reffects X Yr l kn b) as [|G|H] eqn:Ek; cbn [rheld].
    + exact Logic.I.
    + rewrite <- rows_dist. destruct (Nat.lt_ge_cases r (size c)) as [Hs|Hs]; [|apply row_idle; auto].
      apply (E Hs b G Hb'). rewrite ext_in, Ek; auto.
    + apply cols_eq. exact A.
  - intros r b Hr [<-|Hb]; [rewrite ext_bw; exact Logic.I|]. rewrite ext_in by auto. specialize (Hk r b Hr Hb).
    destruct (kn b) as [|G|H]; cbn [ikof toK rheld] in *; try exact Logic.I. apply cols_eq. exact Hk.
  - intros r Hr b G [<-|Hb] Eb; [rewrite ext_bw in Eb; discriminate|]. rewrite ext_in in Eb by auto.
    pose proof (size_le c). specialize (Hk r b ltac:(lia) Hb). destruct (kn b) as [|G'|H']; try discriminate. cbn [ikof] in Eb. inversion Eb; subst.
    cbn [rheld] in Hk. rewrite rows_dist. exact Hk.
Qed.
End Hist.
