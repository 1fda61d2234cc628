(** Histories of calls on a rcfft3dMPI object. *)
From Coq Require Import Reals ZArith List Arith Bool Lia Lra FunctionalExtensionality.
From Verif Require Import CNum Sums Roots PadModel HerModel MpiMachine MpiRun MpiTrModel MpiTrGeom MpiTrPhase MpiTrXch MpiTrSpec MpiTrTop MpiTrProofs MpiColl MpiFftModel MpiFftSpec MpiFft1 MpiRFftModel MpiRFftSpec MpiRFft1 MpiRFft2 MpiRFft3 MpiR3Model MpiR3Spec MpiR3a MpiR3b.
Import ListNotations.
Local Open Scope nat_scope.

Section Hist.
Variable c : cfg.
Context {Hc : good c}.
Hypothesis Hz : csz c = 2.
Variable Zr : nat.
Hypothesis HZ : cL c = Zr / 2 + 1.
Hypothesis HZr : 0 < Zr.
Variable inplace : bool.
Variable junk : nat -> nat -> nat -> nat -> R. (* left in the input by the last call but n, on process r *)
Variables (bs0 : list nat) (bw : nat).
Hypothesis Hbw : ~ In bw bs0.
Variables (bsz0 : nat -> nat -> nat) (mem0 : nat -> nat -> nat -> R).
Notation X := (cN c). Notation Y := (cM c). Notation P := (cP c). Notation Z_ := (S_ c).
Notation bs := (bw :: bs0).
Notation ih := (iheld3 c Zr inplace).
Notation CollR := (Coll R c).

Definition KI (kn : nat -> ik3) : (nat -> loc R) -> Prop :=
  CInv R c bs bsz0 mem0 (fun b => toK3 (kn b))
    (fun r m => forall b G, In b bs -> kn b = IR3 G -> rslab X Y Zr P (rdist3 c Zr inplace) G r (m b)) bs.
Definition seti (b : nat) (k : ik3) (kn : nat -> ik3) : nat -> ik3 := fun b' => if b' =? b then k else kn b'.

Lemma ih_cases : forall (kn : nat -> ik3) b r m, ih (kn b) r m <->
  agrees R X Y Z_ P (toK3 (kn b)) r m /\ (forall G, kn b = IR3 G -> rslab X Y Zr P (rdist3 c Zr inplace) G r m).
Proof.
  intros kn b r m. destruct (kn b) eqn:E; cbn [iheld3 toK3 agrees]; split; intros A; try (split; [|intros G' E']);
    try (inversion E'; subst); try tauto; try discriminate; auto.
  all: try (destruct A; auto). 
Qed.
Lemma ik_local : forall cm (kn kn' : nat -> ik3),
  (forall r k, size c <= r -> r < P -> cm r k = k) ->
  (forall r s, r < size c -> quiet R s -> (forall b, In b bs -> cap c r <= bsz R s b) ->
     (forall b, In b bs -> ih (kn b) r (mem R s b)) ->
     exists m', runs R (cm r) s (setmem R s m') /\ (forall b, In b bs -> ih (kn' b) r (m' b)) /\
       forall b o, ~ In b bs -> m' b o = mem R s b o) ->
  CollR cm (KI kn) (KI kn').
Proof.
  intros cm kn kn' Hi Hl. apply coll_local; auto. intros r s Hr Q Zs Hcap Ha HE.
  destruct (Hl r s Hr Q Hcap) as (m' & Ru & W & F).
  - intros b Hb. apply ih_cases. split; [apply Ha; auto|]. intros G E. apply HE; auto.
  - exists m'. split; [exact Ru|]. split; [|split; [|exact F]].
    + intros b Hb. apply (proj1 (ih_cases kn' b r (m' b))). apply W; auto.
    + intros b G Hb E. apply (proj1 (ih_cases kn' b r (m' b))); auto.
Qed.
(** a phase that changes one array, and possibly destroys another *)
Lemma ik_phase : forall cm (kn : nat -> ik3) bi bo v v', In bi bs0 -> In bo bs0 -> kn bi = v ->
  (forall r k, size c <= r -> r < P -> cm r k = k) ->
  (forall r s, r < size c -> quiet R s -> cap c r <= bsz R s bi -> cap c r <= bsz R s bo -> ih v r (mem R s bi) ->
     exists m', runs R (cm r) s (setmem R s m') /\ ih v' r (m' bo) /\
       forall b o, b <> bo -> m' b o = mem R s b o) ->
  CollR cm (KI kn) (KI (seti bo v' kn)).
Proof.
  intros cm kn bi bo v v' Ii Io Ek Hi Hl. apply ik_local; auto. intros r s Hr Q Hcap Ha.
  destruct (Hl r s Hr Q) as (m' & Ru & W & F); [apply Hcap; right; auto|apply Hcap; right; auto|rewrite <- Ek; apply Ha; right; auto|].
  exists m'. split; [exact Ru|]. split.
  - intros b Hb. unfold seti. destruct (Nat.eqb_spec b bo); [subst; exact W|].
    replace (m' b) with (mem R s b); [apply Ha; auto|]. apply functional_extensionality. intros o. rewrite F; auto.
  - intros b o Nb. apply F. intros ->. apply Nb. right; auto.
Qed.
Lemma ik_phase2 : forall cm (kn : nat -> ik3) bi bo v v', In bi bs0 -> In bo bs0 -> kn bi = v ->
  (forall r k, size c <= r -> r < P -> cm r k = k) ->
  (forall r s, r < size c -> quiet R s -> cap c r <= bsz R s bi -> cap c r <= bsz R s bo -> ih v r (mem R s bi) ->
     exists m', runs R (cm r) s (setmem R s m') /\ ih v' r (m' bo) /\
       forall b o, b <> bo -> b <> bi -> m' b o = mem R s b o) ->
  CollR cm (KI kn) (KI (seti bo v' (seti bi IN3 kn))).
Proof.
  intros cm kn bi bo v v' Ii Io Ek Hi Hl. apply ik_local; auto. intros r s Hr Q Hcap Ha.
  destruct (Hl r s Hr Q) as (m' & Ru & W & F); [apply Hcap; right; auto|apply Hcap; right; auto|rewrite <- Ek; apply Ha; right; auto|].
  exists m'. split; [exact Ru|]. split.
  - intros b Hb. unfold seti. destruct (Nat.eqb_spec b bo); [subst; exact W|].
    destruct (Nat.eqb_spec b bi); [exact Logic.I|].
    replace (m' b) with (mem R s b); [apply Ha; auto|]. apply functional_extensionality. intros o. rewrite F; auto.
  - intros b o Nb. apply F; intros ->; apply Nb; right; auto.
Qed.
Lemma ik_call : forall (d : bool) b (H : nat -> nat -> nat -> C) kn, In b bs0 -> kn b = (if d then IRow3 H else ICol3 H) ->
  CollR (fun r => localizeR c bw r d b) (KI kn) (KI (seti b (if d then ICol3 H else IRow3 H) (seti bw IN3 kn))).
Proof.
  intros d b H kn Ib Ek. assert (N : b <> bw) by (intros ->; auto).
  unfold KI at 2. replace (fun b0 => toK3 (seti b (if d then ICol3 H else IRow3 H) (seti bw IN3 kn) b0))
    with (effect R bw (mkCall d b b) (fun b0 => toK3 (kn b0))).
  2:{ apply functional_extensionality. intros b'. unfold effect, seti. cbn [cin cout cdir]. rewrite Ek.
      destruct (Nat.eqb_spec b' b); [destruct d; reflexivity|]. destruct (Nat.eqb_spec b' bw); reflexivity. }
  apply coll_call; auto.
  - left; auto.
  - unfold legal_call. cbn [cin cout cdir]. repeat split; auto; try (right; auto).
    exists (dm3 H). rewrite Ek. destruct d; reflexivity.
  - right; auto.
  - left; auto.
  - intros r m m' Hr Fr HE b' G Hb E. unfold seti in E. destruct (Nat.eqb_spec b' b); [destruct d; discriminate|].
    destruct (Nat.eqb_spec b' bw); [discriminate|]. specialize (HE b' G Hb E).
    intros i j Hi Hj. rewrite Fr by auto. apply HE; auto.
Qed.

Lemma xl : forall r, size c <= r -> ldim X P r = 0. Proof. intros r H. rewrite <- (ni_ldim c). apply ni_idle; auto. Qed.
Lemma yl : forall r, size c <= r -> ldim Y P r = 0. Proof. intros r H. rewrite <- (mi_ldim c). apply mi_idle; auto. Qed.
Lemma Xp3 : 0 < X. Proof. exact gN. Qed.
Lemma Yp3 : 0 < Y. Proof. exact gM. Qed.

Definition fwdP (bi bo : nat) : nat -> cmdR := fun r =>
  seqc R (seqc R (zForward c Zr inplace r bi bo) (seqc R (yfft3 c r (-1) bo) (localizeR c bw r true bo))) (xfft3 c r (-1) bo).
Definition bwdP (n bi bo : nat) : nat -> cmdR := fun r =>
  seqc R (seqc R (xfft3 c r 1 bi) (localizeR c bw r false bi)) (seqc R (yfft3 c r 1 bi) (zBackward c Zr inplace (junk n r) r bi bo)).
Ltac fx3 := f_equal; apply functional_extensionality; intros ?; apply functional_extensionality; intros ?; apply functional_extensionality; intros ?.
Lemma fwd_coll : forall bi bo G kn, In bi bs0 -> In bo bs0 -> inplace = (bi =? bo) -> kn bi = IR3 G -> kn bw = IN3 ->
  CollR (fwdP bi bo) (KI kn) (KI (seti bo (ICol3 (rfourier3 X Y Zr G)) kn)).
Proof.
  intros bi bo G kn Ii Io Ep Ek Ew. unfold fwdP. set (R1 := fun i j => r2c Zr (G i j)).
  set (R2 := fun i ky k => dft Y (-1) (fun j => R1 i j k) ky).
  eapply coll_seq with (B := KI (seti bo (ICol3 R2) (seti bw IN3 (seti bo (IRow3 R2) (seti bo (IRow3 R1) kn))))).
  - eapply coll_seq with (B := KI (seti bo (IRow3 R1) kn)).
    + apply (ik_phase _ kn bi bo (IR3 G)); auto.
      * intros r k Hr Hp. unfold zForward. rewrite xl by auto. reflexivity.
      * intros r s Hr Q B1 B2 HG. apply zForward_phase; auto.
    + eapply coll_seq with (B := KI (seti bo (IRow3 R2) (seti bo (IRow3 R1) kn))).
      * apply (ik_phase _ _ bo bo (IRow3 R1)); auto.
        -- unfold seti. rewrite Nat.eqb_refl. reflexivity.
        -- intros r k Hr Hp. unfold yfft3. rewrite xl by auto. reflexivity.
        -- intros r s Hr Q B1 B2 HG. apply (yfft3_phase c Hz Zr HZ HZr inplace (-1) r s bo R1); auto.
      * apply (ik_call true bo R2); auto. unfold seti. rewrite Nat.eqb_refl. reflexivity.
  - replace (seti bo (ICol3 (rfourier3 X Y Zr G)) kn) with
      (seti bo (ICol3 (fun kx j k => dft X (-1) (fun i => R2 i j k) kx)) (seti bo (ICol3 R2) (seti bw IN3 (seti bo (IRow3 R2) (seti bo (IRow3 R1) kn))))).
    2:{ apply functional_extensionality. intros b. unfold seti. destruct (Nat.eqb_spec b bo).
        - fx3. apply forward_eq3; auto using Xp3, Yp3.
        - destruct (Nat.eqb_spec b bw); [subst; auto|reflexivity]. }
    apply (ik_phase _ _ bo bo (ICol3 R2)); auto.
    + unfold seti. rewrite Nat.eqb_refl. reflexivity.
    + intros r k Hr Hp. unfold xfft3. rewrite yl by auto. reflexivity.
    + intros r s Hr Q B1 B2 HG. apply (xfft3_phase c Hz Zr HZ HZr inplace (-1) r s bo R2); auto.
Qed.
Lemma bwd_coll : forall n bi bo H kn, In bi bs0 -> In bo bs0 -> inplace = (bi =? bo) -> kn bi = ICol3 H -> kn bw = IN3 -> symmetric3 X Y Zr H ->
  CollR (bwdP n bi bo) (KI kn) (KI (seti bo (IR3 (rinverse3 X Y Zr H)) (seti bi IN3 kn))).
Proof.
  intros n bi bo H kn Ii Io Ep Ek Ew Sy. unfold bwdP. set (W1 := fun i ky kz => dft X 1 (fun kx => H kx ky kz) i).
  set (W2 := fun i j kz => dft Y 1 (fun ky => W1 i ky kz) j).
  eapply coll_seq with (B := KI (seti bi (IRow3 W1) (seti bw IN3 (seti bi (ICol3 W1) kn)))).
  - eapply coll_seq with (B := KI (seti bi (ICol3 W1) kn)).
    + apply (ik_phase _ kn bi bi (ICol3 H)); auto.
      * intros r k Hr Hp. unfold xfft3. rewrite yl by auto. reflexivity.
      * intros r s Hr Q B1 B2 HG. apply (xfft3_phase c Hz Zr HZ HZr inplace 1 r s bi H); auto.
    + apply (ik_call false bi W1); auto. unfold seti. rewrite Nat.eqb_refl. reflexivity.
  - eapply coll_seq with (B := KI (seti bi (IRow3 W2) (seti bi (IRow3 W1) (seti bw IN3 (seti bi (ICol3 W1) kn))))).
    + apply (ik_phase _ _ bi bi (IRow3 W1)); auto.
      * unfold seti. rewrite Nat.eqb_refl. reflexivity.
      * intros r k Hr Hp. unfold yfft3. rewrite xl by auto. reflexivity.
      * intros r s Hr Q B1 B2 HG. apply (yfft3_phase c Hz Zr HZ HZr inplace 1 r s bi W1); auto.
    + replace (seti bo (IR3 (rinverse3 X Y Zr H)) (seti bi IN3 kn)) with
        (seti bo (IR3 (fun i j => c2r Zr (W2 i j))) (seti bi IN3 (seti bi (IRow3 W2) (seti bi (IRow3 W1) (seti bw IN3 (seti bi (ICol3 W1) kn)))))).
      2:{ apply functional_extensionality. intros b. unfold seti. destruct (Nat.eqb_spec b bo).
          - fx3. apply backward_eq3; auto using Xp3, Yp3.
          - destruct (Nat.eqb_spec b bi); [reflexivity|]. destruct (Nat.eqb_spec b bw); [subst; auto|reflexivity]. }
      apply (ik_phase2 _ _ bi bo (IRow3 W2)); auto.
      * unfold seti. rewrite Nat.eqb_refl. reflexivity.
      * intros r k Hr Hp. unfold zBackward. rewrite xl by auto. reflexivity.
      * intros r s Hr Q B1 B2 HG. apply zBackward_phase; auto. intros i j kz Hi Hj Hk. unfold W2, W1.
        apply (symmetric_real3 X Y Zr); auto using Xp3, Yp3.
Qed.
Lemma shift_coll : forall b G kn, In b bs0 -> Nat.even X = true -> Nat.even Y = true -> kn b = IR3 G ->
  CollR (fun r => Shift3R c Zr inplace r b) (KI kn) (KI (seti b (IR3 (fun i j l => altsign2 i j (G i j l))) kn)).
Proof.
  intros b G kn Ib EvX EvY Ek. apply (ik_phase _ kn b b (IR3 G)); auto.
  - intros r k Hr Hp. unfold Shift3R. rewrite xl by auto. rewrite !even_mod', EvX, EvY. reflexivity.
  - intros r s Hr Q B1 B2 HG. apply shift3_phase; auto.
Qed.
Lemma norm_coll : forall b G kn, In b bs0 -> kn b = IR3 G ->
  CollR (fun r => normalize3R c Zr inplace r b) (KI kn) (KI (seti b (IR3 (fun i j l => (G i j l / INR (X * Y * Zr))%R)) kn)).
Proof.
  intros b G kn Ib Ek. apply (ik_phase _ kn b b (IR3 G)); auto.
  - intros r k Hr Hp. unfold normalize3R. rewrite xl by auto. reflexivity.
  - intros r s Hr Q B1 B2 HG.
    replace (fun i j l => (G i j l / INR (X * Y * Zr))%R) with (fun i j l => (/ INR (X * Y * Zr) * G i j l)%R).
    + apply normalize3_phase; auto.
    + apply functional_extensionality; intros i. apply functional_extensionality; intros j. apply functional_extensionality; intros l. unfold Rdiv. ring.
Qed.
Lemma idle_first : forall r, size c <= r -> r < P -> (lbeg Y P r =? 0) = false.
Proof.
  intros r Hs Hr. apply Nat.eqb_neq. intros E. pose proof (yl r Hs) as L. change (count Y P r = 0) in L. change (first Y P r = 0) in E.
  unfold count in L. rewrite E, Nat.sub_0_r in L. pose proof Yp3. assert (0 < blocklen Y P). { unfold blocklen. apply Nat.div_str_pos. lia. } lia.
Qed.
Lemma deny_coll : forall b H kn, In b bs0 -> kn b = ICol3 H ->
  CollR (fun r => deNyquist3 c Zr r b) (KI kn) (KI (seti b (ICol3 (denyquist3 X Y Zr H)) kn)).
Proof.
  intros b H kn Ib Ek. apply (ik_phase _ kn b b (ICol3 H)); auto.
  - intros r k Hr Hp. unfold deNyquist3. rewrite !even_mod', yl, idle_first by auto. rewrite andb_false_r.
    rewrite Nat.mul_0_l, !Nat.mul_0_r. cbn [wrw].
    destruct (Nat.even X), (Nat.even Zr); reflexivity.
  - intros r s Hr Q B1 B2 HG. apply deny3_phase; auto.
Qed.

(** *** calls *)
Definition rcallC (n : nat) (x : rcall) (r : nat) : cmdR :=
  match x with
  | RTrans true false i o => fwdP i o r
  | RTrans true true i o => seqc R (Shift3R c Zr inplace r i) (fwdP i o r)
  | RTrans false false i o => bwdP n i o r
  | RTrans false true i o => seqc R (bwdP n i o r) (Shift3R c Zr inplace r o)
  | RNorm b => normalize3R c Zr inplace r b
  | RDeny b => deNyquist3 c Zr r b
  end.
Fixpoint rhistC (l : list rcall) (r : nat) : cmdR :=
  match l with [] => skip R | x :: l => seqc R (rcallC (length l) x r) (rhistC l r) end.
Definition ikof (k : rknow3) : ik3 := match k with KNone3 => IN3 | KReal3 G => IR3 G | KCplx3 H => ICol3 H end.
Definition ext (kn : nat -> rknow3) : nat -> ik3 := fun b => if b =? bw then IN3 else ikof (kn b).
Lemma ki_weaken : forall kn kn' s, (forall b, In b bs -> kn' b = kn b \/ kn' b = IN3) -> KI kn s -> KI kn' s.
Proof.
  intros kn kn' s H [[O A] E B D]. constructor; auto.
  - split; auto. intros r b Hr Hb. destruct (H b Hb) as [-> | ->]; [apply A; auto|exact Logic.I].
  - intros r Hr b G Hb Eb. destruct (H b Hb) as [E1|E1]; [rewrite E1 in Eb; apply (E r Hr); auto|congruence].
Qed.
Lemma ext_in : forall kn b, In b bs0 -> ext kn b = ikof (kn b).
Proof. intros kn b Hb. unfold ext. destruct (Nat.eqb_spec b bw); [subst; contradiction|reflexivity]. Qed.
Lemma ext_bw : forall kn, ext kn bw = IN3. Proof. intros. unfold ext. rewrite Nat.eqb_refl. reflexivity. Qed.

Ltac kiw :=
  let s := fresh "s" in let b := fresh "b" in
  intros s; apply ki_weaken; intros b [<-|Hb]; [right; apply ext_bw|left];
  unfold seti; rewrite !ext_in by auto; unfold reffect3.
Lemma call_coll : forall n x l kn, rlegal3 X Y Zr inplace bs0 (x :: l) kn ->
  CollR (rcallC n x) (KI (ext kn)) (KI (ext (reffect3 X Y Zr x kn))).
Proof.
  intros n x l kn [Lx _]. destruct x as [fwd r0 i o|b|b].
  - destruct Lx as (Ii & Io & Ep & Ev & Lk).
    destruct (kn i) as [|G|H] eqn:Ek; [contradiction| |].
    + subst fwd. destruct r0; cbn [rcallC].
      * destruct (Ev eq_refl) as [EvX EvY]. eapply coll_mono; [|eapply coll_seq; [apply (shift_coll i G); auto; rewrite ext_in, Ek; auto|]].
        2:{ apply (fwd_coll i o (fun a b d => altsign2 a b (G a b d))); auto.
            - unfold seti. rewrite Nat.eqb_refl. reflexivity.
            - unfold seti. destruct (Nat.eqb_spec bw i); [subst; contradiction|apply ext_bw]. }
        intros s; apply ki_weaken; intros b [<-|Hb]; [right; apply ext_bw|].
        unfold seti; rewrite !ext_in by auto; unfold reffect3. rewrite Ek. cbn [negb orb]. rewrite andb_true_r.
        destruct (Nat.eqb_spec b o); cbn [ikof].
        { left. fx3. apply rfourier3_0_eq; auto using Xp3, Yp3. }
        destruct (Nat.eqb_spec b i); [right|left]; reflexivity.
      * eapply coll_mono; [|apply (fwd_coll i o G); auto; [rewrite ext_in, Ek; auto|apply ext_bw]].
        kiw. rewrite Ek. cbn [negb orb]. rewrite andb_false_r. destruct (Nat.eqb_spec b o); reflexivity.
    + destruct Lk as [-> Sy]. destruct r0; cbn [rcallC].
      * destruct (Ev eq_refl) as [EvX EvY]. eapply coll_mono; [|eapply coll_seq; [apply (bwd_coll n i o H); auto; [rewrite ext_in, Ek; auto|apply ext_bw]|]].
        2:{ apply (shift_coll o (rinverse3 X Y Zr H)); auto. unfold seti. rewrite Nat.eqb_refl. reflexivity. }
        kiw. rewrite Ek. cbn [negb orb]. rewrite andb_true_r.
        destruct (Nat.eqb_spec b o); cbn [ikof].
        { fx3. apply rinverse3_0_eq; auto using Xp3, Yp3. }
        destruct (Nat.eqb_spec b i); reflexivity.
      * eapply coll_mono; [|apply (bwd_coll n i o H); auto; [rewrite ext_in, Ek; auto|apply ext_bw]].
        kiw. rewrite Ek. cbn [negb orb]. rewrite andb_true_r. destruct (Nat.eqb_spec b o); [reflexivity|]. destruct (Nat.eqb_spec b i); reflexivity.
  - destruct Lx as (Ib & G & Ek). cbn [rcallC]. eapply coll_mono; [|apply (norm_coll b G); auto; rewrite ext_in, Ek; auto].
    intros s; apply ki_weaken; intros b' [<-|Hb]; [right; apply ext_bw|left]. unfold seti; rewrite !ext_in by auto; unfold reffect3. rewrite Ek.
    destruct (Nat.eqb_spec b' b); reflexivity.
  - destruct Lx as (Ib & H & Ek). cbn [rcallC]. eapply coll_mono; [|apply (deny_coll b H); auto; rewrite ext_in, Ek; auto].
    intros s; apply ki_weaken; intros b' [<-|Hb]; [right; apply ext_bw|left]. unfold seti; rewrite !ext_in by auto; unfold reffect3. rewrite Ek.
    destruct (Nat.eqb_spec b' b); reflexivity.
Qed.
Lemma hist_coll : forall l kn, rlegal3 X Y Zr inplace bs0 l kn -> CollR (rhistC l) (KI (ext kn)) (KI (ext (reffects3 X Y Zr l kn))).
Proof.
  induction l as [|x l IH]; intros kn Lg.
  - apply coll_skip.
  - cbn [rhistC]. eapply coll_seq; [apply (call_coll (length l) x l kn Lg)|]. unfold reffects3. cbn [fold_left]. apply IH. apply Lg.
Qed.
Lemma row_idle : forall d G r m, size c <= r -> rslab X Y Zr P d G r m.
Proof. intros d G r m Hr i j l Hi. rewrite (x_none c) in Hi by auto. lia. Qed.
Lemma rows_dist : rdist3 c Zr inplace = rowdist Zr inplace.
Proof. unfold rdist3, rowdist. rewrite HZ. reflexivity. Qed.
Lemma cols_eq : forall H r m, agrees R X Y Z_ P (Some (false, dm3 H)) r m <-> cslab X Y Zr P H r m.
Proof.
  intros H r m. pose proof (cols3_words c Hz Zr HZ HZr inplace H r m) as E. cbn [iheld3 toK3] in E. rewrite E. unfold cslab. rewrite <- HZ.
  split.
  - intros A i j k Hi Hj Hk. cbv zeta. pose proof (A i j (2 * k) Hi Hj ltac:(lia)) as A0. pose proof (A i j (2 * k + 1) Hi Hj ltac:(lia)) as A1.
    pose proof (dm3_2 H i (first Y P r + j) k 0 ltac:(lia)) as D0. rewrite Nat.add_0_r in D0. rewrite D0 in A0. rewrite dm3_2 in A1 by lia.
    replace (2 * ((i * count Y P r + j) * cL c + k)) with ((i * count Y P r + j) * (2 * cL c) + 2 * k) by ring.
    rewrite <- Nat.add_assoc. split; [exact A0|exact A1].
  - intros A i j t Hi Hj Ht. destruct (split_word t) as (k & u & -> & Hu). assert (Hk : k < cL c) by lia.
    destruct (A i j k Hi Hj Hk) as [A0 A1]. rewrite dm3_2 by auto.
    replace (2 * ((i * count Y P r + j) * cL c + k)) with ((i * count Y P r + j) * (2 * cL c) + 2 * k) in A0, A1 by ring.
    destruct u as [|[|u]]; [rewrite Nat.add_0_r; exact A0|rewrite Nat.add_assoc; exact A1|lia].
Qed.
Theorem rhist_run : forall l kn,
  (forall r b, r < P -> In b bs -> doubles3 X Y Zr P r <= bsz0 r b) ->
  (forall r b, r < P -> In b bs0 -> rheld3 X Y Zr P inplace (kn b) r (mem0 r b)) ->
  rlegal3 X Y Zr inplace bs0 l kn ->
  always_ends R P (fun r => (rhistC l r (Halt R), start_loc R c r (mem0 r) (bsz0 r)))
    (fun gf => forall r, r < P ->
       (forall b, In b bs0 -> rheld3 X Y Zr P inplace (reffects3 X Y Zr l kn b) r (mem R (snd (gf r)) b)) /\
       (forall b o, ~ In b bs -> mem R (snd (gf r)) b o = mem0 r b o)).
Proof.
  intros l kn Hcap Hk Lg.
  assert (Hcap' : forall r b, r < P -> In b bs -> storage X Y Z_ P r <= bsz0 r b).
  { intros r b Hr Hb. specialize (Hcap r b Hr Hb). unfold storage, doubles3 in *. rewrite <- HZ in Hcap. rewrite (Z2c c Hz Zr HZ HZr). eapply Nat.le_trans; [|exact Hcap]. apply Nat.eq_le_incl. ring. }
  eapply (ends_mono R c); [|eapply (coll_always R c bs bsz0 mem0 Hcap') with (cm := rhistC l) (fr := bs); [| |apply (hist_coll l kn Lg)]].
  - intros gf Hg r Hr. destruct (Hg r Hr) as (A & E & F). split; [|exact F]. intros b Hb.
    assert (Hb' : In b bs) by (right; auto). specialize (A b Hb'). cbv beta in A, E. rewrite ext_in in A by auto.
    destruct (reffects3 X Y Zr l kn b) as [|G|H] eqn:Ek; cbn [rheld3].
    + exact Logic.I.
    + rewrite <- rows_dist. destruct (Nat.lt_ge_cases r (size c)) as [Hs|Hs]; [|apply row_idle; auto].
      apply (E Hs b G Hb'). rewrite ext_in, Ek; auto.
    + apply cols_eq. exact A.
  - intros r b Hr [<-|Hb]; [rewrite ext_bw; exact Logic.I|]. rewrite ext_in by auto. specialize (Hk r b Hr Hb).
    destruct (kn b) as [|G|H]; cbn [ikof toK3 rheld3] in *; try exact Logic.I. apply cols_eq. exact Hk.
  - intros r Hr b G [<-|Hb] Eb; [rewrite ext_bw in Eb; discriminate|]. rewrite ext_in in Eb by auto.
    pose proof (size_le c). specialize (Hk r b ltac:(lia) Hb). destruct (kn b) as [|G'|H']; try discriminate. cbn [ikof] in Eb. inversion Eb; subst.
    cbn [rheld3] in Hk. rewrite rows_dist. exact Hk.
Qed.
End Hist.
