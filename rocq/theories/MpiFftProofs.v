(** The properties of the distributed transforms. *)
From Coq Require Import Reals ZArith List Arith Bool Lia Lra FunctionalExtensionality.
From Verif Require Import CNum Sums Roots PadModel MpiMachine MpiRun MpiTrModel MpiTrGeom MpiTrPhase MpiTrXch MpiTrSpec MpiTrTop MpiTrProofs MpiFftModel MpiFftSpec MpiFft1 MpiFft2 MpiFft3 MpiFft4.
Import ListNotations.
Local Open Scope nat_scope.

(** The program of process r that makes the calls of the list *)
Definition call2 (c : cfg) (sign : Z) (inplace : bool) (bw r : nat) (x : tcall) : cmdC :=
  if tfwd x then Forward c sign inplace bw r (tin x) (Some (tout x))
  else Backward c sign inplace bw r (tin x) (Some (tout x)).
Definition call3 (c : cfg) (sign : Z) (inplace : bool) (bw r : nat) (x : tcall) : cmdC :=
  if tfwd x then Forward3 c sign inplace bw r (tin x) (Some (tout x))
  else Backward3 c sign inplace bw r (tin x) (Some (tout x)).
Fixpoint calls2 c sign inplace bw r (l : list tcall) (k : prog C) : prog C :=
  match l with [] => k | x :: l => call2 c sign inplace bw r x (calls2 c sign inplace bw r l k) end.
Fixpoint calls3 c sign inplace bw r (l : list tcall) (k : prog C) : prog C :=
  match l with [] => k | x :: l => call3 c sign inplace bw r x (calls3 c sign inplace bw r l k) end.
Definition four2 (X Y : nat) (sg : Z) (G : nat -> nat -> nat -> C) : nat -> nat -> nat -> C :=
  fun kx ky _ => fourier2 sg X Y (fun i j => G i j 0) kx ky.
Definition initial (c : cfg) (mem0 : nat -> nat -> nat -> C) (bsz0 : nat -> nat -> nat) (p : nat -> prog C) : gst C :=
  fun r => (p r, start_loc C c r (mem0 r) (bsz0 r)).

(** *** normalisation *)
Lemma normalize_run : forall N words b s, quiet C s -> words <= bsz C s b ->
  exists m', runsC (normalize N words b) s (setmem C s m') /\
    (forall o, o < words -> m' b o = Cmul (RtoC (/ INR N)) (mem C s b o)) /\
    (forall b' o, b' <> b -> m' b' o = mem C s b' o).
Proof.
  intros N words b s Q B.
  assert (E : forall k, normalize N words b k = mfft 1 (fun x _ => Cmul (RtoC (/ INR N)) (x 0)) words (fun h _ => h) b b k).
  { intros k. unfold normalize, mfft, forc.
    enough (L : forall w i, floop C i w (fun i k => Rd C b i (fun v => Wr C b i (Cmul (RtoC (/ INR N)) v) k)) k =
      floop C i w (fun h k => rdv b (fun _ => h) 1 (fun _ => C0) (fun x => wrv b (fun _ => h) 1 (fun _ => Cmul (RtoC (/ INR N)) (x 0)) k)) k)
      by apply L.
    induction w as [|w IH]; intros i; [reflexivity|]. cbn [floop]. unfold seqc at 1 2. rewrite IH. reflexivity. }
  destruct (mfft_run 1 (fun x _ => Cmul (RtoC (/ INR N)) (x 0)) words (fun h _ => h) b b s) as (m' & R & W & F); auto.
  - intros x x' H k. rewrite H by lia. reflexivity.
  - intros h j Hh Hj. lia.
  - intros h j h' j' Hh Hj Hh' Hj' Eh. lia.
  - exists m'. split; [|split; auto].
    + intros k. rewrite E. apply R.
    + intros o Ho. rewrite (W o 0) by lia. reflexivity.
Qed.

Section Gen.
Variable c : cfg.
Context {Hc : good c}.
Hypothesis Hz : csz c = 1.
Notation X := (cN c). Notation Y := (cM c). Notation P := (cP c). Notation Z_ := (S_ c).

Section Round.
Variable sign : Z.
Variable four : Z -> (nat -> nat -> nat -> C) -> nat -> nat -> nat -> C.
Hypothesis Hfour : forall sg G i j l, l < Z_ -> four sg G i j l = fourier3 sg X Y Z_ G i j l.
Variables cmR cmC : Z -> nat -> nat -> nat -> cmdC.
Hypothesis HR : forall sg, rowsPhase c sg (cmR sg).
Hypothesis HC : forall sg, colsPhase c sg (cmC sg).
Variables (bsz0 : nat -> nat -> nat) (mem0 : nat -> nat -> nat -> C).

Lemma fourier3_ext : forall sg X Y Z G G' i j l, (forall i j l, i < X -> j < Y -> l < Z -> G i j l = G' i j l) ->
  fourier3 sg X Y Z G i j l = fourier3 sg X Y Z G' i j l.
Proof. intros. unfold fourier3. apply Csum_ext; intros. apply Csum_ext; intros. apply Csum_ext; intros. rewrite H; auto. Qed.

Lemma round_run : forall b1 b2 b3 bw inplace G, (sign = 1 \/ sign = -1)%Z -> ~ In bw [b1; b2; b3] ->
  inplace = (b1 =? b2) -> inplace = (b2 =? b3) ->
  (forall r b, r < P -> In b [bw; b1; b2; b3] -> storage X Y Z_ P r <= bsz0 r b) ->
  (forall r, r < P -> rows3 X Y Z_ P G r (mem0 r b1)) ->
  always_ends C P (fun r => (seqc C (histC c sign cmR cmC bw [mkT true b1 b2; mkT false b2 b3] r)
       (normalize (X * Y * Z_) (count X P r * Y * Z_) b3) (Halt C), start_loc C c r (mem0 r) (bsz0 r)))
    (fun gf => forall r, r < P -> rows3 X Y Z_ P G r (mem C (snd (gf r)) b3)).
Proof.
  intros b1 b2 b3 bw inplace G Hs Nb E1 E2 Hcap HG.
  pose proof (coll_always c (bw :: [b1; b2; b3]) bsz0 mem0 Hcap
    (fun r => seqc C (histC c sign cmR cmC bw [mkT true b1 b2; mkT false b2 b3] r) (normalize (X * Y * Z_) (count X P r * Y * Z_) b3))
    (set1 b1 (Some (true, G)) (fun _ => None)) (set1 b3 (Some (true, G)) (fun _ => None)) (bw :: [b1; b2; b3])) as A.
  eapply ends_mono; [|apply A].
  - intros gf Hg r Hr. destruct (Hg r Hr) as [B _]. specialize (B b3 ltac:(cbn [In]; auto)). unfold set1 in B.
    rewrite Nat.eqb_refl in B. exact B.
  - intros r b Hr Hb. unfold set1. destruct (Nat.eqb_spec b b1); [subst; apply HG; auto|exact Logic.I].
  - eapply coll_seq.
    + apply (hist_coll c sign four Hfour cmR cmC HR HC [b1; b2; b3] bw Nb bsz0 mem0 inplace
        [mkT true b1 b2; mkT false b2 b3] (set1 b1 (Some (true, G)) (fun _ => None))); auto.
      * apply incl_refl.
      * cbn [tlegal tin tout tfwd]. split; [cbn; auto|]. split; [cbn; auto|]. split; [auto|].
        split; [exists G; unfold set1; rewrite Nat.eqb_refl; reflexivity|].
        split; [cbn; auto|]. split; [cbn; auto|]. split; [auto|].
        split; [|exact Logic.I]. exists (four sign G). unfold teffect, set1. cbn [tin tout tfwd negb]. rewrite !Nat.eqb_refl. reflexivity.
      * unfold set1. destruct (Nat.eqb_spec bw b1); [exfalso; apply Nb; cbn; auto|reflexivity].
    + apply coll_local; auto.
      { intros r k Hr Hp. replace (count X P r) with 0. reflexivity.
        change (count X P r) with (ldim X P r). symmetry. apply x_idle; auto. }
      intros r s Hr Q Hcap' Ha.
      assert (L : count X P r * Y * Z_ <= bsz C s b3).
      { apply Nat.le_trans with (cap c r); [apply x_cap; auto|]. apply Hcap'. cbn [In]; auto. }
      destruct (normalize_run (X * Y * Z_) (count X P r * Y * Z_) b3 s Q L) as (m' & R & W & F).
      exists m'. split; [exact R|]. split.
      * intros b Hb. unfold set1. destruct (Nat.eqb_spec b b3); [|exact Logic.I]. subst b.
        specialize (Ha b3 ltac:(cbn [In]; auto)). unfold set1, teffects, teffect in Ha. cbn [fold_left tin tout tfwd negb] in Ha.
        destruct (Nat.eqb_spec b3 bw); [exfalso; apply Nb; cbn; auto|]. rewrite !Nat.eqb_refl in Ha.
        cbn [agrees] in Ha |- *. intros i j t Hi Hj Ht.
        assert (Ci : count X P r * Y * Z_ > (i * Y + j) * Z_ + t).
        { apply fit; auto. apply fit; auto. }
        rewrite W by lia. rewrite Ha by auto. rewrite Hfour by auto.
        assert (first X P r + i < X).
        { unfold count in Hi. lia. }
        rewrite (fourier3_ext _ X Y Z_ _ (fourier3 sign X Y Z_ G)) by (intros; apply Hfour; auto).
        rewrite fourier3_inv by auto. rewrite Cmul_assoc.
        assert (N0 : INR (X * Y * Z_) <> 0%R).
        { apply not_0_INR. pose proof (gN : 0 < X). pose proof (gM : 0 < Y). pose proof (gS : 0 < Z_). apply Nat.neq_mul_0. split; [apply Nat.neq_mul_0|]; lia. }
        apply C_ext; cbn [re im Cmul RtoC]; field; auto.
      * intros b o Nb'. apply F. intros ->. apply Nb'. cbn [In]. auto.
Qed.
End Round.
End Gen.

(** *** the null output *)
Section Null.
Variable c : cfg.
Context {Hc : good c}.
Notation X := (cN c). Notation Y := (cM c). Notation P := (cP c). Notation Z_ := (S_ c).
Lemma first_active : forall N, 0 < N -> 0 < count N P 0.
Proof.
  intros N HN. pose proof (gP : 0 < P). unfold count, first. rewrite Nat.mul_0_r, Nat.sub_0_r.
  apply Nat.min_glb_lt; auto. unfold blocklen. apply Nat.div_str_pos. lia.
Qed.
Lemma null_bad : forall (cm : nat -> cmdC) (w : nat -> nat) (f : nat -> nat -> cmdC) bs bsz0 mem0 kn kn' fr,
  (forall r b, r < P -> In b bs -> storage X Y Z_ P r <= bsz0 r b) ->
  (forall r b, r < P -> In b bs -> agrees C X Y Z_ P (kn b) r (mem0 r b)) ->
  Coll c cm (Inv c bs bsz0 mem0 kn fr) (Inv c bs bsz0 mem0 kn' fr) -> 0 < w 0 ->
  exists k g1, steps C false P k (fun r => (seqc C (cm r) (nonnull (w r) None (f r)) (Halt C), start_loc C c r (mem0 r) (bsz0 r))) g1 /\ bad C P g1.
Proof.
  intros cm w f bs bsz0 mem0 kn kn' fr Hcap Hk Hcm Hw. pose proof (gP : 0 < P) as HP.
  destruct (Hcm (fun r => (seqc C (cm r) (nonnull (w r) None (f r)) (Halt C), start_loc C c r (mem0 r) (bsz0 r)))
     (fun r => nonnull (w r) None (f r) (Halt C)) (fun r => start_loc C c r (mem0 r) (bsz0 r))) as (n & g2 & s2 & St & E2 & I2).
  - apply (inv_fr c bs bsz0 mem0 kn [] fr); [intros x []|]. apply inv_start; auto.
  - auto.
  - exists n, g2. split; [exact St|]. exists 0. split; auto. unfold erroneous. rewrite E2 by auto.
    unfold nonnull. destruct (Nat.eqb_spec (w 0) 0); [lia|]. intros st' L. inversion L.
Qed.
End Null.

(** *** two dimensions *)
Section Two.
Variables (X Y P a al : nat).
Hypotheses (HX : 0 < X) (HY : 0 < Y) (HP : 0 < P) (Ha : 0 < a).
Let c := mkCfg X Y 1 1 P a al.
Local Instance good2 : good c.
Proof. constructor; cbn; auto. Qed.
Lemma h2four : forall sg G i j l, l < S_ c -> four2 X Y sg G i j l = fourier3 sg (cN c) (cM c) (S_ c) G i j l.
Proof.
  intros sg G i j l Hl. unfold S_ in Hl. cbn in Hl. assert (l = 0) by lia. subst l.
  symmetry. apply (fourier3_1 sg X Y G i j HX HY).
Qed.
Notation cR2 := (fun sg bi bo r => mfft1d (cM c) sg (ldim (cN c) (cP c) r) 1 (cM c) bi bo).
Notation cC2 := (fun sg bi bo r => xfft c r sg bi bo).
Lemma r2 : forall sg, rowsPhase c sg (cR2 sg). Proof. intros sg. apply (rows2_phase c); reflexivity. Qed.
Lemma c2 : forall sg, colsPhase c sg (cC2 sg). Proof. intros sg. apply (cols2_phase c); reflexivity. Qed.

Lemma calls2_hist : forall sign inplace bs bw r l kn k, tlegal (four2 X Y) sign inplace bs l kn ->
  calls2 c sign inplace bw r l k = histC c sign cR2 cC2 bw l r k.
Proof.
  intros sign inplace bs bw r l. induction l as [|x l IH]; intros kn k Lg; [reflexivity|].
  destruct Lg as (I1 & I2 & I3 & _ & Lg). cbn [calls2 histC]. unfold seqc at 1. rewrite (IH _ _ Lg).
  unfold call2, oneC, fwdC, bwdC, Forward, Backward, iForward, iBackward, setout, ForwardWait, BackwardWait, nonnull.
  destruct x as [[] bi bo]; cbn [tfwd tin tout] in *; rewrite I3, Bool.eqb_reflx; reflexivity.
Qed.

Theorem history2 : forall sign inplace bs bw kn l mem0 bsz0, ~ In bw bs ->
  (forall r b, r < P -> In b (bw :: bs) -> words X Y 1 P r <= bsz0 r b) ->
  (forall r b, r < P -> In b bs -> held X Y 1 P (kn b) r (mem0 r b)) ->
  tlegal (four2 X Y) sign inplace bs l kn ->
  always_ends C P (initial c mem0 bsz0 (fun r => calls2 c sign inplace bw r l (Halt C)))
    (fun gf => forall r, r < P ->
       (forall b, In b bs -> held X Y 1 P (teffects (four2 X Y) sign l kn b) r (mem C (snd (gf r)) b)) /\
       (forall b o, ~ In b (bw :: bs) -> mem C (snd (gf r)) b o = mem0 r b o)).
Proof.
  intros sign inplace bs bw kn l mem0 bsz0 Nb Hcap Hk Lg.
  pose proof (hist_run c sign (four2 X Y) h2four cR2 cC2 r2 c2 bs bw Nb bsz0 mem0 inplace l kn Hcap Hk Lg) as H.
  unfold initial.
  replace (fun r => (calls2 c sign inplace bw r l (Halt C), start_loc C c r (mem0 r) (bsz0 r)))
    with (fun r => (histC c sign cR2 cC2 bw l r (Halt C), start_loc C c r (mem0 r) (bsz0 r))); [exact H|].
  apply functional_extensionality. intros r. rewrite (calls2_hist sign inplace bs bw r l kn (Halt C) Lg). reflexivity.
Qed.
Lemma held2r : forall G r m, rows2 X Y P G r m <-> held X Y 1 P (Some (true, fun i j _ => G i j)) r m.
Proof.
  intros G r m. cbn [held]. unfold rows2, rows3. split; intros H i j.
  - intros l Hi Hj Hl. assert (l = 0) by lia. subst. rewrite Nat.mul_1_r, Nat.add_0_r. auto.
  - intros Hi Hj. specialize (H i j 0 Hi Hj ltac:(lia)). rewrite Nat.mul_1_r, Nat.add_0_r in H. exact H.
Qed.
Lemma held2c : forall G r m, cols2 X Y P G r m <-> held X Y 1 P (Some (false, fun i j _ => G i j)) r m.
Proof.
  intros G r m. cbn [held]. unfold cols2, cols3. split; intros H i j.
  - intros l Hi Hj Hl. assert (l = 0) by lia. subst. rewrite Nat.mul_1_r, Nat.add_0_r. auto.
  - intros Hi Hj. specialize (H i j 0 Hi Hj ltac:(lia)). rewrite Nat.mul_1_r, Nat.add_0_r in H. exact H.
Qed.
Theorem forward2 : forall sign bi bo bw G mem0 bsz0, bi <> bw -> bo <> bw ->
  (forall r b, r < P -> In b [bi; bo; bw] -> words X Y 1 P r <= bsz0 r b) ->
  (forall r, r < P -> rows2 X Y P G r (mem0 r bi)) ->
  always_ends C P (initial c mem0 bsz0 (fun r => Forward c sign (bi =? bo) bw r bi (Some bo) (Halt C)))
    (fun gf => forall r, r < P -> cols2 X Y P (fourier2 sign X Y G) r (mem C (snd (gf r)) bo) /\
       (bi <> bo -> rows2 X Y P G r (mem C (snd (gf r)) bi)) /\
       forall b o, b <> bi -> b <> bo -> b <> bw -> mem C (snd (gf r)) b o = mem0 r b o).
Proof.
  intros sign bi bo bw G mem0 bsz0 N1 N2 Hcap HG.
  pose proof (history2 sign (bi =? bo) [bi; bo] bw (set1 bi (Some (true, fun i j _ => G i j)) (fun _ => None)) [mkT true bi bo] mem0 bsz0) as H.
  cbn [calls2] in H. unfold call2 in H. cbn [tfwd tin tout] in H.
  eapply (ends_mono C c); [|apply H]; clear H.
  - intros gf Hg r Hr. destruct (Hg r Hr) as [A B]. unfold teffects in A. cbn [fold_left] in A. split; [|split].
    + specialize (A bo ltac:(cbn; auto)). unfold teffect, set1 in A. cbn [tin tout tfwd negb] in A. rewrite !Nat.eqb_refl in A.
      apply held2c. exact A.
    + intros N. specialize (A bi ltac:(cbn; auto)). unfold teffect, set1 in A. cbn [tin tout tfwd negb] in A. rewrite !Nat.eqb_refl in A.
      destruct (Nat.eqb_spec bi bo); [contradiction|]. cbn [andb] in A. apply held2r. exact A.
    + intros b o A1 A2 A3. apply B. cbn [In]. intros [E|[E|[E|[]]]]; congruence.
  - cbn [In]. intros [E|[E|[]]]; congruence.
  - intros r b Hr Hb. apply Hcap; auto. cbn [In] in *. tauto.
  - intros r b Hr Hb. unfold set1. destruct (Nat.eqb_spec b bi); [subst; apply held2r; auto|exact Logic.I].
  - cbn [tlegal tin tout tfwd In]. split; [auto|]. split; [auto|]. split; [auto|]. split; [|exact Logic.I].
    eexists. unfold set1. rewrite Nat.eqb_refl. reflexivity.
Qed.
Theorem backward2 : forall sign bi bo bw G mem0 bsz0, bi <> bw -> bo <> bw ->
  (forall r b, r < P -> In b [bi; bo; bw] -> words X Y 1 P r <= bsz0 r b) ->
  (forall r, r < P -> cols2 X Y P G r (mem0 r bi)) ->
  always_ends C P (initial c mem0 bsz0 (fun r => Backward c sign (bi =? bo) bw r bi (Some bo) (Halt C)))
    (fun gf => forall r, r < P -> rows2 X Y P (fourier2 (- sign) X Y G) r (mem C (snd (gf r)) bo) /\
       forall b o, b <> bi -> b <> bo -> b <> bw -> mem C (snd (gf r)) b o = mem0 r b o).
Proof.
  intros sign bi bo bw G mem0 bsz0 N1 N2 Hcap HG.
  pose proof (history2 sign (bi =? bo) [bi; bo] bw (set1 bi (Some (false, fun i j _ => G i j)) (fun _ => None)) [mkT false bi bo] mem0 bsz0) as H.
  cbn [calls2] in H. unfold call2 in H. cbn [tfwd tin tout] in H.
  eapply (ends_mono C c); [|apply H]; clear H.
  - intros gf Hg r Hr. destruct (Hg r Hr) as [A B]. unfold teffects in A. cbn [fold_left] in A. split.
    + specialize (A bo ltac:(cbn; auto)). unfold teffect, set1 in A. cbn [tin tout tfwd negb] in A. rewrite !Nat.eqb_refl in A.
      apply held2r. exact A.
    + intros b o A1 A2 A3. apply B. cbn [In]. intros [E|[E|[E|[]]]]; congruence.
  - cbn [In]. intros [E|[E|[]]]; congruence.
  - intros r b Hr Hb. apply Hcap; auto. cbn [In] in *. tauto.
  - intros r b Hr Hb. unfold set1. destruct (Nat.eqb_spec b bi); [subst; apply held2c; auto|exact Logic.I].
  - cbn [tlegal tin tout tfwd In]. split; [auto|]. split; [auto|]. split; [auto|]. split; [|exact Logic.I].
    eexists. unfold set1. rewrite Nat.eqb_refl. reflexivity.
Qed.
(** Forward(f,g); Backward(g,h); Normalize(h) *)
Theorem roundtrip2 : forall sign b1 b2 b3 bw inplace G mem0 bsz0, (sign = 1 \/ sign = -1)%Z ->
  ~ In bw [b1; b2; b3] -> inplace = (b1 =? b2) -> inplace = (b2 =? b3) ->
  (forall r b, r < P -> In b [bw; b1; b2; b3] -> words X Y 1 P r <= bsz0 r b) ->
  (forall r, r < P -> rows2 X Y P G r (mem0 r b1)) ->
  always_ends C P (initial c mem0 bsz0 (fun r =>
       Forward c sign inplace bw r b1 (Some b2) (Backward c sign inplace bw r b2 (Some b3)
         (normalize (X * Y) (ldim X P r * Y) b3 (Halt C)))))
    (fun gf => forall r, r < P -> rows2 X Y P G r (mem C (snd (gf r)) b3)).
Proof.
  intros sign b1 b2 b3 bw inplace G mem0 bsz0 Hs Nb E1 E2 Hcap HG.
  pose proof (round_run c eq_refl sign (four2 X Y) h2four cR2 cC2 r2 c2 bsz0 mem0 b1 b2 b3 bw inplace (fun i j _ => G i j) Hs Nb E1 E2 Hcap) as H.
  assert (EQ : (fun r => (seqc C (histC c sign cR2 cC2 bw [mkT true b1 b2; mkT false b2 b3] r)
       (normalize (cN c * cM c * S_ c) (count (cN c) (cP c) r * cM c * S_ c) b3) (Halt C), start_loc C c r (mem0 r) (bsz0 r)))
     = initial c mem0 bsz0 (fun r =>
       Forward c sign inplace bw r b1 (Some b2) (Backward c sign inplace bw r b2 (Some b3)
         (normalize (X * Y) (ldim X P r * Y) b3 (Halt C))))).
  { apply functional_extensionality. intros r. unfold initial. f_equal.
    replace (S_ c) with 1 by reflexivity. rewrite !Nat.mul_1_r.
    cbn [histC]. unfold oneC. cbn [tfwd tin tout].
    unfold fwdC, bwdC, Forward, Backward, iForward, iBackward, setout, ForwardWait, BackwardWait, nonnull.
    rewrite <- E1, <- E2, Bool.eqb_reflx. reflexivity. }
  rewrite <- EQ. eapply (ends_mono C c); [|apply H; clear H].
  - intros gf Hg r Hr. apply held2r. apply (Hg r Hr).
  - intros r Hr. exact (proj1 (held2r G r (mem0 r b1)) (HG r Hr)).
Qed.
Theorem null2 : forall sign b bw G mem0 bsz0, b <> bw ->
  (forall r b', r < P -> In b' [b; bw] -> words X Y 1 P r <= bsz0 r b') ->
  ((forall r, r < P -> rows2 X Y P G r (mem0 r b)) ->
   exists k g1, steps C false P k (initial c mem0 bsz0 (fun r => Forward c sign true bw r b None (Halt C))) g1 /\ bad C P g1) /\
  ((forall r, r < P -> cols2 X Y P G r (mem0 r b)) ->
   exists k g1, steps C false P k (initial c mem0 bsz0 (fun r => Backward c sign true bw r b None (Halt C))) g1 /\ bad C P g1).
Proof.
  intros sign b bw G mem0 bsz0 N Hcap. split; intros HG.
  - unfold initial, Forward, iForward, setout, ForwardWait. rewrite Nat.eqb_refl. cbn [Bool.eqb].
    eapply (null_bad c (fun r => seqc C (cR2 sign b b r) (localize c bw r true b)) (fun r => ldim (cM c) (cP c) r) _ [bw; b] bsz0 mem0
      (set1 b (Some (true, fun i j _ => G i j)) (fun _ => None))) with (fr := [bw; b]).
    + intros r b' Hr Hb. apply Hcap; auto. cbn [In] in *. tauto.
    + intros r b' Hr Hb. unfold set1. destruct (Nat.eqb_spec b' b); [subst; apply held2r; auto|exact Logic.I].
    + eapply coll_seq.
      * eapply (rows_coll c cR2 r2 [b] bw bsz0 mem0 sign b b); cbn [In]; auto. apply incl_refl. unfold set1. rewrite Nat.eqb_refl. reflexivity.
      * apply (coll_call c); cbn [In]; auto. unfold legal_call. cbn [cin cout cdir In]. repeat split; auto.
        eexists. unfold set1. rewrite Nat.eqb_refl. reflexivity.
    + apply (first_active c Y HY).
  - unfold initial, Backward, iBackward, setout, BackwardWait. rewrite Nat.eqb_refl. cbn [Bool.eqb].
    eapply (null_bad c (fun r => seqc C (cC2 (- sign)%Z b b r) (localize c bw r false b)) (fun r => ldim (cN c) (cP c) r) _ [bw; b] bsz0 mem0
      (set1 b (Some (false, fun i j _ => G i j)) (fun _ => None))) with (fr := [bw; b]).
    + intros r b' Hr Hb. apply Hcap; auto. cbn [In] in *. tauto.
    + intros r b' Hr Hb. unfold set1. destruct (Nat.eqb_spec b' b); [subst; apply held2c; auto|exact Logic.I].
    + eapply coll_seq.
      * eapply (cols_coll c cC2 c2 [b] bw bsz0 mem0 (- sign) b b); cbn [In]; auto. apply incl_refl. unfold set1. rewrite Nat.eqb_refl. reflexivity.
      * apply (coll_call c); cbn [In]; auto. unfold legal_call. cbn [cin cout cdir In]. repeat split; auto; try discriminate.
        eexists. unfold set1. rewrite Nat.eqb_refl. reflexivity.
    + apply (first_active c X HX).
Qed.
End Two.

(** *** three dimensions, slabs *)
Section Three.
Variables (X Y Z P a al : nat).
Hypotheses (HX : 0 < X) (HY : 0 < Y) (HZ : 0 < Z) (HP : 0 < P) (Ha : 0 < a).
Let c := mkCfg X Y Z 1 P a al.
Lemma SZ : S_ c = Z. Proof. unfold S_, c. cbn [csz cL]. lia. Qed.
Local Instance good3 : good c.
Proof. constructor; [exact HX|exact HY|exact HP|exact Ha|rewrite SZ; exact HZ]. Qed.
Notation four3 := (fun sg G => fourier3 sg X Y Z G).
Lemma h3four : forall sg G i j l, l < S_ c -> four3 sg G i j l = fourier3 sg (cN c) (cM c) (S_ c) G i j l.
Proof. intros sg G i j l Hl. rewrite SZ. reflexivity. Qed.
Notation cR3 := (fun sg bi bo r => mfft2d (cM c) (cL c) sg (ldim (cN c) (cP c) r) bi bo).
Notation cC3 := (fun sg bi bo r => mfft1d (cN c) sg (ldim (cM c) (cP c) r * cL c) (ldim (cM c) (cP c) r * cL c) 1 bi bo).
Lemma r3 : forall sg, rowsPhase c sg (cR3 sg). Proof. intros sg. apply (rows3_phase c); reflexivity. Qed.
Lemma c3 : forall sg, colsPhase c sg (cC3 sg). Proof. intros sg. apply (cols3_phase c); reflexivity. Qed.

Lemma calls3_hist : forall sign inplace bs bw r l kn k, tlegal four3 sign inplace bs l kn ->
  calls3 c sign inplace bw r l k = histC c sign cR3 cC3 bw l r k.
Proof.
  intros sign inplace bs bw r l. induction l as [|x l IH]; intros kn k Lg; [reflexivity|].
  destruct Lg as (I1 & I2 & I3 & _ & Lg). cbn [calls3 histC]. unfold seqc at 1. rewrite (IH _ _ Lg).
  unfold call3, oneC, fwdC, bwdC, Forward3, Backward3, iForward3, iBackward3, setout, ForwardWait3, BackwardWait3, nonnull.
  destruct x as [[] bi bo]; cbn [tfwd tin tout] in *; rewrite I3, Bool.eqb_reflx; reflexivity.
Qed.

Theorem history3 : forall sign inplace bs bw kn l mem0 bsz0, ~ In bw bs ->
  (forall r b, r < P -> In b (bw :: bs) -> words X Y Z P r <= bsz0 r b) ->
  (forall r b, r < P -> In b bs -> held X Y Z P (kn b) r (mem0 r b)) ->
  tlegal four3 sign inplace bs l kn ->
  always_ends C P (initial c mem0 bsz0 (fun r => calls3 c sign inplace bw r l (Halt C)))
    (fun gf => forall r, r < P ->
       (forall b, In b bs -> held X Y Z P (teffects four3 sign l kn b) r (mem C (snd (gf r)) b)) /\
       (forall b o, ~ In b (bw :: bs) -> mem C (snd (gf r)) b o = mem0 r b o)).
Proof.
  intros sign inplace bs bw kn l mem0 bsz0 Nb Hcap Hk Lg.
  pose proof (hist_run c sign four3 h3four cR3 cC3 r3 c3 bs bw Nb bsz0 mem0 inplace l kn) as H. rewrite SZ in H.
  specialize (H Hcap Hk Lg). unfold initial.
  replace (fun r => (calls3 c sign inplace bw r l (Halt C), start_loc C c r (mem0 r) (bsz0 r)))
    with (fun r => (histC c sign cR3 cC3 bw l r (Halt C), start_loc C c r (mem0 r) (bsz0 r))); [exact H|].
  apply functional_extensionality. intros r. rewrite (calls3_hist sign inplace bs bw r l kn (Halt C) Lg). reflexivity.
Qed.
Theorem forward3 : forall sign bi bo bw G mem0 bsz0, bi <> bw -> bo <> bw ->
  (forall r b, r < P -> In b [bi; bo; bw] -> words X Y Z P r <= bsz0 r b) ->
  (forall r, r < P -> rows3 X Y Z P G r (mem0 r bi)) ->
  always_ends C P (initial c mem0 bsz0 (fun r => Forward3 c sign (bi =? bo) bw r bi (Some bo) (Halt C)))
    (fun gf => forall r, r < P -> cols3 X Y Z P (fourier3 sign X Y Z G) r (mem C (snd (gf r)) bo) /\
       (bi <> bo -> rows3 X Y Z P G r (mem C (snd (gf r)) bi)) /\
       forall b o, b <> bi -> b <> bo -> b <> bw -> mem C (snd (gf r)) b o = mem0 r b o).
Proof.
  intros sign bi bo bw G mem0 bsz0 N1 N2 Hcap HG.
  pose proof (history3 sign (bi =? bo) [bi; bo] bw (set1 bi (Some (true, G)) (fun _ => None)) [mkT true bi bo] mem0 bsz0) as H.
  cbn [calls3] in H. unfold call3 in H. cbn [tfwd tin tout] in H.
  eapply (ends_mono C c); [|apply H]; clear H.
  - intros gf Hg r Hr. destruct (Hg r Hr) as [A B]. unfold teffects in A. cbn [fold_left] in A. split; [|split].
    + specialize (A bo ltac:(cbn; auto)). unfold teffect, set1 in A. cbn [tin tout tfwd negb] in A. rewrite !Nat.eqb_refl in A. exact A.
    + intros N. specialize (A bi ltac:(cbn; auto)). unfold teffect, set1 in A. cbn [tin tout tfwd negb] in A. rewrite !Nat.eqb_refl in A.
      destruct (Nat.eqb_spec bi bo); [contradiction|]. exact A.
    + intros b o A1 A2 A3. apply B. cbn [In]. intros [E|[E|[E|[]]]]; congruence.
  - cbn [In]. intros [E|[E|[]]]; congruence.
  - intros r b Hr Hb. apply Hcap; auto. cbn [In] in *. tauto.
  - intros r b Hr Hb. unfold set1. destruct (Nat.eqb_spec b bi); [subst; apply HG; auto|exact Logic.I].
  - cbn [tlegal tin tout tfwd In]. split; [auto|]. split; [auto|]. split; [auto|]. split; [|exact Logic.I].
    eexists. unfold set1. rewrite Nat.eqb_refl. reflexivity.
Qed.
Theorem backward3 : forall sign bi bo bw G mem0 bsz0, bi <> bw -> bo <> bw ->
  (forall r b, r < P -> In b [bi; bo; bw] -> words X Y Z P r <= bsz0 r b) ->
  (forall r, r < P -> cols3 X Y Z P G r (mem0 r bi)) ->
  always_ends C P (initial c mem0 bsz0 (fun r => Backward3 c sign (bi =? bo) bw r bi (Some bo) (Halt C)))
    (fun gf => forall r, r < P -> rows3 X Y Z P (fourier3 (- sign) X Y Z G) r (mem C (snd (gf r)) bo) /\
       forall b o, b <> bi -> b <> bo -> b <> bw -> mem C (snd (gf r)) b o = mem0 r b o).
Proof.
  intros sign bi bo bw G mem0 bsz0 N1 N2 Hcap HG.
  pose proof (history3 sign (bi =? bo) [bi; bo] bw (set1 bi (Some (false, G)) (fun _ => None)) [mkT false bi bo] mem0 bsz0) as H.
  cbn [calls3] in H. unfold call3 in H. cbn [tfwd tin tout] in H.
  eapply (ends_mono C c); [|apply H]; clear H.
  - intros gf Hg r Hr. destruct (Hg r Hr) as [A B]. unfold teffects in A. cbn [fold_left] in A. split.
    + specialize (A bo ltac:(cbn; auto)). unfold teffect, set1 in A. cbn [tin tout tfwd negb] in A. rewrite !Nat.eqb_refl in A. exact A.
    + intros b o A1 A2 A3. apply B. cbn [In]. intros [E|[E|[E|[]]]]; congruence.
  - cbn [In]. intros [E|[E|[]]]; congruence.
  - intros r b Hr Hb. apply Hcap; auto. cbn [In] in *. tauto.
  - intros r b Hr Hb. unfold set1. destruct (Nat.eqb_spec b bi); [subst; apply HG; auto|exact Logic.I].
  - cbn [tlegal tin tout tfwd In]. split; [auto|]. split; [auto|]. split; [auto|]. split; [|exact Logic.I].
    eexists. unfold set1. rewrite Nat.eqb_refl. reflexivity.
Qed.
Theorem roundtrip3 : forall sign b1 b2 b3 bw inplace G mem0 bsz0, (sign = 1 \/ sign = -1)%Z ->
  ~ In bw [b1; b2; b3] -> inplace = (b1 =? b2) -> inplace = (b2 =? b3) ->
  (forall r b, r < P -> In b [bw; b1; b2; b3] -> words X Y Z P r <= bsz0 r b) ->
  (forall r, r < P -> rows3 X Y Z P G r (mem0 r b1)) ->
  always_ends C P (initial c mem0 bsz0 (fun r =>
       Forward3 c sign inplace bw r b1 (Some b2) (Backward3 c sign inplace bw r b2 (Some b3)
         (normalize (X * Y * Z) (ldim X P r * Y * Z) b3 (Halt C)))))
    (fun gf => forall r, r < P -> rows3 X Y Z P G r (mem C (snd (gf r)) b3)).
Proof.
  intros sign b1 b2 b3 bw inplace G mem0 bsz0 Hs Nb E1 E2 Hcap HG.
  pose proof (round_run c eq_refl sign four3 h3four cR3 cC3 r3 c3 bsz0 mem0 b1 b2 b3 bw inplace G Hs Nb E1 E2) as H.
  rewrite SZ in H. specialize (H Hcap).
  assert (EQ : (fun r => (seqc C (histC c sign cR3 cC3 bw [mkT true b1 b2; mkT false b2 b3] r)
       (normalize (cN c * cM c * Z) (count (cN c) (cP c) r * cM c * Z) b3) (Halt C), start_loc C c r (mem0 r) (bsz0 r)))
     = initial c mem0 bsz0 (fun r =>
       Forward3 c sign inplace bw r b1 (Some b2) (Backward3 c sign inplace bw r b2 (Some b3)
         (normalize (X * Y * Z) (ldim X P r * Y * Z) b3 (Halt C))))).
  { apply functional_extensionality. intros r. unfold initial. f_equal.
    cbn [histC]. unfold oneC. cbn [tfwd tin tout].
    unfold fwdC, bwdC, Forward3, Backward3, iForward3, iBackward3, setout, ForwardWait3, BackwardWait3, nonnull.
    rewrite <- E1, <- E2, Bool.eqb_reflx. reflexivity. }
  rewrite <- EQ. apply H. exact HG.
Qed.
Theorem null3 : forall sign b bw G mem0 bsz0, b <> bw ->
  (forall r b', r < P -> In b' [b; bw] -> words X Y Z P r <= bsz0 r b') ->
  ((forall r, r < P -> rows3 X Y Z P G r (mem0 r b)) ->
   exists k g1, steps C false P k (initial c mem0 bsz0 (fun r => Forward3 c sign true bw r b None (Halt C))) g1 /\ bad C P g1) /\
  ((forall r, r < P -> cols3 X Y Z P G r (mem0 r b)) ->
   exists k g1, steps C false P k (initial c mem0 bsz0 (fun r => Backward3 c sign true bw r b None (Halt C))) g1 /\ bad C P g1).
Proof.
  intros sign b bw G mem0 bsz0 N Hcap. split; intros HG.
  - unfold initial, Forward3, iForward3, setout, ForwardWait3. rewrite Nat.eqb_refl. cbn [Bool.eqb].
    eapply (null_bad c (fun r => seqc C (cR3 sign b b r) (localize c bw r true b)) (fun r => ldim (cM c) (cP c) r * cL c) _ [bw; b] bsz0 mem0
      (set1 b (Some (true, G)) (fun _ => None))) with (fr := [bw; b]).
    + intros r b' Hr Hb. rewrite SZ. apply Hcap; auto. cbn [In] in *. tauto.
    + intros r b' Hr Hb. rewrite SZ. unfold set1. destruct (Nat.eqb_spec b' b); [subst; apply HG; auto|exact Logic.I].
    + eapply coll_seq.
      * eapply (rows_coll c cR3 r3 [b] bw bsz0 mem0 sign b b); cbn [In]; auto. apply incl_refl. unfold set1. rewrite Nat.eqb_refl. reflexivity.
      * apply (coll_call c); cbn [In]; auto. unfold legal_call. cbn [cin cout cdir In]. repeat split; auto.
        eexists. unfold set1. rewrite Nat.eqb_refl. reflexivity.
    + apply Nat.mul_pos_pos; [apply (first_active c Y HY)|exact HZ].
  - unfold initial, Backward3, iBackward3, setout, BackwardWait3. rewrite Nat.eqb_refl. cbn [Bool.eqb].
    eapply (null_bad c (fun r => seqc C (cC3 (- sign)%Z b b r) (localize c bw r false b)) (fun r => ldim (cN c) (cP c) r) _ [bw; b] bsz0 mem0
      (set1 b (Some (false, G)) (fun _ => None))) with (fr := [bw; b]).
    + intros r b' Hr Hb. rewrite SZ. apply Hcap; auto. cbn [In] in *. tauto.
    + intros r b' Hr Hb. rewrite SZ. unfold set1. destruct (Nat.eqb_spec b' b); [subst; apply HG; auto|exact Logic.I].
    + eapply coll_seq.
      * eapply (cols_coll c cC3 c3 [b] bw bsz0 mem0 (- sign) b b); cbn [In]; auto. apply incl_refl. unfold set1. rewrite Nat.eqb_refl. reflexivity.
      * apply (coll_call c); cbn [In]; auto. unfold legal_call. cbn [cin cout cdir In]. repeat split; auto; try discriminate.
        eexists. unfold set1. rewrite Nat.eqb_refl. reflexivity.
    + apply (first_active c X HX).
Qed.
End Three.
