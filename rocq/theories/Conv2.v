(** Convolution::backwardPad, one pass of the residue loop, copy back, normalize. *)
From Coq Require Import Reals ZArith Arith Lia List Bool Permutation.
From Verif Require Import CNum Sums Roots Mem VecModel VecProofs PadModel PadKernels Loops
  PadLemmas PadMath PadGeom Fwd1 FwdAll PadForward PadRound ConvMath ConvModel Conv1 Xf XfProofs.

Section T.
Variable c : conv.
Notation t := (cpad c).
Hypothesis Hwf : wf t.
Hypothesis HS : gS t = 1.
Notation L := (gL t). Notation A := (aA t). Notation B := (aB t).
Notation m := (gm t). Notation q := (gq t). Notation M := (gM t). Notation p := (gp t).
Notation OS := (OS c). Notation NN := (NN c).

(** pad(W) re-establishes the zero padding *)
Lemma padW_spec w (m0 : mem) (K : mem -> Prop) :
  (forall i, i < OS -> m0 (w + i) <> Unalloc) ->
  (forall m',
     (repad t = true -> q <> 1 -> p = 1 -> forall i, i < OS -> L <= i mod m -> m' (w + i) = Val C0) ->
     (forall a, a < w \/ w + OS <= a -> m' a = m0 a) ->
     (forall a, m0 a <> Unalloc -> m' a <> Unalloc) -> K m') ->
  WP (padW t w) m0 K.
Proof.
  intros Ha HK. pose proof (OS_eq c HS) as EO. unfold Conv1.OS in *. destruct t as [s|s].
  - rewrite EO in *. apply (padW1_spec s Hwf w m0 K HS); [exact Ha|]. exact HK.
  - apply WP_skip. apply HK; auto. intros _ Hq Hp. destruct (gp_q1 (CP s) Hwf Hq Hp).
Qed.

(** backward with an explicit workspace w0 = None (in place) or Some w0 *)
Lemma bwd1 f F W0 r (y acc : nat -> C) (m0 : mem) (K : mem -> Prop) :
  goverwrite t = false -> In r (residues t) ->
  dj f L F OS ->
  match W0 with None => ainplace t = true | Some w => ainplace t = false /\ dj f L w OS /\ dj F OS w OS /\
     (forall i, i < OS -> m0 (w + i) <> Unalloc) end ->
  (forall i, i < noutputs t r -> m0 (F + i) = Val (y i)) ->
  (forall i, i < L -> m0 (f + i) <> Unalloc) ->
  (r <> 0 -> forall j, j < L -> m0 (f + j) = Val (acc j)) ->
  (forall m',
     (forall j, j < L -> m' (f + j) = Val (bpass t r acc y j)) ->
     (forall a, a < f \/ f + L <= a -> a < F \/ F + OS <= a -> (match W0 with None => True | Some w => a < w \/ w + OS <= a end) -> m' a = m0 a) ->
     (forall a, m0 a <> Unalloc -> m' a <> Unalloc) -> K m') ->
  WP (backward t F f r W0) m0 K.
Proof.
  intros How Hr HfF HW Hy Hfa Hacc HK. pose proof (HC1 c Hwf HS) as HC. pose proof (nout_OS c Hwf HS r) as HN.
  pose proof (noutputs_pos t Hwf r) as HN1.
  apply backward_spec with (y := fun i _ => y i) (acc := fun i _ => acc i); auto; rewrite ?HS, ?HC.
  - destruct W0 as [w|]; cbn [getW].
    + destruct HW as (Hin & _ & HFw & _). rewrite Hin. symmetry. apply Nat.eqb_neq. unfold dj in HFw. lia.
    + rewrite HW, Nat.eqb_refl. reflexivity.
  - apply dj_sepbuf. destruct W0 as [w|]; cbn [getW]; unfold dj in *; lia.
  - apply dj_sepbuf. unfold dj in *; lia.
  - destruct W0 as [w|]; cbn [getW]; [right|auto]. apply dj_sepbuf. unfold dj in *; lia.
  - intros i e Hi He. replace (F + 1 * i + e) with (F + i) by lia. auto.
  - intros i e Hi He. destruct W0 as [w|]; cbn [getW].
    + replace (w + 1 * i + e) with (w + i) by lia. apply HW. lia.
    + replace (F + 1 * i + e) with (F + i) by lia. rewrite Hy by assumption. discriminate.
  - intros i e Hi He. replace (f + 1 * i + e) with (f + i) by lia. auto.
  - intros H0 j e Hj He. replace (f + 1 * j + e) with (f + j) by lia. auto.
  - intros m' HV HF Hal. apply HK; [| |assumption].
    + intros j Hj. specialize (HV j 0 Hj ltac:(lia)). replace (f + 1 * j + 0) with (f + j) in HV by lia. exact HV.
    + intros a Ha Hb Hc. apply HF.
      * intros (i & e & Hi & He & E). lia.
      * intros (i & e & Hi & He & E). destruct W0 as [w|]; cbn [getW] in E; lia.
      * intros (i & e & Hi & He & E). lia.
Qed.

Lemma cbackward_spec (F h : parr) (Fa ha : nat -> addr) W0 r lo hi (Y acc : nat -> nat -> C) (m0 : mem) (K : mem -> Prop) :
  goverwrite t = false -> In r (residues t) -> lo <= hi ->
  (forall b, lo <= b < hi -> h b = Some (ha b) /\ F b = Some (Fa b)) ->
  (forall b b', lo <= b < hi -> lo <= b' < hi -> dj (ha b) L (Fa b') OS) ->
  (forall b b', lo <= b < hi -> lo <= b' < hi -> b <> b' -> dj (Fa b) OS (Fa b') OS) ->
  (forall b b', lo <= b < hi -> lo <= b' < hi -> b <> b' -> dj (ha b) L (ha b') L) ->
  match W0 with None => ainplace t = true | Some w => ainplace t = false /\
     (forall b, lo <= b < hi -> dj (ha b) L w OS /\ dj (Fa b) OS w OS) /\
     (forall i, i < OS -> m0 (w + i) <> Unalloc) end ->
  (forall b i, lo <= b < hi -> i < noutputs t r -> m0 (Fa b + i) = Val (Y b i)) ->
  (forall b i, lo <= b < hi -> i < L -> m0 (ha b + i) <> Unalloc) ->
  (r <> 0 -> forall b j, lo <= b < hi -> j < L -> m0 (ha b + j) = Val (acc b j)) ->
  (forall m',
     (forall b j, lo <= b < hi -> j < L -> m' (ha b + j) = Val (bpass t r (acc b) (Y b) j)) ->
     (forall ad, outb lo hi ha L ad -> outb lo hi Fa OS ad -> (match W0 with None => True | Some w => ad < w \/ w + OS <= ad end) -> m' ad = m0 ad) ->
     (forall ad, m0 ad <> Unalloc -> m' ad <> Unalloc) -> K m') ->
  WP (cbackward c F h r lo hi W0) m0 K.
Proof.
  intros How Hr Hlh Hp HhF HFF Hhh HW HY Hha Hacc HK. unfold cbackward.
  set (I := fun k (mm : mem) =>
    (forall b j, lo <= b < lo + k -> j < L -> mm (ha b + j) = Val (bpass t r (acc b) (Y b) j)) /\
    (forall ad, outb lo (lo + k) ha L ad -> outb lo (lo + k) Fa OS ad -> (match W0 with None => True | Some w => ad < w \/ w + OS <= ad end) -> mm ad = m0 ad) /\
    (forall ad, m0 ad <> Unalloc -> mm ad <> Unalloc)).
  apply WP_mono with (Q := I (hi - lo)).
  { intros mm (H1 & H2 & H3). replace (lo + (hi - lo)) with hi in * by lia. apply HK; assumption. }
  apply WP_cfor.
  { split; [intros; lia|]. auto. }
  intros k mm Hk (H1 & H2 & H3). set (b := lo + k). unfold pget.
  assert (Hb : lo <= b < hi) by (unfold b; lia). destruct (Hp b Hb) as [-> ->].
  pose proof (nout_OS c Hwf HS r) as HN.
  apply bwd1 with (y := Y b) (acc := acc b); auto.
  - destruct W0 as [w|]; [|assumption]. destruct HW as (Hin & HWd & HWa). destruct (HWd b Hb) as [Hd1 Hd2].
    split; [assumption|]. split; [assumption|]. split; [assumption|]. intros i Hi. apply H3, HWa. assumption.
  - intros i Hi. rewrite H2; [auto| | |].
    + intros b' Hb'. pose proof (HhF b' b ltac:(lia) Hb) as Hd. unfold dj in Hd. lia.
    + intros b' Hb'. pose proof (HFF b b' Hb ltac:(lia) ltac:(lia)) as Hd. unfold dj in Hd. lia.
    + destruct W0 as [w|]; [|exact Logic.I].
      destruct HW as (Hin & HWd & HWa). destruct (HWd b Hb) as [_ Hd]. unfold dj in Hd. lia.
  - intros H0 j Hj. rewrite H2; [auto| | |].
    + intros b' Hb'. pose proof (Hhh b b' Hb ltac:(lia) ltac:(lia)) as Hd. unfold dj in Hd. lia.
    + intros b' Hb'. pose proof (HhF b b' Hb ltac:(lia)) as Hd. unfold dj in Hd. lia.
    + destruct W0 as [w|]; [|exact Logic.I].
      destruct HW as (Hin & HWd & HWa). destruct (HWd b Hb) as [Hd _]. unfold dj in Hd. lia.
  - intros m' HV HF Hal. split; [|split; [|auto]].
    + intros b' j Hb' Hj. destruct (Nat.eq_dec b' b) as [->|Hne]; [apply HV; assumption|].
      rewrite HF; [apply H1; [unfold b in *; lia|assumption]| | |].
      * pose proof (Hhh b' b ltac:(lia) Hb Hne) as Hd. unfold dj in Hd. lia.
      * pose proof (HhF b' b ltac:(lia) Hb) as Hd. unfold dj in Hd. lia.
      * destruct W0 as [w|]; [|exact Logic.I].
        destruct HW as (Hin & HWd & HWa). destruct (HWd b' ltac:(lia)) as [Hd _]. unfold dj in Hd. lia.
    + intros ad Had Hb' Hw. rewrite HF.
      * apply H2; [eapply outb_mono; [eassumption|lia|lia|lia]|eapply outb_mono; [eassumption|lia|lia|lia]|assumption].
      * apply Had. unfold b. lia.
      * apply Hb'. unfold b. lia.
      * assumption.
Qed.

(** which workspace the backward passes use: W itself or the spare block F[B] *)
Definition W0ok (Fa : nat -> addr) (lo hi : nat) : Prop :=
  cW0 c = cW c /\ cPadNone c = false \/
  (exists s, s < NN /\ ~ (lo <= s < hi) /\ cW0 c = Some (Fa s) /\ ainplace t = false).

Lemma cbackwardPad_spec (F h : parr) (Fa ha : nat -> addr) r lo hi (Y acc : nat -> nat -> C) (m0 : mem) (K : mem -> Prop) :
  goverwrite t = false -> In r (residues t) -> lo <= hi -> hi <= NN ->
  (forall b, lo <= b < hi -> h b = Some (ha b) /\ F b = Some (Fa b)) ->
  (forall b b', lo <= b < hi -> b' < NN -> dj (ha b) L (Fa b') OS) ->
  djb NN Fa OS ->
  (forall b b', lo <= b < hi -> lo <= b' < hi -> b <> b' -> dj (ha b) L (ha b') L) ->
  (forall b, lo <= b < hi -> Wdj c (ha b) L) -> (forall b, b < NN -> Wdj c (Fa b) OS) ->
  Wok c m0 -> W0ok Fa lo hi -> allocb NN Fa OS m0 ->
  (forall b i, lo <= b < hi -> i < noutputs t r -> m0 (Fa b + i) = Val (Y b i)) ->
  (forall b i, lo <= b < hi -> i < L -> m0 (ha b + i) <> Unalloc) ->
  (r <> 0 -> forall b j, lo <= b < hi -> j < L -> m0 (ha b + j) = Val (acc b j)) ->
  (forall m',
     (forall b j, lo <= b < hi -> j < L -> m' (ha b + j) = Val (bpass t r (acc b) (Y b) j)) ->
     (forall ad, outb lo hi ha L ad -> outW c ad ->
        (outb lo hi Fa OS ad /\ (ainplace t = true \/ cW0 c = cW c \/ outb 0 NN Fa OS ad)) -> m' ad = m0 ad) ->
     Wok c m' ->
     (forall ad, m0 ad <> Unalloc -> m' ad <> Unalloc) -> K m') ->
  WP (cbackwardPad c F h r lo hi (cW0 c)) m0 K.
Proof.
  intros How Hr Hlh Hhi Hp HhF HFF Hhh HhW HFW HW HW0 HFa HY Hha Hacc HK. unfold cbackwardPad. apply WP_seq.
  apply cbackward_spec with (Fa := Fa) (ha := ha) (Y := Y) (acc := acc); auto.
  { intros; apply HhF; lia. }
  { intros; apply HFF; lia. }
  { destruct HW0 as [[E1 E2]|(s & Hs & Hs' & E & Hin)].
    - rewrite E1. unfold Wok, Wdj in *. destruct (cW c) as [w|]; [|assumption].
      destruct HW as (Hin & HWa & _). split; [assumption|]. split; [|assumption].
      intros b Hb. split; [apply HhW; assumption|apply HFW; lia].
    - rewrite E. split; [assumption|]. split; [|intros; apply HFa; assumption].
      intros b Hb. split; [apply HhF; assumption|]. apply HFF; lia. }
  intros m1 HV HF Hal.
  destruct (cW c) as [w|] eqn:EW.
  2:{ (* in place *)
      apply WP_skip. unfold Wok, outW in *. rewrite EW in *. apply HK; auto.
      intros ad H1 _ [H2 H3]. apply HF; [assumption|assumption|].
      destruct HW0 as [[E1 E2]|(s & Hs & Hs' & E & Hin)]; [rewrite E1, EW; exact I|].
      rewrite E. destruct H3 as [H3|[H3|H3]]; [congruence|congruence|]. apply H3. lia. }
  assert (HW' : ainplace t = false /\ (forall i, i < OS -> m0 (w + i) <> Unalloc) /\
      (repad t = true -> q <> 1 -> p = 1 -> forall i, i < OS -> L <= i mod m -> m0 (w + i) = Val C0)).
  { unfold Wok in HW. rewrite EW in HW. assumption. }
  destruct HW' as (Hin & HWa & HWz).
  destruct HW0 as [[E1 E2]|(s & Hs & Hs' & E & _)].
  - rewrite EW in E1. rewrite E1 in *. cbn [opt_eqb]. rewrite Nat.eqb_refl, E2.
    apply padW_spec; [intros i Hi; apply Hal, HWa; assumption|].
    intros m2 HZ HF2 Hal2. apply HK; auto.
    + intros b j Hb Hj. rewrite HF2; [apply HV; assumption|].
      pose proof (HhW b Hb) as Hd. unfold Wdj in Hd. rewrite EW in Hd. unfold dj in Hd. lia.
    + intros ad H1 H2 [H3 _]. unfold outW in H2. rewrite EW in H2. rewrite HF2 by assumption. apply HF; assumption.
    + unfold Wok. rewrite EW. split; [assumption|]. split; [|assumption]. intros i Hi. apply Hal2, Hal, HWa. assumption.
  - assert (Hne : w <> Fa s).
    { pose proof (HFW s Hs) as Hd. unfold Wdj in Hd. rewrite EW in Hd. unfold dj in Hd.
      pose proof (OS_eq c HS). pose proof (noutputs_pos t Hwf 0). pose proof (nout_OS c Hwf HS 0). lia. }
    rewrite E in *. cbn [opt_eqb]. apply Nat.eqb_neq in Hne. rewrite Hne. apply WP_skip. apply HK; auto.
    + intros ad H1 H2 [H3 H4]. apply HF; [assumption|assumption|]. destruct H4 as [H4|[H4|H4]]; [congruence| |apply H4; lia].
      injection H4 as H4. apply Nat.eqb_neq in Hne. congruence.
    + apply (Wok_frame c HS m0); [assumption|]. intros ad Had. unfold outW in Had. rewrite EW in Had. apply HF.
      * intros b Hb. pose proof (HhW b Hb) as Hd. unfold Wdj in Hd. rewrite EW in Hd. unfold dj in Hd. lia.
      * intros b Hb. pose proof (HFW b ltac:(lia)) as Hd. unfold Wdj in Hd. rewrite EW in Hd. unfold dj in Hd. lia.
      * pose proof (HFW s Hs) as Hd. unfold Wdj in Hd. rewrite EW in Hd. unfold dj in Hd. lia.
Qed.
End T.
