(** Centered backward transforms, p=2: one pass. *)
From Coq Require Import Reals ZArith Arith Lia List Bool.
From Verif Require Import CNum Sums Roots Mem VecModel VecProofs PadModel PadKernels Loops
  PadLemmas PadMath PadGeom Fwd1 PadIndex PadForward Fill CenModel CenMath CenGeom CenFft CenF2 CenPass CenStage CenTw CenOv CenExp CenBack CenB2 CenBPass CenFI.

Lemma bdone_2 SS CC f L F W N gw g (m0 m1 m2 : mem) :
  sets (fun i => W + SS * i) CC gw N m0 m1 -> sets (fun i => f + SS * i) CC g L m1 m2 ->
  bdone SS CC f L F W N g m0 m2.
Proof.
  intros (A1 & A2 & A3) (B1 & B2 & B3). split; [exact B1|]. split; [|auto].
  intros a Ha Hb _. rewrite B2, A2; [reflexivity| |]; apply outs_inbuf; assumption.
Qed.
Ltac atl El Eh off Ql Qh X := match goal with
  Hinj : injrows ?ad ?cc _, G1 : _ + _ = _, G2 : _ + _ = aL _ |- _ =>
  match goal with gg : nat -> nat -> C |- _ =>
  eapply (WP_at2s ad cc gg _ Hinj _ _ _ _ G1 G2 El Eh off _ _ Ql Qh); [X|intros; cbv beta; intuition lia..| |] end end.

Section T.
Variable t : pad.
Hypothesis Hwf : kwf t.
Hypothesis Hq : kq t <> 1.
Hypothesis Hp : kp t = 2.
Notation L := (aL t).  Notation CC := (aC t).  Notation SS := (aS t).  Notation m := (am t).
Notation q := (kq t).   Notation n := (kn t).   Notation M := (kM t).
Notation D := (kD t).  Notation D0 := (kD0 t). Notation l := (kl t).
Notation H := (L / 2). Notation mH := (m - L / 2). Notation LH := (L - L / 2).

Lemma cbackward2_gpass F f r W :
  cbackward2 t F f r W = gbpass t (cbackward2_zero1 t) (cbackward2_zero2 t) (cbackward2_residue1 t) (cbackward2_residue2 t) q m F f r W.
Proof. reflexivity. Qed.

Lemma backward2_ok f F0 W r y acc (m0 : mem) (W0 := getW F0 W) (E := kblocks t r) : SS = 1 ->
  passr (sh t) r -> ainplace t = (W0 =? F0) ->
  sepbuf 1 1 f L W0 (l * E) -> (W0 = F0 \/ sepbuf 1 1 W0 (l * E) F0 (l * E)) ->
  (forall i c, i < l * E -> c < 1 -> m0 (F0 + 1 * i + c) = Val (y i c)) ->
  (forall i c, i < l * E -> c < 1 -> m0 (W0 + 1 * i + c) <> Unalloc) ->
  (forall j c, j < L -> c < 1 -> m0 (f + 1 * j + c) <> Unalloc) ->
  (r <> 0 -> forall j c, j < L -> c < 1 -> m0 (f + 1 * j + c) = Val (acc j c)) ->
  WP (cbackward2 t F0 f r W) m0 (bdone 1 1 f L F0 W0 (l * E)
    (fun j c => Cadd (if r =? 0 then C0 else acc j c) (bsum t E (krho t r) y j c)) m0).
Proof.
  intros HS Hpass Hin Hsep HWF Hsrc HWa Hfa Hacc. rewrite cbackward2_gpass.
  pose proof (l2 t Hq Hp) as Hl. pose proof (q2 t Hwf Hq Hp) as Hqn.
  apply gbpass_ok; try assumption; try (symmetry; assumption).
  - apply (backward2_zero1_ok t Hwf Hq Hp).
  - intros He. rewrite <- Hqn. apply (backward2_zero2_ok t Hwf Hq Hp). assumption.
  - intros. apply (backward2_residue1_ok t Hwf Hq Hp). lia.
  - intros. apply (backward2_residue2_ok t Hwf Hq Hp). lia.
Qed.

Lemma backward2Many_ok f F W r y acc (m0 : mem) (W0 := getW F W) : SS <> 1 ->
  r < n -> ainplace t = (W0 =? F) ->
  sepbuf SS CC f L W0 m -> (W0 = F \/ sepbuf SS CC W0 m F m) ->
  (forall i c, i < m -> c < CC -> m0 (F + SS * i + c) = Val (y i c)) ->
  (forall i c, i < m -> c < CC -> m0 (W0 + SS * i + c) <> Unalloc) ->
  (forall j c, j < L -> c < CC -> m0 (f + SS * j + c) <> Unalloc) ->
  (r <> 0 -> forall j c, j < L -> c < CC -> m0 (f + SS * j + c) = Val (acc j c)) ->
  WP (cbackward2Many t F f r W) m0 (bdone SS CC f L F W0 m
    (fun j c => Cadd (if r =? 0 then C0 else acc j c) (bsum t 1 (fun _ => Z.of_nat r) y j c)) m0).
Proof.
  intros HS Hr Hin Hsep HWF Hsrc HWa Hfa Hacc0. pose proof (rg2 t Hwf Hq Hp) as Hg. pose proof (k_CS t Hwf) as HCS.
  pose proof (k_C t Hwf) as HC1.
  unfold cbackward2Many. cbv zeta. fold W0. apply WP_seq.
  eapply WP_mono; [|apply (rowsN1_ok t Hwf Hq (-1) F W0 y m0); try assumption].
  2:{ rewrite Hin. apply Nat.eqb_sym. }
  2:{ destruct HWF as [|HW]; [auto|right; apply sepbuf_sym; assumption]. }
  intros m1 Hw. pose proof Hw as (HA & S2 & S3).
  assert (Hal : forall j c, j < L -> c < CC -> m1 (f + SS * j + c) <> Unalloc) by (intros; apply S3; auto).
  assert (Hacc1 : r <> 0 -> forall j c, j < L -> c < CC -> m1 (f + SS * j + c) = Val (acc j c)).
  { intros Hr0 j c Hj Hc. rewrite S2; [apply Hacc0; assumption|]. intros i c' Hi Hc'. apply Hsep; assumption. }
  match goal with |- WP _ _ (bdone _ _ _ _ _ _ _ ?gg _) => set (g := gg) end.
  match goal with |- WP ?cc _ _ => cut (forall K : mem -> Prop, (forall m2, sets (fun i => f + SS * i) CC g L m1 m2 -> K m2) -> WP cc m1 K) end.
  { intros Hk. apply Hk. intros m2 H2. eapply bdone_2; eassumption. }
  intros K HK. destruct (g2 t Hwf Hq Hp) as [G1 G2].
  assert (Hinj : injrows (fun i => f + SS * i) CC L) by (apply buf_inj; lia).
  assert (Elo : forall s c, mH <= s -> f + SS * s - SS * mH + c = f + SS * (s - mH) + c) by (intros; apply sub_off; assumption).
  assert (Ehi : forall s c, f + SS * H + SS * s + c = f + SS * (H + s) + c) by (intros; lia).
  assert (Dne : forall s c, c < CC -> mH <= s < m -> f + SS * (s - mH) + c <> f + SS * (H + s) + c).
  { intros s c Hc Hs E. assert (Ex : SS * (s - mH) = SS * (H + s)) by lia. apply Nat.mul_cancel_l in Ex; lia. }
  assert (Hfin : forall (Ql Qh : nat -> Prop) m9, (forall s, mH <= s < m -> Ql s) -> (forall s, s < LH -> Qh s) ->
    dn (fun i => f + SS * i) CC g (at2 H LH mH m Ql Qh) m1 m9 -> K m9).
  { intros Ql Qh m9 F1 F2 F3. apply HK. apply (at2_sets _ _ _ _ _ _ _ _ G1 G2 Ql Qh); assumption. }
  assert (Row : forall (Q Q' : nat -> Prop) inner (m8 : mem), L - 2 * H = 1 ->
    (forall s, mH <= s < m -> Q s) -> (forall s, s < H -> Q' s) -> (~ Q' H) ->
    dn (fun i => f + SS * i) CC g (at2 H LH mH m Q Q') m1 m8 ->
    (forall c, c < CC -> wpe (outs (fun i => f + SS * i) CC L) (row (fun i => f + SS * i) g (H + H) c) (inner c) m1) ->
    WP (ParFor 0 CC inner) m8 K).
  { intros Q Q' inner m8 Ho Q1 Q2 Q3 Hd Hb.
    eapply (WP_parcols (fun i => f + SS * i) CC g L Hinj (at2 H LH mH m Q Q') (fun i => i = H + H)); [exact Hd| | | |].
    - intros i. apply (at2_lt L H LH mH m G1 G2).
    - intros i ->. split; [lia|]. intros [(s & Hs & E & _)|(s & Hs & E & Hq')]; [lia|]. replace s with H in Hq' by lia. auto.
    - intros c Hc. eapply wpe_iff; [|apply Hb; assumption]. intros a v. split; [intros Hx; exists (H + H); auto|intros (i & -> & Hx); assumption].
    - intros m9 H9. apply (Hfin (fun _ => True) (fun _ => True)); [auto|auto|].
      eapply dn_iff; [|exact H9]. intros i. split.
      + intros [[(s & Hs & E & _)|(s & Hs & E & _)]| ->]; [left; exists s; auto|right; exists s; auto|right; exists H; split; [lia|auto]].
      + intros [(s & Hs & E & _)|(s & Hs & E & _)].
        * left; left. exists s. auto.
        * destruct (Nat.eq_dec s H) as [->|]; [auto|]. left; right. exists s. split; [assumption|]. split; [assumption|]. apply Q2. lia. }
  destruct (Nat.eqb_spec r 0) as [Hr0|Hr0].
  - assert (Glo : forall s c, mH <= s < m -> g (s - mH) c = rowv m (-1) y s c).
    { intros s c Hs. unfold g. rewrite (bsum_lo t Hwf Hq Hp) by assumption. cbn [Csum]. rewrite Nat.mul_0_r, Hr0. cbn [Z.of_nat]. rewrite Z.mul_0_l, zeta_0. cbn [Nat.add]. ring. }
    assert (Ghi : forall s c, s < m -> g (H + s) c = rowv m (-1) y s c).
    { intros s c Hs. unfold g. rewrite (bsum_hi t Hwf Hq Hp) by assumption. cbn [Csum]. rewrite Nat.mul_0_r, Hr0. cbn [Z.of_nat]. rewrite Z.mul_0_l, zeta_0, Cconj_C1. cbn [Nat.add]. ring. }
    apply WP_seq.
    atl True False 0 (fun s => H <= s) (fun _ : nat => False) ltac:(apply at2_nil).
    { intros s Hs. cbn [Nat.add]. apply lset_at2_lo; [lia|]. apply (lset_cols1 _ _ _ _ Hinj); [lia|]. intros c Hc. rewrite Elo by lia.
      wrd s c. apply row_w1; [lia|symmetry; apply Glo; lia|sal (s - mH) c]. }
    intros m2 H2. apply WP_seq.
    atl True True 0 (fun s => mH <= s) (fun s => mH <= s < H) ltac:(exact H2).
    { intros s Hs. cbn [Nat.add]. apply lset_at2_both; [lia|lia|]. apply (lset_cols2 _ _ _ _ Hinj); [lia|lia|]. intros c Hc. rewrite Elo, Ehi by lia.
      wrd s c. apply (row_w2c (fun i => f + SS * i) g _ _ _ _ _ _ _ _ (fun y => y)); [reflexivity|reflexivity|apply Dne; lia|symmetry; apply Glo; lia|symmetry; apply Ghi; lia|sal (s - mH) c|sal (H + s) c]. }
    intros m3 H3. apply WP_seq.
    atl False True 0 (fun s => mH <= s) (fun s => s < H) ltac:(exact H3).
    { intros s Hs. cbn [Nat.add]. apply lset_at2_hi; [lia|]. apply (lset_cols1 _ _ _ _ Hinj); [lia|]. intros c Hc. rewrite Ehi by lia.
      wrd s c. apply row_w1; [lia|symmetry; apply Ghi; lia|sal (H + s) c]. }
    intros m4 H4. destruct (Nat.ltb_spec 0 (L - 2 * H)) as [Ho|Ho].
    + eapply Row; [lia| | | |exact H4|]; [intros; cbv beta; lia..|]. intros c Hc. rewrite Ehi.
      wrd (L / 2) c. apply row_w1; [lia|symmetry; apply Ghi; lia|sal (H + H) c].
    + apply WP_skip. eapply Hfin; [| |exact H4]; intros; cbv beta; lia.
  - specialize (Hacc1 Hr0). pose proof Hacc1 as Hacc.
    assert (Hr1 : 1 <= r < q) by (rewrite (q2 t Hwf Hq Hp); lia).
    assert (Glo : forall s c, mH <= s < m -> g (s - mH) c = Cadd (acc (s - mH) c) (zeta M (Z.of_nat r * (Z.of_nat m - Z.of_nat s)) * rowv m (-1) y s c)%C).
    { intros s c Hs. unfold g. rewrite (bsum_lo t Hwf Hq Hp) by assumption. cbn [Csum]. rewrite Nat.mul_0_r. destruct (Nat.eqb_spec r 0); [contradiction|]. cbn [Nat.add]. ring. }
    assert (Ghi : forall s c, s < m -> g (H + s) c = Cadd (acc (H + s) c) (Cconj (zeta M (Z.of_nat r * Z.of_nat s)) * rowv m (-1) y s c)%C).
    { intros s c Hs. unfold g. rewrite (bsum_hi t Hwf Hq Hp) by assumption. cbn [Csum]. rewrite Nat.mul_0_r. destruct (Nat.eqb_spec r 0); [contradiction|]. cbn [Nat.add]. ring. }
    apply WP_seq.
    atl True False 0 (fun s => H <= s) (fun _ : nat => False) ltac:(apply at2_nil).
    { intros s Hs. cbn [Nat.add]. apply lset_at2_lo; [lia|]. eapply lset_tget; [apply zqm2m; auto; lia|].
      apply (lset_cols1 _ _ _ _ Hinj); [lia|]. intros c Hc. rewrite Elo by lia.
      eapply row_r1; [reflexivity|apply (Hacc (s - mH) c); lia|].
      wrd s c. apply row_w1; [lia|rewrite vadd_eq, ZMULTxy_eq; symmetry; apply Glo; lia|sal (s - mH) c]. }
    intros m2 H2. apply WP_seq.
    atl True True 0 (fun s => mH <= s) (fun s => mH <= s < H) ltac:(exact H2).
    { intros s Hs. cbn [Nat.add]. apply lset_at2_both; [lia|lia|].
      eapply lset_tget; [apply zqm2m; auto; lia|]. eapply lset_tget; [apply zqm2; auto; lia|].
      apply (lset_cols2 _ _ _ _ Hinj); [lia|lia|]. intros c Hc. rewrite Elo, Ehi by lia.
      wrd s c. eapply row_r2a; [reflexivity|apply (Hacc (s - mH) c); lia|].
      eapply row_w2r; [reflexivity|reflexivity|apply Dne; lia| | |sal (s - mH) c|apply (Hacc (H + s) c); lia].
      - rewrite vadd_eq, ZMULTxy_eq; symmetry; apply Glo; lia.
      - rewrite vadd_eq, ZMULTxy_conj_eq; symmetry; apply Ghi; lia. }
    intros m3 H3. apply WP_seq.
    atl False True 0 (fun s => mH <= s) (fun s => s < H) ltac:(exact H3).
    { intros s Hs. cbn [Nat.add]. apply lset_at2_hi; [lia|]. eapply lset_tget; [apply zqm2; auto; lia|].
      apply (lset_cols1 _ _ _ _ Hinj); [lia|]. intros c Hc. rewrite Ehi by lia.
      eapply row_r1; [reflexivity|apply (Hacc (H + s) c); lia|].
      wrd s c. apply row_w1; [lia|rewrite vadd_eq, ZMULTxy_conj_eq; symmetry; apply Ghi; lia|sal (H + s) c]. }
    intros m4 H4. destruct (Nat.ltb_spec 0 (L - 2 * H)) as [Ho|Ho].
    + rewrite (cget_some _ _ _ _ (zqm2 t Hq r H Hp Hr1 ltac:(lia))).
      eapply Row; [lia| | | |exact H4|]; [intros; cbv beta; lia..|]. intros c Hc. rewrite Ehi.
      eapply row_r1; [reflexivity|apply (Hacc (H + H) c); lia|].
      wrd (L / 2) c. apply row_w1; [lia|rewrite vadd_eq, ZMULTxy_conj_eq; symmetry; apply Ghi; lia|sal (H + H) c].
    + apply WP_skip. eapply Hfin; [| |exact H4]; intros; cbv beta; lia.
Qed.
End T.
