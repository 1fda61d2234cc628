(** Centered forward transforms, p>2, rows of S words. *)
From Coq Require Import Reals ZArith Arith Lia List Bool.
From Verif Require Import CNum Sums Roots Mem VecModel VecProofs PadModel PadKernels Loops
  PadLemmas PadMath PadGeom Fwd1 PadForward Fill CenModel CenMath CenGeom CenFft CenF2 CenPass CenStage CenTw CenFI.

Lemma sub_off2 f SS m m0 u s c : m0 <= u * m ->
  f + u * (SS * m) - SS * m0 + SS * s + c = f + SS * (u * m + s - m0) + c.
Proof.
  intros Hu. assert (E : exists d, u * m = m0 + d) by (exists (u * m - m0); lia). destruct E as [d E].
  replace (u * (SS * m)) with (SS * (u * m)) by lia. rewrite E. replace (m0 + d + s - m0) with (d + s) by lia.
  rewrite !Nat.mul_add_distr_l. lia.
Qed.
Lemma sub_off3 f SS a m0 s c : m0 <= a ->
  f + SS * a - SS * m0 + SS * s + c = f + SS * (a + s - m0) + c.
Proof.
  intros Hu. assert (E : exists d, a = m0 + d) by (exists (a - m0); lia). destruct E as [d ->].
  replace (m0 + d + s - m0) with (d + s) by lia. rewrite !Nat.mul_add_distr_l. lia.
Qed.

Section T.
Variable t : pad.
Hypothesis Hwf : kwf t.
Hypothesis Hq : kq t <> 1.
Hypothesis Hp : 2 < kp t.
Notation L := (aL t).  Notation CC := (aC t).  Notation SS := (aS t).  Notation m := (am t).
Notation q := (kq t).   Notation n := (kn t).   Notation M := (kM t).
Notation D := (kD t).  Notation D0 := (kD0 t). Notation P := (kP t). Notation l := (kl t).
Notation H := (kH t). Notation m0 := (km0 t). Notation m1 := (km1 t).

Lemma forwardInnerMany_ok f F W r x (mm : mem) (W0 := getW F W) : SS <> 1 ->
  r < n -> ainplace t = (W0 =? F) ->
  sepbuf SS CC f L W0 l -> (W0 = F \/ sepbuf SS CC W0 l F l) ->
  (forall j c, j < L -> c < CC -> mm (f + SS * j + c) = Val (x j c)) ->
  (forall i c, i < l -> c < CC -> mm (W0 + SS * i + c) <> Unalloc) ->
  (forall i c, i < l -> c < CC -> mm (F + SS * i + c) <> Unalloc) ->
  WP (cforwardInnerMany t f F r W) mm (fdone SS CC F W0 l (kout t (fun _ => Z.of_nat r) x) mm).
Proof.
  intros HS Hr Hin Hsep HWF Hsrc Hal HFa. pose proof (rgI t Hwf Hq Hp) as Hg. pose proof (k_CS t Hwf) as HCS.
  pose proof (lP t Hq) as Hl. 
  unfold cforwardInnerMany. cbv zeta. fold W0. rewrite <- (k_P t). apply WP_seq.
  set (rh := fun _ : nat => Z.of_nat r).
  assert (Hfin : forall m2, sets (fun i => W0 + SS * i) CC (cval t rh x) l mm m2 ->
    WP (cfor P (fun t' => fft (kfftm t 1) (W0 + kSm t * t') (F + kSm t * t'))) m2 (fdone SS CC F W0 l (kout t rh x) mm)).
  { intros m2 H2. rewrite Hl in *. apply (rowsN_out t Hwf Hq); assumption. }
  eapply WP_mono; [exact Hfin|]. clear Hfin.
  assert (Hinj : injrows (fun i => W0 + SS * i) CC l) by (apply buf_inj; lia).
  assert (Ehi : forall s c, m0 <= s -> f + SS * s - SS * m0 + c = f + SS * (s - m0) + c).
  { intros. apply sub_off. assumption. }
  assert (Elo : forall s c, f + SS * H + SS * s + c = f + SS * (H + s) + c) by (intros; lia).
  assert (Elo2 : forall u s c, f + SS * H + u * kSm t + SS * s + c = f + SS * (H + (u * m + s)) + c) by (intros; unfold kSm; lia).
  assert (Elo3 : forall a s c, f + SS * H + SS * a + SS * s + c = f + SS * (H + (a + s)) + c) by (intros; lia).
  assert (Ehi2 : forall u s c, m0 <= u * m -> f + u * kSm t - SS * m0 + SS * s + c = f + SS * (u * m + s - m0) + c).
  { intros. apply sub_off2. assumption. }
  assert (Ehi3 : forall a s c, m0 <= a -> f + SS * a - SS * m0 + SS * s + c = f + SS * (a + s - m0) + c).
  { intros. apply sub_off3. assumption. }
  set (A := cstA t rh x).
  pose proof (WP_pfx1 (fun i => W0 + SS * i) CC A l Hinj) as HL.
  pose proof (WP_pfx1o (fun i => W0 + SS * i) CC A l Hinj) as HLo.
  assert (Htw : forall m6 p, sets (fun i => W0 + SS * i) CC A l mm m6 ->
    (forall m7, (forall i c, i < l * 1 -> c < CC -> m7 (W0 + SS * i + c) = Val (colv m P 1 A i c)) ->
       WP p m7 (sets (fun i => W0 + SS * i) CC (cval t rh x) l m7)) ->
    WP (Seq (cfftpAll t 1 W0) p) m6 (sets (fun i => W0 + SS * i) CC (cval t rh x) l mm)).
  { intros m6 p S6 Hp7. apply WP_seq. eapply WP_mono; [|apply (cfftpAll_ok t Hwf Hq 1 W0 A m6); apply S6].
    intros m7 S7. eapply WP_mono; [|apply Hp7; rewrite Nat.mul_1_r; apply S7].
    intros m8 S8. eapply sets_trans; [exact S6|eapply sets_trans; [exact S7|exact S8]]. }
  assert (HN : m * P * 1 <= l) by lia. assert (Hm1 : 1 <= m) by lia. assert (HP1 : 1 <= P) by lia.
  destruct (Nat.eqb_spec r 0) as [E0|E0].
  - assert (R0 : forall b, rh b = 0%Z) by (intros; unfold rh; lia).
    apply WP_seq. eapply HL; [lia|apply pfx1_nil| |].
    { intros s Hs. apply (lset_cols1 _ _ _ _ Hinj); [lia|]. intros c Hc. rewrite Elo. srd (H + s) c.
      apply row_w1; [lia| |sal s c]. unfold A. rewrite a_lo0 by (assumption || lia). reflexivity. }
    intros m2 H2. apply WP_seq. eapply HL; [lia|exact H2| |].
    { intros s Hs. apply (lset_cols1 _ _ _ _ Hinj); [lia|]. intros c Hc. rewrite Elo, Ehi by lia. srd (s - m0) c. srd (H + s) c.
      apply row_w1; [lia| |sal s c]. unfold A. rewrite a_m0 by (assumption || lia). rewrite R0, zeta_0. ring. }
    intros m3 H3. apply WP_seq.
    eapply (WP_pfx1n (fun i => W0 + SS * i) CC A l Hinj m 1 (P - 1)); [lia|lia|lia| | |].
    { eapply pfx1_eq; [|exact H3]. lia. }
    { intros u Hu. assert (Hu1 : m <= u * m) by nia. assert (Hu2 : u * m + m <= (P - 1) * m) by nia.
      apply (lset_rows _ _ _ _ Hinj); [lia|]. intros s Hs. apply (lset_cols1 _ _ _ _ Hinj); [lia|]. intros c Hc.
      rewrite Ehi2, Elo2 by lia. srd (u * m + s - m0) c. srd (H + (u * m + s)) c.
      apply row_w1; [unfold kSm; lia| |unfold kSm; sal (u * m + s) c]. unfold A.
      rewrite a_mid0 by (assumption || lia). rewrite R0. cbn [Z.mul Z.opp]. rewrite !zeta_0. ring. }
    intros m4 H4.
    apply WP_seq. eapply (HLo ((P - 1) * m)); [lia|lia|eapply pfx1_eq; [|exact H4]; lia| |].
    { intros s Hs. apply (lset_cols1 _ _ _ _ Hinj); [lia|]. intros c Hc.
      rewrite Ehi3, Elo3 by lia. srd ((P - 1) * m + s - m0) c. srd (H + ((P - 1) * m + s)) c.
      apply row_w1; [lia| |sal ((P - 1) * m + s) c]. unfold A.
      rewrite a_mid0 by (assumption || lia). rewrite R0. cbn [Z.mul Z.opp]. rewrite !zeta_0. ring. }
    intros m5 H5. apply WP_seq. eapply (HLo ((P - 1) * m)); [lia|lia|exact H5| |].
    { intros s Hs. apply (lset_cols1 _ _ _ _ Hinj); [lia|]. intros c Hc. 
      rewrite Ehi3 by lia. srd ((P - 1) * m + s - m0) c.
      apply row_w1; [lia| |sal ((P - 1) * m + s) c]. unfold A.
      rewrite a_hi0 by (assumption || lia). rewrite R0. cbn [Z.mul Z.opp]. rewrite !zeta_0. ring. }
    intros m6 H6. apply Htw.
    { apply pfx1_sets. eapply pfx1_eq; [|exact H6]. lia. }
    clear m2 m3 m4 m5 m6 H2 H3 H4 H5 H6 HL HLo Htw Ehi Ehi2 Ehi3 Elo Elo2 Elo3.
    intros m7. set (adr := fun i => W0 + SS * i) in *. intros V7'.
    assert (V7 : forall i c, i < l * 1 -> c < CC -> m7 (adr i + c) = Val (colv m P 1 A i c)) by exact V7'. clear V7'.
    set (g := cval t rh x).
    apply (WP_dnfor adr CC g (fun u => at3 m P 1 (fun b u' s => s = 0 \/ u' < 1 + u))) with (m := m7).
    + apply tw_start; try assumption. intros b u s Hb Hu Hs [->|HQ]; [lia|]. replace u with 0 by lia. rewrite R0. lia.
    + intros u m8 Hu H8.
      eapply (WP_at3 adr CC g l Hinj m P 1 Hm1 HP1 HN (fun k b u' s => u' = 1 + u /\ s = k)
         (fun b u' s => s = 0 \/ u' < 1 + u) (fun b u' s => s = 0 \/ u' < 1 + S u)); [exact H8|intros; lia|intros; lia| | |].
      * intros b u' s Hb Hu' Hs. split.
        -- intros HQ. destruct (Nat.eq_dec s 0); [auto|]. destruct (Nat.lt_ge_cases u' (1 + u)); [auto|]. right. exists s. lia.
        -- intros [HQ|(k & Hk & HQ)]; lia.
      * intros s Hs. apply (lset_at3_b1 adr CC g l m P 1 Hm1 HP1 HN); [reflexivity|lia|lia|].
        eapply lset_tget.
        { replace (m * n * (1 + u) + s) with (m * (n * (1 + u) + 0) + s) by lia. apply zqm_u; try assumption; lia. }
        apply (lset_cols1 _ _ _ _ Hinj); [rewrite Hl; nia|]. intros c Hc.
        assert (Hlt : (1 + u) * m + s < l) by (apply lt_l; try assumption; lia).
        assert (Ea : W0 + (1 + u) * kSm t + SS * s + c = adr (m * (1 + u) + s) + c) by (unfold adr, kSm; lia).
        rewrite Ea. eapply wpe_rd; [right; eexists; split; reflexivity|apply V7; lia|].
        apply row_w1; [reflexivity| |rewrite V7 by lia; discriminate].
        rewrite ZMULTxy_eq. unfold g. rewrite cval_tw0 by (assumption || lia). rewrite R0. fold A. cbn [Z.of_nat]. ring.
      * intros m9 H9. exact H9.
    + intros m8 H8. eapply (at3_sets adr CC g l m P 1 Hm1 HP1 HN); [lia| |exact H8]. intros; cbv beta. lia.
  - assert (Hr1 : 1 <= r < n) by lia.
    rewrite (cget_some _ _ _ _ (zqpP t Hwf Hq Hp r Hr1)).
    apply WP_seq. eapply HL; [lia|apply pfx1_nil| |].
    { intros s Hs. apply (lset_cols1 _ _ _ _ Hinj); [lia|]. intros c Hc. rewrite Elo. srd (H + s) c.
      apply row_w1; [lia| |sal s c]. unfold A. rewrite a_lo0 by (assumption || lia). reflexivity. }
    intros m2 H2. apply WP_seq. eapply HL; [lia|exact H2| |].
    { intros s Hs. apply (lset_cols1 _ _ _ _ Hinj); [lia|]. intros c Hc. rewrite Elo, Ehi by lia. srd (s - m0) c. srd (H + s) c.
      apply row_w1; [lia| |sal s c]. unfold A. rewrite a_m0 by (assumption || lia). 
      rewrite ZMULTxy_eq, vadd_eq, cj_n. unfold rh. ring. }
    intros m3 H3. apply WP_seq.
    eapply (WP_pfx1n (fun i => W0 + SS * i) CC A l Hinj m 1 (P - 1)); [lia|lia|lia| | |].
    { eapply pfx1_eq; [|exact H3]. lia. }
    { intros u Hu. assert (Hu1 : m <= u * m) by nia. assert (Hu2 : u * m + m <= (P - 1) * m) by nia.
      eapply lset_tget; [apply zqpI; auto; lia|].
      apply (lset_rows _ _ _ _ Hinj); [lia|]. intros s Hs. apply (lset_cols1 _ _ _ _ Hinj); [lia|]. intros c Hc.
      rewrite Ehi2, Elo2 by lia. srd (u * m + s - m0) c. srd (H + (u * m + s)) c.
      apply row_w1; [unfold kSm; lia| |unfold kSm; sal (u * m + s) c]. unfold A.
      rewrite a_mid0 by (assumption || lia). rewrite !ZMULTxy_eq, vadd_eq, ZMULT_eq, cj_n. unfold rh. ring. }
    intros m4 H4.
    rewrite (cget_some _ _ _ _ (zqpI t Hq r (P - 1) Hr1 ltac:(lia))).
    apply WP_seq. eapply (HLo ((P - 1) * m)); [lia|lia|eapply pfx1_eq; [|exact H4]; lia| |].
    { intros s Hs. apply (lset_cols1 _ _ _ _ Hinj); [lia|]. intros c Hc.
      rewrite Ehi3, Elo3 by lia. srd ((P - 1) * m + s - m0) c. srd (H + ((P - 1) * m + s)) c.
      apply row_w1; [lia| |sal ((P - 1) * m + s) c]. unfold A.
      rewrite a_mid0 by (assumption || lia). rewrite !ZMULTxy_eq, vadd_eq, ZMULT_eq, cj_n. unfold rh. ring. }
    intros m5 H5. apply WP_seq. eapply (HLo ((P - 1) * m)); [lia|lia|exact H5| |].
    { intros s Hs. apply (lset_cols1 _ _ _ _ Hinj); [lia|]. intros c Hc.
      rewrite Ehi3 by lia. srd ((P - 1) * m + s - m0) c.
      apply row_w1; [lia| |sal ((P - 1) * m + s) c]. unfold A.
      rewrite a_hi0 by (assumption || lia). rewrite !ZMULTxy_eq, ZMULT_eq, cj_n. unfold rh. ring. }
    intros m6 H6. apply Htw.
    { apply pfx1_sets. eapply pfx1_eq; [|exact H6]. lia. }
    clear m2 m3 m4 m5 m6 H2 H3 H4 H5 H6 HL HLo Htw Ehi Ehi2 Ehi3 Elo Elo2 Elo3.
    intros m7. set (adr := fun i => W0 + SS * i) in *. intros V7'.
    assert (V7 : forall i c, i < l * 1 -> c < CC -> m7 (adr i + c) = Val (colv m P 1 A i c)) by exact V7'. clear V7'.
    set (g := cval t rh x).
    apply (WP_dnfor adr CC g (fun u => at3 m P 1 (fun b u' s => s = 0 \/ u' < u))) with (m := m7).
    + apply tw_start; try assumption. intros b u s Hb Hu Hs [->|HQ]; lia.
    + intros u m8 Hu H8.
      eapply (WP_at3 adr CC g l Hinj m P 1 Hm1 HP1 HN (fun k b u' s => u' = u /\ s = k)
         (fun b u' s => s = 0 \/ u' < u) (fun b u' s => s = 0 \/ u' < S u)); [exact H8|intros; lia|intros; lia| | |].
      * intros b u' s Hb Hu' Hs. split.
        -- intros HQ. destruct (Nat.eq_dec s 0); [auto|]. destruct (Nat.lt_ge_cases u' u); [auto|]. right. exists s. lia.
        -- intros [HQ|(k & Hk & HQ)]; lia.
      * intros s Hs. apply (lset_at3_b1 adr CC g l m P 1 Hm1 HP1 HN); [reflexivity|lia|lia|].
        eapply lset_tget.
        { replace (n * (m * u) + m * r + s) with (m * (n * u + r) + s) by lia. apply zqm_u; try assumption; lia. }
        apply (lset_cols1 _ _ _ _ Hinj); [rewrite Hl; nia|]. intros c Hc.
        assert (Hlt : u * m + s < l) by (apply lt_l; try assumption; lia).
        assert (Ea : W0 + SS * (m * u) + SS * s + c = adr (m * u + s) + c) by (unfold adr; lia).
        rewrite Ea. eapply wpe_rd; [right; eexists; split; reflexivity|apply V7; lia|].
        apply row_w1; [reflexivity| |rewrite V7 by lia; discriminate].
        rewrite ZMULTxy_eq. unfold g. rewrite cval_tw0 by (assumption || lia). fold A. unfold rh. ring.
      * intros m9 H9. exact H9.
    + intros m8 H8. eapply (at3_sets adr CC g l m P 1 Hm1 HP1 HN); [lia| |exact H8]. intros; cbv beta. lia.
Qed.
End T.
