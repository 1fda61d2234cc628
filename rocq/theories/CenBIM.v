(** Centered backward transforms, p>2, many copies. *)
From Coq Require Import Reals ZArith Arith Lia List Bool.
From Verif Require Import CNum Sums Roots Mem VecModel VecProofs PadModel PadKernels Loops
  PadLemmas PadMath PadGeom Fwd1 PadIndex PadForward Fill CenModel CenMath CenGeom CenFft CenF2 CenPass CenStage CenTw CenFI CenFIM CenOv CenExp CenBack CenB2 CenBPass CenBwd2 CenBI.

Section T.
Variable t : pad.
Hypothesis Hwf : kwf t.
Hypothesis Hq : kq t <> 1.
Hypothesis Hp : 2 < kp t.
Notation L := (aL t).  Notation CC := (aC t).  Notation SS := (aS t).  Notation m := (am t).
Notation q := (kq t).   Notation n := (kn t).   Notation M := (kM t).
Notation D := (kD t).  Notation D0 := (kD0 t). Notation P := (kP t). Notation l := (kl t).
Notation H := (kH t). Notation m0 := (km0 t). Notation m1 := (km1 t).

Lemma backwardInnerMany_ok f F W r y acc (mm : mem) (W0 := getW F W) : SS <> 1 ->
  r < n -> ainplace t = (W0 =? F) ->
  sepbuf SS CC f L W0 l -> (W0 = F \/ sepbuf SS CC W0 l F l) ->
  (forall i c, i < l -> c < CC -> mm (F + SS * i + c) = Val (y i c)) ->
  (forall i c, i < l -> c < CC -> mm (W0 + SS * i + c) <> Unalloc) ->
  (forall j c, j < L -> c < CC -> mm (f + SS * j + c) <> Unalloc) ->
  (r <> 0 -> forall j c, j < L -> c < CC -> mm (f + SS * j + c) = Val (acc j c)) ->
  WP (cbackwardInnerMany t F f r W) mm (bdone SS CC f L F W0 l
    (fun j c => Cadd (if r =? 0 then C0 else acc j c) (bsum t 1 (fun _ => Z.of_nat r) y j c)) mm).
Proof.
  intros HS Hr Hin Hsep HWF Hsrc HWa Hfa Hacc0. pose proof (rgI t Hwf Hq Hp) as Hg. pose proof (k_CS t Hwf) as HCS.
  pose proof (k_C t Hwf) as HC1. pose proof (lP t Hq) as Hl.
  unfold cbackwardInnerMany. cbv zeta. fold W0. rewrite <- (k_P t). apply WP_seq.
  eapply WP_mono; [|apply (rowsN_ok t Hwf Hq (-1) P F W0 y mm); rewrite <- ?Hl; try assumption].
  2:{ rewrite Hin. apply Nat.eqb_sym. }
  2:{ destruct HWF as [|HW]; [auto|right; apply sepbuf_sym; assumption]. }
  intros mw Hw. rewrite <- Hl in Hw. pose proof Hw as (HA & S2 & S3).
  match goal with |- WP _ _ (bdone _ _ _ _ _ _ _ ?gg _) => set (g := gg) end.
  set (rh := fun _ : nat => Z.of_nat r).
  assert (HN : m * P * 1 <= l) by lia. assert (Hm1 : 1 <= m) by lia. assert (HP1 : 1 <= P) by lia.
  assert (HinjW : injrows (fun i => W0 + SS * i) CC l) by (apply buf_inj; lia).
  (* after the twiddle factors *)
  assert (Htw : forall m6 p, sets (fun i => W0 + SS * i) CC (twb t rh y) l mw m6 ->
    (forall m7, (forall i c, i < l -> c < CC -> m7 (W0 + SS * i + c) = Val (bU t rh y i c)) ->
       (forall j c, j < L -> c < CC -> m7 (f + SS * j + c) = mm (f + SS * j + c)) ->
       (forall j c, j < L -> c < CC -> m7 (f + SS * j + c) <> Unalloc) ->
       forall K : mem -> Prop, (forall m9, sets (fun i => f + SS * i) CC g L m7 m9 -> K m9) -> WP p m7 K) ->
    WP (Seq (cfftpAll t (-1) W0) p) m6 (bdone SS CC f L F W0 l g mm)).
  { intros m6 p S6 Hp7. apply WP_seq. eapply WP_mono; [|apply (cfftpAll_ok t Hwf Hq (-1) W0 (twb t rh y) m6); apply S6].
    intros m7 S7.
    assert (S8 : sets (fun i => W0 + SS * i) CC (bU t rh y) l mm m7).
    { eapply sets_trans; [exact Hw|]. eapply sets_trans; [exact S6|exact S7]. }
    pose proof S8 as (A1 & A2 & A3).
    assert (Hf : forall j c, j < L -> c < CC -> m7 (f + SS * j + c) = mm (f + SS * j + c)).
    { intros j c Hj Hc. apply A2. intros i c' Hi Hc'. apply Hsep; assumption. }
    apply Hp7; [exact A1|exact Hf| |].
    - intros. rewrite Hf by assumption. auto.
    - intros m9 H9. eapply bdone_2; eassumption. }
  set (adr := fun i => W0 + SS * i) in *. set (T := twb t rh y) in *.
  assert (V0 : forall i c, i < l * 1 -> c < CC -> mw (adr i + c) = Val (rowv m (-1) y i c)) by (rewrite Nat.mul_1_r; exact HA).
  assert (Hinj : injrows (fun i => f + SS * i) CC L) by (apply buf_inj; lia).
  assert (Ehi : forall s c, f + SS * H + SS * s + c = f + SS * (H + s) + c) by (intros; lia).
  assert (Elo : forall s c, m0 <= s -> f + SS * s - SS * m0 + c = f + SS * (s - m0) + c) by (intros; apply sub_off; assumption).
  assert (Ehi2 : forall u s c, f + SS * H + u * kSm t + SS * s + c = f + SS * (H + (u * m + s)) + c) by (intros; unfold kSm; lia).
  assert (Elo2 : forall u s c, m0 <= u * m -> f + u * kSm t - SS * m0 + SS * s + c = f + SS * (u * m + s - m0) + c) by (intros; apply sub_off2; assumption).
  assert (Ehi3 : forall s c, f + SS * H + SS * ((P - 1) * m) + SS * s + c = f + SS * (H + ((P - 1) * m + s)) + c) by (intros; lia).
  assert (Elo3 : forall s c, f + SS * ((P - 1) * m) - SS * m0 + SS * s + c = f + SS * ((P - 1) * m + s - m0) + c) by (intros; apply sub_off3; lia).
  assert (Dne : forall s c, c < CC -> m0 <= s < l -> f + SS * (s - m0) + c <> f + SS * (H + s) + c).
  { intros s c Hc Hs E. assert (Ex : SS * (s - m0) = SS * (H + s)) by lia. apply Nat.mul_cancel_l in Ex; lia. }
  assert (Tm : forall u s c, W0 + u * kSm t + SS * s + c = W0 + SS * (u * m + s) + c) by (intros; unfold kSm; lia).
  assert (Tm3 : forall s c, W0 + SS * ((P - 1) * m) + SS * s + c = W0 + SS * ((P - 1) * m + s) + c) by (intros; lia).
  destruct (Nat.eqb_spec r 0) as [E0|E0].
  - apply WP_seq.
    assert (R0 : forall b, rh b = 0%Z) by (intros; unfold rh; lia).
    apply (WP_dnfor adr CC T (fun u => at3 m P 1 (fun b u' s => s = 0 \/ u' < 1 + u))) with (m := mw).
    + apply twb_start; try assumption. intros b u s Hb Hu Hs [->|HQ]; [lia|]. replace u with 0 by lia. rewrite R0. lia.
    + intros u m8 Hu H8.
      eapply (WP_at3 adr CC T l HinjW m P 1 Hm1 HP1 HN (fun k b u' s => u' = 1 + u /\ s = k)
         (fun b u' s => s = 0 \/ u' < 1 + u) (fun b u' s => s = 0 \/ u' < 1 + S u)); [exact H8|intros; lia|intros; lia| | |].
      * intros b u' s Hb Hu' Hs. split.
        -- intros HQ. destruct (Nat.eq_dec s 0); [auto|]. destruct (Nat.lt_ge_cases u' (1 + u)); [auto|]. right. exists s. lia.
        -- intros [HQ|(k & Hk & HQ)]; lia.
      * intros s Hs. apply (lset_at3_b1 adr CC T l m P 1 Hm1 HP1 HN); [reflexivity|lia|lia|].
        eapply lset_tget.
        { replace (m * n * (1 + u) + s) with (m * (n * (1 + u) + 0) + s) by lia. apply zqm_u; try assumption; lia. }
        assert (Hlt : (1 + u) * m + s < l) by (apply lt_l; try assumption; lia).
        apply (lset_cols1 _ _ _ _ HinjW); [lia|]. intros c Hc.
        assert (Ea : W0 + (1 + u) * kSm t + SS * s + c = adr (m * (1 + u) + s) + c) by (unfold adr, kSm; lia).
        rewrite Ea. eapply wpe_rd; [right; eexists; split; reflexivity|apply V0; lia|].
        apply row_w1; [reflexivity| |rewrite V0 by lia; discriminate].
        rewrite ZMULTxy_conj_eq. unfold T. rewrite twb_at0 by (assumption || lia). rewrite R0. cbn [Z.of_nat]. ring.
      * intros m9 H9. exact H9.
    + intros m6 H6. apply Htw.
      { eapply (at3_sets adr CC T l m P 1 Hm1 HP1 HN); [lia| |exact H6]. intros; cbv beta. lia. }
      clear m6 H6 Htw V0 HA Hw S2 S3 mw. intros m7 HA _ Hal K HK.
      assert (Glo : forall s c, m0 <= s < l -> g (s - m0) c = bU t rh y s c).
      { intros s c Hs. unfold g. fold rh. rewrite bsum_loI by assumption. cbn [Csum]. rewrite R0, Nat.mul_0_r, Z.mul_0_l, !zeta_0, Cconj_C1. cbn [Nat.add]. destruct (Nat.eqb_spec r 0); [|contradiction]. ring. }
      assert (Ghi : forall s c, s < l -> g (H + s) c = bU t rh y s c).
      { intros s c Hs. unfold g. fold rh. rewrite bsum_hiI by assumption. cbn [Csum]. rewrite R0, Nat.mul_0_r, Z.mul_0_l, !zeta_0, Cconj_C1. cbn [Nat.add]. destruct (Nat.eqb_spec r 0); [|contradiction]. ring. }
      apply (bfold t Hwf Hq Hp (fun i => f + SS * i) CC g Hinj); try exact HK.
      * intros s Hs. apply (lset_cols1 _ _ _ _ Hinj); [lia|]. intros c Hc. rewrite Ehi. wrd s c. apply row_w1; [lia|symmetry; apply Ghi; lia|sal (H + s) c].
      * intros s Hs. apply (lset_cols2 _ _ _ _ Hinj); [lia|lia|]. intros c Hc. rewrite Ehi, Elo by lia. wrd s c.
        apply (row_w2c (fun i => f + SS * i) g _ _ _ _ _ _ _ _ (fun y => y)); [lia|lia|apply Dne; lia|symmetry; apply Glo; lia|symmetry; apply Ghi; lia|sal (s - m0) c|sal (H + s) c].
      * clear K HK. intros m2 K H2 HK. eapply (bfold_mid t Hwf Hq Hp (fun i => f + SS * i) CC g Hinj); [|exact H2|exact HK].
        intros u Hu. destruct (bfold_rng t Hwf Hq Hp u Hu) as (B1 & B2 & B3 & B4 & B5).
        destruct (at2_pos t Hwf Hq Hp) as [G1 G2].
        apply (lset_at2_block (fun i => f + SS * i) CC g L Hinj H (L - H) m0 l G1 G2); [lia|lia|lia|]. intros s Hs.
        apply (lset_cols2 _ _ _ _ Hinj); [lia|lia|]. intros c Hc. rewrite Ehi2, Elo2, Tm by lia. wrd (u * m + s) c.
        apply (row_w2c (fun i => f + SS * i) g _ _ _ _ _ _ _ _ (fun y => y)); [lia|lia|apply Dne; lia|symmetry; apply Glo; lia|symmetry; apply Ghi; lia|sal (u * m + s - m0) c|sal (H + (u * m + s)) c].
      * intros s Hs. apply (lset_cols2 _ _ _ _ Hinj); [lia|lia|]. intros c Hc. rewrite Ehi3, Elo3, Tm3 by lia. wrd ((P - 1) * m + s) c.
        apply (row_w2c (fun i => f + SS * i) g _ _ _ _ _ _ _ _ (fun y => y)); [lia|lia|apply Dne; lia|symmetry; apply Glo; lia|symmetry; apply Ghi; lia|sal ((P - 1) * m + s - m0) c|sal (H + ((P - 1) * m + s)) c].
      * intros s Hs. apply (lset_cols1 _ _ _ _ Hinj); [lia|]. intros c Hc. rewrite Elo3, Tm3. wrd ((P - 1) * m + s) c. apply row_w1; [lia|symmetry; apply Glo; lia|sal ((P - 1) * m + s - m0) c].
  - assert (Hr1 : 1 <= r < n) by lia.
    rewrite (cget_some _ _ _ _ (zqpP t Hwf Hq Hp r Hr1)). apply WP_seq.
    apply (WP_dnfor adr CC T (fun u => at3 m P 1 (fun b u' s => s = 0 \/ u' < u))) with (m := mw).
    + apply twb_start; try assumption. intros b u s Hb Hu Hs [->|HQ]; lia.
    + intros u m8 Hu H8.
      eapply (WP_at3 adr CC T l HinjW m P 1 Hm1 HP1 HN (fun k b u' s => u' = u /\ s = k)
         (fun b u' s => s = 0 \/ u' < u) (fun b u' s => s = 0 \/ u' < S u)); [exact H8|intros; lia|intros; lia| | |].
      * intros b u' s Hb Hu' Hs. split.
        -- intros HQ. destruct (Nat.eq_dec s 0); [auto|]. destruct (Nat.lt_ge_cases u' u); [auto|]. right. exists s. lia.
        -- intros [HQ|(k & Hk & HQ)]; lia.
      * intros s Hs. apply (lset_at3_b1 adr CC T l m P 1 Hm1 HP1 HN); [reflexivity|lia|lia|].
        eapply lset_tget.
        { replace (m * r + n * (m * u) + s) with (m * (n * u + r) + s) by lia. apply zqm_u; try assumption; lia. }
        assert (Hlt : u * m + s < l) by (apply lt_l; try assumption; lia).
        apply (lset_cols1 _ _ _ _ HinjW); [lia|]. intros c Hc.
        assert (Ea : W0 + u * kSm t + SS * s + c = adr (m * u + s) + c) by (unfold adr, kSm; lia).
        rewrite Ea. eapply wpe_rd; [right; eexists; split; reflexivity|apply V0; lia|].
        apply row_w1; [reflexivity| |rewrite V0 by lia; discriminate].
        rewrite ZMULTxy_conj_eq. unfold T. rewrite twb_at0 by (assumption || lia). unfold rh. ring.
      * intros m9 H9. exact H9.
    + intros m6 H6. apply Htw.
      { eapply (at3_sets adr CC T l m P 1 Hm1 HP1 HN); [lia| |exact H6]. intros; cbv beta. lia. }
      clear m6 H6 Htw V0 HA Hw S2 S3 mw. intros m7 HA Hf Hal K HK.
      assert (Hacc : forall j c, j < L -> c < CC -> m7 (f + SS * j + c) = Val (acc j c)) by (intros; rewrite Hf by assumption; auto).
      clear Hf Hacc0. set (z := zeta n (Z.of_nat r)).
      assert (Glo : forall s c, m0 <= s < l -> g (s - m0) c = Cadd (acc (s - m0) c) (z * (Cconj (zeta q (Z.of_nat r * Z.of_nat (s / m))) * bU t rh y s c))%C).
      { intros s c Hs. unfold g. fold rh. rewrite bsum_loI by assumption. cbn [Csum]. unfold rh at 1 2. fold z. rewrite Nat.mul_0_r. cbn [Nat.add]. destruct (Nat.eqb_spec r 0); [contradiction|]. ring. }
      assert (Ghi : forall s c, s < l -> g (H + s) c = Cadd (acc (H + s) c) (Cconj (zeta q (Z.of_nat r * Z.of_nat (s / m))) * bU t rh y s c)%C).
      { intros s c Hs. unfold g. fold rh. rewrite bsum_hiI by assumption. cbn [Csum]. unfold rh at 1. rewrite Nat.mul_0_r. cbn [Nat.add]. destruct (Nat.eqb_spec r 0); [contradiction|]. ring. }
      assert (Z0 : forall s, s < m -> zeta q (Z.of_nat r * Z.of_nat (s / m)) = C1).
      { intros s Hs. rewrite Nat.div_small by assumption. rewrite Z.mul_0_r. apply zeta_0. }
      rewrite (cget_some _ _ _ _ (zqpI t Hq r (P - 1) Hr1 ltac:(lia))).
      apply (bfold t Hwf Hq Hp (fun i => f + SS * i) CC g Hinj); try exact HK.
      * intros s Hs. apply (lset_cols1 _ _ _ _ Hinj); [lia|]. intros c Hc. rewrite Ehi.
        eapply row_r1; [reflexivity|apply (Hacc (H + s) c); lia|].
        wrd s c. apply row_w1; [lia| |sal (H + s) c]. rewrite Ghi by lia. rewrite Z0, Cconj_C1 by lia. ring.
      * intros s Hs. apply (lset_cols2 _ _ _ _ Hinj); [lia|lia|]. intros c Hc. rewrite Ehi, Elo by lia. wrd s c.
        eapply row_r2a; [reflexivity|apply (Hacc (s - m0) c); lia|].
        eapply row_w2r; [reflexivity|reflexivity|apply Dne; lia| | |sal (s - m0) c|apply (Hacc (H + s) c); lia].
        -- rewrite Glo by lia. rewrite Z0, Cconj_C1 by lia. rewrite vadd_eq, ZMULTxy_eq. fold z. ring.
        -- rewrite Ghi by lia. rewrite Z0, Cconj_C1 by lia. rewrite vadd_eq. ring.
      * clear K HK. intros m2 K H2 HK. eapply (bfold_mid t Hwf Hq Hp (fun i => f + SS * i) CC g Hinj); [|exact H2|exact HK].
        intros u Hu. destruct (bfold_rng t Hwf Hq Hp u Hu) as (B1 & B2 & B3 & B4 & B5).
        destruct (at2_pos t Hwf Hq Hp) as [G1 G2].
        eapply lset_tget; [apply (zqpI t Hq r u Hr1); lia|].
        apply (lset_at2_block (fun i => f + SS * i) CC g L Hinj H (L - H) m0 l G1 G2); [lia|lia|lia|]. intros s Hs.
        assert (Ed : (u * m + s) / m = u) by (apply div_um; assumption).
        apply (lset_cols2 _ _ _ _ Hinj); [lia|lia|]. intros c Hc. rewrite Ehi2, Elo2, Tm by lia. wrd (u * m + s) c.
        eapply row_r2a; [reflexivity|apply (Hacc (u * m + s - m0) c); lia|].
        eapply row_w2r; [reflexivity|reflexivity|apply Dne; lia| | |sal (u * m + s - m0) c|apply (Hacc (H + (u * m + s)) c); lia].
        -- rewrite Glo by lia. rewrite Ed, vadd_eq, ZMULTxy_eq, ZMULTxy_conj_eq. fold z. ring.
        -- rewrite Ghi by lia. rewrite Ed, vadd_eq, ZMULTxy_conj_eq. ring.
      * intros s Hs. assert (Ed : ((P - 1) * m + s) / m = P - 1) by (apply div_um; lia).
        apply (lset_cols2 _ _ _ _ Hinj); [lia|lia|]. intros c Hc. rewrite Ehi3, Elo3, Tm3 by lia. wrd ((P - 1) * m + s) c.
        eapply row_r2a; [reflexivity|apply (Hacc ((P - 1) * m + s - m0) c); lia|].
        eapply row_w2r; [reflexivity|reflexivity|apply Dne; lia| | |sal ((P - 1) * m + s - m0) c|apply (Hacc (H + ((P - 1) * m + s)) c); lia].
        -- rewrite Glo by lia. rewrite Ed, vadd_eq, ZMULTxy_eq, ZMULTxy_conj_eq. fold z. ring.
        -- rewrite Ghi by lia. rewrite Ed, vadd_eq, ZMULTxy_conj_eq. ring.
      * intros s Hs. assert (Ed : ((P - 1) * m + s) / m = P - 1) by (apply div_um; lia).
        apply (lset_cols1 _ _ _ _ Hinj); [lia|]. intros c Hc. rewrite Elo3, Tm3.
        eapply row_r1; [reflexivity|apply (Hacc ((P - 1) * m + s - m0) c); lia|].
        wrd ((P - 1) * m + s) c. apply row_w1; [lia| |sal ((P - 1) * m + s - m0) c].
        rewrite Glo by lia. rewrite Ed, vadd_eq, ZMULTxy_eq, ZMULTxy_conj_eq. fold z. ring.
Qed.
End T.
