(** Centered backward transforms in overwrite mode. *)
From Coq Require Import Reals ZArith Arith Lia List Bool.
From Verif Require Import CNum Sums Roots Mem VecModel VecProofs PadModel PadKernels Loops
  PadLemmas PadMath PadGeom Fwd1 PadIndex PadForward Fill CenModel CenMath CenGeom CenFft CenF2 CenPass CenStage CenTw CenFI CenThree CenOv CenFA CenExp CenBack CenB2 CenBPass CenBwd2 CenBI.

Lemma ZMULT2xy_c z w v : ZMULT2xy (UNPACKL z z) (UNPACKH (vneg z) z) w v = (Cconj z * w + z * v)%C.
Proof. apply C_ext; cbn; ring. Qed.
Lemma ZMULTxy_vn z w : ZMULTxy (UNPACKL z z) (vneg (UNPACKH z (vneg z))) w = (Cconj z * w)%C.
Proof. apply C_ext; cbn; ring. Qed.

Section T.
Variable t : pad.
Hypothesis Hwf : kwf t.
Hypothesis Hov : koverwrite t = true.
Notation L := (aL t).  Notation CC := (aC t).  Notation SS := (aS t).  Notation m := (am t).
Notation q := (kq t).   Notation n := (kn t).   Notation M := (kM t).
Notation D := (kD t).  Notation P := (kP t). Notation l := (kl t).
Let Hq : kq t <> 1 := ov_q t Hov.
Variables (f F : addr).
Hypothesis Hsep : sepbuf SS CC f L F l.
Variables (y : nat -> nat -> C) (mm : mem).
Notation adr := (adr3 t f F).
Notation base := (base3 t f F).
Notation adrf := (fun j => f + SS * j).
Hypothesis Hsrc : forall i c, i < l * 3 -> c < CC -> mm (adr i + c) = Val (y i c).
Let Hinj : injrows adr CC (l * 3) := adr3_inj t Hwf Hov f F Hsep.
Notation g := (bsum t 3 rh3 y).

Lemma injf : injrows adrf CC L.
Proof. pose proof (k_CS t Hwf). apply buf_inj. lia. Qed.

Lemma bdone3 X (m7 m9 : mem) : sets adr CC X (l * 3) mm m7 -> sets adrf CC g L m7 m9 -> bdone SS CC f L F F l g mm m9.
Proof.
  intros (A1 & A2 & A3) (B1 & B2 & B3). pose proof (ov_L t Hwf Hov) as EL. split; [exact B1|]. split; [|auto].
  intros a Ha _ Hb. rewrite B2 by (apply outs_inbuf; assumption). apply A2. intros i c Hi Hc.
  destruct (Nat.lt_ge_cases i (l * 2)) as [Hlt|Hge].
  - rewrite adr3_f by assumption. intros ->. apply Ha. exists i, c. rewrite EL. auto.
  - replace i with (l * 2 + (i - l * 2)) by lia. rewrite adr3_2 by lia. intros ->. apply Hb. exists (i - l * 2), c. repeat split; lia.
Qed.

(** one butterfly: reads row i of the three blocks, writes rows i and l+i of f *)
Lemma bbfly gg X (m7 : mem) i c a0 a1 a2 k :
  (forall i c, i < l * 3 -> c < CC -> m7 (adr i + c) = Val (X i c)) ->
  i < l -> c < CC ->
  a0 = f + SS * i + c -> a1 = f + kb t + SS * i + c -> a2 = F + SS * i + c ->
  wpe (outs adrf CC L) (row2 adrf gg i (l + i) c) (k (X i c) (X (l + i) c) (X (l * 2 + i) c)) m7 ->
  wpe (outs adrf CC L) (row2 adrf gg i (l + i) c)
    (Rd a0 (fun V0 => Rd a1 (fun V1 => Rd a2 (fun V2 => k V0 V1 V2)))) m7.
Proof.
  intros HX Hi Hc -> -> -> Hk. pose proof (ov_L t Hwf Hov) as EL.
  eapply row_r2a; [reflexivity|rewrite <- (adr3_0 t f F) by assumption; apply HX; lia|].
  eapply row_r2b; [unfold kb; lia|rewrite <- (adr3_1 t f F) by assumption; apply HX; lia|].
  eapply wpe_rd; [|rewrite <- (adr3_2 t f F) by assumption; apply HX; lia|exact Hk].
  left. intros j c' Hj Hc' E. apply (Hsep j c' i c); auto.
Qed.
Lemma bbw gg X (m7 : mem) i c a0 a1 v0 v1 :
  (forall i c, i < l * 3 -> c < CC -> m7 (adr i + c) = Val (X i c)) ->
  i < l -> c < CC -> a0 = f + SS * i + c -> a1 = f + kb t + SS * i + c ->
  v0 = gg i c -> v1 = gg (l + i) c ->
  wpe (outs adrf CC L) (row2 adrf gg i (l + i) c) (Wr a0 v0 (Wr a1 v1 Ret)) m7.
Proof.
  intros HX Hi Hc E0 E1 G0 G1. pose proof (k_CS t Hwf) as HCS. pose proof (k_C t Hwf) as HC1.
  apply row_w2; try assumption.
  - rewrite E1. unfold kb. lia.
  - rewrite E0, E1. unfold kb. assert (1 <= SS * l) by (assert (1 <= SS) by lia; assert (1 <= l) by lia; nia). lia.
  - rewrite E0, <- (adr3_0 t f F) by assumption. rewrite HX by lia. discriminate.
  - rewrite E1, <- (adr3_1 t f F) by assumption. rewrite HX by lia. discriminate.
Qed.

Section Two.
Hypothesis Hp : kp t = 2.
Notation X := (rowv m (-1) y).
Lemma b_lo s c : s < m -> g s c = (X s c + zeta M (Z.of_nat m - Z.of_nat s) * X (l + s)%nat c + Cconj (zeta M (Z.of_nat m - Z.of_nat s)) * X (l * 2 + s)%nat c)%C.
Proof.
  intros Hs. pose proof (l2 t Hq Hp) as Hl. pose proof (ov_H2 t Hwf Hov) as EH.
  pose proof (bsum_lo t Hwf Hq Hp 3 rh3 y s c) as E. rewrite EH, Hl, Nat.sub_diag, Nat.sub_0_r in E. rewrite E by lia.
  cbn [Csum rh3]. rewrite Z.mul_0_l, Z.mul_1_l, Z.mul_opp_l, Z.mul_1_l, zeta_0, zeta_neg. rewrite Nat.mul_0_r, Nat.mul_1_r. rewrite !Hl. cbn [Nat.add]. ring.
Qed.
Lemma b_hi s c : s < m -> g (l + s) c = (X s c + Cconj (zeta M (Z.of_nat s)) * X (l + s)%nat c + zeta M (Z.of_nat s) * X (l * 2 + s)%nat c)%C.
Proof.
  intros Hs. pose proof (l2 t Hq Hp) as Hl. pose proof (ov_H2 t Hwf Hov) as EH.
  pose proof (bsum_hi t Hwf Hq Hp 3 rh3 y s c Hs) as E. rewrite EH in E. rewrite E.
  cbn [Csum rh3]. rewrite Z.mul_0_l, Z.mul_1_l, Z.mul_opp_l, Z.mul_1_l, zeta_0, zeta_neg, Cconj_conj, Cconj_C1. rewrite Nat.mul_0_r, Nat.mul_1_r. cbn [Nat.add]. ring.
Qed.
Lemma b_lo0 c : 0 < m -> g 0 c = (X 0%nat c + zeta M (Z.of_nat m) * X (l + 0)%nat c + Cconj (zeta M (Z.of_nat m)) * X (l * 2 + 0)%nat c)%C.
Proof. intros Hm. rewrite b_lo by assumption. rewrite Z.sub_0_r. reflexivity. Qed.
Lemma b_hi0 c : 0 < m -> g (l + 0) c = (X 0%nat c + X (l + 0)%nat c + X (l * 2 + 0)%nat c)%C.
Proof. intros Hm. rewrite b_hi by assumption. cbn [Z.of_nat]. rewrite zeta_0, Cconj_C1. ring. Qed.

Lemma backward2All_ok : SS = 1 -> WP (cbackward2All t F f) mm (bdone SS CC f L F F l g mm).
Proof.
  intros HS. pose proof (k_S1 t Hwf HS) as HC. destruct (ov_facts t Hov) as (Hin & _ & Hn & HD).
  destruct (mP3' t Hwf Hov Hp) as (Hm1 & HP1 & HN & Hl). pose proof (lP t Hq) as HlP. pose proof (ov_L t Hwf Hov) as EL.
  unfold cbackward2All. cbv zeta.
  assert (Eb : f + m = f + kb t) by (unfold kb; rewrite HS; lia). rewrite Eb.
  apply (rows3_1_k t Hwf Hq Hin base adr 3 (base_adr t f F) Hinj y (-1) mm); try assumption; try reflexivity.
  intros m7 S7. pose proof S7 as (V7 & _ & _).
  cut (forall K : mem -> Prop, (forall m9, sets adrf CC g L m7 m9 -> K m9) ->
    forall cmd, (forall K : mem -> Prop, (forall m9, dn adrf CC g (pfx2 l m) m7 m9 -> K m9) -> WP cmd m7 K) -> WP cmd m7 K).
  { intros Hk. apply Hk. { intros m9 S9. eapply bdone3; eassumption. }
    clear Hk. intros K HK. apply WP_seq.
    match goal with |- WP (Do ?p) _ _ => change (Do p) with (ParFor 0 1 (fun _ => p)) end.
    eapply (WP_pfx2 adrf CC g L injf l 0 1); [lia|lia|apply pfx2_nil| |].
    { intros s Hs. replace s with 0 by lia. apply lset_two; [exact HC|].
      apply (bbfly g X m7 0 0 _ _ _ _ V7); try lia.
      eapply wpe_tget; [apply (zz t Hwf Hov Hp); lia|].
      apply (bbw g X m7 0 0 _ _ _ _ V7); try lia.
      - rewrite b_lo0 by lia. rewrite vadd_eq, ZMULT2_eq. ring.
      - rewrite b_hi0 by lia. rewrite vadd_eq, (vadd_eq (X 0%nat _)). ring. }
    intros m2 H2.
    eapply (WP_pfx2 adrf CC g L injf l 1 m); [lia|lia|exact H2| |exact HK].
    intros s Hs. apply lset_two; [exact HC|].
    apply (bbfly g X m7 s 0 _ _ _ _ V7); try lia.
    eapply wpe_tget; [apply (zzm t Hwf Hov Hp); lia|].
    eapply wpe_tget; [apply (zz t Hwf Hov Hp); lia|].
    apply (bbw g X m7 s 0 _ _ _ _ V7); try lia.
    - rewrite b_lo by lia. rewrite vadd_eq, ZMULT2_eq. ring.
    - rewrite b_hi by lia. rewrite vadd_eq, ZMULT2_eq. ring. }
  intros K HK cmd Hk. apply Hk. intros m9 H9. apply HK. apply (pfx2_sets adrf CC g L injf l); [lia|]. rewrite Hl at 2. exact H9.
Qed.

Lemma backward2ManyAll_ok : SS <> 1 -> WP (cbackward2ManyAll t F f) mm (bdone SS CC f L F F l g mm).
Proof.
  intros HS. destruct (ov_facts t Hov) as (Hin & _ & Hn & HD).
  destruct (mP3' t Hwf Hov Hp) as (Hm1 & HP1 & HN & Hl). pose proof (lP t Hq) as HlP. pose proof (ov_L t Hwf Hov) as EL.
  unfold cbackward2ManyAll. cbv zeta.
  assert (Eb : f + kSm t = f + kb t) by (unfold kb, kSm; rewrite Hl; lia). rewrite Eb.
  rewrite (cget_some _ _ _ _ (zz t Hwf Hov Hp m (le_n m))).
  apply (rows3_N1_k t Hwf Hq Hin base adr 3 (base_adr t f F) Hinj y (-1) mm); try assumption; try reflexivity.
  { apply P21. assumption. }
  intros m7 S7. pose proof S7 as (V7 & _ & _).
  assert (HK : forall m9, dn adrf CC g (pfx2 l m) m7 m9 -> bdone SS CC f L F F l g mm m9).
  { intros m9 H9. eapply bdone3; [exact S7|]. apply (pfx2_sets adrf CC g L injf l); [lia|]. rewrite Hl at 2. exact H9. }
  apply WP_seq.
  eapply (WP_parcols adrf CC g L injf (fun i => False) (fun i => i = 0 \/ i = l + 0)); [apply dn_have; tauto|tauto|intros; lia| |].
  { intros c Hc. eapply wpe_iff with (Y := row2 adrf g 0 (l + 0) c).
    { intros a v. split.
      - intros [Hr|Hr]; eexists; (split; [|exact Hr]); tauto.
      - intros (i & [->| ->] & Hr); [left|right]; exact Hr. }
    apply (bbfly g X m7 0 c _ _ _ _ V7); try lia.
    apply (bbw g X m7 0 c _ _ _ _ V7); try lia.
    - rewrite b_lo0 by lia. rewrite vadd_eq, ZMULT2xy_eq. ring.
    - rewrite b_hi0 by lia. rewrite vadd_eq, (vadd_eq (X 0%nat _)). ring. }
  intros m2 H2'.
  assert (H2 : dn adrf CC g (pfx2 l 1) m7 m2).
  { eapply dn_iff; [|exact H2']. intros i. unfold pfx2. intuition lia. }
  eapply (WP_pfx2 adrf CC g L injf l 1 m); [lia|lia|exact H2| |exact HK].
  intros s Hs. eapply lset_tget; [apply (zzm t Hwf Hov Hp); lia|].
  eapply lset_tget; [apply (zz t Hwf Hov Hp); lia|].
  apply (lset_cols2 _ _ _ _ injf); [lia|lia|]. intros c Hc.
  apply (bbfly g X m7 s c _ _ _ _ V7); try lia.
  apply (bbw g X m7 s c _ _ _ _ V7); try lia.
  - rewrite b_lo by lia. rewrite vadd_eq, ZMULT2xy_eq. ring.
  - rewrite b_hi by lia. rewrite vadd_eq, ZMULT2xy_c. ring.
Qed.
End Two.

Section Inner.
Hypothesis Hp : 2 < kp t.
Notation X := (bU t rh3 y).
Lemma i_lo i c : i < l -> g i c = (X i c + (zeta n 1 * Cconj (zeta q (Z.of_nat (i / m)))) * X (l + i)%nat c
   + Cconj (zeta n 1 * Cconj (zeta q (Z.of_nat (i / m)))) * X (l * 2 + i)%nat c)%C.
Proof.
  intros Hi. pose proof (ov_m0 t Hwf Hov) as E0.
  pose proof (bsum_loI t Hwf Hq Hp rh3 y 3 i c) as E. rewrite E0, Nat.sub_0_r in E. rewrite E by lia.
  cbn [Csum rh3]. rewrite Z.mul_0_l, Z.mul_1_l, Z.mul_opp_l, Z.mul_1_l, !zeta_0, !zeta_neg, Cconj_C1, cj_mul, !Cconj_conj, Nat.mul_0_r, Nat.mul_1_r. cbn [Nat.add]. ring.
Qed.
Lemma i_hi i c : i < l -> g (l + i) c = (X i c + Cconj (zeta q (Z.of_nat (i / m))) * X (l + i)%nat c
   + zeta q (Z.of_nat (i / m)) * X (l * 2 + i)%nat c)%C.
Proof.
  intros Hi. pose proof (ov_H t Hwf Hov) as E0.
  pose proof (bsum_hiI t Hwf Hq Hp rh3 y 3 i c Hi) as E. rewrite E0 in E. rewrite E.
  cbn [Csum rh3]. rewrite Z.mul_0_l, Z.mul_1_l, Z.mul_opp_l, Z.mul_1_l, !zeta_0, !zeta_neg, Cconj_C1, !Cconj_conj, Nat.mul_0_r, Nat.mul_1_r. cbn [Nat.add]. ring.
Qed.
Lemma i_lo0 i c : i < m -> i < l -> g i c = (X i c + zeta n 1 * X (l + i)%nat c + Cconj (zeta n 1) * X (l * 2 + i)%nat c)%C.
Proof.
  intros Hi Hl. rewrite i_lo by assumption. rewrite Nat.div_small by assumption. cbn [Z.of_nat]. rewrite zeta_0, Cconj_C1, cj_mul, Cconj_C1. ring.
Qed.
Lemma i_hi0 i c : i < m -> i < l -> g (l + i) c = (X i c + X (l + i)%nat c + X (l * 2 + i)%nat c)%C.
Proof.
  intros Hi Hl. rewrite i_hi by assumption. rewrite Nat.div_small by assumption. cbn [Z.of_nat]. rewrite zeta_0, Cconj_C1. ring.
Qed.
Lemma bstart3 m1 : (forall i c, i < l * 3 -> c < CC -> m1 (adr i + c) = Val (rowv m (-1) y i c)) ->
  dn adr CC (twb t rh3 y) (at3 m P 3 (fun b u s => s = 0 \/ (b = 0 /\ u = 0))) m1 m1.
Proof.
  intros V7. apply twb_start; try assumption. intros b u s Hb Hu Hs [->|[-> ->]]; [lia|]. cbn [rh3]. lia.
Qed.
Notation Tw := (twb t rh3 y).
Lemma lt_um u s : u < P -> s < m -> u * m + s < l.
Proof. intros. rewrite (lP t Hq). nia. Qed.

Lemma backwardInnerAll_ok : SS = 1 -> WP (cbackwardInnerAll t F f) mm (bdone SS CC f L F F l g mm).
Proof.
  intros HS. pose proof (k_S1 t Hwf HS) as HC. destruct (ov_facts t Hov) as (Hin & _ & Hn & HD).
  destruct (mP3 t Hwf Hov) as (Hm1 & HP1 & HN). pose proof (lP t Hq) as Hl. pose proof (P_2 t Hwf Hq Hp) as HP2.
  pose proof (ov_L t Hwf Hov) as EL.
  assert (Hlt : forall u s, u < P -> s < m -> m * u + s < l) by (intros; rewrite Hl; nia).
  unfold cbackwardInnerAll. cbv zeta. rewrite <- (k_P t). rewrite (cget_some _ _ _ _ (zqp_p t Hwf Hov Hp)).
  apply (rows3_1_k t Hwf Hq Hin base adr 3 (base_adr t f F) Hinj y (-1) mm); try assumption; try reflexivity.
  intros m1 S1. pose proof S1 as (V7 & _ & _).
  pose proof (bstart3 m1 V7) as Hst.
  apply WP_seq.
  eapply (WP_at3 adr CC Tw (l * 3) Hinj m P 3 Hm1 HP1 HN (fun k b u s => 1 <= b /\ u = 0 /\ s = k)
     (fun b u s => s = 0 \/ (b = 0 /\ u = 0)) (fun b u s => s = 0 \/ u < 1)); [exact Hst|intros; lia|intros; lia| | |].
  { intros b u s Hb Hu Hs. split.
    - intros HQ. destruct (Nat.eq_dec s 0); [auto|]. destruct (Nat.eq_dec b 0); [left; lia|]. right. exists s. lia.
    - intros [HQ|(k & Hk & HQ)]; lia. }
  { intros s Hs. pose proof (Hlt 0 s ltac:(lia) ltac:(lia)).
    apply (lset_at3_b12 adr CC Tw (l * 3) m P 3); try lia. rewrite <- Hl. apply lset_two; [exact HC|].
    eapply wpe_tget.
    { replace (m + s) with (m * (n * 0 + 1) + s) by lia. apply zqm_u; try assumption; lia. }
    assert (Ea : f + kb t + s = adr (l + (m * 0 + s)) + 0) by (rewrite adr3_1 by lia; lia).
    assert (Eb : F + s = adr (l * 2 + (m * 0 + s)) + 0) by (rewrite adr3_2 by lia; lia).
    rewrite Ea, Eb.
    eapply wpe_rd; [right; eexists; left; split; reflexivity|apply V7; lia|].
    eapply (row_w2r _ _ _ _ (l + (m * 0 + s)) (l * 2 + (m * 0 + s)) 0 _ _ _ _ (fun y => Cmul y _)); [reflexivity|reflexivity| | | | |apply V7; lia].
    - apply (adr3_ne t Hwf Hov f F Hsep); lia.
    - rewrite (twb_at1 t Hwf Hq) by (assumption || lia). f_equal.
    - rewrite (twb_at t Hwf Hq) by (assumption || lia). f_equal. rewrite <- zeta_neg. f_equal. cbn [rh3]. lia.
    - rewrite V7 by lia. discriminate. }
  intros m8 H8. apply WP_seq.
  eapply (WP_at3 adr CC Tw (l * 3) Hinj m P 3 Hm1 HP1 HN (fun k b u s => u = k /\ 1 <= s)
     (fun b u s => s = 0 \/ u < 1) (fun b u s => True)); [exact H8|intros; lia|intros; lia| | |].
  { intros b u' s Hb Hu' Hs. split; [|auto].
    intros _. destruct (Nat.eq_dec s 0); [auto|]. destruct (Nat.lt_ge_cases u' 1); [auto|]. right. exists u'. lia. }
  { intros u Hu. apply (lset_at3_r3 adr CC Tw (l * 3) m P 3 Hinj Hm1 HP1 HN); try lia.
    - intros s Hs. apply lset_one; [exact HC|]. pose proof (Hlt u s ltac:(lia) ltac:(lia)).
      assert (Ea : f + m * u + s = adr (m * u + s) + 0) by (rewrite adr3_0 by lia; lia).
      eapply twb_leaf; [exact Ea|rewrite Ea; apply V7; lia| |].
      + replace (n * (m * u) + s) with (m * (n * u + 0) + s) by lia. apply zqm_u; try assumption; lia.
      + rewrite (twb_at0 t Hwf Hq) by (assumption || lia). reflexivity.
    - intros s Hs. rewrite <- Hl. apply lset_one; [exact HC|]. pose proof (Hlt u s ltac:(lia) ltac:(lia)).
      assert (Ea : f + kb t + m * u + s = adr (l + (m * u + s)) + 0) by (rewrite adr3_1 by lia; lia).
      eapply twb_leaf; [exact Ea|rewrite Ea; apply V7; lia| |].
      + replace (n * (m * u) + m + s) with (m * (n * u + 1) + s) by lia. apply zqm_u; try assumption; lia.
      + rewrite (twb_at1 t Hwf Hq) by (assumption || lia). reflexivity.
    - intros s Hs. rewrite <- Hl. apply lset_one; [exact HC|]. pose proof (Hlt u s ltac:(lia) ltac:(lia)).
      assert (Ea : F + m * u + s = adr (l * 2 + (m * u + s)) + 0) by (rewrite adr3_2 by lia; lia).
      eapply twb_leaf; [exact Ea|rewrite Ea; apply V7; lia| |].
      + replace (n * (m * u) - m + s) with (n * (m * u) - m * 1 + s) by lia. rewrite (nmr t Hq Hp u 1) by lia. apply zqm_um; try assumption; lia.
      + rewrite (twb_at t Hwf Hq) by (assumption || lia). reflexivity. }
  intros m9 H9.
  assert (S9 : sets adr CC Tw (l * 3) m1 m9) by (eapply (at3_sets adr CC Tw (l * 3) m P 3 Hm1 HP1 HN); [lia| |exact H9]; intros; exact Logic.I).
  clear m8 H8 H9 Hst V7.
  apply (cols3_k t Hwf Hq base adr 3 (base_adr t f F) Hinj Tw (-1) m9); [apply S9|reflexivity|rewrite HS, HC; reflexivity|]. intros m7 S7.
  assert (S : sets adr CC X (l * 3) mm m7) by (eapply sets_trans; [exact S1|]; eapply sets_trans; [exact S9|exact S7]).
  pose proof S as (V7 & _ & _). clear S1 S9 S7 m1 m9.
  assert (HK : forall m9, dn adrf CC g (pfx2 l (P * m)) m7 m9 -> bdone SS CC f L F F l g mm m9).
  { intros m9 H9. eapply bdone3; [exact S|]. apply (pfx2_sets adrf CC g L injf l); [lia|]. replace l with (P * m) at 2 by lia. exact H9. }
  clear S. apply WP_seq.
  eapply (WP_pfx2 adrf CC g L injf l 0 m); [pose proof (Hlt 0 (m - 1)); lia|lia|apply pfx2_nil| |].
  { intros s Hs. pose proof (Hlt 0 s ltac:(lia) ltac:(lia)). apply lset_two; [exact HC|].
    apply (bbfly g X m7 s 0 _ _ _ _ V7); try lia.
    apply (bbw g X m7 s 0 _ _ _ _ V7); try lia.
    - rewrite i_lo0 by lia. rewrite vadd_eq, ZMULT2xy_eq. ring.
    - rewrite i_hi0 by lia. rewrite vadd_eq, (vadd_eq (X s _)). ring. }
  intros m2 H2. eapply (WP_pfx2n adrf CC g L injf l m 1 P); [lia|lia|lia|lia|rewrite Nat.mul_1_l; exact H2| |exact HK].
  intros u Hu. eapply lset_tget; [apply (zqp_u t Hov Hp); lia|].
  apply (lset_rows2 adrf CC g L injf m l); [pose proof (lt_um u (m - 1)); lia|lia|].
  intros s Hs. pose proof (lt_um u s ltac:(lia) Hs). apply lset_two; [exact HC|].
  assert (Ed : (u * m + s) / m = u) by (apply div_um; assumption).
  apply (bbfly g X m7 (u * m + s) 0 _ _ _ _ V7); try lia.
  apply (bbw g X m7 (u * m + s) 0 _ _ _ _ V7); try lia.
  - rewrite i_lo by lia. rewrite Ed, vadd_eq, ZMULT2xy_eq, ZMULTxy_vn, !cj_mul, Cconj_conj. ring.
  - rewrite i_hi by lia. rewrite Ed, vadd_eq, ZMULT2xy_eq. ring.
Qed.

Lemma backwardInnerManyAll_ok : SS <> 1 -> WP (cbackwardInnerManyAll t F f) mm (bdone SS CC f L F F l g mm).
Proof.
  intros HS. destruct (ov_facts t Hov) as (Hin & _ & Hn & HD).
  destruct (mP3 t Hwf Hov) as (Hm1 & HP1 & HN). pose proof (lP t Hq) as Hl. pose proof (P_2 t Hwf Hq Hp) as HP2.
  pose proof (ov_L t Hwf Hov) as EL.
  assert (Hlt : forall u s, u < P -> s < m -> m * u + s < l) by (intros; rewrite Hl; nia).
  unfold cbackwardInnerManyAll. cbv zeta. rewrite <- (k_P t). rewrite (cget_some _ _ _ _ (zqp_p t Hwf Hov Hp)).
  apply WP_seq. eapply WP_mono; [|apply (rows3_N_ok t Hwf Hq Hin base adr 3 (base_adr t f F) Hinj y (-1) mm); try assumption; reflexivity].
  intros m1 S1. pose proof S1 as (V7 & _ & _).
  pose proof (bstart3 m1 V7) as Hst.
  apply WP_seq.
  eapply (WP_at3 adr CC Tw (l * 3) Hinj m P 3 Hm1 HP1 HN (fun k b u s => 1 <= b /\ u = 0 /\ s = k)
     (fun b u s => s = 0 \/ (b = 0 /\ u = 0)) (fun b u s => s = 0 \/ u < 1)); [exact Hst|intros; lia|intros; lia| | |].
  { intros b u s Hb Hu Hs. split.
    - intros HQ. destruct (Nat.eq_dec s 0); [auto|]. destruct (Nat.eq_dec b 0); [left; lia|]. right. exists s. lia.
    - intros [HQ|(k & Hk & HQ)]; lia. }
  { intros s Hs. pose proof (Hlt 0 s ltac:(lia) ltac:(lia)).
    apply (lset_at3_b12 adr CC Tw (l * 3) m P 3); try lia. rewrite <- Hl. 
    eapply lset_tget.
    { replace (m + s) with (m * (n * 0 + 1) + s) by lia. apply zqm_u; try assumption; lia. }
    apply (lset_cols2 _ _ _ _ Hinj); [lia|lia|]. intros c Hc.
    assert (Ea : f + kb t + SS * s + c = adr (l + (m * 0 + s)) + c) by (rewrite adr3_1 by lia; lia).
    assert (Eb : F + SS * s + c = adr (l * 2 + (m * 0 + s)) + c) by (rewrite adr3_2 by lia; lia).
    rewrite Ea, Eb.
    eapply wpe_rd; [right; eexists; left; split; reflexivity|apply V7; lia|].
    eapply (row_w2r _ _ _ _ (l + (m * 0 + s)) (l * 2 + (m * 0 + s)) c _ _ _ _ (fun y => Cmul y _)); [reflexivity|reflexivity| | | | |apply V7; lia].
    - apply (adr3_ne t Hwf Hov f F Hsep); lia.
    - rewrite (twb_at1 t Hwf Hq) by (assumption || lia). f_equal.
    - rewrite (twb_at t Hwf Hq) by (assumption || lia). f_equal. rewrite <- zeta_neg. f_equal. cbn [rh3]. lia.
    - rewrite V7 by lia. discriminate. }
  intros m8 H8. apply WP_seq.
  eapply (WP_at3 adr CC Tw (l * 3) Hinj m P 3 Hm1 HP1 HN (fun k b u s => u = k /\ 1 <= s)
     (fun b u s => s = 0 \/ u < 1) (fun b u s => True)); [exact H8|intros; lia|intros; lia| | |].
  { intros b u' s Hb Hu' Hs. split; [|auto].
    intros _. destruct (Nat.eq_dec s 0); [auto|]. destruct (Nat.lt_ge_cases u' 1); [auto|]. right. exists u'. lia. }
  { intros u Hu. apply (lset_at3_r3 adr CC Tw (l * 3) m P 3 Hinj Hm1 HP1 HN); try lia.
    - intros s Hs. pose proof (Hlt u s ltac:(lia) ltac:(lia)). eapply lset_tget.
      { replace (n * m * u + s) with (m * (n * u + 0) + s) by lia. apply zqm_u; try assumption; lia. }
      apply (lset_cols1 _ _ _ _ Hinj); [lia|]. intros c Hc.
      assert (Ea : f + kSm t * u + SS * s + c = adr (m * u + s) + c) by (rewrite adr3_0 by lia; unfold kSm; lia).
      rewrite Ea. eapply wpe_rd; [right; eexists; split; reflexivity|apply V7; lia|].
      apply row_w1; [reflexivity| |rewrite V7 by lia; discriminate].
      rewrite (twb_at0 t Hwf Hq) by (assumption || lia). reflexivity.
    - intros s Hs. rewrite <- Hl. pose proof (Hlt u s ltac:(lia) ltac:(lia)). eapply lset_tget.
      { replace (n * m * u + m + s) with (m * (n * u + 1) + s) by lia. apply zqm_u; try assumption; lia. }
      apply (lset_cols1 _ _ _ _ Hinj); [lia|]. intros c Hc.
      assert (Ea : f + kb t + kSm t * u + SS * s + c = adr (l + (m * u + s)) + c) by (rewrite adr3_1 by lia; unfold kSm; lia).
      rewrite Ea. eapply wpe_rd; [right; eexists; split; reflexivity|apply V7; lia|].
      apply row_w1; [reflexivity| |rewrite V7 by lia; discriminate].
      rewrite (twb_at1 t Hwf Hq) by (assumption || lia). reflexivity.
    - intros s Hs. rewrite <- Hl. pose proof (Hlt u s ltac:(lia) ltac:(lia)). eapply lset_tget.
      { replace (n * m * u - m + s) with (n * (m * u) - m * 1 + s) by lia. rewrite (nmr t Hq Hp u 1) by lia. apply zqm_um; try assumption; lia. }
      apply (lset_cols1 _ _ _ _ Hinj); [lia|]. intros c Hc.
      assert (Ea : F + kSm t * u + SS * s + c = adr (l * 2 + (m * u + s)) + c) by (rewrite adr3_2 by lia; unfold kSm; lia).
      rewrite Ea. eapply wpe_rd; [right; eexists; split; reflexivity|apply V7; lia|].
      apply row_w1; [reflexivity| |rewrite V7 by lia; discriminate].
      rewrite (twb_at t Hwf Hq) by (assumption || lia). reflexivity. }
  intros m9 H9.
  assert (S9 : sets adr CC Tw (l * 3) m1 m9) by (eapply (at3_sets adr CC Tw (l * 3) m P 3 Hm1 HP1 HN); [lia| |exact H9]; intros; exact Logic.I).
  clear m8 H8 H9 Hst V7.
  apply WP_seq. eapply WP_mono; [|apply (cols3_ok t Hwf Hq base adr 3 (base_adr t f F) Hinj Tw (-1) m9); [apply S9|reflexivity]]. intros m7 S7.
  assert (S : sets adr CC X (l * 3) mm m7) by (eapply sets_trans; [exact S1|]; eapply sets_trans; [exact S9|exact S7]).
  pose proof S as (V7 & _ & _). clear S1 S9 S7 m1 m9.
  assert (HK : forall m9, dn adrf CC g (pfx2 l (P * m)) m7 m9 -> bdone SS CC f L F F l g mm m9).
  { intros m9 H9. eapply bdone3; [exact S|]. apply (pfx2_sets adrf CC g L injf l); [lia|]. replace l with (P * m) at 2 by lia. exact H9. }
  clear S. apply WP_seq.
  eapply (WP_pfx2 adrf CC g L injf l 0 m); [pose proof (Hlt 0 (m - 1)); lia|lia|apply pfx2_nil| |].
  { intros s Hs. pose proof (Hlt 0 s ltac:(lia) ltac:(lia)). apply (lset_cols2 _ _ _ _ injf); [lia|lia|]. intros c Hc.
    apply (bbfly g X m7 s c _ _ _ _ V7); try lia.
    apply (bbw g X m7 s c _ _ _ _ V7); try lia.
    - rewrite i_lo0 by lia. rewrite vadd_eq, ZMULT2xy_eq. ring.
    - rewrite i_hi0 by lia. rewrite vadd_eq, (vadd_eq (X s _)). ring. }
  intros m2 H2. eapply (WP_pfx2n adrf CC g L injf l m 1 P); [lia|lia|lia|lia|rewrite Nat.mul_1_l; exact H2| |exact HK].
  intros u Hu. eapply lset_tget; [apply (zqp_u t Hov Hp); lia|].
  apply (lset_rows2 adrf CC g L injf m l); [pose proof (lt_um u (m - 1)); lia|lia|].
  intros s Hs. pose proof (lt_um u s ltac:(lia) Hs). apply (lset_cols2 _ _ _ _ injf); [lia|lia|]. intros c Hc.
  assert (Ed : (u * m + s) / m = u) by (apply div_um; assumption).
  apply (bbfly g X m7 (u * m + s) c _ _ _ _ V7); try (unfold kSm; lia).
  apply (bbw g X m7 (u * m + s) c _ _ _ _ V7); try (unfold kSm; lia).
  - rewrite i_lo by lia. rewrite Ed, vadd_eq, ZMULT2xy_eq, ZMULTxy_vn, !cj_mul, Cconj_conj. ring.
  - rewrite i_hi by lia. rewrite Ed, vadd_eq, ZMULT2xy_eq. ring.
Qed.
End Inner.
End T.
