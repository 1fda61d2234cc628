(** Centered forward transforms in overwrite mode. *)
From Coq Require Import Reals ZArith Arith Lia List Bool.
From Verif Require Import CNum Sums Roots Mem VecModel VecProofs PadModel PadKernels Loops
  PadLemmas PadMath PadGeom Fwd1 PadForward Fill CenModel CenMath CenGeom CenFft CenF2 CenPass CenStage CenTw CenFI CenThree CenOv.

Section T.
Variable t : pad.
Hypothesis Hwf : kwf t.
Hypothesis Hov : koverwrite t = true.
Notation L := (aL t).  Notation CC := (aC t).  Notation SS := (aS t).  Notation m := (am t).
Notation q := (kq t).   Notation n := (kn t).   Notation M := (kM t).
Notation D := (kD t).  Notation P := (kP t). Notation l := (kl t).
Let Hq : kq t <> 1 := ov_q t Hov.
Variables (f F : addr).
Hypothesis Hsep : sepbuf SS CC f L F l.
Variables (x : nat -> nat -> C) (mm : mem).
Hypothesis Hsrc : forall j c, j < L -> c < CC -> mm (f + SS * j + c) = Val (x j c).
Hypothesis HFa : forall i c, i < l -> c < CC -> mm (F + SS * i + c) <> Unalloc.
Notation adr := (adr3 t f F).
Notation base := (base3 t f F).
Let Hinj : injrows adr CC (l * 3) := adr3_inj t Hwf Hov f F Hsep.

Lemma base_adr : forall b i, b < 3 -> i < l -> base b + SS * i = adr (l * b + i).
Proof. intros. apply adr3_base; assumption. Qed.
Lemma fin3 g m1 m2 : sets adr CC g (l * 3) mm m1 -> sets adr CC (rowv m 1 (cval t rh3 x)) (l * 3) m1 m2 ->
  sets adr CC (kout t rh3 x) (l * 3) mm m2.
Proof.
  intros H1 H2. eapply sets_trans; [exact H1|]. eapply sets_ext; [|exact H2]. intros. apply (rowv_kout t Hwf Hq).
Qed.
Section Inner.
Hypothesis Hp : 2 < kp t.
Lemma zqp_p : kZqp t (kp t) = Some (zeta n 1).
Proof.
  destruct (ov_facts t Hov) as (_ & _ & Hn & _).
  replace (kp t) with (P * 1 + P) by (rewrite <- (ov_p t Hwf Hov); lia). rewrite (zqpP t Hwf Hq Hp) by lia. reflexivity.
Qed.
Lemma zqp_u u : 1 <= u < P -> kZqp t (P + u) = Some (zeta q (Z.of_nat u)).
Proof.
  intros Hu. destruct (ov_facts t Hov) as (_ & _ & Hn & _).
  replace (P + u) with (P * 1 + u) by lia. rewrite (zqpI t Hq) by lia. f_equal. f_equal. lia.
Qed.
Notation A := (cstA t rh3 x).
Lemma f_0 u s c : u < P -> s < m -> A (m * u + s) c = (x (l + (m * u + s))%nat c + x (m * u + s)%nat c)%C.
Proof.
  intros Hu Hs. pose proof (ov_fold t Hwf Hov x 0 u s c Hp ltac:(lia) Hu Hs) as E. rewrite Nat.mul_0_r in E. cbn [Nat.add] in E. rewrite E.
  cbn [rh3 Z.opp Z.mul]. rewrite !zeta_0. ring.
Qed.
Lemma f_1 u s c : u < P -> s < m -> A (l + (m * u + s)) c = (zeta q (Z.of_nat u) * (x (l + (m * u + s))%nat c + Cconj (zeta n 1) * x (m * u + s)%nat c))%C.
Proof.
  intros Hu Hs. pose proof (ov_fold t Hwf Hov x 1 u s c Hp ltac:(lia) Hu Hs) as E. rewrite Nat.mul_1_r in E. rewrite E.
  unfold rh3. rewrite Z.mul_1_l. rewrite (zeta_neg n 1). reflexivity.
Qed.
Lemma f_2 u s c : u < P -> s < m -> A (l * 2 + (m * u + s)) c = (Cconj (zeta q (Z.of_nat u)) * (x (l + (m * u + s))%nat c + zeta n 1 * x (m * u + s)%nat c))%C.
Proof.
  intros Hu Hs. rewrite (ov_fold t Hwf Hov x 2 u s c Hp ltac:(lia) Hu Hs).
  unfold rh3. rewrite Z.opp_involutive. rewrite <- zeta_neg. do 2 f_equal; lia.
Qed.

Notation at3 := (at3 m P 3).
Lemma mP3 : 1 <= m /\ 1 <= P /\ m * P * 3 <= l * 3.
Proof. destruct (mP1 t Hwf Hq). rewrite (lP t Hq). auto. Qed.

Lemma start3 m7 : (forall i c, i < l * 3 -> c < CC -> m7 (adr i + c) = Val (colv m P 1 A i c)) ->
  dn adr CC (cval t rh3 x) (at3 (fun b u s => s = 0 \/ (b = 0 /\ u = 0))) m7 m7.
Proof.
  intros V7. apply tw_start; try assumption. intros b u s Hb Hu Hs [->|[-> ->]]; [lia|]. cbn [rh3]. lia.
Qed.
(** S=1 *)
Lemma forwardInnerAll_ok : SS = 1 -> WP (cforwardInnerAll t f F) mm (sets adr CC (kout t rh3 x) (l * 3) mm).
Proof.
  intros HS. pose proof (k_S1 t Hwf HS) as HC. destruct (ov_facts t Hov) as (Hin & _ & Hn & HD).
  destruct mP3 as (Hm1 & HP1 & HN). pose proof (lP t Hq) as Hl. pose proof (P_2 t Hwf Hq Hp) as HP2.
  unfold cforwardInnerAll. cbv zeta. rewrite <- (k_P t). rewrite (cget_some _ _ _ _ zqp_p).
  assert (Hlt : forall u s, u < P -> s < m -> m * u + s < l) by (intros; rewrite Hl; nia).
  apply WP_seq.
  eapply (WP_at3 adr CC A (l * 3) Hinj m P 3 Hm1 HP1 HN (fun k b u s => u = 0 /\ s = k)
     (fun b u s => False) (fun b u s => u < 1)); [apply dn_at3_have; tauto|tauto|intros; lia| | |].
  { intros b u s Hb Hu Hs. split; [intros; right; exists s; lia|intros [[]|(k & Hk & HQ)]; lia]. }
  { intros s Hs. pose proof (Hlt 0 s ltac:(lia) ltac:(lia)). apply (lset_at3_b3 adr CC A (l * 3) m P 3); try lia. rewrite <- Hl.
    rewrite HC. apply lset_three; [reflexivity|].
    apply (bfly t Hwf Hov f F Hsep x mm Hsrc HFa (outs adr 1 (l * 3)) A (m * 0 + s) 0 _ _ _
      (fun V0 V1 => vadd V0 V1)
      (fun V0 V1 => vadd (vadd (vmul (CONJ (zeta n 1)) (UNPACKL V0 V0)) (ZMULTI (vmul (CONJ (zeta n 1)) (UNPACKH V0 V0)))) V1)
      (fun V0 V1 => vadd (CONJ (vsub (vmul (CONJ (zeta n 1)) (UNPACKL V0 V0)) (ZMULTI (vmul (CONJ (zeta n 1)) (UNPACKH V0 V0))))) V1)).
    - lia.
    - lia.
    - rewrite adr3_0 by lia. lia.
    - rewrite adr3_1 by lia. lia.
    - rewrite adr3_2 by lia. lia.
    - rewrite f_0 by lia. rewrite vadd_eq. ring.
    - rewrite f_1 by lia. rewrite cpair_plus, vadd_eq. cbn [Z.of_nat]. rewrite zeta_0. ring.
    - rewrite f_2 by lia. rewrite cpair_minus, vadd_eq. cbn [Z.of_nat]. rewrite zeta_0. replace (Cconj C1) with C1 by (apply C_ext; cbn; ring). ring. }
  intros m2 H2. apply WP_seq.
  eapply (WP_at3 adr CC A (l * 3) Hinj m P 3 Hm1 HP1 HN (fun k b u s => u = k)
     (fun b u s => u < 1) (fun b u s => True)); [exact H2|intros; lia|intros; lia| | |].
  { intros b u s Hb Hu Hs. split; [|auto]. intros _. destruct (Nat.lt_ge_cases u 1); [auto|]. right. exists u. lia. }
  { intros u Hu. eapply lset_tget; [apply zqp_u; lia|].
    apply (lset_at3_u adr CC A (l * 3) m P 3 Hinj Hm1 HP1 HN); try lia. intros s Hs. rewrite <- Hl.
    pose proof (Hlt u s ltac:(lia) ltac:(lia)).
    rewrite HC. apply lset_three; [reflexivity|].
    apply (bfly t Hwf Hov f F Hsep x mm Hsrc HFa (outs adr 1 (l * 3)) A (m * u + s) 0 _ _ _
      (fun V0 V1 => vadd V0 V1)
      (fun V0 V1 => vadd (vadd (vmul (ZMULT (zeta q (Z.of_nat u)) (CONJ (zeta n 1))) (UNPACKL V0 V0)) (vmul (zeta q (Z.of_nat u)) (UNPACKL V1 V1)))
         (ZMULTI (vadd (vmul (ZMULT (zeta q (Z.of_nat u)) (CONJ (zeta n 1))) (UNPACKH V0 V0)) (vmul (zeta q (Z.of_nat u)) (UNPACKH V1 V1)))))
      (fun V0 V1 => CONJ (vsub (vadd (vmul (ZMULT (zeta q (Z.of_nat u)) (CONJ (zeta n 1))) (UNPACKL V0 V0)) (vmul (zeta q (Z.of_nat u)) (UNPACKL V1 V1)))
         (ZMULTI (vadd (vmul (ZMULT (zeta q (Z.of_nat u)) (CONJ (zeta n 1))) (UNPACKH V0 V0)) (vmul (zeta q (Z.of_nat u)) (UNPACKH V1 V1))))))).
    - lia.
    - lia.
    - rewrite adr3_0 by lia. lia.
    - rewrite adr3_1 by lia. lia.
    - rewrite adr3_2 by lia. lia.
    - rewrite f_0 by lia. rewrite vadd_eq. ring.
    - rewrite f_1 by lia. rewrite pair2_plus, ZMULT_eq. change (CONJ (zeta n 1)) with (Cconj (zeta n 1)). ring.
    - rewrite f_2 by lia. rewrite pair2_minus, ZMULT_eq, cj_mul. change (CONJ (zeta n 1)) with (Cconj (zeta n 1)). rewrite Cconj_conj. ring. }
  intros m3 H3. assert (S3 : sets adr CC A (l * 3) mm m3).
  { eapply (at3_sets adr CC A (l * 3) m P 3 Hm1 HP1 HN); [lia| |exact H3]. intros; exact Logic.I. }
  clear m2 H2 H3.
  pose proof (cols3_k t Hwf Hq base adr 3 base_adr Hinj A 1 m3) as Hcol. rewrite HS, HC in Hcol. rewrite HC in S3 |- *.
  apply Hcol; [apply S3|reflexivity|reflexivity|]. clear Hcol. intros m7 S7.
  pose proof S7 as (V7 & _ & _).
  set (g := cval t rh3 x).
  assert (Hfin : forall m8, sets adr 1 g (l * 3) m7 m8 -> WP (seq3 (fun b => fft (kfftm t 1) (base b) (base b))) m8 (sets adr 1 (kout t rh3 x) (l * 3) mm)).
  { intros m8 S8. pose proof (rows3_1_ok t Hwf Hq Hin base adr 3 base_adr Hinj g 1 m8) as Hr. rewrite HC in Hr.
    eapply WP_mono; [|apply Hr; try assumption; [apply S8|reflexivity]]. intros m9 S9.
    pose proof (fin3 g m8 m9) as Hf. rewrite HC in Hf. apply Hf; [|exact S9].
    eapply sets_trans; [exact S3|eapply sets_trans; [exact S7|exact S8]]. }
  pose proof (start3 m7) as Hst. pose proof Hinj as Hinj1. rewrite HC in Hst, Hinj1. specialize (Hst V7).
  clear S3 S7.
  apply WP_seq.
  eapply (WP_at3 adr 1 g (l * 3) Hinj1 m P 3 Hm1 HP1 HN (fun k b u s => 1 <= b /\ u = 0 /\ s = k)
     (fun b u s => s = 0 \/ (b = 0 /\ u = 0)) (fun b u s => s = 0 \/ u < 1)); [exact Hst|intros; lia|intros; lia| | |].
  { intros b u s Hb Hu Hs. split.
    - intros HQ. destruct (Nat.eq_dec s 0); [auto|]. destruct (Nat.eq_dec b 0); [left; lia|]. right. exists s. lia.
    - intros [HQ|(k & Hk & HQ)]; lia. }
  { intros s Hs. pose proof (Hlt 0 s ltac:(lia) ltac:(lia)).
    apply (lset_at3_b12 adr 1 g (l * 3) m P 3); try lia. rewrite <- Hl. apply lset_two; [reflexivity|].
    eapply wpe_tget.
    { replace (m + s) with (m * (n * 0 + 1) + s) by lia. apply zqm_u; try assumption; lia. }
    assert (Ea : f + kb t + s = adr (l + (m * 0 + s)) + 0) by (rewrite adr3_1 by lia; lia).
    assert (Eb : F + s = adr (l * 2 + (m * 0 + s)) + 0) by (rewrite adr3_2 by lia; lia).
    rewrite Ea, Eb.
    eapply wpe_rd; [right; eexists; left; split; reflexivity|apply V7; lia|].
    eapply (row_w2r _ _ _ _ (l + (m * 0 + s)) (l * 2 + (m * 0 + s)) 0 _ _ _ _ (fun y => Cmul y _)); [reflexivity|reflexivity| | | | |apply V7; lia].
    - pose proof (adr3_ne t Hwf Hov f F Hsep) as Hne. rewrite HC in Hne. apply Hne; lia.
    - unfold g. pose proof (cval_tw t Hwf Hq Hp rh3 x 1 0 0 s) as Ew. rewrite Nat.mul_1_r in Ew. rewrite Ew by lia. reflexivity.
    - unfold g. rewrite (cval_tw t Hwf Hq Hp rh3 x 2 0 0 s) by lia. f_equal. rewrite <- zeta_neg. f_equal. cbn [rh3]. lia.
    - rewrite V7 by lia. discriminate. }
  intros m8 H8. apply WP_seq.
  eapply (WP_at3 adr 1 g (l * 3) Hinj1 m P 3 Hm1 HP1 HN (fun k b u s => u = k /\ 1 <= s)
     (fun b u s => s = 0 \/ u < 1) (fun b u s => True)); [exact H8|intros; lia|intros; lia| | |].
  { intros b u' s Hb Hu' Hs. split; [|auto].
    intros _. destruct (Nat.eq_dec s 0); [auto|]. destruct (Nat.lt_ge_cases u' 1); [auto|]. right. exists u'. lia. }
  { intros u Hu. apply (lset_at3_r3 adr 1 g (l * 3) m P 3 Hinj1 Hm1 HP1 HN); try lia.
    - intros s Hs. apply lset_one; [reflexivity|]. pose proof (Hlt u s ltac:(lia) ltac:(lia)).
      assert (Ea : f + m * u + s = adr (m * u + s) + 0) by (rewrite adr3_0 by lia; lia).
      eapply tw_leaf; [exact Ea|rewrite Ea; apply V7; lia| |].
      + replace (n * (m * u) + s) with (m * (n * u + 0) + s) by lia. apply zqm_u; try assumption; lia.
      + unfold g. rewrite (cval_tw0 t Hwf Hq Hp) by lia. reflexivity.
    - intros s Hs. rewrite <- Hl. apply lset_one; [reflexivity|]. pose proof (Hlt u s ltac:(lia) ltac:(lia)).
      assert (Ea : f + kb t + m * u + s = adr (l + (m * u + s)) + 0) by (rewrite adr3_1 by lia; lia).
      eapply tw_leaf; [exact Ea|rewrite Ea; apply V7; lia| |].
      + replace (n * (m * u) + m + s) with (m * (n * u + 1) + s) by lia. apply zqm_u; try assumption; lia.
      + unfold g. rewrite (cval_tw1 t Hwf Hq Hp) by lia. reflexivity.
    - intros s Hs. rewrite <- Hl. apply lset_one; [reflexivity|]. pose proof (Hlt u s ltac:(lia) ltac:(lia)).
      assert (Ea : F + m * u + s = adr (l * 2 + (m * u + s)) + 0) by (rewrite adr3_2 by lia; lia).
      eapply tw_leaf; [exact Ea|rewrite Ea; apply V7; lia| |].
      + replace (n * (m * u) - m + s) with (n * (m * u) - m * 1 + s) by lia. rewrite (nmr t Hq Hp u 1) by lia. apply zqm_um; try assumption; lia.
      + unfold g. rewrite (cval_tw t Hwf Hq Hp rh3 x 2 0 u s) by lia. f_equal. }
  intros m9 H9. apply Hfin. eapply (at3_sets adr 1 g (l * 3) m P 3 Hm1 HP1 HN); [lia| |exact H9]. intros; exact Logic.I.
Qed.

Lemma Cj1 : Cconj C1 = C1. Proof. apply C_ext; cbn; ring. Qed.
(** rows of S words *)
Lemma forwardInnerManyAll_ok : SS <> 1 -> WP (cforwardInnerManyAll t f F) mm (sets adr CC (kout t rh3 x) (l * 3) mm).
Proof.
  intros HS. destruct (ov_facts t Hov) as (Hin & _ & Hn & HD).
  destruct mP3 as (Hm1 & HP1 & HN). pose proof (lP t Hq) as Hl. pose proof (P_2 t Hwf Hq Hp) as HP2.
  unfold cforwardInnerManyAll. cbv zeta. rewrite <- (k_P t). rewrite (cget_some _ _ _ _ zqp_p).
  assert (Hlt : forall u s, u < P -> s < m -> m * u + s < l) by (intros; rewrite Hl; nia).
  apply WP_seq.
  eapply (WP_at3 adr CC A (l * 3) Hinj m P 3 Hm1 HP1 HN (fun k b u s => u = 0 /\ s = k)
     (fun b u s => False) (fun b u s => u < 1)); [apply dn_at3_have; tauto|tauto|intros; lia| | |].
  { intros b u s Hb Hu Hs. split; [intros; right; exists s; lia|intros [[]|(k & Hk & HQ)]; lia]. }
  { intros s Hs. pose proof (Hlt 0 s ltac:(lia) ltac:(lia)). apply (lset_at3_b3 adr CC A (l * 3) m P 3); try lia. rewrite <- Hl.
    apply (lset_cols3 _ _ _ _ Hinj); [lia|lia|lia|]. intros c Hc.
    apply (bfly t Hwf Hov f F Hsep x mm Hsrc HFa (outs adr CC (l * 3)) A (m * 0 + s) c _ _ _
      (fun V0 V1 => vadd V0 V1)
      (fun V0 V1 => vadd (vadd (vmul (CONJ (zeta n 1)) (UNPACKL V0 V0)) (ZMULTI (vmul (CONJ (zeta n 1)) (UNPACKH V0 V0)))) V1)
      (fun V0 V1 => vadd (CONJ (vsub (vmul (CONJ (zeta n 1)) (UNPACKL V0 V0)) (ZMULTI (vmul (CONJ (zeta n 1)) (UNPACKH V0 V0))))) V1)).
    - lia.
    - lia.
    - rewrite adr3_0 by lia. lia.
    - rewrite adr3_1 by lia. lia.
    - rewrite adr3_2 by lia. lia.
    - rewrite f_0 by lia. rewrite vadd_eq. ring.
    - rewrite f_1 by lia. rewrite cpair_plus, vadd_eq. cbn [Z.of_nat]. rewrite zeta_0. ring.
    - rewrite f_2 by lia. rewrite cpair_minus, vadd_eq. cbn [Z.of_nat]. rewrite zeta_0, Cj1. ring. }
  intros m2 H2. apply WP_seq.
  eapply (WP_at3 adr CC A (l * 3) Hinj m P 3 Hm1 HP1 HN (fun k b u s => u = k)
     (fun b u s => u < 1) (fun b u s => True)); [exact H2|intros; lia|intros; lia| | |].
  { intros b u s Hb Hu Hs. split; [|auto]. intros _. destruct (Nat.lt_ge_cases u 1); [auto|]. right. exists u. lia. }
  { intros u Hu. eapply lset_tget; [apply zqp_u; lia|].
    apply (lset_at3_u adr CC A (l * 3) m P 3 Hinj Hm1 HP1 HN); try lia. intros s Hs. rewrite <- Hl.
    pose proof (Hlt u s ltac:(lia) ltac:(lia)).
    apply (lset_cols3 _ _ _ _ Hinj); [lia|lia|lia|]. intros c Hc.
    apply (bfly t Hwf Hov f F Hsep x mm Hsrc HFa (outs adr CC (l * 3)) A (m * u + s) c _ _ _
      (fun V0 V1 => vadd V0 V1)
      (fun V0 V1 => vadd (vadd (vmul (ZMULT (zeta q (Z.of_nat u)) (CONJ (zeta n 1))) (UNPACKL V0 V0)) (vmul (zeta q (Z.of_nat u)) (UNPACKL V1 V1)))
         (ZMULTI (vadd (vmul (ZMULT (zeta q (Z.of_nat u)) (CONJ (zeta n 1))) (UNPACKH V0 V0)) (vmul (zeta q (Z.of_nat u)) (UNPACKH V1 V1)))))
      (fun V0 V1 => CONJ (vsub (vadd (vmul (ZMULT (zeta q (Z.of_nat u)) (CONJ (zeta n 1))) (UNPACKL V0 V0)) (vmul (zeta q (Z.of_nat u)) (UNPACKL V1 V1)))
         (ZMULTI (vadd (vmul (ZMULT (zeta q (Z.of_nat u)) (CONJ (zeta n 1))) (UNPACKH V0 V0)) (vmul (zeta q (Z.of_nat u)) (UNPACKH V1 V1))))))).
    - lia.
    - lia.
    - rewrite adr3_0 by lia. unfold kSm. lia.
    - rewrite adr3_1 by lia. unfold kSm. lia.
    - rewrite adr3_2 by lia. unfold kSm. lia.
    - rewrite f_0 by lia. rewrite vadd_eq. ring.
    - rewrite f_1 by lia. rewrite pair2_plus, ZMULT_eq. change (CONJ (zeta n 1)) with (Cconj (zeta n 1)). ring.
    - rewrite f_2 by lia. rewrite pair2_minus, ZMULT_eq, cj_mul. change (CONJ (zeta n 1)) with (Cconj (zeta n 1)). rewrite Cconj_conj. ring. }
  intros m3 H3. assert (S3 : sets adr CC A (l * 3) mm m3).
  { eapply (at3_sets adr CC A (l * 3) m P 3 Hm1 HP1 HN); [lia| |exact H3]. intros; exact Logic.I. }
  clear m2 H2 H3.
  apply WP_seq. eapply WP_mono; [|apply (cols3_ok t Hwf Hq base adr 3 base_adr Hinj A 1 m3); [apply S3|reflexivity]].
  intros m7 S7.
  pose proof S7 as (V7 & _ & _).
  set (g := cval t rh3 x).
  assert (Hfin : forall m8, sets adr CC g (l * 3) m7 m8 -> WP (cfor P (fun u => seq3 (fun b => fft (kfftm t 1) (base b + kSm t * u) (base b + kSm t * u)))) m8 (sets adr CC (kout t rh3 x) (l * 3) mm)).
  { intros m8 S8. pose proof (rows3_N_ok t Hwf Hq Hin base adr 3 base_adr Hinj g 1 m8) as Hr.
    eapply WP_mono; [|apply Hr; try assumption; [apply S8|reflexivity]]. intros m9 S9.
    apply (fin3 g m8 m9); [|exact S9].
    eapply sets_trans; [exact S3|eapply sets_trans; [exact S7|exact S8]]. }
  pose proof (start3 m7 V7) as Hst. 
  clear S3 S7.
  apply WP_seq.
  eapply (WP_at3 adr CC g (l * 3) Hinj m P 3 Hm1 HP1 HN (fun k b u s => 1 <= b /\ u = 0 /\ s = k)
     (fun b u s => s = 0 \/ (b = 0 /\ u = 0)) (fun b u s => s = 0 \/ u < 1)); [exact Hst|intros; lia|intros; lia| | |].
  { intros b u s Hb Hu Hs. split.
    - intros HQ. destruct (Nat.eq_dec s 0); [auto|]. destruct (Nat.eq_dec b 0); [left; lia|]. right. exists s. lia.
    - intros [HQ|(k & Hk & HQ)]; lia. }
  { intros s Hs. pose proof (Hlt 0 s ltac:(lia) ltac:(lia)).
    apply (lset_at3_b12 adr CC g (l * 3) m P 3); try lia. rewrite <- Hl. 
    eapply lset_tget.
    { replace (m + s) with (m * (n * 0 + 1) + s) by lia. apply zqm_u; try assumption; lia. }
    apply (lset_cols2 _ _ _ _ Hinj); [lia|lia|]. intros c Hc.
    assert (Ea : f + kb t + SS * s + c = adr (l + (m * 0 + s)) + c) by (rewrite adr3_1 by lia; lia).
    assert (Eb : F + SS * s + c = adr (l * 2 + (m * 0 + s)) + c) by (rewrite adr3_2 by lia; lia).
    rewrite Ea, Eb.
    eapply wpe_rd; [right; eexists; left; split; reflexivity|apply V7; lia|].
    eapply (row_w2r _ _ _ _ (l + (m * 0 + s)) (l * 2 + (m * 0 + s)) c _ _ _ _ (fun y => Cmul y _)); [reflexivity|reflexivity| | | | |apply V7; lia].
    - apply (adr3_ne t Hwf Hov f F Hsep); lia.
    - unfold g. pose proof (cval_tw t Hwf Hq Hp rh3 x 1 c 0 s) as Ew. rewrite Nat.mul_1_r in Ew. rewrite Ew by lia. reflexivity.
    - unfold g. rewrite (cval_tw t Hwf Hq Hp rh3 x 2 c 0 s) by lia. f_equal. rewrite <- zeta_neg. f_equal. cbn [rh3]. lia.
    - rewrite V7 by lia. discriminate. }
  intros m8 H8. apply WP_seq.
  eapply (WP_at3 adr CC g (l * 3) Hinj m P 3 Hm1 HP1 HN (fun k b u s => u = k /\ 1 <= s)
     (fun b u s => s = 0 \/ u < 1) (fun b u s => True)); [exact H8|intros; lia|intros; lia| | |].
  { intros b u' s Hb Hu' Hs. split; [|auto].
    intros _. destruct (Nat.eq_dec s 0); [auto|]. destruct (Nat.lt_ge_cases u' 1); [auto|]. right. exists u'. lia. }
  { intros u Hu. apply (lset_at3_r3 adr CC g (l * 3) m P 3 Hinj Hm1 HP1 HN); try lia.
    - intros s Hs. pose proof (Hlt u s ltac:(lia) ltac:(lia)). eapply lset_tget.
      { replace (n * m * u + s) with (m * (n * u + 0) + s) by lia. apply zqm_u; try assumption; lia. }
      apply (lset_cols1 _ _ _ _ Hinj); [lia|]. intros c Hc.
      assert (Ea : f + kSm t * u + SS * s + c = adr (m * u + s) + c) by (rewrite adr3_0 by lia; unfold kSm; lia).
      rewrite Ea. eapply wpe_rd; [right; eexists; split; reflexivity|apply V7; lia|].
      apply row_w1; [reflexivity| |rewrite V7 by lia; discriminate].
      unfold g. rewrite (cval_tw0 t Hwf Hq Hp) by lia. reflexivity.
    - intros s Hs. rewrite <- Hl. pose proof (Hlt u s ltac:(lia) ltac:(lia)). eapply lset_tget.
      { replace (n * m * u + m + s) with (m * (n * u + 1) + s) by lia. apply zqm_u; try assumption; lia. }
      apply (lset_cols1 _ _ _ _ Hinj); [lia|]. intros c Hc.
      assert (Ea : f + kb t + kSm t * u + SS * s + c = adr (l + (m * u + s)) + c) by (rewrite adr3_1 by lia; unfold kSm; lia).
      rewrite Ea. eapply wpe_rd; [right; eexists; split; reflexivity|apply V7; lia|].
      apply row_w1; [reflexivity| |rewrite V7 by lia; discriminate].
      unfold g. rewrite (cval_tw1 t Hwf Hq Hp) by lia. reflexivity.
    - intros s Hs. rewrite <- Hl. pose proof (Hlt u s ltac:(lia) ltac:(lia)). eapply lset_tget.
      { replace (n * m * u - m + s) with (n * (m * u) - m * 1 + s) by lia. rewrite (nmr t Hq Hp u 1) by lia. apply zqm_um; try assumption; lia. }
      apply (lset_cols1 _ _ _ _ Hinj); [lia|]. intros c Hc.
      assert (Ea : F + kSm t * u + SS * s + c = adr (l * 2 + (m * u + s)) + c) by (rewrite adr3_2 by lia; unfold kSm; lia).
      rewrite Ea. eapply wpe_rd; [right; eexists; split; reflexivity|apply V7; lia|].
      apply row_w1; [reflexivity| |rewrite V7 by lia; discriminate].
      unfold g. rewrite (cval_tw t Hwf Hq Hp rh3 x 2 c u s) by lia. f_equal. }
  intros m9 H9. apply Hfin. eapply (at3_sets adr CC g (l * 3) m P 3 Hm1 HP1 HN); [lia| |exact H9]. intros; exact Logic.I.
Qed.
End Inner.

Section Two.
Hypothesis Hp : kp t = 2.
Notation g := (cval t rh3 x).
Lemma g_0 s c : s < m -> g (m * 0 + s) c = (x s c + x (l + s)%nat c)%C.
Proof.
  intros Hs. pose proof (ov_val2 t Hwf Hov x 0 s c Hp ltac:(lia) Hs) as E. rewrite Nat.mul_0_r in E |- *. cbn [Nat.add] in *. rewrite E.
  cbn [rh3 Z.mul]. rewrite !zeta_0. ring.
Qed.
Lemma g_1 s c : s < m -> g (l + (m * 0 + s)) c = (zeta M (Z.of_nat s) * x (l + s)%nat c + Cconj (zeta M (Z.of_nat m - Z.of_nat s)) * x s c)%C.
Proof.
  intros Hs. pose proof (ov_val2 t Hwf Hov x 1 s c Hp ltac:(lia) Hs) as E. rewrite Nat.mul_1_r in E. rewrite Nat.mul_0_r. cbn [Nat.add] in *. rewrite E.
  unfold rh3. rewrite !Z.mul_1_l, <- zeta_neg. do 3 f_equal. lia.
Qed.
Lemma g_2 s c : s < m -> g (l * 2 + (m * 0 + s)) c = (Cconj (zeta M (Z.of_nat s)) * x (l + s)%nat c + zeta M (Z.of_nat m - Z.of_nat s) * x s c)%C.
Proof.
  intros Hs. rewrite Nat.mul_0_r. cbn [Nat.add]. rewrite (ov_val2 t Hwf Hov x 2 s c Hp ltac:(lia) Hs).
  unfold rh3. rewrite <- zeta_neg. f_equal; f_equal; f_equal; lia.
Qed.
Lemma zz s : s <= m -> kZqm t ((m + 1) * 1 + s) = Some (zeta M (Z.of_nat s)).
Proof.
  intros Hs. pose proof (k_nq t Hwf Hq). destruct (ov_facts t Hov) as (_ & _ & Hn & _).
  rewrite (zqm2 t Hq 1 s Hp) by lia. do 2 f_equal. lia.
Qed.
Lemma zzm s : s <= m -> kZqm t ((m + 1) * 1 + m - s) = Some (zeta M (Z.of_nat m - Z.of_nat s)).
Proof.
  intros Hs. pose proof (k_nq t Hwf Hq). destruct (ov_facts t Hov) as (_ & _ & Hn & _).
  rewrite (zqm2m t Hq 1 s Hp) by lia. do 2 f_equal. lia.
Qed.
Lemma P21 : P = 1. Proof. unfold kP. rewrite Hp. reflexivity. Qed.
Lemma mP3' : 1 <= m /\ 1 <= P /\ m * P * 3 <= l * 3 /\ l = m.
Proof. destruct (mP1 t Hwf Hq). rewrite (lP t Hq), P21. lia. Qed.

(** the butterfly with the table read between the two loads *)
Lemma bfly_t R T k z i c a0 a1 a2 k0 k1 k2 : T k = Some z -> i < l -> c < CC ->
  a0 = adr i + c -> a1 = adr (l + i) + c -> a2 = adr (l * 2 + i) + c ->
  k0 z (x i c) (x (l + i) c) = g i c -> k1 z (x i c) (x (l + i) c) = g (l + i) c -> k2 z (x i c) (x (l + i) c) = g (l * 2 + i) c ->
  wpe R (row3 adr g i (l + i) (l * 2 + i) c)
    (Rd a0 (fun V0 => tget T k (fun Z => Rd a1 (fun V1 => Wr a0 (k0 Z V0 V1) (Wr a1 (k1 Z V0 V1) (Wr a2 (k2 Z V0 V1) Ret)))))) mm.
Proof.
  intros HT Hi Hc -> -> -> E0 E1 E2.
  eapply wpe_rd; [right; eexists; left; split; reflexivity|apply (src3_0 t Hwf Hov f F x mm Hsrc); assumption|].
  eapply wpe_tget; [exact HT|].
  eapply wpe_rd; [right; eexists; right; left; split; reflexivity|apply (src3_1 t Hwf Hov f F x mm Hsrc); assumption|].
  apply row_w3; try reflexivity; try assumption; try (apply (adr3_ne t Hwf Hov f F Hsep); lia).
  - rewrite (src3_0 t Hwf Hov f F x mm Hsrc) by assumption. discriminate.
  - rewrite (src3_1 t Hwf Hov f F x mm Hsrc) by assumption. discriminate.
  - apply (src3_2 t f F mm HFa); assumption.
Qed.
Lemma zm_1 : zeta M (Z.of_nat m - Z.of_nat 0) = zeta M (Z.of_nat m).
Proof. f_equal. lia. Qed.
Lemma Cj1' : Cconj C1 = C1. Proof. apply C_ext; cbn; ring. Qed.

Lemma cp3 a z f0 : vadd (vadd a (vmul (CONJ z) (UNPACKL f0 f0))) (ZMULTI (vmul (CONJ z) (UNPACKH f0 f0))) = (a + Cconj z * f0)%C.
Proof. apply C_ext; cbn; ring. Qed.
Lemma forward2All_ok : SS = 1 -> WP (cforward2All t f F) mm (sets adr CC (kout t rh3 x) (l * 3) mm).
Proof.
  intros HS. pose proof (k_S1 t Hwf HS) as HC. destruct (ov_facts t Hov) as (Hin & _ & Hn & HD).
  destruct mP3' as (Hm1 & HP1 & HN & Hl). pose proof (lP t Hq) as HlP. pose proof P21 as HP.
  unfold cforward2All. cbv zeta.
  assert (Eb : f + m = f + kb t) by (unfold kb; rewrite HS; lia).
  apply WP_seq. match goal with |- WP (Do ?p) _ _ => change (Do p) with (ParFor 0 1 (fun _ => p)) end.
  eapply (WP_at3 adr CC g (l * 3) Hinj m P 3 Hm1 HP1 HN (fun k b u s => u = 0 /\ s = k)
     (fun b u s => False) (fun b u s => s < 1)); [apply dn_at3_have; tauto|tauto|intros; lia| | |].
  { intros b u s Hb Hu Hs. split; [intros; right; exists s; lia|intros [[]|(k & Hk & HQ)]; lia]. }
  { intros s Hs. replace s with 0 by lia. apply (lset_at3_b3 adr CC g (l * 3) m P 3); try lia. rewrite <- HlP.
    rewrite HC. apply lset_three; [reflexivity|].
    apply (bfly_t (outs adr 1 (l * 3)) (kZqm t) ((m + 1) * 1 + m) (zeta M (Z.of_nat m)) (m * 0 + 0) 0 _ _ _
      (fun Z V0 V1 => vadd V0 V1)
      (fun Z V0 V1 => vadd (vadd V1 (vmul (CONJ Z) (UNPACKL V0 V0))) (ZMULTI (vmul (CONJ Z) (UNPACKH V0 V0))))
      (fun Z V0 V1 => vadd V1 (CONJ (vsub (vmul (CONJ Z) (UNPACKL V0 V0)) (ZMULTI (vmul (CONJ Z) (UNPACKH V0 V0))))))).
    - apply zz. lia.
    - lia.
    - lia.
    - rewrite adr3_0 by lia. lia.
    - rewrite adr3_1 by lia. lia.
    - rewrite adr3_2 by lia. lia.
    - rewrite g_0 by lia. rewrite vadd_eq, Nat.mul_0_r. reflexivity.
    - rewrite g_1 by lia. rewrite zm_1. cbn [Z.of_nat]. rewrite zeta_0. rewrite cp3, Nat.mul_0_r. cbn [Nat.add]. ring.
    - rewrite g_2 by lia. rewrite zm_1. cbn [Z.of_nat]. rewrite zeta_0, cpair_minus, vadd_eq, Nat.mul_0_r, Cj1'. cbn [Nat.add]. ring. }
  intros m2 H2. apply WP_seq.
  eapply (WP_at3 adr CC g (l * 3) Hinj m P 3 Hm1 HP1 HN (fun k b u s => u = 0 /\ s = k)
     (fun b u s => s < 1) (fun b u s => True)); [exact H2|intros; lia|intros; lia| | |].
  { intros b u s Hb Hu Hs. split; [|auto]. intros _. destruct (Nat.lt_ge_cases s 1); [auto|]. right. exists s. lia. }
  { intros s Hs. apply (lset_at3_b3 adr CC g (l * 3) m P 3); try lia. rewrite <- HlP.
    eapply lset_tget; [apply zz; lia|]. eapply lset_tget; [apply zzm; lia|].
    rewrite HC. apply lset_three; [reflexivity|].
    apply (bfly t Hwf Hov f F Hsep x mm Hsrc HFa (outs adr 1 (l * 3)) g (m * 0 + s) 0 _ _ _
      (fun V0 V1 => vadd V0 V1)
      (fun V0 V1 => vadd (vadd (vmul (CONJ (zeta M (Z.of_nat m - Z.of_nat s))) (UNPACKL V0 V0)) (vmul (zeta M (Z.of_nat s)) (UNPACKL V1 V1)))
         (ZMULTI (vadd (vmul (CONJ (zeta M (Z.of_nat m - Z.of_nat s))) (UNPACKH V0 V0)) (vmul (zeta M (Z.of_nat s)) (UNPACKH V1 V1)))))
      (fun V0 V1 => CONJ (vsub (vadd (vmul (CONJ (zeta M (Z.of_nat m - Z.of_nat s))) (UNPACKL V0 V0)) (vmul (zeta M (Z.of_nat s)) (UNPACKL V1 V1)))
         (ZMULTI (vadd (vmul (CONJ (zeta M (Z.of_nat m - Z.of_nat s))) (UNPACKH V0 V0)) (vmul (zeta M (Z.of_nat s)) (UNPACKH V1 V1))))))).
    - lia.
    - lia.
    - rewrite adr3_0 by lia. lia.
    - rewrite adr3_1 by lia. lia.
    - rewrite adr3_2 by lia. lia.
    - rewrite g_0 by lia. rewrite vadd_eq, Nat.mul_0_r. reflexivity.
    - rewrite g_1 by lia. rewrite pair2_plus, Nat.mul_0_r. change (CONJ (zeta M (Z.of_nat m - Z.of_nat s))) with (Cconj (zeta M (Z.of_nat m - Z.of_nat s))). cbn [Nat.add]. ring.
    - rewrite g_2 by lia. rewrite pair2_minus, Nat.mul_0_r. change (CONJ (zeta M (Z.of_nat m - Z.of_nat s))) with (Cconj (zeta M (Z.of_nat m - Z.of_nat s))). rewrite Cconj_conj. cbn [Nat.add]. ring. }
  intros m3 H3. assert (S3 : sets adr CC g (l * 3) mm m3).
  { eapply (at3_sets adr CC g (l * 3) m P 3 Hm1 HP1 HN); [lia| |exact H3]. intros; exact Logic.I. }
  rewrite Eb. pose proof (rows3_1_ok t Hwf Hq Hin base adr 3 base_adr Hinj g 1 m3) as Hr.
  eapply WP_mono; [|apply Hr; try assumption; [apply S3|reflexivity]]. intros m9 S9.
  apply (fin3 g m3 m9); assumption.
Qed.

Lemma cx_plus z w f0 f1 :
  vadd (vadd (vmul (UNPACKL w w) f0) (vmul (UNPACKL z z) f1)) (FLIP (vadd (vmul (UNPACKH (vneg w) w) f0) (vmul (UNPACKH z (vneg z)) f1)))
  = (Cconj w * f0 + z * f1)%C.
Proof. apply C_ext; cbn; ring. Qed.
Lemma cx_minus z w f0 f1 :
  vsub (vadd (vmul (UNPACKL w w) f0) (vmul (UNPACKL z z) f1)) (FLIP (vadd (vmul (UNPACKH (vneg w) w) f0) (vmul (UNPACKH z (vneg z)) f1)))
  = (w * f0 + Cconj z * f1)%C.
Proof. apply C_ext; cbn; ring. Qed.
Lemma forward2ManyAll_ok : SS <> 1 -> WP (cforward2ManyAll t f F) mm (sets adr CC (kout t rh3 x) (l * 3) mm).
Proof.
  intros HS. destruct (ov_facts t Hov) as (Hin & _ & Hn & HD).
  destruct mP3' as (Hm1 & HP1 & HN & Hl). pose proof (lP t Hq) as HlP. pose proof P21 as HP.
  unfold cforward2ManyAll. cbv zeta. 
  rewrite (cget_some _ _ _ _ (zz m (le_n m))).
  assert (Eb : f + kSm t = f + kb t) by (unfold kb, kSm; rewrite Hl; lia).
  apply WP_seq.
  eapply (WP_parcols adr CC g (l * 3) Hinj (fun i => False) (fun i => m * 0 + 0 = i \/ l + (m * 0 + 0) = i \/ l * 2 + (m * 0 + 0) = i)); [apply dn_have; tauto|tauto|intros; lia| |].
  { intros c Hc.
    eapply wpe_iff; [|apply (bfly t Hwf Hov f F Hsep x mm Hsrc HFa (outs adr CC (l * 3)) g (m * 0 + 0) c _ _ _
      (fun V0 V1 => vadd V0 V1)
      (fun V0 V1 => vadd (vadd V1 (vmul (CONJ (zeta M (Z.of_nat m))) (UNPACKL V0 V0))) (ZMULTI (vmul (CONJ (zeta M (Z.of_nat m))) (UNPACKH V0 V0))))
      (fun V0 V1 => vadd V1 (CONJ (vsub (vmul (CONJ (zeta M (Z.of_nat m))) (UNPACKL V0 V0)) (ZMULTI (vmul (CONJ (zeta M (Z.of_nat m))) (UNPACKH V0 V0)))))))].
    - intros a v. split.
      + intros [Hr|[Hr|Hr]]; eexists; (split; [|exact Hr]); tauto.
      + intros (i & [<-|[<-|<-]] & Hr); [left|right; left|right; right]; exact Hr.
    - lia.
    - lia.
    - rewrite adr3_0 by lia. lia.
    - rewrite adr3_1 by lia. lia.
    - rewrite adr3_2 by lia. lia.
    - rewrite g_0 by lia. rewrite vadd_eq, Nat.mul_0_r. reflexivity.
    - rewrite g_1 by lia. rewrite zm_1. cbn [Z.of_nat]. rewrite zeta_0. rewrite cp3, Nat.mul_0_r. cbn [Nat.add]. ring.
    - rewrite g_2 by lia. rewrite zm_1. cbn [Z.of_nat]. rewrite zeta_0, cpair_minus, vadd_eq, Nat.mul_0_r, Cj1'. cbn [Nat.add]. ring. }
  intros m2 H2'.
  assert (H2 : dn adr CC g (at3 m P 3 (fun b u s => s < 1)) mm m2).
  { eapply eff_iff; [|exact H2']. intros a v. split; intros (i & c & Hi & Hr); exists i, c; (split; [|exact Hr]).
    - destruct Hi as [[]|Hi]. rewrite HlP in Hi. destruct Hi as [<-|[<-|<-]]; [exists 0|exists 1|exists 2]; exists 0, 0; repeat split; lia.
    - right. destruct Hi as (b & u & s & Hb & Hu & Hs & -> & Hs1). rewrite HlP.
      destruct b as [|[|[|b]]]; [left|right; left|right; right|exfalso]; lia. }
  clear H2'. apply WP_seq.
  eapply (WP_at3 adr CC g (l * 3) Hinj m P 3 Hm1 HP1 HN (fun k b u s => u = 0 /\ s = k)
     (fun b u s => s < 1) (fun b u s => True)); [exact H2|intros; lia|intros; lia| | |].
  { intros b u s Hb Hu Hs. split; [|auto]. intros _. destruct (Nat.lt_ge_cases s 1); [auto|]. right. exists s. lia. }
  { intros s Hs. apply (lset_at3_b3 adr CC g (l * 3) m P 3); try lia. rewrite <- HlP.
    eapply lset_tget; [apply zz; lia|]. eapply lset_tget; [apply zzm; lia|].
    apply (lset_cols3 _ _ _ _ Hinj); [lia|lia|lia|]. intros c Hc.
    set (z := zeta M (Z.of_nat s)). set (w := zeta M (Z.of_nat m - Z.of_nat s)).
    apply (bfly t Hwf Hov f F Hsep x mm Hsrc HFa (outs adr CC (l * 3)) g (m * 0 + s) c _ _ _
      (fun V0 V1 => vadd V0 V1)
      (fun V0 V1 => vadd (vadd (vmul (UNPACKL w w) V0) (vmul (UNPACKL z z) V1)) (FLIP (vadd (vmul (UNPACKH (vneg w) w) V0) (vmul (UNPACKH z (vneg z)) V1))))
      (fun V0 V1 => vsub (vadd (vmul (UNPACKL w w) V0) (vmul (UNPACKL z z) V1)) (FLIP (vadd (vmul (UNPACKH (vneg w) w) V0) (vmul (UNPACKH z (vneg z)) V1))))).
    - lia.
    - lia.
    - rewrite adr3_0 by lia. lia.
    - rewrite adr3_1 by lia. lia.
    - rewrite adr3_2 by lia. lia.
    - rewrite g_0 by lia. rewrite vadd_eq, Nat.mul_0_r. reflexivity.
    - rewrite g_1 by lia. fold z w. rewrite cx_plus, Nat.mul_0_r. cbn [Nat.add]. ring.
    - rewrite g_2 by lia. fold z w. rewrite cx_minus, Nat.mul_0_r. cbn [Nat.add]. ring. }
  intros m3 H3. assert (S3 : sets adr CC g (l * 3) mm m3).
  { eapply (at3_sets adr CC g (l * 3) m P 3 Hm1 HP1 HN); [lia| |exact H3]. intros; exact Logic.I. }
  rewrite Eb. pose proof (rows3_N1_ok t Hwf Hq Hin base adr 3 base_adr Hinj g 1 m3) as Hr.
  eapply WP_mono; [|apply Hr; try assumption; [apply S3|reflexivity]]. intros m9 S9.
  apply (fin3 g m3 m9); assumption.
Qed.
End Two.
End T.
