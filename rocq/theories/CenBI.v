(** Centered backward transforms, p>2: twiddle factors, radix-P stage and unfolding, S=1. *)
From Coq Require Import Reals ZArith Arith Lia List Bool.
From Verif Require Import CNum Sums Roots Mem VecModel VecProofs PadModel PadKernels Loops
  PadLemmas PadMath PadGeom Fwd1 PadIndex PadForward Fill CenModel CenMath CenGeom CenFft CenF2 CenPass CenStage CenTw CenFI CenOv CenExp CenBack CenB2 CenBPass CenBwd2.

(** the rows of the blocks after the inverse transforms of length m and the twiddle factors *)
Definition twb (t : pad) (rh : nat -> Z) (Y : nat -> nat -> C) (i c : nat) : C :=
  Cmul (rowv (am t) (-1) Y i c)
    (Cconj (zeta (kM t) ((Z.of_nat (kn t) * Z.of_nat (i mod kl t / am t) + rh (i / kl t)%nat) * Z.of_nat (i mod am t)))).
(** and after the inverse radix-P stage *)
Definition bU (t : pad) (rh : nat -> Z) (Y : nat -> nat -> C) : nat -> nat -> C :=
  colv (am t) (kP t) (-1) (twb t rh Y).

Section T.
Variable t : pad.
Hypothesis Hwf : kwf t.
Hypothesis Hq : kq t <> 1.
Hypothesis Hp : 2 < kp t.
Notation L := (aL t).  Notation CC := (aC t).  Notation SS := (aS t).  Notation m := (am t).
Notation q := (kq t).   Notation n := (kn t).   Notation M := (kM t).
Notation D := (kD t).  Notation D0 := (kD0 t). Notation P := (kP t). Notation l := (kl t).
Notation H := (kH t). Notation m0 := (km0 t). Notation m1 := (km1 t).

Section V.
Variables (rh : nat -> Z) (Y : nat -> nat -> C).
Lemma twb_at b u s c : u < P -> s < m ->
  twb t rh Y (l * b + (m * u + s)) c =
  (rowv m (-1) Y (l * b + (m * u + s)) c * Cconj (zeta M ((Z.of_nat n * Z.of_nat u + rh b) * Z.of_nat s)))%C.
Proof.
  intros Hu Hs. pose proof (sh_l t Hwf) as Hl. unfold twb.
  assert (Hms : m * u + s < l) by (rewrite (lP t Hq); nia).
  replace ((l * b + (m * u + s)) / l) with b.
  2:{ replace (l * b + (m * u + s)) with ((m * u + s) + b * l) by lia. rewrite Nat.div_add, Nat.div_small by lia. reflexivity. }
  replace ((l * b + (m * u + s)) mod l / m) with u.
  2:{ replace (l * b + (m * u + s)) with ((m * u + s) + b * l) by lia. rewrite Nat.mod_add, Nat.mod_small by lia.
      replace (m * u + s) with (s + u * m) by lia. rewrite Nat.div_add, Nat.div_small by lia. reflexivity. }
  replace ((l * b + (m * u + s)) mod m) with s; [reflexivity|].
  replace (l * b + (m * u + s)) with (s + (u + b * P) * m) by (rewrite (lP t Hq); lia). rewrite Nat.mod_add, Nat.mod_small by lia. reflexivity.
Qed.
Lemma bU_stU b i c : i < l ->
  bU t rh Y (l * b + i) c = stU m P n (rh b) (fun u k => Y (l * b + (m * u + k)) c) i.
Proof.
  intros Hi. destruct (mP1 t Hwf Hq) as [Hm HP]. pose proof (Nat.div_mod i m ltac:(lia)) as Ei.
  pose proof (Nat.mod_upper_bound i m ltac:(lia)) as Hs.
  assert (Hu : i / m < P) by (apply Nat.div_lt_upper_bound; [lia|rewrite <- (lP t Hq); lia]).
  unfold stU, bU. rewrite Ei at 1. rewrite <- (colv_at t Hwf Hq) by assumption.
  apply dft_ext. intros u Hu'. rewrite twb_at by assumption.
  rewrite <- (k_M t Hwf Hq). apply (f_equal2 Cmul); [|reflexivity].
  unfold rowv. replace (l * b + (m * u + i mod m)) with (i mod m + (u + b * P) * m) by (rewrite (lP t Hq); lia).
  rewrite Nat.div_add, Nat.mod_add, Nat.div_small, (Nat.mod_small (i mod m)) by lia. apply dft_ext.
  intros k Hk. f_equal. rewrite (lP t Hq). lia.
Qed.
Lemma bsum_hiI B i c : i < l ->
  bsum t B rh Y (H + i) c = Csum B (fun b => Cconj (zeta q (rh b * Z.of_nat (i / m))) * bU t rh Y (l * b + i) c)%C.
Proof.
  intros Hi. pose proof (k_cg t Hwf Hq) as G. apply Csum_ext. intros b Hb.
  change (H + i) with (cH L + i). rewrite cb_hi. rewrite (bl_stU m P n L G), bU_stU by assumption.
  rewrite <- (k_qq t Hwf Hq). reflexivity.
Qed.
Lemma bsum_loI B i c : m0 <= i < l ->
  bsum t B rh Y (i - m0) c = Csum B (fun b => zeta n (rh b) * (Cconj (zeta q (rh b * Z.of_nat (i / m))) * bU t rh Y (l * b + i) c))%C.
Proof.
  intros Hi. pose proof (k_cg t Hwf Hq) as G. apply Csum_ext. intros b Hb.
  rewrite (m0_c t Hq Hp) in *. rewrite (cb_lo m P n L G) by lia. rewrite (bl_stU m P n L G), bU_stU by lia.
  rewrite <- (k_qq t Hwf Hq). reflexivity.
Qed.
Lemma twb_at0 u s c : u < P -> s < m -> twb t rh Y (m * u + s) c =
  (rowv m (-1) Y (m * u + s) c * Cconj (zeta M ((Z.of_nat n * Z.of_nat u + rh 0%nat) * Z.of_nat s)))%C.
Proof. intros Hu Hs. pose proof (twb_at 0 u s c Hu Hs) as E. rewrite Nat.mul_0_r in E. exact E. Qed.
Lemma twb_at1 u s c : u < P -> s < m -> twb t rh Y (l + (m * u + s)) c =
  (rowv m (-1) Y (l + (m * u + s)) c * Cconj (zeta M ((Z.of_nat n * Z.of_nat u + rh 1%nat) * Z.of_nat s)))%C.
Proof. intros Hu Hs. pose proof (twb_at 1 u s c Hu Hs) as E. rewrite Nat.mul_1_r in E. exact E. Qed.
Lemma twb_start adr CC0 B (Q : nat -> nat -> nat -> Prop) (m7 : mem) :
  (forall i c, i < l * B -> c < CC0 -> m7 (adr i + c) = Val (rowv m (-1) Y i c)) ->
  (forall b u s, b < B -> u < P -> s < m -> Q b u s -> ((Z.of_nat n * Z.of_nat u + rh b) * Z.of_nat s = 0)%Z) ->
  dn adr CC0 (twb t rh Y) (at3 m P B Q) m7 m7.
Proof.
  intros HV HQ. apply dn_at3_have. intros b u s c Hb Hu Hs Hc Hx.
  rewrite <- (lP t Hq). rewrite twb_at by assumption. rewrite (HQ b u s Hb Hu Hs Hx), zeta_0, Cconj_C1.
  rewrite HV; [f_equal; ring| |assumption].
  assert (m * u + s < l) by (rewrite (lP t Hq); nia). nia.
Qed.
End V.

Lemma twb_leaf R adr g i c a T k v z (mm : mem) : a = adr i + c -> mm a = Val v -> T k = Some z -> g i c = Cmul v (Cconj z) ->
  wpe R (row adr g i c) (Rd a (fun x => tget T k (fun z => Wr a (Cmul x (Cconj z)) Ret))) mm.
Proof.
  intros Ea Hv Ht Hg. eapply wpe_rd; [right; eexists; split; [exact Ea|reflexivity]|exact Hv|].
  eapply wpe_tget; [exact Ht|]. apply row_w1; [assumption|symmetry; assumption|rewrite Hv; discriminate].
Qed.

(** the unfolding loops *)
Lemma at2_pos : m0 + H = l /\ H + (L - H) = L.
Proof. pose proof (rgI t Hwf Hq Hp). rewrite (lP t Hq). lia. Qed.
Lemma bfold adr cc g (Hinj : injrows adr cc L) B1 B2 C3 B4 B5 (mm : mem) (K : mem -> Prop) :
  (forall s, s < m0 -> lset adr cc g L (eq (H + s)) (B1 s) mm) ->
  (forall s, m0 <= s < m -> lset adr cc g L (fun i => s - m0 = i \/ H + s = i) (B2 s) mm) ->
  (forall m2 (K : mem -> Prop), dn adr cc g (at2 H (L - H) m0 l (fun s => s < m) (fun s => s < m)) mm m2 ->
     (forall m3, dn adr cc g (at2 H (L - H) m0 l (fun s => s < (P - 1) * m) (fun s => s < (P - 1) * m)) mm m3 -> K m3) ->
     WP C3 m2 K) ->
  (forall s, s < m1 -> lset adr cc g L (fun i => (P - 1) * m + s - m0 = i \/ H + ((P - 1) * m + s) = i) (B4 s) mm) ->
  (forall s, m1 <= s < m -> lset adr cc g L (eq ((P - 1) * m + s - m0)) (B5 s) mm) ->
  (forall m9, sets adr cc g L mm m9 -> K m9) ->
  WP (Seq (ParFor 0 m0 B1) (Seq (ParFor m0 m B2) (Seq C3 (Seq (ParFor 0 m1 B4) (ParFor m1 m B5))))) mm K.
Proof.
  intros L1 L2 L3 L4 L5 HK. pose proof (rgI t Hwf Hq Hp) as Hg. destruct at2_pos as [G1 G2]. pose proof (lP t Hq) as Hl.
  pose proof (WP_at2s adr cc g L Hinj H (L - H) m0 l G1 G2) as HA.
  apply WP_seq. eapply (HA False True 0 (fun _ => False) (fun _ => False) (fun _ => False) (fun s => s < m0)); [apply at2_nil|intros; cbv beta; intuition lia..| |].
  { intros s Hs. apply lset_at2_hi; [lia|]. apply L1. lia. }
  intros m2 H2. apply WP_seq.
  eapply (HA True True 0 _ _ (fun s => s < m) (fun s => s < m)); [exact H2|intros; cbv beta; intuition lia..| |].
  { intros s Hs. apply lset_at2_both; [lia|lia|]. apply L2. lia. }
  intros m3 H3. apply WP_seq. apply L3; [exact H3|]. clear m2 H2 m3 H3. intros m3 H3. apply WP_seq.
  eapply (HA True True ((P - 1) * m) _ _ (fun s => s < L - H) (fun _ => True)); [exact H3|intros; cbv beta; intuition lia..| |].
  { intros s Hs. apply lset_at2_both; [lia|lia|]. apply L4. lia. }
  intros m4 H4.
  eapply (HA True False ((P - 1) * m) _ _ (fun _ => True) (fun _ => True)); [exact H4|intros; cbv beta; intuition lia..| |].
  { intros s Hs. apply lset_at2_lo; [lia|]. apply L5. lia. }
  intros m5 H5. apply HK. eapply at2_sets; [exact G1|exact G2| | |exact H5]; intros; exact Logic.I.
Qed.
(** the middle loop *)
Lemma bfold_mid adr cc g (Hinj : injrows adr cc L) B3 (mm m2 : mem) (K : mem -> Prop) :
  (forall u, 1 <= u < P - 1 -> lset adr cc g L (at2 H (L - H) m0 l (fun s => True /\ u * m <= s < u * m + m) (fun s => True /\ u * m <= s < u * m + m)) (B3 u) mm) ->
  dn adr cc g (at2 H (L - H) m0 l (fun s => s < m) (fun s => s < m)) mm m2 ->
  (forall m3, dn adr cc g (at2 H (L - H) m0 l (fun s => s < (P - 1) * m) (fun s => s < (P - 1) * m)) mm m3 -> K m3) ->
  WP (ParFor 1 (P - 1) B3) m2 K.
Proof.
  intros Hb H2 HK. pose proof (rgI t Hwf Hq Hp) as Hg. destruct at2_pos as [G1 G2]. pose proof (lP t Hq) as Hl.
  eapply (WP_at2n adr cc g L Hinj H (L - H) m0 l G1 G2 True True m _ _ (fun s => s < (P - 1) * m) (fun s => s < (P - 1) * m)); [lia|exact H2|intros; cbv beta; intuition lia..| |exact HK].
  exact Hb.
Qed.
Lemma bfold_rng u : 1 <= u < P - 1 -> m0 <= u * m /\ u * m + m <= l /\ u * m + m <= L - H /\ m <= u * m /\ u * m + m <= (P - 1) * m.
Proof.
  intros Hu. pose proof (rgI t Hwf Hq Hp) as Hg. pose proof (lP t Hq) as Hl.
  assert (m <= u * m) by nia. assert (u * m + m <= (P - 1) * m) by nia. lia.
Qed.
Lemma div_um u s : s < m -> (u * m + s) / m = u.
Proof. intros Hs. rewrite Nat.div_add_l, Nat.div_small by lia. lia. Qed.

Section S1.
Hypothesis HS : SS = 1.
(** twiddle factors and radix-P stage done: W holds bU; f is as before *)
Lemma bI_glue f W N rh Y g (mm m7 : mem) : sepbuf 1 1 f L W N ->
  sets (fun i => W + 1 * i) 1 (bU t rh Y) N mm m7 ->
  (forall j c, j < L -> c < 1 -> mm (f + 1 * j + c) <> Unalloc) ->
  forall cc, ((forall i c, i < N -> c < 1 -> m7 (W + 1 * i + c) = Val (bU t rh Y i c)) ->
   (forall j c, j < L -> c < 1 -> m7 (f + 1 * j + c) = mm (f + 1 * j + c)) ->
   (forall j c, j < L -> c < 1 -> m7 (f + 1 * j + c) <> Unalloc) ->
   forall K : mem -> Prop, (forall m9, sets (fun i => f + 1 * i) 1 g L m7 m9 -> K m9) -> WP cc m7 K) ->
  WP cc m7 (bdone 1 1 f L W W N g mm).
Proof.
  intros Hsep S7 Hal cc Hcc. pose proof S7 as (A1 & A2 & A3).
  assert (Hf : forall j c, j < L -> c < 1 -> m7 (f + 1 * j + c) = mm (f + 1 * j + c)).
  { intros j c Hj Hc. apply A2. intros i c' Hi Hc'. apply Hsep; assumption. }
  apply Hcc; [exact A1|exact Hf| |].
  - intros. rewrite Hf by assumption. auto.
  - intros m9 H9. eapply bdone_2; eassumption.
Qed.

Lemma backwardInner_zero1_ok : bpiece t 1 (fun _ => 0%Z) true (cbackwardInner_zero1 t).
Proof.
  intros f W acc Y mm Hsep HA Hal _. rewrite Nat.mul_1_r in *.
  pose proof (rgI t Hwf Hq Hp) as Hg. pose proof (lP t Hq) as Hl. unfold cbackwardInner_zero1. cbv zeta. rewrite <- (k_P t).
  match goal with |- WP _ _ (bdone _ _ _ _ _ _ _ ?gg _) => set (g := gg) end.
  set (rh := fun _ : nat => 0%Z) in *.
  assert (HinjW : injrows (fun i => W + 1 * i) 1 l) by (apply buf_inj; lia).
  assert (HN : m * P * 1 <= l) by lia. assert (Hm1 : 1 <= m) by lia. assert (HP1 : 1 <= P) by lia.
  apply WP_seq.
  set (adr := fun i => W + 1 * i) in *. set (T := twb t rh Y).
  assert (V0 : forall i c, i < l * 1 -> c < 1 -> mm (adr i + c) = Val (rowv m (-1) Y i c)) by (rewrite Nat.mul_1_r; exact HA).
  apply (WP_dnfor adr 1 T (fun u => at3 m P 1 (fun b u' s => s = 0 \/ u' < 1 + u))) with (m := mm).
  - apply twb_start; [assumption|]. intros b u s Hb Hu Hs [->|HQ]; [lia|]. replace u with 0 by lia. unfold rh. lia.
  - intros u m8 Hu H8.
    eapply (WP_at3 adr 1 T l HinjW m P 1 Hm1 HP1 HN (fun k b u' s => u' = 1 + u /\ s = k)
       (fun b u' s => s = 0 \/ u' < 1 + u) (fun b u' s => s = 0 \/ u' < 1 + S u)); [exact H8|intros; lia|intros; lia| | |].
    + intros b u' s Hb Hu' Hs. split.
      * intros HQ. destruct (Nat.eq_dec s 0); [auto|]. destruct (Nat.lt_ge_cases u' (1 + u)); [auto|]. right. exists s. lia.
      * intros [HQ|(k & Hk & HQ)]; lia.
    + intros s Hs. apply (lset_at3_b1 adr 1 T l m P 1 Hm1 HP1 HN); [reflexivity|lia|lia|].
      apply lset_one; [reflexivity|].
      assert (Hlt : (1 + u) * m + s < l) by (apply (lt_l t Hq Hp); lia).
      assert (Ea : W + (1 + u) * m + s = adr (m * (1 + u) + s) + 0) by (unfold adr; lia).
      eapply twb_leaf; [exact Ea|rewrite Ea; apply V0; lia| |].
      * replace (m * n * (1 + u) + s) with (m * (n * (1 + u) + 0) + s) by lia. apply (zqm_u t Hwf Hq Hp); lia.
      * unfold T. rewrite twb_at0 by lia. reflexivity.
    + intros m9 H9. exact H9.
  - intros m6 H6. assert (S6 : sets adr 1 T l mm m6).
    { eapply (at3_sets adr 1 T l m P 1 Hm1 HP1 HN); [lia| |exact H6]. intros; cbv beta. lia. }
    clear H6. apply WP_seq. eapply WP_mono; [|apply (fftp1_ok t Hwf Hq (-1) W T m6 HS); apply S6].
    intros m7 S7. assert (S8 : sets (fun i => W + 1 * i) 1 (bU t rh Y) l mm m7) by (eapply sets_trans; [exact S6|exact S7]).
    clear S6 S7 m6. revert S8. intros S8. eapply bI_glue; [exact Hsep|exact S8|exact Hal|].
    clear HA Hal S8 V0. intros HA Hf Hal K HK.
    assert (Hinj : injrows (fun i => f + 1 * i) 1 L) by (apply buf_inj; lia).
    assert (Glo : forall s, m0 <= s < l -> g (s - m0) 0 = bU t rh Y s 0).
    { intros s Hs. unfold g. rewrite bsum_loI by assumption. unfold rh at 1 2. cbn [Csum]. rewrite Nat.mul_0_r, Z.mul_0_l, !zeta_0, Cconj_C1. cbn [Nat.add]. ring. }
    assert (Ghi : forall s, s < l -> g (H + s) 0 = bU t rh Y s 0).
    { intros s Hs. unfold g. rewrite bsum_hiI by assumption. unfold rh at 1. cbn [Csum]. rewrite Nat.mul_0_r, Z.mul_0_l, !zeta_0, Cconj_C1. cbn [Nat.add]. ring. }
    apply (bfold (fun i => f + 1 * i) 1 g Hinj); try exact HK.
    + intros s Hs. apply lset_one; [reflexivity|]. wrd s 0. apply row_w1; [lia|symmetry; apply Ghi; lia|sal (H + s) 0].
    + intros s Hs. apply lset_two; [reflexivity|]. wrd s 0.
      apply (row_w2c (fun i => f + 1 * i) g _ _ _ _ _ _ _ _ (fun y => y)); [lia|lia|lia|symmetry; apply Glo; lia|symmetry; apply Ghi; lia|sal (s - m0) 0|sal (H + s) 0].
    + clear K HK. intros m2 K H2 HK.
      destruct at2_pos as [G1 G2].
      apply (WP_dnfor (fun i => f + 1 * i) 1 g (fun u => at2 H (L - H) m0 l (fun s => s < (1 + u) * m) (fun s => s < (1 + u) * m))) with (m := m7).
      * replace ((1 + 0) * m) with m by lia. exact H2.
      * intros u m8 Hu H8. destruct (bfold_rng (1 + u) ltac:(lia)) as (B1 & B2 & B3 & B4 & B5).
        assert (E : (1 + S u) * m = (1 + u) * m + m) by lia. rewrite E. set (tm := (1 + u) * m) in *.
        eapply (WP_at2s (fun i => f + 1 * i) 1 g L Hinj H (L - H) m0 l G1 G2 True True tm _ _ (fun s => s < tm + m) (fun s => s < tm + m)); [exact H8|intros; cbv beta; intuition lia..| |auto].
        intros s Hs. apply lset_at2_both; [lia|lia|]. apply lset_two; [reflexivity|]. wrd (tm + s) 0.
        apply (row_w2c (fun i => f + 1 * i) g _ _ _ _ _ _ _ _ (fun y => y)); [lia|lia|lia|symmetry; apply Glo; lia|symmetry; apply Ghi; lia|sal (tm + s - m0) 0|sal (H + (tm + s)) 0].
      * intros m3 H3. apply HK. replace (1 + (P - 1 - 1)) with (P - 1) in H3 by lia. exact H3.
    + intros s Hs. apply lset_two; [reflexivity|]. wrd ((P - 1) * m + s) 0.
      apply (row_w2c (fun i => f + 1 * i) g _ _ _ _ _ _ _ _ (fun y => y)); [lia|lia|lia|symmetry; apply Glo; lia|symmetry; apply Ghi; lia|sal ((P - 1) * m + s - m0) 0|sal (H + ((P - 1) * m + s)) 0].
    + intros s Hs. apply lset_one; [reflexivity|]. wrd ((P - 1) * m + s) 0. apply row_w1; [lia|symmetry; apply Glo; lia|sal ((P - 1) * m + s - m0) 0].
Qed.

Lemma backwardInner_residue1_ok r : 1 <= r < n -> bpiece t 1 (fun _ => Z.of_nat r) false (fun f W => cbackwardInner_residue1 t f W r).
Proof.
  intros Hr f W acc Y mm Hsep HA Hal Hacc. specialize (Hacc eq_refl). rewrite Nat.mul_1_r in *.
  pose proof (rgI t Hwf Hq Hp) as Hg. pose proof (lP t Hq) as Hl. unfold cbackwardInner_residue1. cbv zeta. rewrite <- (k_P t).
  rewrite (cget_some _ _ _ _ (zqpP t Hwf Hq Hp r Hr)).
  match goal with |- WP _ _ (bdone _ _ _ _ _ _ _ ?gg _) => set (g := gg) end.
  set (rh := fun _ : nat => Z.of_nat r) in *.
  assert (HinjW : injrows (fun i => W + 1 * i) 1 l) by (apply buf_inj; lia).
  assert (HN : m * P * 1 <= l) by lia. assert (Hm1 : 1 <= m) by lia. assert (HP1 : 1 <= P) by lia.
  apply WP_seq.
  set (adr := fun i => W + 1 * i) in *. set (T := twb t rh Y).
  assert (V0 : forall i c, i < l * 1 -> c < 1 -> mm (adr i + c) = Val (rowv m (-1) Y i c)) by (rewrite Nat.mul_1_r; exact HA).
  eapply (WP_at3 adr 1 T l HinjW m P 1 Hm1 HP1 HN (fun k b u' s => u' = 0 /\ s = k)
     (fun b u' s => s = 0) (fun b u' s => s = 0 \/ u' < 1)); [apply twb_start; [assumption|]|intros; lia|intros; lia| | |].
  - intros b u s Hb Hu Hs ->. lia.
  - intros b u' s Hb Hu' Hs. split.
    + intros HQ. destruct (Nat.eq_dec s 0); [auto|]. right. exists s. lia.
    + intros [HQ|(k & Hk & HQ)]; lia.
  - intros s Hs. apply (lset_at3_b1 adr 1 T l m P 1 Hm1 HP1 HN); [reflexivity|lia|lia|].
    apply lset_one; [reflexivity|].
    assert (Hlt : 0 * m + s < l) by (apply (lt_l t Hq Hp); lia).
    assert (Ea : W + s = adr (m * 0 + s) + 0) by (unfold adr; lia).
    eapply twb_leaf; [exact Ea|rewrite Ea; apply V0; lia| |].
    + replace (m * r + s) with (m * (n * 0 + r) + s) by lia. apply (zqm_u t Hwf Hq Hp); lia.
    + unfold T. rewrite twb_at0 by lia. reflexivity.
  - intros m5 H5. apply WP_seq.
    eapply (WP_at3 adr 1 T l HinjW m P 1 Hm1 HP1 HN (fun k b u' s => u' = k /\ 1 <= s)
       (fun b u' s => s = 0 \/ u' < 1) (fun b u' s => True)); [exact H5|intros; lia|intros; lia| | |].
    + intros b u' s Hb Hu' Hs. split; [|auto].
      intros _. destruct (Nat.eq_dec s 0); [auto|]. destruct (Nat.lt_ge_cases u' 1); [auto|]. right. exists u'. lia.
    + intros u Hu. apply (lset_at3_r1 adr 1 T l HinjW m P 1 Hm1 HP1 HN); [reflexivity|lia|].
      intros s Hs. apply lset_one; [reflexivity|].
      assert (Hlt : u * m + s < l) by (apply (lt_l t Hq Hp); lia).
      assert (Ea : W + m * u + s = adr (m * u + s) + 0) by (unfold adr; lia).
      eapply twb_leaf; [exact Ea|rewrite Ea; apply V0; lia| |].
      * replace (m * r + n * (m * u) + s) with (m * (n * u + r) + s) by lia. apply (zqm_u t Hwf Hq Hp); lia.
      * unfold T. rewrite twb_at0 by lia. reflexivity.
    + intros m6 H6. assert (S6 : sets adr 1 T l mm m6).
      { eapply (at3_sets adr 1 T l m P 1 Hm1 HP1 HN); [lia| |exact H6]. intros; exact Logic.I. }
      clear H5 H6 m5. apply WP_seq. eapply WP_mono; [|apply (fftp1_ok t Hwf Hq (-1) W T m6 HS); apply S6].
      intros m7 S7. assert (S8 : sets (fun i => W + 1 * i) 1 (bU t rh Y) l mm m7) by (eapply sets_trans; [exact S6|exact S7]).
      clear S6 S7 m6. eapply bI_glue; [exact Hsep|exact S8|exact Hal|].
      clear HA Hal S8 V0. intros HA Hf Hal K HK.
      assert (Ha7 : forall j c, j < L -> c < 1 -> m7 (f + 1 * j + c) = Val (acc j c)) by (intros; rewrite Hf by assumption; auto).
      clear Hacc Hf. rename Ha7 into Hacc.
      assert (Hinj : injrows (fun i => f + 1 * i) 1 L) by (apply buf_inj; lia).
      set (z := zeta n (Z.of_nat r)).
      assert (Glo : forall s, m0 <= s < l -> g (s - m0) 0 = Cadd (acc (s - m0) 0) (z * (Cconj (zeta q (Z.of_nat r * Z.of_nat (s / m))) * bU t rh Y s 0))%C).
      { intros s Hs. unfold g. rewrite bsum_loI by assumption. unfold rh at 1 2. fold z. cbn [Csum]. rewrite Nat.mul_0_r. cbn [Nat.add]. ring. }
      assert (Ghi : forall s, s < l -> g (H + s) 0 = Cadd (acc (H + s) 0) (Cconj (zeta q (Z.of_nat r * Z.of_nat (s / m))) * bU t rh Y s 0)%C).
      { intros s Hs. unfold g. rewrite bsum_hiI by assumption. unfold rh at 1. cbn [Csum]. rewrite Nat.mul_0_r. cbn [Nat.add]. ring. }
      assert (Z0 : forall s, s < m -> zeta q (Z.of_nat r * Z.of_nat (s / m)) = C1).
      { intros s Hs. rewrite Nat.div_small by assumption. rewrite Z.mul_0_r. apply zeta_0. }
      rewrite (cget_some _ _ _ _ (zqpI t Hq r (P - 1) Hr ltac:(lia))).
      apply (bfold (fun i => f + 1 * i) 1 g Hinj); try exact HK.
      * intros s Hs. apply lset_one; [reflexivity|].
        eapply row_r1; [|apply (acc_at _ _ _ _ _ _ _ (H + s) 0 Hacc); lia|]; [lia|].
        wrd s 0. apply row_w1; [lia| |sal (H + s) 0]. rewrite Ghi by lia. rewrite Z0, Cconj_C1 by lia. ring.
      * intros s Hs. apply lset_two; [reflexivity|]. wrd s 0.
        eapply row_r2a; [|apply (acc_at _ _ _ _ _ _ _ (s - m0) 0 Hacc); lia|]; [lia|].
        eapply row_w2r; [lia|lia|lia| | |sal (s - m0) 0|apply (acc_at _ _ _ _ _ _ _ (H + s) 0 Hacc); lia].
        -- rewrite Glo by lia. rewrite Z0, Cconj_C1 by lia. rewrite vadd_eq, ZMULTxy_eq. fold z. ring.
        -- rewrite Ghi by lia. rewrite Z0, Cconj_C1 by lia. rewrite vadd_eq. ring.
      * clear K HK. intros m2 K H2 HK. eapply (bfold_mid (fun i => f + 1 * i) 1 g Hinj); [|exact H2|exact HK].
        intros u Hu. destruct (bfold_rng u Hu) as (B1 & B2 & B3 & B4 & B5).
        eapply lset_tget; [apply (zqpI t Hq r u Hr); lia|].
        apply (lset_at2_block (fun i => f + 1 * i) 1 g L Hinj H (L - H) m0 l); [apply at2_pos|apply at2_pos|lia|lia|lia|]. intros s Hs.
        assert (Ed : (u * m + s) / m = u) by (apply div_um; assumption).
        apply lset_two; [reflexivity|]. wrd (u * m + s) 0.
        eapply row_r2a; [|apply (acc_at _ _ _ _ _ _ _ (u * m + s - m0) 0 Hacc); lia|]; [lia|].
        eapply row_w2r; [lia|lia|lia| | |sal (u * m + s - m0) 0|apply (acc_at _ _ _ _ _ _ _ (H + (u * m + s)) 0 Hacc); lia].
        -- rewrite Glo by lia. rewrite Ed, vadd_eq, ZMULTxy_eq, ZMULTxy_conj_eq. fold z. ring.
        -- rewrite Ghi by lia. rewrite Ed, vadd_eq, ZMULTxy_conj_eq. ring.
      * intros s Hs. assert (Ed : ((P - 1) * m + s) / m = P - 1) by (apply div_um; lia).
        apply lset_two; [reflexivity|]. wrd ((P - 1) * m + s) 0.
        eapply row_r2a; [|apply (acc_at _ _ _ _ _ _ _ ((P - 1) * m + s - m0) 0 Hacc); lia|]; [lia|].
        eapply row_w2r; [lia|lia|lia| | |sal ((P - 1) * m + s - m0) 0|apply (acc_at _ _ _ _ _ _ _ (H + ((P - 1) * m + s)) 0 Hacc); lia].
        -- rewrite Glo by lia. rewrite Ed, vadd_eq, ZMULTxy_eq, ZMULTxy_conj_eq. fold z. ring.
        -- rewrite Ghi by lia. rewrite Ed, vadd_eq, ZMULTxy_conj_eq. ring.
      * intros s Hs. assert (Ed : ((P - 1) * m + s) / m = P - 1) by (apply div_um; lia).
        apply lset_one; [reflexivity|].
        eapply row_r1; [|apply (acc_at _ _ _ _ _ _ _ ((P - 1) * m + s - m0) 0 Hacc); lia|]; [lia|].
        wrd ((P - 1) * m + s) 0. apply row_w1; [lia| |sal ((P - 1) * m + s - m0) 0].
        rewrite Glo by lia. rewrite Ed, vadd_eq, ZMULTxy_eq, ZMULTxy_conj_eq. fold z. ring.
Qed.

Lemma backwardInner_zero2_ok : n mod 2 = 0 ->
  bpiece t 2 (fun b => if b =? 0 then 0%Z else Z.of_nat (n / 2)) true (cbackwardInner_zero2 t).
Proof.
  intros He f W acc Y mm Hsep HA Hal _.
  pose proof (rgI t Hwf Hq Hp) as Hg. pose proof (lP t Hq) as Hl. unfold cbackwardInner_zero2. cbv zeta. rewrite <- (k_P t).
  assert (Hkb : kb t = l) by (unfold kb; rewrite HS; lia). rewrite Hkb.
  assert (Hn2 : 1 <= n / 2 < n) by (pose proof (Nat.div_mod n 2 ltac:(lia)); lia).
  assert (Hz : zeta n (Z.of_nat (n / 2)) = Copp C1).
  { rewrite <- (Cconj_conj (zeta n (Z.of_nat (n / 2)))), <- zeta_neg, (half_n t Hwf Hq Hp HS He). apply C_ext; cbn; ring. }
  set (n2 := n / 2) in *.
  match goal with |- WP _ _ (bdone _ _ _ _ _ _ _ ?gg _) => set (g := gg) end.
  set (rh := fun b : nat => if b =? 0 then 0%Z else Z.of_nat n2) in *.
  assert (R0 : rh 0 = 0%Z) by reflexivity. assert (R1 : rh 1 = Z.of_nat n2) by reflexivity.
  assert (HinjW : injrows (fun i => W + 1 * i) 1 (l * 2)) by (apply buf_inj; lia).
  assert (HN : m * P * 2 <= l * 2) by lia. assert (Hm1 : 1 <= m) by lia. assert (HP1 : 1 <= P) by lia.
  apply WP_seq.
  set (adr := fun i => W + 1 * i) in *. set (T := twb t rh Y).
  assert (V0 : forall i c, i < l * 2 -> c < 1 -> mm (adr i + c) = Val (rowv m (-1) Y i c)) by exact HA.
  eapply (WP_at3 adr 1 T (l * 2) HinjW m P 2 Hm1 HP1 HN (fun k b u' s => b = 1 /\ u' = 0 /\ s = k)
     (fun b u' s => (s = 0 /\ (u' <> 0 \/ b = 0)) \/ (b = 0 /\ u' = 0) \/ s = 0) (fun b u' s => s = 0 \/ u' < 1)); [apply twb_start; [assumption|]|intros; lia|intros; lia| | |].
  - intros b u s Hb Hu Hs [[-> _]|[[-> ->]| ->]]; [lia| |lia]. rewrite R0. lia.
  - intros b u' s Hb Hu' Hs. split.
    + intros HQ. destruct (Nat.eq_dec s 0); [auto|]. destruct (Nat.eq_dec b 0); [left; lia|]. right. exists s. lia.
    + intros [HQ|(k & Hk & HQ)]; lia.
  - intros s Hs.
    apply (lset_at3_1 adr 1 T (l * 2) m P 2 1 0 s); [lia|lia|lia|].
    rewrite <- Hl. apply lset_one; [reflexivity|].
    assert (Hlt : 0 * m + s < l) by (apply (lt_l t Hq Hp); lia).
    assert (Ea : W + l + s = adr (l * 1 + (m * 0 + s)) + 0) by (unfold adr; lia).
    eapply twb_leaf; [exact Ea|rewrite Ea; apply V0; lia| |].
    + replace (m * n2 + s) with (m * (n * 0 + n2) + s) by lia. apply (zqm_u t Hwf Hq Hp); lia.
    + unfold T. rewrite twb_at by lia. reflexivity.
  - intros m5 H5. apply WP_seq.
    eapply (WP_at3 adr 1 T (l * 2) HinjW m P 2 Hm1 HP1 HN (fun k b u' s => u' = k /\ 1 <= s)
       (fun b u' s => s = 0 \/ u' < 1) (fun b u' s => True)); [exact H5|intros; lia|intros; lia| | |].
    + intros b u' s Hb Hu' Hs. split; [|auto].
      intros _. destruct (Nat.eq_dec s 0); [auto|]. destruct (Nat.lt_ge_cases u' 1); [auto|]. right. exists u'. lia.
    + intros u Hu. apply (lset_at3_r2 adr 1 T (l * 2) HinjW m P 2 Hm1 HP1 HN); [reflexivity|lia| |].
      * intros s Hs. apply lset_one; [reflexivity|].
        assert (Hlt : u * m + s < l) by (apply (lt_l t Hq Hp); lia).
        assert (Ea : W + m * u + s = adr (m * u + s) + 0) by (unfold adr; lia).
        eapply twb_leaf; [exact Ea|rewrite Ea; apply V0; lia| |].
        -- replace (m * n * u + s) with (m * (n * u + 0) + s) by lia. apply (zqm_u t Hwf Hq Hp); lia.
        -- unfold T. rewrite twb_at0 by lia. reflexivity.
      * intros s Hs. rewrite <- Hl. apply lset_one; [reflexivity|].
        assert (Hlt : u * m + s < l) by (apply (lt_l t Hq Hp); lia).
        assert (Ea : W + l + m * u + s = adr (l + (m * u + s)) + 0) by (unfold adr; lia).
        eapply twb_leaf; [exact Ea|rewrite Ea; apply V0; lia| |].
        -- replace (m * n * u + m * n2 + s) with (m * (n * u + n2) + s) by lia. apply (zqm_u t Hwf Hq Hp); lia.
        -- unfold T. rewrite twb_at1 by lia. rewrite R1. reflexivity.
    + intros m6 H6. assert (S6 : sets adr 1 T (l * 2) mm m6).
      { eapply (at3_sets adr 1 T (l * 2) m P 2 Hm1 HP1 HN); [lia| |exact H6]. intros; exact Logic.I. }
      clear H5 H6 m5. apply WP_seq. eapply (fftp2_ok' t Hwf Hq (-1) W T m6 _ _ HS); [apply S6|].
      intros m7 S7. assert (S8 : sets (fun i => W + 1 * i) 1 (bU t rh Y) (l * 2) mm m7) by (eapply sets_trans; [exact S6|exact S7]).
      clear S6 S7 m6. eapply bI_glue; [exact Hsep|exact S8|exact Hal|].
      clear HA Hal S8 V0. intros HA Hf Hal K HK. clear Hf.
      assert (Hinj : injrows (fun i => f + 1 * i) 1 L) by (apply buf_inj; lia).
      assert (Glo : forall s, m0 <= s < l -> g (s - m0) 0 = Csub (bU t rh Y s 0) (Cconj (zeta q (Z.of_nat n2 * Z.of_nat (s / m))) * bU t rh Y (l + s) 0)%C).
      { intros s Hs. unfold g. rewrite bsum_loI by assumption. cbn [Csum]. rewrite R0, R1, Hz. rewrite Nat.mul_0_r, Nat.mul_1_r, Z.mul_0_l, !zeta_0, Cconj_C1. cbn [Nat.add]. ring. }
      assert (Ghi : forall s, s < l -> g (H + s) 0 = Cadd (bU t rh Y s 0) (Cconj (zeta q (Z.of_nat n2 * Z.of_nat (s / m))) * bU t rh Y (l + s) 0)%C).
      { intros s Hs. unfold g. rewrite bsum_hiI by assumption. cbn [Csum]. rewrite R0, R1. rewrite Nat.mul_0_r, Nat.mul_1_r, Z.mul_0_l, !zeta_0, Cconj_C1. cbn [Nat.add]. ring. }
      assert (Z0 : forall s, s < m -> zeta q (Z.of_nat n2 * Z.of_nat (s / m)) = C1).
      { intros s Hs. rewrite Nat.div_small by assumption. rewrite Z.mul_0_r. apply zeta_0. }
      rewrite (cget_some _ _ _ _ (zqpI t Hq n2 (P - 1) Hn2 ltac:(lia))).
      apply (bfold (fun i => f + 1 * i) 1 g Hinj); try exact HK.
      * intros s Hs. apply lset_one; [reflexivity|]. wrd s 0. wrd (l + s) 0.
        apply row_w1; [lia| |sal (H + s) 0]. rewrite Ghi by lia. rewrite Z0, Cconj_C1 by lia. ring.
      * intros s Hs. apply lset_two; [reflexivity|]. wrd s 0. wrd (l + s) 0.
        apply row_w2; [lia|lia|lia| | |sal (s - m0) 0|sal (H + s) 0].
        -- rewrite Glo by lia. rewrite Z0, Cconj_C1 by lia. ring.
        -- rewrite Ghi by lia. rewrite Z0, Cconj_C1 by lia. ring.
      * clear K HK. intros m2 K H2 HK. eapply (bfold_mid (fun i => f + 1 * i) 1 g Hinj); [|exact H2|exact HK].
        intros u Hu. destruct (bfold_rng u Hu) as (B1 & B2 & B3 & B4 & B5).
        eapply lset_tget; [apply (zqpI t Hq n2 u Hn2); lia|].
        apply (lset_at2_block (fun i => f + 1 * i) 1 g L Hinj H (L - H) m0 l); [apply at2_pos|apply at2_pos|lia|lia|lia|]. intros s Hs.
        assert (Ed : (u * m + s) / m = u) by (apply div_um; assumption).
        apply lset_two; [reflexivity|]. wrd (u * m + s) 0. wrd (l + (u * m + s)) 0.
        apply row_w2; [lia|lia|lia| | |sal (u * m + s - m0) 0|sal (H + (u * m + s)) 0].
        -- rewrite Glo by lia. rewrite Ed. ring.
        -- rewrite Ghi by lia. rewrite Ed. ring.
      * intros s Hs. assert (Ed : ((P - 1) * m + s) / m = P - 1) by (apply div_um; lia).
        apply lset_two; [reflexivity|]. wrd ((P - 1) * m + s) 0. wrd (l + ((P - 1) * m + s)) 0.
        apply row_w2; [lia|lia|lia| | |sal ((P - 1) * m + s - m0) 0|sal (H + ((P - 1) * m + s)) 0].
        -- rewrite Glo by lia. rewrite Ed. ring.
        -- rewrite Ghi by lia. rewrite Ed. ring.
      * intros s Hs. assert (Ed : ((P - 1) * m + s) / m = P - 1) by (apply div_um; lia).
        apply lset_one; [reflexivity|]. wrd ((P - 1) * m + s) 0. wrd (l + ((P - 1) * m + s)) 0.
        apply row_w1; [lia| |sal ((P - 1) * m + s - m0) 0].
        rewrite Glo by lia. rewrite Ed. ring.
Qed.

Lemma backwardInner_residue2_ok r : 1 <= r < n ->
  bpiece t 2 (fun b => if b =? 0 then Z.of_nat r else (- Z.of_nat r)%Z) false (fun f W => cbackwardInner_residue2 t f W r).
Proof.
  intros Hr f W acc Y mm Hsep HA Hal Hacc. specialize (Hacc eq_refl).
  pose proof (rgI t Hwf Hq Hp) as Hg. pose proof (lP t Hq) as Hl. unfold cbackwardInner_residue2. cbv zeta. rewrite <- (k_P t).
  assert (Hkb : kb t = l) by (unfold kb; rewrite HS; lia). rewrite Hkb.
  rewrite (cget_some _ _ _ _ (zqpP t Hwf Hq Hp r Hr)).
  match goal with |- WP _ _ (bdone _ _ _ _ _ _ _ ?gg _) => set (g := gg) end.
  set (rh := fun b : nat => if b =? 0 then Z.of_nat r else (- Z.of_nat r)%Z) in *.
  assert (R0 : rh 0 = Z.of_nat r) by reflexivity. assert (R1 : rh 1 = (- Z.of_nat r)%Z) by reflexivity.
  assert (HinjW : injrows (fun i => W + 1 * i) 1 (l * 2)) by (apply buf_inj; lia).
  assert (HN : m * P * 2 <= l * 2) by lia. assert (Hm1 : 1 <= m) by lia. assert (HP1 : 1 <= P) by lia.
  apply WP_seq.
  set (adr := fun i => W + 1 * i) in *. set (T := twb t rh Y).
  assert (V0 : forall i c, i < l * 2 -> c < 1 -> mm (adr i + c) = Val (rowv m (-1) Y i c)) by exact HA.
  eapply (WP_at3 adr 1 T (l * 2) HinjW m P 2 Hm1 HP1 HN (fun k b u' s => u' = 0 /\ s = k)
     (fun b u' s => s = 0) (fun b u' s => s = 0 \/ u' < 1)); [apply twb_start; [assumption|]|intros; lia|intros; lia| | |].
  - intros b u s Hb Hu Hs ->. lia.
  - intros b u' s Hb Hu' Hs. split.
    + intros HQ. destruct (Nat.eq_dec s 0); [auto|]. right. exists s. lia.
    + intros [HQ|(k & Hk & HQ)]; lia.
  - intros s Hs. apply (lset_at3_b2 adr 1 T (l * 2) m P 2 Hm1 HP1 HN); [reflexivity|lia|lia|].
    apply lset_two; [reflexivity|].
    assert (Hlt : 0 * m + s < l) by (apply (lt_l t Hq Hp); lia).
    eapply wpe_tget; [replace (m * r + s) with (m * (n * 0 + r) + s) by lia; apply (zqm_u t Hwf Hq Hp); lia|].
    assert (Ea : W + s = adr (m * 0 + s) + 0) by (unfold adr; lia).
    assert (Eb : W + l + s = adr (l + (m * 0 + s)) + 0) by (unfold adr; lia).
    rewrite <- Hl. rewrite Ea, Eb.
    eapply wpe_rd; [right; eexists; left; split; reflexivity|apply V0; lia|].
    eapply (row_w2r _ _ _ _ (m * 0 + s) (l + (m * 0 + s)) 0 _ _ _ _ (fun y => Cmul y _)); [reflexivity|reflexivity|unfold adr; lia| | | |apply V0; lia].
    + unfold T. rewrite twb_at0 by lia. reflexivity.
    + unfold T. rewrite twb_at1 by lia. rewrite R1. rewrite <- zeta_neg. do 2 f_equal. lia.
    + rewrite V0 by lia. discriminate.
  - intros m5 H5. apply WP_seq.
    eapply (WP_at3 adr 1 T (l * 2) HinjW m P 2 Hm1 HP1 HN (fun k b u' s => u' = k /\ 1 <= s)
       (fun b u' s => s = 0 \/ u' < 1) (fun b u' s => True)); [exact H5|intros; lia|intros; lia| | |].
    + intros b u' s Hb Hu' Hs. split; [|auto].
      intros _. destruct (Nat.eq_dec s 0); [auto|]. destruct (Nat.lt_ge_cases u' 1); [auto|]. right. exists u'. lia.
    + intros u Hu. apply (lset_at3_r2 adr 1 T (l * 2) HinjW m P 2 Hm1 HP1 HN); [reflexivity|lia| |].
      * intros s Hs. apply lset_one; [reflexivity|].
        assert (Hlt : u * m + s < l) by (apply (lt_l t Hq Hp); lia).
        assert (Ea : W + m * u + s = adr (m * u + s) + 0) by (unfold adr; lia).
        eapply twb_leaf; [exact Ea|rewrite Ea; apply V0; lia| |].
        -- replace (n * (m * u) + m * r + s) with (m * (n * u + r) + s) by lia. apply (zqm_u t Hwf Hq Hp); lia.
        -- unfold T. rewrite twb_at0 by lia. reflexivity.
      * intros s Hs. rewrite <- Hl. apply lset_one; [reflexivity|].
        assert (Hlt : u * m + s < l) by (apply (lt_l t Hq Hp); lia).
        assert (Ea : W + l + m * u + s = adr (l + (m * u + s)) + 0) by (unfold adr; lia).
        eapply twb_leaf; [exact Ea|rewrite Ea; apply V0; lia| |].
        -- rewrite (nmr t Hq Hp u r) by lia. apply (zqm_um t Hwf Hq Hp); lia.
        -- unfold T. rewrite twb_at1 by lia. rewrite R1. reflexivity.
    + intros m6 H6. assert (S6 : sets adr 1 T (l * 2) mm m6).
      { eapply (at3_sets adr 1 T (l * 2) m P 2 Hm1 HP1 HN); [lia| |exact H6]. intros; exact Logic.I. }
      clear H5 H6 m5. apply WP_seq. eapply (fftp2_ok' t Hwf Hq (-1) W T m6 _ _ HS); [apply S6|].
      intros m7 S7. assert (S8 : sets (fun i => W + 1 * i) 1 (bU t rh Y) (l * 2) mm m7) by (eapply sets_trans; [exact S6|exact S7]).
      clear S6 S7 m6. eapply bI_glue; [exact Hsep|exact S8|exact Hal|].
      clear HA Hal S8 V0. intros HA Hf Hal K HK.
      assert (Ha7 : forall j c, j < L -> c < 1 -> m7 (f + 1 * j + c) = Val (acc j c)) by (intros; rewrite Hf by assumption; auto).
      clear Hacc Hf. rename Ha7 into Hacc.
      assert (Hinj : injrows (fun i => f + 1 * i) 1 L) by (apply buf_inj; lia).
      set (z := zeta n (Z.of_nat r)).
      assert (Zn : zeta n (- Z.of_nat r) = Cconj z) by apply zeta_neg.
      assert (Zq : forall k, zeta q (- Z.of_nat r * k) = Cconj (zeta q (Z.of_nat r * k))) by (intros k; rewrite <- zeta_neg; f_equal; lia).
      assert (Glo : forall s, m0 <= s < l -> g (s - m0) 0 = Cadd (acc (s - m0) 0) (z * (Cconj (zeta q (Z.of_nat r * Z.of_nat (s / m))) * bU t rh Y s 0) + Cconj z * (zeta q (Z.of_nat r * Z.of_nat (s / m)) * bU t rh Y (l + s)%nat 0))%C).
      { intros s Hs. unfold g. rewrite bsum_loI by assumption. cbn [Csum]. rewrite R0, R1, Zn, Zq, Cconj_conj, Nat.mul_0_r, Nat.mul_1_r. fold z. cbn [Nat.add]. ring. }
      assert (Ghi : forall s, s < l -> g (H + s) 0 = Cadd (acc (H + s) 0) (Cconj (zeta q (Z.of_nat r * Z.of_nat (s / m))) * bU t rh Y s 0 + zeta q (Z.of_nat r * Z.of_nat (s / m)) * bU t rh Y (l + s)%nat 0)%C).
      { intros s Hs. unfold g. rewrite bsum_hiI by assumption. cbn [Csum]. rewrite R0, R1, Zq, Cconj_conj, Nat.mul_0_r, Nat.mul_1_r. cbn [Nat.add]. ring. }
      assert (Z0 : forall s, s < m -> zeta q (Z.of_nat r * Z.of_nat (s / m)) = C1).
      { intros s Hs. rewrite Nat.div_small by assumption. rewrite Z.mul_0_r. apply zeta_0. }
      rewrite (cget_some _ _ _ _ (zqpI t Hq r (P - 1) Hr ltac:(lia))).
      assert (VN : forall z x, ZMULTxy (UNPACKL z z) (vneg (UNPACKH z (vneg z))) x = (Cconj z * x)%C).
      { intros z1 x1. rewrite <- ZMULTxy_conj_eq. f_equal. apply C_ext; cbn; ring. }
      apply (bfold (fun i => f + 1 * i) 1 g Hinj); try exact HK.
      * intros s Hs. apply lset_one; [reflexivity|].
        eapply row_r1; [|apply (acc_at _ _ _ _ _ _ _ (H + s) 0 Hacc); lia|]; [lia|].
        wrd s 0. wrd (l + s) 0. apply row_w1; [lia| |sal (H + s) 0]. rewrite Ghi by lia. rewrite Z0, Cconj_C1 by lia. ring.
      * intros s Hs. apply lset_two; [reflexivity|]. wrd s 0. wrd (l + s) 0.
        eapply row_r2a; [|apply (acc_at _ _ _ _ _ _ _ (s - m0) 0 Hacc); lia|]; [lia|].
        eapply row_w2r; [lia|lia|lia| | |sal (s - m0) 0|apply (acc_at _ _ _ _ _ _ _ (H + s) 0 Hacc); lia].
        -- rewrite Glo by lia. rewrite Z0, Cconj_C1 by lia. rewrite vadd_eq, ZMULT2xy_eq. fold z. ring.
        -- rewrite Ghi by lia. rewrite Z0, Cconj_C1 by lia. cbv beta; rewrite vadd_eq, (vadd_eq (acc _ _)); cbv beta. ring.
      * clear K HK. intros m2 K H2 HK. eapply (bfold_mid (fun i => f + 1 * i) 1 g Hinj); [|exact H2|exact HK].
        intros u Hu. destruct (bfold_rng u Hu) as (B1 & B2 & B3 & B4 & B5).
        eapply lset_tget; [apply (zqpI t Hq r u Hr); lia|].
        apply (lset_at2_block (fun i => f + 1 * i) 1 g L Hinj H (L - H) m0 l); [apply at2_pos|apply at2_pos|lia|lia|lia|]. intros s Hs.
        assert (Ed : (u * m + s) / m = u) by (apply div_um; assumption).
        apply lset_two; [reflexivity|]. wrd (u * m + s) 0. wrd (l + (u * m + s)) 0.
        eapply row_r2a; [|apply (acc_at _ _ _ _ _ _ _ (u * m + s - m0) 0 Hacc); lia|]; [lia|].
        eapply row_w2r; [lia|lia|lia| | |sal (u * m + s - m0) 0|apply (acc_at _ _ _ _ _ _ _ (H + (u * m + s)) 0 Hacc); lia].
        -- rewrite Glo by lia. rewrite Ed, vadd_eq, ZMULT2xy_eq, VN, cj_mul, Cconj_conj. fold z. ring.
        -- rewrite Ghi by lia. rewrite Ed, vadd_eq, ZMULT2xy_eq. ring.
      * intros s Hs. assert (Ed : ((P - 1) * m + s) / m = P - 1) by (apply div_um; lia).
        apply lset_two; [reflexivity|]. wrd ((P - 1) * m + s) 0. wrd (l + ((P - 1) * m + s)) 0.
        eapply row_r2a; [|apply (acc_at _ _ _ _ _ _ _ ((P - 1) * m + s - m0) 0 Hacc); lia|]; [lia|].
        eapply row_w2r; [lia|lia|lia| | |sal ((P - 1) * m + s - m0) 0|apply (acc_at _ _ _ _ _ _ _ (H + ((P - 1) * m + s)) 0 Hacc); lia].
        -- rewrite Glo by lia. rewrite Ed, vadd_eq, ZMULT2xy_eq, VN, cj_mul, Cconj_conj. fold z. ring.
        -- rewrite Ghi by lia. rewrite Ed, vadd_eq, ZMULT2xy_eq. ring.
      * intros s Hs. assert (Ed : ((P - 1) * m + s) / m = P - 1) by (apply div_um; lia).
        apply lset_one; [reflexivity|].
        eapply row_r1; [|apply (acc_at _ _ _ _ _ _ _ ((P - 1) * m + s - m0) 0 Hacc); lia|]; [lia|].
        wrd ((P - 1) * m + s) 0. wrd (l + ((P - 1) * m + s)) 0. apply row_w1; [lia| |sal ((P - 1) * m + s - m0) 0].
        rewrite Glo by lia. rewrite Ed, vadd_eq, ZMULT2xy_eq, VN, cj_mul, Cconj_conj. fold z. ring.
Qed.
End S1.

Lemma cbackwardInner_gpass F f r W :
  cbackwardInner t F f r W = gbpass t (cbackwardInner_zero1 t) (cbackwardInner_zero2 t) (cbackwardInner_residue1 t) (cbackwardInner_residue2 t) n (kb t) F f r W.
Proof. reflexivity. Qed.

Lemma backwardInner_ok f F0 W r y acc (mm : mem) (W0 := getW F0 W) (E := kblocks t r) : SS = 1 ->
  passr (sh t) r -> ainplace t = (W0 =? F0) ->
  sepbuf 1 1 f L W0 (l * E) -> (W0 = F0 \/ sepbuf 1 1 W0 (l * E) F0 (l * E)) ->
  (forall i c, i < l * E -> c < 1 -> mm (F0 + 1 * i + c) = Val (y i c)) ->
  (forall i c, i < l * E -> c < 1 -> mm (W0 + 1 * i + c) <> Unalloc) ->
  (forall j c, j < L -> c < 1 -> mm (f + 1 * j + c) <> Unalloc) ->
  (r <> 0 -> forall j c, j < L -> c < 1 -> mm (f + 1 * j + c) = Val (acc j c)) ->
  WP (cbackwardInner t F0 f r W) mm (bdone 1 1 f L F0 W0 (l * E)
    (fun j c => Cadd (if r =? 0 then C0 else acc j c) (bsum t E (krho t r) y j c)) mm).
Proof.
  intros HS Hpass Hin Hsep HWF Hsrc HWa Hfa Hacc. rewrite cbackwardInner_gpass.
  assert (Hkb : kb t = l) by (unfold kb; rewrite HS; lia).
  apply gbpass_ok; try assumption; try (symmetry; assumption); try reflexivity.
  - apply backwardInner_zero1_ok; assumption.
  - intros He. apply backwardInner_zero2_ok; assumption.
  - intros. apply backwardInner_residue1_ok; assumption.
  - intros. apply backwardInner_residue2_ok; assumption.
Qed.
End T.
