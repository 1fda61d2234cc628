(** The forward kernels of fftPadReal. *)
From Coq Require Import Reals ZArith Arith Lia List Bool.
From Verif Require Import CNum Sums Roots Mem VecModel PadModel PadKernels PadMath CenModel HerModel RealModel RealMath RealGeom RLoops RFft RealSpec.
Import ListNotations.

(** frequency (as an integer) of output i of pass r *)
Definition zfreq (t : pad) (r i : nat) : Z :=
  if r =? 0 then (- (Z.of_nat (gq t) * Z.of_nat i))%Z
  else if 2 * r =? gq t then Z.of_nat (r + 2 * gq t * i)
  else (Z.of_nat (gq t) * Z.of_nat (i mod am t) + Z.of_nat (r + i / am t))%Z.

Lemma WP_if (b : bool) (c1 c2 : rcmd) (m : mem) (K : mem -> Prop) : (b = true -> WP c1 m K) -> (b = false -> WP c2 m K) -> WP (if b then c1 else c2) m K.
Proof. destruct b; auto. Qed.
Section F.
Variable t : pad.
Hypothesis Hwf : rwf t.
Notation L := (aL t).  Notation m := (am t).  Notation D := (aD t).
Notation q := (gq t).  Notation p := (gp t).  Notation e := (re_ t).  Notation D0 := (rD0 t).
Notation M := (gM t). Notation N := (routputSize t).
Variables (f F W : nat) (x : nat -> R) (m0 : mem).
Hypothesis Hip : ainplace t = (W =? F).
Hypothesis HfF : apart2 f L F (2 * N).
Hypothesis HfW : apart2 f L W (2 * N).
Hypothesis HWF : W = F \/ apart2 W (2 * N) F (2 * N).
Hypothesis Hsrc : forall k, k < L -> m0 (f + k) = Val (x k).
Hypothesis HaF : forall a, rspan F (2 * N) a -> m0 a <> Unalloc.
Hypothesis HaW : forall a, rspan W (2 * N) a -> m0 a <> Unalloc.

Definition fpost (r : nat) (m' : mem) : Prop :=
  (forall i, i < rnoutputs t r -> wC m' F i (outv M L (rx x) (zfreq t r i))) /\
  (forall a, ~ rspan F (2 * N) a -> ~ rspan W (2 * N) a -> m' a = m0 a) /\
  (forall a, m0 a <> Unalloc -> m' a <> Unalloc) /\
  (W <> F -> rpadded t W m0 -> rpadded t W m').

(** stage: copy L doubles to P, then zeros up to m *)
Lemma inpl_W : ainplace t = true -> W = F. Proof. rewrite Hip. apply Nat.eqb_eq. Qed.
Lemma outpl_W : ainplace t = false -> W <> F. Proof. rewrite Hip. apply Nat.eqb_neq. Qed.

Lemma EW : getW F (if ainplace t then None else Some W) = W.
Proof. rewrite Hip. destruct (Nat.eqb_spec W F) as [->|]; reflexivity. Qed.
Lemma copyz P (K : mem -> Prop) c : L <= m -> apart2 f L P m -> (forall a, rspan P m a -> m0 a <> Unalloc) ->
  (forall m', (forall s, s < m -> m' (P + s) = Val (if s <? L then x s else 0%R)) ->
     (forall a, ~ rspan P m a -> m' a = m0 a) -> (forall a, m0 a <> Unalloc -> m' a <> Unalloc) -> WP c m' K) ->
  WP (Seq (rFor 0 L (fun s => Rd (f + s) (fun v => Wr (P + s) v Ret)))
     (Seq (rFor L m (fun s => Wr (P + s) 0%R Ret)) c)) m0 K.
Proof.
  intros HLm HfP HaP Hc. apply WP_seq. apply WP_rw with (out := fun s => [(P + s, x s)]).
  - linj.
  - intros s Hs. lrd (Hsrc s ltac:(unfold rng in *; lia)). lwr; [apply HaP; unfold rspan, rng in *; lia|]. lend.
  - intros m1 H1 HF1 Hal1. apply WP_seq. apply WP_rw with (out := fun s => [(P + s, 0%R)]).
    + linj.
    + intros s Hs. lwr; [apply Hal1, HaP; unfold rspan, rng in *; lia|]. lend.
    + intros m2 H2 HF2 Hal2. apply Hc.
      * intros s Hs. destruct (Nat.ltb_spec s L) as [Hl|Hl].
        -- rewrite HF2; [|intros (s' & ? & Hs' & Hi); fsts Hi; unfold rng in *; lia].
           apply (proj1 (wrote_1 _ _ _ _ (H1 s ltac:(unfold rng; lia)))).
        -- apply (proj1 (wrote_1 _ _ _ _ (H2 s ltac:(unfold rng; lia)))).
      * intros a Ha. rewrite HF2; [|intros (s' & ? & Hs' & Hi); fsts Hi; unfold rng, rspan in *; lia].
        apply HF1. intros (s' & ? & Hs' & Hi); fsts Hi; unfold rng, rspan in *; lia.
      * intros a Ha. apply Hal2, Hal1, Ha.
Qed.
Lemma rv0_1 s : L <= m -> RtoC (if s <? L then x s else 0%R) = rowval m 1 L M 0 (rx x) s.
Proof.
  intros HL. rewrite rowval_1. rewrite Z.mul_0_l, zeta_0. unfold rx. destruct (s <? L); [|reflexivity]. apply C_ext; cbn; ring.
Qed.
Lemma szs : 1 <= m /\ 1 <= L /\ 1 <= q /\ M = m * q /\ e <= N /\ m <= 2 * N /\ m < 2 * e /\ 2 * e <= m + 2.
Proof.
  pose proof (r_m t Hwf). pose proof (r_L t Hwf). pose proof (r_q1 t Hwf). pose proof (r_osz t Hwf). unfold re_ in *.
  pose proof (Nat.div_mod m 2 ltac:(lia)). pose proof (Nat.mod_upper_bound m 2 ltac:(lia)).
  repeat split; try lia; try apply r_M.
Qed.
Lemma zpad_write (m' : mem) : W <> F -> rpadded t W m0 ->
  (forall d s, d < D -> L <= s < padw t -> forall a, (a = W + 2 * (padw t * d + s) \/ a = W + 2 * (padw t * d + s) + 1) -> m' a = m0 a \/ m' a = Val 0%R) ->
  rpadded t W m'.
Proof.
  intros Hne Hp Hk H1 H2 H3 d s Hd Hs. destruct (Hp H1 H2 H3 d s Hd Hs) as [E1 E2]. split.
  - destruct (Hk d s Hd Hs _ (or_introl eq_refl)) as [E|E]; congruence.
  - destruct (Hk d s Hd Hs _ (or_intror eq_refl)) as [E|E]; congruence.
Qed.

(** the final real-to-complex transform of pass 0 from P *)
Lemma r2c_last P (d : nat -> R) (m1 : mem) :
  L <= m * p -> ainplace t = (P =? F) -> (P = F \/ apart2 P m F (2 * e)) ->
  (forall s, s < m -> m1 (P + s) = Val (d s)) ->
  (forall s, s < m -> RtoC (d s) = rowval m p L M 0 (rx x) s) ->
  (forall a, ~ rspan F (2 * N) a -> ~ rspan W (2 * N) a -> m1 a = m0 a) ->
  (forall a, m0 a <> Unalloc -> m1 a <> Unalloc) ->
  (W <> F -> rpadded t W m0 -> rpadded t W m1) ->
  WP (rd_r2c m (ainplace t) P F) m1 (fpost 0).
Proof.
  destruct szs as (Hm & HL & Hq & HM & He & HmN & _). intros HLp HPi HPF Hd Hrow HF1 Hal1 Hpd.
  apply WP_r2c with (d := d); [assumption|assumption|assumption| |assumption|].
  - intros a Ha. apply Hal1, HaF. unfold rspan, re_ in *. lia.
  - intros m2 HV HF2 Hal2. split; [|split; [|split]].
    + intros i Hi. rewrite r_nout0 in Hi. unfold zfreq. cbn [Nat.eqb]. rewrite <- (r2c_row m p L M q x d i HM ltac:(lia) ltac:(lia) HLp Hrow). apply HV. exact Hi.
    + intros a Ha1 Ha2. rewrite HF2; [apply HF1; assumption|]. unfold rspan, re_ in *. lia.
    + intros a Ha. apply Hal2, Hal1, Ha.
    + intros Hne Hp0. specialize (Hpd Hne Hp0). intros A1 A2 A3 d0 s Hd0 Hs. specialize (Hpd A1 A2 A3 d0 s Hd0 Hs).
      assert (HB : 2 * (padw t * d0 + s) + 1 < 2 * N).
      { unfold padw in *. pose proof (r_D t Hwf). destruct (Nat.eqb_spec q 2) as [E|E].
        - destruct (r_Dv t Hwf A3) as [E1|E1]; [|rewrite <- (r_q t Hwf), E in E1; change ((2 - 1) / 2) with 0 in E1; lia].
          assert (d0 = 0) by lia. subst d0. unfold re_ in *. lia.
        - rewrite (r_oszm t Hwf) by lia. nia. }
      rewrite !HF2; [exact Hpd| |]; unfold rspan; intros; destruct HWF as [E|E]; try contradiction; unfold apart2, re_ in *; lia.
Qed.

Lemma rforwardExplicit_ok : q = 1 -> WP (rforwardExplicit t f F (if ainplace t then None else Some W)) m0 (fpost 0).
Proof.
  intros Hq1. destruct szs as (Hm & HL & Hq & HM & He & HmN & _). destruct (r_qL t Hwf Hq1) as [HLm Hp].
  unfold rforwardExplicit. rewrite EW. cbv zeta. apply copyz.
  - assumption.
  - unfold apart2 in *. lia.
  - intros a Ha. apply HaW. unfold rspan in *. lia.
  - intros m1 H1 HF1 Hal1. apply r2c_last with (d := fun s => if s <? L then x s else 0%R).
    + rewrite Hp. lia.
    + assumption.
    + destruct HWF as [E|E]; [left; exact E|right; unfold apart2 in *; lia].
    + assumption.
    + intros s Hs. rewrite Hp. apply rv0_1. assumption.
    + intros a Ha1 Ha2. apply HF1. unfold rspan in *. lia.
    + assumption.
    + intros _ _ _ _ A. contradiction.
Qed.

(** pass 0, p=1 *)
Lemma rforward1_0 : q <> 1 -> p = 1 -> L <= m -> (ainplace t = false -> rpadded t W m0) ->
  WP (rforward1 t f F 0 (if ainplace t then None else Some W)) m0 (fpost 0).
Proof.
  intros Hq1 Hp HLm Hpd. destruct szs as (Hm & HL & Hq & HM & He & HmN & _).
  unfold rforward1. rewrite EW. cbv zeta. cbn [Nat.eqb].
  destruct (ainplace t || (q =? 2) || negb (L mod 2 =? 0)) eqn:Erep.
  - apply copyz.
    + assumption.
    + unfold apart2 in *. lia.
    + intros a Ha. apply HaW. unfold rspan in *. lia.
    + intros m1 H1 HF1 Hal1. apply r2c_last with (d := fun s => if s <? L then x s else 0%R).
      * rewrite Hp. lia.
      * assumption.
      * destruct HWF as [E|E]; [left; exact E|right; unfold apart2 in *; lia].
      * assumption.
      * intros s Hs. rewrite Hp. apply rv0_1. assumption.
      * intros a Ha1 Ha2. apply HF1. unfold rspan in *. lia.
      * assumption.
      * intros Hne Hp0. apply (zpad_write m1 Hne Hp0). intros d s Hd Hs a Ha.
        assert (HS : L <= a - W) by nia.
        destruct (Nat.lt_ge_cases (a - W) m) as [Hl|Hl].
        -- right. assert (E : a = W + (a - W)) by lia. rewrite E, H1 by assumption. destruct (Nat.ltb_spec (a - W) L); [lia|reflexivity].
        -- left. apply HF1. unfold rspan. lia.
  - apply orb_false_elim in Erep. destruct Erep as [Erep E3]. apply orb_false_elim in Erep. destruct Erep as [E1 E2].
    apply Nat.eqb_neq in E2. specialize (Hpd E1).
    assert (H3q : 3 <= q) by lia. pose proof (r_oszm t Hwf Hq1 H3q) as EN. pose proof (r_D t Hwf) as HD.
    assert (HmN2 : m <= N) by (rewrite EN; nia).
    apply WP_seq. apply WP_rw with (out := fun s => [(W + L + s, x s)]).
    + linj.
    + intros s Hs. lrd (Hsrc s ltac:(unfold rng in *; lia)). lwr; [apply HaW; unfold rspan, rng in *; lia|]. lend.
    + intros m1 H1 HF1 Hal1. apply WP_seq. apply WP_skip.
      assert (HF1' : forall a, ~ rspan (W + L) L a -> m1 a = m0 a).
      { intros a Ha. apply HF1. intros (s' & ? & Hs' & Hi); fsts Hi; unfold rng, rspan in *; lia. }
      apply r2c_last with (d := fun s => if s <? L then x s else 0%R).
      * rewrite Hp. lia.
      * rewrite E1. symmetry. apply Nat.eqb_neq. pose proof (outpl_W E1) as Hne. destruct HWF as [E|E]; [contradiction|]. unfold apart2 in E. lia.
      * pose proof (outpl_W E1) as Hne. right. destruct HWF as [E|E]; [contradiction|]. unfold apart2 in *. lia.
      * intros s Hs. destruct (Nat.ltb_spec s L) as [Hl|Hl].
        -- apply (proj1 (wrote_1 _ _ _ _ (H1 s ltac:(unfold rng; lia)))).
        -- rewrite HF1' by (unfold rspan; lia).
           specialize (Hpd Hp E1 Hq1). unfold padw in Hpd. destruct (Nat.eqb_spec q 2); [contradiction|].
           pose proof (Nat.div_mod (L + s) 2 ltac:(lia)) as Edm. pose proof (Nat.mod_upper_bound (L + s) 2 ltac:(lia)) as Emb.
           destruct (Hpd 0 ((L + s) / 2) HD ltac:(lia)) as [Z1 Z2]. rewrite Nat.mul_0_r in Z1, Z2. cbn [Nat.add] in Z1, Z2.
           assert (C : W + L + s = W + 2 * ((L + s) / 2) \/ W + L + s = W + 2 * ((L + s) / 2) + 1) by lia.
           destruct C as [C|C]; rewrite C; assumption.
      * intros s Hs. rewrite Hp. apply rv0_1. assumption.
      * intros a Ha1 Ha2. apply HF1'. unfold rspan in *. lia.
      * assumption.
      * intros Hne Hp0. apply (zpad_write m1 Hne Hp0). intros d s Hd Hs a Ha. left. apply HF1'. unfold rspan. nia.
Qed.

(** pass 0, p=2 *)
Lemma rforward2_0 : q <> 1 -> p = 2 -> m < L -> L <= 2 * m ->
  WP (rforward2 t f F 0 (if ainplace t then None else Some W)) m0 (fpost 0).
Proof.
  intros Hq1 Hp HmL HL2. destruct szs as (Hm & HL & Hq & HM & He & HmN & _).
  unfold rforward2. rewrite EW. cbv zeta. cbn [Nat.eqb].
  apply WP_seq. apply WP_rw with (out := fun s => [(W + s, (x s + x (m + s)%nat)%R)]).
  - linj.
  - intros s Hs. lrd (Hsrc s ltac:(unfold rng in *; lia)). lrd (Hsrc (m + s) ltac:(unfold rng in *; lia)).
    lwr; [apply HaW; unfold rspan, rng in *; lia|]. lend.
  - intros m1 H1 HF1 Hal1.
    assert (HF1' : forall a, ~ rspan W (L - m) a -> m1 a = m0 a).
    { intros a Ha. apply HF1. intros (s' & ? & Hs' & Hi); fsts Hi; unfold rng, rspan in *; lia. }
    assert (Hsrc1 : forall k, k < L -> m1 (f + k) = Val (x k)).
    { intros k Hk. rewrite HF1' by (unfold rspan, apart2 in *; lia). apply Hsrc. assumption. }
    apply WP_seq. apply WP_rw with (out := fun s => [(W + s, x s)]).
    + linj.
    + intros s Hs. lrd (Hsrc1 s ltac:(unfold rng in *; lia)). lwr; [apply Hal1, HaW; unfold rspan, rng in *; lia|]. lend.
    + intros m2 H2 HF2 Hal2.
      assert (HF2' : forall a, ~ rspan W m a -> m2 a = m1 a).
      { intros a Ha. apply HF2. intros (s' & ? & Hs' & Hi); fsts Hi; unfold rng, rspan in *; lia. }
      apply r2c_last with (d := fun s => if s <? L - m then (x s + x (m + s)%nat)%R else x s).
      * rewrite Hp. lia.
      * assumption.
      * destruct HWF as [E|E]; [left; exact E|right; unfold apart2 in *; lia].
      * intros s Hs. destruct (Nat.ltb_spec s (L - m)) as [Hl|Hl].
        -- rewrite HF2; [|intros (s' & ? & Hs' & Hi); fsts Hi; unfold rng in *; lia].
           apply (proj1 (wrote_1 _ _ _ _ (H1 s ltac:(unfold rng; lia)))).
        -- apply (proj1 (wrote_1 _ _ _ _ (H2 s ltac:(unfold rng; lia)))).
      * intros s Hs. rewrite Hp, rowval_2 by lia. rewrite !Z.mul_0_l, zeta_0. unfold rx. destruct (s <? L - m); apply C_ext; cbn; ring.
      * intros a Ha1 Ha2. rewrite HF2', HF1' by (unfold rspan in *; lia). reflexivity.
      * intros a Ha. apply Hal2, Hal1, Ha.
      * intros _ _ A. exfalso. rewrite Hp in A. discriminate.
Qed.

(** middle passes *)
Lemma wC_block (m' : mem) d s v : wC m' (W + 2 * (m * d)) s v <-> wC m' W (m * d + s) v.
Proof.
  unfold wC. replace (W + 2 * (m * d) + 2 * s) with (W + 2 * (m * d + s)) by lia. reflexivity.
Qed.
Definition midI (r0 d : nat) (m' : mem) : Prop :=
  (forall d' s, d' < d -> s < m -> wC m' W (m * d' + s) (rowval m p L M (Z.of_nat (r0 + d')) (rx x) s)) /\
  (forall a, ~ rspan W (2 * (m * d)) a -> m' a = m0 a) /\ (forall a, m0 a <> Unalloc -> m' a <> Unalloc).
Lemma midI_0 r0 : midI r0 0 m0.
Proof. split; [intros; lia|]. split; auto. Qed.
(** one more row *)
Lemma midI_S r0 d (m1 m' : mem) : midI r0 d m1 ->
  (forall s, s < m -> wC m' (W + 2 * (m * d)) s (rowval m p L M (Z.of_nat (r0 + d)) (rx x) s)) ->
  (forall a, ~ rspan (W + 2 * (m * d)) (2 * m) a -> m' a = m1 a) -> (forall a, m1 a <> Unalloc -> m' a <> Unalloc) ->
  midI r0 (S d) m'.
Proof.
  intros (H1 & H2 & H3) HV HF Hal. split; [|split].
  - intros d' s Hd Hs. destruct (Nat.eq_dec d' d) as [->|Hne]; [apply wC_block, HV; assumption|].
    assert (Hb : m * d' + s < m * d) by nia.
    destruct (H1 d' s ltac:(lia) Hs) as [E1 E2]. split; rewrite HF by (unfold rspan; lia); assumption.
  - intros a Ha. rewrite HF by (unfold rspan in *; lia). apply H2. unfold rspan in *. lia.
  - intros a Ha. apply Hal, H3, Ha.
Qed.
Lemma mid_last r0 Ds (m1 : mem) : q <> 1 -> 1 <= r0 -> 2 * r0 < q -> Ds = midw t r0 -> L <= m * p ->
  midI r0 Ds m1 -> (W <> F -> rpadded t W m0 -> rpadded t W m1) ->
  WP (rd_cfft m Ds 1 (ainplace t) W F) m1 (fpost r0).
Proof.
  intros Hq1 H1r H2r EDs HLp (HV & HF1 & Hal1) Hpd. destruct szs as (Hm & HL & Hq & HM & He & HmN & _).
  pose proof (midw_pos t Hwf r0) as HDs. rewrite <- EDs in HDs.
  pose proof (r_oszm t Hwf Hq1 ltac:(lia)) as EN. assert (Hsz : m * Ds <= N) by (rewrite EN; apply Nat.mul_le_mono_l; lia).
  apply WP_cfft with (x := fun h s => rowval m p L M (Z.of_nat (r0 + h)) (rx x) s); [assumption|assumption|assumption| | |].
  - intros a Ha. apply Hal1, HaF. unfold rspan in *. lia.
  - destruct HWF as [E|E]; [left; exact E|right; unfold apart2 in *; lia].
  - intros m2 HV2 HF2 Hal2. split; [|split; [|split]].
    + intros i Hi. rewrite (r_noutm t Hwf) in Hi by assumption. rewrite <- EDs in Hi.
      destruct (row_split m Ds i Hm Hi) as (A1 & A2 & A3). specialize (HV2 _ _ A1 A2).
      cbv beta in HV2. rewrite (row_dft m p L M q) in HV2 by (try assumption; lia). rewrite <- A3 in HV2.
      unfold zfreq. destruct (Nat.eqb_spec r0 0); [lia|]. destruct (Nat.eqb_spec (2 * r0) q); [lia|]. exact HV2.
    + intros a Ha1 Ha2. rewrite HF2 by (unfold rspan in *; lia). apply HF1. unfold rspan in *. lia.
    + intros a Ha. apply Hal2, Hal1, Ha.
    + intros Hne Hp0. specialize (Hpd Hne Hp0). intros A1 A2 A3 d0 s Hd0 Hs. specialize (Hpd A1 A2 A3 d0 s Hd0 Hs).
      assert (HB : 2 * (padw t * d0 + s) + 1 < 2 * N).
      { unfold padw in *. destruct (Nat.eqb_spec q 2) as [E|E]; [lia|]. rewrite EN. nia. }
      rewrite !HF2; [exact Hpd| |]; unfold rspan; intros; destruct HWF as [E|E]; try contradiction; unfold apart2 in *; lia.
Qed.
Lemma mid_src r0 d (m1 : mem) : q <> 1 -> 3 <= q -> d <= D -> midI r0 d m1 -> forall k, k < L -> m1 (f + k) = Val (x k).
Proof.
  intros Hq1 H3 Hd (_ & HF & _) k Hk. rewrite HF; [apply Hsrc; assumption|].
  pose proof (r_oszm t Hwf Hq1 H3) as EN. assert (m * d <= m * D) by (apply Nat.mul_le_mono_l; lia). unfold rspan, apart2 in *. lia.
Qed.
Lemma mid_alloc r0 d (m1 : mem) : q <> 1 -> 3 <= q -> d < D -> midI r0 d m1 -> forall a, rspan (W + 2 * (m * d)) (2 * m) a -> m1 a <> Unalloc.
Proof.
  intros Hq1 H3 Hd (_ & _ & Hal) a Ha. apply Hal, HaW. pose proof (r_oszm t Hwf Hq1 H3) as EN.
  assert (m * S d <= m * D) by (apply Nat.mul_le_mono_l; lia). unfold rspan in *. lia.
Qed.
Lemma mid_apart d : q <> 1 -> 3 <= q -> d < D -> apart2 f L (W + 2 * (m * d)) (2 * m).
Proof.
  intros Hq1 H3 Hd. pose proof (r_oszm t Hwf Hq1 H3) as EN.
  assert (m * S d <= m * D) by (apply Nat.mul_le_mono_l; lia). unfold apart2 in *. lia.
Qed.
Lemma mid_pad r0 Ds (m1 : mem) : q <> 1 -> 3 <= q -> Ds <= D -> p = 1 -> midI r0 Ds m1 -> W <> F -> rpadded t W m0 -> rpadded t W m1.
Proof.
  intros Hq1 H3 HDs Hp (HV & HF & _) Hne Hp0. apply (zpad_write m1 Hne Hp0). intros d s Hd Hs a Ha.
  unfold padw in *. destruct (Nat.eqb_spec q 2) as [E|E]; [lia|].
  destruct (Nat.lt_ge_cases d Ds) as [Hl|Hl].
  - right. destruct (HV d s Hl ltac:(lia)) as [E1 E2]. rewrite Hp, rowval_1 in E1, E2. destruct (Nat.ltb_spec s L); [lia|]. cbn in E1, E2.
    destruct Ha as [-> | ->]; assumption.
  - left. apply HF. assert (m * Ds <= m * d) by (apply Nat.mul_le_mono_l; lia). unfold rspan. lia.
Qed.

Lemma rforward1_mid r0 : q <> 1 -> p = 1 -> L <= m -> 1 <= r0 -> 2 * r0 < q -> 2 * (r0 + midw t r0) <= q + 1 ->
  (ainplace t = false -> rpadded t W m0) ->
  WP (rforward1 t f F r0 (if ainplace t then None else Some W)) m0 (fpost r0).
Proof.
  intros Hq1 Hp HLm H1r H2r Hmax Hpd. destruct szs as (Hm & HL & Hq & HM & He & HmN & _).
  unfold rforward1. rewrite EW. cbv zeta. destruct (Nat.eqb_spec r0 0); [lia|]. destruct (Nat.ltb_spec (2 * r0) q); [|lia].
  change (if (r0 =? 1) && negb (D0 =? D) then D0 else D) with (midw t r0).
  pose proof (midw_pos t Hwf r0) as HDs. set (Ds := midw t r0) in *.
  apply WP_seq. eapply WP_mono; [|apply (WP_cfor R Ds _ (fun d => midI r0 d))].
  - intros m1 HI. apply mid_last; try assumption; [reflexivity|rewrite Hp; lia|].
    intros Hne Hp0. apply (mid_pad r0 Ds); try assumption; lia.
  - apply midI_0.
  - intros d m1 Hd HI.
    assert (HdD : d < D) by lia. assert (H3q : 3 <= q) by lia.
    pose proof (mid_src r0 d m1 Hq1 H3q ltac:(lia) HI) as Hs1. pose proof (mid_alloc r0 d m1 Hq1 H3q HdD HI) as Ha1.
    pose proof (mid_apart d Hq1 H3q HdD) as HfU. set (U := W + 2 * (m * d)) in *.
    assert (Hz : ainplace t = false -> forall s, L <= s < m -> wC m1 U s C0).
    { intros Hi s Hs. apply wC_block. destruct HI as (_ & HF & _).
      specialize (Hpd Hi Hp Hi Hq1 d s HdD). unfold padw in Hpd. destruct (Nat.eqb_spec q 2); [lia|]. specialize (Hpd Hs).
      unfold wC. rewrite !HF by (unfold rspan; lia). exact Hpd. }
    apply WP_seq. apply WP_rdo with (out := [(U + 2 * 0, x 0); (U + 2 * 0 + 1, 0%R)]).
    + lrd (Hs1 0 ltac:(lia)). unfold wrC. lwr; [apply Ha1; unfold rspan; lia|]. lwr; [apply Ha1; unfold rspan; lia|]. lend.
    + intros m2 H2 HF2 Hal2.
      assert (HF2' : forall a, ~ rspan U 2 a -> m2 a = m1 a).
      { intros a Ha. apply HF2. intros v Hi; fsts Hi; unfold rspan in *; lia. }
      assert (Hs2 : forall k, k < L -> m2 (f + k) = Val (x k)).
      { intros k Hk. rewrite HF2' by (unfold rspan, apart2 in *; lia). apply Hs1. assumption. }
      pose (g := fun s => Cscal (x s) (zeta M (Z.of_nat ((r0 + d) * s)))).
      apply WP_seq. apply WP_rw with (out := fun s => [(U + 2 * s, re (g s)); (U + 2 * s + 1, im (g s))]).
      * linj.
      * intros s Hs. unfold rng in Hs. ltab (zq t (r0 + d) s ltac:(lia) ltac:(lia)). lrd (Hs2 s ltac:(lia)). unfold wrC.
        lwr; [apply Hal2, Ha1; unfold rspan; lia|]. lwr; [apply Hal2, Ha1; unfold rspan; lia|]. lend.
      * intros m3 H3 HF3 Hal3.
        assert (HF3' : forall a, ~ rspan (U + 2) (2 * (L - 1)) a -> m3 a = m2 a).
        { intros a Ha. apply HF3. intros (s' & ? & Hs' & Hi); fsts Hi; unfold rng, rspan in *; lia. }
        assert (HV3 : forall s, s < L -> wC m3 U s (rowval m p L M (Z.of_nat (r0 + d)) (rx x) s)).
        { intros s Hs. rewrite Hp, rowval_1. destruct (Nat.ltb_spec s L); [|lia]. destruct (Nat.eq_dec s 0) as [->|Hs0].
          - apply wrote_1 in H2. destruct H2 as [E1 H2]. apply wrote_1 in H2. destruct H2 as [E2 _].
            unfold wC. rewrite !HF3' by (unfold rspan; lia). rewrite E1, E2. rewrite Z.mul_0_r, zeta_0. unfold rx. split; f_equal; cbn; ring.
          - specialize (H3 s ltac:(unfold rng; lia)). apply wrote_2 in H3.
            assert (E : g s = Cmul (rx x s) (zeta M (Z.of_nat (r0 + d) * Z.of_nat s))).
            { unfold g, rx. rewrite Cscal_mul. replace (Z.of_nat ((r0 + d) * s)) with (Z.of_nat (r0 + d) * Z.of_nat s)%Z by lia. ring. }
            rewrite <- E. exact H3. }
        destruct (ainplace t) eqn:Ei.
        -- apply WP_rw with (out := fun s => [(U + 2 * s, 0%R); (U + 2 * s + 1, 0%R)]).
           ++ linj.
           ++ intros s Hs. unfold wrC. lwr; [apply Hal3, Hal2, Ha1; unfold rspan, rng in *; lia|]. lwr; [apply Hal3, Hal2, Ha1; unfold rspan, rng in *; lia|]. lend.
           ++ intros m4 H4 HF4 Hal4. apply (midI_S r0 d m1); [assumption| | |].
              ** intros s Hs. destruct (Nat.lt_ge_cases s L) as [Hl|Hl].
                 --- destruct (HV3 s Hl) as [E1 E2].
                     split; rewrite HF4; try assumption; intros (s' & ? & Hs' & Hi); fsts Hi; unfold rng, rspan in *; lia.
                 --- specialize (H4 s ltac:(unfold rng; lia)). apply (proj1 (wrote_2 m4 U s C0)) in H4. rewrite Hp, rowval_1. destruct (Nat.ltb_spec s L); [lia|]. exact H4.
              ** intros a Ha. rewrite HF4; [|intros (s' & ? & Hs' & Hi); fsts Hi; unfold rng, rspan in *; lia].
                 rewrite HF3', HF2' by (unfold rspan in *; lia). reflexivity.
              ** intros a Ha. apply Hal4, Hal3, Hal2, Ha.
        -- apply WP_skip. apply (midI_S r0 d m1); [assumption| | |].
           ++ intros s Hs. destruct (Nat.lt_ge_cases s L) as [Hl|Hl]; [apply HV3; assumption|].
              rewrite Hp, rowval_1. destruct (Nat.ltb_spec s L); [lia|]. destruct (Hz eq_refl s ltac:(lia)) as [E1 E2].
              split; rewrite HF3', HF2' by (unfold rspan; lia); assumption.
           ++ intros a Ha. rewrite HF3', HF2' by (unfold rspan in *; lia). reflexivity.
           ++ intros a Ha. apply Hal3, Hal2, Ha.
Qed.

Lemma rforward2_mid r0 : q <> 1 -> p = 2 -> m < L -> L <= 2 * m -> 1 <= r0 -> 2 * r0 < q -> 2 * (r0 + midw t r0) <= q + 1 ->
  WP (rforward2 t f F r0 (if ainplace t then None else Some W)) m0 (fpost r0).
Proof.
  intros Hq1 Hp HmL HL2 H1r H2r Hmax. destruct szs as (Hm & HL & Hq & HM & He & HmN & _).
  unfold rforward2. rewrite EW. cbv zeta. destruct (Nat.eqb_spec r0 0); [lia|]. destruct (Nat.ltb_spec (2 * r0) q); [|lia].
  change (if (r0 =? 1) && negb (D0 =? D) then D0 else D) with (midw t r0).
  pose proof (midw_pos t Hwf r0) as HDs. set (Ds := midw t r0) in *.
  apply WP_seq. eapply WP_mono; [|apply (WP_cfor R Ds _ (fun d => midI r0 d))].
  - intros m1 HI. apply mid_last; try assumption; [reflexivity|rewrite Hp; lia|].
    intros Hne Hp0 A. exfalso. rewrite Hp in A. discriminate.
  - apply midI_0.
  - intros d m1 Hd HI.
    assert (HdD : d < D) by lia. assert (H3q : 3 <= q) by lia.
    pose proof (mid_src r0 d m1 Hq1 H3q ltac:(lia) HI) as Hs1. pose proof (mid_alloc r0 d m1 Hq1 H3q HdD HI) as Ha1.
    pose proof (mid_apart d Hq1 H3q HdD) as HfU. set (U := W + 2 * (m * d)) in *.
    pose (z := fun s => zeta M (Z.of_nat ((r0 + d) * s))).
    assert (Zz : forall s, rowval m p L M (Z.of_nat (r0 + d)) (rx x) s = rowval m 2 L M (Z.of_nat (r0 + d)) (rx x) s) by (intros; rewrite Hp; reflexivity).
    assert (Zm : forall s, zeta M (Z.of_nat (r0 + d) * Z.of_nat s) = z s) by (intros; unfold z; f_equal; lia).
    pose (g0 := Cadd (RtoC (x 0)) (Cscal (x m) (z m))).
    apply WP_seq. apply WP_rdo with (out := [(U + 2 * 0, re g0); (U + 2 * 0 + 1, im g0)]).
    + ltab (zqS t (r0 + d) m ltac:(lia) ltac:(lia)). lrd (Hs1 0 ltac:(lia)). lrd (Hs1 m ltac:(lia)). unfold wrC.
      lwr; [apply Ha1; unfold rspan; lia|]. lwr; [apply Ha1; unfold rspan; lia|]. lend.
    + intros m2 H2 HF2 Hal2.
      assert (HF2' : forall a, ~ rspan U 2 a -> m2 a = m1 a).
      { intros a Ha. apply HF2. intros v Hi; fsts Hi; unfold rspan in *; lia. }
      assert (Hs2 : forall k, k < L -> m2 (f + k) = Val (x k)).
      { intros k Hk. rewrite HF2' by (unfold rspan, apart2 in *; lia). apply Hs1. assumption. }
      pose (g := fun s => Cadd (Cscal (x s) (z s)) (Cscal (x (m + s)%nat) (z (m + s)%nat))).
      apply WP_seq. apply WP_rw with (out := fun s => [(U + 2 * s, re (g s)); (U + 2 * s + 1, im (g s))]).
      * linj.
      * intros s Hs. unfold rng in Hs. ltab (zq t (r0 + d) s ltac:(lia) ltac:(lia)).
        assert (E : rZqmS t ((L - m) * (r0 + d) + m + s) = Some (z (m + s)%nat)).
        { rewrite <- Nat.add_assoc. apply zqS; lia. }
        ltab E. lrd (Hs2 s ltac:(lia)). lrd (Hs2 (m + s) ltac:(lia)). unfold wrC.
        lwr; [apply Hal2, Ha1; unfold rspan; lia|]. lwr; [apply Hal2, Ha1; unfold rspan; lia|]. lend.
      * intros m3 H3 HF3 Hal3.
        assert (HF3' : forall a, ~ rspan (U + 2) (2 * (L - m - 1)) a -> m3 a = m2 a).
        { intros a Ha. apply HF3. intros (s' & ? & Hs' & Hi); fsts Hi; unfold rng, rspan in *; lia. }
        assert (Hs3 : forall k, k < L -> m3 (f + k) = Val (x k)).
        { intros k Hk. rewrite HF3' by (unfold rspan, apart2 in *; lia). apply Hs2. assumption. }
        pose (g4 := fun s => Cscal (x s) (z s)).
        apply WP_rw with (out := fun s => [(U + 2 * s, re (g4 s)); (U + 2 * s + 1, im (g4 s))]).
        -- linj.
        -- intros s Hs. unfold rng in Hs. ltab (zq t (r0 + d) s ltac:(lia) ltac:(lia)). lrd (Hs3 s ltac:(lia)). unfold wrC.
           lwr; [apply Hal3, Hal2, Ha1; unfold rspan; lia|]. lwr; [apply Hal3, Hal2, Ha1; unfold rspan; lia|]. lend.
        -- intros m4 H4 HF4 Hal4.
           assert (HF4' : forall a, ~ rspan (U + 2 * (L - m)) (2 * (m - (L - m))) a -> m4 a = m3 a).
           { intros a Ha. apply HF4. intros (s' & ? & Hs' & Hi); fsts Hi; unfold rng, rspan in *; lia. }
           apply (midI_S r0 d m1); [assumption| | |].
           ++ intros s Hs. rewrite Zz, rowval_2 by lia. rewrite !Zm. destruct (Nat.ltb_spec s (L - m)) as [Hl|Hl].
              ** destruct (Nat.eq_dec s 0) as [->|Hs0].
                 --- apply wrote_2 in H2. assert (E : g0 = Cadd (Cmul (rx x 0) (z 0)) (Cmul (rx x (m + 0)%nat) (z (m + 0)%nat))).
                     { unfold g0, rx. rewrite Nat.add_0_r, Cscal_mul. assert (Ez : z 0 = C1) by (unfold z; rewrite Nat.mul_0_r; apply zeta_0). rewrite Ez. ring. }
                     rewrite <- E. destruct H2 as [E1 E2]. split; rewrite HF4', HF3' by (unfold rspan; lia); assumption.
                 --- specialize (H3 s ltac:(unfold rng; lia)). apply wrote_2 in H3.
                     assert (E : g s = Cadd (Cmul (rx x s) (z s)) (Cmul (rx x (m + s)%nat) (z (m + s)%nat))).
                     { unfold g, rx. rewrite !Cscal_mul. ring. }
                     rewrite <- E. destruct H3 as [E1 E2]. split; rewrite HF4' by (unfold rspan; lia); assumption.
              ** specialize (H4 s ltac:(unfold rng; lia)). apply wrote_2 in H4.
                 assert (E : g4 s = Cmul (rx x s) (z s)) by (unfold g4, rx; rewrite Cscal_mul; ring). rewrite <- E. exact H4.
           ++ intros a Ha. rewrite HF4', HF3', HF2' by (unfold rspan in *; lia). reflexivity.
           ++ intros a Ha. apply Hal4, Hal3, Hal2, Ha.
Qed.

(** the pass 2r=q *)
Lemma half_geom r : q <> 1 -> 2 * r = q -> m = 2 * (m / 2) /\ 1 <= m / 2 /\ q = 2 * r /\ M = 2 * (m / 2) * q /\ m / 2 + 1 <= N /\ 1 <= r < q.
Proof.
  intros Hq1 H2r. destruct szs as (Hm & HL & Hq & HM & He & HmN & _).
  assert (Hev : m = 2 * (m / 2)). { apply (r_even t Hwf Hq1). rewrite <- H2r, Nat.mul_comm. apply Nat.mod_mul. lia. }
  unfold re_ in He. rewrite HM. split; [assumption|]. split; [lia|]. split; [lia|]. split; [rewrite <- Hev; reflexivity|]. lia.
Qed.
Lemma half_last r h (m1 : mem) : q <> 1 -> 2 * r = q -> h = m / 2 -> L <= m * p ->
  (forall s, s < h -> wC m1 W s (halfrow h p L M r x s)) ->
  (forall a, ~ rspan W (2 * h) a -> m1 a = m0 a) -> (forall a, m0 a <> Unalloc -> m1 a <> Unalloc) ->
  WP (rd_cfft h 1 1 (ainplace t) W F) m1 (fpost r).
Proof.
  intros Hq1 H2r Eh HLp HV HF1 Hal1. destruct szs as (Hm & HL & Hq & HM & He & HmN & _).
  destruct (half_geom r Hq1 H2r) as (G1 & G2 & G3 & G4 & G5 & G6). rewrite <- Eh in *.
  apply WP_cfft with (x := fun _ s => halfrow h p L M r x s); [assumption|lia| | | |].
  - intros k s Hk Hs. assert (k = 0) by lia. subst k. rewrite Nat.mul_0_r. apply HV. assumption.
  - intros a Ha. apply Hal1, HaF. unfold rspan in *. lia.
  - destruct HWF as [E|E]; [left; exact E|right; unfold apart2 in *; lia].
  - intros m2 HV2 HF2 Hal2. split; [|split; [|split]].
    + intros i Hi. rewrite (r_nouth t Hwf) in Hi by assumption. rewrite <- Eh in Hi.
      specialize (HV2 0 i ltac:(lia) Hi). cbv beta in HV2. rewrite Nat.mul_0_r in HV2. cbn [Nat.add] in HV2.
      assert (Hpp : p = 1 \/ p = 2) by (destruct (r_p t Hwf) as [[A _]|[A _]]; auto).
      rewrite (halfrow_dft h p L M q r x (fun s => halfrow h p L M r x s) i) in HV2 by (try assumption; try reflexivity; lia).
      unfold zfreq. destruct (Nat.eqb_spec r 0); [lia|]. destruct (Nat.eqb_spec (2 * r) q); [|lia]. exact HV2.
    + intros a Ha1 Ha2. rewrite HF2 by (unfold rspan in *; lia). apply HF1. unfold rspan in *. lia.
    + intros a Ha. apply Hal2, Hal1, Ha.
    + intros Hne Hp0. apply (zpad_write m2 Hne Hp0). intros d s Hd Hs a Ha.
      assert (HB : padw t * d + s < N /\ L <= padw t * d + s).
      { unfold padw in *. pose proof (r_D t Hwf). destruct (Nat.eqb_spec q 2) as [E|E].
        - destruct (r_Dv t Hwf Hq1) as [E1|E1]; [|rewrite <- (r_q t Hwf), E in E1; change ((2 - 1) / 2) with 0 in E1; lia].
          assert (d = 0) by lia. subst d. lia.
        - rewrite (r_oszm t Hwf) by lia. nia. }
      assert (E2 : m2 a = m1 a).
      { apply HF2. unfold rspan. destruct HWF as [E|E]; try contradiction. unfold apart2 in *. lia. }
      rewrite E2. destruct (Nat.lt_ge_cases (padw t * d + s) h) as [Hl|Hl].
      * destruct (Nat.le_gt_cases p 1) as [Hp1|Hp1].
        -- right. destruct (HV _ Hl) as [V1 V2]. unfold halfrow in V1, V2.
           destruct (Nat.ltb_spec (padw t * d + s) L); [lia|]. destruct (Nat.ltb_spec (h + (padw t * d + s)) L); [lia|].
           destruct (Nat.ltb_spec 1 p); [lia|].
           assert (Z : Cmul (zeta M (Z.of_nat (r * (padw t * d + s)))) (mkC (0 - 0) (0 - 0)) = C0) by (apply C_ext; cbn; ring).
           rewrite Z in V1, V2. destruct Ha as [-> | ->]; assumption.
        -- exfalso. destruct (r_p t Hwf) as [(A & _)|(A & A2 & _)]; lia.
      * left. apply HF1. unfold rspan. lia.
Qed.
Lemma gL j : j < L -> (if j <? L then x j else 0%R) = x j. Proof. intros. destruct (Nat.ltb_spec j L); [reflexivity|lia]. Qed.
Lemma gN j : L <= j -> (if j <? L then x j else 0%R) = 0%R. Proof. intros. destruct (Nat.ltb_spec j L); [lia|reflexivity]. Qed.

Lemma rforward1_half r : q <> 1 -> p = 1 -> L <= m -> 2 * r = q -> (ainplace t = false -> rpadded t W m0) ->
  WP (rforward1 t f F r (if ainplace t then None else Some W)) m0 (fpost r).
Proof.
  intros Hq1 Hp HLm H2r Hpd. destruct szs as (Hm & HL & Hq & HM & He & HmN & _).
  destruct (half_geom r Hq1 H2r) as (G1 & G2 & G3 & G4 & G5 & G6).
  unfold rforward1. rewrite EW. cbv zeta. destruct (Nat.eqb_spec r 0); [lia|]. destruct (Nat.ltb_spec (2 * r) q); [lia|].
  assert (Eh : e - 1 = m / 2) by (unfold re_; lia). rewrite Eh. clear Eh. remember (m / 2) as h eqn:Eh.
  pose (z := fun s => zeta M (Z.of_nat (r * s))).
  assert (Hz0 : z 0 = C1) by (unfold z; rewrite Nat.mul_0_r; apply zeta_0).
  assert (HHR : forall s, s < h -> halfrow h p L M r x s = Cmul (z s) (mkC (if s <? L then x s else 0) (if h + s <? L then x (h + s)%nat else 0)%R)).
  { intros s Hs. unfold halfrow. rewrite Hp. change (1 <? 1) with false. cbv iota. rewrite !Rminus_0_r. reflexivity. }
  destruct (Nat.leb_spec L h) as [HLh|HLh].
  - apply WP_seq. apply WP_rdo with (out := [(W + 2 * 0, x 0); (W + 2 * 0 + 1, 0%R)]).
    + lrd (Hsrc 0 ltac:(lia)). unfold wrC. lwr; [apply HaW; unfold rspan; lia|]. lwr; [apply HaW; unfold rspan; lia|]. lend.
    + intros m1 H1 HF1 Hal1.
      assert (HF1' : forall a, ~ rspan W 2 a -> m1 a = m0 a) by (intros a Ha; apply HF1; intros v Hi; fsts Hi; unfold rspan in *; lia).
      apply WP_seq. apply WP_rw with (out := fun _ => []); [linj|intros s Hs; unfold rng in Hs; lia|].
      intros m2 _ HF2 Hal2. assert (HF2' : forall a, m2 a = m1 a) by (intros a; apply HF2; intros (s' & ? & Hs' & Hi); fsts Hi; lia).
      assert (Hs2 : forall k, k < L -> m2 (f + k) = Val (x k)).
      { intros k Hk. rewrite HF2', HF1' by (unfold rspan, apart2 in *; lia). apply Hsrc. assumption. }
      pose (g := fun s => Cscal (x s) (z s)).
      apply WP_seq. apply WP_rw with (out := fun s => [(W + 2 * s, re (g s)); (W + 2 * s + 1, im (g s))]).
      * linj.
      * intros s Hs. unfold rng in Hs. ltab (zq t r s ltac:(lia) ltac:(lia)). lrd (Hs2 s ltac:(lia)). unfold wrC.
        lwr; [apply Hal2, Hal1, HaW; unfold rspan; lia|]. lwr; [apply Hal2, Hal1, HaW; unfold rspan; lia|]. lend.
      * intros m3 H3 HF3 Hal3.
        assert (HF3' : forall a, ~ rspan W (2 * L) a -> m3 a = m2 a).
        { intros a Ha. apply HF3. intros (s' & ? & Hs' & Hi); fsts Hi; unfold rng, rspan in *; lia. }
        assert (HV3 : forall s, s < L -> wC m3 W s (halfrow h p L M r x s)).
        { intros s Hs. rewrite HHR by lia. rewrite gL, gN by lia. specialize (H3 s ltac:(unfold rng; lia)). apply wrote_2 in H3.
          assert (E : g s = Cmul (z s) (mkC (x s) 0)) by (unfold g; apply C_ext; cbn; ring). rewrite <- E. exact H3. }
        apply WP_seq. apply WP_if; intros Ei.
        -- apply WP_rw with (out := fun s => [(W + 2 * s, 0%R); (W + 2 * s + 1, 0%R)]).
           ++ linj.
           ++ intros s Hs. unfold wrC. lwr; [apply Hal3, Hal2, Hal1, HaW; unfold rspan, rng in *; lia|]. lwr; [apply Hal3, Hal2, Hal1, HaW; unfold rspan, rng in *; lia|]. lend.
           ++ intros m4 H4 HF4 Hal4. apply half_last; [assumption|assumption|assumption|rewrite Hp; lia| | |].
              ** intros s Hs. destruct (Nat.lt_ge_cases s L) as [Hl|Hl].
                 --- destruct (HV3 s Hl) as [E1 E2].
                     split; rewrite HF4; try assumption; intros (s' & ? & Hs' & Hi); fsts Hi; unfold rng, rspan in *; lia.
                 --- specialize (H4 s ltac:(unfold rng; lia)). apply (proj1 (wrote_2 m4 W s C0)) in H4. rewrite HHR, !gN by lia.
                     assert (E : Cmul (z s) (mkC 0 0) = C0) by (apply C_ext; cbn; ring). rewrite E. exact H4.
              ** intros a Ha. rewrite HF4; [|intros (s' & ? & Hs' & Hi); fsts Hi; unfold rng, rspan in *; lia].
                 rewrite HF3', HF2', HF1' by (unfold rspan in *; lia). reflexivity.
              ** intros a Ha. apply Hal4, Hal3, Hal2, Hal1, Ha.
        -- apply WP_skip. apply half_last; [assumption|assumption|assumption|rewrite Hp; lia| | |].
           ++ intros s Hs. destruct (Nat.lt_ge_cases s L) as [Hl|Hl]; [apply HV3; assumption|].
              rewrite HHR, !gN by lia. assert (E : Cmul (z s) (mkC 0 0) = C0) by (apply C_ext; cbn; ring). rewrite E.
              assert (HD1 : 0 < D) by (pose proof (r_D t Hwf); lia).
              specialize (Hpd Ei Hp Ei Hq1 0 s HD1). unfold padw in Hpd. rewrite Nat.mul_0_r in Hpd. cbn [Nat.add] in Hpd.
              assert (Hr : L <= s < (if q =? 2 then m / 2 else m)) by (destruct (q =? 2); lia).
              destruct (Hpd Hr) as [E1 E2]. split; rewrite HF3', HF2', HF1' by (unfold rspan; lia); assumption.
           ++ intros a Ha. rewrite HF3', HF2', HF1' by (unfold rspan in *; lia). reflexivity.
           ++ intros a Ha. apply Hal3, Hal2, Hal1, Ha.
  - apply WP_seq. apply WP_rdo with (out := [(W + 2 * 0, x 0); (W + 2 * 0 + 1, x h)]).
    + lrd (Hsrc 0 ltac:(lia)). lrd (Hsrc h ltac:(lia)). unfold wrC. lwr; [apply HaW; unfold rspan; lia|]. lwr; [apply HaW; unfold rspan; lia|]. lend.
    + intros m1 H1 HF1 Hal1.
      assert (HF1' : forall a, ~ rspan W 2 a -> m1 a = m0 a) by (intros a Ha; apply HF1; intros v Hi; fsts Hi; unfold rspan in *; lia).
      assert (Hs1 : forall k, k < L -> m1 (f + k) = Val (x k)).
      { intros k Hk. rewrite HF1' by (unfold rspan, apart2 in *; lia). apply Hsrc. assumption. }
      pose (g := fun s => Cmul (z s) (mkC (x s) (x (h + s)%nat))).
      apply WP_seq. apply WP_rw with (out := fun s => [(W + 2 * s, re (g s)); (W + 2 * s + 1, im (g s))]).
      * linj.
      * intros s Hs. unfold rng in Hs. ltab (zq t r s ltac:(lia) ltac:(lia)). lrd (Hs1 s ltac:(lia)). lrd (Hs1 (h + s) ltac:(lia)). unfold wrC.
        lwr; [apply Hal1, HaW; unfold rspan; lia|]. lwr; [apply Hal1, HaW; unfold rspan; lia|]. lend.
      * intros m2 H2 HF2 Hal2.
        assert (HF2' : forall a, ~ rspan (W + 2) (2 * (L - h - 1)) a -> m2 a = m1 a).
        { intros a Ha. apply HF2. intros (s' & ? & Hs' & Hi); fsts Hi; unfold rng, rspan in *; lia. }
        assert (Hs2 : forall k, k < L -> m2 (f + k) = Val (x k)).
        { intros k Hk. rewrite HF2' by (unfold rspan, apart2 in *; lia). apply Hs1. assumption. }
        pose (g3 := fun s => Cscal (x s) (z s)).
        apply WP_seq. apply WP_rw with (out := fun s => [(W + 2 * s, re (g3 s)); (W + 2 * s + 1, im (g3 s))]).
        -- linj.
        -- intros s Hs. unfold rng in Hs. ltab (zq t r s ltac:(lia) ltac:(lia)). lrd (Hs2 s ltac:(lia)). unfold wrC.
           lwr; [apply Hal2, Hal1, HaW; unfold rspan; lia|]. lwr; [apply Hal2, Hal1, HaW; unfold rspan; lia|]. lend.
        -- intros m3 H3 HF3 Hal3.
           assert (HF3' : forall a, ~ rspan (W + 2 * (L - h)) (2 * (h - (L - h))) a -> m3 a = m2 a).
           { intros a Ha. apply HF3. intros (s' & ? & Hs' & Hi); fsts Hi; unfold rng, rspan in *; lia. }
           apply WP_seq.
           assert (Hlast : forall m4, (forall a, m4 a = m3 a) -> WP (rd_cfft h 1 1 (ainplace t) W F) m4 (fpost r)).
           { intros m4 HF4. apply half_last; [assumption|assumption|assumption|rewrite Hp; lia| | |].
             - intros s Hs. rewrite HHR by assumption. unfold wC. rewrite !HF4. rewrite gL by lia. destruct (Nat.lt_ge_cases s (L - h)) as [Hl|Hl].
               + rewrite gL by lia. rewrite !HF3' by (unfold rspan; lia). destruct (Nat.eq_dec s 0) as [->|Hs0].
                 * apply wrote_1 in H1. destruct H1 as [E1 H1]. apply wrote_1 in H1. destruct H1 as [E2 _].
                   rewrite !HF2' by (unfold rspan; lia). rewrite E1, E2. rewrite Hz0, Nat.add_0_r. split; f_equal; cbn; ring.
                 * specialize (H2 s ltac:(unfold rng; lia)). apply wrote_2 in H2. exact H2.
               + rewrite gN by lia. specialize (H3 s ltac:(unfold rng; lia)). apply wrote_2 in H3.
                 assert (E : g3 s = Cmul (z s) (mkC (x s) 0)) by (unfold g3; apply C_ext; cbn; ring). rewrite <- E. exact H3.
             - intros a Ha. rewrite HF4, HF3', HF2', HF1' by (unfold rspan in *; lia). reflexivity.
             - intros a Ha. rewrite HF4. apply Hal3, Hal2, Hal1, Ha. }
           apply WP_if; intros Ei.
           ++ apply WP_rw with (out := fun _ => []); [linj|intros s Hs; unfold rng in Hs; lia|].
              intros m4 _ HF4 Hal4. apply Hlast. intros a; apply HF4; intros (s' & ? & Hs' & Hi); fsts Hi; lia.
           ++ apply WP_skip. apply Hlast. reflexivity.
Qed.

Lemma rforward2_half r : q <> 1 -> p = 2 -> m < L -> L <= 2 * m -> 2 * r = q ->
  WP (rforward2 t f F r (if ainplace t then None else Some W)) m0 (fpost r).
Proof.
  intros Hq1 Hp HmL HL2 H2r. destruct szs as (Hm & HL & Hq & HM & He & HmN & _).
  destruct (half_geom r Hq1 H2r) as (G1 & G2 & G3 & G4 & G5 & G6).
  unfold rforward2. rewrite EW. cbv zeta. destruct (Nat.eqb_spec r 0); [lia|]. destruct (Nat.ltb_spec (2 * r) q); [lia|].
  assert (Eh : e - 1 = m / 2) by (unfold re_; lia). rewrite Eh. clear Eh. remember (m / 2) as h eqn:Eh.
  pose (z := fun s => zeta M (Z.of_nat (r * s))).
  assert (Hz0 : z 0 = C1) by (unfold z; rewrite Nat.mul_0_r; apply zeta_0).
  pose (gg := fun j => if j <? L then x j else 0%R).
  assert (HHR : forall s, s < h -> halfrow h p L M r x s = Cmul (z s) (mkC (gg s - gg (m + s)%nat) (gg (h + s)%nat - gg (m + h + s)%nat))%R).
  { intros s Hs. unfold halfrow. rewrite Hp. change (1 <? 2) with true. cbv iota. unfold gg.
    replace (2 * h + s) with (m + s) by lia. replace (3 * h + s) with (m + h + s) by lia. reflexivity. }
  assert (gY : forall j, j < L -> gg j = x j) by (intros; apply gL; assumption).
  assert (gZ : forall j, L <= j -> gg j = 0%R) by (intros; apply gN; assumption).
  set (stop1 := if m + h <? L then L - (m + h) else 1). set (stop2 := if m + h <? L then h else L - m).
  assert (Hst : 1 <= stop1 /\ stop1 <= stop2 /\ stop2 <= h /\ (forall s, 0 < s < stop1 -> m + h + s < L) /\ (forall s, stop1 <= s -> L <= m + h + s) /\
     (forall s, s < stop2 -> s < h -> m + s < L) /\ (forall s, stop2 <= s -> s < h -> L <= m + s)).
  { unfold stop1, stop2. destruct (Nat.ltb_spec (m + h) L); repeat split; intros; lia. }
  destruct Hst as (S1 & S2 & S3 & S4 & S5 & S6 & S7).
  apply WP_seq.
  assert (HW0 : forall (K : mem -> Prop), (forall m1, wC m1 W 0 (halfrow h p L M r x 0) -> (forall a, ~ rspan W 2 a -> m1 a = m0 a) ->
     (forall a, m0 a <> Unalloc -> m1 a <> Unalloc) -> K m1) ->
     WP (if m + h <? L then rDo (Rd f (fun x => Rd (f + m) (fun y => Rd (f + h) (fun u => Rd (f + h + m) (fun v => wrC W 0 (mkC (x - y) (u - v)) Ret)))))
         else rDo (Rd f (fun x => Rd (f + m) (fun y => Rd (f + h) (fun u => wrC W 0 (mkC (x - y) u) Ret))))) m0 K).
  { intros K HK. destruct (Nat.ltb_spec (m + h) L) as [Hc|Hc].
    - apply WP_rdo with (out := [(W + 2 * 0, (x 0 - x m)%R); (W + 2 * 0 + 1, (x h - x (m + h)%nat)%R)]).
      + lrd (Hsrc 0 ltac:(lia)). lrd (Hsrc m ltac:(lia)). lrd (Hsrc h ltac:(lia)). lrd (Hsrc (m + h) ltac:(lia)). unfold wrC.
        lwr; [apply HaW; unfold rspan; lia|]. lwr; [apply HaW; unfold rspan; lia|]. lend.
      + intros m1 H1 HF1 Hal1. apply HK; [|intros a Ha; apply HF1; intros v Hi; fsts Hi; unfold rspan in *; lia|assumption].
        apply wrote_1 in H1. destruct H1 as [E1 H1]. apply wrote_1 in H1. destruct H1 as [E2 _].
        rewrite HHR, Hz0, !Nat.add_0_r, !gY by lia. unfold wC. rewrite E1, E2. split; f_equal; cbn; ring.
    - apply WP_rdo with (out := [(W + 2 * 0, (x 0 - x m)%R); (W + 2 * 0 + 1, x h)]).
      + lrd (Hsrc 0 ltac:(lia)). lrd (Hsrc m ltac:(lia)). lrd (Hsrc h ltac:(lia)). unfold wrC.
        lwr; [apply HaW; unfold rspan; lia|]. lwr; [apply HaW; unfold rspan; lia|]. lend.
      + intros m1 H1 HF1 Hal1. apply HK; [|intros a Ha; apply HF1; intros v Hi; fsts Hi; unfold rspan in *; lia|assumption].
        apply wrote_1 in H1. destruct H1 as [E1 H1]. apply wrote_1 in H1. destruct H1 as [E2 _].
        rewrite HHR, Hz0, !Nat.add_0_r by lia. rewrite (gY 0), (gY m), (gY h), gZ by lia. unfold wC. rewrite E1, E2. split; f_equal; cbn; ring. }
  apply HW0. clear HW0. intros m1 V1 HF1 Hal1.
  assert (Hs1 : forall k, k < L -> m1 (f + k) = Val (x k)).
  { intros k Hk. rewrite HF1 by (unfold rspan, apart2 in *; lia). apply Hsrc. assumption. }
  pose (g := fun s => Cmul (z s) (mkC (x s - x (m + s)%nat) (x (h + s)%nat - x (m + h + s)%nat))%R).
  apply WP_seq. apply WP_rw with (out := fun s => [(W + 2 * s, re (g s)); (W + 2 * s + 1, im (g s))]).
  { linj. }
  { intros s Hs. unfold rng in Hs. specialize (S4 s Hs). ltab (zq t r s ltac:(lia) ltac:(lia)). lrd (Hs1 s ltac:(lia)). lrd (Hs1 (m + s) ltac:(lia)).
    lrd (Hs1 (h + s) ltac:(lia)). lrd (Hs1 (m + h + s) ltac:(lia)). unfold wrC.
    lwr; [apply Hal1, HaW; unfold rspan; lia|]. lwr; [apply Hal1, HaW; unfold rspan; lia|]. lend. }
  intros m2 H2 HF2 Hal2.
  assert (HF2' : forall a, ~ rspan (W + 2) (2 * (stop1 - 1)) a -> m2 a = m1 a).
  { intros a Ha. apply HF2. intros (s' & ? & Hs' & Hi); fsts Hi; unfold rng, rspan in *; lia. }
  assert (Hs2 : forall k, k < L -> m2 (f + k) = Val (x k)).
  { intros k Hk. rewrite HF2' by (unfold rspan, apart2 in *; lia). apply Hs1. assumption. }
  pose (g3 := fun s => Cmul (z s) (mkC (x s - x (m + s)%nat)%R (x (h + s)%nat))).
  apply WP_seq. apply WP_rw with (out := fun s => [(W + 2 * s, re (g3 s)); (W + 2 * s + 1, im (g3 s))]).
  { linj. }
  { intros s Hs. unfold rng in Hs. pose proof (S6 s ltac:(lia) ltac:(lia)). ltab (zq t r s ltac:(lia) ltac:(lia)). lrd (Hs2 s ltac:(lia)). lrd (Hs2 (m + s) ltac:(lia)).
    lrd (Hs2 (h + s) ltac:(lia)). unfold wrC.
    lwr; [apply Hal2, Hal1, HaW; unfold rspan; lia|]. lwr; [apply Hal2, Hal1, HaW; unfold rspan; lia|]. lend. }
  intros m3 H3 HF3 Hal3.
  assert (HF3' : forall a, ~ rspan (W + 2 * stop1) (2 * (stop2 - stop1)) a -> m3 a = m2 a).
  { intros a Ha. apply HF3. intros (s' & ? & Hs' & Hi); fsts Hi; unfold rng, rspan in *; lia. }
  assert (Hs3 : forall k, k < L -> m3 (f + k) = Val (x k)).
  { intros k Hk. rewrite HF3' by (unfold rspan, apart2 in *; lia). apply Hs2. assumption. }
  pose (g4 := fun s => Cmul (z s) (mkC (x s) (x (h + s)%nat))).
  apply WP_seq. apply WP_rw with (out := fun s => [(W + 2 * s, re (g4 s)); (W + 2 * s + 1, im (g4 s))]).
  { linj. }
  { intros s Hs. unfold rng in Hs. ltab (zq t r s ltac:(lia) ltac:(lia)). lrd (Hs3 s ltac:(lia)). lrd (Hs3 (h + s) ltac:(lia)). unfold wrC.
    lwr; [apply Hal3, Hal2, Hal1, HaW; unfold rspan; lia|]. lwr; [apply Hal3, Hal2, Hal1, HaW; unfold rspan; lia|]. lend. }
  intros m4 H4 HF4 Hal4.
  assert (HF4' : forall a, ~ rspan (W + 2 * stop2) (2 * (h - stop2)) a -> m4 a = m3 a).
  { intros a Ha. apply HF4. intros (s' & ? & Hs' & Hi); fsts Hi; unfold rng, rspan in *; lia. }
  apply half_last; [assumption|assumption|assumption|rewrite Hp; lia| | |].
  - intros s Hs. destruct (Nat.lt_ge_cases s stop2) as [H2s|H2s].
    + destruct (Nat.lt_ge_cases s stop1) as [H1s|H1s].
      * destruct (Nat.eq_dec s 0) as [->|Hs0].
        -- destruct V1 as [E1 E2]. split; rewrite HF4', HF3', HF2' by (unfold rspan; lia); assumption.
        -- specialize (H2 s ltac:(unfold rng; lia)). apply wrote_2 in H2. specialize (S4 s ltac:(lia)).
           rewrite HHR, !gY by lia. destruct H2 as [E1 E2]. split; rewrite HF4', HF3' by (unfold rspan; lia); assumption.
      * specialize (H3 s ltac:(unfold rng; lia)). apply wrote_2 in H3. pose proof (S6 s ltac:(lia) ltac:(lia)). pose proof (S5 s H1s).
        rewrite HHR by lia. rewrite (gY s), (gY (m + s)), (gY (h + s)), gZ by lia. rewrite Rminus_0_r.
        destruct H3 as [E1 E2]. split; rewrite HF4' by (unfold rspan; lia); assumption.
    + specialize (H4 s ltac:(unfold rng; lia)). apply wrote_2 in H4. pose proof (S7 s H2s ltac:(lia)). 
      rewrite HHR by lia. rewrite (gY s), (gZ (m + s)), (gY (h + s)), (gZ (m + h + s)) by lia. rewrite !Rminus_0_r. exact H4.
  - intros a Ha. rewrite HF4', HF3', HF2', HF1 by (unfold rspan in *; lia). reflexivity.
  - intros a Ha. apply Hal4, Hal3, Hal2, Hal1, Ha.
Qed.

(** every pass *)
Lemma rforward_ok r : rpass t r -> (ainplace t = false -> rpadded t W m0) ->
  WP (rforward t f F r (if ainplace t then None else Some W)) m0 (fpost r).
Proof.
  intros Hr Hpd. unfold rforward. destruct (Nat.eqb_spec q 1) as [Hq1|Hq1].
  - destruct Hr as [->|[(A & _)|(A & _)]]; try contradiction. apply rforwardExplicit_ok. assumption.
  - destruct (r_p t Hwf) as [(Hp & HLm)|(Hp & HmL & HL2)].
    + rewrite Hp. cbn [Nat.eqb]. destruct Hr as [->|[(_ & H1 & H2 & H3)|(_ & H2)]].
      * apply rforward1_0; assumption.
      * apply rforward1_mid; assumption.
      * apply rforward1_half; assumption.
    + rewrite Hp. cbn [Nat.eqb]. destruct Hr as [->|[(_ & H1 & H2 & H3)|(_ & H2)]].
      * apply rforward2_0; assumption.
      * apply rforward2_mid; assumption.
      * apply rforward2_half; assumption.
Qed.
End F.
