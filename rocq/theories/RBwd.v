(** The backward kernels of fftPadReal. *)
From Coq Require Import Reals ZArith Arith Lia List Bool.
From Verif Require Import CNum Sums Roots Mem VecModel PadModel PadKernels PadMath CenModel HerModel RealModel RealMath RealGeom RLoops RFft RealSpec RFwd.
Import ListNotations.

Fixpoint rsum (n : nat) (g : nat -> R) : R := match n with O => 0%R | S k => (rsum k g + g k)%R end.

(** contribution of pass r, whose outputs are y, to element j *)
Definition bshare (t : pad) (r : nat) (y : nat -> C) (j : nat) : R :=
  if r =? 0 then c2r (am t) y (j mod am t)
  else if 2 * r =? gq t then
    (2 * re (Cmul (Cconj (zeta (gM t) (Z.of_nat (r * j)))) (dft (am t / 2) (-1) y (j mod (am t / 2)))))%R
  else rsum (midw t r) (fun d =>
    (2 * re (Cmul (Cconj (zeta (gM t) (Z.of_nat ((r + d) * j)))) (dft (am t) (-1) (fun k => y (am t * d + k)%nat) (j mod am t))))%R).

Section Stage.
Variables (f L P : nat) (A ctr : nat -> R).
Hypothesis HP : 1 <= P.
Definition Cur (B : nat) (mm : mem) : Prop := forall k, k < L -> mm (f + k) = Val (if k mod P <? B then A k + ctr k else A k)%R.
Lemma Cur_get B mm k : Cur B mm -> k < L -> B <= k mod P -> mm (f + k) = Val (A k).
Proof. intros H Hk HB. rewrite H by assumption. destruct (Nat.ltb_spec (k mod P) B); [lia|reflexivity]. Qed.
Lemma stage lo hi body (out : nat -> list (nat * R)) m1 (K : mem -> Prop) :
  Cur lo m1 -> lo <= hi ->
  (forall s a v, rng lo hi s -> In (a, v) (out s) <-> exists k, k < L /\ k mod P = s /\ a = f + k /\ v = (A k + ctr k)%R) ->
  (forall s, rng lo hi s ->
     wp (fun a => forall s' v, rng lo hi s' -> ~ In (a, v) (out s')) (fun a => exists v, In (a, v) (out s)) (body s) m1
        (fun m' => wrote m' (out s))) ->
  (forall m', Cur hi m' -> (forall a, ~ rspan f L a -> m' a = m1 a) -> (forall a, m1 a <> Unalloc -> m' a <> Unalloc) -> K m') ->
  WP (rFor lo hi body) m1 K.
Proof.
  intros HC Hle Hout Hleaf HK. apply WP_rw with (out := out).
  - intros s s' a v v' Hs Hs' H1 H2. apply (Hout s a v Hs) in H1. apply (Hout s' a v' Hs') in H2.
    destruct H1 as (k & _ & E1 & E2 & _). destruct H2 as (k' & _ & E1' & E2' & _). assert (k = k') by lia. subst k'. congruence.
  - assumption.
  - intros m' HW HF Hal. apply HK; [| |assumption].
    + intros k Hk. destruct (Nat.ltb_spec (k mod P) hi) as [Hh|Hh].
      * destruct (Nat.lt_ge_cases (k mod P) lo) as [Hl|Hl].
        -- rewrite HF; [rewrite HC by assumption; destruct (Nat.ltb_spec (k mod P) lo); [reflexivity|lia]|].
           intros (s & v & Hs & Hi). apply (Hout s _ v Hs) in Hi. destruct Hi as (k' & _ & E1 & E2 & _). assert (k = k') by lia. subst k'. unfold rng in Hs. lia.
        -- assert (Hr : rng lo hi (k mod P)) by (unfold rng; lia). apply (HW _ Hr). apply (Hout _ _ _ Hr). exists k. auto.
      * rewrite HF; [rewrite HC by assumption; destruct (Nat.ltb_spec (k mod P) lo); [lia|reflexivity]|].
        intros (s & v & Hs & Hi). apply (Hout s _ v Hs) in Hi. destruct Hi as (k' & _ & E1 & E2 & _). assert (k = k') by lia. subst k'. unfold rng in Hs. lia.
    + intros a Ha. apply HF. intros (s & v & Hs & Hi). apply (Hout s _ v Hs) in Hi. destruct Hi as (k' & H1 & _ & E2 & _). apply Ha. unfold rspan. lia.
Qed.
End Stage.
(** one destination per iteration *)
Lemma stage1_out f L (A ctr : nat -> R) (val : nat -> R) s a v : s < L -> val s = ctr s ->
  In (a, v) [(f + s, (A s + val s)%R)] <-> exists k, k < L /\ k mod L = s /\ a = f + k /\ v = (A k + ctr k)%R.
Proof.
  intros Hs E. rewrite E. split.
  - intros [H|[]]. injection H as <- <-. exists s. rewrite Nat.mod_small by assumption. auto.
  - intros (k & Hk & Ek & -> & ->). rewrite Nat.mod_small in Ek by assumption. subst k. left. reflexivity.
Qed.

Lemma rDo_For pr : rDo pr = rFor 0 1 (fun _ => pr). Proof. reflexivity. Qed.
Section B.
Variable t : pad.
Hypothesis Hwf : rwf t.
Notation L := (aL t).  Notation m := (am t).  Notation D := (aD t).
Notation q := (gq t).  Notation p := (gp t).  Notation e := (re_ t).  Notation D0 := (rD0 t).
Notation M := (gM t). Notation N := (routputSize t).
Variables (f F W : nat) (y : nat -> C) (acc : nat -> R) (m0 : mem).
Hypothesis Hip : ainplace t = (W =? F).
Hypothesis HfF : apart2 f L F (2 * N).
Hypothesis HfW : apart2 f L W (2 * N).
Hypothesis HWF : W = F \/ apart2 W (2 * N) F (2 * N).
Hypothesis HaF : forall a, rspan F (2 * N) a -> m0 a <> Unalloc.
Hypothesis HaW : forall a, rspan W (2 * N) a -> m0 a <> Unalloc.
Hypothesis Haf : forall a, rspan f L a -> m0 a <> Unalloc.

Definition bpost (r : nat) (m' : mem) : Prop :=
  (forall j, j < L -> m' (f + j) = Val ((if r =? 0 then 0 else acc j) + bshare t r y j)%R) /\
  (forall a, ~ rspan f L a -> ~ rspan F (2 * N) a -> ~ rspan W (2 * N) a -> m' a = m0 a) /\
  (forall a, m0 a <> Unalloc -> m' a <> Unalloc).

Lemma BEW : getW F (if ainplace t then None else Some W) = W.
Proof. rewrite Hip. destruct (Nat.eqb_spec W F) as [->|]; reflexivity. Qed.

(** pass 0: f[s] = W[s mod m] *)
Lemma c2r_0 c : (forall i, i < e -> wC m0 F i (y i)) -> (forall s, s = 0 \/ 2 * s = m -> im (y s) = 0%R) ->
  (forall m1, (forall k, k < m -> m1 (W + k) = Val (c2r m y k)) ->
     (forall a, ~ rspan F (2 * N) a -> ~ rspan W (2 * N) a -> m1 a = m0 a) ->
     (forall a, m0 a <> Unalloc -> m1 a <> Unalloc) -> WP c m1 (bpost 0)) ->
  WP (Seq (rd_c2r m (ainplace t) F W) c) m0 (bpost 0).
Proof.
  intros Hy Him Hc. destruct (szs t Hwf F W HWF) as (Hm & HL & Hq & HM & He & HmN & _).
  apply WP_seq. apply WP_c2r with (x := y).
  - rewrite Hip. apply Nat.eqb_sym.
  - assumption.
  - exact Hy.
  - assumption.
  - intros a Ha. apply HaW. unfold rspan in *. lia.
  - destruct HWF as [E|E]; [left; symmetry; exact E|right; unfold apart2, re_ in *; lia].
  - intros m1 HV HF1 Hal1. apply Hc; [assumption| |assumption].
    intros a H1 H2. apply HF1; unfold rspan, re_ in *; lia.
Qed.
Lemma bpost_0 (m1 m' : mem) : (forall a, ~ rspan F (2 * N) a -> ~ rspan W (2 * N) a -> m1 a = m0 a) ->
  (forall a, m0 a <> Unalloc -> m1 a <> Unalloc) ->
  (forall j, j < L -> m' (f + j) = Val (c2r m y (j mod m))) ->
  (forall a, ~ rspan f L a -> m' a = m1 a) -> (forall a, m1 a <> Unalloc -> m' a <> Unalloc) -> bpost 0 m'.
Proof.
  intros HF1 Hal1 HV HF Hal. split; [|split].
  - intros j Hj. rewrite HV by assumption. unfold bshare. cbn [Nat.eqb]. f_equal. ring.
  - intros a Ha Hb Hc. rewrite HF, HF1 by assumption. reflexivity.
  - intros a Ha. apply Hal, Hal1, Ha.
Qed.
Lemma back1_0 : L <= m -> (forall i, i < e -> wC m0 F i (y i)) -> (forall s, s = 0 \/ 2 * s = m -> im (y s) = 0%R) ->
  WP (Seq (rd_c2r m (ainplace t) F W) (rFor 0 L (fun s => Rd (W + s) (fun v => Wr (f + s) v Ret)))) m0 (bpost 0).
Proof.
  intros HLm Hy Him. destruct (szs t Hwf F W HWF) as (Hm & HL & Hq & HM & He & HmN & _).
  apply c2r_0; [assumption|assumption|]. intros m1 HV HF1 Hal1.
  apply WP_rw with (out := fun s => [(f + s, c2r m y s)]).
  - linj.
  - intros s Hs. unfold rng in Hs. lrd (HV s ltac:(lia)). lwr; [apply Hal1, Haf; unfold rspan; lia|]. lend.
  - intros m2 H2 HF2 Hal2. apply (bpost_0 m1); [assumption|assumption| | |assumption].
    + intros j Hj. rewrite Nat.mod_small by lia. apply (proj1 (wrote_1 _ _ _ _ (H2 j ltac:(unfold rng; lia)))).
    + intros a Ha. apply HF2. intros (s' & ? & Hs' & Hi); fsts Hi; unfold rng, rspan in *; lia.
Qed.
Lemma back2_0 : m < L -> L <= 2 * m -> (forall i, i < e -> wC m0 F i (y i)) -> (forall s, s = 0 \/ 2 * s = m -> im (y s) = 0%R) ->
  WP (Seq (rd_c2r m (ainplace t) F W)
   (Seq (rFor 0 m (fun s => Rd (W + s) (fun v => Wr (f + s) v Ret)))
        (rFor m L (fun s => Rd (W + s - m) (fun v => Wr (f + s) v Ret))))) m0 (bpost 0).
Proof.
  intros HmL HL2 Hy Him. destruct (szs t Hwf F W HWF) as (Hm & HL & Hq & HM & He & HmN & _).
  apply c2r_0; [assumption|assumption|]. intros m1 HV HF1 Hal1.
  apply WP_seq. apply WP_rw with (out := fun s => [(f + s, c2r m y s)]).
  - linj.
  - intros s Hs. unfold rng in Hs. lrd (HV s ltac:(lia)). lwr; [apply Hal1, Haf; unfold rspan; lia|]. lend.
  - intros m2 H2 HF2 Hal2.
    assert (HF2' : forall a, ~ rspan f m a -> m2 a = m1 a).
    { intros a Ha. apply HF2. intros (s' & ? & Hs' & Hi); fsts Hi; unfold rng, rspan in *; lia. }
    assert (HV2 : forall k, k < m -> m2 (W + k) = Val (c2r m y k)).
    { intros k Hk. rewrite HF2' by (unfold rspan, apart2 in *; lia). apply HV. assumption. }
    apply WP_rw with (out := fun s => [(f + s, c2r m y (s - m))]).
    + linj.
    + intros s Hs. unfold rng in Hs. lrd (HV2 (s - m) ltac:(lia)). lwr; [apply Hal2, Hal1, Haf; unfold rspan; lia|]. lend.
    + intros m3 H3 HF3 Hal3. apply (bpost_0 m1); [assumption|assumption| | |].
      * intros j Hj. destruct (Nat.lt_ge_cases j m) as [Hl|Hl].
        -- rewrite Nat.mod_small by lia. rewrite HF3; [|intros (s' & ? & Hs' & Hi); fsts Hi; unfold rng, rspan in *; lia].
           apply (proj1 (wrote_1 _ _ _ _ (H2 j ltac:(unfold rng; lia)))).
        -- assert (E : j mod m = j - m). { symmetry. apply (Nat.mod_unique _ _ 1); lia. }
           rewrite E. apply (proj1 (wrote_1 _ _ _ _ (H3 j ltac:(unfold rng; lia)))).
      * intros a Ha. rewrite HF3; [|intros (s' & ? & Hs' & Hi); fsts Hi; unfold rng, rspan in *; lia].
        rewrite HF2' by (unfold rspan in *; lia). reflexivity.
      * intros a Ha. apply Hal3, Hal2, Ha.
Qed.

(** middle passes *)
Hypothesis Hacc : forall j, j < L -> m0 (f + j) = Val (acc j).
Definition urow (d : nat) (s : nat) : C := dft m (-1) (fun k => y (m * d + k)) s.
Definition mctr (r d j : nat) : R := (2 * re (Cmul (Cconj (zeta M (Z.of_nat ((r + d) * j)))) (urow d (j mod m))))%R.
Definition bI (r Ds d : nat) (m' : mem) : Prop :=
  (forall j, j < L -> m' (f + j) = Val (acc j + rsum d (fun d' => mctr r d' j))%R) /\
  (forall d' s, d' < Ds -> s < m -> wC m' W (m * d' + s) (urow d' s)) /\
  (forall a, ~ rspan f L a -> ~ rspan F (2 * N) a -> ~ rspan W (2 * N) a -> m' a = m0 a) /\
  (forall a, m0 a <> Unalloc -> m' a <> Unalloc).
Lemma mid_start r0 Ds c : q <> 1 -> 3 <= q -> Ds <= D -> (forall i, i < m * Ds -> wC m0 F i (y i)) ->
  (forall m1, bI r0 Ds 0 m1 -> WP c m1 (bpost r0)) ->
  WP (Seq (rd_cfft m Ds (-1) (ainplace t) F W) c) m0 (bpost r0).
Proof.
  intros Hq1 H3 HDs Hy Hc. destruct (szs t Hwf F W HWF) as (Hm & HL & Hq & HM & He & HmN & _).
  pose proof (r_oszm t Hwf Hq1 H3) as EN. assert (Hsz : m * Ds <= N) by (rewrite EN; apply Nat.mul_le_mono_l; lia).
  apply WP_seq. apply WP_cfft with (x := fun h s => y (m * h + s)).
  - rewrite Hip. apply Nat.eqb_sym.
  - assumption.
  - intros h s Hh Hs. apply Hy. apply row_join; assumption.
  - intros a Ha. apply HaW. unfold rspan in *. lia.
  - destruct HWF as [E|E]; [left; symmetry; exact E|right; unfold apart2 in *; lia].
  - intros m1 HV HF1 Hal1. apply Hc. split; [|split; [|split]].
    + intros j Hj. rewrite HF1 by (unfold rspan, apart2 in *; lia). rewrite Hacc by assumption. f_equal. cbn. ring.
    + intros d' s Hd Hs. apply HV; assumption.
    + intros a H1 H2 H4. apply HF1. unfold rspan in *. lia.
    + assumption.
Qed.
Lemma bI_S r0 Ds d (m1 m' : mem) : q <> 1 -> 3 <= q -> Ds <= D -> bI r0 Ds d m1 ->
  (forall j, j < L -> m' (f + j) = Val (acc j + rsum d (fun d' => mctr r0 d' j) + mctr r0 d j)%R) ->
  (forall a, ~ rspan f L a -> m' a = m1 a) -> (forall a, m1 a <> Unalloc -> m' a <> Unalloc) -> bI r0 Ds (S d) m'.
Proof.
  intros Hq1 H3 HDs (I1 & I2 & I3 & I4) HV HF Hal.
  pose proof (r_oszm t Hwf Hq1 H3) as EN. assert (Hsz : m * Ds <= N) by (rewrite EN; apply Nat.mul_le_mono_l; lia).
  split; [|split; [|split]].
  - intros j Hj. rewrite HV by assumption. f_equal. cbn [rsum]. ring.
  - intros d' s Hd Hs. assert (Hb : m * d' + s < m * Ds) by (apply row_join; assumption).
    destruct (I2 d' s Hd Hs) as [E1 E2]. split; rewrite HF by (unfold rspan, apart2 in *; lia); assumption.
  - intros a H1 H2 H4. rewrite HF by assumption. apply I3; assumption.
  - intros a Ha. apply Hal, I4, Ha.
Qed.
Lemma mid_end r0 Ds (m1 : mem) : 1 <= r0 -> 2 * r0 < q -> Ds = midw t r0 -> bI r0 Ds Ds m1 -> bpost r0 m1.
Proof.
  intros H1 H2 EDs (I1 & _ & I3 & I4). split; [|split; assumption]. intros j Hj. rewrite I1 by assumption.
  unfold bshare. destruct (Nat.eqb_spec r0 0); [lia|]. destruct (Nat.eqb_spec (2 * r0) q); [lia|]. rewrite EDs. reflexivity.
Qed.
Lemma rProd z u : (2 * realProduct z u)%R = (2 * re (Cmul (Cconj z) u))%R.
Proof. unfold realProduct. cbn. ring. Qed.

Lemma rbackward1_mid r0 : q <> 1 -> p = 1 -> L <= m -> 1 <= r0 -> 2 * r0 < q -> 2 * (r0 + midw t r0) <= q + 1 ->
  (forall i, i < m * midw t r0 -> wC m0 F i (y i)) ->
  WP (rbackward1 t F f r0 (if ainplace t then None else Some W)) m0 (bpost r0).
Proof.
  intros Hq1 Hp HLm H1r H2r Hmax Hy. destruct (szs t Hwf F W HWF) as (Hm & HL & Hq & HM & He & HmN & _).
  unfold rbackward1. rewrite BEW. cbv zeta. destruct (Nat.eqb_spec r0 0); [lia|]. destruct (Nat.ltb_spec (2 * r0) q); [|lia].
  change (if (r0 =? 1) && negb (D0 =? D) then D0 else D) with (midw t r0).
  pose proof (midw_pos t Hwf r0) as HDs. remember (midw t r0) as Ds eqn:EDs. assert (H3q : 3 <= q) by lia.
  apply (mid_start r0 Ds); [assumption|assumption|lia|assumption|]. intros m1 HI0.
  eapply WP_mono; [|apply (WP_cfor R Ds _ (fun d => bI r0 Ds d))].
  - intros m2 HI. apply (mid_end r0 Ds); assumption.
  - exact HI0.
  - intros d m2 Hd HI. pose proof HI as (I1 & I2 & I3 & I4).
    pose proof (mid_apart t Hwf f F W HfF HfW HWF d Hq1 H3q ltac:(lia)) as HfU. set (U := W + 2 * (m * d)) in *.
    assert (HU : forall s, s < m -> m2 (U + 2 * s) = Val (re (urow d s)) /\ m2 (U + 2 * s + 1) = Val (im (urow d s))).
    { intros s Hs. apply (wC_block t F W HWF). apply I2; assumption. }
    pose (A := fun j => (acc j + rsum d (fun d' => mctr r0 d' j))%R).
    assert (HC0 : Cur f L L A (mctr r0 d) 0 m2).
    { intros k Hk. rewrite I1 by assumption. destruct (Nat.ltb_spec (k mod L) 0); [lia|reflexivity]. }
    assert (Hm0c : mctr r0 d 0 = (2 * re (urow d 0))%R).
    { unfold mctr. rewrite Nat.mul_0_r, zeta_0, Nat.mod_0_l by lia. cbn. ring. }
    apply WP_seq. rewrite rDo_For.
    apply (stage f L L A (mctr r0 d)) with (out := fun s => [(f + s, (A s + 2 * re (urow d s))%R)]); [lia|exact HC0|lia| | |].
    + intros s a v Hs. unfold rng in Hs. assert (s = 0) by lia. subst s. apply (stage1_out f L A (mctr r0 d) (fun s => (2 * re (urow d s))%R)); [lia|]. symmetry. exact Hm0c.
    + intros s Hs. unfold rng in Hs. assert (s = 0) by lia. subst s. rewrite Nat.add_0_r.
      lrd (proj1 (HU 0 ltac:(lia))). unfold addR. lrd (Cur_get f L L A (mctr r0 d) HL 0 m2 0 HC0 ltac:(lia) ltac:(lia)).
      lwr; [apply I4, Haf; unfold rspan; lia|]. lend.
    + intros m3 HC1 HF3 Hal3.
      assert (HU3 : forall s, s < m -> m3 (U + 2 * s) = Val (re (urow d s)) /\ m3 (U + 2 * s + 1) = Val (im (urow d s))).
      { intros s Hs. rewrite !HF3 by (unfold rspan, apart2 in *; lia). apply HU. assumption. }
      pose (val := fun s => (2 * realProduct (zeta M (Z.of_nat ((r0 + d) * s))) (mkC (re (urow d s)) (im (urow d s))))%R).
      assert (Hval : forall s, s < L -> val s = mctr r0 d s).
      { intros s Hs. unfold val, mctr. rewrite rProd. rewrite (Nat.mod_small s) by lia. destruct (urow d s). reflexivity. }
      apply (stage f L L A (mctr r0 d)) with (out := fun s => [(f + s, (A s + val s)%R)]); [lia|exact HC1|lia| | |].
      * intros s a v Hs. unfold rng in Hs. apply (stage1_out f L A (mctr r0 d) val); [lia|]. apply Hval. lia.
      * intros s Hs. unfold rng in Hs. ltab (zq t (r0 + d) s ltac:(lia) ltac:(lia)). unfold rdC.
        lrd (proj1 (HU3 s ltac:(lia))). lrd (proj2 (HU3 s ltac:(lia))). unfold addR.
        assert (Hmod : s mod L = s) by (apply Nat.mod_small; lia).
        lrd (Cur_get f L L A (mctr r0 d) HL 1 m3 s HC1 ltac:(lia) ltac:(lia)).
        lwr; [apply Hal3, I4, Haf; unfold rspan; lia|]. lend.
      * intros m4 HC2 HF4 Hal4. apply (bI_S r0 Ds d m2); [assumption|assumption|lia|assumption| | |].
        -- intros j Hj. rewrite HC2 by assumption. destruct (Nat.ltb_spec (j mod L) L); [reflexivity|]. pose proof (Nat.mod_upper_bound j L). lia.
        -- intros a Ha. rewrite HF4, HF3 by assumption. reflexivity.
        -- intros a Ha. apply Hal4, Hal3, Ha.
Qed.

Lemma rbackward2_mid r0 : q <> 1 -> p = 2 -> m < L -> L <= 2 * m -> 1 <= r0 -> 2 * r0 < q -> 2 * (r0 + midw t r0) <= q + 1 ->
  (forall i, i < m * midw t r0 -> wC m0 F i (y i)) ->
  WP (rbackward2 t F f r0 (if ainplace t then None else Some W)) m0 (bpost r0).
Proof.
  intros Hq1 Hp HmL HL2 H1r H2r Hmax Hy. destruct (szs t Hwf F W HWF) as (Hm & HL & Hq & HM & He & HmN & _).
  unfold rbackward2. rewrite BEW. cbv zeta. destruct (Nat.eqb_spec r0 0); [lia|]. destruct (Nat.ltb_spec (2 * r0) q); [|lia].
  change (if (r0 =? 1) && negb (D0 =? D) then D0 else D) with (midw t r0).
  pose proof (midw_pos t Hwf r0) as HDs. remember (midw t r0) as Ds eqn:EDs. assert (H3q : 3 <= q) by lia.
  apply (mid_start r0 Ds); [assumption|assumption|lia|assumption|]. intros m1 HI0.
  eapply WP_mono; [|apply (WP_cfor R Ds _ (fun d => bI r0 Ds d))].
  - intros m2 HI. apply (mid_end r0 Ds); assumption.
  - exact HI0.
  - intros d m2 Hd HI. pose proof HI as (I1 & I2 & I3 & I4).
    pose proof (mid_apart t Hwf f F W HfF HfW HWF d Hq1 H3q ltac:(lia)) as HfU. set (U := W + 2 * (m * d)) in *.
    assert (HU : forall s, s < m -> m2 (U + 2 * s) = Val (re (urow d s)) /\ m2 (U + 2 * s + 1) = Val (im (urow d s))).
    { intros s Hs. apply (wC_block t F W HWF). apply I2; assumption. }
    pose (A := fun j => (acc j + rsum d (fun d' => mctr r0 d' j))%R).
    assert (HC0 : Cur f L L A (mctr r0 d) 0 m2).
    { intros k Hk. rewrite I1 by assumption. destruct (Nat.ltb_spec (k mod L) 0); [lia|reflexivity]. }
    assert (Hm0c : mctr r0 d 0 = (2 * re (urow d 0))%R).
    { unfold mctr. rewrite Nat.mul_0_r, zeta_0, Nat.mod_0_l by lia. cbn. ring. }
    apply WP_seq. rewrite rDo_For.
    apply (stage f L L A (mctr r0 d)) with (out := fun s => [(f + s, (A s + 2 * re (urow d s))%R)]); [lia|exact HC0|lia| | |].
    + intros s a v Hs. unfold rng in Hs. assert (s = 0) by lia. subst s. apply (stage1_out f L A (mctr r0 d) (fun s => (2 * re (urow d s))%R)); [lia|]. symmetry. exact Hm0c.
    + intros s Hs. unfold rng in Hs. assert (s = 0) by lia. subst s. rewrite Nat.add_0_r.
      lrd (proj1 (HU 0 ltac:(lia))). unfold addR. lrd (Cur_get f L L A (mctr r0 d) HL 0 m2 0 HC0 ltac:(lia) ltac:(lia)).
      lwr; [apply I4, Haf; unfold rspan; lia|]. lend.
    + intros m3 HC1 HF3 Hal3.
      assert (HU3 : forall s, s < m -> m3 (U + 2 * s) = Val (re (urow d s)) /\ m3 (U + 2 * s + 1) = Val (im (urow d s))).
      { intros s Hs. rewrite !HF3 by (unfold rspan, apart2 in *; lia). apply HU. assumption. }
      pose (val := fun s => (2 * realProduct (zeta M (Z.of_nat ((r0 + d) * s))) (mkC (re (urow d s)) (im (urow d s))))%R).
      assert (Hval : forall s, s < m -> val s = mctr r0 d s).
      { intros s Hs. unfold val, mctr. rewrite rProd. rewrite (Nat.mod_small s) by lia. destruct (urow d s). reflexivity. }
      apply WP_seq. apply (stage f L L A (mctr r0 d)) with (out := fun s => [(f + s, (A s + val s)%R)]); [lia|exact HC1|lia| | |].
      * intros s a v Hs. unfold rng in Hs. apply (stage1_out f L A (mctr r0 d) val); [lia|]. apply Hval. lia.
      * intros s Hs. unfold rng in Hs. ltab (zq t (r0 + d) s ltac:(lia) ltac:(lia)). unfold rdC.
        lrd (proj1 (HU3 s ltac:(lia))). lrd (proj2 (HU3 s ltac:(lia))). unfold addR.
        assert (Hmod : s mod L = s) by (apply Nat.mod_small; lia).
        lrd (Cur_get f L L A (mctr r0 d) HL 1 m3 s HC1 ltac:(lia) ltac:(lia)).
        lwr; [apply Hal3, I4, Haf; unfold rspan; lia|]. lend.
      * intros m4 HC2 HF4 Hal4.
        assert (HU4 : forall s, s < m -> m4 (U + 2 * s) = Val (re (urow d s)) /\ m4 (U + 2 * s + 1) = Val (im (urow d s))).
        { intros s Hs. rewrite !HF4 by (unfold rspan, apart2 in *; lia). apply HU3. assumption. }
        pose (val2 := fun s => (2 * realProduct (zeta M (Z.of_nat ((r0 + d) * s))) (mkC (re (urow d (s - m))) (im (urow d (s - m)))))%R).
        assert (Hval2 : forall s, m <= s < L -> val2 s = mctr r0 d s).
        { intros s Hs. unfold val2, mctr. rewrite rProd. assert (E : s mod m = s - m) by (symmetry; apply (Nat.mod_unique _ _ 1); lia).
          rewrite E. destruct (urow d (s - m)). reflexivity. }
        apply (stage f L L A (mctr r0 d)) with (out := fun s => [(f + s, (A s + val2 s)%R)]); [lia|exact HC2|lia| | |].
        -- intros s a v Hs. unfold rng in Hs. apply (stage1_out f L A (mctr r0 d) val2); [lia|]. apply Hval2. lia.
        -- intros s Hs. unfold rng in Hs. ltab (zqS t (r0 + d) s ltac:(lia) ltac:(lia)). unfold rdC.
           lrd (proj1 (HU4 (s - m) ltac:(lia))). lrd (proj2 (HU4 (s - m) ltac:(lia))). unfold addR.
           assert (Hmod : s mod L = s) by (apply Nat.mod_small; lia).
           lrd (Cur_get f L L A (mctr r0 d) HL m m4 s HC2 ltac:(lia) ltac:(lia)).
           lwr; [apply Hal4, Hal3, I4, Haf; unfold rspan; lia|]. lend.
        -- intros m5 HC3 HF5 Hal5. apply (bI_S r0 Ds d m2); [assumption|assumption|lia|assumption| | |].
           ++ intros j Hj. rewrite HC3 by assumption. destruct (Nat.ltb_spec (j mod L) L); [reflexivity|]. pose proof (Nat.mod_upper_bound j L). lia.
           ++ intros a Ha. rewrite HF5, HF4, HF3 by assumption. reflexivity.
           ++ intros a Ha. apply Hal5, Hal4, Hal3, Ha.
Qed.

(** the pass 2r=q *)
Section Half.
Variable r : nat.
Hypothesis Hq1 : q <> 1.
Hypothesis H2r : 2 * r = q.
Definition hh : nat := m / 2.
Definition hw (s : nat) : C := dft hh (-1) y s.
Definition hctr (j : nat) : R := (2 * re (Cmul (Cconj (zeta M (Z.of_nat (r * j)))) (hw (j mod hh))))%R.
Definition hz (s : nat) : C := Cmul (Cscal 2 (Cconj (zeta M (Z.of_nat (r * s))))) (hw s).
Lemma hgeo : m = 2 * hh /\ 1 <= hh /\ 1 <= r /\ M = 2 * hh * q /\ hh <= N.
Proof.
  assert (He2 : q mod 2 = 0) by (rewrite <- H2r, Nat.mul_comm; apply Nat.mod_mul; lia).
  pose proof (r_even t Hwf Hq1 He2) as Hm2. pose proof (r_m t Hwf). pose proof (r_q1 t Hwf). pose proof (r_osz t Hwf) as Ho.
  pose proof (r_M t). unfold re_ in Ho. fold hh in *. split; [exact Hm2|]. rewrite <- Hm2. repeat split; lia.
Qed.
Lemma hmod i s : s < hh -> (hh * i + s) mod hh = s.
Proof. intros Hs. apply (row_div hh i s Hs). Qed.
Lemma hctr_0 s : s < hh -> hctr s = re (hz s).
Proof. intros Hs. unfold hctr, hz. rewrite (Nat.mod_small s) by assumption. cbn. ring. Qed.
Lemma hzeta k s v : zeta M (Z.of_nat r * Z.of_nat k) = v -> zeta M (Z.of_nat (r * (k + s))) = Cmul v (zeta M (Z.of_nat (r * s))).
Proof. intros <-. rewrite <- zeta_add. f_equal. lia. Qed.
Lemma hctr_1 s : s < hh -> hctr (hh + s) = im (hz s).
Proof.
  intros Hs. destruct hgeo as (G1 & G2 & G3 & G4 & _). unfold hctr, hz. replace ((hh + s) mod hh) with s by (symmetry; rewrite <- (Nat.mul_1_r hh) at 1; apply hmod; assumption).
  rewrite (hzeta hh s Ci) by (rewrite G4; apply zeta_h_1; lia). cbn. ring.
Qed.
Lemma hctr_2 s : s < hh -> hctr (m + s) = (- re (hz s))%R.
Proof.
  intros Hs. destruct hgeo as (G1 & G2 & G3 & G4 & _). unfold hctr, hz. replace ((m + s) mod hh) with s by (symmetry; rewrite G1, (Nat.mul_comm 2 hh); apply hmod; assumption).
  rewrite (hzeta m s (Copp C1)) by (rewrite G4, G1; apply zeta_h_2; lia). cbn. ring.
Qed.
Lemma hctr_3 s : s < hh -> hctr (m + hh + s) = (- im (hz s))%R.
Proof.
  intros Hs. destruct hgeo as (G1 & G2 & G3 & G4 & _). unfold hctr, hz. replace (m + hh) with (3 * hh) by lia.
  replace ((3 * hh + s) mod hh) with s by (symmetry; rewrite (Nat.mul_comm 3 hh); apply hmod; assumption).
  rewrite (hzeta (3 * hh) s (Copp Ci)) by (rewrite G4; apply zeta_h_3; lia). cbn. ring.
Qed.
Lemma half_start c : (forall i, i < hh -> wC m0 F i (y i)) ->
  (forall m1, (forall s, s < hh -> wC m1 W s (hw s)) -> Cur f L hh acc hctr 0 m1 ->
     (forall a, ~ rspan F (2 * N) a -> ~ rspan W (2 * N) a -> m1 a = m0 a) ->
     (forall a, m0 a <> Unalloc -> m1 a <> Unalloc) -> WP c m1 (bpost r)) ->
  WP (Seq (rd_cfft hh 1 (-1) (ainplace t) F W) c) m0 (bpost r).
Proof.
  intros Hy Hc. destruct hgeo as (G1 & G2 & G3 & G4 & G5).
  apply WP_seq. apply WP_cfft with (x := fun h s => y s).
  - rewrite Hip. apply Nat.eqb_sym.
  - assumption.
  - intros h s Hh Hs. assert (h = 0) by lia. subst h. rewrite Nat.mul_0_r. apply Hy. assumption.
  - intros a Ha. apply HaW. unfold rspan in *. lia.
  - destruct HWF as [E|E]; [left; symmetry; exact E|right; unfold apart2 in *; lia].
  - intros m1 HV HF1 Hal1. apply Hc.
    + intros s Hs. specialize (HV 0 s ltac:(lia) Hs). rewrite Nat.mul_0_r in HV. exact HV.
    + intros k Hk. rewrite HF1 by (unfold rspan, apart2 in *; lia). rewrite Hacc by assumption. destruct (Nat.ltb_spec (k mod hh) 0); [lia|reflexivity].
    + intros a H1 H2. apply HF1. unfold rspan in *. lia.
    + assumption.
Qed.
Lemma half_end B (m1 m' : mem) : (forall k, k < L -> k mod hh < B) ->
  (forall a, ~ rspan F (2 * N) a -> ~ rspan W (2 * N) a -> m1 a = m0 a) ->
  (forall a, m0 a <> Unalloc -> m1 a <> Unalloc) ->
  Cur f L hh acc hctr B m' ->
  (forall a, ~ rspan f L a -> m' a = m1 a) -> (forall a, m1 a <> Unalloc -> m' a <> Unalloc) -> bpost r m'.
Proof.
  intros HB HF1 Hal1 HC HF Hal. destruct hgeo as (G1 & G2 & G3 & G4 & G5). split; [|split].
  - intros j Hj. rewrite HC by assumption. destruct (Nat.ltb_spec (j mod hh) B) as [_|H]; [|specialize (HB j Hj); lia].
    unfold bshare. destruct (Nat.eqb_spec r 0); [lia|]. destruct (Nat.eqb_spec (2 * r) q); [|lia]. reflexivity.
  - intros a Ha Hb Hc. rewrite HF, HF1 by assumption. reflexivity.
  - intros a Ha. apply Hal, Hal1, Ha.
Qed.
Lemma out_half n s a v l : s < hh -> (forall i, i < n -> hh * i + s < L) -> L <= hh * n + s ->
  l = map (fun i => (f + (hh * i + s), (acc (hh * i + s)%nat + hctr (hh * i + s)%nat)%R)) (seq 0 n) ->
  In (a, v) l <-> exists k, k < L /\ k mod hh = s /\ a = f + k /\ v = (acc k + hctr k)%R.
Proof.
  intros Hs Hin Hout ->. split.
  - intros H. apply in_map_iff in H. destruct H as (i & H & Hi). injection H as <- <-. apply in_seq in Hi.
    exists (hh * i + s). rewrite hmod by assumption. repeat split; auto. apply Hin. lia.
  - intros (k & Hk & Ek & -> & ->). apply in_map_iff. exists (k / hh).
    pose proof (Nat.div_mod k hh ltac:(lia)) as E. rewrite Ek in E. rewrite <- E. split; [reflexivity|].
    apply in_seq. split; [lia|]. cbn [Nat.add]. apply (Nat.mul_lt_mono_pos_l hh); lia.
Qed.
Lemma Hget B mm k i s : k = hh * i + s -> s < hh -> B <= s -> k < L -> Cur f L hh acc hctr B mm -> mm (f + k) = Val (acc k).
Proof.
  intros E Hs HB Hk HC. destruct hgeo as (_ & G2 & _). apply (Cur_get f L hh acc hctr G2 B mm); [assumption|assumption|]. rewrite E, hmod by assumption. assumption.
Qed.

Lemma hW_keep (m1 m2 : mem) : (forall s, s < hh -> wC m1 W s (hw s)) -> (forall a, ~ rspan f L a -> m2 a = m1 a) -> forall s, s < hh -> wC m2 W s (hw s).
Proof.
  intros H HF s Hs. destruct hgeo as (_ & _ & _ & _ & G5). destruct (H s Hs) as [E1 E2]. split; rewrite HF by (unfold rspan, apart2 in *; lia); assumption.
Qed.
Lemma hz_0 : hz 0 = Cscal 2 (hw 0).
Proof. unfold hz. rewrite Nat.mul_0_r, zeta_0. apply C_ext; cbn; ring. Qed.
Lemma pair_eq (a b : nat) (u v : R) : a = b -> u = v -> (a, u) = (b, v). Proof. intros -> ->. reflexivity. Qed.
Lemma cons_eq (a b : nat * R) k l : a = b -> k = l -> a :: k = b :: l. Proof. intros -> ->. reflexivity. Qed.
Lemma app_at (g : nat -> R) a b : a = b -> g a = g b. Proof. intros ->. reflexivity. Qed.
Lemma el a k i s (u val : R) : k = hh * i + s -> a = f + k -> val = hctr k -> u = acc k -> (a, (u + val)%R) = (f + (hh * i + s), (acc (hh * i + s)%nat + hctr (hh * i + s)%nat)%R).
Proof. intros -> -> -> ->. reflexivity. Qed.
Ltac lst := cbn [seq map]; repeat (apply cons_eq; [|]); try reflexivity.
Lemma hctr_00 : hctr 0 = (2 * re (hw 0))%R.
Proof. destruct hgeo as (_ & G2 & _). rewrite hctr_0 by lia. rewrite hz_0. reflexivity. Qed.
Lemma hctr_10 : hctr hh = (2 * im (hw 0))%R.
Proof. destruct hgeo as (_ & G2 & _). pose proof (hctr_1 0 ltac:(lia)) as E. rewrite Nat.add_0_r in E. rewrite E, hz_0. reflexivity. Qed.
Lemma hctr_20 : hctr m = (- (2 * re (hw 0)))%R.
Proof. destruct hgeo as (_ & G2 & _). pose proof (hctr_2 0 ltac:(lia)) as E. rewrite Nat.add_0_r in E. rewrite E, hz_0. reflexivity. Qed.
Lemma hctr_30 : hctr (m + hh) = (- (2 * im (hw 0)))%R.
Proof. destruct hgeo as (_ & G2 & _). pose proof (hctr_3 0 ltac:(lia)) as E. rewrite Nat.add_0_r in E. rewrite E, hz_0. reflexivity. Qed.

Lemma rbackward1_half : p = 1 -> L <= m -> (forall i, i < hh -> wC m0 F i (y i)) ->
  WP (rbackward1 t F f r (if ainplace t then None else Some W)) m0 (bpost r).
Proof.
  intros Hp HLm Hy. destruct (szs t Hwf F W HWF) as (Hm & HL & Hq & HM & He & HmN & _).
  destruct hgeo as (G1 & G2 & G3 & G4 & G5).
  unfold rbackward1. rewrite BEW. cbv zeta. destruct (Nat.eqb_spec r 0); [lia|]. destruct (Nat.ltb_spec (2 * r) q); [lia|].
  assert (Eh : e - 1 = hh) by (unfold re_, hh; lia). rewrite Eh. clear Eh.
  apply half_start; [assumption|]. intros m1 HV HC HF1 Hal1.
  apply WP_seq. rewrite rDo_For.
  apply (stage f L hh acc hctr) with (out := fun s => if L <=? hh then [(f, (acc 0%nat + 2 * re (hw 0))%R)] else [(f, (acc 0%nat + 2 * re (hw 0))%R); (f + hh, (acc hh + 2 * im (hw 0))%R)]);
    [assumption|exact HC|lia| | |].
  { intros s a v Hs. unfold rng in Hs. assert (s = 0) by lia. subst s. destruct (Nat.leb_spec L hh).
    - apply (out_half 1); [lia|intros i Hi; assert (i = 0) by lia; subst i; lia|lia|]. lst. apply el with (k := 0); [lia|lia|symmetry; apply hctr_00|reflexivity].
    - apply (out_half 2); [lia|intros i Hi; assert (C : i = 0 \/ i = 1) by lia; destruct C; subst i; lia|lia|]. lst.
      + apply el with (k := 0); [lia|lia|symmetry; apply hctr_00|reflexivity].
      + apply el with (k := hh); [lia|lia|symmetry; apply hctr_10|reflexivity]. }
  { intros s Hs. unfold rng in Hs. assert (s = 0) by lia. subst s. destruct (HV 0 ltac:(lia)) as [V1 V2]. unfold rdC, addR.
    destruct (Nat.leb_spec L hh).
    - lrd V1. lrd V2. lrd (Hget 0 m1 0 0 0 ltac:(lia) ltac:(lia) ltac:(lia) ltac:(lia) HC).
      lwr; [apply Hal1, Haf; unfold rspan; lia|]. lend.
    - lrd V1. lrd V2. lrd (Hget 0 m1 0 0 0 ltac:(lia) ltac:(lia) ltac:(lia) ltac:(lia) HC).
      lwr; [apply Hal1, Haf; unfold rspan; lia|].
      lrd (Hget 0 m1 hh 1 0 ltac:(lia) ltac:(lia) ltac:(lia) ltac:(lia) HC).
      lwr; [apply Hal1, Haf; unfold rspan; lia|]. lend. }
  intros m2 HC2 HF2 Hal2. pose proof (hW_keep m1 m2 HV HF2) as HV2.
  set (Lmh := if L <=? hh then 1 else L - hh). set (stop := if L <=? hh then L else hh).
  assert (HS : 1 <= Lmh /\ Lmh <= stop /\ stop <= hh /\ stop <= L /\ (forall s, 1 <= s < Lmh -> hh + s < L) /\ (forall s, Lmh <= s -> L <= hh + s) /\ (forall k, k < L -> k mod hh < stop)).
  { unfold Lmh, stop. destruct (Nat.leb_spec L hh); repeat split; intros; try lia.
    - destruct (Nat.eq_dec k hh) as [->|]; [lia|]. rewrite Nat.mod_small by lia. lia.
    - apply Nat.mod_upper_bound. lia. }
  destruct HS as (S1 & S2 & S3 & S4 & S5 & S6 & S7).
  assert (S8 : Lmh <= 1 \/ hh + Lmh <= L) by (unfold Lmh; destruct (Nat.leb_spec L hh); lia).
  assert (Hcv : forall z s, Cmul (Cscal 2 (Cconj z)) (mkC (re (hw s)) (im (hw s))) = Cmul (Cscal 2 (Cconj z)) (hw s)) by (intros z s; destruct (hw s); reflexivity).
  apply WP_seq.
  apply (stage f L hh acc hctr) with (out := fun s => [(f + s, (acc s + re (hz s))%R); (f + hh + s, (acc (hh + s)%nat + im (hz s))%R)]);
    [assumption|exact HC2|lia| | |].
  { intros s a v Hs. unfold rng in Hs. specialize (S5 s Hs). apply (out_half 2); [lia|intros i Hi; assert (C : i = 0 \/ i = 1) by lia; destruct C; subst i; lia|lia|]. lst.
    - apply el with (k := s); [lia|lia|symmetry; apply hctr_0; lia|reflexivity].
    - apply el with (k := hh + s); [lia|lia|symmetry; apply hctr_1; lia|reflexivity]. }
  { intros s Hs. unfold rng in Hs. specialize (S5 s Hs). ltab (zq t r s ltac:(lia) ltac:(lia)). destruct (HV2 s ltac:(lia)) as [V1 V2]. unfold rdC, addR.
    lrd V1. lrd V2. rewrite Hcv. fold (hz s). lrd (Hget 1 m2 s 0 s ltac:(lia) ltac:(lia) ltac:(lia) ltac:(lia) HC2).
    lwr; [apply Hal2, Hal1, Haf; unfold rspan; lia|].
    lrd (Hget 1 m2 (hh + s) 1 s ltac:(lia) ltac:(lia) ltac:(lia) ltac:(lia) HC2).
    lwr; [apply Hal2, Hal1, Haf; unfold rspan; lia|]. lend. }
  intros m3 HC3 HF3 Hal3. pose proof (hW_keep m2 m3 HV2 HF3) as HV3.
  apply (stage f L hh acc hctr) with (out := fun s => [(f + s, (acc s + 2 * realProduct (zeta M (Z.of_nat (r * s))) (mkC (re (hw s)) (im (hw s))))%R)]);
    [assumption|exact HC3|lia| | |].
  { intros s a v Hs. unfold rng in Hs. specialize (S6 s ltac:(lia)). apply (out_half 1); [lia|intros i Hi; assert (i = 0) by lia; subst i; lia|lia|]. lst.
    apply el with (k := s); [lia|lia| |reflexivity]. rewrite hctr_0 by lia. unfold realProduct, hz. cbn. ring. }
  { intros s Hs. unfold rng in Hs. specialize (S6 s ltac:(lia)). ltab (zq t r s ltac:(lia) ltac:(lia)). destruct (HV3 s ltac:(lia)) as [V1 V2]. unfold rdC, addR.
    lrd V1. lrd V2. lrd (Hget Lmh m3 s 0 s ltac:(lia) ltac:(lia) ltac:(lia) ltac:(lia) HC3).
    lwr; [apply Hal3, Hal2, Hal1, Haf; unfold rspan; lia|]. lend. }
  intros m4 HC4 HF4 Hal4. apply (half_end stop m1); [assumption|assumption|assumption|assumption| |].
  - intros a Ha. rewrite HF4, HF3, HF2 by assumption. reflexivity.
  - intros a Ha. apply Hal4, Hal3, Hal2, Ha.
Qed.

Lemma rbackward2_half : p = 2 -> m < L -> L <= 2 * m -> (forall i, i < hh -> wC m0 F i (y i)) ->
  WP (rbackward2 t F f r (if ainplace t then None else Some W)) m0 (bpost r).
Proof.
  intros Hp HmL HL2 Hy. destruct (szs t Hwf F W HWF) as (Hm & HL & Hq & HM & He & HmN & _).
  destruct hgeo as (G1 & G2 & G3 & G4 & G5).
  unfold rbackward2. rewrite BEW. cbv zeta. destruct (Nat.eqb_spec r 0); [lia|]. destruct (Nat.ltb_spec (2 * r) q); [lia|].
  assert (Eh : e - 1 = hh) by (unfold re_, hh; lia). rewrite Eh. clear Eh.
  apply half_start; [assumption|]. intros m1 HV HC HF1 Hal1.
  set (l0 := [(f, (acc 0%nat + 2 * re (hw 0))%R); (f + m, (acc m + - (2 * re (hw 0)))%R); (f + hh, (acc hh + 2 * im (hw 0))%R)]).
  set (l1 := [(f, (acc 0%nat + 2 * re (hw 0))%R); (f + m, (acc m + - (2 * re (hw 0)))%R); (f + hh, (acc hh + 2 * im (hw 0))%R); (f + hh + m, (acc (m + hh)%nat + - (2 * im (hw 0)))%R)]).
  assert (Hperm3 : forall (A : Type) (x a b c : A), In x [a; c; b] <-> In x [a; b; c]) by (intros; cbn [In]; tauto).
  assert (Hperm4 : forall (A : Type) (x a b c d : A), In x [a; c; b; d] <-> In x [a; b; c; d]) by (intros; cbn [In]; tauto).
  assert (Hc3 : forall i, i < 3 -> i = 0 \/ i = 1 \/ i = 2) by lia.
  assert (Hc4 : forall i, i < 4 -> i = 0 \/ i = 1 \/ i = 2 \/ i = 3) by lia.
  apply WP_seq. rewrite rDo_For.
  apply (stage f L hh acc hctr) with (out := fun s => if m + hh <? L then l1 else l0);
    [assumption|exact HC|lia| | |].
  { intros s a v Hs. unfold rng in Hs. assert (s = 0) by lia. subst s. destruct (Nat.ltb_spec (m + hh) L).
    - unfold l1. rewrite Hperm4. apply (out_half 4); [lia|intros i Hi; apply Hc4 in Hi; destruct Hi as [-> |[-> |[-> | ->]]]; lia|lia|]. lst.
      + apply el with (k := 0); [lia|lia|symmetry; apply hctr_00|reflexivity].
      + apply el with (k := hh); [lia|lia|symmetry; apply hctr_10|reflexivity].
      + apply el with (k := m); [lia|lia|symmetry; apply hctr_20|reflexivity].
      + apply el with (k := m + hh); [lia|lia|symmetry; apply hctr_30|reflexivity].
    - unfold l0. rewrite Hperm3. apply (out_half 3); [lia|intros i Hi; apply Hc3 in Hi; destruct Hi as [-> |[-> | ->]]; lia|lia|]. lst.
      + apply el with (k := 0); [lia|lia|symmetry; apply hctr_00|reflexivity].
      + apply el with (k := hh); [lia|lia|symmetry; apply hctr_10|reflexivity].
      + apply el with (k := m); [lia|lia|symmetry; apply hctr_20|reflexivity]. }
  { intros s Hs. unfold rng in Hs. assert (s = 0) by lia. subst s. destruct (HV 0 ltac:(lia)) as [V1 V2]. unfold rdC, addR, l0, l1.
    destruct (Nat.ltb_spec (m + hh) L).
    - lrd V1. lrd V2. lrd (Hget 0 m1 0 0 0 ltac:(lia) ltac:(lia) ltac:(lia) ltac:(lia) HC).
      lwr; [apply Hal1, Haf; unfold rspan; lia|].
      lrd (Hget 0 m1 m 2 0 ltac:(lia) ltac:(lia) ltac:(lia) ltac:(lia) HC).
      lwr; [apply Hal1, Haf; unfold rspan; lia|].
      lrd (Hget 0 m1 hh 1 0 ltac:(lia) ltac:(lia) ltac:(lia) ltac:(lia) HC).
      lwr; [apply Hal1, Haf; unfold rspan; lia|].
      lrd (Hget 0 m1 (m + hh) 3 0 ltac:(lia) ltac:(lia) ltac:(lia) ltac:(lia) HC).
      lwr; [apply Hal1, Haf; unfold rspan; lia|]. lend.
    - lrd V1. lrd V2. lrd (Hget 0 m1 0 0 0 ltac:(lia) ltac:(lia) ltac:(lia) ltac:(lia) HC).
      lwr; [apply Hal1, Haf; unfold rspan; lia|].
      lrd (Hget 0 m1 m 2 0 ltac:(lia) ltac:(lia) ltac:(lia) ltac:(lia) HC).
      lwr; [apply Hal1, Haf; unfold rspan; lia|].
      lrd (Hget 0 m1 hh 1 0 ltac:(lia) ltac:(lia) ltac:(lia) ltac:(lia) HC).
      lwr; [apply Hal1, Haf; unfold rspan; lia|]. lend. }
  intros m2 HC2 HF2 Hal2. pose proof (hW_keep m1 m2 HV HF2) as HV2.
  set (stop1 := if m + hh <? L then L - (m + hh) else 1). set (stop2 := if m + hh <? L then hh else L - m).
  assert (Hst : 1 <= stop1 /\ stop1 <= stop2 /\ stop2 <= hh /\ (forall s, 0 < s < stop1 -> m + hh + s < L) /\ (forall s, stop1 <= s -> L <= m + hh + s) /\
     (forall s, s < stop2 -> s < hh -> m + s < L) /\ (forall s, stop2 <= s -> s < hh -> L <= m + s)).
  { unfold stop1, stop2. destruct (Nat.ltb_spec (m + hh) L); repeat split; intros; lia. }
  destruct Hst as (S1 & S2 & S3 & S4 & S5 & S6 & S7).
  assert (S8 : stop1 <= 1 \/ m + hh + stop1 <= L) by (unfold stop1; destruct (Nat.ltb_spec (m + hh) L); lia).
  assert (S9 : m + stop2 <= L) by (unfold stop2; destruct (Nat.ltb_spec (m + hh) L); lia).
  assert (Hcv : forall z s, Cmul (Cscal 2 (Cconj z)) (mkC (re (hw s)) (im (hw s))) = Cmul (Cscal 2 (Cconj z)) (hw s)) by (intros z s; destruct (hw s); reflexivity).
  apply WP_seq.
  apply (stage f L hh acc hctr) with (out := fun s => [(f + s, (acc s + re (hz s))%R); (f + hh + s, (acc (hh + s)%nat + im (hz s))%R);
     (f + m + s, (acc (m + s)%nat + - re (hz s))%R); (f + hh + m + s, (acc (m + hh + s)%nat + - im (hz s))%R)]);
    [assumption|exact HC2|lia| | |].
  { intros s a v Hs. unfold rng in Hs. specialize (S4 s Hs). apply (out_half 4); [lia|intros i Hi; apply Hc4 in Hi; destruct Hi as [-> |[-> |[-> | ->]]]; lia|lia|]. lst.
    - apply el with (k := s); [lia|lia|symmetry; apply hctr_0; lia|reflexivity].
    - apply el with (k := hh + s); [lia|lia|symmetry; apply hctr_1; lia|reflexivity].
    - apply el with (k := m + s); [lia|lia|symmetry; apply hctr_2; lia|reflexivity].
    - apply el with (k := m + hh + s); [lia|lia|symmetry; apply hctr_3; lia|reflexivity]. }
  { intros s Hs. unfold rng in Hs. specialize (S4 s Hs). ltab (zq t r s ltac:(lia) ltac:(lia)). destruct (HV2 s ltac:(lia)) as [V1 V2]. unfold rdC, addR.
    lrd V1. lrd V2. rewrite Hcv. fold (hz s). lrd (Hget 1 m2 s 0 s ltac:(lia) ltac:(lia) ltac:(lia) ltac:(lia) HC2).
    lwr; [apply Hal2, Hal1, Haf; unfold rspan; lia|].
    lrd (Hget 1 m2 (hh + s) 1 s ltac:(lia) ltac:(lia) ltac:(lia) ltac:(lia) HC2).
    lwr; [apply Hal2, Hal1, Haf; unfold rspan; lia|].
    lrd (Hget 1 m2 (m + s) 2 s ltac:(lia) ltac:(lia) ltac:(lia) ltac:(lia) HC2).
    lwr; [apply Hal2, Hal1, Haf; unfold rspan; lia|].
    lrd (Hget 1 m2 (m + hh + s) 3 s ltac:(lia) ltac:(lia) ltac:(lia) ltac:(lia) HC2).
    lwr; [apply Hal2, Hal1, Haf; unfold rspan; lia|]. lend. }
  intros m3 HC3 HF3 Hal3. pose proof (hW_keep m2 m3 HV2 HF3) as HV3.
  apply WP_seq.
  apply (stage f L hh acc hctr) with (out := fun s => [(f + s, (acc s + re (hz s))%R); (f + hh + s, (acc (hh + s)%nat + im (hz s))%R);
     (f + m + s, (acc (m + s)%nat + - re (hz s))%R)]);
    [assumption|exact HC3|lia| | |].
  { intros s a v Hs. unfold rng in Hs. specialize (S6 s ltac:(lia) ltac:(lia)). specialize (S5 s ltac:(lia)). apply (out_half 3); [lia|intros i Hi; apply Hc3 in Hi; destruct Hi as [-> |[-> | ->]]; lia|lia|]. lst.
    - apply el with (k := s); [lia|lia|symmetry; apply hctr_0; lia|reflexivity].
    - apply el with (k := hh + s); [lia|lia|symmetry; apply hctr_1; lia|reflexivity].
    - apply el with (k := m + s); [lia|lia|symmetry; apply hctr_2; lia|reflexivity]. }
  { intros s Hs. unfold rng in Hs. specialize (S6 s ltac:(lia) ltac:(lia)). ltab (zq t r s ltac:(lia) ltac:(lia)). destruct (HV3 s ltac:(lia)) as [V1 V2]. unfold rdC, addR.
    lrd V1. lrd V2. rewrite Hcv. fold (hz s). lrd (Hget stop1 m3 s 0 s ltac:(lia) ltac:(lia) ltac:(lia) ltac:(lia) HC3).
    lwr; [apply Hal3, Hal2, Hal1, Haf; unfold rspan; lia|].
    lrd (Hget stop1 m3 (hh + s) 1 s ltac:(lia) ltac:(lia) ltac:(lia) ltac:(lia) HC3).
    lwr; [apply Hal3, Hal2, Hal1, Haf; unfold rspan; lia|].
    lrd (Hget stop1 m3 (m + s) 2 s ltac:(lia) ltac:(lia) ltac:(lia) ltac:(lia) HC3).
    lwr; [apply Hal3, Hal2, Hal1, Haf; unfold rspan; lia|]. lend. }
  intros m4 HC4 HF4 Hal4. pose proof (hW_keep m3 m4 HV3 HF4) as HV4.
  apply (stage f L hh acc hctr) with (out := fun s => [(f + s, (acc s + re (hz s))%R); (f + hh + s, (acc (hh + s)%nat + im (hz s))%R)]);
    [assumption|exact HC4|lia| | |].
  { intros s a v Hs. unfold rng in Hs. specialize (S7 s ltac:(lia) ltac:(lia)). apply (out_half 2); [lia|intros i Hi; assert (C : i = 0 \/ i = 1) by lia; destruct C; subst i; lia|lia|]. lst.
    - apply el with (k := s); [lia|lia|symmetry; apply hctr_0; lia|reflexivity].
    - apply el with (k := hh + s); [lia|lia|symmetry; apply hctr_1; lia|reflexivity]. }
  { intros s Hs. unfold rng in Hs. ltab (zq t r s ltac:(lia) ltac:(lia)). destruct (HV4 s ltac:(lia)) as [V1 V2]. unfold rdC, addR.
    lrd V1. lrd V2. rewrite Hcv. fold (hz s). lrd (Hget stop2 m4 s 0 s ltac:(lia) ltac:(lia) ltac:(lia) ltac:(lia) HC4).
    lwr; [apply Hal4, Hal3, Hal2, Hal1, Haf; unfold rspan; lia|].
    lrd (Hget stop2 m4 (hh + s) 1 s ltac:(lia) ltac:(lia) ltac:(lia) ltac:(lia) HC4).
    lwr; [apply Hal4, Hal3, Hal2, Hal1, Haf; unfold rspan; lia|]. lend. }
  intros m5 HC5 HF5 Hal5. apply (half_end hh m1); [intros; apply Nat.mod_upper_bound; lia|assumption|assumption|assumption| |].
  - intros a Ha. rewrite HF5, HF4, HF3, HF2 by assumption. reflexivity.
  - intros a Ha. apply Hal5, Hal4, Hal3, Hal2, Ha.
Qed.
End Half.

(** every pass *)
Lemma rbackward_ok r : rpass t r -> (forall i, i < rnoutputs t r -> wC m0 F i (y i)) ->
  (r = 0 -> forall s, s = 0 \/ 2 * s = m -> im (y s) = 0%R) ->
  WP (rbackward t F f r (if ainplace t then None else Some W)) m0 (bpost r).
Proof.
  intros Hr Hy Him. unfold rbackward. destruct (Nat.eqb_spec q 1) as [Hq1|Hq1].
  - destruct Hr as [->|[(A & _)|(A & _)]]; try contradiction. unfold rbackwardExplicit. rewrite BEW. cbv zeta.
    apply back1_0; [apply (r_qL t Hwf Hq1)|exact Hy|apply Him; reflexivity].
  - destruct (r_p t Hwf) as [(Hp & HLm)|(Hp & HmL & HL2)].
    + rewrite Hp. cbn [Nat.eqb]. destruct Hr as [->|[(_ & H1 & H2 & H3)|(_ & H2)]].
      * unfold rbackward1. rewrite BEW. cbv zeta. cbn [Nat.eqb]. apply back1_0; [assumption|exact Hy|apply Him; reflexivity].
      * apply rbackward1_mid; try assumption. intros i Hi. apply Hy. rewrite (r_noutm t Hwf) by assumption. assumption.
      * apply rbackward1_half; try assumption. intros i Hi. apply Hy. rewrite (r_nouth t Hwf) by assumption. assumption.
    + rewrite Hp. cbn [Nat.eqb]. destruct Hr as [->|[(_ & H1 & H2 & H3)|(_ & H2)]].
      * unfold rbackward2. rewrite BEW. cbv zeta. cbn [Nat.eqb]. apply back2_0; [assumption|assumption|exact Hy|apply Him; reflexivity].
      * apply rbackward2_mid; try assumption. intros i Hi. apply Hy. rewrite (r_noutm t Hwf) by assumption. assumption.
      * apply rbackward2_half; try assumption. intros i Hi. apply Hy. rewrite (r_nouth t Hwf) by assumption. assumption.
Qed.
End B.
