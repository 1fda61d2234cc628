(** forward2 (S=1, p=2). *)
From Coq Require Import Reals ZArith Arith Lia List Bool.
From Verif Require Import CNum Sums Roots Mem VecModel VecProofs PadModel PadKernels Loops
  PadLemmas PadMath PadGeom Fwd1.

Section T.
Variable t : pad.
Hypothesis Hwf : wf t.
Hypothesis Hp2 : gp t = 2.
Notation L := (gL t).  Notation m := (gm t). Notation q := (gq t). Notation M := (gM t).
Notation D := (gD t).
Let RV (rh : Z) (x : nat -> C) (s : nat) := rowval m 2 L M rh x s.

Lemma L_bounds : m < L <= 2 * m.
Proof. pose proof (wf_Lmp t Hwf). pose proof (wf_mpL t Hwf). rewrite Hp2 in *. lia. Qed.

Lemma RV_a rh x s : s < L - m ->
  RV rh x s = Cadd (Cmul (zeta M (rh * Z.of_nat s)) (x s))
                   (Cmul (zeta M (rh * Z.of_nat (m + s))) (x (m + s))).
Proof.
  intros H. pose proof L_bounds. unfold RV. rewrite rowval_2 by lia.
  destruct (Nat.ltb_spec s (L - m)); [ring|lia].
Qed.
Lemma RV_b rh x s : L - m <= s -> s < m -> RV rh x s = Cmul (zeta M (rh * Z.of_nat s)) (x s).
Proof.
  intros H H'. pose proof L_bounds. unfold RV. rewrite rowval_2 by lia.
  destruct (Nat.ltb_spec s (L - m)); [lia|ring].
Qed.

Lemma zqm_get2 r s : 1 <= r < q -> s < m -> Zetaqm t (m * r + s) = Some (zeta M (Z.of_nat (r * s))).
Proof. intros. apply initZetaqm_get; assumption. Qed.
Lemma zqmS_get2 r s : 1 <= r < q -> m <= s < L ->
  ZetaqmS t ((L - m) * r + s) = Some (zeta M (Z.of_nat (r * s))).
Proof. intros. apply initZetaqmS_get; assumption. Qed.
Lemma zqmS_get2' r s : 1 <= r < q -> s < L - m ->
  ZetaqmS t ((L - m) * r + m + s) = Some (zeta M (Z.of_nat (r * (m + s)))).
Proof. intros. rewrite <- Nat.add_assoc. apply zqmS_get2; [assumption|lia]. Qed.

Lemma forward2_tail_spec f F0 W0 Wt r0 dr0 plan1 e0 E (rh : nat -> Z) x (m0 : mem) (K : mem -> Prop) :
  Wt = W0 + e0 * m ->
  E = e0 + (if D =? 1 then dr0 else 2 * dr0) ->
  (D = 1 -> dr0 <= 1) ->
  plan1 = mkplan m 1 E 1 m (ainplace t) ->
  ainplace t = (W0 =? F0) ->
  1 <= r0 -> (1 <= dr0 -> r0 + dr0 <= q) ->
  dj f L W0 (m * E) -> dj f L F0 (m * E) ->
  (W0 = F0 \/ dj W0 (m * E) F0 (m * E)) ->
  (forall s, s < L -> m0 (f + s) = Val (x s)) ->
  (forall i, i < m * E -> m0 (W0 + i) <> Unalloc) ->
  (forall i, i < m * E -> m0 (F0 + i) <> Unalloc) ->
  (forall e s, e < e0 -> s < m -> m0 (W0 + (m * e + s)) = Val (RV (rh e) x s)) ->
  (forall e, e0 <= e < E -> rh e = tailrho D r0 (e - e0)) ->
  (forall m',
     (forall e k, e < E -> k < m ->
        m' (F0 + (m * e + k)) = Val (outv M L x (Z.of_nat q * Z.of_nat k + rh e))) ->
     (forall a, (forall i, i < m * E -> F0 + i <> a) ->
        (forall i, i < m * E -> W0 + i <> a) -> m' a = m0 a) ->
     (forall a, m0 a <> Unalloc -> m' a <> Unalloc) -> K m') ->
  WP (forward2_tail t f F0 W0 Wt r0 dr0 plan1) m0 K.
Proof.
  intros HWt HE HD1 Hplan Hinpl Hr0 Hrq Hdw Hdf Hwd Hx Hwa Hfa Hrow Hrh HK.
  pose proof L_bounds as HLm. pose proof (wf_m t Hwf) as Hm1.
  pose proof (q_pos t Hwf) as Hq1. pose proof (wf_D t Hwf) as HD.
  assert (Hmono : forall e, e < E -> m * e + m <= m * E) by (intros; nia).
  assert (Hmono0 : m * e0 <= m * E) by nia.
  unfold forward2_tail. cbv zeta. apply WP_seq.
  assert (Hphase2 : forall m1 : mem,
     (forall e s, e < E -> s < m -> m1 (W0 + (m * e + s)) = Val (RV (rh e) x s)) ->
     (forall a, (forall i, i < m * E -> W0 + i <> a) -> m1 a = m0 a) ->
     (forall a, m0 a <> Unalloc -> m1 a <> Unalloc) ->
     WP (fft plan1 W0 F0) m1 K).
  { intros m1 Hr1 Hf1 Ha1. subst plan1. apply WP_fft_rows with (x := fun e => RV (rh e) x).
    - assumption.
    - assumption.
    - intros; apply Hr1; assumption.
    - intros; apply Ha1, Hfa; assumption.
    - destruct Hwd as [->|Hwd]; [auto|right; unfold dj in Hwd; intros; lia].
    - intros m2 HV HF Hal. apply HK.
      + intros e k He Hk. rewrite HV by assumption. f_equal. unfold RV.
        change (fun s => rowval m 2 L M (rh e) x s) with (rowval m 2 L M (rh e) x).
        apply row_dft; auto; try lia.
      + intros a H1 H2. rewrite HF by assumption. apply Hf1. assumption.
      + intros a Ha. apply Hal, Ha1, Ha. }
  destruct (Nat.eqb_spec D 1) as [ED|ED].
  - destruct (Nat.ltb_spec 0 dr0) as [Hd|Hd].
    + assert (dr0 = 1) by lia. subst dr0. assert (HE1 : E = e0 + 1) by lia.
      assert (Hme : m * E = e0 * m + m) by (rewrite HE1; lia).
      assert (Hrhe : rh e0 = Z.of_nat r0).
      { rewrite Hrh by lia. unfold tailrho. destruct (Nat.eqb_spec D 1); [reflexivity|lia]. }
      apply WP_seq.
      apply WP_Do with (W := eq Wt) (Q := fun mm => mm Wt = Val (RV (Z.of_nat r0) x 0)).
      { apply local_one. }
      { cbn [wp]. unfold dj in *. split; [left; lia|]. exists (x 0). split.
        { rewrite <- (Nat.add_0_r f). apply Hx. lia. }
        rewrite (tget_some _ _ _ _ (zqmS_get2 r0 m ltac:(lia) ltac:(lia))). cbn [wp].
        split; [left; lia|]. exists (x m). split; [apply Hx; lia|].
        wr; [apply (alloc_at _ _ _ Hwa); lia|apply upd_get; [reflexivity|]].
        rewrite RV_a by lia. rewrite Z.mul_0_r, zeta_0, Nat.add_0_r.
        replace (Z.of_nat (r0 * m)) with (Z.of_nat r0 * Z.of_nat m)%Z by lia. ring. }
      intros m1 H1v H1f H1a.
      assert (Hx1 : forall s, s < L -> m1 (f + s) = Val (x s)).
      { intros s Hs. unfold dj in *. rewrite H1f by lia. apply Hx; assumption. }
      apply WP_seq.
      apply WP_map1 with (dst := fun s => Wt + s) (g := RV (Z.of_nat r0) x); unfold rng.
      { intros; lia. }
      { intros s Hs. rewrite (tget_some _ _ _ _ (zqm_get2 r0 s ltac:(lia) ltac:(lia))).
        rewrite (tget_some _ _ _ _ (zqmS_get2' r0 s ltac:(lia) ltac:(lia))). cbn [wp].
        unfold dj in *. rd Hx1.
        split; [left; intros; lia|]. exists (x (m + s)).
        split; [rewrite <- Nat.add_assoc; apply Hx1; lia|].
        wr; [apply H1a, (alloc_at _ _ _ Hwa); lia|apply upd_get; [reflexivity|]].
        rewrite RV_a by lia. rewrite !ZMULT_eq, vadd_eq. f_equal; f_equal; f_equal; lia. }
      intros m2 H2v H2f H2a.
      assert (Hx2 : forall s, s < L -> m2 (f + s) = Val (x s)).
      { intros s Hs. unfold dj in *. rewrite H2f by (intros; lia). apply Hx1; assumption. }
      apply WP_map1 with (dst := fun s => Wt + s) (g := RV (Z.of_nat r0) x); unfold rng.
      { intros; lia. }
      { intros s Hs. rewrite (tget_some _ _ _ _ (zqm_get2 r0 s ltac:(lia) ltac:(lia))). cbn [wp].
        unfold dj in *. rd Hx2.
        wr; [apply H2a, H1a, (alloc_at _ _ _ Hwa); lia|apply upd_get; [reflexivity|]].
        rewrite RV_b by lia. f_equal; f_equal; lia. }
      intros m3 H3v H3f H3a. apply Hphase2.
      * intros e s He Hs. destruct (Nat.eq_dec e e0) as [->|Hne].
        -- rewrite Hrhe. replace (W0 + (m * e0 + s)) with (Wt + s) by lia.
           destruct (Nat.lt_ge_cases s (L - m)); [|apply H3v; lia].
           rewrite H3f by (intros; lia).
           destruct (Nat.eq_dec s 0) as [->|]; [|apply H2v; lia].
           rewrite H2f by (intros; lia). rewrite Nat.add_0_r. apply H1v.
        -- assert (m * e + m <= m * e0) by nia.
           rewrite H3f, H2f, H1f by (intros; lia). apply Hrow; lia.
      * intros a Ha. assert (a < W0 \/ W0 + m * E <= a).
        { destruct (Nat.lt_ge_cases a W0); [auto|]. destruct (Nat.lt_ge_cases a (W0 + m * E)); [|auto].
          exfalso. apply (Ha (a - W0)); lia. }
        rewrite H3f, H2f, H1f by (intros; lia). reflexivity.
      * auto.
    + assert (E = e0) by lia. subst e0. apply WP_skip. apply Hphase2; auto.
  - assert (Hd2 : forall d, d < dr0 -> m * (e0 + 2 * d + 1) + m <= m * E).
    { intros d Hd. subst E. replace (m * (e0 + 2 * d + 1) + m) with (m * (e0 + 2 * (d + 1))) by lia.
      apply Nat.mul_le_mono_l. lia. }
    set (I := fun d (m1 : mem) =>
       (forall d' s, d' < d -> s < m ->
          m1 (W0 + (m * (e0 + 2 * d') + s)) = Val (RV (Z.of_nat (r0 + d')) x s) /\
          m1 (W0 + (m * (e0 + 2 * d' + 1) + s)) = Val (RV (- Z.of_nat (r0 + d')) x s)) /\
       (forall a, (a < Wt \/ Wt + 2 * (m * d) <= a) -> m1 a = m0 a) /\
       (forall a, m0 a <> Unalloc -> m1 a <> Unalloc)).
    eapply WP_mono; [|apply (WP_cfor C dr0 _ I)].
    2:{ unfold I. split; [intros; lia|]. split; [reflexivity|auto]. }
    2:{ intros d m1 Hd (I1 & I2 & I3).
        pose proof (Hd2 d Hd) as Hdd.
        set (F := Wt + 2 * m * d). set (G := F + m). cbv zeta.
        assert (Ea : forall s, W0 + (m * (e0 + 2 * d) + s) = F + s) by (intros; unfold F; lia).
        assert (Eb : forall s, W0 + (m * (e0 + 2 * d + 1) + s) = G + s) by (intros; unfold G, F; lia).
        assert (HFb : F = Wt + 2 * (m * d)) by (unfold F; lia).
        assert (HGb : G = F + m) by reflexivity.
        assert (HEb : F + 2 * m <= W0 + m * E) by lia. assert (HEc : W0 <= Wt) by lia.
        clearbody F G.
        assert (Hx1 : forall s, s < L -> m1 (f + s) = Val (x s)).
        { intros s Hs. rewrite I2; [apply Hx; assumption|]. unfold dj in *. lia. }
        apply WP_seq.
        apply WP_Do with (W := fun a => F = a \/ G = a)
          (Q := fun mm => mm F = Val (RV (Z.of_nat (r0 + d)) x 0) /\
                          mm G = Val (RV (- Z.of_nat (r0 + d)) x 0)).
        { intros ma mb Hm [A B]. rewrite <- !Hm by auto. auto. }
        { cbn [wp]. unfold dj in *. split; [left; lia|]. exists (x 0). split.
          { rewrite <- (Nat.add_0_r f). apply Hx1. lia. }
          split; [left; lia|]. exists (x m). split; [apply Hx1; lia|].
          rewrite (tget_some _ _ _ _ (zqmS_get2 (r0 + d) m ltac:(lia) ltac:(lia))). cbn [wp].
          wr; [apply I3, (alloc_at _ _ _ Hwa); lia|].
          wr; [apply upd_alloc, I3, (alloc_at _ _ _ Hwa); lia|].
          rewrite pair_minus.
          split; [rewrite upd_neq by lia|]; (apply upd_get; [reflexivity|]);
            rewrite RV_a by lia; rewrite Z.mul_0_r, zeta_0, Nat.add_0_r.
          - rewrite !vadd_eq, <- Cadd_assoc, <- !vadd_eq, pair_plus, vadd_eq.
            replace (Z.of_nat ((r0 + d) * m)) with (Z.of_nat (r0 + d) * Z.of_nat m)%Z by lia. ring.
          - rewrite vadd_eq, <- zeta_neg.
            replace (- Z.of_nat ((r0 + d) * m))%Z with (- Z.of_nat (r0 + d) * Z.of_nat m)%Z by lia. ring. }
        intros m2 [H2a H2b] H2f H2al.
        assert (Hx2 : forall s, s < L -> m2 (f + s) = Val (x s)).
        { intros s Hs. unfold dj in *. rewrite H2f by lia. apply Hx1; assumption. }
        apply WP_seq.
        apply WP_map1x2 with (d1 := fun s => F + s) (d2 := fun s => G + s)
          (g1 := RV (Z.of_nat (r0 + d)) x) (g2 := RV (- Z.of_nat (r0 + d)) x); unfold rng.
        { intros; lia. }
        { intros s Hs. cbn [wp]. unfold dj in *. rd Hx2.
          split; [left; intros; lia|]. exists (x (m + s)).
          split; [rewrite <- Nat.add_assoc; apply Hx2; lia|].
          rewrite (tget_some _ _ _ _ (zqm_get2 (r0 + d) s ltac:(lia) ltac:(lia))).
          rewrite (tget_some _ _ _ _ (zqmS_get2' (r0 + d) s ltac:(lia) ltac:(lia))). cbn [wp].
          rewrite pair2_plus, pair2_minus.
          wr; [apply H2al, I3, (alloc_at _ _ _ Hwa); lia|].
          wr; [apply upd_alloc, H2al, I3, (alloc_at _ _ _ Hwa); lia|].
          split; [rewrite upd_neq by lia|]; (apply upd_get; [reflexivity|]);
            rewrite RV_a by lia; rewrite <- ?zeta_neg; f_equal; f_equal; f_equal; lia. }
        intros m3 H3a H3b H3f H3al.
        assert (Hx3 : forall s, s < L -> m3 (f + s) = Val (x s)).
        { intros s Hs. unfold dj in *. rewrite H3f by (intros; lia). apply Hx2; assumption. }
        apply WP_map1x2 with (d1 := fun s => F + s) (d2 := fun s => G + s)
          (g1 := RV (Z.of_nat (r0 + d)) x) (g2 := RV (- Z.of_nat (r0 + d)) x); unfold rng.
        { intros; lia. }
        { intros s Hs. cbn [wp]. unfold dj in *. rd Hx3.
          rewrite (tget_some _ _ _ _ (zqm_get2 (r0 + d) s ltac:(lia) ltac:(lia))). cbn [wp].
          rewrite pair_plus, pair_minus.
          wr; [apply H3al, H2al, I3, (alloc_at _ _ _ Hwa); lia|].
          wr; [apply upd_alloc, H3al, H2al, I3, (alloc_at _ _ _ Hwa); lia|].
          split; [rewrite upd_neq by lia|]; (apply upd_get; [reflexivity|]);
            rewrite RV_b by lia; rewrite <- ?zeta_neg; f_equal; f_equal; lia. }
        intros m4 H4a H4b H4f H4al. unfold I. split; [|split].
        - intros d' s Hd' Hs. destruct (Nat.eq_dec d' d) as [->|Hne].
          + rewrite Ea, Eb. destruct (Nat.lt_ge_cases s (L - m)).
            * rewrite !H4f by (intros; lia). destruct (Nat.eq_dec s 0) as [->|].
              -- rewrite !H3f by (intros; lia). rewrite !Nat.add_0_r. auto.
              -- rewrite H3a, H3b by lia. auto.
            * rewrite H4a, H4b by lia. auto.
          + assert (m * (e0 + 2 * d' + 1) + m <= m * (e0 + 2 * d)).
            { replace (m * (e0 + 2 * d' + 1) + m) with (m * (e0 + 2 * (d' + 1))) by lia.
              apply Nat.mul_le_mono_l. lia. }
            rewrite !H4f, !H3f by (intros; lia). rewrite !H2f by lia. apply I1; lia.
        - intros a Ha. replace (m * S d) with (m * d + m) in Ha by lia.
          rewrite H4f, H3f, H2f, I2 by (intros; lia). reflexivity.
        - auto. }
    intros m1 (I1 & I2 & I3). apply Hphase2.
    + intros e s He Hs. destruct (Nat.lt_ge_cases e e0) as [He0|He0].
      * rewrite I2; [apply Hrow; assumption|]. assert (m * e + m <= m * e0) by nia. lia.
      * rewrite Hrh by lia.
        assert (Hsplit : exists d', d' < dr0 /\ (e = e0 + 2 * d' \/ e = e0 + 2 * d' + 1)).
        { exists ((e - e0) / 2).
          pose proof (Nat.div_mod (e - e0) 2). pose proof (Nat.mod_upper_bound (e - e0) 2). lia. }
        destruct Hsplit as (d' & Hd' & [->| ->]); destruct (I1 d' s Hd' Hs) as [A B].
        -- replace (e0 + 2 * d' - e0) with (2 * d') by lia. rewrite tailrho_even by assumption. exact A.
        -- replace (e0 + 2 * d' + 1 - e0) with (2 * d' + 1) by lia. rewrite tailrho_odd by assumption. exact B.
    + intros a Ha. apply I2. assert (a < W0 \/ W0 + m * E <= a).
      { destruct (Nat.lt_ge_cases a W0); [auto|]. destruct (Nat.lt_ge_cases a (W0 + m * E)); [|auto].
        exfalso. apply (Ha (a - W0)); lia. }
      assert (m * E = m * e0 + 2 * (m * dr0)) by (rewrite HE; lia). lia.
    + auto.
Qed.

Hypothesis HS : gS t = 1.
Hypothesis Hq : q <> 1.

Lemma plan_rows2 r : (if r =? 0 then (if gD0 t =? D then fftm t 1 else fftm0 t 1) else fftm t 1)
   = mkplan m 1 (nrows t r) 1 m (ainplace t).
Proof.
  rewrite (nrows_small t Hwf) by lia. unfold fftm, fftm0.
  destruct (Nat.eqb_spec q 1); [contradiction|]. rewrite HS. cbn [Nat.eqb].
  rewrite (S1_C1 t Hwf HS), (P_small t Hwf) by lia. rewrite !Nat.mul_1_r, Nat.mul_1_l.
  destruct (r =? 0); [|reflexivity]. destruct (Nat.eqb_spec (gD0 t) D) as [->|]; reflexivity.
Qed.

Lemma zeta_half r : 2 * r = q -> zeta M (- (Z.of_nat r * Z.of_nat m)) = Copp C1.
Proof.
  intros H. unfold gM. rewrite <- H.
  replace (- (Z.of_nat r * Z.of_nat m))%Z with (Z.of_nat (m * r) * -1)%Z by lia.
  pose proof (q_pos t Hwf). pose proof (wf_m t Hwf).
  replace (m * (2 * r)) with ((m * r) * 2) by lia. rewrite zeta_cancel by nia.
  rewrite <- zeta_2_1. apply zeta_mod_eq; [lia|reflexivity].
Qed.

Lemma forward2_spec f F0 W r x (m0 : mem) (K : mem -> Prop) :
  let W0 := getW F0 W in
  let E := nrows t r in
  passr t r ->
  ainplace t = (W0 =? F0) ->
  dj f L W0 (m * E) -> dj f L F0 (m * E) ->
  (W0 = F0 \/ dj W0 (m * E) F0 (m * E)) ->
  (forall s, s < L -> m0 (f + s) = Val (x s)) ->
  (forall i, i < m * E -> m0 (W0 + i) <> Unalloc) ->
  (forall i, i < m * E -> m0 (F0 + i) <> Unalloc) ->
  (forall m',
     (forall e k, e < E -> k < m ->
        m' (F0 + (m * e + k)) = Val (outv M L x (Z.of_nat q * Z.of_nat k + rho t r e))) ->
     (forall a, (forall i, i < m * E -> F0 + i <> a) ->
        (forall i, i < m * E -> W0 + i <> a) -> m' a = m0 a) ->
     (forall a, m0 a <> Unalloc -> m' a <> Unalloc) -> K m') ->
  WP (forward2 t f F0 r W) m0 K.
Proof.
  intros W0 E Hpass Hinpl Hdw Hdf Hwd Hx Hwa Hfa HK.
  pose proof L_bounds as HLm. pose proof (wf_m t Hwf) as Hm1.
  pose proof (q_pos t Hwf) as Hq1. pose proof (wf_D t Hwf) as HD.
  pose proof (D0_bounds t Hwf) as HD0. pose proof (q_small t Hwf ltac:(lia)) as Hqn.
  pose proof (R_le_n t Hwf) as HRn. pose proof (D0_le_n t Hwf) as HD0n.
  unfold forward2. fold W0. pose proof (plan_rows2 r) as Hplan.
  pose proof (nrows_small t Hwf ltac:(lia) r) as HEr.
  fold E in Hplan, HEr. pose proof (q_parity t Hwf Hq ltac:(lia)) as Hq2.
  pose proof (Nat.mod_upper_bound (gn t) 2 ltac:(lia)) as Hnm.
  destruct (Nat.eqb_spec r 0) as [->|Hr].
  - rewrite Hplan. assert (HmE : m <= m * E) by nia.
    destruct ((D =? 1) || (2 * (q / 2) <? q)) eqn:Eodd.
    + assert (Hodd : D = 1 \/ gn t mod 2 = 1).
      { apply orb_true_iff in Eodd. rewrite Nat.eqb_eq, Nat.ltb_lt in Eodd. lia. }
      cbv zeta. apply WP_seq.
      apply WP_map1 with (dst := fun s => W0 + s) (g := RV 0 x); unfold rng.
      { intros; lia. }
      { intros s Hs. cbn [wp]. unfold dj in *. rd Hx.
        split; [left; intros; lia|]. exists (x (m + s)).
        split; [rewrite <- Nat.add_assoc; apply Hx; lia|].
        wr; [apply Hwa; lia|apply upd_get; [reflexivity|]].
        rewrite RV_a by lia. rewrite !Z.mul_0_l, zeta_0. ring. }
      intros m1 H1v H1f H1a. apply WP_seq.
      assert (Hx1 : forall s, s < L -> m1 (f + s) = Val (x s)).
      { intros s Hs. unfold dj in *. rewrite H1f by (intros; lia). apply Hx; assumption. }
      apply WP_map1 with (dst := fun s => W0 + s) (g := RV 0 x); unfold rng.
      { intros; lia. }
      { intros s Hs. cbn [wp]. unfold dj in *. rd Hx1.
        wr; [apply H1a, Hwa; lia|apply upd_get; [reflexivity|]].
        rewrite RV_b by lia. rewrite Z.mul_0_l, zeta_0. ring. }
      intros m2 H2v H2f H2a. pose proof (D0_odd t Hwf Hq Hodd) as HD0o.
      apply forward2_tail_spec with (e0 := 1) (E := E) (rh := rho t 0) (x := x); auto; try lia.
      * intros ED. rewrite (D0_D1 t ED). cbn. lia.
      * intros _; assert ((gD0 t - 1) / 2 <= gD0 t - 1) by (apply Nat.div_le_upper_bound; lia); lia.
      * intros s Hs. rewrite H2f by (unfold dj in *; intros; lia). apply Hx1; assumption.
      * intros e s He Hs. assert (e = 0) by lia. subst e. rewrite Nat.mul_0_r. cbn [Nat.add].
        rewrite rho_00 by lia. destruct (Nat.lt_ge_cases s (L - m)); [|apply H2v; lia].
        rewrite H2f by (intros; lia). apply H1v; lia.
      * intros e He. destruct (Nat.eq_dec D 1) as [ED|ED].
        -- rewrite HEr, (D0_D1 t ED) in He. lia.
        -- apply rho_tail0; [lia|assumption| |lia]. destruct Hodd as [|Hn1]; [contradiction|].
           rewrite Hn1; reflexivity.
      * intros m' HV HF Hal. apply HK; [exact HV| |auto].
        intros a H1 H2. rewrite HF, H2f, H1f; auto; intros; apply H2; lia.
    + (* D > 1, q even *)
      apply orb_false_iff in Eodd. rewrite Nat.eqb_neq, Nat.ltb_ge in Eodd. destruct Eodd as [ED Heven].
      assert (Hn0 : gn t mod 2 = 0) by lia.
      pose proof (D0_even t Hwf Hq ED Hn0) as HD0e.
      assert (Hq2r : 1 <= q / 2 < q) by lia. assert (Hqq : 2 * (q / 2) = q) by lia.
      assert (HmE2 : 2 * m <= m * E) by nia.
      pose proof (zeta_half (q / 2) Hqq) as Hhalf.
      assert (HRVh : forall s, s < L - m -> RV (- Z.of_nat (q / 2)) x s =
          Cmul (Cconj (zeta M (Z.of_nat (q / 2 * s)))) (Csub (x s) (x (m + s)))).
      { intros s Hs. rewrite RV_a by assumption. rewrite <- zeta_neg.
        replace (- Z.of_nat (q / 2) * Z.of_nat (m + s))%Z with
          (- (Z.of_nat (q / 2) * Z.of_nat m) + - Z.of_nat (q / 2 * s))%Z by lia.
        rewrite zeta_add, Hhalf.
        replace (- Z.of_nat (q / 2) * Z.of_nat s)%Z with (- Z.of_nat (q / 2 * s))%Z by lia. ring. }
      assert (HRVh' : forall s, L - m <= s < m -> RV (- Z.of_nat (q / 2)) x s =
          Cmul (Cconj (zeta M (Z.of_nat (q / 2 * s)))) (x s)).
      { intros s Hs. rewrite RV_b by lia. rewrite <- zeta_neg. f_equal. f_equal. lia. }
      assert (HRV0 : forall s, s < L - m -> RV 0 x s = Cadd (x s) (x (m + s))).
      { intros s Hs. rewrite RV_a by lia. rewrite !Z.mul_0_l, zeta_0. ring. }
      cbv zeta. apply WP_seq.
      apply WP_Do with (W := fun a => W0 = a \/ W0 + m = a)
        (Q := fun mm => mm W0 = Val (RV 0 x 0) /\ mm (W0 + m) = Val (RV (- Z.of_nat (q / 2)) x 0)).
      { intros ma mb Hm [A B]. rewrite <- !Hm by auto. auto. }
      { cbn [wp]. unfold dj in *. split; [left; lia|]. exists (x 0). split.
        { rewrite <- (Nat.add_0_r f). apply Hx. lia. }
        split; [left; lia|]. exists (x m). split; [apply Hx; lia|].
        wr; [apply (alloc_at _ _ _ Hwa); lia|].
        wr; [apply upd_alloc, (alloc_at _ _ _ Hwa); lia|].
        split; [rewrite upd_neq by lia|]; (apply upd_get; [reflexivity|]).
        - rewrite HRV0 by lia. rewrite Nat.add_0_r. reflexivity.
        - rewrite HRVh by lia. rewrite Nat.mul_0_r, Nat.add_0_r. cbn [Z.of_nat].
          rewrite zeta_0. apply C_ext; cbn; ring. }
      intros m1 [H1a H1b] H1f H1al.
      assert (Hx1 : forall s, s < L -> m1 (f + s) = Val (x s)).
      { intros s Hs. unfold dj in *. rewrite H1f by lia. apply Hx; assumption. }
      apply WP_seq.
      apply WP_map1x2 with (d1 := fun s => W0 + s) (d2 := fun s => W0 + m + s) (g1 := RV 0 x)
        (g2 := RV (- Z.of_nat (q / 2)) x); unfold rng.
      { intros; lia. }
      { intros s Hs. cbn [wp]. unfold dj in *. rd Hx1.
        split; [left; intros; lia|]. exists (x (m + s)).
        split; [rewrite <- Nat.add_assoc; apply Hx1; lia|].
        wr; [apply H1al, (alloc_at _ _ _ Hwa); lia|].
        rewrite (tget_some _ _ _ _ (zqm_get2 (q / 2) s ltac:(lia) ltac:(lia))). cbn [wp].
        wr; [apply upd_alloc, H1al, (alloc_at _ _ _ Hwa); lia|].
        split; [rewrite upd_neq by lia|]; (apply upd_get; [reflexivity|]).
        - rewrite HRV0 by lia. reflexivity.
        - rewrite HRVh by lia. reflexivity. }
      intros m2 H2a H2b H2f H2al.
      assert (Hx2 : forall s, s < L -> m2 (f + s) = Val (x s)).
      { intros s Hs. unfold dj in *. rewrite H2f by (intros; lia). apply Hx1; assumption. }
      apply WP_seq.
      apply WP_map1x2 with (d1 := fun s => W0 + s) (d2 := fun s => W0 + m + s) (g1 := RV 0 x)
        (g2 := RV (- Z.of_nat (q / 2)) x); unfold rng.
      { intros; lia. }
      { intros s Hs. cbn [wp]. unfold dj in *. rd Hx2.
        wr; [apply H2al, H1al, (alloc_at _ _ _ Hwa); lia|].
        rewrite (tget_some _ _ _ _ (zqm_get2 (q / 2) s ltac:(lia) ltac:(lia))). cbn [wp].
        wr; [apply upd_alloc, H2al, H1al, (alloc_at _ _ _ Hwa); lia|].
        split; [rewrite upd_neq by lia|]; (apply upd_get; [reflexivity|]).
        - rewrite RV_b by lia. rewrite Z.mul_0_l, zeta_0. ring.
        - rewrite HRVh' by lia. reflexivity. }
      intros m3 H3a H3b H3f H3al.
      apply forward2_tail_spec with (e0 := 2) (E := E) (rh := rho t 0) (x := x); auto; try lia.
      * intros _; assert ((gD0 t - 2) / 2 <= gD0 t - 2) by (apply Nat.div_le_upper_bound; lia); lia.
      * intros s Hs. rewrite H3f by (unfold dj in *; intros; lia). apply Hx2; assumption.
      * intros e s He Hs. destruct (Nat.eq_dec e 0) as [->|].
        -- rewrite Nat.mul_0_r. cbn [Nat.add]. rewrite rho_00 by lia.
           destruct (Nat.lt_ge_cases s (L - m)); [|apply H3a; lia]. rewrite H3f by (intros; lia).
           destruct (Nat.eq_dec s 0) as [->|]; [|apply H2a; lia].
           rewrite H2f by (intros; lia). rewrite Nat.add_0_r. assumption.
        -- assert (e = 1) by lia. subst e. rewrite Nat.mul_1_r.
           rewrite rho_01, Hp2 by (assumption || lia). cbn [Nat.eqb]. rewrite Nat.add_assoc.
           destruct (Nat.lt_ge_cases s (L - m)); [|apply H3b; lia]. rewrite H3f by (intros; lia).
           destruct (Nat.eq_dec s 0) as [->|]; [|apply H2b; lia].
           rewrite H2f by (intros; lia). rewrite Nat.add_0_r. assumption.
      * intros e He. apply rho_tail0; [lia|assumption|rewrite Hn0; reflexivity|lia].
      * intros m' HV HF Hal. apply HK; [exact HV| |auto].
        intros a H1 H2. rewrite HF by assumption.
        assert (Ha : a < W0 \/ W0 + m * E <= a).
        { destruct (Nat.lt_ge_cases a W0); [auto|]. destruct (Nat.lt_ge_cases a (W0 + m * E)); [|auto].
          exfalso. apply (H2 (a - W0)); lia. }
        rewrite H3f, H2f, H1f by (intros; lia). reflexivity.
  - (* r > 0 *)
    rewrite Hplan.
    pose proof Hpass as Hpass0. destruct Hpass as [|(Hinc & Hr1 & Hpass)]; [contradiction|].
    apply forward2_tail_spec with (e0 := 0) (E := E) (rh := rho t r) (x := x); auto; try lia.
    + destruct (Nat.eqb_spec D 1) as [ED|ED].
      * rewrite HEr, ED, dr_D1 by assumption. reflexivity.
      * rewrite HEr, (dr_pair t Hq) by lia. cbn [Nat.add].
        apply (D_even t r Hwf Hq); try lia. assumption.
    + intros ED. rewrite dr_D1 by assumption. lia.
    + intros e He. rewrite Nat.sub_0_r. destruct (Nat.eq_dec D 1) as [ED|ED].
      * rewrite rho_D1 by (assumption || lia). unfold tailrho. rewrite ED. reflexivity.
      * apply rho_tail; [lia|assumption|lia].
Qed.
End T.
