(** forward1 and forward1All (S=1, p=1). *)
From Coq Require Import Reals ZArith Arith Lia List Bool.
From Verif Require Import CNum Sums Roots Mem VecModel VecProofs PadModel PadKernels Loops
  PadLemmas PadMath PadGeom.

(** interval disjointness *)
Definition dj (a n b k : nat) : Prop := a + n <= b \/ b + k <= a.

Ltac rd H := split; [first [left; intros; lia|right; lia]|eexists; split; [apply H; lia|]].
Ltac wr := split; [first [reflexivity|lia|(left; lia)|(right; lia)]|split].

Lemma upd_get (m : mem) a b v w : a = b -> v = w -> upd m a (Val v) b = Val w.
Proof. intros -> ->. apply upd_eq. Qed.
Lemma upd_alloc (m : mem) a b v : m b <> Unalloc -> upd m a (Val v) b <> Unalloc.
Proof. unfold upd. destruct (Nat.eqb a b); [discriminate|auto]. Qed.

Lemma alloc_at (mm : mem) W N : (forall i, i < N -> mm (W + i) <> Unalloc) ->
  forall a, W <= a < W + N -> mm a <> Unalloc.
Proof. intros H a Ha. replace a with (W + (a - W)) by lia. apply H. lia. Qed.

Section T.
Variable t : pad.
Hypothesis Hwf : wf t.
Hypothesis Hp1 : gp t = 1.
Notation L := (gL t).  Notation m := (gm t). Notation q := (gq t). Notation M := (gM t).
Notation D := (gD t).
Let RV (rh : Z) (x : nat -> C) (s : nat) := rowval m 1 L M rh x s.

Lemma L_le_m : L <= m.
Proof. pose proof (wf_Lmp t Hwf). rewrite Hp1 in *. lia. Qed.

Lemma RV_0 rh x : RV rh x 0 = x 0.
Proof.
  unfold RV. rewrite rowval_1. pose proof (wf_L t Hwf). destruct (Nat.ltb_spec 0 L); [|lia].
  rewrite Z.mul_0_r, zeta_0. ring.
Qed.
Lemma RV_in rh x s : s < L -> RV rh x s = Cmul (zeta M (rh * Z.of_nat s)) (x s).
Proof. intros H. unfold RV. rewrite rowval_1. destruct (Nat.ltb_spec s L); [ring|lia]. Qed.
Lemma RV_out rh x s : L <= s -> RV rh x s = C0.
Proof. intros H. unfold RV. rewrite rowval_1. destruct (Nat.ltb_spec s L); [lia|reflexivity]. Qed.
Lemma RV_res0 x s : s < L -> RV 0 x s = x s.
Proof. intros H. rewrite RV_in by assumption. rewrite Z.mul_0_l, zeta_0. ring. Qed.

Lemma zqm_get r s : 1 <= r < q -> s < m -> Zetaqm t (m * r + s) = Some (zeta M (Z.of_nat (r * s))).
Proof. intros. apply initZetaqm_get; assumption. Qed.

(** one pair of conjugate rows *)
Lemma forward1_tail_spec f F0 W0 r0 dr0 plan1 e0 E (rh : nat -> Z) x (m0 : mem) (K : mem -> Prop) :
  E = e0 + (if D =? 1 then dr0 else 2 * dr0) ->
  (D = 1 -> dr0 <= 1) ->
  plan1 = mkplan m 1 E 1 m (ainplace t) ->
  ainplace t = (W0 =? F0) ->
  1 <= r0 -> (1 <= dr0 -> r0 + dr0 <= q) ->
  dj f L W0 (m * E) -> dj f L F0 (m * E) ->
  (W0 = F0 \/ dj W0 (m * E) F0 (m * E)) ->
  (forall s, s < L -> m0 (f + s) = Val (x s)) ->
  (forall i, i < m * E -> m0 (W0 + i) <> Unalloc) ->
  (forall i, i < m * E -> m0 (F0 + i) <> Unalloc) ->
  (forall e s, e < e0 -> s < m -> m0 (W0 + (m * e + s)) = Val (RV (rh e) x s)) ->
  (forall e, e0 <= e < E -> rh e = tailrho D r0 (e - e0)) ->
  (ainplace t = false -> forall e s, e0 <= e < E -> L <= s < m -> m0 (W0 + (m * e + s)) = Val C0) ->
  (forall m',
     (forall e k, e < E -> k < m ->
        m' (F0 + (m * e + k)) = Val (outv M L x (Z.of_nat q * Z.of_nat k + rh e))) ->
     (forall a, (forall i, i < m * E -> F0 + i <> a) ->
        (forall e s, e0 <= e < E -> s < L -> W0 + (m * e + s) <> a) -> m' a = m0 a) ->
     (forall a, m0 a <> Unalloc -> m' a <> Unalloc) -> K m') ->
  WP (forward1_tail t f F0 W0 (W0 + e0 * m) r0 dr0 plan1) m0 K.
Proof.
  intros HE HD1 Hplan Hinpl Hr0 Hrq Hdw Hdf Hwd Hx Hwa Hfa Hrow Hrh Hpad HK.
  pose proof L_le_m as HLm. pose proof (wf_L t Hwf) as HL1. pose proof (wf_m t Hwf) as Hm1.
  pose proof (q_pos t Hwf) as Hq1. pose proof (wf_D t Hwf) as HD.
  assert (Hmono : forall e, e < E -> m * e + m <= m * E) by (intros; nia).
  assert (Hmono0 : m * e0 <= m * E) by nia.
  unfold forward1_tail. apply WP_seq.
  (* phase 1: fill the rows, phase 2: transform *)
  assert (Hphase2 : forall m1 : mem,
     (forall e s, e < E -> s < m -> m1 (W0 + (m * e + s)) = Val (RV (rh e) x s)) ->
     (forall a, (forall e s, e0 <= e < E -> s < m -> W0 + (m * e + s) <> a) -> m1 a = m0 a) ->
     (forall e s, ainplace t = false -> e0 <= e < E -> L <= s < m ->
         m1 (W0 + (m * e + s)) = m0 (W0 + (m * e + s))) ->
     (forall a, m0 a <> Unalloc -> m1 a <> Unalloc) ->
     WP (fft plan1 W0 F0) m1 K).
  { intros m1 Hr1 Hf1 Hp Ha1. subst plan1. apply WP_fft_rows with (x := fun e => RV (rh e) x).
    - assumption.
    - assumption.
    - intros; apply Hr1; assumption.
    - intros; apply Ha1, Hfa; assumption.
    - destruct Hwd as [->|Hwd]; [auto|right; unfold dj in Hwd; intros; lia].
    - intros m2 HV HF Hal. apply HK.
      + intros e k He Hk. rewrite HV by assumption. f_equal. unfold RV.
        change (fun s => rowval m 1 L M (rh e) x s) with (rowval m 1 L M (rh e) x).
        apply row_dft; auto; try lia; rewrite Nat.mul_1_r; assumption.
      + intros a H1 H2. rewrite HF by assumption.
        destruct (ainplace t) eqn:Ei.
        * symmetry in Hinpl. apply Nat.eqb_eq in Hinpl. subst W0. apply Hf1.
          intros e s He Hs. apply H1. specialize (Hmono e). lia.
        * destruct (in_dec Nat.eq_dec a (map (fun es => W0 + (m * fst es + snd es))
              (list_prod (seq e0 (E - e0)) (seq 0 m)))) as [Hin|Hnin].
          -- apply in_map_iff in Hin. destruct Hin as [[e s] [<- Hin]].
             apply in_prod_iff in Hin. rewrite !in_seq in Hin. cbn [fst snd].
             destruct (Nat.lt_ge_cases s L).
             ++ exfalso. eapply (H2 e s); [lia|lia|reflexivity].
             ++ apply Hp; [reflexivity|lia|lia].
          -- apply Hf1. intros e s He Hs Heq. apply Hnin. subst a. apply in_map_iff. exists (e, s).
             split; [reflexivity|]. apply in_prod_iff. rewrite !in_seq. lia.
      + intros a Ha. apply Hal, Ha1, Ha. }
  (* phase 1 *)
  destruct (Nat.eqb_spec D 1) as [ED|ED].
  - destruct (Nat.ltb_spec 0 dr0) as [Hd|Hd].
    + assert (dr0 = 1) by lia. subst dr0. assert (HE1 : E = e0 + 1) by lia.
      assert (Hme : m * E = e0 * m + m) by (rewrite HE1; lia).
      assert (Hrhe : rh e0 = Z.of_nat r0).
      { rewrite Hrh by lia. unfold tailrho. destruct (Nat.eqb_spec D 1); [reflexivity|lia]. }
      apply WP_seq.
      apply WP_Do with (W := eq (W0 + e0 * m)) (Q := fun mm => mm (W0 + e0 * m) = Val (x 0)).
      { apply local_one. }
      { cbn [wp]. unfold dj in *. split; [left; lia|]. exists (x 0). split.
        { rewrite <- (Nat.add_0_r f). apply Hx. lia. }
        wr; [apply (alloc_at _ _ _ Hwa); lia|apply upd_get; reflexivity]. }
      intros m1 H1v H1f H1a.
      assert (Hx1 : forall s, s < L -> m1 (f + s) = Val (x s)).
      { intros s Hs. unfold dj in *. rewrite H1f by lia. apply Hx; assumption. }
      apply WP_seq.
      apply WP_map1 with (dst := fun s => W0 + e0 * m + s)
        (g := fun s => Cmul (zeta M (Z.of_nat (r0 * s))) (x s)); unfold rng.
      { intros; lia. }
      { intros s Hs. rewrite (tget_some _ _ _ _ (zqm_get r0 s ltac:(lia) ltac:(lia))). cbn [wp].
        unfold dj in *. rd Hx1. wr; [apply H1a, (alloc_at _ _ _ Hwa); lia|apply upd_get; reflexivity]. }
      intros m2 H2v H2f H2a.
      assert (Hval : forall s, s < L -> m2 (W0 + e0 * m + s) = Val (RV (Z.of_nat r0) x s)).
      { intros s Hs. destruct (Nat.eq_dec s 0) as [->|Hs0].
        - rewrite H2f by (intros; lia). rewrite RV_0, Nat.add_0_r. apply H1v.
        - rewrite H2v by lia. f_equal. rewrite RV_in by assumption. f_equal. f_equal. lia. }
      assert (Hfr : forall a, (forall s, s < L -> W0 + e0 * m + s <> a) -> m2 a = m0 a).
      { intros a Ha. rewrite H2f by (intros; apply Ha; lia). apply H1f.
        specialize (Ha 0 ltac:(lia)). lia. }
      assert (Hal : forall a, m0 a <> Unalloc -> m2 a <> Unalloc) by auto.
      clear H1v H1f H1a Hx1 H2v H2f H2a m1.
      destruct (ainplace t) eqn:Ei.
      * apply WP_map1 with (dst := fun s => W0 + e0 * m + s) (g := fun _ => C0); unfold rng.
        { intros; lia. }
        { intros s Hs. cbn [wp]. wr; [apply Hal, (alloc_at _ _ _ Hwa); lia|apply upd_get; reflexivity]. }
        intros m3 H3v H3f H3a. apply Hphase2.
        { intros e s He Hs. destruct (Nat.eq_dec e e0) as [->|Hne].
          - rewrite Hrhe. replace (W0 + (m * e0 + s)) with (W0 + e0 * m + s) by lia.
            destruct (Nat.lt_ge_cases s L).
            + rewrite H3f by (intros; lia). apply Hval; assumption.
            + rewrite H3v by lia. rewrite RV_out by assumption. reflexivity.
          - assert (m * e + m <= m * e0) by nia.
            rewrite H3f by (intros; lia). rewrite Hfr by (intros; lia). apply Hrow; lia. }
        { intros a Ha. rewrite H3f, Hfr; [reflexivity| |].
          - intros s Hs. specialize (Ha e0 s ltac:(lia) ltac:(lia)). lia.
          - intros s Hs. specialize (Ha e0 s ltac:(lia) ltac:(lia)). lia. }
        { discriminate. }
        { auto. }
      * apply WP_skip. apply Hphase2.
        { intros e s He Hs. destruct (Nat.eq_dec e e0) as [->|Hne].
          - rewrite Hrhe. replace (W0 + (m * e0 + s)) with (W0 + e0 * m + s) by lia.
            destruct (Nat.lt_ge_cases s L).
            + apply Hval; assumption.
            + rewrite RV_out by assumption. rewrite Hfr by (intros; lia).
              replace (W0 + e0 * m + s) with (W0 + (m * e0 + s)) by lia. apply Hpad; auto; lia.
          - assert (m * e + m <= m * e0) by nia. rewrite Hfr by (intros; lia). apply Hrow; lia. }
        { intros a Ha. rewrite Hfr; [reflexivity|].
          intros s Hs. specialize (Ha e0 s ltac:(lia) ltac:(lia)). lia. }
        { intros e s _ He Hs. assert (e = e0) by lia. subst e. apply Hfr. intros; lia. }
        { auto. }
    + assert (E = e0) by lia. subst e0. apply WP_skip. apply Hphase2; auto.
  - apply WP_seq.
    assert (Hd2 : forall d, d < dr0 -> m * (e0 + 2 * d + 1) + m <= m * E).
    { intros d Hd. subst E. replace (m * (e0 + 2 * d + 1) + m) with (m * (e0 + 2 * (d + 1))) by lia.
      apply Nat.mul_le_mono_l. lia. }
    set (I := fun d (m1 : mem) =>
       (forall d' s, d' < d -> s < L ->
          m1 (W0 + (m * (e0 + 2 * d') + s)) = Val (RV (Z.of_nat (r0 + d')) x s) /\
          m1 (W0 + (m * (e0 + 2 * d' + 1) + s)) = Val (RV (- Z.of_nat (r0 + d')) x s)) /\
       (forall a, (forall d' s, d' < d -> s < L -> W0 + (m * (e0 + 2 * d') + s) <> a /\
          W0 + (m * (e0 + 2 * d' + 1) + s) <> a) -> m1 a = m0 a) /\
       (forall a, m0 a <> Unalloc -> m1 a <> Unalloc)).
    eapply WP_mono; [|apply (WP_cfor C dr0 _ I)].
    2:{ unfold I. split; [intros; lia|]. split; [reflexivity|auto]. }
    2:{ intros d m1 Hd (I1 & I2 & I3).
        pose proof (Hd2 d Hd) as Hdd.
        assert (Ea : forall s, W0 + e0 * m + 2 * m * d + s = W0 + (m * (e0 + 2 * d) + s)) by (intros; lia).
        assert (Eb : forall s, W0 + e0 * m + 2 * m * d + m + s = W0 + (m * (e0 + 2 * d + 1) + s)) by (intros; lia).
        assert (Hx1 : forall s, s < L -> m1 (f + s) = Val (x s)).
        { intros s Hs. rewrite I2; [apply Hx; assumption|]. intros d' s' Hd' Hs'.
          pose proof (Hd2 d' ltac:(lia)). unfold dj in *. split; lia. }
        cbv zeta. apply WP_seq.
        apply WP_Do with
          (W := fun a => W0 + e0 * m + 2 * m * d = a \/ W0 + e0 * m + 2 * m * d + m = a)
          (Q := fun mm => mm (W0 + e0 * m + 2 * m * d) = Val (x 0) /\
                          mm (W0 + e0 * m + 2 * m * d + m) = Val (x 0)).
        { intros ma mb Hm [A B]. rewrite <- !Hm by auto. auto. }
        { cbn [wp]. unfold dj in *. split; [left; lia|]. exists (x 0). split.
          { rewrite <- (Nat.add_0_r f). apply Hx1. lia. }
          wr.
          { apply I3, (alloc_at _ _ _ Hwa). lia. }
          wr.
          { apply upd_alloc. apply I3, (alloc_at _ _ _ Hwa). lia. }
          split; [apply upd_get; reflexivity|].
          rewrite upd_neq by lia. apply upd_get; reflexivity. }
        intros m2 [H2a H2b] H2f H2al.
        assert (Hx2 : forall s, s < L -> m2 (f + s) = Val (x s)).
        { intros s Hs. unfold dj in *. rewrite H2f by lia. apply Hx1; assumption. }
        apply WP_map1x2 with (d1 := fun s => W0 + e0 * m + 2 * m * d + s)
          (d2 := fun s => W0 + e0 * m + 2 * m * d + m + s)
          (g1 := fun s => Cmul (zeta M (Z.of_nat ((r0 + d) * s))) (x s))
          (g2 := fun s => Cmul (Cconj (zeta M (Z.of_nat ((r0 + d) * s)))) (x s)); unfold rng.
        { intros; split; [lia|]. split; [lia|]. lia. }
        { intros s Hs. rewrite (tget_some _ _ _ _ (zqm_get (r0 + d) s ltac:(lia) ltac:(lia))). cbn [wp].
          unfold dj in *. rd Hx2. rewrite pair_plus, pair_minus.
          wr; [apply H2al, I3, (alloc_at _ _ _ Hwa); lia|].
          wr; [apply upd_alloc, H2al, I3, (alloc_at _ _ _ Hwa); lia|].
          split; [|apply upd_get; reflexivity]. rewrite upd_neq by lia. apply upd_get; reflexivity. }
        intros m3 H3a H3b H3f H3al. unfold I. split; [|split].
        - intros d' s Hd' Hs. destruct (Nat.eq_dec d' d) as [->|Hne].
          + rewrite <- Ea, <- Eb. destruct (Nat.eq_dec s 0) as [->|Hs0].
            * rewrite !RV_0. rewrite !H3f by (intros; lia). rewrite !Nat.add_0_r. auto.
            * rewrite H3a, H3b by lia. rewrite !RV_in by assumption. split; f_equal; f_equal.
              -- f_equal. lia.
              -- rewrite <- zeta_neg. f_equal. lia.
          + pose proof (Hd2 d' ltac:(lia)).
            assert (m * (e0 + 2 * d' + 1) + m <= m * (e0 + 2 * d)).
            { replace (m * (e0 + 2 * d' + 1) + m) with (m * (e0 + 2 * (d' + 1))) by lia.
              apply Nat.mul_le_mono_l. lia. }
            rewrite !H3f by (intros; lia). rewrite !H2f by lia. apply I1; lia.
        - intros a Ha. rewrite H3f, H2f, I2; [reflexivity| | |].
          + intros d' s Hd' Hs. apply Ha; lia.
          + destruct (Ha d 0 ltac:(lia) ltac:(lia)). lia.
          + intros s Hs. destruct (Ha d s ltac:(lia) ltac:(lia)). rewrite Ea, Eb. split; assumption.
        - auto. }
    intros m1 (I1 & I2 & I3).
    assert (Hsplit : forall e, e0 <= e < E -> exists d', d' < dr0 /\ (e = e0 + 2 * d' \/ e = e0 + 2 * d' + 1)).
    { intros e He. exists ((e - e0) / 2).
      pose proof (Nat.div_mod (e - e0) 2). pose proof (Nat.mod_upper_bound (e - e0) 2). lia. }
    assert (Hval : forall e s, e0 <= e < E -> s < L -> m1 (W0 + (m * e + s)) = Val (RV (rh e) x s)).
    { intros e s He Hs. rewrite Hrh by assumption.
      destruct (Hsplit e He) as (d' & Hd' & [->| ->]); destruct (I1 d' s Hd' Hs) as [A B].
      - replace (e0 + 2 * d' - e0) with (2 * d') by lia. rewrite tailrho_even by assumption. exact A.
      - replace (e0 + 2 * d' + 1 - e0) with (2 * d' + 1) by lia. rewrite tailrho_odd by assumption. exact B. }
    assert (Hfr : forall a, (forall e s, e0 <= e < E -> s < L -> W0 + (m * e + s) <> a) -> m1 a = m0 a).
    { intros a Ha. apply I2. intros d' s Hd' Hs. split; apply Ha; lia. }
    assert (Hout : forall e s, e0 <= e < E -> L <= s < m -> m1 (W0 + (m * e + s)) = m0 (W0 + (m * e + s))).
    { intros e s He Hs. apply Hfr. intros e' s' He' Hs'.
      destruct (Nat.eq_dec e e'); [subst; lia|].
      assert (m * e + m <= m * e' \/ m * e' + m <= m * e) by nia. lia. }
    assert (Hold : forall e s, e < e0 -> s < m -> m1 (W0 + (m * e + s)) = m0 (W0 + (m * e + s))).
    { intros e s He Hs. apply Hfr. intros e' s' He' Hs'.
      assert (m * e + m <= m * e') by nia. lia. }
    clear I1 I2.
    destruct (ainplace t) eqn:Ei.
    + set (J := fun d (m2 : mem) =>
         (forall d' s, d' < d -> L <= s < m ->
            m2 (W0 + (m * (e0 + 2 * d') + s)) = Val C0 /\
            m2 (W0 + (m * (e0 + 2 * d' + 1) + s)) = Val C0) /\
         (forall a, (forall d' s, d' < d -> L <= s < m -> W0 + (m * (e0 + 2 * d') + s) <> a /\
            W0 + (m * (e0 + 2 * d' + 1) + s) <> a) -> m2 a = m1 a) /\
         (forall a, m1 a <> Unalloc -> m2 a <> Unalloc)).
      eapply WP_mono; [|apply (WP_cfor C dr0 _ J)].
      2:{ unfold J. split; [intros; lia|]. split; [reflexivity|auto]. }
      2:{ intros d m2 Hd (J1 & J2 & J3). pose proof (Hd2 d Hd) as Hdd. cbv zeta.
          assert (Ea : forall s, W0 + e0 * m + 2 * m * d + s = W0 + (m * (e0 + 2 * d) + s)) by (intros; lia).
          assert (Eb : forall s, W0 + e0 * m + 2 * m * d + m + s = W0 + (m * (e0 + 2 * d + 1) + s)) by (intros; lia).
          apply WP_seq.
          apply WP_map1 with (dst := fun s => W0 + e0 * m + 2 * m * d + s) (g := fun _ => C0); unfold rng.
          { intros; lia. }
          { intros s Hs. cbn [wp]. wr; [apply J3, I3, (alloc_at _ _ _ Hwa); lia|apply upd_get; reflexivity]. }
          intros m3 H3v H3f H3a.
          apply WP_map1 with (dst := fun s => W0 + e0 * m + 2 * m * d + m + s) (g := fun _ => C0); unfold rng.
          { intros; lia. }
          { intros s Hs. cbn [wp]. wr; [apply H3a, J3, I3, (alloc_at _ _ _ Hwa); lia|apply upd_get; reflexivity]. }
          intros m4 H4v H4f H4a. unfold J. split; [|split].
          - intros d' s Hd' Hs. destruct (Nat.eq_dec d' d) as [->|Hne].
            + rewrite <- Ea, <- Eb. split.
              * rewrite H4f by (intros; lia). apply H3v; lia.
              * apply H4v; lia.
            + assert (m * (e0 + 2 * d' + 1) + m <= m * (e0 + 2 * d)).
              { replace (m * (e0 + 2 * d' + 1) + m) with (m * (e0 + 2 * (d' + 1))) by lia.
                apply Nat.mul_le_mono_l. lia. }
              rewrite !H4f by (intros; lia). rewrite !H3f by (intros; lia). apply J1; lia.
          - intros a Ha. rewrite H4f, H3f, J2; [reflexivity| | |].
            + intros d' s Hd' Hs. apply Ha; lia.
            + intros s Hs. destruct (Ha d s ltac:(lia) ltac:(lia)). rewrite Ea. assumption.
            + intros s Hs. destruct (Ha d s ltac:(lia) ltac:(lia)). rewrite Eb. assumption.
          - auto. }
      intros m2 (J1 & J2 & J3). apply Hphase2.
      * intros e s He Hs. destruct (Nat.lt_ge_cases e e0) as [He0|He0].
        -- rewrite J2.
           ++ rewrite Hold by assumption. apply Hrow; assumption.
           ++ intros d' s' Hd' Hs'. assert (m * e + m <= m * (e0 + 2 * d')) by nia.
              split; lia.
        -- destruct (Nat.lt_ge_cases s L) as [HsL|HsL].
           ++ rewrite J2; [apply Hval; [lia|assumption]|].
              intros d' s' Hd' Hs'.
              assert (forall e', e' = e \/ m * e + m <= m * e' \/ m * e' + m <= m * e) as Htri.
              { intros e'. destruct (Nat.lt_trichotomy e e') as [|[|]]; [right; left; nia|auto|right; right; nia]. }
              destruct (Htri (e0 + 2 * d')) as [->|Ht1]; destruct (Htri (e0 + 2 * d' + 1)) as [Ht2|Ht2]; try lia.
           ++ rewrite RV_out by assumption.
              destruct (Hsplit e ltac:(lia)) as (d' & Hd' & [->| ->]);
                destruct (J1 d' s Hd' ltac:(lia)) as [A B]; assumption.
      * intros a Ha. rewrite J2.
        -- apply Hfr. intros e s He Hs. apply Ha; lia.
        -- intros d' s Hd' Hs. split; apply Ha; lia.
      * discriminate.
      * auto.
    + apply WP_skip. apply Hphase2.
      * intros e s He Hs. destruct (Nat.lt_ge_cases e e0) as [He0|He0].
        -- rewrite Hold by assumption. apply Hrow; assumption.
        -- destruct (Nat.lt_ge_cases s L) as [HsL|HsL].
           ++ apply Hval; lia.
           ++ rewrite Hout by lia. rewrite RV_out by assumption. apply Hpad; auto; lia.
      * intros a Ha. apply Hfr. intros; apply Ha; lia.
      * auto.
      * auto.
Qed.

Lemma forward1_tail_spec' f F0 W0 Wt r0 dr0 plan1 e0 E (rh : nat -> Z) x (m0 : mem) (K : mem -> Prop) :
  Wt = W0 + e0 * m ->
  E = e0 + (if D =? 1 then dr0 else 2 * dr0) ->
  (D = 1 -> dr0 <= 1) ->
  plan1 = mkplan m 1 E 1 m (ainplace t) ->
  ainplace t = (W0 =? F0) ->
  1 <= r0 -> (1 <= dr0 -> r0 + dr0 <= q) ->
  dj f L W0 (m * E) -> dj f L F0 (m * E) ->
  (W0 = F0 \/ dj W0 (m * E) F0 (m * E)) ->
  (forall s, s < L -> m0 (f + s) = Val (x s)) ->
  (forall i, i < m * E -> m0 (W0 + i) <> Unalloc) ->
  (forall i, i < m * E -> m0 (F0 + i) <> Unalloc) ->
  (forall e s, e < e0 -> s < m -> m0 (W0 + (m * e + s)) = Val (RV (rh e) x s)) ->
  (forall e, e0 <= e < E -> rh e = tailrho D r0 (e - e0)) ->
  (ainplace t = false -> forall e s, e0 <= e < E -> L <= s < m -> m0 (W0 + (m * e + s)) = Val C0) ->
  (forall m',
     (forall e k, e < E -> k < m ->
        m' (F0 + (m * e + k)) = Val (outv M L x (Z.of_nat q * Z.of_nat k + rh e))) ->
     (forall a, (forall i, i < m * E -> F0 + i <> a) ->
        (forall e s, e0 <= e < E -> s < L -> W0 + (m * e + s) <> a) -> m' a = m0 a) ->
     (forall a, m0 a <> Unalloc -> m' a <> Unalloc) -> K m') ->
  WP (forward1_tail t f F0 W0 Wt r0 dr0 plan1) m0 K.
Proof. intros ->. apply forward1_tail_spec. Qed.

Hypothesis HS : gS t = 1.
Hypothesis Hq : q <> 1.

Lemma plan_rows r : (if r =? 0 then (if gD0 t =? D then fftm t 1 else fftm0 t 1) else fftm t 1)
   = mkplan m 1 (nrows t r) 1 m (ainplace t).
Proof.
  rewrite (nrows_small t Hwf) by lia. unfold fftm, fftm0.
  destruct (Nat.eqb_spec q 1); [contradiction|]. rewrite HS. cbn [Nat.eqb].
  rewrite (S1_C1 t Hwf HS), (P_small t Hwf) by lia. rewrite !Nat.mul_1_r, Nat.mul_1_l.
  destruct (r =? 0); [|reflexivity]. destruct (Nat.eqb_spec (gD0 t) D) as [->|]; reflexivity.
Qed.

Lemma forward1_spec f F0 W r x (m0 : mem) (K : mem -> Prop) :
  let W0 := getW F0 W in
  let E := nrows t r in
  passr t r ->
  ainplace t = (W0 =? F0) ->
  dj f L W0 (m * E) -> dj f L F0 (m * E) ->
  (W0 = F0 \/ dj W0 (m * E) F0 (m * E)) ->
  (forall s, s < L -> m0 (f + s) = Val (x s)) ->
  (forall i, i < m * E -> m0 (W0 + i) <> Unalloc) ->
  (forall i, i < m * E -> m0 (F0 + i) <> Unalloc) ->
  (ainplace t = false -> forall e s, e < E -> L <= s < m -> m0 (W0 + (m * e + s)) = Val C0) ->
  (forall m',
     (forall e k, e < E -> k < m ->
        m' (F0 + (m * e + k)) = Val (outv M L x (Z.of_nat q * Z.of_nat k + rho t r e))) ->
     (forall a, (forall i, i < m * E -> F0 + i <> a) ->
        (forall e s, e < E -> s < L -> W0 + (m * e + s) <> a) -> m' a = m0 a) ->
     (forall a, m0 a <> Unalloc -> m' a <> Unalloc) -> K m') ->
  WP (forward1 t f F0 r W) m0 K.
Proof.
  intros W0 E Hpass Hinpl Hdw Hdf Hwd Hx Hwa Hfa Hpad HK.
  pose proof L_le_m as HLm. pose proof (wf_L t Hwf) as HL1. pose proof (wf_m t Hwf) as Hm1.
  pose proof (q_pos t Hwf) as Hq1. pose proof (wf_D t Hwf) as HD.
  pose proof (D0_bounds t Hwf) as HD0. pose proof (q_small t Hwf ltac:(lia)) as Hqn.
  pose proof (R_le_n t Hwf) as HRn. pose proof (D0_le_n t Hwf) as HD0n.
  unfold forward1. fold W0. pose proof (plan_rows r) as Hplan. pose proof (nrows_small t Hwf ltac:(lia) r) as HEr.
  fold E in Hplan, HEr. pose proof (q_parity t Hwf Hq ltac:(lia)) as Hq2.
  pose proof (Nat.mod_upper_bound (gn t) 2 ltac:(lia)) as Hnm.
  destruct (Nat.eqb_spec r 0) as [->|Hr].
  - try rewrite Nat.eqb_refl in Hplan; try rewrite Nat.eqb_refl in HEr. rewrite Hplan. assert (HmE : m <= m * E) by nia.
    destruct ((D =? 1) || (2 * (q / 2) <? q)) eqn:Eodd.
    + assert (Hodd : D = 1 \/ gn t mod 2 = 1).
      { apply orb_true_iff in Eodd. rewrite Nat.eqb_eq, Nat.ltb_lt in Eodd. lia. }
      destruct (negb (ainplace t) && (D =? 1) && (m <=? L)) eqn:Ed.
      * (* direct transform f -> F *)
        apply andb_true_iff in Ed. destruct Ed as [Ed1 Ed2].
        apply andb_true_iff in Ed1. destruct Ed1 as [Ed1 ED]. apply Nat.eqb_eq in ED.
        apply negb_true_iff in Ed1. apply Nat.leb_le in Ed2. assert (HLm' : L = m) by lia.
        assert (HE1 : E = 1) by (rewrite HEr; apply D0_D1, ED).
        assert (Hpl : fftm t 1 = mkplan m 1 1 1 m (ainplace t)).
        { pose proof (plan_rows 1) as H. cbn [Nat.eqb] in H. rewrite (nrows_small t Hwf) in H by lia.
          cbn [Nat.eqb] in H. rewrite ED in H. exact H. }
        rewrite Hpl. rewrite HE1 in *. apply WP_fft_rows with (x := fun _ => RV 0 x).
        -- rewrite Ed1. symmetry. apply Nat.eqb_neq. unfold dj in *. lia.
        -- assumption.
        -- intros h k Hh Hk. assert (h = 0) by lia. subst h. rewrite Nat.mul_0_r. cbn [Nat.add].
           rewrite Hx by lia. rewrite RV_res0 by lia. reflexivity.
        -- assumption.
        -- right. unfold dj in *. intros; lia.
        -- intros m' HV HF Hal. apply HK; [| |assumption].
           ++ intros e k He Hk. rewrite HV by assumption. f_equal. unfold RV.
              change (fun s => rowval m 1 L M 0 x s) with (rowval m 1 L M 0 x).
              rewrite rho_D1 by (assumption || lia).
              apply row_dft; auto; try lia; rewrite Nat.mul_1_r; assumption.
           ++ intros a H1 H2. apply HF. assumption.
      * assert (Ewf : W0 =? f = false) by (apply Nat.eqb_neq; unfold dj in *; lia).
        rewrite Ewf. apply WP_seq.
        apply WP_map1 with (dst := fun s => W0 + s) (g := x); unfold rng.
        { intros; lia. }
        { intros s Hs. cbn [wp]. unfold dj in *. rd Hx. wr; [apply Hwa; lia|apply upd_get; reflexivity]. }
        intros m1 H1v H1f H1a. apply WP_seq.
        assert (Hcont : forall m2 : mem,
          (forall s, s < m -> m2 (W0 + s) = Val (RV 0 x s)) ->
          (forall a, (forall s, s < m -> W0 + s <> a) -> m2 a = m0 a) ->
          (forall s, ainplace t = false -> L <= s < m -> m2 (W0 + s) = m0 (W0 + s)) ->
          (forall a, m0 a <> Unalloc -> m2 a <> Unalloc) ->
          WP (forward1_tail t f F0 W0 (W0 + 1 * m) 1 ((gD0 t - 1) / 2)
              (mkplan m 1 E 1 m (ainplace t))) m2 K).
        { intros m2 H2v H2f H2p H2a. pose proof (D0_odd t Hwf Hq Hodd) as HD0o.
          apply forward1_tail_spec with (e0 := 1) (E := E) (rh := rho t 0) (x := x); auto; try lia.
          - intros ED. rewrite (D0_D1 t ED). cbn. lia.
          - intros _; assert ((gD0 t - 1) / 2 <= gD0 t - 1) by (apply Nat.div_le_upper_bound; lia); lia.
          - intros s Hs. rewrite H2f by (unfold dj in *; intros; lia). apply Hx; assumption.
          - intros e s He Hs. assert (e = 0) by lia. subst e. rewrite Nat.mul_0_r. cbn [Nat.add].
            rewrite rho_00 by lia. apply H2v; assumption.
          - intros e He. destruct (Nat.eq_dec D 1) as [ED|ED].
            + rewrite HEr, (D0_D1 t ED) in He. lia.
            + apply rho_tail0; [lia|assumption| |lia]. destruct Hodd as [|Hn1]; [contradiction|].
              rewrite Hn1; reflexivity.
          - intros Ei e s He Hs. rewrite H2f; [apply Hpad; auto; lia|]. intros s' Hs'.
            assert (m <= m * e) by nia. lia.
          - intros m' HV HF Hal. apply HK; [exact HV| |auto].
            intros a H1 H2. rewrite HF; [|assumption|intros; apply H2; lia].
            destruct (ainplace t) eqn:Ei.
            + symmetry in Hinpl. apply Nat.eqb_eq in Hinpl. apply H2f. intros s Hs. rewrite Hinpl. apply H1; lia.
            + destruct (Nat.lt_ge_cases a W0); [apply H2f; intros; lia|].
              destruct (Nat.lt_ge_cases a (W0 + m)); [|apply H2f; intros; lia].
              destruct (Nat.lt_ge_cases a (W0 + L)).
              * exfalso. apply (H2 0 (a - W0)); lia.
              * replace a with (W0 + (a - W0)) by lia. apply H2p; auto; lia. }
        destruct (ainplace t) eqn:Ei.
        -- apply WP_map1 with (dst := fun s => W0 + s) (g := fun _ => C0); unfold rng.
           { intros; lia. }
           { intros s Hs. cbn [wp]. wr; [apply H1a, Hwa; lia|apply upd_get; reflexivity]. }
           intros m2 H2v H2f H2a. apply Hcont.
           ++ intros s Hs. destruct (Nat.lt_ge_cases s L).
              ** rewrite H2f by (intros; lia). rewrite H1v by lia. rewrite RV_res0 by assumption. reflexivity.
              ** rewrite H2v by lia. rewrite RV_out by assumption. reflexivity.
           ++ intros a Ha. rewrite H2f, H1f; [reflexivity| |]; intros; apply Ha; lia.
           ++ discriminate.
           ++ auto.
        -- apply WP_skip. apply Hcont.
           ++ intros s Hs. destruct (Nat.lt_ge_cases s L).
              ** rewrite H1v by lia. rewrite RV_res0 by assumption. reflexivity.
              ** rewrite H1f by (intros; lia). rewrite RV_out by assumption.
                 specialize (Hpad eq_refl 0 s). rewrite Nat.mul_0_r in Hpad. apply Hpad; lia.
           ++ intros a Ha. apply H1f; intros; apply Ha; lia.
           ++ intros s _ Hs. apply H1f. intros; lia.
           ++ auto.
    + (* D > 1, q even *)
      apply orb_false_iff in Eodd. rewrite Nat.eqb_neq, Nat.ltb_ge in Eodd. destruct Eodd as [ED Heven].
      assert (Hn0 : gn t mod 2 = 0) by lia.
      pose proof (D0_even t Hwf Hq ED Hn0) as HD0e.
      assert (Hq2r : 1 <= q / 2 < q) by lia.
      assert (HmE2 : 2 * m <= m * E) by nia.
      apply WP_seq.
      apply WP_Do with (W := fun a => W0 = a \/ W0 + m = a)
        (Q := fun mm => mm W0 = Val (x 0) /\ mm (W0 + m) = Val (x 0)).
      { intros ma mb Hm [A B]. rewrite <- !Hm by auto. auto. }
      { cbn [wp]. unfold dj in *. split; [left; lia|]. exists (x 0). split.
        { rewrite <- (Nat.add_0_r f). apply Hx. lia. }
        wr; [apply (alloc_at _ _ _ Hwa); lia|].
        wr; [apply upd_alloc, (alloc_at _ _ _ Hwa); lia|].
        split; [rewrite upd_neq by lia|]; apply upd_get; reflexivity. }
      intros m1 [H1a H1b] H1f H1al.
      assert (Hx1 : forall s, s < L -> m1 (f + s) = Val (x s)).
      { intros s Hs. unfold dj in *. rewrite H1f by lia. apply Hx; assumption. }
      apply WP_seq.
      apply WP_map1x2 with (d1 := fun s => W0 + s) (d2 := fun s => W0 + m + s) (g1 := x)
        (g2 := fun s => Cmul (zeta M (Z.of_nat (q / 2 * s))) (x s)); unfold rng.
      { intros; lia. }
      { intros s Hs. cbn [wp]. unfold dj in *. rd Hx1.
        rewrite (tget_some _ _ _ _ (zqm_get (q / 2) s ltac:(lia) ltac:(lia))). cbn [wp].
        wr; [apply H1al, (alloc_at _ _ _ Hwa); lia|].
        wr; [apply upd_alloc, H1al, (alloc_at _ _ _ Hwa); lia|].
        split; [rewrite upd_neq by lia|]; apply upd_get; reflexivity. }
      intros m2 H2a H2b H2f H2al.
      assert (Hv2 : forall s, s < L -> m2 (W0 + s) = Val (RV 0 x s)).
      { intros s Hs. rewrite RV_res0 by assumption. destruct (Nat.eq_dec s 0) as [->|].
        - rewrite H2f by (intros; lia). rewrite Nat.add_0_r. assumption.
        - apply H2a. lia. }
      assert (Hv2' : forall s, s < L -> m2 (W0 + m + s) = Val (RV (Z.of_nat (q / 2)) x s)).
      { intros s Hs. destruct (Nat.eq_dec s 0) as [->|].
        - rewrite H2f by (intros; lia). rewrite RV_0, Nat.add_0_r. assumption.
        - rewrite H2b by lia. rewrite RV_in by assumption. f_equal. f_equal. f_equal. lia. }
      assert (Hf2 : forall a, (forall s, s < L -> W0 + s <> a /\ W0 + m + s <> a) -> m2 a = m0 a).
      { intros a Ha. rewrite H2f, H1f; [reflexivity| |].
        - specialize (Ha 0 ltac:(lia)). lia.
        - intros s Hs. apply Ha; lia. }
      assert (Hal2 : forall a, m0 a <> Unalloc -> m2 a <> Unalloc) by auto.
      clear H1a H1b H1f H1al Hx1 H2a H2b H2f H2al m1.
      assert (Hcont : forall m3 : mem,
        (forall s, s < m -> m3 (W0 + s) = Val (RV 0 x s)) ->
        (forall s, s < m -> m3 (W0 + m + s) = Val (RV (Z.of_nat (q / 2)) x s)) ->
        (forall a, (forall s, s < 2 * m -> W0 + s <> a) -> m3 a = m0 a) ->
        (forall s, ainplace t = false -> L <= s < m ->
           m3 (W0 + s) = m0 (W0 + s) /\ m3 (W0 + m + s) = m0 (W0 + m + s)) ->
        (forall a, m0 a <> Unalloc -> m3 a <> Unalloc) ->
        WP (forward1_tail t f F0 W0 (W0 + 2 * m) 1 ((gD0 t - 2) / 2)
            (mkplan m 1 E 1 m (ainplace t))) m3 K).
      { intros m3 H3v H3v' H3f H3p H3a.
        apply forward1_tail_spec with (e0 := 2) (E := E) (rh := rho t 0) (x := x); auto; try lia.
        - intros _; assert ((gD0 t - 2) / 2 <= gD0 t - 2) by (apply Nat.div_le_upper_bound; lia); lia.
        - intros s Hs. rewrite H3f by (unfold dj in *; intros; lia). apply Hx; assumption.
        - intros e s He Hs. destruct (Nat.eq_dec e 0) as [->|].
          + rewrite Nat.mul_0_r. cbn [Nat.add]. rewrite rho_00 by lia. apply H3v; assumption.
          + assert (e = 1) by lia. subst e. rewrite Nat.mul_1_r.
            rewrite rho_01, Hp1 by (assumption || lia). cbn [Nat.eqb]. rewrite Nat.add_assoc. apply H3v'; assumption.
        - intros e He. apply rho_tail0; [lia|assumption|rewrite Hn0; reflexivity|lia].
        - intros Ei e s He Hs. rewrite H3f; [apply Hpad; auto; lia|]. intros s' Hs'.
          assert (2 * m <= m * e) by nia. lia.
        - intros m' HV HF Hal. apply HK; [exact HV| |auto].
          intros a H1 H2. rewrite HF; [|assumption|intros; apply H2; lia].
          destruct (ainplace t) eqn:Ei.
          + symmetry in Hinpl. apply Nat.eqb_eq in Hinpl. apply H3f. intros s Hs. rewrite Hinpl. apply H1; lia.
          + destruct (Nat.lt_ge_cases a W0); [apply H3f; intros; lia|].
            destruct (Nat.lt_ge_cases a (W0 + 2 * m)); [|apply H3f; intros; lia].
            destruct (Nat.lt_ge_cases a (W0 + L)).
            * exfalso. apply (H2 0 (a - W0)); lia.
            * destruct (Nat.lt_ge_cases a (W0 + m)).
              -- replace a with (W0 + (a - W0)) by lia. apply H3p; auto; lia.
              -- destruct (Nat.lt_ge_cases a (W0 + m + L)).
                 ++ exfalso. apply (H2 1 (a - W0 - m)); lia.
                 ++ replace a with (W0 + m + (a - W0 - m)) by lia. apply H3p; auto; lia. }
      apply WP_seq. destruct (ainplace t) eqn:Ei.
      -- apply WP_map1 with (dst := fun s => W0 + m + s) (g := fun _ => C0); unfold rng.
         { intros; lia. }
         { intros s Hs. cbn [wp]. wr; [apply Hal2, (alloc_at _ _ _ Hwa); lia|apply upd_get; reflexivity]. }
         intros m3 H3v H3f H3a. apply WP_seq.
         apply WP_map1 with (dst := fun s => W0 + s) (g := fun _ => C0); unfold rng.
         { intros; lia. }
         { intros s Hs. cbn [wp]. wr; [apply H3a, Hal2, (alloc_at _ _ _ Hwa); lia|apply upd_get; reflexivity]. }
         intros m4 H4v H4f H4a. apply Hcont.
         ++ intros s Hs. destruct (Nat.lt_ge_cases s L).
            ** rewrite H4f, H3f by (intros; lia). apply Hv2; assumption.
            ** rewrite H4v by lia. rewrite RV_out by assumption. reflexivity.
         ++ intros s Hs. rewrite H4f by (intros; lia). destruct (Nat.lt_ge_cases s L).
            ** rewrite H3f by (intros; lia). apply Hv2'; assumption.
            ** rewrite H3v by lia. rewrite RV_out by assumption. reflexivity.
         ++ intros a Ha.
            assert (Ha' : a < W0 \/ W0 + 2 * m <= a).
            { destruct (Nat.lt_ge_cases a W0); [auto|]. destruct (Nat.lt_ge_cases a (W0 + 2 * m)); [|auto].
              exfalso. apply (Ha (a - W0)); lia. }
            rewrite H4f, H3f, Hf2; [reflexivity| | |]; intros; lia.
         ++ discriminate.
         ++ auto.
      -- apply WP_skip. apply WP_seq. apply WP_skip. apply Hcont.
         ++ intros s Hs. destruct (Nat.lt_ge_cases s L); [apply Hv2; assumption|].
            rewrite Hf2 by (intros; lia). rewrite RV_out by assumption.
            specialize (Hpad eq_refl 0 s). rewrite Nat.mul_0_r in Hpad. apply Hpad; lia.
         ++ intros s Hs. destruct (Nat.lt_ge_cases s L); [apply Hv2'; assumption|].
            rewrite Hf2 by (intros; lia). rewrite RV_out by assumption.
            specialize (Hpad eq_refl 1 s). rewrite Nat.mul_1_r in Hpad.
            rewrite <- Nat.add_assoc. apply Hpad; lia.
         ++ intros a Ha.
            assert (Ha' : a < W0 \/ W0 + 2 * m <= a).
            { destruct (Nat.lt_ge_cases a W0); [auto|]. destruct (Nat.lt_ge_cases a (W0 + 2 * m)); [|auto].
              exfalso. apply (Ha (a - W0)); lia. }
            apply Hf2. intros; lia.
         ++ intros s _ Hs. split; apply Hf2; intros; lia.
         ++ auto.
  - (* r > 0 *)
    try rewrite (proj2 (Nat.eqb_neq r 0) Hr) in Hplan; try rewrite (proj2 (Nat.eqb_neq r 0) Hr) in HEr. rewrite Hplan.
    pose proof Hpass as Hpass0. destruct Hpass as [|(Hinc & Hr1 & Hpass)]; [contradiction|].
    apply forward1_tail_spec' with (e0 := 0) (E := E) (rh := rho t r) (x := x); auto; try lia.
    + destruct (Nat.eqb_spec D 1) as [ED|ED].
      * rewrite HEr, ED, dr_D1 by assumption. reflexivity.
      * rewrite HEr, (dr_pair t Hq) by lia. cbn [Nat.add].
        apply (D_even t r Hwf Hq); try lia. assumption.
    + intros ED. rewrite dr_D1 by assumption. lia.
    + intros e He. rewrite Nat.sub_0_r. destruct (Nat.eq_dec D 1) as [ED|ED].
      * rewrite rho_D1 by (assumption || lia). unfold tailrho. rewrite ED. reflexivity.
      * apply rho_tail; [lia|assumption|lia].
    + intros Ei e s He Hs. apply Hpad; auto; lia.
    + intros m' HV HF Hal. apply HK; [exact HV| |exact Hal].
      intros a H1 H2. apply HF; [assumption|]. intros; apply H2; lia.
Qed.
End T.
