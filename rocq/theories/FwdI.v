(** forwardInner (S=1, p>2). *)
From Coq Require Import Reals ZArith Arith Lia List Bool.
From Verif Require Import CNum Sums Roots Mem VecModel VecProofs PadModel PadKernels Loops
  PadLemmas PadMath PadGeom Fwd1.

Section T.
Variable t : pad.
Hypothesis Hwf : wf t.
Hypothesis Hp : 2 < gp t.
Notation L := (gL t).  Notation m := (gm t). Notation q := (gq t). Notation M := (gM t).
Notation D := (gD t). Notation p := (gp t). Notation n := (gn t).
Let RV (rh : Z) (x : nat -> C) (s : nat) := rowval m p L M rh x s.

Lemma q_pn : q = p * n.
Proof. rewrite (q_eq t), (P_big t Hp). reflexivity. Qed.

Lemma zqm_getI r s : 1 <= r < q -> s < m -> Zetaqm t (m * r + s) = Some (zeta M (Z.of_nat (r * s))).
Proof. intros. apply initZetaqm_get; assumption. Qed.
Lemma zqp_getI r u : 1 <= r < n -> 1 <= u < p ->
  Zetaqp t ((p - 1) * r + u) = Some (zeta q (Z.of_nat (r * u))).
Proof. intros. unfold Zetaqp. rewrite (P_big t Hp). apply initZetaqp_get; assumption. Qed.

Lemma mp_bound u s : u < p -> s < m -> m * u + s < m * p.
Proof. intros. nia. Qed.
Lemma L_inner : m * (p - 1) < L <= m * p.
Proof. split; [apply (wf_mpL t Hwf)|apply (wf_Lmp t Hwf)]. Qed.
Lemma mp_split : m * p = m * (p - 1) + m.
Proof. replace p with (p - 1 + 1) at 1 by lia. lia. Qed.

(** input of the radix-p stage for residue r *)
Definition stageA (r : nat) (x : nat -> C) (u s : nat) : C :=
  if m * u + s <? L then Cmul (zeta q (Z.of_nat (r * u))) (x (m * u + s)) else C0.

Lemma stageA_in r x u s : m * u + s < L -> stageA r x u s = Cmul (zeta q (Z.of_nat (r * u))) (x (m * u + s)).
Proof. intros H. unfold stageA. destruct (Nat.ltb_spec (m * u + s) L); [reflexivity|lia]. Qed.
Lemma stageA_out r x u s : L <= m * u + s -> stageA r x u s = C0.
Proof. intros H. unfold stageA. destruct (Nat.ltb_spec (m * u + s) L); [lia|reflexivity]. Qed.
Lemma stageA_0u r x s : s < m -> stageA r x 0 s = x s.
Proof.
  intros H. pose proof L_inner. rewrite stageA_in by nia. rewrite !Nat.mul_0_r. cbn [Z.of_nat Nat.add].
  rewrite zeta_0. ring.
Qed.
Lemma stageA_r0 x u s : m * u + s < L -> stageA 0 x u s = x (m * u + s).
Proof. intros H. rewrite stageA_in by assumption. cbn [Nat.mul Z.of_nat]. rewrite zeta_0. ring. Qed.

Lemma stageB r x u s : r < n ->
  Cmul (dft p 1 (fun u => stageA r x u s) u) (zeta M (Z.of_nat ((n * u + r) * s)))
  = RV (Z.of_nat (n * u + r)) x s.
Proof.
  intros Hr. unfold RV. rewrite <- (inner_fwd m p n L M q r x u s); auto.
  - apply q_pn.
  - apply (wf_m t Hwf).
  - lia.
  - lia.
Qed.

Hypothesis HS : gS t = 1.
Hypothesis Hq : q <> 1.

Lemma fftp_plan sg : fftp t sg = mkplan p sg m m 1 true.
Proof. unfold fftp. rewrite HS, (S1_C1 t Hwf HS). cbn [Nat.eqb]. unfold gCm.
  rewrite (S1_C1 t Hwf HS), (P_big t Hp), Nat.mul_1_l. reflexivity. Qed.

Lemma WP_fftp sg F (A : nat -> nat -> C) (m0 : mem) (K : mem -> Prop) :
  (forall u s, u < p -> s < m -> m0 (F + m * u + s) = Val (A u s)) ->
  (forall m', (forall u s, u < p -> s < m ->
       m' (F + m * u + s) = Val (dft p sg (fun u => A u s) u)) ->
     (forall a, a < F \/ F + m * p <= a -> m' a = m0 a) ->
     (forall a, m0 a <> Unalloc -> m' a <> Unalloc) -> K m') ->
  WP (fft (fftp t sg) F F) m0 K.
Proof.
  intros HA HK. rewrite fftp_plan. pose proof (wf_m t Hwf).
  apply WP_fft_strided with (x := A).
  - rewrite Nat.eqb_refl. reflexivity.
  - lia.
  - lia.
  - assumption.
  - intros. rewrite HA by assumption. discriminate.
  - auto.
  - intros m' HV HF Hal. apply HK; [assumption| |assumption].
    intros a Ha. apply HF. intros k c Hk Hc. pose proof (mp_bound k c Hk Hc). lia.
Qed.

Lemma forwardInner_residue_spec f F r x (m0 : mem) (K : mem -> Prop) :
  1 <= r < n ->
  dj f L F (m * p) ->
  (forall s, s < L -> m0 (f + s) = Val (x s)) ->
  (forall i, i < m * p -> m0 (F + i) <> Unalloc) ->
  (forall m',
     (forall u s, u < p -> s < m -> m' (F + m * u + s) = Val (RV (Z.of_nat (n * u + r)) x s)) ->
     (forall a, a < F \/ F + m * p <= a -> m' a = m0 a) ->
     (forall a, m0 a <> Unalloc -> m' a <> Unalloc) -> K m') ->
  WP (forwardInner_residue t f F r) m0 K.
Proof.
  intros Hr Hd Hx Ha HK. pose proof L_inner as HL. pose proof mp_split as Hmp.
  pose proof (wf_m t Hwf) as Hm1. pose proof mp_bound as Hb. pose proof q_pn as Hqpn.
  assert (Hb' : forall u s, u < p - 1 -> s < m -> m * u + s < m * (p - 1)) by (intros; nia).
  assert (Hb1 : forall u s, 1 <= u -> m <= m * u + s) by (intros; nia).
  assert (Hmm : m <= m * (p - 1)) by nia. unfold forwardInner_residue. cbv zeta. unfold dj in Hd.
  apply WP_seq. apply WP_map1 with (dst := fun s => F + s) (g := stageA r x 0); unfold rng.
  { intros; lia. }
  { intros s Hs. cbn [wp]. rewrite stageA_0u by lia. rd Hx.
    wr; [apply Ha; lia|apply upd_get; reflexivity]. }
  intros m1 H1v H1f H1a. apply WP_seq.
  assert (Hx1 : forall s, s < L -> m1 (f + s) = Val (x s)).
  { intros s Hs. rewrite H1f by (intros; lia). apply Hx; assumption. }
  eapply WP_map2 with (lo2 := 0) (hi2 := m) (dst := fun u s => F + m * u + s) (g := stageA r x); unfold rng.
  { intros u Hu. rewrite (tget_some _ _ _ _ (zqp_getI r u ltac:(lia) ltac:(lia))). reflexivity. }
  { intros u s u' s' Hu Hs Hu' Hs' E. apply (stride_inj m); lia. }
  { intros u s Hu Hs. cbn [wp]. specialize (Hb' u s ltac:(lia) ltac:(lia)).
    split; [left; intros u' s' Hu' Hs'; pose proof (Hb u' s' ltac:(lia) ltac:(lia)); lia|].
    exists (x (m * u + s)). split; [rewrite <- Nat.add_assoc; apply Hx1; lia|].
    wr; [apply H1a, (alloc_at _ _ _ Ha); lia|apply upd_get; [reflexivity|]].
    symmetry. apply stageA_in. lia. }
  intros m2 H2v H2f H2a. apply WP_seq.
  assert (Hx2 : forall s, s < L -> m2 (f + s) = Val (x s)).
  { intros s Hs. rewrite H2f; [apply Hx1; assumption|].
    intros u' s' Hu' Hs'; pose proof (Hb u' s' ltac:(lia) ltac:(lia)); lia. }
  eapply WP_map1 with (dst := fun s => F + m * (p - 1) + s) (g := stageA r x (p - 1)); unfold rng.
  { intros; lia. }
  { intros s Hs. rewrite (tget_some _ _ _ _ (zqp_getI r (p - 1) ltac:(lia) ltac:(lia))). cbn [wp].
    split; [left; intros; lia|]. exists (x (m * (p - 1) + s)).
    split; [rewrite <- Nat.add_assoc; apply Hx2; lia|].
    wr; [apply H2a, H1a, (alloc_at _ _ _ Ha); lia|apply upd_get; [reflexivity|]].
    symmetry. apply stageA_in. lia. }
  intros m3 H3v H3f H3a. apply WP_seq.
  eapply WP_map1 with (dst := fun s => F + m * (p - 1) + s) (g := stageA r x (p - 1)); unfold rng.
  { intros; lia. }
  { intros s Hs. cbn [wp].
    wr; [apply H3a, H2a, H1a, (alloc_at _ _ _ Ha); lia|apply upd_get; [reflexivity|]].
    symmetry. apply stageA_out. lia. }
  intros m4 H4v H4f H4a. apply WP_seq.
  apply WP_fftp with (A := stageA r x).
  { intros u s Hu Hs. destruct (Nat.eq_dec u (p - 1)) as [->|Hne].
    - destruct (Nat.lt_ge_cases s (L - m * (p - 1))); [|apply H4v; lia].
      rewrite H4f by (intros; lia). apply H3v; lia.
    - pose proof (Hb' u s ltac:(lia) ltac:(lia)). rewrite H4f, H3f by (intros; lia).
      destruct (Nat.eq_dec u 0) as [->|]; [|apply H2v; lia].
      rewrite H2f by (intros u' s' Hu' Hs'; pose proof (Hb1 u' s' ltac:(lia)); lia).
      rewrite Nat.mul_0_r, Nat.add_0_r. apply H1v; lia. }
  intros m5 H5v H5f H5a.
  eapply WP_map2 with (lo2 := 1) (hi2 := m) (dst := fun u s => F + m * u + s)
     (g := fun u s => RV (Z.of_nat (n * u + r)) x s); unfold rng.
  { intros u Hu. reflexivity. }
  { intros u s u' s' Hu Hs Hu' Hs' E. apply (stride_inj m); lia. }
  { intros u s Hu Hs. cbn [wp].
    split; [right; reflexivity|]. eexists. split; [apply H5v; lia|].
    assert (n * u + r < q) by nia.
    rewrite (tget_some _ _ _ _ (zqm_getI (n * u + r) s ltac:(lia) ltac:(lia))). cbn [wp].
    pose proof (Hb u s ltac:(lia) ltac:(lia)).
    wr; [apply H5a, H4a, H3a, H2a, H1a, (alloc_at _ _ _ Ha); lia|apply upd_get; [reflexivity|]].
    apply stageB. lia. }
  intros m6 H6v H6f H6a. apply HK.
  - intros u s Hu Hs. destruct (Nat.eq_dec s 0) as [->|]; [|apply H6v; lia].
    rewrite H6f.
    + rewrite H5v by lia. f_equal. rewrite <- stageB by lia. rewrite Nat.mul_0_r. cbn [Z.of_nat].
      rewrite zeta_0. ring.
    + intros u' s' Hu' Hs' E. assert (u' = u /\ s' = 0) by (apply (stride_inj m); lia). lia.
  - intros a Hao. rewrite H6f, H5f, H4f, H3f, H2f, H1f; [reflexivity|..]; try (intros; lia).
    + intros u' s' Hu' Hs'; pose proof (Hb u' s' ltac:(lia) ltac:(lia)); lia.
    + intros u' s' Hu' Hs'; pose proof (Hb u' s' ltac:(lia) ltac:(lia)); lia.
  - auto 10.
Qed.

Lemma rho_inner r e : rho t r e = Z.of_nat (n * (e mod p) + (r + e / p)).
Proof. unfold rho. destruct (Nat.ltb_spec 2 p); [reflexivity|lia]. Qed.
Lemma rho_inner' r d u : u < p -> rho t r (p * d + u) = Z.of_nat (n * u + (r + d)).
Proof.
  intros Hu. rewrite rho_inner. replace (p * d + u) with (u + d * p) by lia.
  rewrite Nat.mod_add, Nat.div_add, Nat.mod_small, Nat.div_small by lia. reflexivity.
Qed.

Lemma plan_rowsI sg r : (if r =? 0 then (if gD0 t =? D then fftm t sg else fftm0 t sg) else fftm t sg)
   = mkplan m sg (nrows t r) 1 m (ainplace t).
Proof.
  unfold nrows, fftm, fftm0.
  destruct (Nat.eqb_spec q 1); [contradiction|]. rewrite HS. cbn [Nat.eqb].
  rewrite (S1_C1 t Hwf HS), Nat.mul_1_l.
  destruct (r =? 0).
  - destruct (Nat.eqb_spec (gD0 t) D) as [->|]; f_equal; lia.
  - f_equal; lia.
Qed.

Lemma dr_inner : gdr t = D.
Proof.
  unfold gdr, gDr, conjugates. destruct (Nat.eqb_spec q 1); [contradiction|].
  destruct (Nat.leb_spec p 2); [lia|]. rewrite andb_false_r. reflexivity.
Qed.
Lemma R_inner : gR t = n.
Proof.
  unfold gR, residueBlocks, conjugates. destruct (Nat.eqb_spec q 1); [contradiction|].
  destruct (Nat.leb_spec p 2); [lia|]. rewrite andb_false_r. reflexivity.
Qed.
Lemma b_inner : gb t = m * p.
Proof. unfold gb. rewrite HS, (l_eq t Hwf), (P_big t Hp). lia. Qed.

Lemma forwardInner_tail_spec f F0 W0 Wt r0 dr0 plan1 d0 E (rh : nat -> Z) x (m0 : mem) (K : mem -> Prop) :
  Wt = W0 + m * p * d0 ->
  E = p * (d0 + dr0) ->
  plan1 = mkplan m 1 E 1 m (ainplace t) ->
  ainplace t = (W0 =? F0) ->
  1 <= r0 -> (1 <= dr0 -> r0 + dr0 <= n) ->
  dj f L W0 (m * E) -> dj f L F0 (m * E) ->
  (W0 = F0 \/ dj W0 (m * E) F0 (m * E)) ->
  (forall s, s < L -> m0 (f + s) = Val (x s)) ->
  (forall i, i < m * E -> m0 (W0 + i) <> Unalloc) ->
  (forall i, i < m * E -> m0 (F0 + i) <> Unalloc) ->
  (forall e s, e < p * d0 -> s < m -> m0 (W0 + (m * e + s)) = Val (RV (rh e) x s)) ->
  (forall d u, d < dr0 -> u < p -> rh (p * (d0 + d) + u) = Z.of_nat (n * u + (r0 + d))) ->
  (forall m',
     (forall e k, e < E -> k < m ->
        m' (F0 + (m * e + k)) = Val (outv M L x (Z.of_nat q * Z.of_nat k + rh e))) ->
     (forall a, (forall i, i < m * E -> F0 + i <> a) ->
        (forall i, i < m * E -> W0 + i <> a) -> m' a = m0 a) ->
     (forall a, m0 a <> Unalloc -> m' a <> Unalloc) -> K m') ->
  WP (Seq (cfor dr0 (fun d => forwardInner_residue t f (Wt + gb t * d) (r0 + d)))
          (fft plan1 W0 F0)) m0 K.
Proof.
  intros HWt HE Hplan Hinpl Hr0 Hrq Hdw Hdf Hwd Hx Hwa Hfa Hrow Hrh HK.
  pose proof L_inner as HL. pose proof mp_split as Hmp. pose proof (wf_m t Hwf) as Hm1.
  pose proof mp_bound as Hb. rewrite b_inner. unfold dj in *.
  assert (HmE : m * E = m * p * d0 + m * p * dr0) by (rewrite HE; lia).
  apply WP_seq.
  set (I := fun d (m1 : mem) =>
     (forall d' u s, d' < d -> u < p -> s < m ->
        m1 (Wt + m * p * d' + m * u + s) = Val (RV (Z.of_nat (n * u + (r0 + d'))) x s)) /\
     (forall a, (a < Wt \/ Wt + m * p * d <= a) -> m1 a = m0 a) /\
     (forall a, m0 a <> Unalloc -> m1 a <> Unalloc)).
  eapply WP_mono; [|apply (WP_cfor C dr0 _ I)].
  2:{ unfold I. split; [intros; lia|]. split; [reflexivity|auto]. }
  2:{ intros d m1 Hd (I1 & I2 & I3).
      assert (Hdd : m * p * d + m * p <= m * p * dr0) by nia.
      apply forwardInner_residue_spec with (x := x).
      - lia.
      - unfold dj. lia.
      - intros s Hs. rewrite I2 by lia. apply Hx; assumption.
      - intros i Hi. apply I3, (alloc_at _ _ _ Hwa). lia.
      - intros m2 H2v H2f H2a. unfold I. split; [|split].
        + intros d' u s Hd' Hu Hs. destruct (Nat.eq_dec d' d) as [->|Hne].
          * apply H2v; assumption.
          * assert (m * p * d' + m * p <= m * p * d) by nia. pose proof (Hb u s Hu Hs).
            rewrite H2f by lia. apply I1; lia.
        + intros a Hao. replace (m * p * S d) with (m * p * d + m * p) in Hao by lia.
          rewrite H2f, I2 by lia. reflexivity.
        + auto. }
  intros m1 (I1 & I2 & I3). subst plan1. apply WP_fft_rows with (x := fun e => RV (rh e) x).
  - assumption.
  - assumption.
  - intros e s He Hs. destruct (Nat.lt_ge_cases e (p * d0)) as [He0|He0].
    + rewrite I2; [apply Hrow; assumption|]. assert (m * e + m <= m * (p * d0)) by nia. lia.
    + set (d := (e - p * d0) / p). set (u := (e - p * d0) mod p).
      assert (Ee : e - p * d0 = p * d + u) by (apply Nat.div_mod; lia).
      assert (Hu : u < p) by (apply Nat.mod_upper_bound; lia).
      assert (Hd : d < dr0) by nia. clearbody d u.
      assert (Ee' : e = p * (d0 + d) + u) by lia. rewrite Ee', Hrh by assumption.
      rewrite <- I1 by assumption. f_equal. rewrite HWt. lia.
  - intros; apply I3, Hfa; assumption.
  - destruct Hwd as [->|Hwd]; [auto|right; intros; lia].
  - intros m2 HV HF Hal. apply HK.
    + intros e k He Hk. rewrite HV by assumption. f_equal. unfold RV.
      change (fun s => rowval m p L M (rh e) x s) with (rowval m p L M (rh e) x).
      apply row_dft; auto; try lia. apply (q_pos t Hwf).
    + intros a H1 H2. rewrite HF by assumption. apply I2.
      destruct (Nat.lt_ge_cases a W0); [lia|]. destruct (Nat.lt_ge_cases a (W0 + m * E)); [|lia].
      exfalso. apply (H2 (a - W0)); lia.
    + auto.
Qed.

Lemma forwardInner_spec f F0 W r x (m0 : mem) (K : mem -> Prop) :
  let W0 := getW F0 W in
  let E := nrows t r in
  passr t r ->
  ainplace t = (W0 =? F0) ->
  dj f L W0 (m * E) -> dj f L F0 (m * E) ->
  (W0 = F0 \/ dj W0 (m * E) F0 (m * E)) ->
  (forall s, s < L -> m0 (f + s) = Val (x s)) ->
  (forall i, i < m * E -> m0 (W0 + i) <> Unalloc) ->
  (forall i, i < m * E -> m0 (F0 + i) <> Unalloc) ->
  (forall m',
     (forall e k, e < E -> k < m ->
        m' (F0 + (m * e + k)) = Val (outv M L x (Z.of_nat q * Z.of_nat k + rho t r e))) ->
     (forall a, (forall i, i < m * E -> F0 + i <> a) ->
        (forall i, i < m * E -> W0 + i <> a) -> m' a = m0 a) ->
     (forall a, m0 a <> Unalloc -> m' a <> Unalloc) -> K m') ->
  WP (forwardInner t f F0 r W) m0 K.
Proof.
  intros W0 E Hpass Hinpl Hdw Hdf Hwd Hx Hwa Hfa HK.
  pose proof L_inner as HL. pose proof mp_split as Hmp. pose proof (wf_m t Hwf) as Hm1.
  pose proof mp_bound as Hb. pose proof (D0_bounds t Hwf) as HD0. pose proof q_pn as Hqpn.
  pose proof (D0_le_n t Hwf) as HD0n. pose proof R_inner as HR. pose proof (n_pos t Hwf) as Hn1.
  assert (Hb' : forall u s, u < p - 1 -> s < m -> m * u + s < m * (p - 1)) by (intros; nia).
  unfold forwardInner. fold W0. cbv zeta. pose proof (plan_rowsI 1 r) as Hplan.
  assert (HEr : E = p * (if r =? 0 then gD0 t else D)) by (unfold E, nrows; rewrite (P_big t Hp); reflexivity).
  fold E in Hplan. clearbody E W0. destruct (Nat.eqb_spec r 0) as [->|Hr].
  - rewrite Hplan.
    assert (HmE : m * p <= m * E) by (rewrite HEr; nia).
    assert (Hmm : m <= m * (p - 1)) by nia. unfold dj in *.
    apply WP_seq.
    eapply WP_map2 with (lo2 := 0) (hi2 := m) (dst := fun u s => W0 + m * u + s) (g := stageA 0 x); unfold rng.
    { intros u Hu. reflexivity. }
    { intros u s u' s' Hu Hs Hu' Hs' E'. apply (stride_inj m); lia. }
    { intros u s Hu Hs. cbn [wp]. specialize (Hb' u s ltac:(lia) ltac:(lia)).
      split; [left; intros u' s' Hu' Hs'; pose proof (Hb u' s' ltac:(lia) ltac:(lia)); lia|].
      exists (x (m * u + s)). split; [rewrite <- Nat.add_assoc; apply Hx; lia|].
      wr; [apply (alloc_at _ _ _ Hwa); lia|apply upd_get; [reflexivity|]].
      symmetry. apply stageA_r0. lia. }
    intros m2 H2v H2f H2a. apply WP_seq.
    assert (Hx2 : forall s, s < L -> m2 (f + s) = Val (x s)).
    { intros s Hs. rewrite H2f; [apply Hx; assumption|].
      intros u' s' Hu' Hs'; pose proof (Hb u' s' ltac:(lia) ltac:(lia)); lia. }
    eapply WP_map1 with (dst := fun s => W0 + m * (p - 1) + s) (g := stageA 0 x (p - 1)); unfold rng.
    { intros; lia. }
    { intros s Hs. cbn [wp].
      split; [left; intros; lia|]. exists (x (m * (p - 1) + s)).
      split; [rewrite <- Nat.add_assoc; apply Hx2; lia|].
      wr; [apply H2a, (alloc_at _ _ _ Hwa); lia|apply upd_get; [reflexivity|]].
      symmetry. apply stageA_r0. lia. }
    intros m3 H3v H3f H3a. apply WP_seq.
    eapply WP_map1 with (dst := fun s => W0 + m * (p - 1) + s) (g := stageA 0 x (p - 1)); unfold rng.
    { intros; lia. }
    { intros s Hs. cbn [wp].
      wr; [apply H3a, H2a, (alloc_at _ _ _ Hwa); lia|apply upd_get; [reflexivity|]].
      symmetry. apply stageA_out. lia. }
    intros m4 H4v H4f H4a. apply WP_seq.
    apply WP_fftp with (A := stageA 0 x).
    { intros u s Hu Hs. destruct (Nat.eq_dec u (p - 1)) as [->|Hne].
      - destruct (Nat.lt_ge_cases s (L - m * (p - 1))); [|apply H4v; lia].
        rewrite H4f by (intros; lia). apply H3v; lia.
      - pose proof (Hb' u s ltac:(lia) ltac:(lia)). rewrite H4f, H3f by (intros; lia).
        apply H2v; lia. }
    intros m5 H5v H5f H5a. apply WP_seq.
    eapply WP_map2 with (lo2 := 1) (hi2 := m) (dst := fun u s => W0 + m * u + s)
       (g := fun u s => RV (Z.of_nat (n * u)) x s); unfold rng.
    { intros u Hu. reflexivity. }
    { intros u s u' s' Hu Hs Hu' Hs' E'. apply (stride_inj m); lia. }
    { intros u s Hu Hs. cbn [wp].
      split; [right; reflexivity|]. eexists. split; [apply H5v; lia|].
      assert (1 <= n * u < q) by nia.
      rewrite (tget_some _ _ _ _ (zqm_getI (n * u) s ltac:(lia) ltac:(lia))). cbn [wp].
      pose proof (Hb u s ltac:(lia) ltac:(lia)).
      wr; [apply H5a, H4a, H3a, H2a, (alloc_at _ _ _ Hwa); lia|apply upd_get; [reflexivity|]].
      pose proof (stageB 0 x u s ltac:(lia)) as HB. rewrite Nat.add_0_r in HB. exact HB. }
    intros m6 H6v H6f H6a.
    assert (Hrows : forall u s, u < p -> s < m -> m6 (W0 + m * u + s) = Val (RV (Z.of_nat (n * u)) x s)).
    { intros u s Hu Hs.
      destruct (Nat.eq_dec s 0) as [Es|Hs0]; [|destruct (Nat.eq_dec u 0) as [Eu|Hu0]; [|apply H6v; lia]].
      - rewrite H6f.
        + rewrite H5v by lia. f_equal. pose proof (stageB 0 x u s ltac:(lia)) as HB.
          rewrite Nat.add_0_r in HB. rewrite <- HB, Es, Nat.mul_0_r. cbn [Z.of_nat]. rewrite zeta_0. ring.
        + intros u' s' Hu' Hs' E'. assert (u' = u /\ s' = s) by (apply (stride_inj m); lia). lia.
      - rewrite H6f.
        + rewrite H5v by lia. f_equal. pose proof (stageB 0 x u s ltac:(lia)) as HB.
          rewrite Nat.add_0_r in HB. rewrite <- HB, Eu, Nat.mul_0_r. cbn [Z.of_nat Nat.mul]. rewrite zeta_0. ring.
        + intros u' s' Hu' Hs' E'. assert (u' = u /\ s' = s) by (apply (stride_inj m); lia). lia. }
    assert (Hfr : forall a, a < W0 \/ W0 + m * p <= a -> m6 a = m0 a).
    { intros a Hao. rewrite H6f, H5f, H4f, H3f, H2f; [reflexivity|..]; try (intros; lia).
      - intros u' s' Hu' Hs'; pose proof (Hb u' s' ltac:(lia) ltac:(lia)); lia.
      - intros u' s' Hu' Hs'; pose proof (Hb u' s' ltac:(lia) ltac:(lia)); lia. }
    apply forwardInner_tail_spec with (d0 := 1) (E := E) (rh := rho t 0) (x := x); unfold dj; auto 10; try lia.
    + rewrite b_inner. lia.
    + rewrite HEr. f_equal. lia.
    + intros s Hs. rewrite Hfr by lia. apply Hx; assumption.
    + intros e s He Hs. replace e with (p * 0 + e) at 2 by lia.
      rewrite rho_inner' by lia. cbn [Nat.add]. rewrite !Nat.add_0_r.
      rewrite Nat.add_assoc. apply Hrows; lia.
    + intros d u Hd Hu. rewrite rho_inner' by assumption. f_equal.
    + intros m' HV HF Hal. apply HK; [exact HV| |auto 10].
      intros a H1 H2. rewrite HF by assumption. apply Hfr.
      destruct (Nat.lt_ge_cases a W0); [lia|]. destruct (Nat.lt_ge_cases a (W0 + m * E)); [|lia].
      exfalso. apply (H2 (a - W0)); lia.
  - rewrite Hplan. destruct Hpass as [|(Hinc & Hr1 & Hpass)]; [contradiction|].
    rewrite dr_inner in *.
    apply forwardInner_tail_spec with (d0 := 0) (E := E) (rh := rho t r) (x := x); auto; try lia.
    intros d u Hd Hu. rewrite rho_inner' by assumption. reflexivity.
Qed.
End T.
