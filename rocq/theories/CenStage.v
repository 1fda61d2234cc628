(** The stages of the centered kernels: row transforms, the radix-P stage, twiddle factors. *)
From Coq Require Import Reals ZArith Arith Lia List Bool.
From Verif Require Import CNum Sums Roots Mem VecModel VecProofs PadModel PadKernels Loops
  PadLemmas PadMath PadGeom Fwd1 PadForward Fill CenModel CenMath CenGeom CenFft CenF2 CenPass.

(** row transform of every row of m words; radix-P transform of every block of l=m*P words *)
Definition rowv (m : nat) (sg : Z) (A : nat -> nat -> C) (i c : nat) : C :=
  dft m sg (fun s => A (m * (i / m) + s) c) (i mod m).
Definition colv (m P : nat) (sg : Z) (A : nat -> nat -> C) (i c : nat) : C :=
  dft P sg (fun u => A (m * P * (i / (m * P)) + m * u + i mod m) c) (i mod (m * P) / m).

Lemma lset_tget adr CC g N Rw T i v k (m : mem) : T i = Some v -> lset adr CC g N Rw (k v) m -> lset adr CC g N Rw (tget T i k) m.
Proof. intros E. apply wpe_tget. assumption. Qed.
Lemma sub_off f SS s k c : k <= s -> f + SS * s - SS * k + c = f + SS * (s - k) + c.
Proof. intros Hs. assert (E : exists d, s = k + d) by (exists (s - k); lia). destruct E as [d ->].
  replace (k + d - k) with d by lia. rewrite Nat.mul_add_distr_l. lia. Qed.

Section T.
Variable t : pad.
Hypothesis Hwf : kwf t.
Hypothesis Hq : kq t <> 1.
Notation L := (aL t).  Notation CC := (aC t).  Notation SS := (aS t).  Notation m := (am t).
Notation q := (kq t).   Notation n := (kn t).   Notation M := (kM t).
Notation D := (kD t).  Notation D0 := (kD0 t). Notation P := (kP t). Notation l := (kl t).

Lemma mP1 : 1 <= m /\ 1 <= P. Proof. destruct (k_cg t Hwf Hq). auto. Qed.
Lemma lP : l = m * P. Proof. apply lmP. assumption. Qed.

Lemma kplanN sg : SS <> 1 -> kfftm t sg = mkplan m sg CC SS 1 (ainplace t).
Proof.
  intros HS. unfold kfftm. destruct (Nat.eqb_spec q 1); [contradiction|]. destruct (Nat.eqb_spec SS 1); [contradiction|]. reflexivity.
Qed.

(** S<>1: R row blocks from W to F, one call for each *)
Lemma rowsN_ok sg R W F A (m1 : mem) : SS <> 1 ->
  ainplace t = (W =? F) ->
  (forall i c, i < m * R -> c < CC -> m1 (W + SS * i + c) = Val (A i c)) ->
  (forall i c, i < m * R -> c < CC -> m1 (F + SS * i + c) <> Unalloc) ->
  (W = F \/ sepbuf SS CC W (m * R) F (m * R)) ->
  WP (cfor R (fun t' => fft (kfftm t sg) (W + kSm t * t') (F + kSm t * t'))) m1
     (sets (fun i => F + SS * i) CC (rowv m sg A) (m * R) m1).
Proof.
  intros HS Hin HA Hal Hdis. destruct mP1 as [Hm _]. pose proof (k_CS t Hwf) as HCS.
  rewrite kplanN by assumption. set (adr := fun i => F + SS * i).
  assert (Hinj : injrows adr CC (m * R)) by (apply buf_inj; assumption).
  apply (WP_dnfor adr CC (rowv m sg A) (fun u i => i < m * u)) with (m := m1).
  - apply dn_iff with (P := fun _ => False); [intros; lia|apply dn_nil].
  - intros u m2 Hu H2. unfold kSm.
    assert (Hmu : m * u + m <= m * R) by nia.
    apply (fft_many adr CC (rowv m sg A) (m * R) Hinj m SS sg _ _ _ (m * u) (fun s c => A (m * u + s) c) (fun i => i < m * u) m1);
      try assumption; try lia.
    + rewrite Hin. destruct (Nat.eqb_spec W F), (Nat.eqb_spec (W + SS * m * u) (F + SS * m * u)); try reflexivity; lia.
    + intros s c Hs Hc. replace (W + SS * m * u + SS * s + c) with (W + SS * (m * u + s) + c) by lia.
      rewrite <- HA by lia. destruct Hdis as [->|Hdis].
      * apply (dn_keep adr CC (rowv m sg A) (m * R) Hinj (fun i => i < m * u) m1 m2); try assumption; lia.
      * apply (dn_out adr CC (rowv m sg A) (m * R) (fun i => i < m * u) m1); [assumption|intros; lia|].
        intros i' c' Hi' Hc'. apply Hdis; try assumption; lia.
    + intros s c Hs Hc. replace (F + SS * m * u + SS * s + c) with (F + SS * (m * u + s) + c) by lia. apply Hal; lia.
    + destruct Hdis as [->|Hdis]; [auto|right]. intros i c i' c' Hi Hc Hi' Hc'.
      replace (W + SS * m * u + SS * i + c) with (W + SS * (m * u + i) + c) by lia.
      replace (F + SS * m * u + SS * i' + c') with (F + SS * (m * u + i') + c') by lia. apply Hdis; try assumption; lia.
    + intros s Hs. unfold adr. lia.
    + intros s c Hs Hc. unfold rowv. replace (m * u + s) with (s + u * m) by lia.
      rewrite Nat.div_add, Nat.mod_add, Nat.div_small, Nat.mod_small by lia. apply dft_ext. reflexivity.
    + intros m3 H3. eapply dn_iff; [|exact H3]. intros i. cbv beta. lia.
  - intros m2 H2. apply dn_sets with (P := fun i => i < m * R); [reflexivity|assumption].
Qed.
Lemma rowsN1_ok sg W F A (m1 : mem) : SS <> 1 ->
  ainplace t = (W =? F) ->
  (forall i c, i < m -> c < CC -> m1 (W + SS * i + c) = Val (A i c)) ->
  (forall i c, i < m -> c < CC -> m1 (F + SS * i + c) <> Unalloc) ->
  (W = F \/ sepbuf SS CC W m F m) ->
  WP (fft (kfftm t sg) W F) m1 (sets (fun i => F + SS * i) CC (rowv m sg A) m m1).
Proof.
  intros HS Hin HA Hal Hdis. destruct mP1 as [Hm _]. pose proof (k_CS t Hwf) as HCS.
  rewrite kplanN by assumption. set (adr := fun i => F + SS * i).
  assert (Hinj : injrows adr CC m) by (apply buf_inj; assumption).
  apply (fft_many adr CC (rowv m sg A) m Hinj m SS sg _ _ _ 0 (fun s c => A s c) (fun _ => False) m1);
      try assumption; try lia.
  - apply dn_nil.
  - intros s Hs. unfold adr. lia.
  - intros s c Hs Hc. unfold rowv. cbn [Nat.add].
    rewrite Nat.div_small, Nat.mod_small by lia. apply dft_ext. intros. rewrite Nat.mul_0_r. reflexivity.
  - intros m3 H3. apply dn_sets with (P := fun i => False \/ 0 <= i < 0 + m); [intros; lia|assumption].
Qed.
(** S=1: R rows in one call *)
Lemma rows1_ok sg R W F A (m1 : mem) :
  ainplace t = (W =? F) ->
  (forall i c, i < m * R -> c < 1 -> m1 (W + 1 * i + c) = Val (A i c)) ->
  (forall i c, i < m * R -> c < 1 -> m1 (F + 1 * i + c) <> Unalloc) ->
  (W = F \/ sepbuf 1 1 W (m * R) F (m * R)) ->
  WP (fft (mkplan m sg R 1 m (ainplace t)) W F) m1 (sets (fun i => F + 1 * i) 1 (rowv m sg A) (m * R) m1).
Proof.
  intros Hin HA Hal Hdis. destruct mP1 as [Hm _]. set (adr := fun i => F + 1 * i).
  assert (Hinj : injrows adr 1 (m * R)) by (apply buf_inj; lia).
  apply (fft_one adr 1 (rowv m sg A) (m * R) Hinj m sg R _ _ _ 0 (fun h s => A (m * h + s) 0) (fun _ => False) m1);
      try assumption; try lia.
  - apply dn_nil.
  - intros h s Hh Hs. replace (W + (m * h + s)) with (W + 1 * (m * h + s) + 0) by lia. apply HA; nia.
  - intros i Hi. replace (F + i) with (F + 1 * i + 0) by lia. apply Hal; lia.
  - destruct Hdis as [|Hdis]; [auto|right]. intros i j Hi Hj. apply (sepbuf_1 _ _ _ _ Hdis); lia.
  - intros i Hi. unfold adr. lia.
  - intros h s Hh Hs. unfold rowv. replace (0 + (m * h + s)) with (s + h * m) by lia.
    rewrite Nat.div_add, Nat.mod_add, Nat.div_small, Nat.mod_small by lia. reflexivity.
  - intros m3 H3. apply dn_sets with (P := fun i => False \/ 0 <= i < 0 + m * R); [intros; lia|assumption].
Qed.

(** the radix-P stage *)
Lemma colv_at sg A b u s c : u < P -> s < m ->
  dft P sg (fun u => A (l * b + (m * u + s)) c) u = colv m P sg A (l * b + (m * u + s)) c.
Proof.
  intros Hu Hs. destruct mP1. unfold colv. rewrite <- lP.
  assert (Hl : m * u + s < l) by (rewrite lP; nia).
  replace (l * b + (m * u + s)) with ((m * u + s) + b * l) by lia.
  rewrite Nat.div_add, (Nat.mod_add _ b l), (Nat.div_small (m * u + s)), (Nat.mod_small (m * u + s) l) by lia.
  replace ((m * u + s) / m) with u by (replace (m * u + s) with (s + u * m) by lia; rewrite Nat.div_add, Nat.div_small by lia; reflexivity).
  replace ((m * u + s + b * l) mod m) with s.
  2:{ replace (m * u + s + b * l) with (s + (u + b * P) * m) by (rewrite lP; lia). rewrite Nat.mod_add, Nat.mod_small by lia. reflexivity. }
  apply dft_ext. intros j Hj. f_equal. lia.
Qed.
Lemma cfftpAll_ok sg W A (m1 : mem) : 
  (forall i c, i < l -> c < CC -> m1 (W + SS * i + c) = Val (A i c)) ->
  WP (cfftpAll t sg W) m1 (sets (fun i => W + SS * i) CC (colv m P sg A) l m1).
Proof.
  intros HA. destruct mP1 as [Hm HP]. pose proof (k_CS t Hwf) as HCS. pose proof (k_C t Hwf) as HC.
  set (adr := fun i => W + SS * i).
  assert (Hinj : injrows adr CC l) by (apply buf_inj; assumption).
  assert (Hb : forall u s, u < P -> s < m -> m * u + s < l) by (intros; rewrite lP; nia).
  unfold cfftpAll, kfftp. destruct (Nat.eqb_spec SS CC) as [E|E].
  - apply (fft_cols adr CC (colv m P sg A) l Hinj m P sg W 0 (fun u s c => A (m * u + s) c) (fun _ => False) m1);
      try assumption; try (rewrite lP; lia); try (intros; tauto).
    + apply dn_nil.
    + intros u s c Hu Hs Hc. apply HA; [apply Hb; assumption|assumption].
    + intros i Hi. unfold adr. rewrite E. reflexivity.
    + intros u s c Hu Hs Hc. pose proof (colv_at sg A 0 u s c Hu Hs) as Hv. rewrite Nat.mul_0_r in Hv. exact Hv.
    + intros m3 H3. apply dn_sets with (P := fun i => False \/ 0 <= i < 0 + m * P); [rewrite lP; intros; lia|assumption].
  - apply (WP_dnfor adr CC (colv m P sg A) (fun s i => i < l /\ i mod m < s)) with (m := m1).
    + apply dn_iff with (P := fun _ => False); [intros; lia|apply dn_nil].
    + intros s m2 Hs H2.
      apply (fft_col adr CC (colv m P sg A) l Hinj m P SS sg W 0 s (fun u c => A (m * u + s) c) (fun i => i < l /\ i mod m < s) m1);
        try assumption; try (rewrite lP; lia).
      * intros u c Hu Hc. apply HA; [apply Hb; assumption|assumption].
      * intros i Hi. reflexivity.
      * intros u c Hu Hc. pose proof (colv_at sg A 0 u s c Hu Hs) as Hv. rewrite Nat.mul_0_r in Hv. exact Hv.
      * intros u Hu. replace (0 + (m * u + s)) with (s + u * m) by lia. rewrite Nat.mod_add, Nat.mod_small by lia. lia.
      * intros m3 H3. eapply dn_iff; [|exact H3]. intros i. cbv beta. rewrite Nat.sub_0_r, lP. lia.
    + intros m2 H2. apply dn_sets with (P := fun i => i < l /\ i mod m < m); [|assumption].
      intros i. pose proof (Nat.mod_upper_bound i m ltac:(lia)). lia.
Qed.
(** S=1: one block; two consecutive blocks *)
Lemma fftp_S1 sg W : SS = 1 -> cfftpAll t sg W = fft (kfftp t sg) W W.
Proof. intros HS. unfold cfftpAll. rewrite HS, (k_S1 t Hwf HS). reflexivity. Qed.
Lemma fftp1_ok sg W A (m1 : mem) : SS = 1 ->
  (forall i c, i < l -> c < 1 -> m1 (W + 1 * i + c) = Val (A i c)) ->
  WP (fft (kfftp t sg) W W) m1 (sets (fun i => W + 1 * i) 1 (colv m P sg A) l m1).
Proof.
  intros HS HA. rewrite <- fftp_S1 by assumption. pose proof (cfftpAll_ok sg W A m1) as Hx.
  rewrite HS, (k_S1 t Hwf HS) in Hx. apply Hx. assumption.
Qed.
Lemma colv_shift sg A B i c : colv m P sg (fun i => A (l * B + i)) i c = colv m P sg A (l * B + i) c.
Proof.
  destruct mP1. unfold colv. rewrite <- lP. assert (1 <= l) by (rewrite lP; nia).
  replace (l * B + i) with (i + B * l) by lia. rewrite Nat.div_add, (Nat.mod_add _ B l) by lia.
  replace ((i + B * l) mod m) with (i mod m) by (replace (i + B * l) with (i + (B * P) * m) by (rewrite lP; lia); rewrite Nat.mod_add by lia; reflexivity).
  apply dft_ext. intros. f_equal. lia.
Qed.
Lemma colv_ext sg A A' N i c : (forall i c, i < l * N -> A i c = A' i c) -> i < l * N -> colv m P sg A i c = colv m P sg A' i c.
Proof.
  intros HA Hi. destruct mP1. assert (1 <= l) by (rewrite lP; nia). unfold colv. rewrite <- lP. apply dft_ext. intros u Hu. apply HA.
  assert (i / l < N) by (apply Nat.div_lt_upper_bound; lia).
  pose proof (Nat.mod_upper_bound i m ltac:(lia)). assert (m * u + i mod m < l) by (rewrite lP; nia). nia.
Qed.
Lemma fftp2_ok sg W A (m1 : mem) (K : mem -> Prop) : SS = 1 ->
  (forall i c, i < l * 2 -> c < 1 -> m1 (W + 1 * i + c) = Val (A i c)) ->
  (forall m', sets (fun i => W + 1 * i) 1 (colv m P sg A) (l * 2) m1 m' -> K m') ->
  WP (fft (kfftp t sg) W W) m1 (fun m2 => WP (fft (kfftp t sg) (W + l) (W + l)) m2 K).
Proof.
  intros HS HA HK. eapply WP_mono; [|apply (fftp1_ok sg W A); [assumption|intros; apply HA; lia]].
  intros m2 H2. eapply WP_mono; [|apply (fftp1_ok sg (W + l) (fun i => A (l * 1 + i)) m2); [assumption|]].
  - intros m3 H3. apply HK. replace (l * 2) with (l + l) by lia.
    apply sets_app with (m1 := m2); [apply buf_inj; lia|assumption|].
    destruct H3 as (A1 & A2 & A3). split; [|split; [|assumption]].
    + intros i c Hi Hc. replace (l + i) with (l * 1 + i) by lia. rewrite <- colv_shift, <- A1 by assumption. f_equal. lia.
    + intros a Ha. apply A2. intros i c Hi Hc. specialize (Ha i c Hi Hc). cbv beta in Ha. lia.
  - intros i c Hi Hc. destruct H2 as (_ & S2 & _). rewrite S2.
    + rewrite <- HA by lia. f_equal. lia.
    + intros i' c' Hi' Hc'. lia.
Qed.

Lemma fftp2_ok' sg W A (m1 : mem) (K : mem -> Prop) p : SS = 1 ->
  (forall i c, i < l * 2 -> c < 1 -> m1 (W + 1 * i + c) = Val (A i c)) ->
  (forall m', sets (fun i => W + 1 * i) 1 (colv m P sg A) (l * 2) m1 m' -> WP p m' K) ->
  WP (fft (kfftp t sg) W W) m1 (fun m2 => WP (Seq (fft (kfftp t sg) (W + l) (W + l)) p) m2 K).
Proof.
  intros HS HA HK. eapply WP_mono; [|apply (fftp2_ok sg W A m1 (fun m' => WP p m' K) HS HA HK)].
  intros m2 H2. apply WP_seq. assumption.
Qed.

(** the rows of a finished pass *)
Lemma rowv_kout rh x i c : rowv m 1 (cval t rh x) i c = kout t rh x i c.
Proof.
  destruct mP1 as [Hm _]. pose proof (Nat.div_mod i m ltac:(lia)) as Ei. unfold rowv.
  rewrite (kout_row t Hwf Hq rh x (i / m) (i mod m) c) by (apply Nat.mod_upper_bound; lia).
  rewrite <- Ei. reflexivity.
Qed.
Lemma fdone_sets S0 C0 F W N g g' (m0 m1 m2 : mem) :
  sets (fun i => W + S0 * i) C0 g N m0 m1 ->
  sets (fun i => F + S0 * i) C0 g' N m1 m2 ->
  fdone S0 C0 F W N g' m0 m2.
Proof.
  intros (A1 & A2 & A3) (B1 & B2 & B3). split; [|split; [|auto]].
  - intros. apply B1; assumption.
  - intros a Ha Hb. rewrite B2, A2; [reflexivity| |]; apply outs_inbuf; assumption.
Qed.
Lemma fdone_ext S0 C0 F W N g g' (m0 m2 : mem) :
  (forall i c, i < N -> c < C0 -> g i c = g' i c) -> fdone S0 C0 F W N g m0 m2 -> fdone S0 C0 F W N g' m0 m2.
Proof.
  intros Hg (A1 & A2). split; [|assumption]. intros. rewrite <- Hg by assumption. auto.
Qed.
(** S<>1: one block *)
Lemma manyE r : SS <> 1 -> kblocks t r = 1.
Proof.
  intros HS. pose proof (k_D1 t Hwf Hq HS) as HD. unfold kblocks.
  pose proof (PadGeom.D0_bounds (sh t) (sh_wf t Hwf)) as HB. rewrite (sh_D0 t Hwf), (sh_D t Hwf), HD in HB.
  destruct (r =? 0); lia.
Qed.
Lemma many_rho r x i c : SS <> 1 -> i < l -> cval t (fun _ => Z.of_nat r) x i c = cval t (krho t r) x i c.
Proof.
  intros HS Hi. apply (cval_ext t Hwf Hq _ _ x 1); [|lia]. intros b Hb. replace b with 0 by lia.
  unfold krho. rewrite rho_D1; [reflexivity|rewrite (sh_p t Hwf); lia|]. rewrite (sh_D t Hwf). apply (k_D1 t Hwf Hq HS).
Qed.
Lemma rowsN_out R rh x F W (m0 m1 : mem) : SS <> 1 -> ainplace t = (W =? F) ->
  sets (fun i => W + SS * i) CC (cval t rh x) (m * R) m0 m1 ->
  (forall i c, i < m * R -> c < CC -> m0 (F + SS * i + c) <> Unalloc) ->
  (W = F \/ sepbuf SS CC W (m * R) F (m * R)) ->
  WP (cfor R (fun t' => fft (kfftm t 1) (W + kSm t * t') (F + kSm t * t'))) m1
     (fdone SS CC F W (m * R) (kout t rh x) m0).
Proof.
  intros HS Hin H1 Hal Hdis. pose proof H1 as (A1 & A2 & A3).
  eapply WP_mono; [|apply (rowsN_ok 1 R W F (cval t rh x)); try assumption].
  - intros m2 H2. apply fdone_ext with (g := rowv m 1 (cval t rh x)); [intros; apply rowv_kout|].
    eapply fdone_sets; [exact H1|exact H2].
  - intros. apply A3. apply Hal; assumption.
Qed.
Lemma rowsN1_out rh x F W (m0 m1 : mem) : SS <> 1 -> ainplace t = (W =? F) ->
  sets (fun i => W + SS * i) CC (cval t rh x) m m0 m1 ->
  (forall i c, i < m -> c < CC -> m0 (F + SS * i + c) <> Unalloc) ->
  (W = F \/ sepbuf SS CC W m F m) ->
  WP (fft (kfftm t 1) W F) m1 (fdone SS CC F W m (kout t rh x) m0).
Proof.
  intros HS Hin H1 Hal Hdis. pose proof H1 as (A1 & A2 & A3).
  eapply WP_mono; [|apply (rowsN1_ok 1 W F (cval t rh x)); try assumption].
  - intros m2 H2. apply fdone_ext with (g := rowv m 1 (cval t rh x)); [intros; apply rowv_kout|].
    eapply fdone_sets; [exact H1|exact H2].
  - intros. apply A3. apply Hal; assumption.
Qed.
End T.
