(** In-place FFT stages over several blocks of l rows that need not be contiguous
    (the overwrite mode uses f, f+b and F). *)
From Coq Require Import Reals ZArith Arith Lia List Bool.
From Verif Require Import CNum Sums Roots Mem VecModel VecProofs PadModel PadKernels Loops
  PadLemmas PadMath PadGeom Fwd1 PadForward Fill CenModel CenMath CenGeom CenFft CenF2 CenPass CenStage CenTw.

Section T.
Variable t : pad.
Hypothesis Hwf : kwf t.
Hypothesis Hq : kq t <> 1.
Hypothesis Hin : ainplace t = true.
Notation CC := (aC t).  Notation SS := (aS t).  Notation m := (am t).
Notation P := (kP t). Notation l := (kl t).
Variables (base : nat -> addr) (adr : nat -> addr) (B : nat).
Hypothesis Hadr : forall b i, b < B -> i < l -> base b + SS * i = adr (l * b + i).
Hypothesis Hinj : injrows adr CC (l * B).
Variables (A : nat -> nat -> C) (sg : Z) (m1 : mem).
Hypothesis HA : forall i c, i < l * B -> c < CC -> m1 (adr i + c) = Val (A i c).

Notation at3 := (at3 m P B).
Lemma T_mP : 1 <= m /\ 1 <= P. Proof. apply mP1; assumption. Qed.
Lemma T_lB b : b < B -> l * b + l <= l * B. Proof. intros Hb. nia. Qed.

Lemma at3_blk (Q : nat -> nat -> nat -> Prop) b0 i : b0 < B ->
  (at3 Q i \/ l * b0 <= i < l * b0 + m * P) <-> at3 (fun b u s => Q b u s \/ b = b0) i.
Proof.
  intros Hb. destruct T_mP as [Hm HP]. pose proof (lP t Hq) as Hl. split.
  - intros [(b & u & s & H1 & H2 & H3 & E & HQ)|Hi].
    + exists b, u, s. auto 10.
    + exists b0, ((i - l * b0) / m), ((i - l * b0) mod m).
      pose proof (Nat.div_mod (i - l * b0) m ltac:(lia)). pose proof (Nat.mod_upper_bound (i - l * b0) m ltac:(lia)).
      assert ((i - l * b0) / m < P) by (apply Nat.div_lt_upper_bound; lia).
      repeat (split; [assumption|]). split; [rewrite <- Hl; lia|auto].
  - intros (b & u & s & H1 & H2 & H3 & E & [HQ| ->]).
    + left. exists b, u, s. auto 10.
    + right. rewrite <- Hl in E. assert (m * u + s < m * P) by nia. lia.
Qed.
Lemma at3_colset (Q : nat -> nat -> nat -> Prop) b0 s0 i : b0 < B -> s0 < m ->
  (at3 Q i \/ (l * b0 <= i < l * b0 + m * P /\ (i - l * b0) mod m = s0)) <-> at3 (fun b u s => Q b u s \/ (b = b0 /\ s = s0)) i.
Proof.
  intros Hb Hs0. destruct T_mP as [Hm HP]. pose proof (lP t Hq) as Hl. split.
  - intros [(b & u & s & H1 & H2 & H3 & E & HQ)|[Hi Hmod]].
    + exists b, u, s. auto 10.
    + exists b0, ((i - l * b0) / m), s0.
      pose proof (Nat.div_mod (i - l * b0) m ltac:(lia)).
      assert ((i - l * b0) / m < P) by (apply Nat.div_lt_upper_bound; lia).
      repeat (split; [assumption|]). split; [rewrite <- Hl; lia|auto].
  - intros (b & u & s & H1 & H2 & H3 & E & [HQ|[-> ->]]).
    + left. exists b, u, s. auto 10.
    + right. rewrite <- Hl in E. assert (m * u + s0 < m * P) by nia. split; [lia|].
      replace (i - l * b0) with (s0 + u * m) by lia. rewrite Nat.mod_add, Nat.mod_small by lia. reflexivity.
Qed.
Lemma at3_rowset (Q : nat -> nat -> nat -> Prop) b0 u0 i : b0 < B -> u0 < P ->
  (at3 Q i \/ l * b0 + m * u0 <= i < l * b0 + m * u0 + m) <-> at3 (fun b u s => Q b u s \/ (b = b0 /\ u = u0)) i.
Proof.
  intros Hb Hu0. destruct T_mP as [Hm HP]. pose proof (lP t Hq) as Hl. split.
  - intros [(b & u & s & H1 & H2 & H3 & E & HQ)|Hi].
    + exists b, u, s. auto 10.
    + exists b0, u0, (i - (l * b0 + m * u0)). split; [assumption|]. split; [assumption|]. split; [lia|].
      split; [rewrite <- Hl; lia|auto].
  - intros (b & u & s & H1 & H2 & H3 & E & [HQ|[-> ->]]).
    + left. exists b, u, s. auto 10.
    + right. rewrite <- Hl in E. lia.
Qed.
Lemma at3_N (Q : nat -> nat -> nat -> Prop) i : at3 Q i -> i < l * B.
Proof.
  destruct T_mP. pose proof (lP t Hq) as Hl. intros (b & u & s & Hb & Hu & Hs & -> & _).
  assert (m * u + s < m * P) by nia. assert (l * b + l <= l * B) by nia. rewrite <- Hl. lia.
Qed.
Lemma at3_at (Q : nat -> nat -> nat -> Prop) b u s : u < P -> s < m -> at3 Q (l * b + (m * u + s)) -> Q b u s.
Proof.
  intros Hu Hs (b' & u' & s' & H1 & H2 & H3 & E & HQ). destruct T_mP. rewrite (lP t Hq) in E.
  apply (at3_inj (m * P * B) m P B) in E; try assumption; [|lia]. destruct E as (-> & -> & ->). assumption.
Qed.
Lemma row_at b u s c : b < B -> u < P -> s < m ->
  dft m sg (fun s => A (l * b + (m * u + s)) c) s = rowv m sg A (l * b + (m * u + s)) c.
Proof.
  intros Hb Hu Hs. destruct T_mP. unfold rowv. pose proof (lP t Hq) as Hl.
  replace (l * b + (m * u + s)) with (s + (P * b + u) * m) by lia.
  rewrite Nat.div_add, Nat.mod_add, Nat.div_small, Nat.mod_small by lia. apply dft_ext. intros j Hj. f_equal. lia.
Qed.

Section S.
Variable Q : nat -> nat -> nat -> Prop.
Variables (g : nat -> nat -> C) (b0 : nat) (m2 : mem) (K : mem -> Prop).
Hypothesis Hb0 : b0 < B.
Hypothesis H2 : dn adr CC g (at3 Q) m1 m2.

Lemma keep3 i c : i < l * B -> c < CC -> ~ at3 Q i -> m2 (adr i + c) = Val (A i c).
Proof.
  intros Hi Hc Hn. rewrite <- HA by assumption.
  apply (dn_keep adr CC g (l * B) Hinj (at3 Q)); try assumption. intros j. apply at3_N.
Qed.
Lemma lt3 u s : u < P -> s < m -> m * u + s < l.
Proof. intros. rewrite (lP t Hq). nia. Qed.

Lemma step_col s0 : s0 < m -> SS <> CC -> g = colv m P sg A ->
  (forall u, u < P -> ~ Q b0 u s0) ->
  (forall m', dn adr CC g (at3 (fun b u s => Q b u s \/ (b = b0 /\ s = s0))) m1 m' -> K m') ->
  WP (fft (kfftp t sg) (base b0 + SS * s0) (base b0 + SS * s0)) m2 K.
Proof.
  intros Hs HSC Hg HQ HK. destruct T_mP as [Hm HP]. pose proof (k_CS t Hwf) as HCS. pose proof (lP t Hq) as Hl.
  pose proof (T_lB b0 Hb0).
  unfold kfftp. destruct (Nat.eqb_spec SS CC); [contradiction|]. unfold kSm.
  apply (fft_col adr CC g (l * B) Hinj m P SS sg (base b0) (l * b0) s0 (fun u c => A (l * b0 + (m * u + s0)) c) (at3 Q) m1); try assumption; try lia.
  - intros u c Hu Hc. apply HA; [|assumption]. pose proof (lt3 u s0 Hu Hs). lia.
  - intros i Hi. apply Hadr; [assumption|lia].
  - intros u c Hu Hc. rewrite Hg. apply (colv_at t Hwf Hq); assumption.
  - intros i. apply at3_N.
  - intros u Hu Hx. apply at3_at in Hx; try assumption. apply (HQ u Hu Hx).
  - intros m3 H3. apply HK. eapply dn_iff; [|exact H3]. intros i. apply at3_colset; assumption.
Qed.
Lemma step_bcol : SS = CC -> g = colv m P sg A ->
  (forall u s, u < P -> s < m -> ~ Q b0 u s) ->
  (forall m', dn adr CC g (at3 (fun b u s => Q b u s \/ b = b0)) m1 m' -> K m') ->
  WP (fft (kfftp t sg) (base b0) (base b0)) m2 K.
Proof.
  intros HSC Hg HQ HK. destruct T_mP as [Hm HP]. pose proof (k_CS t Hwf) as HCS. pose proof (k_C t Hwf) as HC. pose proof (lP t Hq) as Hl.
  pose proof (T_lB b0 Hb0).
  unfold kfftp. destruct (Nat.eqb_spec SS CC); [|contradiction]. unfold kCm.
  apply (fft_cols adr CC g (l * B) Hinj m P sg (base b0) (l * b0) (fun u s c => A (l * b0 + (m * u + s)) c) (at3 Q) m1); try assumption; try lia.
  - intros u s c Hu Hs Hc. apply HA; [|assumption]. pose proof (lt3 u s Hu Hs). lia.
  - intros i Hi. rewrite <- HSC. apply Hadr; [assumption|lia].
  - intros u s c Hu Hs Hc. rewrite Hg. apply (colv_at t Hwf Hq); assumption.
  - intros i. apply at3_N.
  - intros i Hi (b & u & s & F1 & F2 & F3 & E & HQ'). rewrite <- Hl in E.
    assert (b = b0). { pose proof (lt3 u s F2 F3). destruct (Nat.lt_trichotomy b b0) as [Hx|[Hx|Hx]]; [nia|assumption|nia]. }
    subst b. apply (HQ u s F2 F3 HQ').
  - intros m3 H3. apply HK. eapply dn_iff; [|exact H3]. intros i. apply at3_blk; assumption.
Qed.
Lemma step_row u0 : u0 < P -> SS <> 1 -> g = rowv m sg A ->
  (forall s, s < m -> ~ Q b0 u0 s) ->
  (forall m', dn adr CC g (at3 (fun b u s => Q b u s \/ (b = b0 /\ u = u0))) m1 m' -> K m') ->
  WP (fft (kfftm t sg) (base b0 + kSm t * u0) (base b0 + kSm t * u0)) m2 K.
Proof.
  intros Hu HS Hg HQ HK. destruct T_mP as [Hm HP]. pose proof (k_CS t Hwf) as HCS. pose proof (lP t Hq) as Hl.
  pose proof (T_lB b0 Hb0). rewrite (kplanN t Hq) by assumption. unfold kSm.
  assert (Hx : forall s, s < m -> base b0 + SS * m * u0 + SS * s = adr (l * b0 + (m * u0 + s))).
  { intros s Hs. rewrite <- Hadr; [lia|assumption|apply lt3; assumption]. }
  assert (Hmu : m * u0 + m <= m * P) by nia.
  apply (fft_many adr CC g (l * B) Hinj m SS sg _ _ _ (l * b0 + m * u0) (fun s c => A (l * b0 + (m * u0 + s)) c) (at3 Q) m1); try assumption; try lia.
  - rewrite Nat.eqb_refl. assumption.
  - intros s c Hs Hc. rewrite Hx by assumption. pose proof (lt3 u0 s Hu Hs). apply keep3; [lia|assumption|].
    intros Ha. apply at3_at in Ha; try assumption. apply (HQ s Hs Ha).
  - intros s c Hs Hc. rewrite Hx by assumption. pose proof (lt3 u0 s Hu Hs). rewrite HA by lia. discriminate.
  - intros s Hs. rewrite Hx by assumption. f_equal. lia.
  - intros s c Hs Hc. rewrite Hg. replace (l * b0 + m * u0 + s) with (l * b0 + (m * u0 + s)) by lia. apply row_at; assumption.
  - intros i. apply at3_N.
  - intros i Hi Ha. replace i with (l * b0 + (m * u0 + (i - (l * b0 + m * u0)))) in Ha by lia.
    apply at3_at in Ha; try lia. apply (HQ (i - (l * b0 + m * u0))); [lia|assumption].
  - intros m3 H3. apply HK. eapply dn_iff; [|exact H3]. intros i. apply at3_rowset; assumption.
Qed.
Lemma step_brow : SS = 1 -> kD t = 1 -> g = rowv m sg A ->
  (forall u s, u < P -> s < m -> ~ Q b0 u s) ->
  (forall m', dn adr CC g (at3 (fun b u s => Q b u s \/ b = b0)) m1 m' -> K m') ->
  WP (fft (kfftm t sg) (base b0) (base b0)) m2 K.
Proof.
  intros HS HD Hg HQ HK. destruct T_mP as [Hm HP]. pose proof (k_S1 t Hwf HS) as HC. pose proof (lP t Hq) as Hl.
  pose proof (T_lB b0 Hb0).
  assert (Epl : kfftm t sg = mkplan m sg P 1 m (ainplace t)).
  { unfold kfftm. destruct (Nat.eqb_spec (kq t) 1); [contradiction|]. rewrite HS, HC, HD. cbn [Nat.eqb]. f_equal. lia. }
  rewrite Epl.
  assert (Hx : forall i, i < l -> base b0 + i = adr (l * b0 + i)).
  { intros i Hi. rewrite <- Hadr by assumption. rewrite HS. lia. }
  apply (fft_one adr CC g (l * B) Hinj m sg P _ _ _ (l * b0) (fun u s => A (l * b0 + (m * u + s)) 0) (at3 Q) m1); try assumption; try lia.
  - rewrite Nat.eqb_refl. assumption.
  - intros u s Hu Hs. pose proof (lt3 u s Hu Hs). rewrite Hx by lia. replace (adr (l * b0 + (m * u + s))) with (adr (l * b0 + (m * u + s)) + 0) by lia.
    apply keep3; [lia|lia|]. intros Ha. apply at3_at in Ha; try assumption. apply (HQ u s Hu Hs Ha).
  - intros i Hi. rewrite Hx by lia. replace (adr (l * b0 + i)) with (adr (l * b0 + i) + 0) by lia. rewrite HA by lia. discriminate.
  - intros i Hi. apply Hx. lia.
  - intros u s Hu Hs. rewrite Hg. apply row_at; assumption.
  - intros i. apply at3_N.
  - intros i Hi (b & u & s & F1 & F2 & F3 & E & HQ'). rewrite <- Hl in E.
    assert (b = b0). { pose proof (lt3 u s F2 F3). destruct (Nat.lt_trichotomy b b0) as [Hy|[Hy|Hy]]; [nia|assumption|nia]. }
    subst b. apply (HQ u s F2 F3 HQ').
  - intros m3 H3. apply HK. eapply dn_iff; [|exact H3]. intros i. apply at3_blk; assumption.
Qed.
End S.

Lemma nil3 g : dn adr CC g (at3 (fun _ _ _ => False)) m1 m1.
Proof. apply dn_at3_have. intros; contradiction. Qed.
Lemma all3 g (Q : nat -> nat -> nat -> Prop) m2 : (forall b u s, b < B -> u < P -> s < m -> Q b u s) ->
  dn adr CC g (at3 Q) m1 m2 -> sets adr CC g (l * B) m1 m2.
Proof. destruct T_mP. intros HQ. apply at3_sets; try assumption; rewrite (lP t Hq); lia. Qed.

(** the stages of the overwrite kernels: three blocks *)
Hypothesis HB : B = 3.
Definition seq3 (c : nat -> cmd C) : cmd C := Seq (c 0) (Seq (c 1) (c 2)).
Lemma cols3_ok : 
  WP (if SS =? CC then seq3 (fun b => fft (kfftp t sg) (base b) (base b))
      else cfor m (fun s => seq3 (fun b => fft (kfftp t sg) (base b + SS * s) (base b + SS * s)))) m1
     (sets adr CC (colv m P sg A) (l * B) m1).
Proof.
  destruct T_mP as [Hm HP]. unfold seq3. destruct (Nat.eqb_spec SS CC) as [E|E].
  - apply WP_seq. eapply step_bcol with (g := colv m P sg A); [lia|apply nil3|assumption|reflexivity|tauto|]. intros m2 H2.
    apply WP_seq. eapply step_bcol with (g := colv m P sg A); [lia|exact H2|assumption|reflexivity|intros; cbv beta; intuition lia|]. intros m3 H3.
    eapply step_bcol with (g := colv m P sg A); [lia|exact H3|assumption|reflexivity|intros; cbv beta; intuition lia|]. intros m4 H4.
    eapply all3; [|exact H4]. intros; cbv beta. lia.
  - apply (WP_dnfor adr CC (colv m P sg A) (fun k => at3 (fun b u s => s < k))) with (m := m1).
    + eapply dn_at3; [|apply nil3]. intros; cbv beta; lia.
    + intros s0 m2 Hs H2.
      apply WP_seq. eapply step_col with (g := colv m P sg A); [| exact H2|assumption|assumption|reflexivity|intros; cbv beta; intuition lia|]; [lia|]. intros m3 H3.
      apply WP_seq. eapply step_col with (g := colv m P sg A); [| exact H3|assumption|assumption|reflexivity|intros; cbv beta; intuition lia|]; [lia|]. intros m4 H4.
      eapply step_col with (g := colv m P sg A); [| exact H4|assumption|assumption|reflexivity|intros; cbv beta; intuition lia|]; [lia|]. intros m5 H5.
      eapply dn_at3; [|exact H5]. intros; cbv beta. lia.
    + intros m2 H2. eapply all3; [|exact H2]. intros; cbv beta. lia.
Qed.
Lemma rows3_1_ok : SS = 1 -> kD t = 1 ->
  WP (seq3 (fun b => fft (kfftm t sg) (base b) (base b))) m1 (sets adr CC (rowv m sg A) (l * B) m1).
Proof.
  intros HS HD. destruct T_mP as [Hm HP]. unfold seq3. 
  apply WP_seq. eapply step_brow with (g := rowv m sg A); [lia|apply nil3|assumption|assumption|reflexivity|tauto|]. intros m2 H2.
  apply WP_seq. eapply step_brow with (g := rowv m sg A); [lia|exact H2|assumption|assumption|reflexivity|intros; cbv beta; intuition lia|]. intros m3 H3.
  eapply step_brow with (g := rowv m sg A); [lia|exact H3|assumption|assumption|reflexivity|intros; cbv beta; intuition lia|]. intros m4 H4.
  eapply all3; [|exact H4]. intros; cbv beta. lia.
Qed.
Lemma rows3_N_ok : SS <> 1 ->
  WP (cfor P (fun u => seq3 (fun b => fft (kfftm t sg) (base b + kSm t * u) (base b + kSm t * u)))) m1
     (sets adr CC (rowv m sg A) (l * B) m1).
Proof.
  intros HS. destruct T_mP as [Hm HP]. unfold seq3. 
  apply (WP_dnfor adr CC (rowv m sg A) (fun k => at3 (fun b u s => u < k))) with (m := m1).
  - eapply dn_at3; [|apply nil3]. intros; cbv beta; lia.
  - intros u0 m2 Hu H2.
    apply WP_seq. eapply step_row with (g := rowv m sg A); [| exact H2|assumption|assumption|reflexivity|intros; cbv beta; intuition lia|]; [lia|]. intros m3 H3.
    apply WP_seq. eapply step_row with (g := rowv m sg A); [| exact H3|assumption|assumption|reflexivity|intros; cbv beta; intuition lia|]; [lia|]. intros m4 H4.
    eapply step_row with (g := rowv m sg A); [| exact H4|assumption|assumption|reflexivity|intros; cbv beta; intuition lia|]; [lia|]. intros m5 H5.
    eapply dn_at3; [|exact H5]. intros; cbv beta. lia.
  - intros m2 H2. eapply all3; [|exact H2]. intros; cbv beta. lia.
Qed.
Lemma rows3_N1_ok : SS <> 1 -> P = 1 ->
  WP (seq3 (fun b => fft (kfftm t sg) (base b) (base b))) m1 (sets adr CC (rowv m sg A) (l * B) m1).
Proof.
  intros HS HP1. destruct T_mP as [Hm HP]. unfold seq3.
  assert (E : forall b, base b = base b + kSm t * 0) by (intros; lia). rewrite (E 0), (E 1), (E 2).
  apply WP_seq. eapply step_row with (g := rowv m sg A); [|apply nil3|lia|assumption|reflexivity|tauto|]; [lia|]. intros m3 H3.
  apply WP_seq. eapply step_row with (g := rowv m sg A); [| exact H3|lia|assumption|reflexivity|intros; cbv beta; intuition lia|]; [lia|]. intros m4 H4.
  eapply step_row with (g := rowv m sg A); [| exact H4|lia|assumption|reflexivity|intros; cbv beta; intuition lia|]; [lia|]. intros m5 H5.
  eapply all3; [|exact H5]. intros; cbv beta. lia.
Qed.
(** the same followed by more code *)
Definition seq3k (c : nat -> cmd C) (p : cmd C) : cmd C := Seq (c 0) (Seq (c 1) (Seq (c 2) p)).
Lemma cols3_k p (K : mem -> Prop) : SS = CC ->
  (forall m', sets adr CC (colv m P sg A) (l * B) m1 m' -> WP p m' K) ->
  WP (seq3k (fun b => fft (kfftp t sg) (base b) (base b)) p) m1 K.
Proof.
  intros E HK. destruct T_mP as [Hm HP]. unfold seq3k.
  apply WP_seq. eapply step_bcol with (g := colv m P sg A); [lia|apply nil3|assumption|reflexivity|tauto|]. intros m2 H2.
  apply WP_seq. eapply step_bcol with (g := colv m P sg A); [lia|exact H2|assumption|reflexivity|intros; cbv beta; intuition lia|]. intros m3 H3.
  apply WP_seq. eapply step_bcol with (g := colv m P sg A); [lia|exact H3|assumption|reflexivity|intros; cbv beta; intuition lia|]. intros m4 H4.
  apply HK. eapply all3; [|exact H4]. intros; cbv beta. lia.
Qed.
Lemma rows3_1_k p (K : mem -> Prop) : SS = 1 -> kD t = 1 ->
  (forall m', sets adr CC (rowv m sg A) (l * B) m1 m' -> WP p m' K) ->
  WP (seq3k (fun b => fft (kfftm t sg) (base b) (base b)) p) m1 K.
Proof.
  intros HS HD HK. destruct T_mP as [Hm HP]. unfold seq3k.
  apply WP_seq. eapply step_brow with (g := rowv m sg A); [lia|apply nil3|assumption|assumption|reflexivity|tauto|]. intros m2 H2.
  apply WP_seq. eapply step_brow with (g := rowv m sg A); [lia|exact H2|assumption|assumption|reflexivity|intros; cbv beta; intuition lia|]. intros m3 H3.
  apply WP_seq. eapply step_brow with (g := rowv m sg A); [lia|exact H3|assumption|assumption|reflexivity|intros; cbv beta; intuition lia|]. intros m4 H4.
  apply HK. eapply all3; [|exact H4]. intros; cbv beta. lia.
Qed.
Lemma rows3_N1_k p (K : mem -> Prop) : SS <> 1 -> P = 1 ->
  (forall m', sets adr CC (rowv m sg A) (l * B) m1 m' -> WP p m' K) ->
  WP (seq3k (fun b => fft (kfftm t sg) (base b) (base b)) p) m1 K.
Proof.
  intros HS HP1 HK. destruct T_mP as [Hm HP]. unfold seq3k.
  assert (E : forall b, base b = base b + kSm t * 0) by (intros; lia). rewrite (E 0), (E 1), (E 2).
  apply WP_seq. eapply step_row with (g := rowv m sg A); [|apply nil3|lia|assumption|reflexivity|tauto|]; [lia|]. intros m3 H3.
  apply WP_seq. eapply step_row with (g := rowv m sg A); [| exact H3|lia|assumption|reflexivity|intros; cbv beta; intuition lia|]; [lia|]. intros m4 H4.
  apply WP_seq. eapply step_row with (g := rowv m sg A); [| exact H4|lia|assumption|reflexivity|intros; cbv beta; intuition lia|]; [lia|]. intros m5 H5.
  apply HK. eapply all3; [|exact H5]. intros; cbv beta. lia.
Qed.
End T.
