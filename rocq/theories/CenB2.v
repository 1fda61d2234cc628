(** Centered backward transforms, p=2: the pieces of a pass. *)
From Coq Require Import Reals ZArith Arith Lia List Bool.
From Verif Require Import CNum Sums Roots Mem VecModel VecProofs PadModel PadKernels Loops
  PadLemmas PadMath PadGeom Fwd1 PadForward Fill CenModel CenMath CenGeom CenFft CenF2 CenPass CenStage CenTw CenOv CenExp CenBack.

(** what a pass whose B blocks have residues rh adds to element j, c *)
Definition bsum (t : pad) (B : nat) (rh : nat -> Z) (Y : nat -> nat -> C) (j c : nat) : C :=
  Csum B (fun b => cb (am t) (kP t) (kn t) (aL t) (rh b) (fun u k => Y (kl t * b + (am t * u + k)) c) j).

Definition bpiece (t : pad) (B : nat) (rh : nat -> Z) (init : bool) (p : addr -> addr -> cmd C) : Prop :=
  forall f W acc Y (m1 : mem), sepbuf 1 1 f (aL t) W (kl t * B) ->
  (forall i c, i < kl t * B -> c < 1 -> m1 (W + 1 * i + c) = Val (rowv (am t) (-1) Y i c)) ->
  (forall j c, j < aL t -> c < 1 -> m1 (f + 1 * j + c) <> Unalloc) ->
  (init = false -> forall j c, j < aL t -> c < 1 -> m1 (f + 1 * j + c) = Val (acc j c)) ->
  WP (p f W) m1 (bdone 1 1 f (aL t) W W (kl t * B)
    (fun j c => Cadd (if init then C0 else acc j c) (bsum t B rh Y j c)) m1).

Lemma Cconj_C1 : Cconj C1 = C1. Proof. apply C_ext; cbn; ring. Qed.
Lemma sets_bdone SS CC f L W N g (m1 m2 : mem) :
  sets (fun i => f + SS * i) CC g L m1 m2 -> bdone SS CC f L W W N g m1 m2.
Proof.
  intros (A1 & A2 & A3). split; [exact A1|]. split; [|exact A3].
  intros a Ha _ _. apply A2. apply outs_inbuf. assumption.
Qed.

(** reading the work buffer while filling the rows of f *)
Lemma wrk_rd SS CC f L W N A (m1 : mem) Y a i c k : sepbuf SS CC f L W N ->
  (forall i c, i < N -> c < CC -> m1 (W + SS * i + c) = Val (A i c)) ->
  i < N -> c < CC -> a = W + SS * i + c ->
  wpe (outs (fun j => f + SS * j) CC L) Y (k (A i c)) m1 -> wpe (outs (fun j => f + SS * j) CC L) Y (Rd a k) m1.
Proof.
  intros Hsep HA Hi Hc -> Hk. eapply wpe_rd; [|apply HA; assumption|exact Hk].
  left. intros j c' Hj Hc' E. apply (Hsep j c' i c); auto.
Qed.
Ltac wrd i c := match goal with
  Hsep : sepbuf ?S ?C ?f ?L ?W ?N, HA : forall i c, _ -> _ -> ?m1 (?W + _ * i + c) = Val (?A i c) |- _ =>
  eapply (wrk_rd S C f L W N A m1 _ _ i c _ Hsep HA); [lia|lia|lia|] end.
(** reading a row of f before it is overwritten *)
Lemma row_r1 adr g (R : addr -> Prop) (m1 : mem) i c a v k : a = adr i + c -> m1 a = Val v ->
  wpe R (row adr g i c) (k v) m1 -> wpe R (row adr g i c) (Rd a k) m1.
Proof. intros -> Hv Hk. eapply wpe_rd; [|exact Hv|exact Hk]. right. exists (g i c). split; reflexivity. Qed.
Lemma row_r2a adr g (R : addr -> Prop) (m1 : mem) i i' c a v k : a = adr i + c -> m1 a = Val v ->
  wpe R (row2 adr g i i' c) (k v) m1 -> wpe R (row2 adr g i i' c) (Rd a k) m1.
Proof. intros -> Hv Hk. eapply wpe_rd; [|exact Hv|exact Hk]. right. exists (g i c). left. split; reflexivity. Qed.
Lemma row_r2b adr g (R : addr -> Prop) (m1 : mem) i i' c a v k : a = adr i' + c -> m1 a = Val v ->
  wpe R (row2 adr g i i' c) (k v) m1 -> wpe R (row2 adr g i i' c) (Rd a k) m1.
Proof. intros -> Hv Hk. eapply wpe_rd; [|exact Hv|exact Hk]. right. exists (g i' c). right. split; reflexivity. Qed.
(** the value of a row of f *)
Lemma acc_at (SS CC f L : nat) (acc : nat -> nat -> C) (m1 : mem) a j c :
  (forall j c, j < L -> c < CC -> m1 (f + SS * j + c) = Val (acc j c)) ->
  j < L -> c < CC -> a = f + SS * j + c -> m1 a = Val (acc j c).
Proof. intros Ha Hj Hc ->. auto. Qed.

Section T.
Variable t : pad.
Hypothesis Hwf : kwf t.
Hypothesis Hq : kq t <> 1.
Hypothesis Hp : kp t = 2.
Notation L := (aL t).  Notation CC := (aC t).  Notation SS := (aS t).  Notation m := (am t).
Notation q := (kq t).   Notation n := (kn t).   Notation M := (kM t).
Notation D := (kD t).  Notation D0 := (kD0 t). Notation l := (kl t).
Notation H := (L / 2). Notation mH := (m - L / 2). Notation LH := (L - L / 2).

Lemma b2_hi rr y s : s < m -> cb m (kP t) n L rr y (H + s) = (Cconj (zeta M (rr * Z.of_nat s)) * dft m (-1) (y 0%nat) s)%C.
Proof.
  intros Hs. pose proof (k_cg t Hwf Hq) as G.
  change (H + s) with (cH L + s). rewrite cb_hi.
  rewrite (bl_1 m (kP t) n L G) by (apply P2; assumption). rewrite <- (k_M t Hwf Hq). reflexivity.
Qed.
Lemma b2_lo rr y s : mH <= s < m -> cb m (kP t) n L rr y (s - mH) = (zeta M (rr * (Z.of_nat m - Z.of_nat s)) * dft m (-1) (y 0%nat) s)%C.
Proof.
  intros Hs. pose proof (k_cg t Hwf Hq) as G. pose proof (rg2 t Hwf Hq Hp) as Hg. pose proof (P2 t Hp) as HP.
  assert (E0 : mH = cm0 m (kP t) L) by (unfold cm0, cl, cH; rewrite HP, Nat.mul_1_r; reflexivity).
  rewrite E0. rewrite (cb_lo m (kP t) n L G) by (rewrite <- E0; lia).
  rewrite (bl_1 m (kP t) n L G) by assumption. rewrite <- (k_M t Hwf Hq).
  rewrite Cmul_assoc. f_equal. rewrite <- zeta_neg. rewrite (M2 t Hwf Hq Hp).
  assert (E : zeta n rr = zeta (m * n) (Z.of_nat m * rr)) by (symmetry; apply zeta_cancel; lia).
  rewrite E, <- zeta_add. f_equal. lia.
Qed.
Lemma b2_row Y b s c : s < m -> dft m (-1) (fun k => Y (l * b + (m * 0 + k)) c) s = rowv m (-1) Y (l * b + s) c.
Proof.
  intros Hs. rewrite (l2 t Hq Hp). unfold rowv. replace (m * b + s) with (s + b * m) by lia.
  rewrite Nat.div_add, Nat.mod_add, Nat.div_small, Nat.mod_small by lia. apply dft_ext. intros j Hj. f_equal. lia.
Qed.
Lemma bsum_hi B rh Y s c : s < m ->
  bsum t B rh Y (H + s) c = Csum B (fun b => Cconj (zeta M (rh b * Z.of_nat s)) * rowv m (-1) Y (l * b + s) c)%C.
Proof.
  intros Hs. apply Csum_ext. intros b Hb. rewrite b2_hi by assumption. cbv beta. rewrite b2_row by assumption. reflexivity.
Qed.
Lemma bsum_lo B rh Y s c : mH <= s < m ->
  bsum t B rh Y (s - mH) c = Csum B (fun b => zeta M (rh b * (Z.of_nat m - Z.of_nat s)) * rowv m (-1) Y (l * b + s) c)%C.
Proof.
  intros Hs. apply Csum_ext. intros b Hb. rewrite b2_lo by assumption. cbv beta. rewrite b2_row by lia. reflexivity.
Qed.
Lemma zj_s r s : zeta M (- Z.of_nat r * s) = Cconj (zeta M (Z.of_nat r * s)).
Proof. rewrite <- zeta_neg. f_equal. lia. Qed.
Lemma g2 : mH + H = m /\ H + LH = L.
Proof. pose proof (rg2 t Hwf Hq Hp). lia. Qed.

Lemma backward2_zero1_ok : bpiece t 1 (fun _ => 0%Z) true (cbackward2_zero1 t).
Proof.
  intros f W acc Y m1 Hsep HA Hal _. rewrite (l2 t Hq Hp), Nat.mul_1_r in *.
  pose proof (rg2 t Hwf Hq Hp) as Hg. destruct g2 as [G1 G2]. unfold cbackward2_zero1. cbv zeta.
  match goal with |- WP _ _ (bdone _ _ _ _ _ _ _ ?gg _) => set (g := gg) end.
  assert (Hinj : injrows (fun i => f + 1 * i) 1 L) by (apply buf_inj; lia).
  assert (Glo : forall s, mH <= s < m -> g (s - mH) 0 = rowv m (-1) Y s 0).
  { intros s Hs. unfold g. rewrite bsum_lo by assumption. cbn [Csum]. rewrite Nat.mul_0_r, Z.mul_0_l, zeta_0. cbn [Nat.add]. ring. }
  assert (Ghi : forall s, s < m -> g (H + s) 0 = rowv m (-1) Y s 0).
  { intros s Hs. unfold g. rewrite bsum_hi by assumption. cbn [Csum]. rewrite Nat.mul_0_r, Z.mul_0_l, zeta_0, Cconj_C1. cbn [Nat.add]. ring. }
  apply WP_seq.
  eapply (WP_at2s (fun i => f + 1 * i) 1 g L Hinj H LH mH m G1 G2 True False 0 _ _ (fun _ => True) (fun _ => False));
    [apply at2_nil|intros; cbv beta; intuition lia..| |].
  { intros s Hs. cbn [Nat.add]. apply lset_at2_lo; [lia|]. apply lset_one; [reflexivity|].
    wrd s 0. apply row_w1; [lia|symmetry; apply Glo; lia|sal (s - mH) 0]. }
  intros m2 H2.
  eapply (WP_at2s (fun i => f + 1 * i) 1 g L Hinj H LH mH m G1 G2 False True 0 _ _ (fun _ => True) (fun _ => True));
    [exact H2|intros; cbv beta; intuition lia..| |].
  { intros s Hs. cbn [Nat.add]. apply lset_at2_hi; [lia|]. apply lset_one; [reflexivity|].
    wrd s 0. apply row_w1; [lia|symmetry; apply Ghi; lia|sal (H + s) 0]. }
  intros m3 H3. apply sets_bdone. eapply at2_sets; [exact G1|exact G2| | |exact H3]; intros; exact Logic.I.
Qed.

Ltac l2 El Eh off Ql Qh X := match goal with
  Hinj : injrows ?ad ?cc _, G1 : _ + _ = _, G2 : _ + _ = aL _ |- _ =>
  match goal with gg : nat -> nat -> C |- _ =>
  eapply (WP_at2s ad cc gg _ Hinj _ _ _ _ G1 G2 El Eh off _ _ Ql Qh); [X|intros; cbv beta; intuition lia..| |] end end.

Lemma backward2_residue1_ok r : 1 <= r < q -> bpiece t 1 (fun _ => Z.of_nat r) false (fun f W => cbackward2_residue1 t f W r).
Proof.
  intros Hr f W acc Y m1 Hsep HA Hal Hacc. specialize (Hacc eq_refl). rewrite (l2 t Hq Hp), Nat.mul_1_r in *.
  pose proof (rg2 t Hwf Hq Hp) as Hg. destruct g2 as [G1 G2]. unfold cbackward2_residue1. cbv zeta.
  match goal with |- WP _ _ (bdone _ _ _ _ _ _ _ ?gg _) => set (g := gg) end.
  assert (Hinj : injrows (fun i => f + 1 * i) 1 L) by (apply buf_inj; lia).
  assert (Glo : forall s, mH <= s < m -> g (s - mH) 0 = (acc (s - mH)%nat 0%nat + zeta M (Z.of_nat r * (Z.of_nat m - Z.of_nat s)) * rowv m (-1) Y s 0)%C).
  { intros s Hs. unfold g. rewrite bsum_lo by assumption. cbn [Csum]. rewrite Nat.mul_0_r. cbn [Nat.add]. ring. }
  assert (Ghi : forall s, s < m -> g (H + s) 0 = (acc (H + s)%nat 0%nat + Cconj (zeta M (Z.of_nat r * Z.of_nat s)) * rowv m (-1) Y s 0)%C).
  { intros s Hs. unfold g. rewrite bsum_hi by assumption. cbn [Csum]. rewrite Nat.mul_0_r. cbn [Nat.add]. ring. }
  apply WP_seq.
  l2 True False 0 (fun _ : nat => True) (fun _ : nat => False) ltac:(apply at2_nil).
  { intros s Hs. cbn [Nat.add]. apply lset_at2_lo; [lia|]. apply lset_one; [reflexivity|].
    eapply row_r1; [|apply (acc_at _ _ _ _ _ _ _ (s - mH) 0 Hacc); lia|]; [lia|].
    eapply wpe_tget; [apply zqm2m; auto; lia|].
    wrd s 0. apply row_w1; [lia|symmetry; apply Glo; lia|sal (s - mH) 0]. }
  intros m2 H2.
  l2 False True 0 (fun _ : nat => True) (fun _ : nat => True) ltac:(exact H2).
  { intros s Hs. cbn [Nat.add]. apply lset_at2_hi; [lia|]. apply lset_one; [reflexivity|].
    eapply row_r1; [|apply (acc_at _ _ _ _ _ _ _ (H + s) 0 Hacc); lia|]; [lia|].
    eapply wpe_tget; [apply zqm2; auto; lia|].
    wrd s 0. apply row_w1; [lia|symmetry; apply Ghi; lia|sal (H + s) 0]. }
  intros m3 H3. apply sets_bdone. eapply at2_sets; [exact G1|exact G2| | |exact H3]; intros; exact Logic.I.
Qed.

Lemma backward2_zero2_ok : n mod 2 = 0 ->
  bpiece t 2 (fun b => if b =? 0 then 0%Z else Z.of_nat (q / 2)) true (cbackward2_zero2 t).
Proof.
  intros He f W acc Y m1 Hsep HA Hal _. rewrite (l2 t Hq Hp) in *.
  pose proof (rg2 t Hwf Hq Hp) as Hg. destruct g2 as [G1 G2]. unfold cbackward2_zero2. cbv zeta.
  assert (Hq2 : 1 <= q / 2 < q).
  { rewrite (q2 t Hwf Hq Hp). pose proof (Nat.div_mod n 2 ltac:(lia)). lia. }
  match goal with |- WP _ _ (bdone _ _ _ _ _ _ _ ?gg _) => set (g := gg) end.
  assert (Hinj : injrows (fun i => f + 1 * i) 1 L) by (apply buf_inj; lia).
  assert (Glo : forall s, mH <= s < m -> g (s - mH) 0 = (rowv m (-1) Y s 0 + zeta M (Z.of_nat (q / 2) * (Z.of_nat m - Z.of_nat s)) * rowv m (-1) Y (m + s) 0)%C).
  { intros s Hs. unfold g. rewrite bsum_lo by assumption. rewrite (l2 t Hq Hp). cbn [Csum Nat.eqb]. rewrite Nat.mul_0_r, Nat.mul_1_r, Z.mul_0_l, zeta_0. cbn [Nat.add]. ring. }
  assert (Ghi : forall s, s < m -> g (H + s) 0 = (rowv m (-1) Y s 0 + Cconj (zeta M (Z.of_nat (q / 2) * Z.of_nat s)) * rowv m (-1) Y (m + s) 0)%C).
  { intros s Hs. unfold g. rewrite bsum_hi by assumption. rewrite (l2 t Hq Hp). cbn [Csum Nat.eqb]. rewrite Nat.mul_0_r, Nat.mul_1_r, Z.mul_0_l, zeta_0, Cconj_C1. cbn [Nat.add]. ring. }
  apply WP_seq.
  l2 True False 0 (fun _ : nat => True) (fun _ : nat => False) ltac:(apply at2_nil).
  { intros s Hs. cbn [Nat.add]. apply lset_at2_lo; [lia|]. apply lset_one; [reflexivity|].
    wrd s 0. eapply wpe_tget; [apply zqm2m; auto; lia|].
    wrd (m + s) 0. apply row_w1; [lia|symmetry; apply Glo; lia|sal (s - mH) 0]. }
  intros m2 H2.
  l2 False True 0 (fun _ : nat => True) (fun _ : nat => True) ltac:(exact H2).
  { intros s Hs. cbn [Nat.add]. apply lset_at2_hi; [lia|]. apply lset_one; [reflexivity|].
    wrd s 0. eapply wpe_tget; [apply zqm2; auto; lia|].
    wrd (m + s) 0. apply row_w1; [lia|symmetry; apply Ghi; lia|sal (H + s) 0]. }
  intros m3 H3. apply sets_bdone. eapply at2_sets; [exact G1|exact G2| | |exact H3]; intros; exact Logic.I.
Qed.

Lemma backward2_residue2_ok r : 1 <= r < q ->
  bpiece t 2 (fun b => if b =? 0 then Z.of_nat r else (- Z.of_nat r)%Z) false (fun f W => cbackward2_residue2 t f W r).
Proof.
  intros Hr f W acc Y m1 Hsep HA Hal Hacc. specialize (Hacc eq_refl). rewrite (l2 t Hq Hp) in *.
  pose proof (rg2 t Hwf Hq Hp) as Hg. destruct g2 as [G1 G2]. unfold cbackward2_residue2. cbv zeta.
  match goal with |- WP _ _ (bdone _ _ _ _ _ _ _ ?gg _) => set (g := gg) end.
  assert (Hinj : injrows (fun i => f + 1 * i) 1 L) by (apply buf_inj; lia).
  assert (Glo : forall s, mH <= s < m -> g (s - mH) 0 = (acc (s - mH)%nat 0%nat + ZMULT2 (zeta M (Z.of_nat r * (Z.of_nat m - Z.of_nat s))) (rowv m (-1) Y s 0) (rowv m (-1) Y (m + s) 0))%C).
  { intros s Hs. unfold g. rewrite bsum_lo by assumption. rewrite (l2 t Hq Hp). cbn [Csum Nat.eqb]. rewrite Nat.mul_0_r, Nat.mul_1_r, ZMULT2_eq, zj_s. cbn [Nat.add]. ring. }
  assert (Ghi : forall s, s < m -> g (H + s) 0 = (acc (H + s)%nat 0%nat + ZMULT2 (zeta M (Z.of_nat r * Z.of_nat s)) (rowv m (-1) Y (m + s) 0) (rowv m (-1) Y s 0))%C).
  { intros s Hs. unfold g. rewrite bsum_hi by assumption. rewrite (l2 t Hq Hp). cbn [Csum Nat.eqb]. rewrite Nat.mul_0_r, Nat.mul_1_r, ZMULT2_eq, zj_s, Cconj_conj. cbn [Nat.add]. ring. }
  apply WP_seq.
  l2 True False 0 (fun s => H <= s) (fun _ : nat => False) ltac:(apply at2_nil).
  { intros s Hs. cbn [Nat.add]. apply lset_at2_lo; [lia|]. apply lset_one; [reflexivity|].
    eapply row_r1; [|apply (acc_at _ _ _ _ _ _ _ (s - mH) 0 Hacc); lia|]; [lia|].
    eapply wpe_tget; [apply zqm2m; auto; lia|].
    wrd s 0. wrd (m + s) 0. apply row_w1; [lia|rewrite vadd_eq; symmetry; apply Glo; lia|sal (s - mH) 0]. }
  intros m2 H2. apply WP_seq.
  l2 True True 0 (fun s => mH <= s) (fun s => mH <= s < H) ltac:(exact H2).
  { intros s Hs. cbn [Nat.add]. apply lset_at2_both; [lia|lia|]. apply lset_two; [reflexivity|].
    wrd s 0. wrd (m + s) 0.
    eapply wpe_tget; [apply zqm2; auto; lia|]. eapply wpe_tget; [apply zqm2m; auto; lia|].
    eapply row_r2a; [|apply (acc_at _ _ _ _ _ _ _ (s - mH) 0 Hacc); lia|]; [lia|].
    eapply row_w2r; [lia|lia|lia| | |sal (s - mH) 0|apply (acc_at _ _ _ _ _ _ _ (H + s) 0 Hacc); lia].
    - rewrite vadd_eq; symmetry; apply Glo; lia.
    - rewrite vadd_eq; symmetry; apply Ghi; lia. }
  intros m3 H3. apply WP_seq.
  l2 False True 0 (fun s => mH <= s) (fun s => s < H) ltac:(exact H3).
  { intros s Hs. cbn [Nat.add]. apply lset_at2_hi; [lia|]. apply lset_one; [reflexivity|].
    eapply row_r1; [|apply (acc_at _ _ _ _ _ _ _ (H + s) 0 Hacc); lia|]; [lia|].
    eapply wpe_tget; [apply zqm2; auto; lia|].
    wrd (m + s) 0. wrd s 0. apply row_w1; [lia|rewrite vadd_eq; symmetry; apply Ghi; lia|sal (H + s) 0]. }
  intros m4 H4. destruct (Nat.ltb_spec 0 (L - 2 * H)) as [Ho|Ho].
  - match goal with |- WP (Do ?p) _ _ => change (Do p) with (ParFor 0 1 (fun _ => p)) end.
    l2 False True (L / 2) (fun _ : nat => True) (fun _ : nat => True) ltac:(exact H4).
    { intros s Hs. replace s with 0 by lia. rewrite Nat.add_0_r. apply lset_at2_hi; [lia|]. apply lset_one; [reflexivity|].
      eapply row_r1; [|apply (acc_at _ _ _ _ _ _ _ (H + H) 0 Hacc); lia|]; [lia|].
      eapply wpe_tget; [apply zqm2; auto; lia|].
      wrd (m + H) 0. wrd (L / 2) 0. apply row_w1; [lia|rewrite vadd_eq; symmetry; apply Ghi; lia|sal (H + H) 0]. }
    intros m5 H5. apply sets_bdone. eapply at2_sets; [exact G1|exact G2| | |exact H5]; intros; exact Logic.I.
  - apply WP_skip. apply sets_bdone. eapply at2_sets; [exact G1|exact G2| | |exact H4]; intros; cbv beta; lia.
Qed.
End T.
