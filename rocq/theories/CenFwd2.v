(** Centered forward transforms, p=2: one pass. *)
From Coq Require Import Reals ZArith Arith Lia List Bool.
From Verif Require Import CNum Sums Roots Mem VecModel VecProofs PadModel PadKernels Loops
  PadLemmas PadMath PadGeom Fwd1 PadIndex PadForward Fill CenModel CenMath CenGeom CenF2 CenPass CenFft CenStage.

Section T.
Variable t : pad.
Hypothesis Hwf : kwf t.
Hypothesis Hq : kq t <> 1.
Hypothesis Hp : kp t = 2.
Notation L := (aL t).  Notation CC := (aC t).  Notation SS := (aS t).  Notation m := (am t).
Notation q := (kq t).   Notation n := (kn t).   Notation M := (kM t).
Notation D := (kD t).  Notation D0 := (kD0 t). Notation l := (kl t).
Notation H := (L / 2). Notation mH := (m - L / 2). Notation LH := (L - L / 2).

Lemma cforward2_gpass f F r W :
  cforward2 t f F r W = gpass t (cforward2_zero1 t) (cforward2_zero2 t) (cforward2_residue1 t) (cforward2_residue2 t) q m f F r W.
Proof. reflexivity. Qed.

Lemma forward2_ok f F W r x (m0 : mem) (W0 := getW F W) (E := kblocks t r) : SS = 1 ->
  passr (sh t) r -> ainplace t = (W0 =? F) ->
  sepbuf 1 1 f L W0 (l * E) -> (W0 = F \/ sepbuf 1 1 W0 (l * E) F (l * E)) ->
  (forall j c, j < L -> c < 1 -> m0 (f + 1 * j + c) = Val (x j c)) ->
  (forall i c, i < l * E -> c < 1 -> m0 (W0 + 1 * i + c) <> Unalloc) ->
  (forall i c, i < l * E -> c < 1 -> m0 (F + 1 * i + c) <> Unalloc) ->
  WP (cforward2 t f F r W) m0 (fdone 1 1 F W0 (l * E) (kout t (krho t r) x) m0).
Proof.
  intros HS Hpass Hin Hsep HWF Hsrc HWa HFa. rewrite cforward2_gpass.
  pose proof (l2 t Hq Hp) as Hl. pose proof (q2 t Hwf Hq Hp) as Hqn.
  apply gpass_ok; try assumption; try (symmetry; assumption).
  - intros f1 W1 x1 m1 Hs. rewrite Nat.mul_1_r, Hl. intros. apply forward2_zero1_ok; assumption.
  - intros He f1 W1 x1 m1 Hs. rewrite Nat.mul_comm, Hl. intros. rewrite <- Hqn. apply forward2_zero2_ok; assumption.
  - intros r1 Hr1 f1 W1 x1 m1 Hs. rewrite Nat.mul_1_r, Hl. intros. apply forward2_residue1_ok; try assumption. lia.
  - intros r1 Hr1 f1 W1 x1 m1 Hs. rewrite Nat.mul_comm, Hl. intros. apply forward2_residue2_ok; try assumption. lia.
Qed.

(** rows of S words *)
Lemma forward2Many_ok f F W r x (m0 : mem) (W0 := getW F W) : SS <> 1 ->
  r < n -> ainplace t = (W0 =? F) ->
  sepbuf SS CC f L W0 m -> (W0 = F \/ sepbuf SS CC W0 m F m) ->
  (forall j c, j < L -> c < CC -> m0 (f + SS * j + c) = Val (x j c)) ->
  (forall i c, i < m -> c < CC -> m0 (W0 + SS * i + c) <> Unalloc) ->
  (forall i c, i < m -> c < CC -> m0 (F + SS * i + c) <> Unalloc) ->
  WP (cforward2Many t f F r W) m0 (fdone SS CC F W0 m (kout t (fun _ => Z.of_nat r) x) m0).
Proof.
  intros HS Hr Hin Hsep HWF Hsrc Hal HFa. pose proof (rg2 t Hwf Hq Hp) as Hg. pose proof (k_CS t Hwf) as HCS.
  unfold cforward2Many. cbv zeta. fold W0. apply WP_seq.
  assert (Hfin : forall m2, sets (fun i => W0 + SS * i) CC (cval t (fun _ => Z.of_nat r) x) m m0 m2 ->
    WP (fft (kfftm t 1) W0 F) m2 (fdone SS CC F W0 m (kout t (fun _ => Z.of_nat r) x) m0)).
  { intros m2 H2. apply (rowsN1_out t Hwf Hq); assumption. }
  assert (Hinj : injrows (fun i => W0 + SS * i) CC m) by (apply buf_inj; lia).
  assert (Ehi : forall s c, mH <= s -> f + SS * s - SS * mH + c = f + SS * (s - mH) + c).
  { intros. apply sub_off. assumption. }
  assert (Elo : forall s c, f + SS * H + SS * s + c = f + SS * (H + s) + c) by (intros; lia).
  pose proof (WP_pfx1 (fun i => W0 + SS * i) CC (cval t (fun _ => Z.of_nat r) x) m Hinj) as HL.
  destruct (Nat.eqb_spec r 0) as [E0|E0].
  - apply WP_seq. eapply HL; [lia|apply pfx1_nil| |].
    { intros s Hs. apply (lset_cols1 _ _ _ _ Hinj); [lia|]. intros c Hc. rewrite Elo. srd (H + s) c.
      apply row_w1; [lia| |sal s c]. rewrite (cval_0 t Hq Hp), (v_lo t Hwf Hq Hp) by lia. rewrite E0, Z.mul_0_l, zeta_0 by lia. ring. }
    intros m2 H2. apply WP_seq. eapply HL; [lia|exact H2| |].
    { intros s Hs. apply (lset_cols1 _ _ _ _ Hinj); [lia|]. intros c Hc. rewrite Elo, Ehi by lia. srd (s - mH) c. srd (H + s) c.
      apply row_w1; [lia| |sal s c]. rewrite (cval_0 t Hq Hp), (v_mid t Hwf Hq Hp) by lia. rewrite E0, !Z.mul_0_l, zeta_0 by lia. ring. }
    intros m3 H3. eapply HL; [lia|exact H3| |].
    { intros s Hs. apply (lset_cols1 _ _ _ _ Hinj); [lia|]. intros c Hc. rewrite Ehi by lia. srd (s - mH) c.
      apply row_w1; [lia| |sal s c]. rewrite (cval_0 t Hq Hp), (v_hi t Hwf Hq Hp) by lia. rewrite E0, !Z.mul_0_l, zeta_0 by lia. ring. }
    intros m4 H4. apply Hfin. apply pfx1_sets. assumption.
  - assert (Hr1 : 1 <= r < q) by (rewrite (q2 t Hwf Hq Hp); lia).
    apply WP_seq. eapply HL; [lia|apply pfx1_nil| |].
    { intros s Hs. eapply lset_tget; [apply zqm2; auto; lia|]. apply (lset_cols1 _ _ _ _ Hinj); [lia|]. intros c Hc. rewrite Elo. srd (H + s) c.
      apply row_w1; [lia| |sal s c]. rewrite (cval_0 t Hq Hp), (v_lo t Hwf Hq Hp) by lia. rewrite ZMULTxy_eq. reflexivity. }
    intros m2 H2. apply WP_seq. eapply HL; [lia|exact H2| |].
    { intros s Hs. eapply lset_tget; [apply zqm2; auto; lia|]. eapply lset_tget; [apply zqm2m; auto; lia|].
      apply (lset_cols1 _ _ _ _ Hinj); [lia|]. intros c Hc. rewrite Elo, Ehi by lia. srd (s - mH) c. srd (H + s) c.
      apply row_w1; [lia| |sal s c]. rewrite (cval_0 t Hq Hp), (v_mid t Hwf Hq Hp) by lia.
      rewrite ZMULTxy_eq, ZMULTxy_conj_eq, vadd_eq, (cj_m t Hq Hp). ring. }
    intros m3 H3. eapply HL; [lia|exact H3| |].
    { intros s Hs. eapply lset_tget; [apply zqm2m; auto; lia|]. 
      apply (lset_cols1 _ _ _ _ Hinj); [lia|]. intros c Hc. rewrite Ehi by lia. srd (s - mH) c.
      apply row_w1; [lia| |sal s c]. rewrite (cval_0 t Hq Hp), (v_hi t Hwf Hq Hp) by lia. rewrite ZMULTxy_conj_eq, (cj_m t Hq Hp). ring. }
    intros m4 H4. apply Hfin. apply pfx1_sets. assumption.
Qed.
End T.
