(** One statement for every centered forward kernel, in the vocabulary of CenSpec. *)
From Coq Require Import Reals ZArith Arith Lia List Bool Permutation.
From Verif Require Import CNum Sums Roots Mem VecModel VecProofs PadModel PadKernels Loops
  PadLemmas PadMath PadGeom Fwd1 PadIndex PadForward Fill CenModel CenMath CenGeom CenF2 CenPass CenFft CenStage
  CenTw CenFwd2 CenFI CenFIM CenThree CenOv CenFA CenExp PadSpec PadBridge CenSpec CenIndex.
Import ListNotations.

Section T.
Variable t : pad.
Hypothesis Hwf : kwf t.
Notation L := (aL t).  Notation CC := (aC t).  Notation SS := (aS t).  Notation m := (am t).
Notation q := (kq t).   Notation n := (kn t).   Notation M := (kM t).
Notation D := (kD t).  Notation D0 := (kD0 t). Notation P := (kP t). Notation l := (kl t).

Lemma krho_D1 r b : D = 1 -> krho t r b = Z.of_nat r.
Proof. intros HD. unfold krho. apply rho_D1; [rewrite sh_p by assumption; lia|rewrite sh_D; assumption]. Qed.
Lemma two_p : q <> 1 -> 2 < kp t \/ kp t = 2.
Proof. intros Hq. destruct (k_even t Hwf Hq). lia. Qed.

Lemma cforward_spec f F W r x (m0 : mem) (W0 := getW F W) (N := knoutputs t r) :
  koverwrite t = false -> passr (sh t) r -> ainplace t = (W0 =? F) ->
  sepbuf SS CC f L W0 N -> (W0 = F \/ sepbuf SS CC W0 N F N) ->
  (forall j c, j < L -> c < CC -> m0 (f + SS * j + c) = Val (x j c)) ->
  (forall i c, i < N -> c < CC -> m0 (W0 + SS * i + c) <> Unalloc) ->
  (forall i c, i < N -> c < CC -> m0 (F + SS * i + c) <> Unalloc) ->
  WP (cforward t f F r W) m0 (fdone SS CC F W0 N (fun i c => cpdft M L (fun j => x j c) (kindex t r i)) m0).
Proof.
  intros Hov Hr Hin Hsep HWF Hsrc HWa HFa. unfold cforward. rewrite Hov.
  assert (Hout : forall g, (forall i c, i < N -> c < CC -> g i c = cpdft M L (fun j => x j c) (kindex t r i)) ->
    forall m', fdone SS CC F W0 N g m0 m' -> fdone SS CC F W0 N (fun i c => cpdft M L (fun j => x j c) (kindex t r i)) m0 m').
  { intros g Hg m' (A1 & A2 & A3). split; [|split; assumption]. intros i c Hi Hc. rewrite A1, Hg by assumption. reflexivity. }
  destruct (Nat.eqb_spec q 1) as [Hq|Hq].
  { destruct (e_facts t Hwf Hq) as (_ & _ & El & EM & HL & Hm & HD).
    assert (EN : N = m) by (unfold N; rewrite knout_E, (kblocks_D1 t Hwf r HD); lia).
    assert (Hx : forall i c, i < N -> c < CC -> kout t (fun _ => 0%Z) x i c = cpdft M L (fun j => x j c) (kindex t r i)).
    { intros i c Hi Hc. rewrite (e_out t Hwf Hq) by lia. rewrite outc_cpdft.
      destruct (kindex_q1 t Hwf r i Hq) as [-> _]. reflexivity. }
    rewrite EN in *.
    destruct (Nat.eqb_spec (M mod 2) 0) as [H2|H2]; destruct (Nat.eqb_spec SS 1) as [HS|HS];
      (eapply WP_mono; [apply (Hout _ Hx)|]).
    - apply (forwardExplicitFast_ok t Hwf Hq); assumption.
    - apply (forwardExplicitManyFast_ok t Hwf Hq); assumption.
    - apply (forwardExplicitSlow_ok t Hwf Hq); assumption.
    - apply (forwardExplicitManySlow_ok t Hwf Hq); assumption. }
  assert (Hx : forall i c, i < N -> c < CC -> kout t (krho t r) x i c = cpdft M L (fun j => x j c) (kindex t r i)).
  { intros i c Hi Hc. apply kindex_out; assumption. }
  assert (EN : N = l * kblocks t r) by reflexivity.
  pose proof (kpass_n t Hwf r Hr) as Hrn.
  assert (HxN : SS <> 1 -> N = l /\ forall i c, i < N -> c < CC -> kout t (fun _ => Z.of_nat r) x i c = cpdft M L (fun j => x j c) (kindex t r i)).
  { intros HS. pose proof (k_D1 t Hwf Hq HS) as HD. split; [rewrite EN, (kblocks_D1 t Hwf r HD); lia|].
    intros i c Hi Hc. rewrite <- Hx by assumption. unfold kout. rewrite (krho_D1 r _ HD). reflexivity. }
  destruct (two_p Hq) as [Hp|Hp].
  - destruct (Nat.ltb_spec 2 (kp t)) as [_|]; [|lia]. destruct (Nat.eqb_spec SS 1) as [HS|HS].
    + eapply WP_mono; [apply (Hout _ Hx)|]. pose proof (k_S1 t Hwf HS) as HC. rewrite HC, HS in *. rewrite EN in *.
      apply (forwardInner_ok t Hwf Hq Hp); assumption.
    + destruct (HxN HS) as [El HxN']. eapply WP_mono; [apply (Hout _ HxN')|]. rewrite El in *.
      apply (forwardInnerMany_ok t Hwf Hq Hp); assumption.
  - destruct (Nat.ltb_spec 2 (kp t)) as [|_]; [lia|]. destruct (Nat.eqb_spec SS 1) as [HS|HS].
    + eapply WP_mono; [apply (Hout _ Hx)|]. pose proof (k_S1 t Hwf HS) as HC. rewrite HC, HS in *. rewrite EN in *.
      apply (forward2_ok t Hwf Hq Hp); assumption.
    + destruct (HxN HS) as [El HxN']. eapply WP_mono; [apply (Hout _ HxN')|]. rewrite El in *.
      rewrite (l2 t Hq Hp) in *. apply (forward2Many_ok t Hwf Hq Hp); assumption.
Qed.

Lemma cforward_b f F W r x (m0 : mem) rs :
  let W0 := getW F W in let N := knoutputs t r in
  koverwrite t = false -> loop_trace (kR t) (kincrement t) 0 rs -> In r rs ->
  ainplace t = (W0 =? F) ->
  separate SS CC f L W0 N -> separate SS CC f L F N -> (W0 = F \/ separate SS CC W0 N F N) ->
  has SS CC f L x m0 -> allocated SS CC W0 N m0 -> allocated SS CC F N m0 ->
  WP (cforward t f F r W) m0 (fun m' =>
    has SS CC F N (fun i c => cpdft M L (fun j => x j c) (kindex t r i)) m' /\
    has SS CC f L x m' /\
    only (fun a => word SS CC F N a \/ word SS CC W0 N a) m0 m').
Proof.
  intros W0 N How Htr Hr Hin H1 H2 H3 Hx Ha1 Ha2.
  eapply WP_mono; [|apply (cforward_spec f F W r x m0); try assumption].
  - fold W0 N. intros m' (A1 & A2 & A3). split; [exact A1|]. split; [|split].
    + intros i c Hi Hc. rewrite A2; [apply Hx; assumption| |].
      * intros Hw. apply (H2 (f + SS * i + c)); [exists i, c; auto|exact Hw].
      * intros Hw. apply (H1 (f + SS * i + c)); [exists i, c; auto|exact Hw].
    + intros a Hn. apply A2; intros Hw; apply Hn; [left|right]; exact Hw.
    + assumption.
  - eapply kpass; eassumption.
  - apply sep_sepbuf; assumption.
  - destruct H3; [auto|right; apply sep_sepbuf; assumption].
Qed.

Lemma coforward_b f F r W x (m0 : mem) : koverwrite t = true ->
  separate SS CC f L F l -> has SS CC f L x m0 -> allocated SS CC F l m0 ->
  WP (cforward t f F r W) m0 (fun m' =>
    (forall u, u < P -> has SS CC (f + SS * (m * u)) m (fun k c => cpdft M L (fun j => x j c) (q * k + n * u)) m' /\
       has SS CC (f + SS * (l + m * u)) m (fun k c => cpdft M L (fun j => x j c) (q * k + n * u + 1)) m' /\
       has SS CC (F + SS * (m * u)) m (fun k c => cpdft M L (fun j => x j c) (q * k + n * u + (M - 1))) m') /\
    only (fun a => word SS CC F l a \/ word SS CC f L a) m0 m').
Proof.
  intros Hov Hsep Hsrc HFa.
  assert (Hq : q <> 1).
  { intros E. unfold koverwrite in Hov. rewrite E in Hov. discriminate. }
  apply sep_sepbuf in Hsep.
  assert (Hw : WP (cforward t f F r W) m0 (sets (adr3 t f F) CC (kout t rh3 x) (l * 3) m0)).
  { unfold cforward. rewrite Hov. destruct (Nat.eqb_spec q 1); [contradiction|].
    destruct (two_p Hq) as [Hp|Hp].
    - destruct (Nat.ltb_spec 2 (kp t)) as [_|]; [|lia]. destruct (Nat.eqb_spec SS 1) as [HS|HS].
      + apply (forwardInnerAll_ok t Hwf Hov); assumption.
      + apply (forwardInnerManyAll_ok t Hwf Hov); assumption.
    - destruct (Nat.ltb_spec 2 (kp t)) as [|_]; [lia|]. destruct (Nat.eqb_spec SS 1) as [HS|HS].
      + apply (forward2All_ok t Hwf Hov); assumption.
      + apply (forward2ManyAll_ok t Hwf Hov); assumption. }
  eapply WP_mono; [|exact Hw]. clear Hw. intros m' (A1 & A2 & A3).
  destruct (k_cg t Hwf Hq) as [Gm GP _ _ _ _]. pose proof (lmP t Hq) as Hl.
  destruct (ov_facts t Hov) as (_ & HL & Hn & HD). 
  assert (Hcase : forall b u k c, b < 3 -> u < P -> k < m -> c < CC ->
    m' (adr3 t f F (l * b + (m * u + k)) + c) =
    Val (outc M L (fun j => x j c) (Z.of_nat q * Z.of_nat k + Z.of_nat n * Z.of_nat u + rh3 b))).
  { intros b u k c Hb Hu Hk Hc. assert (Hlt : m * u + k < l) by (rewrite Hl; nia).
    rewrite A1; [|assert (l * (b + 1) <= l * 3) by (apply Nat.mul_le_mono_l; lia); lia|assumption]. f_equal. unfold kout.
    assert (F3 : (l * b + (m * u + k)) / l = b) by (symmetry; apply (Nat.div_unique _ _ _ (m * u + k)); lia).
    assert (F4 : (l * b + (m * u + k)) mod m = k) by (symmetry; apply (Nat.mod_unique _ _ (P * b + u)); [lia|rewrite Hl; lia]).
    assert (F5 : (l * b + (m * u + k)) mod l = m * u + k) by (symmetry; apply (Nat.mod_unique _ _ b); lia).
    assert (F6 : (m * u + k) / m = u) by (symmetry; apply (Nat.div_unique _ _ _ k); lia).
    rewrite F3, F4, F5, F6. reflexivity. }
  pose proof (k_Mpos t Hwf Hq) as HM.
  split; [|split].
  - intros u Hu. split; [|split].
    + intros k c Hk Hc. specialize (Hcase 0 u k c ltac:(lia) Hu Hk Hc). rewrite Nat.mul_0_r, Nat.add_0_l in Hcase.
      assert (m * u + k < l) by (rewrite Hl; nia). rewrite adr3_0 in Hcase by assumption.
      replace (f + SS * (m * u) + SS * k + c) with (f + SS * (m * u + k) + c) by lia. rewrite Hcase. f_equal.
      rewrite <- outc_cpdft. f_equal. cbn [rh3]. lia.
    + intros k c Hk Hc. specialize (Hcase 1 u k c ltac:(lia) Hu Hk Hc). rewrite Nat.mul_1_r in Hcase.
      assert (m * u + k < l) by (rewrite Hl; nia). rewrite adr3_1 in Hcase by assumption. unfold kb in Hcase.
      replace (f + SS * (l + m * u) + SS * k + c) with (f + SS * l + SS * (m * u + k) + c) by lia. rewrite Hcase. f_equal.
      rewrite <- outc_cpdft. f_equal. cbn [rh3]. lia.
    + intros k c Hk Hc. specialize (Hcase 2 u k c ltac:(lia) Hu Hk Hc).
      assert (m * u + k < l) by (rewrite Hl; nia). rewrite adr3_2 in Hcase by assumption.
      replace (F + SS * (m * u) + SS * k + c) with (F + SS * (m * u + k) + c) by lia. rewrite Hcase. f_equal.
      rewrite <- outc_cpdft. apply outc_mod; [assumption|]. cbn [rh3].
      replace (Z.of_nat (q * k + n * u + (M - 1)))%Z with
        (Z.of_nat q * Z.of_nat k + Z.of_nat n * Z.of_nat u + Z.opp 1 + 1 * Z.of_nat M)%Z by lia.
      symmetry. apply Z.mod_add. lia.
  - intros a Hn'. apply A2. intros i c Hi Hc Ea. apply Hn'. unfold adr3 in Ea.
    destruct (Nat.ltb_spec i (l * 2)) as [H|H].
    + right. exists i, c. rewrite (ov_L t Hwf Hov). split; [lia|]. split; [assumption|auto].
    + left. exists (i - l * 2), c. split; [lia|]. split; [assumption|auto].
  - assumption.
Qed.
End T.
