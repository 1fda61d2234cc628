(** Hermitian forward transforms: dispatch, frequencies, final statement. *)
From Coq Require Import Reals ZArith Arith Lia List Bool.
From Verif Require Import CNum Sums Roots Mem VecModel VecProofs PadModel PadKernels PadSpec Loops
  PadLemmas PadMath PadGeom Fwd1 PadForward Fill CenModel CenMath CenGeom CenFft CenF2 CenPass CenStage CenTw CenFI
  HerModel HerSpec HerMath HerFft HerGeom HerF2 HerFI HerForward.

Lemma outh_period M H f k z : 0 < M -> outh M H f (k + Z.of_nat M * z) = outh M H f k.
Proof.
  intros HM. unfold outh. f_equal. apply Csum_ext. intros i Hi.
  replace (Z.of_nat (i + 1) * (k + Z.of_nat M * z))%Z with (Z.of_nat (i + 1) * k + Z.of_nat M * (Z.of_nat (i + 1) * z))%Z by ring.
  replace (- (Z.of_nat (i + 1) * k + Z.of_nat M * (Z.of_nat (i + 1) * z)))%Z with (- (Z.of_nat (i + 1) * k) + Z.of_nat M * (- (Z.of_nat (i + 1) * z)))%Z by ring.
  rewrite !zeta_period by assumption. reflexivity.
Qed.

Section I.
Variable t : pad.
Hypothesis Hwf : hwf t.
Notation CC := (aC t).  Notation m := (am t).
Notation p := (kp t).  Notation q := (kq t).   Notation n := (kn t).   Notation M := (kM t).
Notation P := (hP t). Notation e := (he t). Notation H := (hH t).

Lemma hno_P : hnoutputs t = P * m.
Proof.
  unfold hnoutputs, hblocksize, hP, hp2. destruct (Nat.eqb_spec q 1); lia.
Qed.
Section Q.
Hypothesis Hq : q <> 1.
Lemma hD_2 : aD t = 2. Proof. apply (h_valid t Hwf Hq). Qed.
Lemma hD0_n : hD0 t = if n mod 2 =? 0 then 2 else 1.
Proof.
  unfold hD0. destruct (Nat.eqb_spec q 1) as [|_]; [contradiction|]. rewrite hD_2.
  pose proof (Nat.mod_upper_bound n 2 ltac:(lia)). destruct (Nat.eqb_spec (n mod 2) 0); [reflexivity|lia].
Qed.
Lemma hblocks_q r : hblocks t r = if (r =? 0) && negb (n mod 2 =? 0) then 1 else 2.
Proof.
  unfold hblocks. destruct (Nat.eqb_spec q 1) as [|_]; [contradiction|]. rewrite hD_2, hD0_n.
  destruct (r =? 0), (n mod 2 =? 0); reflexivity.
Qed.
Lemma hinc_1 r : hincrement t r = 1.
Proof.
  unfold hincrement, hdr. rewrite (h_conj t Hwf Hq), hD_2, hD0_n. destruct (Nat.eqb_spec q 1) as [|_]; [contradiction|].
  destruct (0 <? r); [reflexivity|]. destruct (n mod 2 =? 0); reflexivity.
Qed.
Lemma hcq_p : cq p 2 = P.
Proof.
  destruct (h_valid t Hwf Hq) as (_ & E & _). rewrite (hP_q t Hq). pose proof (cq2 p). lia.
Qed.
(** the residue reported for block be *)
Lemma hindex_cong r be u k : r < hR t -> be < hblocks t r -> u < P -> k < m ->
  exists z, (Z.of_nat (hindex t r (be * hnoutputs t + (u * m + k))) =
    Z.of_nat q * Z.of_nat k + Z.of_nat n * Z.of_nat u + hrho t r be + Z.of_nat M * z)%Z.
Proof.
  intros Hr Hbe Hu Hk. rewrite (h_R t Hwf Hq) in Hr. pose proof (cq2 n) as Hn2.
  pose proof (h_m t Hwf) as Hm. pose proof (h_n2 t Hwf Hq) as Hn.
  pose proof (h_Mpos t Hwf Hq) as HM. rewrite hblocks_q in Hbe. rewrite hno_P.
  assert (Huk : u * m + k < P * m) by nia.
  destruct (h_valid t Hwf Hq) as (_ & Ep & _).
  assert (Ep2 : p mod 2 = 0) by (rewrite Ep, Nat.mul_comm; apply Nat.mod_mul; lia).
  unfold hindex. destruct (Nat.eqb_spec q 1) as [|_]; [contradiction|]. rewrite hcq_p, hD_2, Ep2. change (1 <? 2) with true. change (0 =? 0) with true. cbn [andb orb].
  assert (E1 : (be * (P * m) + (u * m + k)) mod m = k).
  { symmetry. apply (Nat.mod_unique _ _ (be * P + u) k); [assumption|]. rewrite Nat.mul_add_distr_l. lia. }
  assert (E2 : (be * (P * m) + (u * m + k)) / m = be * P + u).
  { symmetry. apply (Nat.div_unique _ _ _ k); [assumption|]. rewrite Nat.mul_add_distr_l. lia. }
  assert (E3 : (be * P + u) mod P = u).
  { symmetry. apply (Nat.mod_unique _ _ be u); [assumption|lia]. }
  assert (E4 : (be * (P * m) + (u * m + k)) / (P * m) = be).
  { symmetry. apply (Nat.div_unique _ _ be (u * m + k)); [assumption|lia]. }
  rewrite E1, E2, E3, E4.
  assert (Eo : (if (r =? 0) && (P * m <=? be * (P * m) + (u * m + k)) && (hD0 t mod 2 =? 1) then 1 else 0) = 0).
  { destruct (Nat.eqb_spec r 0) as [->|]; [|reflexivity]. cbn [andb] in *. rewrite hD0_n.
    destruct (Nat.eqb_spec (n mod 2) 0); cbn [negb] in Hbe; [rewrite andb_comm; reflexivity|].
    destruct (Nat.leb_spec (P * m) (be * (P * m) + (u * m + k))); [|reflexivity]. assert (be = 0) by lia. subst be. lia. }
  rewrite Eo. rewrite Nat.mul_0_r, !Nat.add_0_r. clear Eo.
  assert (Hb2 : be = 0 \/ be = 1) by (destruct ((r =? 0) && negb (n mod 2 =? 0)); lia).
  assert (E5 : (be * (P * m) + (u * m + k)) / (2 * P * m) = 0).
  { apply Nat.div_small. replace (2 * P * m) with (2 * (P * m)) by lia. destruct Hb2 as [-> | ->]; lia. }
  rewrite E5, Nat.add_0_r. unfold hrho.
  destruct Hb2 as [-> | ->].
  - change (0 =? 2 * 0 + 1) with false. cbv iota. exists 0%Z. destruct (Nat.eqb_spec r 0) as [->|]; cbn [rho2 Nat.eqb]; lia.
  - change (1 =? 2 * 0 + 1) with true. cbv iota.
    destruct (Nat.eqb_spec r 0) as [->|Hr0]; cbn [rho2 Nat.eqb].
    + change (0 <? 0) with false. cbn [andb]. exists 0%Z. lia.
    + destruct (Nat.ltb_spec 0 r) as [_|]; [|lia]. cbn [andb]. pose proof (h_q t Hwf Hq) as Eq.
      destruct (Nat.eqb_spec u 0) as [->|Hu0].
      * change (0 <? 0) with false. cbv iota. destruct (Nat.ltb_spec 0 k) as [Hk0|Hk0].
        -- exists 0%Z. replace (q * (k - 1)) with (q * k - q) by (rewrite Nat.mul_sub_distr_l; lia).
           assert (q * 1 <= q * k) by (apply Nat.mul_le_mono_l; lia).
           replace (n * (P - 1)) with (q - n) by (rewrite Nat.mul_sub_distr_l; lia).
           assert (n <= q) by (rewrite Eq; nia). lia.
        -- assert (k = 0) by lia. subst k. exists 1%Z.
           replace (n * (P - 1)) with (q - n) by (rewrite Nat.mul_sub_distr_l; lia).
           replace (q * (m - 1)) with (q * m - q) by (rewrite Nat.mul_sub_distr_l; lia).
           assert (n <= q) by (rewrite Eq; nia). assert (q * 1 <= q * m) by (apply Nat.mul_le_mono_l; lia).
           unfold kM. replace (m * q) with (q * m) by lia. lia.
      * destruct (Nat.ltb_spec 0 u); [|lia]. exists 0%Z. replace (n * (u - 1)) with (n * u - n) by (rewrite Nat.mul_sub_distr_l; lia).
        assert (n * 1 <= n * u) by (apply Nat.mul_le_mono_l; lia). lia.
Qed.
Lemma hindex_ok r be u k f : r < hR t -> be < hblocks t r -> u < P -> k < m ->
  outh M H f (Z.of_nat (hindex t r (be * hnoutputs t + (u * m + k)))) =
  outh M H f (Z.of_nat q * Z.of_nat k + Z.of_nat n * Z.of_nat u + hrho t r be).
Proof.
  intros Hr Hbe Hu Hk. destruct (hindex_cong r be u k Hr Hbe Hu Hk) as (z & ->). apply outh_period. apply (h_Mpos t Hwf Hq).
Qed.

End Q.
End I.

Section T.
Variables (al : nat) (t : pad).
Hypothesis Hwf : hwf t.
Hypothesis Hal1 : 1 <= al.
Notation CC := (aC t).  Notation m := (am t).
Notation p := (kp t).  Notation q := (kq t).   Notation n := (kn t).   Notation M := (kM t).
Notation P := (hP t). Notation e := (he t). Notation H := (hH t).
Notation B := (hB al t). Notation b := (hb al t).
Section Q.
Hypothesis Hq : q <> 1.
(** the kernels are the filling stages followed by the real transforms *)
Section D.
Variables (f F : nat) (W : option addr) (r : nat).
Notation W0 := (getW F W).
Hypothesis Hin : ainplace t = (W0 =? F).
Lemma V_eq : (if W0 =? F then F + b else W0 + B) = W0 + B.
Proof.
  rewrite <- Hin. destruct (ainplace t) eqn:E; [|reflexivity]. rewrite (hb_inplace t al E).
  symmetry in Hin. apply Nat.eqb_eq in Hin. lia.
Qed.
Lemma odd_test a : (2 * (a / 2) <? a) = negb (a mod 2 =? 0).
Proof.
  pose proof (Nat.div_mod a 2 ltac:(lia)) as E. pose proof (Nat.mod_upper_bound a 2 ltac:(lia)) as Hb.
  destruct (Nat.eqb_spec (a mod 2) 0), (Nat.ltb_spec (2 * (a / 2)) a); cbn [negb]; lia || reflexivity.
Qed.
Lemma hforward_2 : p = 2 -> hforward al t f F r W =
  (if r =? 0 then if n mod 2 =? 0 then fill2_h t CC f W0 (W0 + B) (tl al t F W0 2) else fill2_0 t CC f W0 (tl al t F W0 1)
   else fill2_r t CC f W0 (W0 + B) r (tl al t F W0 2)).
Proof.
  intros Hp. unfold hforward, hforward2, hforward2Many, fill2_h, fill2_0, fill2_r. cbv zeta. rewrite V_eq.
  destruct (Nat.eqb_spec q 1) as [|_]; [contradiction|]. replace (2 <? p) with false by (rewrite Hp; reflexivity).
  change (cq (aL t) 2) with H. rewrite odd_test, (hq2 t Hwf Hq Hp). unfold tl. cbn [Nat.eqb].
  destruct (CC =? 1), (r =? 0), (n mod 2 =? 0); reflexivity.
Qed.
Lemma hforward_I : 2 < p -> hforward al t f F r W =
  (if r =? 0 then if n mod 2 =? 0 then fillI_h t f W0 (W0 + B) (tl al t F W0 2) else fillI_0 t f W0 (tl al t F W0 1)
   else fillI_r t f W0 (W0 + B) r (tl al t F W0 2)).
Proof.
  intros Hp. unfold hforward, hforwardInner, fillI_h, fillI_0, fillI_r, hfftp. cbv zeta. rewrite V_eq.
  destruct (Nat.eqb_spec q 1) as [|_]; [contradiction|]. replace (2 <? p) with true by (symmetry; apply Nat.ltb_lt; assumption).
  change (cq (aL t) 2) with H. rewrite odd_test, <- (hP_q t Hq), (hm0_min t Hwf Hq Hp), (hC_1 t Hwf Hq Hp), Nat.mul_1_l. unfold tl. cbn [Nat.eqb].
  destruct (r =? 0), (n mod 2 =? 0); reflexivity.
Qed.
End D.

Lemma hpass_q f F W r x (m0 : mem) (K : mem -> Prop) :
  let W0 := getW F W in
  r < hR t -> ainplace t = (W0 =? F) ->
  (forall c, c < CC -> im (x 0 c) = 0%R) -> hasC CC f H x m0 ->
  alloc F (2 * b) m0 -> alloc W0 (2 * B) m0 -> apart f (CC * H) W0 (2 * B) -> (W0 = F \/ apart W0 (2 * B) F (2 * b)) ->
  (forall m', passed al t W0 F (hblocks t r) (hrho t r) x m0 m' -> K m') ->
  WP (hforward al t f F r W) m0 K.
Proof.
  intros W0 Hr Hin Hx0 Hs Ha1 Ha2 Hs1 Hs2 HK. rewrite (h_R t Hwf Hq) in Hr. pose proof (cq2 n) as Hn2.
  pose proof (h_n2 t Hwf Hq) as Hn. rewrite (hblocks_q t Hwf Hq) in HK.
  assert (Hp2 : p = 2 \/ 2 < p) by (destruct (h_valid t Hwf Hq) as (_ & Ep & E1 & _); lia).
  assert (E0 : hrho t 0 = rho2 0 (Z.of_nat (n / 2))) by reflexivity.
  destruct Hp2 as [Hp|Hp].
  - rewrite (hforward_2 f F W r Hin Hp). fold W0.
    destruct (Nat.eqb_spec r 0) as [->|Hr0]; cbn [andb negb] in HK.
    + destruct (Nat.eqb_spec (n mod 2) 0) as [He|He]; cbn [andb negb] in HK.
      * apply (pass2_h al t Hwf Hal1 f F W0 x m0 K); assumption.
      * apply (pass2_0 al t Hwf Hal1 f F W0 x m0 K); try assumption. intros m' (V & Fr). apply HK. split; [|exact Fr].
        intros be u k c Hbe. assert (be = 0) by lia. subst be. apply V; assumption.
    + apply (pass2_r al t Hwf Hal1 f F W0 x m0 K); try assumption; lia.
  - rewrite (hforward_I f F W r Hin Hp). fold W0.
    destruct (Nat.eqb_spec r 0) as [->|Hr0]; cbn [andb negb] in HK.
    + destruct (Nat.eqb_spec (n mod 2) 0) as [He|He]; cbn [andb negb] in HK.
      * apply (passI_h al t Hwf Hal1 f F W0 x m0 K); assumption.
      * apply (passI_0 al t Hwf Hal1 f F W0 x m0 K); try assumption. intros m' (V & Fr). apply HK. split; [|exact Fr].
        intros be u k c Hbe. assert (be = 0) by lia. subst be. apply V; assumption.
    + apply (passI_r al t Hwf Hal1 f F W0 x m0 K); try assumption; lia.
Qed.
End Q.

(** q=1 *)
Section Q1.
Hypothesis Hq : q = 1.
Lemma hP_q1 : P = 1. Proof. unfold hP. rewrite Hq. reflexivity. Qed.
Lemma hB_q1 : B = CC * e. Proof. unfold hB. rewrite Hq. reflexivity. Qed.
Lemma hb_q1 : b = CC * e. Proof. unfold hb. rewrite Hq. reflexivity. Qed.
Lemma hM_q1 : M = m. Proof. unfold kM. rewrite Hq. lia. Qed.
Lemma hH_q1 : 1 <= H /\ 2 * H <= m + 1 /\ H <= e.
Proof.
  destruct Hwf as (A1 & A2 & A3 & A4 & A5 & A6 & A7 & _). pose proof (he_m t Hwf). pose proof (hH_L t). rewrite hM_q1 in *. lia.
Qed.
Lemma hpass_1 f F W r x (m0 : mem) (K : mem -> Prop) :
  let W0 := getW F W in
  ainplace t = (W0 =? F) ->
  (forall c, c < CC -> im (x 0 c) = 0%R) -> hasC CC f H x m0 ->
  alloc F b m0 -> alloc W0 B m0 -> apart f (CC * H) W0 B -> (W0 = F \/ apart W0 B F b) ->
  (forall m', passed al t W0 F 1 (fun _ => 0%Z) x m0 m' -> K m') ->
  WP (hforward al t f F r W) m0 K.
Proof.
  intros W0 Hin Hx0 Hs Ha1 Ha2 Hs1 Hs2 HK. pose proof hP_q1 as EP. pose proof (he_m t Hwf) as He. pose proof hH_q1 as HH.
  pose proof (h_C t Hwf) as HC. pose proof (h_m t Hwf) as Hm. pose proof hB_q1 as EB. pose proof hb_q1 as Eb.
  set (g := fun i c => if i <? H then x i c else C0).
  set (adr := fun i => W0 + CC * i).
  assert (Hinj : injrows adr CC e) by (apply buf_inj; lia).
  assert (Hrow : forall i c, i < e -> c < CC -> span_of W0 B (W0 + CC * i + c)).
  { intros i c Hi Hc. unfold span_of. assert (CC * (i + 1) <= CC * e) by (apply Nat.mul_le_mono_l; lia). rewrite Nat.mul_add_distr_l in *. lia. }
  assert (Hout : forall j c, j < H -> c < CC -> outs adr CC e (f + CC * j + c)).
  { intros j c Hj Hc i c' Hi Hc' E. apply (Hs1 (f + CC * j + c)); [|rewrite E; apply Hrow; assumption].
    unfold span_of. assert (CC * (j + 1) <= CC * H) by (apply Nat.mul_le_mono_l; lia). rewrite Nat.mul_add_distr_l in *. lia. }
  assert (Hal : forall i c, i < e -> c < CC -> m0 (adr i + c) <> Unalloc).
  { intros i c Hi Hc. apply Ha2. apply Hrow; assumption. }
  unfold hasC in Hs.
  assert (G0 : forall s c, s < H -> g s c = x s c) by (intros s c Hs'; unfold g; destruct (Nat.ltb_spec s H); [reflexivity|lia]).
  assert (G1 : forall s c, H <= s -> g s c = C0) by (intros s c Hs'; unfold g; destruct (Nat.ltb_spec s H); [lia|reflexivity]).
  assert (HT : forall m2, sets adr CC g e m0 m2 -> WP (crfft (hcr t) W0 F) m2 K).
  { intros m2 (V & Fr & Al). apply (hcr_ok t Hwf W0 F g).
    - assumption.
    - intros i c Hi Hc. rewrite EP in Hi. apply V; [lia|assumption].
    - intros u s c Hu Hs' Hc Hmid. assert (u = 0) by lia. subst u. unfold g. cbn [Nat.mul Nat.add]. destruct (Nat.ltb_spec s H); [|reflexivity].
      assert (s = 0) by lia. subst s. apply Hx0; assumption.
    - intros a Ha. apply Al, Ha1. pose proof (hb_ge t Hwf al Hal1). unfold fblk, span_of in *. lia.
    - destruct Hs2 as [E|Hs2]; [auto|right]. intros a H1 H2. pose proof (hb_ge t Hwf al Hal1). pose proof (hB_ge t al Hal1).
      apply (Hs2 a); unfold wblk, fblk, span_of in *; lia.
    - intros m' H1 H2 H3. apply HK. split; [|split].
      + intros be u k c Hbe Hu Hk Hc. assert (be = 0) by lia. assert (u = 0) by lia. subst be u. rewrite Nat.mul_0_l, Nat.add_0_r.
        specialize (H1 0 k c ltac:(lia) Hk Hc).
        rewrite hM_q1, Hq. replace (Z.of_nat 1 * Z.of_nat k + Z.of_nat n * Z.of_nat 0 + 0)%Z with (Z.of_nat k) by lia.
        rewrite <- explicit_dft by lia. unfold c2r in H1. exact H1.
      + intros a A1 A2. rewrite H2.
        * apply Fr. intros i c Hi Hc E. apply A1. rewrite E, Nat.mul_1_l. apply Hrow; assumption.
        * pose proof (hB_ge t al Hal1). unfold wblk, span_of in *. lia.
        * pose proof (hb_ge t Hwf al Hal1). unfold fblk, span_of in *. lia.
      + auto. }
  pose proof (WP_pfx1 adr CC g e Hinj) as HL.
  unfold hforward. rewrite Hq. cbn [Nat.eqb]. unfold hforwardExplicit, hforwardExplicitMany. cbv zeta. fold W0.
  change (cq (aL t) 2) with H.
  destruct (Nat.eqb_spec CC 1) as [EC|EC].
  - apply WP_seq. eapply HL; [lia|apply pfx1_nil| |].
    { intros s Hs'. apply lset_one; [assumption|]. eapply (gsrd adr CC e f H x m0 _ _ s 0 _ Hs Hout); [lia|lia|rewrite EC; lia|].
      apply row_w1; [unfold adr; rewrite EC; lia|rewrite G0 by lia; reflexivity|].
      replace (W0 + s) with (adr s + 0) by (unfold adr; rewrite EC; lia). apply Hal; lia. }
    intros m2 H2. apply WP_seq. eapply HL; [lia|exact H2| |].
    { intros s Hs'. apply lset_one; [assumption|].
      apply row_w1; [unfold adr; rewrite EC; lia|rewrite G1 by lia; reflexivity|].
      replace (W0 + s) with (adr s + 0) by (unfold adr; rewrite EC; lia). apply Hal; lia. }
    intros m3 H3. apply HT. apply pfx1_sets. exact H3.
  - apply WP_seq. eapply HL; [lia|apply pfx1_nil| |].
    { intros s Hs'. apply lset_cols1; [exact Hinj|lia|]. intros c Hc.
      eapply (gsrd adr CC e f H x m0 _ _ s c _ Hs Hout); [lia|lia|lia|].
      apply row_w1; [unfold adr; lia|rewrite G0 by lia; reflexivity|]. apply (Hal s c); lia. }
    intros m2 H2. apply WP_seq. eapply HL; [lia|exact H2| |].
    { intros s Hs'. apply lset_cols1; [exact Hinj|lia|]. intros c Hc.
      apply row_w1; [unfold adr; lia|rewrite G1 by lia; reflexivity|]. apply (Hal s c); lia. }
    intros m3 H3. apply HT. apply pfx1_sets. exact H3.
Qed.
End Q1.

(** one pass of forward *)
Lemma hforward_b f F W r x (m0 : mem) :
  let W0 := getW F W in
  r < hR t -> ainplace t = (W0 =? F) ->
  hasC CC f H x m0 -> (forall c, c < CC -> im (x 0 c) = 0%R) ->
  alloc F (houtputSize al t) m0 -> alloc W0 (hworkSizeW al t) m0 ->
  apart f (CC * H) F (houtputSize al t) -> apart f (CC * H) W0 (hworkSizeW al t) ->
  (W0 = F \/ apart W0 (hworkSizeW al t) F (houtputSize al t)) ->
  WP (hforward al t f F r W) m0 (fun m' =>
    (forall be i c, be < hblocks t r -> i < hnoutputs t -> c < CC ->
       let X := hdft M H (fun j => x j c) (hindex t r (be * hnoutputs t + i)) in
       im X = 0%R /\ dbl m' (F + be * b) (CC * i + c) (re X)) /\
    hasC CC f H x m' /\
    only (fun a => span_of F (houtputSize al t) a \/ span_of W0 (hworkSizeW al t) a) m0 m').
Proof.
  intros W0 Hr Hin Hs Hx0 Ha1 Ha2 Hs1 Hs2 Hs3.
  pose proof (h_C t Hwf) as HC. pose proof (h_m t Hwf) as Hm.
  assert (HD : 1 <= aD t) by apply Hwf.
  assert (HM : 0 < M). { destruct Hwf as (A1 & A2 & _ & _ & _ & _ & A7 & _). lia. }
  assert (Hno : hnoutputs t = P * m) by apply (hno_P t).
  assert (Hsw : forall k, k <= aD t -> (forall a, span_of W0 (k * B) a -> span_of F (houtputSize al t) a \/ span_of W0 (hworkSizeW al t) a)).
  { intros k Hk a Ha. unfold hworkSizeW, houtputSize, span_of in *. destruct (ainplace t) eqn:E.
    - left. rewrite (hb_inplace t al E). symmetry in Hin. apply Nat.eqb_eq in Hin. rewrite <- Hin.
      assert (k * B <= B * aD t) by (rewrite Nat.mul_comm; apply Nat.mul_le_mono_l; assumption). lia.
    - right. assert (k * B <= B * aD t) by (rewrite Nat.mul_comm; apply Nat.mul_le_mono_l; assumption). lia. }
  assert (Hsf : forall k, k <= aD t -> (forall a, span_of F (k * b) a -> span_of F (houtputSize al t) a)).
  { intros k Hk a Ha. unfold houtputSize, span_of in *.
    assert (k * b <= b * aD t) by (rewrite Nat.mul_comm; apply Nat.mul_le_mono_l; assumption). lia. }
  assert (Hfin : forall nb rh, nb <= aD t -> hblocks t r = nb ->
    (forall be u k f, be < nb -> u < P -> k < m -> outh M H f (Z.of_nat (hindex t r (be * hnoutputs t + (u * m + k)))) =
       outh M H f (Z.of_nat q * Z.of_nat k + Z.of_nat n * Z.of_nat u + rh be)) ->
    forall m', passed al t W0 F nb rh x m0 m' ->
    (forall be i c, be < hblocks t r -> i < hnoutputs t -> c < CC ->
       let X := hdft M H (fun j => x j c) (hindex t r (be * hnoutputs t + i)) in
       im X = 0%R /\ dbl m' (F + be * b) (CC * i + c) (re X)) /\
    hasC CC f H x m' /\
    only (fun a => span_of F (houtputSize al t) a \/ span_of W0 (hworkSizeW al t) a) m0 m').
  { intros nb rh Hnb Enb Hidx m' (V & Fr & Al).
    assert (Hfr : forall a, ~ (span_of F (houtputSize al t) a \/ span_of W0 (hworkSizeW al t) a) -> m' a = m0 a).
    { intros a Ha. apply Fr; intros Hx; apply Ha; [apply (Hsw nb); assumption|left; apply (Hsf nb); assumption]. }
    split; [|split; [|split]].
    - rewrite Enb. intros be i c Hbe Hi Hc. cbv zeta. rewrite Hno in Hi.
      assert (Hu : i / m < P) by (apply Nat.div_lt_upper_bound; lia).
      pose proof (Nat.mod_upper_bound i m ltac:(lia)) as Hk. pose proof (Nat.div_mod i m ltac:(lia)) as Ei.
      replace i with (i / m * m + i mod m) by lia. set (u := i / m) in *. set (k := i mod m) in *. clearbody u k. clear Ei Hi i.
      rewrite hdft_outh by assumption. split.
      + apply isreal_im. apply outh_real. apply isreal_im. apply Hx0. assumption.
      + rewrite Hidx by assumption. apply V; assumption.
    - intros j c Hj Hc. rewrite Hfr; [apply Hs; assumption|].
      assert (span_of f (CC * H) (f + CC * j + c)).
      { unfold span_of. assert (CC * (j + 1) <= CC * H) by (apply Nat.mul_le_mono_l; lia). rewrite Nat.mul_add_distr_l in *. lia. }
      intros [Hx|Hx]; [eapply Hs1|eapply Hs2]; eassumption.
    - exact Hfr.
    - exact Al. }
  assert (HW0 : forall k, k <= aD t -> alloc W0 (k * B) m0 /\ apart f (CC * H) W0 (k * B) /\
     alloc F (k * b) m0 /\ (W0 = F \/ apart W0 (k * B) F (k * b))).
  { intros k Hk. split; [|split; [|split]].
    - intros a Ha. destruct (Hsw k Hk a Ha) as [Hx|Hx]; [apply Ha1|apply Ha2]; assumption.
    - intros a H1 H2. destruct (Hsw k Hk a H2) as [Hx|Hx]; [apply (Hs1 a)|apply (Hs2 a)]; assumption.
    - intros a Ha. apply Ha1. eapply Hsf; eassumption.
    - destruct (Nat.eq_dec W0 F) as [|Hne]; [auto|right]. destruct Hs3 as [|Hs3]; [contradiction|].
      intros a H1 H2. assert (Ei : ainplace t = false) by (rewrite Hin; apply Nat.eqb_neq; assumption).
      apply (Hs3 a).
      + unfold hworkSizeW, span_of in *. rewrite Ei. assert (k * B <= B * aD t) by (rewrite Nat.mul_comm; apply Nat.mul_le_mono_l; assumption). lia.
      + eapply Hsf; eassumption. }
  destruct (Nat.eq_dec q 1) as [Hq|Hq].
  - assert (Enb : hblocks t r = 1) by (unfold hblocks; rewrite Hq; reflexivity).
    destruct (HW0 1 HD) as (A1 & A2 & A3 & A4). rewrite !Nat.mul_1_l in *.
    apply (hpass_1 Hq f F W r x m0); try assumption.
    apply (Hfin 1); [assumption|assumption|].
    intros be u k g Hbe Hu Hk. rewrite (hP_q1 Hq) in *. unfold hindex. rewrite Hq. cbn [Nat.eqb]. assert (be = 0) by lia. assert (u = 0) by lia. subst be u.
    f_equal. lia.
  - destruct (HW0 2) as (A1 & A2 & A3 & A4); [rewrite (hD_2 t Hwf Hq); lia|].
    apply (hpass_q Hq f F W r x m0); try assumption.
    apply (Hfin _ (hrho t r)); [|reflexivity|].
    + rewrite (hblocks_q t Hwf Hq), (hD_2 t Hwf Hq). destruct ((r =? 0) && negb (n mod 2 =? 0)); lia.
    + intros be u k g Hbe Hu Hk. apply hindex_ok; assumption.
Qed.
End T.
