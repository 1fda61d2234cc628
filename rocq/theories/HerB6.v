(** Hermitian backward transforms: dispatch and one pass. *)
From Coq Require Import Reals ZArith Arith Lia List Bool.
From Verif Require Import CNum Sums Roots Mem VecModel VecProofs PadModel PadKernels PadSpec Loops
  PadLemmas PadMath PadGeom Fwd1 PadForward Fill CenModel CenMath CenGeom CenFft CenF2 CenPass CenStage CenTw CenFI
  CenBack CenB2 CenBPass CenBwd2 CenBI HerModel HerSpec HerMath HerFft HerGeom HerF2 HerFI HerForward HerDisp HerB1 HerB2 HerB3 HerB4 HerB5.

Section T.
Variables (al : nat) (t : pad).
Hypothesis Hwf : hwf t.
Hypothesis Hal1 : 1 <= al.
Notation CC := (aC t).  Notation m := (am t).
Notation p := (kp t).  Notation q := (kq t).   Notation n := (kn t).   Notation M := (kM t).
Notation P := (hP t). Notation e := (he t). Notation H := (hH t).
Notation B := (hB al t). Notation b := (hb al t).
Notation l := (e * P).

(** what a pass does *)
Definition bpassed (W f nb : nat) (g : nat -> nat -> C) (m1 m' : mem) : Prop :=
  (forall j c, j < H -> c < CC -> m' (f + CC * j + c) = Val (g j c)) /\
  (forall a, ~ span_of W (nb * B) a -> ~ span_of f (CC * H) a -> m' a = m1 a) /\
  (forall a, m1 a <> Unalloc -> m' a <> Unalloc).

Section Q.
Hypothesis Hq : q <> 1.
Section D.
Variables (f F : nat) (W : option addr) (r : nat).
Notation W0 := (getW F W).
Hypothesis Hin : ainplace t = (W0 =? F).
Lemma hbackward_2 : p = 2 -> hbackward al t F f r W =
  (if r =? 0 then if n mod 2 =? 0 then Seq (rcfft (hcr t) F W0) (Seq (rcfft (hcr t) (F + b) (W0 + B)) (fold2_h t CC f W0 (W0 + B)))
     else Seq (rcfft (hcr t) F W0) (fold2_0 t CC f W0)
   else Seq (rcfft (hcr t) F W0) (Seq (rcfft (hcr t) (F + b) (W0 + B)) (fold2_r t CC f W0 (W0 + B) r))).
Proof.
  intros Hp. unfold hbackward, hbackward2, hbackward2Many, fold2_h, fold2_0, fold2_r. cbv zeta. rewrite (V_eq al t Hal1 Hq F W Hin).
  destruct (Nat.eqb_spec q 1) as [|_]; [contradiction|]. replace (2 <? p) with false by (rewrite Hp; reflexivity).
  change (cq (aL t) 2) with H. rewrite (odd_test al t Hal1 Hq), (hq2 t Hwf Hq Hp).
  destruct (CC =? 1), (r =? 0), (n mod 2 =? 0); reflexivity.
Qed.
Lemma hbackward_I : 2 < p -> (r <> 0 -> r < n) -> hbackward al t F f r W =
  (if r =? 0 then if n mod 2 =? 0 then Seq (rcfft (hcr t) F W0) (Seq (rcfft (hcr t) (F + b) (W0 + B)) (unI_h t W0 (W0 + B) (foldI_h t f W0 (W0 + B))))
     else Seq (rcfft (hcr t) F W0) (unI_0 t W0 (foldI_0 t f W0))
   else Seq (rcfft (hcr t) F W0) (Seq (rcfft (hcr t) (F + b) (W0 + B)) (unI_r t W0 (W0 + B) r (foldI_r t f W0 (W0 + B) r (zeta n (Z.of_nat r)))))).
Proof.
  intros Hp Hr. unfold hbackward, hbackwardInner, unI_h, unI_0, unI_r, foldI_h, foldI_0, foldI_r, hfftp. cbv zeta.
  destruct (Nat.eqb_spec q 1) as [|_]; [contradiction|]. replace (2 <? p) with true by (symmetry; apply Nat.ltb_lt; assumption).
  change (cq (aL t) 2) with H. rewrite (odd_test al t Hal1 Hq), <- (hP_q t Hq), (hm0_min t Hwf Hq Hp), (hC_1 t Hwf Hq Hp), Nat.mul_1_l.
  destruct (Nat.eqb_spec r 0) as [->|Hr0]; [destruct (n mod 2 =? 0); reflexivity|].
  rewrite (cget_some _ _ _ _ (hzqpP t Hwf Hq Hp r ltac:(lia))). reflexivity.
Qed.
End D.

Section Pass.
Variables (f F W0 : nat) (y : nat -> nat -> nat -> R) (acc : nat -> nat -> C) (nb : nat) (m1 : mem) (K : mem -> Prop).
Hypothesis Hin : ainplace t = (W0 =? F).
Hypothesis Hnb : nb <= 2.
Notation adr := (adr2 CC l W0 (W0 + B)).
Notation fadr := (fun j => f + CC * j).
Hypothesis Hfw : apart f (CC * H) W0 (nb * B).
Hypothesis Haf : alloc f (CC * H) m1.
Lemma CBl : CC * l <= B. Proof. pose proof (hB_ge t al Hal1) as E. unfold hWw in E. rewrite (Nat.mul_comm P e) in E. exact E. Qed.
Lemma badr i c : i < l * nb -> c < CC -> span_of W0 (nb * B) (adr i + c).
Proof.
  intros Hi Hc. pose proof CBl as E. unfold span_of. destruct (Nat.lt_ge_cases i l) as [Hl|Hl].
  - rewrite adr2_lo by assumption. assert (1 <= nb) by nia. assert (1 * B <= nb * B) by (apply Nat.mul_le_mono_r; assumption).
    assert (CC * (i + 1) <= CC * l) by (apply Nat.mul_le_mono_l; lia). rewrite Nat.mul_add_distr_l in *. lia.
  - assert (nb = 2) by nia. subst nb. replace i with (l + (i - l)) by lia. rewrite adr2_hi.
    assert (CC * (i - l + 1) <= CC * l) by (apply Nat.mul_le_mono_l; lia). rewrite Nat.mul_add_distr_l in *. lia.
Qed.
Lemma bf_in j c : j < H -> c < CC -> span_of f (CC * H) (f + CC * j + c).
Proof.
  intros Hj Hc. unfold span_of. assert (CC * (j + 1) <= CC * H) by (apply Nat.mul_le_mono_l; lia). rewrite Nat.mul_add_distr_l in *. lia.
Qed.
Lemma bouts i c : i < l * nb -> c < CC -> outs fadr CC H (adr i + c).
Proof. intros Hi Hc j c' Hj Hc' E. apply (Hfw (adr i + c)); [rewrite E; apply bf_in; assumption|apply badr; assumption]. Qed.
Section St.
Variables (row : nat -> nat -> C) (m2 : mem).
Hypothesis Hst : sets adr CC row (l * nb) m1 m2.
Lemma st_lo : 1 <= nb -> (forall i c, i < l -> c < CC -> m2 (W0 + CC * i + c) = Val (row i c)) /\
  (forall i c, i < l -> c < CC -> outs fadr CC H (W0 + CC * i + c)).
Proof.
  intros Hb. assert (Hl : l * 1 <= l * nb) by (apply Nat.mul_le_mono_l; assumption). split; intros i c Hi Hc.
  - rewrite <- (adr2_lo CC l W0 (W0 + B)) by assumption. apply Hst; [lia|assumption].
  - rewrite <- (adr2_lo CC l W0 (W0 + B)) by assumption. apply bouts; [lia|assumption].
Qed.
Lemma st_hi : nb = 2 -> (forall i c, i < l -> c < CC -> m2 (W0 + B + CC * i + c) = Val (row (l + i) c)) /\
  (forall i c, i < l -> c < CC -> outs fadr CC H (W0 + B + CC * i + c)).
Proof.
  intros Hb. split; intros i c Hi Hc; rewrite <- (adr2_hi CC l W0 (W0 + B)); [apply Hst|apply bouts]; try assumption; rewrite Hb; lia.
Qed.
Lemma st_f a : span_of f (CC * H) a -> m2 a = m1 a.
Proof. intros Ha. apply Hst. intros i c Hi Hc E. apply (Hfw a); [assumption|rewrite E; apply badr; assumption]. Qed.
Lemma st_al : forall j c, j < H -> c < CC -> m2 (f + CC * j + c) <> Unalloc.
Proof. intros j c Hj Hc. pose proof (bf_in j c Hj Hc) as Hb. rewrite st_f by assumption. apply Haf. assumption. Qed.
Lemma st_acc : (forall j c, j < H -> c < CC -> m1 (f + CC * j + c) = Val (acc j c)) ->
  forall j c, j < H -> c < CC -> m2 (f + CC * j + c) = Val (acc j c).
Proof. intros Ha j c Hj Hc. rewrite st_f by (apply bf_in; assumption). apply Ha; assumption. Qed.
Lemma st_fin g m' : sets fadr CC g H m2 m' -> bpassed W0 f nb g m1 m'.
Proof.
  intros (V & Fr & Al). destruct Hst as (V2 & F2 & A2). split; [|split; [|auto]].
  - exact V.
  - intros a H1 H2. rewrite Fr, F2; [reflexivity| |].
    + intros i c Hi Hc E. apply H1. rewrite E. apply badr; assumption.
    + intros j c Hj Hc E. apply H2. rewrite E. apply bf_in; assumption.
Qed.
End St.
End Pass.

Lemma hback_q f F W r y acc (m0 : mem) (K : mem -> Prop) :
  let W0 := getW F W in let nb := hblocks t r in
  r < hR t -> ainplace t = (W0 =? F) ->
  hasB t al F nb y m0 -> alloc W0 (nb * B) m0 -> alloc f (CC * H) m0 -> apart f (CC * H) W0 (nb * B) -> (W0 = F \/ apart W0 (nb * B) F (nb * b)) ->
  (r <> 0 -> hasC CC f H acc m0) ->
  (forall m', bpassed W0 f nb (fun j c => Cadd (if r =? 0 then C0 else acc j c) (hsum t nb (hrho t r) y j c)) m0 m' -> K m') ->
  WP (hbackward al t F f r W) m0 K.
Proof.
  intros W0 nb Hr Hin Hy Ha1 Ha2 Hs1 Hs2 Hacc HK. rewrite (h_R t Hwf Hq) in Hr. pose proof (cq2 n) as Hn2.
  pose proof (h_n2 t Hwf Hq) as Hn. subst nb. rewrite (hblocks_q t Hwf Hq) in *.
  pose proof CBl as HBl. pose proof (h_C t Hwf) as HC.
  assert (Hp2 : p = 2 \/ 2 < p) by (destruct (h_valid t Hwf Hq) as (_ & Ep & E1 & _); lia).
  assert (E0 : hrho t 0 = rho2 0 (Z.of_nat (n / 2))) by reflexivity.
  assert (C0l : forall z, (C0 + z)%C = z) by (intros; ring).
  assert (Hx0 : r = 0 -> forall nb rh W1 m', bpassed W1 f nb (fun j c => hsum t nb rh y j c) m0 m' ->
     bpassed W1 f nb (fun j c => Cadd (if r =? 0 then C0 else acc j c) (hsum t nb rh y j c)) m0 m').
  { intros -> nb rh W1 m' (X1 & X2). split; [|exact X2]. intros j c Hj Hc. rewrite X1 by assumption. cbn [Nat.eqb]. rewrite C0l. reflexivity. }
  assert (Hxr : r <> 0 -> forall nb rh W1 m', bpassed W1 f nb (fun j c => Cadd (acc j c) (hsum t nb rh y j c)) m0 m' ->
     bpassed W1 f nb (fun j c => Cadd (if r =? 0 then C0 else acc j c) (hsum t nb rh y j c)) m0 m').
  { intros Hr0 nb rh W1 m'. replace (r =? 0) with false by (symmetry; apply Nat.eqb_neq; assumption). auto. }
  destruct Hp2 as [Hp|Hp].
  - assert (El : l = e) by (rewrite (hP2 t Hq Hp); lia).
    rewrite (hbackward_2 f F W r Hin Hp). fold W0.
    destruct (Nat.eqb_spec r 0) as [Hr0|Hr0]; cbn [andb negb] in *.
    + destruct (Nat.eqb_spec (n mod 2) 0) as [He|He]; cbn [andb negb] in *.
      * apply (head_two t Hwf Hq al Hal1 F W0 y _ m0 K Hin Hy Ha1 Hs2). intros m2 Hst.
        destruct (st_lo f W0 2 m0 ltac:(lia) Hs1 _ _ Hst ltac:(lia)) as [L1 L2]. destruct (st_hi f W0 2 m0 ltac:(lia) Hs1 _ _ Hst eq_refl) as [L3 L4].
        pose proof (st_al f W0 2 m0 ltac:(lia) Hs1 Ha2 _ _ Hst) as L5. pose proof (st_fin f W0 2 m0 ltac:(lia) Hs1 _ _ Hst) as L6. rewrite El in L1, L2, L3, L4.
        eapply fold2_h_ok; try eassumption.
        intros m' Hm. apply HK, Hx0; [assumption|]. rewrite Hr0, E0. apply L6. exact Hm.
      * rewrite !Nat.mul_1_l in *. apply (head_one t Hwf Hq al Hal1 F W0 y _ m0 K Hin Hy Ha1 Hs2). intros m2 Hst. rewrite <- (Nat.mul_1_l B) in Hs1.
        destruct (st_lo f W0 1 m0 ltac:(lia) Hs1 _ _ Hst ltac:(lia)) as [L1 L2].
        pose proof (st_al f W0 1 m0 ltac:(lia) Hs1 Ha2 _ _ Hst) as L5. pose proof (st_fin f W0 1 m0 ltac:(lia) Hs1 _ _ Hst) as L6. rewrite El in L1, L2.
        eapply fold2_0_ok; try eassumption.
        intros m' Hm. apply HK, Hx0; [assumption|]. rewrite Hr0, E0. apply L6. exact Hm.
    + apply (head_two t Hwf Hq al Hal1 F W0 y _ m0 K Hin Hy Ha1 Hs2). intros m2 Hst.
      destruct (st_lo f W0 2 m0 ltac:(lia) Hs1 _ _ Hst ltac:(lia)) as [L1 L2]. destruct (st_hi f W0 2 m0 ltac:(lia) Hs1 _ _ Hst eq_refl) as [L3 L4].
      pose proof (st_al f W0 2 m0 ltac:(lia) Hs1 Ha2 _ _ Hst) as L5. pose proof (st_fin f W0 2 m0 ltac:(lia) Hs1 _ _ Hst) as L6. rewrite El in L1, L2, L3, L4.
      pose proof (st_acc f W0 acc 2 m0 ltac:(lia) Hs1 _ _ Hst (Hacc Hr0)) as L7.
      eapply fold2_r_ok; try eassumption; [lia|lia|].
      intros m' Hm. apply HK, Hxr; [assumption|]. apply L6. replace (hrho t r) with (rho2 (Z.of_nat r) (- Z.of_nat r)); [exact Hm|].
      unfold hrho. destruct (Nat.eqb_spec r 0); [contradiction|reflexivity].
  - pose proof (hC_1 t Hwf Hq Hp) as EC.
    assert (HlB : l <= B) by (rewrite EC in HBl; lia).
    assert (Hrn : r <> 0 -> r < n) by lia.
    rewrite (hbackward_I f F W r Hp Hrn). fold W0.
    destruct (Nat.eqb_spec r 0) as [Hr0|Hr0]; cbn [andb negb] in *.
    + destruct (Nat.eqb_spec (n mod 2) 0) as [He|He]; cbn [andb negb] in *.
      * apply (head_two t Hwf Hq al Hal1 F W0 y _ m0 K Hin Hy Ha1 Hs2). intros m2 Hst.
        pose proof (proj1 Hst) as V2. rewrite EC in V2. eapply (unI_h_ok t Hwf Hq Hp W0 B y _ m2 K HlB V2 He). intros m3 Hst3.
        assert (Hst4 : sets (adr2 CC l W0 (W0 + B)) CC (hUrow t (rho2 0 (Z.of_nat (n / 2))) y) (l * 2) m0 m3).
        { eapply sets_trans; [exact Hst|]. rewrite EC. exact Hst3. }
        clear Hst Hst3 V2.
        destruct (st_lo f W0 2 m0 ltac:(lia) Hs1 _ _ Hst4 ltac:(lia)) as [L1 L2]. destruct (st_hi f W0 2 m0 ltac:(lia) Hs1 _ _ Hst4 eq_refl) as [L3 L4].
        pose proof (st_al f W0 2 m0 ltac:(lia) Hs1 Ha2 _ _ Hst4) as L5. pose proof (st_fin f W0 2 m0 ltac:(lia) Hs1 _ _ Hst4) as L6. rewrite EC in L1, L2, L3, L4, L5, L6.
        eapply foldI_h_ok; try eassumption; [reflexivity|reflexivity|].
        intros m' Hm. apply HK, Hx0; [assumption|]. rewrite Hr0, E0. apply L6. exact Hm.
      * rewrite !Nat.mul_1_l in *. apply (head_one t Hwf Hq al Hal1 F W0 y _ m0 K Hin Hy Ha1 Hs2). intros m2 Hst. rewrite <- (Nat.mul_1_l B) in Hs1.
        pose proof (proj1 Hst) as V2. rewrite EC in V2. eapply (unI_0_ok t Hwf Hq Hp W0 B y _ m2 K HlB V2). intros m3 Hst3.
        assert (Hst4 : sets (adr2 CC l W0 (W0 + B)) CC (hUrow t (fun _ => 0%Z) y) (l * 1) m0 m3).
        { eapply sets_trans; [exact Hst|]. rewrite EC. exact Hst3. }
        clear Hst Hst3 V2.
        destruct (st_lo f W0 1 m0 ltac:(lia) Hs1 _ _ Hst4 ltac:(lia)) as [L1 L2].
        pose proof (st_al f W0 1 m0 ltac:(lia) Hs1 Ha2 _ _ Hst4) as L5. pose proof (st_fin f W0 1 m0 ltac:(lia) Hs1 _ _ Hst4) as L6. rewrite EC in L1, L2, L5, L6.
        eapply foldI_0_ok; try eassumption; [reflexivity|].
        intros m' Hm. apply HK, Hx0; [assumption|]. rewrite Hr0, E0. apply L6. exact Hm.
    + apply (head_two t Hwf Hq al Hal1 F W0 y _ m0 K Hin Hy Ha1 Hs2). intros m2 Hst.
      pose proof (proj1 Hst) as V2. rewrite EC in V2. eapply (unI_r_ok t Hwf Hq Hp W0 B y _ m2 K HlB V2 r ltac:(lia)). intros m3 Hst3.
      assert (Hst4 : sets (adr2 CC l W0 (W0 + B)) CC (hUrow t (rho2 (Z.of_nat r) (- Z.of_nat r)) y) (l * 2) m0 m3).
      { eapply sets_trans; [exact Hst|]. rewrite EC. exact Hst3. }
      clear Hst Hst3 V2.
      destruct (st_lo f W0 2 m0 ltac:(lia) Hs1 _ _ Hst4 ltac:(lia)) as [L1 L2]. destruct (st_hi f W0 2 m0 ltac:(lia) Hs1 _ _ Hst4 eq_refl) as [L3 L4].
      pose proof (st_al f W0 2 m0 ltac:(lia) Hs1 Ha2 _ _ Hst4) as L5. pose proof (st_fin f W0 2 m0 ltac:(lia) Hs1 _ _ Hst4) as L6.
      pose proof (st_acc f W0 acc 2 m0 ltac:(lia) Hs1 _ _ Hst4 (Hacc Hr0)) as L7. rewrite EC in L1, L2, L3, L4, L5, L6, L7.
      eapply foldI_r_ok; try eassumption; [lia|reflexivity|reflexivity|].
      intros m' Hm. apply HK, Hxr; [assumption|]. apply L6. replace (hrho t r) with (rho2 (Z.of_nat r) (- Z.of_nat r)); [exact Hm|].
      unfold hrho. destruct (Nat.eqb_spec r 0); [contradiction|reflexivity].
Qed.
End Q.
End T.
