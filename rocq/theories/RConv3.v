(** Convolution of real data: the three schedules of convolveRaw for A=2, B=1. *)
From Coq Require Import Reals ZArith Arith Lia Lra List Bool Permutation.
From Verif Require Import CNum Sums Roots Mem VecModel PadModel PadKernels PadSpec PadBridge ConvModel CenModel HerModel RealModel RealMath RealGeom RLoops RFft RealSpec RFwd RBwd RealFreq RealProofs RealThms RConvModel RConvSpec RConv1 RConv2.
Import ListNotations.

Section T.
Variable t : pad.
Hypothesis Hwf : rwf t.
Hypothesis HA : aA t = 2.
Hypothesis HB : aB t = 1.
Notation L := (aL t). Notation m := (am t). Notation q := (gq t). Notation M := (gM t).
Notation N := (routputSize t). Notation WS := (rworkSizeW t). Notation VS := (rworkSizeV t).
Variables (g F V : nat -> nat) (w : nat) (m0 : mem).
Hypothesis HBuf : rbuffers t g F V w m0.
Notation Sp := (Spans t g F V w).
Notation W := (cW t w).
Variables x0 x1 : nat -> R.
Hypothesis Hx0 : reals (g 0) L x0 m0.
Hypothesis Hx1 : reals (g 1) L x1 m0.
Hypothesis Hpd0 : rpadded t w m0.
Let c := robject t rmultBinary F V w.
Definition Y (k : nat) : C := Cmul (rdft M L x0 k) (rdft M L x1 k).
Definition shr (r j : nat) : R := rpartial_inverse M (rnoutputs t r) (rfreq M q m r) (fun i => Y (rfreq M q m r i)) j.

Lemma i2 k : k < 2 -> k < max (aA t) (aB t). Proof. rewrite HA, HB. auto. Qed.
Lemma DF01 : dapart (F 0) (2 * N) (F 1) (2 * N). Proof. apply (rb_FF _ _ _ _ _ _ HBuf); try (apply i2); lia. Qed.
Lemma Dgg : dapart (g 0) L (g 1) L. Proof. apply (rb_gg _ _ _ _ _ _ HBuf); try (apply i2); lia. Qed.
Lemma DgF a b : a < 2 -> b < 2 -> dapart (g a) L (F b) (2 * N). Proof. intros. apply (rb_gF _ _ _ _ _ _ HBuf); apply i2; assumption. Qed.
Lemma Dgw a : a < 2 -> dapart (g a) L w (2 * WS). Proof. intros. apply (rb_gw _ _ _ _ _ _ HBuf); apply i2; assumption. Qed.
Lemma DFw a : a < 2 -> dapart (F a) (2 * N) w (2 * WS). Proof. intros. apply (rb_Fw _ _ _ _ _ _ HBuf); apply i2; assumption. Qed.
Lemma DgV a : a < 2 -> dapart (g a) L (V 0) (2 * VS). Proof. intros. apply (rb_gV _ _ _ _ _ _ HBuf); [apply i2; assumption|lia]. Qed.
Lemma DVF b : b < 2 -> dapart (V 0) (2 * VS) (F b) (2 * N). Proof. intros. apply (rb_VF _ _ _ _ _ _ HBuf); [lia|apply i2; assumption]. Qed.
Lemma DVw : dapart (V 0) (2 * VS) w (2 * WS). Proof. apply (rb_Vw _ _ _ _ _ _ HBuf). lia. Qed.
Ltac facts := pose proof DF01 as DF01'; pose proof Dgg as Dgg'; pose proof DVw as DVw';
  pose proof (DgF 0 0 ltac:(lia) ltac:(lia)) as D00; pose proof (DgF 0 1 ltac:(lia) ltac:(lia)) as D01;
  pose proof (DgF 1 0 ltac:(lia) ltac:(lia)) as D10; pose proof (DgF 1 1 ltac:(lia) ltac:(lia)) as D11;
  pose proof (Dgw 0 ltac:(lia)) as Dw0; pose proof (Dgw 1 ltac:(lia)) as Dw1;
  pose proof (DFw 0 ltac:(lia)) as Df0; pose proof (DFw 1 ltac:(lia)) as Df1;
  pose proof (DgV 0 ltac:(lia)) as Dv0; pose proof (DgV 1 ltac:(lia)) as Dv1;
  pose proof (DVF 0 ltac:(lia)) as De0; pose proof (DVF 1 ltac:(lia)) as De1.
Ltac close_ap := match goal with
  | D : dapart ?a ?n ?b ?k, H1 : dspan ?a ?n ?z, H2 : dspan ?b ?k ?z |- _ => exact (D z H1 H2)
  end.
Ltac ap := intros zz Hz Hc; repeat (destruct Hc as [Hc|Hc]); close_ap.
Ltac sp := intros zz Hz; unfold Spans in *; tauto.

Lemma Fkeep b r y (P : nat -> Prop) (ma mb : mem) : rpass t r -> complexes (F b) (rnoutputs t r) y ma -> ronly P ma mb ->
  (forall a, dspan (F b) (2 * N) a -> ~ P a) -> complexes (F b) (rnoutputs t r) y mb.
Proof.
  intros Hr H0 H1 H2. apply (complexes_keep _ _ _ _ _ _ H0 H1). intros a Ha. apply H2. pose proof (r_nout t Hwf r Hr). unfold dspan in *. lia.
Qed.
Lemma Yself r i : rpass t r -> i < rnoutputs t r -> (2 * rfreq M q m r i) mod M = 0 -> im (Y (rfreq M q m r i)) = 0%R.
Proof.
  intros Hr Hi H0. pose proof (freq_lt t Hwf r i Hr Hi) as Hl. unfold Y. cbn [im Cmul].
  rewrite (rdft_self t x0 _ Hl H0), (rdft_self t x1 _ Hl H0). ring.
Qed.
Lemma Ysym k : 0 < k < M -> Y (M - k) = Cconj (Y k).
Proof. intros Hk. unfold Y. rewrite (rdft_sym t x0 k Hk), (rdft_sym t x1 k Hk). apply C_ext; cbn; ring. Qed.
Lemma shr_sum j : Rlist (rtrace t) (fun r => shr r j) = re (ipdft M Y j).
Proof. apply (passes_sum t Hwf Y j). intros k Hk. apply Ysym. assumption. Qed.

Lemma cW_c : rcW c = W. Proof. reflexivity. Qed.
Lemma cmult_c : rcmult c = rmultBinary. Proof. reflexivity. Qed.
Lemma cF_c i : i < 2 -> rcF c i = Some (F i).
Proof. intros Hi. unfold c, robject, rcinit, arr. cbn [rcF]. rewrite HA, HB. change (max 2 1) with 2. destruct (Nat.ltb_spec i 2); [reflexivity|lia]. Qed.
Lemma cFp_c i : i < 2 -> rcFp c i = Some (F (1 - i)).
Proof. intros Hi. unfold c, robject, rcinit. cbn [rcFp]. rewrite HA, HB. destruct i as [|[|i]]; [reflexivity|reflexivity|lia]. Qed.
Lemma cV_c : rcV c 0 = Some (V 0).
Proof. unfold c, robject, rcinit. cbn [rcV]. rewrite HB. reflexivity. Qed.
Definition GG : parr := arr (max (aA t) (aB t)) g.
Notation G := GG.
Lemma G_c i : i < 2 -> G i = Some (g i).
Proof. intros Hi. unfold GG, arr. rewrite HA, HB. change (max 2 1) with 2. destruct (Nat.ltb_spec i 2); [reflexivity|lia]. Qed.

(** one forward transform through the pointer arrays *)
Lemma fone (P : parr) a b r x mm (K : mem -> Prop) : a < 2 -> b < 2 -> P a = Some (F b) -> rpass t r -> ronly Sp m0 mm -> reals (g a) L x mm -> rpadded t w mm ->
  (forall m', complexes (F b) (rnoutputs t r) (X t x r) m' -> ronly (fun z => dspan (F b) (2 * N) z \/ dspan w (2 * WS) z) mm m' -> rpadded t w m' -> K m') ->
  WP (rpget G a (fun fa => rpget P a (fun Fa => rforward t fa Fa r (rcW c)))) mm K.
Proof.
  intros Ha Hb HP Hr HO Hx Hp HK. unfold rpget. rewrite (G_c a Ha), HP, cW_c.
  eapply WP_mono; [|apply (fstep t Hwf HA HB g F V w m0 HBuf a b r x mm Ha Hb Hr HO Hx Hp)]. intros m' (A1 & A2 & A3). apply HK; assumption.
Qed.
(** forward of both inputs *)
Lemma ftwo r mm : rpass t r -> ronly Sp m0 mm -> reals (g 0) L x0 mm -> reals (g 1) L x1 mm -> rpadded t w mm ->
  WP (rcforward t c G (rcF c) r 0 (aA t)) mm (fun m' =>
    complexes (F 0) (rnoutputs t r) (X t x0 r) m' /\ complexes (F 1) (rnoutputs t r) (X t x1 r) m' /\
    ronly (fun z => dspan (F 0) (2 * N) z \/ dspan (F 1) (2 * N) z \/ dspan w (2 * WS) z) mm m' /\ rpadded t w m').
Proof.
  intros Hr HO H0 H1 Hp. facts. unfold rcforward. rewrite HA. change (2 - 0) with 2. cbn [cfor Nat.add]. apply WP_seq. apply WP_seq. apply WP_skip.
  cbv zeta beta; change (0 + 0) with 0; apply (fone (rcF c) 0 0 r x0 mm); try assumption; try lia; [apply cF_c; lia|]. intros m1 V1 O1 P1.
  cbv zeta beta; change (0 + 1) with 1; apply (fone (rcF c) 1 1 r x1 m1); try assumption; try lia; [apply cF_c; lia| | |].
  - eapply ronly_trans; [| |exact HO|exact O1]; sp.
  - apply (reals_keep _ _ _ _ _ _ H1 O1). ap.
  - intros m2 V2 O2 P2. split; [|split; [assumption|split; [|assumption]]].
    + apply (Fkeep 0 r _ _ _ _ Hr V1 O2). ap.
    + eapply ronly_trans; [| |exact O1|exact O2]; intros zz Hz; cbv beta in *; tauto.
Qed.

(** *** explicit (q=1) *)
Definition Res (m' : mem) : Prop := reals (g 0) L (fun j => re (ipdft M Y j)) m' /\ ronly Sp m0 m' /\ rpadded t w m'.
Lemma q1_pad mm : q = 1 -> rpadded t w mm. Proof. intros Hq _ _ H0. contradiction. Qed.
Lemma raw_q1 : q = 1 -> WP (rconvolveRaw t c G) m0 Res.
Proof.
  intros Hq. facts. unfold rconvolveRaw. replace (q =? 1) with true by (symmetry; apply Nat.eqb_eq; assumption).
  assert (Hr : rpass t 0) by (left; reflexivity).
  apply WP_seq. eapply WP_mono; [|apply (ftwo 0 m0 Hr (ronly_refl _ _) Hx0 Hx1 Hpd0)].
  intros m1 (V1 & V2 & O1 & P1). apply WP_seq. change (rnoutputs t 0) with (rblocksize t 0) in V1, V2.
  assert (HN : rblocksize t 0 <= N) by (apply (r_nout t Hwf 0 Hr)).
  rewrite cmult_c. eapply WP_mono; [|apply (rmult_ok (rcF c) (F 0) (F 1) (rblocksize t 0) 0 0 (X t x0 0) (X t x1 0) m1 (cF_c 0 ltac:(lia)) (cF_c 1 ltac:(lia)))].
  - intros m2 (V3 & O2). unfold rcbackward. rewrite HB. change (1 - 0) with 1. cbn [cfor Nat.add]. apply WP_seq. apply WP_skip.
    unfold rpget. rewrite (cF_c 0), (G_c 0), cW_c by lia.
    assert (O02 : ronly Sp m0 m2). { eapply ronly_trans; [| |exact O1|exact O2]; [sp|]. intros zz Hz. right. left. unfold dspan in *. lia. }
    eapply WP_mono; [|apply (bstep t Hwf HA HB g F V w m0 HBuf 0 (g 0) 0 (fun i => Y (rfreq M q m 0 i)) (fun _ => 0%R) m2)]; try assumption; try lia.
    + intros m3 (V4 & O3). split; [|split].
      * apply (reals_ext _ _ _ _ _ V4). intros j Hj. cbn [Nat.eqb]. rewrite <- shr_sum. unfold rtrace.
        replace (q =? 1) with true by (symmetry; apply Nat.eqb_eq; assumption). cbn [Rlist fold_right]. unfold shr. ring.
      * eapply ronly_trans; [| |exact O02|exact O3]; sp.
      * apply q1_pad. assumption.
    + intros i Hi. apply Yself; assumption.
    + apply (rb_ga _ _ _ _ _ _ HBuf). apply i2. lia.
  - intros a A1 A2. apply (DF01' a); unfold dspan in *; lia.
  - exact V1.
  - exact V2.
Qed.

(** *** a pass of the general schedule *)
Definition bodyG (h : parr) (r : nat) : rcmd :=
  Seq (rcforward t c G (rcF c) r 0 (aA t)) (Seq (roperate t c (rcF c) r) (rcbackwardPad t c (rcF c) h r 0 (aB t) (rcW0 c))).
Definition GI (acc : nat -> R) (mm : mem) : Prop :=
  reals (V 0) L acc mm /\ reals (g 0) L x0 mm /\ reals (g 1) L x1 mm /\ ronly Sp m0 mm /\ rpadded t w mm.
Lemma VSL : rloop2 t = false -> q <> 1 -> L <= 2 * VS.
Proof.
  intros H2 Hq. unfold rworkSizeV. rewrite H2. pose proof (rnl_2 t Hwf Hq). replace (rnloops t =? 1) with false by (symmetry; apply Nat.eqb_neq; lia).
  cbn [orb]. pose proof (cq_le L 2 ltac:(lia)). lia.
Qed.
Lemma gen_pass r acc mm : rloop2 t = false -> q <> 1 -> rpass t r ->
  (r <> 0 -> reals (V 0) L acc mm) -> reals (g 0) L x0 mm -> reals (g 1) L x1 mm -> ronly Sp m0 mm -> rpadded t w mm ->
  WP (bodyG (rcV c) r) mm (GI (fun j => (if r =? 0 then 0 else acc j) + shr r j)%R).
Proof.
  intros H2 Hq Hr Hacc H0 H1 HO Hp. facts. pose proof (VSL H2 Hq) as HVL. unfold bodyG. apply WP_seq.
  assert (DVF0 : dapart (V 0) L (F 0) (2 * N)) by (intros a A1 A2; apply (De0 a); unfold dspan in *; lia).
  assert (DVF1 : dapart (V 0) L (F 1) (2 * N)) by (intros a A1 A2; apply (De1 a); unfold dspan in *; lia).
  assert (DVw2 : dapart (V 0) L w (2 * WS)) by (intros a A1 A2; apply (DVw' a); unfold dspan in *; lia).
  assert (DgV0 : dapart (g 0) L (V 0) L) by (intros a A1 A2; apply (Dv0 a); unfold dspan in *; lia).
  assert (DgV1 : dapart (g 1) L (V 0) L) by (intros a A1 A2; apply (Dv1 a); unfold dspan in *; lia).
  assert (HVa : dalloc (V 0) L m0). { intros a Ha. apply (rb_Va _ _ _ _ _ _ HBuf 0 ltac:(lia)). unfold dspan in *. lia. }
  eapply WP_mono; [|apply (ftwo r mm Hr HO H0 H1 Hp)].
  intros ma (V1 & V2 & O1 & P1). apply WP_seq.
  eapply WP_mono; [|apply (op_ok t Hwf HA c cmult_c (rcF c) (F 0) (F 1) (X t x0 r) (X t x1 r) r (cF_c 0 ltac:(lia)) (cF_c 1 ltac:(lia)) Hr DF01' ma V1 V2)].
  intros mb (V3 & O2).
  assert (O2' : ronly (dspan (F 0) (2 * N)) ma mb). { apply (ronly_sub _ _ _ _ O2). intros a Ha. pose proof (r_nout t Hwf r Hr). unfold dspan in *. lia. }
  assert (Oab : ronly (fun z => dspan (F 0) (2 * N) z \/ dspan (F 1) (2 * N) z \/ dspan w (2 * WS) z) mm mb).
  { eapply ronly_trans; [| |exact O1|exact O2']; intros zz Hz; cbv beta in *; tauto. }
  assert (Ob : ronly Sp m0 mb). { eapply ronly_trans; [| |exact HO|exact Oab]; sp. }
  assert (Pb : rpadded t w mb). { apply (pad_keep t Hwf HA HB w _ _ _ P1 O2'). ap. }
  assert (G0 : reals (g 0) L x0 mb) by (apply (reals_keep _ _ _ _ _ _ H0 Oab); ap).
  assert (G1 : reals (g 1) L x1 mb) by (apply (reals_keep _ _ _ _ _ _ H1 Oab); ap).
  assert (Gv : r <> 0 -> reals (V 0) L acc mb) by (intros Hn; apply (reals_keep _ _ _ _ _ _ (Hacc Hn) Oab); ap).
  unfold rcbackwardPad, rcbackward. rewrite HB. change (1 - 0) with 1. cbn [cfor Nat.add]. apply WP_seq. apply WP_seq. apply WP_skip.
  unfold rpget. rewrite (cF_c 0) by lia. rewrite cV_c.
  assert (EW0 : rcW0 c = if ainplace t then None else Some (F 1)).
  { unfold c, robject, rcinit, rcuseF. cbn [rcW0]. rewrite H2, HA, HB. replace (q =? 1) with false by (symmetry; apply Nat.eqb_neq; assumption).
    cbn [negb andb Nat.ltb Nat.leb]. unfold rworkSizeW. destruct (ainplace t); [reflexivity|]. cbn [negb andb]. rewrite Nat.leb_refl. reflexivity. }
  rewrite EW0, cW_c. unfold RConv2.cW at 1. destruct (ainplace t) eqn:Ei.
  - replace (@None addr) with (RConv2.cW t w) by (unfold RConv2.cW; rewrite Ei; reflexivity).
    eapply WP_mono; [|apply (bstep t Hwf HA HB g F V w m0 HBuf 0 (V 0) r (fun i => Y (rfreq M q m r i)) acc mb)]; try assumption; try lia.
    + intros mc (V4 & O3). apply WP_skip. split; [exact V4|]. split; [|split; [|split]].
      * apply (reals_keep _ _ _ _ _ _ G0 O3). ap.
      * apply (reals_keep _ _ _ _ _ _ G1 O3). ap.
      * eapply ronly_trans; [| |exact Ob|exact O3]; [sp|]. intros zz [Hz|Hz]; [right; right; right; left; unfold dspan in *; lia|unfold Spans; tauto].
      * intros _ E. congruence.
    + intros i Hi. apply Yself; assumption.
  - eapply WP_mono; [|apply (bstepF t Hwf HA HB g F V w m0 HBuf (V 0) r (fun i => Y (rfreq M q m r i)) acc mb)]; try assumption; try lia.
    + intros mc (V4 & O3).
      assert (Ew : (w =? F 1) = false).
      { apply Nat.eqb_neq. intros E. pose proof (N_pos t Hwf). apply (Df1 w); [|rewrite (wsW t Ei)]; unfold dspan; lia. }
      rewrite Ew. cbn [andb]. apply WP_skip. split; [exact V4|]. split; [|split; [|split]].
      * apply (reals_keep _ _ _ _ _ _ G0 O3). ap.
      * apply (reals_keep _ _ _ _ _ _ G1 O3). ap.
      * eapply ronly_trans; [| |exact Ob|exact O3]; [sp|]. intros zz [Hz|Hz]; [right; right; right; left; unfold dspan in *; lia|unfold Spans; tauto].
      * apply (pad_keep t Hwf HA HB w _ _ _ Pb O3). intros zz Hz [Hc|[Hc|Hc]]; close_ap.
    + intros i Hi. apply Yself; assumption.
Qed.
Lemma gen_loop l : rloop2 t = false -> q <> 1 -> (forall r, In r l -> r <> 0 /\ rpass t r) -> forall acc mm, GI acc mm ->
  WP (RealModel.rloop l (bodyG (rcV c))) mm (GI (fun j => acc j + Rlist l (fun r => shr r j))%R).
Proof.
  intros H2 Hq. induction l as [|r l IH]; intros Hl acc mm HI; cbn [rloop].
  - apply WP_skip. destruct HI as (I1 & I2). split; [|assumption]. apply (reals_ext _ _ _ _ _ I1). intros i Hi. cbn. ring.
  - destruct (Hl r (or_introl eq_refl)) as [Hr0 Hr]. destruct HI as (I1 & I2 & I3 & I4 & I5). apply WP_seq.
    eapply WP_mono; [|apply (gen_pass r acc mm H2 Hq Hr (fun _ => I1) I2 I3 I4 I5)]. intros ma HI.
    destruct (Nat.eqb_spec r 0) as [E|E]; [contradiction|].
    eapply WP_mono; [|apply (IH (fun r' Hr' => Hl r' (or_intror Hr')) _ _ HI)].
    intros mb (J1 & J2). split; [|assumption]. apply (reals_ext _ _ _ _ _ J1). intros i Hi. cbn [Rlist fold_right]. unfold Rlist. ring.
Qed.
Lemma raw_gen : q <> 1 -> rloop2 t = false -> WP (rconvolveRaw t c G) m0 Res.
Proof.
  intros Hq H2. facts. unfold rconvolveRaw. replace (q =? 1) with false by (symmetry; apply Nat.eqb_neq; assumption).
  rewrite H2. pose proof (rnl_2 t Hwf Hq) as Hn. replace (1 <? rnloops t) with true by (symmetry; apply Nat.ltb_lt; lia).
  pose proof (VSL H2 Hq) as HVL. apply WP_seq. rewrite (rres_eq t Hwf). destruct (rtrace_tl t Hwf) as (l & El & Hl).
  fold (bodyG (rcV c)). rewrite El. cbn [rloop]. apply WP_seq.
  eapply WP_mono; [|apply (gen_pass 0 (fun _ => 0%R) m0 H2 Hq (or_introl eq_refl))]; try assumption; [|intros Hc; contradiction|apply ronly_refl].
  intros ma HI. eapply WP_mono; [|apply (gen_loop l H2 Hq Hl _ _ HI)]. intros mb (J1 & J2 & J3 & J4 & J5).
  match type of J1 with reals _ _ ?z _ => set (zz0 := z) in * end.
  unfold rcopyback. rewrite HB. cbn [cfor]. apply WP_seq. apply WP_skip. unfold rpget. rewrite (G_c 0), cV_c by lia.
  eapply WP_mono; [|apply (rmap_ok (g 0) (V 0) L (fun x => x) zz0 mb)]; [|right; intros a A1 A2; apply (Dv0 a); unfold dspan in *; lia|exact J1|].
  - intros mc (K1 & K2). split; [|split].
    + apply (reals_ext _ _ _ _ _ K1). intros j Hj. unfold zz0. cbn [Nat.eqb]. rewrite <- shr_sum, El. cbn [Rlist fold_right]. unfold Rlist. ring.
    + eapply ronly_trans; [| |exact J4|exact K2]; sp.
    + apply (pad_keep t Hwf HA HB w _ _ _ J5 K2). intros zz Hz Hc. close_ap.
  - apply (sp_al t g F V w m0 _ _ mb (rb_ga _ _ _ _ _ _ HBuf 0 (i2 0 ltac:(lia))) J4).
Qed.
(** *** two passes (loop2) *)
Lemma repad mm : ronly Sp m0 mm -> rloop2 t = true ->
  WP (match rcW c, rcW0 c with Some w, Some w0 => if (w =? w0) && rcPad c then rPad t w0 else Skip | _, _ => Skip end) mm
     (fun m' => rpadded t w m' /\ ronly (dspan w (2 * WS)) mm m').
Proof.
  intros HO H2. unfold c, robject, rcinit, rcuseF. cbn [rcW rcW0 rcPad]. rewrite H2. cbn [negb andb].
  replace (negb (q =? 1) && false) with false by (destruct (q =? 1); reflexivity). destruct (ainplace t) eqn:Ei.
  - apply WP_skip. split; [intros _ E; congruence|apply ronly_refl].
  - rewrite Nat.eqb_refl. cbn [negb andb]. apply (rPad_b t Hwf). apply (sp_al t g F V w m0 _ _ mm (rb_wa _ _ _ _ _ _ HBuf) HO).
Qed.
Lemma raw_l2 : q <> 1 -> rloop2 t = true -> WP (rconvolveRaw t c G) m0 Res.
Proof.
  intros Hq H2. facts. unfold rconvolveRaw. replace (q =? 1) with false by (symmetry; apply Nat.eqb_neq; assumption).
  rewrite H2. assert (Hn : rnloops t = 2). { unfold rloop2 in H2. apply andb_true_iff in H2 as [H2 _]. apply Nat.eqb_eq. assumption. }
  destruct (rtr_2 t Hwf Hq Hn) as [ET EI]. rewrite EI.
  assert (Hr0 : rpass t 0) by (left; reflexivity).
  assert (Hr1 : rpass t 1) by (apply (rtrace_pass t Hwf); rewrite ET; right; left; reflexivity).
  assert (Ag0 : dalloc (g 0) L m0) by (apply (rb_ga _ _ _ _ _ _ HBuf), i2; lia).
  assert (EW0 : rcW0 c = W).
  { unfold c, robject, rcinit, rcuseF. cbn [rcW0]. rewrite H2. cbn [negb andb]. destruct (q =? 1); reflexivity. }
  (* pass 0 *)
  apply WP_seq. eapply WP_mono; [|apply (ftwo 0 m0 Hr0 (ronly_refl _ _) Hx0 Hx1 Hpd0)].
  intros ma (V1 & V2 & O1 & P1). apply WP_seq.
  eapply WP_mono; [|apply (op_ok t Hwf HA c cmult_c (rcF c) (F 0) (F 1) (X t x0 0) (X t x1 0) 0 (cF_c 0 ltac:(lia)) (cF_c 1 ltac:(lia)) Hr0 DF01' ma V1 V2)].
  intros mb (V3 & O2).
  assert (O2' : ronly (dspan (F 0) (2 * N)) ma mb). { apply (ronly_sub _ _ _ _ O2). intros a Ha. pose proof (r_nout t Hwf 0 Hr0). unfold dspan in *. lia. }
  assert (Oab : ronly (fun z => dspan (F 0) (2 * N) z \/ dspan (F 1) (2 * N) z \/ dspan w (2 * WS) z) m0 mb).
  { eapply ronly_trans; [| |exact O1|exact O2']; intros zz Hz; cbv beta in *; tauto. }
  assert (Ob : ronly Sp m0 mb). { apply (ronly_sub _ _ _ _ Oab). sp. }
  assert (Pb : rpadded t w mb). { apply (pad_keep t Hwf HA HB w _ _ _ P1 O2'). ap. }
  assert (G0 : reals (g 0) L x0 mb) by (apply (reals_keep _ _ _ _ _ _ Hx0 Oab); ap).
  assert (G1 : reals (g 1) L x1 mb) by (apply (reals_keep _ _ _ _ _ _ Hx1 Oab); ap).
  rewrite HB. cbn [rl2loop]. rewrite HA, HB. change (0 + (2 - 1) <=? 1) with true. cbv iota. change (0 + (2 - 1)) with 1.
  (* g0 -> F1 *)
  apply WP_seq. unfold rcforward at 1. change (1 - 0) with 1. cbn [cfor]. apply WP_seq. apply WP_skip.
  cbv zeta beta. change (0 + 0) with 0.
  apply (fone (rcFp c) 0 1 1 x0 mb); try assumption; try lia; [apply (cFp_c 0); lia|]. intros mc V4 O4 P4.
  assert (Oc : ronly Sp m0 mc) by (eapply ronly_trans; [| |exact Ob|exact O4]; sp).
  (* F0 -> g0 *)
  apply WP_seq. unfold rcbackwardPad at 1, rcbackward at 1. change (1 - 0) with 1. cbn [cfor]. apply WP_seq. apply WP_seq. apply WP_skip.
  cbv zeta beta. change (0 + 0) with 0. unfold rpget at 1 2. rewrite (cF_c 0), (G_c 0) by lia. rewrite EW0.
  assert (C0' : complexes (F 0) (rnoutputs t 0) (fun i => Y (rfreq M q m 0 i)) mc). { apply (Fkeep 0 0 _ _ _ _ Hr0 V3 O4). ap. }
  eapply WP_mono; [|apply (bstep t Hwf HA HB g F V w m0 HBuf 0 (g 0) 0 (fun i => Y (rfreq M q m 0 i)) (fun _ => 0%R) mc)]; try assumption; try lia.
  2: { intros i Hi. apply Yself; assumption. }
  intros md (V5 & O5). rewrite <- EW0.
  assert (Od : ronly Sp m0 md) by (eapply ronly_trans; [| |exact Oc|exact O5]; sp).
  eapply WP_mono; [|apply (repad md Od H2)]. intros me (P6 & O6).
  assert (Oce : ronly (fun z => dspan (g 0) L z \/ dspan (F 0) (2 * N) z \/ dspan w (2 * WS) z) mc me).
  { eapply ronly_trans; [| |exact O5|exact O6]; intros zz Hz; cbv beta in *; tauto. }
  assert (Oe : ronly Sp m0 me) by (eapply ronly_trans; [| |exact Oc|exact Oce]; sp).
  assert (G1e : reals (g 1) L x1 me).
  { apply (reals_keep _ _ _ _ _ _ (reals_keep _ _ _ _ _ _ G1 O4 ltac:(ap)) Oce). ap. }
  assert (F1e : complexes (F 1) (rnoutputs t 1) (X t x0 1) me). { apply (Fkeep 1 1 _ _ _ _ Hr1 V4 Oce). ap. }
  assert (G0e : reals (g 0) L (fun j => shr 0 j) me).
  { apply (reals_keep _ _ _ _ _ _ (reals_ext _ _ _ _ _ V5 (fun j Hj => Rplus_0_l _)) O6). intros zz Hz Hc. close_ap. }
  (* g1 -> F0 *)
  apply WP_seq. unfold rcforward at 1. change (2 - 1) with 1. cbn [cfor]. apply WP_seq. apply WP_skip.
  cbv zeta beta. change (1 + 0) with 1.
  apply (fone (rcFp c) 1 0 1 x1 me); try assumption; try lia; [apply (cFp_c 1); lia|]. intros mf V7 O7 P7.
  assert (Of : ronly Sp m0 mf) by (eapply ronly_trans; [| |exact Oe|exact O7]; sp).
  assert (F1f : complexes (F 1) (rnoutputs t 1) (X t x0 1) mf). { apply (Fkeep 1 1 _ _ _ _ Hr1 F1e O7). ap. }
  assert (G0f : reals (g 0) L (fun j => shr 0 j) mf). { apply (reals_keep _ _ _ _ _ _ G0e O7). ap. }
  apply WP_seq.
  eapply WP_mono; [|apply (op_ok t Hwf HA c cmult_c (rcFp c) (F 1) (F 0) (X t x0 1) (X t x1 1) 1 (cFp_c 0 ltac:(lia)) (cFp_c 1 ltac:(lia)) Hr1 (ap_sym _ _ _ _ DF01') mf F1f V7)].
  intros mg (V8 & O8).
  assert (O8' : ronly (dspan (F 1) (2 * N)) mf mg). { apply (ronly_sub _ _ _ _ O8). intros a Ha. pose proof (r_nout t Hwf 1 Hr1). unfold dspan in *. lia. }
  assert (Og : ronly Sp m0 mg) by (eapply ronly_trans; [| |exact Of|exact O8']; sp).
  assert (G0g : reals (g 0) L (fun j => shr 0 j) mg). { apply (reals_keep _ _ _ _ _ _ G0f O8'). intros zz Hz Hc. close_ap. }
  (* F1 -> g0 *)
  unfold rcbackwardPad, rcbackward. change (1 - 0) with 1. cbn [cfor]. apply WP_seq. apply WP_seq. apply WP_skip.
  cbv zeta beta. change (0 + 0) with 0. unfold rpget. rewrite (cFp_c 0), (G_c 0) by lia. change (1 - 0) with 1. rewrite EW0.
  eapply WP_mono; [|apply (bstep t Hwf HA HB g F V w m0 HBuf 1 (g 0) 1 (fun i => Y (rfreq M q m 1 i)) (fun j => shr 0 j) mg)]; try assumption; try lia.
  2: { intros i Hi. apply Yself; assumption. }
  2: { intros _. exact G0g. }
  intros mh (V9 & O9). rewrite <- EW0.
  assert (Oh : ronly Sp m0 mh) by (eapply ronly_trans; [| |exact Og|exact O9]; sp).
  eapply WP_mono; [|apply (repad mh Oh H2)]. intros mi (P10 & O10). split; [|split].
  - apply (reals_keep _ _ _ _ _ _ (reals_ext _ _ _ (fun j => re (ipdft M Y j)) _ V9 ltac:(intros j Hj; cbn [Nat.eqb]; rewrite <- shr_sum, ET; cbn [Rlist fold_right]; unfold shr; ring)) O10).
    intros zz Hz Hc. close_ap.
  - eapply ronly_trans; [| |exact Oh|exact O10]; sp.
  - exact P10.
Qed.

Lemma rconv_ok : WP (rconvolve t c G) m0 (fun m' =>
  reals (g 0) L (fun j => re (ipdft M Y j) * / INR M)%R m' /\ ronly Sp m0 m' /\ rpadded t w m').
Proof.
  facts. unfold rconvolve. apply WP_seq.
  eapply WP_mono with (Q := Res).
  - intros ma (V1 & O1 & P1). unfold rnormalize. rewrite HB. cbn [cfor]. apply WP_seq. apply WP_skip. unfold rpget. rewrite (G_c 0) by lia.
    eapply WP_mono; [|apply (rmap_ok (g 0) (g 0) L (fun x => x * / INR M)%R (fun j => re (ipdft M Y j)) ma); [left; reflexivity|exact V1|]].
    + intros mb (V2 & O2). split; [exact V2|]. split; [eapply ronly_trans; [| |exact O1|exact O2]; sp|].
      apply (pad_keep t Hwf HA HB w _ _ _ P1 O2). intros zz Hz Hc. close_ap.
    + apply (sp_al t g F V w m0 _ _ ma (rb_ga _ _ _ _ _ _ HBuf 0 (i2 0 ltac:(lia))) O1).
  - destruct (Nat.eq_dec q 1) as [Hq|Hq]; [apply raw_q1; assumption|].
    destruct (rloop2 t) eqn:E2; [apply raw_l2|apply raw_gen]; assumption.
Qed.
End T.
