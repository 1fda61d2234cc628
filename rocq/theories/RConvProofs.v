(** Convolutions of real data: the theorems in the form the property file uses, and concrete cases. *)
From Coq Require Import Reals ZArith Arith Lia Lra List Bool Permutation.
From Verif Require Import CNum Sums Roots Mem VecModel PadModel PadKernels PadSpec PadMath PadBridge ConvModel ConvMath HConvMath CenModel HerModel RealModel RealMath RealGeom RLoops RFft RealSpec RFwd RBwd RealFreq RealProofs RealThms RealCases RConvModel RConvSpec RConv1 RConv2 RConv3.
Import ListNotations.

Lemma re_sum_f n f : re (Csum (S n) f) = sum_f_R0 (fun i => re (f i)) n.
Proof. induction n as [|n IH]; [cbn; ring|]. change (Csum (S (S n)) f) with (Cadd (Csum (S n) f) (f (S n))). rewrite re_add, IH. reflexivity. Qed.
Lemma sum_f_ext n f h : (forall i, i <= n -> f i = h i) -> sum_f_R0 f n = sum_f_R0 h n.
Proof. intros E. apply sum_eq. exact E. Qed.

Section T.
Variable t : pad.
Hypothesis Hwf : rwf t.
Notation L := (aL t). Notation M := (gM t).
Lemma Y_idft x0 x1 j : ipdft M (Y t x0 x1) j =
  idft M (fun k => Cmul (outv M L (rx x0) (Z.of_nat k)) (outv M L (rx x1) (Z.of_nat k))) j.
Proof.
  unfold ipdft, idft, Y, rdft. apply Csum_ext. intros k Hk. change (fun j => RtoC (x0 j)) with (rx x0). change (fun j => RtoC (x1 j)) with (rx x1).
  rewrite !outv_pdft. f_equal. rewrite <- zeta_nat_neg. f_equal. lia.
Qed.
Lemma Y_cyc x0 x1 j : (re (ipdft M (Y t x0 x1) j) * / INR M)%R = rcycconv M L x0 x1 j.
Proof.
  pose proof (M_pos t Hwf) as HM. pose proof (r_L t Hwf) as HL. rewrite Y_idft, outv_prod by lia. rewrite re_scal.
  rewrite (Rmult_comm (INR M)), Rmult_assoc, Rinv_r, Rmult_1_r by (apply not_0_INR; lia).
  unfold rcycconv. replace L with (S (L - 1)) at 1 by lia. rewrite re_sum_f. apply sum_f_ext. intros a Ha.
  replace L with (S (L - 1)) at 1 by lia. rewrite re_sum_f. apply sum_f_ext. intros b Hb.
  rewrite mod_eq_Z by lia. replace (Z.of_nat (a + b) - Z.of_nat j)%Z with (Z.of_nat a + Z.of_nat b - Z.of_nat j)%Z by lia.
  destruct (_ =? 0)%Z; [|reflexivity]. unfold rx. cbn. ring.
Qed.
Lemma Y_lin x0 x1 j : j < L -> 2 * L <= aM t + 1 -> (re (ipdft M (Y t x0 x1) j) * / INR M)%R = rlinconv x0 x1 j.
Proof.
  intros Hj HE. pose proof (M_pos t Hwf) as HM. assert (HM' : aM t <= M) by (destruct Hwf as (_ & _ & _ & _ & _ & _ & H0 & _); exact H0).
  rewrite Y_idft, linear_conv by lia. rewrite re_scal.
  rewrite (Rmult_comm (INR M)), Rmult_assoc, Rinv_r, Rmult_1_r by (apply not_0_INR; lia).
  unfold rlinconv. rewrite re_sum_f. apply sum_f_ext. intros i Hi. unfold rx. cbn. ring.
Qed.
Hypothesis HA : aA t = 2.
Hypothesis HB : aB t = 1.
Section B.
Variables (g F V : nat -> nat) (w : nat) (m0 : mem) (x : nat -> nat -> R).
Hypothesis HBuf : rbuffers t g F V w m0.
Hypothesis Hx : forall a, a < 2 -> reals (g a) L (x a) m0.
Lemma frame_1 m' : ronly (Spans t g F V w) m0 m' ->
  reals (g 1) L (x 1) m' /\ (forall a, routside t g F V w a -> m' a = m0 a) /\ (forall a, m0 a <> Unalloc -> m' a <> Unalloc).
Proof.
  intros O. split; [|split].
  - apply (reals_keep _ _ _ _ _ _ (Hx 1 ltac:(lia)) O).
    assert (Hm : max (aA t) (aB t) = 2) by (rewrite HA, HB; reflexivity).
    intros a Ha [Hc|[Hc|[Hc|[Hc|Hc]]]].
    + apply (rb_gg _ _ _ _ _ _ HBuf 0 1 ltac:(lia) ltac:(lia) ltac:(lia) a Hc Ha).
    + apply (rb_gF _ _ _ _ _ _ HBuf 1 0 ltac:(lia) ltac:(lia) a Ha Hc).
    + apply (rb_gF _ _ _ _ _ _ HBuf 1 1 ltac:(lia) ltac:(lia) a Ha Hc).
    + apply (rb_gV _ _ _ _ _ _ HBuf 1 0 ltac:(lia) ltac:(lia) a Ha Hc).
    + apply (rb_gw _ _ _ _ _ _ HBuf 1 ltac:(lia) a Ha Hc).
  - intros a (A1 & A2 & A3 & A4). apply (proj1 O). rewrite HA, HB in *. change (max 2 1) with 2 in *.
    intros [Hc|[Hc|[Hc|[Hc|Hc]]]]; [apply (A1 0)|apply (A2 0)|apply (A2 1)|apply (A3 0)|apply A4]; try assumption; lia.
  - apply (proj2 O).
Qed.
Lemma call_ok : rpadded t w m0 -> WP (rconvolve_call t rmultBinary F V w g) m0 (fun m' =>
  reals (g 0) L (fun j => re (ipdft M (Y t (x 0) (x 1)) j) * / INR M)%R m' /\
  ronly (Spans t g F V w) m0 m' /\ rpadded t w m').
Proof. intros Hp. apply (rconv_ok t Hwf HA HB g F V w m0 HBuf (x 0) (x 1) (Hx 0 ltac:(lia)) (Hx 1 ltac:(lia)) Hp). Qed.
End B.
Lemma init_ok w m0 : dalloc w (2 * rworkSizeW t) m0 ->
  WP (rcinit_cmd t w) m0 (fun m' => rpadded t w m' /\ ronly (dspan w (2 * rworkSizeW t)) m0 m').
Proof.
  intros Ha. unfold rcinit_cmd. destruct (Nat.eqb_spec (gq t) 1) as [E|E].
  - apply WP_skip. split; [intros _ _ Hc; contradiction|apply ronly_refl].
  - destruct (ainplace t) eqn:Ei; [apply WP_skip; split; [intros _ Hc; congruence|apply ronly_refl]|].
    apply (rPad_b t Hwf w m0 Ha).
Qed.
Lemma reach_pad F V w mm : rreach t rmultBinary F V w mm -> rpadded t w mm.
Proof.
  induction 1 as [ma mb Ha He|g x ma mb Hr IH Hb Hx He|ma mb Hr IH Hu].
  - destruct (init_ok w ma Ha) as (m1 & _ & (P1 & _) & U). apply U in He. injection He as ->. exact P1.
  - destruct (call_ok g F V w ma x Hb ltac:(intros a Ha; apply Hx; lia) IH) as (m1 & _ & (_ & _ & P1) & U). apply U in He. injection He as ->. exact P1.
  - apply (pad_local t Hwf HA HB w ma mb IH). intros a Ha. apply Hu. right. right. exact Ha.
Qed.
End T.

Lemma rlin_thm : forall t, rwf t -> aA t = 2 -> aB t = 1 -> forall g F V w (x : nat -> nat -> R) m0,
  rbuffers t g F V w m0 -> (forall a, a < 2 -> reals (g a) (aL t) (x a) m0) ->
  2 * aL t <= aM t + 1 ->
  WP (rconstruct_convolve t rmultBinary F V w g) m0 (fun m' =>
    reals (g 0) (aL t) (rlinconv (x 0) (x 1)) m' /\
    reals (g 1) (aL t) (x 1) m' /\
    (forall a, routside t g F V w a -> m' a = m0 a)).
Proof.
  intros t Hwf HA HB g F V w x m0 HBuf Hx HE. unfold rconstruct_convolve. apply WP_seq.
  assert (Hm : max (aA t) (aB t) = 2) by (rewrite HA, HB; reflexivity).
  eapply WP_mono; [|apply (init_ok t Hwf w m0 (rb_wa _ _ _ _ _ _ HBuf))]. intros m1 (P1 & O1).
  assert (Hx1 : forall a, a < 2 -> reals (g a) (aL t) (x a) m1).
  { intros a Ha. apply (reals_keep _ _ _ _ _ _ (Hx a Ha) O1). intros z Hz Hc. apply (rb_gw _ _ _ _ _ _ HBuf a ltac:(lia) z Hz Hc). }
  assert (HB1 : rbuffers t g F V w m1).
  { destruct HBuf as [b1 b2 b3 b4 b5 b6 b7 b8 b9 c1 c2 c3 c4]. constructor; try assumption; intros; intros z Hz; apply (proj2 O1).
    - eapply c1; eassumption. - eapply c2; eassumption. - eapply c3; eassumption. - eapply c4; eassumption. }
  eapply WP_mono; [|apply (call_ok t Hwf HA HB g F V w m1 x HB1 Hx1 P1)]. intros m2 (V2 & O2 & P2).
  destruct (frame_1 t HA HB g F V w m1 x HB1 Hx1 m2 O2) as (G1 & G2 & G3). split; [|split].
  - apply (reals_ext _ _ _ _ _ V2). intros j Hj. apply (Y_lin t Hwf); assumption.
  - exact G1.
  - intros a Ha. rewrite (G2 a Ha). apply (proj1 O1). apply Ha.
Qed.
Lemma rcyc_thm : forall t, rwf t -> aA t = 2 -> aB t = 1 -> forall g F V w (x : nat -> nat -> R) m,
  rreach t rmultBinary F V w m ->
  rbuffers t g F V w m -> (forall a, a < 2 -> reals (g a) (aL t) (x a) m) ->
  WP (rconvolve_call t rmultBinary F V w g) m (fun m' =>
    reals (g 0) (aL t) (rcycconv (gM t) (aL t) (x 0) (x 1)) m' /\
    reals (g 1) (aL t) (x 1) m' /\
    (forall a, routside t g F V w a -> m' a = m a) /\
    (forall a, m a <> Unalloc -> m' a <> Unalloc)).
Proof.
  intros t Hwf HA HB g F V w x m0 HR HBuf Hx.
  eapply WP_mono; [|apply (call_ok t Hwf HA HB g F V w m0 x HBuf Hx (reach_pad t Hwf HA HB F V w m0 HR))]. intros m2 (V2 & O2 & P2).
  destruct (frame_1 t HA HB g F V w m0 x HBuf Hx m2 O2) as (G1 & G2 & G3). split; [|split; [assumption|split; assumption]].
  apply (reals_ext _ _ _ _ _ V2). intros j Hj. apply (Y_cyc t Hwf).
Qed.
Lemma rhist_thm : forall t, rwf t -> aA t = 2 -> aB t = 1 -> forall g F V w (x : nat -> nat -> R) m,
  rreach t rmultBinary F V w m ->
  rbuffers t g F V w m -> (forall a, a < 2 -> reals (g a) (aL t) (x a) m) ->
  2 * aL t <= aM t + 1 ->
  WP (rconvolve_call t rmultBinary F V w g) m (fun m' =>
    reals (g 0) (aL t) (rlinconv (x 0) (x 1)) m' /\ reals (g 1) (aL t) (x 1) m').
Proof.
  intros t Hwf HA HB g F V w x m0 HR HBuf Hx HE.
  eapply WP_mono; [|apply (call_ok t Hwf HA HB g F V w m0 x HBuf Hx (reach_pad t Hwf HA HB F V w m0 HR))]. intros m2 (V2 & O2 & P2).
  destruct (frame_1 t HA HB g F V w m0 x HBuf Hx m2 O2) as (G1 & G2 & G3). split; [|assumption].
  apply (reals_ext _ _ _ _ _ V2). intros j Hj. apply (Y_lin t Hwf); assumption.
Qed.
Lemma rsafe_thm : forall t, rwf t -> aA t = 2 -> aB t = 1 -> forall g F V w (x : nat -> nat -> R) m,
  rreach t rmultBinary F V w m ->
  rbuffers t g F V w m -> (forall a, a < 2 -> reals (g a) (aL t) (x a) m) ->
  (forall a, rown t F V w a \/ (exists b, b < 2 /\ dspan (g b) (aL t) a) \/ m a = Unalloc) ->
  forall o, exec (rconvolve_call t rmultBinary F V w g) m o -> o <> UB /\ o <> ExitErr.
Proof.
  intros t Hwf HA HB g F V w x m0 HR HBuf Hx _ o Ho.
  eapply WP_consequence; [apply (rcyc_thm t Hwf HA HB g F V w x m0 HR HBuf Hx)|exact Ho].
Qed.

(** *** concrete convolutions: two passes (q=2), a general schedule out of place (q=6, four passes), in
    place with p=2, q=3 and the explicit one *)
Definition rg (a : nat) : nat := 50 * a.
Definition rFb (a : nat) : nat := 100 + 100 * a.
Definition rVb (a : nat) : nat := 400 + 100 * a.
Definition rcm : mem := fun a => if a <? 50 then Val (INR (a + 1)) else if a <? 100 then Val (INR (a - 50 + 1)) else Undef.
Lemma rcm_buf t : aA t = 2 -> aB t = 1 -> aL t <= 50 -> routputSize t <= 50 -> rworkSizeV t <= 50 -> rworkSizeW t <= 50 -> rbuffers t rg rFb rVb 600 rcm.
Proof.
  intros HA HB H1 H2 H3 H4. constructor; rewrite ?HA, ?HB; change (max 2 1) with 2.
  all: try (intros a b Ha Hb Hn z Hz Hc; unfold dspan, rg, rFb, rVb in *; lia).
  all: try (intros a b Ha Hb z Hz Hc; unfold dspan, rg, rFb, rVb in *; lia).
  all: try (intros a Ha z Hz Hc; unfold dspan, rg, rFb, rVb in *; lia).
  all: try (intros a Ha z Hz; unfold rcm; destruct (z <? 50); [discriminate|]; destruct (z <? 100); discriminate).
  intros z Hz. unfold rcm. destruct (z <? 50); [discriminate|]; destruct (z <? 100); discriminate.
Qed.
Lemma rcm_x t a : aL t <= 50 -> a < 2 -> reals (rg a) (aL t) (fun j => INR (j + 1)) rcm.
Proof.
  intros HL Ha k Hk. unfold rcm, rg. assert (a = 0 \/ a = 1) as [-> | ->] by lia.
  - destruct (Nat.ltb_spec (50 * 0 + k) 50); [f_equal; f_equal; lia|lia].
  - destruct (Nat.ltb_spec (50 * 1 + k) 50); [lia|]. destruct (Nat.ltb_spec (50 * 1 + k) 100); [f_equal; f_equal; lia|lia].
Qed.
Lemma rrun t j v : rwf t -> aA t = 2 -> aB t = 1 -> aL t <= 50 -> routputSize t <= 50 -> rworkSizeV t <= 50 -> rworkSizeW t <= 50 ->
  2 * aL t <= aM t + 1 -> j < aL t -> rlinconv (fun j => INR (j + 1)) (fun j => INR (j + 1)) j = v ->
  WP (rconstruct_convolve t rmultBinary rFb rVb 600 rg) rcm (fun m' => m' j = Val v).
Proof.
  intros Hwf HA HB H1 H2 H3 H4 H5 Hj Hv.
  eapply WP_mono; [|apply (rlin_thm t Hwf HA HB rg rFb rVb 600 (fun _ j => INR (j + 1)) rcm (rcm_buf t HA HB H1 H2 H3 H4) (fun a Ha => rcm_x t a H1 Ha) H5)].
  intros m' (V & _). specialize (V j Hj). rewrite Hv in V. exact V.
Qed.
Ltac rr H := apply rrun; [exact H|reflexivity|reflexivity|vm_compute; lia..|vm_compute; lia|unfold rlinconv; cbn; lra].
Lemma rcase1_conv : WP (rconstruct_convolve rcase1 rmultBinary rFb rVb 600 rg) rcm (fun m' => m' 2 = Val 10%R). Proof. rr rcase1_wf. Qed.
Lemma rcase2_conv : WP (rconstruct_convolve rcase2 rmultBinary rFb rVb 600 rg) rcm (fun m' => m' 3 = Val 20%R). Proof. rr rcase2_wf. Qed.
Lemma rcase4_conv : WP (rconstruct_convolve rcase4 rmultBinary rFb rVb 600 rg) rcm (fun m' => m' 2 = Val 10%R). Proof. rr rcase4_wf. Qed.
Lemma rcase5_conv : WP (rconstruct_convolve rcase5 rmultBinary rFb rVb 600 rg) rcm (fun m' => m' 1 = Val 4%R). Proof. rr rcase5_wf. Qed.
Lemma rcase_shapes : rloop2 rcase1 = true /\ rloop2 rcase4 = false /\ rnloops rcase4 = 4 /\ rcuseF rcase4 = true /\ gq rcase5 = 1 /\ ainplace rcase2 = true /\ gp rcase2 = 2.
Proof. repeat split; reflexivity. Qed.
Lemma rcase1_reach : exists m, rreach rcase1 rmultBinary rFb rVb 600 m /\ rbuffers rcase1 rg rFb rVb 600 m /\ (forall a, a < 2 -> reals (rg a) 4 (fun j => INR (j + 1)) m).
Proof.
  assert (Hb : rbuffers rcase1 rg rFb rVb 600 rcm) by (apply rcm_buf; vm_compute; try reflexivity; lia).
  exists rcm. split; [|split; [exact Hb|intros a Ha; apply (rcm_x rcase1 a); [vm_compute; lia|exact Ha]]].
  assert (E : exists m, exec (rcinit_cmd rcase1 600) rcm (OK m) /\ m = rcm).
  { assert (HW : WP (rcinit_cmd rcase1 600) rcm (fun m' => m' = rcm)).
    { unfold rcinit_cmd. change (gq rcase1 =? 1) with false. cbn [ainplace rcase1]. unfold rPad. change ((1 <? gq rcase1) && (gp rcase1 =? 1) && rrepad rcase1) with false.
      cbv iota. apply WP_skip. reflexivity. }
    destruct HW as (m1 & E1 & E2 & _). exists m1. auto. }
  destruct E as (m & E & ->). apply (rreach_new _ _ _ _ _ rcm rcm); [apply (rb_wa _ _ _ _ _ _ Hb)|exact E].
Qed.
