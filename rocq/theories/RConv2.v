(** The passes of a convolution of real data. *)
From Coq Require Import Reals ZArith Arith Lia Lra List Bool Permutation.
From Verif Require Import CNum Sums Roots Mem VecModel PadModel PadKernels PadSpec PadBridge ConvModel CenModel HerModel RealModel RealMath RealGeom RLoops RFft RealSpec RFwd RBwd RealFreq RealProofs RealThms RConvModel RConvSpec RConv1.
Import ListNotations.

Section T.
Variable t : pad.
Hypothesis Hwf : rwf t.
Hypothesis HA : aA t = 2.
Hypothesis HB : aB t = 1.
Notation L := (aL t). Notation m := (am t). Notation q := (gq t). Notation M := (gM t).
Notation N := (routputSize t). Notation WS := (rworkSizeW t). Notation VS := (rworkSizeV t).
Variables (g F V : nat -> nat) (w : nat) (m0 : mem).
Hypothesis HBuf : rbuffers t g F V w m0.
Definition Spans (a : nat) : Prop := dspan (g 0) L a \/ dspan (F 0) (2 * N) a \/ dspan (F 1) (2 * N) a \/ dspan (V 0) (2 * VS) a \/ dspan w (2 * WS) a.
Definition cW : option addr := if ainplace t then None else Some w.
Definition X (x : nat -> R) (r i : nat) : C := rdft M L x (rfreq M q m r i).

Lemma mx : max (aA t) (aB t) = 2. Proof. rewrite HA, HB. reflexivity. Qed.
Lemma sp_al b n mm : dalloc b n m0 -> ronly Spans m0 mm -> dalloc b n mm.
Proof. intros H0 [_ H1] a Ha. apply H1, H0, Ha. Qed.
Lemma Np : 1 <= N. Proof. apply (N_pos t Hwf). Qed.
Lemma ap_sym a n b k : dapart a n b k -> dapart b k a n.
Proof. intros H0 x H1 H2. exact (H0 x H2 H1). Qed.

Lemma getW_case b : b < 2 -> (ainplace t = true /\ getW (F b) cW = F b) \/ (ainplace t = false /\ getW (F b) cW = w /\ WS = N /\ w <> F b).
Proof.
  intros Hb. unfold cW. destruct (ainplace t) eqn:E; [left; split; reflexivity|right]. cbn [getW].
  split; [reflexivity|]. split; [reflexivity|]. pose proof (wsW t E) as Ew. split; [assumption|].
  intros Hc. pose proof (rb_Fw _ _ _ _ _ _ HBuf b ltac:(rewrite mx; assumption)) as Hd. pose proof Np. apply (Hd (F b)); unfold dspan; lia.
Qed.
Lemma W_span b a : b < 2 -> dspan (getW (F b) cW) (2 * WS) a -> dspan w (2 * WS) a.
Proof.
  intros Hb Ha. destruct (getW_case b Hb) as [(E1 & _)|(_ & E2 & _)]; [|rewrite E2 in Ha; assumption].
  unfold rworkSizeW in *. rewrite E1 in *. unfold dspan in *. lia.
Qed.
Lemma Hin b : b < 2 -> ainplace t = (getW (F b) cW =? F b).
Proof.
  intros Hb. destruct (getW_case b Hb) as [(E1 & E2)|(E1 & E2 & _ & E3)]; rewrite E1, E2; symmetry; [apply Nat.eqb_refl|apply Nat.eqb_neq; assumption].
Qed.
Lemma pad_local (ma mb : mem) : rpadded t w ma -> (forall a, dspan w (2 * WS) a -> mb a = ma a) -> rpadded t w mb.
Proof.
  intros H0 H1 Hp Hi Hq d s Hd Hs. rewrite !H1; [apply (H0 Hp Hi Hq d s Hd Hs)| |];
  rewrite (wsW t Hi); unfold dspan, padw in *;
  pose proof (r_m t Hwf) as Hm; pose proof (r_q1 t Hwf) as Hq1;
  destruct (Nat.eqb_spec q 2) as [E|E].
  1,3: destruct (q2_geo t Hwf E) as (_ & ED & _); rewrite ED in Hd; assert (d = 0) by lia; subst d;
    pose proof (r_osz t Hwf) as Ho; unfold re_ in Ho; lia.
  all: rewrite (r_oszm t Hwf Hq) by lia; pose proof (Nat.mul_le_mono_l (d + 1) (aD t) m ltac:(lia)); lia.
Qed.
Lemma pad_keep (P : nat -> Prop) (ma mb : mem) : rpadded t w ma -> ronly P ma mb -> (forall a, dspan w (2 * WS) a -> ~ P a) -> rpadded t w mb.
Proof. intros H0 [H1 _] H2. apply (pad_local ma mb H0). intros a Ha. apply H1, H2, Ha. Qed.

Lemma fstep a b r x mm : a < 2 -> b < 2 -> rpass t r -> ronly Spans m0 mm -> reals (g a) L x mm -> rpadded t w mm ->
  WP (rforward t (g a) (F b) r cW) mm (fun m' =>
    complexes (F b) (rnoutputs t r) (X x r) m' /\
    ronly (fun z => dspan (F b) (2 * N) z \/ dspan w (2 * WS) z) mm m' /\ rpadded t w m').
Proof.
  intros Ha Hb Hr HO Hx Hpd.
  assert (Hpd' : rpadded t (getW (F b) cW) mm).
  { destruct (getW_case b Hb) as [(E1 & _)|(_ & E2 & _)]; [intros _ E; congruence|rewrite E2; assumption]. }
  eapply WP_mono; [|apply (rforward_b t Hwf (F b) cW (Hin b Hb) (g a) r x mm Hr Hx)].
  - intros m' (V1 & _ & V3 & V4). split; [exact V1|]. split.
    + apply (ronly_sub _ _ _ _ V3). intros z [Hz|Hz]; [left; assumption|right; eapply W_span; eassumption].
    + destruct (getW_case b Hb) as [(E1 & _)|(_ & E2 & _)]; [intros _ E; congruence|rewrite E2 in V4; assumption].
  - apply (sp_al _ _ mm (rb_Fa _ _ _ _ _ _ HBuf b ltac:(rewrite mx; assumption)) HO).
  - intros z Hz. apply (sp_al _ _ mm (rb_wa _ _ _ _ _ _ HBuf) HO). eapply W_span; eassumption.
  - apply (rb_gF _ _ _ _ _ _ HBuf); rewrite mx; assumption.
  - intros z H1 H2. apply (rb_gw _ _ _ _ _ _ HBuf a ltac:(rewrite mx; assumption) z H1). eapply W_span; eassumption.
  - destruct (getW_case b Hb) as [(_ & E2)|(_ & E2 & _)]; [left; assumption|right; rewrite E2].
    apply ap_sym. apply (rb_Fw _ _ _ _ _ _ HBuf). rewrite mx. assumption.
  - exact Hpd'.
Qed.

(** a backward pass into h with work array W (in place: none) ... *)
Lemma bstep b h r y acc mm : b < 2 -> rpass t r -> ronly Spans m0 mm ->
  complexes (F b) (rnoutputs t r) y mm -> (forall i, i < rnoutputs t r -> (2 * rfreq M q m r i) mod M = 0 -> im (y i) = 0%R) ->
  (r <> 0 -> reals h L acc mm) -> dalloc h L m0 -> dapart h L (F b) (2 * N) -> dapart h L w (2 * WS) ->
  WP (rbackward t (F b) h r cW) mm (fun m' =>
    reals h L (fun j => (if (r =? 0)%nat then 0 else acc j) + rpartial_inverse M (rnoutputs t r) (rfreq M q m r) y j)%R m' /\
    ronly (fun z => dspan h L z \/ dspan (F b) (2 * N) z \/ dspan w (2 * WS) z) mm m').
Proof.
  intros Hb Hr HO Hy Hs Hacc Hh Hd1 Hd2.
  eapply WP_mono; [|apply (rbackward_b t Hwf (F b) cW (Hin b Hb) h r y acc mm Hr Hy Hs Hacc)].
  - intros m' (V1 & V3). split; [exact V1|].
    apply (ronly_sub _ _ _ _ V3). intros z [Hz|[Hz|Hz]]; [left; assumption|right; left; assumption|right; right; eapply W_span; eassumption].
  - apply (sp_al _ _ mm Hh HO).
  - apply (sp_al _ _ mm (rb_Fa _ _ _ _ _ _ HBuf b ltac:(rewrite mx; assumption)) HO).
  - intros z Hz. apply (sp_al _ _ mm (rb_wa _ _ _ _ _ _ HBuf) HO). eapply W_span; eassumption.
  - assumption.
  - intros z H1 H2. apply (Hd2 z H1). eapply W_span; eassumption.
  - destruct (getW_case b Hb) as [(_ & E2)|(_ & E2 & _)]; [left; assumption|right; rewrite E2].
    apply ap_sym. apply (rb_Fw _ _ _ _ _ _ HBuf). rewrite mx. assumption.
Qed.
(** ... or with the other transform buffer *)
Lemma bstepF h r y acc mm : ainplace t = false -> rpass t r -> ronly Spans m0 mm ->
  complexes (F 0) (rnoutputs t r) y mm -> (forall i, i < rnoutputs t r -> (2 * rfreq M q m r i) mod M = 0 -> im (y i) = 0%R) ->
  (r <> 0 -> reals h L acc mm) -> dalloc h L m0 -> dapart h L (F 0) (2 * N) -> dapart h L (F 1) (2 * N) ->
  WP (rbackward t (F 0) h r (Some (F 1))) mm (fun m' =>
    reals h L (fun j => (if (r =? 0)%nat then 0 else acc j) + rpartial_inverse M (rnoutputs t r) (rfreq M q m r) y j)%R m' /\
    ronly (fun z => dspan h L z \/ dspan (F 0) (2 * N) z \/ dspan (F 1) (2 * N) z) mm m').
Proof.
  intros Ei Hr HO Hy Hs Hacc Hh Hd1 Hd2. pose proof Np as HN.
  assert (HFF : dapart (F 1) (2 * N) (F 0) (2 * N)) by (apply (rb_FF _ _ _ _ _ _ HBuf); rewrite ?mx; lia).
  assert (Hin' : ainplace t = (getW (F 0) (Some (F 1)) =? F 0)).
  { rewrite Ei. cbn [getW]. symmetry. apply Nat.eqb_neq. intros E. apply (HFF (F 0)); unfold dspan; lia. }
  eapply WP_mono; [|apply (rbackward_b t Hwf (F 0) (Some (F 1)) Hin' h r y acc mm Hr Hy Hs Hacc)]; cbn [getW]; rewrite ?(wsW t Ei).
  - intros m' (V1 & V3). split; [exact V1|]. exact V3.
  - apply (sp_al _ _ mm Hh HO).
  - apply (sp_al _ _ mm (rb_Fa _ _ _ _ _ _ HBuf 0 ltac:(rewrite mx; lia)) HO).
  - apply (sp_al _ _ mm (rb_Fa _ _ _ _ _ _ HBuf 1 ltac:(rewrite mx; lia)) HO).
  - assumption.
  - assumption.
  - right. assumption.
Qed.
End T.
