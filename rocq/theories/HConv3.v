(** Hermitian binary convolutions: every schedule. *)
From Coq Require Import Reals ZArith Arith Lia List Bool.
From Verif Require Import CNum Sums Roots Mem VecModel VecProofs PadModel PadKernels PadSpec Loops
  PadLemmas PadMath PadGeom Fwd1 PadForward Fill CenModel CenMath CenGeom ConvMath
  HerModel HerSpec HerMath HerFft HerGeom HerF2 HerFI HerForward HerDisp HerIndex HerB7 ConvModel ConvSpec HConvModel HConvSpec HConvMath HConv1 HConv2.
Import ListNotations.
Notation apart := HerSpec.apart.

Section T.
Variables (al : nat) (t : pad).
Hypothesis Hwf : hwf t.
Hypothesis Hal1 : 1 <= al.
Hypothesis HC : aC t = 1.
Hypothesis HA : aA t = 2.
Hypothesis HB : aB t = 1.
Notation m := (am t). Notation q := (kq t). Notation n := (kn t). Notation M := (kM t).
Notation H := (hH t). Notation N := (hnoutputs t). Notation b := (hb al t).
Notation OS := (houtputSize al t). Notation WS := (hworkSizeW al t).

Lemma hrl fuel r : q <> 1 -> r + fuel = hR t -> hrloop t fuel r = seq r fuel.
Proof.
  intros Hq. revert r. induction fuel as [|k IH]; intros r E; cbn [hrloop seq]; [reflexivity|].
  replace (r <? hR t) with true by (symmetry; apply Nat.ltb_lt; lia). f_equal.
  rewrite (hinc_1 t Hwf Hq). rewrite Nat.add_1_r. apply IH. lia.
Qed.
Lemma hres : q <> 1 -> hresidues t = seq 0 (hR t). Proof. intros Hq. apply hrl; [assumption|lia]. Qed.
Lemma hnl : q <> 1 -> hnloops t = hR t. Proof. intros Hq. unfold hnloops. rewrite hres by assumption. apply seq_length. Qed.

Variables (g F V : nat -> addr) (w : addr) (m0 : mem).
Hypothesis Hbuf : hbuffers al t g F V w m0.
Variables (x0 x1 : nat -> C).
Hypothesis Hx0 : hasx (g 0) H x0 m0.
Hypothesis Hx1 : hasx (g 1) H x1 m0.
Hypothesis Z0 : im (x0 0) = 0%R.
Hypothesis Z1 : im (x1 0) = 0%R.
Hypothesis Hlive : q = 1 \/ n mod 2 = 0 \/ initialised al t F m0.
Notation c := (hcinit al t realMultBinary (arr 2 F) (arr 1 V) w).
Notation W := (hcW c).
Notation PS := (prodshare t x0 x1).
Definition raw (j : nat) : C := hpartial_inverse M M (fun k => k) (fun k => (re (hdft M H x0 k) * re (hdft M H x1 k))%R) j.
Definition outw (a : addr) : Prop :=
  span_of (g 0) H a \/ span_of (F 0) OS a \/ span_of (F 1) OS a \/ span_of w WS a \/ span_of (V 0) (hworkSizeV t) a.

Lemma mx : max (aA t) (aB t) = 2. Proof. rewrite HA, HB. reflexivity. Qed.
Ltac bf L := (pose proof (L _ _ _ _ _ _ _ Hbuf)); rewrite ?mx, ?HB in *.
Lemma d_g0g1 : apart (g 0) H (g 1) H. Proof. pose proof (hb_gg _ _ _ _ _ _ _ Hbuf) as E. rewrite mx in E. apply E; lia. Qed.
Lemma d_FF a b' : a < 2 -> b' < 2 -> a <> b' -> apart (F a) OS (F b') OS. Proof. pose proof (hb_FF _ _ _ _ _ _ _ Hbuf) as E. rewrite mx in E. apply E. Qed.
Lemma d_gF a b' : a < 2 -> b' < 2 -> apart (g a) H (F b') OS. Proof. pose proof (hb_gF _ _ _ _ _ _ _ Hbuf) as E. rewrite mx in E. apply E. Qed.
Lemma d_gw a : a < 2 -> apart (g a) H w WS. Proof. pose proof (hb_gw _ _ _ _ _ _ _ Hbuf) as E. rewrite mx in E. apply E. Qed.
Lemma d_Fw a : a < 2 -> apart (F a) OS w WS. Proof. pose proof (hb_Fw _ _ _ _ _ _ _ Hbuf) as E. rewrite mx in E. apply E. Qed.
Lemma d_gV a : a < 2 -> apart (g a) H (V 0) (hworkSizeV t).
Proof. intros Ha. pose proof (hb_gV _ _ _ _ _ _ _ Hbuf) as E. rewrite mx, HB in E. apply E; [assumption|lia]. Qed.
Lemma d_VF a : a < 2 -> apart (V 0) (hworkSizeV t) (F a) OS.
Proof. intros Ha. pose proof (hb_VF _ _ _ _ _ _ _ Hbuf) as E. rewrite mx, HB in E. apply E; [lia|assumption]. Qed.
Lemma d_Vw : apart (V 0) (hworkSizeV t) w WS.
Proof. pose proof (hb_Vw _ _ _ _ _ _ _ Hbuf) as E. rewrite HB in E. apply E; lia. Qed.
Lemma a_g a : a < 2 -> alloc (g a) H m0. Proof. pose proof (hb_ga _ _ _ _ _ _ _ Hbuf) as E. rewrite mx in E. apply E. Qed.
Lemma a_F a : a < 2 -> alloc (F a) OS m0. Proof. pose proof (hb_Fa _ _ _ _ _ _ _ Hbuf) as E. rewrite mx in E. apply E. Qed.
Lemma a_V : alloc (V 0) (hworkSizeV t) m0. Proof. pose proof (hb_Va _ _ _ _ _ _ _ Hbuf) as E. rewrite HB in E. apply E; lia. Qed.
Lemma a_w : alloc w WS m0. Proof. apply (hb_wa _ _ _ _ _ _ _ Hbuf). Qed.
Lemma HWf : Wfor t W w. Proof. unfold Wfor, hcinit. cbn [hcW]. reflexivity. Qed.

Lemma live0 : live al t (F 0) (F 1) 0 m0.
Proof.
  unfold live. destruct (Nat.eq_dec q 1) as [|Hq]; [left; assumption|right].
  destruct Hlive as [E|[E|E]]; [contradiction| |].
  - left. rewrite (hblocks_q t Hwf Hq), E. reflexivity.
  - right. pose proof (N_w al t Hwf Hal1 HC) as Nw. unfold initialised in E. rewrite mx in E.
    rewrite (OS_q al t Hwf Hal1 HC Hq) in E. split; intros i Hi; rewrite <- Nat.add_assoc; apply E; lia.
Qed.
Lemma live1 r mm : r <> 0 -> live al t (F 0) (F 1) r mm.
Proof.
  intros Hr. unfold live. destruct (Nat.eq_dec q 1) as [|Hq]; [left; assumption|right; left].
  rewrite (hblocks_q t Hwf Hq). apply Nat.eqb_neq in Hr. rewrite Hr. reflexivity.
Qed.
Lemma raw_sum j : raw j = csl (seq 0 (hR t)) (fun r => PS r j).
Proof. symmetry. unfold raw. apply (hpasses_b t Hwf (seq 0 (hR t)) (fun k => (re (hdft M H x0 k) * re (hdft M H x1 k))%R) j). apply hloop. assumption. Qed.

(** q=1 *)
Lemma raw_q1 : q = 1 -> WP (hconvolveRaw al t c (arr 2 g)) m0 (fun m' => hasx (g 0) H raw m' /\ only outw m0 m').
Proof.
  intros Hq. unfold hconvolveRaw. rewrite Hq. cbn [Nat.eqb].
  assert (HR1 : hR t = 1) by (unfold hR; rewrite Hq; reflexivity).
  assert (Hnb : hblocks t 0 = 1) by (unfold hblocks; rewrite Hq; reflexivity).
  pose proof (d_FF 0 1 ltac:(lia) ltac:(lia) ltac:(lia)) as DF.
  rewrite HA, HB. apply WP_seq.
  apply (fwd_two al t Hwf Hal1 HC c HA HB W w eq_refl HWf (arr 2 g) (hcF c) (g 0) (g 1) (F 0) (F 1) 0 x0 x1 m0);
    try reflexivity; try assumption; try (apply d_gF; lia); try (apply d_gw; lia); try (apply d_Fw; lia); try (apply a_F; lia); try apply a_w.
  - lia.
  - apply live0.
  - intros m1 V0 V1 _ O1. apply WP_seq. cbn [hcinit hcmult hcF]. change (hblocksize t) with N.
    pose proof (N_w al t Hwf Hal1 HC) as Nw. pose proof (OS_b al t Hwf Hal1 HC) as Ob.
    assert (U0 : dbls (F 0) N (xr t x0 0 0) m1). { specialize (V0 0 ltac:(lia)). rewrite Nat.mul_0_l, Nat.add_0_r in V0. exact V0. }
    assert (U1 : dbls (F 1) N (xr t x1 0 0) m1). { specialize (V1 0 ltac:(lia)). rewrite Nat.mul_0_l, Nat.add_0_r in V1. exact V1. }
    eapply WP_mono; [|apply (realMult_ok (arr 2 F) (F 0) (F 1) N 0 0 m1)]; try reflexivity.
    + intros m2 (V2 & _ & O2).
      assert (O02 : only (fun a => span_of (F 0) OS a \/ span_of (F 1) OS a \/ span_of w WS a) m0 m2).
      { eapply only_trans; [exact O1|]. eapply only_sub; [|exact O2]. intros a Ha. left. unfold span_of in *. lia. }
      change (if ainplace t then None else Some w) with W.
      eapply WP_mono; [|apply (bwd_into al t Hwf Hal1 HC (arr 2 F) (arr 2 g) (F 0) (g 0) 0 W w (fun be i => (xr t x0 0 be i * xr t x1 0 be i)%R) (fun _ => C0) m2)];
        try reflexivity; try assumption; try (apply d_gF; lia); try (apply d_gw; lia); try (apply d_Fw; lia).
      * intros m3 (V3 & O3). split.
        -- intros j Hj. rewrite (V3 j Hj). rewrite raw_sum, HR1. cbn [seq csl fold_right Nat.eqb]. f_equal. unfold prodshare. ring.
        -- eapply only_trans; [eapply only_sub; [|exact O02]|eapply only_sub; [|exact O3]]; unfold outw; intros a; tauto.
      * lia.
      * eapply alloc_only; [exact O02|apply a_F; lia].
      * eapply alloc_only; [exact O02|apply a_w].
      * eapply alloc_only; [exact O02|apply a_g; lia].
      * intros be Hbe. assert (be = 0) by lia. subst be. rewrite Nat.mul_0_l, Nat.add_0_r. apply V2; assumption.
      * intros Hc. contradiction.
    + intros a A1 A2. apply (DF a); unfold span_of in *; lia.
    + eapply dbls_words; eassumption.
    + eapply dbls_words; eassumption.
Qed.

(** two passes (loop2) *)
Lemma raw_l2 : q <> 1 -> hR t = 2 -> WP (hconvolveRaw al t c (arr 2 g)) m0 (fun m' => hasx (g 0) H raw m' /\ only outw m0 m').
Proof.
  intros Hq HR2. unfold hconvolveRaw. apply Nat.eqb_neq in Hq as Hq'. rewrite Hq'.
  assert (El2 : hloop2 t = true) by (unfold hloop2; rewrite hnl, HR2, HA, HB by assumption; reflexivity).
  rewrite El2. rewrite (hinc_1 t Hwf Hq). rewrite HA, HB.
  assert (EW0 : hcW0 c = W). { unfold hcinit. cbn [hcW0 hcW]. rewrite El2, Hq'. reflexivity. }
  rewrite EW0.
  pose proof (d_FF 0 1 ltac:(lia) ltac:(lia) ltac:(lia)) as DF. pose proof (d_FF 1 0 ltac:(lia) ltac:(lia) ltac:(lia)) as DF'.
  assert (EFp : forall i, hcFp c i = if i =? 0 then Some (F 1) else if i =? 1 then Some (F 0) else None).
  { intros i. unfold hcinit. cbn [hcFp]. rewrite HA, HB. destruct i as [|[|i]]; reflexivity. }
  assert (Hnb1 : hblocks t 1 = 2) by (rewrite (hblocks_q t Hwf Hq); reflexivity).
  apply WP_seq.
  apply (fwd_two al t Hwf Hal1 HC c HA HB W w eq_refl HWf (arr 2 g) (hcF c) (g 0) (g 1) (F 0) (F 1) 0 x0 x1 m0);
    try reflexivity; try assumption; try (apply d_gF; lia); try (apply d_gw; lia); try (apply d_Fw; lia); try (apply a_F; lia); try apply a_w.
  { lia. }
  { apply live0. }
  intros m1 V0 V1 HR O1. destruct (HR Hq) as [R0 R1]. apply WP_seq.
  eapply WP_mono; [|apply (oper al t Hwf Hal1 HC c eq_refl HA HB (hcF c) (F 0) (F 1) 0 (xr t x0 0) (xr t x1 0) m1); try assumption; reflexivity].
  intros m2 (V2 & O2).
  assert (O02 : only (fun a => span_of (F 0) OS a \/ span_of (F 1) OS a \/ span_of w WS a) m0 m2).
  { eapply only_trans; [exact O1|]. eapply only_sub; [|exact O2]. intros a; tauto. }
  cbn [hl2loop]. rewrite HA, HB, ?EW0. cbn [Nat.sub Nat.add Nat.leb]. apply WP_seq.
  assert (Hg : forall a x mm, a < 2 -> hasx (g a) H x m0 -> only (fun a => span_of (F 0) OS a \/ span_of (F 1) OS a \/ span_of w WS a) m0 mm -> hasx (g a) H x mm).
  { intros a x mm Ha Hx O. eapply hasx_only; [exact O| |exact Hx].
    intros z Hz [Hy|[Hy|Hy]]; [apply (d_gF a 0 Ha ltac:(lia) z)|apply (d_gF a 1 Ha ltac:(lia) z)|apply (d_gw a Ha z)]; assumption. }
  (* g0 -> F1, r=1 *)
  unfold hcforward at 1. cbn [Nat.sub cfor Nat.add]. apply WP_seq. apply WP_skip.
  eapply WP_mono; [|apply (fwd_into al t Hwf Hal1 HC c W w eq_refl HWf (arr 2 g) (hcFp c) 0 (g 0) (F 1) 1 x0 m2); try reflexivity; try assumption; try (apply d_gF; lia); try (apply d_gw; lia); try (apply d_Fw; lia)].
  2: { rewrite EFp. reflexivity. } 2: { lia. }
  2: { eapply alloc_only; [exact O02|apply a_F; lia]. } 2: { eapply alloc_only; [exact O02|apply a_w]. }
  2: { apply Hg; [lia|assumption|assumption]. }
  intros m3 (V3 & R3 & O3). specialize (R3 Hq (or_introl Hnb1)).
  assert (O03 : only (fun a => span_of (F 0) OS a \/ span_of (F 1) OS a \/ span_of w WS a) m0 m3).
  { eapply only_trans; [exact O02|]. eapply only_sub; [|exact O3]. intros a; tauto. }
  apply WP_seq.
  (* F0 -> g0, r=0 *)
  change (hcbackward al t (hcF c) (arr 2 g) 0 0 1 W) with (hcbackward al t (arr 2 F) (arr 2 g) 0 0 1 W).
  assert (P3 : forall be, be < hblocks t 0 -> dbls (F 0 + be * b) N (fun i => (xr t x0 0 be i * xr t x1 0 be i)%R) m3).
  { intros be Hbe. apply (dbls_frame _ _ _ m2); [apply V2; assumption|]. intros a Ha.
    assert (Hbe2 : be < 2) by (destruct (hb2 al t Hwf Hal1 HC HA HB 0); [contradiction|lia]).
    apply (blk_sub al t Hwf Hal1 HC HA HB (F 0) be a Hq Hbe2) in Ha. apply O3.
    intros [Hy|Hy]; [apply (DF a)|apply (d_Fw 0 ltac:(lia) a)]; assumption. }
  eapply WP_mono; [|apply (bwd_into al t Hwf Hal1 HC (arr 2 F) (arr 2 g) (F 0) (g 0) 0 W w (fun be i => (xr t x0 0 be i * xr t x1 0 be i)%R) (fun _ => C0) m3)];
    try reflexivity; try assumption; try (apply d_gF; lia); try (apply d_gw; lia); try (apply d_Fw; lia).
  2: { lia. }
  2: { eapply alloc_only; [exact O03|apply a_F; lia]. } 2: { eapply alloc_only; [exact O03|apply a_w]. } 2: { eapply alloc_only; [exact O03|apply a_g; lia]. }
  2: { intros Hc. contradiction. }
  intros m4 (V4 & O4).
  assert (A4 : forall base k, alloc base k m0 -> alloc base k m4).
  { intros base k Hk. eapply alloc_only; [exact O4|]. eapply alloc_only; [exact O03|exact Hk]. }
  assert (F14 : forall a, span_of (F 1) OS a -> m4 a = m3 a).
  { intros a Ha. apply O4. intros [Hy|[Hy|Hy]]; [apply (d_gF 0 1 ltac:(lia) ltac:(lia) a)|apply (DF a)|apply (d_Fw 1 ltac:(lia) a)]; assumption. }
  assert (G14 : hasx (g 1) H x1 m4).
  { eapply hasx_only; [exact O4| |apply Hg; [lia|exact Hx1|exact O03]].
    intros a Ha [Hy|[Hy|Hy]]; [apply (d_g0g1 a)|apply (d_gF 1 0 ltac:(lia) ltac:(lia) a)|apply (d_gw 1 ltac:(lia) a)]; assumption. }
  (* g1 -> F0, r=1 *)
  apply WP_seq. unfold hcforward at 1. cbn [Nat.sub cfor Nat.add]. apply WP_seq. apply WP_skip.
  eapply WP_mono; [|apply (fwd_into al t Hwf Hal1 HC c W w eq_refl HWf (arr 2 g) (hcFp c) 1 (g 1) (F 0) 1 x1 m4); try reflexivity; try assumption; try (apply d_gF; lia); try (apply d_gw; lia); try (apply d_Fw; lia)].
  2: { rewrite EFp. reflexivity. } 2: { lia. } 2: { apply A4, a_F; lia. } 2: { apply A4, a_w. }
  intros m5 (V5 & R5 & O5). specialize (R5 Hq (or_introl Hnb1)).
  assert (F15 : forall a, span_of (F 1) OS a -> m5 a = m3 a).
  { intros a Ha. rewrite <- (F14 a Ha). apply O5. intros [Hy|Hy]; [apply (DF a)|apply (d_Fw 1 ltac:(lia) a)]; assumption. }
  apply WP_seq.
  eapply WP_mono; [|apply (oper al t Hwf Hal1 HC c eq_refl HA HB (hcFp c) (F 1) (F 0) 1 (xr t x0 1) (xr t x1 1) m5); try assumption; try (rewrite EFp; reflexivity)].
  2: { apply (ready_frame al t Hwf Hal1 HC HA HB _ m3); assumption. }
  2: { apply (spec_frame al t Hwf Hal1 HC HA HB (F 1) x0 1 m3); [apply (hb2 al t Hwf Hal1 HC HA HB)|assumption|assumption]. }
  intros m6 (V6 & O6).
  assert (A6 : forall base k, alloc base k m0 -> alloc base k m6).
  { intros base k Hk. eapply alloc_only; [exact O6|]. eapply alloc_only; [exact O5|]. apply A4. assumption. }
  eapply WP_mono; [|apply (bwd_into al t Hwf Hal1 HC (hcFp c) (arr 2 g) (F 1) (g 0) 1 W w (fun be i => (xr t x0 1 be i * xr t x1 1 be i)%R)
    (fun j => Cadd C0 (PS 0 j)) m6)]; try reflexivity; try assumption; try (apply d_gF; lia); try (apply d_gw; lia); try (apply d_Fw; lia).
  2: { rewrite EFp. reflexivity. } 2: { lia. } 2: { apply A6, a_F; lia. } 2: { apply A6, a_w. } 2: { apply A6, a_g; lia. }
  2: { intros _. eapply hasx_only; [exact O6| |]. { intros a Ha Hy. apply (d_gF 0 1 ltac:(lia) ltac:(lia) a); assumption. }
       eapply hasx_only; [exact O5| |exact V4]. intros a Ha [Hy|Hy]; [apply (d_gF 0 0 ltac:(lia) ltac:(lia) a)|apply (d_gw 0 ltac:(lia) a)]; assumption. }
  intros m7 (V7 & O7). split.
  - intros j Hj. rewrite (V7 j Hj). rewrite raw_sum, HR2. cbn [seq csl fold_right Nat.eqb]. f_equal. unfold prodshare. ring.
  - unfold outw.
    eapply only_trans; [eapply only_sub; [|exact O03]; intros a; tauto|].
    eapply only_trans; [eapply only_sub; [|exact O4]; intros a; tauto|].
    eapply only_trans; [eapply only_sub; [|exact O5]; intros a; tauto|].
    eapply only_trans; [eapply only_sub; [|exact O6]; intros a; tauto|].
    eapply only_sub; [|exact O7]; intros a; tauto.
Qed.

(** the general schedule *)
Lemma W0_ok : q <> 1 -> hR t <> 2 -> exists w0, Wfor t (hcW0 c) w0 /\ apart (F 0) OS w0 WS /\
  (forall a, span_of w0 WS a -> span_of w WS a \/ span_of (F 1) OS a).
Proof.
  intros Hq HR. apply Nat.eqb_neq in Hq as Hq'.
  assert (El2 : hloop2 t = false). { unfold hloop2. rewrite hnl by assumption. apply Nat.eqb_neq in HR. rewrite HR. reflexivity. }
  unfold hcinit. cbn [hcW0]. rewrite El2, HA, HB, Hq'. cbn [negb andb Nat.ltb Nat.leb].
  destruct (ainplace t) eqn:Ei; cbn [negb andb].
  - exists w. split; [unfold Wfor; rewrite Ei; reflexivity|]. split; [apply d_Fw; lia|]. intros a Ha. left. assumption.
  - destruct (Nat.leb_spec WS OS) as [Hle|Hle].
    + exists (F 1). split; [unfold Wfor; rewrite Ei; reflexivity|]. split.
      * intros a A1 A2. apply (d_FF 0 1 ltac:(lia) ltac:(lia) ltac:(lia) a A1). unfold span_of in *. lia.
      * intros a Ha. right. unfold span_of in *. lia.
    + exists w. split; [unfold Wfor; rewrite Ei; reflexivity|]. split; [apply d_Fw; lia|]. intros a Ha. left. assumption.
Qed.
(** passes k, k+1, .. into an accumulator f *)
Lemma passes_ok (h : parr) f w0 : q <> 1 -> h 0 = Some f -> Wfor t (hcW0 c) w0 -> apart (F 0) OS w0 WS ->
  (forall a, span_of w0 WS a -> span_of w WS a \/ span_of (F 1) OS a) ->
  apart f H (F 0) OS -> apart f H (F 1) OS -> apart f H w WS -> alloc f H m0 ->
  (hR t = 1 \/ (apart f H (g 0) H /\ apart f H (g 1) H)) ->
  forall cnt k (m1 : mem), k + cnt = hR t ->
  (k = 0 -> m1 = m0) -> only (fun a => span_of f H a \/ span_of (F 0) OS a \/ span_of (F 1) OS a \/ span_of w WS a) m0 m1 ->
  (k <> 0 -> hasx f H (fun j => csl (seq 0 k) (fun r => PS r j)) m1) ->
  WP (rfor (seq k cnt) (fun r => Seq (hcforward al t c (arr 2 g) (hcF c) r 0 (aA t))
      (Seq (hoperate al t c (hcF c) r) (hcbackward al t (hcF c) h r 0 (aB t) (hcW0 c))))) m1 (fun m' =>
    (k + cnt <> 0 -> hasx f H (fun j => csl (seq 0 (k + cnt)) (fun r => PS r j)) m') /\
    only (fun a => span_of f H a \/ span_of (F 0) OS a \/ span_of (F 1) OS a \/ span_of w WS a) m0 m').
Proof.
  intros Hq Hh HW0 D0 D1 D2 D3 D4 Af Hg.
  induction cnt as [|cnt IH]; intros k m1 Ek Hm1 O1 Hv; cbn [seq rfor].
  - apply WP_skip. rewrite Nat.add_0_r. auto.
  - apply WP_seq.
    assert (Hgg : forall a x, a < 2 -> hasx (g a) H x m0 -> hasx (g a) H x m1).
    { intros a x Ha Hx. destruct (Nat.eq_dec k 0) as [E|E]; [rewrite Hm1 by assumption; assumption|].
      destruct Hg as [Hg|[Hg0 Hg1]]; [lia|]. eapply hasx_only; [exact O1| |exact Hx].
      intros z Hz [Hy|[Hy|[Hy|Hy]]]; [|apply (d_gF a 0 Ha ltac:(lia) z)|apply (d_gF a 1 Ha ltac:(lia) z)|apply (d_gw a Ha z)]; try assumption.
      assert (a = 0 \/ a = 1) as [-> | ->] by lia; [apply (Hg0 z)|apply (Hg1 z)]; assumption. }
    eapply WP_mono; [|apply (pass al t Hwf Hal1 HC c eq_refl HA HB W w eq_refl HWf (arr 2 g) (hcF c) h (g 0) (g 1) (F 0) (F 1) f k (hcW0 c) w0 x0 x1
      (fun j => csl (seq 0 k) (fun r => PS r j)) m1)];
      try reflexivity; try assumption; try (apply d_gF; lia); try (apply d_gw; lia); try (apply d_Fw; lia); try (apply d_FF; lia).
    + intros m2 (V2 & O2). specialize (IH (S k) m2).
      eapply WP_mono; [|apply IH].
      * intros m3. replace (S k + cnt) with (k + S cnt) by lia. auto.
      * lia.
      * lia.
      * eapply only_trans; [exact O1|exact O2].
      * intros _ j Hj. rewrite (V2 j Hj). f_equal. rewrite seq_S, csl_app. cbn [csl fold_right Nat.add].
        destruct (Nat.eqb_spec k 0) as [->|]; cbn [seq fold_right csl]; ring.
    + lia.
    + intros a A1 A2. destruct (D1 a A2) as [Hx|Hx]; [apply (D4 a)|apply (D3 a)]; assumption.
    + eapply alloc_only; [exact O1|apply a_F; lia].
    + eapply alloc_only; [exact O1|apply a_F; lia].
    + eapply alloc_only; [exact O1|apply a_w].
    + eapply alloc_only; [exact O1|assumption].
    + apply Hgg; [lia|assumption].
    + apply Hgg; [lia|assumption].
    + destruct (Nat.eq_dec k 0) as [E|E]; [rewrite (Hm1 E), E; apply live0|apply live1; assumption].
Qed.

Lemma raw_gen : q <> 1 -> hR t <> 2 -> WP (hconvolveRaw al t c (arr 2 g)) m0 (fun m' => hasx (g 0) H raw m' /\ only outw m0 m').
Proof.
  intros Hq HR. unfold hconvolveRaw. apply Nat.eqb_neq in Hq as Hq'. rewrite Hq'.
  assert (El2 : hloop2 t = false). { unfold hloop2. rewrite hnl by assumption. apply Nat.eqb_neq in HR. rewrite HR. reflexivity. }
  rewrite El2. rewrite (hres Hq), (hnl Hq).
  assert (HRp : 1 <= hR t). { rewrite (h_R t Hwf Hq). pose proof (h_n2 t Hwf Hq). pose proof (cq2 n). lia. }
  destruct (W0_ok Hq HR) as (w0 & HW0 & D0 & D1).
  apply WP_seq. destruct (Nat.ltb_spec 1 (hR t)) as [H1|H1].
  - assert (EV : hworkSizeV t = H).
    { unfold hworkSizeV. rewrite (hnl Hq), El2. replace (hR t =? 1) with false by (symmetry; apply Nat.eqb_neq; lia). cbn [orb].
      assert (ES : aS t = 1) by (destruct Hwf as (_ & _ & _ & E & _); congruence). rewrite ES, Nat.mul_1_r. pose proof (cq2 (2 * H)). lia. }
    pose proof d_VF as DVF. pose proof d_Vw as DVw. pose proof a_V as AV. pose proof d_gV as DgV. rewrite EV in DVF, DVw, AV, DgV.
    eapply WP_mono; [|apply (passes_ok (hcV c) (V 0) w0 Hq eq_refl HW0 D0 D1 (DVF 0 ltac:(lia)) (DVF 1 ltac:(lia)) DVw AV
      ltac:(right; split; intros a A1 A2; [apply (DgV 0 ltac:(lia) a)|apply (DgV 1 ltac:(lia) a)]; assumption) (hR t) 0 m0)]; try lia; try (intros; reflexivity).
    + intros m1 (V1 & O1). specialize (V1 ltac:(lia)). unfold hcopyback. rewrite HB. cbn [cfor]. apply WP_seq. apply WP_skip.
      unfold pget. cbn [hcinit hcV arr Nat.ltb Nat.leb].
      eapply WP_mono; [|apply (map_ok (g 0) (V 0) H (fun x => x) (fun j => csl (seq 0 (hR t)) (fun r => PS r j)) m1)].
      * intros m2 (V2 & O2). split.
        -- intros j Hj. rewrite (V2 j Hj). f_equal. rewrite raw_sum. reflexivity.
        -- unfold outw. rewrite EV. eapply only_trans; [eapply only_sub; [|exact O1]; intros a; tauto|eapply only_sub; [|exact O2]; intros a; tauto].
      * right. apply DgV; lia.
      * exact V1.
      * eapply alloc_only; [exact O1|apply a_g; lia].
    + split; [intros; reflexivity|auto].
  - eapply WP_mono; [|apply (passes_ok (arr 2 g) (g 0) w0 Hq eq_refl HW0 D0 D1 (d_gF 0 0 ltac:(lia) ltac:(lia)) (d_gF 0 1 ltac:(lia) ltac:(lia)) (d_gw 0 ltac:(lia)) (a_g 0 ltac:(lia))
      ltac:(left; lia) (hR t) 0 m0)]; try lia; try (intros; reflexivity).
    + intros m1 (V1 & O1). specialize (V1 ltac:(lia)). apply WP_skip. split.
      * intros j Hj. rewrite (V1 j Hj). f_equal. rewrite raw_sum. reflexivity.
      * eapply only_sub; [|exact O1]. unfold outw. intros a; tauto.
    + split; [intros; reflexivity|auto].
Qed.

Lemma hconv_ok : WP (hconvolve al t c (arr 2 g)) m0 (fun m' =>
  hasx (g 0) H (fun j => ocyc (H - 1) M (2 * H - 1) (hseq H x0) (hseq H x1) (j + (H - 1))) m' /\ only outw m0 m').
Proof.
  assert (HM : 0 < M) by (apply (hMpos al t Hwf Hal1)).
  unfold hconvolve. apply WP_seq.
  eapply WP_mono with (Q := fun m' => hasx (g 0) H raw m' /\ only outw m0 m').
  - intros m1 (V1 & O1). unfold hnormalize. rewrite HB. cbn [cfor]. apply WP_seq. apply WP_skip. unfold pget. cbn [arr Nat.ltb Nat.leb].
    eapply WP_mono; [|apply (map_ok (g 0) (g 0) H (fun x => Cmul x (RtoC (/ INR M))) raw m1); [left; reflexivity|exact V1|eapply alloc_only; [exact O1|apply a_g; lia]]].
    intros m2 (V2 & O2). split.
    + intros j Hj. rewrite (V2 j Hj). f_equal. unfold raw. rewrite hconv_cyc; try assumption; [|pose proof (H_pos al t Hwf Hal1 HC); lia].
      rewrite (Cmul_comm (RtoC (INR M)) _), <- Cmul_assoc. rewrite <- RtoC_mul. rewrite Rinv_r by (apply not_0_INR; lia). apply Cmul_1_r.
    + eapply only_trans; [exact O1|]. eapply only_sub; [|exact O2]. intros a Ha. left. assumption.
  - destruct (Nat.eq_dec q 1) as [Hq|Hq]; [apply raw_q1; assumption|].
    destruct (Nat.eq_dec (hR t) 2) as [HR|HR]; [apply raw_l2|apply raw_gen]; assumption.
Qed.
End T.
