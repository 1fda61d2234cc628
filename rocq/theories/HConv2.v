(** Hermitian binary convolutions: one pass. *)
From Coq Require Import Reals ZArith Arith Lia List Bool.
From Verif Require Import CNum Sums Roots Mem VecModel VecProofs PadModel PadKernels PadSpec Loops
  PadLemmas PadMath PadGeom Fwd1 PadForward Fill CenModel CenMath CenGeom ConvMath
  HerModel HerSpec HerMath HerFft HerGeom HerF2 HerFI HerForward HerDisp HerIndex HerB7 ConvModel HConvModel HConv1.
Import ListNotations.

Section T.
Variables (al : nat) (t : pad).
Hypothesis Hwf : hwf t.
Hypothesis Hal1 : 1 <= al.
Hypothesis HC : aC t = 1.
Notation m := (am t). Notation q := (kq t). Notation n := (kn t). Notation M := (kM t).
Notation H := (hH t). Notation N := (hnoutputs t). Notation b := (hb al t).
Notation OS := (houtputSize al t). Notation WS := (hworkSizeW al t).
Notation Wfor := (Wfor t). Notation ready := (ready al t). Notation xr := (xr t).

Lemma bwd F f W w r y acc (m0 : mem) : r < hR t -> Wfor W w ->
  apart f H F OS -> apart f H w WS -> apart F OS w WS -> alloc F OS m0 -> alloc w WS m0 -> alloc f H m0 ->
  (forall be, be < hblocks t r -> dbls (F + be * b) N (y be) m0) -> (r <> 0 -> hasx f H acc m0) ->
  WP (hbackward al t F f r W) m0 (fun m' =>
    hasx f H (fun j => Cadd (if r =? 0 then C0 else acc j) (hshare t r y j)) m' /\
    only (fun a => span_of f H a \/ span_of F OS a \/ span_of w WS a) m0 m').
Proof.
  intros Hr HW Hd1 Hd2 Hd3 Ha1 Ha2 Ha3 Hy Hacc.
  pose proof (W_eq al t Hwf Hal1 HC F W w HW Hd3) as Hin. pose proof (W_sep al t F W w HW Hd3) as Hsep.
  eapply WP_mono; [|apply (hbackward_b al t Hwf Hal1 f F W r (fun be i _ => y be i) (fun j _ => acc j) m0)]; rewrite ?HC, ?Nat.mul_1_l; try assumption.
  - intros m' (V & O1 & O2). split.
    + intros j Hj. specialize (V j 0 Hj ltac:(lia)). rewrite Nat.mul_1_l, Nat.add_0_r in V. assumption.
    + split; [|assumption]. intros a Ha. apply O1. intros [Hx|[Hx|Hx]]; apply Ha; auto. right; right. eapply W_in; eassumption.
  - intros be i c Hbe Hi Hc. assert (c = 0) by lia. subst c. rewrite Nat.mul_1_l, Nat.add_0_r. apply Hy; assumption.
  - intros Hr0. apply hasx_C. apply Hacc. assumption.
  - intros a Ha. apply Ha2. eapply W_in; eassumption.
  - intros a H1 H2. apply (Hd2 a H1). eapply W_in; eassumption.
Qed.

Variable c : hconv.
Hypothesis Hmult : hcmult c = realMultBinary.
Hypothesis HA : aA t = 2.
Hypothesis HB : aB t = 1.

Lemma blk_sub F be a : q <> 1 -> be < 2 -> span_of (F + be * b) (cq N 2) a -> span_of F OS a.
Proof.
  intros Hq Hbe. pose proof (N_w al t Hwf Hal1 HC) as Nw. rewrite OS_q by assumption. unfold span_of.
  assert (be = 0 \/ be = 1) as [-> | ->] by lia; lia.
Qed.
Lemma blk_ne F be be' a : be < 2 -> be' < 2 -> be <> be' -> span_of (F + be * b) (cq N 2) a -> ~ span_of (F + be' * b) (cq N 2) a.
Proof.
  intros H1 H2 H3. pose proof (N_w al t Hwf Hal1 HC) as Nw. unfold span_of.
  assert ((be = 0 /\ be' = 1) \/ (be = 1 /\ be' = 0)) as [[-> ->]|[-> ->]] by lia; lia.
Qed.

Lemma oper (P : parr) h0 h1 r u v (m0 : mem) : q <> 1 ->
  P 0 = Some h0 -> P 1 = Some h1 -> apart h0 OS h1 OS -> ready h0 m0 -> ready h1 m0 ->
  (forall be, be < hblocks t r -> dbls (h0 + be * b) N (u be) m0) ->
  (forall be, be < hblocks t r -> dbls (h1 + be * b) N (v be) m0) ->
  WP (hoperate al t c P r) m0 (fun m' =>
    (forall be, be < hblocks t r -> dbls (h0 + be * b) N (fun i => (u be i * v be i)%R) m') /\
    only (span_of h0 OS) m0 m').
Proof.
  intros Hq E0 E1 Hd Hr0 Hr1 Hu Hv. pose proof (b_pos al t Hwf Hal1 HC) as Hb.
  assert (Hnb : hblocks t r <= 2) by (rewrite (hblocks_q t Hwf Hq); destruct (_ && _); lia).
  unfold hoperate. apply WP_seq. rewrite Hmult. change (hblocksize t) with N.
  assert (Ap : forall be be', be < 2 -> be' < 2 -> apart (h0 + be * b) (cq N 2) (h1 + be' * b) (cq N 2)).
  { intros be be' B1 B2 a A1 A2. apply (Hd a); [apply (blk_sub h0 be a Hq B1 A1)|apply (blk_sub h1 be' a Hq B2 A2)]. }
  eapply WP_mono; [|apply (realMult_ok P h0 h1)]; try assumption.
  2: { specialize (Ap 0 0 ltac:(lia) ltac:(lia)). rewrite !Nat.mul_0_l, !Nat.add_0_r in Ap. assumption. }
  2: { specialize (Hr0 0 ltac:(lia)). rewrite Nat.mul_0_l, Nat.add_0_r in Hr0. assumption. }
  2: { specialize (Hr1 0 ltac:(lia)). rewrite Nat.mul_0_l, Nat.add_0_r in Hr1. assumption. }
  intros m1 (V1 & _ & O1 & A1). unfold hspan.
  replace (2 * b) with (S (S (2 * b - 2))) by lia. cbn [hoploop]. unfold hspan.
  replace (b * 1 <? 2 * b) with true by (symmetry; apply Nat.ltb_lt; lia).
  replace (b * 2 <? 2 * b) with false by (symmetry; apply Nat.ltb_ge; lia).
  apply WP_seq. rewrite Hmult. change (hblocksize t) with N.
  assert (Es : forall h a, span_of h (cq N 2) a -> span_of (h + 0 * b) (cq N 2) a) by (intros h a; rewrite Nat.mul_0_l, Nat.add_0_r; auto).
  eapply WP_mono; [|apply (realMult_ok _ (h0 + 1 * b) (h1 + 1 * b))].
  - intros m2 (V2 & _ & O2 & A2). apply WP_skip. split; [|split].
    + intros be Hbe. destruct (Nat.eq_dec be 0) as [->|Hbe0].
      * apply (dbls_frame _ _ _ m1).
        -- rewrite Nat.mul_0_l, Nat.add_0_r. apply V1.
           ++ specialize (Hu 0 Hbe). rewrite Nat.mul_0_l, Nat.add_0_r in Hu. assumption.
           ++ specialize (Hv 0 Hbe). rewrite Nat.mul_0_l, Nat.add_0_r in Hv. assumption.
        -- intros a Ha. apply O2. apply (blk_ne h0 0 1 a); try lia. assumption.
      * assert (be = 1) by lia. subst be. apply V2.
        -- apply (dbls_frame _ _ _ m0); [apply Hu; assumption|]. intros a Ha. apply O1. intros Hx. apply Es in Hx.
           revert Ha. apply (blk_ne h0 0 1 a); try lia. assumption.
        -- apply (dbls_frame _ _ _ m0); [apply Hv; assumption|]. intros a Ha. apply O1. intros Hx. apply Es in Hx.
           apply (Ap 0 1 ltac:(lia) ltac:(lia) a); assumption.
    + intros a Ha. rewrite O2, O1; [reflexivity| |].
      * intros Hx. apply Ha. apply (blk_sub h0 0 a Hq ltac:(lia)). apply Es. assumption.
      * intros Hx. apply Ha. apply (blk_sub h0 1 a Hq ltac:(lia)). assumption.
    + intros a Ha. apply A2, A1. assumption.
  - rewrite HA. cbn [Nat.ltb Nat.leb]. rewrite E0. cbn [option_map]. f_equal. lia.
  - rewrite HA. cbn [Nat.ltb Nat.leb]. rewrite E1. cbn [option_map]. f_equal. lia.
  - apply Ap; lia.
  - apply (words_frame _ _ m0); [apply Hr0; lia|]. intros a Ha. apply O1. intros Hx. apply Es in Hx.
    revert Ha. apply (blk_ne h0 0 1 a); try lia. assumption.
  - apply (words_frame _ _ m0); [apply Hr1; lia|]. intros a Ha. apply O1. intros Hx. apply Es in Hx.
    apply (Ap 0 1 ltac:(lia) ltac:(lia) a); assumption.
Qed.

Lemma only_trans (P : nat -> Prop) (m1 m2 m3 : mem) : only P m1 m2 -> only P m2 m3 -> only P m1 m3.
Proof. intros [A1 A2] [B1 B2]. split; [intros a Ha; rewrite B1, A1; auto|auto]. Qed.
Lemma only_sub (P Q : nat -> Prop) (m1 m2 : mem) : (forall a, P a -> Q a) -> only P m1 m2 -> only Q m1 m2.
Proof. intros HPQ [A1 A2]. split; [intros a Ha; apply A1; auto|assumption]. Qed.
Lemma alloc_only (P : nat -> Prop) base k (m1 m2 : mem) : only P m1 m2 -> alloc base k m1 -> alloc base k m2.
Proof. intros [_ A2] A a Ha. apply A2, A. assumption. Qed.
Lemma hasx_only (P : nat -> Prop) f k x (m1 m2 : mem) : only P m1 m2 -> (forall a, span_of f k a -> ~ P a) -> hasx f k x m1 -> hasx f k x m2.
Proof. intros [A1 _] HP Hx. apply (hasx_frame _ _ _ m1); [assumption|]. intros a Ha. apply A1, HP. assumption. Qed.

(** both inputs forward *)
Variables (W : option addr) (w : addr).
Hypothesis HcW : hcW c = W.
Hypothesis HW : Wfor W w.
Lemma fwd_into (g P : parr) i f F r x (m0 : mem) : g i = Some f -> P i = Some F ->
  r < hR t -> apart f H F OS -> apart f H w WS -> apart F OS w WS -> alloc F OS m0 -> alloc w WS m0 ->
  hasx f H x m0 -> im (x 0) = 0%R ->
  WP (pget g i (fun fa => pget P i (fun Fa => hforward al t fa Fa r (hcW c)))) m0 (fun m' =>
    spec_F al t F x r m' /\ (q <> 1 -> hblocks t r = 2 \/ words (F + b) N m0 -> ready F m') /\
    only (fun a => span_of F OS a \/ span_of w WS a) m0 m').
Proof.
  intros E1 E2 Hr D1 D2 D3 A1 A2 Hx Hx0. unfold pget. rewrite E1, E2, HcW.
  apply (fwd al t Hwf Hal1 HC f F W w r x m0); assumption.
Qed.
Lemma spec_frame F x r (m1 m2 : mem) : (q = 1 \/ hblocks t r <= 2) -> (forall a, span_of F OS a -> m2 a = m1 a) ->
  spec_F al t F x r m1 -> spec_F al t F x r m2.
Proof.
  intros Hq Hf HF be Hbe. apply (dbls_frame _ _ _ m1); [apply HF; assumption|]. intros a Ha. apply Hf.
  destruct (Nat.eq_dec q 1) as [E|E].
  - assert (be = 0). { unfold hblocks in Hbe. rewrite E in Hbe. cbn [Nat.eqb] in Hbe. lia. } subst be.
    pose proof (N_w al t Hwf Hal1 HC). pose proof (OS_b al t Hwf Hal1 HC). unfold span_of in *. lia.
  - apply (blk_sub F be a E); [destruct Hq; [contradiction|lia]|assumption].
Qed.
Lemma hb2 r : q = 1 \/ hblocks t r <= 2.
Proof. destruct (Nat.eq_dec q 1) as [E|E]; [left; assumption|right]. rewrite (hblocks_q t Hwf E). destruct (_ && _); lia. Qed.
Lemma ready_frame F (m1 m2 : mem) : q <> 1 -> (forall a, span_of F OS a -> m2 a = m1 a) -> ready F m1 -> ready F m2.
Proof. intros Hq Hf Hr be Hbe. apply (words_frame _ _ m1); [apply Hr; assumption|]. intros a Ha. apply Hf. apply (blk_sub F be a Hq Hbe Ha). Qed.

Definition live (F0 F1 : addr) (r : nat) (mm : mem) : Prop :=
  q = 1 \/ hblocks t r = 2 \/ (words (F0 + b) N mm /\ words (F1 + b) N mm).
Lemma fwd_two (g P : parr) g0 g1 F0 F1 r x0 x1 (m0 : mem) (K : mem -> Prop) :
  g 0 = Some g0 -> g 1 = Some g1 -> P 0 = Some F0 -> P 1 = Some F1 -> r < hR t ->
  apart g0 H F0 OS -> apart g0 H F1 OS -> apart g1 H F0 OS -> apart g1 H F1 OS -> apart F0 OS F1 OS ->
  apart g0 H w WS -> apart g1 H w WS -> apart F0 OS w WS -> apart F1 OS w WS ->
  alloc F0 OS m0 -> alloc F1 OS m0 -> alloc w WS m0 ->
  hasx g0 H x0 m0 -> hasx g1 H x1 m0 -> im (x0 0) = 0%R -> im (x1 0) = 0%R ->
  live F0 F1 r m0 ->
  (forall m', spec_F al t F0 x0 r m' -> spec_F al t F1 x1 r m' -> (q <> 1 -> ready F0 m' /\ ready F1 m') ->
     only (fun a => span_of F0 OS a \/ span_of F1 OS a \/ span_of w WS a) m0 m' -> K m') ->
  WP (hcforward al t c g P r 0 2) m0 K.
Proof.
  intros G0 G1 P0 P1 Hr D1 D2 D3 D4 D5 D6 D7 D8 D9 A1 A2 A3 X0 X1 Z0 Z1 HL HK.
  unfold hcforward. cbn [Nat.sub cfor Nat.add]. apply WP_seq. apply WP_seq. apply WP_skip.
  eapply WP_mono; [|apply (fwd_into g P 0 g0 F0 r x0 m0); assumption].
  intros m1 (V1 & R1 & O1).
  eapply WP_mono; [|apply (fwd_into g P 1 g1 F1 r x1 m1); try assumption].
  - intros m2 (V2 & R2 & O2).
    assert (Hf : forall a, span_of F0 OS a -> m2 a = m1 a).
    { intros a Ha. apply O2. intros [Hx|Hx]; [apply (D5 a)|apply (D8 a)]; assumption. }
    apply HK.
    + apply (spec_frame _ _ _ m1); [apply hb2|assumption|assumption].
    + assumption.
    + intros Hq. destruct HL as [HL|HL]; [contradiction|]. split.
      * apply (ready_frame _ m1); try assumption. apply R1; [assumption|]. destruct HL as [HL|HL]; [left; assumption|right; apply HL].
      * apply R2; [assumption|]. destruct HL as [HL|[_ HL]]; [left; assumption|right].
        apply (words_frame _ _ m0); [assumption|]. intros a Ha. replace (F1 + b) with (F1 + 1 * b) in Ha by lia.
        apply (blk_sub F1 1 a Hq ltac:(lia)) in Ha. apply O1. intros [Hx|Hx]; [apply (D5 a)|apply (D9 a)]; assumption.
    + eapply only_trans; eapply only_sub; [|exact O1| |exact O2]; intros a; tauto.
  - eapply alloc_only; eassumption.
  - eapply alloc_only; eassumption.
  - eapply hasx_only; [exact O1| |assumption]. intros a Ha [Hx|Hx]; [apply (D3 a)|apply (D7 a)]; assumption.
Qed.

(** the share of pass r in the inverse transform of the product *)
Definition prodshare (x0 x1 : nat -> C) (r j : nat) : C :=
  hshare t r (fun be i => (xr x0 r be i * xr x1 r be i)%R) j.

Lemma bwd_into (P h : parr) F f r W0 w0 y acc (m0 : mem) : P 0 = Some F -> h 0 = Some f -> r < hR t -> Wfor W0 w0 ->
  apart f H F OS -> apart f H w0 WS -> apart F OS w0 WS -> alloc F OS m0 -> alloc w0 WS m0 -> alloc f H m0 ->
  (forall be, be < hblocks t r -> dbls (F + be * b) N (y be) m0) -> (r <> 0 -> hasx f H acc m0) ->
  WP (hcbackward al t P h r 0 1 W0) m0 (fun m' =>
    hasx f H (fun j => Cadd (if r =? 0 then C0 else acc j) (hshare t r y j)) m' /\
    only (fun a => span_of f H a \/ span_of F OS a \/ span_of w0 WS a) m0 m').
Proof.
  intros E1 E2 Hr HW0 D1 D2 D3 A1 A2 A3 Hy Hacc. unfold hcbackward. cbn [Nat.sub cfor Nat.add].
  apply WP_seq. apply WP_skip. unfold pget. rewrite E1, E2. apply (bwd F f W0 w0 r y acc m0); assumption.
Qed.

(** one pass of the general schedule: r-th residues of both inputs, product, backward into h *)
Lemma pass (g P h : parr) g0 g1 F0 F1 f r W0 w0 x0 x1 acc (m0 : mem) : q <> 1 ->
  g 0 = Some g0 -> g 1 = Some g1 -> P 0 = Some F0 -> P 1 = Some F1 -> h 0 = Some f -> r < hR t -> Wfor W0 w0 ->
  apart g0 H F0 OS -> apart g0 H F1 OS -> apart g1 H F0 OS -> apart g1 H F1 OS -> apart F0 OS F1 OS ->
  apart g0 H w WS -> apart g1 H w WS -> apart F0 OS w WS -> apart F1 OS w WS ->
  apart f H F0 OS -> apart f H F1 OS -> apart f H w WS -> apart f H w0 WS -> apart F0 OS w0 WS ->
  (forall a, span_of w0 WS a -> span_of w WS a \/ span_of F1 OS a) ->
  alloc F0 OS m0 -> alloc F1 OS m0 -> alloc w WS m0 -> alloc f H m0 ->
  hasx g0 H x0 m0 -> hasx g1 H x1 m0 -> im (x0 0) = 0%R -> im (x1 0) = 0%R ->
  live F0 F1 r m0 -> (r <> 0 -> hasx f H acc m0) ->
  WP (Seq (hcforward al t c g P r 0 (aA t)) (Seq (hoperate al t c P r) (hcbackward al t P h r 0 (aB t) W0))) m0 (fun m' =>
    hasx f H (fun j => Cadd (if r =? 0 then C0 else acc j) (prodshare x0 x1 r j)) m' /\
    only (fun a => span_of f H a \/ span_of F0 OS a \/ span_of F1 OS a \/ span_of w WS a) m0 m').
Proof.
  intros Hq G0 G1 P0 P1 H0 Hr HW0 D1 D2 D3 D4 D5 D6 D7 D8 D9 E1 E2 E3 E4 E5 E6 A1 A2 A3 A4 X0 X1 Z0 Z1 HL Hacc.
  rewrite HA, HB. apply WP_seq.
  apply (fwd_two g P g0 g1 F0 F1 r x0 x1 m0); try assumption.
  intros m1 V0 V1 HR O1. destruct (HR Hq) as [R0 R1]. apply WP_seq.
  eapply WP_mono; [|apply (oper P F0 F1 r (xr x0 r) (xr x1 r) m1); try assumption].
  intros m2 (V2 & O2).
  assert (O02 : only (fun a => span_of F0 OS a \/ span_of F1 OS a \/ span_of w WS a) m0 m2).
  { eapply only_trans; [exact O1|]. eapply only_sub; [|exact O2]. intros a; tauto. }
  eapply WP_mono; [|apply (bwd_into P h F0 f r W0 w0 (fun be i => (xr x0 r be i * xr x1 r be i)%R) acc m2); try assumption].
  - intros m3 (V3 & O3). split; [exact V3|]. eapply only_trans.
    + eapply only_sub; [|exact O02]. intros a; tauto.
    + eapply only_sub; [|exact O3]. intros a [Ha|[Ha|Ha]]; [tauto|tauto|]. apply E6 in Ha. tauto.
  - eapply alloc_only; eassumption.
  - intros a Ha. destruct (E6 a Ha) as [Hx|Hx]; [apply (alloc_only _ w WS _ _ O02 A3)|apply (alloc_only _ F1 OS _ _ O02 A2)]; assumption.
  - eapply alloc_only; eassumption.
  - intros Hr0. eapply hasx_only; [exact O02| |apply Hacc; assumption].
    intros a Ha [Hx|[Hx|Hx]]; [apply (E1 a)|apply (E2 a)|apply (E3 a)]; assumption.
Qed.
End T.
