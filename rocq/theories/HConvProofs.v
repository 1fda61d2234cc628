(** Hermitian binary convolutions: the theorems in the form of the property file, the uninitialised
    read when n is odd, and concrete cases. *)
From Coq Require Import Reals ZArith Arith Lia List Bool.
From Verif Require Import CNum Sums Roots Mem VecModel VecProofs PadModel PadKernels PadSpec Loops
  PadLemmas PadMath PadGeom Fwd1 PadForward Fill CenModel CenMath CenGeom ConvMath
  HerModel HerSpec HerMath HerFft HerGeom HerF2 HerFI HerForward HerDisp HerIndex HerB7 HerCases ConvModel ConvSpec HConvModel HConvSpec HConvMath HConv1 HConv2 HConv3.
Import ListNotations.
Notation apart := HerSpec.apart.

Section U.
Variables (al : nat) (t : pad).
Hypothesis Hwf : hwf t.
Hypothesis Hal1 : 1 <= al.
Hypothesis HC : aC t = 1.
Hypothesis HA : aA t = 2.
Hypothesis HB : aB t = 1.
Notation m := (am t). Notation q := (kq t). Notation n := (kn t). Notation M := (kM t).
Notation H := (hH t). Notation N := (hnoutputs t). Notation b := (hb al t).
Notation OS := (houtputSize al t). Notation WS := (hworkSizeW al t).

Lemma fwd_keep f F W w r x (m0 : mem) : q <> 1 -> hblocks t r = 1 -> r < hR t -> Wfor t W w ->
  apart f H F OS -> apart f H w WS -> apart F OS w WS -> alloc F OS m0 -> alloc w WS m0 ->
  hasx f H x m0 -> im (x 0) = 0%R ->
  WP (hforward al t f F r W) m0 (fun m' =>
    (spec_F al t F x r m' /\ (q <> 1 -> hblocks t r = 2 \/ words (F + b) N m0 -> ready al t F m') /\
      only (fun a => span_of F OS a \/ span_of w WS a) m0 m') /\
    (forall a, span_of (F + b) (cq N 2) a -> m' a = m0 a)).
Proof.
  intros Hq Hnb Hr HW Hd1 Hd2 Hd3 Ha1 Ha2 Hx Hx0.
  pose proof (W_eq al t Hwf Hal1 HC F W w HW Hd3) as Hin. pose proof (W_sep al t F W w HW Hd3) as Hsep.
  assert (HaW : alloc (getW F W) WS m0) by (intros a Ha; apply Ha2; eapply W_in; eassumption).
  assert (HdW : apart f H (getW F W) WS) by (intros a H1 H2; apply (Hd2 a H1); eapply W_in; eassumption).
  apply WP_and; [apply (fwd al t Hwf Hal1 HC f F W w r x m0); assumption|].
  pose proof (OS_q al t Hwf Hal1 HC Hq) as EOS. pose proof (N_w al t Hwf Hal1 HC) as Nw.
  assert (EWS : ainplace t = false -> WS = 2 * hB al t). { intros Ei. unfold hworkSizeW. rewrite Ei, (hD_2 t Hwf Hq). lia. }
  assert (HP : WP (hforward al t f F r W) m0 (fun m' => passed al t (getW F W) F (hblocks t r) (hrho t r) (fun j _ => x j) m0 m')).
  { apply (hpass_q al t Hwf Hal1 Hq f F W r (fun j _ => x j) m0); rewrite ?HC, ?Nat.mul_1_l; try assumption.
    - intros c _. assumption.
    - apply hasx_C. assumption.
    - rewrite <- EOS. assumption.
    - destruct (ainplace t) eqn:Ei.
      + unfold Wfor in HW. rewrite Ei in HW. rewrite HW. cbn [getW]. rewrite <- (hb_inplace t al Ei), <- EOS. assumption.
      + rewrite <- EWS by reflexivity. assumption.
    - destruct (ainplace t) eqn:Ei.
      + unfold Wfor in HW. rewrite Ei in HW. rewrite HW. cbn [getW]. rewrite <- (hb_inplace t al Ei), <- EOS. assumption.
      + rewrite <- EWS by reflexivity. assumption.
    - destruct Hsep as [E|E]; [left; assumption|]. rewrite <- EOS.
      destruct (ainplace t) eqn:Ei; [left; symmetry in Hin; apply Nat.eqb_eq; assumption|right].
      rewrite <- EWS by reflexivity. assumption.
    - intros m' Hm'. exact Hm'. }
  eapply WP_mono; [|exact HP]. intros m' (_ & Fr & _) a Ha. rewrite Hnb in Fr. apply Fr.
  - intros Hs. destruct (ainplace t) eqn:Ei.
    + unfold Wfor in HW. rewrite Ei in HW. rewrite HW in Hs. cbn [getW] in Hs. rewrite <- (hb_inplace t al Ei) in Hs. unfold span_of in *. lia.
    + unfold Wfor in HW. rewrite Ei in HW. rewrite HW in Hs. cbn [getW] in Hs. apply (Hd3 a); [unfold span_of in *; lia|].
      rewrite EWS by reflexivity. unfold span_of in *. lia.
  - unfold span_of in *. lia.
Qed.

Variables (g F V : nat -> addr) (w : addr) (m0 : mem).
Hypothesis Hbuf : hbuffers al t g F V w m0.
Variables (x0 x1 : nat -> C).
Hypothesis Hx0 : hasx (g 0) H x0 m0.
Hypothesis Hx1 : hasx (g 1) H x1 m0.
Hypothesis Z0 : im (x0 0) = 0%R.
Hypothesis Z1 : im (x1 0) = 0%R.
Notation c := (hcinit al t realMultBinary (arr 2 F) (arr 1 V) w).
Hypothesis Hq : q <> 1.
Hypothesis Hodd : n mod 2 <> 0.
Hypothesis Hfresh : forall i, i < OS -> m0 (F 0 + i) = Undef.

Lemma nb0 : hblocks t 0 = 1.
Proof. rewrite (hblocks_q t Hwf Hq). apply Nat.eqb_neq in Hodd. rewrite Hodd. reflexivity. Qed.

Lemma first_pass_ub : exists m2, exec (hcforward al t c (arr 2 g) (hcF c) 0 0 2) m0 (OK m2) /\ exec (hoperate al t c (hcF c) 0) m2 UB.
Proof.
  pose proof (N_w al t Hwf Hal1 HC) as Nw. pose proof (OS_q al t Hwf Hal1 HC Hq) as EOS.
  pose proof (N_pos al t Hwf Hal1 HC) as HN. pose proof (cq2 N) as HN2. pose proof (b_pos al t Hwf Hal1 HC) as Hbp.
  assert (HR : 0 < hR t). { rewrite (h_R t Hwf Hq). pose proof (h_n2 t Hwf Hq). pose proof (cq2 n). lia. }
  pose proof (d_FF al t HA HB g F V w m0 Hbuf 0 1 ltac:(lia) ltac:(lia) ltac:(lia)) as DF.
  assert (HWf : Wfor t (hcW c) w) by reflexivity.
  assert (W1 : WP (hcforward al t c (arr 2 g) (hcF c) 0 0 2) m0 (fun m2 =>
     words (F 0) N m2 /\ words (F 1) N m2 /\ m2 (F 0 + b) = Undef)).
  { unfold hcforward. cbn [Nat.sub cfor Nat.add]. apply WP_seq. apply WP_seq. apply WP_skip.
    unfold pget. cbn [hcinit hcF arr Nat.ltb Nat.leb].
    eapply WP_mono; [|apply (fwd_keep (g 0) (F 0) (hcW c) w 0 x0 m0); try assumption].
    2: apply nb0. 2: apply (d_gF al t HA HB g F V w m0 Hbuf); lia. 2: apply (d_gw al t HA HB g F V w m0 Hbuf); lia.
    2: apply (d_Fw al t HA HB g F V w m0 Hbuf); lia. 2: apply (a_F al t HA HB g F V w m0 Hbuf); lia. 2: apply (a_w al t g F V w m0 Hbuf).
    intros m1 ((V1 & _ & O1) & K1).
    eapply WP_mono; [|apply (fwd_keep (g 1) (F 1) (hcW c) w 0 x1 m1); try assumption].
    2: apply nb0. 2: apply (d_gF al t HA HB g F V w m0 Hbuf); lia. 2: apply (d_gw al t HA HB g F V w m0 Hbuf); lia.
    2: apply (d_Fw al t HA HB g F V w m0 Hbuf); lia. 2: eapply alloc_only; [exact O1|apply (a_F al t HA HB g F V w m0 Hbuf); lia].
    2: eapply alloc_only; [exact O1|apply (a_w al t g F V w m0 Hbuf)].
    2: { eapply hasx_only; [exact O1| |exact Hx1]. intros a Ha [Hy|Hy].
         - apply (d_gF al t HA HB g F V w m0 Hbuf 1 0 ltac:(lia) ltac:(lia) a); assumption.
         - apply (d_gw al t HA HB g F V w m0 Hbuf 1 ltac:(lia) a); assumption. }
    intros m2 ((V2 & _ & O2) & K2).
    assert (Fr : forall a, span_of (F 0) OS a -> m2 a = m1 a).
    { intros a Ha. apply O2. intros [Hy|Hy]; [apply (DF a); assumption|apply (d_Fw al t HA HB g F V w m0 Hbuf 0 ltac:(lia) a); assumption]. }
    split; [|split].
    - apply (words_frame _ _ m1).
      + specialize (V1 0 ltac:(rewrite nb0; lia)). rewrite Nat.mul_0_l, Nat.add_0_r in V1. eapply dbls_words; exact V1.
      + intros a Ha. apply Fr. unfold span_of in *. lia.
    - specialize (V2 0 ltac:(rewrite nb0; lia)). rewrite Nat.mul_0_l, Nat.add_0_r in V2. eapply dbls_words; exact V2.
    - rewrite Fr by (unfold span_of; lia). rewrite K1 by (unfold span_of; lia). apply Hfresh. lia. }
  destruct W1 as (m2 & E2 & (U0 & U1 & Un) & _). exists m2. split; [exact E2|].
  assert (W2 : WP (realMultBinary (arr 2 F) N 0 0) m2 (fun m3 => m3 (F 0 + b) = Undef)).
  { eapply WP_mono; [|apply (realMult_ok (arr 2 F) (F 0) (F 1) N 0 0 m2); try reflexivity; try assumption].
    - intros m3 (_ & _ & O3). destruct O3 as [O3 _]. rewrite O3; [assumption|unfold span_of; lia].
    - intros a A1 A2. apply (DF a); unfold span_of in *; lia. }
  destruct W2 as (m3 & E3 & Un3 & _). unfold hoperate. cbn [hcinit hcmult hcF]. change (hblocksize t) with N.
  eapply ex_seq; [exact E3|]. unfold hspan.
  replace (2 * b) with (S (S (2 * b - 2))) by lia. cbn [hoploop]. unfold hspan.
  replace (b * 1 <? 2 * b) with true by (symmetry; apply Nat.ltb_lt; lia).
  apply ex_seq_ub. cbn [hcmult]. unfold realMultBinary, pget. rewrite HA. cbn [Nat.ltb Nat.leb arr option_map].
  unfold ParFor. apply ex_par. apply (pe_rd_ub _ _ _ _ 0 (F 0 + b) (fun x => y <- F 1 + b * 1 + (0 + 0) ;; (F 0 + b * 1 + (0 + 0)) ::= mkC (re x * re y)%R (if 2 * (0 + 0) + 1 <? hblocksize t then (im x * im y)%R else im x) ;; Ret)).
  - change (hblocksize t) with N. lia.
  - rewrite Nat.mul_1_r, !Nat.add_0_r. reflexivity.
  - intros v. rewrite Un3. discriminate.
Qed.
Lemma hconv_ub : exec (hconstruct_convolve al t realMultBinary F V w g) m0 UB.
Proof.
  unfold hconstruct_convolve. rewrite HA, HB. change (max 2 1) with 2. unfold hconvolve. apply ex_seq_ub.
  destruct first_pass_ub as (m2 & E1 & E2). unfold hconvolveRaw. apply Nat.eqb_neq in Hq as Hq'. rewrite Hq'. rewrite HA.
  destruct (hloop2 t).
  - eapply ex_seq; [exact E1|]. apply ex_seq_ub. exact E2.
  - assert (HR : 0 < hR t). { rewrite (h_R t Hwf Hq). pose proof (h_n2 t Hwf Hq). pose proof (cq2 n). lia. }
    rewrite (hres al t Hwf Hal1 HC HA HB Hq). replace (hR t) with (S (hR t - 1)) by lia. cbn [seq rfor]. apply ex_seq_ub. apply ex_seq_ub.
    eapply ex_seq; [exact E1|]. apply ex_seq_ub. exact E2.
Qed.
End U.

Section V.
Variables (al : nat) (t : pad).
Hypothesis Hwf : hwf t.
Hypothesis Hal1 : 1 <= al.
Hypothesis HC : aC t = 1.
Hypothesis HA : aA t = 2.
Hypothesis HB : aB t = 1.
Variables (g F V : nat -> addr) (w : addr) (x : nat -> nat -> C) (m0 : mem).
Hypothesis Hbuf : hbuffers al t g F V w m0.
Hypothesis Hx : forall a j, a < 2 -> j < hH t -> m0 (g a + j) = Val (x a j).
Hypothesis Hz : forall a, a < 2 -> im (x a 0) = 0%R.
Hypothesis Hlive : kq t = 1 \/ kn t mod 2 = 0 \/ initialised al t F m0.

Lemma hcyc_thm : WP (hconstruct_convolve al t realMultBinary F V w g) m0 (fun m' =>
  (forall j, j < hH t -> m' (g 0 + j) = Val (ocyc (hH t - 1) (kM t) (2 * hH t - 1) (hseq (hH t) (x 0)) (hseq (hH t) (x 1)) (j + (hH t - 1)))) /\
  (forall j, j < hH t -> m' (g 1 + j) = Val (x 1 j)) /\
  (forall a, houtside al t g F V w a -> m' a = m0 a) /\
  (forall a, m0 a <> Unalloc -> m' a <> Unalloc)).
Proof.
  assert (X0 : hasx (g 0) (hH t) (x 0) m0) by (intros j Hj; apply Hx; [lia|assumption]).
  assert (X1 : hasx (g 1) (hH t) (x 1) m0) by (intros j Hj; apply Hx; [lia|assumption]).
  unfold hconstruct_convolve. rewrite HA, HB. change (max 2 1) with 2.
  eapply WP_mono; [|apply (hconv_ok al t Hwf Hal1 HC HA HB g F V w m0 Hbuf (x 0) (x 1) X0 X1 (Hz 0 ltac:(lia)) (Hz 1 ltac:(lia)) Hlive)].
  intros m' (V1 & O1 & O2). split; [exact V1|]. split; [|split; [|exact O2]].
  - intros j Hj. rewrite O1; [apply Hx; [lia|assumption]|]. assert (S1 : span_of (g 1) (hH t) (g 1 + j)) by (unfold span_of; lia).
    unfold outw. intros [Hy|[Hy|[Hy|[Hy|Hy]]]].
    + apply (d_g0g1 al t Hal1 HC HA HB g F V w m0 Hbuf Hlive _ Hy S1).
    + apply (d_gF al t HA HB g F V w m0 Hbuf 1 0 ltac:(lia) ltac:(lia) _ S1 Hy).
    + apply (d_gF al t HA HB g F V w m0 Hbuf 1 1 ltac:(lia) ltac:(lia) _ S1 Hy).
    + apply (d_gw al t HA HB g F V w m0 Hbuf 1 ltac:(lia) _ S1 Hy).
    + apply (d_gV al t Hal1 HC HA HB g F V w m0 Hbuf Hlive 1 ltac:(lia) _ S1 Hy).
  - intros a (A1 & A2 & A3 & A4). apply O1. rewrite HA, HB in *. unfold outw.
    intros [Hy|[Hy|[Hy|[Hy|Hy]]]]; [apply (A1 0)|apply (A2 0)|apply (A2 1)|apply A4|apply (A3 0)]; cbn; try lia; assumption.
Qed.
Lemma hlin_thm : 3 * hH t <= aM t + 2 -> WP (hconstruct_convolve al t realMultBinary F V w g) m0 (fun m' =>
  (forall j, j < hH t -> m' (g 0 + j) = Val (oconv (hH t - 1) (2 * hH t - 1) (hseq (hH t) (x 0)) (hseq (hH t) (x 1)) (j + (hH t - 1)))) /\
  (forall j, j < hH t -> m' (g 1 + j) = Val (x 1 j)) /\
  (forall a, houtside al t g F V w a -> m' a = m0 a)).
Proof.
  intros HM. assert (aM t <= kM t) by apply Hwf. pose proof (H_pos al t Hwf Hal1 HC) as HH.
  eapply WP_mono; [|exact hcyc_thm]. intros m' (V1 & V2 & V3 & _). split; [|split; assumption].
  intros j Hj. rewrite (V1 j Hj). f_equal. apply ocyc_oconv; lia.
Qed.
Lemma hsafe_thm o : exec (hconstruct_convolve al t realMultBinary F V w g) m0 o -> o <> UB /\ o <> ExitErr.
Proof. intros Ho. eapply WP_consequence; [exact hcyc_thm|exact Ho]. Qed.
End V.
Lemma hub_thm al t : hwf t -> 1 <= al -> aC t = 1 -> aA t = 2 -> aB t = 1 -> kq t <> 1 -> kn t mod 2 <> 0 ->
  forall g F V w x m0, hbuffers al t g F V w m0 -> (forall a j, a < 2 -> j < hH t -> m0 (g a + j) = Val (x a j)) ->
  (forall a, a < 2 -> im (x a 0) = 0%R) -> (forall i, i < houtputSize al t -> m0 (F 0 + i) = Undef) ->
  exec (hconstruct_convolve al t realMultBinary F V w g) m0 UB.
Proof.
  intros Hwf Hal HC HA HB Hq Hn g F V w x m0 Hb Hx Hz Hf.
  apply (hconv_ub al t Hwf Hal HC HA HB g F V w m0 Hb (x 0) (x 1)); try assumption; try (apply Hz; lia); intros j Hj; apply Hx; (lia || assumption).
Qed.

(** *** concrete cases: inputs 1, 2, 3, .. at 0 and 10, transforms at 100 and 150, accumulator at 200, work at 300 *)
Definition hg (a : nat) : addr := 10 * a.
Definition hF (a : nat) : addr := 100 + 50 * a.
Definition hV (a : nat) : addr := 200 + 20 * a.
Definition hmem : mem := fun a => if a <? 20 then Val (RtoC (INR (a mod 10 + 1))) else Undef.
Lemma hmem_buf al t : hH t <= 10 -> houtputSize al t <= 50 -> hworkSizeV t <= 20 -> aA t = 2 -> aB t = 1 -> hbuffers al t hg hF hV 300 hmem.
Proof.
  intros H1 H2 H3 HA HB.
  assert (Al : forall a n, alloc a n hmem) by (intros a n z _; unfold hmem; destruct (z <? 20); discriminate).
  constructor; rewrite ?HA, ?HB; cbn [max]; intros; try apply Al;
    try (assert (a = 0 \/ a = 1) as [-> | ->] by lia); try (assert (b = 0 \/ b = 1) as [-> | ->] by lia); try lia;
    intros z Z1 Z2; unfold span_of, hg, hF, hV in *; lia.
Qed.
Lemma hmem_x a j : a < 2 -> j < 10 -> hmem (hg a + j) = Val (RtoC (INR (j + 1))).
Proof.
  intros Ha Hj. unfold hmem, hg. destruct (Nat.ltb_spec (10 * a + j) 20); [|lia]. do 3 f_equal. f_equal.
  rewrite Nat.add_comm, Nat.mul_comm, Nat.mod_add, Nat.mod_small by lia. reflexivity.
Qed.
(** two passes: n=q=4, m=3, M=12 *)
Definition hk2 : pad := mkpad 5 11 1 1 3 2 true 2 1 false.
(** three passes: n=q=6, m=2, M=12, out of place *)
Definition hk3 : pad := mkpad 3 12 1 1 2 2 false 2 1 false.
(** n odd: n=q=3, m=4, M=12 *)
Definition hk1 : pad := hcase1.
Lemma hk2_wf : hwf hk2. Proof. repeat split; vm_compute; try reflexivity; lia. Qed.
Lemma hk3_wf : hwf hk3. Proof. repeat split; vm_compute; try reflexivity; lia. Qed.

(** (3,2,1,2,3) convolved with itself: 27 at the origin *)
Lemma hk2_run : WP (hconstruct_convolve 1 hk2 realMultBinary hF hV 300 hg) hmem (fun m' => m' (hg 0) = Val (RtoC 27)).
Proof.
  eapply WP_mono; [|apply (hlin_thm 1 hk2 hk2_wf (le_n 1) eq_refl eq_refl eq_refl hg hF hV 300 (fun _ j => RtoC (INR (j + 1))) hmem)].
  - intros m' (E & _). specialize (E 0 ltac:(vm_compute; lia)). change (hH hk2) with 3 in E. rewrite Nat.add_0_r in E. rewrite E. f_equal.
    unfold oconv. change (2 * 3 - 1) with 5. change (0 + (3 - 1) + (3 - 1)) with 4.
    cbn [Csum Nat.sub Nat.add]. unfold hseq. cbn [Nat.add Nat.sub Nat.eqb Nat.ltb Nat.leb INR]. apply C_ext; cbn; ring.
  - apply hmem_buf; vm_compute; try reflexivity; lia.
  - intros a j Ha Hj. apply hmem_x; [assumption|]. change (hH hk2) with 3 in Hj. lia.
  - intros a Ha. reflexivity.
  - right. left. reflexivity.
  - vm_compute. lia.
Qed.
Lemma hk3_run : WP (hconstruct_convolve 1 hk3 realMultBinary hF hV 300 hg) hmem (fun m' => m' (hg 0 + 1) = Val (RtoC 4)).
Proof.
  eapply WP_mono; [|apply (hlin_thm 1 hk3 hk3_wf (le_n 1) eq_refl eq_refl eq_refl hg hF hV 300 (fun _ j => RtoC (INR (j + 1))) hmem)].
  - intros m' (E & _). specialize (E 1 ltac:(vm_compute; lia)). change (hH hk3) with 2 in E. rewrite E. f_equal.
    unfold oconv. change (2 * 2 - 1) with 3. change (1 + (2 - 1) + (2 - 1)) with 3.
    cbn [Csum Nat.sub Nat.add]. unfold hseq. cbn [Nat.add Nat.sub Nat.eqb Nat.ltb Nat.leb INR]. apply C_ext; cbn; ring.
  - apply hmem_buf; vm_compute; try reflexivity; lia.
  - intros a j Ha Hj. apply hmem_x; [assumption|]. change (hH hk3) with 2 in Hj. lia.
  - intros a Ha. reflexivity.
  - right. left. reflexivity.
  - vm_compute. lia.
Qed.
Lemma hk1_ub : exec (hconstruct_convolve 1 hk1 realMultBinary hF hV 300 hg) hmem UB.
Proof.
  apply (hub_thm 1 hk1 hcase1_wf (le_n 1) eq_refl eq_refl eq_refl) with (x := fun _ j => RtoC (INR (j + 1))).
  - vm_compute. lia.
  - vm_compute. lia.
  - apply hmem_buf; vm_compute; try reflexivity; lia.
  - intros a j Ha Hj. apply hmem_x; [assumption|]. change (hH hk1) with 4 in Hj. lia.
  - intros a Ha. reflexivity.
  - intros i Hi. change (houtputSize 1 hk1) with 4 in Hi. unfold hmem, hF. destruct (Nat.ltb_spec (100 + 50 * 0 + i) 20); [lia|reflexivity].
Qed.
