(** The padded transforms and the 1D convolution touch only words that they name. *)
From Coq Require Import Reals ZArith Arith Lia List Bool FunctionalExtensionality.
From Verif Require Import CNum Sums Roots Mem VecModel PadModel PadKernels CenModel ConvModel Team Xf.

Lemma fft_good P pin pout : good_ext (fft_pre P pin pout) (fft_post P pin pout).
Proof.
  intros S m (H1 & H2 & H3 & H4 & H5).
  assert (Hin : forall h k, h < pl_M P -> k < pl_n P -> S (pin + lay P h k) = true).
  { intros h k Hh Hk. destruct (H3 h k Hh Hk) as (v & Hv). apply restr_val in Hv. tauto. }
  assert (Hout : forall a, fft_out P pout a -> S a = true).
  { intros a (h & k & Hh & Hk & ->). specialize (H4 h k Hh Hk). apply restr_alloc in H4. tauto. }
  split; [|split].
  - split; [assumption|]. split; [assumption|]. split; [|split; [|assumption]].
    + intros h k Hh Hk. destruct (H3 h k Hh Hk) as (v & Hv). apply restr_val in Hv. exists v. tauto.
    + intros h k Hh Hk. specialize (H4 h k Hh Hk). apply restr_alloc in H4. tauto.
  - intros m' (P1 & P2). split; [split|].
    + intros a Ha. unfold restr. rewrite P1 by assumption. reflexivity.
    + intros h Hh x Hx k Hk. rewrite restr_in.
      * apply P2; auto. intros j Hj. specialize (Hx j Hj). apply restr_val in Hx. tauto.
      * apply Hout. exists h, k. auto.
    + intros a Ha. apply P1. intros Ho. rewrite (Hout a Ho) in Ha. discriminate.
  - intros rm (P1 & P2). exists (fun a => if S a then rm a else m a). split; [split|split].
    + intros a Ha. destruct (S a) eqn:E; [|reflexivity]. rewrite P1 by assumption. apply restr_in. assumption.
    + intros h Hh x Hx k Hk. rewrite Hout by (exists h, k; auto). apply P2; auto.
      intros j Hj. rewrite restr_in by auto. auto.
    + apply functional_extensionality. intros a. unfold restr. destruct (S a) eqn:E; [reflexivity|].
      symmetry. rewrite P1. { apply restr_out. assumption. } intros Ho. rewrite (Hout a Ho) in E. discriminate.
    + intros a Ha. rewrite Ha. reflexivity.
Qed.

Lemma cgood_fft P pin pout : cgood (fft P pin pout).
Proof. unfold fft. destruct (Bool.eqb _ _); cbn [cgood]; [apply fft_good|exact I]. Qed.
Lemma cgood_UBc : cgood UBc.
Proof. intros S m []. Qed.
Lemma cgood_ParFor lo hi b : cgood (ParFor lo hi b). Proof. exact I. Qed.
Lemma cgood_Do p : cgood (Do p). Proof. exact I. Qed.
Lemma cgood_seq (a b : cmd C) : cgood a -> cgood b -> cgood (Seq a b). Proof. split; assumption. Qed.

Ltac good1 :=
  match goal with
  | |- cgood (Seq _ _) => apply cgood_seq
  | |- cgood (fft _ _ _) => apply cgood_fft
  | |- cgood UBc => apply cgood_UBc
  | |- cgood (ParFor _ _ _) => exact I
  | |- cgood (Do _) => exact I
  | |- cgood (Par _ _) => exact I
  | |- cgood Skip => exact I
  | |- cgood Exit => exact I
  | |- cgood (cfor _ _) => apply cgood_cfor; intros
  | |- cgood (if ?b then _ else _) => destruct b
  | |- cgood (match ?b with _ => _ end) => destruct b
  end.
Ltac good := repeat good1.
Ltac goodu d := unfold d; cbv zeta; good.

Lemma cgood_padW t w : cgood (padW t w).
Proof. destruct t as [s|s]; cbn [padW]; [|exact Logic.I]. unfold PadKernels.padW, padSingle, padMany; cbv zeta; good. Qed.
Lemma cgood_kforward s f F r W : cgood (CenModel.cforward s f F r W).
Proof.
  unfold CenModel.cforward, cforwardInnerMany, cforwardInnerManyAll, cfftpAll, cforwardInner, cforwardInner_zero2, cforwardInner_zero1, cforwardInner_tail, cforwardInner_residue2, cforwardInner_residue1, cforwardInnerAll, cforward2Many, cforward2ManyAll, cforward2, cforward2_zero2, cforward2_zero1, cforward2_tail, cforward2_residue2, cforward2_residue1, cforward2All, cforwardExplicitManySlow, cforwardExplicitSlow, cforwardExplicitManyFast, cforwardExplicitFast, forwardExplicit, forwardExplicitMany, padMany, cget; cbv zeta; good.
Qed.
Lemma cgood_kbackward s f F r W : cgood (CenModel.cbackward s f F r W).
Proof.
  unfold CenModel.cbackward, cbackwardInnerMany, cbackwardInnerManyAll, cbackwardInner, cbackwardInner_residue2, cbackwardInner_residue1, cbackwardInner_zero2, cbackwardInner_zero1, cbackwardInnerAll, cfftpAll, cbackward2Many, cbackward2ManyAll, cbackward2, cbackward2_zero2, cbackward2_zero1, cbackward2_residue2, cbackward2_residue1, cbackward2All, cbackwardExplicitManySlow, cbackwardExplicitSlow, cbackwardExplicitManyFast, cbackwardExplicitFast, backwardExplicit, backwardExplicitMany, cget; cbv zeta; good.
Qed.
Lemma cgood_forward t f F r W : cgood (forward t f F r W).
Proof.
  destruct t as [s|s]; cbn [forward]; [|apply cgood_kforward].
  unfold PadKernels.forward. good; unfold forwardExplicit, forwardExplicitMany, padMany, forward1All, forward1, forward1_tail, forward1ManyAll, forward1Many,
   forward2All, forward2, forward2_tail, forward2ManyAll, forward2Many, forwardInner, forwardInner_residue, forwardInnerMany, fftpAll; cbv zeta; good.
Qed.
Lemma cgood_backward t f F r W : cgood (backward t f F r W).
Proof.
  destruct t as [s|s]; cbn [backward]; [|apply cgood_kbackward].
  unfold PadKernels.backward. good; unfold backwardExplicit, backwardExplicitMany, backward1All, backward1, backward1_tail, backward1ManyAll, backward1Many,
   backward2All, backward2, backward2_tail, backward2ManyAll, backward2Many, backwardInner, backwardInner_residue, backwardInnerMany, fftpAll; cbv zeta; good.
Qed.

(** a multiplication routine built from loops (no calls outside the words it names) *)
Definition good_mult (mult : multiplier) : Prop := forall P n r off, cgood (mult P n r off).
Lemma good_multBinary : good_mult multBinary.
Proof. intros P n r off. unfold multBinary, pget. good. Qed.
Lemma good_multcorrelation : good_mult multcorrelation.
Proof. intros P n r off. unfold multcorrelation, pget. good. Qed.
Lemma good_multNone : good_mult multNone.
Proof. intros P n r off. exact I. Qed.

Section Conv.
Variable c : conv.
Hypothesis Hm : good_mult (cmult c).
Lemma cgood_cforward f F r a b : cgood (cforward c f F r a b).
Proof. unfold cforward, pget. good. apply cgood_forward. Qed.
Lemma cgood_cbackward f F r a b W : cgood (cbackward c f F r a b W).
Proof. unfold cbackward, pget. good. apply cgood_backward. Qed.
Lemma cgood_cbackwardPad f F r a b W : cgood (cbackwardPad c f F r a b W).
Proof. unfold cbackwardPad. good; [apply cgood_cbackward|apply cgood_padW]. Qed.
Lemma cgood_operate F r : cgood (operate c F r).
Proof.
  unfold operate. apply cgood_seq; [apply Hm|]. generalize 1 as d. induction (span (cpad c) r) as [|k IH]; intros d; cbn [oploop]; [exact I|].
  good. { apply Hm. } apply IH.
Qed.
Lemma cgood_rfor rs f : (forall r, cgood (f r)) -> cgood (rfor rs f).
Proof. intros H. induction rs as [|r rs IH]; cbn [rfor]; [exact I|]. good; auto. Qed.
Lemma cgood_l2loop fuel a g r k : (forall a, cgood (k a)) -> cgood (l2loop c fuel a g r k).
Proof.
  intros Hk. revert a. induction fuel as [|fu IH]; intros a; cbn [l2loop]; [auto|]. good; auto using cgood_cforward, cgood_cbackwardPad.
Qed.
Lemma cgood_convolveRaw g : cgood (convolveRaw c g).
Proof.
  unfold convolveRaw. cbv zeta. good; auto using cgood_cforward, cgood_cbackward, cgood_operate; try (apply Hm).
  - apply cgood_l2loop. intros a. good; auto using cgood_cforward, cgood_cbackwardPad, cgood_operate.
  - apply cgood_rfor. intros r. good; auto using cgood_cforward, cgood_cbackwardPad, cgood_operate.
  - unfold copyback, pget. good.
Qed.
End Conv.
