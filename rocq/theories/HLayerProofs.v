(** Two-dimensional Hermitian convolutions: the theorems in the form of the property file. *)
From Coq Require Import Reals ZArith Arith Lia List Bool Permutation.
From Verif Require Import CNum Sums Roots Mem PadModel PadKernels Loops PadLemmas CenModel HerModel HerSpec HerB7 HConv1 HConv2 HConv3
  ConvMath ConvModel ConvSpec PadSpec HConvModel HConvSpec HConvMath
  Team LayerModel LayerSpec HLayerModel HLayerSpec Conv1 Conv3 Conv6
  Layer1 Layer3 Layer5 Layer6 Layer7 Layer8 LayerProofs HLayer1 HLayerMath Xf XfProofs.
Import ListNotations.

Lemma hfit2_of al tx ty : 1 <= al -> wf tx -> hwf ty -> hagree2 tx ty -> hfit2 al tx ty.
Proof.
  intros Hal Hx Hy [a b c d e g h i]. constructor; auto.
  - apply D_of; assumption.
  - pose proof (wf_CS tx Hx). lia.
Qed.
Lemma hMy_pos al ty : 1 <= al -> hwf ty -> 0 < kM ty.
Proof. intros Hal Hy. pose proof (hMpos al ty Hy Hal). lia. Qed.

Section Two.
Variables (al : nat) (sx : pad) (ty : pad).
Notation tx := (CP sx).
Variables (T : nat) (sch : nat -> nat -> list nat) (F V : nat -> addr) (w : addr) (rooms : nat -> room) (f : nat -> addr) (off : nat).
Hypothesis Hal : 1 <= al.
Hypothesis Hwx : wf tx.
Hypothesis Hwy : hwf ty.
Hypothesis Hag : hagree2 tx ty.
Hypothesis Hsch : forall r, schedule T (gl tx) (sch r).
Hypothesis Hs : separated (data_blocks tx f off ++ hwork2 al tx ty T F V w rooms).
Notation HF := (hfit2_of al tx ty Hal Hwx Hwy Hag).
Notation st := (stH al tx ty T sch F V w rooms).
Notation work := (hwork2 al tx ty T F V w rooms).
Notation c := (origin tx). Notation L := (aL tx). Notation H := (hH ty). Notation M := (gM tx). Notation M' := (kM ty).
Notation call := (lconvolve (hconvolution2 al tx ty realMultBinary T sch F V w rooms) (arr (aA tx) f) off).
Notation result x := (fun _ i j => ocyc2 c M (2 * c + 1) (H - 1) M' (2 * H - 1) (full2 c L H (x 0)) (full2 c L H (x 1)) i (j + (H - 1))).
Notation hold n x := (holds2 n L H (gS tx) f off x).
Definition sym2 (x : nat -> nat -> nat -> C) : Prop := forall a, a < 2 -> hermitian0 c L (x a).
Lemma hHwork : separated work.
Proof. apply sep_app in Hs. tauto. Qed.
Lemma cL : L <= 2 * c + 1.
Proof. cbn [origin]. unfold Xf.aL, xpad. pose proof (Nat.div_mod_eq (PadModel.aL sx) 2). pose proof (Nat.mod_upper_bound (PadModel.aL sx) 2). lia. Qed.
Lemma Hpos : 1 <= H.
Proof. pose proof (H_pos al ty Hwy Hal (hag_Cy _ _ Hag)). lia. Qed.
Lemma helem_block ad : element2 2 L H (gS tx) f off ad -> inb (data_blocks tx f off) ad = true.
Proof.
  intros (a & i & j & Ha & Hi & Hj & ->). apply inb_iff. exists (f a + off), (gS tx * gL tx). split.
  - unfold data_blocks. rewrite (hag_Ax _ _ Hag). apply (in_map (fun a => (f a + off, gS tx * gL tx))), in_seq. lia.
  - pose proof (hf_S _ _ _ HF) as HS.
    assert (gS tx * i + gS tx <= gS tx * gL tx). { replace (gS tx * i + gS tx) with (gS tx * (i + 1)) by lia. apply Nat.mul_le_mono_l. change (gL tx) with L. lia. } lia.
Qed.
Lemma hinit_keeps x m0 m1 : hold 2 x m0 -> only (fun ad => inb work ad = true) m0 m1 -> hold 2 x m1.
Proof.
  intros Hx [K2 _] a i j Ha Hi Hj. rewrite K2; [apply Hx; assumption|]. intros Hp. apply sep_app in Hs. destruct Hs as (_ & _ & Hc).
  eapply cross_inb; [exact Hc| |exact Hp]. apply helem_block. exists a, i, j. auto.
Qed.
Lemma hcall_spec x m0 : sym2 x -> hold 2 x m0 -> st m0 ->
  TWP call m0 (fun m' => hold 1 (result x) m' /\ st m' /\
    only (fun ad => element2 2 L H (gS tx) f off ad \/ inb work ad = true) m0 m').
Proof.
  intros Hsym Hx Hst. pose proof (hag_Ax _ _ Hag) as HA. pose proof (hag_Bx _ _ Hag) as HB.
  pose proof (M_pos tx Hwx) as HM. pose proof (hMy_pos al ty Hal Hwy) as HM'.
  eapply TWP_mono; [|apply (convH al tx ty HF T sch F V w rooms Hsch hHwork (arr (aA tx) f) f off x m0)]; auto.
  - rewrite HA, HB. intros m' (K1 & K2 & K3). split; [|split; [exact K2|exact K3]]. intros b i j Hb Hi Hj. rewrite K1 by assumption.
    apply (f_equal Val). unfold outH, ZH. rewrite (hcyc2 c M (gL tx) M' H x i j) by (try assumption; try apply cL; try apply Hpos; apply Hsym; lia).
    rewrite Cmul_comm, !Cmul_assoc, <- !RtoC_mul.
    replace (/ (INR M * INR M') * INR M * INR M')%R with 1%R by (field; split; apply not_0_INR; lia). apply Cmul_1_l.
  - intros k a Ha. apply row_real; [assumption|apply cL|apply Hsym; assumption].
  - intros a Ha. apply arr_some. assumption.
  - rewrite HA. exact Hx.
Qed.
Lemma h2_thm x m0 : provided work m0 -> hold 2 x m0 -> sym2 x ->
  TWP (hconstruct_convolve2 al tx ty realMultBinary T sch F V w rooms f off) m0 (fun m' => hold 1 (result x) m' /\
    (forall ad, ~ element2 2 L H (gS tx) f off ad -> elsewhere work ad -> m' ad = m0 ad)).
Proof.
  intros Hp Hx Hsym. unfold hconstruct_convolve2. apply TWP_seq, TWP_emb.
  eapply WP_mono; [|apply (initH al tx ty HF T sch F V w rooms Hsch hHwork m0 Hp)]. intros m1 (K1 & K2).
  eapply TWP_mono; [|apply (hcall_spec x m1 Hsym); [eapply hinit_keeps; eassumption|exact K1]].
  intros m2 (H1 & _ & H2). split; [exact H1|]. intros ad Hne Hel. rewrite (proj1 H2), (proj1 K2); [reflexivity| |].
  - intros Hy. eapply inb_false_of; eassumption.
  - intros [Hy|Hy]; [contradiction|eapply inb_false_of; eassumption].
Qed.

(** any history of calls *)
Lemma hst_keeps u m : keeps work u -> st m -> st (u m).
Proof.
  intros Hk Hst. unfold stH in *.
  refine (lst_loc (hconvolution2 al tx ty realMultBinary T sch F V w rooms) H F V w (fun th => hroom_blocks al ty (rooms th)) (rdyH al ty rooms) (ZH ty) (fun _ => True) okH
    (geoH al tx ty HF) _ (hBA al tx ty HF) (hl2x al tx ty HF) _ m (u m) _ Hst).
  - apply builtH.
  - apply (rowokH al tx ty HF T sch F V w rooms Hsch hHwork).
  - intros a Ha. apply inb_iff in Ha. destruct Ha as (b & n & Hi & Hr). replace a with (b + (a - b)) by lia. symmetry. apply (proj1 (Hk m) b n); [exact Hi|lia].
Qed.
Lemma hcalls_spec us u x : forall m0, st m0 -> (forall s, In s us -> keeps work s /\ exists y, sym2 y /\ forall m, hold 2 y (s m)) ->
  keeps work u -> sym2 x -> (forall m, hold 2 x (u m)) ->
  TWP (calls call (us ++ [u])) m0 (fun m' => hold 1 (result x) m').
Proof.
  assert (Hext : forall (s : mem -> mem) m (Q : mem -> Prop), Q (s m) -> TWP (TExt (fun _ => True) (fun m m' => m' = s m)) m Q).
  { intros s m Q HQ. apply (TWP_emb _ (Ext (fun _ => True) (fun m m' => m' = s m))). apply WP_ext with (m' := s m); auto. }
  induction us as [|s us IH]; intros m0 Hst Hus Hk Hsym Hx; cbn [app calls]; apply TWP_seq, Hext; apply TWP_seq.
  - eapply TWP_mono; [|apply (hcall_spec x)]; [|exact Hsym|apply Hx|apply hst_keeps; assumption]. intros m' (H1 & _). apply TWP_skip. exact H1.
  - destruct (Hus s (or_introl eq_refl)) as [Hks (y & Hys & Hy)].
    eapply TWP_mono; [|apply (hcall_spec y)]; [|exact Hys|apply Hy|apply hst_keeps; assumption]. intros m' (_ & H2 & _). apply IH; auto. intros s' Hs'. apply Hus. right. exact Hs'.
Qed.
Lemma h2_history us u x m0 : provided work m0 -> (forall s, In s us -> keeps work s /\ exists y, sym2 y /\ forall m, hold 2 y (s m)) ->
  keeps work u -> sym2 x -> (forall m, hold 2 x (u m)) ->
  TWP (TSeq (emb (hconvolution2_cmd tx w)) (calls call (us ++ [u]))) m0 (fun m' => hold 1 (result x) m').
Proof.
  intros Hp Hus Hk Hsym Hx. apply TWP_seq, TWP_emb.
  eapply WP_mono; [|apply (initH al tx ty HF T sch F V w rooms Hsch hHwork m0 Hp)]. intros m1 (K1 & K2).
  apply hcalls_spec; auto.
Qed.
Lemma h2_linear x m0 : provided work m0 -> hold 2 x m0 -> sym2 x ->
  3 * H <= PadModel.aM ty + 2 -> (forall a, a < 2 -> unaliased2 c L H M (x a)) ->
  TWP (hconstruct_convolve2 al tx ty realMultBinary T sch F V w rooms f off) m0 (fun m' =>
    (forall i j, i < L -> j < H -> m' (f 0 + off + gS tx * i + j) =
       Val (oconv2 c (2 * c + 1) (H - 1) (2 * H - 1) (full2 c L H (x 0)) (full2 c L H (x 1)) i (j + (H - 1)))) /\
    (forall ad, ~ element2 2 L H (gS tx) f off ad -> elsewhere work ad -> m' ad = m0 ad)).
Proof.
  intros Hp Hx Hsym HH Hu. eapply TWP_mono; [|apply (h2_thm x m0 Hp Hx Hsym)]. intros m' [K1 K2]. split; [|exact K2].
  intros i j Hi Hj. rewrite (K1 0 i j) by lia. apply (f_equal Val). pose proof (M_pos tx Hwx) as HM.
  assert (PadModel.aM ty <= kM ty) by apply Hwy.
  apply hlin2; try assumption; try lia; try apply Hpos; try apply cL; apply Hu; lia.
Qed.
End Two.
