(** Three-dimensional Hermitian convolutions: the theorems in the form of the property file. *)
From Coq Require Import Reals ZArith Arith Lia List Bool Permutation.
From Verif Require Import CNum Sums Roots Mem PadModel PadKernels Loops PadLemmas CenModel HerModel HerSpec HerB7 HConv1 HConv2 HConv3
  ConvMath ConvModel ConvSpec PadSpec HConvModel HConvSpec HConvMath
  Team LayerModel LayerSpec HLayerModel HLayerSpec Conv1 Conv3 Conv6
  Layer1 Layer3 Layer5 Layer6 Layer7 Layer8 LayerProofs HLayer1 HLayerMath HLayerMath3 HLayerProofs HLayer2 Xf XfProofs.
Import ListNotations.

Lemma hfit3_of al tx ty tz : 1 <= al -> wf tx -> wf ty -> hwf tz -> hagree3 tx ty tz -> hfit3 al tx ty tz.
Proof.
  intros Hal Hx Hy Hz [a b c d e g]. constructor; auto.
  - apply hfit2_of; assumption.
  - apply D_of; assumption.
  - unfold checkStrides, contiguous. apply andb_true_intro. split; [apply Nat.leb_le; exact b|apply Nat.eqb_eq; exact c].
Qed.

Section Three.
Variables (al : nat) (sx sy : pad) (tz : pad).
Notation tx := (CP sx). Notation ty := (CP sy).
Variables (T : nat) (sch : nat -> nat -> list nat) (F V : nat -> addr) (w : addr) (rooms : nat -> room2) (schy : nat -> nat -> nat -> nat -> list nat) (f : nat -> addr) (off : nat).
Hypothesis Hal : 1 <= al.
Hypothesis Hwx : wf tx.
Hypothesis Hwy : wf ty.
Hypothesis Hwz : hwf tz.
Hypothesis Hag : hagree3 tx ty tz.
Hypothesis Hsch : forall r, schedule T (gl tx) (sch r).
Hypothesis Hschy : forall th k r, th < T -> schedule (r2T (rooms th)) (gl ty) (schy th k r).
Hypothesis Hs : separated (data_blocks tx f off ++ hwork3 al tx ty tz T F V w rooms).
Notation HF := (hfit3_of al tx ty tz Hal Hwx Hwy Hwz Hag).
Notation st := (stH3 al tx ty tz T sch F V w rooms schy).
Notation work := (hwork3 al tx ty tz T F V w rooms).
Notation c := (origin tx). Notation L := (aL tx). Notation c' := (origin ty). Notation L' := (aL ty). Notation H := (hH tz).
Notation M := (gM tx). Notation M' := (gM ty). Notation M'' := (kM tz).
Notation call := (lconvolve (hconvolution3 al tx ty tz realMultBinary T sch F V w rooms schy) (arr (aA tx) f) off).
Notation result x := (fun _ i j l => ocyc3 c M (2 * c + 1) c' M' (2 * c' + 1) (H - 1) M'' (2 * H - 1) (full3 c L c' L' H (x 0)) (full3 c L c' L' H (x 1)) i j (l + (H - 1))).
Notation hold n x := (holds3 n L L' H (gS tx) (gS ty) f off x).
Notation el := (element3 2 L L' H (gS tx) (gS ty) f off).
Definition sym3 (x : nat -> nat -> nat -> nat -> C) : Prop := forall a, a < 2 -> hermitian00 c L c' L' (x a).
Lemma cLx : L <= 2 * c + 1. Proof. exact (cL al sx Hal). Qed.
Lemma cLy : L' <= 2 * c' + 1. Proof. exact (cL al sy Hal). Qed.
Lemma hHwork3 : separated work.
Proof. apply sep_app in Hs. tauto. Qed.
Lemma Hpos3 : 1 <= H.
Proof. pose proof (H_pos al tz Hwz Hal (hag_Cy _ _ (hag3_yz _ _ _ Hag))). lia. Qed.
Lemma helem_block3 ad : el ad -> inb (data_blocks tx f off) ad = true.
Proof.
  intros (a & i & j & l & Ha & Hi & Hj & Hl & ->). apply inb_iff. exists (f a + off), (gS tx * gL tx). split.
  - unfold data_blocks. rewrite (hag3_A _ _ _ Hag). apply (in_map (fun a => (f a + off, gS tx * gL tx))), in_seq. lia.
  - destruct (hstrides al tx ty tz HF) as [H1 _]. pose proof (hrowlt al tx ty tz HF j l Hj Hl) as H2.
    assert (gS tx * i + gS tx <= gS tx * gL tx). { replace (gS tx * i + gS tx) with (gS tx * (i + 1)) by lia. apply Nat.mul_le_mono_l. change (gL tx) with L. lia. } lia.
Qed.
Lemma hinit_keeps3 x m0 m1 : hold 2 x m0 -> only (fun ad => inb work ad = true) m0 m1 -> hold 2 x m1.
Proof.
  intros Hx [K2 _] a i j l Ha Hi Hj Hl. rewrite K2; [apply Hx; assumption|]. intros Hp. apply sep_app in Hs. destruct Hs as (_ & _ & Hc).
  eapply cross_inb; [exact Hc| |exact Hp]. apply helem_block3. exists a, i, j, l. repeat split; assumption.
Qed.
Lemma hcall3_spec x m0 : sym3 x -> hold 2 x m0 -> st m0 ->
  TWP call m0 (fun m' => hold 1 (result x) m' /\ st m' /\ only (fun ad => el ad \/ inb work ad = true) m0 m').
Proof.
  intros Hsym Hx Hst. pose proof (hag3_A _ _ _ Hag) as HA. pose proof (hag3_B _ _ _ Hag) as HB.
  pose proof (M_pos tx Hwx) as HM. pose proof (M_pos ty Hwy) as HM'. pose proof (hMy_pos al tz Hal Hwz) as HM''.
  eapply TWP_mono; [|apply (convH3 al tx ty tz HF T sch F V w rooms schy Hsch Hschy hHwork3 (arr (aA tx) f) f off x m0)]; auto.
  - rewrite HA, HB. intros m' (K1 & K2 & K3). split; [|split; [exact K2|exact K3]]. intros b i j l Hb Hi Hj Hl. rewrite K1 by assumption.
    apply (f_equal Val). unfold outH3, outH, ZH.
    rewrite (hcyc3 c M (gL tx) c' M' (gL ty) M'' H x i j l) by (try assumption; try apply cLx; try apply cLy; try apply Hpos3; apply Hsym; lia).
    rewrite Cmul_comm, !Cmul_assoc, <- !RtoC_mul.
    replace (/ (INR M * (INR M' * INR M'')) * INR M * INR M' * INR M'')%R with 1%R by (field; repeat split; apply not_0_INR; lia). apply Cmul_1_l.
  - intros kx ky a Ha. apply row_real3; try assumption; try apply cLx; try apply cLy. apply Hsym; assumption.
  - intros a Ha. apply arr_some. assumption.
  - rewrite HA. exact Hx.
Qed.
Lemma h3_thm x m0 : provided work m0 -> hold 2 x m0 -> sym3 x ->
  TWP (hconstruct_convolve3 al tx ty tz realMultBinary T sch F V w rooms schy f off) m0 (fun m' => hold 1 (result x) m' /\
    (forall ad, ~ el ad -> elsewhere work ad -> m' ad = m0 ad)).
Proof.
  intros Hp Hx Hsym. unfold hconstruct_convolve3. apply TWP_seq, TWP_emb.
  eapply WP_mono; [|apply (initH3 al tx ty tz HF T sch F V w rooms schy Hsch Hschy hHwork3 m0 Hp)]. intros m1 (K1 & K2).
  eapply TWP_mono; [|apply (hcall3_spec x m1 Hsym); [eapply hinit_keeps3; eassumption|exact K1]].
  intros m2 (H1 & _ & H2). split; [exact H1|]. intros ad Hne Hel. rewrite (proj1 H2), (proj1 K2); [reflexivity| |].
  - intros Hy. eapply inb_false_of; eassumption.
  - intros [Hy|Hy]; [contradiction|eapply inb_false_of; eassumption].
Qed.
Lemma hst_keeps3 u m : keeps work u -> st m -> st (u m).
Proof.
  intros Hk Hst. unfold stH3 in *.
  refine (lst_loc (hconvolution3 al tx ty tz realMultBinary T sch F V w rooms schy) (gS ty * gL ty) F V w (fun th => hroom2_blocks al ty tz (rooms th)) (rdyH3 al ty tz rooms schy) (ZH3 ty tz) (fun _ => True)
    (okH3 ty) (hgeo3 al tx ty tz HF) _ (hBA3 al tx ty tz HF) (hl2x3 al tx ty tz HF) _ m (u m) _ Hst).
  - apply builtH3.
  - apply (rowokH3 al tx ty tz HF T sch F V w rooms schy Hsch Hschy hHwork3).
  - intros a Ha. apply inb_iff in Ha. destruct Ha as (b & n & Hi & Hr). replace a with (b + (a - b)) by lia. symmetry. apply (proj1 (Hk m) b n); [exact Hi|lia].
Qed.
Lemma hcalls3_spec us u x : forall m0, st m0 -> (forall s, In s us -> keeps work s /\ exists y, sym3 y /\ forall m, hold 2 y (s m)) ->
  keeps work u -> sym3 x -> (forall m, hold 2 x (u m)) ->
  TWP (calls call (us ++ [u])) m0 (fun m' => hold 1 (result x) m').
Proof.
  assert (Hext : forall (s : mem -> mem) m (Q : mem -> Prop), Q (s m) -> TWP (TExt (fun _ => True) (fun m m' => m' = s m)) m Q).
  { intros s m Q HQ. apply (TWP_emb _ (Ext (fun _ => True) (fun m m' => m' = s m))). apply WP_ext with (m' := s m); auto. }
  induction us as [|s us IH]; intros m0 Hst Hus Hk Hsym Hx; cbn [app calls]; apply TWP_seq, Hext; apply TWP_seq.
  - eapply TWP_mono; [|apply (hcall3_spec x)]; [|exact Hsym|apply Hx|apply hst_keeps3; assumption]. intros m' (H1 & _). apply TWP_skip. exact H1.
  - destruct (Hus s (or_introl eq_refl)) as [Hks (y & Hys & Hy)].
    eapply TWP_mono; [|apply (hcall3_spec y)]; [|exact Hys|apply Hy|apply hst_keeps3; assumption]. intros m' (_ & H2 & _). apply IH; auto. intros s' Hs'. apply Hus. right. exact Hs'.
Qed.
Lemma h3_history us u x m0 : provided work m0 -> (forall s, In s us -> keeps work s /\ exists y, sym3 y /\ forall m, hold 2 y (s m)) ->
  keeps work u -> sym3 x -> (forall m, hold 2 x (u m)) ->
  TWP (TSeq (emb (hconvolution3_cmd tx ty T w rooms)) (calls call (us ++ [u]))) m0 (fun m' => hold 1 (result x) m').
Proof.
  intros Hp Hus Hk Hsym Hx. apply TWP_seq, TWP_emb.
  eapply WP_mono; [|apply (initH3 al tx ty tz HF T sch F V w rooms schy Hsch Hschy hHwork3 m0 Hp)]. intros m1 (K1 & K2).
  apply hcalls3_spec; auto.
Qed.
Lemma h3_linear x m0 : provided work m0 -> hold 2 x m0 -> sym3 x ->
  3 * H <= PadModel.aM tz + 2 -> (forall a, a < 2 -> unaliased3 c L M c' L' M' H (x a)) ->
  TWP (hconstruct_convolve3 al tx ty tz realMultBinary T sch F V w rooms schy f off) m0 (fun m' =>
    (forall i j l, i < L -> j < L' -> l < H -> m' (f 0 + off + gS tx * i + gS ty * j + l) =
       Val (oconv3 c (2 * c + 1) c' (2 * c' + 1) (H - 1) (2 * H - 1) (full3 c L c' L' H (x 0)) (full3 c L c' L' H (x 1)) i j (l + (H - 1)))) /\
    (forall ad, ~ el ad -> elsewhere work ad -> m' ad = m0 ad)).
Proof.
  intros Hp Hx Hsym HH Hu. eapply TWP_mono; [|apply (h3_thm x m0 Hp Hx Hsym)]. intros m' [K1 K2]. split; [|exact K2].
  intros i j l Hi Hj Hl. rewrite (K1 0 i j l) by (try assumption; lia). apply (f_equal Val). pose proof (M_pos tx Hwx) as HM. pose proof (M_pos ty Hwy) as HM'.
  assert (PadModel.aM tz <= kM tz) by apply Hwz.
  apply hlin3; try assumption; try lia; try apply Hpos3; try apply cLx; try apply cLy; apply Hu; lia.
Qed.
End Three.
