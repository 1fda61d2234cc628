(** The Python class HConvolution in three dimensions and in one. *)
From Coq Require Import Reals ZArith Arith Lia List Bool.
From Verif Require Import CNum Sums Mem PadModel PadSpec CenModel HerModel HerSpec ConvModel ConvSpec ConvProofs HConvModel HConvSpec HConvMath HConvProofs Team LayerModel LayerSpec LayerProofs
  HLayerModel HLayerSpec Layer6 HLayer1 HLayer2 HLayerMath HLayerMath3 HLayerProofs HLayerProofs3 WrapModel WrapSpec Wrap1 Wrap2 Wrap3 Xf XfProofs.
Import ListNotations.
Notation mem := (Mem.mem C).

Section H3.
Variables (al n Lx Ly : nat) (chx chy chz : choice).
Notation Lz := (hlength n).
Notation sx := (transform 2 1 Lx (paddedHermitian Lx 0) (Ly * cq Lz 2) chx).
Notation sy := (transform 2 1 Ly (paddedHermitian Ly 0) (cq Lz 2) chy).
Notation tx := (CP sx). Notation ty := (CP sy).
Notation tz := (transform 2 1 Lz (paddedHermitian Lz 0) 1 chz).
Hypothesis Hal : 1 <= al.
Hypothesis Hn : 1 <= n.
Hypothesis Hwx : wf tx.
Hypothesis Hwy : wf ty.
Hypothesis Hwz : hwf tz.
Hypothesis HDx : Ly * n = 1 -> gD tx = 1.
Hypothesis HDy : n = 1 -> gD ty = 1.
Hypothesis Hev : kq tz = 1 \/ kn tz mod 2 = 0.
Variables (T : nat) (sch : nat -> nat -> list nat) (F V : nat -> addr) (w : addr) (rooms : nat -> room2) (schy : nat -> nat -> nat -> nat -> list nat) (f g : ndarray).
Hypothesis Ef : nd_shape f = [Lx; Ly; n].
Hypothesis Eg : nd_shape g = [Lx; Ly; n].
Hypothesis Hsch : forall r, schedule T (gl tx) (sch r).
Hypothesis Hschy : forall th k r, th < T -> schedule (r2T (rooms th)) (gl ty) (schy th k r).
Notation fg := (pair_of f g).
Notation work := (hwork3 al tx ty tz T F V w rooms).
Hypothesis Hs : separated (data_blocks tx fg 0 ++ work).
Notation S := (Ly * n).
Notation hold k x := (holds3 k Lx Ly n S n fg 0 x).
Notation call := (hpy_convolve3 al tx ty tz T sch F V w rooms schy f g).
Notation st := (stH3 al tx ty tz T sch F V w rooms schy).
Lemma h3_len : cq Lz 2 = n. Proof. exact (proj1 (hlength_H n Hn)). Qed.
Lemma h3_H : hH tz = n. Proof. exact h3_len. Qed.
Lemma h3_S : gS tx = S. Proof. change (gS tx) with (Ly * cq Lz 2). rewrite h3_len. reflexivity. Qed.
Lemma h3_Sy : gS ty = n. Proof. change (gS ty) with (cq Lz 2). exact h3_len. Qed.
Lemma h3_agree : hagree3 tx ty tz.
Proof.
  constructor; try reflexivity.
  - constructor; try reflexivity; [rewrite h3_Sy; exact HDy|exact Hev].
  - change (gS ty) with (cq Lz 2). change (gC ty) with (cq Lz 2). rewrite Nat.eqb_refl. reflexivity.
  - rewrite h3_S. exact HDx.
Qed.
Notation N := (S * Lx).
Lemma data3 (a : nat) : a < 2 -> In (fg a, N) (data_blocks tx fg 0).
Proof.
  intros Ha. unfold data_blocks. change (gL tx) with Lx. change (aA tx) with 2. rewrite h3_S.
  apply in_map_iff. exists a. split; [rewrite Nat.add_0_r; reflexivity|apply in_seq; lia].
Qed.
Lemma apart_fg3 : ConvSpec.apart (fg 0) N (fg 1) N.
Proof.
  apply sep_app in Hs. destruct Hs as (Hd & _ & _). unfold data_blocks in Hd. change (aA tx) with 2 in Hd. change (gL tx) with Lx in Hd. rewrite h3_S in Hd. cbn [seq map] in Hd.
  inversion Hd as [|? ? Hd1 _]; subst. inversion Hd1 as [|? ? Hd2 _]; subst. cbn [fst snd] in Hd2. rewrite !Nat.add_0_r in Hd2. exact Hd2.
Qed.
Lemma data_work3 a b : block (fg a) N b -> a < 2 -> inb work b = false.
Proof.
  intros Hb Ha. destruct (inb work b) eqn:E; [|reflexivity]. exfalso. apply sep_app in Hs. destruct Hs as (_ & _ & Hc).
  eapply cross_inb; [exact Hc| |exact E]. apply inb_iff. exists (fg a), N. split; [apply data3; assumption|exact Hb].
Qed.
Lemma apart_blk3 b : block (fg 0) N b -> ~ block (fg 1) N b.
Proof. intros H0 H1. pose proof apart_fg3 as Ha. unfold ConvSpec.apart, block in *. lia. Qed.
Lemma in_row3 a i j l : i < Lx -> j < Ly -> l < n -> block (fg a) N (fg a + a3 Ly n i j l).
Proof. intros Hi Hj Hl. unfold block. pose proof (a3_lt Lx Ly n i j l Hi Hj Hl). lia. Qed.
Lemma st_only3 m m1 P : st m -> only P m m1 -> (forall a, P a -> inb work a = false) -> st m1.
Proof.
  intros Hst [O1 O2] HP. destruct (keeps_of work m m1) as (u & Hu & <-).
  - intros a Ha. apply O1. intros Hp. rewrite (HP a Hp) in Ha. discriminate.
  - exact O2.
  - apply (hst_keeps3 al sx sy tz T sch F V w rooms schy fg 0 Hal Hwx Hwy Hwz h3_agree Hsch Hschy Hs); assumption.
Qed.
Notation elem := (element3 2 Lx Ly n S n fg 0).
Lemma blk_elem3 a b : a < 2 -> block (fg a) N b -> elem b.
Proof.
  intros Ha Hb. unfold block in Hb. set (o := b - fg a). assert (HLy : 1 <= Ly) by exact (proj1 Hwy).
  exists a, (o / n / Ly), (o / n mod Ly), (o mod n).
  pose proof (Nat.div_mod_eq o n) as E1. pose proof (Nat.mod_upper_bound o n ltac:(lia)). pose proof (Nat.div_mod_eq (o / n) Ly) as E2. pose proof (Nat.mod_upper_bound (o / n) Ly ltac:(lia)).
  split; [assumption|]. split. { apply Nat.div_lt_upper_bound; [lia|]. apply Nat.div_lt_upper_bound; [lia|]. unfold o. lia. }
  split; [assumption|]. split; [assumption|].
  assert (E3 : o = n * (Ly * (o / n / Ly) + o / n mod Ly) + o mod n) by (rewrite <- E2; exact E1).
  assert (b = fg a + o) by (unfold o; lia). rewrite H1 at 1. rewrite E3 at 1. lia.
Qed.
Lemma addr3 a i j l : fg a + 0 + S * i + n * j + l = fg a + a3 Ly n i j l.
Proof. unfold a3. lia. Qed.
Notation result x i j l := (zconv3 Lx Ly n (her3 Lx Ly n (x 0)) (her3 Lx Ly n (x 1)) (wave Lx i) (wave Ly j) (Z.of_nat l)).
Lemma hpy3_call x m0 : hold 2 x m0 -> st m0 ->
  TWP call m0 (fun m' => (forall i j l, i < Lx -> j < Ly -> l < n -> m' (nd_base f + S * i + n * j + l) = Val (result x i j l)) /\
    st m' /\ only (fun ad => elem ad \/ inb work ad = true) m0 m').
Proof.
  intros Hx Hst. assert (HLx : 1 <= Lx) by exact (proj1 Hwx). assert (HLy : 1 <= Ly) by exact (proj1 Hwy).
  assert (Hx0 : forall a i j l, a < 2 -> i < Lx -> j < Ly -> l < n -> m0 (fg a + a3 Ly n i j l) = Val (x a i j l)).
  { intros a i j l Ha Hi Hj Hl. rewrite <- addr3. apply Hx; assumption. }
  unfold hpy_convolve3. cbv zeta. unfold shape_at. rewrite Ef. cbn [nth].
  apply TWP_seq, TWP_emb. eapply WP_mono; [|apply (symmetrizeXY_spec (fg 0) Lx Ly n (x 0) m0 HLx HLy Hn); intros i j l Hi Hj Hl; apply Hx0; auto].
  intros m1 [A1 B1]. apply TWP_seq, TWP_emb.
  assert (G1 : forall i j l, i < Lx -> j < Ly -> l < n -> m1 (fg 1 + a3 Ly n i j l) = Val (x 1 i j l)).
  { intros i j l Hi Hj Hl. rewrite (proj1 B1); [apply Hx0; auto|]. intros Hb. exact (apart_blk3 _ Hb (in_row3 1 i j l Hi Hj Hl)). }
  eapply WP_mono; [|apply (symmetrizeXY_spec (fg 1) Lx Ly n (x 1) m1 HLx HLy Hn G1)].
  intros m2 [A2 B2].
  assert (S2 : st m2).
  { eapply st_only3; [eapply st_only3; [exact Hst|exact B1|]|exact B2|]; intros a Ha; [apply (data_work3 0)|apply (data_work3 1)]; try assumption; lia. }
  assert (Hold2 : holds3 2 (aL tx) (aL ty) (hH tz) (gS tx) (gS ty) fg 0 (fun a => sXY Lx Ly (x a)) m2).
  { rewrite h3_S, h3_Sy, h3_H. change (aL tx) with Lx. change (aL ty) with Ly. intros a i j l Ha Hi Hj Hl. rewrite addr3. destruct a as [|[|a]]; [| |lia].
    - rewrite (proj1 B2); [apply A1; assumption|]. intros Hb. exact (apart_blk3 _ (in_row3 0 i j l Hi Hj Hl) Hb).
    - apply A2; assumption. }
  eapply TWP_mono; [|apply (hcall3_spec al sx sy tz T sch F V w rooms schy fg 0 Hal Hwx Hwy Hwz h3_agree Hsch Hschy Hs (fun a => sXY Lx Ly (x a)) m2)].
  - intros m' (R1 & R2 & R3). split; [|split; [exact R2|]].
    + intros i j l Hi Hj Hl. rewrite h3_S, h3_Sy, h3_H in R1. change (aL tx) with Lx in R1. change (aL ty) with Ly in R1. specialize (R1 0 i j l Nat.lt_0_1 Hi Hj Hl). rewrite Nat.add_0_r in R1. change (fg 0) with (nd_base f) in R1. rewrite R1. apply (f_equal Val).
      rewrite <- (oconv3_her3 Lx Ly n HLx HLy Hn (x 0) (x 1) i j l).
      assert (HM : paddedHermitian Lx 0 <= gM tx) by exact (wf_aM tx Hwx). assert (HM' : paddedHermitian Ly 0 <= gM ty) by exact (wf_aM ty Hwy).
      change (origin tx) with (Lx / 2). change (origin ty) with (Ly / 2).
      assert (HMz : 3 * n - 2 <= kM tz). { rewrite <- (paddedH n Hn). apply Hwz. }
      apply hlin3; try assumption; try (exact (M_pos tx Hwx)); try (exact (M_pos ty Hwy)); try lia.
      * apply cL with (al := al) (sx := sx). exact Hal.
      * apply cL with (al := al) (sx := sy). exact Hal.
      * apply sXY_unaliased; assumption.
      * apply sXY_unaliased; assumption.
    + eapply only_trans; [eapply only_sub; [exact B1|]|eapply only_trans; [eapply only_sub; [exact B2|]|eapply only_sub; [exact R3|]]].
      * intros a Ha. left. apply (blk_elem3 0); [lia|exact Ha].
      * intros a Ha. left. apply (blk_elem3 1); [lia|exact Ha].
      * rewrite h3_S, h3_Sy, h3_H. change (aL tx) with Lx. change (aL ty) with Ly. intros a Ha. exact Ha.
  - intros a Ha. apply (sXY_hermitian Lx Ly n); assumption.
  - exact Hold2.
  - exact S2.
Qed.
Lemma init_hold3 x m0 m1 : hold 2 x m0 -> only (fun ad => inb work ad = true) m0 m1 -> hold 2 x m1.
Proof.
  intros Hx [K2 _] a i j l Ha Hi Hj Hl. rewrite K2; [apply Hx; assumption|]. rewrite addr3. intros Hp.
  rewrite (data_work3 a) in Hp; [discriminate|apply in_row3; assumption|assumption].
Qed.
Notation fit := (hfit3_of al tx ty tz Hal Hwx Hwy Hwz h3_agree).
Lemma hpy3_once x m0 : provided work m0 -> hold 2 x m0 ->
  TWP (TSeq (emb (hconvolution3_cmd tx ty T w rooms)) call) m0 (fun m' =>
    (forall i j l, i < Lx -> j < Ly -> l < n -> m' (nd_base f + S * i + n * j + l) = Val (result x i j l)) /\
    (forall ad, ~ elem ad -> elsewhere work ad -> m' ad = m0 ad)).
Proof.
  intros Hp Hx. apply TWP_seq, TWP_emb.
  eapply WP_mono; [|apply (initH3 al tx ty tz fit T sch F V w rooms schy Hsch Hschy (proj1 (proj2 (proj1 (sep_app _ _) Hs))) m0 Hp)].
  intros m1 (K1 & K2). eapply TWP_mono; [|apply (hpy3_call x m1); [eapply init_hold3; eassumption|exact K1]].
  intros m2 (H1 & _ & H2'). split; [exact H1|]. intros ad Hne Hel. rewrite (proj1 H2'), (proj1 K2); [reflexivity| |].
  - intros Hy. eapply inb_false_of; eassumption.
  - intros [Hy|Hy]; [contradiction|eapply inb_false_of; eassumption].
Qed.
Lemma hpy3_calls us u x : forall m0, st m0 -> (forall s, In s us -> keeps work s /\ exists y, forall m, hold 2 y (s m)) ->
  keeps work u -> (forall m, hold 2 x (u m)) ->
  TWP (calls call (us ++ [u])) m0 (fun m' => forall i j l, i < Lx -> j < Ly -> l < n -> m' (nd_base f + S * i + n * j + l) = Val (result x i j l)).
Proof.
  induction us as [|s us IH]; intros m0 Hst Hus Hk Hx; cbn [app calls]; apply TWP_seq, TWP_store; apply TWP_seq.
  - eapply TWP_mono; [|apply (hpy3_call x)]; [|apply Hx|apply (hst_keeps3 al sx sy tz T sch F V w rooms schy fg 0 Hal Hwx Hwy Hwz h3_agree Hsch Hschy Hs); assumption].
    intros m' (H1 & _). apply TWP_skip. exact H1.
  - destruct (Hus s (or_introl eq_refl)) as [Hks (y & Hy)].
    eapply TWP_mono; [|apply (hpy3_call y)]; [|apply Hy|apply (hst_keeps3 al sx sy tz T sch F V w rooms schy fg 0 Hal Hwx Hwy Hwz h3_agree Hsch Hschy Hs); assumption].
    intros m' (_ & H2' & _). apply IH; auto. intros s' Hs'. apply Hus. right. exact Hs'.
Qed.
Lemma hpy3_history us u x m0 : provided work m0 -> (forall s, In s us -> keeps work s /\ exists y, forall m, hold 2 y (s m)) ->
  keeps work u -> (forall m, hold 2 x (u m)) ->
  TWP (TSeq (emb (hconvolution3_cmd tx ty T w rooms)) (calls call (us ++ [u]))) m0 (fun m' => forall i j l, i < Lx -> j < Ly -> l < n -> m' (nd_base f + S * i + n * j + l) = Val (result x i j l)).
Proof.
  intros Hp Hus Hk Hx. apply TWP_seq, TWP_emb.
  eapply WP_mono; [|apply (initH3 al tx ty tz fit T sch F V w rooms schy Hsch Hschy (proj1 (proj2 (proj1 (sep_app _ _) Hs))) m0 Hp)].
  intros m1 (K1 & K2). apply hpy3_calls; auto.
Qed.
End H3.
