(** The Python convolution classes: one dimension, Hermitian; wrong shapes. *)
From Coq Require Import Reals ZArith Arith Lia List Bool FunctionalExtensionality.
From Verif Require Import CNum Sums Roots ConvMath Mem PadModel PadSpec PadBridge CenModel HerModel HerSpec ConvModel ConvSpec ConvProofs HConvModel HConvSpec HConv1 HConvProofs Team LayerModel LayerSpec Layer6 LayerProofs
  HLayerModel WrapModel WrapSpec Wrap1 Wrap2 Wrap3 Xf XfProofs.
Import ListNotations.
Notation mem := (Mem.mem C).

Section H1.
Variables (al n : nat) (ch : choice).
Notation t := (transform 2 1 (hlength n) (paddedHermitian (hlength n) 0) 1 ch).
Hypothesis Hal : 1 <= al.
Hypothesis Hn : 1 <= n.
Hypothesis Hw : hwf t.
Hypothesis Hev : kq t = 1 \/ kn t mod 2 = 0.
Variables (F V : nat -> addr) (w : addr) (f g : ndarray).
Notation fg := (pair_of f g).
Notation call := (hpy_convolve1 al t F V w f g).
Notation hold x := (holds 2 n fg x).
Lemma h1_H : hH t = n. Proof. exact (proj1 (hlength_H n Hn)). Qed.
Lemma hbuf_only (m m1 : mem) : (forall a, m a <> Unalloc -> m1 a <> Unalloc) -> hbuffers al t fg F V w m -> hbuffers al t fg F V w m1.
Proof.
  intros Hk [B1 B2 B3 B4 B5 B6 B7 B8 B9 B10 B11 B12 B13].
  constructor; try assumption; unfold alloc in *; intros; apply Hk; eauto.
Qed.
Notation result x j := (zconv1 n (her1 n (x 0)) (her1 n (x 1)) (Z.of_nat j)).
Lemma hpy1_call x m0 : hbuffers al t fg F V w m0 -> hold x m0 ->
  TWP call m0 (fun m' => (forall j, j < n -> m' (nd_base f + j) = Val (result x j)) /\
    (forall a, houtside al t fg F V w a -> m' a = m0 a) /\ (forall a, m0 a <> Unalloc -> m' a <> Unalloc)).
Proof.
  intros Hb Hx. unfold hpy_convolve1.
  assert (Hap : forall a, block (fg 0) n a -> ~ block (fg 1) n a).
  { intros a H0 H1. pose proof (hb_gg _ _ _ _ _ _ _ Hb 0 1 ltac:(cbn; lia) ltac:(cbn; lia) ltac:(lia)) as Ha. rewrite h1_H in Ha. exact (Ha a H0 H1). }
  apply TWP_seq, TWP_emb. eapply WP_mono; [|apply (symmetrize_spec (fg 0) n (x 0) m0 Hn); intros j Hj; apply Hx; [lia|assumption]].
  intros m1 [A1 B1]. apply TWP_seq, TWP_emb.
  assert (G1 : forall j, j < n -> m1 (fg 1 + j) = Val (x 1 j)).
  { intros j Hj. rewrite (proj1 B1); [apply Hx; [lia|assumption]|]. intros H0. apply (Hap _ H0). unfold block. lia. }
  eapply WP_mono; [|apply (symmetrize_spec (fg 1) n (x 1) m1 Hn G1)].
  intros m2 [A2 B2]. apply TWP_emb.
  assert (Hb2 : hbuffers al t fg F V w m2).
  { eapply hbuf_only; [|exact Hb]. intros a Ha. apply (proj2 B2), (proj2 B1), Ha. }
  assert (Hx2 : forall a j, a < 2 -> j < hH t -> m2 (fg a + j) = Val (s1 (x a) j)).
  { rewrite h1_H. intros a j Ha Hj. destruct a as [|[|a]]; [| |lia].
    - rewrite (proj1 B2); [apply A1; assumption|]. intros Hbk. apply (Hap (fg 0 + j)); [|exact Hbk]. unfold block. lia.
    - apply A2; assumption. }
  assert (Him : forall a, a < 2 -> im (s1 (x a) 0) = 0%R) by (intros; reflexivity).
  assert (HM : 3 * hH t <= aM t + 2).
  { rewrite h1_H. change (aM t) with (paddedHermitian (hlength n) 0). rewrite (paddedH n Hn). lia. }
  assert (Hev' : kq t = 1 \/ kn t mod 2 = 0 \/ initialised al t F m2) by (destruct Hev; auto).
  eapply WP_mono; [|apply WP_and; [apply (hlin_thm al t Hw Hal eq_refl eq_refl eq_refl fg F V w (fun a => s1 (x a)) m2 Hb2 Hx2 Him Hev' HM)
    |apply (hcyc_thm al t Hw Hal eq_refl eq_refl eq_refl fg F V w (fun a => s1 (x a)) m2 Hb2 Hx2 Him Hev')]].
  intros m' [(R1 & _ & R3) (_ & _ & _ & R4)]. rewrite h1_H in R1. split; [|split].
  - intros j Hj. rewrite <- (oconv_her1 n _ _ j Hn). apply R1. assumption.
  - intros a Ha. rewrite R3 by assumption. pose proof (proj1 Ha) as Hg. rewrite (proj1 B2), (proj1 B1); [reflexivity| |]; intros Hk.
    + apply (Hg 0); [cbn; lia|]. rewrite h1_H. exact Hk.
    + apply (Hg 1); [cbn; lia|]. rewrite h1_H. exact Hk.
  - intros a Ha. apply R4, (proj2 B2), (proj2 B1), Ha.
Qed.
Lemma hpy1_once x m0 : hbuffers al t fg F V w m0 -> hold x m0 ->
  TWP call m0 (fun m' => (forall j, j < n -> m' (nd_base f + j) = Val (result x j)) /\
    (forall a, houtside al t fg F V w a -> m' a = m0 a)).
Proof. intros Hb Hx. eapply TWP_mono; [|apply (hpy1_call x m0 Hb Hx)]. intros m' (A & B & _). auto. Qed.
Lemma hpy1_fresh x m0 : kq t <> 1 -> kn t mod 2 <> 0 -> hbuffers al t fg F V w m0 -> hold x m0 ->
  (forall i, i < houtputSize al t -> m0 (F 0 + i) = Undef) -> texec call m0 UB.
Proof.
  clear Hev. intros Hq Hodd Hb Hx Hf. apply (proj2 (emb_exec _ (Seq (symmetrize (nd_base f)) (Seq (symmetrize (nd_base g)) (hconstruct_convolve al t realMultBinary F V w fg))) m0 UB)).
  assert (Hap : forall a, block (fg 0) n a -> ~ block (fg 1) n a).
  { intros a H0 H1. pose proof (hb_gg _ _ _ _ _ _ _ Hb 0 1 ltac:(cbn; lia) ltac:(cbn; lia) ltac:(lia)) as Ha. rewrite h1_H in Ha. exact (Ha a H0 H1). }
  destruct (symmetrize_spec (fg 0) n (x 0) m0 Hn) as (m1 & E1 & [A1 B1] & _); [intros j Hj; apply Hx; [lia|assumption]|].
  assert (G1 : forall j, j < n -> m1 (fg 1 + j) = Val (x 1 j)).
  { intros j Hj. rewrite (proj1 B1); [apply Hx; [lia|assumption]|]. intros H0. apply (Hap _ H0). unfold block. lia. }
  destruct (symmetrize_spec (fg 1) n (x 1) m1 Hn G1) as (m2 & E2 & [A2 B2] & _).
  eapply ex_seq; [exact E1|]. eapply ex_seq; [exact E2|].
  assert (Hb2 : hbuffers al t fg F V w m2).
  { eapply hbuf_only; [|exact Hb]. intros a Ha. apply (proj2 B2), (proj2 B1), Ha. }
  assert (Hx2 : forall a j, a < 2 -> j < hH t -> m2 (fg a + j) = Val (s1 (x a) j)).
  { rewrite h1_H. intros a j Ha Hj. destruct a as [|[|a]]; [| |lia].
    - rewrite (proj1 B2); [apply A1; assumption|]. intros Hbk. apply (Hap (fg 0 + j)); [|exact Hbk]. unfold block. lia.
    - apply A2; assumption. }
  assert (Him : forall a, a < 2 -> im (s1 (x a) 0) = 0%R) by (intros; reflexivity).
  apply (hub_thm al t Hw Hal eq_refl eq_refl eq_refl Hq Hodd fg F V w (fun a => s1 (x a)) m2 Hb2 Hx2 Him).
  intros i Hi. assert (Hd : forall a, a < 2 -> ~ block (fg a) n (F 0 + i)).
  { intros a Ha Hk. pose proof (hb_gF _ _ _ _ _ _ _ Hb a 0 ltac:(cbn; lia) ltac:(cbn; lia)) as Hgf. rewrite h1_H in Hgf. apply (Hgf (F 0 + i)); [exact Hk|]. unfold span_of. lia. }
  rewrite (proj1 B2), (proj1 B1); [apply Hf; assumption| |]; apply Hd; lia.
Qed.
Lemma hpy1_history us u x : forall m0, hbuffers al t fg F V w m0 -> (forall s, In s us -> keeps [] s /\ exists y, forall m, hold y (s m)) ->
  keeps [] u -> (forall m, hold x (u m)) ->
  TWP (calls call (us ++ [u])) m0 (fun m' => forall j, j < n -> m' (nd_base f + j) = Val (result x j)).
Proof.
  induction us as [|s us IH]; intros m0 Hst Hus Hk Hx; cbn [app calls]; apply TWP_seq, TWP_store; apply TWP_seq.
  - eapply TWP_mono; [|apply (hpy1_call x)]; [|eapply hbuf_only; [apply Hk|exact Hst]|apply Hx].
    intros m' (H1 & _). apply TWP_skip. exact H1.
  - destruct (Hus s (or_introl eq_refl)) as [Hks (y & Hy)].
    assert (Hb1 : hbuffers al t fg F V w (s m0)) by (eapply hbuf_only; [apply Hks|exact Hst]).
    eapply TWP_mono; [|apply (hpy1_call y)]; [|exact Hb1|apply Hy].
    intros m' (_ & _ & H2). apply IH; auto; [eapply hbuf_only; [exact H2|exact Hb1]|]. intros s' Hs'. apply Hus. right. exact Hs'.
Qed.
End H1.

(** *** arrays of the wrong shape *)
Lemma exit_only (m : mem) o : texec (TExit : tc C) m o -> o = ExitErr.
Proof.
  intros He. remember (TExit : tc C) as tt eqn:Et. destruct He as [? ? Hd|? ? ? ? ? Hs|? ? Hf|]; subst.
  - inversion Hd.
  - inversion Hs.
  - inversion Hf.
  - reflexivity.
Qed.
Lemma assert_exit s f g k m o : nd_shape f <> s \/ nd_shape g <> s -> texec (assert_shape s f (assert_shape s g k)) m o -> o = ExitErr.
Proof.
  intros Hd He. unfold assert_shape in He. destruct (same_shape (nd_shape f) s) eqn:E1; [destruct (same_shape (nd_shape g) s) eqn:E2|].
  - apply same_shape_eq in E1. apply same_shape_eq in E2. destruct Hd; contradiction.
  - exact (exit_only m o He).
  - exact (exit_only m o He).
Qed.

(** *** complex convolutions: histories of calls *)
Lemma linear2_history (sx sy : pad) : let tx := FP sx in let ty := FP sy in wf tx -> wf ty -> agree2 tx ty -> aA tx = 2 -> aB tx = 1 ->
  2 * aL tx <= aM tx + 1 -> 2 * aL ty <= aM ty + 1 ->
  forall T sch F V w rooms f off, (forall r, schedule T (gl tx) (sch r)) ->
  separated (data_blocks tx f off ++ work2 tx ty T F V w rooms) ->
  forall us u x m0, provided (work2 tx ty T F V w rooms) m0 ->
  (forall s, In s us -> keeps (work2 tx ty T F V w rooms) s /\ exists y, forall m, holds2 2 (aL tx) (aL ty) (gS tx) f off y (s m)) ->
  keeps (work2 tx ty T F V w rooms) u -> (forall m, holds2 2 (aL tx) (aL ty) (gS tx) f off x (u m)) ->
  TWP (TSeq (emb (convolution2_cmd tx ty (fun _ => multBinary) T w rooms))
            (calls (lconvolve (convolution2 tx ty (fun _ => multBinary) T sch F V w rooms) (arr (aA tx) f) off) (us ++ [u]))) m0 (fun m' =>
    forall i j, i < aL tx -> j < aL ty -> m' (f 0 + off + gS tx * i + j) = Val (linconv2 (x 0) (x 1) i j)).
Proof.
  intros tx ty Hx Hy Ha EA EB HLx HLy T sch F V w rooms f off Hsch Hs us u x m0 Hpr Hus Hk Hu.
  pose proof (M_ge tx Hx (enough_FP sx Hx HLx)) as Kx. pose proof (M_ge ty Hy (enough_FP sy Hy HLy)) as Ky.
  rewrite <- EA in Hus, Hu.
  eapply TWP_mono; [|apply (history2_free tx ty Hx Hy Ha multBinary (fun _ v => Cmul (v 0) (v 1)) binary_plain (binary_pw _ _ EA EB) (binary_of _ EA) T sch F V w rooms f off Hsch Hs us u x m0 Hpr Hus Hk Hu)].
  cbv beta. rewrite EB. intros m' H1 i j Hi Hj. rewrite (H1 0 i j) by (auto; lia). apply (f_equal Val).
  rewrite <- oidft2_nest.
  rewrite (oidft_ext (origin tx) (gM tx) _ (fun kx => oidft (origin ty) (gM ty) (fun ky => Cmul (odft (origin ty) (gM ty) (aL ty) (fun j => odft (origin tx) (gM tx) (aL tx) (fun i => x 0 i j) kx) ky) (odft (origin ty) (gM ty) (aL ty) (fun j => odft (origin tx) (gM tx) (aL tx) (fun i => x 1 i j) kx) ky)) j)).
  2:{ intros kx Hkx. apply oidft_ext. intros ky Hky. rewrite !odft2_nest. reflexivity. }
  rewrite lin2 by assumption. rewrite !Cmul_assoc, <- !RtoC_mul. pose proof (M_pos tx Hx). pose proof (M_pos ty Hy).
  replace (/ (INR (gM tx) * INR (gM ty)) * INR (gM tx) * INR (gM ty))%R with 1%R by (field; split; apply not_0_INR; lia). rewrite Cmul_1_l.
  apply oconv2_0; assumption.
Qed.
Lemma linear3_history (sx sy sz : pad) : let tx := FP sx in let ty := FP sy in let tz := FP sz in
  wf tx -> wf ty -> wf tz -> agree3 tx ty tz -> aA tx = 2 -> aB tx = 1 ->
  2 * aL tx <= aM tx + 1 -> 2 * aL ty <= aM ty + 1 -> 2 * aL tz <= aM tz + 1 ->
  forall T sch F V w rooms schy f off, (forall r, schedule T (gl tx) (sch r)) ->
  (forall th k r, th < T -> schedule (r2T (rooms th)) (gl ty) (schy th k r)) ->
  separated (data_blocks tx f off ++ work3 tx ty tz T F V w rooms) ->
  forall us u x m0, provided (work3 tx ty tz T F V w rooms) m0 ->
  (forall s, In s us -> keeps (work3 tx ty tz T F V w rooms) s /\ exists y, forall m, holds3 2 (aL tx) (aL ty) (aL tz) (gS tx) (gS ty) f off y (s m)) ->
  keeps (work3 tx ty tz T F V w rooms) u -> (forall m, holds3 2 (aL tx) (aL ty) (aL tz) (gS tx) (gS ty) f off x (u m)) ->
  TWP (TSeq (emb (convolution3_cmd tx ty tz (fun _ _ => multBinary) T w rooms))
            (calls (lconvolve (convolution3 tx ty tz (fun _ _ => multBinary) T sch F V w rooms schy) (arr (aA tx) f) off) (us ++ [u]))) m0 (fun m' =>
    forall i j l, i < aL tx -> j < aL ty -> l < aL tz -> m' (f 0 + off + gS tx * i + gS ty * j + l) = Val (linconv3 (x 0) (x 1) i j l)).
Proof.
  intros tx ty tz Hx Hy Hz Ha EA EB HLx HLy HLz T sch F V w rooms schy f off Hsch Hschy Hs us u x m0 Hpr Hus Hk Hu.
  pose proof (M_ge tx Hx (enough_FP sx Hx HLx)) as Kx. pose proof (M_ge ty Hy (enough_FP sy Hy HLy)) as Ky. pose proof (M_ge tz Hz (enough_FP sz Hz HLz)) as Kz.
  rewrite <- EA in Hus, Hu.
  eapply TWP_mono; [|apply (history3_free tx ty tz Hx Hy Hz Ha multBinary (fun _ v => Cmul (v 0) (v 1)) binary_plain (binary_pw _ _ EA EB) (binary_of _ EA) T sch F V w rooms schy f off Hsch Hschy Hs us u x m0 Hpr Hus Hk Hu)].
  cbv beta. rewrite EB. intros m' H1 i j l Hi Hj Hl. rewrite (H1 0 i j l) by (auto; lia). apply (f_equal Val).
  rewrite <- oidft3_nest.
    rewrite (oidft_ext (origin tx) (gM tx) _ (fun kx => oidft (origin ty) (gM ty) (fun ky => oidft (origin tz) (gM tz) (fun kz =>
      Cmul (odft (origin tz) (gM tz) (aL tz) (fun l => odft (origin ty) (gM ty) (aL ty) (fun j => odft (origin tx) (gM tx) (aL tx) (fun i => x 0 i j l) kx) ky) kz)
           (odft (origin tz) (gM tz) (aL tz) (fun l => odft (origin ty) (gM ty) (aL ty) (fun j => odft (origin tx) (gM tx) (aL tx) (fun i => x 1 i j l) kx) ky) kz)) l) j)).
    2:{ intros kx Hkx. apply oidft_ext. intros ky Hky. apply oidft_ext. intros kz Hkz. rewrite !odft3_nest. reflexivity. }
    rewrite lin3 by assumption. rewrite !Cmul_assoc, <- !RtoC_mul. pose proof (M_pos tx Hx). pose proof (M_pos ty Hy). pose proof (M_pos tz Hz).
    replace (/ (INR (gM tx) * (INR (gM ty) * INR (gM tz))) * INR (gM tx) * INR (gM ty) * INR (gM tz))%R with 1%R
      by (field; repeat split; apply not_0_INR; lia). rewrite Cmul_1_l.
  apply oconv3_0; assumption.
Qed.
Lemma py2_history Lx Ly chx chy : let tx := fst (create_conv2d Lx Ly chx chy) in let ty := snd (create_conv2d Lx Ly chx chy) in
  wf tx -> wf ty -> (Ly = 1 -> gD tx = 1) ->
  forall T sch F V w rooms f g, nd_shape f = [Lx; Ly] -> nd_shape g = [Lx; Ly] -> (forall r, schedule T (gl tx) (sch r)) ->
  let work := work2 tx ty T F V w rooms in
  separated (data_blocks tx (pair_of f g) 0 ++ work) ->
  forall us u x m0, provided work m0 ->
  (forall s, In s us -> keeps work s /\ exists y, forall m, holds2 2 Lx Ly Ly (pair_of f g) 0 y (s m)) ->
  keeps work u -> (forall m, holds2 2 Lx Ly Ly (pair_of f g) 0 x (u m)) ->
  TWP (TSeq (emb (convolution2_cmd tx ty (fun _ => multBinary) T w rooms)) (calls (py_convolve2 [Lx; Ly] tx ty T sch F V w rooms f g) (us ++ [u]))) m0 (fun m' =>
    forall i j, i < Lx -> j < Ly -> m' (nd_base f + Ly * i + j) = Val (linconv2 (x 0) (x 1) i j)).
Proof.
  intros tx ty Hx Hy HD T sch F V w rooms f g Ef Eg Hsch work Hs us u x m0 Hp Hus Hk Hu. unfold py_convolve2. rewrite !assert_ok by assumption.
  assert (Ha : agree2 tx ty). { constructor; try reflexivity; try exact HD; try (cbn; lia). }
  eapply TWP_mono; [|apply (linear2_history _ _ Hx Hy Ha eq_refl eq_refl (padded_ge Lx (proj1 Hx)) (padded_ge Ly (proj1 Hy)) T sch F V w rooms (pair_of f g) 0 Hsch Hs us u x m0 Hp Hus Hk Hu)].
  intros m' A i j Hi Hj. specialize (A i j Hi Hj). rewrite Nat.add_0_r in A. exact A.
Qed.
Lemma py3_history Lx Ly Lz chx chy chz : let tx := fst (fst (create_conv3d Lx Ly Lz chx chy chz)) in let ty := snd (fst (create_conv3d Lx Ly Lz chx chy chz)) in
  let tz := snd (create_conv3d Lx Ly Lz chx chy chz) in
  wf tx -> wf ty -> wf tz -> (Ly * Lz = 1 -> gD tx = 1) -> (Lz = 1 -> gD ty = 1) ->
  forall T sch F V w rooms schy f g, nd_shape f = [Lx; Ly; Lz] -> nd_shape g = [Lx; Ly; Lz] -> (forall r, schedule T (gl tx) (sch r)) ->
  (forall th k r, th < T -> schedule (r2T (rooms th)) (gl ty) (schy th k r)) ->
  let work := work3 tx ty tz T F V w rooms in
  separated (data_blocks tx (pair_of f g) 0 ++ work) ->
  forall us u x m0, provided work m0 ->
  (forall s, In s us -> keeps work s /\ exists y, forall m, holds3 2 Lx Ly Lz (Ly * Lz) Lz (pair_of f g) 0 y (s m)) ->
  keeps work u -> (forall m, holds3 2 Lx Ly Lz (Ly * Lz) Lz (pair_of f g) 0 x (u m)) ->
  TWP (TSeq (emb (convolution3_cmd tx ty tz (fun _ _ => multBinary) T w rooms)) (calls (py_convolve3 [Lx; Ly; Lz] tx ty tz T sch F V w rooms schy f g) (us ++ [u]))) m0 (fun m' =>
    forall i j l, i < Lx -> j < Ly -> l < Lz -> m' (nd_base f + Ly * Lz * i + Lz * j + l) = Val (linconv3 (x 0) (x 1) i j l)).
Proof.
  intros tx ty tz Hx Hy Hz HDx HDy T sch F V w rooms schy f g Ef Eg Hsch Hschy work Hs us u x m0 Hp Hus Hk Hu. unfold py_convolve3. rewrite !assert_ok by assumption.
  assert (Ha : agree2 ty tz). { constructor; try reflexivity; try exact HDy; try (cbn; lia). }
  assert (Ha3 : agree3 tx ty tz). { constructor; try reflexivity; try exact HDx; try assumption.
    - change (gS ty) with Lz. change (gC ty) with Lz. rewrite Nat.eqb_refl. reflexivity. }
  eapply TWP_mono; [|apply (linear3_history _ _ _ Hx Hy Hz Ha3 eq_refl eq_refl (padded_ge Lx (proj1 Hx)) (padded_ge Ly (proj1 Hy)) (padded_ge Lz (proj1 Hz)) T sch F V w rooms schy (pair_of f g) 0 Hsch Hschy Hs us u x m0 Hp Hus Hk Hu)].
  intros m' A i j l Hi Hj Hl. specialize (A i j l Hi Hj Hl). rewrite Nat.add_0_r in A. exact A.
Qed.
Lemma calls_usage t obj g us : calls (emb (convolve obj (arr (max (aA t) (aB t)) g))) us = emb (usage t obj g us).
Proof. induction us as [|u us IH]; [reflexivity|]. cbn [calls usage emb]. rewrite IH. reflexivity. Qed.
Lemma py1_history L ch : let t := create_conv1d L ch in wf t ->
  forall F V w f g, nd_shape f = [L] -> nd_shape g = [L] ->
  forall us u x m0, buffers t (pair_of f g) F V w m0 ->
  (forall s, In s us -> exists y, stores t (pair_of f g) F V w s y) -> stores t (pair_of f g) F V w u x ->
  TWP (TSeq (emb (cinit_cmd (py_object1 t F V w))) (calls (py_convolve1 [L] t F V w f g) (us ++ [u]))) m0 (fun m' =>
    forall j, j < L -> m' (nd_base f + j) = Val (linconv (x 0) (x 1) j)).
Proof.
  intros t Hwf F V w f g Ef Eg us u x m0 Hb Hus Hu. unfold py_convolve1. rewrite !assert_ok by assumption. rewrite calls_usage.
  change (TSeq (emb (cinit_cmd (py_object1 t F V w))) (emb (usage t (py_object1 t F V w) (pair_of f g) (us ++ [u])))) with (emb (construct_usage t multBinary F V w (pair_of f g) (us ++ [u]))).
  apply TWP_emb. apply (usage_linear_FP _ Hwf eq_refl eq_refl eq_refl (padded_ge L (proj1 Hwf)) (pair_of f g) F V w us u x m0 Hb Hus Hu).
Qed.
(** the default padding of the C++ Hermitian wrappers does not depend on the number of inputs: with three or more
    inputs it is less than the size below which wave numbers alias *)
Lemma default_padding_short n A : 2 <= n -> 3 <= A -> paddedHermitian (hlength n) 0 < (A + 1) * (n - 1) + 1.
Proof. intros Hn HA. rewrite paddedH by lia. assert (4 * (n - 1) <= (A + 1) * (n - 1)) by (apply Nat.mul_le_mono_r; lia). lia. Qed.
(** two inputs: no two wave numbers of the product alias; three or more: some do *)
Lemma no_alias2 n (k1 k2 k : Z) : 1 <= n -> (Z.abs k1 < Z.of_nat n)%Z -> (Z.abs k2 < Z.of_nat n)%Z -> (Z.abs k < Z.of_nat n)%Z ->
  (Z.of_nat (paddedHermitian (hlength n) 0) <= Z.abs (k1 + k2 - k))%Z -> False.
Proof. intros Hn H1 H2 H3. rewrite paddedH by assumption. lia. Qed.
Lemma sum_zeros (j : nat) (a : Z) : fold_right Z.add a (repeat 0%Z j) = a.
Proof. induction j as [|j IH]; [reflexivity|]. cbn [repeat fold_right]. rewrite IH. reflexivity. Qed.
Lemma alias3 n A : 2 <= n -> 3 <= A -> exists (ks : list Z) (k : Z), length ks = A /\ Forall (fun i => (Z.abs i < Z.of_nat n)%Z) ks /\ (Z.abs k < Z.of_nat n)%Z /\
  fold_right Z.add 0%Z ks = (k + Z.of_nat (paddedHermitian (hlength n) 0))%Z.
Proof.
  intros Hn HA. set (e := (Z.of_nat n - 1)%Z). exists (e :: e :: e :: repeat 0%Z (A - 3)), (-1)%Z. split; [|split; [|split]].
  - cbn [length]. rewrite repeat_length. lia.
  - assert (Z.abs e < Z.of_nat n)%Z by (unfold e; lia). repeat (apply Forall_cons; [assumption|]). apply Forall_forall. intros i Hi. apply repeat_spec in Hi. subst. lia.
  - lia.
  - cbn [fold_right]. rewrite sum_zeros, paddedH by lia. unfold e. lia.
Qed.
(** functions that agree on the arrays in use *)
Lemma buffers_ext t g g' F V w m : (forall a, a < max (aA t) (aB t) -> g a = g' a) -> buffers t g F V w m -> buffers t g' F V w m.
Proof.
  intros E [B1 B2 B3 B4 B5 B6 B7 B8 B9 B10 B11 B12 B13]. constructor; intros; try rewrite <- !E by assumption; auto.
Qed.
Lemma hbuffers_ext al (t : pad) g g' F V w m : (forall a, a < max (PadModel.aA t) (PadModel.aB t) -> g a = g' a) -> hbuffers al t g F V w m -> hbuffers al t g' F V w m.
Proof.
  intros E [B1 B2 B3 B4 B5 B6 B7 B8 B9 B10 B11 B12 B13]. constructor; intros; try rewrite <- !E by assumption; auto.
Qed.
