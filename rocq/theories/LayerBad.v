(** Convolution2 with a single column (S=1) and a transform in x that batches D > 1 residues convolves only the first
    batch: why the theorems ask for D=1 if S=1. *)
From Coq Require Import Reals Lra ZArith Arith Lia List Bool Permutation FunctionalExtensionality.
From Verif Require Import CNum Sums Roots Mem VecModel PadModel PadKernels Loops PadLemmas PadGeom PadIndex
  ConvMath ConvModel ConvSpec Conv1 Conv2 Conv3 Conv4 Conv5 Conv6 PadSpec PadRound PadBridge PadProofs ConvProofs Team TeamGood LayerModel LayerSpec
  Layer1 Layer6 Layer8 LayerProofs PropsLayer Xf XfProofs XfBridge.
Import ListNotations.
Local Open Scope nat_scope.
Definition bx : pad := mkpad 1 2 1 1 1 2 true 2 1 false.
Definition by1 : pad := mkpad 1 1 1 1 1 1 true 2 1 false.
Definition bf (a : nat) : addr := 2 + a.
Definition bF (a : nat) : addr := 10 + 10 * a.
Definition bV (b : nat) : addr := 30 + 10 * b.
Definition bw : addr := 40.
Definition broom (th : nat) : room := mkroom (fun a => 50 + 10 * a) (fun b => 70) 80.
Definition bm : Mem.mem C := fun a => Val (RtoC (INR a)).
Definition bs (r th : nat) : list nat := [0].
Lemma bx_wf : wf (FP bx). Proof. repeat split; vm_compute; try reflexivity; lia. Qed.
Lemma by_wf : wf (FP by1). Proof. repeat split; vm_compute; try reflexivity; lia. Qed.
Lemma pdft_1 M (x : nat -> C) k : PadSpec.pdft M 1 x k = x 0.
Proof. unfold PadSpec.pdft. cbn [Csum Nat.mul]. rewrite expi_of_0; [ring|]. cbn [INR]. unfold Rdiv. ring. Qed.

(** forward of one input *)
Lemma bfwd a v (m0 : Mem.mem C) : (forall ad, m0 ad <> Unalloc) -> a < 2 -> m0 (bf a) = Val v ->
  WP (forward (FP bx) (bf a + 0 + 0 * 0) (bF a + 0 * 0) 0 None) m0 (fun m' =>
    m' (bF a) = Val v /\ m' (bF a + 1) = Val v /\ (forall ad, ad < bF a \/ bF a + 2 <= ad -> m' ad = m0 ad) /\ (forall ad, m' ad <> Unalloc)).
Proof.
  intros Ha Hlt Hv. unfold forward.
  eapply WP_mono; [|apply (forward_thm bx bx_wf eq_refl (bf a + 0 + 0 * 0) (bF a + 0 * 0) None 0 (fun _ _ => v) m0 [0])].
  - intros m' (H1 & _ & _ & H4 & H5). split; [|split; [|split]].
    + specialize (H1 0 0 ltac:(vm_compute; lia) ltac:(vm_compute; lia)). change (PadModel.gS bx) with 1 in H1.
      replace (bF a) with (bF a + 0 * 0 + 1 * 0 + 0) by lia. etransitivity; [exact H1|]. apply (f_equal Val). exact (pdft_1 _ (fun _ => v) _).
    + specialize (H1 1 0 ltac:(vm_compute; lia) ltac:(vm_compute; lia)). change (PadModel.gS bx) with 1 in H1.
      replace (bF a + 1) with (bF a + 0 * 0 + 1 * 1 + 0) by lia. etransitivity; [exact H1|]. apply (f_equal Val). exact (pdft_1 _ (fun _ => v) _).
    + intros ad Had. apply H4. change (PadModel.noutputs bx 0) with 2. change (PadModel.gS bx) with 1. change (PadModel.gC bx) with 1.
      intros [(i & c & Hi & Hc & E)|(i & c & Hi & Hc & E)]; cbn [getW] in E; lia.
    + intros ad. apply H5. apply Ha.
  - apply lt_step; [vm_compute; lia|]. apply lt_stop. vm_compute. lia.
  - left. reflexivity.
  - cbn [getW]. rewrite Nat.eqb_refl. reflexivity.
  - intros ad (i & c & Hi & Hc & E) (i' & c' & Hi' & Hc' & E'). cbn [getW] in E'. change (PadModel.gL bx) with 1 in Hi. change (PadModel.gS bx) with 1 in *. change (PadModel.gC bx) with 1 in *. unfold bf, bF in *. lia.
  - intros ad (i & c & Hi & Hc & E) (i' & c' & Hi' & Hc' & E'). change (PadModel.gL bx) with 1 in Hi. change (PadModel.gS bx) with 1 in *. change (PadModel.gC bx) with 1 in *. unfold bf, bF in *. lia.
  - left. reflexivity.
  - intros i c Hi Hc. change (PadModel.gL bx) with 1 in Hi. change (PadModel.gC bx) with 1 in Hc. change (PadModel.gS bx) with 1. rewrite <- Hv. f_equal. lia.
  - intros i c Hi Hc. apply Ha.
  - intros i c Hi Hc. apply Ha.
  - intros Hd. discriminate Hd.
Qed.
(** backward of the output *)
Lemma bbwd u v (m0 : Mem.mem C) : m0 (bf 0) <> Unalloc -> m0 (bF 0) = Val u -> m0 (bF 0 + 1) = Val v ->
  WP (backward (FP bx) (bF 0 + 0 * 0) (bf 0 + 0 + 0 * 0) 0 None) m0 (fun m' =>
    m' (bf 0) = Val (Cadd u v)).
Proof.
  intros Ha Hu Hv. unfold backward.
  eapply WP_mono; [|apply (backward_thm bx bx_wf eq_refl (bf 0 + 0 + 0 * 0) (bF 0 + 0 * 0) None 0 (fun i _ => if i =? 0 then u else v) (fun _ _ => C0) m0 [0])].
  - intros m' (H1 & H4 & H5).
      specialize (H1 0 0 ltac:(vm_compute; lia) ltac:(vm_compute; lia)). change (PadModel.gS bx) with 1 in H1.
      replace (bf 0) with (bf 0 + 0 + 0 * 0 + 1 * 0 + 0) by lia. etransitivity; [exact H1|]. apply (f_equal Val). cbn [Nat.eqb]. rewrite Cadd_0_l.
      change (PadModel.noutputs bx 0) with 2. unfold partial_inverse. cbn [Csum Nat.mul Nat.eqb]. rewrite expi_of_0; [ring|]. cbn [INR]. unfold Rdiv. ring.
  - apply lt_step; [vm_compute; lia|]. apply lt_stop. vm_compute. lia.
  - left. reflexivity.
  - cbn [getW]. rewrite Nat.eqb_refl. reflexivity.
  - intros ad (i & c & Hi & Hc & E) (i' & c' & Hi' & Hc' & E'). cbn [getW] in E'. change (PadModel.gL bx) with 1 in Hi. change (PadModel.gS bx) with 1 in *. change (PadModel.gC bx) with 1 in *. unfold bf, bF in *. lia.
  - intros ad (i & c & Hi & Hc & E) (i' & c' & Hi' & Hc' & E'). change (PadModel.gL bx) with 1 in Hi. change (PadModel.gS bx) with 1 in *. change (PadModel.gC bx) with 1 in *. unfold bf, bF in *. lia.
  - left. reflexivity.
  - intros i c Hi Hc. change (PadModel.noutputs bx 0) with 2 in Hi. change (PadModel.gC bx) with 1 in Hc. change (PadModel.gS bx) with 1.
    destruct i as [|[|i]]; [| |lia]; cbn [Nat.eqb]; [rewrite <- Hu|rewrite <- Hv]; f_equal; lia.
  - intros i c Hi Hc. change (PadModel.noutputs bx 0) with 2 in Hi. change (PadModel.gC bx) with 1 in Hc. change (PadModel.gS bx) with 1. cbn [getW].
    destruct i as [|[|i]]; [| |lia]; [replace (bF 0 + 0 * 0 + 1 * 0 + c) with (bF 0) by lia; rewrite Hu|replace (bF 0 + 0 * 0 + 1 * 1 + c) with (bF 0 + 1) by lia; rewrite Hv]; discriminate.
  - intros i c Hi Hc. change (PadModel.gL bx) with 1 in Hi. change (PadModel.gC bx) with 1 in Hc. replace i with 0 by lia. replace c with 0 by lia. rewrite Nat.mul_0_r, !Nat.add_0_r. exact Ha.
  - intros Hd. destruct (Hd eq_refl).
Qed.
(** the convolution of the first row *)
Definition brow : cmd C := convolveRawAt (cobj (FP by1) (fun _ => multBinary) (broom 0) 0) (arr 2 bF) 0.
Lemma brow_spec u v (m0 : Mem.mem C) : (forall ad, m0 ad <> Unalloc) -> m0 (bF 0) = Val u -> m0 (bF 1) = Val v ->
  WP brow m0 (fun m' => m' (bF 0) = Val (Cmul u v) /\ m' (bF 0 + 1) = m0 (bF 0 + 1) /\ m' (bf 0) = m0 (bf 0)).
Proof.
  intros Ha Hu Hv. unfold brow.
  assert (Eraw : convolveRawAt (cobj (FP by1) (fun _ => multBinary) (broom 0) 0) (arr 2 bF) 0 =
    convolveRaw (cc (FP by1) (rF (broom 0)) (rV (broom 0)) (rW (broom 0)) multBinary) (arr (max (aA (FP by1)) (aB (FP by1))) bF)).
  { unfold convolveRawAt. apply f_equal. apply functional_extensionality. intros a. unfold arr. cbn [cobj cinit cpad].
    change (max (aA (FP by1)) (aB (FP by1))) with 2. change (aA (FP by1)) with 2.
    destruct (a <? 2); [|reflexivity]. cbn [option_map]. rewrite Nat.add_0_r. reflexivity. }
  rewrite Eraw.
  apply (convolveRaw_spec (FP by1) by_wf eq_refl bF (rF (broom 0)) (rV (broom 0)) (rW (broom 0)) multBinary (fun _ _ _ w => Cmul (w 0) (w 1))) with (Phi := fun _ _ w => Cmul (w 0) (w 1)) (x := fun a _ => if a =? 0 then u else v).
  - apply pointwise_ok. apply binary_pw; reflexivity.
  - intros k b w w' E. rewrite !E by (vm_compute; lia). reflexivity.
  - apply (sees1_free (FP by1) (fun _ w => Cmul (w 0) (w 1))).
  - left. reflexivity.
  - intros H. discriminate H.
  - split; [|reflexivity].
    constructor; unfold apart; change (max (aA (FP by1)) (aB (FP by1))) with 2; change (aB (FP by1)) with 1; change (aL (FP by1)) with 1;
      change (outputSize (FP by1)) with 1; cbn [broom rF rV rW]; unfold bF; intros;
      try (match goal with |- _ <> Unalloc => apply Ha end).
    all: unfold workSizeV, workSizeW in *; try lia.
    left. reflexivity.
  - intros a i Hlt Hi. change (aA (FP by1)) with 2 in Hlt. change (gL (FP by1)) with 1 in Hi. replace i with 0 by lia. rewrite Nat.add_0_r.
    destruct a as [|[|a]]; [exact Hu|exact Hv|lia].
  - intros m' K1 K2 [Kb _]. split; [|split].
    + specialize (K1 0 0 ltac:(vm_compute; lia) ltac:(vm_compute; lia)). rewrite Nat.add_0_r in K1. rewrite K1. apply (f_equal Val).
      rewrite idftx_odft. change (gM (FP by1)) with 1. rewrite oidft_0. cbn [Csum]. unfold Yk. rewrite !outx_odft.
      change (gL (FP by1)) with 1. rewrite !odft_1. cbn [Nat.eqb]. ring.
    + apply K2. split; [|split; [|split]]; change (max (aA (FP by1)) (aB (FP by1))) with 2; change (aB (FP by1)) with 1; change (aL (FP by1)) with 1;
      change (outputSize (FP by1)) with 1; change (workSizeV (FP by1)) with 0; change (workSizeW (FP by1)) with 0; cbn [broom rF rV rW]; unfold bF; intros; lia.
    + apply K2. split; [|split; [|split]]; change (max (aA (FP by1)) (aB (FP by1))) with 2; change (aB (FP by1)) with 1; change (aL (FP by1)) with 1;
      change (outputSize (FP by1)) with 1; change (workSizeV (FP by1)) with 0; change (workSizeW (FP by1)) with 0; cbn [broom rF rV rW]; unfold bF, bf; intros; lia.
Qed.

Definition bly : layer := convolution2 (FP bx) (FP by1) (fun _ => multBinary) 1 bs bF bV bw broom.
Lemma bsub u v (m0 : Mem.mem C) : (forall ad, m0 ad <> Unalloc) -> m0 (bF 0) = Val u -> m0 (bF 1) = Val v ->
  TWP (lsub bly (arr 2 bF) 0 0) m0 (fun m' => m' (bF 0) = Val (Cmul u v) /\ m' (bF 0 + 1) = m0 (bF 0 + 1) /\ m' (bf 0) = m0 (bf 0)).
Proof.
  intros Ha Hu Hv. unfold lsub. change (lT bly) with 1.
  eapply TWP_mono; [|apply (TWP_par C 1 (fun _ _ => true) _ (fun _ m' => m' (bF 0) = Val (Cmul u v) /\ m' (bF 0 + 1) = m0 (bF 0 + 1) /\ m' (bf 0) = m0 (bf 0)))].
  - intros m' [H _]. exact (H 0 Nat.lt_0_1).
  - intros i j a Hi Hj Hij. lia.
  - intros i Hi. apply tgood_list. intros k _. cbn [bly convolution2 lrow]. apply tgood_cmd. unfold convolveRawAt. apply cgood_convolveRaw. apply good_multBinary.
  - intros i Hi. replace i with 0 by lia. change (lsch bly 0 0) with [0]. cbn [tlist]. apply TWP_seq.
    change (TWP (emb brow) m0 (fun m1 => TWP tskip m1 (fun m' => m' (bF 0) = Val (Cmul u v) /\ m' (bF 0 + 1) = m0 (bF 0 + 1) /\ m' (bf 0) = m0 (bf 0)))).
    apply TWP_emb. eapply WP_mono; [|apply (brow_spec u v m0 Ha Hu Hv)]. intros m' H. apply TWP_skip. exact H.
Qed.
(** normalize does not use D: the lemma for D = 1 applies *)
Definition bx1 : pad := mkpad 1 2 1 1 1 1 true 2 1 false.
Definition bly1 : layer := convolution2 (FP bx1) (FP by1) (fun _ => multBinary) 1 bs bF bV bw broom.
Lemma bx1_wf : wf (FP bx1). Proof. repeat split; vm_compute; try reflexivity; lia. Qed.
Lemma bnorm u (m0 : Mem.mem C) : m0 (bf 0) = Val u ->
  WP (lnormalize bly (arr 2 bf) 0) m0 (fun m' => m' (bf 0) = Val (Cmul u (RtoC (/ (INR 2 * INR 1))))).
Proof.
  intros Hu. change (lnormalize bly (arr 2 bf) 0) with (lnormalize bly1 (arr 2 bf) 0).
  assert (Hcol : forall o, Layer1.col (lpad bly1) (lJ bly1) (lSy bly1) o <-> o = 0).
  { intros o. split; [intros (j & c & Hj & Hc & ->)|intros ->; exists 0, 0; vm_compute; lia]. change (lSy bly1) with 0. change (gC (lpad bly1)) with 1 in Hc. lia. }
  eapply WP_mono; [|apply (Layer4.normalize_spec bly1 1) with (fa := bf) (y := fun _ _ _ => u)].
  - intros m' [H _]. specialize (H 0 ltac:(vm_compute; lia) 0 0 ltac:(vm_compute; lia) (proj2 (Hcol 0) eq_refl)).
    exact H.
  - constructor.
    + exact bx1_wf.
    + reflexivity.
    + intros j Hj. change (lSy bly1) with 0. change (gC (lpad bly1)) with 1. lia.
    + vm_compute. lia.
    + intros j j' c c' Hj Hj' _ _ _. change (lJ bly1) with 1 in *. lia.
  - constructor.
    + intros o. rewrite Hcol. change (lcJ bly1) with 1. change (lcC bly1) with 1. change (lcS bly1) with 0. split; [intros (j & k & Hj & Hk & ->); lia|intros ->; exists 0, 0; lia].
    + intros j j' k k'. change (lcJ bly1) with 1. change (lcC bly1) with 1. lia.
  - intros b Hb. change (aB (lpad bly1)) with 1 in Hb. replace b with 0 by lia. reflexivity.
  - intros b b' Hb Hb'. change (aB (lpad bly1)) with 1 in *. lia.
  - intros b Hb i o Hi Ho. change (aB (lpad bly1)) with 1 in Hb. change (gL (lpad bly1)) with 1 in Hi. apply Hcol in Ho. subst o.
    replace b with 0 by lia. replace i with 0 by lia. rewrite Nat.mul_0_r, !Nat.add_0_r. exact Hu.
Qed.
Lemma bad_run : TWP (construct_convolve2 (FP bx) (FP by1) (fun _ => multBinary) 1 bs bF bV bw broom bf 0) bm (fun m' => m' (bf 0) = Val (RtoC 4)).
Proof.
  unfold construct_convolve2. apply TWP_seq. apply TWP_emb.
  unfold convolution2_cmd. apply WP_seq.
  change (WP (Seq Skip Skip) bm (fun m1 => WP (padOpt (FP bx) (lay_W (FP bx) bw)) m1 (fun m2 => TWP (lconvolve bly (arr 2 bf) 0) m2 (fun m' => m' (bf 0) = Val (RtoC 4))))).
  apply WP_seq, WP_skip, WP_skip.
  change (WP Skip bm (fun m2 => TWP (lconvolve bly (arr 2 bf) 0) m2 (fun m' => m' (bf 0) = Val (RtoC 4)))).
  apply WP_skip. unfold lconvolve. apply TWP_seq.
  change (lconvolveRaw bly (arr 2 bf) 0) with (TSeq (TSeq (TSeq (emb (lforward bly (arr 2 bf) (arr 2 bF) 0 0 2 0))
           (TSeq (lsub bly (arr 2 bF) 0 0)
                 (emb (lbackward bly (arr 2 bF) (arr 2 bf) 0 0 1 0 None)))) tskip) tskip).
  do 3 apply TWP_seq. apply TWP_emb.
  change (lforward bly (arr 2 bf) (arr 2 bF) 0 0 2 0) with
    (Seq (Seq Skip (Seq Skip (forward (FP bx) (bf 0 + 0 + 0 * 0) (bF 0 + 0 * 0) 0 None))) (Seq Skip (forward (FP bx) (bf 1 + 0 + 0 * 0) (bF 1 + 0 * 0) 0 None))).
  apply WP_seq, WP_seq, WP_skip, WP_seq, WP_skip.
  assert (Hb : forall ad, bm ad <> Unalloc) by (intros; discriminate).
  eapply WP_mono; [|apply (bfwd 0 (RtoC (INR 2)) bm Hb); [lia|reflexivity]]. intros m1 (F0 & F1 & O1 & A1).
  apply WP_seq, WP_skip.
  eapply WP_mono; [|apply (bfwd 1 (RtoC (INR 3)) m1 A1); [lia|rewrite O1 by (unfold bf, bF; lia); reflexivity]]. intros m2 (G0 & G1 & O2 & A2).
  apply TWP_seq.
  eapply TWP_mono; [|apply (bsub (RtoC (INR 2)) (RtoC (INR 3)) m2 A2); [rewrite O2 by (unfold bF; lia); exact F0|exact G0]].
  intros m3 (P0 & P1 & P2). apply TWP_emb.
  change (lbackward bly (arr 2 bF) (arr 2 bf) 0 0 1 0 None) with
    (Seq (Seq Skip (Seq Skip (backward (FP bx) (bF 0 + 0 * 0) (bf 0 + 0 + 0 * 0) 0 None))) Skip).
  apply WP_seq, WP_seq, WP_skip, WP_seq, WP_skip.
  eapply WP_mono; [|apply (bbwd (Cmul (RtoC (INR 2)) (RtoC (INR 3))) (RtoC (INR 2)) m3)].
  - intros m4 B0. apply WP_skip, TWP_skip, TWP_skip, TWP_emb.
    eapply WP_mono; [|apply bnorm; exact B0]. intros m5 ->. apply (f_equal Val).
    cbn [INR]. apply C_ext; cbn [re im Cmul Cadd RtoC fst snd]; lra.
  - rewrite P2, O2 by (unfold bf, bF; lia). rewrite O1 by (unfold bf, bF; lia). discriminate.
  - exact P0.
  - rewrite P1, O2 by (unfold bF; lia). exact F1.
Qed.

(** the smallest case: one row of one element, M = 2, two batches of one residue *)
Lemma single_column : wf (FP bx) /\ wf (FP by1) /\
  (gS (FP bx) = 1 /\ gD (FP bx) = 2) /\
  (gS (FP by1) = 1 /\ gC (FP bx) = aL (FP by1) /\ aA (FP by1) = aA (FP bx) /\ aB (FP by1) = aB (FP bx) /\ aA (FP bx) = 2 /\ aB (FP bx) = 1 /\
   loop2 (FP bx) = false /\ loop2 (FP by1) = false) /\
  2 * aL (FP bx) <= aM (FP bx) + 1 /\ 2 * aL (FP by1) <= aM (FP by1) + 1 /\ (forall r, schedule 1 (gl (FP bx)) (bs r)) /\
  separated (data_blocks (FP bx) bf 0 ++ work2 (FP bx) (FP by1) 1 bF bV bw broom) /\
  provided (work2 (FP bx) (FP by1) 1 bF bV bw broom) bm /\
  holds2 2 (aL (FP bx)) (aL (FP by1)) (gS (FP bx)) bf 0 (fun a _ _ => RtoC (INR (2 + a))) bm /\
  TWP (construct_convolve2 (FP bx) (FP by1) (fun _ => multBinary) 1 bs bF bV bw broom bf 0) bm (fun m' =>
    m' (bf 0) = Val (RtoC 4) /\ linconv2 (fun _ _ => RtoC (INR 2)) (fun _ _ => RtoC (INR 3)) 0 0 = RtoC 6).
Proof.
  split; [exact bx_wf|]. split; [exact by_wf|]. split; [vm_compute; lia|]. split; [vm_compute; repeat split|].
  split; [vm_compute; lia|]. split; [vm_compute; lia|]. split; [intros r; vm_compute; reflexivity|].
  split; [apply sepb_sound; vm_compute; reflexivity|]. split; [intros b n i _ _; discriminate|]. split.
  - intros a i j Ha Hi Hj. change (aL (FP bx)) with 1 in Hi. change (aL (FP by1)) with 1 in Hj. replace i with 0 by lia. replace j with 0 by lia.
    unfold bm. do 3 f_equal. unfold bf. lia.
  - eapply TWP_mono; [|exact bad_run]. intros m' H. split; [exact H|]. unfold linconv2. cbn. apply C_ext; cbn; lra.
Qed.
Lemma single_column_thm : exists (sx sy : pad) T sch F V w rooms f x m0, let tx := FP sx in let ty := FP sy in
  wf tx /\ wf ty /\ (gS tx = 1 /\ gD tx = 2) /\
  (gS ty = 1 /\ gC tx = aL ty /\ aA ty = aA tx /\ aB ty = aB tx /\ aA tx = 2 /\ aB tx = 1 /\ loop2 tx = false /\ loop2 ty = false) /\
  2 * aL tx <= aM tx + 1 /\ 2 * aL ty <= aM ty + 1 /\ (forall r, schedule T (gl tx) (sch r)) /\
  separated (data_blocks tx f 0 ++ work2 tx ty T F V w rooms) /\ provided (work2 tx ty T F V w rooms) m0 /\
  holds2 2 (aL tx) (aL ty) (gS tx) f 0 x m0 /\
  TWP (construct_convolve2 tx ty (fun _ => multBinary) T sch F V w rooms f 0) m0 (fun m' =>
    m' (f 0) = Val (RtoC 4) /\ linconv2 (x 0) (x 1) 0 0 = RtoC 6).
Proof. exists bx, by1, 1, bs, bF, bV, bw, broom, bf, (fun a _ _ => RtoC (INR (2 + a))), bm. exact single_column. Qed.
