(** The constructor of the Hermitian Convolution3 on strides that do not fit. *)
From Coq Require Import Reals ZArith Arith Lia List Bool Permutation.
From Verif Require Import CNum Sums Roots Mem PadModel PadKernels Loops PadLemmas CenModel HerModel HerSpec HerB7 HConv1 HConv2 HConv3
  ConvMath ConvModel ConvSpec PadSpec HConvModel HConvSpec HConvMath
  Team LayerModel LayerSpec HLayerModel HLayerSpec Conv1 Conv3 Conv6
  XfBridge Layer1 Layer3 Layer5 Layer6 Layer7 Layer8 LayerProofs HLayer1 HLayerMath HLayerMath3 HLayerProofs HLayer2 Xf XfProofs.
Import ListNotations.

Lemma hexit3_thm al tx ty tz : 1 <= al -> wf ty -> hwf tz -> hagree2 ty tz ->
  ~ (aL ty * gS ty <= gS tx /\ gC tx = if gS ty =? gC ty then aL ty * gS ty else gC ty) ->
  forall T F V w rooms, 
  separated (hwork3 al tx ty tz T F V w rooms) ->
  forall m0, provided (hwork3 al tx ty tz T F V w rooms) m0 ->
  exec (hconvolution3_cmd tx ty T w rooms) m0 ExitErr /\
  forall o, exec (hconvolution3_cmd tx ty T w rooms) m0 o -> o = ExitErr.
Proof.
  intros Hal Hy Hz Ha Hn T F V w rooms Hs m0 Hp. unfold hconvolution3_cmd.
  assert (E : checkStrides tx ty = false).
  { apply not_true_is_false. intros H. apply Hn. unfold checkStrides, contiguous in H. apply andb_prop in H. destruct H as [H1 H2].
    apply Nat.leb_le in H1. apply Nat.eqb_eq in H2. split; assumption. }
  rewrite E.
  assert (HF : hfit2 al ty tz) by (apply hfit2_of; assumption).
  assert (HW : WP (cfor T (fun th => hconvolution2_cmd ty (r2W (rooms th)))) m0 (fun m' => forall a, m0 a <> Unalloc -> m' a <> Unalloc)).
  { apply WP_cfor with (I := fun n m' => forall a, m0 a <> Unalloc -> m' a <> Unalloc); [auto|]. intros th mm Hth Hal'. unfold hconvolution2_cmd.
    set (rm := rooms th).
    unfold lay_W, padOpt. destruct (ainplace ty) eqn:Ei.
    - replace (repad ty) with false by (unfold repad; rewrite Ei; reflexivity). rewrite orb_true_r. apply WP_skip. intros a Haa. apply Hal', Haa.
    - eapply WP_mono; [|apply (pad_x ty Hy (r2W rm) mm)].
      + intros m' [_ [_ H]] a Haa. apply H, Hal', Haa.
      + pose proof (geoH al ty tz HF) as HG. rewrite (g_D _ _ _ _ HG), Nat.mul_1_r.
        apply (word_prov (hconvolution2 al ty tz realMultBinary (r2T rm) (fun _ _ => []) (r2F rm) (r2V rm) (r2W rm) (r2rooms rm)) (hH tz) HG (hBA al ty tz HF) (hl2x al ty tz HF)).
        intros i Hi. apply Hal'. apply (Hp (r2W rm) (workSizeW ty) i).
        * unfold hwork3. apply in_or_app. right. apply in_flat_map. exists th. split; [apply in_seq; lia|]. unfold hwork2. apply in_or_app. left. apply in_W.
        * unfold workSizeW. rewrite Ei, (OS_Sl ty 1 0 (hH tz) HG). exact Hi. }
  destruct HW as (m1 & He & _ & Hu). split.
  - eapply ex_seq; [exact He|constructor].
  - intros o Ho. inversion Ho as [|? ? ? m2 ? H1 H2|? ? ? H1|? ? ? H1| | | |]; subst.
    + inversion H2. reflexivity.
    + apply Hu in H1. discriminate.
    + reflexivity.
Qed.
