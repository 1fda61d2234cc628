(** Proofs for PropsCenB.v: consequences of the backward kernels of fftPadCentered. *)
From Coq Require Import Reals ZArith Arith Lia Lra List Bool Permutation.
From Verif Require Import CNum Sums Roots Mem PadModel PadKernels PadSpec PadGeom PadCases PadProofs ConvModel
  CenModel CenPass CenSpec CenIndex CenForward CenCases CenBackward.
Import ListNotations.

Definition cbackward_thm := fun t Hwf How f F W r y acc m0 rs => cbackward_b t Hwf f F W r y acc m0 rs How.
Definition cobackward_thm := fun t Hwf How f F r W Y m0 => cobackward_b t Hwf f F r W Y m0 How.
Definition croundtrip_thm := fun t Hwf How f F h W x m0 rs => croundtrip_b t Hwf f F h W x m0 rs How.

Lemma cbackward_inbounds_thm : forall t, kwf t -> koverwrite t = false ->
  forall f F W r y acc m0 rs,
  let W0 := getW F W in let N := knoutputs t r in
  let L := aL t in let S := aS t in let C := aC t in
  loop_trace (kR t) (kincrement t) 0 rs -> In r rs ->
  ainplace t = (W0 =? F) ->
  separate S C f L W0 N -> separate S C f L F N -> (W0 = F \/ separate S C W0 N F N) ->
  has S C F N y m0 ->
  (r <> 0 -> has S C f L acc m0) ->
  (forall a, word S C f L a \/ word S C W0 N a -> m0 a <> Unalloc) ->
  (forall a, ~ word S C f L a -> ~ word S C F N a -> ~ word S C W0 N a -> m0 a = Unalloc) ->
  forall o, exec (cbackward t F f r W) m0 o -> o <> UB /\ o <> ExitErr.
Proof.
  intros t Hwf How f F W r y acc m0 rs W0 N L S C Htr Hr Hin H1 H2 H3 Hy Hacc Ha _ o Ho.
  eapply WP_consequence; [|exact Ho]. apply (cbackward_b t Hwf f F W r y acc m0 rs); auto.
  - intros i c Hi Hc. apply Ha. right. exists i, c. auto.
  - intros i c Hi Hc. apply Ha. left. exists i, c. auto.
Qed.
Lemma cbackward_det_thm : forall t, kwf t -> koverwrite t = false ->
  forall f F W r y acc m0 rs,
  let W0 := getW F W in let N := knoutputs t r in
  let L := aL t in let S := aS t in let C := aC t in
  loop_trace (kR t) (kincrement t) 0 rs -> In r rs ->
  ainplace t = (W0 =? F) ->
  separate S C f L W0 N -> separate S C f L F N -> (W0 = F \/ separate S C W0 N F N) ->
  has S C F N y m0 -> allocated S C W0 N m0 -> allocated S C f L m0 ->
  (r <> 0 -> has S C f L acc m0) ->
  exists m', forall o, exec (cbackward t F f r W) m0 o <-> o = OK m'.
Proof. intros. eapply WP_det. eapply cbackward_b; eassumption. Qed.

(** overwrite mode: forward followed by backward multiplies the data by M *)
Lemma coroundtrip_thm : forall t, kwf t -> koverwrite t = true ->
  forall f F r W x m0,
  let L := aL t in let S := aS t in let C := aC t in let l := kl t in
  separate S C f L F l -> has S C f L x m0 -> allocated S C F l m0 ->
  WP (Seq (cforward t f F r W) (cbackward t F f r W)) m0 (fun m' =>
    has S C f L (fun j c => Cmul (RtoC (INR (kM t))) (x j c)) m' /\
    only (fun a => word S C F l a \/ word S C f L a) m0 m').
Proof.
  intros t Hwf Hov f F r W x m0 L S C l Hsep Hx Ha. apply WP_seq.
  eapply WP_mono; [|apply (coforward_b t Hwf f F r W x m0); assumption].
  intros m1 (V1 & O1). cbv beta in *.
  eapply WP_mono; [|apply (cobackward_b t Hwf f F r W (fun c k => cpdft (kM t) (aL t) (fun j => x j c) k) m1); try assumption].
  - intros m2 (V2 & O2). split.
    + intros j c Hj Hc. rewrite V2 by assumption. f_equal. apply (cipdft_cpdft t (fun j0 => x j0 c)); [assumption|]. exact (kL_M t Hwf).
    + destruct O1 as [O1 A1], O2 as [O2 A2]. split; [|auto]. intros a Hn. rewrite O2, O1 by assumption. reflexivity.
  - intros u Hu. destruct (V1 u Hu) as (S0 & S1 & S2). split; [exact S0|]. split; [exact S1|].
    intros k c Hk Hc. rewrite S2 by assumption. f_equal.
    assert (Hq : kq t <> 1) by (apply CenOv.ov_q; assumption).
    pose proof (CenGeom.k_Mpos t Hwf Hq) as HM.
    rewrite <- !outc_cpdft. rewrite Nat2Z.inj_mod. symmetry. apply CenMath.outc_mod; try assumption.
    apply Z.mod_mod. lia.
Qed.

(** ccase1: both passes, f at 0, F at 100, W at 200, the result at 300 *)
Lemma ccase1_roundtrip : WP (rfor [0; 1] (fun r => Seq (cforward ccase1 0 100 r (Some 200)) (cbackward ccase1 100 300 r (Some 200)))) (m0case 7)
  (fun m' => m' 302 = Val (RtoC 48)).
Proof.
  eapply WP_mono; [|apply (croundtrip_b ccase1 ccase1_wf 0 100 300 (Some 200) (fun j _ => RtoC (INR (j + 1))) (m0case 7) [0; 1])].
  - intros m' (HV & _). specialize (HV 2 0 ltac:(vm_compute; lia) ltac:(vm_compute; lia)).
    change (300 + aS ccase1 * 2 + 0) with 302 in HV. rewrite HV. f_equal. change (kM ccase1) with 16.
    rewrite <- RtoC_mul. f_equal. cbn. lra.
  - reflexivity.
  - exact ctr1.
  - reflexivity.
  - apply sep_blk. vm_compute. lia.
  - apply sep_blk. vm_compute. lia.
  - right. apply sep_blk. vm_compute. lia.
  - apply sep_blk. vm_compute. lia.
  - apply sep_blk. vm_compute. lia.
  - apply sep_blk. vm_compute. lia.
  - apply has_m0.
  - apply m0_alloc.
  - apply m0_alloc.
  - apply m0_alloc.
Qed.
Lemma ccase2o_roundtrip : WP (Seq (cforward ccase2o 0 100 0 None) (cbackward ccase2o 100 0 0 None)) (m0case 8)
  (fun m' => m' 3 = Val (RtoC 48)).
Proof.
  eapply WP_mono; [|apply (coroundtrip_thm ccase2o ccase2o_wf eq_refl 0 100 0 None (fun j _ => RtoC (INR (j + 1))) (m0case 8))].
  - intros m' (HV & _). specialize (HV 3 0 ltac:(vm_compute; lia) ltac:(vm_compute; lia)).
    change (0 + aS ccase2o * 3 + 0) with 3 in HV. rewrite HV. f_equal. change (kM ccase2o) with 12.
    rewrite <- RtoC_mul. f_equal. cbn. lra.
  - apply sep_blk. vm_compute. lia.
  - apply has_m0.
  - apply m0_alloc.
Qed.
