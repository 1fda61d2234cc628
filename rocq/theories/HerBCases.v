(** Concrete Hermitian backward transforms, and the theorems in the form the property file uses. *)
From Coq Require Import Reals ZArith Arith Lia Lra List Bool Permutation.
From Verif Require Import CNum Sums Roots Mem PadModel PadKernels PadSpec PadCases ConvModel CenModel
  HerModel HerSpec HerMath HerGeom HerForward HerDisp HerIndex HerCases HerB7.
Import ListNotations.

Definition hbackward_thm := fun al t Hwf Hal f F W r y acc m0 => hbackward_b al t Hwf Hal f F W r y acc m0.
Definition hpasses_thm := fun t Hwf rs Y j => hpasses_b t Hwf rs Y j.
Definition hinv_thm := fun t Hwf x j => hinv 1 t Hwf (le_n 1) x j.
Definition hroundtrip_thm := fun al t Hwf Hal f F h W x m0 rs => hroundtrip_b al t Hwf Hal f F h W x m0 rs.

Lemma hbackward_inbounds_thm : forall al t, hwf t -> 1 <= al -> forall f F W r y acc m0,
  let W0 := getW F W in let H := hH t in let C := aC t in
  r < hR t -> ainplace t = (W0 =? F) ->
  (forall be i c, be < hblocks t r -> i < hnoutputs t -> c < C -> dbl m0 (F + be * hb al t) (C * i + c) (y be i c)) ->
  (r <> 0 -> hasC C f H acc m0) ->
  alloc F (houtputSize al t) m0 -> alloc W0 (hworkSizeW al t) m0 -> alloc f (C * H) m0 ->
  apart f (C * H) F (houtputSize al t) -> apart f (C * H) W0 (hworkSizeW al t) ->
  (W0 = F \/ apart W0 (hworkSizeW al t) F (houtputSize al t)) ->
  (forall a, ~ span_of f (C * H) a -> ~ span_of F (houtputSize al t) a -> ~ span_of W0 (hworkSizeW al t) a -> m0 a = Unalloc) ->
  exists m', forall o, exec (hbackward al t F f r W) m0 o <-> o = OK m'.
Proof.
  intros al t Hwf Hal f F W r y acc m0 W0 H C H1 H2 H3 H4 H5 H6 H7 H8 H9 H10 _.
  destruct (hbackward_b al t Hwf Hal f F W r y acc m0 H1 H2 H3 H4 H5 H6 H7 H8 H9 H10) as (m1 & He & _ & Hu).
  exists m1. intros o. split; [apply Hu|intros ->; exact He].
Qed.

(** hcase1 (out of place): both passes, f at 0, F at 100, W at 200, the result at 300 *)
Lemma hcase1_roundtrip : WP (rfor [0; 1] (fun r => Seq (hforward 4 hcase1 0 100 r (Some 200)) (hbackward 4 hcase1 100 300 r (Some 200)))) (m0case 4)
  (fun m' => m' 302 = Val (RtoC 36)).
Proof.
  eapply WP_mono; [|apply (hroundtrip_b 4 hcase1 hcase1_wf ltac:(lia) 0 100 300 (Some 200) (fun j _ => RtoC (INR (j + 1))) (m0case 4) [0; 1])].
  - intros m' (HV & _). specialize (HV 2 0 ltac:(vm_compute; lia) ltac:(vm_compute; lia)).
    change (300 + aC hcase1 * 2 + 0) with 302 in HV. rewrite HV. f_equal. change (kM hcase1) with 12.
    rewrite <- RtoC_mul. f_equal. cbn. lra.
  - change [0; 1] with (seq 0 (hR hcase1)). apply (proj1 (hloop hcase1 hcase1_wf)).
  - reflexivity.
  - apply hm0_has. vm_compute. lia.
  - reflexivity.
  - apply hm0_alloc.
  - apply hm0_alloc.
  - apply hm0_alloc.
  - apply apart_le. vm_compute. lia.
  - apply apart_le. vm_compute. lia.
  - intros x H1 H2. vm_compute in H1, H2. lia.
  - intros x H1 H2. vm_compute in H1, H2. lia.
  - apply apart_le. vm_compute. lia.
  - right. intros x H1 H2. vm_compute in H1, H2. lia.
Qed.
(** hcase2 (p=4, in place): f at 0, F at 100, the result at 300 *)
Lemma hcase2_roundtrip : WP (rfor [0; 1] (fun r => Seq (hforward 4 hcase2 0 100 r None) (hbackward 4 hcase2 100 300 r None))) (m0case 6)
  (fun m' => m' 305 = Val (RtoC 144)).
Proof.
  eapply WP_mono; [|apply (hroundtrip_b 4 hcase2 hcase2_wf ltac:(lia) 0 100 300 None (fun j _ => RtoC (INR (j + 1))) (m0case 6) [0; 1])].
  - intros m' (HV & _). specialize (HV 5 0 ltac:(vm_compute; lia) ltac:(vm_compute; lia)).
    change (300 + aC hcase2 * 5 + 0) with 305 in HV. rewrite HV. f_equal. change (kM hcase2) with 24.
    rewrite <- RtoC_mul. f_equal. cbn. lra.
  - change [0; 1] with (seq 0 (hR hcase2)). apply (proj1 (hloop hcase2 hcase2_wf)).
  - reflexivity.
  - apply hm0_has. vm_compute. lia.
  - reflexivity.
  - apply hm0_alloc.
  - apply hm0_alloc.
  - apply hm0_alloc.
  - apply apart_le. vm_compute. lia.
  - intros x H1 H2. vm_compute in H1, H2. lia.
  - intros x H1 H2. vm_compute in H1, H2. lia.
  - intros x H1 H2. vm_compute in H1, H2. lia.
  - apply apart_le. vm_compute. lia.
  - left. reflexivity.
Qed.
