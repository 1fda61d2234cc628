(** Concrete Hermitian transforms, and the theorems in the form the property file uses. *)
From Coq Require Import Reals ZArith Arith Lia List Bool Permutation.
From Verif Require Import CNum Sums Roots Mem PadModel PadKernels PadSpec PadCases CenModel
  HerModel HerSpec HerMath HerGeom HerForward HerDisp HerIndex.
Import ListNotations.

(** p=2, n=q=3, M=12, out of place *)
Definition hcase1 : pad := mkpad 7 10 1 1 4 2 false 2 1 false.
(** p=4, P=2, n=4, q=8, M=24, in place *)
Definition hcase2 : pad := mkpad 11 24 1 1 3 2 true 2 1 false.
(** p=2, n=q=4, M=12, two interleaved copies, in place *)
Definition hcase3 : pad := mkpad 5 11 2 2 3 2 true 2 1 false.
(** q=1: explicit padding *)
Definition hcase0 : pad := mkpad 5 8 1 1 8 1 false 2 1 false.
Lemma hcase1_wf : hwf hcase1. Proof. repeat split; vm_compute; try reflexivity; lia. Qed.
Lemma hcase2_wf : hwf hcase2. Proof. repeat split; vm_compute; try reflexivity; lia. Qed.
Lemma hcase3_wf : hwf hcase3. Proof. repeat split; vm_compute; try reflexivity; lia. Qed.
Lemma hcase0_wf : hwf hcase0. Proof. repeat split; vm_compute; try reflexivity; lia. Qed.

Lemma apart_le a n b k : a + n <= b -> apart a n b k.
Proof. intros H x H1 H2. unfold span_of in *. lia. Qed.
Lemma hm0_alloc a n L : alloc a n (m0case L).
Proof. intros x _. unfold m0case. destruct (x <? L); discriminate. Qed.
Lemma hm0_has L N : N <= L -> hasC 1 0 N (fun j _ => RtoC (INR (j + 1))) (m0case L).
Proof.
  intros HN j c Hj Hc. assert (c = 0) by lia. subst c. replace (0 + 1 * j + 0) with j by lia.
  unfold m0case. destruct (Nat.ltb_spec j L); [reflexivity|lia].
Qed.

(** pass 1 (residues 1 and -1) of hcase1: f at 0 (4 words), F at 100, W at 200, alignment 4 words *)
Lemma hcase1_forward : WP (hforward 4 hcase1 0 100 1 (Some 200)) (m0case 4) (fun m' =>
  (forall i, i < 4 -> let X := hdft 12 4 (fun j => RtoC (INR (j + 1))) (nth i [1; 4; 7; 10] 0) in
     im X = 0%R /\ dbl m' 100 i (re X)) /\
  (forall i, i < 4 -> let X := hdft 12 4 (fun j => RtoC (INR (j + 1))) (nth i [11; 2; 5; 8] 0) in
     im X = 0%R /\ dbl m' 104 i (re X)) /\
  m' 3 = Val (RtoC 4)).
Proof.
  eapply WP_mono; [|apply (hforward_b 4 hcase1 hcase1_wf ltac:(lia) 0 100 (Some 200) 1 (fun j _ => RtoC (INR (j + 1))) (m0case 4))].
  - intros m' (HV & Hf & _). split; [|split].
    + intros i Hi. pose proof (HV 0 i 0 ltac:(vm_compute; lia) ltac:(vm_compute; lia) ltac:(vm_compute; lia)) as E. cbv zeta in *.
      change (kM hcase1) with 12 in E. change (hH hcase1) with 4 in E. change (100 + 0 * hb 4 hcase1) with 100 in E.
      change (aC hcase1) with 1 in E. replace (1 * i + 0) with i in E by lia.
      replace (nth i [1; 4; 7; 10] 0) with (hindex hcase1 1 (0 * hnoutputs hcase1 + i)); [exact E|].
      do 4 (destruct i as [|i]; [reflexivity|]). lia.
    + intros i Hi. pose proof (HV 1 i 0 ltac:(vm_compute; lia) ltac:(vm_compute; lia) ltac:(vm_compute; lia)) as E. cbv zeta in *.
      change (kM hcase1) with 12 in E. change (hH hcase1) with 4 in E. change (100 + 1 * hb 4 hcase1) with 104 in E.
      change (aC hcase1) with 1 in E. replace (1 * i + 0) with i in E by lia.
      replace (nth i [11; 2; 5; 8] 0) with (hindex hcase1 1 (1 * hnoutputs hcase1 + i)); [exact E|].
      do 4 (destruct i as [|i]; [reflexivity|]). lia.
    + specialize (Hf 3 0 ltac:(vm_compute; lia) ltac:(vm_compute; lia)). change (0 + aC hcase1 * 3 + 0) with 3 in Hf. rewrite Hf. do 2 f_equal.
      cbn. ring.
  - vm_compute. lia.
  - reflexivity.
  - apply hm0_has. vm_compute. lia.
  - reflexivity.
  - apply hm0_alloc.
  - apply hm0_alloc.
  - apply apart_le. vm_compute. lia.
  - apply apart_le. vm_compute. lia.
  - right. intros x H1 H2. vm_compute in H1, H2. lia.
Qed.

Definition hforward_thm := fun al t Hwf Hal f F W r x m0 => hforward_b al t Hwf Hal f F W r x m0.
Lemma hforward_inbounds_thm : forall al t, hwf t -> 1 <= al -> forall f F W r x m0,
  let W0 := getW F W in
  r < hR t -> ainplace t = (W0 =? F) ->
  hasC (aC t) f (hH t) x m0 -> (forall c, c < aC t -> im (x 0 c) = 0%R) ->
  alloc F (houtputSize al t) m0 -> alloc W0 (hworkSizeW al t) m0 ->
  apart f (aC t * hH t) F (houtputSize al t) -> apart f (aC t * hH t) W0 (hworkSizeW al t) ->
  (W0 = F \/ apart W0 (hworkSizeW al t) F (houtputSize al t)) ->
  (forall a, ~ span_of f (aC t * hH t) a -> ~ span_of F (houtputSize al t) a -> ~ span_of W0 (hworkSizeW al t) a -> m0 a = Unalloc) ->
  forall o, exec (hforward al t f F r W) m0 o -> o <> UB /\ o <> ExitErr.
Proof.
  intros al t Hwf Hal f F W r x m0 W0 H1 H2 H3 H4 H5 H6 H7 H8 H9 _ o Ho.
  pose proof (hforward_b al t Hwf Hal f F W r x m0 H1 H2 H3 H4 H5 H6 H7 H8 H9) as HW.
  destruct HW as (m1 & He & _ & Hu). rewrite (Hu _ Ho). split; discriminate.
Qed.
