(** Proofs for PropsCen.v: consequences of the kernel theorems, and concrete cases. *)
From Coq Require Import Reals ZArith Arith Lia Lra List Bool Permutation.
From Verif Require Import CNum Sums Roots Mem PadModel PadKernels PadSpec PadGeom PadCases PadProofs
  CenModel CenPass CenSpec CenIndex CenForward.
Import ListNotations.

(** p=2, n=q=4, M=16, L odd, two residues per pass, out of place *)
Definition ccase1 : pad := mkpad 7 14 1 1 4 2 false 2 1 false.
(** p=4, P=2, n=3, q=6, M=12, in place, 2 interleaved copies with stride 3 *)
Definition ccase2 : pad := mkpad 7 12 2 3 2 1 true 2 1 false.
(** the same in overwrite mode, one copy, L=8 *)
Definition ccase2o : pad := mkpad 8 12 1 1 2 1 true 2 1 true.
(** q=1 with M odd: explicit padding *)
Definition ccase0 : pad := mkpad 3 5 1 1 5 1 true 2 1 false.
Lemma ccase1_wf : kwf ccase1. Proof. repeat split; vm_compute; try reflexivity; lia. Qed.
Lemma ccase2_wf : kwf ccase2. Proof. repeat split; vm_compute; try reflexivity; lia. Qed.
Lemma ccase2o_wf : kwf ccase2o. Proof. repeat split; vm_compute; try reflexivity; lia. Qed.
Lemma ccase0_wf : kwf ccase0. Proof. repeat split; vm_compute; try reflexivity; lia. Qed.
Lemma ctr1 : loop_trace (kR ccase1) (kincrement ccase1) 0 [0; 1].
Proof. apply lt_step; [vm_compute; lia|]. apply lt_step; [vm_compute; lia|]. apply lt_stop. vm_compute. lia. Qed.
Lemma ctr2 : loop_trace (kR ccase2) (kincrement ccase2) 0 [0; 1; 2].
Proof. apply lt_step; [vm_compute; lia|]. apply lt_step; [vm_compute; lia|]. apply lt_step; [vm_compute; lia|]. apply lt_stop. vm_compute. lia. Qed.

Definition cforward_thm := fun t Hwf How f F W r x m0 rs => cforward_b t Hwf f F W r x m0 rs How.
Definition coforward_thm := fun t Hwf How f F r W x m0 => coforward_b t Hwf f F r W x m0 How.
Lemma kindex_bijection_thm : forall t, kwf t -> forall rs, loop_trace (kR t) (kincrement t) 0 rs ->
  Permutation (seq 0 (kM t)) (flat_map (fun r => map (kindex t r) (seq 0 (knoutputs t r))) rs).
Proof. intros t Hwf rs. apply kindex_perm. assumption. Qed.
Lemma kloop_thm : forall t, kwf t -> exists rs, loop_trace (kR t) (kincrement t) 0 rs /\
    forall rs', loop_trace (kR t) (kincrement t) 0 rs' -> rs' = rs.
Proof. intros t Hwf. apply kloop_terminates. assumption. Qed.
Lemma kpass_fits_thm : forall t, kwf t -> forall r, aS t * knoutputs t r <= koutputSize t.
Proof.
  intros t Hwf r. pose proof (pass_fits_thm (sh t) (sh_wf t Hwf) r) as H. rewrite sh_nout in H by assumption.
  unfold outputSize, gb in H. rewrite sh_gl, sh_D in H by assumption. exact H.
Qed.
Lemma cforward_inbounds_thm : forall t, kwf t -> koverwrite t = false ->
  forall f F W r x m0 rs,
  let W0 := getW F W in let N := knoutputs t r in
  let L := aL t in let S := aS t in let C := aC t in
  loop_trace (kR t) (kincrement t) 0 rs -> In r rs ->
  ainplace t = (W0 =? F) ->
  separate S C f L W0 N -> separate S C f L F N -> (W0 = F \/ separate S C W0 N F N) ->
  has S C f L x m0 ->
  (forall a, word S C F N a \/ word S C W0 N a -> m0 a <> Unalloc) ->
  (forall a, ~ word S C f L a -> ~ word S C F N a -> ~ word S C W0 N a -> m0 a = Unalloc) ->
  forall o, exec (cforward t f F r W) m0 o -> o <> UB /\ o <> ExitErr.
Proof.
  intros t Hwf How f F W r x m0 rs W0 N L S C Htr Hr Hin H1 H2 H3 Hx Ha _ o Ho.
  eapply WP_consequence; [|exact Ho]. apply (cforward_b t Hwf f F W r x m0 rs); auto.
  - intros i c Hi Hc. apply Ha. right. exists i, c. auto.
  - intros i c Hi Hc. apply Ha. left. exists i, c. auto.
Qed.
Lemma cforward_det_thm : forall t, kwf t -> koverwrite t = false ->
  forall f F W r x m0 rs,
  let W0 := getW F W in let N := knoutputs t r in
  let L := aL t in let S := aS t in let C := aC t in
  loop_trace (kR t) (kincrement t) 0 rs -> In r rs ->
  ainplace t = (W0 =? F) ->
  separate S C f L W0 N -> separate S C f L F N -> (W0 = F \/ separate S C W0 N F N) ->
  has S C f L x m0 -> allocated S C W0 N m0 -> allocated S C F N m0 ->
  exists m', forall o, exec (cforward t f F r W) m0 o <-> o = OK m'.
Proof. intros. eapply WP_det. eapply cforward_b; eassumption. Qed.

(** the same formula as for fftPad, up to the phase of the origin *)
Lemma cpdft_shift_thm : forall M L x k, 1 <= M ->
  Cmul (cpdft M L x k) (expi (2 * PI * (INR (L / 2) * INR k) / INR M)) = pdft M L x k.
Proof.
  intros M L x k HM. unfold cpdft, pdft. rewrite <- Csum_mul_r. apply Csum_ext. intros j Hj.
  rewrite <- Cmul_assoc. f_equal. rewrite <- expi_add. f_equal. rewrite mult_INR. field.
  apply not_0_INR. lia.
Qed.

(** a concrete case: pass 1 (residues 1 and -1) of ccase1 with f at 0, F at 100, W at 200 *)
Lemma ccase1_forward : WP (cforward ccase1 0 100 1 (Some 200)) (m0case 7) (fun m' =>
  has 1 1 100 8 (fun i _ => cpdft 16 7 (fun j => RtoC (INR (j + 1))) (nth i [1; 5; 9; 13; 15; 3; 7; 11] 0)) m' /\ m' 3 = Val (RtoC 4)).
Proof.
  eapply WP_mono; [|apply (cforward_b ccase1 ccase1_wf 0 100 (Some 200) 1 (fun j _ => RtoC (INR (j + 1))) (m0case 7) [0; 1])].
  - intros m' (HV & Hf & _). split.
    + intros i c Hi Hc. assert (c = 0) by lia. subst c. specialize (HV i 0 Hi ltac:(vm_compute; lia)).
      change (aS ccase1) with 1 in HV. rewrite HV. f_equal.
      change (kM ccase1) with 16. change (aL ccase1) with 7. f_equal.
      do 8 (destruct i as [|i]; [reflexivity|]). lia.
    + specialize (Hf 3 0 ltac:(vm_compute; lia) ltac:(vm_compute; lia)). change (0 + aS ccase1 * 3 + 0) with 3 in Hf. rewrite Hf. do 2 f_equal.
      cbn. ring.
  - reflexivity.
  - exact ctr1.
  - right; left; reflexivity.
  - reflexivity.
  - apply sep_blk. vm_compute. lia.
  - apply sep_blk. vm_compute. lia.
  - right. apply sep_blk. vm_compute. lia.
  - apply has_m0.
  - apply m0_alloc.
  - apply m0_alloc.
Qed.
