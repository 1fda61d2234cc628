(** Proofs of the property theorems of PropsPad.v. *)
From Coq Require Import Reals ZArith Arith Lia Lra List Bool Permutation.
From Verif Require Import CNum Sums Roots Mem PadModel PadKernels ConvModel PadSpec PadGeom PadIndex PadRound PadBridge PadCases PadForward.
Import ListNotations.

Lemma geometry_thm : forall (L M m : nat) (centered : bool), 1 <= L -> L <= M -> 1 <= m ->
  let p := param_p L m in let P := param_P centered p in
  let n := param_n L M m centered in let q := param_q L M m centered in
  least (fun p => L <= p * m) p /\
  P = (if (p =? 2) || (centered && Nat.even p) then p / 2 else p) /\
  least (fun n => M <= m * (P * n)) n /\
  q = P * n /\ M <= m * q /\ L <= m * q.
Proof.
  intros L M m centered HL HLM Hm p P n q.
  assert (Hn : least (fun n => M <= m * (P * n)) n) by (apply param_n_least; lia).
  split; [apply param_p_least; assumption|]. split.
  - unfold P, param_P. rewrite orb_comm.
    destruct centered; [|reflexivity]. cbn [andb].
    replace (p =? 2 * (p / 2)) with (Nat.even p); [reflexivity|].
    symmetry. apply eq_true_iff_eq. rewrite Nat.eqb_eq, Nat.even_spec.
    split.
    + intros E. exists (p / 2). exact E.
    + intros [k E]. rewrite E. rewrite (Nat.mul_comm 2 k), Nat.div_mul by lia. lia.
  - split; [assumption|]. split; [reflexivity|]. destruct Hn as [Hn _]. change q with (P * n). lia.
Qed.

Lemma loop_terminates_thm : forall t, wf t ->
  exists rs, loop_trace (gR t) (increment t) 0 rs /\
    forall rs', loop_trace (gR t) (increment t) 0 rs' -> rs' = rs.
Proof.
  intros t Hwf. exists (residues t). split; [apply residues_trace; assumption|].
  intros rs' H. eapply trace_det; [exact H|apply residues_trace; assumption].
Qed.
Lemma each_residue_thm : forall t, wf t -> forall rs, loop_trace (gR t) (increment t) 0 rs ->
  forall rr, rr < gq t ->
  exists r e, In r rs /\ gm t * e < noutputs t r /\
    (forall k, k < gm t -> index t r (gm t * e + k) mod gq t = rr) /\
    (forall r' e', In r' rs -> gm t * e' < noutputs t r' ->
       (exists k, k < gm t /\ index t r' (gm t * e' + k) mod gq t = rr) -> r' = r /\ e' = e).
Proof. intros t Hwf rs Htr. apply trace_res in Htr; [|assumption]. subst rs. apply class_unique. assumption. Qed.
Lemma index_bijection_thm : forall t, wf t -> forall rs, loop_trace (gR t) (increment t) 0 rs ->
  Permutation (seq 0 (gM t)) (flat_map (fun r => map (index t r) (seq 0 (noutputs t r))) rs).
Proof. intros t Hwf rs Htr. apply trace_res in Htr; [|assumption]. subst rs. apply index_perm. assumption. Qed.

Definition forward_thm := fun t Hwf How f F W r x m0 rs => forward_b t Hwf f F W r x m0 rs How.
Definition backward_thm := fun t Hwf How f F W r y acc m0 rs => backward_b t Hwf f F W r y acc m0 rs How.
Definition roundtrip_thm := fun t Hwf How f F h W x m0 rs => roundtrip_b t Hwf f F h W x m0 rs How.
Definition oforward_thm := fun t Hwf How f F r W x m0 => oforward_b t Hwf f F r W x m0 How.
Definition obackward_thm := fun t Hwf How f F r W Y m0 => obackward_b t Hwf f F r W Y m0 How.

Lemma pad_thm : forall t, wf t -> forall W m0,
  allocated (gS t) (gC t) W (gl t * gD t) m0 ->
  WP (padW t W) m0 (fun m' =>
    (forall r, padded t W (noutputs t r) m') /\
    only (word (gS t) (gC t) W (gl t * gD t)) m0 m').
Proof.
  intros t Hwf W m0 Ha. eapply WP_mono; [|apply (pad_b t Hwf W m0 Ha)].
  intros m' [H1 H2]. split; [|assumption]. intros r. eapply padded_le; [|exact H1]. apply nout_N. assumption.
Qed.

Lemma WP_det {V} (c : cmd V) m Q : WP c m Q -> exists m', forall o, exec c m o <-> o = OK m'.
Proof. intros (m' & He & _ & Ha). exists m'. intros o. split; [apply Ha|]. intros ->. assumption. Qed.

Lemma forward_inbounds_thm : forall t, wf t -> goverwrite t = false ->
  forall f F W r x m0 rs,
  let W0 := getW F W in let N := noutputs t r in
  let L := gL t in let S := gS t in let C := gC t in
  loop_trace (gR t) (increment t) 0 rs -> In r rs ->
  ainplace t = (W0 =? F) ->
  separate S C f L W0 N -> separate S C f L F N -> (W0 = F \/ separate S C W0 N F N) ->
  has S C f L x m0 -> padded t W0 N m0 ->
  (forall a, word S C F N a \/ word S C W0 N a -> m0 a <> Unalloc) ->
  (forall a, ~ word S C f L a -> ~ word S C F N a -> ~ word S C W0 N a -> m0 a = Unalloc) ->
  forall o, exec (forward t f F r W) m0 o -> o <> UB /\ o <> ExitErr.
Proof.
  intros t Hwf How f F W r x m0 rs W0 N L S C Htr Hr Hin H1 H2 H3 Hx Hp Ha _ o Ho.
  eapply WP_consequence; [|exact Ho]. apply (forward_b t Hwf f F W r x m0 rs); auto.
  - intros i c Hi Hc. apply Ha. right. exists i, c. auto.
  - intros i c Hi Hc. apply Ha. left. exists i, c. auto.
Qed.
Lemma backward_inbounds_thm : forall t, wf t -> goverwrite t = false ->
  forall f F W r y acc m0 rs,
  let W0 := getW F W in let N := noutputs t r in
  let L := gL t in let S := gS t in let C := gC t in
  loop_trace (gR t) (increment t) 0 rs -> In r rs ->
  ainplace t = (W0 =? F) ->
  separate S C f L W0 N -> separate S C f L F N -> (W0 = F \/ separate S C W0 N F N) ->
  has S C F N y m0 -> (r <> 0 -> has S C f L acc m0) ->
  (forall a, word S C f L a \/ word S C W0 N a -> m0 a <> Unalloc) ->
  (forall a, ~ word S C f L a -> ~ word S C F N a -> ~ word S C W0 N a -> m0 a = Unalloc) ->
  forall o, exec (backward t F f r W) m0 o -> o <> UB /\ o <> ExitErr.
Proof.
  intros t Hwf How f F W r y acc m0 rs W0 N L S C Htr Hr Hin H1 H2 H3 Hx Hacc Ha _ o Ho.
  eapply WP_consequence; [|exact Ho]. apply (backward_b t Hwf f F W r y acc m0 rs); auto.
  - intros i c Hi Hc. apply Ha. right. exists i, c. auto.
  - intros i c Hi Hc. apply Ha. left. exists i, c. auto.
Qed.
Lemma pass_fits_thm : forall t, wf t -> forall r, gS t * noutputs t r <= outputSize t.
Proof.
  intros t Hwf r. pose proof (nout_N t Hwf r). unfold outputSize, gb. rewrite <- Nat.mul_assoc.
  apply Nat.mul_le_mono_l. assumption.
Qed.
Lemma forward_det_thm : forall t, wf t -> goverwrite t = false ->
  forall f F W r x m0 rs,
  let W0 := getW F W in let N := noutputs t r in
  let L := gL t in let S := gS t in let C := gC t in
  loop_trace (gR t) (increment t) 0 rs -> In r rs ->
  ainplace t = (W0 =? F) ->
  separate S C f L W0 N -> separate S C f L F N -> (W0 = F \/ separate S C W0 N F N) ->
  has S C f L x m0 -> allocated S C W0 N m0 -> allocated S C F N m0 -> padded t W0 N m0 ->
  exists m', forall o, exec (forward t f F r W) m0 o <-> o = OK m'.
Proof. intros. eapply WP_det. eapply forward_b; eassumption. Qed.
Lemma backward_det_thm : forall t, wf t -> goverwrite t = false ->
  forall f F W r y acc m0 rs,
  let W0 := getW F W in let N := noutputs t r in
  let L := gL t in let S := gS t in let C := gC t in
  loop_trace (gR t) (increment t) 0 rs -> In r rs ->
  ainplace t = (W0 =? F) ->
  separate S C f L W0 N -> separate S C f L F N -> (W0 = F \/ separate S C W0 N F N) ->
  has S C F N y m0 -> allocated S C W0 N m0 -> allocated S C f L m0 ->
  (r <> 0 -> has S C f L acc m0) ->
  exists m', forall o, exec (backward t F f r W) m0 o <-> o = OK m'.
Proof. intros. eapply WP_det. eapply backward_b; eassumption. Qed.

(** *** concrete cases *)
Lemma tr1 : loop_trace (gR case1) (increment case1) 0 [0; 1].
Proof. apply lt_step; [vm_compute; lia|]. apply lt_step; [vm_compute; lia|]. apply lt_stop. vm_compute. lia. Qed.
Lemma sep_blk b n b' n' : b + n <= b' \/ b' + n' <= b -> separate 1 1 b n b' n'.
Proof. intros H a (i & c & Hi & Hc & E) (i' & c' & Hi' & Hc' & E'). lia. Qed.
Lemma has_m0 L : has 1 1 0 L (fun j _ => RtoC (INR (j + 1))) (m0case L).
Proof.
  intros i c Hi Hc. unfold m0case. replace (0 + 1 * i + c) with i by lia.
  destruct (Nat.ltb_spec i L); [reflexivity|lia].
Qed.
Lemma m0_zero L a : L <= a -> m0case L a = Val C0.
Proof. intros H. unfold m0case. destruct (Nat.ltb_spec a L); [lia|reflexivity]. Qed.
Lemma m0_alloc L S C b n : allocated S C b n (m0case L).
Proof. intros i c _ _. unfold m0case. destruct (_ <? _); discriminate. Qed.
Lemma nout1 : noutputs case1 1 = 8. Proof. reflexivity. Qed.

Lemma case1_forward : WP (forward case1 0 100 1 (Some 200)) (m0case 3) (fun m' =>
  m' 101 = Val (Cadd (Cadd C1 (Cmul (RtoC 2) (expi (2 * PI * 4 / 12)))) (Cmul (RtoC 3) (expi (2 * PI * 8 / 12))))).
Proof.
  eapply WP_mono; [|apply (forward_b case1 case1_wf 0 100 (Some 200) 1 (fun j _ => RtoC (INR (j + 1))) (m0case 3) [0; 1])].
  - intros m' (HV & _). specialize (HV 1 0 ltac:(rewrite nout1; lia) ltac:(cbn; lia)).
    change (100 + gS case1 * 1 + 0) with 101 in HV. rewrite HV. f_equal.
    change (index case1 1 1) with 4. change (gM case1) with 12. change (gL case1) with 3. unfold pdft. cbn [Csum].
    change (0 * 4) with 0. change (1 * 4) with 4. change (2 * 4) with 8.
    replace (2 * PI * INR 0 / INR 12)%R with 0%R by (cbn; field). rewrite expi_0.
    replace (INR 4) with 4%R by (cbn; ring). replace (INR 8) with 8%R by (cbn; ring). replace (INR 12) with 12%R by (cbn; ring).
    change (INR (0 + 1)) with 1%R. replace (INR (1 + 1)) with 2%R by (cbn; ring). replace (INR (2 + 1)) with 3%R by (cbn; ring).
    change (RtoC 1) with C1. ring.
  - reflexivity.
  - exact tr1.
  - right; left; reflexivity.
  - reflexivity.
  - rewrite nout1. apply sep_blk. cbn. lia.
  - rewrite nout1. apply sep_blk. cbn. lia.
  - right. rewrite nout1. apply sep_blk. cbn. lia.
  - apply has_m0.
  - apply m0_alloc.
  - apply m0_alloc.
  - intros _ _ _ i c Hi Hc _. apply m0_zero. cbn [getW]. lia.
Qed.
Lemma case2o_forward : WP (forward case2o 0 100 0 None) (m0case 4) (fun m' =>
  has 1 1 100 2 (fun k c => pdft 6 4 (fun j => RtoC (INR (j + 1))) (3 * k + 5)) m').
Proof.
  eapply WP_mono; [|apply (oforward_b case2o case2o_wf 0 100 0 None (fun j _ => RtoC (INR (j + 1))) (m0case 4))].
  - intros m' (_ & HV & _). exact HV.
  - reflexivity.
  - apply sep_blk. cbn. lia.
  - apply has_m0.
  - apply m0_alloc.
Qed.
Lemma case1_roundtrip : WP (rfor [0; 1] (fun r => Seq (padW case1 200)
        (Seq (forward case1 0 100 r (Some 200)) (backward case1 100 300 r (Some 200))))) (m0case 3)
  (fun m' => m' 301 = Val (RtoC 24)).
Proof.
  eapply WP_mono; [|apply (roundtrip_b case1 case1_wf 0 100 300 (Some 200) (fun j _ => RtoC (INR (j + 1))) (m0case 3) [0; 1])].
  - intros m' (HV & _). specialize (HV 1 0 ltac:(cbn; lia) ltac:(cbn; lia)).
    change (300 + gS case1 * 1 + 0) with 301 in HV. rewrite HV. f_equal.
    change (gM case1) with 12. rewrite <- RtoC_mul. f_equal. cbn. ring.
  - reflexivity.
  - exact tr1.
  - reflexivity.
  - apply sep_blk. cbn. lia.
  - apply sep_blk. cbn. lia.
  - right. apply sep_blk. cbn. lia.
  - apply sep_blk. cbn. lia.
  - apply sep_blk. cbn. lia.
  - apply sep_blk. cbn. lia.
  - apply has_m0.
  - apply m0_alloc.
  - apply m0_alloc.
  - apply m0_alloc.
Qed.
Lemma pdft_ipdft M L x j : j < L -> L <= M -> ipdft M (pdft M L x) j = Cmul (RtoC (INR M)) (x j).
Proof.
  intros Hj HL. rewrite <- idft_ipdft. rewrite <- (ConvMath.idft_outv M L x j Hj HL).
  unfold ConvMath.idft. apply Csum_ext. intros k Hk. rewrite outv_pdft. reflexivity.
Qed.
Lemma pdft_mod M L x k : 1 <= M -> pdft M L x (k mod M) = pdft M L x k.
Proof.
  intros HM. rewrite <- !outv_pdft. apply PadMath.outv_mod; [assumption|].
  rewrite Nat2Z.inj_mod, Z.mod_mod by lia. reflexivity.
Qed.
Lemma case2o_roundtrip : WP (Seq (forward case2o 0 100 0 None) (backward case2o 100 0 0 None)) (m0case 4)
  (fun m' => m' 3 = Val (RtoC 24)).
Proof.
  apply WP_seq.
  eapply WP_mono; [|apply (oforward_b case2o case2o_wf 0 100 0 None (fun j _ => RtoC (INR (j + 1))) (m0case 4))].
  - intros m1 (HV & HF & _).
    eapply WP_mono; [|apply (obackward_b case2o case2o_wf 0 100 0 None (fun _ => pdft (gM case2o) (gL case2o) (fun j => RtoC (INR (j + 1)))) m1)].
    + intros m' (HV' & _). specialize (HV' 3 0 ltac:(cbn; lia) ltac:(cbn; lia)).
      change (0 + gS case2o * 3 + 0) with 3 in HV'. rewrite HV'. f_equal.
      rewrite pdft_ipdft by (cbn; lia). change (gM case2o) with 6. rewrite <- RtoC_mul. f_equal. cbn. ring.
    + reflexivity.
    + apply sep_blk. cbn. lia.
    + intros u Hu. apply (HV u Hu).
    + intros k c Hk Hc. rewrite pdft_mod by (cbn; lia). apply HF; assumption.
  - reflexivity.
  - apply sep_blk. cbn. lia.
  - apply has_m0.
  - apply m0_alloc.
Qed.
Lemma case1_inbounds : exists m0 : mem C,
  (forall a, 300 <= a -> m0 a = Unalloc) /\ m0 150 = Unalloc /\ m0 100 = Undef /\
  forall o, exec (forward case1 0 100 1 (Some 200)) m0 o -> o <> UB /\ o <> ExitErr.
Proof.
  exists (fun a => if a <? 3 then Val (RtoC (INR (a + 1))) else
     if (100 <=? a) && (a <? 108) then Undef else
     if (200 <=? a) && (a <? 208) then Val C0 else Unalloc).
  split; [|split; [reflexivity|split; [reflexivity|]]].
  - intros a Ha. destruct (Nat.ltb_spec a 3); [lia|]. destruct (Nat.ltb_spec a 108); [lia|]. destruct (Nat.ltb_spec a 208); [lia|].
    rewrite !andb_false_r. reflexivity.
  - intros o Ho. refine (forward_inbounds_thm case1 case1_wf _ 0 100 (Some 200) 1 (fun j _ => RtoC (INR (j + 1))) _ [0; 1] tr1 _ _ _ _ _ _ _ _ _ o Ho).
    + reflexivity.
    + right; left; reflexivity.
    + reflexivity.
    + rewrite nout1. apply sep_blk. cbn. lia.
    + rewrite nout1. apply sep_blk. cbn. lia.
    + right. rewrite nout1. apply sep_blk. cbn. lia.
    + intros i c Hi Hc. change (gL case1) with 3 in Hi. change (gC case1) with 1 in Hc. change (gS case1) with 1.
      replace (0 + 1 * i + c) with i by lia. destruct (Nat.ltb_spec i 3); [reflexivity|lia].
    + intros _ _ _ i c Hi Hc _. rewrite nout1 in Hi. change (gC case1) with 1 in Hc. change (gS case1) with 1. cbn [getW].
      set (a := 200 + 1 * i + c). assert (200 <= a < 208) by (unfold a; lia).
      destruct (Nat.ltb_spec a 3); [lia|]. destruct (Nat.ltb_spec a 108); [lia|]. destruct (Nat.leb_spec 200 a); [|lia].
      destruct (Nat.ltb_spec a 208); [|lia]. rewrite andb_false_r. reflexivity.
    + intros a [(i & c & Hi & Hc & ->)|(i & c & Hi & Hc & ->)]; rewrite nout1 in Hi; change (gC case1) with 1 in Hc; change (gS case1) with 1; cbn [getW].
      * set (a := 100 + 1 * i + c). assert (100 <= a < 108) by (unfold a; lia).
        destruct (Nat.ltb_spec a 3); [discriminate|]. destruct (Nat.ltb_spec a 108); [|lia]. destruct (Nat.leb_spec 100 a); [|lia]. discriminate.
      * set (a := 200 + 1 * i + c). assert (200 <= a < 208) by (unfold a; lia).
        destruct (Nat.ltb_spec a 3); [discriminate|]. destruct (_ && _); [discriminate|]. destruct (Nat.leb_spec 200 a); [|lia].
        destruct (Nat.ltb_spec a 208); [|lia]. discriminate.
    + intros a Hf HF HW. change (gL case1) with 3 in *. rewrite nout1 in *. change (gC case1) with 1 in *. change (gS case1) with 1 in *. cbn [getW] in *.
      destruct (Nat.ltb_spec a 3); [exfalso; apply Hf; exists a, 0; lia|].
      destruct (Nat.leb_spec 100 a), (Nat.ltb_spec a 108); cbn [andb]; [exfalso; apply HF; exists (a - 100), 0; lia| | |];
      (destruct (Nat.leb_spec 200 a), (Nat.ltb_spec a 208); cbn [andb]; [exfalso; apply HW; exists (a - 200), 0; lia|reflexivity|reflexivity|reflexivity]).
Qed.
