(** The transforms of either class, in the vocabulary of PadSpec. *)
From Coq Require Import Reals ZArith Arith Lia List Bool.
From Verif Require Import CNum Sums Roots Mem VecModel PadModel PadKernels Loops PadLemmas PadForward PadBackward PadSpec PadBridge
  ConvModel ConvSpec Xf XfProofs ConvProofs.
Import ListNotations.

Notation mem := (Mem.mem C).
(** [PadSpec.padded] for either class *)
Definition padded (t : xf) (W N : nat) (mm : mem) : Prop :=
  ainplace t = false -> gL t < gm t -> gq t <> 1 ->
  forall i c, i < N -> c < gC t -> gL t <= i mod gm t -> mm (W + gS t * i + c) = Val C0.
Lemma padded_wzero t W N mm : wf t -> padded t W N mm <-> wzero t W N mm.
Proof.
  intros Hwf. unfold padded, wzero, repad. split.
  - intros H Hr Hq Hp i c Hi Hc HL. apply andb_true_iff in Hr. destruct Hr as [Hi' HLm].
    apply Nat.ltb_lt in HLm. apply H; try assumption. destruct (ainplace t); [discriminate|reflexivity].
  - intros H Hi Hlm Hq i c Hic Hc HL. apply H; try assumption.
    + rewrite Hi. cbn [negb andb]. apply Nat.ltb_lt. assumption.
    + pose proof (wf_L t Hwf) as H1. unfold gp, PadModel.gp, param_p, PadModel.cq.
      change (PadModel.aL (xpad t)) with (gL t). change (am (xpad t)) with (gm t).
      symmetry. apply Nat.div_unique with (r := gL t - 1); lia.
Qed.

Section T.
Variable t : xf.
Hypothesis Hwf : wf t.
Notation L := (gL t). Notation SS := (gS t). Notation CC := (gC t). Notation l := (gl t). Notation M := (gM t).

Lemma forward_b f F W r x (m0 : mem) :
  let W0 := getW F W in let N := noutputs t r in
  goverwrite t = false -> In r (residues t) -> ainplace t = (W0 =? F) ->
  separate SS CC f L W0 N -> separate SS CC f L F N -> (W0 = F \/ separate SS CC W0 N F N) ->
  has SS CC f L x m0 -> allocated SS CC W0 N m0 -> allocated SS CC F N m0 -> padded t W0 N m0 ->
  WP (forward t f F r W) m0 (fun m' =>
    has SS CC F N (fun i c => odft (origin t) M L (fun j => x j c) (index t r i)) m' /\
    padded t W0 N m' /\
    only (fun a => word SS CC F N a \/ word SS CC W0 N a) m0 m').
Proof.
  intros W0 N How Hr Hin H1 H2 H3 Hx Ha1 Ha2 Hp.
  apply (forward_spec t Hwf f F W r x m0); try assumption.
  - apply sep_sepbuf; assumption.
  - apply sep_sepbuf; assumption.
  - destruct H3 as [H3|H3]; [left; assumption|right; apply sep_sepbuf; assumption].
  - apply (padded_wzero t _ _ _ Hwf). assumption.
  - intros m' HV HF Hz Hal. split; [|split; [|split]].
    + intros i c Hi Hc. rewrite <- outx_odft. apply HV; assumption.
    + apply (padded_wzero t _ _ _ Hwf). assumption.
    + intros a Hn. apply HF; intros Hw; apply Hn; [left|right]; exact Hw.
    + exact Hal.
Qed.

Lemma backward_b f F W r y acc (m0 : mem) :
  let W0 := getW F W in let N := noutputs t r in
  goverwrite t = false -> In r (residues t) -> ainplace t = (W0 =? F) ->
  separate SS CC f L W0 N -> separate SS CC f L F N -> (W0 = F \/ separate SS CC W0 N F N) ->
  has SS CC F N y m0 -> allocated SS CC W0 N m0 -> allocated SS CC f L m0 ->
  (r <> 0 -> has SS CC f L acc m0) ->
  WP (backward t F f r W) m0 (fun m' =>
    has SS CC f L (fun j c => Cadd (if r =? 0 then C0 else acc j c) (badd t r (fun i => y i c) j)) m' /\
    only (fun a => word SS CC f L a \/ word SS CC W0 N a \/ word SS CC F N a) m0 m').
Proof.
  intros W0 N How Hr Hin H1 H2 H3 Hy Ha1 Ha2 Hacc.
  apply (backward_spec t Hwf f F W r y acc m0); try assumption.
  - apply sep_sepbuf; assumption.
  - apply sep_sepbuf; assumption.
  - destruct H3 as [H3|H3]; [left; assumption|right; apply sep_sepbuf; assumption].
  - intros m' HV HF Hal. split; [|split].
    + intros j c Hj Hc. apply HV; assumption.
    + intros a Hn. apply HF; intros Hw; apply Hn; [left|right; left|right; right]; exact Hw.
    + exact Hal.
Qed.

Lemma pad_x W (m0 : mem) : allocated SS CC W (l * gD t) m0 ->
  WP (padW t W) m0 (fun m' => (forall r, padded t W (noutputs t r) m') /\ only (word SS CC W (l * gD t)) m0 m').
Proof.
  intros Ha. destruct t as [s|s]; [exact (PadProofs.pad_thm s Hwf W m0 Ha)|].
  cbn [padW]. apply WP_skip. split; [|split; auto].
  intros r. apply (padded_wzero (CP s) _ _ _ Hwf). intros _ Hq Hp. destruct (gp_q1 (CP s) Hwf Hq Hp).
Qed.

(** overwrite mode: the frequency of row k of residue u *)
Definition ofr (u k : nat) : nat := Z.to_nat (ofreq t u k mod Z.of_nat M).
Lemma ofr_lt u k : ofr u k < M.
Proof. pose proof (M_pos t Hwf). unfold ofr. pose proof (Z.mod_pos_bound (ofreq t u k) (Z.of_nat M) ltac:(lia)). lia. Qed.
Lemma ofr_Z u k : (Z.of_nat (ofr u k) mod Z.of_nat M = ofreq t u k mod Z.of_nat M)%Z.
Proof.
  pose proof (M_pos t Hwf). unfold ofr. pose proof (Z.mod_pos_bound (ofreq t u k) (Z.of_nat M) ltac:(lia)).
  rewrite Z2Nat.id by lia. apply Z.mod_mod. lia.
Qed.

Section O.
Hypothesis How : goverwrite t = true.
Notation p := (gn t - 1).
Lemma oforward_b f F r W x (m0 : mem) :
  separate SS CC f L F l -> has SS CC f L x m0 -> allocated SS CC F l m0 ->
  WP (forward t f F r W) m0 (fun m' =>
    (forall u, u < p -> has SS CC (f + SS * (l * u)) l (fun k c => odft (origin t) M L (fun j => x j c) (ofr u k)) m') /\
    has SS CC F l (fun k c => odft (origin t) M L (fun j => x j c) (ofr p k)) m' /\
    only (fun a => word SS CC F l a \/ word SS CC f L a) m0 m').
Proof.
  intros Hs Hx HF. destruct (ow_facts t Hwf How) as (_ & _ & _ & Hn & _).
  apply (oforward_spec t Hwf How f F r W x m0); [apply sep_sepbuf; assumption|assumption|assumption|].
  intros m' HV HFr Hal. split; [|split; [|split]].
  - intros u Hu k c Hk Hc. specialize (HV u k c ltac:(lia) Hk Hc). unfold oaddr in HV.
    destruct (Nat.ltb_spec u p); [|lia].
    replace (f + SS * (l * u) + SS * k + c) with (f + SS * (l * u + k) + c) by lia. rewrite HV. f_equal.
    rewrite <- outx_odft. apply outx_mod; [exact Hwf|]. symmetry. apply ofr_Z.
  - intros k c Hk Hc. specialize (HV p k c ltac:(lia) Hk Hc). unfold oaddr in HV. rewrite Nat.ltb_irrefl in HV.
    rewrite HV. f_equal. rewrite <- outx_odft. apply outx_mod; [exact Hwf|]. symmetry. apply ofr_Z.
  - intros a Ha. apply HFr; intros Hw; apply Ha; [left|right]; exact Hw.
  - exact Hal.
Qed.
Lemma obackward_b f F r W (Y : nat -> nat -> C) (m0 : mem) :
  separate SS CC f L F l ->
  (forall u, u < p -> has SS CC (f + SS * (l * u)) l (fun k c => Y c (ofr u k)) m0) ->
  has SS CC F l (fun k c => Y c (ofr p k)) m0 ->
  WP (backward t F f r W) m0 (fun m' =>
    has SS CC f L (fun j c => oidft (origin t) M (Y c) j) m' /\
    only (fun a => word SS CC F l a \/ word SS CC f L a) m0 m').
Proof.
  intros Hs Hf HF. destruct (ow_facts t Hwf How) as (_ & _ & _ & Hn & _). pose proof (M_pos t Hwf) as HM.
  apply (obackward_spec t Hwf How f F r W (fun c k => Y c (Z.to_nat (k mod Z.of_nat M))) m0); [apply sep_sepbuf; assumption| | |].
  - intros c k k' E. rewrite E. reflexivity.
  - intros u k c Hu Hk Hc. change (Z.to_nat (ofreq t u k mod Z.of_nat M)) with (ofr u k). unfold oaddr. destruct (Nat.ltb_spec u p).
    + replace (f + SS * (l * u + k) + c) with (f + SS * (l * u) + SS * k + c) by lia. apply Hf; assumption.
    + assert (u = p) by lia. subst u. apply HF; assumption.
  - intros m' HV HFr Hal. split; [|split].
    + intros j c Hj Hc. rewrite HV by assumption. f_equal. rewrite idftx_odft. unfold oidft. apply Csum_ext. intros k Hk.
      rewrite Z.mod_small by lia. rewrite Nat2Z.id. reflexivity.
    + intros a Ha. apply HFr; intros Hw; apply Ha; [left|right]; exact Hw.
    + exact Hal.
Qed.
End O.
End T.
