(** What the convolution proofs need of an fftPad or fftPadCentered transform. *)
From Coq Require Import Reals ZArith Arith Lia List Bool Permutation.
From Verif Require Import CNum Sums Roots Mem VecModel PadModel PadKernels Loops
  PadLemmas PadMath PadGeom PadIndex Fwd1 FwdAll PadForward PadBackward PadSpec PadRound PadBridge ConvMath.
From Verif Require CenModel CenSpec CenGeom CenMath CenPass CenIndex CenOv CenForward CenExp CenBackward.
From Verif Require Import Xf.
Import ListNotations.

(** *** geometry *)
Section G.
Variable t : xf.
Hypothesis Hwf : wf t.
Lemma wf_L : 1 <= gL t. Proof. destruct t; apply Hwf. Qed.
Lemma wf_C : 1 <= gC t. Proof. destruct t; apply Hwf. Qed.
Lemma wf_CS : gC t <= gS t. Proof. destruct t; apply Hwf. Qed.
Lemma wf_m : 1 <= gm t. Proof. destruct t; apply Hwf. Qed.
Lemma wf_D : 1 <= gD t.
Proof. destruct t as [s|s]; [apply (PadGeom.wf_D s Hwf)|apply (CenGeom.k_D s Hwf)]. Qed.
Lemma wf_LM : gL t <= gM t.
Proof. destruct t as [s|s]; [apply (PadGeom.wf_LM s Hwf)|apply (CenBackward.kL_M s Hwf)]. Qed.
Lemma M_pos : 1 <= gM t.
Proof. pose proof wf_L. pose proof wf_LM. lia. Qed.
Lemma wf_aM : aM t <= gM t. Proof. destruct t; apply Hwf. Qed.
Lemma S1_C1 : gS t = 1 -> gC t = 1.
Proof. pose proof wf_C. pose proof wf_CS. lia. Qed.
Lemma D0_bounds : 1 <= gD0 t <= gD t.
Proof.
  destruct t as [s|s]; [apply (PadGeom.D0_bounds s Hwf)|].
  pose proof (PadGeom.D0_bounds (CenPass.sh s) (CenPass.sh_wf s Hwf)) as H.
  rewrite (CenPass.sh_D0 s Hwf), (CenPass.sh_D s Hwf) in H. exact H.
Qed.
Lemma l_pos : 1 <= gl t.
Proof.
  destruct t as [s|s].
  - cbn [gl]. rewrite (l_eq s Hwf). pose proof (PadGeom.wf_m s Hwf). pose proof (P_pos s Hwf). nia.
  - apply (CenPass.sh_l s Hwf).
Qed.
Lemma noutputs_pos r : 1 <= noutputs t r.
Proof.
  unfold noutputs, blocksize. pose proof l_pos. pose proof D0_bounds. pose proof wf_D.
  destruct (r =? 0); nia.
Qed.
Lemma valid_D1 : gS t <> 1 -> gD t = 1.
Proof.
  destruct t as [s|s]; intros H; cbn [gD gS] in *.
  - destruct Hwf as (_ & _ & _ & _ & _ & _ & _ & Hv). unfold PadModel.valid in Hv.
    destruct (PadModel.gq s =? 1); [apply Nat.eqb_eq; assumption|].
    destruct (Nat.eqb_spec (PadModel.gS s) 1) as [E|E]; [contradiction|].
    cbn [andb] in Hv. rewrite orb_false_r in Hv. apply Nat.eqb_eq. exact Hv.
  - destruct (Nat.eq_dec (CenModel.kq s) 1) as [Hq|Hq]; [unfold CenModel.kD; rewrite Hq; reflexivity|].
    apply (CenGeom.k_D1 s Hwf Hq H).
Qed.
Lemma gp_q1 : match t with FP _ => True | CP _ => gq t <> 1 -> gp t <> 1 end.
Proof.
  destruct t as [s|s]; [exact Logic.I|]. intros Hq E. destruct (CenGeom.k_even s Hwf Hq) as [H1 H2].
  change (CenModel.kp s = 1) in E. lia.
Qed.
End G.

Lemma D0_D1 t : gD t = 1 -> gD0 t = 1.
Proof.
  destruct t as [s|s]; [apply PadGeom.D0_D1|]. cbn [gD gD0]. unfold CenModel.kD0. intros ->.
  destruct (CenModel.kq s =? 1); [reflexivity|]. rewrite Nat.mod_1_r. reflexivity.
Qed.
Lemma q1_D t : gq t = 1 -> gD t = 1.
Proof. destruct t as [s|s]; cbn [gq gD]; [unfold PadModel.gD|unfold CenModel.kD]; intros ->; reflexivity. Qed.
Lemma q1_ow t : gq t = 1 -> goverwrite t = false.
Proof. destruct t as [s|s]; cbn [gq goverwrite]; [unfold PadModel.goverwrite|unfold CenModel.koverwrite]; intros ->; reflexivity. Qed.

(** *** the residue loop *)
Definition shx (t : xf) : pad := match t with FP s => s | CP s => CenPass.sh s end.
Lemma shx_wf t : wf t -> PadModel.wf (shx t).
Proof. destruct t as [s|s]; [auto|apply CenPass.sh_wf]. Qed.
Lemma residues_shx t : wf t -> residues t = PadIndex.residues (shx t).
Proof.
  destruct t as [s|s]; [reflexivity|]. intros Hwf. unfold residues, PadIndex.residues. cbn [shx gR].
  rewrite (CenPass.sh_R s Hwf). generalize (CenModel.kR s) as fuel. generalize 0 as r.
  intros r fuel. revert r. induction fuel as [|fuel IH]; intros r; [reflexivity|].
  cbn [rloop PadIndex.rloop gR increment]. rewrite (CenPass.sh_R s Hwf), (CenPass.sh_inc s Hwf), IH. reflexivity.
Qed.
Lemma residues_shape t : wf t -> exists k,
  residues t = 0 :: map (fun i => increment t 0 + gdr t * i) (seq 0 k) /\
  1 <= increment t 0 /\ 1 <= gdr t /\ (gq t = 1 -> k = 0) /\ gn t = gD0 t + gD t * k.
Proof.
  intros Hwf. rewrite (residues_shx t Hwf).
  destruct (PadIndex.residues_shape (shx t) (shx_wf t Hwf)) as (k & ER & _ & _ & H1 & H2 & _ & H3 & H4).
  exists k. destruct t as [s|s]; cbn [shx] in *; [auto|].
  rewrite (CenPass.sh_inc s Hwf) in *. rewrite (CenPass.sh_dr s Hwf) in *.
  rewrite (CenPass.sh_n s Hwf), (CenPass.sh_D0 s Hwf), (CenPass.sh_D s Hwf) in H4.
  split; [exact ER|]. split; [exact H1|]. split; [exact H2|]. split; [|exact H4].
  intros Hq. apply H3. apply Nat.eqb_eq. rewrite (CenPass.sh_q1 s Hwf). apply Nat.eqb_eq. exact Hq.
Qed.
Lemma q1_residues t : wf t -> gq t = 1 -> residues t = [0].
Proof. intros Hwf Hq. destruct (residues_shape t Hwf) as (k & ER & _ & _ & H & _). rewrite (H Hq) in ER. exact ER. Qed.
Lemma residues_trace t : wf t -> loop_trace (gR t) (increment t) 0 (residues t).
Proof.
  intros Hwf. rewrite (residues_shx t Hwf). pose proof (PadRound.residues_trace _ (shx_wf t Hwf)) as H.
  destruct t as [s|s]; [exact H|]. apply (CenIndex.ktrace_back s Hwf). exact H.
Qed.
Lemma trace_res t : wf t -> forall rs, loop_trace (gR t) (increment t) 0 rs -> rs = residues t.
Proof. intros Hwf rs H. eapply trace_det; [exact H|]. apply residues_trace. assumption. Qed.

Definition all_indices (t : xf) : list nat :=
  flat_map (fun r => map (index t r) (seq 0 (noutputs t r))) (residues t).
Lemma index_perm t : wf t -> Permutation (seq 0 (gM t)) (all_indices t).
Proof.
  destruct t as [s|s]; intros Hwf; [apply (PadIndex.index_perm s Hwf)|].
  apply (CenIndex.kindex_perm s Hwf). apply (residues_trace (CP s) Hwf).
Qed.
Lemma index_lt t : wf t -> forall r i, In r (residues t) -> i < noutputs t r -> index t r i < gM t.
Proof.
  intros Hwf r i Hr Hi. assert (H : In (index t r i) (seq 0 (gM t))).
  { eapply Permutation_in; [apply Permutation_sym, index_perm; assumption|]. apply in_flat_map. exists r. split; [assumption|].
    apply in_map, in_seq. lia. }
  apply in_seq in H. lia.
Qed.

(** *** transforms with an origin *)
Definition outx (t : xf) (x : nat -> C) (k : Z) : C :=
  Csum (gL t) (fun j => Cmul (x j) (zeta (gM t) ((Z.of_nat j - Z.of_nat (origin t)) * k))).
Definition idftx (t : xf) (y : nat -> C) (j : nat) : C :=
  Csum (gM t) (fun k => Cmul (y k) (zeta (gM t) (- ((Z.of_nat j - Z.of_nat (origin t)) * Z.of_nat k)))).
Definition badd (t : xf) (r : nat) (y : nat -> C) (j : nat) : C :=
  Csum (noutputs t r) (fun i => Cmul (y i) (zeta (gM t) (- ((Z.of_nat j - Z.of_nat (origin t)) * Z.of_nat (index t r i))))).
Definition bpass (t : xf) (r : nat) (acc y : nat -> C) (j : nat) : C :=
  Cadd (if r =? 0 then C0 else acc j) (badd t r y j).

Lemma outx_F s x k : outx (FP s) x k = outv (PadModel.gM s) (PadModel.gL s) x k.
Proof. unfold outx, outv. apply Csum_ext. intros j _. cbn [origin gM]. rewrite Z.sub_0_r. reflexivity. Qed.
Lemma idftx_F s y j : idftx (FP s) y j = idft (PadModel.gM s) y j.
Proof. unfold idftx, idft. apply Csum_ext. intros k _. cbn [origin gM]. rewrite Z.sub_0_r. reflexivity. Qed.
Lemma badd_F s r y j : badd (FP s) r y j = PadBackward.badd s r y j.
Proof. unfold badd, PadBackward.badd. apply Csum_ext. intros k _. cbn [origin gM]. rewrite Z.sub_0_r. reflexivity. Qed.
Lemma outx_C s x k : outx (CP s) x (Z.of_nat k) = CenSpec.cpdft (CenModel.kM s) (PadModel.aL s) x k.
Proof. rewrite <- CenIndex.outc_cpdft. reflexivity. Qed.
Lemma badd_C s r y j : badd (CP s) r y j =
  CenSpec.cpartial_inverse (CenModel.kM s) (PadModel.aL s) (CenModel.knoutputs s r) (CenModel.kindex s r) y j.
Proof. unfold badd, CenSpec.cpartial_inverse. apply Csum_ext. intros i _. rewrite CenIndex.zeta_c_neg. reflexivity. Qed.
Lemma idftx_C s y j : idftx (CP s) y j = CenSpec.cipdft (CenModel.kM s) (PadModel.aL s) y j.
Proof. unfold idftx, CenSpec.cipdft, CenSpec.cpartial_inverse. apply Csum_ext. intros i _. rewrite CenIndex.zeta_c_neg. reflexivity. Qed.

Lemma outx_mod t x k k' : wf t -> (k mod Z.of_nat (gM t) = k' mod Z.of_nat (gM t))%Z -> outx t x k = outx t x k'.
Proof.
  intros Hwf E. pose proof (M_pos t Hwf). unfold outx. apply Csum_ext. intros j _. f_equal. apply zeta_mod_eq; [lia|].
  rewrite Z.mul_mod, E, <- Z.mul_mod by lia. reflexivity.
Qed.
Lemma outx_ext t x x' k : (forall j, j < gL t -> x j = x' j) -> outx t x k = outx t x' k.
Proof. intros H. unfold outx. apply Csum_ext. intros j Hj. rewrite H by assumption. reflexivity. Qed.
Lemma idftx_ext t y y' j : (forall k, k < gM t -> y k = y' k) -> idftx t y j = idftx t y' j.
Proof. intros H. unfold idftx. apply Csum_ext. intros k Hk. rewrite H by assumption. reflexivity. Qed.

Lemma pass_sum t : wf t -> forall (y : nat -> C) j,
  csl (residues t) (fun r => badd t r (fun i => y (index t r i)) j) = idftx t y j.
Proof.
  intros Hwf y j. unfold badd, idftx. set (g := fun k => Cmul (y k) (zeta (gM t) (- ((Z.of_nat j - Z.of_nat (origin t)) * Z.of_nat k)))).
  transitivity (csl (residues t) (fun r => csl (map (index t r) (seq 0 (noutputs t r))) g)).
  - apply csl_ext. intros r. rewrite csl_map, csl_seq. reflexivity.
  - rewrite <- csl_flat_map. rewrite <- (csl_seq (gM t) g). apply csl_perm. apply Permutation_sym, index_perm. assumption.
Qed.

Lemma idftx_outx t : wf t -> forall x j, j < gL t ->
  idftx t (fun k => outx t x (Z.of_nat k)) j = Cmul (RtoC (INR (gM t))) (x j).
Proof.
  intros Hwf x j Hj. pose proof (wf_LM t Hwf) as HM. destruct t as [s|s].
  - rewrite idftx_F. transitivity (idft (PadModel.gM s) (fun k => outv (PadModel.gM s) (PadModel.gL s) x (Z.of_nat k)) j); [|apply (idft_outv _ _ x j Hj HM)].
    unfold idft. apply Csum_ext. intros k _. rewrite outx_F. reflexivity.
  - rewrite idftx_C. etransitivity; [|apply (CenBackward.cipdft_cpdft s x j Hj HM)]. unfold CenSpec.cipdft, CenSpec.cpartial_inverse.
    apply Csum_ext. intros k _. rewrite outx_C. reflexivity.
Qed.

(** *** forward and backward *)
Definition wzero (t : xf) (W N : nat) (mm : mem) : Prop :=
  repad t = true -> gq t <> 1 -> gp t = 1 -> forall i c, i < N -> c < gC t ->
  gL t <= i mod gm t -> mm (W + gS t * i + c) = Val C0.

Lemma forward_spec t : wf t -> forall f F W r (x : nat -> nat -> C) (m0 : mem) (K : mem -> Prop),
  let W0 := getW F W in let N := noutputs t r in
  goverwrite t = false -> In r (residues t) -> ainplace t = (W0 =? F) ->
  sepbuf (gS t) (gC t) f (gL t) W0 N -> sepbuf (gS t) (gC t) f (gL t) F N ->
  W0 = F \/ sepbuf (gS t) (gC t) W0 N F N ->
  (forall i c, i < gL t -> c < gC t -> m0 (f + gS t * i + c) = Val (x i c)) ->
  (forall i c, i < N -> c < gC t -> m0 (W0 + gS t * i + c) <> Unalloc) ->
  (forall i c, i < N -> c < gC t -> m0 (F + gS t * i + c) <> Unalloc) ->
  wzero t W0 N m0 ->
  (forall m',
     (forall i c, i < N -> c < gC t -> m' (F + gS t * i + c) = Val (outx t (fun j => x j c) (Z.of_nat (index t r i)))) ->
     (forall a, ~ inbuf (gS t) (gC t) F N a -> ~ inbuf (gS t) (gC t) W0 N a -> m' a = m0 a) ->
     wzero t W0 N m' -> (forall a, m0 a <> Unalloc -> m' a <> Unalloc) -> K m') ->
  WP (forward t f F r W) m0 K.
Proof.
  intros Hwf f F W r x m0 K W0 N How Hr Hin H1 H2 H3 Hx HW HF Hz HK. destruct t as [s|s].
  - eapply (PadForward.forward_spec s Hwf f F W r x m0 K); try eassumption.
    { apply (residues_passr s Hwf). exact Hr. }
    intros m' HV HFr Hz' Hal. apply HK; try assumption.
    intros i c Hi Hc. rewrite outx_F. apply HV; assumption.
  - eapply WP_mono; [|apply (CenForward.cforward_spec s Hwf f F W r x m0); try eassumption].
    + intros m' (HV & HFr & Hal). apply HK; try assumption.
      * intros i c Hi Hc. cbn [index]. rewrite outx_C. apply HV; assumption.
      * intros _ Hq Hp. destruct (gp_q1 (CP s) Hwf Hq Hp).
    + apply (residues_passr _ (CenPass.sh_wf s Hwf)). rewrite (residues_shx (CP s) Hwf) in Hr. exact Hr.
Qed.

Lemma backward_spec t : wf t -> forall f F W r (y acc : nat -> nat -> C) (m0 : mem) (K : mem -> Prop),
  let W0 := getW F W in let N := noutputs t r in
  goverwrite t = false -> In r (residues t) -> ainplace t = (W0 =? F) ->
  sepbuf (gS t) (gC t) f (gL t) W0 N -> sepbuf (gS t) (gC t) f (gL t) F N ->
  W0 = F \/ sepbuf (gS t) (gC t) W0 N F N ->
  (forall i c, i < N -> c < gC t -> m0 (F + gS t * i + c) = Val (y i c)) ->
  (forall i c, i < N -> c < gC t -> m0 (W0 + gS t * i + c) <> Unalloc) ->
  (forall j c, j < gL t -> c < gC t -> m0 (f + gS t * j + c) <> Unalloc) ->
  (r <> 0 -> forall j c, j < gL t -> c < gC t -> m0 (f + gS t * j + c) = Val (acc j c)) ->
  (forall m',
     (forall j c, j < gL t -> c < gC t -> m' (f + gS t * j + c) = Val (bpass t r (fun k => acc k c) (fun k => y k c) j)) ->
     (forall a, ~ inbuf (gS t) (gC t) f (gL t) a -> ~ inbuf (gS t) (gC t) W0 N a -> ~ inbuf (gS t) (gC t) F N a -> m' a = m0 a) ->
     (forall a, m0 a <> Unalloc -> m' a <> Unalloc) -> K m') ->
  WP (backward t F f r W) m0 K.
Proof.
  intros Hwf f F W r y acc m0 K W0 N How Hr Hin H1 H2 H3 Hy HW Hf Hacc HK. destruct t as [s|s].
  - eapply (PadBackward.backward_spec s Hwf f F W r y acc m0 K); try eassumption.
    { apply (residues_passr s Hwf). exact Hr. }
    intros m' HV HFr Hal. apply HK; try assumption.
    + intros j c Hj Hc. unfold bpass. rewrite badd_F. apply HV; assumption.
    + intros a A1 A2 _. apply HFr; assumption.
  - eapply WP_mono; [|apply (CenBackward.cbackward_spec s Hwf f F W r y acc m0); try eassumption].
    + intros m' (HV & HFr & Hal). apply HK; try assumption.
      intros j c Hj Hc. unfold bpass. rewrite badd_C. apply HV; assumption.
    + apply (residues_passr _ (CenPass.sh_wf s Hwf)). rewrite (residues_shx (CP s) Hwf) in Hr. exact Hr.
Qed.

(** *** overwrite *)
(** where output k of residue u is left, and its frequency *)
Definition oaddr (t : xf) (f F u k c : nat) : nat :=
  if u <? gn t - 1 then f + gS t * (gl t * u + k) + c else F + gS t * k + c.
Definition ofreq (t : xf) (u k : nat) : Z :=
  (Z.of_nat (gq t) * Z.of_nat (k mod gm t) + Z.of_nat (gn t) * Z.of_nat (k / gm t) + orho u)%Z.

Lemma ow_facts t : wf t -> goverwrite t = true ->
  gq t <> 1 /\ ainplace t = true /\ gL t = (gn t - 1) * gl t /\ 2 <= gn t /\ gD t = 1 /\ aB t <= aA t.
Proof.
  intros Hwf How. destruct t as [s|s].
  - destruct (FwdAll.ow_facts s Hwf How) as (Hq & Hi & HL & Hn & HD & Hp2 & Hqp & Hsg).
    pose proof (wf_p s Hwf) as Hp1. cbn [gq gn gD gl]. unfold ainplace, gL, aL, aB, aA. cbn [xpad].
    split; [assumption|]. split; [assumption|]. split; [rewrite (l_eq s Hwf), (P_small s Hwf) by lia; change (PadModel.aL s) with (PadModel.gL s); rewrite HL, Hn; lia|].
    split; [lia|]. split; [assumption|].
    cbn [goverwrite] in How. unfold PadModel.goverwrite in How. destruct (PadModel.gq s =? 1); [discriminate|].
    repeat rewrite andb_true_iff in How. destruct How as (((_ & H) & _) & _). apply Nat.leb_le in H. assumption.
  - cbn [goverwrite wf] in *. pose proof How as H. unfold CenModel.koverwrite in H.
    destruct (Nat.eqb_spec (CenModel.kq s) 1) as [|Hq]; [discriminate|].
    repeat rewrite andb_true_iff in H. destruct H as (((((Hi & HL) & Hn) & HD) & HB) & _).
    apply Nat.eqb_eq in HL, Hn, HD. apply Nat.leb_le in HB.
    cbn [gq gn gD gl]. unfold ainplace, gL, aL, aB, aA. cbn [xpad].
    split; [assumption|]. split; [assumption|]. split; [|split; [lia|split; [assumption|assumption]]].
    change (PadModel.gL s) with (PadModel.aL s). rewrite HL, Hn. destruct (CenGeom.k_even s Hwf Hq) as [He _].
    unfold CenModel.kl. apply Nat.eqb_neq in Hq. rewrite Hq. apply Nat.eqb_neq in Hq. rewrite (CenGeom.k_P s). nia.
Qed.

Lemma idiv m k : 1 <= m -> k = m * (k / m) + k mod m /\ k mod m < m.
Proof. intros H. split; [apply Nat.div_mod; lia|apply Nat.mod_upper_bound; lia]. Qed.

Lemma sepbuf_separate SS CC f L F N : sepbuf SS CC f L F N -> separate SS CC f L F N.
Proof. intros H a (i & c & Hi & Hc & E) (i' & c' & Hi' & Hc' & E'). apply (H i c i' c'); congruence. Qed.

Section O.
Variable t : xf.
Hypothesis Hwf : wf t.
Hypothesis How : goverwrite t = true.

Lemma oforward_spec f F r W (x : nat -> nat -> C) (m0 : mem) (K : mem -> Prop) :
  sepbuf (gS t) (gC t) f (gL t) F (gl t) ->
  (forall i c, i < gL t -> c < gC t -> m0 (f + gS t * i + c) = Val (x i c)) ->
  (forall i c, i < gl t -> c < gC t -> m0 (F + gS t * i + c) <> Unalloc) ->
  (forall m',
     (forall u k c, u < gn t -> k < gl t -> c < gC t -> m' (oaddr t f F u k c) = Val (outx t (fun j => x j c) (ofreq t u k))) ->
     (forall a, ~ inbuf (gS t) (gC t) F (gl t) a -> ~ inbuf (gS t) (gC t) f (gL t) a -> m' a = m0 a) ->
     (forall a, m0 a <> Unalloc -> m' a <> Unalloc) -> K m') ->
  WP (forward t f F r W) m0 K.
Proof.
  intros Hs Hx HF HK. destruct (ow_facts t Hwf How) as (Hq & Hin & HL & Hn & HD & HAB). pose proof (wf_m t Hwf) as Hm.
  destruct t as [s|s].
  - destruct (FwdAll.ow_facts s Hwf How) as (_ & _ & HLp & Hnp & _ & Hp2 & _ & _).
    assert (El : gl s = PadModel.gm s) by (cbn [gl]; rewrite (l_eq s Hwf), (P_small s Hwf) by lia; lia).
    assert (En : gn s = PadModel.gp s + 1) by exact Hnp.
    rewrite El in *.
    apply (PadBackward.oforward_spec s Hwf How f F r W x m0 K); [assumption|assumption|assumption|].
    intros m' HV HFr Hal. apply HK; [|assumption|assumption].
    intros u k c Hu Hk Hc. rewrite outx_F. unfold ofreq. cbn [gm xpad] in *.
    change (gm s) with (PadModel.gm s) in *.
    rewrite (Nat.mod_small k _ Hk), (Nat.div_small k _ Hk), Z.mul_0_r, Z.add_0_r.
    etransitivity; [|apply (HV u k c); try assumption; lia]. f_equal. unfold oaddr, PadBackward.oaddr.
    replace (gn s - 1) with (PadModel.gp s) by lia. rewrite El. reflexivity.
  - eapply WP_mono; [|apply (CenForward.coforward_b s Hwf f F r W x m0 How)].
    + intros m' (HV & HO & Hal). apply HK.
      * intros u k c Hu Hk Hc. destruct (idiv (gm (CP s)) k Hm) as [Ek Ekm].
        assert (Hn3 : CenModel.kn s = 3). { destruct (CenOv.ov_facts s How) as (_ & _ & H & _). exact H. }
        assert (HuP : k / gm (CP s) < CenModel.kP s).
        { apply Nat.div_lt_upper_bound; [lia|]. cbn [gl] in Hk. unfold CenModel.kl in Hk.
          destruct (Nat.eqb_spec (CenModel.kq s) 1); [contradiction|]. exact Hk. }
        destruct (HV _ HuP) as (V0 & V1 & V2). unfold oaddr, ofreq. cbn [gn gl gq] in *. rewrite Hn3 in *. cbn [Nat.sub].
        specialize (V0 _ c Ekm Hc). specialize (V1 _ c Ekm Hc). specialize (V2 _ c Ekm Hc).
        change (PadModel.am s) with (gm (CP s)) in *. change (PadModel.aS s) with (gS (CP s)) in *.
        destruct u as [|[|[|u]]]; [| | |lia]; cbn [Nat.ltb Nat.leb orho Nat.eqb].
        -- cbv beta in V0. rewrite <- outx_C in V0.
           replace (f + gS (CP s) * (CenModel.kl s * 0 + k) + c) with
             (f + gS (CP s) * (gm (CP s) * (k / gm (CP s))) + gS (CP s) * (k mod gm (CP s)) + c) by (rewrite Ek at 3; lia).
           rewrite V0. f_equal. f_equal. lia.
        -- cbv beta in V1. rewrite <- outx_C in V1.
           replace (f + gS (CP s) * (CenModel.kl s * 1 + k) + c) with
             (f + gS (CP s) * (CenModel.kl s + gm (CP s) * (k / gm (CP s))) + gS (CP s) * (k mod gm (CP s)) + c) by (rewrite Ek at 3; lia).
           rewrite V1. f_equal. f_equal. lia.
        -- cbv beta in V2. rewrite <- outx_C in V2.
           replace (F + gS (CP s) * k + c) with
             (F + gS (CP s) * (gm (CP s) * (k / gm (CP s))) + gS (CP s) * (k mod gm (CP s)) + c) by (rewrite Ek at 3; lia).
           rewrite V2. f_equal. apply outx_mod; [assumption|]. pose proof (M_pos (CP s) Hwf) as HM. cbn [gM] in *.
           replace (Z.of_nat (CenModel.kq s * (k mod gm (CP s)) + 3 * (k / gm (CP s)) + (CenModel.kM s - 1)))
             with (Z.of_nat (CenModel.kq s) * Z.of_nat (k mod gm (CP s)) + Z.of_nat 3 * Z.of_nat (k / gm (CP s)) + -1 + 1 * Z.of_nat (CenModel.kM s))%Z by lia.
           apply Z.mod_add. lia.
      * intros a Ha Hb. apply HO. intros [E|E]; [apply Ha|apply Hb]; exact E.
      * exact Hal.
    + apply sepbuf_separate. exact Hs.
    + exact Hx.
    + exact HF.
Qed.

Lemma obackward_spec f F r W (Y : nat -> Z -> C) (m0 : mem) (K : mem -> Prop) :
  sepbuf (gS t) (gC t) f (gL t) F (gl t) ->
  (forall c k k', (k mod Z.of_nat (gM t) = k' mod Z.of_nat (gM t))%Z -> Y c k = Y c k') ->
  (forall u k c, u < gn t -> k < gl t -> c < gC t -> m0 (oaddr t f F u k c) = Val (Y c (ofreq t u k))) ->
  (forall m',
     (forall j c, j < gL t -> c < gC t -> m' (f + gS t * j + c) = Val (idftx t (fun k => Y c (Z.of_nat k)) j)) ->
     (forall a, ~ inbuf (gS t) (gC t) F (gl t) a -> ~ inbuf (gS t) (gC t) f (gL t) a -> m' a = m0 a) ->
     (forall a, m0 a <> Unalloc -> m' a <> Unalloc) -> K m') ->
  WP (backward t F f r W) m0 K.
Proof.
  intros Hs Hper HY HK. destruct (ow_facts t Hwf How) as (Hq & Hin & HL & Hn & HD & HAB). pose proof (wf_m t Hwf) as Hm.
  destruct t as [s|s].
  - destruct (FwdAll.ow_facts s Hwf How) as (_ & _ & HLp & Hnp & _ & Hp2 & _ & _).
    assert (El : gl s = PadModel.gm s) by (cbn [gl]; rewrite (l_eq s Hwf), (P_small s Hwf) by lia; lia).
    assert (En : gn s = PadModel.gp s + 1) by exact Hnp.
    rewrite El in *.
    apply (PadBackward.obackward_spec s Hwf How f F r W (fun u k c => Y c (Z.of_nat (PadModel.gq s) * Z.of_nat k + orho u)%Z) m0 K);
      [assumption| |].
    + intros u k c Hu Hk Hc. specialize (HY u k c ltac:(lia) Hk Hc). unfold ofreq, oaddr in HY.
      change (gm s) with (PadModel.gm s) in *.
      rewrite (Nat.mod_small k _ Hk), (Nat.div_small k _ Hk), Z.mul_0_r, Z.add_0_r in HY. etransitivity; [|exact HY]. f_equal.
      unfold PadBackward.oaddr. replace (gn s - 1) with (PadModel.gp s) by lia. rewrite El. reflexivity.
    + intros m' HV HFr Hal. apply HK; [|assumption|assumption].
      intros j c Hj Hc. rewrite idftx_F. etransitivity; [apply (HV j c Hj Hc)|]. f_equal. apply (ow_sum s Hwf (Y c)); [assumption|].
      apply Hper.
  - assert (Hn3 : CenModel.kn s = 3). { destruct (CenOv.ov_facts s How) as (_ & _ & H & _). exact H. }
    pose proof (M_pos (CP s) Hwf) as HM.
    eapply WP_mono; [|apply (CenBackward.cobackward_b s Hwf f F r W (fun c k => Y c (Z.of_nat k)) m0 How)].
    + intros m' (HV & HO & Hal). apply HK.
      * intros j c Hj Hc. rewrite idftx_C. apply HV; assumption.
      * intros a Ha Hb. apply HO. intros [E|E]; [apply Ha|apply Hb]; exact E.
      * exact Hal.
    + apply sepbuf_separate. exact Hs.
    + intros v Hv.
      assert (Hkl : forall k, k < gm (CP s) -> gm (CP s) * v + k < gl (CP s)).
      { intros k Hk. cbn [gl]. unfold CenModel.kl. destruct (Nat.eqb_spec (CenModel.kq s) 1); [contradiction|].
        change (PadModel.am s) with (gm (CP s)). clear -Hv Hk. nia. }
      assert (Ed : forall k, k < gm (CP s) -> (gm (CP s) * v + k) / gm (CP s) = v /\ (gm (CP s) * v + k) mod gm (CP s) = k).
      { intros k Hk. split.
        - rewrite Nat.mul_comm, Nat.div_add_l, Nat.div_small by lia. lia.
        - rewrite Nat.add_comm, Nat.mul_comm, Nat.mod_add, Nat.mod_small by lia. reflexivity. }
      change (PadModel.am s) with (gm (CP s)). change (PadModel.aS s) with (gS (CP s)). change (PadModel.aC s) with (gC (CP s)).
      split; [|split]; intros k c Hk Hc; destruct (Ed k Hk) as [E1 E2].
      * specialize (HY 0 _ c ltac:(lia) (Hkl k Hk) Hc). unfold oaddr, ofreq in HY. cbn [gn gq gl] in HY. rewrite E1, E2, Hn3 in HY. rewrite Hn3.
        cbn [Nat.sub Nat.ltb Nat.leb orho Nat.eqb] in HY.
        replace (f + gS (CP s) * (gm (CP s) * v) + gS (CP s) * k + c) with (f + gS (CP s) * (CenModel.kl s * 0 + (gm (CP s) * v + k)) + c) by lia.
        rewrite HY. f_equal. f_equal. lia.
      * specialize (HY 1 _ c ltac:(lia) (Hkl k Hk) Hc). unfold oaddr, ofreq in HY. cbn [gn gq gl] in HY. rewrite E1, E2, Hn3 in HY. rewrite Hn3.
        cbn [Nat.sub Nat.ltb Nat.leb orho Nat.eqb] in HY.
        replace (f + gS (CP s) * (CenModel.kl s + gm (CP s) * v) + gS (CP s) * k + c) with (f + gS (CP s) * (CenModel.kl s * 1 + (gm (CP s) * v + k)) + c) by lia.
        rewrite HY. f_equal. f_equal. lia.
      * assert (H2n : 2 < gn (CP s)) by (cbn [gn]; lia).
        specialize (HY 2 _ c H2n (Hkl k Hk) Hc). unfold oaddr, ofreq in HY. cbn [gn gq gl] in HY. rewrite E1, E2, Hn3 in HY. rewrite Hn3.
        cbn [Nat.sub Nat.ltb Nat.leb orho Nat.eqb] in HY.
        replace (F + gS (CP s) * (gm (CP s) * v) + gS (CP s) * k + c) with (F + gS (CP s) * (gm (CP s) * v + k) + c) by lia.
        rewrite HY. f_equal. apply Hper. cbn [gM] in *. rewrite Nat2Z.inj_mod, Z.mod_mod by lia.
        replace (Z.of_nat (CenModel.kq s * k + 3 * v + (CenModel.kM s - 1)))
          with (Z.of_nat (CenModel.kq s) * Z.of_nat k + Z.of_nat 3 * Z.of_nat v + -1 + 1 * Z.of_nat (CenModel.kM s))%Z by lia.
        symmetry. apply Z.mod_add. lia.
Qed.
End O.

(** *** the convolution theorem about an origin *)
Section V.
Variable t : xf.
Hypothesis Hwf : wf t.
Notation M := (gM t). Notation L := (gL t). Notation c := (origin t).
Lemma zdiv (z : Z) : (- Z.of_nat M < z < Z.of_nat M)%Z -> (z mod Z.of_nat M = 0)%Z -> z = 0%Z.
Proof.
  intros Hz E. pose proof (M_pos t Hwf). apply Z.mod_divide in E; [|lia]. destruct E as [q E].
  assert (-1 < q < 1)%Z by nia. assert (q = 0)%Z by lia. subst q. lia.
Qed.
Lemma outx_prod (x y : nat -> C) j :
  idftx t (fun k => Cmul (outx t x (Z.of_nat k)) (outx t y (Z.of_nat k))) j =
  Cmul (RtoC (INR M)) (Csum L (fun a => Csum L (fun b =>
    if ((Z.of_nat a + Z.of_nat b - Z.of_nat j - Z.of_nat c) mod Z.of_nat M =? 0)%Z then Cmul (x a) (y b) else C0))).
Proof.
  pose proof (M_pos t Hwf) as HM. unfold idftx, outx.
  transitivity (Csum M (fun k => Csum L (fun a => Csum L (fun b =>
    Cmul (Cmul (x a) (y b)) (zeta M (Z.of_nat k * (Z.of_nat a + Z.of_nat b - Z.of_nat j - Z.of_nat c))))))).
  { apply Csum_ext. intros k Hk. rewrite <- Csum_mul_r, <- Csum_mul_r. apply Csum_ext. intros a Ha.
    rewrite <- Csum_mul_l, <- Csum_mul_r. apply Csum_ext. intros b Hb.
    replace (Z.of_nat k * (Z.of_nat a + Z.of_nat b - Z.of_nat j - Z.of_nat c))%Z with
      ((Z.of_nat a - Z.of_nat c) * Z.of_nat k + (Z.of_nat b - Z.of_nat c) * Z.of_nat k + - ((Z.of_nat j - Z.of_nat c) * Z.of_nat k))%Z by ring.
    rewrite !zeta_add. ring. }
  rewrite Csum_swap. rewrite <- Csum_mul_l. apply Csum_ext. intros a Ha.
  rewrite Csum_swap. rewrite <- Csum_mul_l. apply Csum_ext. intros b Hb.
  rewrite Csum_mul_l, zeta_orth by assumption.
  destruct (_ =? 0)%Z; ring.
Qed.
Lemma outx_corr (x y : nat -> C) j :
  idftx t (fun k => Cmul (outx t x (Z.of_nat k)) (Cconj (outx t y (Z.of_nat k)))) j =
  Cmul (RtoC (INR M)) (Csum L (fun a => Csum L (fun b =>
    if ((Z.of_nat a + Z.of_nat c - Z.of_nat j - Z.of_nat b) mod Z.of_nat M =? 0)%Z then Cmul (x a) (Cconj (y b)) else C0))).
Proof.
  pose proof (M_pos t Hwf) as HM. unfold idftx, outx.
  transitivity (Csum M (fun k => Csum L (fun a => Csum L (fun b =>
    Cmul (Cmul (x a) (Cconj (y b))) (zeta M (Z.of_nat k * (Z.of_nat a + Z.of_nat c - Z.of_nat j - Z.of_nat b))))))).
  { apply Csum_ext. intros k Hk. rewrite Csum_conj. rewrite <- Csum_mul_r, <- Csum_mul_r. apply Csum_ext. intros a Ha.
    rewrite <- Csum_mul_l, <- Csum_mul_r. apply Csum_ext. intros b Hb. rewrite Cconj_mul, <- zeta_neg.
    replace (Z.of_nat k * (Z.of_nat a + Z.of_nat c - Z.of_nat j - Z.of_nat b))%Z with
      ((Z.of_nat a - Z.of_nat c) * Z.of_nat k + - ((Z.of_nat b - Z.of_nat c) * Z.of_nat k) + - ((Z.of_nat j - Z.of_nat c) * Z.of_nat k))%Z by ring.
    rewrite !zeta_add. ring. }
  rewrite Csum_swap. rewrite <- Csum_mul_l. apply Csum_ext. intros a Ha.
  rewrite Csum_swap. rewrite <- Csum_mul_l. apply Csum_ext. intros b Hb.
  rewrite Csum_mul_l, zeta_orth by assumption.
  destruct (_ =? 0)%Z; ring.
Qed.
End V.
