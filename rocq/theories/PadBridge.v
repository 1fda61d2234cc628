(** From the kernel lemmas to the specification vocabulary of PadSpec. *)
From Coq Require Import Reals ZArith Arith Lia List Bool Permutation.
From Verif Require Import CNum Sums Roots Mem VecModel VecProofs PadModel PadKernels Loops
  PadLemmas PadMath PadGeom PadIndex Fwd1 FwdAll PadForward PadBackward ConvMath ConvModel PadSpec PadRound.
Import ListNotations.

Lemma zeta_nat M k : zeta M (Z.of_nat k) = expi (2 * PI * INR k / INR M).
Proof. unfold zeta. rewrite <- INR_IZR_INZ. reflexivity. Qed.
Lemma zeta_nat_neg M k : zeta M (- Z.of_nat k) = expi (- (2 * PI * INR k / INR M)).
Proof. unfold zeta. rewrite opp_IZR, <- INR_IZR_INZ. f_equal. unfold Rdiv. ring. Qed.
Lemma outv_pdft M L x k : outv M L x (Z.of_nat k) = pdft M L x k.
Proof. unfold outv, pdft. apply Csum_ext. intros j Hj. rewrite <- Nat2Z.inj_mul, zeta_nat. reflexivity. Qed.
Lemma idft_ipdft M y j : idft M y j = ipdft M y j.
Proof. unfold idft, ipdft. apply Csum_ext. intros k Hk. rewrite <- Nat2Z.inj_mul, zeta_nat_neg. reflexivity. Qed.

Lemma sep_sepbuf S C b n b' n' : separate S C b n b' n' -> sepbuf S C b n b' n'.
Proof. intros H i c i' c' Hi Hc Hi' Hc' E. apply (H (b + S * i + c)); [exists i, c; auto|exists i', c'; auto]. Qed.

Lemma trace_det R incr r l l' : loop_trace R incr r l -> loop_trace R incr r l' -> l = l'.
Proof.
  intros H. revert l'. induction H as [r H|r l H Hl IH]; intros l' H'; inversion H'; subst; try lia; [reflexivity|].
  f_equal. auto.
Qed.

Section G.
Lemma param_p_least L m : 1 <= m -> 1 <= L -> least (fun p => L <= p * m) (param_p L m).
Proof.
  intros Hm HL. unfold param_p. split.
  - pose proof (cq_le L m Hm). lia.
  - intros k Hk. pose proof (cq_lt L m Hm HL). destruct (Nat.le_gt_cases (cq L m) k); [assumption|]. exfalso. nia.
Qed.
Lemma param_P_val centered p : 1 <= p ->
  (param_P centered p = p \/ 2 * param_P centered p = p) /\ 1 <= param_P centered p.
Proof.
  intros Hp. unfold param_P. destruct (centered && (p =? 2 * (p / 2))) eqn:E1; cbn [orb].
  - apply andb_true_iff in E1. destruct E1 as [_ E1]. apply Nat.eqb_eq in E1. split; [right; lia|lia].
  - destruct (Nat.eqb_spec p 2) as [->|]; [split; [right; reflexivity|cbn; lia]|]. split; [left; reflexivity|assumption].
Qed.
Lemma param_n_least L M m centered : 1 <= m -> 1 <= L -> 1 <= M ->
  least (fun n => M <= m * (param_P centered (param_p L m) * n)) (param_n L M m centered).
Proof.
  intros Hm HL HM. destruct (param_p_least L m Hm HL) as [Hp _].
  assert (Hp1 : 1 <= param_p L m) by (destruct (param_p L m); [cbn in Hp; lia|lia]).
  destruct (param_P_val centered _ Hp1) as [_ HP]. set (P := param_P centered (param_p L m)) in *.
  assert (HPm : 1 <= P * m) by nia. unfold param_n. fold P. split.
  - pose proof (cq_le M (P * m) HPm). nia.
  - intros k Hk. pose proof (cq_lt M (P * m) HPm HM).
    destruct (Nat.le_gt_cases (cq M (P * m)) k); [assumption|]. exfalso. nia.
Qed.
End G.

Section T.
Variable t : pad.
Hypothesis Hwf : wf t.
Notation L := (gL t).  Notation CC := (gC t). Notation SS := (gS t).
Notation m := (gm t). Notation q := (gq t). Notation M := (gM t). Notation p := (gp t).

Lemma trace_res rs : loop_trace (gR t) (increment t) 0 rs -> rs = residues t.
Proof. intros H. eapply trace_det; [exact H|]. apply residues_trace. assumption. Qed.

Lemma padded_wzero W N mm : padded t W N mm <-> wzero t W N mm.
Proof.
  unfold padded, wzero, padrow, repad. pose proof (wf_m t Hwf) as Hm. pose proof (wf_L t Hwf) as HL.
  split; intros H.
  - intros Hrp Hq Hp. apply andb_true_iff in Hrp. destruct Hrp as [H1 H2]. apply negb_true_iff in H1. apply Nat.ltb_lt in H2. auto.
  - intros Hi HLm Hq. apply H; [|assumption|].
    + rewrite Hi. cbn. apply Nat.ltb_lt. assumption.
    + pose proof (wf_mpL t Hwf). pose proof (wf_p t Hwf). destruct (Nat.eq_dec p 1); [assumption|]. exfalso.
      assert (m * 1 <= m * (p - 1)) by (apply Nat.mul_le_mono_l; lia). lia.
Qed.

Notation N := (gl t * gD t).
Lemma pad_b W (m0 : mem) :
  allocated SS CC W N m0 ->
  WP (padW t W) m0 (fun m' => padded t W N m' /\ only (word SS CC W N) m0 m').
Proof.
  intros Ha. apply (padWg_spec t Hwf); [exact Ha|]. intros m' HZ HF Hal. split; [apply padded_wzero; assumption|].
  split; assumption.
Qed.
Lemma padded_le W n n' mm : n' <= n -> padded t W n mm -> padded t W n' mm.
Proof. intros H Hp Hi HL Hq i c Hi' Hc Hm. apply Hp; auto. lia. Qed.

Lemma forward_b f F W r x (m0 : mem) rs :
  let W0 := getW F W in let N := noutputs t r in
  goverwrite t = false -> loop_trace (gR t) (increment t) 0 rs -> In r rs ->
  ainplace t = (W0 =? F) ->
  separate SS CC f L W0 N -> separate SS CC f L F N -> (W0 = F \/ separate SS CC W0 N F N) ->
  has SS CC f L x m0 -> allocated SS CC W0 N m0 -> allocated SS CC F N m0 -> padded t W0 N m0 ->
  WP (forward t f F r W) m0 (fun m' =>
    has SS CC F N (fun i c => pdft M L (fun j => x j c) (index t r i)) m' /\
    has SS CC f L x m' /\ padded t W0 N m' /\
    only (fun a => word SS CC F N a \/ word SS CC W0 N a) m0 m').
Proof.
  intros W0 N How Htr Hr Hin H1 H2 H3 Hx Ha1 Ha2 Hp. apply trace_res in Htr. subst rs.
  apply forward_spec with (x := x); auto; fold W0.
  - apply residues_passr; assumption.
  - apply sep_sepbuf; assumption.
  - apply sep_sepbuf; assumption.
  - destruct H3; [auto|right; apply sep_sepbuf; assumption].
  - apply padded_wzero; assumption.
  - intros m' HV HF HZ Hal. fold N in HV, HF, HZ. split; [|split; [|split; [|split]]].
    + intros i c Hi Hc. rewrite HV by assumption. rewrite outv_pdft. reflexivity.
    + intros i c Hi Hc. rewrite HF; [apply Hx; assumption| |].
      * intros Hw. apply (H2 (f + SS * i + c)); [exists i, c; auto|exact Hw].
      * intros Hw. apply (H1 (f + SS * i + c)); [exists i, c; auto|exact Hw].
    + apply padded_wzero. assumption.
    + intros a Hn. apply HF; intros Hw; apply Hn; [left|right]; exact Hw.
    + assumption.
Qed.

Lemma backward_b f F W r y acc (m0 : mem) rs :
  let W0 := getW F W in let N := noutputs t r in
  goverwrite t = false -> loop_trace (gR t) (increment t) 0 rs -> In r rs ->
  ainplace t = (W0 =? F) ->
  separate SS CC f L W0 N -> separate SS CC f L F N -> (W0 = F \/ separate SS CC W0 N F N) ->
  has SS CC F N y m0 -> allocated SS CC W0 N m0 -> allocated SS CC f L m0 ->
  (r <> 0 -> has SS CC f L acc m0) ->
  WP (backward t F f r W) m0 (fun m' =>
    has SS CC f L (fun j c => Cadd (if r =? 0 then C0 else acc j c)
       (partial_inverse M N (index t r) (fun i => y i c) j)) m' /\
    only (fun a => word SS CC f L a \/ word SS CC W0 N a) m0 m').
Proof.
  intros W0 N How Htr Hr Hin H1 H2 H3 Hy Ha1 Ha2 Hacc. apply trace_res in Htr. subst rs.
  apply backward_spec with (y := y) (acc := acc); auto; fold W0.
  - apply residues_passr; assumption.
  - apply sep_sepbuf; assumption.
  - apply sep_sepbuf; assumption.
  - destruct H3; [auto|right; apply sep_sepbuf; assumption].
  - intros m' HV HF Hal. fold N in HV, HF. split; [|split].
    + intros i c Hi Hc. rewrite HV by assumption. unfold bpass, badd, partial_inverse. do 2 f_equal.
      apply Csum_ext. intros k Hk. rewrite <- Nat2Z.inj_mul, zeta_nat_neg. reflexivity.
    + intros a Hn. apply HF; intros Hw; apply Hn; [left|right]; exact Hw.
    + assumption.
Qed.

Lemma passes_b rs (y : nat -> C) j : loop_trace (gR t) (increment t) 0 rs ->
  Clist rs (fun r => partial_inverse M (noutputs t r) (index t r) (fun i => y (index t r i)) j) = ipdft M y j.
Proof.
  intros Htr. apply trace_res in Htr. subst rs. rewrite <- idft_ipdft, <- (pass_sum t Hwf).
  assert (E : forall r, partial_inverse M (noutputs t r) (index t r) (fun i => y (index t r i)) j =
    badd t r (fun i => y (index t r i)) j).
  { intros r. unfold partial_inverse, badd. apply Csum_ext. intros k Hk. rewrite <- Nat2Z.inj_mul, zeta_nat_neg. reflexivity. }
  change (csl (residues t) (fun r => partial_inverse M (noutputs t r) (index t r) (fun i => y (index t r i)) j) =
    csl (residues t) (fun r => badd t r (fun i => y (index t r i)) j)). apply csl_ext. intros r Hr. apply E.
Qed.

Lemma roundtrip_b f F h W x (m0 : mem) rs :
  let W0 := getW F W in
  goverwrite t = false -> loop_trace (gR t) (increment t) 0 rs ->
  ainplace t = (W0 =? F) ->
  separate SS CC f L W0 N -> separate SS CC f L F N -> (W0 = F \/ separate SS CC W0 N F N) ->
  separate SS CC h L W0 N -> separate SS CC h L F N -> separate SS CC f L h L ->
  has SS CC f L x m0 -> allocated SS CC W0 N m0 -> allocated SS CC F N m0 -> allocated SS CC h L m0 ->
  WP (rfor rs (fun r => Seq (match W with Some w => padW t w | None => Skip end)
        (Seq (forward t f F r W) (backward t F h r W)))) m0 (fun m' =>
    has SS CC h L (fun j c => Cmul (RtoC (INR M)) (x j c)) m' /\
    has SS CC f L x m' /\
    only (fun a => word SS CC F N a \/ word SS CC W0 N a \/ word SS CC h L a) m0 m').
Proof.
  intros W0 How Htr Hin H1 H2 H3 H4 H5 H6 Hx Ha1 Ha2 Ha3. apply trace_res in Htr. subst rs.
  apply (roundtrip_spec t Hwf f F h W x m0); auto; fold W0; try (apply sep_sepbuf; assumption).
  - destruct H3; [auto|right; apply sep_sepbuf; assumption].
  - intros m' HV HF Hal. split; [|split; [|split]].
    + exact HV.
    + intros i c Hi Hc. rewrite HF; [apply Hx; assumption| | |]; intros Hw.
      * apply (H2 (f + SS * i + c)); [exists i, c; auto|exact Hw].
      * apply (H1 (f + SS * i + c)); [exists i, c; auto|exact Hw].
      * apply (H6 (f + SS * i + c)); [exists i, c; auto|exact Hw].
    + intros a Hn. apply HF; intros Hw; apply Hn; [left|right; left|right; right]; exact Hw.
    + assumption.
Qed.

(** overwrite mode *)
Lemma omod u k : u <= p -> goverwrite t = true -> k < m ->
  ((Z.of_nat q * Z.of_nat k + orho u) mod Z.of_nat M =
   Z.of_nat (q * k + (if (u =? 2)%nat then M - 1 else u)) mod Z.of_nat M)%Z.
Proof.
  intros Hu How Hk. pose proof (M_pos t Hwf) as HM. unfold orho. destruct (Nat.eqb_spec u 2).
  - replace (Z.of_nat (q * k + (M - 1))) with ((Z.of_nat q * Z.of_nat k + -1) + 1 * Z.of_nat M)%Z by lia.
    rewrite Z.mod_add by lia. reflexivity.
  - f_equal. lia.
Qed.
Lemma outv_nat k k' x : (k mod Z.of_nat M = Z.of_nat k' mod Z.of_nat M)%Z -> outv M L x k = pdft M L x k'.
Proof. intros H. rewrite <- outv_pdft. apply outv_mod; [apply M_pos; assumption|assumption]. Qed.

Lemma oforward_b f F r W x (m0 : mem) :
  goverwrite t = true ->
  separate SS CC f L F m -> has SS CC f L x m0 -> allocated SS CC F m m0 ->
  WP (forward t f F r W) m0 (fun m' =>
    (forall u, u < p -> has SS CC (f + SS * (m * u)) m (fun k c => pdft M L (fun j => x j c) (q * k + u)) m') /\
    has SS CC F m (fun k c => pdft M L (fun j => x j c) (q * k + (if p =? 2 then M - 1 else p))) m' /\
    only (fun a => word SS CC F m a \/ word SS CC f L a) m0 m').
Proof.
  intros How Hs Hx Ha. pose proof (ow_facts t Hwf How) as (_ & _ & _ & _ & _ & Hp2 & _).
  apply (oforward_spec t Hwf How) with (x := x); auto; [apply sep_sepbuf; assumption|].
  intros m' HV HF Hal. split; [|split; [|split]].
  - intros u Hu k c Hk Hc. specialize (HV u k c ltac:(lia) Hk Hc). unfold oaddr in HV.
    destruct (Nat.ltb_spec u p); [|lia].
    replace (f + SS * (m * u) + SS * k + c) with (f + SS * (m * u + k) + c) by (rewrite Nat.mul_add_distr_l; lia).
    rewrite HV. f_equal. apply outv_nat. rewrite omod by (auto; lia). destruct (Nat.eqb_spec u 2); [lia|reflexivity].
  - intros k c Hk Hc. specialize (HV p k c ltac:(lia) Hk Hc). unfold oaddr in HV. rewrite Nat.ltb_irrefl in HV.
    rewrite HV. f_equal. apply outv_nat. rewrite omod by (auto; lia). reflexivity.
  - intros a Hn. apply HF; intros Hw; apply Hn; [left|right]; exact Hw.
  - assumption.
Qed.

Lemma obackward_b f F r W (Y : nat -> nat -> C) (m0 : mem) :
  goverwrite t = true ->
  separate SS CC f L F m ->
  (forall u, u < p -> has SS CC (f + SS * (m * u)) m (fun k c => Y c (q * k + u)) m0) ->
  has SS CC F m (fun k c => Y c ((q * k + (if p =? 2 then M - 1 else p)) mod M)) m0 ->
  WP (backward t F f r W) m0 (fun m' =>
    has SS CC f L (fun j c => ipdft M (Y c) j) m' /\
    only (fun a => word SS CC F m a \/ word SS CC f L a) m0 m').
Proof.
  intros How Hs Hf HF0. pose proof (ow_facts t Hwf How) as (_ & _ & _ & _ & _ & Hp2 & Hqp & _).
  pose proof (M_pos t Hwf) as HM. pose proof (wf_p t Hwf) as Hp1.
  set (YZ := fun c (k : Z) => Y c (Z.to_nat (k mod Z.of_nat M))).
  apply (obackward_spec t Hwf How) with (y := fun u k c => YZ c (Z.of_nat q * Z.of_nat k + orho u)%Z);
    [apply sep_sepbuf; assumption| |].
  - intros u k c Hu Hk Hc. unfold YZ. rewrite omod by auto. rewrite <- Nat2Z.inj_mod, Nat2Z.id. unfold oaddr.
    destruct (Nat.ltb_spec u p).
    + destruct (Nat.eqb_spec u 2); [lia|].
      replace (f + SS * (m * u + k) + c) with (f + SS * (m * u) + SS * k + c) by (rewrite Nat.mul_add_distr_l; lia).
      rewrite (Hf u) by assumption. rewrite Nat.mod_small; [reflexivity|].
      rewrite M_eq. assert (q * k + q <= q * m) by (rewrite <- Nat.mul_succ_r; apply Nat.mul_le_mono_l; lia). lia.
    + assert (u = p) by lia. subst u. apply HF0; assumption.
  - intros m' HV HF Hal. split; [|split].
    + intros j c Hj Hc. rewrite HV by assumption. f_equal. rewrite <- idft_ipdft.
      rewrite (ow_sum t Hwf (YZ c) j How).
      * unfold idft. apply Csum_ext. intros k Hk. unfold YZ. rewrite <- Nat2Z.inj_mod, Nat2Z.id, Nat.mod_small by assumption. reflexivity.
      * intros k k' E. unfold YZ. rewrite E. reflexivity.
    + intros a Hn. apply HF; intros Hw; apply Hn; [left|right]; exact Hw.
    + assumption.
Qed.
End T.
