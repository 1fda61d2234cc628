(** The frequencies of the outputs of the centered transform. *)
From Coq Require Import Reals ZArith Arith Lia List Bool Permutation.
From Verif Require Import CNum Sums Roots Mem PadModel PadMath PadSpec PadGeom PadIndex PadForward PadLemmas PadBackward ConvMath PadRound PadBridge
  CenModel CenMath CenGeom CenPass CenSpec.
Import ListNotations.

Lemma zeta_c M j H k : zeta M ((Z.of_nat j - Z.of_nat H) * Z.of_nat k) = expi (2 * PI * ((INR j - INR H) * INR k) / INR M).
Proof. unfold zeta. rewrite mult_IZR, minus_IZR, <- !INR_IZR_INZ. reflexivity. Qed.
Lemma zeta_c_neg M j H k : zeta M (- ((Z.of_nat j - Z.of_nat H) * Z.of_nat k)) = expi (- (2 * PI * ((INR j - INR H) * INR k) / INR M)).
Proof. unfold zeta. rewrite opp_IZR, mult_IZR, minus_IZR, <- !INR_IZR_INZ. f_equal. unfold Rdiv. ring. Qed.
Lemma outc_cpdft M L x k : outc M L x (Z.of_nat k) = cpdft M L x k.
Proof. unfold outc, cpdft. apply Csum_ext. intros j Hj. rewrite zeta_c. reflexivity. Qed.

(** position in the block order of fftPad of position i *)
Definition tau (m P i : nat) : nat :=
  let l := m * P in l * (i / l) + (P * (i mod l mod m) + i mod l / m).

Section Tau.
Variables m P : nat.
Hypothesis Hm : 1 <= m.
Hypothesis HP : 1 <= P.
Notation l := (m * P).
Lemma tau_eq g u s : u < P -> s < m -> tau m P (l * g + (m * u + s)) = l * g + (P * s + u).
Proof.
  intros Hu Hs. unfold tau. assert (Hk : m * u + s < l) by nia.
  assert (E : (l * g + (m * u + s)) / l = g) by (symmetry; apply (Nat.div_unique _ _ _ (m * u + s)); lia).
  assert (E' : (l * g + (m * u + s)) mod l = m * u + s) by (symmetry; apply (Nat.mod_unique _ _ g); lia).
  rewrite E, E'.
  assert (E1 : (m * u + s) / m = u) by (symmetry; apply (Nat.div_unique _ _ _ s); lia).
  assert (E2 : (m * u + s) mod m = s) by (symmetry; apply (Nat.mod_unique _ _ u); lia).
  rewrite E1, E2. reflexivity.
Qed.
Lemma tau_cases i : exists g u s, u < P /\ s < m /\ i = l * g + (m * u + s).
Proof.
  assert (1 <= l) by nia.
  pose proof (Nat.div_mod i l ltac:(lia)). pose proof (Nat.mod_upper_bound i l ltac:(lia)).
  pose proof (Nat.div_mod (i mod l) m ltac:(lia)). pose proof (Nat.mod_upper_bound (i mod l) m ltac:(lia)).
  exists (i / l), (i mod l / m), (i mod l mod m).
  split; [apply Nat.div_lt_upper_bound; lia|]. split; [assumption|lia].
Qed.
Lemma tau_lt E i : i < l * E -> tau m P i < l * E.
Proof.
  destruct (tau_cases i) as (g & u & s & Hu & Hs & ->). intros Hi. rewrite tau_eq by assumption.
  assert (Hg : g < E).
  { destruct (Nat.lt_ge_cases g E) as [|H]; [assumption|]. assert (l * E <= l * g) by (apply Nat.mul_le_mono_l; assumption). lia. }
  assert (P * s + u < l) by (clear Hi; nia). assert (l * (g + 1) <= l * E) by (apply Nat.mul_le_mono_l; lia). lia.
Qed.
Lemma tau_inj i i' : tau m P i = tau m P i' -> i = i'.
Proof.
  destruct (tau_cases i) as (g & u & s & Hu & Hs & ->). destruct (tau_cases i') as (g' & u' & s' & Hu' & Hs' & ->).
  rewrite !tau_eq by assumption. intros E.
  assert (H1 : P * s + u < l) by nia. assert (H2 : P * s' + u' < l) by nia.
  destruct (stride_inj l g (P * s + u) g' (P * s' + u')) as [-> E2]; [assumption..|].
  destruct (stride_inj P s u s' u') as [-> ->]; [lia..|]. reflexivity.
Qed.
Lemma tau_perm E : Permutation (map (tau m P) (seq 0 (l * E))) (seq 0 (l * E)).
Proof.
  apply NoDup_Permutation_bis.
  - apply FinFun.Injective_map_NoDup; [intros a b; apply tau_inj|apply seq_NoDup].
  - rewrite map_length. lia.
  - intros j Hj. apply in_map_iff in Hj. destruct Hj as (i & <- & Hi). apply in_seq in Hi. apply in_seq.
    pose proof (tau_lt E i ltac:(lia)). lia.
Qed.
Lemma tau_sum E f : Csum (l * E) (fun i => f (tau m P i)) = Csum (l * E) f.
Proof. apply Csum_reindex; [intros; apply tau_lt; assumption|intros; apply tau_inj; assumption]. Qed.
End Tau.

Section T.
Variable t : pad.
Hypothesis Hwf : kwf t.
Notation L := (aL t).  Notation m := (am t).
Notation q := (kq t).   Notation n := (kn t).   Notation M := (kM t).
Notation D := (kD t).  Notation D0 := (kD0 t). Notation P := (kP t). Notation l := (kl t).

Lemma cqP : q <> 1 -> cq (kp t) 2 = P.
Proof.
  intros Hq. destruct (k_even t Hwf Hq) as [E _]. rewrite (k_P t). unfold cq. rewrite E at 1.
  replace (2 * (kp t / 2) + 2 - 1) with (1 + (kp t / 2) * 2) by lia. rewrite Nat.div_add by lia. reflexivity.
Qed.
Lemma kindex_sh r g u s : q <> 1 -> D = 1 -> g = 0 -> u < P -> s < m ->
  kindex t r (l * g + (m * u + s)) = index (sh t) r (l * g + (P * s + u)).
Proof.
  intros Hq HD -> Hu Hs. destruct (k_cg t Hwf Hq) as [Gm GP Gn _ _ _]. pose proof (lmP t Hq) as Hl.
  unfold kindex, index. rewrite sh_q1, sh_D, sh_p, sh_n, sh_q, sh_m by assumption.
  destruct (Nat.eqb_spec q 1); [contradiction|]. rewrite HD. cbn [Nat.ltb Nat.leb andb].
  rewrite Nat.mul_0_r, !Nat.add_0_l, !Nat.mod_1_r, !Nat.mul_1_l, Nat.mul_0_r, Nat.add_0_r.
  assert (Hk : P * s + u < l) by (rewrite Hl; nia). assert (Hk' : m * u + s < l) by (rewrite Hl; nia).
  rewrite (Nat.mod_small (P * s + u)), (Nat.div_small (P * s + u)) by assumption.
  assert (E1 : (m * u + s) / m = u) by (symmetry; apply (Nat.div_unique _ _ _ s); lia).
  assert (E2 : (m * u + s) mod m = s) by (symmetry; apply (Nat.mod_unique _ _ u); lia).
  rewrite E1, E2. destruct (k_even t Hwf Hq) as [Ep Ep2]. rewrite (k_P t) in *.
  rewrite (Nat.mod_small u) by lia. rewrite (Nat.div_small (m * u + s)) by (rewrite Ep; nia).
  rewrite (k_q t Hwf Hq), (k_P t). lia.
Qed.
Lemma kindex_shD r g u s : q <> 1 -> D <> 1 -> u < P -> s < m ->
  kindex t r (l * g + (m * u + s)) = index (sh t) r (l * g + (P * s + u)).
Proof.
  intros Hq HD Hu Hs. destruct (k_cg t Hwf Hq) as [Gm GP Gn _ _ _]. pose proof (lmP t Hq) as Hl.
  pose proof (k_D t Hwf) as HD1. pose proof (cqP Hq) as EcP. destruct (k_even t Hwf Hq) as [Ep Ep2].
  unfold kindex, index. rewrite sh_q1, sh_D, sh_D0, sh_p, sh_n, sh_q, sh_m by assumption. rewrite EcP.
  change (cq 1 2) with 1. cbn [Nat.leb Nat.eqb orb]. rewrite !Nat.mod_1_r, !Nat.mul_1_l, !Nat.mul_1_r.
  destruct (Nat.eqb_spec q 1); [contradiction|].
  replace (1 <? D) with true by (symmetry; apply Nat.ltb_lt; lia).
  replace (kp t mod 2 =? 0) with true by (symmetry; apply Nat.eqb_eq; rewrite Ep, Nat.mul_comm; apply Nat.mod_mul; lia).
  cbn [andb orb]. rewrite (Nat.mul_comm P m), <- Hl. replace (2 * P * m) with (2 * l) by (rewrite Hl; lia).
  assert (Hk : P * s + u < l) by (rewrite Hl; nia). assert (Hk' : m * u + s < l) by (rewrite Hl; nia).
  assert (F1 : (l * g + (P * s + u)) mod l = P * s + u) by (symmetry; apply (Nat.mod_unique _ _ g); lia).
  assert (F2 : (l * g + (P * s + u)) / l = g) by (symmetry; apply (Nat.div_unique _ _ _ (P * s + u)); lia).
  assert (F3 : (l * g + (m * u + s)) / l = g) by (symmetry; apply (Nat.div_unique _ _ _ (m * u + s)); lia).
  assert (F4 : (l * g + (m * u + s)) mod m = s) by (symmetry; apply (Nat.mod_unique _ _ (P * g + u)); [lia|rewrite Hl; lia]).
  assert (F5 : ((l * g + (m * u + s)) / m) mod P = u).
  { assert (E : (l * g + (m * u + s)) / m = P * g + u) by (symmetry; apply (Nat.div_unique _ _ _ s); [lia|rewrite Hl; lia]).
    rewrite E. symmetry. apply (Nat.mod_unique _ _ g); lia. }
  rewrite F1, F2, F3, F4, F5.
  assert (F6 : (l <=? l * g + (m * u + s)) = (l <=? l * g + (P * s + u))).
  { destruct g as [|g].
    - rewrite Nat.mul_0_r, !Nat.add_0_l. destruct (Nat.leb_spec l (m * u + s)); [lia|]. destruct (Nat.leb_spec l (P * s + u)); [lia|reflexivity].
    - assert (l * 1 <= l * S g) by (apply Nat.mul_le_mono_l; lia).
      destruct (Nat.leb_spec l (l * S g + (m * u + s))); [|lia]. destruct (Nat.leb_spec l (l * S g + (P * s + u))); [reflexivity|lia]. }
  rewrite F6. set (off := if (r =? 0) && (l <=? l * g + (P * s + u)) && (D0 mod 2 =? 1) then 1 else 0).
  assert (F7 : forall k, k < l -> (l * g + k + l * off) / (2 * l) = (g + off) / 2).
  { intros k Hkl. replace (l * g + k + l * off) with (k + (g + off) * l) by lia. rewrite (Nat.mul_comm 2 l), <- Nat.div_div, Nat.div_add by lia.
    rewrite (Nat.div_small k) by assumption. reflexivity. }
  rewrite !F7 by assumption. set (inc := (g + off) / 2).
  rewrite (k_q t Hwf Hq). destruct (g + off =? 2 * inc + 1); [|lia].
  rewrite andb_true_r.
  destruct (Nat.eqb_spec (r + inc) 0) as [E0|E0].
  - rewrite E0. cbn [Nat.ltb Nat.leb andb]. lia.
  - replace (0 <? r + inc) with true by (symmetry; apply Nat.ltb_lt; lia). cbn [andb].
    destruct (Nat.eqb_spec u 0) as [->|Hu0].
    + change (0 <? 0) with false. cbv iota. rewrite Nat.add_0_r.
      destruct (Nat.ltb_spec 0 s) as [Hs0|Hs0].
      * assert (0 < P * s) by nia. destruct (Nat.ltb_spec 0 (P * s)) as [_|]; [|lia].
        assert (E1 : P * s - 1 = P * (s - 1) + (P - 1)).
        { rewrite Nat.mul_sub_distr_l, Nat.mul_1_r. assert (P * 1 <= P * s) by (apply Nat.mul_le_mono_l; lia). lia. }
        rewrite E1. generalize (s - 1) (P - 1) (kn t - (r + inc)). intros; lia.
      * assert (s = 0) by lia. subst s. rewrite Nat.mul_0_r. change (0 <? 0) with false. cbv iota.
        assert (E1 : l - 1 = P * (m - 1) + (P - 1)).
        { rewrite Hl, Nat.mul_sub_distr_l, Nat.mul_1_r, (Nat.mul_comm P m). assert (1 * P <= m * P) by (apply Nat.mul_le_mono_r; lia). lia. }
        rewrite E1. generalize (m - 1) (P - 1) (kn t - (r + inc)). intros; lia.
    + destruct (Nat.ltb_spec 0 (P * s + u)) as [_|]; [|lia]. destruct (Nat.ltb_spec 0 u) as [_|]; [|lia].
      replace (P * s + u - 1) with (P * s + (u - 1)) by lia. generalize (u - 1) (kn t - (r + inc)). change (if 0 <? 0 then 0 - 1 else 1 - 1) with 0. intros; lia.
Qed.
Lemma kD0_1 : D = 1 -> D0 = 1.
Proof. intros HD. rewrite <- sh_D0 by assumption. apply D0_D1. rewrite sh_D; assumption. Qed.
Lemma knout_E r : knoutputs t r = l * kblocks t r. Proof. reflexivity. Qed.
Lemma kblocks_D1 r : D = 1 -> kblocks t r = 1.
Proof. intros HD. unfold kblocks. rewrite HD, (kD0_1 HD). destruct (r =? 0); reflexivity. Qed.
Lemma kindex_tau r i : q <> 1 -> i < knoutputs t r -> kindex t r i = index (sh t) r (tau m P i).
Proof.
  intros Hq Hi. rewrite knout_E in Hi. destruct (k_cg t Hwf Hq) as [Gm GP _ _ _ _]. pose proof (lmP t Hq) as Hl.
  destruct (tau_cases m P Gm GP i) as (g & u & s & Hu & Hs & E). rewrite E, tau_eq by assumption. rewrite <- Hl in *.
  destruct (Nat.eq_dec D 1) as [HD|HD]; [|apply kindex_shD; assumption].
  apply kindex_sh; try assumption. rewrite (kblocks_D1 r HD) in Hi. subst i.
  destruct g; [reflexivity|]. exfalso. assert (l * 1 <= l * S g) by (apply Nat.mul_le_mono_l; lia). lia.
Qed.
Lemma kindex_q1 r i : q = 1 -> kindex t r i = i /\ index (sh t) r i = i.
Proof.
  intros Hq. unfold kindex, index. rewrite sh_q1 by assumption. rewrite Hq. split; reflexivity.
Qed.

(** the frequency of output i is the one the kernels compute *)
Lemma kindex_out r i (x : nat -> nat -> C) c : q <> 1 -> passr (sh t) r -> i < knoutputs t r ->
  kout t (krho t r) x i c = cpdft M L (fun j => x j c) (kindex t r i).
Proof.
  intros Hq Hr Hi. pose proof Hi as Hi'. rewrite knout_E in Hi. destruct (k_cg t Hwf Hq) as [Gm GP _ _ _ _]. pose proof (lmP t Hq) as Hl.
  rewrite (kindex_tau r i Hq Hi').
  destruct (tau_cases m P Gm GP i) as (g & u & s & Hu & Hs & E). rewrite E at 2. rewrite tau_eq by assumption. rewrite <- Hl in *.
  assert (Hk : P * s + u < l) by (rewrite Hl; nia). assert (Hk' : m * u + s < l) by (rewrite Hl; nia).
  assert (Hg : g < kblocks t r).
  { destruct (Nat.lt_ge_cases g (kblocks t r)) as [|H]; [assumption|].
    assert (l * kblocks t r <= l * g) by (apply Nat.mul_le_mono_l; assumption). lia. }
  rewrite <- outc_cpdft. unfold kout.
  assert (F3 : i / l = g) by (symmetry; apply (Nat.div_unique _ _ _ (m * u + s)); lia).
  assert (F4 : i mod m = s) by (symmetry; apply (Nat.mod_unique _ _ (P * g + u)); [lia|rewrite E, Hl; lia]).
  assert (F5 : i mod l = m * u + s) by (symmetry; apply (Nat.mod_unique _ _ g); lia).
  assert (F6 : (m * u + s) / m = u) by (symmetry; apply (Nat.div_unique _ _ _ s); lia).
  rewrite F3, F4, F5, F6. apply outc_mod; [apply (k_Mpos t Hwf Hq)|]. symmetry.
  destruct (index_rho (sh t) (sh_wf t Hwf) r g (P * s + u) Hr) as [_ HI].
  { unfold nrows. rewrite sh_D, sh_D0 by assumption. unfold gP. rewrite sh_p by assumption. cbn [Nat.eqb]. unfold kblocks in Hg. lia. }
  { rewrite sh_m. assumption. }
  rewrite sh_m, sh_M, sh_q in HI by assumption. rewrite HI. f_equal. unfold krho. rewrite (k_q t Hwf Hq).
  rewrite !Nat2Z.inj_mul, Nat2Z.inj_add, Nat2Z.inj_mul. ring.
Qed.
Lemma kindex_perm rs : loop_trace (kR t) (kincrement t) 0 rs ->
  Permutation (seq 0 M) (flat_map (fun r => map (kindex t r) (seq 0 (knoutputs t r))) rs).
Proof.
  intros Htr.
  assert (Htr' : loop_trace (gR (sh t)) (increment (sh t)) 0 rs).
  { clear -Htr Hwf. rewrite (sh_R t Hwf). induction Htr as [r H|r l H Hl IH]; [apply lt_stop; assumption|]. apply lt_step; [assumption|].
    rewrite sh_inc by assumption. assumption. }
  apply trace_res in Htr'; [|apply sh_wf; assumption].
  rewrite <- sh_M by assumption. eapply Permutation_trans; [apply (index_perm (sh t) (sh_wf t Hwf))|].
  unfold all_indices. rewrite <- Htr'. clear Htr Htr'. induction rs as [|r rs IH]; [constructor|]. cbn [flat_map].
  apply Permutation_app; [|assumption]. rewrite sh_nout by assumption.
  destruct (Nat.eq_dec q 1) as [Hq|Hq].
  - erewrite map_ext; [apply Permutation_refl|]. intros i. destruct (kindex_q1 r i Hq) as [-> ->]. reflexivity.
  - rewrite (map_ext_in (kindex t r) (fun i => index (sh t) r (tau m P i))).
    2:{ intros i Hi. apply in_seq in Hi. apply kindex_tau; [assumption|lia]. }
    rewrite <- (map_map (tau m P) (index (sh t) r)). apply Permutation_map. apply Permutation_sym.
    rewrite knout_E. rewrite (lmP t Hq). destruct (k_cg t Hwf Hq). apply tau_perm; lia.
Qed.
Lemma ktrace rs : loop_trace (kR t) (kincrement t) 0 rs -> loop_trace (gR (sh t)) (increment (sh t)) 0 rs.
Proof.
  intros Htr. rewrite (sh_R t Hwf). induction Htr as [r H|r l' H Hl IH]; [apply lt_stop; assumption|]. apply lt_step; [assumption|].
  rewrite sh_inc by assumption. assumption.
Qed.
Lemma ktrace_back rs : loop_trace (gR (sh t)) (increment (sh t)) 0 rs -> loop_trace (kR t) (kincrement t) 0 rs.
Proof.
  intros Htr. rewrite <- (sh_R t Hwf). induction Htr as [r H|r l' H Hl IH]; [apply lt_stop; assumption|]. apply lt_step; [assumption|].
  rewrite <- sh_inc by assumption. assumption.
Qed.
Lemma kpass rs r : loop_trace (kR t) (kincrement t) 0 rs -> In r rs -> passr (sh t) r.
Proof.
  intros Htr Hr. apply ktrace, trace_res in Htr; [|apply sh_wf; assumption]. subst rs.
  apply residues_passr; [apply sh_wf; assumption|assumption].
Qed.
Lemma kpass_n r : passr (sh t) r -> r < n.
Proof. intros Hr. rewrite <- sh_n by assumption. apply passr_n; [apply sh_wf; assumption|assumption]. Qed.
Lemma kloop_terminates : exists rs, loop_trace (kR t) (kincrement t) 0 rs /\
    forall rs', loop_trace (kR t) (kincrement t) 0 rs' -> rs' = rs.
Proof.
  exists (residues (sh t)). split.
  - apply ktrace_back, residues_trace, sh_wf. assumption.
  - intros rs' H. apply ktrace, trace_res in H; [assumption|apply sh_wf; assumption].
Qed.
End T.
