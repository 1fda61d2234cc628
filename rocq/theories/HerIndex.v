(** The frequencies of the Hermitian passes: every residue exactly once. *)
From Coq Require Import Reals ZArith Arith Lia List Bool Permutation.
From Verif Require Import CNum Sums Roots Mem PadModel PadKernels PadSpec PadGeom CenModel CenGeom CenSpec CenForward CenCases
  HerModel HerSpec HerMath HerGeom HerForward HerDisp.
Import ListNotations.

Section T.
Variable t : pad.
Hypothesis Hwf : hwf t.
Notation m := (am t). Notation p := (kp t).  Notation q := (kq t).   Notation n := (kn t).
(** the centered transform with the same frequencies *)
Definition h1 : pad := mkpad (aL t) (aM t) 1 1 (am t) 2 (ainplace t) (aA t) (aB t) (aoverwrite t).
Section Q.
Hypothesis Hq : q <> 1.
Lemma h1_q : kq h1 = q. Proof. reflexivity. Qed.
Lemma h1_n : kn h1 = n. Proof. reflexivity. Qed.
Lemma h1_p : kp h1 = p. Proof. reflexivity. Qed.
Lemma h1_M : kM h1 = kM t. Proof. reflexivity. Qed.
Lemma h1_D : kD h1 = 2. Proof. unfold kD. rewrite h1_q. destruct (Nat.eqb_spec q 1) as [|_]; [contradiction|reflexivity]. Qed.
Lemma h1_D0 : kD0 h1 = hD0 t.
Proof. unfold kD0, hD0. rewrite h1_q, h1_n, h1_D, (hD_2 t Hwf Hq). reflexivity. Qed.
Lemma h1_wf : kwf h1.
Proof.
  destruct Hwf as (A1 & A2 & A3 & A4 & A5 & A6 & A7 & _). destruct (h_valid t Hwf Hq) as (_ & E & E2 & _). pose proof (h_n2 t Hwf Hq).
  repeat split; try assumption; try (cbn [aC aS aD h1]; lia).
  unfold kvalid. rewrite h1_q, h1_n, h1_p, h1_D. destruct (Nat.eqb_spec q 1) as [|_]; [contradiction|].
  replace (p mod 2) with 0 by (rewrite E, Nat.mul_comm; symmetry; apply Nat.mod_mul; lia).
  change (aS h1) with 1. change (0 =? 0) with true. change (2 =? 1) with false. change (1 =? 1) with true. change (2 mod 2 =? 0) with true. cbn [andb orb]. destruct (Nat.ltb_spec 2 n); [reflexivity|]. destruct (Nat.eqb_spec 2 n); [reflexivity|lia].
Qed.
Lemma h1_conj : kconjugates h1 = true.
Proof.
  destruct (h_valid t Hwf Hq) as (_ & E & E2 & _). unfold kconjugates. rewrite h1_p, h1_D.
  replace (p mod 2) with 0 by (rewrite E, Nat.mul_comm; symmetry; apply Nat.mod_mul; lia).
  cbn. apply orb_true_r.
Qed.
Lemma h1_R : kR h1 = hR t.
Proof. unfold kR, kresidueBlocks. rewrite h1_conj, h1_q, h1_n, (h_R t Hwf Hq). destruct (Nat.eqb_spec q 1) as [|_]; [contradiction|reflexivity]. Qed.
Lemma h1_inc r : kincrement h1 r = hincrement t r.
Proof.
  unfold kincrement, kdr, hincrement, hdr. rewrite h1_conj, h1_q, h1_D, h1_D0, (h_conj t Hwf Hq), (hD_2 t Hwf Hq). reflexivity.
Qed.
Lemma h1_nout r : knoutputs h1 r = hblocks t r * hnoutputs t.
Proof.
  unfold knoutputs, hblocks. rewrite h1_D0, h1_D, (hD_2 t Hwf Hq), hno_P. unfold kl. rewrite h1_q.
  destruct (Nat.eqb_spec q 1) as [|_]; [contradiction|].
  assert (E : kP h1 = hP t).
  { unfold kP. rewrite h1_p, (hP_q t Hq). unfold hp2. destruct (Nat.eqb_spec p 2) as [->|_]; reflexivity. }
  rewrite E. cbn [h1 am]. destruct (r =? 0); lia.
Qed.
Lemma h1_index r i : kindex h1 r i = hindex t r i.
Proof. unfold kindex, hindex. rewrite h1_q, h1_n, h1_p, h1_D, h1_D0, (hD_2 t Hwf Hq). reflexivity. Qed.
End Q.

Lemma trace_ext R i1 i2 (r : nat) rs : (forall r, i1 r = i2 r) -> loop_trace R i1 r rs -> loop_trace R i2 r rs.
Proof. intros E HT. induction HT; [constructor; assumption|]. constructor; [assumption|]. rewrite <- E. assumption. Qed.

Lemma hindex_perm rs : loop_trace (hR t) (hincrement t) 0 rs ->
  Permutation (seq 0 (kM t)) (flat_map (fun r => map (hindex t r) (seq 0 (hblocks t r * hnoutputs t))) rs).
Proof.
  intros HT. destruct (Nat.eq_dec q 1) as [Hq|Hq].
  - assert (EB : forall r, hblocks t r = 1) by (intros r; unfold hblocks; rewrite Hq; reflexivity).
    assert (ER : hR t = 1) by (unfold hR; rewrite Hq; reflexivity).
    assert (EI : forall r, 1 <= hincrement t r).
    { intros r. unfold hincrement, hdr, hD0. rewrite Hq. cbn [Nat.eqb]. destruct (0 <? r); [lia|].
      destruct (hconjugates t); [|lia]. unfold cq. cbn. lia. }
    assert (Ers : rs = [0]).
    { inversion HT as [r Hr|r l Hr HT']; subst; [lia|]. f_equal. inversion HT' as [r Hr'|r l' Hr' HT'']; subst; [reflexivity|].
      specialize (EI 0). lia. }
    subst rs. cbn [flat_map]. rewrite app_nil_r, EB, Nat.mul_1_l, hno_P. unfold hP, kM. rewrite Hq, Nat.mul_1_r. cbn [Nat.eqb]. rewrite Nat.mul_1_l.
    replace (map (hindex t 0) (seq 0 m)) with (seq 0 m); [apply Permutation_refl|].
    rewrite <- (map_id (seq 0 m)) at 1. apply map_ext. intros i. unfold hindex. rewrite Hq. reflexivity.
  - assert (HT1 : loop_trace (kR h1) (kincrement h1) 0 rs).
    { rewrite (h1_R Hq). eapply trace_ext; [|exact HT]. intros r. symmetry. apply h1_inc. assumption. }
    pose proof (kindex_bijection_thm h1 (h1_wf Hq) rs HT1) as HP. rewrite h1_M in HP.
    replace (flat_map (fun r => map (hindex t r) (seq 0 (hblocks t r * hnoutputs t))) rs)
      with (flat_map (fun r => map (kindex h1 r) (seq 0 (knoutputs h1 r))) rs); [exact HP|].
    apply flat_map_ext. intros r. rewrite h1_nout by assumption. apply map_ext. intros i. apply h1_index. assumption.
Qed.
Lemma seq_trace r k : loop_trace (r + k) (fun _ => 1) r (seq r k).
Proof.
  revert r. induction k as [|k IH]; intros r; cbn [seq]; [constructor; lia|]. constructor; [lia|].
  replace (r + S k) with (S r + k) by lia. replace (r + 1) with (S r) by lia. apply IH.
Qed.
Lemma trace_det R inc r l1 l2 : loop_trace R inc r l1 -> loop_trace R inc r l2 -> l1 = l2.
Proof.
  intros H1. revert l2. induction H1 as [r Hr|r l Hr H1 IH]; intros l2 H2; inversion H2; subst; try lia; [reflexivity|].
  f_equal. apply IH. assumption.
Qed.
Lemma hloop : loop_trace (hR t) (hincrement t) 0 (seq 0 (hR t)) /\
  forall rs, loop_trace (hR t) (hincrement t) 0 rs -> rs = seq 0 (hR t).
Proof.
  assert (E : forall r, hincrement t r = 1).
  { intros r. destruct (Nat.eq_dec q 1) as [Hq|Hq]; [|apply hinc_1; assumption].
    unfold hincrement, hdr, hD0. rewrite Hq. cbn [Nat.eqb]. destruct (0 <? r); [reflexivity|]. destruct (hconjugates t); reflexivity. }
  assert (HT : loop_trace (hR t) (hincrement t) 0 (seq 0 (hR t))).
  { eapply trace_ext; [|apply (seq_trace 0)]. intros r. cbv beta. rewrite E. reflexivity. }
  split; [exact HT|]. intros rs H2. eapply trace_det; eassumption.
Qed.
End T.
