(** Centered forward transforms, p=2. *)
From Coq Require Import Reals ZArith Arith Lia List Bool.
From Verif Require Import CNum Sums Roots Mem VecModel VecProofs PadModel PadKernels Loops
  PadLemmas PadMath PadGeom Fwd1 PadForward Fill CenModel CenMath CenGeom.

(** what row i of the work buffer must hold before the row transforms *)
Definition cval (t : pad) (rh : nat -> Z) (x : nat -> nat -> C) (i c : nat) : C :=
  pre (am t) (kP t) (kn t) (aL t) (rh (i / kl t)) (fun j => x j c) (i mod kl t / am t) (i mod am t).

Section T.
Variable t : pad.
Hypothesis Hwf : kwf t.
Hypothesis Hq : kq t <> 1.
Hypothesis Hp : kp t = 2.
Notation L := (aL t).  Notation CC := (aC t).  Notation SS := (aS t).  Notation m := (am t).
Notation q := (kq t).   Notation n := (kn t).   Notation M := (kM t).
Notation D := (kD t).  Notation D0 := (kD0 t).
Notation H := (L / 2). Notation mH := (m - L / 2). Notation LH := (L - L / 2).

Lemma P2 : kP t = 1. Proof. unfold kP. rewrite Hp. reflexivity. Qed.
Lemma l2 : kl t = m. Proof. rewrite k_l by assumption. unfold cl. rewrite P2. lia. Qed.
Lemma q2 : q = n. Proof. rewrite k_q by assumption. rewrite P2. lia. Qed.
Lemma M2 : M = m * n. Proof. unfold kM. rewrite q2. reflexivity. Qed.
(** all the arithmetic facts about the ranges *)
Lemma rg2 : 1 <= m /\ m < L /\ L <= 2 * m /\ 2 * H <= L <= 2 * H + 1 /\ H <= m /\ LH <= m /\ mH <= LH /\ mH <= H /\ 2 <= n.
Proof.
  pose proof (k_cg t Hwf Hq) as G. rewrite P2 in G. destruct G as [G1 G2 G3 G4 G5 G6].
  pose proof (k_n2 t Hwf Hq). pose proof (Nat.div_mod L 2 ltac:(lia)). pose proof (Nat.mod_upper_bound L 2 ltac:(lia)).
  rewrite Nat.mul_1_r in *. lia.
Qed.

Lemma zM2 rr s : (zeta n (- rr) * zeta M (rr * s) = zeta M (rr * (s - Z.of_nat m)))%C.
Proof.
  pose proof rg2 as Hrg. rewrite M2.
  assert (E : zeta n (- rr) = zeta (m * n) (Z.of_nat m * - rr)) by (symmetry; apply zeta_cancel; lia).
  rewrite E, <- zeta_add. f_equal. lia.
Qed.
Lemma v_lo rr x s : s < mH -> pre m (kP t) n L rr x 0 s = (zeta M (rr * Z.of_nat s) * x (H + s)%nat)%C.
Proof.
  intros Hs. pose proof rg2 as Hrg. rewrite (pre_1 m (kP t) n L) by (apply P2 || lia).
  rewrite (fold_lo m (kP t) n L (k_cg t Hwf Hq)); [|unfold cm0, cl, cH; rewrite P2; lia].
  rewrite <- k_M by assumption. reflexivity.
Qed.
Lemma v_mid rr x s : mH <= s < LH -> pre m (kP t) n L rr x 0 s =
  (zeta M (rr * Z.of_nat s) * x (H + s)%nat + zeta M (rr * (Z.of_nat s - Z.of_nat m)) * x (s - mH)%nat)%C.
Proof.
  intros Hs. pose proof rg2 as Hrg. rewrite (pre_1 m (kP t) n L) by (apply P2 || lia).
  rewrite (fold_mid m (kP t) n L); [|unfold cm0, cl, cLH, cH; rewrite P2; lia].
  rewrite <- k_M by assumption. rewrite <- zM2. unfold cH, cm0, cl, cH. rewrite P2, Nat.mul_1_r. ring.
Qed.
Lemma v_hi rr x s : LH <= s < m -> pre m (kP t) n L rr x 0 s =
  (zeta M (rr * (Z.of_nat s - Z.of_nat m)) * x (s - mH)%nat)%C.
Proof.
  intros Hs. pose proof rg2 as Hrg. rewrite (pre_1 m (kP t) n L) by (apply P2 || lia).
  rewrite (fold_hi m (kP t) n L (k_cg t Hwf Hq)); [|unfold cLH, cH; lia].
  rewrite <- k_M by assumption. rewrite <- zM2. unfold cH, cm0, cl, cH. rewrite P2, Nat.mul_1_r. ring.
Qed.
Lemma cval_0 rh x i c : i < m -> cval t rh x i c = pre m (kP t) n L (rh 0) (fun j => x j c) 0 i.
Proof. intros Hi. unfold cval. rewrite l2. rewrite (Nat.mod_small i m), (Nat.div_small i m) by assumption. reflexivity. Qed.
Lemma cval_1 rh x i c : i < m -> cval t rh x (m + i) c = pre m (kP t) n L (rh 1) (fun j => x j c) 0 i.
Proof.
  intros Hi. unfold cval. rewrite l2. replace (m + i) with (i + 1 * m) by lia.
  rewrite Nat.mod_add, Nat.div_add by lia. rewrite (Nat.mod_small i m), (Nat.div_small i m) by assumption. reflexivity.
Qed.

(** conjugates of table entries *)
Lemma cj_m r s : Cconj (zeta M (Z.of_nat r * (Z.of_nat m - s))) = zeta M (Z.of_nat r * (s - Z.of_nat m)).
Proof. rewrite <- zeta_neg. f_equal. lia. Qed.
Lemma cj_s r s : Cconj (zeta M (Z.of_nat r * s)) = zeta M (- Z.of_nat r * s).
Proof. rewrite <- zeta_neg. f_equal. lia. Qed.
Lemma cj_mm r s : zeta M (Z.of_nat r * (Z.of_nat m - s)) = zeta M (- Z.of_nat r * (s - Z.of_nat m)).
Proof. f_equal. lia. Qed.


Section S1.
Variables (f W r : nat) (x : nat -> nat -> C) (m1 : mem).
Hypothesis Hsrc : forall j c, j < L -> c < 1 -> m1 (f + 1 * j + c) = Val (x j c).

Lemma forward2_residue1_ok : 1 <= r < q ->
  sepbuf 1 1 f L W m ->
  (forall i c, i < m -> c < 1 -> m1 (W + 1 * i + c) <> Unalloc) ->
  WP (cforward2_residue1 t f W r) m1
     (sets (fun i => W + 1 * i) 1 (cval t (fun _ => Z.of_nat r) x) m m1).
Proof.
  intros Hr Hsep Hal. pose proof rg2 as Hg. unfold cforward2_residue1. cbv zeta.
  assert (Hinj : injrows (fun i => W + 1 * i) 1 m) by (apply buf_inj; lia).
  pose proof (WP_pfx1 (fun i => W + 1 * i) 1 (cval t (fun _ => Z.of_nat r) x) m Hinj) as HL.
  apply WP_seq. eapply HL; [lia|apply pfx1_nil| |].
  { intros s Hs. apply lset_one; [reflexivity|].
    eapply wpe_tget; [apply zqm2; auto; lia|]. srd (H + s) 0.
    apply row_w1; [lia| |sal s 0]. rewrite cval_0, v_lo by lia. reflexivity. }
  intros m2 H2. apply WP_seq. eapply HL; [lia|exact H2| |].
  { intros s Hs. apply lset_one; [reflexivity|].
    eapply wpe_tget; [apply zqm2; auto; lia|]. eapply wpe_tget; [apply zqm2m; auto; lia|].
    srd (H + s) 0. srd (s - mH) 0.
    apply row_w1; [lia| |sal s 0].
    rewrite cval_0, v_mid by lia. rewrite ZMULT_eq, ZCMULT_eq, vadd_eq, cj_m. ring. }
  intros m3 H3. eapply HL; [lia|exact H3| |].
  { intros s Hs. apply lset_one; [reflexivity|].
    eapply wpe_tget; [apply zqm2m; auto; lia|]. srd (s - mH) 0.
    apply row_w1; [lia| |sal s 0].
    rewrite cval_0, v_hi by lia. rewrite cj_m. ring. }
  apply pfx1_sets.
Qed.

Lemma forward2_zero1_ok :
  sepbuf 1 1 f L W m ->
  (forall i c, i < m -> c < 1 -> m1 (W + 1 * i + c) <> Unalloc) ->
  WP (cforward2_zero1 t f W) m1
     (sets (fun i => W + 1 * i) 1 (cval t (fun _ => 0%Z) x) m m1).
Proof.
  intros Hsep Hal. pose proof rg2 as Hg. unfold cforward2_zero1. cbv zeta.
  assert (Hinj : injrows (fun i => W + 1 * i) 1 m) by (apply buf_inj; lia).
  pose proof (WP_pfx1 (fun i => W + 1 * i) 1 (cval t (fun _ => 0%Z) x) m Hinj) as HL.
  apply WP_seq. eapply HL; [lia|apply pfx1_nil| |].
  { intros s Hs. apply lset_one; [reflexivity|]. srd (H + s) 0.
    apply row_w1; [lia| |sal s 0]. rewrite cval_0, v_lo, Z.mul_0_l, zeta_0 by lia. ring. }
  intros m2 H2. apply WP_seq. eapply HL; [lia|exact H2| |].
  { intros s Hs. apply lset_one; [reflexivity|]. srd (s - mH) 0. srd (H + s) 0.
    apply row_w1; [lia| |sal s 0].
    rewrite cval_0, v_mid, !Z.mul_0_l, zeta_0 by lia. ring. }
  intros m3 H3. eapply HL; [lia|exact H3| |].
  { intros s Hs. apply lset_one; [reflexivity|]. srd (s - mH) 0.
    apply row_w1; [lia| |sal s 0].
    rewrite cval_0, v_hi, !Z.mul_0_l, zeta_0 by lia. ring. }
  apply pfx1_sets.
Qed.

Lemma forward2_residue2_ok : 1 <= r < q ->
  sepbuf 1 1 f L W (2 * m) ->
  (forall i c, i < 2 * m -> c < 1 -> m1 (W + 1 * i + c) <> Unalloc) ->
  WP (cforward2_residue2 t f W r) m1
     (sets (fun i => W + 1 * i) 1 (cval t (fun b => if b =? 0 then Z.of_nat r else (- Z.of_nat r)%Z) x) (2 * m) m1).
Proof.
  intros Hr Hsep Hal. pose proof rg2 as Hg. unfold cforward2_residue2. cbv zeta.
  assert (Hinj : injrows (fun i => W + 1 * i) 1 (2 * m)) by (apply buf_inj; lia).
  pose proof (WP_pfx2 (fun i => W + 1 * i) 1 (cval t (fun b => if b =? 0 then Z.of_nat r else (- Z.of_nat r)%Z) x) (2 * m) Hinj) as HL.
  apply WP_seq. eapply (HL m); [lia|lia|apply pfx2_nil| |].
  { intros s Hs. apply lset_two; [reflexivity|].
    eapply wpe_tget; [apply zqm2; auto; lia|]. srd (H + s) 0.
    apply row_w2; [lia|lia|lia| | |sal s 0|sal (m + s) 0].
    - rewrite cval_0, v_lo, pair_plus by lia. reflexivity.
    - rewrite cval_1, v_lo, pair_minus, cj_s by lia. reflexivity. }
  intros m2 H2. apply WP_seq. eapply (HL m); [lia|lia|exact H2| |].
  { intros s Hs. apply lset_two; [reflexivity|].
    eapply wpe_tget; [apply zqm2; auto; lia|]. eapply wpe_tget; [apply zqm2m; auto; lia|].
    srd (s - mH) 0. srd (H + s) 0.
    apply row_w2; [lia|lia|lia| | |sal s 0|sal (m + s) 0].
    - rewrite cval_0, v_mid, cpair2_plus, cj_m by lia. cbn [Nat.eqb]. ring.
    - rewrite cval_1, v_mid, cpair2_minus, cj_s, cj_mm by lia. cbn [Nat.eqb]. ring. }
  intros m3 H3. eapply (HL m); [lia|lia|exact H3| |].
  { intros s Hs. apply lset_two; [reflexivity|].
    eapply wpe_tget; [apply zqm2m; auto; lia|]. srd (s - mH) 0.
    apply row_w2; [lia|lia|lia| | |sal s 0|sal (m + s) 0].
    - rewrite cval_0, v_hi, cpair_plus, cj_m by lia. cbn [Nat.eqb]. ring.
    - rewrite cval_1, v_hi, cpair_minus, cj_mm by lia. cbn [Nat.eqb]. ring. }
  intros m4 H4. eapply pfx2_sets; [exact Hinj|reflexivity|exact H4].
Qed.

Lemma half_m s : n mod 2 = 0 -> (zeta M (Z.of_nat (q / 2) * (s - Z.of_nat m)) = - zeta M (Z.of_nat (q / 2) * s))%C.
Proof.
  intros He. pose proof rg2. rewrite <- zM2. rewrite q2.
  pose proof (Nat.div_mod n 2 ltac:(lia)) as Hn. rewrite He, Nat.add_0_r in Hn. 
  assert (E : zeta n (- Z.of_nat (n / 2)) = Copp C1).
  { rewrite Hn at 1. replace (- Z.of_nat (n / 2))%Z with (Z.of_nat (n / 2) * Z.opp 1)%Z by lia.
    rewrite Nat.mul_comm, zeta_cancel by lia. rewrite zeta_neg, zeta_2_1.
    apply C_ext; cbn; ring. }
  rewrite E. ring.
Qed.

Lemma forward2_zero2_ok : n mod 2 = 0 ->
  sepbuf 1 1 f L W (2 * m) ->
  (forall i c, i < 2 * m -> c < 1 -> m1 (W + 1 * i + c) <> Unalloc) ->
  WP (cforward2_zero2 t f W) m1
     (sets (fun i => W + 1 * i) 1 (cval t (fun b => if b =? 0 then 0%Z else Z.of_nat (q / 2)) x) (2 * m) m1).
Proof.
  intros He Hsep Hal. pose proof rg2 as Hg. unfold cforward2_zero2. cbv zeta.
  assert (Hq2 : 1 <= q / 2 < q).
  { rewrite q2. pose proof (Nat.div_mod n 2 ltac:(lia)). lia. }
  assert (Hinj : injrows (fun i => W + 1 * i) 1 (2 * m)) by (apply buf_inj; lia).
  pose proof (WP_pfx2 (fun i => W + 1 * i) 1 (cval t (fun b => if b =? 0 then 0%Z else Z.of_nat (q / 2)) x) (2 * m) Hinj) as HL.
  apply WP_seq. eapply (HL m); [lia|lia|apply pfx2_nil| |].
  { intros s Hs. apply lset_two; [reflexivity|]. srd (H + s) 0.
    rewrite (tget_some _ _ _ _ (zqm2 t Hq (q / 2) s Hp Hq2 ltac:(lia))).
    apply row_w2; [lia|lia|lia| | |sal s 0|sal (m + s) 0].
    - rewrite cval_0, v_lo by lia. cbn [Nat.eqb]. rewrite Z.mul_0_l, zeta_0. ring.
    - rewrite cval_1, v_lo by lia. reflexivity. }
  intros m2 H2. apply WP_seq. eapply (HL m); [lia|lia|exact H2| |].
  { intros s Hs. apply lset_two; [reflexivity|]. srd (s - mH) 0. srd (H + s) 0.
    rewrite (tget_some _ _ _ _ (zqm2 t Hq (q / 2) s Hp Hq2 ltac:(lia))).
    apply row_w2; [lia|lia|lia| | |sal s 0|sal (m + s) 0].
    - rewrite cval_0, v_mid by lia. cbn [Nat.eqb]. rewrite !Z.mul_0_l, zeta_0. ring.
    - rewrite cval_1, v_mid by lia. cbn [Nat.eqb]. rewrite half_m by assumption. ring. }
  intros m3 H3. eapply (HL m); [lia|lia|exact H3| |].
  { intros s Hs. apply lset_two; [reflexivity|]. srd (s - mH) 0.
    rewrite (tget_some _ _ _ _ (zqm2 t Hq (q / 2) s Hp Hq2 ltac:(lia))).
    apply row_w2; [lia|lia|lia| | |sal s 0|sal (m + s) 0].
    - rewrite cval_0, v_hi by lia. cbn [Nat.eqb]. rewrite !Z.mul_0_l, zeta_0. ring.
    - rewrite cval_1, v_hi by lia. cbn [Nat.eqb]. rewrite half_m by assumption. ring. }
  intros m4 H4. eapply pfx2_sets; [exact Hinj|reflexivity|exact H4].
Qed.
End S1.
End T.
