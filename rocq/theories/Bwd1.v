(** backward1 and backward2 (S=1): inverse transforms with p <= 2. *)
From Coq Require Import Reals ZArith Arith Lia List Bool.
From Verif Require Import CNum Sums Roots Mem VecModel VecProofs PadModel PadKernels Loops
  PadLemmas PadMath PadGeom Fwd1 Fwd2.

(** in-place update of the words f[lo..hi) *)
Lemma WP_acc lo hi f body (acc new : nat -> C) (m0 : mem) (K : mem -> Prop) :
  (forall j, lo <= j < hi -> m0 (f + j) = Val (acc j)) ->
  (forall s, lo <= s < hi -> wp (fun a => a < f + lo \/ f + hi <= a) (eq (f + s)) (body s) m0
       (fun m' => m' (f + s) = Val (new s))) ->
  (forall m', (forall j, lo <= j < hi -> m' (f + j) = Val (new j)) ->
     (forall a, a < f + lo \/ f + hi <= a -> m' a = m0 a) ->
     (forall a, m0 a <> Unalloc -> m' a <> Unalloc) -> K m') ->
  WP (ParFor lo hi body) m0 K.
Proof.
  intros Ha Hb HK. apply WP_map1 with (dst := fun s => f + s) (g := new); unfold rng.
  - intros; lia.
  - intros s Hs. eapply wp_weaken; [| |apply Hb; assumption]; [|auto].
    intros a H. left. intros s' Hs'. unfold rng in *. cbv beta in H. lia.
  - intros m' HV HF Hal. apply HK; auto. intros a H. apply HF. intros s Hs. lia.
Qed.

Lemma Do_For (P : prog C) : Do P = ParFor 0 1 (fun _ => P).
Proof. reflexivity. Qed.

(** value read at an address equal to a known one *)
Ltac rda v H := split; [first [left; lia|right; lia]|exists v; split; [rewrite <- H by lia; f_equal; lia|]].

Section T.
Variable t : pad.
Hypothesis Hwf : wf t.
Hypothesis HS : gS t = 1.
Hypothesis Hq : gq t <> 1.
Notation L := (gL t).  Notation m := (gm t). Notation q := (gq t). Notation M := (gM t).
Notation D := (gD t). Notation p := (gp t).
Notation BV rh y j := (bval M q m rh y j).
Notation Zf y s := (dft m (-1) y s).

Lemma BV_pos r y u s : BV (Z.of_nat r) y (m * u + s) =
  Cmul (Cconj (zeta M (Z.of_nat (r * (m * u + s))))) (Zf y s).
Proof using Hwf. clear HS Hq.
  rewrite bval_row; [|reflexivity|apply (wf_m t Hwf)|apply (q_pos t Hwf)].
  rewrite <- zeta_neg. f_equal. f_equal. lia.
Qed.
Lemma BV_neg r y u s : BV (- Z.of_nat r) y (m * u + s) =
  Cmul (zeta M (Z.of_nat (r * (m * u + s)))) (Zf y s).
Proof using Hwf. clear HS Hq.
  rewrite bval_row; [|reflexivity|apply (wf_m t Hwf)|apply (q_pos t Hwf)].
  f_equal. f_equal. lia.
Qed.
Lemma BV_0 rh y : BV rh y 0 = Zf y 0.
Proof using Hwf. clear HS Hq.
  rewrite bval_row0; [|reflexivity|apply (wf_m t Hwf)|apply (q_pos t Hwf)].
  rewrite Z.mul_0_r, Z.opp_0, zeta_0. ring.
Qed.
Lemma BV_res0 y u s : BV 0 y (m * u + s) = Zf y s.
Proof using Hwf. clear HS Hq.
  rewrite bval_row; [|reflexivity|apply (wf_m t Hwf)|apply (q_pos t Hwf)].
  rewrite Z.mul_0_l, Z.opp_0, zeta_0. ring.
Qed.
Lemma BV_res00 y s : BV 0 y s = Zf y s.
Proof using Hwf. clear HS Hq. rewrite <- (BV_res0 y 0 s). f_equal. lia. Qed.
Lemma BV_pos0 r y s : BV (Z.of_nat r) y s = Cmul (Cconj (zeta M (Z.of_nat (r * s)))) (Zf y s).
Proof using Hwf. clear HS Hq. rewrite <- (Nat.add_0_l s) at 1. rewrite <- (Nat.mul_0_r m), BV_pos. rewrite Nat.mul_0_r. reflexivity. Qed.
Lemma BV_neg0 r y s : BV (- Z.of_nat r) y s = Cmul (zeta M (Z.of_nat (r * s))) (Zf y s).
Proof using Hwf. clear HS Hq. rewrite <- (Nat.add_0_l s) at 1. rewrite <- (Nat.mul_0_r m), BV_neg. rewrite Nat.mul_0_r. reflexivity. Qed.
Lemma BV_pos1 r y s : m <= s -> BV (Z.of_nat r) y s = Cmul (Cconj (zeta M (Z.of_nat (r * s)))) (Zf y (s - m)).
Proof using Hwf. clear HS Hq. intros H. replace s with (m * 1 + (s - m)) at 1 2 by lia. apply BV_pos. Qed.
Lemma BV_neg1 r y s : m <= s -> BV (- Z.of_nat r) y s = Cmul (zeta M (Z.of_nat (r * s))) (Zf y (s - m)).
Proof using Hwf. clear HS Hq. intros H. replace s with (m * 1 + (s - m)) at 1 2 by lia. apply BV_neg. Qed.

Lemma plan_rowsB sg r : p <= 2 ->
  (if (0 <? r) || (gD0 t =? D) then fftm t sg else fftm0 t sg) = mkplan m sg (nrows t r) 1 m (ainplace t).
Proof.
  intros Hp. rewrite (nrows_small t Hwf) by lia. unfold fftm, fftm0.
  destruct (Nat.eqb_spec q 1); [contradiction|]. rewrite HS. cbn [Nat.eqb].
  rewrite (S1_C1 t Hwf HS), (P_small t Hwf) by lia. rewrite !Nat.mul_1_r, Nat.mul_1_l.
  destruct (Nat.ltb_spec 0 r), (Nat.eqb_spec r 0); try lia; cbn [orb]; [reflexivity|].
  destruct (Nat.eqb_spec (gD0 t) D) as [->|]; reflexivity.
Qed.

(** Rows read by the accumulation; shared hypotheses of the two tails *)
Section Tail.
Variables (f W0 r0 dr0 e0 E : nat) (rh : nat -> Z) (y : nat -> nat -> C).
Hypothesis HE : E = e0 + (if D =? 1 then dr0 else 2 * dr0).
Hypothesis HD1 : D = 1 -> dr0 <= 1.
Hypothesis Hr0 : 1 <= r0.
Hypothesis Hrq : 1 <= dr0 -> r0 + dr0 <= q.
Hypothesis Hd : dj f L W0 (m * E).
Hypothesis Hrh : forall e, e0 <= e < E -> rh e = tailrho D r0 (e - e0).

Definition acc_post (m0 : mem) (acc : nat -> C) (N : nat) (m' : mem) : Prop :=
  (forall j, j < L -> m' (f + j) = Val (Cadd (acc j) (Csum N (fun i => BV (rh (e0 + i)) (y (e0 + i)) j)))) /\
  (forall a, a < f \/ f + L <= a -> m' a = m0 a) /\
  (forall a, m0 a <> Unalloc -> m' a <> Unalloc).

Lemma row_in e s : e < E -> s < m -> m * e + s < m * E.
Proof. intros. nia. Qed.

Lemma backward1_tail_spec (acc : nat -> C) (m0 : mem) : p = 1 ->
  (forall e s, e < E -> s < m -> m0 (W0 + (m * e + s)) = Val (Zf (y e) s)) ->
  (forall j, j < L -> m0 (f + j) = Val (acc j)) ->
  WP (backward1_tail t f (W0 + e0 * m) r0 dr0) m0 (acc_post m0 acc (E - e0)).
Proof.
  intros Hp Hrow Hacc. pose proof (L_le_m t Hwf Hp) as HLm. pose proof (wf_L t Hwf) as HL1.
  pose proof (wf_m t Hwf) as Hm1.
  unfold backward1_tail. destruct (Nat.eqb_spec D 1) as [ED|ED].
  - destruct (Nat.ltb_spec 0 dr0) as [Hdr|Hdr].
    + assert (dr0 = 1) by lia. clear HD1. assert (EE : E = e0 + 1) by lia.
      assert (Hrow0 : forall s, s < m -> m0 (W0 + (m * e0 + s)) = Val (Zf (y e0) s)) by (intros; apply Hrow; lia).
      assert (Hb : m * E = m * e0 + m) by (rewrite EE; lia). unfold dj in Hd.
      assert (Hrhe : rh e0 = Z.of_nat r0).
      { rewrite Hrh by lia. unfold tailrho. destruct (Nat.eqb_spec D 1); [reflexivity|lia]. }
      set (new := fun j => Cadd (acc j) (BV (rh e0) (y e0) j)).
      rewrite Do_For. apply WP_seq.
      apply WP_acc with (f := f) (acc := acc) (new := new).
      { intros j Hj. apply Hacc. lia. }
      { intros s Hs. assert (s = 0) by lia. subst s. cbn [wp].
        rda (acc 0) Hacc. rda (Zf (y e0) 0) Hrow0. split; [lia|]. split; [rewrite <- (Nat.add_0_r f), Hacc by lia; discriminate|].
        apply upd_get; [lia|]. unfold new. rewrite BV_0. reflexivity. }
      intros m1 H1v H1f H1a. apply WP_acc with (f := f) (acc := acc) (new := new).
      { intros j Hj. rewrite H1f by lia. apply Hacc. lia. }
      { intros s Hs. cbn [wp].
        split; [right; lia|]. exists (acc s). split; [rewrite H1f by lia; apply Hacc; lia|].
        rewrite (tget_some _ _ _ _ (zqm_get t r0 s ltac:(lia) ltac:(lia))). cbn [wp].
        split; [left; lia|]. exists (Zf (y e0) s). split; [rewrite H1f by lia; rewrite <- Hrow0 by lia; f_equal; lia|].
        split; [lia|]. split; [apply H1a; rewrite Hacc by lia; discriminate|].
        apply upd_get; [lia|]. unfold new. rewrite Hrhe, BV_pos0. reflexivity. }
      intros m2 H2v H2f H2a. split; [|split].
      * intros j Hj. replace (E - e0) with 1 by lia. cbn [Csum]. rewrite Nat.add_0_r.
        replace (Cadd C0 (BV (rh e0) (y e0) j)) with (BV (rh e0) (y e0) j) by ring.
        destruct (Nat.eq_dec j 0) as [->|]; [rewrite H2f by lia; apply H1v; lia|apply H2v; lia].
      * intros a Ha. rewrite H2f, H1f by lia. reflexivity.
      * auto.
    + apply WP_skip. split; [|split]; auto. intros j Hj. replace (E - e0) with 0 by lia. cbn [Csum].
      rewrite Hacc by assumption. f_equal. ring.
  - eapply WP_mono; [|apply (WP_cfor _ _ _ (fun d => acc_post m0 acc (2 * d)))].
    + intros m1 H. replace (E - e0) with (2 * dr0) by lia. exact H.
    + split; [|split]; auto. intros j Hj. cbn [Nat.mul Nat.add Csum]. rewrite Hacc by assumption. f_equal. ring.
    + intros d m1 Hdd (Hv & Hf & Hal). unfold dj in Hd.
      set (e := e0 + 2 * d). assert (Hem : m * (e + 2) <= m * E) by (apply Nat.mul_le_mono_l; lia).
      assert (HmE : m * e + m + m <= m * E) by lia.
      assert (HU : forall s, s < m -> m1 (W0 + (m * e + s)) = Val (Zf (y e) s)).
      { intros s Hs. rewrite Hf by lia. apply Hrow; lia. }
      assert (HV : forall s, s < m -> m1 (W0 + (m * e + m + s)) = Val (Zf (y (e + 1)) s)).
      { intros s Hs. rewrite Hf by lia. rewrite <- Hrow by lia. f_equal. lia. }
      assert (EU : W0 + e0 * m + 2 * m * d = W0 + m * e) by (unfold e; lia).
      assert (R1 : rh e = Z.of_nat (r0 + d)).
      { rewrite Hrh by lia. replace (e - e0) with (2 * d) by lia. apply tailrho_even. assumption. }
      assert (R2 : rh (e + 1) = (- Z.of_nat (r0 + d))%Z).
      { rewrite Hrh by lia. replace (e + 1 - e0) with (2 * d + 1) by lia. apply tailrho_odd. assumption. }
      set (acc1 := fun j => Cadd (acc j) (Csum (2 * d) (fun i => BV (rh (e0 + i)) (y (e0 + i)) j))).
      change (forall j, j < L -> m1 (f + j) = Val (acc1 j)) in Hv.
      set (new := fun j => Cadd (acc1 j) (Cadd (BV (rh e) (y e) j) (BV (rh (e + 1)) (y (e + 1)) j))).
      cbv zeta. rewrite EU. rewrite Do_For. apply WP_seq.
      apply WP_acc with (f := f) (acc := acc1) (new := new).
      { intros j Hj. apply Hv. lia. }
      { intros s Hs. assert (s = 0) by lia. subst s. cbn [wp].
        rda (acc1 0) Hv. rda (Zf (y e) 0) HU. rda (Zf (y (e + 1)) 0) HV.
        split; [lia|]. split; [rewrite <- (Nat.add_0_r f), Hv by lia; discriminate|].
        apply upd_get; [lia|]. unfold new. rewrite !BV_0. reflexivity. }
      intros m2 H2v H2f H2a. apply WP_acc with (f := f) (acc := acc1) (new := new).
      { intros j Hj. rewrite H2f by lia. apply Hv. lia. }
      { intros s Hs. rewrite (tget_some _ _ _ _ (zqm_get t (r0 + d) s ltac:(lia) ltac:(lia))). cbn [wp].
        split; [left; lia|]. exists (Zf (y e) s). split; [rewrite H2f by lia; rewrite <- HU by lia; f_equal; lia|].
        split; [left; lia|]. exists (Zf (y (e + 1)) s). split; [rewrite H2f by lia; rewrite <- HV by lia; f_equal; lia|].
        split; [right; lia|]. exists (acc1 s). split; [rewrite H2f by lia; apply Hv; lia|].
        split; [lia|]. split; [apply H2a; rewrite Hv by lia; discriminate|].
        apply upd_get; [lia|]. unfold new. rewrite R1, R2, BV_pos0, BV_neg0, vadd_eq, ZMULT2_eq. ring. }
      intros m3 H3v H3f H3a. split; [|split].
      * intros j Hj. replace (2 * S d) with (S (S (2 * d))) by lia. cbn [Csum].
        assert (H3 : m3 (f + j) = Val (new j)).
        { destruct (Nat.eq_dec j 0) as [->|]; [rewrite H3f by lia; apply H2v; lia|apply H3v; lia]. }
        rewrite H3. f_equal. unfold new, acc1. replace (e0 + S (2 * d)) with (e + 1) by lia.
        change (e0 + 2 * d) with e. ring.
      * intros a Ha. rewrite H3f, H2f by lia. auto.
      * auto.
Qed.

Lemma backward2_tail_spec (acc : nat -> C) (m0 : mem) : p = 2 ->
  (forall e s, e < E -> s < m -> m0 (W0 + (m * e + s)) = Val (Zf (y e) s)) ->
  (forall j, j < L -> m0 (f + j) = Val (acc j)) ->
  WP (backward2_tail t f (W0 + e0 * m) r0 dr0) m0 (acc_post m0 acc (E - e0)).
Proof.
  intros Hp Hrow Hacc. pose proof (wf_mpL t Hwf) as HmL. pose proof (wf_Lmp t Hwf) as HLm.
  rewrite Hp in HmL, HLm. assert (HmL' : m < L) by lia. assert (HLm' : L <= 2 * m) by lia. clear HmL HLm.
  pose proof (wf_m t Hwf) as Hm1.
  unfold backward2_tail. cbv zeta. destruct (Nat.eqb_spec D 1) as [ED|ED].
  - destruct (Nat.ltb_spec 0 dr0) as [Hdr|Hdr].
    + assert (dr0 = 1) by lia. clear HD1. assert (EE : E = e0 + 1) by lia.
      assert (Hrow0 : forall s, s < m -> m0 (W0 + (m * e0 + s)) = Val (Zf (y e0) s)) by (intros; apply Hrow; lia).
      assert (Hb : m * E = m * e0 + m) by (rewrite EE; lia). unfold dj in Hd.
      assert (Hrhe : rh e0 = Z.of_nat r0).
      { rewrite Hrh by lia. unfold tailrho. destruct (Nat.eqb_spec D 1); [reflexivity|lia]. }
      set (new := fun j => Cadd (acc j) (BV (rh e0) (y e0) j)).
      rewrite Do_For. apply WP_seq.
      apply WP_acc with (f := f) (acc := acc) (new := new).
      { intros j Hj. apply Hacc. lia. }
      { intros s Hs. assert (s = 0) by lia. subst s. cbn [wp].
        rda (acc 0) Hacc. rda (Zf (y e0) 0) Hrow0. split; [lia|]. split; [rewrite <- (Nat.add_0_r f), Hacc by lia; discriminate|].
        apply upd_get; [lia|]. unfold new. rewrite BV_0. reflexivity. }
      intros m1 H1v H1f H1a. apply WP_seq. apply WP_acc with (f := f) (acc := acc) (new := new).
      { intros j Hj. rewrite H1f by lia. apply Hacc. lia. }
      { intros s Hs. cbn [wp].
        split; [right; lia|]. exists (acc s). split; [rewrite H1f by lia; apply Hacc; lia|].
        rewrite (tget_some _ _ _ _ (zqm_get2 t r0 s ltac:(lia) ltac:(lia))). cbn [wp].
        split; [left; lia|]. exists (Zf (y e0) s). split; [rewrite H1f by lia; rewrite <- Hrow0 by lia; f_equal; lia|].
        split; [lia|]. split; [apply H1a; rewrite Hacc by lia; discriminate|].
        apply upd_get; [lia|]. unfold new. rewrite Hrhe, BV_pos0. reflexivity. }
      intros m2 H2v H2f H2a. apply WP_acc with (f := f) (acc := acc) (new := new).
      { intros j Hj. rewrite H2f, H1f by lia. apply Hacc. lia. }
      { intros s Hs. cbn [wp].
        split; [right; lia|]. exists (acc s). split; [rewrite H2f, H1f by lia; apply Hacc; lia|].
        rewrite (tget_some _ _ _ _ (zqmS_get2 t r0 s ltac:(lia) ltac:(lia))). cbn [wp].
        split; [left; lia|]. exists (Zf (y e0) (s - m)).
        split; [rewrite H2f, H1f by lia; rewrite <- Hrow0 by lia; f_equal; lia|].
        split; [lia|]. split; [apply H2a, H1a; rewrite Hacc by lia; discriminate|].
        apply upd_get; [lia|]. unfold new. rewrite Hrhe, BV_pos1 by lia. reflexivity. }
      intros m3 H3v H3f H3a. split; [|split].
      * intros j Hj. replace (E - e0) with 1 by lia. cbn [Csum]. rewrite Nat.add_0_r.
        replace (Cadd C0 (BV (rh e0) (y e0) j)) with (BV (rh e0) (y e0) j) by ring.
        destruct (Nat.eq_dec j 0) as [->|]; [rewrite H3f, H2f by lia; apply H1v; lia|].
        destruct (Nat.lt_ge_cases j m); [rewrite H3f by lia; apply H2v; lia|apply H3v; lia].
      * intros a Ha. rewrite H3f, H2f, H1f by lia. reflexivity.
      * auto.
    + apply WP_skip. split; [|split]; auto. intros j Hj. replace (E - e0) with 0 by lia. cbn [Csum].
      rewrite Hacc by assumption. f_equal. ring.
  - eapply WP_mono; [|apply (WP_cfor _ _ _ (fun d => acc_post m0 acc (2 * d)))].
    + intros m1 H. replace (E - e0) with (2 * dr0) by lia. exact H.
    + split; [|split]; auto. intros j Hj. cbn [Nat.mul Nat.add Csum]. rewrite Hacc by assumption. f_equal. ring.
    + intros d m1 Hdd (Hv & Hf & Hal). unfold dj in Hd.
      set (e := e0 + 2 * d). assert (Hem : m * (e + 2) <= m * E) by (apply Nat.mul_le_mono_l; lia).
      assert (HmE : m * e + m + m <= m * E) by lia.
      assert (HU : forall s, s < m -> m1 (W0 + (m * e + s)) = Val (Zf (y e) s)).
      { intros s Hs. rewrite Hf by lia. apply Hrow; lia. }
      assert (HV : forall s, s < m -> m1 (W0 + (m * e + m + s)) = Val (Zf (y (e + 1)) s)).
      { intros s Hs. rewrite Hf by lia. rewrite <- Hrow by lia. f_equal. lia. }
      assert (EU : W0 + e0 * m + 2 * m * d = W0 + m * e) by (unfold e; lia).
      assert (R1 : rh e = Z.of_nat (r0 + d)).
      { rewrite Hrh by lia. replace (e - e0) with (2 * d) by lia. apply tailrho_even. assumption. }
      assert (R2 : rh (e + 1) = (- Z.of_nat (r0 + d))%Z).
      { rewrite Hrh by lia. replace (e + 1 - e0) with (2 * d + 1) by lia. apply tailrho_odd. assumption. }
      set (acc1 := fun j => Cadd (acc j) (Csum (2 * d) (fun i => BV (rh (e0 + i)) (y (e0 + i)) j))).
      change (forall j, j < L -> m1 (f + j) = Val (acc1 j)) in Hv.
      set (new := fun j => Cadd (acc1 j) (Cadd (BV (rh e) (y e) j) (BV (rh (e + 1)) (y (e + 1)) j))).
      cbv zeta. rewrite EU. rewrite Do_For. apply WP_seq.
      apply WP_acc with (f := f) (acc := acc1) (new := new).
      { intros j Hj. apply Hv. lia. }
      { intros s Hs. assert (s = 0) by lia. subst s. cbn [wp].
        rda (acc1 0) Hv. rda (Zf (y e) 0) HU. rda (Zf (y (e + 1)) 0) HV.
        split; [lia|]. split; [rewrite <- (Nat.add_0_r f), Hv by lia; discriminate|].
        apply upd_get; [lia|]. unfold new. rewrite !BV_0. reflexivity. }
      intros m2 H2v H2f H2a. apply WP_seq. apply WP_acc with (f := f) (acc := acc1) (new := new).
      { intros j Hj. rewrite H2f by lia. apply Hv. lia. }
      { intros s Hs. cbn [wp].
        split; [right; lia|]. exists (acc1 s). split; [rewrite H2f by lia; apply Hv; lia|].
        rewrite (tget_some _ _ _ _ (zqm_get2 t (r0 + d) s ltac:(lia) ltac:(lia))). cbn [wp].
        split; [left; lia|]. exists (Zf (y (e + 1)) s). split; [rewrite H2f by lia; rewrite <- HV by lia; f_equal; lia|].
        split; [left; lia|]. exists (Zf (y e) s). split; [rewrite H2f by lia; rewrite <- HU by lia; f_equal; lia|].
        split; [lia|]. split; [apply H2a; rewrite Hv by lia; discriminate|].
        apply upd_get; [lia|]. unfold new. rewrite R1, R2, BV_pos0, BV_neg0, vadd_eq, ZMULT2_eq. ring. }
      intros m3 H3v H3f H3a. apply WP_acc with (f := f) (acc := acc1) (new := new).
      { intros j Hj. rewrite H3f, H2f by lia. apply Hv. lia. }
      { intros s Hs. cbn [wp].
        split; [right; lia|]. exists (acc1 s). split; [rewrite H3f, H2f by lia; apply Hv; lia|].
        rewrite (tget_some _ _ _ _ (zqmS_get2 t (r0 + d) s ltac:(lia) ltac:(lia))). cbn [wp].
        split; [left; lia|]. exists (Zf (y (e + 1)) (s - m)).
        split; [rewrite H3f, H2f by lia; rewrite <- HV by lia; f_equal; lia|].
        split; [left; lia|]. exists (Zf (y e) (s - m)).
        split; [rewrite H3f, H2f by lia; rewrite <- HU by lia; f_equal; lia|].
        split; [lia|]. split; [apply H3a, H2a; rewrite Hv by lia; discriminate|].
        apply upd_get; [lia|]. unfold new. rewrite R1, R2, BV_pos1, BV_neg1, vadd_eq, ZMULT2_eq by lia. ring. }
      intros m4 H4v H4f H4a. split; [|split].
      * intros j Hj. replace (2 * S d) with (S (S (2 * d))) by lia. cbn [Csum].
        assert (H3 : m4 (f + j) = Val (new j)).
        { destruct (Nat.eq_dec j 0) as [->|]; [rewrite H4f, H3f by lia; apply H2v; lia|].
          destruct (Nat.lt_ge_cases j m); [rewrite H4f by lia; apply H3v; lia|apply H4v; lia]. }
        rewrite H3. f_equal. unfold new, acc1. replace (e0 + S (2 * d)) with (e + 1) by lia.
        change (e0 + 2 * d) with e. ring.
      * intros a Ha. rewrite H4f, H3f, H2f by lia. auto.
      * auto.
Qed.
End Tail.

(** first stage: the inverse row transforms *)
Lemma rowsB F0 W0 r (y : nat -> nat -> C) (m0 : mem) (K : mem -> Prop) : p <= 2 ->
  let E := nrows t r in
  ainplace t = (W0 =? F0) ->
  (W0 = F0 \/ dj W0 (m * E) F0 (m * E)) ->
  (forall e k, e < E -> k < m -> m0 (F0 + (m * e + k)) = Val (y e k)) ->
  (forall i, i < m * E -> m0 (W0 + i) <> Unalloc) ->
  (forall m', (forall e s, e < E -> s < m -> m' (W0 + (m * e + s)) = Val (Zf (y e) s)) ->
     (forall a, (forall i, i < m * E -> W0 + i <> a) -> m' a = m0 a) ->
     (forall a, m0 a <> Unalloc -> m' a <> Unalloc) -> K m') ->
  WP (fft (if (0 <? r) || (gD0 t =? D) then fftm t (-1) else fftm0 t (-1)) F0 W0) m0 K.
Proof.
  intros Hp E Hin Hd Hy Hw HK. rewrite plan_rowsB by assumption. apply WP_fft_rows with (x := y).
  - rewrite Hin. apply Nat.eqb_sym.
  - apply (wf_m t Hwf).
  - assumption.
  - assumption.
  - destruct Hd as [->|Hd]; [auto|right]. unfold dj in Hd. intros. fold E in H, H0. lia.
  - assumption.
Qed.

Definition bwd_val (r : nat) (acc : nat -> C) (y : nat -> nat -> C) (j : nat) : C :=
  Cadd (if r =? 0 then C0 else acc j) (Csum (nrows t r) (fun e => BV (rho t r e) (y e) j)).

Lemma backward1_spec f F0 W r (y : nat -> nat -> C) (acc : nat -> C) (m0 : mem) (K : mem -> Prop) :
  p = 1 ->
  let W0 := getW F0 W in
  let E := nrows t r in
  passr t r ->
  ainplace t = (W0 =? F0) ->
  dj f L W0 (m * E) -> dj f L F0 (m * E) ->
  (W0 = F0 \/ dj W0 (m * E) F0 (m * E)) ->
  (forall e k, e < E -> k < m -> m0 (F0 + (m * e + k)) = Val (y e k)) ->
  (forall i, i < m * E -> m0 (W0 + i) <> Unalloc) ->
  (forall j, j < L -> m0 (f + j) <> Unalloc) ->
  (r <> 0 -> forall j, j < L -> m0 (f + j) = Val (acc j)) ->
  (forall m',
     (forall j, j < L -> m' (f + j) = Val (bwd_val r acc y j)) ->
     (forall a, a < f \/ f + L <= a -> (forall i, i < m * E -> W0 + i <> a) -> m' a = m0 a) ->
     (forall a, m0 a <> Unalloc -> m' a <> Unalloc) -> K m') ->
  WP (backward1 t F0 f r W) m0 K.
Proof.
  intros Hp W0 E Hpass Hin Hdw Hdf Hwd Hy Hwa Hfa Hacc HK.
  pose proof (L_le_m t Hwf Hp) as HLm. pose proof (wf_L t Hwf) as HL1. pose proof (wf_m t Hwf) as Hm1.
  pose proof (q_pos t Hwf) as Hq1. pose proof (wf_D t Hwf) as HD.
  pose proof (D0_bounds t Hwf) as HD0. pose proof (q_small t Hwf ltac:(lia)) as Hqn.
  pose proof (R_le_n t Hwf) as HRn. pose proof (D0_le_n t Hwf) as HD0n.
  pose proof (nrows_small t Hwf ltac:(lia) r) as HEr. fold E in HEr.
  pose proof (q_parity t Hwf Hq ltac:(lia)) as Hq2.
  pose proof (Nat.mod_upper_bound (gn t) 2 ltac:(lia)) as Hnm.
  unfold backward1. fold W0. cbv zeta.
  destruct ((r =? 0) && negb (ainplace t) && (D =? 1) && (m <=? L)) eqn:Edir.
  { (* direct transform F -> f *)
    apply andb_true_iff in Edir. destruct Edir as [Edir E4]. apply andb_true_iff in Edir. destruct Edir as [Edir E3].
    apply andb_true_iff in Edir. destruct Edir as [E1 E2]. apply Nat.eqb_eq in E1, E3. apply Nat.leb_le in E4.
    apply negb_true_iff in E2. subst r. assert (HLm' : L = m) by lia.
    assert (HE1 : E = 1) by (rewrite HEr; cbn [Nat.eqb]; apply D0_D1, E3).
    assert (Hpl : fftm t (-1) = mkplan m (-1) 1 1 m (ainplace t)).
    { pose proof (plan_rowsB (-1) 1 ltac:(lia)) as H. cbn [Nat.ltb Nat.leb orb] in H. rewrite (nrows_small t Hwf) in H by lia.
      cbn [Nat.eqb] in H. rewrite E3 in H. exact H. }
    rewrite Hpl. rewrite HE1 in *. apply WP_fft_rows with (x := y).
    - rewrite E2. symmetry. apply Nat.eqb_neq. unfold dj in *. lia.
    - assumption.
    - assumption.
    - intros i Hi. apply Hfa. lia.
    - right. unfold dj in *. intros; lia.
    - intros m' HV HF Hal. apply HK; [| |assumption].
      + intros j Hj. specialize (HV 0 j ltac:(lia) ltac:(lia)). rewrite Nat.mul_0_r, Nat.add_0_l in HV.
        rewrite HV. f_equal. unfold bwd_val. fold E. rewrite HE1. cbn [Nat.eqb Csum]. rewrite rho_D1 by lia.
        replace j with (m * 0 + j) at 2 by lia. change (Z.of_nat 0) with 0%Z. rewrite BV_res0. ring.
      + intros a Ha Hb. apply HF. intros i Hi. lia. }
  clear Edir. apply WP_seq. apply rowsB with (y := y); auto; try lia. fold E.
  intros m1 H1v H1f H1a.
  assert (Hm1f : forall a, f <= a < f + L -> m1 a = m0 a).
  { intros a Ha. apply H1f. unfold dj in Hdw. intros i Hi. lia. }
  destruct (Nat.eqb_spec r 0) as [Er|Er].
  - subst r. assert (HmE : m <= m * E) by nia. cbn [Nat.eqb] in HEr.
    destruct ((D =? 1) || (2 * (q / 2) <? q)) eqn:Eodd.
    + assert (Hodd : D = 1 \/ gn t mod 2 = 1).
      { apply orb_true_iff in Eodd. rewrite Nat.eqb_eq, Nat.ltb_lt in Eodd. lia. }
      apply WP_seq. apply WP_map1 with (dst := fun s => f + s) (g := fun s => BV (rho t 0 0) (y 0) s); unfold rng.
      { intros; lia. }
      { intros s Hs. cbn [wp]. unfold dj in Hdw. split; [left; intros; lia|]. exists (Zf (y 0) s).
        split; [rewrite <- H1v by lia; f_equal; lia|].
        split; [reflexivity|]. split; [apply H1a, Hfa; lia|]. apply upd_get; [reflexivity|].
        rewrite rho_00 by lia. replace s with (m * 0 + s) at 2 by lia. rewrite BV_res0. reflexivity. }
      intros m2 H2v H2f H2a.
      assert (Hrow2 : forall e s, e < E -> s < m -> m2 (W0 + (m * e + s)) = Val (Zf (y e) s)).
      { intros e s He Hs. rewrite H2f; [apply H1v; assumption|]. unfold dj in Hdw. intros s' Hs'.
        assert (m * e + s < m * E) by nia. lia. }
      eapply WP_mono; [|apply backward1_tail_spec with (e0 := 1) (E := E) (rh := rho t 0) (y := y)
          (acc := fun j => BV (rho t 0 0) (y 0) j); auto].
      * intros m3 (H3v & H3f & H3a). apply HK; [| |auto].
        -- intros j Hj. rewrite H3v by assumption. f_equal. unfold bwd_val. fold E.
           replace E with (S (E - 1)) at 2 by lia. rewrite Csum_S_l. cbn [Nat.eqb Nat.add]. ring.
        -- intros a Ha Hb. rewrite H3f, H2f, H1f by (auto; intros; lia). reflexivity.
      * rewrite HEr. apply D0_odd; assumption.
      * intros HD1. rewrite (D0_D1 t HD1). cbn. lia.
      * intros Hdr. pose proof (Nat.div_mod (gD0 t - 1) 2 ltac:(lia)). lia.
      * intros e He. destruct (Nat.eq_dec D 1) as [ED|ED].
        -- rewrite (D0_D1 t ED) in HEr. lia.
        -- apply rho_tail0; auto; try lia. destruct Hodd as [|Ho]; [contradiction|]. rewrite Ho. reflexivity.
      * intros j Hj. apply H2v. lia.
    + apply orb_false_iff in Eodd. destruct Eodd as [ED Ev]. apply Nat.eqb_neq in ED. apply Nat.ltb_ge in Ev.
      assert (Hn0 : gn t mod 2 = 0) by lia.
      pose proof (D0_even t Hwf Hq ED Hn0) as HDe.
      assert (HE2 : 2 <= E) by lia. assert (HmE2 : m + m <= m * E) by nia.
      assert (HV0 : forall s, s < m -> m1 (W0 + m + s) = Val (Zf (y 1) s)).
      { intros s Hs. rewrite <- H1v by lia. f_equal. lia. }
      assert (HU0 : forall s, s < m -> m1 (W0 + s) = Val (Zf (y 0) s)).
      { intros s Hs. rewrite <- H1v by lia. f_equal. lia. }
      assert (R1 : rho t 0 1 = Z.of_nat (q / 2)) by (rewrite rho_01 by (assumption || lia); rewrite Hp; reflexivity).
      set (new := fun j => Cadd (BV (rho t 0 0) (y 0) j) (BV (rho t 0 1) (y 1) j)).
      unfold dj in Hdw. rewrite Do_For. apply WP_seq.
      apply WP_map1 with (dst := fun s => f + s) (g := new); unfold rng.
      { intros; lia. }
      { intros s Hs. assert (s = 0) by lia. subst s. cbn [wp].
        split; [left; intros; lia|]. exists (Zf (y 0) 0). split; [rewrite <- HU0 by lia; f_equal; lia|].
        split; [left; intros; lia|]. exists (Zf (y 1) 0). split; [rewrite <- HV0 by lia; f_equal; lia|].
        split; [lia|]. split; [rewrite <- (Nat.add_0_r f); apply H1a, Hfa; lia|]. apply upd_get; [lia|].
        unfold new. rewrite !BV_0. reflexivity. }
      intros m2 H2v H2f H2a. apply WP_seq.
      assert (Hrow2 : forall e s, e < E -> s < m -> m2 (W0 + (m * e + s)) = Val (Zf (y e) s)).
      { intros e s He Hs. rewrite H2f; [apply H1v; assumption|]. intros s' Hs'.
        assert (m * e + s < m * E) by nia. lia. }
      apply WP_map1 with (dst := fun s => f + s) (g := new); unfold rng.
      { intros; lia. }
      { intros s Hs. cbn [wp].
        split; [left; intros; lia|]. exists (Zf (y 0) s). split; [rewrite <- Hrow2 by lia; f_equal; lia|].
        rewrite (tget_some _ _ _ _ (zqm_get t (q / 2) s ltac:(lia) ltac:(lia))). cbn [wp].
        split; [left; intros; lia|]. exists (Zf (y 1) s). split; [rewrite <- Hrow2 by lia; f_equal; lia|].
        split; [lia|]. split; [apply H2a, H1a, Hfa; lia|]. apply upd_get; [lia|].
        unfold new. rewrite R1, BV_pos0, rho_00, BV_res00 by lia. reflexivity. }
      intros m3 H3v H3f H3a.
      assert (Hrow3 : forall e s, e < E -> s < m -> m3 (W0 + (m * e + s)) = Val (Zf (y e) s)).
      { intros e s He Hs. rewrite H3f; [apply Hrow2; assumption|]. intros s' Hs'.
        assert (m * e + s < m * E) by nia. lia. }
      eapply WP_mono; [|apply backward1_tail_spec with (e0 := 2) (E := E) (rh := rho t 0) (y := y) (acc := new); auto].
      * intros m4 (H4v & H4f & H4a). apply HK; [| |auto 10].
        -- intros j Hj. rewrite H4v by assumption. f_equal. unfold bwd_val. fold E.
           replace E with (S (S (E - 2))) at 2 by lia. rewrite !Csum_S_l. unfold new. cbn [Nat.eqb Nat.add]. ring.
        -- intros a Ha Hb. rewrite H4f, H3f, H2f, H1f by (auto; intros; lia). reflexivity.
      * rewrite HEr. exact HDe.
      * lia.
      * intros Hdr. pose proof (Nat.div_mod (gD0 t - 2) 2 ltac:(lia)). lia.
      * intros e He. apply rho_tail0; auto; try lia. rewrite Hn0. reflexivity.
      * intros j Hj. destruct (Nat.eq_dec j 0) as [->|]; [rewrite H3f by (intros; lia); apply H2v; lia|apply H3v; lia].
  - specialize (Hacc Er).
    rewrite <- (Nat.add_0_r W0). replace 0 with (0 * m) at 1 by lia.
    assert (Hr1 : 1 <= r) by lia.
    assert (Hdr : E = 0 + (if D =? 1 then gdr t else 2 * gdr t)).
    { rewrite HEr. destruct (Nat.eqb_spec D 1) as [ED|ED]; [rewrite (dr_D1 t ED); lia|].
      rewrite (dr_pair t Hq) by lia. rewrite (D_even t r Hwf Hq ltac:(lia) ltac:(lia) Hr1 Hpass) at 1. lia. }
    eapply WP_mono; [|apply backward1_tail_spec with (E := E) (rh := rho t r) (y := y) (acc := acc); auto].
    + intros m3 (H3v & H3f & H3a). apply HK; [| |auto].
      * intros j Hj. rewrite H3v by assumption. f_equal. unfold bwd_val. fold E. rewrite Nat.sub_0_r.
        destruct (Nat.eqb_spec r 0); [lia|]. reflexivity.
      * intros a Ha Hb. rewrite H3f, H1f by auto. reflexivity.
    + intros HD1. rewrite (dr_D1 t HD1). lia.
    + intros _. destruct Hpass as [|(_ & _ & H)]; lia.
    + intros e He. rewrite Nat.sub_0_r. destruct (Nat.eq_dec D 1) as [ED|ED].
      * rewrite rho_D1 by lia. unfold tailrho. rewrite ED. reflexivity.
      * apply rho_tail; lia.
    + intros j Hj. rewrite Hm1f by lia. apply Hacc. assumption.
Qed.

Lemma BV_res01 y s : m <= s -> BV 0 y s = Zf y (s - m).
Proof using Hwf. clear HS Hq. intros H. rewrite <- (BV_res0 y 1 (s - m)). f_equal. lia. Qed.

Lemma backward2_spec f F0 W r (y : nat -> nat -> C) (acc : nat -> C) (m0 : mem) (K : mem -> Prop) :
  p = 2 ->
  let W0 := getW F0 W in
  let E := nrows t r in
  passr t r ->
  ainplace t = (W0 =? F0) ->
  dj f L W0 (m * E) -> dj f L F0 (m * E) ->
  (W0 = F0 \/ dj W0 (m * E) F0 (m * E)) ->
  (forall e k, e < E -> k < m -> m0 (F0 + (m * e + k)) = Val (y e k)) ->
  (forall i, i < m * E -> m0 (W0 + i) <> Unalloc) ->
  (forall j, j < L -> m0 (f + j) <> Unalloc) ->
  (r <> 0 -> forall j, j < L -> m0 (f + j) = Val (acc j)) ->
  (forall m',
     (forall j, j < L -> m' (f + j) = Val (bwd_val r acc y j)) ->
     (forall a, a < f \/ f + L <= a -> (forall i, i < m * E -> W0 + i <> a) -> m' a = m0 a) ->
     (forall a, m0 a <> Unalloc -> m' a <> Unalloc) -> K m') ->
  WP (backward2 t F0 f r W) m0 K.
Proof.
  intros Hp W0 E Hpass Hin Hdw Hdf Hwd Hy Hwa Hfa Hacc HK.
  pose proof (wf_mpL t Hwf) as HmL. pose proof (wf_Lmp t Hwf) as HLm.
  rewrite Hp in HmL, HLm. assert (HmL' : m < L) by lia. assert (HLm' : L <= 2 * m) by lia. clear HmL HLm.
  pose proof (wf_L t Hwf) as HL1. pose proof (wf_m t Hwf) as Hm1.
  pose proof (q_pos t Hwf) as Hq1. pose proof (wf_D t Hwf) as HD.
  pose proof (D0_bounds t Hwf) as HD0. pose proof (q_small t Hwf ltac:(lia)) as Hqn.
  pose proof (R_le_n t Hwf) as HRn. pose proof (D0_le_n t Hwf) as HD0n.
  pose proof (nrows_small t Hwf ltac:(lia) r) as HEr. fold E in HEr.
  pose proof (q_parity t Hwf Hq ltac:(lia)) as Hq2.
  pose proof (Nat.mod_upper_bound (gn t) 2 ltac:(lia)) as Hnm.
  unfold backward2. fold W0. cbv zeta.
  apply WP_seq. apply rowsB with (y := y); auto; try lia. fold E.
  intros m1 H1v H1f H1a.
  assert (Hm1f : forall a, f <= a < f + L -> m1 a = m0 a).
  { intros a Ha. apply H1f. unfold dj in Hdw. intros i Hi. lia. }
  destruct (Nat.eqb_spec r 0) as [Er|Er].
  - subst r. assert (HmE : m <= m * E) by nia. cbn [Nat.eqb] in HEr.
    destruct ((D =? 1) || (2 * (q / 2) <? q)) eqn:Eodd.
    + assert (Hodd : D = 1 \/ gn t mod 2 = 1).
      { apply orb_true_iff in Eodd. rewrite Nat.eqb_eq, Nat.ltb_lt in Eodd. lia. }
      apply WP_seq. apply WP_map1 with (dst := fun s => f + s) (g := fun s => BV (rho t 0 0) (y 0) s); unfold rng.
      { intros; lia. }
      { intros s Hs. cbn [wp]. unfold dj in Hdw. split; [left; intros; lia|]. exists (Zf (y 0) s).
        split; [rewrite <- H1v by lia; f_equal; lia|].
        split; [reflexivity|]. split; [apply H1a, Hfa; lia|]. apply upd_get; [reflexivity|].
        rewrite rho_00 by lia. symmetry. apply BV_res00. }
      intros m2 H2v H2f H2a.
      assert (Hrow2 : forall e s, e < E -> s < m -> m2 (W0 + (m * e + s)) = Val (Zf (y e) s)).
      { intros e s He Hs. rewrite H2f; [apply H1v; assumption|]. unfold dj in Hdw. intros s' Hs'.
        assert (m * e + s < m * E) by (clear -He Hs; nia). lia. }
      apply WP_seq. apply WP_map1 with (dst := fun s => f + s) (g := fun s => BV (rho t 0 0) (y 0) s); unfold rng.
      { intros; lia. }
      { intros s Hs. cbn [wp]. unfold dj in Hdw. split; [left; intros; lia|]. exists (Zf (y 0) (s - m)).
        split; [rewrite <- Hrow2 by lia; f_equal; lia|].
        split; [reflexivity|]. split; [apply H2a, H1a, Hfa; lia|]. apply upd_get; [reflexivity|].
        rewrite rho_00 by lia. symmetry. apply BV_res01. lia. }
      intros m3 H3v H3f H3a.
      assert (Hrow3 : forall e s, e < E -> s < m -> m3 (W0 + (m * e + s)) = Val (Zf (y e) s)).
      { intros e s He Hs. rewrite H3f; [apply Hrow2; assumption|]. unfold dj in Hdw. intros s' Hs'.
        assert (m * e + s < m * E) by (clear -He Hs; nia). lia. }
      eapply WP_mono; [|apply backward2_tail_spec with (e0 := 1) (E := E) (rh := rho t 0) (y := y)
          (acc := fun j => BV (rho t 0 0) (y 0) j); auto].
      * intros m4 (H4v & H4f & H4a). apply HK; [| |auto].
        -- intros j Hj. rewrite H4v by assumption. f_equal. unfold bwd_val. fold E.
           replace E with (S (E - 1)) at 2 by lia. rewrite Csum_S_l. cbn [Nat.eqb Nat.add]. ring.
        -- intros a Ha Hb. rewrite H4f, H3f, H2f, H1f by (auto; intros; lia). reflexivity.
      * rewrite HEr. apply D0_odd; assumption.
      * intros HD1. rewrite (D0_D1 t HD1). cbn. lia.
      * intros Hdr. pose proof (Nat.div_mod (gD0 t - 1) 2 ltac:(lia)). lia.
      * intros e He. destruct (Nat.eq_dec D 1) as [ED|ED].
        -- rewrite (D0_D1 t ED) in HEr. lia.
        -- apply rho_tail0; auto; try lia. destruct Hodd as [|Ho]; [contradiction|]. rewrite Ho. reflexivity.
      * intros j Hj. destruct (Nat.lt_ge_cases j m); [rewrite H3f by (intros; lia); apply H2v; lia|apply H3v; lia].
    + apply orb_false_iff in Eodd. destruct Eodd as [ED Ev]. apply Nat.eqb_neq in ED. apply Nat.ltb_ge in Ev.
      assert (Hn0 : gn t mod 2 = 0) by lia.
      pose proof (D0_even t Hwf Hq ED Hn0) as HDe.
      assert (HE2 : 2 <= E) by lia. assert (HmE2 : m + m <= m * E) by nia.
      assert (HV0 : forall s, s < m -> m1 (W0 + m + s) = Val (Zf (y 1) s)).
      { intros s Hs. rewrite <- H1v by lia. f_equal. lia. }
      assert (HU0 : forall s, s < m -> m1 (W0 + s) = Val (Zf (y 0) s)).
      { intros s Hs. rewrite <- H1v by lia. f_equal. lia. }
      assert (R1 : rho t 0 1 = (- Z.of_nat (q / 2))%Z) by (rewrite rho_01 by (assumption || lia); rewrite Hp; reflexivity).
      set (new := fun j => Cadd (BV (rho t 0 0) (y 0) j) (BV (rho t 0 1) (y 1) j)).
      unfold dj in Hdw. rewrite Do_For. apply WP_seq.
      apply WP_map1 with (dst := fun s => f + s) (g := new); unfold rng.
      { intros; lia. }
      { intros s Hs. assert (s = 0) by lia. subst s. cbn [wp].
        split; [left; intros; lia|]. exists (Zf (y 0) 0). split; [rewrite <- HU0 by lia; f_equal; lia|].
        split; [left; intros; lia|]. exists (Zf (y 1) 0). split; [rewrite <- HV0 by lia; f_equal; lia|].
        split; [lia|]. split; [rewrite <- (Nat.add_0_r f); apply H1a, Hfa; lia|]. apply upd_get; [lia|].
        unfold new. rewrite !BV_0. reflexivity. }
      intros m2 H2v H2f H2a. apply WP_seq.
      assert (Hrow2 : forall e s, e < E -> s < m -> m2 (W0 + (m * e + s)) = Val (Zf (y e) s)).
      { intros e s He Hs. rewrite H2f; [apply H1v; assumption|]. intros s' Hs'.
        assert (m * e + s < m * E) by (clear -He Hs; nia). lia. }
      apply WP_map1 with (dst := fun s => f + s) (g := new); unfold rng.
      { intros; lia. }
      { intros s Hs. cbn [wp].
        split; [left; intros; lia|]. exists (Zf (y 0) s). split; [rewrite <- Hrow2 by lia; f_equal; lia|].
        rewrite (tget_some _ _ _ _ (zqm_get2 t (q / 2) s ltac:(lia) ltac:(lia))). cbn [wp].
        split; [left; intros; lia|]. exists (Zf (y 1) s). split; [rewrite <- Hrow2 by lia; f_equal; lia|].
        split; [lia|]. split; [apply H2a, H1a, Hfa; lia|]. apply upd_get; [lia|].
        unfold new. rewrite R1, BV_neg0, rho_00, BV_res00 by lia. reflexivity. }
      intros m3 H3v H3f H3a. apply WP_seq.
      assert (Hrow3 : forall e s, e < E -> s < m -> m3 (W0 + (m * e + s)) = Val (Zf (y e) s)).
      { intros e s He Hs. rewrite H3f; [apply Hrow2; assumption|]. intros s' Hs'.
        assert (m * e + s < m * E) by (clear -He Hs; nia). lia. }
      apply WP_map1 with (dst := fun s => f + s) (g := new); unfold rng.
      { intros; lia. }
      { intros s Hs. cbn [wp].
        split; [left; intros; lia|]. exists (Zf (y 0) (s - m)). split; [rewrite <- Hrow3 by lia; f_equal; lia|].
        rewrite (tget_some _ _ _ _ (zqmS_get2 t (q / 2) s ltac:(lia) ltac:(lia))). cbn [wp].
        split; [left; intros; lia|]. exists (Zf (y 1) (s - m)). split; [rewrite <- Hrow3 by lia; f_equal; lia|].
        split; [lia|]. split; [apply H3a, H2a, H1a, Hfa; lia|]. apply upd_get; [lia|].
        unfold new. rewrite R1, BV_neg1, rho_00, BV_res01 by lia. reflexivity. }
      intros m4 H4v H4f H4a.
      assert (Hrow4 : forall e s, e < E -> s < m -> m4 (W0 + (m * e + s)) = Val (Zf (y e) s)).
      { intros e s He Hs. rewrite H4f; [apply Hrow3; assumption|]. intros s' Hs'.
        assert (m * e + s < m * E) by (clear -He Hs; nia). lia. }
      eapply WP_mono; [|apply backward2_tail_spec with (e0 := 2) (E := E) (rh := rho t 0) (y := y) (acc := new); auto].
      * intros m5 (H5v & H5f & H5a). apply HK; [| |auto 10].
        -- intros j Hj. rewrite H5v by assumption. f_equal. unfold bwd_val. fold E.
           replace E with (S (S (E - 2))) at 2 by lia. rewrite !Csum_S_l. unfold new. cbn [Nat.eqb Nat.add]. ring.
        -- intros a Ha Hb. rewrite H5f, H4f, H3f, H2f, H1f by (auto; intros; lia). reflexivity.
      * rewrite HEr. exact HDe.
      * lia.
      * intros Hdr. pose proof (Nat.div_mod (gD0 t - 2) 2 ltac:(lia)). lia.
      * intros e He. apply rho_tail0; auto; try lia. rewrite Hn0. reflexivity.
      * intros j Hj. destruct (Nat.eq_dec j 0) as [->|]; [rewrite H4f, H3f by (intros; lia); apply H2v; lia|].
        destruct (Nat.lt_ge_cases j m); [rewrite H4f by (intros; lia); apply H3v; lia|apply H4v; lia].
  - specialize (Hacc Er).
    rewrite <- (Nat.add_0_r W0). replace 0 with (0 * m) at 1 by lia.
    assert (Hr1 : 1 <= r) by lia.
    assert (Hdr : E = 0 + (if D =? 1 then gdr t else 2 * gdr t)).
    { rewrite HEr. destruct (Nat.eqb_spec D 1) as [ED|ED]; [rewrite (dr_D1 t ED); lia|].
      rewrite (dr_pair t Hq) by lia. rewrite (D_even t r Hwf Hq ltac:(lia) ltac:(lia) Hr1 Hpass) at 1. lia. }
    eapply WP_mono; [|apply backward2_tail_spec with (E := E) (rh := rho t r) (y := y) (acc := acc); auto].
    + intros m3 (H3v & H3f & H3a). apply HK; [| |auto].
      * intros j Hj. rewrite H3v by assumption. f_equal. unfold bwd_val. fold E. rewrite Nat.sub_0_r.
        destruct (Nat.eqb_spec r 0); [lia|]. reflexivity.
      * intros a Ha Hb. rewrite H3f, H1f by auto. reflexivity.
    + intros HD1. rewrite (dr_D1 t HD1). lia.
    + intros _. destruct Hpass as [|(_ & _ & H)]; lia.
    + intros e He. rewrite Nat.sub_0_r. destruct (Nat.eq_dec D 1) as [ED|ED].
      * rewrite rho_D1 by lia. unfold tailrho. rewrite ED. reflexivity.
      * apply rho_tail; lia.
    + intros j Hj. rewrite Hm1f by lia. apply Hacc. assumption.
Qed.
End T.
