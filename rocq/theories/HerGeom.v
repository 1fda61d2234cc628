(** Geometry of the Hermitian transforms and their real FFTW calls. *)
From Coq Require Import Reals ZArith Arith Lia List Bool.
From Verif Require Import CNum Sums Roots Mem VecModel VecProofs PadModel PadKernels Loops
  PadLemmas PadMath PadGeom Fwd1 PadForward Fill CenModel CenMath CenGeom HerModel HerSpec HerMath HerFft.

Lemma cq2 a : (a <= 2 * cq a 2 <= a + 1)%nat.
Proof. unfold cq. pose proof (Nat.div_mod (a + 2 - 1) 2 ltac:(lia)). pose proof (Nat.mod_upper_bound (a + 2 - 1) 2 ltac:(lia)). lia. Qed.
Lemma halign_ge al n : 1 <= al -> n <= halign al n.
Proof. intros H. unfold halign. rewrite Nat.mul_comm. apply cq_le. assumption. Qed.
Lemma even_div2 i : Nat.even i = true -> i = 2 * (i / 2).
Proof. intros E. apply Nat.even_spec in E. destruct E as [z ->]. replace (2 * z / 2) with z by (apply (Nat.div_unique _ 2 z 0); lia). reflexivity. Qed.

(** number of rows of a block *)
Definition hP (t : pad) : nat := if kq t =? 1 then 1 else hp2 t.
(** words and doubles of one block *)
Definition hWw (t : pad) : nat := aC t * (hP t * he t).
Definition hFw (t : pad) : nat := cq (aC t * (hP t * am t)) 2.

Section T.
Variable t : pad.
Hypothesis Hwf : hwf t.
Notation L := (aL t).  Notation CC := (aC t).  Notation m := (am t).
Notation p := (kp t).  Notation q := (kq t).   Notation n := (kn t).   Notation M := (kM t).
Notation P := (hP t). Notation e := (he t). Notation H := (hH t).

Lemma h_C : 1 <= CC. Proof. apply Hwf. Qed.
Lemma h_m : 1 <= m. Proof. apply Hwf. Qed.
Lemma h_L : 1 <= L. Proof. apply Hwf. Qed.
Lemma h_p : 1 <= p. Proof. apply cq_pos; [apply h_m|apply h_L]. Qed.
Lemma he_m : 2 * e <= m + 2 /\ m < 2 * e /\ 1 <= e <= m.
Proof. pose proof h_m. unfold he. pose proof (Nat.div_mod m 2 ltac:(lia)). pose proof (Nat.mod_upper_bound m 2 ltac:(lia)). lia. Qed.
Lemma hH_L : L <= 2 * H <= L + 1. Proof. apply cq2. Qed.
Lemma h_valid : q <> 1 -> aD t = 2 /\ p = 2 * hp2 t /\ 1 <= hp2 t /\ (p = 2 \/ CC = 1).
Proof.
  intros Hq. destruct Hwf as (_ & _ & _ & _ & _ & _ & _ & Hv). unfold hvalid in Hv.
  destruct (Nat.eqb_spec q 1); [contradiction|]. cbn [orb] in Hv. apply andb_prop in Hv. destruct Hv as [Hv H3].
  apply andb_prop in Hv. destruct Hv as [H1 H2]. apply Nat.eqb_eq in H1. apply Nat.eqb_eq in H2.
  apply orb_prop in H3. rewrite !Nat.eqb_eq in H3. unfold hp2.
  pose proof (Nat.div_mod p 2 ltac:(lia)). pose proof h_p. repeat split; try assumption; lia.
Qed.
Lemma hP_1 : CC <> 1 -> P = 1.
Proof.
  intros HC. unfold hP. destruct (Nat.eqb_spec q 1) as [|Hq]; [reflexivity|].
  destruct (h_valid Hq) as (_ & H1 & H2 & [H3|H3]); [lia|contradiction].
Qed.
Lemma hP_pos : 1 <= P.
Proof. unfold hP. destruct (Nat.eqb_spec q 1) as [|Hq]; [lia|]. apply (h_valid Hq). Qed.

Section Q.
Hypothesis Hq : q <> 1.
Lemma hP_q : P = hp2 t. Proof. unfold hP. destruct (Nat.eqb_spec q 1); [contradiction|reflexivity]. Qed.
Lemma h_paramP : param_P true p = P.
Proof.
  rewrite hP_q. destruct (h_valid Hq) as (_ & E & _). unfold param_P. fold (hp2 t).
  destruct (Nat.eqb_spec p (2 * hp2 t)); [reflexivity|contradiction].
Qed.
Lemma h_q : q = P * n. Proof. unfold kq, param_q. fold p. rewrite h_paramP. reflexivity. Qed.
Lemma h_LP : m * (2 * P - 1) < L /\ L <= m * (2 * P).
Proof.
  destruct (h_valid Hq) as (_ & E & _). rewrite hP_q, <- E. split.
  - apply (cq_lt L m h_m h_L).
  - apply (cq_le L m h_m).
Qed.
Lemma h_n2 : 2 <= n.
Proof.
  pose proof h_LP as [H1 H2]. destruct Hwf as (A1 & A2 & A3 & A4 & A5 & _). pose proof hP_pos.
  destruct (Nat.le_gt_cases 2 n) as [|Hn]; [assumption|]. exfalso.
  assert (HM : aM t <= (P * m) * n).
  { unfold kn, param_n. fold p. rewrite h_paramP. apply cq_le. nia. }
  assert (n <= 1) by lia. assert ((P * m) * n <= P * m) by nia.
  replace (2 * P - 1) with (P + (P - 1)) in H1 by lia. rewrite Nat.mul_add_distr_l in H1. lia.
Qed.
Lemma h_hg : hg m P n H.
Proof.
  pose proof h_LP as [H1 H2]. pose proof h_n2. pose proof h_m. pose proof hP_pos. pose proof hH_L. pose proof h_L.
  pose proof (Nat.div_mod m 2 ltac:(lia)). pose proof (Nat.mod_upper_bound m 2 ltac:(lia)).
  assert (m * (2 * P - 1) = m * (P - 1) + m * (P - 1) + m).
  { replace (2 * P - 1) with ((P - 1) + (P - 1) + 1) by lia. rewrite !Nat.mul_add_distr_l. lia. }
  assert (m * (2 * P) = m * P + m * P) by lia.
  constructor; try assumption; lia.
Qed.
Lemma h_M : M = cM m P n. Proof. unfold kM, cM, cqq. rewrite h_q. reflexivity. Qed.
Lemma h_qq : q = cqq P n. Proof. apply h_q. Qed.
Lemma h_qpos : 0 < q. Proof. rewrite h_q. pose proof h_n2. pose proof hP_pos. nia. Qed.
Lemma h_Mpos : 0 < M. Proof. unfold kM. pose proof h_qpos. pose proof h_m. nia. Qed.
Lemma h_nq : n <= q. Proof. rewrite h_q. pose proof hP_pos. nia. Qed.
Lemma h_conj : hconjugates t = true.
Proof.
  destruct (h_valid Hq) as (E1 & E2 & _). unfold hconjugates. rewrite E1. cbn [Nat.ltb Nat.leb andb].
  replace (p mod 2) with 0; [apply orb_true_r|]. rewrite E2, Nat.mul_comm. symmetry. apply Nat.mod_mul. lia.
Qed.
Lemma h_R : hR t = cq n 2.
Proof. unfold hR, hresidueBlocks. rewrite h_conj. destruct (Nat.eqb_spec q 1); [contradiction|reflexivity]. Qed.
(** tables *)
Lemma hzqm r s : 1 <= r -> (p = 2 -> 2 * r <= q) -> (p <> 2 -> r < q) -> s < m ->
  hZqm t (m * r + s) = Some (zeta M (Z.of_nat r * Z.of_nat s)).
Proof.
  intros H1 H2 H3 Hs. unfold hZqm. rewrite initZetaqm_get; [do 2 apply f_equal; lia| |assumption].
  destruct (Nat.eqb_spec p 2) as [E|E]; [|auto]. specialize (H2 E).
  pose proof (Nat.div_mod q 2 ltac:(lia)). pose proof (Nat.mod_upper_bound q 2 ltac:(lia)). lia.
Qed.
Lemma hzqp r u : 1 <= r < n -> 1 <= u <= P -> hZqp t (P * r + u) = Some (zeta q (Z.of_nat r * Z.of_nat u)).
Proof.
  intros Hr Hu. unfold hZqp. rewrite <- hP_q. replace (P * r + u) with ((P + 1 - 1) * r + u) by (f_equal; f_equal; lia).
  rewrite initZetaqp_get by lia. do 2 apply f_equal. lia.
Qed.
End Q.

(** *** sizes *)
Lemma hFw_Ww : hFw t <= hWw t.
Proof.
  unfold hFw, hWw. pose proof (cq2 (CC * (P * m))). pose proof he_m.
  assert (CC * (P * m) + 1 <= 2 * (CC * (P * e))); [|lia].
  assert (1 <= CC * P) by (pose proof h_C; pose proof hP_pos; nia).
  rewrite !Nat.mul_assoc. nia.
Qed.
Section Sz.
Variable al : nat.
Hypothesis Hal : 1 <= al.
Notation B := (hB al t). Notation b := (hb al t).
Lemma hB_ge : hWw t <= B.
Proof.
  unfold hWw, hB, hP. destruct (Nat.eqb_spec q 1); [lia|].
  etransitivity; [|apply halign_ge; assumption]. lia.
Qed.
Lemma hb_ge : hFw t <= b.
Proof.
  pose proof hFw_Ww as H1. unfold hb. destruct (Nat.eqb_spec q 1) as [E|E].
  - unfold hWw, hP in H1. rewrite E in H1. cbn [Nat.eqb] in H1. lia.
  - destruct (ainplace t).
    + pose proof hB_ge. lia.
    + etransitivity; [|apply halign_ge; assumption]. unfold hFw. rewrite hP_q by assumption.
      replace (hp2 t * (CC * m)) with (CC * (hp2 t * m)) by lia. lia.
Qed.
Lemma hb_inplace : ainplace t = true -> b = B.
Proof. intros E. unfold hb, hB. rewrite E. destruct (q =? 1); reflexivity. Qed.

End Sz.

(** *** the real transforms of one block *)
(** words of the block and of the result *)
Definition wblk (W a : addr) : Prop := W <= a < W + hWw t.
Definition fblk (F a : addr) : Prop := F <= a < F + hFw t.

Lemma e_rp pl : rp_n pl = m -> rp_e pl = e. Proof. unfold rp_e, he. intros ->. reflexivity. Qed.
(** how the plan lays out its words and doubles *)
Record lays (pl : rplan) : Prop := mklays {
  ly_n : rp_n pl = m; ly_in : rp_inplace pl = ainplace t;
  ly_N : rp_N pl = CC * (P * m);
  ly_l : rlayout pl;
  ly_c : forall u s c, u < P -> s < e -> c < CC -> exists h, h < rp_M pl /\ cadr pl h s = CC * (u * e + s) + c /\
    forall k, radr pl h k = CC * (u * m + k) + c;
  ly_i : forall h, h < rp_M pl -> exists u c, u < P /\ c < CC /\ (forall s, cadr pl h s = CC * (u * e + s) + c) /\
    forall k, radr pl h k = CC * (u * m + k) + c }.
Lemma lays_A cd rd : CC = 1 -> P = 1 \/ (cd = e /\ rd = m) -> lays (mkrplan m P 1 cd 1 rd (ainplace t)).
Proof.
  intros HC Hc. pose proof he_m as He. pose proof h_m as Hm.
  assert (E1 : forall h s, h < P -> h * cd + s * 1 = CC * (h * e + s) + 0).
  { intros h s Hh. rewrite HC. destruct Hc as [E|[-> _]]; [assert (h = 0) by lia; subst; lia|lia]. }
  assert (E2 : forall h k, h < P -> h * rd + k * 1 = CC * (h * m + k) + 0).
  { intros h s Hh. rewrite HC. destruct Hc as [E|[_ ->]]; [assert (h = 0) by lia; subst; lia|lia]. }
  split; cbn [rp_n rp_inplace rp_M]; try reflexivity.
  - unfold rp_N. cbn [rp_n rp_M rp_cs rp_cd rp_rs rp_rd]. rewrite HC. lia.
  - split; [assumption|]. unfold rp_e, cadr, radr, rp_N. cbn [rp_n rp_M rp_cs rp_cd rp_rs rp_rd]. fold e. split; [|split; [|split]].
    + intros h h' s s' Hh Hh' Hs Hs'. rewrite !E1, HC by assumption. intros E.
      assert (h = h') by nia. subst. split; [reflexivity|lia].
    + intros h h' s s' Hh Hh' Hs Hs'. rewrite !E2, HC by assumption. intros E.
      assert (h = h') by nia. subst. split; [reflexivity|lia].
    + intros h k Hh Hk. rewrite E2, HC by assumption. nia.
    + intros i Hi. exists (i / m), (i mod m). assert (i / m < P) by (apply Nat.div_lt_upper_bound; lia).
      split; [assumption|]. split; [apply Nat.mod_upper_bound; lia|]. rewrite E2, HC by assumption.
      pose proof (Nat.div_mod i m ltac:(lia)). lia.
  - intros u s c Hu Hs Hc'. exists u. unfold cadr, radr. cbn [rp_n rp_M rp_cs rp_cd rp_rs rp_rd]. assert (c = 0) by lia. subst c.
    split; [assumption|]. split; [apply E1; assumption|]. intros k. apply E2; assumption.
  - intros h Hh. exists h, 0. split; [assumption|]. split; [lia|]. split; intros; [apply E1|apply E2]; assumption.
Qed.
Lemma lays_B : P = 1 -> lays (mkrplan m CC CC 1 CC 1 (ainplace t)).
Proof.
  intros HP. pose proof he_m as He. pose proof h_m as Hm. pose proof h_C as HC.
  split; cbn [rp_n rp_inplace rp_M]; try reflexivity.
  - unfold rp_N. cbn [rp_n rp_M rp_cs rp_cd rp_rs rp_rd]. rewrite HP. lia.
  - split; [assumption|]. unfold rp_e, cadr, radr, rp_N. cbn [rp_n rp_M rp_cs rp_cd rp_rs rp_rd]. fold e. split; [|split; [|split]].
    + intros h h' s s' Hh Hh' Hs Hs' E. destruct (stride_inj CC s h s' h') as [? ?]; lia.
    + intros h h' s s' Hh Hh' Hs Hs' E. destruct (stride_inj CC s h s' h') as [? ?]; lia.
    + intros h k Hh Hk. nia.
    + intros i Hi. exists (i mod CC), (i / CC). split; [apply Nat.mod_upper_bound; lia|].
      split; [apply Nat.div_lt_upper_bound; lia|]. pose proof (Nat.div_mod i CC ltac:(lia)). lia.
  - intros u s c Hu Hs Hc'. exists c. unfold cadr, radr. cbn [rp_n rp_M rp_cs rp_cd rp_rs rp_rd]. assert (u = 0) by lia. subst u.
    split; [assumption|]. split; [lia|]. intros k. lia.
  - intros h Hh. exists 0, h. split; [lia|]. split; [assumption|]. split; intros; unfold cadr, radr; cbn [rp_n rp_M rp_cs rp_cd rp_rs rp_rd]; lia.
Qed.
Lemma lays_hcr : lays (hcr t).
Proof.
  unfold hcr. destruct (Nat.eqb_spec q 1) as [E|E].
  - assert (HP : P = 1) by (unfold hP; rewrite E; reflexivity).
    destruct (Nat.eqb_spec CC 1) as [HC|HC].
    + pose proof (lays_A 0 0 HC (or_introl HP)) as HL. rewrite HP in HL. exact HL.
    + apply lays_B. assumption.
  - destruct (Nat.eqb_spec CC 1) as [HC|HC].
    + rewrite <- hP_q by assumption. apply lays_A; auto.
    + pose proof (hP_1 HC) as HP. rewrite <- hP_q, HP, Nat.mul_1_r by assumption. apply lays_B. assumption.
Qed.
Lemma cword_blk W a : cword (hcr t) W a <-> wblk W a.
Proof.
  pose proof lays_hcr as [Ln _ _ _ Lc Li]. pose proof h_C as HC. pose proof he_m as He. pose proof hP_pos as HP. unfold wblk, hWw. split.
  - intros (h & s & Hh & Hs & ->). rewrite (e_rp _ Ln) in Hs. destruct (Li h Hh) as (u & c & Hu & Hc & E & _). rewrite E.
    assert (u * e + s < P * e) by nia. nia.
  - intros Ha. set (i := a - W). assert (Hi : i < CC * (P * e)) by (unfold i; lia).
    set (j := i / CC). assert (Hj : j < P * e) by (apply Nat.div_lt_upper_bound; lia).
    assert (Hu : j / e < P) by (apply Nat.div_lt_upper_bound; lia).
    destruct (Lc (j / e) (j mod e) (i mod CC)) as (h & Hh & E & _); [assumption|apply Nat.mod_upper_bound; lia..|].
    exists h, (j mod e). rewrite (e_rp _ Ln). split; [assumption|]. split; [apply Nat.mod_upper_bound; lia|]. rewrite E.
    pose proof (Nat.div_mod j e ltac:(lia)) as D1. rewrite (Nat.mul_comm (j / e) e), <- D1. unfold j.
    pose proof (Nat.div_mod i CC ltac:(lia)) as D2. rewrite <- D2. unfold i. lia.
Qed.
Lemma rword_blk F a : rword (hcr t) F a <-> fblk F a.
Proof.
  pose proof lays_hcr as [_ _ LN _ _ _]. unfold rword, fblk, hFw, rp_w. rewrite LN. split.
  - intros (w & Hw & ->). lia.
  - intros Ha. exists (a - F). lia.
Qed.

Lemma hcr_ok W F (A : nat -> nat -> C) (m1 : mem) (K : mem -> Prop) :
  ainplace t = (W =? F) ->
  (forall i c, i < P * e -> c < CC -> m1 (W + CC * i + c) = Val (A i c)) ->
  (forall u s c, u < P -> s < e -> c < CC -> s = 0 \/ 2 * s = m -> im (A (u * e + s) c) = 0%R) ->
  (forall a, fblk F a -> m1 a <> Unalloc) ->
  (W = F \/ forall a, wblk W a -> fblk F a -> False) ->
  (forall m', (forall u k c, u < P -> k < m -> c < CC ->
       dbl m' F (CC * (u * m + k) + c) (c2r m (fun s => A (u * e + s) c) k)) ->
     (forall a, ~ wblk W a -> ~ fblk F a -> m' a = m1 a) ->
     (forall a, m1 a <> Unalloc -> m' a <> Unalloc) -> K m') ->
  WP (crfft (hcr t) W F) m1 K.
Proof.
  intros Hin HA Hmid HF Hsep HK. pose proof lays_hcr as [Ln LI LN Ll Lc Li]. pose proof he_m as He.
  set (x := fun h s => let i := cadr (hcr t) h s in A (i / CC) (i mod CC)).
  pose proof h_C as HC.
  assert (Hx : forall h u c, c < CC -> (forall s, cadr (hcr t) h s = CC * (u * e + s) + c) -> forall s, x h s = A (u * e + s) c).
  { intros h u c Hc E s. unfold x. cbv zeta. rewrite E. 
    replace ((CC * (u * e + s) + c) / CC) with (u * e + s) by (apply (Nat.div_unique _ CC _ c); lia).
    replace ((CC * (u * e + s) + c) mod CC) with c by (apply (Nat.mod_unique _ CC (u * e + s) c); lia). reflexivity. }
  apply (WP_crfft (hcr t) W F x).
  - rewrite LI. assumption.
  - assumption.
  - intros h s Hh Hs. rewrite (e_rp _ Ln) in Hs. destruct (Li h Hh) as (u & c & Hu & Hc & E & _).
    rewrite (Hx h u c Hc E), E, Nat.add_assoc. apply HA; [nia|assumption].
  - intros h s Hh Hs Hc0. rewrite (e_rp _ Ln) in Hs. rewrite Ln in Hc0. destruct (Li h Hh) as (u & c & Hu & Hc & E & _).
    rewrite (Hx h u c Hc E). apply Hmid; assumption.
  - intros w Hw. apply HF. apply rword_blk. exists w. auto.
  - destruct Hsep as [->|Hsep]; [auto|right]. intros a Ha Hb. apply (Hsep a); [apply cword_blk; assumption|apply rword_blk; assumption].
  - intros m' H1 H2 H3. apply HK.
    + intros u k c Hu Hk Hc. destruct (Lc u 0 c Hu) as (h & Hh & _ & E); [lia|assumption|].
      destruct (Li h Hh) as (u' & c' & Hu' & Hc' & E1 & E2).
      assert (u' = u /\ c' = c) as [-> ->].
      { pose proof (E 0) as X. rewrite E2 in X. destruct (stride_inj CC (u' * m + 0) c' (u * m + 0) c) as [X1 X2]; try assumption.
        pose proof h_m. split; [nia|assumption]. }
      rewrite <- E. specialize (H1 h k Hh). rewrite Ln in H1. specialize (H1 Hk).
      rewrite (c2r_ext m _ (x h)); [assumption|]. intros s Hs. symmetry. apply Hx; assumption.
    + intros a Ha Hb. apply H2; [rewrite cword_blk|rewrite rword_blk]; assumption.
    + assumption.
Qed.

Lemma hrc_ok F W (d : nat -> R) (m1 : mem) (K : mem -> Prop) :
  ainplace t = (F =? W) ->
  (forall i, i < CC * (P * m) -> dbl m1 F i (d i)) ->
  (forall a, wblk W a -> m1 a <> Unalloc) ->
  (F = W \/ forall a, wblk W a -> fblk F a -> False) ->
  (forall m', (forall u s c, u < P -> s < e -> c < CC ->
       m' (W + CC * (u * e + s) + c) = Val (r2c m (fun k => d (CC * (u * m + k) + c)) s)) ->
     (forall a, ~ wblk W a -> m' a = m1 a) ->
     (forall a, m1 a <> Unalloc -> m' a <> Unalloc) -> K m') ->
  WP (rcfft (hcr t) F W) m1 K.
Proof.
  intros Hin Hd HW Hsep HK. pose proof lays_hcr as [Ln LI LN Ll Lc Li].
  apply (WP_rcfft (hcr t) F W d).
  - rewrite LI. assumption.
  - assumption.
  - rewrite LN. assumption.
  - intros h s Hh Hs. apply HW. apply cword_blk. exists h, s. auto.
  - destruct Hsep as [->|Hsep]; [auto|right]. intros a Ha Hb. apply (Hsep a); [apply cword_blk; assumption|apply rword_blk; assumption].
  - intros m' H1 H2 H3. apply HK.
    + intros u s c Hu Hs Hc. destruct (Lc u s c Hu Hs Hc) as (h & Hh & E & E2).
      rewrite <- Nat.add_assoc, <- E, H1 by (rewrite ?(e_rp _ Ln); assumption). rewrite Ln. f_equal.
      apply r2c_ext. intros k Hk. rewrite E2. reflexivity.
    + intros a Ha. apply H2. rewrite cword_blk. assumption.
    + assumption.
Qed.
End T.
