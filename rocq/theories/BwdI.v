(** backwardInner (S=1, p>2). *)
From Coq Require Import Reals ZArith Arith Lia List Bool.
From Verif Require Import CNum Sums Roots Mem VecModel VecProofs PadModel PadKernels Loops
  PadLemmas PadMath PadGeom Fwd1 FwdI Bwd1.

Section T.
Variable t : pad.
Hypothesis Hwf : wf t.
Hypothesis Hp : 2 < gp t.
Notation L := (gL t).  Notation m := (gm t). Notation q := (gq t). Notation M := (gM t).
Notation D := (gD t). Notation p := (gp t). Notation n := (gn t).
Notation BV rh y j := (bval M q m rh y j).
Notation Zf y s := (dft m (-1) y s).

(** input of the inverse radix-p stage for residue r *)
Definition stageC (r : nat) (y : nat -> nat -> C) (u s : nat) : C :=
  Cmul (Zf (y u) s) (Cconj (zeta M (Z.of_nat ((n * u + r) * s)))).
(** contribution of residue r to element m u + s *)
Definition stageD (r : nat) (y : nat -> nat -> C) (j : nat) : C :=
  Csum p (fun e => BV (Z.of_nat (n * e + r)) (y e) j).

Lemma stageC_s0 r y u : stageC r y u 0 = Zf (y u) 0.
Proof. unfold stageC. rewrite Nat.mul_0_r. cbn [Z.of_nat]. rewrite zeta_0. (Cext; ring). Qed.
Lemma stageC_00 y s : stageC 0 y 0 s = Zf (y 0) s.
Proof. unfold stageC. rewrite Nat.mul_0_r. cbn [Nat.add Nat.mul Z.of_nat]. rewrite zeta_0. (Cext; ring). Qed.

Lemma stageD_eq r y u s : r < n ->
  Cmul (Cconj (zeta q (Z.of_nat (r * u)))) (dft p (-1) (fun u => stageC r y u s) u) = stageD r y (m * u + s).
Proof.
  intros Hr. unfold stageD. rewrite <- (inner_bwd m p n M q r y u s); auto.
  - apply q_pn; assumption.
  - apply (wf_m t Hwf).
  - lia.
  - lia.
Qed.
Lemma stageD_u0 r y s : r < n -> dft p (-1) (fun u => stageC r y u s) 0 = stageD r y s.
Proof.
  intros Hr. pose proof (stageD_eq r y 0 s Hr) as H. rewrite !Nat.mul_0_r in H. cbn [Nat.add Z.of_nat] in H.
  rewrite <- H, zeta_0. (Cext; ring).
Qed.
Lemma stageD_r0 y u s : 0 < n -> dft p (-1) (fun u => stageC 0 y u s) u = stageD 0 y (m * u + s).
Proof.
  intros Hr. pose proof (stageD_eq 0 y u s Hr) as H. cbn [Nat.mul Z.of_nat] in H.
  rewrite <- H, zeta_0. (Cext; ring).
Qed.

Hypothesis HS : gS t = 1.
Hypothesis Hq : q <> 1.

(** twiddle multiplication and inverse radix-p transform *)
Lemma stage_rows F r (y : nat -> nat -> C) (lo : nat) body (m0 : mem) (K : mem -> Prop) :
  r < n -> lo <= 1 -> (lo = 1 -> r = 0) -> (lo = 0 -> 1 <= r) ->
  (forall u s, u < p -> s < m -> m0 (F + m * u + s) = Val (Zf (y u) s)) ->
  (forall m', (forall u s, u < p -> s < m ->
       m' (F + m * u + s) = Val (dft p (-1) (fun u => stageC r y u s) u)) ->
     (forall a, a < F \/ F + m * p <= a -> m' a = m0 a) ->
     (forall a, m0 a <> Unalloc -> m' a <> Unalloc) -> K m') ->
  (forall t', lo <= t' < p -> body t' = pForR 1 m (fun s => x <- F + m * t' + s ;;
              z <~ (Zetaqm t) [m * (n * t' + r) + s] ;; F + m * t' + s ::= Cmul x (Cconj z) ;; Ret)) ->
  WP (ParFor lo p body) m0 (fun m1 => WP (fft (fftp t (-1)) F F) m1 K).
Proof.
  intros Hr Hlo Hlo1 Hlo0 Hy HK Hbody. pose proof (mp_bound t Hp) as Hb. pose proof (q_pn t Hp) as Hqpn.
  pose proof (wf_m t Hwf) as Hm1.
  eapply WP_map2 with (lo2 := 1) (hi2 := m) (dst := fun u s => F + m * u + s) (g := stageC r y); unfold rng.
  { intros u Hu. apply Hbody; assumption. }
  { intros u s u' s' Hu Hs Hu' Hs' E. apply (stride_inj m); lia. }
  { intros u s Hu Hs. cbn [wp].
    split; [right; reflexivity|]. exists (Zf (y u) s). split; [apply Hy; lia|].
    assert (1 <= n * u + r < q).
    { rewrite Hqpn. split; [|clear -Hu Hr; nia]. destruct (Nat.eq_dec lo 1); [assert (1 <= u) by lia; clear -H Hr; nia|lia]. }
    rewrite (tget_some _ _ _ _ (zqm_getI t (n * u + r) s ltac:(lia) ltac:(lia))). cbn [wp].
    pose proof (Hb u s ltac:(lia) ltac:(lia)).
    wr; [rewrite Hy by lia; discriminate|apply upd_get; reflexivity]. }
  intros m1 H1v H1f H1a. apply (WP_fftp t Hwf Hp HS Hq) with (A := stageC r y).
  { intros u s Hu Hs.
    destruct (Nat.lt_ge_cases u lo) as [Hul|Hul].
    - assert (u = 0 /\ r = 0) as [-> ->] by lia. rewrite stageC_00. rewrite H1f; [apply Hy; assumption|].
      intros u' s' Hu' Hs' E. assert (u' = 0 /\ s' = s) by (apply (stride_inj m); lia). lia.
    - destruct (Nat.eq_dec s 0) as [->|]; [|apply H1v; lia].
      rewrite stageC_s0, H1f; [apply Hy; assumption|].
      intros u' s' Hu' Hs' E. assert (u' = u /\ s' = 0) by (apply (stride_inj m); lia). lia. }
  intros m2 H2v H2f H2a. apply HK; [assumption| |auto].
  intros a Ha. rewrite H2f by assumption. apply H1f.
  intros u s Hu Hs. pose proof (Hb u s ltac:(lia) ltac:(lia)). lia.
Qed.

Lemma backwardInner_residue_spec f F r (y : nat -> nat -> C) (acc : nat -> C) (m0 : mem) (K : mem -> Prop) :
  1 <= r < n ->
  dj f L F (m * p) ->
  (forall u s, u < p -> s < m -> m0 (F + m * u + s) = Val (Zf (y u) s)) ->
  (forall j, j < L -> m0 (f + j) = Val (acc j)) ->
  (forall m',
     (forall j, j < L -> m' (f + j) = Val (Cadd (acc j) (stageD r y j))) ->
     (forall a, a < f \/ f + L <= a -> a < F \/ F + m * p <= a -> m' a = m0 a) ->
     (forall a, m0 a <> Unalloc -> m' a <> Unalloc) -> K m') ->
  WP (backwardInner_residue t f F r) m0 K.
Proof.
  intros Hr Hd Hy Hacc HK. pose proof (L_inner t Hwf) as HL. pose proof (mp_split t Hp) as Hmp.
  pose proof (wf_m t Hwf) as Hm1. pose proof (mp_bound t Hp) as Hb. pose proof (q_pn t Hp) as Hqpn.
  assert (Hb' : forall u s, u < p - 1 -> s < m -> m * u + s < m * (p - 1)) by (intros; nia).
  assert (Hb1 : forall u s, 1 <= u -> m <= m * u + s) by (intros; nia).
  assert (Hmm : m <= m * (p - 1)) by nia. unfold backwardInner_residue. cbv zeta. unfold dj in Hd.
  apply WP_seq. eapply WP_mono; [intros mx Hmx; apply WP_seq; exact Hmx|].
  apply stage_rows with (r := r) (y := y); auto; try lia.
  intros m1 H1v H1f H1a.
  set (new := fun j => Cadd (acc j) (stageD r y j)).
  assert (Hacc1 : forall j, j < L -> m1 (f + j) = Val (acc j)).
  { intros j Hj. rewrite H1f by lia. apply Hacc. assumption. }
  apply WP_seq. apply WP_map1 with (dst := fun s => f + s) (g := new); unfold rng.
  { intros; lia. }
  { intros s Hs. cbn [wp]. split; [right; reflexivity|]. exists (acc s). split; [apply Hacc1; lia|].
    split; [left; intros; lia|]. eexists. split; [replace (F + s) with (F + m * 0 + s) by lia; apply H1v; lia|].
    wr; [rewrite Hacc1 by lia; discriminate|apply upd_get; [reflexivity|]].
    unfold new. rewrite stageD_u0 by lia. reflexivity. }
  intros m2 H2v H2f H2a. apply WP_seq.
  eapply WP_map2 with (lo2 := 0) (hi2 := m) (dst := fun u s => f + m * u + s) (g := fun u s => new (m * u + s)); unfold rng.
  { intros u Hu. rewrite (tget_some _ _ _ _ (zqp_getI t Hp r u ltac:(lia) ltac:(lia))). reflexivity. }
  { intros u s u' s' Hu Hs Hu' Hs' E. apply (stride_inj m); lia. }
  { intros u s Hu Hs. cbn [wp]. pose proof (Hb' u s ltac:(lia) ltac:(lia)). pose proof (Hb1 u s ltac:(lia)).
    split; [right; reflexivity|]. exists (acc (m * u + s)).
    split; [rewrite <- Nat.add_assoc, H2f by (intros; lia); apply Hacc1; lia|].
    split; [left; intros u' s' Hu' Hs'; pose proof (Hb' u' s' ltac:(lia) ltac:(lia)); lia|].
    eexists. split; [rewrite H2f by (intros; lia); apply H1v; lia|].
    wr; [apply H2a; rewrite <- Nat.add_assoc, Hacc1 by lia; discriminate|apply upd_get; [reflexivity|]].
    unfold new. rewrite stageD_eq by lia. reflexivity. }
  intros m3 H3v H3f H3a.
  assert (Hout3 : forall a, a < f + m \/ f + m * (p - 1) <= a -> m3 a = m2 a).
  { intros a Ha. apply H3f. intros u s Hu Hs. pose proof (Hb' u s ltac:(lia) ltac:(lia)). pose proof (Hb1 u s ltac:(lia)). lia. }
  eapply WP_map1 with (dst := fun s => f + m * (p - 1) + s) (g := fun s => new (m * (p - 1) + s)); unfold rng.
  { intros; lia. }
  { intros s Hs. rewrite (tget_some _ _ _ _ (zqp_getI t Hp r (p - 1) ltac:(lia) ltac:(lia))). cbn [wp].
    split; [right; reflexivity|]. exists (acc (m * (p - 1) + s)).
    split; [rewrite <- Nat.add_assoc, Hout3, H2f by (intros; lia); apply Hacc1; lia|].
    split; [left; intros; lia|].
    eexists. split; [rewrite Hout3, H2f by (intros; lia); apply H1v; lia|].
    wr; [apply H3a, H2a; rewrite <- Nat.add_assoc, Hacc1 by lia; discriminate|apply upd_get; [reflexivity|]].
    unfold new. rewrite stageD_eq by lia. reflexivity. }
  intros m4 H4v H4f H4a. apply HK.
  - intros j Hj. fold (new j). destruct (Nat.lt_ge_cases j m) as [H|H].
    + rewrite H4f, Hout3 by (intros; lia). apply H2v. lia.
    + destruct (Nat.lt_ge_cases j (m * (p - 1))) as [H'|H'].
      * rewrite H4f by (intros; lia). pose proof (Nat.div_mod j m ltac:(lia)) as Hj'.
        pose proof (Nat.mod_upper_bound j m ltac:(lia)).
        rewrite Hj', Nat.add_assoc. apply H3v; [|lia]. clear -H H' Hj' H0. nia.
      * replace (f + j) with (f + m * (p - 1) + (j - m * (p - 1))) by lia. rewrite H4v by lia. f_equal. f_equal. lia.
  - intros a Ha Ha'. rewrite H4f, Hout3, H2f, H1f by (intros; lia). reflexivity.
  - auto 10.
Qed.

Lemma backwardInner_tail_spec f W0 Wt r0 dr0 d0 E (rh : nat -> Z) (y : nat -> nat -> C) (acc : nat -> C) (m0 : mem) (K : mem -> Prop) :
  Wt = W0 + m * p * d0 ->
  E = p * (d0 + dr0) ->
  1 <= r0 -> (1 <= dr0 -> r0 + dr0 <= n) ->
  dj f L W0 (m * E) ->
  (forall e s, p * d0 <= e < E -> s < m -> m0 (W0 + (m * e + s)) = Val (Zf (y e) s)) ->
  (forall j, j < L -> m0 (f + j) = Val (acc j)) ->
  (forall d u, d < dr0 -> u < p -> rh (p * (d0 + d) + u) = Z.of_nat (n * u + (r0 + d))) ->
  (forall m',
     (forall j, j < L -> m' (f + j) = Val (Cadd (acc j)
          (Csum (p * dr0) (fun i => BV (rh (p * d0 + i)) (y (p * d0 + i)) j)))) ->
     (forall a, a < f \/ f + L <= a -> (forall i, i < m * E -> W0 + i <> a) -> m' a = m0 a) ->
     (forall a, m0 a <> Unalloc -> m' a <> Unalloc) -> K m') ->
  WP (cfor dr0 (fun d => backwardInner_residue t f (Wt + gb t * d) (r0 + d))) m0 K.
Proof.
  intros HWt HE Hr0 Hrq Hdw Hrow Hacc Hrh HK.
  pose proof (L_inner t Hwf) as HL. pose proof (mp_split t Hp) as Hmp. pose proof (wf_m t Hwf) as Hm1.
  pose proof (mp_bound t Hp) as Hb. rewrite (b_inner t Hwf Hp HS Hq). unfold dj in *.
  assert (HmE : m * E = m * p * d0 + m * p * dr0) by (rewrite HE; lia).
  set (I := fun d (m1 : mem) =>
     (forall j, j < L -> m1 (f + j) = Val (Cadd (acc j)
          (Csum (p * d) (fun i => BV (rh (p * d0 + i)) (y (p * d0 + i)) j)))) /\
     (forall a, a < f \/ f + L <= a -> (a < Wt \/ Wt + m * p * d <= a) -> m1 a = m0 a) /\
     (forall a, m0 a <> Unalloc -> m1 a <> Unalloc)).
  eapply WP_mono; [|apply (WP_cfor C dr0 _ I)].
  2:{ unfold I. split; [|split; auto]. intros j Hj. rewrite Nat.mul_0_r. cbn [Csum]. rewrite Hacc by assumption. f_equal. ring. }
  2:{ intros d m1 Hd (I1 & I2 & I3).
      assert (Hdd : m * p * d + m * p <= m * p * dr0) by (clear -Hd; nia).
      apply backwardInner_residue_spec with (y := fun u => y (p * (d0 + d) + u))
        (acc := fun j => Cadd (acc j) (Csum (p * d) (fun i => BV (rh (p * d0 + i)) (y (p * d0 + i)) j))).
      - lia.
      - unfold dj. lia.
      - intros u s Hu Hs. rewrite I2.
        + rewrite <- Hrow; [f_equal; rewrite HWt; lia| |assumption]. rewrite HE. split; [lia|]. clear -Hd Hu. nia.
        + pose proof (Hb u s Hu Hs). lia.
        + lia.
      - assumption.
      - intros m2 H2v H2f H2a. unfold I. split; [|split].
        + intros j Hj. rewrite H2v by assumption. f_equal.
          replace (p * S d) with (p * d + p) by lia. rewrite Csum_split.
          unfold stageD.
          rewrite (Csum_ext p (fun i => BV (rh (p * d0 + (p * d + i))) (y (p * d0 + (p * d + i))) j)
             (fun e => BV (Z.of_nat (n * e + (r0 + d))) (y (p * (d0 + d) + e)) j)); [ring|].
          intros i Hi. replace (p * d0 + (p * d + i)) with (p * (d0 + d) + i) by lia.
          rewrite Hrh by assumption. reflexivity.
        + intros a Ha Hao. replace (m * p * S d) with (m * p * d + m * p) in Hao by lia.
          rewrite H2f, I2 by lia. reflexivity.
        + auto. }
  intros m1 (I1 & I2 & I3). apply HK; [assumption| |assumption].
  intros a Ha Hb2. apply I2; [assumption|].
  destruct (Nat.lt_ge_cases a Wt); [lia|]. destruct (Nat.lt_ge_cases a (W0 + m * E)); [|lia].
  exfalso. apply (Hb2 (a - W0)); lia.
Qed.

Lemma backwardInner_spec f F0 W r (y : nat -> nat -> C) (acc : nat -> C) (m0 : mem) (K : mem -> Prop) :
  let W0 := getW F0 W in
  let E := nrows t r in
  passr t r ->
  ainplace t = (W0 =? F0) ->
  dj f L W0 (m * E) -> dj f L F0 (m * E) ->
  (W0 = F0 \/ dj W0 (m * E) F0 (m * E)) ->
  (forall e k, e < E -> k < m -> m0 (F0 + (m * e + k)) = Val (y e k)) ->
  (forall i, i < m * E -> m0 (W0 + i) <> Unalloc) ->
  (forall j, j < L -> m0 (f + j) <> Unalloc) ->
  (r <> 0 -> forall j, j < L -> m0 (f + j) = Val (acc j)) ->
  (forall m',
     (forall j, j < L -> m' (f + j) = Val (bwd_val t r acc y j)) ->
     (forall a, a < f \/ f + L <= a -> (forall i, i < m * E -> W0 + i <> a) -> m' a = m0 a) ->
     (forall a, m0 a <> Unalloc -> m' a <> Unalloc) -> K m') ->
  WP (backwardInner t F0 f r W) m0 K.
Proof.
  intros W0 E Hpass Hin Hdw Hdf Hwd Hy Hwa Hfa Hacc HK.
  pose proof (L_inner t Hwf) as HL. pose proof (mp_split t Hp) as Hmp. pose proof (wf_m t Hwf) as Hm1.
  pose proof (mp_bound t Hp) as Hb. pose proof (D0_bounds t Hwf) as HD0. pose proof (q_pn t Hp) as Hqpn.
  pose proof (D0_le_n t Hwf) as HD0n. pose proof (R_inner t Hp HS Hq) as HR. pose proof (n_pos t Hwf) as Hn1.
  assert (Hb' : forall u s, u < p - 1 -> s < m -> m * u + s < m * (p - 1)) by (intros; nia).
  assert (Hmm : m <= m * (p - 1)) by nia.
  unfold backwardInner. fold W0. cbv zeta. pose proof (plan_rowsI t Hwf Hp HS Hq (-1) r) as Hplan.
  assert (HEr : E = p * (if r =? 0 then gD0 t else D)) by (unfold E, nrows; rewrite (P_big t Hp); reflexivity).
  assert (Hbw : forall j, bwd_val t r acc y j = Cadd (if r =? 0 then C0 else acc j) (Csum E (fun e => BV (rho t r e) (y e) j)))
    by reflexivity.
  replace (if (0 <? r) || (gD0 t =? D) then fftm t (-1) else fftm0 t (-1)) with (mkplan m (-1) E 1 m (ainplace t)).
  2:{ unfold E. rewrite <- Hplan. destruct (Nat.ltb_spec 0 r), (Nat.eqb_spec r 0); try lia; reflexivity. }
  fold E in Hplan. clearbody E W0. apply WP_seq.
  apply WP_fft_rows with (x := y); auto.
  { rewrite Hin. apply Nat.eqb_sym. }
  { destruct Hwd as [->|Hwd]; [auto|right]. unfold dj in Hwd. intros. lia. }
  intros m1 H1v H1f H1a.
  assert (Hm1f : forall a, f <= a < f + L -> m1 a = m0 a).
  { intros a Ha. apply H1f. unfold dj in Hdw. intros i Hi. lia. }
  destruct (Nat.eqb_spec r 0) as [->|Hr].
  - assert (HmE : m * p <= m * E) by (rewrite HEr; clear -HD0 Hm1; nia).
    unfold dj in Hdw.
    assert (H1v' : forall u s, u < p -> s < m -> m1 (W0 + m * u + s) = Val (Zf (y u) s)).
    { intros u s Hu Hs. rewrite <- Nat.add_assoc. apply H1v; [|assumption]. rewrite HEr. clear -HD0 Hu. nia. }
    apply WP_seq. eapply WP_mono; [intros mx Hmx; apply WP_seq; exact Hmx|].
    apply stage_rows with (r := 0) (y := y); auto; try lia.
    2:{ intros t' Ht'. rewrite Nat.add_0_r. reflexivity. }
    intros m2 H2v0 H2f H2a.
    assert (H2v : forall u s, u < p -> s < m -> m2 (W0 + m * u + s) = Val (stageD 0 y (m * u + s))).
    { intros u s Hu Hs. rewrite H2v0 by assumption. f_equal. apply stageD_r0. lia. }
    clear H2v0. apply WP_seq.
    eapply WP_map2 with (lo2 := 0) (hi2 := m) (dst := fun u s => f + m * u + s) (g := fun u s => stageD 0 y (m * u + s)); unfold rng.
    { intros u Hu. reflexivity. }
    { intros u s u' s' Hu Hs Hu' Hs' E'. apply (stride_inj m); lia. }
    { intros u s Hu Hs. cbn [wp]. pose proof (Hb' u s ltac:(lia) ltac:(lia)).
      split; [left; intros u' s' Hu' Hs'; pose proof (Hb' u' s' ltac:(lia) ltac:(lia)); lia|].
      eexists. split; [apply H2v; lia|].
      wr; [apply H2a, H1a, (alloc_at _ _ _ Hfa); lia|apply upd_get; reflexivity]. }
    intros m3 H3v H3f H3a. apply WP_seq.
    assert (Hout3 : forall a, a < f \/ f + m * (p - 1) <= a -> m3 a = m2 a).
    { intros a Ha. apply H3f. intros u s Hu Hs. pose proof (Hb' u s ltac:(lia) ltac:(lia)). lia. }
    eapply WP_map1 with (dst := fun s => f + m * (p - 1) + s) (g := fun s => stageD 0 y (m * (p - 1) + s)); unfold rng.
    { intros; lia. }
    { intros s Hs. cbn [wp]. split; [left; intros; lia|].
      eexists. split; [rewrite Hout3 by lia; apply H2v; lia|].
      wr; [apply H3a, H2a, H1a, (alloc_at _ _ _ Hfa); lia|apply upd_get; reflexivity]. }
    intros m4 H4v H4f H4a.
    apply backwardInner_tail_spec with (W0 := W0) (d0 := 1) (E := E) (rh := rho t 0) (y := y) (acc := stageD 0 y); auto; try lia.
    + rewrite (b_inner t Hwf Hp HS Hq). lia.
    + rewrite HEr. f_equal. lia.
    + intros e s He Hs. assert (m * p <= m * e) by (apply Nat.mul_le_mono_l; lia).
      assert (m * e + s < m * E) by (clear -He Hs; nia).
      rewrite H4f by (intros; lia). rewrite Hout3, H2f by lia. apply H1v; lia.
    + intros j Hj. destruct (Nat.lt_ge_cases j (m * (p - 1))) as [H'|H'].
      * rewrite H4f by (intros; lia). pose proof (Nat.div_mod j m ltac:(lia)) as Hj'.
        pose proof (Nat.mod_upper_bound j m ltac:(lia)) as Hjm.
        rewrite Hj', Nat.add_assoc. apply H3v; [|lia]. clear -H' Hj' Hjm. nia.
      * replace (f + j) with (f + m * (p - 1) + (j - m * (p - 1))) by lia. rewrite H4v by lia. f_equal. f_equal. lia.
    + intros d u Hd Hu. rewrite (rho_inner' t Hp HS Hq) by assumption. f_equal.
    + intros m' HV HF Hal. apply HK; [| |auto 10].
      * intros j Hj. rewrite HV by assumption. f_equal. rewrite Hbw. cbn [Nat.eqb].
        replace E with (p + p * (gD0 t - 1)) by (rewrite HEr; clear -HD0; nia). rewrite Csum_split. rewrite Nat.mul_1_r.
        unfold stageD.
        rewrite (Csum_ext p (fun e => BV (Z.of_nat (n * e + 0)) (y e) j) (fun i => BV (rho t 0 i) (y i) j)); [ring|].
        intros e He. pose proof (rho_inner' t Hp HS Hq 0 0 e He) as Hrr. rewrite Nat.mul_0_r in Hrr. cbn [Nat.add] in Hrr.
        rewrite Hrr. reflexivity.
      * intros a Ha Ha2. rewrite HF by assumption.
        rewrite H4f by (intros; lia). rewrite Hout3 by lia. rewrite H2f; [apply H1f; assumption|].
        destruct (Nat.lt_ge_cases a W0); [lia|]. destruct (Nat.lt_ge_cases a (W0 + m * p)); [|lia].
        exfalso. apply (Ha2 (a - W0)); lia.
  - destruct Hpass as [|(Hinc & Hr1 & Hpass)]; [contradiction|].
    rewrite (dr_inner t Hp HS Hq) in *.
    apply backwardInner_tail_spec with (W0 := W0) (d0 := 0) (E := E) (rh := rho t r) (y := y) (acc := acc); auto; try lia.
    + intros e s He Hs. apply H1v; lia.
    + intros j Hj. rewrite Hm1f by lia. auto.
    + intros d u Hd Hu. rewrite (rho_inner' t Hp HS Hq) by assumption. reflexivity.
    + intros m' HV HF Hal. apply HK; [| |auto 10].
      * intros j Hj. rewrite HV by assumption. f_equal. rewrite Hbw. destruct (Nat.eqb_spec r 0); [contradiction|].
        rewrite HEr. rewrite !Nat.mul_0_r. reflexivity.
      * intros a Ha Ha2. rewrite HF by assumption. apply H1f; assumption.
Qed.
End T.
