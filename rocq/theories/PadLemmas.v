(** Root tables and FFTW calls: what the kernels may rely on. *)
From Coq Require Import FunctionalExtensionality Reals ZArith Arith Lia List Bool.
From Verif Require Import CNum Sums Roots Mem VecModel PadModel Loops.

(** *** tables *)
Lemma tset_eq T i v : tset T i v i = Some v.
Proof. unfold tset. rewrite Nat.eqb_refl. reflexivity. Qed.
Lemma tset_neq T i j v : i <> j -> tset T i v j = T j.
Proof. intros H. unfold tset. apply Nat.eqb_neq in H. rewrite H. reflexivity. Qed.

Lemma tloop_row n base v T j :
  tloop n (fun s T => tset T (base + s) (v s)) T j =
  if (base <=? j) && (j <? base + n) then Some (v (j - base)) else T j.
Proof.
  induction n as [|n IH]; cbn [tloop].
  - destruct (Nat.leb_spec base j), (Nat.ltb_spec j (base + 0)); cbn; auto; lia.
  - unfold tset at 1. destruct (Nat.eqb_spec (base + n) j) as [<-|Hne].
    + destruct (Nat.leb_spec base (base + n)), (Nat.ltb_spec (base + n) (base + S n)); cbn; try lia.
      f_equal. f_equal. lia.
    + rewrite IH. destruct (Nat.leb_spec base j), (Nat.ltb_spec j (base + n)),
        (Nat.ltb_spec j (base + S n)); cbn; auto; lia.
Qed.

(** rows of width w at w*r+off, r=1..k *)
Lemma tloop_rows k w off (row : nat -> table -> table) (v : nat -> nat -> C) T :
  (forall r T j, row r T j =
     if (w * S r + off <=? j) && (j <? w * S r + off + w)
     then Some (v (S r) (j - (w * S r + off))) else T j) ->
  forall r s, 1 <= r <= k -> s < w -> tloop k row T (w * r + off + s) = Some (v r s).
Proof.
  intros Hrow. induction k as [|k IH]; intros r s Hr Hs; cbn [tloop]; [lia|].
  rewrite Hrow. destruct (Nat.eq_dec r (S k)) as [->|Hne].
  - destruct (Nat.leb_spec (w * S k + off) (w * S k + off + s)),
      (Nat.ltb_spec (w * S k + off + s) (w * S k + off + w)); cbn [andb]; try lia.
    f_equal. f_equal. lia.
  - replace (w * S k + off <=? w * r + off + s) with false.
    + cbn [andb]. apply IH; lia.
    + symmetry. apply Nat.leb_gt. nia.
Qed.

Lemma expi_zeta (M a : nat) : expi (INR a * (twopi / INR M)) = zeta M (Z.of_nat a).
Proof.
  unfold zeta, twopi. f_equal. rewrite INR_IZR_INZ. unfold Rdiv. ring.
Qed.

Lemma tloop_ext n f g T : (forall k T, k < n -> f k T = g k T) -> tloop n f T = tloop n g T.
Proof.
  intros H. induction n as [|n IH]; cbn [tloop]; [reflexivity|].
  rewrite H by lia. rewrite IH; [reflexivity|]. intros; apply H; lia.
Qed.

Lemma initZetaqm_get M q m r s : 1 <= r < q -> s < m ->
  initZetaqm M q m (m * r + s) = Some (zeta M (Z.of_nat (r * s))).
Proof.
  intros Hr Hs. assert (Hm1 : 1 <= m) by lia. unfold initZetaqm.
  replace (m * r + s) with (m * r + 0 + s) by lia.
  rewrite (tloop_rows (q - 1) m 0 _
     (fun r s => if s =? 0 then C1 else zeta M (Z.of_nat (r * s)))); [|clear r s Hr Hs|lia|assumption].
  - destruct (Nat.eqb_spec s 0) as [->|]; [|reflexivity].
    rewrite Nat.mul_0_r. cbn. rewrite zeta_0. reflexivity.
  - intros r T j. cbv zeta.
    rewrite (tloop_ext (m - 1) _ (fun s' T => tset T (m * S r + 1 + s')
       (expi (INR (S r * S s') * (twopi / INR M))))).
    2:{ intros k T' Hk. f_equal. lia. }
    rewrite (tloop_row (m - 1) (m * S r + 1) (fun s' => expi (INR (S r * S s') * (twopi / INR M)))).
    unfold tset.
    destruct (Nat.leb_spec (m * S r + 1) j), (Nat.ltb_spec j (m * S r + 1 + (m - 1))),
      (Nat.leb_spec (m * S r + 0) j), (Nat.ltb_spec j (m * S r + 0 + m));
      destruct (Nat.eqb_spec (m * S r) j); cbn [andb]; try lia; try reflexivity.
    + rewrite expi_zeta. destruct (Nat.eqb_spec (j - (m * S r + 0)) 0); [lia|].
      f_equal. f_equal. f_equal. f_equal. lia.
    + destruct (Nat.eqb_spec (j - (m * S r + 0)) 0); [reflexivity|lia].
Qed.

Lemma initZetaqp_get q n P1 r t : 1 <= r < n -> 1 <= t < P1 ->
  initZetaqp q n P1 ((P1 - 1) * r + t) = Some (zeta q (Z.of_nat (r * t))).
Proof.
  intros Hr Ht. unfold initZetaqp.
  replace ((P1 - 1) * r + t) with ((P1 - 1) * r + 1 + (t - 1)) by lia.
  rewrite (tloop_rows (n - 1) (P1 - 1) 1 _ (fun r t' => zeta q (Z.of_nat (r * (S t'))))); [| |lia|lia].
  - f_equal. f_equal. f_equal. f_equal. lia.
  - clear. intros r T j. cbv zeta.
    rewrite (tloop_ext (P1 - 1) _ (fun t' T => tset T ((P1 - 1) * S r + 1 + t')
       (expi (INR (S r * S t') * (twopi / INR q))))).
    2:{ intros k T' Hk. f_equal. lia. }
    rewrite (tloop_row (P1 - 1) ((P1 - 1) * S r + 1) (fun t' => expi (INR (S r * S t') * (twopi / INR q)))).
    destruct ((_ <=? j) && _); [|reflexivity]. rewrite expi_zeta. reflexivity.
Qed.

Lemma initZetaqmS_get M q L m r s : 1 <= r < q -> m <= s < L ->
  initZetaqmS M q L m ((L - m) * r + s) = Some (zeta M (Z.of_nat (r * s))).
Proof.
  intros Hr Hs. unfold initZetaqmS.
  replace ((L - m) * r + s) with ((L - m) * r + m + (s - m)) by lia. cbv zeta.
  rewrite (tloop_rows (q - 1) (L - m) m _ (fun r s' => zeta M (Z.of_nat (r * (m + s'))))); [| |lia|lia].
  - f_equal. f_equal. f_equal. f_equal. lia.
  - clear. intros r T j.
    rewrite (tloop_ext (L - m) _ (fun s' T => tset T ((L - m) * S r + m + s')
       (expi (INR (S r * (m + s')) * (twopi / INR M))))).
    2:{ intros k T' Hk. f_equal. lia. }
    rewrite (tloop_row (L - m) ((L - m) * S r + m)
       (fun s' => expi (INR (S r * (m + s')) * (twopi / INR M)))).
    destruct ((_ <=? j) && _); [|reflexivity]. rewrite expi_zeta. reflexivity.
Qed.

(** *** FFTW calls *)
Definition valof (c : cell) : C := match c with Val v => v | _ => C0 end.

Definition hit (P : plan) (pout a : addr) : option (nat * nat) :=
  find (fun hk => a =? pout + lay P (fst hk) (snd hk)) (list_prod (seq 0 (pl_M P)) (seq 0 (pl_n P))).

Lemma hit_some P pout a h k : hit P pout a = Some (h, k) ->
  h < pl_M P /\ k < pl_n P /\ a = pout + lay P h k.
Proof.
  intros H. unfold hit in H. apply find_some in H. destruct H as [Hin Heq].
  apply in_prod_iff in Hin. rewrite !in_seq in Hin. apply Nat.eqb_eq in Heq. cbn in Heq.
  split; [lia|]. split; [lia|assumption].
Qed.

Lemma hit_none P pout a : hit P pout a = None ->
  forall h k, h < pl_M P -> k < pl_n P -> a <> pout + lay P h k.
Proof.
  intros H h k Hh Hk E. unfold hit in H.
  apply find_none with (x := (h, k)) in H.
  - cbn in H. apply Nat.eqb_neq in H. contradiction.
  - apply in_prod_iff. rewrite !in_seq. lia.
Qed.

Lemma dft_ext n sg x y k : (forall j, j < n -> x j = y j) -> dft n sg x k = dft n sg y k.
Proof. intros H. unfold dft. apply Csum_ext. intros i Hi. rewrite H by assumption. reflexivity. Qed.

Lemma fft_post_exists P pin pout m : fft_pre P pin pout m -> exists m', fft_post P pin pout m m'.
Proof.
  intros (Hn & Hinj & Hin & Hout & Hdis).
  exists (fun a => match hit P pout a with
                   | Some (h, k) => Val (dft (pl_n P) (pl_sign P) (fun j => valof (m (pin + lay P h j))) k)
                   | None => m a end).
  split.
  - intros a Ha. destruct (hit P pout a) as [[h k]|] eqn:E; [|reflexivity].
    exfalso. apply Ha. apply hit_some in E. exists h, k. tauto.
  - intros h Hh x Hx k Hk.
    destruct (hit P pout (pout + lay P h k)) as [[h' k']|] eqn:E.
    + apply hit_some in E. destruct E as (Hh' & Hk' & E).
      destruct (Hinj h h' k k') as [<- <-]; try assumption; [lia|].
      f_equal. apply dft_ext. intros j Hj. rewrite Hx by assumption. reflexivity.
    + exfalso. eapply hit_none; [exact E|exact Hh|exact Hk|reflexivity].
Qed.

Lemma fft_post_det P pin pout m m1 m2 : fft_pre P pin pout m ->
  fft_post P pin pout m m1 -> fft_post P pin pout m m2 -> m1 = m2.
Proof.
  intros (Hn & Hinj & Hin & Hout & Hdis) [A1 B1] [A2 B2]. apply functional_extensionality. intros a.
  destruct (hit P pout a) as [[h k]|] eqn:E.
  - apply hit_some in E. destruct E as (Hh & Hk & ->).
    assert (Hx : forall j, j < pl_n P -> m (pin + lay P h j) = Val (valof (m (pin + lay P h j)))).
    { intros j Hj. destruct (Hin h j Hh Hj) as (v & Ev). rewrite Ev. reflexivity. }
    rewrite (B1 h Hh _ Hx k Hk), (B2 h Hh _ Hx k Hk). reflexivity.
  - assert (Hno : ~ fft_out P pout a).
    { intros (h & k & Hh & Hk & E'). eapply hit_none; eauto. }
    rewrite A1, A2 by assumption. reflexivity.
Qed.

Lemma WP_fft P pin pout (x : nat -> nat -> C) m (K : mem -> Prop) :
  pl_inplace P = (pin =? pout) ->
  1 <= pl_n P ->
  (forall h h' k k', h < pl_M P -> h' < pl_M P -> k < pl_n P -> k' < pl_n P ->
     lay P h k = lay P h' k' -> h = h' /\ k = k') ->
  (forall h k, h < pl_M P -> k < pl_n P -> m (pin + lay P h k) = Val (x h k)) ->
  (forall h k, h < pl_M P -> k < pl_n P -> m (pout + lay P h k) <> Unalloc) ->
  (pin = pout \/ forall h h' k k', h < pl_M P -> h' < pl_M P -> k < pl_n P -> k' < pl_n P ->
     pin + lay P h k <> pout + lay P h' k') ->
  (forall m',
     (forall h k, h < pl_M P -> k < pl_n P ->
        m' (pout + lay P h k) = Val (dft (pl_n P) (pl_sign P) (x h) k)) ->
     (forall a, (forall h k, h < pl_M P -> k < pl_n P -> pout + lay P h k <> a) -> m' a = m a) ->
     (forall a, m a <> Unalloc -> m' a <> Unalloc) -> K m') ->
  WP (fft P pin pout) m K.
Proof.
  intros Hip Hn Hinj Hin Hout Hdis Hk. unfold fft. rewrite Hip.
  rewrite Bool.eqb_reflx.
  assert (Hpre : fft_pre P pin pout m).
  { unfold fft_pre. split; [assumption|]. split; [assumption|]. split; [eauto|]. split; assumption. }
  destruct (fft_post_exists P pin pout m Hpre) as (m' & Hpost).
  apply WP_ext with (m' := m'); [exact Hpre|exact Hpost|intros; eapply fft_post_det; eauto|].
  destruct Hpost as [HF HV]. apply Hk.
  - intros h k Hh Hk'. apply HV; auto.
  - intros a Ha. apply HF. intros (h & k & Hh & Hk' & E). symmetry in E. eapply Ha; eauto.
  - intros a Ha. destruct (hit P pout a) as [[h k]|] eqn:E.
    + apply hit_some in E. destruct E as (Hh & Hk' & ->).
      rewrite (HV h Hh (x h)); [discriminate|auto|assumption].
    + rewrite HF; [assumption|]. intros (h & k & Hh & Hk' & E'). eapply hit_none; eauto.
Qed.

(** contiguous transforms: K rows of length n *)
Lemma WP_fft_rows n sg K0 inpl pin pout (x : nat -> nat -> C) m (K : mem -> Prop) :
  inpl = (pin =? pout) -> 1 <= n ->
  (forall h k, h < K0 -> k < n -> m (pin + (n * h + k)) = Val (x h k)) ->
  (forall i, i < n * K0 -> m (pout + i) <> Unalloc) ->
  (pin = pout \/ forall i j, i < n * K0 -> j < n * K0 -> pin + i <> pout + j) ->
  (forall m',
     (forall h k, h < K0 -> k < n -> m' (pout + (n * h + k)) = Val (dft n sg (x h) k)) ->
     (forall a, (forall i, i < n * K0 -> pout + i <> a) -> m' a = m a) ->
     (forall a, m a <> Unalloc -> m' a <> Unalloc) -> K m') ->
  WP (fft (mkplan n sg K0 1 n inpl) pin pout) m K.
Proof.
  intros Hip Hn Hin Hout Hdis Hk.
  assert (E : forall h k, lay (mkplan n sg K0 1 n inpl) h k = n * h + k)
    by (intros; unfold lay; cbn; lia).
  assert (B : forall h k, h < K0 -> k < n -> n * h + k < n * K0) by (intros; nia).
  apply WP_fft with (x := x); cbn [pl_n pl_M pl_sign pl_inplace]; auto.
  - intros h h' k k' Hh Hh' Hk1 Hk2. rewrite !E. intros E'.
    assert (h = h') by nia. subst. split; [reflexivity|lia].
  - intros. rewrite E. auto.
  - intros. rewrite E. apply Hout. auto.
  - destruct Hdis as [->|Hdis]; [auto|]. right. intros. rewrite !E. apply Hdis; auto.
  - intros m' HV HF Hal. apply Hk; auto.
    + intros h k Hh Hk'. rewrite <- E. apply HV; assumption.
    + intros a Ha. apply HF. intros h k Hh Hk'. rewrite E. apply Ha. auto.
Qed.

Lemma stride_inj S s c s' c' : c < S -> c' < S -> S * s + c = S * s' + c' -> s = s' /\ c = c'.
Proof. intros Hc Hc' E. assert (s = s') by nia. subst. split; [reflexivity|lia]. Qed.

(** C interleaved transforms of stride S *)
Lemma WP_fft_strided n sg K0 S0 inpl pin pout (x : nat -> nat -> C) m (K : mem -> Prop) :
  inpl = (pin =? pout) -> 1 <= n -> K0 <= S0 ->
  (forall k c, k < n -> c < K0 -> m (pin + S0 * k + c) = Val (x k c)) ->
  (forall k c, k < n -> c < K0 -> m (pout + S0 * k + c) <> Unalloc) ->
  (pin = pout \/ forall k c k' c', k < n -> c < K0 -> k' < n -> c' < K0 ->
      pin + S0 * k + c <> pout + S0 * k' + c') ->
  (forall m',
     (forall k c, k < n -> c < K0 ->
        m' (pout + S0 * k + c) = Val (dft n sg (fun j => x j c) k)) ->
     (forall a, (forall k c, k < n -> c < K0 -> pout + S0 * k + c <> a) -> m' a = m a) ->
     (forall a, m a <> Unalloc -> m' a <> Unalloc) -> K m') ->
  WP (fft (mkplan n sg K0 S0 1 inpl) pin pout) m K.
Proof.
  intros Hip Hn HS Hin Hout Hdis Hk.
  assert (E : forall a h k, a + lay (mkplan n sg K0 S0 1 inpl) h k = a + S0 * k + h)
    by (intros; unfold lay; cbn; lia).
  apply WP_fft with (x := fun c k => x k c); cbn [pl_n pl_M pl_sign pl_inplace]; auto.
  - intros h h' k k' Hh Hh' Hk1 Hk2 E'.
    pose proof (E 0 h k) as E1. pose proof (E 0 h' k') as E2.
    destruct (stride_inj S0 k h k' h'); lia.
  - intros. rewrite E. auto.
  - intros. rewrite E. apply Hout; auto.
  - destruct Hdis as [->|Hdis]; [auto|]. right. intros. rewrite !E. apply Hdis; auto.
  - intros m' HV HF Hal. apply Hk; auto.
    + intros k c Hk' Hc. rewrite <- E. apply HV; assumption.
    + intros a Ha. apply HF. intros h k Hh Hk'. rewrite E. apply Ha; auto.
Qed.
