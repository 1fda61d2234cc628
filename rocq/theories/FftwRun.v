(** Execution of the FFTW calls and of the wrapper methods. *)
From Coq Require Import Reals ZArith Arith List Bool Lia Lra.
From Verif Require Import CNum Sums Roots Mem FftwModel FftwLoops FftwShift FftwMath FftwSpec.

Definition valD (m : dmem) (a : addr) : R := match m a with Val x => x | _ => 0%R end.
Definition valC (m : dmem) (a : addr) : C := mkC (valD m a) (valD m (a + 1)).
Lemma valC_cell m a z : cell_C m a z -> valC m a = z.
Proof. intros [H1 H2]. unfold valC, valD. rewrite H1, H2. destruct z; reflexivity. Qed.

Definition fill (m : dmem) (p n : nat) (v : nat -> R) : dmem :=
  fun a => if (p <=? a) && (a <? p + n) then Val (v (a - p)) else m a.
Lemma fill_in m p n v d : d < n -> fill m p n v (p + d) = Val (v d).
Proof.
  intros H. unfold fill.
  destruct (Nat.leb_spec p (p + d)), (Nat.ltb_spec (p + d) (p + n)); simpl; try lia.
  f_equal. f_equal. lia.
Qed.
Lemma fill_out m p n v a : ~ (p <= a < p + n) -> fill m p n v a = m a.
Proof.
  intros H. unfold fill. destruct (Nat.leb_spec p a), (Nat.ltb_spec a (p + n)); simpl; try lia; reflexivity.
Qed.

(** decoding a row-major offset *)
Lemma dec2 n i k : k < n -> (i * n + k) / n = i /\ (i * n + k) mod n = k.
Proof.
  intros H. split.
  - rewrite (Nat.add_comm (i * n)), Nat.div_add, Nat.div_small by lia. lia.
  - rewrite (Nat.add_comm (i * n)), Nat.mod_add, Nat.mod_small by lia. lia.
Qed.
Lemma dec_half d c : c < 2 -> (2 * d + c) / 2 = d /\ (2 * d + c) mod 2 = c.
Proof. intros H. rewrite (Nat.mul_comm 2). apply dec2. assumption. Qed.

Definition cplx_fill (n2 n3 : nat) (F : nat -> nat -> nat -> C) (d : nat) : R :=
  let w := d / 2 in
  let z := F (w / n3 / n2) ((w / n3) mod n2) (w mod n3) in
  if d mod 2 =? 0 then re z else im z.
Lemma cplx_fill_at n2 n3 F i j k : j < n2 -> k < n3 ->
  cplx_fill n2 n3 F (2 * ((i * n2 + j) * n3 + k)) = re (F i j k) /\
  cplx_fill n2 n3 F (2 * ((i * n2 + j) * n3 + k) + 1) = im (F i j k).
Proof.
  intros Hj Hk. unfold cplx_fill.
  destruct (dec_half ((i * n2 + j) * n3 + k) 0 ltac:(lia)) as [A0 B0]. rewrite Nat.add_0_r in A0, B0.
  destruct (dec_half ((i * n2 + j) * n3 + k) 1 ltac:(lia)) as [A1 B1].
  destruct (dec2 n3 (i * n2 + j) k Hk) as [A2 B2]. destruct (dec2 n2 i j Hj) as [A3 B3].
  rewrite A0, B0, A1, B1, A2, B2, A3, B3. split; reflexivity.
Qed.
Lemma idx_lt3 n1 n2 n3 i j k : i < n1 -> j < n2 -> k < n3 -> (i * n2 + j) * n3 + k < n1 * n2 * n3.
Proof. intros. apply row_lt; assumption. Qed.

Lemma fill_cplx m p n1 n2 n3 F i j k : i < n1 -> j < n2 -> k < n3 ->
  cell_C (fill m p (2 * (n1 * n2 * n3)) (cplx_fill n2 n3 F)) (p + 2 * ((i * n2 + j) * n3 + k)) (F i j k).
Proof.
  intros Hi Hj Hk. pose proof (idx_lt3 _ _ _ _ _ _ Hi Hj Hk). destruct (cplx_fill_at n2 n3 F i j k Hj Hk) as [A B].
  split.
  - rewrite fill_in by lia. rewrite A. reflexivity.
  - rewrite <- Nat.add_assoc, fill_in by lia. rewrite B. reflexivity.
Qed.

(** *** complex transforms *)
Lemma exec_c2c o pin pout m f :
  o_kind o = c2c ->
  carray3 m pin (o_n1 o) (o_n2 o) (o_n3 o) f ->
  space m pout (2 * (o_n1 o * o_n2 o * o_n3 o)) ->
  (pin = pout \/ disjoint pin (2 * (o_n1 o * o_n2 o * o_n3 o)) pout (2 * (o_n1 o * o_n2 o * o_n3 o))) ->
  Runs (fftw_execute o pin pout) m (fun m' =>
    carray3 m' pout (o_n1 o) (o_n2 o) (o_n3 o) (dft3 (o_n1 o) (o_n2 o) (o_n3 o) (o_sign o) f) /\
    untouched_outside m m' pout (2 * (o_n1 o * o_n2 o * o_n3 o))).
Proof.
  intros Ek Hf Hs Hd. unfold fftw_execute. apply Runs_ext.
  - unfold fftw_pre, in_words, out_words, data_in. rewrite Ek. split; [|split].
    + intros i j k (Hi & Hj & Hk). destruct (Hf i j k Hi Hj Hk) as [A B]. split; eexists; eassumption.
    + exact Hs.
    + unfold disjoint in Hd. tauto.
  - exists (fill m pout (2 * (o_n1 o * o_n2 o * o_n3 o))
             (cplx_fill (o_n2 o) (o_n3 o) (dft3 (o_n1 o) (o_n2 o) (o_n3 o) (o_sign o) f))).
    unfold fftw_post, out_words, data_in, data_out. rewrite Ek. split.
    + intros f' Hf' a b c (Ha & Hb & Hc). unfold atC.
      rewrite (dft3_ext _ _ _ _ f' f).
      * apply fill_cplx; assumption.
      * intros i j k Hi Hj Hk. rewrite <- (valC_cell _ _ _ (Hf i j k Hi Hj Hk)).
        symmetry. apply valC_cell. apply (Hf' i j k). auto.
    + intros d H. apply fill_out. assumption.
  - unfold fftw_post, out_words, data_in, data_out. rewrite Ek. intros m' [A B]. split.
    + intros a b c Ha Hb Hc. apply (A f); [|auto]. intros i j k (Hi & Hj & Hk). apply Hf; assumption.
    + exact B.
Qed.

(** *** real to complex *)
Lemma exec_r2c o pin pout m f :
  o_kind o = r2c ->
  rarray3 m pin (o_n1 o) (o_n2 o) (o_n3 o) (pitch (o_n3 o) (o_inplace o)) f ->
  space m pout (2 * (o_n1 o * o_n2 o * (o_n3 o / 2 + 1))) ->
  (pin = pout \/ disjoint pin (o_n1 o * o_n2 o * pitch (o_n3 o) (o_inplace o)) pout (2 * (o_n1 o * o_n2 o * (o_n3 o / 2 + 1)))) ->
  Runs (fftw_execute o pin pout) m (fun m' =>
    carray3 m' pout (o_n1 o) (o_n2 o) (o_n3 o / 2 + 1)
      (dft3 (o_n1 o) (o_n2 o) (o_n3 o) (-1) (fun i j k => RtoC (f i j k))) /\
    untouched_outside m m' pout (2 * (o_n1 o * o_n2 o * (o_n3 o / 2 + 1)))).
Proof.
  intros Ek Hf Hs Hd. unfold fftw_execute. apply Runs_ext.
  - unfold fftw_pre, in_words, out_words, data_in. rewrite Ek. split; [|split].
    + intros i j k (Hi & Hj & Hk). eexists. apply (Hf i j k Hi Hj Hk).
    + exact Hs.
    + unfold disjoint in Hd. tauto.
  - exists (fill m pout (2 * (o_n1 o * o_n2 o * (o_n3 o / 2 + 1)))
             (cplx_fill (o_n2 o) (o_n3 o / 2 + 1) (dft3 (o_n1 o) (o_n2 o) (o_n3 o) (-1) (fun i j k => RtoC (f i j k))))).
    unfold fftw_post, out_words, data_in, data_out. rewrite Ek. split.
    + intros f' Hf' a b c (Ha & Hb & Hc). unfold atH.
      rewrite (dft3_ext _ _ _ _ (fun i j k => RtoC (f' i j k)) (fun i j k => RtoC (f i j k))).
      * apply fill_cplx; assumption.
      * intros i j k Hi Hj Hk. f_equal. specialize (Hf i j k Hi Hj Hk). specialize (Hf' i j k (conj Hi (conj Hj Hk))).
        unfold atR in Hf'. change (realsize (o_n3 o) (o_inplace o)) with (pitch (o_n3 o) (o_inplace o)) in Hf'.
        congruence.
    + intros d H. apply fill_out. assumption.
  - unfold fftw_post, out_words, data_in, data_out. rewrite Ek. intros m' [A B]. split.
    + intros a b c Ha Hb Hc. apply (A f); [|auto]. intros i j k (Hi & Hj & Hk). apply Hf; assumption.
    + exact B.
Qed.

(** *** complex to real *)
Definition real_fill (n2 n3 pt : nat) (F : nat -> nat -> nat -> R) (d : nat) : R :=
  F (d / pt / n2) ((d / pt) mod n2) (d mod pt).
Lemma fill_real m p n1 n2 n3 pt F i j k : i < n1 -> j < n2 -> k < n3 -> n3 <= pt ->
  fill m p (n1 * n2 * pt) (real_fill n2 n3 pt F) (p + (i * n2 + j) * pt + k) = Val (F i j k).
Proof.
  intros Hi Hj Hk Hp. rewrite <- Nat.add_assoc, fill_in by (apply row_lt; lia).
  unfold real_fill. destruct (dec2 pt (i * n2 + j) k ltac:(lia)) as [A B].
  destruct (dec2 n2 i j Hj) as [A3 B3]. rewrite A, B, A3, B3. reflexivity.
Qed.
Lemma pitch_ge n ip : n <= pitch n ip.
Proof. unfold pitch. destruct ip; [|lia]. pose proof (Nat.div_mod n 2). pose proof (Nat.mod_upper_bound n 2). lia. Qed.

(** a Hermitian spectrum is determined by its stored half *)
Lemma herm_ext n1 n2 n3 F G : hermitian3 n1 n2 n3 F -> hermitian3 n1 n2 n3 G ->
  (forall a b c, a < n1 -> b < n2 -> c < n3 / 2 + 1 -> F a b c = G a b c) ->
  forall a b c, a < n1 -> b < n2 -> c < n3 -> F a b c = G a b c.
Proof.
  intros HF HG H a b c Ha Hb Hc. destruct (Nat.lt_ge_cases c (n3 / 2 + 1)) as [L|L]; [auto|].
  rewrite <- (Cconj_conj (F a b c)), <- (Cconj_conj (G a b c)).
  rewrite <- HF, <- HG by assumption. f_equal. apply H.
  - apply Nat.mod_upper_bound. lia.
  - apply Nat.mod_upper_bound. lia.
  - rewrite Nat.mod_small by lia. pose proof (Nat.div_mod n3 2). pose proof (Nat.mod_upper_bound n3 2). lia.
Qed.

Lemma exec_c2r o pin pout m F :
  o_kind o = c2r ->
  hermitian3 (o_n1 o) (o_n2 o) (o_n3 o) F ->
  carray3 m pin (o_n1 o) (o_n2 o) (o_n3 o / 2 + 1) F ->
  space m pout (o_n1 o * o_n2 o * pitch (o_n3 o) (o_inplace o)) ->
  (pin = pout \/ disjoint pin (2 * (o_n1 o * o_n2 o * (o_n3 o / 2 + 1))) pout (o_n1 o * o_n2 o * pitch (o_n3 o) (o_inplace o))) ->
  Runs (fftw_execute o pin pout) m (fun m' =>
    rarray3 m' pout (o_n1 o) (o_n2 o) (o_n3 o) (pitch (o_n3 o) (o_inplace o))
      (fun i j k => re (dft3 (o_n1 o) (o_n2 o) (o_n3 o) 1 F i j k)) /\
    init m' pout (o_n1 o * o_n2 o * pitch (o_n3 o) (o_inplace o)) /\
    (forall a, ~ (pout <= a < pout + o_n1 o * o_n2 o * pitch (o_n3 o) (o_inplace o)) ->
       ~ (pin <= a < pin + 2 * (o_n1 o * o_n2 o * (o_n3 o / 2 + 1))) -> m' a = m a)).
Proof.
  intros Ek HF Hf Hs Hd. unfold fftw_execute. apply Runs_ext.
  - unfold fftw_pre, in_words, out_words, data_in. rewrite Ek. split; [|split].
    + intros i j k (Hi & Hj & Hk). destruct (Hf i j k Hi Hj Hk) as [A B]. split; eexists; eassumption.
    + exact Hs.
    + unfold disjoint in Hd. tauto.
  - exists (fill m pout (o_n1 o * o_n2 o * pitch (o_n3 o) (o_inplace o))
             (real_fill (o_n2 o) (o_n3 o) (pitch (o_n3 o) (o_inplace o)) (fun i j k => re (dft3 (o_n1 o) (o_n2 o) (o_n3 o) 1 F i j k)))).
    unfold fftw_post, in_words, out_words, data_in, data_out. rewrite Ek. split; [|split; [|split]].
    + intros F' HF' Hf' a b c (Ha & Hb & Hc). unfold atR. change realsize with pitch.
      rewrite (dft3_ext _ _ _ _ F' F).
      * apply (fill_real m pout (o_n1 o) (o_n2 o) (o_n3 o) _ (fun i j k => re (dft3 (o_n1 o) (o_n2 o) (o_n3 o) 1 F i j k)));
          try assumption. apply pitch_ge.
      * apply herm_ext; [assumption|assumption|]. intros i j k Hi Hj Hk.
        rewrite <- (valC_cell _ _ _ (Hf i j k Hi Hj Hk)).
        symmetry. apply valC_cell. apply (Hf' i j k). auto.
    + intros d H. change realsize with pitch in H. exists (real_fill (o_n2 o) (o_n3 o) (pitch (o_n3 o) (o_inplace o)) (fun i j k => re (dft3 (o_n1 o) (o_n2 o) (o_n3 o) 1 F i j k)) (d - pout)).
      replace d with (pout + (d - pout)) at 1 by lia. apply fill_in. lia.
    + intros d _ H. unfold allocated, fill. destruct ((pout <=? d) && _); [discriminate|assumption].
    + intros d H _. apply fill_out. assumption.
  - unfold fftw_post, in_words, out_words, data_in, data_out. rewrite Ek. change realsize with pitch.
    intros m' (A & B & D & E). split; [|split].
    + intros a b c Ha Hb Hc. apply (A F); [assumption| |auto]. intros i j k (Hi & Hj & Hk). apply Hf; assumption.
    + intros d H. apply B. lia.
    + exact E.
Qed.

(** *** Setout *)
Lemma Setout_ok o pin pout c : o_inplace o = (pout =? pin) -> Setout o pin pout c = c.
Proof. intros H. unfold Setout. rewrite H, xorb_nilpotent. reflexivity. Qed.

(** *** scaling *)
Lemma scaled_cell norm p n m m' a z : scaled norm p n m m' -> p <= a -> a + 1 < p + n ->
  cell_C m a z -> cell_C m' a (Cmul (RtoC norm) z).
Proof.
  intros [H _] H1 H2 [A B].
  pose proof (H (a - p) ltac:(lia)) as E. pose proof (H (a + 1 - p) ltac:(lia)) as G.
  replace (p + (a - p)) with a in E by lia. replace (p + (a + 1 - p)) with (a + 1) in G by lia.
  split; [rewrite E, A|rewrite G, B]; simpl; f_equal; ring.
Qed.

Lemma norm_inv n x : 0 < n -> Cmul (RtoC (1 / INR n)) (Cmul (RtoC (INR n)) x) = x.
Proof.
  intros H. rewrite Cmul_assoc, <- RtoC_mul.
  replace (1 / INR n * INR n)%R with 1%R; [apply Cmul_1_l|].
  field. apply not_0_INR. lia.
Qed.

(** *** round trip of complex transforms *)
Lemma carray3_init m p n1 n2 n3 f : carray3 m p n1 n2 n3 f -> init m p (2 * (n1 * n2 * n3)).
Proof.
  intros Hf d Hd.
  pose proof (Nat.div_mod d 2 ltac:(lia)) as Ed. pose proof (Nat.mod_upper_bound d 2 ltac:(lia)).
  set (w := d / 2) in *.
  assert (Hn : n1 <> 0 /\ n2 <> 0 /\ n3 <> 0) by (repeat split; intros ->; lia).
  pose proof (Nat.div_mod w n3 ltac:(lia)). pose proof (Nat.mod_upper_bound w n3 ltac:(lia)).
  pose proof (Nat.div_mod (w / n3) n2 ltac:(lia)). pose proof (Nat.mod_upper_bound (w / n3) n2 ltac:(lia)).
  assert (w / n3 / n2 < n1).
  { apply Nat.div_lt_upper_bound; [lia|]. apply Nat.div_lt_upper_bound; [lia|]. lia. }
  specialize (Hf (w / n3 / n2) ((w / n3) mod n2) (w mod n3) ltac:(assumption) ltac:(assumption) ltac:(assumption)).
  replace ((w / n3 / n2 * n2 + (w / n3) mod n2) * n3 + w mod n3) with w in Hf by lia.
  destruct Hf as [A B]. destruct (Nat.eq_dec (d mod 2) 0) as [G|G].
  + replace (p + d) with (p + 2 * w) by lia. eexists; eassumption.
  + replace (p + d) with (p + 2 * w + 1) by lia. eexists; eassumption.
Qed.
Lemma init_space m p n : init m p n -> space m p n.
Proof. intros H d Hd. destruct (H d Hd) as [v E]. unfold allocated. congruence. Qed.
Definition places (ip : bool) (a b na nb : nat) : Prop := if ip then a = b else disjoint a na b nb.

Lemma roundtrip_c2c n1 n2 n3 sg ip fwd bwd a b m f : sg = 1%Z \/ sg = (-1)%Z -> 0 < n1 * n2 * n3 ->
  fwd = mkobj c2c n1 n2 n3 sg (2 * (n1 * n2 * n3)) 0 ip ->
  bwd = mkobj c2c n1 n2 n3 (- sg) (2 * (n1 * n2 * n3)) 0 ip ->
  carray3 m a n1 n2 n3 f -> space m b (2 * (n1 * n2 * n3)) -> places ip a b (2 * (n1 * n2 * n3)) (2 * (n1 * n2 * n3)) ->
  Runs (Seq (fft fwd a b) (fftNormalized true bwd b a)) m (fun m' =>
    carray3 m' a n1 n2 n3 f /\
    forall x, ~ (a <= x < a + 2 * (n1 * n2 * n3)) -> ~ (b <= x < b + 2 * (n1 * n2 * n3)) -> m' x = m x).
Proof.
  intros Hsg HN -> -> Hf Hs Hp.
  assert (Hip : ip = (a =? b)).
  { unfold places, disjoint in Hp. destruct ip; [subst; rewrite Nat.eqb_refl; reflexivity|].
    symmetry. apply Nat.eqb_neq. lia. }
  assert (HA : forall m1, untouched_outside m m1 b (2 * (n1 * n2 * n3)) -> carray3 m1 b n1 n2 n3 (dft3 n1 n2 n3 sg f) -> space m1 a (2 * (n1 * n2 * n3))).
  { intros m1 H1 H2. destruct ip; simpl in Hp.
    - subst b. eapply init_space, carray3_init; eassumption.
    - intros d Hd. unfold allocated. rewrite H1 by (unfold disjoint in Hp; lia).
      revert d Hd. eapply init_space, carray3_init; eassumption. }
  apply Runs_seq. unfold fft, fftNormalized. rewrite Setout_ok by (simpl; rewrite Nat.eqb_sym; assumption).
  eapply Runs_mono; [|apply (exec_c2c (mkobj c2c n1 n2 n3 sg (2 * (n1 * n2 * n3)) 0 ip) a b m f)].
  2:{ reflexivity. } 2:{ exact Hf. } 2:{ exact Hs. }
  2:{ unfold places in Hp. destruct ip; [left|right]; exact Hp. }
  cbn [o_n1 o_n2 o_n3 o_sign mkobj]. intros m1 [H1 H2].
  rewrite Setout_ok by (simpl; assumption).
  apply Runs_seq.
  eapply Runs_mono; [|apply (exec_c2c (mkobj c2c n1 n2 n3 (- sg) (2 * (n1 * n2 * n3)) 0 ip) b a m1 (dft3 n1 n2 n3 sg f))].
  2:{ reflexivity. } 2:{ exact H1. } 2:{ apply HA; assumption. }
  2:{ unfold places, disjoint in *. destruct ip; [left; auto|right]. cbn [o_n1 o_n2 o_n3 mkobj]. lia. }
  cbn [o_n1 o_n2 o_n3 o_sign o_doubles o_norm mkobj]. intros m2 [H3 H4].
  assert (E2 : 2 * (2 * (n1 * n2 * n3) / 2) = 2 * (n1 * n2 * n3)) by (rewrite (Nat.mul_comm 2 (n1 * n2 * n3)), Nat.div_mul; lia).
  apply Runs_WP. eapply WP_mono; [|apply NormalizeC_ok].
  - intros m3 H5. rewrite E2 in H5. split.
    + intros i j k Hi Hj Hk. pose proof (idx_lt3 _ _ _ _ _ _ Hi Hj Hk).
      pose proof (H3 i j k Hi Hj Hk) as H6. eapply scaled_cell in H6; [|exact H5|lia|lia].
      rewrite dft3_inverse in H6 by assumption. unfold fftw_norm in H6. cbn [Nat.eqb] in H6.
      rewrite (Nat.mul_comm 2 (n1 * n2 * n3)), Nat.div_mul in H6 by lia. rewrite norm_inv in H6 by assumption. exact H6.
    + intros x Hx Hy. destruct H5 as [_ H5]. rewrite H5 by (unfold seg; exact Hx).
      rewrite H4 by exact Hx. apply H2. exact Hy.
  - rewrite E2. eapply carray3_init; eassumption.
Qed.
