(** Real transforms: round trips and shifted transforms. *)
From Coq Require Import Reals ZArith Arith List Bool Lia Lra.
From Verif Require Import CNum Sums Roots Mem FftwModel FftwLoops FftwShift FftwMath FftwSpec FftwRun.

Lemma rarray3_init m p n1 n2 n3 f : rarray3 m p n1 n2 n3 n3 f -> init m p (n1 * n2 * n3).
Proof.
  intros Hf d Hd. assert (Hn : n1 <> 0 /\ n2 <> 0 /\ n3 <> 0) by (repeat split; intros ->; lia).
  pose proof (Nat.div_mod d n3 ltac:(lia)). pose proof (Nat.mod_upper_bound d n3 ltac:(lia)).
  pose proof (Nat.div_mod (d / n3) n2 ltac:(lia)). pose proof (Nat.mod_upper_bound (d / n3) n2 ltac:(lia)).
  assert (d / n3 / n2 < n1).
  { apply Nat.div_lt_upper_bound; [lia|]. apply Nat.div_lt_upper_bound; [lia|]. lia. }
  eexists. specialize (Hf (d / n3 / n2) ((d / n3) mod n2) (d mod n3) ltac:(assumption) ltac:(assumption) ltac:(assumption)).
  replace ((p + (d / n3 / n2 * n2 + (d / n3) mod n2) * n3 + d mod n3)) with (p + d) in Hf by lia. exact Hf.
Qed.

Definition flip (rank3 : bool) (i j : nat) : bool := if rank3 then Nat.odd (i + j) else Nat.odd j.

Lemma shift_ok rank3 o data m f :
  (rank3 = false -> o_n1 o = 1) -> (rank3 = true -> o_n1 o mod 2 = 0) -> o_n2 o mod 2 = 0 ->
  0 < o_n3 o ->
  init m data (o_n1 o * o_n2 o * pitch (o_n3 o) (o_inplace o)) ->
  rarray3 m data (o_n1 o) (o_n2 o) (o_n3 o) (pitch (o_n3 o) (o_inplace o)) f ->
  WP (shift_of rank3 o data) m (fun m' =>
    rarray3 m' data (o_n1 o) (o_n2 o) (o_n3 o) (pitch (o_n3 o) (o_inplace o))
      (fun i j k => if flip rank3 i j then (- f i j k)%R else f i j k) /\
    init m' data (o_n1 o * o_n2 o * pitch (o_n3 o) (o_inplace o)) /\
    untouched_outside m m' data (o_n1 o * o_n2 o * pitch (o_n3 o) (o_inplace o))).
Proof.
  intros Hr2 Hr3 He Hn3 Hi Hf. set (w := pitch (o_n3 o) (o_inplace o)) in *.
  set (n1 := o_n1 o) in *. set (n2 := o_n2 o) in *. set (n3 := o_n3 o) in *.
  assert (Hw : n3 <= w) by apply pitch_ge.
  assert (Hmd : forall c : cell R, (exists v, c = Val v) -> exists v, cmap Ropp c = Val v).
  { intros c [v ->]. eexists. reflexivity. }
  destruct rank3.
  - assert (G : WP (shift_of true o data) m (shifted3 data n1 n2 w m)).
    { unfold shift_of, w, pitch. fold n3. destruct (o_inplace o) eqn:Ei.
      - apply Shift3C_ok; [auto|assumption|]. unfold init, w, pitch in Hi. fold n1 n2 n3 in Hi. try rewrite Ei in Hi. exact Hi.
      - apply Shift3D_ok; [auto|assumption|assumption|]. unfold init, w, pitch in Hi. fold n1 n2 n3 in Hi. try rewrite Ei in Hi. exact Hi. }
    eapply WP_mono; [|exact G]. intros m' [A B]. split; [|split].
    + intros i j k Hi' Hj Hk. rewrite A by lia. unfold flip. rewrite (Hf i j k) by assumption.
      destruct (Nat.odd (i + j)); reflexivity.
    + intros d Hd. assert (Hn : n1 <> 0 /\ n2 <> 0 /\ w <> 0) by (repeat split; intros E; rewrite E in *; lia).
      pose proof (Nat.div_mod d w ltac:(lia)). pose proof (Nat.mod_upper_bound d w ltac:(lia)).
      pose proof (Nat.div_mod (d / w) n2 ltac:(lia)). pose proof (Nat.mod_upper_bound (d / w) n2 ltac:(lia)).
      assert (d / w / n2 < n1).
      { apply Nat.div_lt_upper_bound; [lia|]. apply Nat.div_lt_upper_bound; [lia|]. lia. }
      specialize (A (d / w / n2) ((d / w) mod n2) (d mod w) ltac:(assumption) ltac:(assumption) ltac:(assumption)).
      replace (data + (d / w / n2 * n2 + (d / w) mod n2) * w + d mod w) with (data + d) in A by lia.
      unfold defined. rewrite A. destruct (Nat.odd _); [apply Hmd|]; apply Hi; assumption.
    + exact B.
  - assert (E1 : n1 = 1) by auto.
    assert (G : WP (shift_of false o data) m (shifted2 data n2 w m)).
    { unfold shift_of, w, pitch. fold n3. destruct (o_inplace o) eqn:Ei.
      - apply Shift2C_ok; [assumption|]. unfold init, w, pitch in Hi. fold n1 n2 n3 in Hi. try rewrite Ei in Hi. rewrite E1 in Hi.
        intros d Hd. apply Hi. fold n2 in Hd. lia.
      - apply Shift2D_ok; [assumption|]. unfold init, w, pitch in Hi. fold n1 n2 n3 in Hi. try rewrite Ei in Hi. rewrite E1 in Hi.
        intros d Hd. apply Hi. fold n2 n3 in Hd. lia. }
    eapply WP_mono; [|exact G]. intros m' [A B]. split; [|split].
    + intros i j k Hi' Hj Hk. unfold flip. rewrite E1 in Hi'. assert (i = 0) by lia. subst i.
      specialize (Hf 0 j k ltac:(lia) Hj Hk). rewrite Nat.mul_0_l, Nat.add_0_l in *. rewrite A by lia. rewrite Hf.
      destruct (Nat.odd j); reflexivity.
    + intros d Hd. rewrite E1, Nat.mul_1_l in Hd. assert (Hn : w <> 0) by (intros E; rewrite E in *; lia).
      pose proof (Nat.div_mod d w ltac:(lia)). pose proof (Nat.mod_upper_bound d w ltac:(lia)).
      assert (d / w < n2) by (apply Nat.div_lt_upper_bound; lia).
      specialize (A (d / w) (d mod w) ltac:(assumption) ltac:(assumption)).
      replace (data + d / w * w + d mod w) with (data + d) in A by lia.
      unfold defined. rewrite A. destruct (Nat.odd _); [apply Hmd|]; apply Hi; rewrite E1; lia.
    + intros a Ha. apply B. unfold seg. rewrite E1 in Ha. lia.
Qed.

Lemma real_words n1 n2 n3 : n1 * n2 * pitch n3 true = 2 * (n1 * n2 * (n3 / 2 + 1)).
Proof. unfold pitch. lia. Qed.

(** places for a real array at a and a half-complex array at b *)
Definition rplaces (ip : bool) (n1 n2 n3 a b : nat) : Prop :=
  if ip then a = b else disjoint a (n1 * n2 * n3) b (2 * (n1 * n2 * (n3 / 2 + 1))).
Lemma rplaces_eqb ip n1 n2 n3 a b : 0 < n1 * n2 * n3 -> rplaces ip n1 n2 n3 a b -> ip = (a =? b).
Proof.
  intros H Hp. unfold rplaces, disjoint in Hp. destruct ip; [subst; rewrite Nat.eqb_refl; reflexivity|].
  symmetry. apply Nat.eqb_neq. assert (0 < n1 * n2 * (n3 / 2 + 1)).
  { destruct (n1 * n2); [lia|]. lia. } lia.
Qed.
Lemma rplaces_io ip n1 n2 n3 a b : rplaces ip n1 n2 n3 a b ->
  a = b \/ disjoint a (n1 * n2 * pitch n3 ip) b (2 * (n1 * n2 * (n3 / 2 + 1))).
Proof. unfold rplaces, pitch. destruct ip; auto. Qed.

Lemma real_space ip m n1 n2 n3 a b f : rplaces ip n1 n2 n3 a b ->
  rarray3 m a n1 n2 n3 (pitch n3 ip) f -> space m b (2 * (n1 * n2 * (n3 / 2 + 1))) ->
  space m a (n1 * n2 * pitch n3 ip).
Proof.
  intros Hp Hf Hs. destruct ip; unfold rplaces in Hp.
  - subst. rewrite real_words. exact Hs.
  - apply init_space. eapply rarray3_init; exact Hf.
Qed.

(** scaling a real array *)
Lemma scaled_real norm p n1 n2 n3 w m m' f : n3 <= w -> scaled norm p (n1 * n2 * w) m m' ->
  rarray3 m p n1 n2 n3 w f -> rarray3 m' p n1 n2 n3 w (fun i j k => f i j k * norm)%R.
Proof.
  intros Hw [H _] Hf i j k Hi Hj Hk. rewrite <- Nat.add_assoc. rewrite H by (apply row_lt; lia).
  rewrite Nat.add_assoc, Hf by assumption. reflexivity.
Qed.

Lemma normalize_real ip asC p n1 n2 n3 n m f : (ip = false -> asC = false) ->
  init m p (n1 * n2 * pitch n3 ip) -> rarray3 m p n1 n2 n3 (pitch n3 ip) f ->
  Runs (if asC then NormalizeC (n1 * n2 * pitch n3 ip) n p else NormalizeD (n1 * n2 * pitch n3 ip) n p) m
    (fun m' => rarray3 m' p n1 n2 n3 (pitch n3 ip) (fun i j k => f i j k * n)%R /\
               untouched_outside m m' p (n1 * n2 * pitch n3 ip)).
Proof.
  intros Has Hi Hf. apply Runs_WP. destruct asC.
  - assert (ip = true) as -> by (destruct ip; [reflexivity|discriminate (Has eq_refl)]).
    assert (E : 2 * (n1 * n2 * pitch n3 true / 2) = n1 * n2 * pitch n3 true).
    { rewrite real_words. rewrite (Nat.mul_comm 2 (n1 * n2 * _)), Nat.div_mul; lia. }
    eapply WP_mono; [|apply NormalizeC_ok; rewrite E; exact Hi].
    rewrite E. intros m' H. split; [|exact (proj2 H)]. eapply scaled_real; [apply pitch_ge|exact H|exact Hf].
  - eapply WP_mono; [|apply NormalizeD_ok; exact Hi].
    intros m' H. split; [|exact (proj2 H)]. eapply scaled_real; [apply pitch_ge|exact H|exact Hf].
Qed.

Lemma real_norm N (x : R) : 0 < N -> (INR N * x * (1 / INR N) = x)%R.
Proof. intros H. field. apply not_0_INR. lia. Qed.

Section Round.
Variables (n1 n2 n3 : nat) (ip asC : bool) (a b : nat) (fwd bwd : fobj) (d1 : nat).
Notation N := (n1 * n2 * n3).
Hypothesis HN : 0 < N.
Hypothesis Has : ip = false -> asC = false.
Hypothesis Hfwd : fwd = mkobj r2c n1 n2 n3 (-1) d1 N ip.
Hypothesis Hbwd : bwd = mkobj c2r n1 n2 n3 1 (n1 * n2 * pitch n3 ip) N ip.
Hypothesis Hp : rplaces ip n1 n2 n3 a b.

Lemma re_inverse f i j k : i < n1 -> j < n2 -> k < n3 ->
  (re (dft3 n1 n2 n3 1 (dft3 n1 n2 n3 (-1) (fun i j k => RtoC (f i j k))) i j k) = INR N * f i j k)%R.
Proof.
  intros. change 1%Z with (- (-1))%Z. rewrite dft3_inverse by (auto; lia). simpl. ring.
Qed.

(** after the forward transform, the backward transform and normalization restore the data *)
Lemma back_r m f F :
  (forall i j k, i < n1 -> j < n2 -> k < n3 -> F i j k = dft3 n1 n2 n3 (-1) (fun i j k => RtoC (f i j k)) i j k) ->
  carray3 m b n1 n2 (n3 / 2 + 1) F ->
  space m a (n1 * n2 * pitch n3 ip) ->
  Runs (fftNormalized asC bwd b a) m (fun m' =>
    rarray3 m' a n1 n2 n3 (pitch n3 ip) f /\
    (forall x, ~ (a <= x < a + n1 * n2 * pitch n3 ip) ->
       ~ (b <= x < b + 2 * (n1 * n2 * (n3 / 2 + 1))) -> m' x = m x)).
Proof.
  intros HF Hc Hs. pose proof (rplaces_eqb _ _ _ _ _ _ HN Hp) as Hip.
  assert (Hc' : carray3 m b n1 n2 (n3 / 2 + 1) (dft3 n1 n2 n3 (-1) (fun i j k => RtoC (f i j k)))).
  { intros i j k Hi Hj Hk. destruct (Nat.lt_ge_cases k n3) as [L|L].
    - rewrite <- HF by assumption. apply Hc; assumption.
    - exfalso. pose proof (Nat.div_mod n3 2 ltac:(lia)). pose proof (Nat.mod_upper_bound n3 2 ltac:(lia)).
      assert (n3 <> 0) by (intros ->; lia). 
      assert (k = n3 / 2) by lia. assert (n3 = 1 \/ 2 <= n3) by lia.
      assert (n3 / 2 < n3) by (apply Nat.div_lt; lia). lia. }
  unfold fftNormalized. rewrite Setout_ok by (rewrite Hbwd; exact Hip).
  apply Runs_seq. eapply Runs_mono; [|eapply (exec_c2r bwd b a m)]; rewrite Hbwd;
    cbn [o_kind o_n1 o_n2 o_n3 o_inplace o_doubles o_norm mkobj].
  2:{ reflexivity. } 2:{ apply dft3_real_herm. } 2:{ exact Hc'. } 2:{ exact Hs. }
  2:{ destruct (rplaces_io _ _ _ _ _ _ Hp) as [->|H]; [left; reflexivity|right]. unfold disjoint in *. tauto. }
  intros m1 (A & B & D). eapply Runs_mono; [|apply normalize_real; [exact Has|exact B|exact A]].
  intros m2 [E G]. split.
  - intros i j k Hi Hj Hk. rewrite E by assumption. rewrite re_inverse by assumption.
    unfold fftw_norm. destruct (Nat.eqb_spec N 0) as [Z|_]; [lia|]. rewrite real_norm by assumption. reflexivity.
  - intros x Hx Hy. rewrite G by exact Hx. apply D; assumption.
Qed.

Lemma roundtrip_r m f :
  rarray3 m a n1 n2 n3 (pitch n3 ip) f -> space m b (2 * (n1 * n2 * (n3 / 2 + 1))) ->
  Runs (Seq (fft fwd a b) (fftNormalized asC bwd b a)) m (fun m' =>
    rarray3 m' a n1 n2 n3 (pitch n3 ip) f /\
    (forall x, ~ (a <= x < a + n1 * n2 * pitch n3 ip) ->
       ~ (b <= x < b + 2 * (n1 * n2 * (n3 / 2 + 1))) -> m' x = m x)).
Proof.
  intros Hf Hs. pose proof (rplaces_eqb _ _ _ _ _ _ HN Hp) as Hip.
  apply Runs_seq. unfold fft. rewrite Setout_ok by (rewrite Hfwd; simpl; rewrite Nat.eqb_sym; exact Hip).
  eapply Runs_mono; [|eapply (exec_r2c fwd a b m f)]; rewrite Hfwd;
    cbn [o_kind o_n1 o_n2 o_n3 o_inplace mkobj].
  2:{ reflexivity. } 2:{ exact Hf. } 2:{ exact Hs. } 2:{ apply rplaces_io. exact Hp. }
  intros m1 [A B]. eapply Runs_mono; [|eapply back_r; [|exact A|]].
  - intros m2 [G H]. split; [exact G|]. intros x Hx Hy. rewrite H by assumption. apply B. exact Hy.
  - intros; reflexivity.
  - pose proof (real_space _ _ _ _ _ _ _ _ Hp Hf Hs) as Ha. destruct (ip) eqn:Ei.
    + simpl in Hp. subst b. rewrite real_words. apply init_space. eapply carray3_init. exact A.
    + intros d Hd. unfold allocated. rewrite B; [apply Ha; exact Hd|]. unfold rplaces, pitch, disjoint in Hp, Hd. lia.
Qed.
End Round.

(** *** shifted transforms *)
Definition sfac (rank3 : bool) (i j : nat) : C := if flip rank3 i j then Copp C1 else C1.
(** the index whose mode is stored at (a,b) by the shifted transforms *)
Definition sh1 (rank3 : bool) (n1 a : nat) : nat := if rank3 then (a + n1 / 2) mod n1 else a.

Lemma dft3_sfac rank3 n1 n2 n3 sg f a b c : sg = 1%Z \/ sg = (-1)%Z ->
  (rank3 = true -> 0 < n1 /\ n1 mod 2 = 0) -> 0 < n2 -> n2 mod 2 = 0 ->
  dft3 n1 n2 n3 sg (fun i j k => Cmul (sfac rank3 i j) (f i j k)) a b c =
  dft3 n1 n2 n3 sg f (sh1 rank3 n1 a) ((b + n2 / 2) mod n2) c.
Proof.
  intros Hsg H1 H2 H3. destruct rank3; unfold sfac, flip, sh1.
  - destruct (H1 eq_refl). apply dft3_shift3; assumption.
  - apply dft3_shift2; assumption.
Qed.
Lemma dft3_of_sh rank3 n1 n2 n3 sg F a b c : sg = 1%Z \/ sg = (-1)%Z ->
  (rank3 = true -> 0 < n1 /\ n1 mod 2 = 0) -> 0 < n2 -> n2 mod 2 = 0 ->
  dft3 n1 n2 n3 sg (fun i j k => F (sh1 rank3 n1 i) ((j + n2 / 2) mod n2) k) a b c =
  Cmul (sfac rank3 a b) (dft3 n1 n2 n3 sg F a b c).
Proof.
  intros Hsg H1 H2 H3. destruct rank3; unfold sfac, flip, sh1.
  - destruct (H1 eq_refl). apply dft3_of_shift3; assumption.
  - apply (dft3_of_shift2 n1 n2 n3 sg F); assumption.
Qed.
Lemma herm_sh rank3 n1 n2 n3 F : 
  (rank3 = true -> 0 < n1 /\ n1 mod 2 = 0) -> 0 < n2 -> n2 mod 2 = 0 ->
  hermitian3 n1 n2 n3 F -> hermitian3 n1 n2 n3 (fun i j k => F (sh1 rank3 n1 i) ((j + n2 / 2) mod n2) k).
Proof.
  intros H1 H2 H3 HF a b c Ha Hb Hc. rewrite neg_shift by assumption.
  assert (Hb' : (b + n2 / 2) mod n2 < n2) by (apply Nat.mod_upper_bound; lia).
  destruct rank3; unfold sh1.
  - destruct (H1 eq_refl). rewrite neg_shift by assumption. apply HF; try assumption. apply Nat.mod_upper_bound; lia.
  - apply HF; assumption.
Qed.

(** r2c: the mode (k1,k2,k3) is stored at the shifted place *)
Lemma fft0_r2c rank3 n1 n2 n3 d N ip a b m f :
  (rank3 = false -> n1 = 1) -> (rank3 = true -> n1 mod 2 = 0) -> n2 mod 2 = 0 -> 0 < n1 * n2 * n3 ->
  rplaces ip n1 n2 n3 a b -> init m a (n1 * n2 * pitch n3 ip) ->
  rarray3 m a n1 n2 n3 (pitch n3 ip) f -> space m b (2 * (n1 * n2 * (n3 / 2 + 1))) ->
  Runs (fft0 rank3 (mkobj r2c n1 n2 n3 (-1) d N ip) a b) m (fun m' =>
    carray3 m' b n1 n2 (n3 / 2 + 1) (fun i j k =>
      dft3 n1 n2 n3 (-1) (fun i j k => RtoC (f i j k)) (sh1 rank3 n1 i) ((j + n2 / 2) mod n2) k) /\
    (forall x, ~ (a <= x < a + n1 * n2 * pitch n3 ip) ->
       ~ (b <= x < b + 2 * (n1 * n2 * (n3 / 2 + 1))) -> m' x = m x) /\
    (ip = false -> init m' a (n1 * n2 * pitch n3 ip))).
Proof.
  intros Hr2 Hr3 He HN Hp Hi Hf Hs. pose proof (rplaces_eqb _ _ _ _ _ _ HN Hp) as Hip.
  assert (Hn : 0 < n1 /\ 0 < n2 /\ 0 < n3) by (repeat split; apply Nat.neq_0_lt_0; intros ->; lia).
  unfold fft0. rewrite Setout_ok by (simpl; rewrite Nat.eqb_sym; exact Hip). cbn [o_kind mkobj].
  apply Runs_seq. apply Runs_WP.
  eapply WP_mono; [|apply (shift_ok rank3 (mkobj r2c n1 n2 n3 (-1) d N ip) a m f); cbn [o_n1 o_n2 o_n3 o_inplace mkobj];
    try assumption; lia].
  cbn [o_n1 o_n2 o_n3 o_inplace mkobj]. intros m1 (A & B & D).
  eapply Runs_mono; [|eapply (exec_r2c (mkobj r2c n1 n2 n3 (-1) d N ip) a b m1)];
    cbn [o_kind o_n1 o_n2 o_n3 o_inplace mkobj].
  2:{ reflexivity. } 2:{ exact A. }
  2:{ destruct ip; unfold rplaces in Hp.
      - subst b. rewrite <- real_words. apply init_space. exact B.
      - intros x Hx. unfold allocated. rewrite D; [apply Hs; exact Hx|]. unfold disjoint in Hp. unfold pitch. lia. }
  2:{ apply rplaces_io. exact Hp. }
  intros m2 [E G]. split; [|split].
  - intros i j k Hi' Hj Hk. rewrite <- dft3_sfac by (solve [auto | lia | intros; split; [lia|auto]]).
    specialize (E i j k Hi' Hj Hk). erewrite dft3_ext in E; [exact E|].
    intros i' j' k' _ _ _. cbn beta. unfold sfac. destruct (flip rank3 i' j'); Cext; ring.
  - intros x Hx Hy. rewrite G by exact Hy. apply D. exact Hx.
  - intros ->. unfold rplaces in Hp. intros d' Hd. unfold defined. rewrite G; [apply B; exact Hd|].
    unfold disjoint in Hp. unfold pitch in Hd. lia.
Qed.

(** c2r: input spectrum stored at the shifted places *)
Lemma fft0_c2r rank3 n1 n2 n3 d N ip a b m F :
  (rank3 = false -> n1 = 1) -> (rank3 = true -> n1 mod 2 = 0) -> n2 mod 2 = 0 -> 0 < n1 * n2 * n3 ->
  rplaces ip n1 n2 n3 a b -> hermitian3 n1 n2 n3 F ->
  carray3 m b n1 n2 (n3 / 2 + 1) (fun i j k => F (sh1 rank3 n1 i) ((j + n2 / 2) mod n2) k) ->
  space m a (n1 * n2 * pitch n3 ip) ->
  Runs (fft0 rank3 (mkobj c2r n1 n2 n3 1 d N ip) b a) m (fun m' =>
    rarray3 m' a n1 n2 n3 (pitch n3 ip) (fun i j k => re (dft3 n1 n2 n3 1 F i j k)) /\
    init m' a (n1 * n2 * pitch n3 ip) /\
    (forall x, ~ (a <= x < a + n1 * n2 * pitch n3 ip) ->
       ~ (b <= x < b + 2 * (n1 * n2 * (n3 / 2 + 1))) -> m' x = m x)).
Proof.
  intros Hr2 Hr3 He HN Hp HF Hc Hs. pose proof (rplaces_eqb _ _ _ _ _ _ HN Hp) as Hip.
  assert (Hn : 0 < n1 /\ 0 < n2 /\ 0 < n3) by (repeat split; apply Nat.neq_0_lt_0; intros ->; lia).
  unfold fft0. rewrite Setout_ok by exact Hip. cbn [o_kind mkobj].
  apply Runs_seq. eapply Runs_mono; [|eapply (exec_c2r (mkobj c2r n1 n2 n3 1 d N ip) b a m)];
    cbn [o_kind o_n1 o_n2 o_n3 o_inplace mkobj].
  2:{ reflexivity. } 2:{ apply (herm_sh rank3); [intros; split; auto; lia|lia|assumption|exact HF]. } 2:{ exact Hc. } 2:{ exact Hs. }
  2:{ destruct (rplaces_io _ _ _ _ _ _ Hp) as [->|H]; [left; reflexivity|right]. unfold disjoint in *. tauto. }
  intros m1 (A & B & D). apply Runs_WP.
  eapply WP_mono; [|apply (shift_ok rank3 (mkobj c2r n1 n2 n3 1 d N ip) a m1
      (fun i j k => re (dft3 n1 n2 n3 1 (fun i j k => F (sh1 rank3 n1 i) ((j + n2 / 2) mod n2) k) i j k)));
    cbn [o_n1 o_n2 o_n3 o_inplace mkobj]; try assumption; lia].
  cbn [o_n1 o_n2 o_n3 o_inplace mkobj]. intros m2 (E & G & H). split; [|split].
  - intros i j k Hi' Hj Hk. rewrite E by assumption. f_equal.
    rewrite dft3_of_sh by (solve [auto | lia | intros; split; [lia|auto]]).
    unfold sfac. destruct (flip rank3 i j); simpl; ring.
  - exact G.
  - intros x Hx Hy. rewrite H by exact Hx. apply D; assumption.
Qed.

(** fft0 then fft0Normalized restores the data *)
Lemma roundtrip0 rank3 n1 n2 n3 d1 ip asC a b m f :
  (rank3 = false -> n1 = 1) -> (rank3 = true -> n1 mod 2 = 0) -> n2 mod 2 = 0 -> 0 < n1 * n2 * n3 ->
  (ip = false -> asC = false) ->
  rplaces ip n1 n2 n3 a b -> init m a (n1 * n2 * pitch n3 ip) ->
  rarray3 m a n1 n2 n3 (pitch n3 ip) f -> space m b (2 * (n1 * n2 * (n3 / 2 + 1))) ->
  Runs (Seq (fft0 rank3 (mkobj r2c n1 n2 n3 (-1) d1 (n1 * n2 * n3) ip) a b)
            (fft0Normalized rank3 asC (mkobj c2r n1 n2 n3 1 (n1 * n2 * pitch n3 ip) (n1 * n2 * n3) ip) b a)) m
    (fun m' => rarray3 m' a n1 n2 n3 (pitch n3 ip) f).
Proof.
  intros Hr2 Hr3 He HN Has Hp Hi Hf Hs.
  apply Runs_seq. eapply Runs_mono; [|apply fft0_r2c; eassumption].
  intros m1 (A & B & D). unfold fft0Normalized. cbn [o_doubles o_norm mkobj].
  apply Runs_seq.
  eapply Runs_mono; [|apply (fft0_c2r rank3 n1 n2 n3 (n1 * n2 * pitch n3 ip) (n1 * n2 * n3) ip a b m1
     (dft3 n1 n2 n3 (-1) (fun i j k => RtoC (f i j k)))); try assumption].
  - intros m2 (E & G & H). eapply Runs_mono; [|apply normalize_real; [exact Has|exact G|exact E]].
    intros m3 [J _] i j k Hi' Hj Hk. rewrite J by assumption.
    rewrite (re_inverse n1 n2 n3 f) by assumption.
    unfold fftw_norm. destruct (Nat.eqb_spec (n1 * n2 * n3) 0) as [Z|_]; [lia|]. rewrite real_norm by assumption. reflexivity.
  - apply dft3_real_herm.
  - destruct ip; unfold rplaces in Hp.
    + subst b. rewrite real_words. apply init_space. eapply carray3_init. exact A.
    + apply init_space. apply D. reflexivity.
Qed.
