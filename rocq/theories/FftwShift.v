(** Effect of Shift, Normalize and deNyquist on memory. *)
From Coq Require Import Reals ZArith Arith List Bool Lia.
From Verif Require Import CNum Mem FftwModel FftwLoops.

Definition seg (lo len : nat) (a : addr) : Prop := lo <= a < lo + len.

Lemma one_seg a b : one a b <-> seg a 1 b. Proof. unfold one, seg. lia. Qed.
Lemma two_seg a b : two a b <-> seg a 2 b. Proof. unfold two, seg. lia. Qed.

Lemma seg_split base sz n a : seg base (sz * n) a <-> exists j, j < n /\ seg (base + sz * j) sz a.
Proof.
  unfold seg. split.
  - intros H. destruct (Nat.eq_dec sz 0) as [->|Hs]; [lia|].
    exists ((a - base) / sz).
    pose proof (Nat.div_mod (a - base) sz Hs). pose proof (Nat.mod_upper_bound (a - base) sz Hs).
    split; [|lia].
    apply Nat.div_lt_upper_bound; lia.
  - intros (j & Hj & H). assert (sz * (j + 1) <= sz * n) by (apply Nat.mul_le_mono_l; lia). lia.
Qed.
Lemma seg_inj base sz i j a : seg (base + sz * i) sz a -> seg (base + sz * j) sz a -> i = j.
Proof.
  unfold seg. intros H1 H2.
  destruct (Nat.lt_trichotomy i j) as [H|[H|H]]; [|assumption|].
  - assert (sz * (i + 1) <= sz * j) by (apply Nat.mul_le_mono_l; lia). lia.
  - assert (sz * (j + 1) <= sz * i) by (apply Nat.mul_le_mono_l; lia). lia.
Qed.

(** a contiguous run of n elements of sz doubles *)
Lemma upd_run n sz base elem body g m :
  (forall j, j < n -> upds (seg (base + sz * j) sz) g (elem (base + sz * j)) m) ->
  (forall j, body j = elem (base + sz * j)) ->
  upds (seg base (sz * n)) g (pfor n body) m.
Proof.
  intros H E.
  apply upd_pfor with (W := fun j => seg (base + sz * j) sz).
  - intros i j a _ _. apply seg_inj.
  - intros a. apply seg_split.
  - intros i Hi. rewrite E. auto.
Qed.

Lemma run_negC n p m : (forall d, d < 2 * n -> defined m (p + d)) ->
  upds (seg p (2 * n)) (fun b => cmap Ropp (m b)) (pfor n (fun j => negC (p + 2 * j))) m.
Proof.
  intros H. apply upd_run with (elem := negC); [|reflexivity].
  intros j Hj. eapply upds_ext; [apply two_seg|]. apply upds_negC.
  - apply H. lia.
  - replace (p + 2 * j + 1) with (p + (2 * j + 1)) by lia. apply H. lia.
Qed.
Lemma run_negD n p m : (forall d, d < n -> defined m (p + d)) ->
  upds (seg p n) (fun b => cmap Ropp (m b)) (pfor n (fun j => negD (p + j))) m.
Proof.
  intros H. replace n with (1 * n) at 1 by lia.
  apply upd_run with (elem := negD).
  - intros j Hj. eapply upds_ext; [apply one_seg|]. apply upds_negD. apply H. lia.
  - intros j. f_equal. lia.
Qed.

Lemma Shift2_gen data nx w body m :
  0 < w -> nx mod 2 = 0 ->
  (forall d, d < nx * w -> defined m (data + d)) ->
  (forall i, body i = body i) ->
  forall n lo inc,
  (forall k, k < n <-> 2 * k + 1 < nx) ->
  (forall k, k < n -> upds (seg (data + (2 * k + 1) * w) w) (fun b => cmap Ropp (m b)) (body (lo + inc * k)) m) ->
  WP (Par n (fun k => body (lo + inc * k))) m (fun m' =>
    (forall i d, i < nx -> d < w ->
       m' (data + i * w + d) = if Nat.odd i then cmap Ropp (m (data + i * w + d)) else m (data + i * w + d)) /\
    (forall a, ~ seg data (nx * w) a -> m' a = m a)).
Proof.
  intros Hw Hev Hdef _ n lo inc Hn Hu.
  assert (Hdis : forall i j a, seg (data + (2 * i + 1) * w) w a -> seg (data + (2 * j + 1) * w) w a -> i = j).
  { intros i j a H1 H2. enough (2 * i + 1 = 2 * j + 1) by lia.
    eapply (seg_inj data w); rewrite (Nat.mul_comm w); eassumption. }
  eapply WP_mono; [|apply (upd_par n _ (fun k => seg (data + (2 * k + 1) * w) w) (fun b => cmap Ropp (m b)))].
  - intros m' [H1 H2]. split.
    + intros i d Hi Hd. destruct (Nat.odd i) eqn:Eo.
      * apply Nat.odd_spec in Eo as [k ->]. apply (H1 k); [apply Hn; lia|unfold seg; lia].
      * apply H2. intros k Hk Hs.
        assert (i = 2 * k + 1).
        { eapply (seg_inj data w); [|rewrite (Nat.mul_comm w); exact Hs]. unfold seg. lia. }
        subst i. rewrite Nat.odd_add, Nat.odd_mul in Eo. discriminate.
    + intros a Ha. apply H2. intros k Hk Hs. apply Ha. apply Hn in Hk. unfold seg in *.
      assert ((2 * k + 1) * w + w <= nx * w) by (replace ((2 * k + 1) * w + w) with ((2 * k + 2) * w) by lia;
        apply Nat.mul_le_mono_r; lia). lia.
  - intros i j a _ _. apply Hdis.
  - exact Hu.
Qed.

Definition shifted2 (data nx w : nat) (m m' : dmem) : Prop :=
    (forall i d, i < nx -> d < w ->
       m' (data + i * w + d) = if Nat.odd i then cmap Ropp (m (data + i * w + d)) else m (data + i * w + d)) /\
    (forall a, ~ seg data (nx * w) a -> m' a = m a).

Lemma even_mod2 n : Nat.even n = true <-> n mod 2 = 0.
Proof.
  rewrite Nat.even_spec. split.
  - intros [k ->]. rewrite Nat.mul_comm. apply Nat.mod_mul. lia.
  - intros H. exists (n / 2). pose proof (Nat.div_mod n 2). lia.
Qed.

Lemma step_row k nx w : 0 < w -> nx mod 2 = 0 -> (w + 2 * w * k < nx * w <-> 2 * k + 1 < nx).
Proof.
  intros Hw _. replace (w + 2 * w * k) with ((2 * k + 1) * w) by lia.
  symmetry. apply Nat.mul_lt_mono_pos_r. lia.
Qed.

Lemma Shift2C_ok data nx ny m : nx mod 2 = 0 ->
  (forall d, d < nx * (2 * (ny / 2 + 1)) -> defined m (data + d)) ->
  WP (Shift2C data nx ny) m (shifted2 data nx (2 * (ny / 2 + 1)) m).
Proof.
  intros He Hd. unfold Shift2C. rewrite He. cbn [Nat.eqb].
  set (nyp := ny / 2 + 1) in *. assert (0 < nyp) by (unfold nyp; lia).
  unfold ParStep.
  apply (Shift2_gen data nx (2 * nyp) (fun i => pfor nyp (fun j => negC (data + 2 * i + 2 * j))));
    [lia|assumption|assumption|reflexivity| |].
  - intros k. rewrite nsteps_lt by lia. apply step_row; lia.
  - intros k Hk. apply nsteps_lt in Hk; [|lia]. apply step_row in Hk; [|lia|assumption].
    replace (data + 2 * (nyp + 2 * nyp * k)) with (data + (2 * k + 1) * (2 * nyp)) by lia.
    apply run_negC. intros d Hdd. rewrite <- Nat.add_assoc. apply Hd.
    assert ((2 * k + 2) * (2 * nyp) <= nx * (2 * nyp)) by (apply Nat.mul_le_mono_r; lia). lia.
Qed.

Lemma Shift2D_ok data nx ny m : nx mod 2 = 0 -> 
  (forall d, d < nx * ny -> defined m (data + d)) ->
  WP (Shift2D data nx ny) m (shifted2 data nx ny m).
Proof.
  intros He Hd. unfold Shift2D. rewrite He. cbn [Nat.eqb].
  destruct (Nat.eq_dec ny 0) as [->|Hny].
  { unfold ParStep, nsteps. rewrite Nat.mul_0_r. cbn [Nat.sub Nat.add Nat.mul Nat.div].
    eapply WP_mono; [|apply (upd_par 0 _ (fun _ _ => False) (fun _ => Undef))].
    - intros m' [_ H2]. split; [intros; lia|]. intros a _. apply H2. intros; lia.
    - intros; contradiction.
    - intros; lia. }
  unfold ParStep.
  apply (Shift2_gen data nx ny (fun i => pfor ny (fun j => negD (data + i + j))));
    [lia|assumption|assumption|reflexivity| |].
  - intros k. rewrite nsteps_lt by lia. apply step_row; lia.
  - intros k Hk. apply nsteps_lt in Hk; [|lia]. apply step_row in Hk; [|lia|assumption].
    replace (ny + 2 * ny * k) with ((2 * k + 1) * ny) by lia.
    apply run_negD. intros d Hdd. rewrite <- Nat.add_assoc. apply Hd.
    assert ((2 * k + 2) * ny <= nx * ny) by (apply Nat.mul_le_mono_r; lia). lia.
Qed.

(** rank 3: rows (i,j) of w doubles *)
Definition shifted3 (data nx ny w : nat) (m m' : dmem) : Prop :=
    (forall i j d, i < nx -> j < ny -> d < w ->
       m' (data + (i * ny + j) * w + d) =
       if Nat.odd (i + j) then cmap Ropp (m (data + (i * ny + j) * w + d)) else m (data + (i * ny + j) * w + d)) /\
    (forall a, ~ seg data (nx * ny * w) a -> m' a = m a).

Lemma row_lt i j nx ny w d : i < nx -> j < ny -> d < w -> (i * ny + j) * w + d < nx * ny * w.
Proof.
  intros. assert (i * ny + j + 1 <= nx * ny).
  { assert ((i + 1) * ny <= nx * ny) by (apply Nat.mul_le_mono_r; lia). lia. }
  assert ((i * ny + j + 1) * w <= nx * ny * w) by (apply Nat.mul_le_mono_r; lia). lia.
Qed.

Lemma pair_inj ny i j i' j' : j < ny -> j' < ny -> i * ny + j = i' * ny + j' -> i = i' /\ j = j'.
Proof.
  intros H H' E.
  assert (i = i').
  { replace i with ((i * ny + j) / ny) by (rewrite (Nat.add_comm (i * ny)), Nat.div_add, Nat.div_small by lia; lia).
    rewrite E. rewrite (Nat.add_comm (i' * ny)), Nat.div_add, Nat.div_small by lia. lia. }
  subst. lia.
Qed.

Lemma par_odd i k : Nat.odd (i + (2 * k + (1 - i mod 2))) = true.
Proof.
  apply Nat.odd_spec. pose proof (Nat.div_mod i 2 ltac:(lia)). pose proof (Nat.mod_upper_bound i 2 ltac:(lia)).
  exists (i / 2 + k). lia.
Qed.
Lemma odd_par i j : Nat.odd (i + j) = true -> exists k, j = 2 * k + (1 - i mod 2).
Proof.
  intros H. apply Nat.odd_spec in H as [r H].
  pose proof (Nat.div_mod i 2 ltac:(lia)). pose proof (Nat.mod_upper_bound i 2 ltac:(lia)).
  exists (r - i / 2). lia.
Qed.

(** elem sz: an element of sz doubles; rows of n3 elements, w = sz*n3 *)
Lemma Shift3_gen (sz n3 data nx ny : nat) (row : nat -> dprog) m :
  0 < sz -> 0 < n3 -> nx mod 2 = 0 -> ny mod 2 = 0 ->
  (forall d, d < nx * ny * (sz * n3) -> defined m (data + d)) ->
  (forall p, (forall d, d < sz * n3 -> defined m (p + d)) ->
     upds (seg p (sz * n3)) (fun b => cmap Ropp (m b)) (row p) m) ->
  WP (Par nx (fun i => pStep ((1 - i mod 2) * n3) (ny * n3) (2 * n3)
                (fun o => row (data + sz * (i * (ny * n3)) + sz * o)))) m
     (shifted3 data nx ny (sz * n3) m).
Proof.
  intros Hsz Hn Hx Hy Hd Hrow.
  set (w := sz * n3) in *. assert (0 < w) by (unfold w; apply Nat.mul_pos_pos; lia).
  set (g := fun b => cmap Ropp (m b)).
  set (W1 := fun i k => seg (data + (i * ny + (2 * k + (1 - i mod 2))) * w) w).
  set (W := fun i a => exists k, 2 * k + (1 - i mod 2) < ny /\ W1 i k a).
  assert (Hinj : forall i k i' k' a, 2 * k + (1 - i mod 2) < ny -> 2 * k' + (1 - i' mod 2) < ny ->
     W1 i k a -> W1 i' k' a -> i = i' /\ k = k').
  { intros i k i' k' a H1 H2 A B. unfold W1 in A, B. rewrite (Nat.mul_comm _ w) in A. rewrite (Nat.mul_comm _ w) in B.
    pose proof (seg_inj data w _ _ a A B) as E. apply pair_inj in E; [|assumption|assumption].
    destruct E as [-> E]. split; [reflexivity|lia]. }
  eapply WP_mono; [|apply (upd_par nx _ W g)].
  - intros m' [H1 H2]. split.
    + intros i j d Hi Hj Hdd. destruct (Nat.odd (i + j)) eqn:Eo.
      * apply odd_par in Eo as [k ->]. apply (H1 i); [assumption|]. exists k. split; [assumption|].
        unfold W1, seg. lia.
      * apply H2. intros i' Hi' (k & Hk & A). unfold W1 in A. rewrite (Nat.mul_comm _ w) in A.
        assert (B : seg (data + w * (i * ny + j)) w (data + (i * ny + j) * w + d)) by (unfold seg; lia).
        pose proof (seg_inj data w _ _ _ A B) as E. apply pair_inj in E; [|assumption|assumption].
        destruct E as [-> E]. rewrite <- E, par_odd in Eo. discriminate.
    + intros a Ha. apply H2. intros i Hi (k & Hk & A). apply Ha. unfold W1, seg in A. unfold seg.
      pose proof (row_lt i (2 * k + (1 - i mod 2)) nx ny w (w - 1) Hi Hk ltac:(lia)). lia.
  - intros i i' a Hi Hi' (k & Hk & A) (k' & Hk' & B). destruct (Hinj i k i' k' a Hk Hk' A B); auto.
  - intros i Hi. unfold pStep.
    assert (Hst : forall k, k < nsteps ((1 - i mod 2) * n3) (ny * n3) (2 * n3) <-> 2 * k + (1 - i mod 2) < ny).
    { intros k. rewrite nsteps_lt by lia.
      replace ((1 - i mod 2) * n3 + 2 * n3 * k) with ((2 * k + (1 - i mod 2)) * n3) by lia.
      symmetry. apply Nat.mul_lt_mono_pos_r. assumption. }
    apply upd_pfor with (W := W1 i).
    + intros k k' a Hk Hk' A B. apply Hst in Hk. apply Hst in Hk'. destruct (Hinj i k i k' a Hk Hk' A B); auto.
    + intros a. unfold W. split; intros (k & Hk & A); exists k; (split; [apply Hst|]); assumption.
    + intros k Hk. apply Hst in Hk. unfold W1.
      replace (data + sz * (i * (ny * n3)) + sz * ((1 - i mod 2) * n3 + 2 * n3 * k))
        with (data + (i * ny + (2 * k + (1 - i mod 2))) * w) by (unfold w; lia).
      apply Hrow. intros d Hdd. rewrite <- Nat.add_assoc. apply Hd. apply row_lt; assumption.
Qed.

Lemma Shift3C_ok data nx ny nz m : nx mod 2 = 0 -> ny mod 2 = 0 ->
  (forall d, d < nx * ny * (2 * (nz / 2 + 1)) -> defined m (data + d)) ->
  WP (Shift3C data nx ny nz) m (shifted3 data nx ny (2 * (nz / 2 + 1)) m).
Proof.
  intros Hx Hy Hd. unfold Shift3C. rewrite Hx, Hy. cbn [Nat.eqb andb].
  apply (Shift3_gen 2 (nz / 2 + 1) data nx ny (fun p => pfor (nz / 2 + 1) (fun k => negC (p + 2 * k))));
    try assumption; try lia.
  intros p Hp. apply run_negC. assumption.
Qed.

Lemma Shift3D_ok data nx ny nz m : nx mod 2 = 0 -> ny mod 2 = 0 -> 0 < nz ->
  (forall d, d < nx * ny * nz -> defined m (data + d)) ->
  WP (Shift3D data nx ny nz) m (shifted3 data nx ny nz m).
Proof.
  intros Hx Hy Hz Hd. unfold Shift3D. rewrite Hx, Hy. cbn [Nat.eqb andb].
  replace (shifted3 data nx ny nz m) with (shifted3 data nx ny (1 * nz) m) by (f_equal; lia).
  replace (Par nx _) with
    (Par nx (fun i => pStep ((1 - i mod 2) * nz) (ny * nz) (2 * nz)
                (fun o => (fun p => pfor nz (fun k => negD (p + k))) (data + 1 * (i * (ny * nz)) + 1 * o)))).
  - apply (Shift3_gen 1 nz data nx ny (fun p => pfor nz (fun k => negD (p + k)))); try assumption; try lia.
    + intros d Hdd. apply Hd. lia.
    + intros p Hp. rewrite Nat.mul_1_l. apply run_negD. intros d Hdd. apply Hp. lia.
  - f_equal. apply FunctionalExtensionality.functional_extensionality. intros i. f_equal.
    apply FunctionalExtensionality.functional_extensionality. intros o. cbn beta.
    rewrite !Nat.mul_1_l. reflexivity.
Qed.

Lemma Shift2_exit data nx ny m o : nx mod 2 <> 0 ->
  (exec (Shift2C data nx ny) m o <-> o = ExitErr) /\ (exec (Shift2D data nx ny) m o <-> o = ExitErr).
Proof.
  intros H. unfold Shift2C, Shift2D. destruct (Nat.eqb_spec (nx mod 2) 0); [contradiction|].
  split; (split; [intros E; inversion E; reflexivity|intros ->; constructor]).
Qed.
Lemma Shift3_exit data nx ny nz m o : nx mod 2 <> 0 \/ ny mod 2 <> 0 ->
  (exec (Shift3C data nx ny nz) m o <-> o = ExitErr) /\ (exec (Shift3D data nx ny nz) m o <-> o = ExitErr).
Proof.
  intros H. unfold Shift3C, Shift3D.
  assert ((nx mod 2 =? 0) && (ny mod 2 =? 0) = false) as ->.
  { apply andb_false_iff. destruct H; [left|right]; apply Nat.eqb_neq; assumption. }
  split; (split; [intros E; inversion E; reflexivity|intros ->; constructor]).
Qed.

(** *** Normalize *)
Definition scaled (norm : R) (out n : nat) (m m' : dmem) : Prop :=
  (forall d, d < n -> m' (out + d) = cmap (fun x => x * norm)%R (m (out + d))) /\
  (forall a, ~ seg out n a -> m' a = m a).

Lemma NormalizeC_ok doubles norm out m :
  (forall d, d < 2 * (doubles / 2) -> defined m (out + d)) ->
  WP (NormalizeC doubles norm out) m (scaled norm out (2 * (doubles / 2)) m).
Proof.
  intros Hd. unfold NormalizeC. set (n := doubles / 2) in *.
  eapply WP_mono; [|apply (upd_par n _ (fun i => seg (out + 2 * i) 2) (fun b => cmap (fun x => x * norm)%R (m b)))].
  - intros m' [H1 H2]. split.
    + intros d H. pose proof (Nat.div_mod d 2 ltac:(lia)). pose proof (Nat.mod_upper_bound d 2 ltac:(lia)).
      apply (H1 (d / 2)); [|unfold seg; lia]. apply Nat.div_lt_upper_bound; lia.
    + intros a Ha. apply H2. intros i Hi Hs. apply Ha. unfold seg in *. lia.
  - intros i j a _ _. apply seg_inj.
  - intros i Hi. eapply upds_ext; [apply two_seg|]. apply upds_scaleC.
    + apply Hd. lia.
    + replace (out + 2 * i + 1) with (out + (2 * i + 1)) by lia. apply Hd. lia.
Qed.
Lemma NormalizeD_ok doubles norm out m :
  (forall d, d < doubles -> defined m (out + d)) ->
  WP (NormalizeD doubles norm out) m (scaled norm out doubles m).
Proof.
  intros Hd. unfold NormalizeD.
  eapply WP_mono; [|apply (upd_par doubles _ (fun i => one (out + i)) (fun b => cmap (fun x => x * norm)%R (m b)))].
  - intros m' [H1 H2]. split.
    + intros d H. apply (H1 d); [assumption|reflexivity].
    + intros a Ha. apply H2. intros i Hi Hs. apply Ha. unfold seg, one in *. lia.
  - intros i j a _ _. unfold one. lia.
  - intros i Hi. apply upds_scaleD. apply Hd. assumption.
Qed.

(** strided: exactly the words of the M vectors of nx elements *)
Definition vword (osz nx M ostride odist out : nat) (a : addr) : Prop :=
  exists s k c, s < nx /\ k < M /\ c < osz /\ a = out + osz * (ostride * s + odist * k) + c.

Lemma NormalizeS_ok osz norm nx M ostride odist out m :
  osz = 1 \/ osz = 2 -> 0 < ostride -> 0 < odist ->
  (forall s k s' k', s < nx -> k < M -> s' < nx -> k' < M ->
     ostride * s + odist * k = ostride * s' + odist * k' -> s = s' /\ k = k') ->
  (forall a, vword osz nx M ostride odist out a -> defined m a) ->
  WP (NormalizeS osz norm nx M ostride odist out) m (fun m' =>
    (forall a, vword osz nx M ostride odist out a -> m' a = cmap (fun x => x * norm)%R (m a)) /\
    (forall a, ~ vword osz nx M ostride odist out a -> m' a = m a)).
Proof.
  intros Hosz Hs Ho Hinj Hd. unfold NormalizeS, ParStep.
  set (g := fun b => cmap (fun x => x * norm)%R (m b)).
  set (W1 := fun s k => seg (out + osz * (ostride * s + odist * k)) osz).
  assert (Hn : forall s, s < nsteps 0 (nx * ostride) ostride <-> s < nx).
  { intros s. rewrite nsteps_lt by lia. rewrite Nat.add_0_l, (Nat.mul_comm nx). symmetry. apply Nat.mul_lt_mono_pos_l. assumption. }
  assert (Hm : forall s, s < nsteps 0 (M * odist) odist <-> s < M).
  { intros s. rewrite nsteps_lt by lia. rewrite Nat.add_0_l, (Nat.mul_comm M). symmetry. apply Nat.mul_lt_mono_pos_l. assumption. }
  assert (Hvw : forall a, vword osz nx M ostride odist out a <-> exists s k, s < nx /\ k < M /\ W1 s k a).
  { intros a. split.
    - intros (s & k & c & H1 & H2 & H3 & ->). exists s, k. repeat split; try assumption; unfold seg; lia.
    - intros (s & k & H1 & H2 & H3). unfold W1, seg in H3. exists s, k, (a - (out + osz * (ostride * s + odist * k))).
      repeat split; lia. }
  assert (HW : forall s k s' k' a, s < nx -> k < M -> s' < nx -> k' < M -> W1 s k a -> W1 s' k' a -> s = s' /\ k = k').
  { intros s k s' k' a H1 H2 H3 H4 A B. apply Hinj; try assumption. eapply (seg_inj out osz); eassumption. }
  eapply WP_mono; [|apply (upd_par _ _ (fun s a => exists k, k < M /\ W1 s k a) g)].
  - intros m' [H1 H2]. split.
    + intros a Ha. apply Hvw in Ha as (s & k & A & B & D). apply (H1 s); [apply Hn; assumption|eauto].
    + intros a Ha. apply H2. intros s Hs' (k & Hk & D). apply Ha, Hvw. apply Hn in Hs'. eauto.
  - intros i j a Hi Hj (k & Hk & A) (k' & Hk' & B). apply Hn in Hi. apply Hn in Hj.
    apply (HW i k j k' a); assumption.
  - intros s Hs'. apply Hn in Hs'. unfold pStep. apply upd_pfor with (W := W1 s).
    + intros k k' a Hk Hk' A B. apply Hm in Hk. apply Hm in Hk'. apply (HW s k s k' a); assumption.
    + intros a. split; intros (k & Hk & A); exists k; (split; [apply Hm|]); assumption.
    + intros k Hk. apply Hm in Hk. rewrite !Nat.add_0_l.
      assert (Hdd : forall c, c < osz -> defined m (out + osz * (ostride * s + odist * k) + c)).
      { intros c Hc. apply Hd. exists s, k, c. auto. }
      destruct Hosz as [-> | ->]; cbn [Nat.eqb].
      * eapply upds_ext; [apply one_seg|]. apply upds_scaleD.
        specialize (Hdd 0 ltac:(lia)). rewrite Nat.add_0_r in Hdd. exact Hdd.
      * eapply upds_ext; [apply two_seg|]. apply upds_scaleC.
        -- specialize (Hdd 0 ltac:(lia)). rewrite Nat.add_0_r in Hdd. exact Hdd.
        -- exact (Hdd 1 ltac:(lia)).
Qed.
