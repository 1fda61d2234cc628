(** deNyquist: exactly which words are zeroed. *)
From Coq Require Import Reals ZArith Arith List Bool Lia Classical_Prop.
From Verif Require Import CNum Mem FftwModel FftwLoops FftwShift FftwSpec FftwRun.

Definition zeroes (Z : addr -> Prop) (c : dcmd) (m : dmem) : Prop :=
  WP c m (fun m' => (forall a, Z a -> m' a = Val 0%R) /\ (forall a, ~ Z a -> m' a = m a)).

Lemma zeroes_seq (Z1 Z2 : addr -> Prop) c1 c2 m (P : addr -> Prop) :
  (forall a, P a -> allocated m a) ->
  zeroes Z1 c1 m -> (forall m1, (forall a, P a -> allocated m1 a) -> zeroes Z2 c2 m1) ->
  zeroes (fun a => Z1 a \/ Z2 a) (Seq c1 c2) m.
Proof.
  intros HP H1 H2. apply WP_seq. eapply WP_mono; [|exact H1]. intros m1 [A B].
  eapply WP_mono; [|apply H2].
  - intros m2 [D E]. split.
    + intros a [Ha|Ha]; [|auto]. destruct (classic (Z2 a)) as [H|H]; [auto|]. rewrite E by assumption. auto.
    + intros a Ha. rewrite E, B by tauto. reflexivity.
  - intros a Ha. unfold allocated. destruct (classic (Z1 a)) as [H|H].
    + rewrite A by assumption. discriminate.
    + rewrite B by assumption. apply HP. assumption.
Qed.
Lemma zeroes_if (Z : addr -> Prop) (b : bool) c m : (b = true -> zeroes Z c m) ->
  zeroes (fun a => b = true /\ Z a) (if b then c else Skip) m.
Proof.
  intros H. destruct b.
  - eapply WP_mono; [|apply H; reflexivity]. intros m' [A B]. split.
    + intros a [_ Ha]. auto.
    + intros a Ha. apply B. tauto.
  - apply WP_skip. split; [intros a [E _]; discriminate|reflexivity].
Qed.
Lemma zeroes_ext Z Z' c m : (forall a, Z a <-> Z' a) -> zeroes Z c m -> zeroes Z' c m.
Proof.
  intros E H. eapply WP_mono; [|exact H]. intros m' [A B]. split; intros a Ha.
  - apply A, E, Ha.
  - apply B. intros H'. apply Ha, E, H'.
Qed.

Lemma zero_par n f (idx : nat -> nat) m :
  (forall i j, i < n -> j < n -> idx i = idx j -> i = j) ->
  (forall i, i < n -> allocated m (f + 2 * idx i) /\ allocated m (f + 2 * idx i + 1)) ->
  zeroes (fun a => exists i, i < n /\ two (f + 2 * idx i) a) (Par n (fun i => zeroC (f + 2 * idx i))) m.
Proof.
  intros Hi Ha. eapply WP_mono; [|apply (upd_par n _ (fun i => two (f + 2 * idx i)) (fun _ => Val 0%R))].
  - intros m' [A B]. split.
    + intros a (i & H & Hw). apply (A i); assumption.
    + intros a H. apply B. intros i Hi' Hw. apply H. eauto.
  - intros i j a H1 H2 A B. apply Hi; [assumption|assumption|]. unfold two in *. lia.
  - intros i H. destruct (Ha i H). apply upds_zeroC; assumption.
Qed.
Lemma zero_par2 n n' f (idx : nat -> nat -> nat) body m :
  (forall i j i' j', i < n -> j < n' -> i' < n -> j' < n' -> idx i j = idx i' j' -> i = i' /\ j = j') ->
  (forall i j, i < n -> j < n' -> allocated m (f + 2 * idx i j) /\ allocated m (f + 2 * idx i j + 1)) ->
  (forall i, body i = pfor n' (fun j => zeroC (f + 2 * idx i j))) ->
  zeroes (fun a => exists i j, i < n /\ j < n' /\ two (f + 2 * idx i j) a) (Par n body) m.
Proof.
  intros Hi Ha E.
  eapply WP_mono; [|apply (upd_par n _ (fun i a => exists j, j < n' /\ two (f + 2 * idx i j) a) (fun _ => Val 0%R))].
  - intros m' [A B]. split.
    + intros a (i & j & H1 & H2 & Hw). apply (A i); eauto.
    + intros a H. apply B. intros i Hi' (j & Hj & Hw). apply H. eauto 6.
  - intros i i' a H1 H2 (j & Hj & A) (j' & Hj' & B). apply (Hi i j i' j'); try assumption. unfold two in *. lia.
  - intros i H. rewrite E. apply upd_pfor with (W := fun j => two (f + 2 * idx i j)).
    + intros j j' a H1 H2 A B. apply (Hi i j i j'); try assumption. unfold two in *. lia.
    + intros a. reflexivity.
    + intros j Hj. destruct (Ha i j H Hj). apply upds_zeroC; assumption.
Qed.

Definition nyq2 (nx ny i j : nat) : Prop := (nx mod 2 = 0 /\ i = 0) \/ (ny mod 2 = 0 /\ j = ny / 2).
Definition nyq3 (nx ny nz i j k : nat) : Prop :=
  (nx mod 2 = 0 /\ i = 0) \/ (ny mod 2 = 0 /\ j = 0) \/ (nz mod 2 = 0 /\ k = nz / 2).

Lemma two_inj f x y a : two (f + 2 * x) a -> two (f + 2 * y) a -> x = y.
Proof. unfold two. lia. Qed.
Lemma two_space m f n x : space m f (2 * n) -> x < n -> allocated m (f + 2 * x) /\ allocated m (f + 2 * x + 1).
Proof. intros H Hx. split; [apply H; lia|]. rewrite <- Nat.add_assoc. apply H. lia. Qed.

Lemma deNyquist2_ok nx ny f m : 0 < nx ->
  space m f (2 * (nx * (ny / 2 + 1))) ->
  zeroes (fun a => exists i j, i < nx /\ j < ny / 2 + 1 /\ nyq2 nx ny i j /\ two (f + 2 * (i * (ny / 2 + 1) + j)) a)
    (deNyquist2 nx ny f) m.
Proof.
  intros Hx Hs. unfold deNyquist2. set (nyp := ny / 2 + 1) in *.
  assert (Hy : 0 < nyp) by (unfold nyp; lia).
  eapply zeroes_ext; [|apply (zeroes_seq
     (fun a => (nx mod 2 =? 0) = true /\ exists j, j < nyp /\ two (f + 2 * j) a)
     (fun a => (ny mod 2 =? 0) = true /\ exists i, i < nx /\ two (f + 2 * ((i + 1) * nyp - 1)) a)
     _ _ _ (fun a => exists d, d < 2 * (nx * nyp) /\ a = f + d))].
  - intros a. cbn beta. rewrite !Nat.eqb_eq. split.
    + intros [[E (j & Hj & H)]|[E (i & Hi & H)]].
      * exists 0, j. repeat split; try assumption. left. auto.
      * exists i, (ny / 2). repeat split; try assumption; [unfold nyp; lia|right; auto|].
        replace (i * nyp + ny / 2) with ((i + 1) * nyp - 1) by (unfold nyp; lia). exact H.
    + intros (i & j & Hi & Hj & [[E ->]|[E ->]] & H).
      * left. split; [assumption|]. exists j. split; [assumption|]. exact H.
      * right. split; [assumption|]. exists i. split; [assumption|].
        replace ((i + 1) * nyp - 1) with (i * nyp + ny / 2) by (unfold nyp; lia). exact H.
  - intros a (d & Hd & ->). apply Hs. assumption.
  - apply zeroes_if. intros _. apply (zero_par nyp f (fun j => j)); [auto|].
    intros j Hj. eapply two_space; [exact Hs|].
    assert (1 * nyp <= nx * nyp) by (apply Nat.mul_le_mono_r; lia). lia.
  - intros m1 H1. apply zeroes_if. intros _. apply (zero_par nx f (fun i => (i + 1) * nyp - 1)).
    + intros i j Hi Hj E. assert ((i + 1) * nyp = (j + 1) * nyp) by lia.
      apply Nat.mul_cancel_r in H; lia.
    + intros i Hi. assert ((i + 1) * nyp <= nx * nyp) by (apply Nat.mul_le_mono_r; lia).
      split; apply H1; eexists; (split; [|rewrite <- ?Nat.add_assoc; reflexivity]); lia.
Qed.

Lemma deNyquist3_ok nx ny nz f m : 0 < nx -> 0 < ny ->
  space m f (2 * (nx * ny * (nz / 2 + 1))) ->
  zeroes (fun a => exists i j k, i < nx /\ j < ny /\ k < nz / 2 + 1 /\ nyq3 nx ny nz i j k /\
            two (f + 2 * ((i * ny + j) * (nz / 2 + 1) + k)) a)
    (deNyquist3 nx ny nz f) m.
Proof.
  intros Hx Hy Hs. unfold deNyquist3. set (nzp := nz / 2 + 1) in *.
  assert (Hz : 0 < nzp) by (unfold nzp; lia).
  set (P := fun a => exists d, d < 2 * (nx * ny * nzp) /\ a = f + d).
  assert (HP : forall m1, (forall a, P a -> allocated m1 a) -> forall i j k, i < nx -> j < ny -> k < nzp ->
     allocated m1 (f + 2 * ((i * ny + j) * nzp + k)) /\ allocated m1 (f + 2 * ((i * ny + j) * nzp + k) + 1)).
  { intros m1 H1 i j k Hi Hj Hk. pose proof (row_lt i j nx ny nzp k Hi Hj Hk).
    split; apply H1; eexists; (split; [|rewrite <- ?Nat.add_assoc; reflexivity]); lia. }
  assert (Hinj : forall i j k i' j' k', j < ny -> k < nzp -> j' < ny -> k' < nzp ->
     (i * ny + j) * nzp + k = (i' * ny + j') * nzp + k' -> i = i' /\ j = j' /\ k = k').
  { intros i j k i' j' k' H1 H2 H3 H4 E. apply pair_inj in E; [|assumption|assumption].
    destruct E as [E ->]. apply pair_inj in E; [|assumption|assumption]. tauto. }
  assert (Hs' : forall a, P a -> allocated m a) by (intros a (d & Hd & ->); apply Hs; assumption).
  eapply zeroes_ext; [|apply (zeroes_seq
     (fun a => (nx mod 2 =? 0) = true /\ exists k, k < ny * nzp /\ two (f + 2 * k) a)
     (fun a => ((ny mod 2 =? 0) = true /\ exists i k, i < nx /\ k < nzp /\ two (f + 2 * (i * (ny * nzp) + k)) a) \/
               ((nz mod 2 =? 0) = true /\ exists i j, i < nx /\ j < ny /\
                   two (f + 2 * (i * (ny * nzp) + (j + 1) * nzp - 1)) a))
     _ _ _ P)].
  - intros a. cbn beta. rewrite !Nat.eqb_eq. split.
    + intros [[E (w & Hw & H)]|[[E (i & k & Hi & Hk & H)]|[E (i & j & Hi & Hj & H)]]].
      * pose proof (Nat.div_mod w nzp ltac:(lia)). pose proof (Nat.mod_upper_bound w nzp ltac:(lia)).
        exists 0, (w / nzp), (w mod nzp). repeat split; try assumption.
        -- apply Nat.div_lt_upper_bound; lia.
        -- left. auto.
        -- replace ((0 * ny + w / nzp) * nzp + w mod nzp) with w by lia. exact H.
      * exists i, 0, k. repeat split; try assumption. { right. left. auto. }
        replace ((i * ny + 0) * nzp + k) with (i * (ny * nzp) + k) by lia. exact H.
      * exists i, j, (nz / 2). repeat split; try assumption. { unfold nzp; lia. } { right. right. auto. }
        replace ((i * ny + j) * nzp + nz / 2) with (i * (ny * nzp) + (j + 1) * nzp - 1) by (unfold nzp; lia). exact H.
    + intros (i & j & k & Hi & Hj & Hk & [[E ->]|[[E ->]|[E ->]]] & H).
      * left. split; [assumption|]. exists (j * nzp + k). split; [|exact H].
        assert ((j + 1) * nzp <= ny * nzp) by (apply Nat.mul_le_mono_r; lia). lia.
      * right. left. split; [assumption|]. exists i, k. repeat split; try assumption.
        replace (i * (ny * nzp) + k) with ((i * ny + 0) * nzp + k) by lia. exact H.
      * right. right. split; [assumption|]. exists i, j. repeat split; try assumption.
        replace (i * (ny * nzp) + (j + 1) * nzp - 1) with ((i * ny + j) * nzp + nz / 2) by (unfold nzp; lia). exact H.
  - exact Hs'.
  - apply zeroes_if. intros _. apply (zero_par (ny * nzp) f (fun j => j)); [auto|].
    intros w Hw. eapply two_space; [exact Hs|].
    assert (1 * (ny * nzp) <= nx * (ny * nzp)) by (apply Nat.mul_le_mono_r; lia). lia.
  - intros m1 H1. apply (zeroes_seq _ _ _ _ _ P); [exact H1| |].
    + apply zeroes_if. intros _. apply (zero_par2 nx nzp f (fun i k => i * (ny * nzp) + k)).
      * intros i k i' k' Hi Hk Hi' Hk' E.
        destruct (Hinj i 0 k i' 0 k') as (A & _ & B); try assumption; try lia.
      * intros i k Hi Hk. destruct (HP m1 H1 i 0 k Hi Hy Hk) as [A B].
        replace (i * (ny * nzp) + k) with ((i * ny + 0) * nzp + k) by lia. auto.
      * reflexivity.
    + intros m2 H2. apply zeroes_if. intros _. apply (zero_par2 nx ny f (fun i j => i * (ny * nzp) + (j + 1) * nzp - 1)).
      * intros i j i' j' Hi Hj Hi' Hj' E.
        destruct (Hinj i j (nzp - 1) i' j' (nzp - 1)) as (A & B & _); try assumption; try lia.
      * intros i j Hi Hj. destruct (HP m2 H2 i j (nzp - 1) Hi Hj ltac:(lia)) as [A B].
        replace (i * (ny * nzp) + (j + 1) * nzp - 1) with ((i * ny + j) * nzp + (nzp - 1)) by lia. auto.
      * reflexivity.
Qed.
