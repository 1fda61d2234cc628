(** The local steps of the distributed transforms. *)
From Coq Require Import Reals ZArith List Arith Bool Lia FunctionalExtensionality.
From Verif Require Import CNum Sums Roots PadModel PadLemmas MpiMachine MpiRun MpiTrModel MpiTrTop MpiFftModel.
Import ListNotations.
Local Open Scope nat_scope.
Notation locC := (loc C). Notation runsC := (runs C).

Lemma setmem_same : forall s : locC, setmem C s (mem C s) = s.
Proof. intros []; reflexivity. Qed.
Lemma setmem_setmem' : forall (s : locC) a b, setmem C (setmem C s a) b = setmem C s b.
Proof. reflexivity. Qed.

Lemma rdv_run : forall b adr n acc k s, quiet C s -> (forall j, j < n -> adr j < bsz C s b) ->
  lstar C (rdv b adr n acc k, s) (k (fun j => if j <? n then mem C s b (adr j) else acc j), s).
Proof.
  induction n as [|n IH]; intros acc k s Q B; cbn [rdv].
  - match goal with |- lstar _ (k ?a, _) (k ?b, _) => replace b with a; [constructor|] end.
    apply functional_extensionality. intros j. destruct (Nat.ltb_spec j 0); [lia|auto].
  - econstructor.
    + constructor; [apply B; lia|apply (qpend C s b (adr n) Q)].
    + eapply lstar_trans; [apply IH; auto|].
      match goal with |- lstar _ (k ?a, _) (k ?b, _) => replace b with a; [constructor|] end.
      apply functional_extensionality. intros j. unfold upd.
      destruct (Nat.ltb_spec j n), (Nat.ltb_spec j (S n)), (Nat.eqb_spec j n); subst; auto; lia.
Qed.

Lemma wrv_run : forall b adr n f s, quiet C s -> (forall j, j < n -> adr j < bsz C s b) ->
  (forall j j', j < n -> j' < n -> adr j = adr j' -> j = j') ->
  exists m', runsC (wrv b adr n f) s (setmem C s m') /\ (forall j, j < n -> m' b (adr j) = f j) /\
    (forall b' o, b' <> b \/ (forall j, j < n -> o <> adr j) -> m' b' o = mem C s b' o).
Proof.
  intros b adr n f. induction n as [|n IH]; intros s Q B I.
  - exists (mem C s). split; [rewrite setmem_same; apply runs_skip|]. split; [intros; lia|auto].
  - set (s1 := setmem C s (upd2 (mem C s) b (adr n) (f n))).
    destruct (IH s1) as (m' & R & W & F).
    + exact Q. + intros j Hj. apply B. lia. + intros j j' Hj Hj'. apply I; lia.
    + exists m'. split; [|split].
      * intros k. cbn [wrv]. unfold seqc. econstructor.
        { constructor; [apply B; lia| |]; apply (qpend C s b (adr n) Q). }
        apply R.
      * intros j Hj. destruct (Nat.eq_dec j n) as [->|N]; [|apply W; lia].
        rewrite F by (right; intros j' Hj' E; apply I in E; lia). cbn [mem s1 setmem]. apply upd2_eq.
      * intros b' o H. rewrite F by (destruct H as [H|H]; [left; auto|right; intros; apply H; lia]).
        cbn [mem s1 setmem]. apply upd2_neq. intros E. inversion E; subst. destruct H as [H|H]; [auto|apply (H n); lia].
Qed.

Definition inj2 (adr : nat -> nat -> nat) (M n : nat) : Prop :=
  forall h j h' j', h < M -> j < n -> h' < M -> j' < n -> adr h j = adr h' j' -> h = h' /\ j = j'.

Lemma mfft_run : forall n tr M adr bi bo s, quiet C s ->
  (forall x x', (forall j, j < n -> x j = x' j) -> forall k, tr x k = tr x' k) ->
  (forall h j, h < M -> j < n -> adr h j < bsz C s bi /\ adr h j < bsz C s bo) -> inj2 adr M n ->
  exists m', runsC (mfft n tr M adr bi bo) s (setmem C s m') /\
    (forall h j, h < M -> j < n -> m' bo (adr h j) = tr (fun i => mem C s bi (adr h i)) j) /\
    (forall b o, b <> bo -> m' b o = mem C s b o).
Proof.
  intros n tr M adr bi bo s Q E B I.
  assert (G : forall cnt i, i + cnt <= M -> forall s1, quiet C s1 -> bsz C s1 = bsz C s ->
    (forall h j, i <= h < M -> j < n -> mem C s1 bi (adr h j) = mem C s bi (adr h j)) ->
    exists m', runsC (floop C i cnt (fun h k => rdv bi (adr h) n (fun _ => C0) (fun x => wrv bo (adr h) n (tr x) k))) s1 (setmem C s1 m') /\
      (forall h j, i <= h < i + cnt -> j < n -> m' bo (adr h j) = tr (fun i => mem C s bi (adr h i)) j) /\
      (forall b o, b <> bo \/ (forall h j, i <= h < i + cnt -> j < n -> o <> adr h j) -> m' b o = mem C s1 b o)).
  { induction cnt as [|cnt IH]; intros i Hi s1 Q1 Z1 K1.
    - exists (mem C s1). split; [rewrite setmem_same; apply runs_skip|]. split; [intros; lia|auto].
    - set (x := fun j => if j <? n then mem C s1 bi (adr i j) else C0).
      destruct (wrv_run bo (adr i) n (tr x) s1) as (m1 & R1 & W1 & F1); auto.
      { intros j Hj. rewrite Z1. apply B; lia. }
      { intros j j' Hj Hj' Ej. apply (I i j i j') in Ej; lia. }
      destruct (IH (S i) ltac:(lia) (setmem C s1 m1)) as (m2 & R2 & W2 & F2); auto.
      { intros h j Hh Hj. cbn [mem setmem]. rewrite F1; [apply K1; lia|].
        right. intros j' Hj' Ej. apply (I h j i j') in Ej; lia. }
      exists m2. split; [|split].
      + intros k. cbn [floop]. unfold seqc. eapply lstar_trans; [|apply R2].
        eapply lstar_trans; [apply rdv_run; auto|apply R1]. intros j Hj. rewrite Z1. apply B; lia.
      + intros h j Hh Hj. destruct (Nat.eq_dec h i) as [->|N]; [|apply W2; lia].
        rewrite F2. 2:{ right. intros h' j' Hh' Hj' Ej. apply (I i j h' j') in Ej; lia. }
        cbn [mem setmem]. rewrite W1 by auto. apply E. intros j' Hj'. unfold x. destruct (Nat.ltb_spec j' n); [|lia]. apply K1; lia.
      + intros b o H. rewrite F2 by (destruct H as [H|H]; [left; auto|right; intros; apply H; lia]).
        cbn [mem setmem]. apply F1. destruct H as [H|H]; [left; auto|right; intros; apply H; lia]. }
  destruct (G M 0 ltac:(lia) s Q eq_refl ltac:(auto)) as (m' & R & W & F). exists m'. split; [exact R|]. split.
  - intros h j Hh Hj. apply W; lia.
  - intros b o N. apply F. auto.
Qed.

Lemma dft_ext' : forall n sg x x', (forall j, j < n -> x j = x' j) -> forall k, dft n sg x k = dft n sg x' k.
Proof. intros n sg x x' H k. unfold dft. apply Csum_ext. intros i Hi. rewrite H; auto. Qed.
Lemma dft2_ext : forall ny nz sg x x', (forall j, j < ny * nz -> x j = x' j) -> forall k, dft2 ny nz sg x k = dft2 ny nz sg x' k.
Proof.
  intros ny nz sg x x' H k. unfold dft2. apply dft_ext'. intros a Ha. apply dft_ext'. intros b Hb. apply H.
  apply Nat.lt_le_trans with (a * nz + nz); [lia|]. replace (a * nz + nz) with (S a * nz) by (cbn; lia). apply Nat.mul_le_mono_r. lia.
Qed.

Lemma fit : forall a b n m, a < n -> b < m -> a * m + b < n * m.
Proof. intros. apply Nat.lt_le_trans with (S a * m); [cbn; lia|apply Nat.mul_le_mono_r; lia]. Qed.
Lemma split2 : forall m a b a' b', b < m -> b' < m -> a * m + b = a' * m + b' -> a = a' /\ b = b'.
Proof.
  intros m a b a' b' H H' E. assert (m <> 0) by lia.
  assert ((a * m + b) / m = a /\ (a' * m + b') / m = a') as [A A'].
  { split; rewrite Nat.div_add_l, Nat.div_small by lia; lia. }
  rewrite E in A. assert (a = a') by lia. subst. lia.
Qed.

(** rows: n words each, one after the other *)
Lemma rows_run : forall n sg M bi bo s, quiet C s -> M * n <= bsz C s bi -> M * n <= bsz C s bo ->
  exists m', runsC (mfft1d n sg M 1 n bi bo) s (setmem C s m') /\
    (forall h j, h < M -> j < n -> m' bo (h * n + j) = dft n sg (fun i => mem C s bi (h * n + i)) j) /\
    (forall b o, b <> bo -> m' b o = mem C s b o).
Proof.
  intros n sg M bi bo s Q Z1 Z2.
  destruct (mfft_run n (dft n sg) M (fun h j => h * n + j * 1) bi bo s Q) as (m' & R & W & F).
  - apply dft_ext'.
  - intros h j Hh Hj. pose proof (fit h j M n Hh Hj). lia.
  - intros h j h' j' Hh Hj Hh' Hj' E. apply (split2 n); lia.
  - exists m'. split; [exact R|]. split; [|exact F]. intros h j Hh Hj. specialize (W h j Hh Hj). rewrite Nat.mul_1_r in W. rewrite W.
    apply dft_ext'. intros i Hi. rewrite Nat.mul_1_r. reflexivity.
Qed.
(** columns: M of them, the words of one M apart *)
Lemma cols_run : forall n sg M bi bo s, quiet C s -> n * M <= bsz C s bi -> n * M <= bsz C s bo ->
  exists m', runsC (mfft1d n sg M M 1 bi bo) s (setmem C s m') /\
    (forall h j, h < M -> j < n -> m' bo (j * M + h) = dft n sg (fun i => mem C s bi (i * M + h)) j) /\
    (forall b o, b <> bo -> m' b o = mem C s b o).
Proof.
  intros n sg M bi bo s Q Z1 Z2.
  destruct (mfft_run n (dft n sg) M (fun h j => h * 1 + j * M) bi bo s Q) as (m' & R & W & F).
  - apply dft_ext'.
  - intros h j Hh Hj. pose proof (fit j h n M Hj Hh). lia.
  - intros h j h' j' Hh Hj Hh' Hj' E. destruct (split2 M j h j' h'); lia.
  - exists m'. split; [exact R|]. split; [|exact F]. intros h j Hh Hj. specialize (W h j Hh Hj).
    replace (h * 1 + j * M) with (j * M + h) in W by lia. rewrite W. apply dft_ext'. intros i Hi. f_equal. lia.
Qed.
(** planes *)
Lemma planes_run : forall ny nz sg M bi bo s, quiet C s -> M * (ny * nz) <= bsz C s bi -> M * (ny * nz) <= bsz C s bo ->
  exists m', runsC (mfft2d ny nz sg M bi bo) s (setmem C s m') /\
    (forall h j l, h < M -> j < ny -> l < nz -> m' bo ((h * ny + j) * nz + l) =
       dft ny sg (fun a => dft nz sg (fun b => mem C s bi ((h * ny + a) * nz + b)) l) j) /\
    (forall b o, b <> bo -> m' b o = mem C s b o).
Proof.
  intros ny nz sg M bi bo s Q Z1 Z2.
  destruct (mfft_run (ny * nz) (dft2 ny nz sg) M (fun h j => h * (nz * ny) + j) bi bo s Q) as (m' & R & W & F).
  - apply dft2_ext.
  - intros h j Hh Hj. pose proof (fit h j M (ny * nz) Hh Hj). rewrite (Nat.mul_comm nz ny). lia.
  - intros h j h' j' Hh Hj Hh' Hj' E. rewrite (Nat.mul_comm nz ny) in E. apply (split2 (ny * nz)); lia.
  - exists m'. split; [exact R|]. split; [|exact F]. intros h j l Hh Hj Hl.
    pose proof (fit j l ny nz Hj Hl) as Hjl. specialize (W h (j * nz + l) Hh Hjl).
    replace (h * (nz * ny) + (j * nz + l)) with ((h * ny + j) * nz + l) in W by ring. rewrite W. unfold dft2.
    rewrite Nat.div_add_l, Nat.div_small, Nat.add_0_r by lia.
    rewrite (Nat.add_comm (j * nz)), Nat.mod_add, Nat.mod_small by lia.
    apply dft_ext'. intros a Ha. apply dft_ext'. intros b Hb. f_equal. ring.
Qed.
Lemma transpose_run : forall rows cols b s, quiet C s -> rows * cols <= bsz C s b ->
  exists m', runsC (transpose1 rows cols b) s (setmem C s m') /\
    (forall i j, i < rows -> j < cols -> m' b (j * rows + i) = mem C s b (i * cols + j)) /\
    (forall b' o, b' <> b -> m' b' o = mem C s b' o).
Proof.
  intros rows cols b s Q Z. unfold transpose1.
  destruct (Nat.eqb_spec rows 0) as [E|E]; cbn [orb].
  { exists (mem C s). split; [rewrite setmem_same; apply runs_skip|]. split; [intros; lia|auto]. }
  destruct (Nat.eqb_spec cols 0) as [E'|E'].
  { exists (mem C s). split; [rewrite setmem_same; apply runs_skip|]. split; [intros; lia|auto]. }
  exists (move_mem C (mem C s) b 0 b 0 (rows * cols) (tidx rows cols 1)). split; [|split].
  - intros k. econstructor; [|constructor]. apply l_move.
    + intros o Ho. unfold tidx. rewrite Nat.div_1_r.
      assert (o mod rows < rows) by (apply Nat.mod_upper_bound; lia).
      assert (o / rows < cols) by (apply Nat.div_lt_upper_bound; lia).
      rewrite Nat.mod_1_r, Nat.mul_1_r, Nat.add_0_r. apply fit; auto.
    + intros o Ho. split; [lia|]. apply (qpend C s b _ Q).
    + intros o Ho. split; [lia|]. split; apply (qpend C s b _ Q).
    + right. left. auto.
  - intros i j Hi Hj. unfold move_mem. rewrite Nat.eqb_refl. cbn [andb Nat.leb]. pose proof (fit j i cols rows Hj Hi) as B.
    destruct (Nat.ltb_spec (j * rows + i) (0 + rows * cols)); [|lia]. rewrite Nat.add_0_l, Nat.sub_0_r. f_equal.
    unfold tidx. rewrite Nat.div_1_r, Nat.mod_1_r, Nat.mul_1_r, Nat.add_0_r.
    rewrite (Nat.add_comm (j * rows)), Nat.mod_add, Nat.mod_small, Nat.div_add, Nat.div_small by lia. lia.
  - intros b' o N. unfold move_mem. destruct (Nat.eqb_spec b' b); [congruence|]. reflexivity.
Qed.
