(** Distributed Hermitian symmetrization: geometry and local loops. *)
From Coq Require Import Reals List Arith Bool Lia FunctionalExtensionality.
From Verif Require Import CNum Sums MpiMachine MpiRun MpiTrModel MpiTrGeom MpiTrPhase MpiTrXch MpiTrSpec MpiTrTop MpiColl MpiFftModel MpiFft1 MpiRFft1 MpiCModel MpiC1 MpiHModel MpiHSpec.
Import ListNotations.
Local Open Scope nat_scope.

Lemma half_facts : forall X, orig X = X / 2 /\ extra1 X <= 1 /\ X + extra1 X = 2 * (X / 2) + 1 /\ mxH X + extra1 X = X / 2 + 1 /\
  Nat.even X = (extra1 X =? 1).
Proof.
  intros X. unfold orig, extra1, compact1, mxH, cq.
  destruct (Nat.Even_or_Odd X) as [[k E]|[k E]].
  - assert (E1 : X / 2 = k) by (subst; rewrite Nat.mul_comm, Nat.div_mul; lia).
    assert (E2 : (X + 2 - 1) / 2 = k).
    { replace (X + 2 - 1) with (1 + k * 2) by lia. rewrite Nat.div_add by lia. reflexivity. }
    rewrite E1, E2, Nat.eqb_refl. cbn [Nat.eqb]. assert (Ev : Nat.even X = true) by (apply Nat.even_spec; exists k; auto).
    rewrite Ev. repeat split; try reflexivity; lia.
  - assert (E1 : X / 2 = k).
    { subst. replace (2 * k + 1) with (1 + k * 2) by lia. rewrite Nat.div_add by lia. reflexivity. }
    assert (E2 : (X + 2 - 1) / 2 = S k).
    { replace (X + 2 - 1) with (0 + S k * 2) by lia. rewrite Nat.div_add by lia. reflexivity. }
    rewrite E1, E2. destruct (Nat.eqb_spec (S k) k); [lia|]. cbn [Nat.eqb].
    assert (Ev : Nat.even X = false) by (rewrite <- Nat.negb_odd; apply negb_false_iff; apply Nat.odd_spec; exists k; auto).
    rewrite Ev. repeat split; try reflexivity; lia.
Qed.

(** ownership *)
Lemma own_unique : forall Y P y r r', lbeg Y P r <= y < lbeg Y P r + ldim Y P r -> lbeg Y P r' <= y < lbeg Y P r' + ldim Y P r' -> r = r'.
Proof.
  intros Y P y r r' H H'. unfold ldim, lbeg in *. set (b := cq Y P) in *.
  destruct (Nat.lt_trichotomy r r') as [L|[E|L]]; auto; exfalso.
  - assert (b * S r <= b * r') by (apply Nat.mul_le_mono_l; lia). rewrite Nat.mul_succ_r in *. lia.
  - assert (b * S r' <= b * r) by (apply Nat.mul_le_mono_l; lia). rewrite Nat.mul_succ_r in *. lia.
Qed.
Lemma own_ex : forall Y P y, 0 < P -> y < Y -> exists r, r < P /\ lbeg Y P r <= y < lbeg Y P r + ldim Y P r.
Proof.
  intros Y P y HP Hy. unfold ldim, lbeg. set (b := cq Y P).
  assert (HbP : Y <= b * P).
  { unfold b, cq. pose proof (Nat.div_mod_eq (Y + P - 1) P) as D. pose proof (Nat.mod_upper_bound (Y + P - 1) P ltac:(lia)) as U.
    rewrite Nat.mul_comm. lia. }
  assert (Hb : 0 < b) by (destruct b; lia).
  exists (y / b). pose proof (Nat.div_mod_eq y b) as D. pose proof (Nat.mod_upper_bound y b ltac:(lia)) as U. split.
  - apply Nat.div_lt_upper_bound; lia.
  - lia.
Qed.
Lemma owner_is : forall Y P y n, (exists r, r < n /\ lbeg Y P r <= y < lbeg Y P r + ldim Y P r) ->
  owner Y P y n < n /\ lbeg Y P (owner Y P y n) <= y < lbeg Y P (owner Y P y n) + ldim Y P (owner Y P y n).
Proof.
  intros Y P y n. induction n as [|n IH]; intros (r & Hr & H); [lia|]. cbn [owner].
  destruct (Nat.leb_spec (lbeg Y P n) y), (Nat.ltb_spec y (lbeg Y P n + ldim Y P n)); cbn [andb].
  - split; lia.
  - destruct IH as [A B]; [exists r; split; auto; destruct (Nat.eq_dec r n); [subst; lia|lia]|]. split; [lia|auto].
  - destruct IH as [A B]; [exists r; split; auto; destruct (Nat.eq_dec r n); [subst; lia|lia]|]. split; [lia|auto].
  - destruct IH as [A B]; [exists r; split; auto; destruct (Nat.eq_dec r n); [subst; lia|lia]|]. split; [lia|auto].
Qed.
Lemma beg_dim : forall Y P r, ldim Y P r = 0 \/ lbeg Y P r + ldim Y P r <= Y.
Proof. intros. unfold ldim. lia. Qed.
Lemma lt_beg : forall Y P r r', r < r' -> lbeg Y P r + ldim Y P r <= lbeg Y P r'.
Proof.
  intros. unfold ldim, lbeg. assert (cq Y P * S r <= cq Y P * r') by (apply Nat.mul_le_mono_l; lia). rewrite Nat.mul_succ_r in *. lia.
Qed.

(** local loops *)
Lemma mapw_run : forall M tr ain aout (s : locC), quiet C s ->
  (forall h, h < M -> snd (ain h) < bsz C s (fst (ain h))) ->
  (forall h, h < M -> snd (aout h) < bsz C s (fst (aout h))) ->
  (forall h h', h < M -> h' < M -> aout h = aout h' -> h = h') ->
  (forall h h', h < M -> h' < M -> h <> h' -> ain h <> aout h') ->
  exists m', runsC (mapw M tr ain aout) s (setmem C s m') /\
    (forall h, h < M -> rd2 m' (aout h) = tr (rd2 (mem C s) (ain h))) /\
    (forall b o, (forall h, h < M -> (b, o) <> aout h) -> m' b o = mem C s b o).
Proof.
  intros M tr ain aout s Q B B' I Ap.
  destruct (kernels_run 1 1 (fun _ x _ => tr (x 0)) M (fun h _ => ain h) (fun h _ => aout h) s) as (m' & R & W & F); auto.
  - intros h x x' Hh E k Hk. rewrite E by lia. auto.
  - intros h k h' k' Hh Hk Hh' Hk' E. split; [auto|lia].
  - exists m'. split; [exact R|]. split.
    + intros h Hh. apply (W h 0 Hh). lia.
    + intros b o H. apply F. auto.
Qed.
Lemma fill_run : forall M v aout (s : locC), quiet C s ->
  (forall h, h < M -> snd (aout h) < bsz C s (fst (aout h))) ->
  (forall h h', h < M -> h' < M -> aout h = aout h' -> h = h') ->
  exists m', runsC (fill M v aout) s (setmem C s m') /\
    (forall h, h < M -> rd2 m' (aout h) = v) /\
    (forall b o, (forall h, h < M -> (b, o) <> aout h) -> m' b o = mem C s b o).
Proof.
  intros M v aout s Q B' I.
  destruct (kernels_run 0 1 (fun _ _ _ => v) M (fun _ _ => (0, 0)) (fun h _ => aout h) s) as (m' & R & W & F); auto.
  - intros; lia. 
  - intros h k h' k' Hh Hk Hh' Hk' E. split; [auto|lia].
  - intros; lia.
  - exists m'. split; [exact R|]. split.
    + intros h Hh. apply (W h 0 Hh). lia.
    + intros b o H. apply F. auto.
Qed.
Lemma floop_ext : forall (b b' : nat -> cmdC) n i, (forall h, i <= h < i + n -> b h = b' h) -> floop C i n b = floop C i n b'.
Proof.
  intros b b' n. induction n as [|n IH]; intros i H; cbn [floop]; auto. rewrite H by lia. rewrite (IH (S i)); auto. intros; apply H; lia.
Qed.
Lemma copyback_map : forall X Y P dz dn r off, (forall i, i < nxH X -> strideH Y P dz r * (i + extra1 X) + off < dn) ->
  copyback X Y P dz dn r off = mapw (nxH X) (fun v => v) (fun i => (1, i)) (fun i => (0, strideH Y P dz r * (i + extra1 X) + off)).
Proof.
  intros. unfold copyback, mapw, kernels. unfold forc. apply floop_ext. intros i Hi.
  apply functional_extensionality. intros k. cbn [rdm wrm fst snd]. unfold seqc, skip.
  f_equal. apply functional_extensionality. intros v. destruct (Nat.ltb_spec (strideH Y P dz r * (i + extra1 X) + off) dn); auto.
  specialize (H i ltac:(lia)). lia.
Qed.

(** addresses in three dimensions *)
Lemma addr_inj : forall dy dz x j k x' j' k', j < dy -> j' < dy -> k < dz -> k' < dz ->
  dy * dz * x + dz * j + k = dy * dz * x' + dz * j' + k' -> x = x' /\ j = j' /\ k = k'.
Proof.
  intros dy dz x j k x' j' k' Hj Hj' Hk Hk' E.
  assert (E1 : dz * (dy * x + j) + k = dz * (dy * x' + j') + k') by (rewrite !Nat.mul_add_distr_l, !Nat.mul_assoc, (Nat.mul_comm dz dy); exact E).
  destruct (Nat.div_mod_unique dz (dy * x + j) (dy * x' + j') k k' Hk Hk' E1) as [E2 E3].
  destruct (Nat.div_mod_unique dy x x' j j' Hj Hj' E2) as [E4 E5]. auto.
Qed.
Lemma addr_lt : forall dy dz X x j k, x < X -> j < dy -> k < dz -> dy * dz * x + dz * j + k < X * (dy * dz).
Proof.
  intros dy dz X x j k Hx Hj Hk.
  assert (dz * S j <= dz * dy) by (apply Nat.mul_le_mono_l; lia).
  assert (dy * dz * S x <= dy * dz * X) by (apply Nat.mul_le_mono_l; lia).
  rewrite Nat.mul_succ_r in *. rewrite (Nat.mul_comm X). rewrite (Nat.mul_comm dz dy) in *. lia.
Qed.
