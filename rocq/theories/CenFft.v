(** The FFT calls of the centered kernels as row fillers. *)
From Coq Require Import Reals ZArith Arith Lia List Bool.
From Verif Require Import CNum Sums Roots Mem VecModel VecProofs PadModel PadKernels Loops
  PadLemmas PadMath PadGeom Fwd1 PadForward Fill CenModel CenMath CenGeom.

Section R.
Variables (adr : nat -> addr) (CC : nat) (g : nat -> nat -> C) (N : nat).
Hypothesis Hinj : injrows adr CC N.

Lemma dn_keep (P : nat -> Prop) m m1 i c : dn adr CC g P m m1 -> (forall i, P i -> i < N) ->
  i < N -> c < CC -> ~ P i -> m1 (adr i + c) = m (adr i + c).
Proof.
  intros [_ H] HP Hi Hc Hn. apply H. intros v (i' & c' & Hi' & Hc' & E & _).
  apply Hinj in E; auto. destruct E as [-> _]. contradiction.
Qed.

Lemma WP_dn_fft pl pin pout (x : nat -> nat -> C) (ro co : nat -> nat -> nat) (P R : nat -> Prop) (m m1 : mem) (K : mem -> Prop) :
  dn adr CC g P m m1 ->
  pl_inplace pl = (pin =? pout) -> 1 <= pl_n pl ->
  (forall h h' k k', h < pl_M pl -> h' < pl_M pl -> k < pl_n pl -> k' < pl_n pl ->
     lay pl h k = lay pl h' k' -> h = h' /\ k = k') ->
  (forall h k, h < pl_M pl -> k < pl_n pl -> m1 (pin + lay pl h k) = Val (x h k)) ->
  (forall h k, h < pl_M pl -> k < pl_n pl -> m (pout + lay pl h k) <> Unalloc) ->
  (pin = pout \/ forall h h' k k', h < pl_M pl -> h' < pl_M pl -> k < pl_n pl -> k' < pl_n pl ->
     pin + lay pl h k <> pout + lay pl h' k') ->
  (forall h k, h < pl_M pl -> k < pl_n pl -> R (ro h k) /\ co h k < CC /\
     pout + lay pl h k = adr (ro h k) + co h k /\
     dft (pl_n pl) (pl_sign pl) (x h) k = g (ro h k) (co h k)) ->
  (forall i c, R i -> c < CC -> exists h k, h < pl_M pl /\ k < pl_n pl /\ i = ro h k /\ c = co h k) ->
  (forall i, P i -> i < N) -> (forall i, R i -> i < N /\ ~ P i) ->
  (forall m', dn adr CC g (fun i => P i \/ R i) m m' -> K m') ->
  WP (fft pl pin pout) m1 K.
Proof.
  intros Hdn Hip Hn Hlay Hin Hout Hdis Hmap Hcov HP HR HK.
  apply WP_fft with (x := x); auto.
  - intros. apply (dn_alloc _ _ _ _ _ _ _ Hdn). auto.
  - intros m' HV HF Hal. apply HK. split.
    + intros a v (i & c & [Hi|Hi] & Hc & -> & ->).
      * rewrite HF; [apply (dn_get _ _ _ _ _ _ _ _ Hdn); assumption|].
        intros h k Hh Hk E. destruct (Hmap h k Hh Hk) as (M1 & M2 & M3 & _). rewrite M3 in E.
        destruct (HR _ M1) as [R1 R2]. apply Hinj in E; auto. destruct E as [E _]. rewrite E in R2. contradiction.
      * destruct (Hcov i c Hi Hc) as (h & k & Hh & Hk & -> & ->).
        destruct (Hmap h k Hh Hk) as (M1 & M2 & M3 & M4). rewrite <- M3, HV by assumption. rewrite M4. reflexivity.
    + intros a Ha. rewrite HF.
      * destruct Hdn as [_ H2]. apply H2. intros v (i & c & Hi & Hr). apply (Ha v). exists i, c. auto.
      * intros h k Hh Hk E. destruct (Hmap h k Hh Hk) as (M1 & M2 & M3 & _).
        apply (Ha (g (ro h k) (co h k))). exists (ro h k), (co h k). split; [auto|]. split; [assumption|].
        split; [congruence|reflexivity].
Qed.

(** m rows from i0 on, all columns: one strided call *)
Lemma fft_many m SS sg inpl pin pout i0 (A : nat -> nat -> C) (P : nat -> Prop) (m0 m1 : mem) (K : mem -> Prop) :
  1 <= m -> CC <= SS ->
  dn adr CC g P m0 m1 ->
  inpl = (pin =? pout) ->
  (forall s c, s < m -> c < CC -> m1 (pin + SS * s + c) = Val (A s c)) ->
  (forall s c, s < m -> c < CC -> m0 (pout + SS * s + c) <> Unalloc) ->
  (pin = pout \/ sepbuf SS CC pin m pout m) ->
  (forall s, s < m -> pout + SS * s = adr (i0 + s)) ->
  (forall s c, s < m -> c < CC -> dft m sg (fun s => A s c) s = g (i0 + s) c) ->
  (forall i, P i -> i < N) -> i0 + m <= N -> (forall i, i0 <= i < i0 + m -> ~ P i) ->
  (forall m', dn adr CC g (fun i => P i \/ i0 <= i < i0 + m) m0 m' -> K m') ->
  WP (fft (mkplan m sg CC SS 1 inpl) pin pout) m1 K.
Proof.
  intros Hm HCS Hdn Hip Hin Hout Hdis Hadr Hg HP HN HPd HK.
  assert (E : forall h k, lay (mkplan m sg CC SS 1 inpl) h k = SS * k + h) by (intros; unfold lay; cbn; lia).
  apply (WP_dn_fft _ _ _ (fun c s => A s c) (fun c s => i0 + s) (fun c s => c) P (fun i => i0 <= i < i0 + m) m0);
    cbn [pl_inplace pl_n pl_M pl_sign]; auto.
  - intros h h' k k' Hh Hh' Hk Hk'. rewrite !E. intros E'. destruct (stride_inj SS k h k' h'); lia.
  - intros h k Hh Hk. rewrite E, Nat.add_assoc. auto.
  - intros h k Hh Hk. rewrite E, Nat.add_assoc. auto.
  - destruct Hdis as [|Hdis]; [auto|right]. intros. rewrite !E, !Nat.add_assoc. apply Hdis; assumption.
  - intros h k Hh Hk. split; [lia|]. split; [assumption|]. split.
    + rewrite E, <- Hadr by assumption. lia.
    + apply Hg; assumption.
  - intros i c Hi Hc. exists c, (i - i0). repeat split; lia.
  - intros i Hi. split; [lia|auto].
Qed.

(** K0 rows of m words *)
Lemma fft_one m sg K0 inpl pin pout i0 (A : nat -> nat -> C) (P : nat -> Prop) (m0 m1 : mem) (K : mem -> Prop) :
  1 <= m -> CC = 1 ->
  dn adr CC g P m0 m1 ->
  inpl = (pin =? pout) ->
  (forall h s, h < K0 -> s < m -> m1 (pin + (m * h + s)) = Val (A h s)) ->
  (forall i, i < m * K0 -> m0 (pout + i) <> Unalloc) ->
  (pin = pout \/ forall i j, i < m * K0 -> j < m * K0 -> pin + i <> pout + j) ->
  (forall i, i < m * K0 -> pout + i = adr (i0 + i)) ->
  (forall h s, h < K0 -> s < m -> dft m sg (A h) s = g (i0 + (m * h + s)) 0) ->
  (forall i, P i -> i < N) -> i0 + m * K0 <= N -> (forall i, i0 <= i < i0 + m * K0 -> ~ P i) ->
  (forall m', dn adr CC g (fun i => P i \/ i0 <= i < i0 + m * K0) m0 m' -> K m') ->
  WP (fft (mkplan m sg K0 1 m inpl) pin pout) m1 K.
Proof.
  intros Hm HC Hdn Hip Hin Hout Hdis Hadr Hg HP HN HPd HK.
  assert (E : forall h k, lay (mkplan m sg K0 1 m inpl) h k = m * h + k) by (intros; unfold lay; cbn; lia).
  assert (B : forall h k, h < K0 -> k < m -> m * h + k < m * K0) by (intros; nia).
  apply (WP_dn_fft _ _ _ A (fun h s => i0 + (m * h + s)) (fun _ _ => 0) P (fun i => i0 <= i < i0 + m * K0) m0);
    cbn [pl_inplace pl_n pl_M pl_sign]; auto.
  - intros h h' k k' Hh Hh' Hk Hk'. rewrite !E. intros E'. destruct (stride_inj m h k h' k'); lia.
  - intros h k Hh Hk. rewrite E. auto.
  - intros h k Hh Hk. rewrite E. auto.
  - destruct Hdis as [|Hdis]; [auto|right]. intros. rewrite !E. apply Hdis; auto.
  - intros h k Hh Hk. specialize (B h k Hh Hk). split; [lia|]. split; [lia|]. split.
    + rewrite E, <- Hadr by assumption. lia.
    + apply Hg; assumption.
  - intros i c Hi Hc. pose proof (Nat.div_mod (i - i0) m ltac:(lia)). pose proof (Nat.mod_upper_bound (i - i0) m ltac:(lia)).
    exists ((i - i0) / m), ((i - i0) mod m). split; [apply Nat.div_lt_upper_bound; lia|]. lia.
  - intros i Hi. split; [lia|auto].
Qed.

(** radix-P0 over the rows i0+m*u+s, u<P0, in place: column s *)
Lemma fft_col m P0 SS sg a i0 s (A : nat -> nat -> C) (P : nat -> Prop) (m0 m1 : mem) (K : mem -> Prop) :
  1 <= P0 -> CC <= SS -> s < m ->
  dn adr CC g P m0 m1 ->
  (forall u c, u < P0 -> c < CC -> m0 (adr (i0 + (m * u + s)) + c) = Val (A u c)) ->
  (forall i, i < m * P0 -> a + SS * i = adr (i0 + i)) ->
  (forall u c, u < P0 -> c < CC -> dft P0 sg (fun u => A u c) u = g (i0 + (m * u + s)) c) ->
  (forall i, P i -> i < N) -> i0 + m * P0 <= N -> (forall u, u < P0 -> ~ P (i0 + (m * u + s))) ->
  (forall m', dn adr CC g (fun i => P i \/ (i0 <= i < i0 + m * P0 /\ (i - i0) mod m = s)) m0 m' -> K m') ->
  WP (fft (mkplan P0 sg CC (SS * m) 1 true) (a + SS * s) (a + SS * s)) m1 K.
Proof.
  intros HP0 HCS Hs Hdn Hin Hadr Hg HP HN HPd HK.
  assert (E : forall h k, lay (mkplan P0 sg CC (SS * m) 1 true) h k = SS * m * k + h) by (intros; unfold lay; cbn; lia).
  assert (B : forall u, u < P0 -> m * u + s < m * P0) by (intros; nia).
  assert (Ea : forall u c, u < P0 -> a + SS * s + (SS * m * u + c) = adr (i0 + (m * u + s)) + c).
  { intros u c Hu. rewrite <- Hadr by auto. lia. }
  assert (Hmod : forall u, (i0 + (m * u + s) - i0) mod m = s).
  { intros u. replace (i0 + (m * u + s) - i0) with (s + u * m) by lia. rewrite Nat.mod_add by lia. apply Nat.mod_small. assumption. }
  apply (WP_dn_fft _ _ _ (fun c u => A u c) (fun c u => i0 + (m * u + s)) (fun c _ => c) P
    (fun i => i0 <= i < i0 + m * P0 /\ (i - i0) mod m = s) m0); cbn [pl_inplace pl_n pl_M pl_sign]; auto.
  - rewrite Nat.eqb_refl. reflexivity.
  - intros h h' k k' Hh Hh' Hk Hk'. rewrite !E. intros E'.
    assert (SS * 1 <= SS * m) by (apply Nat.mul_le_mono_l; lia).
    destruct (stride_inj (SS * m) k h k' h'); lia.
  - intros h k Hh Hk. rewrite E, Ea by assumption. rewrite (dn_keep P m0 m1); auto. specialize (B k Hk). lia.
  - intros h k Hh Hk. rewrite E, Ea by assumption. rewrite Hin by assumption. discriminate.
  - intros h k Hh Hk. specialize (B k Hk). split; [split; [lia|apply Hmod]|]. split; [lia|]. split.
    + rewrite E. apply Ea. assumption.
    + apply Hg; assumption.
  - intros i c (Hi & Hmi) Hc. pose proof (Nat.div_mod (i - i0) m ltac:(lia)).
    exists c, ((i - i0) / m). split; [assumption|]. split; [apply Nat.div_lt_upper_bound; lia|]. lia.
  - intros i (Hi & Hmi). split; [lia|]. pose proof (Nat.div_mod (i - i0) m ltac:(lia)) as Hd.
    replace i with (i0 + (m * ((i - i0) / m) + s)) by lia. apply HPd. apply Nat.div_lt_upper_bound; lia.
Qed.

(** radix-P0 in place over the whole block at once (S=C) *)
Lemma fft_cols m P0 sg a i0 (A : nat -> nat -> nat -> C) (P : nat -> Prop) (m0 m1 : mem) (K : mem -> Prop) :
  1 <= P0 -> 1 <= CC -> 1 <= m ->
  dn adr CC g P m0 m1 ->
  (forall u s c, u < P0 -> s < m -> c < CC -> m0 (adr (i0 + (m * u + s)) + c) = Val (A u s c)) ->
  (forall i, i < m * P0 -> a + CC * i = adr (i0 + i)) ->
  (forall u s c, u < P0 -> s < m -> c < CC -> dft P0 sg (fun u => A u s c) u = g (i0 + (m * u + s)) c) ->
  (forall i, P i -> i < N) -> i0 + m * P0 <= N -> (forall i, i0 <= i < i0 + m * P0 -> ~ P i) ->
  (forall m', dn adr CC g (fun i => P i \/ i0 <= i < i0 + m * P0) m0 m' -> K m') ->
  WP (fft (mkplan P0 sg (CC * m) (CC * m) 1 true) a a) m1 K.
Proof.
  intros HP0 HC Hm Hdn Hin Hadr Hg HP HN HPd HK.
  assert (E : forall h k, lay (mkplan P0 sg (CC * m) (CC * m) 1 true) h k = CC * m * k + h) by (intros; unfold lay; cbn; lia).
  assert (B : forall u s, u < P0 -> s < m -> m * u + s < m * P0) by (intros; nia).
  assert (Hdm : forall k, k < CC * m -> k = CC * (k / CC) + k mod CC /\ k mod CC < CC /\ k / CC < m).
  { intros k Hk. pose proof (Nat.div_mod k CC ltac:(lia)). pose proof (Nat.mod_upper_bound k CC ltac:(lia)).
    split; [assumption|]. split; [assumption|]. apply Nat.div_lt_upper_bound; lia. }
  assert (Ea : forall u h, u < P0 -> h < CC * m -> a + (CC * m * u + h) = adr (i0 + (m * u + h / CC)) + h mod CC).
  { intros u h Hu Hh. destruct (Hdm h Hh) as (E1 & _ & E3). rewrite <- Hadr by auto. lia. }
  apply (WP_dn_fft _ _ _ (fun h u => A u (h / CC) (h mod CC)) (fun h u => i0 + (m * u + h / CC)) (fun h _ => h mod CC) P
    (fun i => i0 <= i < i0 + m * P0) m0); cbn [pl_inplace pl_n pl_M pl_sign]; auto.
  - rewrite Nat.eqb_refl. reflexivity.
  - intros h h' k k' Hh Hh' Hk Hk'. rewrite !E. intros E'. destruct (stride_inj (CC * m) k h k' h'); lia.
  - intros h k Hh Hk. destruct (Hdm h Hh) as (E1 & E2 & E3). specialize (B k _ Hk E3). rewrite E, Ea by assumption.
    rewrite (dn_keep P m0 m1); auto; [lia|]. apply HPd. lia.
  - intros h k Hh Hk. destruct (Hdm h Hh) as (E1 & E2 & E3). rewrite E, Ea by assumption. rewrite Hin by assumption. discriminate.
  - intros h k Hh Hk. destruct (Hdm h Hh) as (E1 & E2 & E3). specialize (B k _ Hk E3). split; [lia|]. split; [lia|]. split.
    + rewrite E. apply Ea; assumption.
    + apply Hg; assumption.
  - intros i c Hi Hc. pose proof (Nat.div_mod (i - i0) m ltac:(lia)). pose proof (Nat.mod_upper_bound (i - i0) m ltac:(lia)).
    exists (CC * ((i - i0) mod m) + c), ((i - i0) / m).
    replace (CC * ((i - i0) mod m) + c) with (c + (i - i0) mod m * CC) by lia.
    rewrite (Nat.div_add c), (Nat.mod_add c), (Nat.div_small c), (Nat.mod_small c) by lia.
    split; [nia|]. split; [apply Nat.div_lt_upper_bound; lia|]. lia.
  - intros i Hi. split; [lia|auto].
Qed.
End R.
