(** Hermitian backward transforms: the loops that write f. *)
From Coq Require Import Reals ZArith Arith Lia List Bool.
From Verif Require Import CNum Sums Roots Mem VecModel VecProofs PadModel PadKernels Loops
  PadLemmas PadMath PadGeom Fwd1 PadForward Fill CenModel CenMath CenGeom CenFft CenF2 CenPass CenStage CenTw CenFI
  CenBack CenB2 CenBPass CenBwd2 CenBI HerModel HerSpec HerMath HerFft HerGeom HerF2 HerFI HerForward HerB1.

Section Fold.
Variables (m e P H : nat).
Notation me := (m - e).
Notation m0 := (m * P - H + 1).
Hypothesis HP : 1 <= P.
Hypothesis Hm : 1 <= m.
Hypothesis He : m < 2 * e /\ 2 * e <= m + 2 /\ 1 <= e <= m.
Hypothesis HH : (P - 1) * m + e <= H /\ H <= m * P.
Hypothesis Hm0 : 2 * m0 <= m + 1.
Definition S2 (i : nat) : Prop := i < H /\ (i <= me \/ m * P - me <= i).
Definition S3 (i : nat) : Prop := i < H /\ (i mod m <= me \/ m - me <= i mod m).
Definition R3 (u i : nat) : Prop := m * u <= i <= m * u + me \/ (m * P - m * u - me <= i < m * P - m * u).
Lemma PmE : m * P = (P - 1) * m + m.
Proof. destruct P as [|P']; [lia|]. replace (S P' - 1) with P' by lia. rewrite Nat.mul_succ_r, Nat.mul_comm. reflexivity. Qed.
(** positions in terms of quotient and remainder *)
Lemma pos_dec i : exists a b, i = m * a + b /\ b < m /\ i / m = a /\ i mod m = b.
Proof.
  exists (i / m), (i mod m). split; [apply Nat.div_mod; lia|]. split; [apply Nat.mod_upper_bound; lia|auto].
Qed.
Lemma blk_dir a b u : b < m -> (m * u <= m * a + b <= m * u + me <-> a = u /\ b <= me).
Proof.
  intros Hb. split; [|intros [-> Hx]; lia]. intros Hx. assert (Hau : a = u).
  { destruct (Nat.lt_trichotomy a u) as [Hl|[|Hl]]; [|assumption|].
    - assert (m * (a + 1) <= m * u) by (apply Nat.mul_le_mono_l; lia). rewrite Nat.mul_add_distr_l in *. lia.
    - assert (m * (u + 1) <= m * a) by (apply Nat.mul_le_mono_l; lia). rewrite Nat.mul_add_distr_l in *. lia. }
  subst u. lia.
Qed.
Lemma blk_ref a b u : b < m -> u < P -> (m * P - m * u - me <= m * a + b < m * P - m * u <-> a = P - 1 - u /\ m - me <= b).
Proof.
  intros Hb Hu. assert (E : m * P - m * u = m * (P - 1 - u) + m).
  { rewrite <- Nat.mul_sub_distr_l. replace (P - u) with (P - 1 - u + 1) by lia. rewrite Nat.mul_add_distr_l. lia. }
  rewrite E. set (v := P - 1 - u) in *. split; [|intros [-> Hx]; lia]. intros Hx. assert (Hau : a = v).
  { destruct (Nat.lt_trichotomy a v) as [Hl|[|Hl]]; [|assumption|].
    - assert (m * (a + 1) <= m * v) by (apply Nat.mul_le_mono_l; lia). rewrite Nat.mul_add_distr_l in *. lia.
    - assert (m * (v + 1) <= m * a) by (apply Nat.mul_le_mono_l; lia). rewrite Nat.mul_add_distr_l in *. lia. }
  rewrite Hau in *. lia.
Qed.
Lemma lt_H a b : b < m -> (m * a + b < H -> a <= P - 1) /\ (a < P - 1 -> m * a + b < H) /\ (a = P - 1 -> b < e -> m * a + b < H).
Proof.
  intros Hb. pose proof PmE as E. split; [|split].
  - intros Hx. destruct (Nat.le_gt_cases a (P - 1)) as [|Hl]; [assumption|].
    assert (m * P <= m * a) by (apply Nat.mul_le_mono_l; lia). lia.
  - intros Hx. assert (m * (a + 1) <= m * (P - 1)) by (apply Nat.mul_le_mono_l; lia). rewrite Nat.mul_add_distr_l, (Nat.mul_comm m (P - 1)) in *. lia.
  - intros -> Hx. rewrite (Nat.mul_comm m (P - 1)). lia.
Qed.
Lemma S2_ab a b : b < m -> (S2 (m * a + b) <-> (a = 0 /\ b <= me) \/ (a = P - 1 /\ m - me <= b /\ m * a + b < H)).
Proof.
  intros Hb. pose proof (blk_dir a b 0 Hb) as D. pose proof (blk_ref a b 0 Hb ltac:(lia)) as E. rewrite Nat.mul_0_r in D, E.
  rewrite Nat.sub_0_r in E. cbn [Nat.add] in D. destruct (lt_H a b Hb) as (T1 & T2 & T3). unfold S2. split.
  - intros [X [Y|Y]]; [left; apply D; lia|right]. destruct (proj1 E) as [E1 E2]; [lia|]. lia.
  - intros [[X Y]|(X & Y & Z)]; [|].
    + assert (m * a + b <= me) by (apply D; lia). split; [|lia]. destruct (Nat.eq_dec P 1); [apply T3; lia|apply T2; lia].
    + split; [assumption|]. right. assert (m * P - me <= m * a + b < m * P); [apply E; lia|lia].
Qed.
Lemma S3_ab a b : b < m -> (S3 (m * a + b) <-> m * a + b < H /\ (b <= me \/ m - me <= b)).
Proof. intros Hb. unfold S3. replace ((m * a + b) mod m) with b by (apply (Nat.mod_unique _ m a b); lia). reflexivity. Qed.
Lemma R3_ab a b u : b < m -> 1 <= u < P -> (R3 u (m * a + b) <-> (a = u /\ b <= me) \/ (a = P - 1 - u /\ m - me <= b)).
Proof. intros Hb Hu. unfold R3. rewrite (blk_dir a b u Hb), (blk_ref a b u Hb) by lia. reflexivity. Qed.

Section A.
Variables (adr : nat -> addr) (CC : nat) (g : nat -> nat -> C).
Hypothesis Hinj : injrows adr CC H.
Lemma fold_s2 B2 (mm m2 : mem) (K : mem -> Prop) :
  dn adr CC g (fun i => i < m0) mm m2 ->
  (forall s, m0 <= s < me + 1 -> lset adr CC g H (fun i => s = i \/ m * P - s = i) (B2 s) mm) ->
  (forall m3, dn adr CC g S2 mm m3 -> K m3) ->
  WP (ParFor m0 (me + 1) B2) m2 K.
Proof.
  intros Hd Hb HK. pose proof PmE as E.
  assert (Hmm : m <= m * P) by lia.
  apply (WP_rows adr CC g H Hinj (fun s i => s = i \/ m * P - s = i) (fun i => i < m0) S2) with (m := mm); unfold rng, S2.
  - exact Hd.
  - intros i Hi. lia.
  - intros s i Hs Hi. lia.
  - intros s s' i Hs Hs' Hi Hi'. lia.
  - intros i. split.
    + intros [Hi [Hx|Hx]].
      * destruct (Nat.lt_ge_cases i m0); [left; lia|]. right. exists i. lia.
      * right. exists (m * P - i). lia.
    + intros [Hi|(s & Hs & Hi)]; lia.
  - exact Hb.
  - exact HK.
Qed.
Lemma fold_s3 B3 (mm m2 : mem) (K : mem -> Prop) :
  dn adr CC g S2 mm m2 ->
  (forall u, 1 <= u < P -> lset adr CC g H (R3 u) (B3 u) mm) ->
  (forall m3, dn adr CC g S3 mm m3 -> K m3) ->
  WP (ParFor 1 P B3) m2 K.
Proof.
  intros Hd Hb HK.
  apply (WP_rows adr CC g H Hinj R3 S2 S3) with (m := mm); unfold rng.
  - exact Hd.
  - intros i [Hi _]. exact Hi.
  - intros u i Hu Hi. destruct (pos_dec i) as (a & b & -> & Hb' & _ & _). rewrite R3_ab in Hi by assumption.
    rewrite S2_ab by assumption. destruct (lt_H a b Hb') as (T1 & T2 & T3). split; [|lia].
    destruct Hi as [[X Y]|[X Y]]; [|apply T2; lia]. destruct (Nat.eq_dec a (P - 1)); [apply T3; lia|apply T2; lia].
  - intros u u' i Hu Hu' Hi Hi'. destruct (pos_dec i) as (a & b & -> & Hb' & _ & _). rewrite R3_ab in Hi, Hi' by assumption. lia.
  - intros i. destruct (pos_dec i) as (a & b & -> & Hb' & _ & _). rewrite S2_ab, S3_ab by assumption.
    destruct (lt_H a b Hb') as (T1 & T2 & T3). split.
    + intros [X [Y|Y]].
      * destruct (Nat.eq_dec a 0); [left; left; lia|]. right. exists a. split; [lia|]. apply R3_ab; lia.
      * destruct (Nat.eq_dec a (P - 1)); [left; right; lia|]. right. exists (P - 1 - a). split; [lia|]. apply R3_ab; lia.
    + intros [[[X Y]|(X & Y & Z)]|(u & Hu & Hi)].
      * split; [|lia]. destruct (Nat.eq_dec a (P - 1)); [apply T3; lia|apply T2; lia].
      * lia.
      * rewrite R3_ab in Hi by assumption. split; [|lia]. destruct Hi as [[X Y]|[X Y]]; [|apply T2; lia].
        destruct (Nat.eq_dec a (P - 1)); [apply T3; lia|apply T2; lia].
  - exact Hb.
  - exact HK.
Qed.
(** the body of that loop *)
Lemma lset_r3 u p0 inner (mm : mem) : 1 <= u < P ->
  lset adr CC g H (eq (m * u)) p0 mm ->
  (forall s, 1 <= s < me + 1 -> lset adr CC g H (fun i => m * u + s = i \/ m * P - (m * u + s) = i) (inner s) mm) ->
  lset adr CC g H (R3 u) (pseq p0 (pForR 1 (me + 1) inner)) mm.
Proof.
  intros Hu L0 L1.
  assert (Hr : forall i, R3 u i -> i < H).
  { intros i Hi. destruct (pos_dec i) as (a & b & -> & Hb' & _ & _). rewrite R3_ab in Hi by assumption.
    destruct (lt_H a b Hb') as (T1 & T2 & T3).
    destruct Hi as [[X Y]|[X Y]]; [|apply T2; lia]. destruct (Nat.eq_dec a (P - 1)); [apply T3; lia|apply T2; lia]. }
  assert (Hup : m * (u + 1) <= m * P) by (apply Nat.mul_le_mono_l; lia). rewrite Nat.mul_add_distr_l in Hup.
  assert (Hd : forall s s', 1 <= s < me + 1 -> s' < me + 1 -> m * P - (m * u + s) = m * u + s' -> False).
  { intros s s' Hs Hs' E. assert (X1 : m * P - m * u - me <= m * u + s' < m * P - m * u) by lia.
    apply blk_ref in X1; [|lia|lia]. lia. }
  assert (Ha : forall s, 1 <= s < me + 1 -> R3 u (m * u + s)) by (intros s Hs; left; lia).
  assert (Hb : forall s, 1 <= s < me + 1 -> R3 u (m * P - (m * u + s))) by (intros s Hs; right; lia).
  eapply lset_iff with (R := fun i => m * u = i \/ exists s, rng 1 (me + 1) s /\ (m * u + s = i \/ m * P - (m * u + s) = i)).
  - intros i. unfold rng. split.
    + intros [<-|(s & Hs & [<-|<-])]; [left; lia|apply Ha; assumption|apply Hb; assumption].
    + intros [Hx|Hx].
      * destruct (Nat.eq_dec i (m * u)); [left; lia|]. right. exists (i - m * u). lia.
      * right. exists (m * P - m * u - i). lia.
  - apply (lset_pseq _ _ _ _ Hinj).
    + unfold rng. intros i <- (s & Hs & [X|X]); [lia|]. apply (Hd s 0); lia.
    + intros i <-. apply Hr. left. lia.
    + unfold rng. intros i (s & Hs & [<-|<-]); apply Hr; auto.
    + exact L0.
    + apply (lset_for _ _ _ _ Hinj); unfold rng.
      * intros s i Hs [<-|<-]; apply Hr; auto.
      * intros s s' i Hs Hs' [X|X] [Y|Y]; [lia| | |lia].
        -- exfalso. apply (Hd s' s); lia.
        -- exfalso. apply (Hd s s'); lia.
      * exact L1.
Qed.
Lemma fold_odd (mm m2 : mem) : m <> 2 * (e - 1) -> dn adr CC g S3 mm m2 -> sets adr CC g H mm m2.
Proof.
  intros Ho Hd. apply pfx1_sets. eapply dn_iff; [|exact Hd]. intros i. unfold S3. lia.
Qed.
(** the middle rows *)
Definition S4 (k i : nat) : Prop := S3 i \/ (i mod m = e - 1 /\ i / m < k).
Lemma S4_ab k a b : b < m -> (S4 k (m * a + b) <-> S3 (m * a + b) \/ (b = e - 1 /\ a < k)).
Proof.
  intros Hb. unfold S4. replace ((m * a + b) mod m) with b by (apply (Nat.mod_unique _ m a b); lia).
  replace ((m * a + b) / m) with a by (apply (Nat.div_unique _ m a b); lia). reflexivity.
Qed.
Lemma fold_mid lo hi B5 (mm m2 : mem) (K : mem -> Prop) : m = 2 * (e - 1) -> lo <= hi -> hi <= P ->
  dn adr CC g (S4 lo) mm m2 ->
  (forall u, lo <= u < hi -> lset adr CC g H (eq (m * u + (e - 1))) (B5 u) mm) ->
  (forall m3, dn adr CC g (S4 hi) mm m3 -> K m3) ->
  WP (ParFor lo hi B5) m2 K.
Proof.
  intros Ev Hl Hh Hd Hb HK.
  assert (Hq : forall k, k <= P -> forall i, S4 k i -> i < H).
  { intros k Hk i Hi. destruct (pos_dec i) as (a & b & -> & Hb' & _ & _). rewrite S4_ab in Hi by assumption.
    destruct (lt_H a b Hb') as (T1 & T2 & T3). destruct Hi as [[Hi _]|[X Y]]; [assumption|].
    destruct (Nat.eq_dec a (P - 1)); [apply T3; lia|apply T2; lia]. }
  assert (Hu3 : forall u a b, b < m -> m * u + (e - 1) = m * a + b -> a = u /\ b = e - 1).
  { intros u a b Hb' E. assert (Hx : m * u <= m * a + b <= m * u + (e - 1)) by lia.
    destruct (Nat.lt_trichotomy a u) as [Hx1|[|Hx1]].
    - assert (m * (a + 1) <= m * u) by (apply Nat.mul_le_mono_l; lia). rewrite Nat.mul_add_distr_l in *. lia.
    - subst. lia.
    - assert (m * (u + 1) <= m * a) by (apply Nat.mul_le_mono_l; lia). rewrite Nat.mul_add_distr_l in *. lia. }
  apply (WP_rows adr CC g H Hinj (fun u i => m * u + (e - 1) = i) (S4 lo) (S4 hi)) with (m := mm); unfold rng.
  - exact Hd.
  - apply Hq. lia.
  - intros u i Hu <-. split; [apply (Hq hi Hh); apply S4_ab; lia|]. rewrite S4_ab, S3_ab by lia. lia.
  - intros u u' i Hu Hu' <- E. destruct (Hu3 u' u (e - 1)); lia.
  - intros i. destruct (pos_dec i) as (a & b & -> & Hb' & _ & _). rewrite !S4_ab by assumption. split.
    + intros [X|[X Y]]; [auto|]. destruct (Nat.lt_ge_cases a lo); [left; right; lia|]. right. exists a. lia.
    + intros [[X|X]|(u & Hu & E)]; [auto|right; lia|]. destruct (Hu3 u a b Hb' E). right. lia.
  - exact Hb.
  - exact HK.
Qed.
Lemma fold_even (mm m2 : mem) : dn adr CC g (S4 P) mm m2 -> sets adr CC g H mm m2.
Proof.
  intros Hd. apply pfx1_sets. eapply dn_iff; [|exact Hd]. intros i.
  destruct (pos_dec i) as (a & b & -> & Hb' & _ & _). rewrite S4_ab, S3_ab by assumption.
  destruct (lt_H a b Hb') as (T1 & T2 & T3). split.
  - intros [[X _]|[X Y]]; [assumption|]. destruct (Nat.eq_dec a (P - 1)); [apply T3; lia|apply T2; lia].
  - intros Hx. specialize (T1 Hx). lia.
Qed.
Lemma S4_0 (mm m2 : mem) : dn adr CC g S3 mm m2 -> dn adr CC g (S4 0) mm m2.
Proof. apply dn_iff. intros i. unfold S4. split; [auto|]. intros [X|X]; [assumption|]. exfalso. destruct X as [_ X]. inversion X. Qed.
Lemma S3_P1 (mm m2 : mem) : P = 1 -> dn adr CC g S2 mm m2 -> dn adr CC g S3 mm m2.
Proof.
  intros E. apply dn_iff. intros i. destruct (pos_dec i) as (a & b & -> & Hb' & _ & _). rewrite S2_ab, S3_ab by assumption.
  destruct (lt_H a b Hb') as (T1 & T2 & T3). rewrite E in *. split.
  - intros [[X Y]|(X & Y & Z)]; [split; [apply T3; lia|lia]|lia].
  - intros [X Y]. specialize (T1 X). lia.
Qed.
(** P=1: the middle row, all columns at once *)
Lemma fold_mid_cols B5 (mm m2 : mem) (K : mem -> Prop) : m = 2 * (e - 1) -> P = 1 ->
  dn adr CC g S3 mm m2 ->
  (forall c, c < CC -> wpe (outs adr CC H) (row adr g (e - 1) c) (B5 c) mm) ->
  (forall m3, sets adr CC g H mm m3 -> K m3) ->
  WP (ParFor 0 CC B5) m2 K.
Proof.
  intros Ev HP1 Hd Hb HK.
  apply (WP_cols1 adr CC g H Hinj (e - 1) S3 (fun i => i < H)) with (m := mm).
  - exact Hd.
  - intros i [Hi _]. exact Hi.
  - replace (e - 1) with (m * 0 + (e - 1)) by lia. apply lt_H; lia.
  - replace (e - 1) with (m * 0 + (e - 1)) by lia. rewrite S3_ab by lia. lia.
  - intros i. destruct (pos_dec i) as (a & b & -> & Hb' & _ & _). rewrite S3_ab by assumption.
    destruct (lt_H a b Hb') as (T1 & T2 & T3). rewrite HP1 in *. split.
    + intros Hx. specialize (T1 Hx). assert (a = 0) by lia. subst a. lia.
    + intros [[X _]|X]; [assumption|]. assert (m * a = 0 \/ 1 <= a) as [Ea|Ea] by (destruct a; [left; lia|right; lia]); [lia|].
      assert (m * 1 <= m * a) by (apply Nat.mul_le_mono_l; lia). lia.
  - exact Hb.
  - intros m3 H3. apply HK. apply pfx1_sets. exact H3.
Qed.
End A.
End Fold.
