(** Loops over the rows l*b+m*u+s of B blocks of P*m rows, and loops with an offset. *)
From Coq Require Import Reals ZArith Arith Lia List Bool.
From Verif Require Import CNum Sums Roots Mem VecModel VecProofs PadModel PadKernels Loops
  PadLemmas PadMath PadGeom Fwd1 PadForward Fill CenModel CenMath CenGeom CenFft CenF2 CenPass CenStage.

Section R.
Variables (adr : nat -> addr) (CC : nat) (g : nat -> nat -> C) (N : nat).
Hypothesis Hinj : injrows adr CC N.

(** prefix loops whose rows start at an offset *)
Lemma WP_pfx1o off lo hi body (m m1 : mem) (K : mem -> Prop) :
  lo <= hi -> off + hi <= N ->
  dn adr CC g (fun i => i < off + lo) m m1 ->
  (forall s, lo <= s < hi -> lset adr CC g N (eq (off + s)) (body s) m) ->
  (forall m', dn adr CC g (fun i => i < off + hi) m m' -> K m') ->
  WP (ParFor lo hi body) m1 K.
Proof.
  intros H1 H2 Hdn Hb HK.
  apply (WP_rows adr CC g N Hinj (fun s => eq (off + s)) (fun i => i < off + lo) (fun i => i < off + hi) lo hi body m); unfold rng.
  - assumption.
  - intros; lia.
  - intros; lia.
  - intros; lia.
  - intros i. split.
    + intros Hi. destruct (Nat.lt_ge_cases i (off + lo)); [auto|right]. exists (i - off). lia.
    + intros [Hi|(s & Hs & E)]; lia.
  - intros. apply Hb. lia.
  - assumption.
Qed.
Lemma WP_pfx2o l off lo hi body (m m1 : mem) (K : mem -> Prop) :
  lo <= hi -> off + hi <= l -> 2 * l <= N ->
  dn adr CC g (pfx2 l (off + lo)) m m1 ->
  (forall s, lo <= s < hi -> lset adr CC g N (fun i => off + s = i \/ l + (off + s) = i) (body s) m) ->
  (forall m', dn adr CC g (pfx2 l (off + hi)) m m' -> K m') ->
  WP (ParFor lo hi body) m1 K.
Proof.
  intros H1 H2 H3 Hdn Hb HK.
  apply (WP_rows adr CC g N Hinj (fun s i => off + s = i \/ l + (off + s) = i) (pfx2 l (off + lo)) (pfx2 l (off + hi)) lo hi body m); unfold rng.
  - assumption.
  - unfold pfx2; intros; lia.
  - unfold pfx2; intros; lia.
  - unfold pfx2; intros; lia.
  - intros i. unfold pfx2. split.
    + intros Hi. destruct (Nat.lt_ge_cases i l).
      * destruct (Nat.lt_ge_cases i (off + lo)); [auto|right]. exists (i - off). lia.
      * destruct (Nat.lt_ge_cases i (l + (off + lo))); [left; lia|right]. exists (i - l - off). lia.
    + intros [Hi|(s & Hs & E)]; lia.
  - intros. apply Hb. lia.
  - assumption.
Qed.

Variables m P B : nat.
Hypothesis Hm : 1 <= m.
Hypothesis HP : 1 <= P.
Hypothesis HN : m * P * B <= N.
Notation l := (m * P).
(** the rows with block b, row u, column s such that Q b u s *)
Definition at3 (Q : nat -> nat -> nat -> Prop) (i : nat) : Prop :=
  exists b u s, b < B /\ u < P /\ s < m /\ i = l * b + (m * u + s) /\ Q b u s.
Lemma at3_lt Q i : at3 Q i -> i < l * B.
Proof.
  intros (b & u & s & Hb & Hu & Hs & -> & _). assert (m * u + s < l) by nia.
  assert (l * b + l <= l * B) by nia. lia.
Qed.
Lemma at3_inj b u s b' u' s' : u < P -> s < m -> u' < P -> s' < m ->
  l * b + (m * u + s) = l * b' + (m * u' + s') -> b = b' /\ u = u' /\ s = s'.
Proof.
  intros Hu Hs Hu' Hs' E. assert (H1 : m * u + s < l) by nia. assert (H2 : m * u' + s' < l) by nia.
  destruct (stride_inj l b (m * u + s) b' (m * u' + s')) as [-> E2]; [assumption|assumption|assumption|].
  destruct (stride_inj m u s u' s') as [-> ->]; auto.
Qed.
Lemma at3_all i : at3 (fun _ _ _ => True) i <-> i < l * B.
Proof.
  split; [apply at3_lt|]. intros Hi. assert (Hl : 1 <= l) by nia.
  pose proof (Nat.div_mod i l ltac:(lia)). pose proof (Nat.mod_upper_bound i l ltac:(lia)).
  pose proof (Nat.div_mod (i mod l) m ltac:(lia)). pose proof (Nat.mod_upper_bound (i mod l) m ltac:(lia)).
  exists (i / l), (i mod l / m), ((i mod l) mod m).
  split; [apply Nat.div_lt_upper_bound; lia|]. split; [apply Nat.div_lt_upper_bound; lia|]. split; [assumption|].
  split; [lia|exact Logic.I].
Qed.
Lemma at3_iff (Q Q' : nat -> nat -> nat -> Prop) i : (forall b u s, b < B -> u < P -> s < m -> Q b u s <-> Q' b u s) -> at3 Q i <-> at3 Q' i.
Proof.
  intros H. split; intros (b & u & s & Hb & Hu & Hs & E & HQ); exists b, u, s; repeat (split; [assumption|]); apply H; assumption.
Qed.
Lemma dn_at3 (Q Q' : nat -> nat -> nat -> Prop) m0 m1 : (forall b u s, b < B -> u < P -> s < m -> Q b u s <-> Q' b u s) ->
  dn adr CC g (at3 Q) m0 m1 -> dn adr CC g (at3 Q') m0 m1.
Proof. intros H. apply dn_iff. intros. apply at3_iff. assumption. Qed.
Lemma dn_at3_have (Q : nat -> nat -> nat -> Prop) (m0 : mem) :
  (forall b u s c, b < B -> u < P -> s < m -> c < CC -> Q b u s ->
     m0 (adr (l * b + (m * u + s)) + c) = Val (g (l * b + (m * u + s)) c)) ->
  dn adr CC g (at3 Q) m0 m0.
Proof. intros H. apply dn_have. intros i c (b & u & s & Hb & Hu & Hs & -> & HQ) Hc. apply H; assumption. Qed.

Lemma WP_at3 (Rk : nat -> nat -> nat -> nat -> Prop) (Q Q' : nat -> nat -> nat -> Prop) lo hi body (m0 m1 : mem) (K : mem -> Prop) :
  dn adr CC g (at3 Q) m0 m1 ->
  (forall k b u s, lo <= k < hi -> b < B -> u < P -> s < m -> Rk k b u s -> ~ Q b u s) ->
  (forall k k' b u s, lo <= k < hi -> lo <= k' < hi -> b < B -> u < P -> s < m -> Rk k b u s -> Rk k' b u s -> k = k') ->
  (forall b u s, b < B -> u < P -> s < m -> Q' b u s <-> (Q b u s \/ exists k, lo <= k < hi /\ Rk k b u s)) ->
  (forall k, lo <= k < hi -> lset adr CC g N (at3 (Rk k)) (body k) m0) ->
  (forall m', dn adr CC g (at3 Q') m0 m' -> K m') ->
  WP (ParFor lo hi body) m1 K.
Proof.
  intros Hdn Hd1 Hd2 HQ Hb HK.
  apply (WP_rows adr CC g N Hinj (fun k => at3 (Rk k)) (at3 Q) (at3 Q') lo hi body m0); auto; unfold rng.
  - intros i Hi. apply at3_lt in Hi. lia.
  - intros k i Hk Hi. split; [apply at3_lt in Hi; lia|]. intros Hi'.
    destruct Hi as (b & u & s & Eb & Eu & Es & E & HR). destruct Hi' as (b' & u' & s' & Eb' & Eu' & Es' & E' & HQ').
    rewrite E in E'. apply at3_inj in E'; auto. destruct E' as (-> & -> & ->). apply (Hd1 k b' u' s'); auto; lia.
  - intros k k' i Hk Hk' Hi Hi'.
    destruct Hi as (b & u & s & Eb & Eu & Es & E & HR). destruct Hi' as (b' & u' & s' & Eb' & Eu' & Es' & E' & HQ').
    rewrite E in E'. apply at3_inj in E'; auto. destruct E' as (-> & -> & ->). eapply Hd2; [| |exact Eb|exact Eu|exact Es| |]; eauto; lia.
  - intros i. split.
    + intros (b & u & s & Eb & Eu & Es & E & Hx). apply HQ in Hx; auto. destruct Hx as [Hx|(k & Hk & Hx)].
      * left. exists b, u, s. auto.
      * right. exists k. split; [lia|]. exists b, u, s. auto 10.
    + intros [(b & u & s & Eb & Eu & Es & E & Hx)|(k & Hk & b & u & s & Eb & Eu & Es & E & Hx)].
      * exists b, u, s. repeat (split; [assumption|]). apply HQ; auto.
      * exists b, u, s. repeat (split; [assumption|]). apply HQ; auto. right. exists k. split; [lia|assumption].
Qed.
Lemma at3_sets (Q : nat -> nat -> nat -> Prop) m0 m1 : N = l * B -> (forall b u s, b < B -> u < P -> s < m -> Q b u s) ->
  dn adr CC g (at3 Q) m0 m1 -> sets adr CC g N m0 m1.
Proof.
  intros EN HQ H. apply dn_sets with (P := at3 Q); [|assumption]. intros i. rewrite EN, <- at3_all. apply at3_iff.
  intros. split; auto.
Qed.

(** one row *)
Lemma lset_at3_1 b0 u0 s0 p (m0 : mem) : b0 < B -> u0 < P -> s0 < m ->
  lset adr CC g N (eq (l * b0 + (m * u0 + s0))) p m0 ->
  lset adr CC g N (at3 (fun b u s => b = b0 /\ u = u0 /\ s = s0)) p m0.
Proof.
  intros Hb Hu Hs. apply lset_iff. intros i. split.
  - intros <-. exists b0, u0, s0. auto 10.
  - intros (b & u & s & Hb' & Hu' & Hs' & -> & -> & -> & ->). reflexivity.
Qed.
(** a row of m columns without the first ones *)
Lemma lset_at3_row lo b0 u0 inner (m0 : mem) : b0 < B -> u0 < P ->
  (forall s, lo <= s < m -> lset adr CC g N (eq (l * b0 + (m * u0 + s))) (inner s) m0) ->
  lset adr CC g N (at3 (fun b u s => b = b0 /\ u = u0 /\ lo <= s)) (pForR lo m inner) m0.
Proof.
  intros Hb Hu Hi.
  apply lset_iff with (R := fun i => exists s, rng lo m s /\ l * b0 + (m * u0 + s) = i).
  - intros i. unfold rng. split.
    + intros (s & Hs & <-). exists b0, u0, s. repeat split; lia.
    + intros (b & u & s & Hb' & Hu' & Hs' & -> & -> & -> & Hlo). exists s. lia.
  - apply (lset_for adr CC g N Hinj (fun s => eq (l * b0 + (m * u0 + s)))); unfold rng.
    + intros s i Hs <-. assert (m * u0 + s < l) by nia. assert (l * b0 + l <= l * B) by nia. lia.
    + intros. lia.
    + intros s Hs. apply Hi. lia.
Qed.
Lemma lset_at3_seq (Q1 Q2 : nat -> nat -> nat -> Prop) p q (m0 : mem) :
  (forall b u s, b < B -> u < P -> s < m -> Q1 b u s -> Q2 b u s -> False) ->
  lset adr CC g N (at3 Q1) p m0 -> lset adr CC g N (at3 Q2) q m0 ->
  lset adr CC g N (at3 (fun b u s => Q1 b u s \/ Q2 b u s)) (pseq p q) m0.
Proof.
  intros Hd H1 H2. apply lset_iff with (R := fun i => at3 Q1 i \/ at3 Q2 i).
  - intros i. split.
    + intros [(b & u & s & Hb & Hu & Hs & E & HQ)|(b & u & s & Hb & Hu & Hs & E & HQ)]; exists b, u, s; auto 10.
    + intros (b & u & s & Hb & Hu & Hs & E & [HQ|HQ]); [left|right]; exists b, u, s; auto 10.
  - apply (lset_pseq adr CC g N Hinj); try assumption.
    + intros i (b & u & s & Eb & Eu & Es & E & HR) (b' & u' & s' & Eb' & Eu' & Es' & E' & HQ').
      rewrite E in E'. apply at3_inj in E'; auto. destruct E' as (-> & -> & ->). eapply Hd; eauto.
    + intros i Hi. apply at3_lt in Hi. lia.
    + intros i Hi. apply at3_lt in Hi. lia.
Qed.
Lemma lset_at3_iff (Q Q' : nat -> nat -> nat -> Prop) p (m0 : mem) :
  (forall b u s, b < B -> u < P -> s < m -> Q b u s <-> Q' b u s) ->
  lset adr CC g N (at3 Q) p m0 -> lset adr CC g N (at3 Q') p m0.
Proof. intros H. apply lset_iff. intros. apply at3_iff. assumption. Qed.
(** rows u0,s0 of the first blocks *)
Lemma lset_at3_b1 u0 s0 p (m0 : mem) : B = 1 -> u0 < P -> s0 < m ->
  lset adr CC g N (eq (m * u0 + s0)) p m0 ->
  lset adr CC g N (at3 (fun b u s => u = u0 /\ s = s0)) p m0.
Proof.
  intros HB Hu Hs. apply lset_iff. intros i. split.
  - intros <-. exists 0, u0, s0. repeat split; lia.
  - intros (b & u & s & Hb' & Hu' & Hs' & -> & -> & ->). replace b with 0 by lia. lia.
Qed.
Lemma lset_at3_b2 u0 s0 p (m0 : mem) : B = 2 -> u0 < P -> s0 < m ->
  lset adr CC g N (fun i => m * u0 + s0 = i \/ l + (m * u0 + s0) = i) p m0 ->
  lset adr CC g N (at3 (fun b u s => u = u0 /\ s = s0)) p m0.
Proof.
  intros HB Hu Hs. apply lset_iff. intros i. split.
  - intros [<-|<-]; [exists 0, u0, s0|exists 1, u0, s0]; repeat split; lia.
  - intros (b & u & s & Hb' & Hu' & Hs' & -> & -> & ->). destruct b as [|[|b]]; [left|right|]; lia.
Qed.
Lemma lset_at3_r1 lo u0 inner (m0 : mem) : B = 1 -> u0 < P ->
  (forall s, lo <= s < m -> lset adr CC g N (eq (m * u0 + s)) (inner s) m0) ->
  lset adr CC g N (at3 (fun b u s => u = u0 /\ lo <= s)) (pForR lo m inner) m0.
Proof.
  intros HB Hu Hi. apply lset_at3_iff with (Q := fun b u s => b = 0 /\ u = u0 /\ lo <= s); [intros; lia|].
  apply lset_at3_row; [lia|assumption|]. intros s Hs. rewrite Nat.mul_0_r. apply Hi. assumption.
Qed.
Lemma lset_at3_r2 lo u0 inner0 inner1 (m0 : mem) : B = 2 -> u0 < P ->
  (forall s, lo <= s < m -> lset adr CC g N (eq (m * u0 + s)) (inner0 s) m0) ->
  (forall s, lo <= s < m -> lset adr CC g N (eq (l + (m * u0 + s))) (inner1 s) m0) ->
  lset adr CC g N (at3 (fun b u s => u = u0 /\ lo <= s)) (pseq (pForR lo m inner0) (pForR lo m inner1)) m0.
Proof.
  intros HB Hu Hi Hj. apply lset_at3_iff with (Q := fun b u s => (b = 0 /\ u = u0 /\ lo <= s) \/ (b = 1 /\ u = u0 /\ lo <= s)); [intros; lia|].
  apply lset_at3_seq; [intros; lia| |].
  - apply lset_at3_row; [lia|assumption|]. intros s Hs. rewrite Nat.mul_0_r. apply Hi. assumption.
  - apply lset_at3_row; [lia|assumption|]. intros s Hs. rewrite Nat.mul_1_r. apply Hj. assumption.
Qed.
End R.
