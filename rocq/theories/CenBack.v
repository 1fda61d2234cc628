(** Filling the two halves of a centered buffer: rows s-m0 (low half, m0<=s<l) and H+s (high
    half, s<LH). *)
From Coq Require Import Reals ZArith Arith Lia List Bool.
From Verif Require Import CNum Sums Roots Mem VecModel VecProofs PadModel PadKernels Loops
  PadLemmas PadMath PadGeom Fwd1 PadForward Fill CenModel CenMath CenGeom.

Section R.
Variables (adr : nat -> addr) (CC : nat) (g : nat -> nat -> C) (N : nat).
Hypothesis Hinj : injrows adr CC N.
Variables (H LH m0 l : nat).
Hypothesis Hl : m0 + H = l.
Hypothesis HN : H + LH = N.

Definition at2 (Ql Qh : nat -> Prop) (j : nat) : Prop :=
  (exists s, m0 <= s < l /\ j = s - m0 /\ Ql s) \/ (exists s, s < LH /\ j = H + s /\ Qh s).
Lemma at2_lt Ql Qh j : at2 Ql Qh j -> j < N.
Proof. intros [(s & Hs & -> & _)|(s & Hs & -> & _)]; lia. Qed.
Lemma at2_iff (Ql Qh Ql' Qh' : nat -> Prop) j :
  (forall s, m0 <= s < l -> Ql s <-> Ql' s) -> (forall s, s < LH -> Qh s <-> Qh' s) ->
  at2 Ql Qh j <-> at2 Ql' Qh' j.
Proof.
  intros H1 H2. split; (intros [(s & Hs & -> & Hq)|(s & Hs & -> & Hq)]; [left|right]; exists s;
    (split; [assumption|]; split; [reflexivity|])); (apply H1 || apply H2); assumption.
Qed.
Lemma at2_dis (Ql Qh Ql' Qh' : nat -> Prop) j :
  (forall s, m0 <= s < l -> Ql s -> ~ Ql' s) -> (forall s, s < LH -> Qh s -> ~ Qh' s) ->
  at2 Ql Qh j -> ~ at2 Ql' Qh' j.
Proof.
  intros H1 H2 [(s & Hs & E & Hq)|(s & Hs & E & Hq)] [(s' & Hs' & E' & Hq')|(s' & Hs' & E' & Hq')].
  - assert (s = s') by lia. subst s'. apply (H1 s); assumption.
  - lia.
  - lia.
  - assert (s = s') by lia. subst s'. apply (H2 s); assumption.
Qed.
Lemma at2_nil (m1 : mem) : dn adr CC g (at2 (fun _ => False) (fun _ => False)) m1 m1.
Proof. apply dn_have. intros i c [(s & _ & _ & [])|(s & _ & _ & [])]. Qed.
Lemma at2_sets (Ql Qh : nat -> Prop) (m1 m2 : mem) :
  (forall s, m0 <= s < l -> Ql s) -> (forall s, s < LH -> Qh s) ->
  dn adr CC g (at2 Ql Qh) m1 m2 -> sets adr CC g N m1 m2.
Proof.
  intros H1 H2. apply dn_sets. intros j. split; [apply at2_lt|]. intros Hj.
  destruct (Nat.lt_ge_cases j H).
  - left. exists (j + m0). split; [lia|]. split; [lia|]. apply H1. lia.
  - right. exists (j - H). split; [lia|]. split; [lia|]. apply H2. lia.
Qed.

Lemma WP_at2 (Rl Rh : nat -> nat -> Prop) (Ql Qh Ql' Qh' : nat -> Prop) lo hi body (m1 m2 : mem) (K : mem -> Prop) :
  dn adr CC g (at2 Ql Qh) m1 m2 ->
  (forall k s, lo <= k < hi -> m0 <= s < l -> Rl k s -> ~ Ql s) ->
  (forall k s, lo <= k < hi -> s < LH -> Rh k s -> ~ Qh s) ->
  (forall k k' s, lo <= k < hi -> lo <= k' < hi -> m0 <= s < l -> Rl k s -> Rl k' s -> k = k') ->
  (forall k k' s, lo <= k < hi -> lo <= k' < hi -> s < LH -> Rh k s -> Rh k' s -> k = k') ->
  (forall s, m0 <= s < l -> Ql' s <-> (Ql s \/ exists k, lo <= k < hi /\ Rl k s)) ->
  (forall s, s < LH -> Qh' s <-> (Qh s \/ exists k, lo <= k < hi /\ Rh k s)) ->
  (forall k, lo <= k < hi -> lset adr CC g N (at2 (Rl k) (Rh k)) (body k) m1) ->
  (forall m', dn adr CC g (at2 Ql' Qh') m1 m' -> K m') ->
  WP (ParFor lo hi body) m2 K.
Proof.
  intros Hdn Hd1 Hd2 Hi1 Hi2 HQ1 HQ2 Hb HK.
  apply (WP_rows adr CC g N Hinj (fun k => at2 (Rl k) (Rh k)) (at2 Ql Qh) (at2 Ql' Qh') lo hi body m1); auto; unfold rng.
  - intros i. apply at2_lt.
  - intros k i Hk Hi. split; [eapply at2_lt; eassumption|]. revert Hi. apply at2_dis; intros s Hs HR; [eapply Hd1|eapply Hd2]; eauto; lia.
  - intros k k' i Hk Hk' [(s & Hs & E & Hq)|(s & Hs & E & Hq)] [(s' & Hs' & E' & Hq')|(s' & Hs' & E' & Hq')].
    + assert (s = s') by lia. subst s'. apply (Hi1 k k' s); auto; lia.
    + lia.
    + lia.
    + assert (s = s') by lia. subst s'. apply (Hi2 k k' s); auto; lia.
  - intros i. split.
    + intros [(s & Hs & E & Hq)|(s & Hs & E & Hq)].
      * apply HQ1 in Hq; [|assumption]. destruct Hq as [Hq|(k & Hk & Hq)].
        -- left; left. exists s. auto.
        -- right. exists k. split; [lia|]. left. exists s. auto.
      * apply HQ2 in Hq; [|assumption]. destruct Hq as [Hq|(k & Hk & Hq)].
        -- left; right. exists s. auto.
        -- right. exists k. split; [lia|]. right. exists s. auto.
    + intros [[(s & Hs & E & Hq)|(s & Hs & E & Hq)]|(k & Hk & [(s & Hs & E & Hq)|(s & Hs & E & Hq)])].
      * left. exists s. split; [assumption|]. split; [assumption|]. apply HQ1; auto.
      * right. exists s. split; [assumption|]. split; [assumption|]. apply HQ2; auto.
      * left. exists s. split; [assumption|]. split; [assumption|]. apply HQ1; auto. right. exists k. split; [lia|assumption].
      * right. exists s. split; [assumption|]. split; [assumption|]. apply HQ2; auto. right. exists k. split; [lia|assumption].
Qed.

(** iteration k handles position off+k of the low half (if El) and of the high half (if Eh) *)
Lemma WP_at2s (El Eh : Prop) off (Ql Qh Ql' Qh' : nat -> Prop) lo hi body (m1 m2 : mem) (K : mem -> Prop) :
  dn adr CC g (at2 Ql Qh) m1 m2 ->
  (forall s, m0 <= s < l -> El -> off + lo <= s < off + hi -> ~ Ql s) ->
  (forall s, s < LH -> Eh -> off + lo <= s < off + hi -> ~ Qh s) ->
  (forall s, m0 <= s < l -> Ql' s <-> (Ql s \/ (El /\ off + lo <= s < off + hi))) ->
  (forall s, s < LH -> Qh' s <-> (Qh s \/ (Eh /\ off + lo <= s < off + hi))) ->
  (forall k, lo <= k < hi -> lset adr CC g N (at2 (fun s => El /\ off + k = s) (fun s => Eh /\ off + k = s)) (body k) m1) ->
  (forall m', dn adr CC g (at2 Ql' Qh') m1 m' -> K m') ->
  WP (ParFor lo hi body) m2 K.
Proof.
  intros Hdn H1 H2 H3 H4 Hb HK.
  apply (WP_at2 (fun k s => El /\ off + k = s) (fun k s => Eh /\ off + k = s) Ql Qh Ql' Qh' lo hi body m1 m2 K); auto.
  - intros k s Hk Hs [HE E]. apply H1; auto; lia.
  - intros k s Hk Hs [HE E]. apply H2; auto; lia.
  - intros; lia.
  - intros; lia.
  - intros s Hs. rewrite (H3 s Hs). split; (intros [Hx|Hx]; [left; assumption|right]).
    + exists (s - off). destruct Hx as [HE Hx]. split; [lia|]. split; [assumption|lia].
    + destruct Hx as (k & Hk & HE & Hx). split; [assumption|lia].
  - intros s Hs. rewrite (H4 s Hs). split; (intros [Hx|Hx]; [left; assumption|right]).
    + exists (s - off). destruct Hx as [HE Hx]. split; [lia|]. split; [assumption|lia].
    + destruct Hx as (k & Hk & HE & Hx). split; [assumption|lia].
Qed.
(** iteration k handles the positions k*b..k*b+b-1 *)
Lemma WP_at2n (El Eh : Prop) b (Ql Qh Ql' Qh' : nat -> Prop) lo hi body (m1 m2 : mem) (K : mem -> Prop) :
  1 <= b ->
  dn adr CC g (at2 Ql Qh) m1 m2 ->
  (forall s, m0 <= s < l -> El -> lo * b <= s < hi * b -> ~ Ql s) ->
  (forall s, s < LH -> Eh -> lo * b <= s < hi * b -> ~ Qh s) ->
  (forall s, m0 <= s < l -> Ql' s <-> (Ql s \/ (El /\ lo * b <= s < hi * b))) ->
  (forall s, s < LH -> Qh' s <-> (Qh s \/ (Eh /\ lo * b <= s < hi * b))) ->
  (forall k, lo <= k < hi -> lset adr CC g N (at2 (fun s => El /\ k * b <= s < k * b + b) (fun s => Eh /\ k * b <= s < k * b + b)) (body k) m1) ->
  (forall m', dn adr CC g (at2 Ql' Qh') m1 m' -> K m') ->
  WP (ParFor lo hi body) m2 K.
Proof.
  intros Hb1 Hdn H1 H2 H3 H4 Hb HK.
  assert (Hd : forall k s, lo <= k < hi -> k * b <= s < k * b + b -> lo * b <= s < hi * b).
  { intros k s Hk Hs. assert (lo * b <= k * b) by (apply Nat.mul_le_mono_r; lia).
    assert ((k + 1) * b <= hi * b) by (apply Nat.mul_le_mono_r; lia). lia. }
  assert (He : forall s, lo * b <= s < hi * b -> exists k, lo <= k < hi /\ k * b <= s < k * b + b).
  { intros s Hs. exists (s / b). pose proof (Nat.div_mod s b ltac:(lia)). pose proof (Nat.mod_upper_bound s b ltac:(lia)).
    split; [split|lia].
    - apply Nat.div_le_lower_bound; lia.
    - apply Nat.div_lt_upper_bound; lia. }
  apply (WP_at2 (fun k s => El /\ k * b <= s < k * b + b) (fun k s => Eh /\ k * b <= s < k * b + b) Ql Qh Ql' Qh' lo hi body m1 m2 K); auto.
  - intros k s Hk Hs [HE E]. apply H1; auto. apply (Hd k); assumption.
  - intros k s Hk Hs [HE E]. apply H2; auto. apply (Hd k); assumption.
  - intros k k' s Hk Hk' Hs [_ E] [_ E']. eapply mul_div_eq; eassumption.
  - intros k k' s Hk Hk' Hs [_ E] [_ E']. eapply mul_div_eq; eassumption.
  - intros s Hs. rewrite (H3 s Hs). split; (intros [Hx|Hx]; [left; assumption|right]).
    + destruct Hx as [HE Hx]. destruct (He s Hx) as (k & Hk & Ek). exists k. auto.
    + destruct Hx as (k & Hk & HE & Hx). split; [assumption|]. apply (Hd k); assumption.
  - intros s Hs. rewrite (H4 s Hs). split; (intros [Hx|Hx]; [left; assumption|right]).
    + destruct Hx as [HE Hx]. destruct (He s Hx) as (k & Hk & Ek). exists k. auto.
    + destruct Hx as (k & Hk & HE & Hx). split; [assumption|]. apply (Hd k); assumption.
Qed.

(** leaves *)
Lemma lset_at2_lo s p (m1 : mem) : m0 <= s < l -> lset adr CC g N (eq (s - m0)) p m1 ->
  lset adr CC g N (at2 (fun s' => True /\ s = s') (fun s' => False /\ s = s')) p m1.
Proof.
  intros Hs. apply lset_iff. intros i. split.
  - intros <-. left. exists s. auto.
  - intros [(s' & Hs' & -> & _ & ->)|(s' & _ & _ & [] & _)]. reflexivity.
Qed.
Lemma lset_at2_hi s p (m1 : mem) : s < LH -> lset adr CC g N (eq (H + s)) p m1 ->
  lset adr CC g N (at2 (fun s' => False /\ s = s') (fun s' => True /\ s = s')) p m1.
Proof.
  intros Hs. apply lset_iff. intros i. split.
  - intros <-. right. exists s. auto.
  - intros [(s' & _ & _ & [] & _)|(s' & Hs' & -> & _ & ->)]. reflexivity.
Qed.
Lemma lset_at2_both s p (m1 : mem) : m0 <= s < l -> s < LH ->
  lset adr CC g N (fun i => s - m0 = i \/ H + s = i) p m1 ->
  lset adr CC g N (at2 (fun s' => True /\ s = s') (fun s' => True /\ s = s')) p m1.
Proof.
  intros Hs Hs'. apply lset_iff. intros i. split.
  - intros [<-|<-]; [left|right]; exists s; auto.
  - intros [(s' & _ & -> & _ & ->)|(s' & _ & -> & _ & ->)]; auto.
Qed.
(** a block of b positions of both halves *)
Lemma lset_at2_block tm b inner (m1 : mem) : m0 <= tm -> tm + b <= l -> tm + b <= LH ->
  (forall s, s < b -> lset adr CC g N (fun i => tm + s - m0 = i \/ H + (tm + s) = i) (inner s) m1) ->
  lset adr CC g N (at2 (fun s => True /\ tm <= s < tm + b) (fun s => True /\ tm <= s < tm + b)) (pForR 0 b inner) m1.
Proof.
  intros H1 H2 H3 Hi.
  apply lset_iff with (R := fun i => exists s, rng 0 b s /\ (tm + s - m0 = i \/ H + (tm + s) = i)).
  - intros i. unfold rng. split.
    + intros (s & Hs & [<-|<-]); [left|right]; exists (tm + s); lia.
    + intros [(s & Hs & -> & _ & Hx)|(s & Hs & -> & _ & Hx)]; exists (s - tm); lia.
  - apply (lset_for adr CC g N Hinj (fun s i => tm + s - m0 = i \/ H + (tm + s) = i)); unfold rng.
    + intros; lia.
    + intros; lia.
    + intros s Hs. apply Hi. lia.
Qed.
End R.
