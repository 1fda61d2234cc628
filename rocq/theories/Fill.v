(** Reasoning about sequences of parallel loops that together fill the rows of a
    buffer (row i at address adr i): the effect of the loops so far is an explicit set of rows, and each loop
    body is examined in the memory before the first loop. *)
From Coq Require Import Reals ZArith Arith Lia List Bool Classical_Prop.
From Verif Require Import CNum Sums Roots Mem VecModel PadModel Loops.
Import ListNotations.

(** m' is m with the words a set to v for X a v *)
Definition eff (X : addr -> C -> Prop) (m m' : mem) : Prop :=
  (forall a v, X a v -> m' a = Val v) /\ (forall a, (forall v, ~ X a v) -> m' a = m a).

Lemma eff_iff (X X' : addr -> C -> Prop) m m' : (forall a v, X a v <-> X' a v) -> eff X m m' -> eff X' m m'.
Proof. intros H [A B]. split; [intros; apply A, H; assumption|intros a Ha; apply B; intros v Hv; apply (Ha v), H, Hv]. Qed.
Lemma eff_alloc X m m' : eff X m m' -> forall a, m a <> Unalloc -> m' a <> Unalloc.
Proof.
  intros [A B] a Ha. destruct (classic (exists v, X a v)) as [[v Hv]|Hn].
  - rewrite (A a v Hv). discriminate.
  - rewrite B; [assumption|]. intros v Hv. apply Hn. exists v. assumption.
Qed.

(** one loop body: reads R and its own words, sets exactly the words of Y *)
Definition wpe (R : addr -> Prop) (Y : addr -> C -> Prop) (p : prog C) (m : mem) : Prop :=
  wp R (fun a => exists v, Y a v) p m (fun m' => forall a v, Y a v -> m' a = Val v).

Lemma wpe_local (Y : addr -> C -> Prop) :
  local (fun a => exists v, Y a v) (fun m' : mem => forall a v, Y a v -> m' a = Val v).
Proof. intros m1 m2 H HQ a v Hv. rewrite <- H by (exists v; assumption). apply HQ; assumption. Qed.

Lemma wpe_iff R (Y Y' : addr -> C -> Prop) p m : (forall a v, Y a v <-> Y' a v) -> wpe R Y p m -> wpe R Y' p m.
Proof.
  intros H Hp. unfold wpe in *. eapply wp_weaken with (R := R) (W := fun a => exists v, Y a v).
  - auto.
  - intros a [v Hv]. exists v. apply H. assumption.
  - eapply wp_mono; [|exact Hp]. intros m' HQ a v Hv. apply HQ, H, Hv.
Qed.

Lemma wpe_for R (Z : nat -> addr -> C -> Prop) lo hi body m :
  (forall s s' a v v', rng lo hi s -> rng lo hi s' -> Z s a v -> Z s' a v' -> s = s') ->
  (forall s a v, rng lo hi s -> Z s a v -> ~ R a) ->
  (forall s, rng lo hi s -> wpe R (Z s) (body s) m) ->
  wpe R (fun a v => exists s, rng lo hi s /\ Z s a v) (pForR lo hi body) m.
Proof.
  intros H1 H2 H3. unfold wpe.
  eapply wp_weaken; [| |eapply wp_mono; [|apply (wp_for lo hi body (fun s a => exists v, Z s a v)
      (fun s m' => forall a v, Z s a v -> m' a = Val v) R m)]].
  - auto.
  - intros a (s & Hs & v & Hv). exists v, s. auto.
  - intros m' HQ a v (s & Hs & Hv). apply (HQ s); assumption.
  - intros s s' a Hs Hs' [v Hv] [v' Hv']. eapply H1; eassumption.
  - intros s a Hs [v Hv]. eapply H2; eassumption.
  - intros s Hs. apply wpe_local.
  - intros s Hs. apply H3. assumption.
Qed.

(** a body run from a state that differs only outside its footprint *)
Lemma wpe_transport (R : addr -> Prop) (Y : addr -> C -> Prop) (p : prog C) (m m1 : mem) :
  (forall a, R a \/ (exists v, Y a v) -> m a = m1 a) -> wpe R Y p m -> wpe R Y p m1.
Proof.
  intros H Hp. unfold wpe in *.
  eapply (wp_local C R (fun a => exists v, Y a v) p (fun m' => forall a v, Y a v -> m' a = Val v)); [|exact H|exact Hp].
  intros ma mb Hm HQ. eapply wpe_local; [|exact HQ]. intros a Ha. apply Hm. auto.
Qed.

Lemma wpe_seq (R : addr -> Prop) (Y1 Y2 : addr -> C -> Prop) (p q : prog C) (m : mem) :
  (forall a v v', Y1 a v -> Y2 a v' -> False) ->
  (forall a v, Y1 a v -> ~ R a) -> (forall a v, Y2 a v -> ~ R a) ->
  wpe R Y1 p m -> wpe R Y2 q m -> wpe R (fun a v => Y1 a v \/ Y2 a v) (pseq p q) m.
Proof.
  intros Hd H1 H2 Hp Hq. unfold wpe. apply wp_pseq.
  eapply wp_weaken with (R := R) (W := fun a => exists v, Y1 a v).
  { auto. } { intros a [v Hv]. exists v. auto. }
  pose proof (wp_frame _ _ _ _ _ _ Hp) as Hp'. eapply wp_mono; [|exact Hp'].
  intros m1 [HQ [HF _]]. 
  assert (Hq1 : wpe R Y2 q m1).
  { eapply wpe_transport; [|exact Hq]. intros a [Ha|[v Hv]]; symmetry; apply HF.
    - intros [v Hv]. apply (H1 a v Hv Ha).
    - intros [v' Hv']. eapply Hd; eassumption. }
  eapply wp_weaken with (R := R) (W := fun a => exists v, Y2 a v).
  { auto. } { intros a [v Hv]. exists v. auto. }
  pose proof (wp_frame _ _ _ _ _ _ Hq1) as Hq'. eapply wp_mono; [|exact Hq'].
  intros m2 [HQ2 [HF2 _]] a v [Hv|Hv].
  - rewrite HF2; [apply HQ; assumption|]. intros [v' Hv']. eapply Hd; eassumption.
  - apply HQ2; assumption.
Qed.

(** a body that leaves some words, which already have the right value, alone *)
Lemma wpe_keep (R : addr -> Prop) (Y Y' : addr -> C -> Prop) (p : prog C) (m : mem) :
  (forall a v v', Y a v -> Y' a v' -> False) ->
  (forall a v, Y' a v -> m a = Val v) ->
  wpe R Y p m -> wpe R (fun a v => Y a v \/ Y' a v) p m.
Proof.
  intros Hd H1 Hp. unfold wpe in *.
  eapply wp_weaken with (R := R) (W := fun a => exists v, Y a v).
  { auto. } { intros a [v Hv]. exists v. auto. }
  pose proof (wp_frame _ _ _ _ _ _ Hp) as Hp'. eapply wp_mono; [|exact Hp'].
  intros m1 [HQ [HF _]] a v [Hv|Hv]; [auto|]. rewrite HF; [auto|].
  intros [v' Hv']. eapply Hd; eassumption.
Qed.

(** one parallel loop after effect X *)
Lemma WP_eff (X : addr -> C -> Prop) (Y : nat -> addr -> C -> Prop) lo hi body (m m1 : mem) (K : mem -> Prop) :
  eff X m m1 ->
  (forall s s' a v v', rng lo hi s -> rng lo hi s' -> Y s a v -> Y s' a v' -> s = s') ->
  (forall s a v v', rng lo hi s -> Y s a v -> X a v' -> False) ->
  (forall s, rng lo hi s ->
     wpe (fun a => (forall v, ~ X a v) /\ forall s' v, rng lo hi s' -> ~ Y s' a v) (Y s) (body s) m) ->
  (forall m', eff (fun a v => X a v \/ exists s, rng lo hi s /\ Y s a v) m m' -> K m') ->
  WP (ParFor lo hi body) m1 K.
Proof.
  intros [EX EF] Hinj Hfr Hleaf HK.
  apply WP_for with (W := fun s a => exists v, Y s a v) (Q := fun s m' => forall a v, Y s a v -> m' a = Val v).
  - intros s s' a Hs Hs' [v Hv] [v' Hv']. eapply Hinj; eassumption.
  - intros s Hs. apply wpe_local.
  - intros s Hs.
    eapply wp_weaken with (R := fun a => (forall v, ~ X a v) /\ forall s' v, rng lo hi s' -> ~ Y s' a v)
      (W := fun a => exists v, Y s a v).
    + intros a [_ Ha]. left. intros s' Hs' [v Hv]. eapply Ha; eassumption.
    + auto.
    + apply (wpe_transport _ _ _ m m1); [|apply Hleaf; assumption].
      intros a [[Ha _]|[v Hv]]; symmetry; apply EF; [assumption|].
      intros v' Hv'. eapply Hfr; eassumption.
  - intros m' HQ HF Hal. apply HK. split.
    + intros a v [Hv|(s & Hs & Hv)]; [|apply (HQ s); assumption].
      rewrite HF; [apply EX; assumption|]. intros s Hs [v' Hv']. eapply Hfr; eassumption.
    + intros a Ha. rewrite HF.
      * apply EF. intros v Hv. apply (Ha v). auto.
      * intros s Hs [v Hv]. apply (Ha v). right. exists s. auto.
Qed.

(** *** symbolic execution of a loop body *)
Lemma wpe_rd (R : addr -> Prop) (Y : addr -> C -> Prop) a k (m : mem) v :
  R a \/ (exists w, Y a w) -> m a = Val v -> wpe R Y (k v) m -> wpe R Y (Rd a k) m.
Proof. intros H E Hk. unfold wpe in *. cbn [wp]. split; [assumption|]. exists v. auto. Qed.
Lemma wpe_tget R Y T i v k (m : mem) : T i = Some v -> wpe R Y (k v) m -> wpe R Y (tget T i k) m.
Proof. intros E H. rewrite (tget_some _ _ _ _ E). assumption. Qed.
Lemma wpe_w1 R (Y : addr -> C -> Prop) d v (m : mem) :
  Y d v -> (forall a w, Y a w -> a = d /\ w = v) -> m d <> Unalloc -> wpe R Y (Wr d v Ret) m.
Proof.
  intros H1 H2 Ha. unfold wpe. cbn [wp]. split; [exists v; assumption|]. split; [assumption|].
  intros a w Hw. destruct (H2 a w Hw) as [-> ->]. apply upd_eq.
Qed.
Lemma wpe_w2 R (Y : addr -> C -> Prop) d v d' v' (m : mem) :
  Y d v -> Y d' v' -> (forall a w, Y a w -> (a = d /\ w = v) \/ (a = d' /\ w = v')) -> d <> d' ->
  m d <> Unalloc -> m d' <> Unalloc -> wpe R Y (Wr d v (Wr d' v' Ret)) m.
Proof.
  intros H1 H1' H2 Hne Ha Ha'. unfold wpe. cbn [wp]. split; [exists v; assumption|]. split; [assumption|].
  split; [exists v'; assumption|]. split; [rewrite upd_neq by congruence; assumption|].
  intros a w Hw. destruct (H2 a w Hw) as [[-> ->]|[-> ->]]; [rewrite upd_neq by congruence|]; apply upd_eq.
Qed.
(** the second word is computed from the first by reading it back *)
Lemma wpe_w2c R (Y : addr -> C -> Prop) d v d' k (m : mem) :
  Y d v -> Y d' (k v) -> (forall a w, Y a w -> (a = d /\ w = v) \/ (a = d' /\ w = k v)) -> d <> d' ->
  m d <> Unalloc -> m d' <> Unalloc -> wpe R Y (Wr d v (Rd d (fun y => Wr d' (k y) Ret))) m.
Proof.
  intros H1 H1' H2 Hne Ha Ha'. unfold wpe. cbn [wp]. split; [exists v; assumption|]. split; [assumption|].
  split; [right; exists v; assumption|]. exists v. split; [apply upd_eq|].
  split; [exists (k v); assumption|]. split; [rewrite upd_neq by congruence; assumption|].
  intros a w Hw. destruct (H2 a w Hw) as [[-> ->]|[-> ->]]; [rewrite upd_neq by congruence|]; apply upd_eq.
Qed.
(** read-modify-write of a second word *)
Lemma wpe_w2r R (Y : addr -> C -> Prop) d v d' y k (m : mem) :
  Y d v -> Y d' (k y) -> (forall a w, Y a w -> (a = d /\ w = v) \/ (a = d' /\ w = k y)) -> d <> d' ->
  m d <> Unalloc -> m d' = Val y -> wpe R Y (Wr d v (Rd d' (fun y => Wr d' (k y) Ret))) m.
Proof.
  intros H1 H1' H2 Hne Ha Ha'. unfold wpe. cbn [wp]. split; [exists v; assumption|]. split; [assumption|].
  split; [right; exists (k y); assumption|]. exists y. split; [rewrite upd_neq by congruence; assumption|].
  split; [exists (k y); assumption|]. split; [rewrite upd_neq by congruence; rewrite Ha'; discriminate|].
  intros a w Hw. destruct (H2 a w Hw) as [[-> ->]|[-> ->]]; [rewrite upd_neq by congruence|]; apply upd_eq.
Qed.
Lemma wpe_w3 R (Y : addr -> C -> Prop) d v d' v' d2 v2 (m : mem) :
  Y d v -> Y d' v' -> Y d2 v2 ->
  (forall a w, Y a w -> (a = d /\ w = v) \/ (a = d' /\ w = v') \/ (a = d2 /\ w = v2)) ->
  d <> d' -> d <> d2 -> d' <> d2 ->
  m d <> Unalloc -> m d' <> Unalloc -> m d2 <> Unalloc -> wpe R Y (Wr d v (Wr d' v' (Wr d2 v2 Ret))) m.
Proof.
  intros H1 H1' H1'' H2 N1 N2 N3 Ha Ha' Ha2. unfold wpe. cbn [wp]. split; [exists v; assumption|]. split; [assumption|].
  split; [exists v'; assumption|]. split; [rewrite upd_neq by congruence; assumption|].
  split; [exists v2; assumption|]. split; [rewrite !upd_neq by congruence; assumption|].
  intros a w Hw. destruct (H2 a w Hw) as [[-> ->]|[[-> ->]|[-> ->]]]; rewrite ?upd_neq by congruence; apply upd_eq.
Qed.

(** *** rows of a buffer *)
Section Rows.
Variables (adr : nat -> addr) (CC : nat) (g : nat -> nat -> C) (N : nat).
Definition row (i c : nat) (a : addr) (v : C) : Prop := a = adr i + c /\ v = g i c.
(** the rows i with P i, all columns *)
Definition rset (P : nat -> Prop) (a : addr) (v : C) : Prop := exists i c, P i /\ c < CC /\ row i c a v.
Definition outs (a : addr) : Prop := forall i c, i < N -> c < CC -> a <> adr i + c.
(** memory m' is m with the rows in P filled *)
Definition dn (P : nat -> Prop) (m m' : mem) : Prop := eff (rset P) m m'.
(** all rows *)
Definition sets (m m' : mem) : Prop :=
  (forall i c, i < N -> c < CC -> m' (adr i + c) = Val (g i c)) /\
  (forall a, outs a -> m' a = m a) /\ (forall a, m a <> Unalloc -> m' a <> Unalloc).

Definition injrows : Prop := forall i c i' c', i < N -> i' < N -> c < CC -> c' < CC ->
  adr i + c = adr i' + c' -> i = i' /\ c = c'.
Hypothesis Hinj : injrows.
Lemma row_inj i c i' c' a v v' : i < N -> i' < N -> c < CC -> c' < CC ->
  row i c a v -> row i' c' a v' -> i = i' /\ c = c'.
Proof. intros H1 H2 H3 H4 [E _] [E' _]. apply Hinj; auto. congruence. Qed.
Lemma outs_rset a v (P : nat -> Prop) : (forall i, P i -> i < N) -> outs a -> ~ rset P a v.
Proof. intros HP Ha (i & c & Hi & Hc & E & _). apply (Ha i c); auto. Qed.

Lemma dn_iff (P P' : nat -> Prop) m m' : (forall i, P i <-> P' i) -> dn P m m' -> dn P' m m'.
Proof.
  intros H. apply eff_iff. intros a v. split; intros (i & c & Hi & Hr); exists i, c; (split; [apply H; assumption|assumption]).
Qed.
Lemma dn_nil m : dn (fun _ => False) m m.
Proof. split; [|reflexivity]. intros a v (i & c & [] & _). Qed.
(** rows that already hold their values *)
Lemma dn_have (P : nat -> Prop) (m : mem) :
  (forall i c, P i -> c < CC -> m (adr i + c) = Val (g i c)) -> dn P m m.
Proof. intros H. split; [|reflexivity]. intros a v (i & c & Hi & Hc & -> & ->). apply H; assumption. Qed.
Lemma dn_get (P : nat -> Prop) m m' i c : dn P m m' -> P i -> c < CC -> m' (adr i + c) = Val (g i c).
Proof. intros [H _] Hi Hc. apply H. exists i, c. repeat split; auto. Qed.
Lemma dn_out (P : nat -> Prop) m m' a : dn P m m' -> (forall i, P i -> i < N) -> outs a -> m' a = m a.
Proof. intros [_ H] HP Ha. apply H. intros v. apply outs_rset; assumption. Qed.
Lemma dn_alloc P m m' a : dn P m m' -> m a <> Unalloc -> m' a <> Unalloc.
Proof. intros H. apply (eff_alloc _ _ _ H). Qed.
Lemma dn_sets (P : nat -> Prop) m m' : (forall i, P i <-> i < N) -> dn P m m' -> sets m m'.
Proof.
  intros HP H. split; [|split].
  - intros i c Hi Hc. apply (dn_get P m); auto. apply HP. assumption.
  - intros a Ha. apply (dn_out P m); auto. intros i. apply HP.
  - intros a. apply (dn_alloc P); assumption.
Qed.

(** a body that fills the rows Rw *)
Definition lset (Rw : nat -> Prop) (p : prog C) (m : mem) : Prop := wpe outs (rset Rw) p m.

Lemma lset_iff (R R' : nat -> Prop) p m : (forall i, R i <-> R' i) -> lset R p m -> lset R' p m.
Proof.
  intros H. apply wpe_iff. intros a v. split; intros (i & c & Hi & Hr); exists i, c; (split; [apply H; assumption|assumption]).
Qed.

Lemma lset_for (R : nat -> nat -> Prop) lo hi body m :
  (forall s i, rng lo hi s -> R s i -> i < N) ->
  (forall s s' i, rng lo hi s -> rng lo hi s' -> R s i -> R s' i -> s = s') ->
  (forall s, rng lo hi s -> lset (R s) (body s) m) ->
  lset (fun i => exists s, rng lo hi s /\ R s i) (pForR lo hi body) m.
Proof.
  intros HN Hd Hb. unfold lset.
  apply wpe_iff with (Y := fun a v => exists s, rng lo hi s /\ rset (R s) a v).
  { intros a v. split.
    - intros (s & Hs & i & c & Hi & Hr). exists i, c. split; [exists s; auto|assumption].
    - intros (i & c & (s & Hs & Hi) & Hr). exists s. split; [assumption|exists i, c; auto]. }
  apply wpe_for.
  - intros s s' a v v' Hs Hs' (i & c & Hi & Hc & Hr) (i' & c' & Hi' & Hc' & Hr').
    destruct (row_inj i c i' c' a v v') as [-> ->]; eauto.
  - intros s a v Hs Hr Ho. revert Hr. apply outs_rset; [|assumption]. eauto.
  - assumption.
Qed.

(** all columns of the rows Rw *)
Lemma lset_cols (R : nat -> Prop) inner m :
  (forall i, R i -> i < N) ->
  (forall c, c < CC -> wpe outs (fun a v => exists i, R i /\ row i c a v) (inner c) m) ->
  lset R (pForR 0 CC inner) m.
Proof.
  intros HN Hb. unfold lset.
  apply wpe_iff with (Y := fun a v => exists c, rng 0 CC c /\ exists i, R i /\ row i c a v).
  { intros a v. unfold rng. split.
    - intros (c & Hc & i & Hi & Hr). exists i, c. split; [assumption|]. split; [lia|assumption].
    - intros (i & c & Hi & Hc & Hr). exists c. split; [lia|exists i; auto]. }
  apply wpe_for; unfold rng.
  - intros c c' a v v' Hc Hc' (i & Hi & Hr) (i' & Hi' & Hr'). eapply (row_inj i c i' c'); eauto; lia.
  - intros c a v Hc (i & Hi & E & _) Ho. apply (Ho i c); auto. lia.
  - intros c Hc. apply Hb. lia.
Qed.
Lemma lset_cols1 i0 inner m : i0 < N ->
  (forall c, c < CC -> wpe outs (row i0 c) (inner c) m) ->
  lset (eq i0) (pForR 0 CC inner) m.
Proof.
  intros HN Hb. apply lset_cols; [intros i <-; assumption|]. intros c Hc.
  eapply wpe_iff; [|apply Hb; assumption]. intros a v. split; [intros; exists i0; auto|intros (i & <- & H); assumption].
Qed.
Definition row2 (i0 i1 c : nat) (a : addr) (v : C) : Prop := row i0 c a v \/ row i1 c a v.
Definition row3 (i0 i1 i2 c : nat) (a : addr) (v : C) : Prop := row i0 c a v \/ row i1 c a v \/ row i2 c a v.
Lemma lset_cols2 i0 i1 inner m : i0 < N -> i1 < N ->
  (forall c, c < CC -> wpe outs (row2 i0 i1 c) (inner c) m) ->
  lset (fun i => i0 = i \/ i1 = i) (pForR 0 CC inner) m.
Proof.
  intros HN HN' Hb. apply lset_cols; [intros i [<-|<-]; assumption|]. intros c Hc.
  eapply wpe_iff; [|apply Hb; assumption].
  intros a v. unfold row2. split; [intros [H|H]; [exists i0|exists i1]; auto|intros (i & [<-|<-] & H); auto].
Qed.
Lemma lset_cols3 i0 i1 i2 inner m : i0 < N -> i1 < N -> i2 < N ->
  (forall c, c < CC -> wpe outs (row3 i0 i1 i2 c) (inner c) m) ->
  lset (fun i => i0 = i \/ i1 = i \/ i2 = i) (pForR 0 CC inner) m.
Proof.
  intros HN HN' HN2 Hb. apply lset_cols; [intros i [<-|[<-|<-]]; assumption|]. intros c Hc.
  eapply wpe_iff; [|apply Hb; assumption].
  intros a v. unfold row3. split; [intros [H|[H|H]]; [exists i0|exists i1|exists i2]; auto|intros (i & [<-|[<-|<-]] & H); auto].
Qed.
(** one column only *)
Lemma lset_one i0 p m : CC = 1 -> wpe outs (row i0 0) p m -> lset (eq i0) p m.
Proof.
  intros HC. apply wpe_iff. intros a v. split.
  - intros H. exists i0, 0. split; [reflexivity|]. split; [lia|assumption].
  - intros (i & c & <- & Hc & H). replace c with 0 in H by lia. assumption.
Qed.
Lemma lset_two i0 i1 p m : CC = 1 -> wpe outs (row2 i0 i1 0) p m ->
  lset (fun i => i0 = i \/ i1 = i) p m.
Proof.
  intros HC. apply wpe_iff. intros a v. unfold row2. split.
  - intros [H|H]; [exists i0, 0|exists i1, 0]; (split; [auto|split; [lia|assumption]]).
  - intros (i & c & [<-|<-] & Hc & H); replace c with 0 in H by lia; auto.
Qed.
Lemma lset_three i0 i1 i2 p m : CC = 1 -> wpe outs (row3 i0 i1 i2 0) p m ->
  lset (fun i => i0 = i \/ i1 = i \/ i2 = i) p m.
Proof.
  intros HC. apply wpe_iff. intros a v. unfold row3. split.
  - intros [H|[H|H]]; [exists i0, 0|exists i1, 0|exists i2, 0]; (split; [auto|split; [lia|assumption]]).
  - intros (i & c & [<-|[<-|<-]] & Hc & H); replace c with 0 in H by lia; auto.
Qed.
Lemma lset_pseq (R1 R2 : nat -> Prop) p q m :
  (forall i, R1 i -> R2 i -> False) -> (forall i, R1 i -> i < N) -> (forall i, R2 i -> i < N) ->
  lset R1 p m -> lset R2 q m -> lset (fun i => R1 i \/ R2 i) (pseq p q) m.
Proof.
  intros Hd HN1 HN2 Hp Hq. unfold lset.
  apply wpe_iff with (Y := fun a v => rset R1 a v \/ rset R2 a v).
  { intros a v. split.
    - intros [(i & c & Hi & H)|(i & c & Hi & H)]; exists i, c; auto.
    - intros (i & c & [Hi|Hi] & H); [left|right]; exists i, c; auto. }
  apply wpe_seq; auto.
  - intros a v v' (i & c & Hi & Hc & Hr) (i' & c' & Hi' & Hc' & Hr').
    destruct (row_inj i c i' c' a v v') as [-> ->]; eauto.
  - intros a v Hr Ho. revert Hr. apply outs_rset; assumption.
  - intros a v Hr Ho. revert Hr. apply outs_rset; assumption.
Qed.

(** one parallel loop of a sequence *)
Lemma WP_rows (R : nat -> nat -> Prop) (P P' : nat -> Prop) lo hi body (m m1 : mem) (K : mem -> Prop) :
  dn P m m1 ->
  (forall i, P i -> i < N) ->
  (forall s i, rng lo hi s -> R s i -> i < N /\ ~ P i) ->
  (forall s s' i, rng lo hi s -> rng lo hi s' -> R s i -> R s' i -> s = s') ->
  (forall i, P' i <-> P i \/ exists s, rng lo hi s /\ R s i) ->
  (forall s, rng lo hi s -> lset (R s) (body s) m) ->
  (forall m', dn P' m m' -> K m') ->
  WP (ParFor lo hi body) m1 K.
Proof.
  intros Hdn HP HR Hd HP' Hb HK.
  apply (WP_eff (rset P) (fun s => rset (R s)) lo hi body m m1).
  - exact Hdn.
  - intros s s' a v v' Hs Hs' (i & c & Hi & Hc & Hr) (i' & c' & Hi' & Hc' & Hr').
    destruct (row_inj i c i' c' a v v') as [-> ->]; try assumption; [apply (HR s); assumption|apply (HR s'); assumption|].
    eapply Hd; eassumption.
  - intros s a v v' Hs (i & c & Hi & Hc & Hr) (i' & c' & Hi' & Hc' & Hr').
    destruct (HR s i Hs Hi) as [Hin Hnp].
    destruct (row_inj i c i' c' a v v') as [-> ->]; auto.
  - intros s Hs. unfold wpe. eapply wp_weaken; [| |apply (Hb s Hs)].
    + intros a Ha. left. split.
      * intros v. apply outs_rset; assumption.
      * intros s' v Hs'. apply outs_rset; [|assumption]. intros i Hi. apply (HR s'); assumption.
    + auto.
  - intros m' He. apply HK. eapply eff_iff; [|exact He]. intros a v. split.
    + intros [(i & c & Hi & H)|(s & Hs & i & c & Hi & H)]; exists i, c; (split; [apply HP'|assumption]); [auto|].
      right. exists s. auto.
    + intros (i & c & Hi & H). apply HP' in Hi. destruct Hi as [Hi|(s & Hs & Hi)]; [left|right; exists s; split; [assumption|]]; exists i, c; auto.
Qed.
(** a sequence of loops over blocks *)
Lemma WP_dnfor (Pk : nat -> nat -> Prop) k (body : nat -> cmd C) (m m1 : mem) (K : mem -> Prop) :
  dn (Pk 0) m m1 ->
  (forall u m', u < k -> dn (Pk u) m m' -> WP (body u) m' (fun m2 => dn (Pk (S u)) m m2)) ->
  (forall m', dn (Pk k) m m' -> K m') ->
  WP (cfor k body) m1 K.
Proof.
  intros H0 Hs HK. eapply WP_mono; [|apply (WP_cfor C k body (fun u m' => dn (Pk u) m m'))]; auto.
Qed.
End Rows.

Lemma sets_trans adr CC g g' N m m1 m2 : sets adr CC g N m m1 -> sets adr CC g' N m1 m2 -> sets adr CC g' N m m2.
Proof.
  intros (A1 & A2 & A3) (B1 & B2 & B3). split; [assumption|]. split; [|auto].
  intros a Ha. rewrite B2, A2 by assumption. reflexivity.
Qed.
Lemma sets_ext adr CC g g' N m m1 : (forall i c, i < N -> c < CC -> g i c = g' i c) ->
  sets adr CC g N m m1 -> sets adr CC g' N m m1.
Proof.
  intros E (A1 & A2). split; [|assumption]. intros i c Hi Hc. rewrite <- E by assumption. auto.
Qed.

(** *** loops that extend a filled prefix of one block, or of two blocks at once *)
Section Prefix.
Variables (adr : nat -> addr) (CC : nat) (g : nat -> nat -> C) (N : nat).
Hypothesis Hinj : injrows adr CC N.
Definition pfx2 (l k i : nat) : Prop := i < k \/ l <= i < l + k.

Lemma WP_pfx1 lo hi body (m m1 : mem) (K : mem -> Prop) :
  lo <= hi <= N ->
  dn adr CC g (fun i => i < lo) m m1 ->
  (forall s, lo <= s < hi -> lset adr CC g N (eq s) (body s) m) ->
  (forall m', dn adr CC g (fun i => i < hi) m m' -> K m') ->
  WP (ParFor lo hi body) m1 K.
Proof.
  intros Hl Hd Hb HK.
  eapply (WP_rows _ _ _ _ Hinj (fun s i => s = i) (fun i => i < lo) (fun i => i < hi)); [exact Hd|..|exact HK]; unfold rng.
  - intros; lia.
  - intros; lia.
  - intros; congruence.
  - intros i. split; [intros Hi; destruct (Nat.lt_ge_cases i lo); [auto|right; exists i; lia]|].
    intros [Hi|(s & Hs & <-)]; lia.
  - exact Hb.
Qed.
Lemma WP_pfx2 l lo hi body (m m1 : mem) (K : mem -> Prop) :
  lo <= hi <= l -> 2 * l <= N ->
  dn adr CC g (pfx2 l lo) m m1 ->
  (forall s, lo <= s < hi -> lset adr CC g N (fun i => s = i \/ l + s = i) (body s) m) ->
  (forall m', dn adr CC g (pfx2 l hi) m m' -> K m') ->
  WP (ParFor lo hi body) m1 K.
Proof.
  intros Hl HN Hd Hb HK. unfold pfx2 in *.
  eapply (WP_rows _ _ _ _ Hinj (fun s i => s = i \/ l + s = i) (fun i => i < lo \/ l <= i < l + lo)
    (fun i => i < hi \/ l <= i < l + hi)); [exact Hd|..|exact HK]; unfold rng.
  - intros; lia.
  - intros; lia.
  - intros; lia.
  - intros i. split.
    + intros Hi. destruct (Nat.lt_ge_cases i lo); [auto|]. destruct (Nat.lt_ge_cases i hi); [right; exists i; lia|].
      destruct (Nat.lt_ge_cases i (l + lo)); [left; lia|]. right. exists (i - l). lia.
    + intros [Hi|(s & Hs & Hi)]; lia.
  - exact Hb.
Qed.
(** blocks of m rows *)
Lemma lset_rows m0 tm inner (m : mem) : tm + m0 <= N ->
  (forall s, s < m0 -> lset adr CC g N (eq (tm + s)) (inner s) m) ->
  lset adr CC g N (fun i => tm <= i < tm + m0) (pForR 0 m0 inner) m.
Proof.
  intros HN Hb. eapply lset_iff; [|apply (lset_for _ _ _ _ Hinj (fun s i => tm + s = i)); unfold rng].
  - unfold rng. intros i. split; [intros (s & Hs & <-); lia|intros Hi; exists (i - tm); lia].
  - intros; lia.
  - intros; lia.
  - intros s Hs. apply Hb. lia.
Qed.
Lemma lset_rows2 m0 l tm inner (m : mem) : tm + m0 <= l -> 2 * l <= N ->
  (forall s, s < m0 -> lset adr CC g N (fun i => tm + s = i \/ l + (tm + s) = i) (inner s) m) ->
  lset adr CC g N (fun i => tm <= i < tm + m0 \/ l + tm <= i < l + tm + m0) (pForR 0 m0 inner) m.
Proof.
  intros Hl HN Hb. eapply lset_iff; [|apply (lset_for _ _ _ _ Hinj (fun s i => tm + s = i \/ l + (tm + s) = i)); unfold rng].
  - unfold rng. intros i. split; [intros (s & Hs & Hi); lia|].
    intros [Hi|Hi]; [exists (i - tm)|exists (i - l - tm)]; lia.
  - intros; lia.
  - intros; lia.
  - intros s Hs. apply Hb. lia.
Qed.
Lemma mul_div_eq m0 a b i : a * m0 <= i < a * m0 + m0 -> b * m0 <= i < b * m0 + m0 -> a = b.
Proof. intros H1 H2. nia. Qed.
Lemma WP_pfx1n m0 lo hi body (m m1 : mem) (K : mem -> Prop) :
  lo <= hi -> hi * m0 <= N -> 1 <= m0 ->
  dn adr CC g (fun i => i < lo * m0) m m1 ->
  (forall t, lo <= t < hi -> lset adr CC g N (fun i => t * m0 <= i < t * m0 + m0) (body t) m) ->
  (forall m', dn adr CC g (fun i => i < hi * m0) m m' -> K m') ->
  WP (ParFor lo hi body) m1 K.
Proof.
  intros Hl HN Hm Hd Hb HK.
  assert (Hmono : forall s, s < hi -> s * m0 + m0 <= hi * m0) by (intros; nia).
  assert (Hlo : forall s, lo <= s -> lo * m0 <= s * m0) by (intros; nia).
  eapply (WP_rows _ _ _ _ Hinj (fun t i => t * m0 <= i < t * m0 + m0) (fun i => i < lo * m0) (fun i => i < hi * m0)); [exact Hd|..|exact HK]; unfold rng.
  - intros i Hi. specialize (Hlo hi Hl). lia.
  - intros s i Hs Hi. specialize (Hmono s ltac:(lia)). specialize (Hlo s ltac:(lia)). lia.
  - intros s s' i _ _. apply mul_div_eq.
  - intros i. split.
    + intros Hi. destruct (Nat.lt_ge_cases i (lo * m0)) as [|Hi']; [auto|]. right. exists (i / m0).
      pose proof (Nat.div_mod i m0 ltac:(lia)). pose proof (Nat.mod_upper_bound i m0 ltac:(lia)).
      split; [split; [apply Nat.div_le_lower_bound; lia|apply Nat.div_lt_upper_bound; lia]|lia].
    + intros [Hi|(s & Hs & Hi)]; [specialize (Hlo hi Hl); lia|]. specialize (Hmono s ltac:(lia)). lia.
  - exact Hb.
Qed.
Lemma WP_pfx2n l m0 lo hi body (m m1 : mem) (K : mem -> Prop) :
  lo <= hi -> hi * m0 <= l -> 2 * l <= N -> 1 <= m0 ->
  dn adr CC g (pfx2 l (lo * m0)) m m1 ->
  (forall t, lo <= t < hi ->
     lset adr CC g N (fun i => t * m0 <= i < t * m0 + m0 \/ l + t * m0 <= i < l + t * m0 + m0) (body t) m) ->
  (forall m', dn adr CC g (pfx2 l (hi * m0)) m m' -> K m') ->
  WP (ParFor lo hi body) m1 K.
Proof.
  intros Hl HN HN2 Hm Hd Hb HK. unfold pfx2 in *.
  assert (Hmono : forall s, s < hi -> s * m0 + m0 <= hi * m0) by (intros; nia).
  assert (Hlo : forall s, lo <= s -> lo * m0 <= s * m0) by (intros; nia).
  pose proof (Hlo hi Hl) as Hlh.
  eapply (WP_rows _ _ _ _ Hinj (fun t i => t * m0 <= i < t * m0 + m0 \/ l + t * m0 <= i < l + t * m0 + m0)
    (fun i => i < lo * m0 \/ l <= i < l + lo * m0) (fun i => i < hi * m0 \/ l <= i < l + hi * m0)); [exact Hd|..|exact HK]; unfold rng.
  - intros i Hi. lia.
  - intros s i Hs Hi. specialize (Hmono s ltac:(lia)). specialize (Hlo s ltac:(lia)). lia.
  - intros s s' i Hs Hs' H1 H2. pose proof (Hmono s ltac:(lia)). pose proof (Hmono s' ltac:(lia)).
    destruct H1 as [H1|H1], H2 as [H2|H2]; try lia.
    + eapply mul_div_eq; eassumption.
    + apply (mul_div_eq m0 s s' (i - l)); lia.
  - intros i. split.
    + assert (Hin : forall j, lo * m0 <= j < hi * m0 -> exists s, lo <= s < hi /\ s * m0 <= j < s * m0 + m0).
      { intros j Hj. exists (j / m0).
        pose proof (Nat.div_mod j m0 ltac:(lia)). pose proof (Nat.mod_upper_bound j m0 ltac:(lia)).
        split; [split; [apply Nat.div_le_lower_bound; lia|apply Nat.div_lt_upper_bound; lia]|lia]. }
      intros [Hi|Hi].
      * destruct (Nat.lt_ge_cases i (lo * m0)) as [|Hi']; [auto|]. right.
        destruct (Hin i) as (s & Hs & Hs'); [lia|]. exists s. auto.
      * destruct (Nat.lt_ge_cases i (l + lo * m0)) as [|Hi']; [left; lia|]. right.
        destruct (Hin (i - l)) as (s & Hs & Hs'); [lia|]. exists s. split; [assumption|right; lia].
    + intros [Hi|(s & Hs & Hi)]; [lia|]. specialize (Hmono s ltac:(lia)). lia.
  - exact Hb.
Qed.
Lemma pfx2_sets l m m' : N = 2 * l -> dn adr CC g (pfx2 l l) m m' -> sets adr CC g N m m'.
Proof. intros -> Hd. eapply dn_sets; [|exact Hd]. intros i. unfold pfx2. lia. Qed.
Lemma pfx1_sets m m' : dn adr CC g (fun i => i < N) m m' -> sets adr CC g N m m'.
Proof. intros Hd. eapply dn_sets; [|exact Hd]. intros i. reflexivity. Qed.
Lemma pfx1_nil m : dn adr CC g (fun i => i < 0) m m.
Proof. eapply dn_iff; [|apply dn_nil]. intros; lia. Qed.
Lemma pfx2_nil l m : dn adr CC g (pfx2 l 0) m m.
Proof. eapply dn_iff; [|apply dn_nil]. unfold pfx2. intros; lia. Qed.
Lemma pfx1_eq k k' m m' : k = k' -> dn adr CC g (fun i => i < k) m m' -> dn adr CC g (fun i => i < k') m m'.
Proof. intros ->. auto. Qed.
End Prefix.
