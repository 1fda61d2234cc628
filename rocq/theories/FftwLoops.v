(** Loop rules for in-place word updates on double memory, and the [Runs] judgement. *)
From Coq Require Import Reals ZArith Arith List Bool Lia.
From Verif Require Import CNum Mem FftwModel.
Import ListNotations.

(** p touches only W and leaves g a in every word a of W *)
Definition upds (W : addr -> Prop) (g : addr -> cell R) (p : dprog) (m : dmem) : Prop :=
  wp (fun _ => False) W p m (fun m' => forall a, W a -> m' a = g a).

Lemma local_eqs (W : addr -> Prop) (g : addr -> cell R) :
  local (fun a => False \/ W a) (fun m : dmem => forall a, W a -> m a = g a).
Proof. intros m m' H E a Ha. rewrite <- H by auto. auto. Qed.

Lemma upd_par n body (W : nat -> addr -> Prop) g m :
  (forall i j a, i < n -> j < n -> W i a -> W j a -> i = j) ->
  (forall i, i < n -> upds (W i) g (body i) m) ->
  WP (Par n body) m (fun m' => (forall i a, i < n -> W i a -> m' a = g a) /\
     (forall a, (forall i, i < n -> ~ W i a) -> m' a = m a)).
Proof.
  intros Hd Hu.
  eapply WP_mono; [|apply (WP_par R n (fun _ _ => False) W (fun i m' => forall a, W i a -> m' a = g a))].
  - intros m' [H1 [H2 H3]]. split.
    + intros i a Hi Ha. apply (H1 i Hi a Ha).
    + intros a Ha. apply H2. intros (i & Hi & HW). exact (Ha i Hi HW).
  - intros i j a Hi Hj Hne HWi [F|HWj]; [contradiction|]. apply Hne, (Hd i j a); assumption.
  - intros i Hi. apply local_eqs.
  - exact Hu.
Qed.

Lemma upd_pfor n body (W : nat -> addr -> Prop) (WW : addr -> Prop) g m :
  (forall i j a, i < n -> j < n -> W i a -> W j a -> i = j) ->
  (forall a, WW a <-> exists i, i < n /\ W i a) ->
  (forall i, i < n -> upds (W i) g (body i) m) ->
  upds WW g (pfor n body) m.
Proof.
  intros Hd HW Hu. unfold upds.
  eapply wp_mono; [|apply (wp_pfor R n (fun _ _ => False) W (fun i m' => forall a, W i a -> m' a = g a))].
  - intros m' [H1 _] a Ha. apply HW in Ha as (i & Hi & Ha). apply (H1 i Hi a Ha).
  - intros i j a Hi Hj Hne HWi [F|HWj]; [contradiction|]. apply Hne, (Hd i j a); assumption.
  - intros i Hi. apply local_eqs.
  - intros i a _ [].
  - intros i a Hi Ha. apply HW. eauto.
  - exact Hu.
Qed.

Lemma upds_ext (W W' : addr -> Prop) g p m : (forall a, W a <-> W' a) -> upds W g p m -> upds W' g p m.
Proof.
  intros E H. unfold upds in *. apply (wp_weaken R (fun _ => False) W); [intros a []| |].
  - intros a Ha. apply E. exact Ha.
  - eapply wp_mono; [|exact H]. intros m' Hm a Ha. apply Hm, E, Ha.
Qed.

(** *** strided loops *)
Lemma nsteps_lt lo hi inc k : 0 < inc -> k < nsteps lo hi inc <-> lo + inc * k < hi.
Proof.
  intros Hi. unfold nsteps.
  pose proof (Nat.div_mod (hi - lo + (inc - 1)) inc ltac:(lia)) as E.
  pose proof (Nat.mod_upper_bound (hi - lo + (inc - 1)) inc ltac:(lia)) as B.
  set (q := (hi - lo + (inc - 1)) / inc) in *. set (r := (hi - lo + (inc - 1)) mod inc) in *.
  split; intros H.
  - assert (inc * (k + 1) <= inc * q) by (apply Nat.mul_le_mono_l; lia). lia.
  - destruct (Nat.lt_ge_cases k q) as [|G]; [assumption|exfalso].
    assert (inc * q <= inc * k) by (apply Nat.mul_le_mono_l; lia). lia.
Qed.
Lemma nsteps_0 lo hi : nsteps lo hi 0 = 0.
Proof. reflexivity. Qed.

(** *** basic bodies *)
Definition cmap (h : R -> R) (c : cell R) : cell R := match c with Val x => Val (h x) | c => c end.

Definition one (a : addr) (b : addr) : Prop := b = a.
Definition two (a : addr) (b : addr) : Prop := b = a \/ b = a + 1.

Lemma upds_negD a m : defined m a -> upds (one a) (fun b => cmap Ropp (m b)) (negD a) m.
Proof.
  intros [v E]. unfold upds, negD, one. cbn [wp]. split; [auto|]. exists v. split; [assumption|].
  split; [reflexivity|]. split; [congruence|].
  intros b ->. rewrite upd_eq, E. reflexivity.
Qed.
Lemma upds_negC a m : defined m a -> defined m (a + 1) ->
  upds (two a) (fun b => cmap Ropp (m b)) (negC a) m.
Proof.
  intros [v E] [w F]. unfold upds, negC, two. cbn [wp].
  repeat split; auto. exists v. repeat split; auto. exists w. repeat split; auto; try congruence.
  - rewrite upd_neq by lia. congruence.
  - intros b [->| ->].
    + rewrite upd_neq by lia. rewrite upd_eq, E. reflexivity.
    + rewrite upd_eq, F. reflexivity.
Qed.
Lemma upds_scaleD h a m : defined m a ->
  upds (one a) (fun b => cmap (fun x => x * h)%R (m b)) (scaleD h a) m.
Proof.
  intros [v E]. unfold upds, scaleD, one. cbn [wp]. split; [auto|]. exists v. split; [assumption|].
  split; [reflexivity|]. split; [congruence|].
  intros b ->. rewrite upd_eq, E. reflexivity.
Qed.
Lemma upds_scaleC h a m : defined m a -> defined m (a + 1) ->
  upds (two a) (fun b => cmap (fun x => x * h)%R (m b)) (scaleC h a) m.
Proof.
  intros [v E] [w F]. unfold upds, scaleC, two. cbn [wp].
  repeat split; auto. exists v. repeat split; auto; try congruence. exists w.
  rewrite !upd_neq by lia. repeat split; auto; try congruence.
  intros b [->| ->].
    + rewrite upd_neq by lia. rewrite upd_eq, E. reflexivity.
    + rewrite upd_eq, F. reflexivity.
Qed.
Lemma upds_zeroC a m : allocated m a -> allocated m (a + 1) ->
  upds (two a) (fun b => Val 0%R) (zeroC a) m.
Proof.
  intros E F. unfold upds, zeroC, two. cbn [wp].
  repeat split; auto; try congruence.
  - rewrite upd_neq by lia. exact F.
  - intros b [->| ->].
    + rewrite upd_neq by lia. rewrite upd_eq. reflexivity.
    + rewrite upd_eq. reflexivity.
Qed.

(** *** every execution finishes normally, in a state satisfying Q, and there is one *)
Definition Runs (c : dcmd) (m : dmem) (Q : dmem -> Prop) : Prop :=
  (exists o, exec c m o) /\ forall o, exec c m o -> exists m', o = OK m' /\ Q m'.

Lemma Runs_WP c m Q : WP c m Q -> Runs c m Q.
Proof.
  intros (m' & H1 & H2 & H3). split; [eauto|]. intros o Ho. exists m'. auto.
Qed.
Lemma Runs_mono c m (Q Q' : dmem -> Prop) : (forall m, Q m -> Q' m) -> Runs c m Q -> Runs c m Q'.
Proof. intros H [A B]. split; [assumption|]. intros o Ho. destruct (B o Ho) as (m' & E & HQ). eauto. Qed.
Lemma Runs_seq a b m Q : Runs a m (fun m1 => Runs b m1 Q) -> Runs (Seq a b) m Q.
Proof.
  intros [[o Ho] H]. split.
  - destruct (H o Ho) as (m1 & -> & [[o2 Ho2] _]). exists o2. econstructor; eassumption.
  - intros o' Ho'. inversion Ho' as [|? ? ? m1 ? H1 H2|? ? ? H1|? ? ? H1| | | |]; subst.
    + destruct (H _ H1) as (m1' & E & [_ H3]). injection E as <-. auto.
    + destruct (H _ H1) as (? & ? & _). discriminate.
    + destruct (H _ H1) as (? & ? & _). discriminate.
Qed.
Lemma Runs_ext (pre : dmem -> Prop) (post : dmem -> dmem -> Prop) m (Q : dmem -> Prop) :
  pre m -> (exists m', post m m') -> (forall m', post m m' -> Q m') -> Runs (Ext pre post) m Q.
Proof.
  intros Hp [m' Hm] HQ. split; [exists (OK m'); constructor; assumption|].
  intros o Ho. inversion Ho as [| | | | |? ? ? m1 H1 H2|? ? ? H1|]; subst.
  - eauto.
  - contradiction.
Qed.
