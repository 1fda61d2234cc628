(** Proofs about the communication schedule (C34). *)
From Coq Require Import ZArith List Bool Lia Permutation Znumtheory.
From Verif Require Import MpiModel MpiSpec.
Import ListNotations.
Local Open Scope Z_scope.

Definition sn_ (npes : Z) : Z := if Z.rem npes 2 =? 0 then npes else npes + 1.

(** the partner of [w] in round [pe] *)
Definition partner (w npes pe : Z) : Z :=
  if Z.rem npes 2 =? 0 then
    if pe =? w then npes - 1 else if npes - 1 =? w then pe else (2 * pe - w) mod (npes - 1)
  else (2 * pe - w) mod npes.

Lemma rem2 : forall x, 0 <= x -> (Z.rem x 2 =? 0) = Z.even x.
Proof.
  intros x Hx. rewrite Z.rem_mod_nonneg by lia. rewrite Zmod_even. destruct (Z.even x); reflexivity.
Qed.

Lemma shift_mod : forall x m, 0 < m -> - m < x < m -> Z.rem (x + m) m = x mod m.
Proof.
  intros x m Hm Hx. rewrite Z.rem_mod_nonneg by lia. rewrite <- (Z_mod_plus_full x 1 m). f_equal. lia.
Qed.

(** the two residues of pe-w and w-pe add up to the odd number m *)
Lemma two_res : forall x m, 0 < m -> - m < x < m -> x <> 0 -> x mod m + (- x) mod m = m.
Proof.
  intros x m Hm Hx Hx0.
  destruct (Z.lt_trichotomy x 0) as [C|[C|C]]; [|lia|].
  - assert (x mod m = x + m) as -> by (symmetry; apply Z.mod_unique with (-1); lia).
    rewrite Z.mod_small by lia. lia.
  - rewrite (Z.mod_small x) by lia.
    assert ((- x) mod m = - x + m) as -> by (symmetry; apply Z.mod_unique with (-1); lia). lia.
Qed.

Lemma sched_body_val : forall w npes pe, 0 <= w < npes -> 0 <= pe < sn_ npes - 1 ->
  sched_body w npes (sn_ npes) pe = [partner w npes pe].
Proof.
  intros w npes pe Hw Hpe. unfold sched_body, partner.
  assert (Gen : forall n m, n = m + 1 -> Z.Odd m -> 0 <= pe < m -> 0 <= w < m -> pe <> w ->
    (if Z.rem (pe - w + m) m <? Z.quot n 2 then [Z.rem (pe + Z.rem (pe - w + m) m) m] else []) ++
    (if Z.rem (w - pe + m) m <? Z.quot n 2 then [Z.rem (pe - Z.rem (w - pe + m) m + m) m] else []) =
    [(2 * pe - w) mod m]).
  { intros n m -> [h Hh] H1 H2 Hne.
    rewrite !shift_mod by lia.
    pose proof (two_res (pe - w) m ltac:(lia) ltac:(lia) ltac:(lia)) as T.
    replace (- (pe - w)) with (w - pe) in T by lia.
    pose proof (Z.mod_pos_bound (pe - w) m ltac:(lia)). pose proof (Z.mod_pos_bound (w - pe) m ltac:(lia)).
    assert (E : Z.quot (m + 1) 2 = h + 1).
    { rewrite Z.quot_div_nonneg by lia. symmetry. apply Z.div_unique with 0; lia. }
    rewrite E.
    destruct (Z.ltb_spec ((pe - w) mod m) (h + 1)), (Z.ltb_spec ((w - pe) mod m) (h + 1)); try lia; cbn [app]; f_equal.
    - rewrite Z.rem_mod_nonneg by lia. rewrite Zplus_mod_idemp_r. f_equal. lia.
    - rewrite shift_mod by lia. rewrite Zminus_mod_idemp_r. f_equal. lia. }
  unfold sn_ in *. rewrite rem2 in * by lia. destruct (Z.even npes) eqn:Ev.
  - apply Z.even_spec in Ev. destruct Ev as [h Hh].
    destruct (Z.eqb_spec pe w) as [->|Hne]; simpl; auto.
    destruct (Z.eqb_spec (npes - 1) w); cbn [app negb andb].
    + destruct (Z.ltb_spec w (npes - 1)); [lia|]. reflexivity.
    + destruct (Z.ltb_spec w (npes - 1)); [|lia]. apply (Gen npes (npes - 1)); try lia. exists (h - 1). lia.
  - assert (Od : Z.Odd npes) by (apply Z.odd_spec; rewrite <- Z.negb_even, Ev; reflexivity).
    replace (npes + 1 - 1) with npes in * by lia.
    destruct (Z.eqb_spec pe w) as [->|Hne]; cbn [app negb andb].
    + rewrite Z.mod_small by lia. f_equal. lia.
    + destruct (Z.ltb_spec w npes); [|lia]. apply (Gen (npes + 1) npes); auto; lia.
Qed.

Lemma flat_map_single : forall (A B : Type) (f : A -> list B) (g : A -> B) l,
  (forall x, In x l -> f x = [g x]) -> flat_map f l = map g l.
Proof.
  intros A B f g l H. induction l as [|x l IH]; auto. simpl. rewrite H by (left; auto). simpl. f_equal.
  apply IH. intros; apply H; right; auto.
Qed.

Lemma sched_val : forall w npes, 0 <= w < npes ->
  fill1_comm_sched w npes =
  (if Z.rem npes 2 =? 0 then [w] else []) ++
  map (fun pe => partner w npes (Z.of_nat pe)) (seq 0 (Z.to_nat (sn_ npes - 1))).
Proof.
  intros w npes Hw. unfold fill1_comm_sched. fold (sn_ npes). f_equal.
  apply flat_map_single. intros x Hx. apply in_seq in Hx. apply sched_body_val; auto.
  unfold sn_ in *. rewrite rem2 in * by lia. destruct (Z.even npes); lia.
Qed.

Lemma partner_range : forall w npes pe, 0 <= w < npes -> 0 <= pe < sn_ npes - 1 ->
  0 <= partner w npes pe < npes.
Proof.
  intros w npes pe Hw Hpe. unfold partner, sn_ in *. rewrite rem2 in * by lia.
  destruct (Z.even npes) eqn:Ev.
  - destruct (Z.eqb_spec pe w); [lia|]. destruct (Z.eqb_spec (npes - 1) w); [lia|].
    pose proof (Z.mod_pos_bound (2 * pe - w) (npes - 1) ltac:(lia)). lia.
  - apply Z.mod_pos_bound. lia.
Qed.

Lemma partner_sym : forall w npes pe, 0 <= w < npes -> 0 <= pe < sn_ npes - 1 ->
  partner (partner w npes pe) npes pe = w.
Proof.
  intros w npes pe Hw Hpe. pose proof (partner_range w npes pe Hw Hpe) as PR. unfold partner, sn_ in *.
  rewrite rem2 in * by lia.
  assert (Gen : forall m, 0 <= w < m -> (2 * pe - (2 * pe - w) mod m) mod m = w).
  { intros m Hm. rewrite Zminus_mod_idemp_r. replace (2 * pe - (2 * pe - w)) with w by lia. apply Z.mod_small; lia. }
  destruct (Z.even npes) eqn:Ev.
  - destruct (Z.eqb_spec pe w) as [->|Hne].
    + destruct (Z.eqb_spec w (npes - 1)); [lia|]. rewrite Z.eqb_refl; auto.
    + destruct (Z.eqb_spec (npes - 1) w) as [E|E].
      * rewrite Z.eqb_refl. lia.
      * pose proof (Z.mod_pos_bound (2 * pe - w) (npes - 1) ltac:(lia)) as B.
        destruct (Z.eqb_spec pe ((2 * pe - w) mod (npes - 1))) as [C|C].
        -- exfalso. pose proof (Gen (npes - 1) ltac:(lia)) as G. rewrite <- C in G.
           rewrite Z.mod_small in G by lia. lia.
        -- destruct (Z.eqb_spec (npes - 1) ((2 * pe - w) mod (npes - 1))); [lia|]. apply Gen; lia.
  - apply Gen; lia.
Qed.

Lemma odd_mod_inj : forall m a b c, Z.Odd m -> 0 <= a < m -> 0 <= b < m ->
  (2 * a - c) mod m = (2 * b - c) mod m -> a = b.
Proof.
  intros m a b c [h Hh] Ha Hb E.
  assert (D : ((2 * a - c) - (2 * b - c)) mod m = 0).
  { rewrite Zminus_mod, E, Z.sub_diag. apply Z.mod_0_l. lia. }
  apply Z.mod_divide in D; [|lia]. destruct D as [k Hk].
  assert (k = 0); [|lia]. assert (-2 < k < 2) by nia. lia.
Qed.

Lemma partner_inj : forall w npes p q, 0 <= w < npes -> 0 <= p < sn_ npes - 1 -> 0 <= q < sn_ npes - 1 ->
  partner w npes p = partner w npes q -> p = q.
Proof.
  intros w npes p q Hw Hp Hq. unfold partner, sn_ in *. rewrite rem2 in * by lia.
  destruct (Z.even npes) eqn:Ev.
  - apply Z.even_spec in Ev. destruct Ev as [h Hh].
    pose proof (Z.mod_pos_bound (2 * p - w) (npes - 1) ltac:(lia)).
    pose proof (Z.mod_pos_bound (2 * q - w) (npes - 1) ltac:(lia)).
    destruct (Z.eqb_spec p w), (Z.eqb_spec q w), (Z.eqb_spec (npes - 1) w); try lia.
    apply odd_mod_inj; try lia. exists (h - 1). lia.
  - assert (Od : Z.Odd npes) by (apply Z.odd_spec; rewrite <- Z.negb_even, Ev; reflexivity).
    apply odd_mod_inj; auto; lia.
Qed.

(** in even case, a partner is never oneself *)
Lemma partner_ne : forall w npes pe, Z.even npes = true -> 0 <= w < npes -> 0 <= pe < npes - 1 ->
  partner w npes pe <> w.
Proof.
  intros w npes pe Ev Hw Hpe E. unfold partner in E. rewrite rem2, Ev in E by lia.
  apply Z.even_spec in Ev. destruct Ev as [h Hh].
  destruct (Z.eqb_spec pe w); [lia|]. destruct (Z.eqb_spec (npes - 1) w); [lia|].
  assert (D : ((2 * pe - w) - w) mod (npes - 1) = 0).
  { rewrite Zminus_mod, E, (Z.mod_small w) by lia. rewrite Z.sub_diag. apply Z.mod_0_l. lia. }
  apply Z.mod_divide in D; [|lia]. destruct D as [k Hk].
  assert (-2 < k < 2) by nia. assert (k = 0 \/ k = 1 \/ k = -1) as [->|[->| ->]] by lia; lia.
Qed.

Lemma NoDup_map_in : forall (A B : Type) (f : A -> B) l,
  (forall x y, In x l -> In y l -> f x = f y -> x = y) -> NoDup l -> NoDup (map f l).
Proof.
  intros A B f l H ND. induction ND as [|x l Hx ND IH]; simpl; constructor.
  - intros I. apply in_map_iff in I. destruct I as (y & E & Iy). apply Hx.
    rewrite (H x y); auto; [left|right]; auto.
  - apply IH. intros; apply H; auto; right; auto.
Qed.

Theorem sched_matched : forall npes, (0 < npes)%nat ->
  matched_schedule npes (fun r => fill1_comm_sched (Z.of_nat r) (Z.of_nat npes)).
Proof.
  intros npes HP. split.
  - intros a Ha. apply NoDup_Permutation_bis.
    + rewrite sched_val by lia.
      assert (ND : NoDup (map (fun pe => partner (Z.of_nat a) (Z.of_nat npes) (Z.of_nat pe))
          (seq 0 (Z.to_nat (sn_ (Z.of_nat npes) - 1))))).
      { apply NoDup_map_in; [|apply seq_NoDup].
        intros p q Ip Iq E. apply in_seq in Ip, Iq. apply partner_inj in E; lia. }
      rewrite rem2 by lia. destruct (Z.even (Z.of_nat npes)) eqn:Ev; simpl; auto.
      constructor; auto. intros I. apply in_map_iff in I. destruct I as (p & E & I). apply in_seq in I.
      revert E. apply partner_ne; auto; try lia. unfold sn_ in I. rewrite rem2, Ev in I by lia. lia.
    + rewrite map_length, seq_length, sched_val by lia. rewrite app_length, map_length, seq_length.
      unfold sn_. rewrite rem2 by lia. destruct (Z.even (Z.of_nat npes)) eqn:Ev; simpl length; try lia.
    + intros x I. apply in_map_iff. exists (Z.to_nat x).
      assert (0 <= x < Z.of_nat npes); [|split; [lia|apply in_seq; lia]].
      rewrite sched_val in I by lia. apply in_app_or in I. destruct I as [I|I].
      * destruct (Z.rem (Z.of_nat npes) 2 =? 0); simpl in I; [destruct I as [<-|[]]; lia|tauto].
      * apply in_map_iff in I. destruct I as (p & <- & I). apply in_seq in I. apply partner_range; lia.
  - intros a k Ha Hk.
    assert (Q : exists b, 0 <= b < Z.of_nat npes /\
      nth_error (fill1_comm_sched (Z.of_nat a) (Z.of_nat npes)) k = Some b /\
      nth_error (fill1_comm_sched b (Z.of_nat npes)) k = Some (Z.of_nat a)).
    { assert (Gen : forall j, (j < Z.to_nat (sn_ (Z.of_nat npes) - 1))%nat -> forall w : Z,
          nth_error (map (fun pe => partner w (Z.of_nat npes) (Z.of_nat pe))
            (seq 0 (Z.to_nat (sn_ (Z.of_nat npes) - 1)))) j = Some (partner w (Z.of_nat npes) (Z.of_nat j))).
      { intros j Hj w. rewrite nth_error_map.
        rewrite (nth_error_nth' _ 0%nat) by (rewrite seq_length; lia). rewrite seq_nth by lia. reflexivity. }
      destruct (Z.rem (Z.of_nat npes) 2 =? 0) eqn:Ev.
      - destruct k as [|k].
        + exists (Z.of_nat a). rewrite sched_val, Ev by lia. simpl. repeat split; lia.
        + assert (Sn : sn_ (Z.of_nat npes) = Z.of_nat npes) by (unfold sn_; rewrite Ev; auto).
          assert (PR := partner_range (Z.of_nat a) (Z.of_nat npes) (Z.of_nat k) ltac:(lia) ltac:(lia)).
          exists (partner (Z.of_nat a) (Z.of_nat npes) (Z.of_nat k)). split; auto.
          rewrite !sched_val, Ev by lia. simpl app. cbn [nth_error]. rewrite !Gen by lia. split; auto.
          f_equal. apply partner_sym; lia.
      - assert (Sn : sn_ (Z.of_nat npes) = Z.of_nat npes + 1) by (unfold sn_; rewrite Ev; auto).
        assert (PR := partner_range (Z.of_nat a) (Z.of_nat npes) (Z.of_nat k) ltac:(lia) ltac:(lia)).
        exists (partner (Z.of_nat a) (Z.of_nat npes) (Z.of_nat k)). split; auto.
        rewrite !sched_val, Ev by lia. simpl app. rewrite !Gen by lia. split; auto.
        f_equal. apply partner_sym; lia. }
    destruct Q as (b & B1 & B2 & B3). exists (Z.to_nat b). rewrite Z2Nat.id by lia. split; [lia|]. auto.
Qed.
