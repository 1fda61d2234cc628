(** subconvolution: the rows of one pass, distributed over the threads in any way. *)
From Coq Require Import Reals ZArith Arith Lia List Bool Permutation.
From Verif Require Import CNum Sums Roots Mem VecModel PadModel PadKernels Loops PadLemmas PadGeom PadIndex Fwd1 FwdAll
  ConvModel Conv1 PadSpec PadRound PadBridge PadProofs Team LayerModel Layer1 ConvSpec Xf XfProofs XfBridge.
Import ListNotations.

Definition inblk (b n a : nat) : bool := (b <=? a) && (a <? b + n).
Lemma inblk_iff b n a : inblk b n a = true <-> b <= a < b + n.
Proof. unfold inblk. rewrite andb_true_iff, Nat.leb_le, Nat.ltb_lt. tauto. Qed.
Lemma inblk_not b n a : inblk b n a = false <-> a < b \/ b + n <= a.
Proof. unfold inblk. rewrite andb_false_iff, Nat.leb_gt, Nat.ltb_ge. tauto. Qed.

Lemma nodup_concat (s : nat -> list nat) T th th' i : NoDup (concat (map s (seq 0 T))) -> th < T -> th' < T -> th <> th' ->
  In i (s th) -> In i (s th') -> False.
Proof.
  rewrite <- flat_map_concat_map. intros HN Ht Ht' Hne Hi Hi'. apply Hne.
  apply (NoDup_flat_map_inj s (seq 0 T) HN th th' i); auto; apply in_seq; lia.
Qed.
Lemma nodup_part (s : nat -> list nat) T th : NoDup (concat (map s (seq 0 T))) -> th < T -> NoDup (s th).
Proof. rewrite <- flat_map_concat_map. intros HN Ht. eapply NoDup_flat_map_part; [exact HN|]. apply in_seq. lia. Qed.

Section Sub.
Variable ly : layer.
Notation t := (lpad ly).
Notation L := (gL t). Notation S := (gS t). Notation CC := (gC t). Notation l := (gl t). Notation M := (gM t).
Notation J := (lJ ly). Notation Sy := (lSy ly).
Notation A := (aA t). Notation B := (aB t). Notation T := (lT ly).
Variable rl : nat.
Hypothesis HG : geo t J Sy rl.
Notation HrlS := (g_S _ _ _ _ HG).
Notation col := (col t J Sy). Notation rw := (rw t J Sy). Notation hasr := (hasr t J Sy).
(** private memory of the threads and what it must hold between rows *)
Variable P : nat -> addr -> bool.
Variable rdy : nat -> mem -> Prop.
Hypothesis Hloc : forall th m m', (forall a, P th a = true -> m a = m' a) -> rdy th m -> rdy th m'.
Hypothesis HPP : forall th th' a, th < T -> th' < T -> th <> th' -> P th a = true -> P th' a = false.
(** what the row operation computes *)
Variable Z : nat -> nat -> (nat -> nat -> C) -> nat -> C.
Variable ok_index : nat -> Prop.
(** what the data of a row must satisfy *)
Variable okx : (nat -> nat -> C) -> Prop.

Definition row_ok : Prop := forall th k (F : parr) (G : nat -> addr) off (x : nat -> nat -> C) (m0 : mem),
  th < T -> ok_index k -> okx x -> (forall a, a < A -> F a = Some (G a)) ->
  (forall a b, a < A -> b < A -> a <> b -> dj (G a + off) rl (G b + off) rl) ->
  (forall a ad, a < A -> P th ad = true -> ad < G a + off \/ G a + off + rl <= ad) ->
  (forall a o, a < A -> col o -> m0 (G a + off + o) = Val (x a o)) -> rdy th m0 ->
  TWP (lrow ly th k F off) m0 (fun m' =>
    (forall b o, b < B -> col o -> m' (G b + off + o) = Val (Z k b x o)) /\ rdy th m' /\
    only (fun ad => (exists a o, a < A /\ col o /\ ad = G a + off + o) \/ P th ad = true) m0 m').
Hypothesis Hrow : row_ok.
Hypothesis Hgood : forall th k F off, tgood (lrow ly th k F off).
Hypothesis HBA : B <= A.

Lemma dj_sub b n c k : forall b' n' c' k', dj b n c k -> b <= b' -> b' + n' <= b + n -> c <= c' -> c' + k' <= c + k -> dj b' n' c' k'.
Proof. unfold dj. intros; lia. Qed.
Lemma row_in i : i < l -> S * i + S <= S * l.
Proof. intros Hi. replace (S * i + S) with (S * (i + 1)) by lia. apply Nat.mul_le_mono_l. lia. Qed.
Lemma rows_dj i i' : i <> i' -> S * i + S <= S * i' \/ S * i' + S <= S * i.
Proof.
  intros Hne. destruct (Nat.lt_total i i') as [H|[H|H]]; [left|contradiction|right];
    [replace (S * i + S) with (S * (i + 1)) by lia|replace (S * i' + S) with (S * (i' + 1)) by lia]; apply Nat.mul_le_mono_l; lia.
Qed.

Section One.
Variables (F : parr) (G : nat -> addr) (off r : nat) (x : nat -> nat -> nat -> C).
Hypothesis EF : forall a, a < A -> F a = Some (G a).
Hypothesis HGG : forall a b, a < A -> b < A -> a <> b -> dj (G a + off) (S * l) (G b + off) (S * l).
Hypothesis HPG : forall th a ad, th < T -> a < A -> P th ad = true -> ad < G a + off \/ G a + off + S * l <= ad.
Hypothesis Hidx : forall i, i < l -> ok_index (index t r i).
Hypothesis Hokx : forall i, i < l -> okx (fun a o => x a i o).

Definition rwi (a i ad : nat) : Prop := exists o, col o /\ ad = G a + off + S * i + o.
Lemma rwi_in a i ad : rwi a i ad -> G a + off + S * i <= ad < G a + off + S * i + rl.
Proof. intros (o & Ho & ->). pose proof (col_lt t J Sy rl HG o Ho). lia. Qed.
(** words of different rows are different *)
Lemma rwi_inj a a' i i' ad : a < A -> a' < A -> i < l -> i' < l -> rwi a i ad -> rwi a' i' ad -> a = a' /\ i = i'.
Proof.
  intros Ha Ha' Hi Hi' H1 H2. apply rwi_in in H1, H2. pose proof HrlS. pose proof (row_in i Hi). pose proof (row_in i' Hi').
  destruct (Nat.eq_dec a a') as [<-|Hne].
  - split; [reflexivity|]. destruct (Nat.eq_dec i i') as [|Hne]; [assumption|]. destruct (rows_dj i i' Hne); lia.
  - exfalso. pose proof (HGG a a' Ha Ha' Hne) as Hd. unfold dj in Hd. lia.
Qed.

Definition res (b i o : nat) : C := Z (index t r i) b (fun a o' => x a i o') o.

Lemma thread_spec th ls : th < T -> NoDup ls -> (forall i, In i ls -> i < l) -> forall m0 : mem,
  (forall i a o, In i ls -> a < A -> col o -> m0 (G a + off + S * i + o) = Val (x a i o)) -> rdy th m0 ->
  TWP (tlist ls (fun i => lrow ly th (index t r i) F (off + i * S))) m0 (fun m' =>
    (forall i b o, In i ls -> b < B -> col o -> m' (G b + off + S * i + o) = Val (res b i o)) /\ rdy th m' /\
    only (fun ad => (exists i a, In i ls /\ a < A /\ rwi a i ad) \/ P th ad = true) m0 m').
Proof.
  intros Hth. induction ls as [|i ls IH]; intros HN Hl m0 Hx Hr; cbn [tlist].
  - apply TWP_skip. split; [intros i b o []|]. split; [assumption|apply only_refl].
  - inversion HN as [|? ? Hni HN']; subst. assert (Hi : i < l) by (apply Hl; left; reflexivity). pose proof (row_in i Hi) as Hil. pose proof HrlS as HS.
    apply TWP_seq. eapply TWP_mono; [|apply (Hrow th (index t r i) F G (off + i * S) (fun a o => x a i o) m0 Hth)]; auto.
    + intros m1 (H1 & H2 & H3).
      assert (H3' : only (fun ad => (exists a, a < A /\ rwi a i ad) \/ P th ad = true) m0 m1).
      { eapply only_mono; [exact H3|]. intros ad [(a & o & Ha & Ho & ->)|Hp]; [left|right; assumption].
        exists a. split; [assumption|]. exists o. split; [assumption|lia]. }
      eapply TWP_mono; [|apply IH; auto].
      * intros m2 (K1 & K2 & K3). split; [|split; [assumption|]].
        -- intros i' b o [<-|Hi'] Hb Ho; [|apply K1; assumption].
           destruct K3 as [K3 _]. rewrite K3.
           { replace (G b + off + S * i + o) with (G b + (off + i * S) + o) by lia. apply H1; assumption. }
           assert (Hme : rwi b i (G b + off + S * i + o)) by (exists o; auto).
           intros [(i2 & a & Hi2 & Ha & Hw)|Hp].
           ++ destruct (rwi_inj b a i i2 _ ltac:(lia) Ha Hi (Hl i2 (or_intror Hi2)) Hme Hw) as [_ ->]. contradiction.
           ++ destruct (HPG th b _ Hth ltac:(lia) Hp); apply rwi_in in Hme; lia.
        -- eapply only_trans; [exact H3'|exact K3| |].
           ++ intros ad [(a & Ha & Hw)|Hp]; [left; exists i, a; split; [left; reflexivity|auto]|right; assumption].
           ++ intros ad [(i2 & a & Hi2 & Ha & Hw)|Hp]; [left; exists i2, a; split; [right; assumption|auto]|right; assumption].
      * intros i' Hi'. apply Hl. right. assumption.
      * intros i' a o Hi' Ha Ho. assert (Hl' : i' < l) by (apply Hl; right; assumption). pose proof (row_in i' Hl').
        assert (Hme : rwi a i' (G a + off + S * i' + o)) by (exists o; auto).
        destruct H3' as [H3' _]. rewrite H3'; [apply Hx; auto; right; assumption|].
        intros [(a2 & Ha2 & Hw)|Hp].
        -- destruct (rwi_inj a a2 i' i _ Ha Ha2 Hl' Hi Hme Hw) as [_ ->]. contradiction.
        -- destruct (HPG th a _ Hth Ha Hp); apply rwi_in in Hme; lia.
    + intros a b Ha Hb Hne. eapply dj_sub; [apply (HGG a b Ha Hb Hne)| | | |]; lia.
    + intros a ad Ha Hp. destruct (HPG th a ad Hth Ha Hp); [left; lia|right; lia].
    + intros a o Ha Ho. replace (G a + (off + i * S) + o) with (G a + off + S * i + o) by lia. apply Hx; auto. left; reflexivity.
Qed.

Hypothesis Hsch : schedule T l (lsch ly r).
Definition own (th ad : nat) : bool :=
  P th ad || existsb (fun i => existsb (fun a => inblk (G a + off + S * i) rl ad) (seq 0 A)) (lsch ly r th).
Lemma own_iff th ad : own th ad = true <-> P th ad = true \/
  exists i a, In i (lsch ly r th) /\ a < A /\ G a + off + S * i <= ad < G a + off + S * i + rl.
Proof.
  unfold own. rewrite orb_true_iff, existsb_exists. split.
  - intros [H|(i & Hi & H)]; [left; assumption|]. apply existsb_exists in H. destruct H as (a & Ha & H). apply in_seq in Ha. apply inblk_iff in H.
    right. exists i, a. repeat split; auto; lia.
  - intros [H|(i & a & Hi & Ha & H)]; [left; assumption|]. right. exists i. split; [assumption|]. apply existsb_exists. exists a.
    split; [apply in_seq; lia|]. apply inblk_iff. assumption.
Qed.
Lemma sch_lt th i : th < T -> In i (lsch ly r th) -> i < l.
Proof.
  intros Ht Hi. assert (In i (seq 0 l)).
  { eapply Permutation_in; [exact Hsch|]. apply in_concat. exists (lsch ly r th). split; [|assumption]. apply in_map_iff. exists th. split; [reflexivity|]. apply in_seq. lia. }
  apply in_seq in H. lia.
Qed.
Lemma sch_nodup : NoDup (concat (map (lsch ly r) (seq 0 T))).
Proof. eapply Permutation_NoDup; [apply Permutation_sym; exact Hsch|apply seq_NoDup]. Qed.
Lemma sch_all i : i < l -> exists th, th < T /\ In i (lsch ly r th).
Proof.
  intros Hi. assert (H : In i (concat (map (lsch ly r) (seq 0 T)))).
  { eapply Permutation_in; [apply Permutation_sym; exact Hsch|]. apply in_seq. lia. }
  apply in_concat in H. destruct H as (ls & H1 & H2). apply in_map_iff in H1. destruct H1 as (th & <- & H1). apply in_seq in H1.
  exists th. split; [lia|assumption].
Qed.

Lemma sub_spec (m0 : mem) :
  (forall a, a < A -> hasr (G a + off) l (x a) m0) -> (forall th, th < T -> rdy th m0) ->
  TWP (lsub ly F r off) m0 (fun m' =>
    (forall b, b < B -> hasr (G b + off) l (res b) m') /\ (forall th, th < T -> rdy th m') /\
    only (fun ad => (exists a, a < A /\ rw (G a + off) l ad) \/ (exists th, th < T /\ P th ad = true)) m0 m').
Proof.
  intros Hx Hr. unfold lsub. pose proof HrlS as HS.
  eapply TWP_mono; [|apply (TWP_par C T own (fun th => tlist (lsch ly r th) (fun i => lrow ly th (index t r i) F (off + i * S)))
     (fun th m' => (forall i b o, In i (lsch ly r th) -> b < B -> col o -> m' (G b + off + S * i + o) = Val (res b i o)) /\ rdy th m' /\
        only (fun ad => (exists i a, In i (lsch ly r th) /\ a < A /\ rwi a i ad) \/ P th ad = true) (restr (own th) m0) m'))].
  - intros m' (H1 & H2). split; [|split; [|split]].
    + intros b Hb i o Hi Ho. destruct (sch_all i Hi) as (th & Hth & Hin). destruct (H1 th Hth) as (K1 & _).
      specialize (K1 i b o Hin Hb Ho). rewrite restr_in in K1; [exact K1|]. apply own_iff. right. exists i, b.
      split; [assumption|]. split; [lia|]. apply rwi_in. exists o. auto.
    + intros th Hth. destruct (H1 th Hth) as (_ & K2 & _). eapply Hloc; [|exact K2].
      intros ad Hp. apply restr_in. apply own_iff. left. assumption.
    + intros ad Hn. destruct (Classical_Prop.classic (exists th, th < T /\ own th ad = true)) as [(th & Hth & Ho)|Hno].
      * destruct (H1 th Hth) as (_ & _ & K3 & _). rewrite <- (restr_in C (own th) m' ad Ho), <- (restr_in C (own th) m0 ad Ho).
        apply K3. intros [(i & a & Hi & Ha & Hw)|Hp]; apply Hn.
        -- destruct Hw as (o & Hc & E). left. exists a. split; [assumption|]. exists i, o. split; [eapply sch_lt; eassumption|split; assumption].
        -- right. exists th. auto.
      * apply H2. intros th Hth. destruct (own th ad) eqn:E; [|reflexivity]. exfalso. apply Hno. exists th. auto.
    + intros ad Hal. destruct (Classical_Prop.classic (exists th, th < T /\ own th ad = true)) as [(th & Hth & Ho)|Hno].
      * destruct (H1 th Hth) as (_ & _ & _ & K3). rewrite <- (restr_in C (own th) m' ad Ho). apply K3. rewrite restr_in; assumption.
      * rewrite H2; [assumption|]. intros th Hth. destruct (own th ad) eqn:E; [|reflexivity]. exfalso. apply Hno. exists th. auto.
  - intros th th' ad Hth Hth' Hne Ho. apply not_true_is_false. intros Ho'. apply own_iff in Ho, Ho'.
    destruct Ho as [Hp|(i & a & Hi & Ha & Hb)], Ho' as [Hp'|(i' & a' & Hi' & Ha' & Hb')].
    + rewrite (HPP th th' ad Hth Hth' Hne Hp) in Hp'. discriminate.
    + pose proof (row_in i' (sch_lt th' i' Hth' Hi')). destruct (HPG th a' ad Hth Ha' Hp); lia.
    + pose proof (row_in i (sch_lt th i Hth Hi)). destruct (HPG th' a ad Hth' Ha Hp'); lia.
    + pose proof (row_in i (sch_lt th i Hth Hi)). pose proof (row_in i' (sch_lt th' i' Hth' Hi')).
      assert (Hii : i <> i'). { intros <-. eapply (nodup_concat (lsch ly r) T th th' i); eauto. apply sch_nodup. }
      destruct (Nat.eq_dec a a') as [<-|Haa].
      * destruct (rows_dj i i' Hii); lia.
      * pose proof (HGG a a' Ha Ha' Haa) as Hd. unfold dj in Hd. lia.
  - intros th Hth. apply tgood_list. intros i Hi. apply Hgood.
  - intros th Hth. apply thread_spec; auto.
    + eapply nodup_part; [apply sch_nodup|assumption].
    + intros i Hi. eapply sch_lt; eassumption.
    + intros i a o Hi Ha Ho. rewrite restr_in.
      * apply Hx; auto. eapply sch_lt; eassumption.
      * apply own_iff. right. exists i, a. split; [assumption|]. split; [assumption|]. apply rwi_in. exists o. auto.
    + eapply Hloc; [|apply Hr; exact Hth]. intros ad Hp. symmetry. apply restr_in. apply own_iff. left. assumption.
Qed.
End One.
End Sub.
