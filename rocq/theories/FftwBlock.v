(** fftwblock: the thread blocks partition the M transforms; their parallel execution computes
    every transform. *)
From Coq Require Import Reals ZArith Arith List Bool Lia.
From Verif Require Import CNum Mem FftwModel FftwLoops.
Import ListNotations.

Section Lists.
Variables R0 W0 : addr -> Prop.

Lemma wp_preads l : forall k (m : dmem) xs (Q : dmem -> Prop),
  Forall2 (fun a x => m a = Val x) l xs -> (forall a, In a l -> R0 a \/ W0 a) ->
  wp R0 W0 (k xs) m Q -> wp R0 W0 (preads l k) m Q.
Proof.
  induction l as [|a l IH]; intros k m xs Q HF HR Hk; inversion HF; subst; cbn [preads].
  - exact Hk.
  - cbn [wp]. split; [apply HR; left; reflexivity|]. eexists. split; [eassumption|].
    eapply IH; [eassumption|intros b Hb; apply HR; right; exact Hb|exact Hk].
Qed.
Lemma wp_preadss ls : forall k (m : dmem) xss (Q : dmem -> Prop),
  Forall2 (Forall2 (fun a x => m a = Val x)) ls xss -> (forall a, In a (concat ls) -> R0 a \/ W0 a) ->
  wp R0 W0 (k xss) m Q -> wp R0 W0 (preadss ls k) m Q.
Proof.
  induction ls as [|l ls IH]; intros k m xss Q HF HR Hk; inversion HF; subst; cbn [preadss].
  - exact Hk.
  - eapply wp_preads; [eassumption| |].
    + intros a Ha. apply HR. simpl. apply in_or_app. auto.
    + eapply IH; [eassumption| |exact Hk]. intros a Ha. apply HR. simpl. apply in_or_app. auto.
Qed.
Lemma wp_pwrites l : forall vs p (m : dmem) (Q : dmem -> Prop),
  length l = length vs -> NoDup l ->
  (forall a, In a l -> W0 a /\ m a <> Unalloc) ->
  (forall m', Forall2 (fun a v => m' a = Val v) l vs -> (forall a, ~ In a l -> m' a = m a) -> wp R0 W0 p m' Q) ->
  wp R0 W0 (pwrites l vs p) m Q.
Proof.
  induction l as [|a l IH]; intros vs p m Q HL HN HW Hk; destruct vs as [|v vs]; simpl in HL; try discriminate; cbn [pwrites].
  - apply Hk; [constructor|reflexivity].
  - cbn [wp]. split; [apply HW; left; reflexivity|]. split; [apply HW; left; reflexivity|].
    inversion HN; subst. apply IH; [lia|assumption| |].
    + intros b Hb. split; [apply HW; right; assumption|].
      unfold upd. destruct (Nat.eqb a b); [discriminate|apply HW; right; assumption].
    + intros m' HF HO. apply Hk.
      * constructor; [|exact HF]. rewrite HO by assumption. apply upd_eq.
      * intros b Hb. rewrite HO by (intros H; apply Hb; right; exact H). apply upd_neq. intros ->. apply Hb. left; reflexivity.
Qed.
Lemma NoDup_app_inv {A} (l l' : list A) : NoDup (l ++ l') -> NoDup l /\ NoDup l' /\ forall a, In a l -> In a l' -> False.
Proof.
  induction l as [|x l IH]; simpl; intros H.
  - repeat split; [constructor|assumption|intros a []].
  - inversion H; subst. destruct (IH H3) as (A1 & A2 & A3). repeat split.
    + constructor; [|assumption]. intros Hx. apply H2. apply in_or_app. auto.
    + assumption.
    + intros a [->|Ha] Hb; [apply H2; apply in_or_app; auto|eauto].
Qed.
Lemma wp_pwritess ls : forall vss (m : dmem) (Q : dmem -> Prop),
  Forall2 (fun l vs => length l = length vs) ls vss -> NoDup (concat ls) ->
  (forall a, In a (concat ls) -> W0 a /\ m a <> Unalloc) ->
  (forall m', Forall2 (Forall2 (fun a v => m' a = Val v)) ls vss -> (forall a, ~ In a (concat ls) -> m' a = m a) -> Q m') ->
  wp R0 W0 (pwritess ls vss) m Q.
Proof.
  induction ls as [|l ls IH]; intros vss m Q HL HN HW Hk; inversion HL; subst; cbn [pwritess].
  - cbn [wp]. apply Hk; [constructor|reflexivity].
  - simpl in HN. destruct (NoDup_app_inv _ _ HN) as (N1 & N2 & N3).
    apply wp_pwrites; [assumption|assumption| |].
    + intros a Ha. apply HW. simpl. apply in_or_app. auto.
    + intros m1 HF HO. apply IH; [assumption|assumption| |].
      * intros a Ha. split; [apply HW; simpl; apply in_or_app; auto|].
        rewrite HO by (intros H'; exact (N3 a H' Ha)). apply HW. simpl. apply in_or_app. auto.
      * intros m2 HF2 HO2. apply Hk.
        -- constructor; [|assumption]. revert HF. clear -HO2 N3.
           intros HF. assert (E : forall a, In a l -> m2 a = m1 a) by (intros a Ha; apply HO2; intros H; exact (N3 a Ha H)).
           clear -HF E. induction HF; constructor; [rewrite E by (left; reflexivity); assumption|].
           apply IHHF. intros b Hb. apply E. right. exact Hb.
        -- intros a Ha. simpl in Ha. rewrite HO2 by (intros H; apply Ha; apply in_or_app; auto).
           apply HO. intros H. apply Ha. apply in_or_app. auto.
Qed.
End Lists.

Lemma Forall2_seq {A B} (P : A -> B -> Prop) (f : nat -> A) (g : nat -> B) off cnt :
  Forall2 P (map f (seq off cnt)) (map g (seq off cnt)) <-> forall k, off <= k < off + cnt -> P (f k) (g k).
Proof.
  revert off. induction cnt as [|c IH]; intros off; simpl.
  - split; [intros _ k Hk; lia|constructor].
  - split.
    + intros H k Hk. inversion H; subst. destruct (Nat.eq_dec k off) as [->|]; [assumption|].
      apply (proj1 (IH (S off)) H5). lia.
    + intros H. constructor; [apply H; lia|]. apply IH. intros k Hk. apply H. lia.
Qed.

Lemma concat_seq {A} (f : nat -> list A) off cnt a :
  In a (concat (map f (seq off cnt))) <-> exists k, off <= k < off + cnt /\ In a (f k).
Proof.
  rewrite in_concat. split.
  - intros (l & Hl & Ha). apply in_map_iff in Hl as (k & <- & Hk). apply in_seq in Hk. eauto.
  - intros (k & Hk & Ha). exists (f k). split; [apply in_map_iff; exists k; split; [reflexivity|apply in_seq; lia]|assumption].
Qed.
Lemma NoDup_app_intro {A} (l l' : list A) : NoDup l -> NoDup l' -> (forall a, In a l -> In a l' -> False) -> NoDup (l ++ l').
Proof.
  induction l as [|x l IH]; simpl; intros H1 H2 H3; [assumption|]. inversion H1; subst. constructor.
  - intros H. apply in_app_or in H as [H|H]; [contradiction|]. apply (H3 x); auto.
  - apply IH; auto. intros a Ha. apply H3. auto.
Qed.
Lemma NoDup_concat_seq {A} (f : nat -> list A) off cnt :
  (forall k, off <= k < off + cnt -> NoDup (f k)) ->
  (forall k k' a, off <= k < off + cnt -> off <= k' < off + cnt -> In a (f k) -> In a (f k') -> k = k') ->
  NoDup (concat (map f (seq off cnt))).
Proof.
  revert off. induction cnt as [|c IH]; intros off H1 H2; simpl; [constructor|].
  apply NoDup_app_intro.
  - apply H1. lia.
  - apply IH; [intros k Hk; apply H1; lia|intros k k' a Hk Hk'; apply H2; lia].
  - intros a Ha Hb. apply concat_seq in Hb as (k & Hk & Hb).
    specialize (H2 off k a ltac:(lia) ltac:(lia) Ha Hb). lia.
Qed.

Lemma vaddrs_shift l base off k : vaddrs l (base + v_sz l * (off * v_dist l)) k = vaddrs l base (off + k).
Proof.
  unfold vaddrs. f_equal. apply FunctionalExtensionality.functional_extensionality. intros s.
  apply map_ext. intros c. lia.
Qed.
Lemma map_vaddrs_shift l base off cnt :
  map (vaddrs l (base + v_sz l * (off * v_dist l))) (seq 0 cnt) = map (vaddrs l base) (seq off cnt).
Proof.
  rewrite (map_ext _ (fun k => vaddrs l base (off + k))) by (intros; apply vaddrs_shift).
  clear. revert off. induction cnt as [|c IH]; intros off; simpl; [reflexivity|].
  f_equal; [f_equal; lia|]. rewrite <- (IH (S off)). rewrite <- seq_shift, map_map. apply map_ext. intros k. f_equal. lia.
Qed.

(** *** the partition *)
Definition boff (T Q RR i : nat) : nat := if i <? T - RR then i * Q else i * Q + i - (T - RR).
Definition bcnt (T Q RR i : nat) : nat := if i <? T - RR then Q else Q + 1.
Lemma block_part_eq T Q RR i : block_part T Q RR i = (boff T Q RR i, bcnt T Q RR i).
Proof. unfold block_part, boff, bcnt. destruct (i <? T - RR); reflexivity. Qed.

Lemma block_ends M T i : 0 < T -> i < T ->
  boff T (M / T) (M - M / T * T) i + bcnt T (M / T) (M - M / T * T) i =
  (if S i <? T then boff T (M / T) (M - M / T * T) (S i) else M).
Proof.
  intros HT Hi. pose proof (Nat.div_mod M T ltac:(lia)) as E. pose proof (Nat.mod_upper_bound M T ltac:(lia)) as B.
  set (Q := M / T) in *. set (r := M mod T) in *.
  replace (M - Q * T) with r by lia. unfold boff, bcnt.
  destruct (Nat.ltb_spec i (T - r)), (Nat.ltb_spec (S i) T), (Nat.ltb_spec (S i) (T - r)); try lia.
  - assert (r = 0) by lia. assert (T = S i) by lia. assert (T * Q = S i * Q) by (f_equal; assumption). lia.
  - assert (T = S i) by lia. assert (T * Q = S i * Q) by (f_equal; assumption). lia.
Qed.
Lemma boff_0 T Q RR : RR < T -> boff T Q RR 0 = 0.
Proof. intros H. unfold boff. destruct (Nat.ltb_spec 0 (T - RR)); lia. Qed.

(** each k < M lies in exactly one block *)
Lemma block_cover M T k : 0 < T -> k < M ->
  exists i, i < T /\ boff T (M / T) (M - M / T * T) i <= k < boff T (M / T) (M - M / T * T) i + bcnt T (M / T) (M - M / T * T) i.
Proof.
  intros HT Hk. set (o := boff T (M / T) (M - M / T * T)). set (c := bcnt T (M / T) (M - M / T * T)).
  assert (H0 : o 0 = 0).
  { apply boff_0. pose proof (Nat.div_mod M T ltac:(lia)). pose proof (Nat.mod_upper_bound M T ltac:(lia)). lia. }
  assert (G : forall n, n <= T -> (exists i, i < n /\ o i <= k < o i + c i) \/ (n < T -> o n <= k) /\ (n = T -> M <= k)).
  { induction n as [|n IH]; intros Hn.
    - right. split; [lia|]. lia.
    - destruct (IH ltac:(lia)) as [(i & Hi & H)|[H1 _]]; [left; exists i; split; [lia|assumption]|].
      specialize (H1 ltac:(lia)). pose proof (block_ends M T n HT ltac:(lia)) as E. fold o c in E.
      destruct (Nat.lt_ge_cases k (o n + c n)) as [L|L].
      + left. exists n. split; [lia|]. lia.
      + right. destruct (Nat.ltb_spec (S n) T); split; intros; lia. }
  destruct (G T ltac:(lia)) as [H|[_ H]]; [exact H|]. lia.
Qed.
Lemma block_disj M T i j k : 0 < T -> i < T -> j < T ->
  boff T (M / T) (M - M / T * T) i <= k < boff T (M / T) (M - M / T * T) i + bcnt T (M / T) (M - M / T * T) i ->
  boff T (M / T) (M - M / T * T) j <= k < boff T (M / T) (M - M / T * T) j + bcnt T (M / T) (M - M / T * T) j ->
  i = j.
Proof.
  intros HT. set (o := boff T (M / T) (M - M / T * T)). set (c := bcnt T (M / T) (M - M / T * T)).
  assert (Mono : forall i j, i < j -> j < T -> o i + c i <= o j).
  { intros a b Hab Hb. induction b as [|b IH]; [lia|].
    assert (S' : o b + c b = o (S b)).
    { pose proof (block_ends M T b HT ltac:(lia)) as E. fold o c in E. destruct (Nat.ltb_spec (S b) T); lia. }
    destruct (Nat.eq_dec a b) as [->|]; [lia|]. specialize (IH ltac:(lia) ltac:(lia)).
    lia. }
  intros Hi Hj A B. destruct (Nat.lt_trichotomy i j) as [H|[H|H]]; [|assumption|].
  - specialize (Mono i j H Hj). lia.
  - specialize (Mono j i H Hi). lia.
Qed.
Lemma block_in M T i k : 0 < T -> i < T ->
  boff T (M / T) (M - M / T * T) i <= k < boff T (M / T) (M - M / T * T) i + bcnt T (M / T) (M - M / T * T) i -> k < M.
Proof.
  intros HT. set (o := boff T (M / T) (M - M / T * T)). set (c := bcnt T (M / T) (M - M / T * T)).
  intros Hi A. enough (forall d i, i + d = T - 1 -> o i + c i <= M) by (specialize (H (T - 1 - i) i ltac:(lia)); lia).
  clear i Hi A. induction d as [|d IH]; intros i Hd.
  - pose proof (block_ends M T i HT ltac:(lia)) as E. fold o c in E. destruct (Nat.ltb_spec (S i) T); lia.
  - pose proof (block_ends M T i HT ltac:(lia)) as E. fold o c in E. destruct (Nat.ltb_spec (S i) T); [|lia].
    specialize (IH (S i) ltac:(lia)). lia.
Qed.

(** *** execution *)
Section Exec.
Variables (xf : list R -> list R) (li lo : vlay) (M pin pout : nat) (m : dmem) (xs : nat -> list R).
Notation IN k := (vaddrs li pin k).
Notation OUT k := (vaddrs lo pout k).
Hypothesis Hx : forall k, k < M -> Forall2 (fun a x => m a = Val x) (IN k) (xs k).
Hypothesis Hlen : forall k, k < M -> length (xf (xs k)) = length (OUT k).
Hypothesis Hal : forall k a, k < M -> In a (OUT k) -> m a <> Unalloc.
Hypothesis Hnd : forall k, k < M -> NoDup (OUT k).
Hypothesis Hout : forall k k' a, k < M -> k' < M -> In a (OUT k) -> In a (OUT k') -> k = k'.

Lemma many_wp (R0 W0 : addr -> Prop) off cnt : off + cnt <= M ->
  (forall k a, off <= k < off + cnt -> In a (IN k) -> R0 a \/ W0 a) ->
  (forall k a, off <= k < off + cnt -> In a (OUT k) -> W0 a) ->
  wp R0 W0 (many_execute xf li lo cnt (pin + v_sz li * (off * v_dist li)) (pout + v_sz lo * (off * v_dist lo))) m
    (fun m' => forall k, off <= k < off + cnt -> Forall2 (fun a v => m' a = Val v) (OUT k) (xf (xs k))).
Proof.
  intros Hle HR HW. unfold many_execute. rewrite !map_vaddrs_shift.
  eapply wp_preadss with (xss := map xs (seq off cnt)).
  - apply Forall2_seq. intros k Hk. apply Hx. lia.
  - intros a Ha. apply concat_seq in Ha as (k & Hk & Ha). eauto.
  - rewrite map_map. apply wp_pwritess.
    + apply (Forall2_seq (fun l vs => length l = length vs) (vaddrs lo pout) (fun k => xf (xs k))).
      intros k Hk. symmetry. apply Hlen. lia.
    + apply NoDup_concat_seq.
      * intros k Hk. apply Hnd. lia.
      * intros k k' a Hk Hk'. apply Hout; lia.
    + intros a Ha. apply concat_seq in Ha as (k & Hk & Ha). split; [eauto|]. apply (Hal k); [lia|assumption].
    + intros m' HF _. exact (proj1 (Forall2_seq (Forall2 (fun a v => m' a = Val v)) (vaddrs lo pout) (fun k => xf (xs k)) off cnt) HF).
Qed.

Lemma local_block (R0 : addr -> Prop) off cnt :
  local (fun a => R0 a \/ exists k, off <= k < off + cnt /\ In a (OUT k))
    (fun m' => forall k, off <= k < off + cnt -> Forall2 (fun a v => m' a = Val v) (OUT k) (xf (xs k))).
Proof.
  intros m1 m2 E H k Hk. specialize (H k Hk).
  assert (G : forall a, In a (OUT k) -> m2 a = m1 a) by (intros a Ha; symmetry; apply E; right; eauto).
  revert G H. generalize (OUT k), (xf (xs k)). intros l ys G H. induction H; constructor.
  - rewrite G by (left; reflexivity). assumption.
  - apply IHForall2. intros b Hb. apply G. right. exact Hb.
Qed.

Definition computed (m' : dmem) : Prop :=
  (forall k, k < M -> Forall2 (fun a v => m' a = Val v) (OUT k) (xf (xs k))) /\
  (forall a, (forall k, k < M -> ~ In a (OUT k)) -> m' a = m a).

(** one thread: FFTW reads everything it needs itself, so no further condition *)
Lemma block_single Q RR : WP (block_Execute xf li lo M 1 Q RR pin pout) m computed.
Proof.
  unfold block_Execute. cbn [Nat.eqb].
  eapply WP_mono; [|apply (WP_par R 1 (fun _ a => exists k, k < M /\ In a (IN k))
     (fun _ a => exists k, 0 <= k < 0 + M /\ In a (OUT k))
     (fun _ m' => forall k, 0 <= k < 0 + M -> Forall2 (fun a v => m' a = Val v) (OUT k) (xf (xs k))))].
  - intros m' [A [B _]]. split.
    + intros k Hk. apply (A 0); lia.
    + intros a Ha. apply B. intros (i & _ & k & Hk & H). apply (Ha k); [lia|assumption].
  - intros i j a Hi Hj Hne. lia.
  - intros i Hi. apply local_block.
  - intros i Hi. pose proof (many_wp (fun a => exists k, k < M /\ In a (IN k)) (fun a => exists k, 0 <= k < 0 + M /\ In a (OUT k)) 0 M ltac:(lia)) as H.
    rewrite !Nat.mul_0_l, !Nat.mul_0_r, !Nat.add_0_r in H. apply H.
    + intros k a Hk Ha. left. exists k. split; [lia|assumption].
    + intros k a Hk Ha. exists k. split; [lia|assumption].
Qed.

(** several threads: no transform may write a word another transform reads *)
Hypothesis Hio : forall k k' a, k < M -> k' < M -> In a (OUT k) -> In a (IN k') -> k = k'.

Lemma block_multi T : 0 < T -> T <> 1 ->
  WP (block_Execute xf li lo M T (M / T) (M - M / T * T) pin pout) m computed.
Proof.
  intros HT HT1. unfold block_Execute. destruct (Nat.eqb_spec T 1); [contradiction|].
  set (Q := M / T) in *. set (RR := M - Q * T) in *.
  set (o := boff T Q RR). set (c := bcnt T Q RR).
  assert (Hcov := fun k => block_cover M T k HT). assert (Hdis := fun i j k => block_disj M T i j k HT).
  assert (Hin := fun i k => block_in M T i k HT).
  fold Q RR in Hcov, Hdis, Hin. fold o c in Hcov, Hdis, Hin.
  eapply WP_mono; [|apply (WP_par R T (fun i a => exists k, o i <= k < o i + c i /\ In a (IN k))
     (fun i a => exists k, o i <= k < o i + c i /\ In a (OUT k))
     (fun i m' => forall k, o i <= k < o i + c i -> Forall2 (fun a v => m' a = Val v) (OUT k) (xf (xs k))))].
  - intros m' [A [B _]]. split.
    + intros k Hk. destruct (Hcov k Hk) as (i & Hi & H). apply (A i); assumption.
    + intros a Ha. apply B. intros (i & Hi & k & Hk & H). apply (Ha k); [apply (Hin i); assumption|assumption].
  - intros i j a Hi Hj Hne (k & Hk & Ha) H. apply Hne.
    assert (k < M) by (apply (Hin i); assumption).
    destruct H as [(k' & Hk' & Ha')|(k' & Hk' & Ha')]; assert (k' < M) by (apply (Hin j); assumption).
    + assert (k = k') by (apply (Hio k k' a); assumption). subst k'. apply (Hdis i j k); assumption.
    + assert (k = k') by (apply (Hout k k' a); assumption). subst k'. apply (Hdis i j k); assumption.
  - intros i Hi. apply local_block.
  - intros i Hi.
    assert (Hle : o i + c i <= M).
    { destruct (Nat.eq_dec (c i) 0) as [Z|Z].
      - clear -Z Hi HT. unfold o, c, boff, bcnt, RR, Q in *. pose proof (Nat.div_mod M T ltac:(lia)). pose proof (Nat.mod_upper_bound M T ltac:(lia)).
        destruct (Nat.ltb_spec i (T - (M - M / T * T))); [|lia]. rewrite Z in *. lia.
      - specialize (Hin i (o i + c i - 1) Hi ltac:(lia)). lia. }
    pose proof (many_wp (fun a => exists k, o i <= k < o i + c i /\ In a (IN k)) (fun a => exists k, o i <= k < o i + c i /\ In a (OUT k))
       (o i) (c i) Hle) as H.
    cbv beta. rewrite block_part_eq. apply H.
    + intros k a Hk Ha. left. eauto.
    + intros k a Hk Ha. eauto.
Qed.
End Exec.

(** *** init leaves a consistent set of plans *)
Lemma block_init_ok M Threads ts guard data timing :
  let b := block_init M Threads ts guard data timing in
  (b_T b = 1 /\ b_plan b = Some M) \/
  (1 < b_T b /\ guard = true /\ b_Q b = M / b_T b /\ b_R b = M - M / b_T b * b_T b /\
   b_plan1 b = Some (b_Q b) /\ (0 < b_R b -> b_plan2 b = Some (b_Q b + 1))).
Proof.
  unfold block_init, block_Plan. set (T0 := ts _).
  destruct (Nat.ltb_spec 1 T0) as [H|H]; [|left; split; reflexivity].
  destruct guard; [|left; split; reflexivity].
  destruct (Nat.eqb_spec data 1) as [E|E]; [left; split; reflexivity|].
  destruct (Nat.ltb_spec 0 T0) as [H0|H0]; [|lia].
  destruct (Nat.eqb_spec data T0) as [E'|E'].
  - right. cbn [b_T b_Q b_R b_plan1 b_plan2]. repeat split; try assumption.
    intros HR. destruct (Nat.ltb_spec 0 (M - M / T0 * T0)); [reflexivity|lia].
  - destruct timing; [left; split; reflexivity|].
    right. cbn [b_T b_Q b_R b_plan1 b_plan2]. repeat split; try assumption.
    intros HR. destruct (Nat.ltb_spec 0 (M - M / T0 * T0)); [reflexivity|lia].
Qed.

(** *** address facts *)
Lemma vaddrs_in l base k a :
  In a (vaddrs l base k) <-> exists s c, s < v_len l /\ c < v_sz l /\ a = base + v_sz l * (v_stride l * s + v_dist l * k) + c.
Proof.
  unfold vaddrs. rewrite in_flat_map. split.
  - intros (s & Hs & H). apply in_map_iff in H as (c & <- & Hc). apply in_seq in Hs. apply in_seq in Hc.
    exists s, c. repeat split; lia.
  - intros (s & c & Hs & Hc & ->). exists s. split; [apply in_seq; lia|]. apply in_map_iff. exists c.
    split; [reflexivity|apply in_seq; lia].
Qed.

Lemma vaddrs_len l base k : length (vaddrs l base k) = v_len l * v_sz l.
Proof.
  unfold vaddrs. assert (G : forall n z, length (flat_map (fun s => map (fun c => base + v_sz l * (v_stride l * s + v_dist l * k) + c) (seq 0 (v_sz l))) (seq z n)) = n * v_sz l); [|apply G].
  induction n as [|n IH]; intros z; [reflexivity|]. cbn [seq flat_map].
  rewrite app_length, map_length, seq_length, IH. lia.
Qed.
