(** Rules for the FFTW calls and for loops that write several doubles per iteration. *)
From Coq Require Import Reals ZArith Arith Lia List Bool FunctionalExtensionality.
From Verif Require Import CNum Sums Roots Mem VecModel PadModel HerModel RealModel RLoops.
Import ListNotations.

Definition rval (c : cell) : R := match c with Val v => v | _ => 0%R end.
Definition wC (m : mem) (P i : nat) (v : C) : Prop := m (P + 2 * i) = Val (re v) /\ m (P + 2 * i + 1) = Val (im v).
Definition cval (m : mem) (P i : nat) : C := mkC (rval (m (P + 2 * i))) (rval (m (P + 2 * i + 1))).
Lemma wC_cval m P i v : wC m P i v -> cval m P i = v.
Proof. intros [A B]. unfold cval. rewrite A, B. destruct v. reflexivity. Qed.
Lemma wC_unique m m' P i v : wC m P i v -> wC m' P i v -> forall a, a = P + 2 * i \/ a = P + 2 * i + 1 -> m a = m' a.
Proof. intros [A B] [A' B'] a [-> | ->]; congruence. Qed.
Definition apart2 (a n b k : nat) : Prop := a + n <= b \/ b + k <= a.
Lemma apart2_rapart a n b k : apart2 a n b k -> rapart a n b k.
Proof. unfold apart2, rapart, rspan. intros. lia. Qed.

(** the state in which the doubles of [pout, pout+N) are those of the complex numbers g *)
Definition setC (m : mem) (pout N : nat) (g : nat -> C) : mem := fun a =>
  if (pout <=? a) && (a <? pout + 2 * N) then
    (if Nat.even (a - pout) then Val (re (g ((a - pout) / 2))) else Val (im (g ((a - pout) / 2))))
  else m a.
Lemma setC_in m pout N g i : i < N -> wC (setC m pout N g) pout i (g i).
Proof.
  intros Hi. unfold wC, setC.
  destruct (Nat.leb_spec pout (pout + 2 * i)); [|lia]. destruct (Nat.ltb_spec (pout + 2 * i) (pout + 2 * N)); [|lia].
  destruct (Nat.leb_spec pout (pout + 2 * i + 1)); [|lia]. destruct (Nat.ltb_spec (pout + 2 * i + 1) (pout + 2 * N)); [|lia]. cbn [andb].
  replace (pout + 2 * i - pout) with (2 * i) by lia. replace (pout + 2 * i + 1 - pout) with (S (2 * i)) by lia.
  rewrite Nat.even_succ. rewrite Nat.even_mul. cbn [Nat.even orb]. rewrite Nat.odd_mul. cbn [Nat.odd Nat.even negb andb].
  replace (2 * i / 2) with i by (rewrite Nat.mul_comm, Nat.div_mul; lia).
  replace (S (2 * i) / 2) with i by (replace (S (2 * i)) with (1 + i * 2) by lia; rewrite Nat.div_add by lia; reflexivity). auto.
Qed.
Lemma setC_out m pout N g a : ~ rspan pout (2 * N) a -> setC m pout N g a = m a.
Proof.
  intros Ha. unfold setC. destruct (Nat.leb_spec pout a); [|reflexivity]. destruct (Nat.ltb_spec a (pout + 2 * N)); [|reflexivity].
  exfalso. apply Ha. unfold rspan. lia.
Qed.
Lemma span_word pout N a : rspan pout (2 * N) a -> exists i, i < N /\ (a = pout + 2 * i \/ a = pout + 2 * i + 1).
Proof.
  unfold rspan. intros H. exists ((a - pout) / 2). pose proof (Nat.div_mod (a - pout) 2 ltac:(lia)).
  pose proof (Nat.mod_upper_bound (a - pout) 2 ltac:(lia)). split; [|lia]. lia.
Qed.
Lemma span_dec pout N a : rspan pout N a \/ ~ rspan pout N a.
Proof. unfold rspan. lia. Qed.
Lemma row_split n M i : 1 <= n -> i < n * M -> i / n < M /\ i mod n < n /\ i = n * (i / n) + i mod n.
Proof.
  intros Hn Hi. split; [apply Nat.div_lt_upper_bound; lia|]. split; [apply Nat.mod_upper_bound; lia|]. apply Nat.div_mod. lia.
Qed.
Lemma row_join n M h k : h < M -> k < n -> n * h + k < n * M.
Proof. intros. nia. Qed.
Lemma row_div n h k : k < n -> (n * h + k) / n = h /\ (n * h + k) mod n = k.
Proof.
  intros Hk. rewrite Nat.mul_comm, Nat.add_comm. rewrite Nat.div_add by lia. rewrite Nat.mod_add by lia.
  rewrite Nat.div_small, Nat.mod_small by lia. lia.
Qed.

Lemma WP_cfft n M sg inpl pin pout (x : nat -> nat -> C) m (K : mem -> Prop) :
  inpl = (pin =? pout) -> 1 <= n ->
  (forall h s, h < M -> s < n -> wC m pin (n * h + s) (x h s)) ->
  (forall a, rspan pout (2 * (n * M)) a -> m a <> Unalloc) ->
  (pin = pout \/ apart2 pin (2 * (n * M)) pout (2 * (n * M))) ->
  (forall m', (forall h k, h < M -> k < n -> wC m' pout (n * h + k) (dft n sg (x h) k)) ->
     (forall a, ~ rspan pout (2 * (n * M)) a -> m' a = m a) ->
     (forall a, m a <> Unalloc -> m' a <> Unalloc) -> K m') ->
  WP (rd_cfft n M sg inpl pin pout) m K.
Proof.
  intros Hip Hn Hin Hout Hdis HK. unfold rd_cfft. rewrite Hip, Bool.eqb_reflx.
  set (m' := setC m pout (n * M) (fun i => dft n sg (x (i / n)) (i mod n))).
  assert (HV : forall h k, h < M -> k < n -> wC m' pout (n * h + k) (dft n sg (x h) k)).
  { intros h k Hh Hk. pose proof (setC_in m pout (n * M) (fun i => dft n sg (x (i / n)) (i mod n)) (n * h + k) (row_join n M h k Hh Hk)) as E.
    cbv beta in E. destruct (row_div n h k Hk) as [E1 E2]. rewrite E1, E2 in E. exact E. }
  assert (HF : forall a, ~ rspan pout (2 * (n * M)) a -> m' a = m a) by (intros; apply setC_out; assumption).
  assert (Hx : forall h, h < M -> forall y : nat -> nat -> C, (forall h s, h < M -> s < n -> m (pin + 2 * (n * h + s)) = Val (re (y h s)) /\
                                           m (pin + 2 * (n * h + s) + 1) = Val (im (y h s))) -> forall s, s < n -> y h s = x h s).
  { intros h Hh y Hy s Hs. pose proof (wC_cval _ _ _ _ (Hin h s Hh Hs)) as E1. rewrite <- E1. symmetry. apply wC_cval. apply Hy; assumption. }
  apply WP_ext with (m' := m').
  - split; [assumption|]. split; [|split; [assumption|]].
    + intros a Ha. destruct (span_word _ _ _ Ha) as (i & Hi & E). destruct (row_split n M i Hn Hi) as (H1 & H2 & H3).
      destruct (Hin _ _ H1 H2) as [E1 E2]. rewrite <- H3 in E1, E2. destruct E as [-> | ->]; eauto.
    + destruct Hdis as [E|E]; [left; exact E|right; apply apart2_rapart; exact E].
  - split; [|assumption]. intros y Hy h k Hh Hk.
    assert (E : dft n sg (y h) k = dft n sg (x h) k).
    { unfold dft. apply Csum_ext. intros s Hs. rewrite (Hx h Hh y Hy s Hs). reflexivity. }
    rewrite E. apply HV; assumption.
  - intros m'' [HV2 HF2]. apply functional_extensionality. intros a.
    destruct (span_dec pout (2 * (n * M)) a) as [Ha|Ha]; [|rewrite HF2, HF by assumption; reflexivity].
    destruct (span_word _ _ _ Ha) as (i & Hi & E). destruct (row_split n M i Hn Hi) as (H1 & H2 & H3).
    pose proof (HV2 x Hin _ _ H1 H2) as E2. pose proof (HV _ _ H1 H2) as E1. rewrite <- H3 in E1, E2.
    eapply wC_unique; [exact E2|exact E1|exact E].
  - apply HK; [assumption|assumption|].
    intros a Ha. destruct (span_dec pout (2 * (n * M)) a) as [Hs|Hs]; [|rewrite HF by assumption; assumption].
    destruct (span_word _ _ _ Hs) as (i & Hi & E). destruct (row_split n M i Hn Hi) as (H1 & H2 & H3).
    destruct (HV _ _ H1 H2) as [E1 E2]. rewrite <- H3 in E1, E2. destruct E as [-> | ->]; rewrite ?E1, ?E2; discriminate.
Qed.

Lemma WP_r2c n inpl pin pout (d : nat -> R) m (K : mem -> Prop) :
  inpl = (pin =? pout) -> 1 <= n ->
  (forall k, k < n -> m (pin + k) = Val (d k)) ->
  (forall a, rspan pout (2 * (n / 2 + 1)) a -> m a <> Unalloc) ->
  (pin = pout \/ apart2 pin n pout (2 * (n / 2 + 1))) ->
  (forall m', (forall s, s < n / 2 + 1 -> wC m' pout s (r2c n d s)) ->
     (forall a, ~ rspan pout (2 * (n / 2 + 1)) a -> m' a = m a) ->
     (forall a, m a <> Unalloc -> m' a <> Unalloc) -> K m') ->
  WP (rd_r2c n inpl pin pout) m K.
Proof.
  intros Hip Hn Hin Hout Hdis HK. unfold rd_r2c. rewrite Hip, Bool.eqb_reflx.
  set (m' := setC m pout (n / 2 + 1) (r2c n d)).
  assert (HV : forall s, s < n / 2 + 1 -> wC m' pout s (r2c n d s)) by (intros; apply setC_in; assumption).
  assert (HF : forall a, ~ rspan pout (2 * (n / 2 + 1)) a -> m' a = m a) by (intros; apply setC_out; assumption).
  assert (HD : forall y, (forall k, k < n -> m (pin + k) = Val (y k)) -> forall s, r2c n y s = r2c n d s).
  { intros y Hy s. unfold r2c, dft. apply Csum_ext. intros k Hk. rewrite (Hin k Hk) in Hy || idtac.
    assert (E : y k = d k) by (pose proof (Hy k Hk) as A; rewrite (Hin k Hk) in A; congruence). rewrite E. reflexivity. }
  apply WP_ext with (m' := m').
  - split; [assumption|]. split; [|split; [assumption|]].
    + intros a Ha. exists (d (a - pin)). unfold rspan in Ha. replace a with (pin + (a - pin)) at 1 by lia. apply Hin. lia.
    + destruct Hdis as [E|E]; [left; exact E|right; apply apart2_rapart; exact E].
  - split; [|assumption]. intros y Hy s Hs. rewrite (HD y Hy). apply HV; assumption.
  - intros m'' [HV2 HF2]. apply functional_extensionality. intros a.
    destruct (span_dec pout (2 * (n / 2 + 1)) a) as [Ha|Ha]; [|rewrite HF2, HF by assumption; reflexivity].
    destruct (span_word _ _ _ Ha) as (i & Hi & E).
    eapply wC_unique; [apply (HV2 d Hin i Hi)|apply (HV i Hi)|exact E].
  - apply HK; [assumption|assumption|].
    intros a Ha. destruct (span_dec pout (2 * (n / 2 + 1)) a) as [Hs|Hs]; [|rewrite HF by assumption; assumption].
    destruct (span_word _ _ _ Hs) as (i & Hi & E). destruct (HV i Hi) as [E1 E2].
    destruct E as [-> | ->]; rewrite ?E1, ?E2; discriminate.
Qed.

Lemma WP_c2r n inpl pin pout (x : nat -> C) m (K : mem -> Prop) :
  inpl = (pin =? pout) -> 1 <= n ->
  (forall s, s < n / 2 + 1 -> wC m pin s (x s)) ->
  (forall s, s = 0 \/ 2 * s = n -> im (x s) = 0%R) ->
  (forall a, rspan pout n a -> m a <> Unalloc) ->
  (pin = pout \/ apart2 pin (2 * (n / 2 + 1)) pout n) ->
  (forall m', (forall k, k < n -> m' (pout + k) = Val (c2r n x k)) ->
     (forall a, ~ rspan pin (2 * (n / 2 + 1)) a -> ~ rspan pout n a -> m' a = m a) ->
     (forall a, m a <> Unalloc -> m' a <> Unalloc) -> K m') ->
  WP (rd_c2r n inpl pin pout) m K.
Proof.
  intros Hip Hn Hin Him Hout Hdis HK. unfold rd_c2r. rewrite Hip, Bool.eqb_reflx.
  set (m' := fun a => if (pout <=? a) && (a <? pout + n) then Val (c2r n x (a - pout))
                      else if (pin <=? a) && (a <? pin + 2 * (n / 2 + 1)) then Undef else m a).
  assert (HV : forall k, k < n -> m' (pout + k) = Val (c2r n x k)).
  { intros k Hk. unfold m'. destruct (Nat.leb_spec pout (pout + k)); [|lia]. destruct (Nat.ltb_spec (pout + k) (pout + n)); [|lia].
    cbn [andb]. f_equal. f_equal. lia. }
  assert (HU : forall a, rspan pin (2 * (n / 2 + 1)) a -> ~ rspan pout n a -> m' a = Undef).
  { intros a H1 H2. unfold m', rspan in *. destruct (Nat.leb_spec pout a), (Nat.ltb_spec a (pout + n)); try lia; cbn [andb];
    destruct (Nat.leb_spec pin a), (Nat.ltb_spec a (pin + 2 * (n / 2 + 1))); try lia; reflexivity. }
  assert (HF : forall a, ~ rspan pin (2 * (n / 2 + 1)) a -> ~ rspan pout n a -> m' a = m a).
  { intros a H1 H2. unfold m', rspan in *. destruct (Nat.leb_spec pout a), (Nat.ltb_spec a (pout + n)); try lia; cbn [andb];
    destruct (Nat.leb_spec pin a), (Nat.ltb_spec a (pin + 2 * (n / 2 + 1))); try lia; reflexivity. }
  assert (HD : forall y, (forall s, s < n / 2 + 1 -> wC m pin s (y s)) -> forall k, c2r n y k = c2r n x k).
  { intros y Hy k. unfold c2r, dft. f_equal. apply Csum_ext. intros s Hs. f_equal. unfold herm.
    pose proof (Nat.div_mod n 2 ltac:(lia)). pose proof (Nat.mod_upper_bound n 2 ltac:(lia)).
    assert (E : forall s, s < n / 2 + 1 -> y s = x s).
    { intros s' Hs'. rewrite <- (wC_cval _ _ _ _ (Hy s' Hs')). apply wC_cval. apply Hin. assumption. }
    destruct (Nat.ltb_spec s (n / 2 + 1)); [apply E; assumption|f_equal; apply E; lia]. }
  apply WP_ext with (m' := m').
  - split; [assumption|]. split; [|split; [assumption|]].
    + intros s Hs. destruct (Hin s Hs) as [E1 E2]. exists (re (x s)), (im (x s)). split; [assumption|]. split; [assumption|]. intros Hc. apply Him; assumption.
    + destruct Hdis as [E|E]; [left; exact E|right; apply apart2_rapart; exact E].
  - split; [|split; assumption]. intros y Hy k Hk. rewrite (HD y Hy). apply HV; assumption.
  - intros m'' (HV2 & HU2 & HF2). apply functional_extensionality. intros a.
    destruct (span_dec pout n a) as [Ha|Ha].
    + unfold rspan in Ha. replace a with (pout + (a - pout)) by lia. rewrite HV by lia. apply (HV2 x Hin). lia.
    + destruct (span_dec pin (2 * (n / 2 + 1)) a) as [Hb|Hb]; [rewrite HU2, HU by assumption; reflexivity|rewrite HF2, HF by assumption; reflexivity].
  - apply HK; [assumption|assumption|].
    intros a Ha. destruct (span_dec pout n a) as [Hb|Hb].
    + unfold rspan in Hb. replace a with (pout + (a - pout)) by lia. rewrite HV by lia. discriminate.
    + destruct (span_dec pin (2 * (n / 2 + 1)) a) as [Hc|Hc]; [rewrite HU by assumption; discriminate|rewrite HF by assumption; assumption].
Qed.

(** *** loops: iteration s writes the doubles (a,v) of the list [out s] *)
Definition wrote (m : mem) (l : list (nat * R)) : Prop := forall a v, In (a, v) l -> m a = Val v.
Definition dsts (out : nat -> list (nat * R)) (lo hi : nat) (a : addr) : Prop :=
  exists s v, rng lo hi s /\ In (a, v) (out s).
Lemma WP_rw lo hi body (out : nat -> list (nat * R)) m (K : mem -> Prop) :
  (forall s s' a v v', rng lo hi s -> rng lo hi s' -> In (a, v) (out s) -> In (a, v') (out s') -> s = s') ->
  (forall s, rng lo hi s ->
     wp (fun a => forall s' v, rng lo hi s' -> ~ In (a, v) (out s')) (fun a => exists v, In (a, v) (out s)) (body s) m
        (fun m' => wrote m' (out s))) ->
  (forall m', (forall s, rng lo hi s -> wrote m' (out s)) ->
     (forall a, ~ dsts out lo hi a -> m' a = m a) ->
     (forall a, m a <> Unalloc -> m' a <> Unalloc) -> K m') ->
  WP (rFor lo hi body) m K.
Proof.
  intros Hinj Hleaf Hk.
  apply WP_for with (W := fun s a => exists v, In (a, v) (out s)) (Q := fun s m' => wrote m' (out s)).
  - intros s s' a Hs Hs' (v & H1) (v' & H2). eapply Hinj; eassumption.
  - intros s Hs m1 m2 Hm HQ a v Hin. rewrite <- Hm; [apply HQ; assumption|eauto].
  - intros s Hs. eapply wp_weaken; [| |apply Hleaf; assumption]; [|auto].
    intros a Ha. left. intros s' Hs' (v & Hv). eapply Ha; eassumption.
  - intros m' HQ HF Hal. apply Hk; [assumption| |assumption].
    intros a Ha. apply HF. intros s Hs (v & Hv). apply Ha. exists s, v. auto.
Qed.
Lemma WP_rdo p (out : list (nat * R)) m (K : mem -> Prop) :
  wp (fun a => forall v, ~ In (a, v) out) (fun a => exists v, In (a, v) out) p m (fun m' => wrote m' out) ->
  (forall m', wrote m' out -> (forall a, (forall v, ~ In (a, v) out) -> m' a = m a) ->
     (forall a, m a <> Unalloc -> m' a <> Unalloc) -> K m') ->
  WP (rDo p) m K.
Proof.
  intros Hw Hk. assert (E : rDo p = rFor 0 1 (fun _ => p)) by reflexivity. rewrite E.
  apply WP_rw with (out := fun _ => out).
  - unfold rng. intros. lia.
  - intros s Hs. eapply wp_weaken; [| |exact Hw]; [|auto]. intros a Ha. left. intros; apply Ha.
  - intros m' HQ HF Hal. apply Hk; [apply (HQ 0); unfold rng; lia| |assumption].
    intros a Ha. apply HF. intros (s & v & _ & Hin). eapply Ha; eassumption.
Qed.
Lemma wp_rd' (Rr Ww : addr -> Prop) a k (m : mem) Q v : Rr a \/ Ww a -> m a = Val v -> wp Rr Ww (k v) m Q -> wp Rr Ww (Rd a k) m Q.
Proof. intros H E Hk. split; [assumption|]. exists v. auto. Qed.
Lemma wp_wr' (Rr Ww : addr -> Prop) a v p (m : mem) Q : Ww a -> m a <> Unalloc -> wp Rr Ww p (upd m a (Val v)) Q -> wp Rr Ww (Wr a v p) m Q.
Proof. intros H E Hk. split; [assumption|]. split; assumption. Qed.
Lemma rtget_get T i v k : T i = Some v -> rtget T i k = k v.
Proof. intros H. unfold rtget. rewrite H. reflexivity. Qed.


(** tactics for leaves *)
Lemma In_fst (a : nat) (v : R) l : In (a, v) l -> In a (map fst l).
Proof. intros H. apply (in_map fst) in H. exact H. Qed.
Lemma wrote_nil (m : mem) : wrote m []. Proof. intros a v []. Qed.
Lemma wrote_cons (m : mem) a v l : m a = Val v -> wrote m l -> wrote m ((a, v) :: l).
Proof. intros E H b w [Hin|Hin]; [injection Hin as <- <-; assumption|apply H; assumption]. Qed.
Lemma wrote_1 (m : mem) a v l : wrote m ((a, v) :: l) -> m a = Val v /\ wrote m l.
Proof. intros H. split; [apply H; left; reflexivity|intros b w Hb; apply H; right; assumption]. Qed.
Lemma wrote_2 (m : mem) P i v : wrote m [(P + 2 * i, re v); (P + 2 * i + 1, im v)] <-> wC m P i v.
Proof.
  split.
  - intros H. apply wrote_1 in H. destruct H as [E H]. apply wrote_1 in H. split; tauto.
  - intros [E1 E2]. apply wrote_cons; [assumption|]. apply wrote_cons; [assumption|apply wrote_nil].
Qed.
Ltac fsts H := apply In_fst in H; cbn [map fst In] in H.
Ltac lR := left; let s' := fresh "s" in let v := fresh "v" in let Hs := fresh "Hs" in let Hi := fresh "Hi" in
  first [intros s' v Hs Hi; fsts Hi; unfold rng, apart2 in *; lia | intros v Hi; fsts Hi; unfold rng, apart2 in *; lia].
Ltac lW := eexists; cbn [In]; first [left; reflexivity | right; left; reflexivity | right; right; left; reflexivity | right; right; right; left; reflexivity].
Ltac lRW := first [right; lW | lR].
Ltac lupd := repeat (rewrite upd_neq by (unfold rng, apart2 in *; lia)).
Ltac lrd E := eapply wp_rd'; [lRW | lupd; etransitivity; [|exact E]; f_equal; unfold rng in *; lia | cbv beta].
Ltac lwr := apply wp_wr'; [lW | lupd | ].
Ltac lend := repeat (apply wrote_cons; [first [rewrite upd_eq; reflexivity | lupd; rewrite upd_eq; reflexivity]|]); apply wrote_nil.
Ltac ltab E := rewrite (rtget_get _ _ _ _ E).
(** disjointness of the iterations *)
Ltac linj := let H1 := fresh in let H2 := fresh in intros ? ? ? ? ? ? ? H1 H2; fsts H1; fsts H2; unfold rng, apart2 in *; lia.
Ltac lframe H := apply H; let Hd := fresh in let s := fresh in let Hs := fresh in let Hi := fresh in
  first [intros (s & ? & Hs & Hi); fsts Hi; unfold rng, apart2, rspan in *; lia
        |intros ? Hi; fsts Hi; unfold rng, apart2, rspan in *; lia].
