(** FFTW's real transforms: their effect is defined and unique. *)
From Coq Require Import Reals ZArith Arith Lia List Bool FunctionalExtensionality.
From Verif Require Import CNum Sums Roots Mem VecModel PadModel PadLemmas CenModel Loops HerModel HerSpec.

(** search for a pair of indices *)
Definition find2 (f : nat -> nat -> nat) (M n a : nat) : option (nat * nat) :=
  find (fun hk => a =? f (fst hk) (snd hk)) (list_prod (seq 0 M) (seq 0 n)).
Lemma find2_some f M n a h k : find2 f M n a = Some (h, k) -> h < M /\ k < n /\ a = f h k.
Proof.
  intros H. unfold find2 in H. apply find_some in H. destruct H as [Hin Heq].
  apply in_prod_iff in Hin. rewrite !in_seq in Hin. apply Nat.eqb_eq in Heq. cbn in Heq.
  split; [lia|]. split; [lia|assumption].
Qed.
Lemma find2_none f M n a : find2 f M n a = None -> forall h k, h < M -> k < n -> a <> f h k.
Proof.
  intros H h k Hh Hk E. unfold find2 in H. apply find_none with (x := (h, k)) in H.
  - cbn in H. apply Nat.eqb_neq in H. contradiction.
  - apply in_prod_iff. rewrite !in_seq. lia.
Qed.

Section P.
Variable P : rplan.
Lemma cword_dec base a : {cword P base a} + {~ cword P base a}.
Proof.
  destruct (find2 (fun h s => base + cadr P h s) (rp_M P) (rp_e P) a) as [[h s]|] eqn:E.
  - left. apply find2_some in E. exists h, s. tauto.
  - right. intros (h & s & Hh & Hs & Ea). exact (find2_none _ _ _ _ E h s Hh Hs Ea).
Qed.
Lemma rword_dec base a : {rword P base a} + {~ rword P base a}.
Proof.
  destruct (le_lt_dec base a) as [H1|H1]; [destruct (lt_dec a (base + rp_w P)) as [H2|H2]|].
  - left. exists (a - base). lia.
  - right. intros (w & Hw & ->). lia.
  - right. intros (w & Hw & ->). lia.
Qed.

(** the doubles of the result *)
Definition dout (x : nat -> nat -> C) (i : nat) : R :=
  match find2 (radr P) (rp_M P) (rp_n P) i with Some (h, k) => c2r (rp_n P) (x h) k | None => 0%R end.
Lemma dout_at x h k : rlayout P -> h < rp_M P -> k < rp_n P -> dout x (radr P h k) = c2r (rp_n P) (x h) k.
Proof.
  intros (_ & _ & Hinj & _ & _) Hh Hk. unfold dout. destruct (find2 _ _ _ _) as [[h' k']|] eqn:E.
  - apply find2_some in E. destruct E as (A & B & E). destruct (Hinj h h' k k'); try assumption. subst. reflexivity.
  - exfalso. exact (find2_none _ _ _ _ E h k Hh Hk eq_refl).
Qed.
Lemma dout_out x i : rlayout P -> rp_N P <= i -> dout x i = 0%R.
Proof.
  intros (_ & _ & _ & Hb & _) Hi. unfold dout. destruct (find2 _ _ _ _) as [[h' k']|] eqn:E; [|reflexivity].
  apply find2_some in E. destruct E as (A & B & E). pose proof (Hb h' k' A B). lia.
Qed.
Lemma herm_ext n x y j : (forall s, s < n / 2 + 1 -> x s = y s) -> j < n -> herm n x j = herm n y j.
Proof.
  intros H Hj. pose proof (Nat.div_mod n 2 ltac:(lia)). pose proof (Nat.mod_upper_bound n 2 ltac:(lia)).
  unfold herm. destruct (Nat.ltb_spec j (n / 2 + 1)); rewrite H by lia; reflexivity.
Qed.
Lemma c2r_ext n x y k : (forall s, s < n / 2 + 1 -> x s = y s) -> c2r n x k = c2r n y k.
Proof. intros H. unfold c2r. f_equal. apply dft_ext. intros. apply herm_ext; assumption. Qed.
Lemma r2c_ext n x y s : (forall k, k < n -> x k = y k) -> r2c n x s = r2c n y s.
Proof. intros H. unfold r2c. apply dft_ext. intros. rewrite H by assumption. reflexivity. Qed.

Lemma rp_wN i : i < rp_N P -> i / 2 < rp_w P.
Proof.
  intros Hi. unfold rp_w, cq. pose proof (Nat.div_mod i 2 ltac:(lia)). pose proof (Nat.mod_upper_bound i 2 ltac:(lia)).
  apply Nat.div_le_lower_bound; lia.
Qed.
Lemma half_dbl (mm : mem) base i v w : mm (base + i / 2) = Val w -> half w i = v -> dbl mm base i v.
Proof. intros H1 H2. exists w. split; assumption. Qed.

Variables (pin pout : addr).

Lemma WP_crfft (x : nat -> nat -> C) (m : mem) (K : mem -> Prop) :
  rp_inplace P = (pin =? pout) -> rlayout P ->
  (forall h s, h < rp_M P -> s < rp_e P -> m (pin + cadr P h s) = Val (x h s)) ->
  (forall h s, h < rp_M P -> s < rp_e P -> s = 0 \/ 2 * s = rp_n P -> im (x h s) = 0%R) ->
  (forall w, w < rp_w P -> m (pout + w) <> Unalloc) ->
  (pin = pout \/ forall a, cword P pin a -> ~ rword P pout a) ->
  (forall m', (forall h k, h < rp_M P -> k < rp_n P -> dbl m' pout (radr P h k) (c2r (rp_n P) (x h) k)) ->
     (forall a, ~ cword P pin a -> ~ rword P pout a -> m' a = m a) ->
     (forall a, m a <> Unalloc -> m' a <> Unalloc) -> K m') ->
  WP (crfft P pin pout) m K.
Proof.
  intros Hip Hlay Hx Hmid Hal Hsep HK. unfold crfft. rewrite Hip, Bool.eqb_reflx.
  assert (Hpost : exists m', c2r_post P pin pout m m').
  { exists (fun a => if rword_dec pout a then Val (mkC (dout x (2 * (a - pout))) (dout x (2 * (a - pout) + 1)))
                     else if cword_dec pin a then Undef else m a).
    split; [|split].
    - intros y d Hy Hd Hz w Hw. destruct (rword_dec pout (pout + w)) as [_|Hn]; [|exfalso; apply Hn; exists w; auto].
      replace (pout + w - pout) with w by lia.
      assert (E : forall i, dout x i = d i).
      { intros i. destruct (Nat.lt_ge_cases i (rp_N P)) as [Hi|Hi]; [|rewrite dout_out, Hz by assumption; reflexivity].
        pose proof Hlay as (L1 & L2 & L3 & L4 & L5). destruct (L5 i Hi) as (h & k & A & B & ->).
        rewrite dout_at, Hd by assumption. apply c2r_ext. intros s Hs.
        specialize (Hy h s A Hs). rewrite Hx in Hy by assumption. congruence. }
      rewrite !E. reflexivity.
    - intros a Ha Hb. destruct (rword_dec pout a); [contradiction|]. destruct (cword_dec pin a); [reflexivity|contradiction].
    - intros a Ha Hb. destruct (rword_dec pout a); [contradiction|]. destruct (cword_dec pin a); [contradiction|reflexivity]. }
  destruct Hpost as [m' Hpost].
  assert (Hdet : forall a, (exists w, w < rp_w P /\ a = pout + w /\ m' a = Val (mkC (dout x (2 * w)) (dout x (2 * w + 1)))) \/
     (cword P pin a /\ ~ rword P pout a) \/ (~ cword P pin a /\ ~ rword P pout a)).
  { intros a. destruct (rword_dec pout a) as [(w & Hw & ->)|Hr].
    - left. exists w. split; [assumption|]. split; [reflexivity|]. destruct Hpost as (H1 & _).
      apply (H1 x (dout x)); auto; intros; [apply dout_at|apply dout_out]; assumption.
    - right. destruct (cword_dec pin a); auto. }
  apply WP_ext with (m' := m').
  - split; [assumption|]. split; [|split; assumption]. intros h s Hh Hs. exists (x h s). split; [auto|]. apply Hmid; assumption.
  - assumption.
  - intros m2 (A1 & A2 & A3). destruct Hpost as (B1 & B2 & B3). apply functional_extensionality. intros a.
    destruct (Hdet a) as [(w & Hw & -> & E)|[[H1 H2]|[H1 H2]]].
    + rewrite E. apply (A1 x (dout x)); auto; intros; [apply dout_at|apply dout_out]; assumption.
    + rewrite A2, B2 by assumption. reflexivity.
    + rewrite A3, B3 by assumption. reflexivity.
  - destruct Hpost as (B1 & B2 & B3). apply HK.
    + intros h k Hh Hk. assert (Hi : radr P h k < rp_N P) by (apply Hlay; assumption).
      assert (E : m' (pout + radr P h k / 2) = Val (mkC (dout x (2 * (radr P h k / 2))) (dout x (2 * (radr P h k / 2) + 1)))).
      { apply (B1 x (dout x)); auto; intros; [apply dout_at|apply dout_out|apply rp_wN]; assumption. }
      eexists. split; [exact E|]. rewrite <- (dout_at x h k) by assumption.
      pose proof (Nat.div_mod (radr P h k) 2 ltac:(lia)) as Hd.
      destruct (Nat.even (radr P h k)) eqn:Ev; cbn [re im]; f_equal.
      * apply Nat.even_spec in Ev. destruct Ev as [z Ev]. rewrite Ev. replace (2 * z / 2) with z by (apply (Nat.div_unique _ 2 z 0); lia). reflexivity.
      * assert (Ho : Nat.odd (radr P h k) = true) by (unfold Nat.odd; rewrite Ev; reflexivity).
        apply Nat.odd_spec in Ho. destruct Ho as [z Ho]. rewrite Ho in Hd |- *.
        replace ((2 * z + 1) / 2) with z by (apply (Nat.div_unique _ 2 z 1); lia). reflexivity.
    + assumption.
    + intros a Ha. destruct (Hdet a) as [(w & Hw & -> & E)|[[H1 H2]|[H1 H2]]].
      * rewrite E. discriminate.
      * rewrite B2 by assumption. discriminate.
      * rewrite B3 by assumption. assumption.
Qed.

Lemma WP_rcfft (d : nat -> R) (m : mem) (K : mem -> Prop) :
  rp_inplace P = (pin =? pout) -> rlayout P ->
  (forall i, i < rp_N P -> dbl m pin i (d i)) ->
  (forall h s, h < rp_M P -> s < rp_e P -> m (pout + cadr P h s) <> Unalloc) ->
  (pin = pout \/ forall a, cword P pout a -> ~ rword P pin a) ->
  (forall m', (forall h s, h < rp_M P -> s < rp_e P ->
       m' (pout + cadr P h s) = Val (r2c (rp_n P) (fun k => d (radr P h k)) s)) ->
     (forall a, ~ cword P pout a -> m' a = m a) ->
     (forall a, m a <> Unalloc -> m' a <> Unalloc) -> K m') ->
  WP (rcfft P pin pout) m K.
Proof.
  intros Hip Hlay Hd Hal Hsep HK. unfold rcfft. rewrite Hip, Bool.eqb_reflx.
  pose proof Hlay as (L1 & L2 & L3 & L4 & L5).
  assert (Hd' : forall i, i < rp_N P -> exists v, m (pin + i / 2) = Val v /\ half v i = d i) by exact Hd.
  assert (Hpost : exists m', r2c_post P pin pout m m').
  { exists (fun a => match find2 (fun h s => pout + cadr P h s) (rp_M P) (rp_e P) a with
        Some (h, s) => Val (r2c (rp_n P) (fun k => d (radr P h k)) s) | None => m a end). split.
    - intros d2 Hd2 h s Hh Hs. destruct (find2 _ _ _ _) as [[h' s']|] eqn:E.
      + apply find2_some in E. destruct E as (A & B & E). destruct (L2 h h' s s'); try assumption; [lia|]. subst h' s'.
        f_equal. apply r2c_ext. intros k Hk. destruct (Hd' (radr P h k) (L4 h k Hh Hk)) as (v & E1 & E2).
        destruct (Hd2 (radr P h k) (L4 h k Hh Hk)) as (v2 & F1 & F2). rewrite E1 in F1. inversion F1; subst. congruence.
      + exfalso. exact (find2_none _ _ _ _ E h s Hh Hs eq_refl).
    - intros a Ha. destruct (find2 _ _ _ _) as [[h' s']|] eqn:E; [|reflexivity].
      exfalso. apply Ha. apply find2_some in E. exists h', s'. tauto. }
  destruct Hpost as [m' Hpost]. apply WP_ext with (m' := m').
  - split; [assumption|]. split; [|split; assumption]. intros w Hw.
    assert (Hi : 2 * w < rp_N P).
    { unfold rp_w, cq in Hw. pose proof (Nat.div_mod (rp_N P + 2 - 1) 2 ltac:(lia)).
      pose proof (Nat.mod_upper_bound (rp_N P + 2 - 1) 2 ltac:(lia)). lia. }
    destruct (Hd' _ Hi) as (v & E & _). exists v. replace (2 * w / 2) with w in E by (apply (Nat.div_unique _ 2 w 0); lia). assumption.
  - assumption.
  - intros m2 (A1 & A2). destruct Hpost as (B1 & B2). apply functional_extensionality. intros a.
    destruct (cword_dec pout a) as [(h & s & Hh & Hs & ->)|Hn].
    + rewrite (A1 d), (B1 d); auto.
    + rewrite A2, B2 by assumption. reflexivity.
  - destruct Hpost as (B1 & B2). apply HK; [intros; apply (B1 d); auto|assumption|].
    intros a Ha. destruct (cword_dec pout a) as [(h & s & Hh & Hs & ->)|Hn].
    + rewrite (B1 d); auto. discriminate.
    + rewrite B2 by assumption. assumption.
Qed.
End P.
