(** Proofs for C24, C25. *)
From Coq Require Import Reals List Sorted Permutation Lra Lia Arith.
From Verif Require Import StatModel StatSpec.
Import ListNotations.
Local Open Scope R_scope.

Lemma Rsum_app a b : Rsum (a ++ b) = Rsum a + Rsum b.
Proof. induction a as [|x a IH]; unfold Rsum in *; cbn [app fold_right]; [ring|]. rewrite IH. ring. Qed.
Definition Rsq (l : list R) := Rsum (map (fun x => x * x) l).
Lemma dev_expand l c : Rsum (map (fun x => (x - c) ^ 2) l) = Rsq l - 2 * c * Rsum l + INR (length l) * c * c.
Proof.
  unfold Rsq. induction l as [|x l IH]; [cbn; lra|].
  change (length (x :: l)) with (S (length l)). rewrite S_INR. cbn [map Rsum fold_right] in *.
  unfold Rsum in *. rewrite IH. ring.
Qed.
Lemma dev_eq l : l <> [] -> deviation2 l = Rsq l - INR (length l) * Rmean l * Rmean l.
Proof.
  intros H. unfold deviation2. rewrite dev_expand.
  assert (Hn : INR (length l) <> 0). { apply not_0_INR. destruct l; [contradiction|discriminate]. }
  unfold Rmean. field. assumption.
Qed.

(** *** queues *)
Lemma push_perm bf t q : Permutation (t :: q) (push bf t q).
Proof.
  induction q as [|x q IH]; cbn [push]; [reflexivity|]. destruct (bf t x); [reflexivity|].
  rewrite perm_swap. apply perm_skip, IH.
Qed.
Lemma push_len bf t q : length (push bf t q) = S (length q).
Proof. rewrite <- (Permutation_length (push_perm bf t q)). reflexivity. Qed.
Lemma push_sorted (bf : R -> R -> bool) (P : R -> R -> Prop) t q :
  (forall a b, bf a b = true -> P a b) -> (forall a b, bf a b = false -> P b a) ->
  (forall a b c, P a b -> P b c -> P a c) ->
  StronglySorted P q -> StronglySorted P (push bf t q).
Proof.
  intros H1 H2 Ht. induction q as [|x q IH]; intros Hs; cbn [push].
  - repeat constructor.
  - inversion Hs as [|? ? Hs' Hf]; subst. destruct (bf t x) eqn:E.
    + constructor; [assumption|]. constructor; [auto|]. eapply Forall_impl; [|exact Hf]. intros a Ha. eauto.
    + constructor; [auto|]. rewrite <- (push_perm bf t q). constructor; auto.
Qed.
Lemma push_s_sorted t q : StronglySorted Rge q -> StronglySorted Rge (push_s t q).
Proof.
  apply push_sorted; unfold gtb; intros a b; [| |intros c; lra]; destruct (Rlt_dec b a); intros; try discriminate; lra.
Qed.
Lemma push_g_sorted t q : StronglySorted Rle q -> StronglySorted Rle (push_g t q).
Proof.
  apply push_sorted; unfold ltb; intros a b; [| |intros c; lra]; destruct (Rlt_dec a b); intros; try discriminate; lra.
Qed.

(** every element of s is at most every element of g *)
Definition below (s g : list R) : Prop := forall a b, In a s -> In b g -> a <= b.
Lemma in_push bf t q x : In x (push bf t q) <-> x = t \/ In x q.
Proof.
  split.
  - intros H. eapply Permutation_in in H; [|symmetry; apply push_perm]. destruct H; auto.
  - intros H. eapply Permutation_in; [apply push_perm|]. destruct H; [left|right]; auto.
Qed.
Lemma top_s a s x : StronglySorted Rge (a :: s) -> In x (a :: s) -> x <= a.
Proof.
  intros H Hx. inversion H as [|? ? _ Hf]; subst. destruct Hx as [->|Hx]; [lra|].
  rewrite Forall_forall in Hf. specialize (Hf x Hx). lra.
Qed.
Lemma top_g a s x : StronglySorted Rle (a :: s) -> In x (a :: s) -> a <= x.
Proof.
  intros H Hx. inversion H as [|? ? _ Hf]; subst. destruct Hx as [->|Hx]; [lra|].
  rewrite Forall_forall in Hf. specialize (Hf x Hx). lra.
Qed.

Definition medinv (xs : list R) (Md : R) (s g : list R) : Prop :=
  StronglySorted Rge s /\ StronglySorted Rle g /\ below s g /\ Permutation xs (s ++ g) /\
  match s, g with
  | [], [] => True
  | a :: s', b :: g' =>
      (length s = length g /\ Md = (a + b) / 2) \/ (length s = S (length g) /\ Md = a) \/ (length g = S (length s) /\ Md = b)
  | a :: s', [] => s' = [] /\ Md = a
  | [], b :: g' => g' = [] /\ Md = b
  end.

Lemma medinv_top xs Md s g : medinv xs Md s g -> xs <> [] ->
  (length s = length g /\ exists a s' b g', s = a :: s' /\ g = b :: g' /\ Md = (a + b) / 2) \/
  (length s = S (length g) /\ exists a s', s = a :: s' /\ Md = a) \/
  (length g = S (length s) /\ exists b g', g = b :: g' /\ Md = b).
Proof.
  intros (H1 & H2 & H3 & H4 & H5) Hne. destruct s as [|a s], g as [|b g].
  - apply Permutation_sym, Permutation_nil in H4. contradiction.
  - destruct H5 as [-> ->]. right. right. split; [reflexivity|eauto].
  - destruct H5 as [-> ->]. right. left. split; [reflexivity|eauto].
  - destruct H5 as [[E ->]|[[E ->]|[E ->]]]; [left|right; left|right; right]; split; try assumption; eauto 8.
Qed.

Lemma add_median_inv xs Md s g t : medinv xs Md s g ->
  exists Md' s' g', add_median (S (length xs)) t Md s g = Some (Md', s', g') /\ medinv (xs ++ [t]) Md' s' g'.
Proof.
  intros Hinv. destruct xs as [|x0 xs0] eqn:Exs.
  { destruct Hinv as (H1 & H2 & H3 & H4 & _). apply Permutation_nil in H4. apply app_eq_nil in H4. destruct H4 as [-> ->].
    exists t, [t], []. split; [reflexivity|]. split; [repeat constructor|]. split; [constructor|].
    split; [intros u1 u2 Hu1 []|]. split; [reflexivity|]. split; reflexivity. }
  rewrite <- Exs in *. assert (Hne : xs <> []) by (rewrite Exs; discriminate).
  pose proof (medinv_top _ _ _ _ Hinv Hne) as Htop.
  destruct Hinv as (H1 & H2 & H3 & H4 & _).
  assert (HN : S (length xs) <> 1%nat) by (rewrite Exs; discriminate). clear Exs.
  unfold add_median. apply Nat.eqb_neq in HN. rewrite HN.
  assert (HP : forall s' g', Permutation (t :: s ++ g) (s' ++ g') -> Permutation (xs ++ [t]) (s' ++ g')).
  { intros s' g' H. rewrite <- H, Permutation_app_comm. cbn [app]. apply perm_skip. exact H4. }
  destruct Htop as [(Hl & a & s0 & b & g0 & Es & Eg & EM)|[(Hl & a & s0 & Es & EM)|(Hl & b & g0 & Eg & EM)]].
  - (* balanced *)
    rewrite Hl, Nat.ltb_irrefl, Nat.eqb_refl.
    assert (Hab : a <= b) by (apply H3; [rewrite Es|rewrite Eg]; left; reflexivity).
    destruct (Rlt_dec t Md) as [Ht|Ht].
    + pose proof (push_s_sorted t s H1) as Hs'. pose proof (push_perm gtb t s) as Hp. pose proof (push_len gtb t s) as Hlen.
      assert (Hbel : below (push_s t s) g).
      { intros u v Hu Hv. apply in_push in Hu. destruct Hu as [->|Hu]; [|auto].
        rewrite Eg in Hv, H2. pose proof (top_g _ _ _ H2 Hv). lra. }
      fold (push_s t s) in Hp, Hlen. destruct (push_s t s) as [|a' s'] eqn:Ep; [discriminate|].
      exists a', (a' :: s'), g. split; [reflexivity|]. split; [assumption|]. split; [assumption|]. split; [assumption|].
      split. { apply HP. rewrite <- Hp. reflexivity. }
      rewrite Eg in *. right. left. split; [rewrite Hlen, Hl; reflexivity|reflexivity].
    + pose proof (push_g_sorted t g H2) as Hs'. pose proof (push_perm ltb t g) as Hp. pose proof (push_len ltb t g) as Hlen.
      assert (Hbel : below s (push_g t g)).
      { intros u v Hu Hv. apply in_push in Hv. destruct Hv as [->|Hv]; [|auto].
        rewrite Es in Hu, H1. pose proof (top_s _ _ _ H1 Hu). lra. }
      fold (push_g t g) in Hp, Hlen. destruct (push_g t g) as [|b' g'] eqn:Ep; [discriminate|].
      exists b', s, (b' :: g'). split; [reflexivity|]. split; [assumption|]. split; [assumption|]. split; [assumption|].
      split. { apply HP. rewrite <- Hp. rewrite Permutation_middle. reflexivity. }
      rewrite Es in *. right. right. split; [rewrite Hlen; f_equal; symmetry; assumption|reflexivity].
  - (* s longer *)
    assert (El : Nat.ltb (length g) (length s) = true) by (apply Nat.ltb_lt; lia). rewrite El. subst s.
    destruct (Rlt_dec t Md) as [Ht|Ht].
    + inversion H1 as [|? ? H1' Hf]; subst.
      pose proof (push_s_sorted t s0 H1') as Hs'. pose proof (push_g_sorted a g H2) as Hg'.
      pose proof (push_perm gtb t s0) as Hp1. pose proof (push_perm ltb a g) as Hp2.
      pose proof (push_len gtb t s0) as Hl1. pose proof (push_len ltb a g) as Hl2.
      fold (push_s t s0) in Hp1, Hl1. fold (push_g a g) in Hp2, Hl2.
      assert (Hbel : below (push_s t s0) (push_g a g)).
      { intros u v Hu Hv. apply in_push in Hu. apply in_push in Hv.
        destruct Hv as [->|Hv]; destruct Hu as [->|Hu].
        - lra.
        - apply (top_s a s0); [assumption|right; assumption].
        - assert (a <= v) by (apply H3; [left; reflexivity|assumption]). lra.
        - apply H3; [right; assumption|assumption]. }
      destruct (push_s t s0) as [|a' s'] eqn:Ep; [discriminate|]. destruct (push_g a g) as [|b' g'] eqn:Eq; [discriminate|].
      eexists _, _, _. split; [reflexivity|]. split; [assumption|]. split; [assumption|]. split; [assumption|].
      split. { apply HP. rewrite <- Hp1, <- Hp2. cbn [app]. rewrite <- Permutation_middle. apply perm_skip. reflexivity. }
      left. split; [cbn [length] in *; lia|lra].
    + pose proof (push_g_sorted t g H2) as Hg'. pose proof (push_perm ltb t g) as Hp2. pose proof (push_len ltb t g) as Hl2.
      fold (push_g t g) in Hp2, Hl2.
      assert (Hbel : below (a :: s0) (push_g t g)).
      { intros u v Hu Hv. apply in_push in Hv. destruct Hv as [->|Hv]; [|auto].
        pose proof (top_s _ _ _ H1 Hu). lra. }
      destruct (push_g t g) as [|b' g'] eqn:Eq; [discriminate|].
      eexists _, _, _. split; [reflexivity|]. split; [assumption|]. split; [assumption|]. split; [assumption|].
      split. { apply HP. rewrite <- Hp2, Permutation_middle. reflexivity. }
      left. split; [cbn [length] in *; lia|lra].
  - (* g longer *)
    assert (El : Nat.ltb (length g) (length s) = false) by (apply Nat.ltb_ge; lia).
    assert (El2 : Nat.eqb (length s) (length g) = false) by (apply Nat.eqb_neq; lia). rewrite El, El2. subst g.
    destruct (Rlt_dec Md t) as [Ht|Ht].
    + inversion H2 as [|? ? H2' Hf]; subst.
      pose proof (push_s_sorted b s H1) as Hs'. pose proof (push_g_sorted t g0 H2') as Hg'.
      pose proof (push_perm gtb b s) as Hp1. pose proof (push_perm ltb t g0) as Hp2.
      pose proof (push_len gtb b s) as Hl1. pose proof (push_len ltb t g0) as Hl2.
      fold (push_s b s) in Hp1, Hl1. fold (push_g t g0) in Hp2, Hl2.
      assert (Hbel : below (push_s b s) (push_g t g0)).
      { intros u v Hu Hv. apply in_push in Hu. apply in_push in Hv.
        destruct Hv as [->|Hv]; destruct Hu as [->|Hu].
        - lra.
        - assert (u <= b) by (apply H3; [assumption|left; reflexivity]). lra.
        - apply (top_g b g0); [assumption|right; assumption].
        - apply H3; [assumption|right; assumption]. }
      destruct (push_s b s) as [|a' s'] eqn:Ep; [discriminate|]. destruct (push_g t g0) as [|b' g'] eqn:Eq; [discriminate|].
      eexists _, _, _. split; [reflexivity|]. split; [assumption|]. split; [assumption|]. split; [assumption|].
      split. { apply HP. rewrite <- Hp1, <- Hp2. cbn [app]. rewrite <- !Permutation_middle. apply perm_swap. }
      left. split; [cbn [length] in *; lia|lra].
    + pose proof (push_s_sorted t s H1) as Hs'. pose proof (push_perm gtb t s) as Hp1. pose proof (push_len gtb t s) as Hl1.
      fold (push_s t s) in Hp1, Hl1.
      assert (Hbel : below (push_s t s) (b :: g0)).
      { intros u v Hu Hv. apply in_push in Hu. destruct Hu as [->|Hu]; [|auto].
        pose proof (top_g _ _ _ H2 Hv). lra. }
      destruct (push_s t s) as [|a' s'] eqn:Ep; [discriminate|].
      eexists _, _, _. split; [reflexivity|]. split; [assumption|]. split; [assumption|]. split; [assumption|].
      split. { apply HP. rewrite <- Hp1. reflexivity. }
      left. split; [cbn [length] in *; lia|lra].
Qed.

Lemma SS_app (P : R -> R -> Prop) a b : StronglySorted P a -> StronglySorted P b -> (forall x y, In x a -> In y b -> P x y) ->
  StronglySorted P (a ++ b).
Proof.
  intros Ha Hb H. induction a as [|x a IH]; [assumption|]. inversion Ha as [|? ? Ha' Hf]; subst.
  cbn [app]. constructor; [apply IH; auto; intros; apply H; [right|]; assumption|].
  apply Forall_app. split; [assumption|]. apply Forall_forall. intros y Hy. apply H; [left; reflexivity|assumption].
Qed.
Lemma SS_rev a : StronglySorted Rge a -> StronglySorted Rle (rev a).
Proof.
  intros H. induction H as [|x a Ha IH Hf]; [constructor|]. cbn [rev]. apply SS_app; [assumption|repeat constructor|].
  intros u v Hu [<-|[]]. apply in_rev in Hu. rewrite Forall_forall in Hf. specialize (Hf u Hu). lra.
Qed.

Lemma medinv_median xs Md s g : medinv xs Md s g -> xs <> [] -> is_median Md xs.
Proof.
  intros Hinv Hne. pose proof (medinv_top _ _ _ _ Hinv Hne) as Htop. destruct Hinv as (H1 & H2 & H3 & H4 & _).
  exists (rev s ++ g). split; [rewrite H4, <- Permutation_rev; reflexivity|].
  split. { apply SS_app; [apply SS_rev; assumption|assumption|]. intros x y Hx Hy. apply H3; [apply in_rev; assumption|assumption]. }
  assert (Hn : length xs = (length s + length g)%nat) by (rewrite (Permutation_length H4), app_length; reflexivity).
  assert (Hrs : forall a s', s = a :: s' -> nth (length s - 1) (rev s ++ g) 0 = a).
  { intros a s' ->. cbn [length rev]. rewrite <- app_assoc. replace (S (length s') - 1)%nat with (length (rev s')) by (rewrite rev_length; lia).
    rewrite app_nth2, Nat.sub_diag by lia. reflexivity. }
  assert (Hg : forall b g', g = b :: g' -> nth (length s) (rev s ++ g) 0 = b).
  { intros b g' ->. rewrite app_nth2; rewrite rev_length; [|lia]. rewrite Nat.sub_diag. reflexivity. }
  destruct Htop as [(Hl & a & s0 & b & g0 & Es & Eg & EM)|[(Hl & a & s0 & Es & EM)|(Hl & b & g0 & Eg & EM)]].
  - assert (length s <> 0)%nat by (rewrite Es; discriminate).
    replace ((length xs - 1) / 2)%nat with (length s - 1)%nat by (apply Nat.div_unique with 1%nat; lia).
    replace (length xs / 2)%nat with (length s) by (apply Nat.div_unique with 0%nat; lia).
    rewrite (Hrs a s0 Es), (Hg b g0 Eg). assumption.
  - replace ((length xs - 1) / 2)%nat with (length s - 1)%nat by (apply Nat.div_unique with 0%nat; lia).
    replace (length xs / 2)%nat with (length s - 1)%nat by (apply Nat.div_unique with 1%nat; lia).
    rewrite (Hrs a s0 Es). lra.
  - replace ((length xs - 1) / 2)%nat with (length s) by (apply Nat.div_unique with 0%nat; lia).
    replace (length xs / 2)%nat with (length s) by (apply Nat.div_unique with 1%nat; lia).
    rewrite (Hg b g0 Eg). lra.
Qed.

(** *** the whole object *)
Definition sinv (cm : bool) (xs : list R) (st : stat) : Prop :=
  scomputeMedian st = cm /\ sN st = length xs /\
  INR (length xs) * sA st = Rsum xs /\ (xs = [] -> sA st = 0) /\
  svarL st + svarH st = Rsq xs - INR (length xs) * sA st * sA st /\
  0 <= svarL st /\ 0 <= svarH st /\
  (xs = [] -> sm st = DBL_MAX /\ sM st = - DBL_MAX) /\
  (xs <> [] -> is_min (sm st) xs /\ is_max (sM st) xs) /\
  (cm = true -> medinv xs (sMedian st) (ss st) (sg st)).

Lemma DBL_MAX_pos : 0 < DBL_MAX.
Proof.
  unfold DBL_MAX. apply Rmult_lt_0_compat; [|apply pow_lt; lra].
  assert (H : / 2 ^ 52 <= / 1). { apply Rinv_le_contravar; [lra|]. apply pow_R1_Rle. lra. } lra.
Qed.

Lemma medinv_nil j : medinv [] j [] [].
Proof. split; [constructor|]. split; [constructor|]. split; [intros u1 u2 []|]. split; [reflexivity|exact I]. Qed.
Lemma clear_inv cm st : scomputeMedian st = cm -> sinv cm [] (clear st).
Proof.
  intros H. unfold sinv, clear, Rsq. cbn. repeat (split; [solve [assumption|reflexivity|lra|intros; auto|intros; split; reflexivity|contradiction]|]).
  intros _. apply medinv_nil.
Qed.
Lemma new_inv junk cm : sinv cm [] (stat_new junk cm).
Proof. apply clear_inv. reflexivity. Qed.

Lemma add_inv cm xs st t : sinv cm xs st -> - DBL_MAX <= t <= DBL_MAX ->
  (forall x, In x xs -> - DBL_MAX <= x <= DBL_MAX) ->
  exists st', add st t = Some st' /\ sinv cm (xs ++ [t]) st'.
Proof.
  intros (Hc & HN & HA & HA0 & HV & HvL & HvH & Hm0 & Hm & Hmed) Ht Hxs. unfold add. rewrite HN, Hc.
  set (n := length xs) in *.
  assert (Hn1 : INR (S n) = INR n + 1) by apply S_INR.
  assert (Hnp : 0 <= INR n) by apply pos_INR.
  set (A := sA st + (t - sA st) / INR (S n)).
  assert (EA : INR (S n) * A = INR n * sA st + t) by (unfold A; rewrite Hn1; field; lra).
  set (v := (t - sA st) * (t - A)).
  assert (Ev : v = (t - sA st) * (t - sA st) * (INR n / INR (S n))) by (unfold v, A; rewrite Hn1; field; lra).
  assert (Hv0 : 0 <= v).
  { rewrite Ev. apply Rmult_le_pos; [apply Rle_0_sqr|]. apply Rmult_le_pos; [assumption|]. apply Rlt_le, Rinv_0_lt_compat. lra. }
  assert (EV : svarL st + svarH st + v = Rsq xs + t * t - INR (S n) * A * A).
  { rewrite HV. assert (E1 : INR (S n) * v = (t - sA st) * (t - sA st) * INR n) by (rewrite Ev; field; lra).
    apply Rmult_eq_reg_l with (INR (S n)); [|lra].
    transitivity (INR (S n) * (Rsq xs - INR n * sA st * sA st) + INR (S n) * v); [ring|]. rewrite E1.
    transitivity (INR (S n) * (Rsq xs + t * t) - (INR (S n) * A) * (INR (S n) * A)); [|ring]. rewrite EA, Hn1. ring. }
  assert (Hlen : length (xs ++ [t]) = S n) by (rewrite app_length; cbn; unfold n; lia).
  assert (Hmm : forall Md s g cm', (cm' = true -> medinv (xs ++ [t]) Md s g) -> cm' = cm ->
    sinv cm (xs ++ [t]) (mkstat (S n) A (if Rlt_dec (t - sA st) 0 then svarL st + v else svarL st)
        (if Rlt_dec (t - sA st) 0 then svarH st else svarH st + v)
        (if Rlt_dec t (sm st) then t else sm st) (if Rlt_dec (sM st) t then t else sM st) Md cm' s g)).
  { intros Md s g cm' HM ->. unfold sinv. cbn [scomputeMedian sN sA svarL svarH sm sM sMedian ss sg]. rewrite Hlen.
    split; [reflexivity|]. split; [reflexivity|]. split; [rewrite EA, Rsum_app, HA; cbn; lra|].
    split; [intros H; apply app_eq_nil in H; destruct H; discriminate|].
    split. { unfold Rsq. rewrite map_app, Rsum_app. fold (Rsq xs). cbn [map Rsum fold_right].
      rewrite Rplus_0_r, <- EV. destruct (Rlt_dec (t - sA st) 0); ring. }
    split; [destruct (Rlt_dec (t - sA st) 0); lra|]. split; [destruct (Rlt_dec (t - sA st) 0); lra|].
    split; [intros H; apply app_eq_nil in H; destruct H; discriminate|].
    split; [|exact HM]. intros _. destruct xs as [|x0 xs0] eqn:Exs.
    - destruct (Hm0 eq_refl) as [-> ->]. split; split.
      + destruct (Rlt_dec t DBL_MAX); [left; reflexivity|]. left. cbn. lra.
      + intros x [<-|[]]. destruct (Rlt_dec t DBL_MAX); lra.
      + destruct (Rlt_dec (- DBL_MAX) t); [left; reflexivity|]. left. cbn. lra.
      + intros x [<-|[]]. destruct (Rlt_dec (- DBL_MAX) t); lra.
    - destruct (Hm ltac:(discriminate)) as [[M1 M2] [M3 M4]]. rewrite <- Exs in *. split; split.
      + destruct (Rlt_dec t (sm st)); apply in_or_app; [right; left; reflexivity|left; assumption].
      + intros x Hx. apply in_app_or in Hx. destruct Hx as [Hx|[<-|[]]]; [specialize (M2 x Hx)|]; destruct (Rlt_dec t (sm st)); lra.
      + destruct (Rlt_dec (sM st) t); apply in_or_app; [right; left; reflexivity|left; assumption].
      + intros x Hx. apply in_app_or in Hx. destruct Hx as [Hx|[<-|[]]]; [specialize (M4 x Hx)|]; destruct (Rlt_dec (sM st) t); lra. }
  destruct cm.
  - destruct (add_median_inv xs (sMedian st) (ss st) (sg st) t (Hmed eq_refl)) as (Md & s & g & E & Hi).
    fold n in E. rewrite E. eexists. split; [reflexivity|]. apply Hmm; auto.
  - eexists. split; [reflexivity|]. apply Hmm; [discriminate|reflexivity].
Qed.

Lemma steps_inv cm os xs st : sinv cm xs st -> doubles os -> (forall x, In x xs -> - DBL_MAX <= x <= DBL_MAX) ->
  exists st', steps os st = Some st' /\ sinv cm (samples os xs) st'.
Proof.
  revert xs st. induction os as [|o os IH]; intros xs st Hs Hd Hx; [exists st; split; [reflexivity|assumption]|].
  assert (Hd' : doubles os) by (intros t Ht; apply Hd; right; assumption).
  destruct o as [t|]; cbn [steps step samples].
  - destruct (add_inv cm xs st t Hs (Hd t (or_introl eq_refl)) Hx) as (st1 & E & H1). rewrite E.
    apply IH; auto. intros x Hin. apply in_app_or in Hin. destruct Hin as [Hin|[<-|[]]]; [auto|]. apply Hd. left. reflexivity.
  - apply IH; [apply clear_inv; apply Hs|assumption|intros x []].
Qed.

Lemma mean_thm : forall junk cm os, doubles os -> let xs := samples os [] in
  exists st, steps os (stat_new junk cm) = Some st /\
    st_count st = INR (length xs) /\ st_sum st = Rsum xs /\
    (xs <> [] -> st_mean st = Rmean xs /\ is_min (st_min st) xs /\ is_max (st_max st) xs) /\
    ((1 < length xs)%nat -> 0 <= st_stdev st /\ st_stdev st ^ 2 = deviation2 xs / INR (length xs - 1)
        /\ st_stderror st ^ 2 = deviation2 xs / INR (length xs - 1) / INR (length xs)) /\
    ((2 < length xs)%nat -> st_stdevL st ^ 2 + st_stdevH st ^ 2 = 2 * deviation2 xs / INR (length xs - 2)).
Proof.
  intros junk cm os Hd xs. destruct (steps_inv cm os [] _ (new_inv junk cm) Hd ltac:(intros x [])) as (st & E & Hi).
  exists st. split; [exact E|]. fold xs in Hi. destruct Hi as (Hc & HN & HA & HA0 & HV & HvL & HvH & Hm0 & Hm & Hmed).
  unfold st_count, st_sum, st_mean, st_min, st_max. rewrite HN. split; [reflexivity|]. split; [assumption|].
  assert (HAm : xs <> [] -> sA st = Rmean xs).
  { intros Hne. unfold Rmean. rewrite <- HA. field. apply not_0_INR. destruct xs; [contradiction|discriminate]. }
  split; [intros Hne; split; [auto|apply Hm; assumption]|].
  assert (Hdev : xs <> [] -> svarL st + svarH st = deviation2 xs).
  { intros Hne. rewrite HV, dev_eq, (HAm Hne) by assumption. reflexivity. }
  assert (Hst : forall k var, (k < length xs)%nat -> 0 <= var ->
     0 <= stdevf st var (INR k) /\ stdevf st var (INR k) ^ 2 = INR k * var / INR (length xs - k)).
  { intros k var Hk Hvar. unfold stdevf. rewrite HN. apply lt_INR in Hk as Hk'. destruct (Rle_dec (INR (length xs)) (INR k)); [lra|].
    split; [apply sqrt_pos|]. rewrite minus_INR by lia. rewrite <- Rsqr_pow2, Rsqr_sqrt; [field; lra|].
    apply Rmult_le_pos; [apply Rmult_le_pos; [assumption|apply pos_INR]|]. apply Rlt_le, Rinv_0_lt_compat. lra. }
  split; intros Hlen.
  - assert (Hne : xs <> []) by (destruct xs; [cbn in Hlen; lia|discriminate]).
    destruct (Hst 1%nat (svarL st + svarH st) Hlen ltac:(lra)) as [S1 S2]. cbn [INR] in S1, S2. unfold st_stdev.
    rewrite Hdev in * by assumption. split; [assumption|]. split; [rewrite S2; field; apply not_0_INR; lia|].
    unfold st_stderror, st_stdev. rewrite Hdev by assumption. rewrite HN.
    assert (Hq : 0 < INR (length xs)) by (apply lt_0_INR; lia). pose proof (sqrt_lt_R0 _ Hq).
    replace ((stdevf st (deviation2 xs) 1 / sqrt (INR (length xs))) ^ 2) with (stdevf st (deviation2 xs) 1 ^ 2 / (sqrt (INR (length xs)) ^ 2)) by (field; lra).
    rewrite S2, <- (Rsqr_pow2 (sqrt _)), Rsqr_sqrt by lra. assert (INR (length xs - 1) <> 0) by (apply not_0_INR; lia). field. split; lra.
  - assert (Hne : xs <> []) by (destruct xs; [cbn in Hlen; lia|discriminate]).
    destruct (Hst 2%nat (svarL st) Hlen HvL) as [_ S2]. destruct (Hst 2%nat (svarH st) Hlen HvH) as [_ S3].
    replace (INR 2) with 2 in * by (cbn; lra). unfold st_stdevL, st_stdevH. rewrite S2, S3, <- Hdev by assumption.
    field. apply not_0_INR. lia.
Qed.

Lemma median_thm : forall junk os, doubles os -> samples os [] <> [] ->
  exists st v, steps os (stat_new junk true) = Some st /\ st_median st = Some v /\ is_median v (samples os []).
Proof.
  intros junk os Hd Hne. destruct (steps_inv true os [] _ (new_inv junk true) Hd ltac:(intros x [])) as (st & E & Hi).
  exists st, (sMedian st). split; [exact E|]. destruct Hi as (Hc & _ & _ & _ & _ & _ & _ & _ & _ & Hmed).
  split; [unfold st_median; rewrite Hc; reflexivity|]. eapply medinv_median; [apply Hmed; reflexivity|assumption].
Qed.
