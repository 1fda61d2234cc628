(** The exchanges of mpitranspose as link families. *)
From Coq Require Import List Arith Bool Lia ZArith Permutation.
From Verif Require Import MpiModel MpiDims MpiMachine MpiRun MpiTrModel MpiTrGeom MpiLinks MpiTrForm MpiTrComm.
Import ListNotations.
Local Open Scope nat_scope.
Set Default Proof Using "All".

Lemma chunk_uniq' : forall U P Q a b o, a <= U -> b <= U -> U * P <= o < U * P + a -> U * Q <= o < U * Q + b -> P = Q.
Proof.
  intros U P Q a b o Ha Hb H1 H2. rewrite !(Nat.mul_comm U) in *. apply (chunk_uniq U P Q o); lia.
Qed.

Lemma NoDup_app_intro : forall (A : Type) (l1 l2 : list A), NoDup l1 -> NoDup l2 ->
  (forall x, In x l1 -> In x l2 -> False) -> NoDup (l1 ++ l2).
Proof.
  intros A l1 l2 H1 H2 H. induction H1 as [|x l N H1 IH]; simpl; auto. constructor.
  - intros I. apply in_app_or in I. destruct I as [I|I]; auto. apply (H x); auto. left; auto.
  - apply IH. intros y I J. apply (H y); auto. right; auto.
Qed.

Section Phase.
Variable c : cfg.
Context {Hc : good c}.
Notation S := (S_ c).
Notation "'U0'" := (n0 c * m0 c * S_ c).

Definition ustr (d : bool) (r : nat) : nat := if d then mi c r * S * n0 c else ni c r * S * m0 c.
Definition xlen (d : bool) (r P : nat) : nat := if d then mi c r * S * ni c P else ni c r * S * mi c P.
Definition lkd (d : bool) (r P : nat) : link :=
  mkLink P 0 (ustr d r * P) (xlen d r P) (ustr (negb d) r * P) (xlen (negb d) r P).
Definition cap (r : nat) : nat := Nat.max (ni c r * cM c) (cN c * mi c r) * S.

Lemma lkd_out : forall r, lkd true r = lk_out c r. Proof. reflexivity. Qed.
Lemma lkd_in : forall r, lkd false r = lk_in c r. Proof. reflexivity. Qed.
Lemma xlen_sym : forall d r P, xlen (negb d) P r = xlen d r P.
Proof. intros [] r P; unfold xlen; cbn [negb]; ring. Qed.
Lemma xlen_le : forall d r P, xlen d r P <= ustr d r.
Proof. intros [] r P; unfold xlen, ustr; apply Nat.mul_le_mono_l; [apply ni_le|apply mi_le]; auto. Qed.
Lemma xlen_cap : forall d r P, 0 < xlen d r P -> ustr d r * P + xlen d r P <= cap r.
Proof.
  intros d r P H. unfold cap. destruct d; unfold xlen, ustr in *.
  - assert (0 < ni c P) by (destruct (ni c P); [rewrite Nat.mul_0_r in H|]; lia). pose proof (ni_end c P H0).
    transitivity (mi c r * (cN c) * S).
    + replace (mi c r * S * n0 c * P + mi c r * S * ni c P) with (mi c r * (n0 c * P + ni c P) * S) by ring.
      apply Nat.mul_le_mono_r, Nat.mul_le_mono_l. auto.
    + apply Nat.mul_le_mono_r. lia.
  - assert (0 < mi c P) by (destruct (mi c P); [rewrite Nat.mul_0_r in H|]; lia). pose proof (mi_end c P H0).
    transitivity (ni c r * (cM c) * S).
    + replace (ni c r * S * m0 c * P + ni c r * S * mi c P) with (ni c r * (m0 c * P + mi c P) * S) by ring.
      apply Nat.mul_le_mono_r, Nat.mul_le_mono_l. auto.
    + apply Nat.mul_le_mono_r. lia.
Qed.
Lemma ustr_full : forall d r, ni c r = n0 c -> mi c r = m0 c -> ustr d r = U0.
Proof. intros [] r E1 E2; unfold ustr; rewrite ?E1, ?E2; ring. Qed.
Lemma xlen_full : forall d r P, ni c r = n0 c -> mi c r = m0 c -> ni c P = n0 c -> mi c P = m0 c -> xlen d r P = U0.
Proof. intros [] r P E1 E2 E3 E4; unfold xlen; rewrite ?E1, ?E2, ?E3, ?E4; ring. Qed.
Lemma U0_pos : 0 < U0.
Proof. pose proof (n0_pos c). pose proof (m0_pos c). pose proof gS. apply Nat.mul_pos_pos; auto. apply Nat.mul_pos_pos; auto. Qed.

Definition w2 : nat := if a_ c =? 1 then 1 else b_ c.
Lemma grp_full : forall r, r < size c -> grp c r = true -> ni c r = n0 c /\ mi c r = m0 c.
Proof.
  intros r Hr G. unfold grp in G. rewrite orb_true_iff in G. destruct G as [G|G].
  - destruct (uniform_U c G) as [G' _]. apply (unif_full c); auto.
  - apply (subblock_full c) in G. tauto.
Qed.
Lemma cnt2w2 : forall r, r < size c -> grp c r = true -> cnt2 c * w2 = (if uniform c then size c else a_ c * b_ c) /\ 0 < w2.
Proof.
  intros r Hr G. unfold cnt2, w2. destruct (Nat.eqb_spec (a_ c) 1) as [E|E].
  - assert (uniform c = true). { unfold grp in G. rewrite orb_true_iff in G. destruct G as [G|G]; auto.
      unfold subblock in G. rewrite E in G. discriminate. } rewrite H. lia.
  - pose proof (grp_sub c r Hr G E) as Sb. destruct (sub_facts c r Sb) as (H1 & H2 & H3 & _). split; auto.
    destruct (uniform c) eqn:U; auto. destruct (uniform_U c U); auto.
Qed.
Lemma tot_cap : forall r, r < size c -> grp c r = true -> cnt2 c * (U0 * w2) <= cap r.
Proof.
  intros r Hr G. destruct (cnt2w2 r Hr G) as [E _]. destruct (grp_full r Hr G) as [E1 E2].
  replace (cnt2 c * (U0 * w2)) with (n0 c * (cnt2 c * w2) * m0 c * S) by ring. rewrite E.
  unfold cap. rewrite E1, E2. apply Nat.mul_le_mono_r. transitivity (cN c * m0 c); [|lia]. apply Nat.mul_le_mono_r.
  destruct (uniform c) eqn:U.
  - destruct (uniform_U c U) as [U' _]. destruct (unif c U'). lia.
  - assert (subblock c r = true) as Sb by (unfold grp in G; rewrite U in G; auto).
    destruct (sub_facts c r Sb) as (H1 & H2 & H3 & _). pose proof (ab_Pbar c H1).
    assert (0 < a_ c * b_ c) by lia.
    pose proof (full_ni c (a_ c * b_ c - 1) ltac:(lia)) as F.
    pose proof (n0_pos c). pose proof (ni_end c (a_ c * b_ c - 1) ltac:(lia)) as Q. rewrite F in Q.
    assert (n0 c * (a_ c * b_ c) = n0 c * (a_ c * b_ c - 1) + n0 c); [|lia].
    replace (a_ c * b_ c) with (a_ c * b_ c - 1 + 1) at 1 by lia. ring.
Qed.

Definition count2 (r : nat) : nat := ni c r * mi c r * csz c * (if 1 <? a_ c then b_ c else a_ c) * cL c.
Lemma count2_eq : forall r, r < size c -> grp c r = true -> count2 r = U0 * w2.
Proof.
  intros r Hr G. unfold count2, w2, S_. destruct (grp_full r Hr G) as [-> ->]. pose proof (a_pos c).
  destruct (Nat.ltb_spec 1 (a_ c)), (Nat.eqb_spec (a_ c) 1) as [E|E]; try rewrite E; try lia; ring.
Qed.
Definition countv (r : nat) : nat := ni c r * mi c r * csz c * cL c.
Lemma countv_eq : forall r, r < last c -> countv r = U0.
Proof. intros r Hr. unfold countv, S_. destruct (full_last c r Hr) as [-> ->]. ring. Qed.

(** ** The exchange between rows and columns *)
Definition xstart : nat := if schedule c then start_ c else last c.
Definition LA (d : bool) (r : nat) : list link :=
  if uniform c then []
  else (if negb (schedule c) && (r <? last c) then a2a_links (countv r) false (splitv c r) (last c) r (fun j => j) else [])
       ++ map (lkd d r) (peers c r xstart).
Definition LB (r : nat) : list link :=
  if grp c r then a2a_links (count2 r) (schedule c) (split2 c r) (cnt2 c) (rk2 c r) (nm2 c r) else [].

Definition itA (d : bool) (sb rb r : nat) : list item :=
  if uniform c then []
  else (if negb (schedule c) && (r <? last c)
        then a2a_items sb rb 0 (2 * Size c r (last c)) (countv r) false (splitv c r) (last c) r (fun j => j) else [])
       ++ p2p_items c r sb rb xstart (lkd d r).
Definition itB (sb rb r : nat) : list item :=
  if grp c r then a2a_items sb rb 1 0 (count2 r) (schedule c) (split2 c r) (cnt2 c) (rk2 c r) (nm2 c r) else [].
Definition cpA (d : bool) (r : nat) : option (nat * nat * nat) :=
  if uniform c then None
  else if xstart <=? r then Some (ustr (negb d) r * r, ustr d r * r, xlen d r r) else None.
Definition cpB (r : nat) : option (nat * nat * nat) :=
  if grp c r then a2a_copy (count2 r) (schedule c) (rk2 c r) else None.

Lemma itA_specs : forall d sb rb r, specs (itA d sb rb r) = specs_of sb rb (LA d r).
Proof.
  intros. unfold itA, LA. destruct (uniform c); auto. rewrite specs_app, specs_of_app. f_equal.
  - destruct (negb (schedule c) && (r <? last c)); auto. apply a2a_specs.
  - apply items_of_specs.
Qed.
Lemma itB_specs : forall sb rb r, specs (itB sb rb r) = specs_of sb rb (LB r).
Proof. intros. unfold itB, LB. destruct (grp c r); auto. apply a2a_specs. Qed.

(** classification of the links *)
Inductive inA (d : bool) (r : nat) : link -> Prop :=
| A_v : forall P, uniform c = false -> schedule c = false -> r < last c -> P < last c ->
    inA d r (mkLink P 3 (U0 * P) U0 (U0 * P) U0)
| A_p : forall P, uniform c = false -> P < size c -> P <> r -> xstart <= r \/ xstart <= P -> inA d r (lkd d r P).
Inductive inB (r : nat) : link -> Prop :=
| B_i : forall j, grp c r = true -> j < cnt2 c -> (schedule c = true -> j <> rk2 c r) ->
    inB r (mkLink (nm2 c r j) (if schedule c then if a_ c =? 1 then 0 else 8 else if a_ c =? 1 then 1 else 9)
       (U0 * w2 * j) (U0 * w2) (U0 * w2 * j) (U0 * w2)).

Lemma LA_in : forall d r x, r < size c -> (In x (LA d r) <-> inA d r x).
Proof.
  intros d r x Hr. unfold LA. split.
  - destruct (uniform c) eqn:U; [intros []|]. intros I. apply in_app_or in I. destruct I as [I|I].
    + destruct (schedule c) eqn:Sc; [destruct I|]. cbn [negb andb] in I.
      destruct (Nat.ltb_spec r (last c)); [|destruct I]. apply a2a_links_in in I; auto.
      destruct I as (P & HP & _ & ->). unfold lk_a2a. destruct (splitv_is c r U H) as [_ ->].
      rewrite countv_eq by auto. rewrite (Nat.mul_comm P). constructor; auto.
    + apply in_map_iff in I. destruct I as (P & <- & I). apply (peers_in c) in I; auto. destruct I as (I1 & I2 & I3).
      constructor; auto.
  - intros [P U Sc H H'|P U H1 H2 H3]; rewrite U; apply in_or_app.
    + left. rewrite Sc. cbn [negb andb]. destruct (Nat.ltb_spec r (last c)); [|lia]. apply a2a_links_in; auto.
      exists P. split; auto. split; [discriminate|]. unfold lk_a2a. destruct (splitv_is c r U H) as [_ ->].
      rewrite countv_eq by auto. rewrite (Nat.mul_comm P). auto.
    + right. apply in_map. apply (peers_in c); auto.
Qed.
Lemma LB_in : forall r x, r < size c -> (In x (LB r) <-> inB r x).
Proof.
  intros r x Hr. unfold LB. split.
  - destruct (grp c r) eqn:G; [|intros []]. destruct (split2_is c r Hr G) as (C & E1 & E2 & E3 & E4 & E5 & E6).
    intros I. apply a2a_links_in in I; auto. destruct I as (P & H1 & H2 & ->). unfold lk_a2a.
    rewrite count2_eq by auto. rewrite (Nat.mul_comm P). rewrite E1, E2. constructor; auto.
  - intros [j G H1 H2]. rewrite G. destruct (split2_is c r Hr G) as (C & E1 & E2 & E3 & E4 & E5 & E6).
    apply a2a_links_in; auto. exists j. split; auto. split; auto. unfold lk_a2a.
    rewrite count2_eq by auto. rewrite (Nat.mul_comm j). rewrite E1, E2. auto.
Qed.

Lemma xstart_size : xstart <= size c.
Proof.
  unfold xstart, start_. pose proof (last_lt c). destruct (schedule c); [|lia].
  destruct (Nat.ltb_spec 1 (a_ c)); [apply ab_size; auto|lia].
Qed.
Lemma sched_sub : uniform c = false -> 1 < a_ c -> schedule c = true.
Proof.
  intros U H. unfold schedule. rewrite U. cbn [negb]. destruct (Nat.ltb_spec 1 (a_ c)); [|lia]. apply orb_true_r.
Qed.
(** groups and direct exchanges do not meet *)
Lemma grp_start : forall r, r < size c -> uniform c = false -> grp c r = true -> schedule c = true /\ xstart = a_ c * b_ c /\ r < xstart /\ a_ c <> 1.
Proof.
  intros r Hr U G. unfold grp in G. rewrite U in G. cbn [orb] in G. destruct (sub_facts c r G) as (H1 & H2 & _).
  pose proof (sched_sub U H1) as Q. unfold xstart, start_. rewrite Q. destruct (Nat.ltb_spec 1 (a_ c)); lia.
Qed.

Lemma keys : forall d r, r < size c -> NoDup (map lkey (LA d r ++ LB r)).
Proof.
  intros d r Hr. rewrite map_app.
  assert (KA : NoDup (map lkey (LA d r))).
  { unfold LA. destruct (uniform c) eqn:U; [constructor|]. rewrite map_app.
    assert (K2 : NoDup (map lkey (map (lkd d r) (peers c r xstart)))).
    { rewrite map_map. apply NoDup_map_inj; [apply (peers_nodup c); auto|]. intros P Q _ _ E. inversion E; auto. }
    destruct (schedule c) eqn:Sc; cbn [negb andb app map]; auto.
    destruct (Nat.ltb_spec r (last c)); cbn [app map]; auto.
    destruct (splitv_is c r U H) as [C E].
    pose proof (a2a_links_keys (countv r) false (splitv c r) (last c) r (fun j => j) C H) as K1.
    apply NoDup_app_intro; auto. intros x I1 I2.
    apply in_map_iff in I1. destruct I1 as (y & <- & I1). apply a2a_links_in in I1; auto. destruct I1 as (P & _ & _ & ->).
    apply in_map_iff in I2. destruct I2 as (z & Ez & I2). apply in_map_iff in I2. destruct I2 as (Q & <- & _).
    unfold lkey, lk_a2a, lkd in Ez; cbn [lpeer lctx] in Ez. rewrite E in Ez. inversion Ez. }
  assert (KB : NoDup (map lkey (LB r))).
  { unfold LB. destruct (grp c r) eqn:G; [|constructor]. destruct (split2_is c r Hr G) as (C & E1 & E2 & E3 & E4 & E5 & E6).
    apply a2a_links_keys; auto. }
  apply NoDup_app_intro; auto. intros x I1 I2.
  apply in_map_iff in I1. destruct I1 as (y & <- & I1). apply LA_in in I1; auto.
  apply in_map_iff in I2. destruct I2 as (z & Ez & I2). apply LB_in in I2; auto.
  destruct I2 as [j G H1 H2]. assert (uniform c = false) as U by (destruct I1; auto).
  destruct (grp_start r Hr U G) as (Sc & _ & _ & Na). rewrite Sc in Ez.
  destruct (Nat.eqb_spec (a_ c) 1); [lia|]. destruct I1; unfold lkey, lkd in Ez; cbn [lpeer lctx] in Ez; inversion Ez.
Qed.
Lemma nodups : forall d r, r < size c -> NoDup (LA d r ++ LB r).
Proof. intros d r Hr. eapply NoDup_map_inv. apply keys; auto. Qed.

(** the part of the buffer a link receives into *)
Lemma inA_region : forall d r x o, r < size c -> inA d r x -> lroff x <= o < lroff x + lrlen x ->
  exists P, P = lpeer x /\ P < size c /\ ustr d r * P <= o < ustr d r * P + xlen d r P /\
    (P = r -> ~ xstart <= r) /\ (xstart <= r \/ xstart <= P \/ (schedule c = false)).
Proof.
  intros d r x o Hr [P U Sc H H'|P U H1 H2 H3] Ho.
  - exists P. cbn [lroff lrlen lpeer] in *. split; auto. pose proof (last_lt c).
    destruct (full_last c r H) as [E1 E2]. destruct (full_last c P H') as [E3 E4].
    rewrite ustr_full, xlen_full by auto. split; [lia|]. split; auto. split; auto.
    intros _. unfold xstart. rewrite Sc. lia.
  - exists P. cbn [lkd lroff lrlen lpeer] in *. split; auto. split; auto. split; auto. split; [tauto|]. tauto.
Qed.

Lemma regions : forall d r, r < size c -> regions_disj (LA d r ++ LB r).
Proof.
  intros d r Hr x y o Ix Iy Hx Hy.
  assert (AA : forall x y, inA d r x -> inA d r y -> lroff x <= o < lroff x + lrlen x -> lroff y <= o < lroff y + lrlen y -> x = y).
  { clear x y Ix Iy Hx Hy. intros x y Ix Iy Hx Hy.
    destruct (inA_region d r x o Hr Ix Hx) as (P & Ep & H1 & H2 & H3 & H4).
    destruct (inA_region d r y o Hr Iy Hy) as (Q & Eq & G1 & G2 & G3 & G4).
    assert (E : P = Q). { eapply (chunk_uniq' (ustr d r)); [| |exact H2|exact G2]; apply xlen_le. }
    rewrite Ep, Eq in E. clear P Q Ep Eq H1 H2 H3 H4 G1 G2 G3 G4. destruct Ix as [P1 U1 Sc1 L1 L1'|P1 U1 K1 K2 K3], Iy as [P2 U2 Sc2 L2 L2'|P2 U2 J1 J2 J3];
      cbn [lpeer lkd] in E; subst; auto; exfalso; unfold xstart in *; rewrite ?Sc1, ?Sc2 in *; lia. }
  assert (BB : forall x y, inB r x -> inB r y -> lroff x <= o < lroff x + lrlen x -> lroff y <= o < lroff y + lrlen y -> x = y).
  { clear x y Ix Iy Hx Hy. intros x y [j G1 H1 H2] [j' G1' H1' H2'] Hx Hy. cbn [lroff lrlen] in *.
    assert (j = j') by (eapply (chunk_uniq' (U0 * w2)); [| |exact Hx|exact Hy]; auto). subst; auto. }
  assert (AB : forall x y, inA d r x -> inB r y -> lroff x <= o < lroff x + lrlen x -> lroff y <= o < lroff y + lrlen y -> False).
  { clear x y Ix Iy Hx Hy. intros x y Ix [j G1 H1 H2] Hx Hy. cbn [lroff lrlen] in *.
    assert (uniform c = false) as U by (destruct Ix; auto).
    destruct (grp_start r Hr U G1) as (Sc & Xs & Lt & Na). destruct (cnt2w2 r Hr G1) as [E W]. rewrite U in E.
    destruct (inA_region d r x o Hr Ix Hx) as (P & _ & K1 & K2 & K3 & K4).
    assert (xstart <= P). { destruct K4 as [K|[K|K]]; [lia|auto|congruence]. }
    destruct (grp_full r Hr G1) as [F1 F2]. rewrite ustr_full in K2 by auto.
    assert (U0 * w2 * (j + 1) <= U0 * w2 * cnt2 c) by (apply Nat.mul_le_mono_l; lia).
    rewrite Nat.mul_add_distr_l in H0. replace (U0 * w2 * cnt2 c) with (U0 * (cnt2 c * w2)) in H0 by ring.
    rewrite E in H0. assert (U0 * (a_ c * b_ c) <= U0 * P) by (apply Nat.mul_le_mono_l; lia). lia. }
  apply in_app_or in Ix. apply in_app_or in Iy.
  destruct Ix as [Ix|Ix], Iy as [Iy|Iy]; (apply LA_in in Ix || apply LB_in in Ix); auto;
  (apply LA_in in Iy || apply LB_in in Iy); auto; exfalso; eauto.
Qed.

Lemma bounds : forall d r x, r < size c -> In x (LA d r ++ LB r) ->
  (0 < lslen x -> lsoff x + lslen x <= cap r) /\ (0 < lrlen x -> lroff x + lrlen x <= cap r).
Proof.
  intros d r x Hr I. apply in_app_or in I. destruct I as [I|I].
  - apply LA_in in I; auto. destruct I as [P U Sc H H'|P U H1 H2 H3]; cbn [lkd lroff lrlen lsoff lslen].
    + destruct (full_last c r H) as [E1 E2]. destruct (full_last c P H') as [E3 E4].
      pose proof (xlen_cap d r P) as Q. rewrite ustr_full, xlen_full in Q by auto. auto.
    + split; apply xlen_cap.
  - apply LB_in in I; auto. destruct I as [j G H1 H2]; cbn [lroff lrlen lsoff lslen].
    assert (U0 * w2 * (j + 1) <= U0 * w2 * cnt2 c) by (apply Nat.mul_le_mono_l; lia).
    rewrite Nat.mul_add_distr_l in H. pose proof (tot_cap r Hr G). rewrite (Nat.mul_comm (cnt2 c)) in H0. lia.
Qed.

Lemma copyA_ok : forall d r ns nr, r < size c -> cap r <= ns -> cap r <= nr -> copy_ok (LA d r ++ LB r) ns nr (cpA d r).
Proof.
  intros d r ns nr Hr Hns Hnr. unfold cpA. destruct (uniform c) eqn:U; [exact I|]. destruct (Nat.leb_spec xstart r); [|exact I].
  cbn [copy_ok].
  assert (Q : 0 < xlen d r r -> ustr d r * r + xlen d r r <= cap r) by apply xlen_cap.
  assert (Q' : 0 < xlen d r r -> ustr (negb d) r * r + xlen d r r <= cap r).
  { rewrite <- (xlen_sym d r r). apply xlen_cap. }
  split; [lia|]. split; [lia|]. intros x o I Ho Hx. apply in_app_or in I. destruct I as [I|I].
  - apply LA_in in I; auto. destruct (inA_region d r x o Hr I Hx) as (P & _ & K1 & K2 & K3 & K4).
    assert (P = r). { eapply (chunk_uniq' (ustr d r)); [| |exact K2|exact Ho]; apply xlen_le. } tauto.
  - apply LB_in in I; auto. destruct I as [j G H1 H2]. destruct (grp_start r Hr U G) as (_ & _ & L & _). lia.
Qed.

Lemma copyB_ok : forall d r ns nr, r < size c -> cap r <= ns -> cap r <= nr -> copy_ok (LA d r ++ LB r) ns nr (cpB r).
Proof.
  intros d r ns nr Hr Hns Hnr. unfold cpB. destruct (grp c r) eqn:G; [|exact I]. unfold a2a_copy.
  destruct (schedule c) eqn:Sc; [|exact I]. destruct (split2_is c r Hr G) as (C & E1 & E2 & E3 & E4 & E5 & E6).
  cbn [copy_ok]. rewrite count2_eq by auto. rewrite (Nat.mul_comm (rk2 c r)).
  assert (Q : U0 * w2 * rk2 c r + U0 * w2 <= cap r).
  { assert (U0 * w2 * (rk2 c r + 1) <= U0 * w2 * cnt2 c) by (apply Nat.mul_le_mono_l; lia).
    rewrite Nat.mul_add_distr_l in H. pose proof (tot_cap r Hr G). rewrite (Nat.mul_comm (cnt2 c)) in H0. lia. }
  split; [lia|]. split; [lia|]. intros x o I Ho Hx. apply in_app_or in I. destruct I as [I|I].
  - apply LA_in in I; auto. assert (uniform c = false) as U by (destruct I; auto).
    destruct (grp_start r Hr U G) as (_ & Xs & Lt & Na). destruct (cnt2w2 r Hr G) as [E W]. rewrite U in E.
    destruct (inA_region d r x o Hr I Hx) as (P & _ & K1 & K2 & K3 & K4).
    assert (xstart <= P). { destruct K4 as [K|[K|K]]; [lia|auto|congruence]. }
    destruct (grp_full r Hr G) as [F1 F2]. rewrite ustr_full in K2 by auto.
    assert (U0 * w2 * (rk2 c r + 1) <= U0 * w2 * cnt2 c) by (apply Nat.mul_le_mono_l; lia).
    rewrite Nat.mul_add_distr_l in H0. replace (U0 * w2 * cnt2 c) with (U0 * (cnt2 c * w2)) in H0 by ring.
    rewrite E in H0. assert (U0 * (a_ c * b_ c) <= U0 * P) by (apply Nat.mul_le_mono_l; lia). lia.
  - apply LB_in in I; auto. destruct I as [j _ H1 H2]. cbn [lroff lrlen] in *.
    assert (j = rk2 c r) by (eapply (chunk_uniq' (U0 * w2)); [| |exact Hx|exact Ho]; auto). apply H2; auto.
Qed.

Lemma symm : forall d, symmetric (size c) (fun r => LA d r ++ LB r).
Proof.
  intros d r x Hr I. apply in_app_or in I. destruct I as [I|I].
  - apply LA_in in I; auto. destruct I as [P U Sc H H'|P U H1 H2 H3].
    + cbn [lpeer lctx lrlen lslen]. pose proof (last_lt c). split; [lia|].
      exists (mkLink r 3 (U0 * r) U0 (U0 * r) U0). split; [|cbn; auto].
      apply in_or_app. left. apply LA_in; [lia|]. constructor; auto.
    + cbn [lkd lpeer lctx lrlen lslen]. split; auto. exists (lkd d P r). split; [|split; [|split; [|split]]]; auto.
      * apply in_or_app. left. apply LA_in; auto. constructor; auto. tauto.
      * cbn [lkd lslen]. apply xlen_sym.
      * cbn [lkd lrlen]. symmetry. apply xlen_sym.
  - apply LB_in in I; auto. destruct I as [j G H1 H2]. cbn [lpeer lctx lrlen lslen].
    destruct (split2_peer c r j Hr G H1) as (P1 & P2 & P3 & P4).
    destruct (split2_is c r Hr G) as (C & E1 & E2 & E3 & E4 & E5 & E6). split; auto.
    eexists. split; [apply in_or_app; right; apply LB_in; auto; apply (B_i (nm2 c r j) (rk2 c r)); auto|].
    + rewrite P3. intros Sc E. apply H2; auto.
    + cbn [lpeer lctx lrlen lslen]. rewrite P4. auto.
Qed.

(** ** Request slots *)
Definition cntA (r : nat) : nat :=
  if schedule c then 2 * Size c r (start_ c) else 2 * Size c r (last c) + (if r <? last c then 1 else 0).
Definition cntB : nat := if schedule c then 2 * (cnt2 c - 1) else 1.

Lemma rindex_lt : forall rk cnt P, rk < cnt -> In P (a2a_peers true rk cnt) -> rindex rk P < cnt - 1.
Proof.
  intros rk cnt P H I. apply a2a_peers_in in I; auto. destruct I as [I1 I2]. specialize (I2 eq_refl).
  unfold rindex. destruct (Nat.ltb_spec P rk); lia.
Qed.
Lemma rindex_inj : forall rk cnt P Q, rk < cnt -> In P (a2a_peers true rk cnt) -> In Q (a2a_peers true rk cnt) ->
  rindex rk P = rindex rk Q -> P = Q.
Proof.
  intros rk cnt P Q H I J E. apply a2a_peers_in in I; auto. destruct I as [I1 I2]. specialize (I2 eq_refl).
  apply a2a_peers_in in J; auto. destruct J as [J1 J2]. specialize (J2 eq_refl).
  unfold rindex in E. destruct (Nat.ltb_spec P rk), (Nat.ltb_spec Q rk); lia.
Qed.
Lemma rindex_surj : forall rk cnt i, rk < cnt -> i < cnt - 1 -> exists P, In P (a2a_peers true rk cnt) /\ rindex rk P = i.
Proof.
  intros rk cnt i H Hi. exists (if i <? rk then i else i + 1). rewrite a2a_peers_in by auto. unfold rindex.
  destruct (Nat.ltb_spec i rk) as [Q|Q]; [destruct (Nat.ltb_spec i rk)|destruct (Nat.ltb_spec (i + 1) rk)];
  split; try split; try intros _; lia.
Qed.

Lemma a2a_slots : forall sb rb arr count (sch : bool) cm cnt rk (nm : nat -> nat), rk < cnt ->
  NoDup (map islot (a2a_items sb rb arr 0 count sch cm cnt rk nm)) /\
  forall a i, In (a, i) (map islot (a2a_items sb rb arr 0 count sch cm cnt rk nm)) <->
    a = arr /\ i < (if sch then 2 * (cnt - 1) else 1).
Proof.
  intros sb rb arr count sch cm cnt rk nm H. unfold a2a_items. destruct sch.
  - rewrite items_of_slots. split.
    + apply (pair_slots_nodup arr 0 (cnt - 1)); [apply a2a_peers_nodup; auto| |].
      * intros; eapply rindex_inj; eauto. * intros; apply rindex_lt; auto.
    + intros a i. rewrite (pair_slots_in arr 0 (cnt - 1) (rindex rk)).
      * rewrite Nat.add_0_l. intuition lia.
      * intros; apply rindex_lt; auto. * intros; apply rindex_surj; auto.
  - cbn [map islot fst]. split; [repeat constructor; auto|]. intros a i. cbn [In]. split.
    + intros [E|[]]. inversion E. lia. + intros [-> H']. left. f_equal. lia.
Qed.

Lemma itA_slots : forall d sb rb r, r < size c -> uniform c = false ->
  NoDup (map islot (itA d sb rb r)) /\ forall a i, In (a, i) (map islot (itA d sb rb r)) <-> a = 0 /\ i < cntA r.
Proof.
  intros d sb rb r Hr U. unfold itA. rewrite U.
  assert (PS : NoDup (map islot (p2p_items c r sb rb xstart (lkd d r))) /\
    forall a i, In (a, i) (map islot (p2p_items c r sb rb xstart (lkd d r))) <-> a = 0 /\ i < 2 * Size c r xstart).
  { unfold p2p_items. rewrite items_of_slots. pose proof xstart_size as Xs. split.
    - apply (pair_slots_nodup 0 0 (Size c r xstart)); [apply (peers_nodup c); auto| |].
      + intros P Q. apply (pindex_inj c); auto. + intros P. apply (pindex_lt c); auto.
    - intros a i. rewrite (pair_slots_in 0 0 (Size c r xstart) (pindex r xstart)).
      + rewrite Nat.add_0_l. intuition lia.
      + intros P. apply (pindex_lt c); auto.
      + intros j. apply (pindex_surj c); auto. }
  destruct PS as [N1 N2]. unfold cntA, xstart in *.
  destruct (schedule c) eqn:Sc; cbn [negb andb]; auto.
  destruct (Nat.ltb_spec r (last c)); cbn [app]. 2:{ rewrite Nat.add_0_r. auto. }
  unfold a2a_items. cbn [app map islot fst]. split.
  - constructor; auto. rewrite N2. lia.
  - intros a i. cbn [In]. rewrite N2. split.
    + intros [E|E]; [inversion E|]; lia.
    + intros [-> Hi]. destruct (Nat.eq_dec i (2 * Size c r (last c))) as [->|]; auto. right. lia.
Qed.
Lemma itB_slots : forall sb rb r, r < size c -> grp c r = true ->
  NoDup (map islot (itB sb rb r)) /\ forall a i, In (a, i) (map islot (itB sb rb r)) <-> a = 1 /\ i < cntB.
Proof.
  intros sb rb r Hr G. unfold itB. rewrite G. destruct (split2_is c r Hr G) as (C & E1 & E2 & E3 & E4 & E5 & E6).
  apply a2a_slots. auto.
Qed.

Lemma slot_bound : forall d sb rb r x, r < size c -> In x (itA d sb rb r ++ itB sb rb r) ->
  snd (islot x) < reqsize c r (fst (islot x)).
Proof.
  intros d sb rb r x Hr I. apply in_app_or in I. destruct I as [I|I].
  - destruct (uniform c) eqn:U; [unfold itA in I; rewrite U in I; destruct I|].
    destruct (itA_slots d sb rb r Hr U) as [_ Q]. apply (in_map islot) in I. destruct (islot x) as [a i]. apply Q in I.
    destruct I as [-> I]. cbn [fst snd]. unfold reqsize, cntA in *. rewrite U. unfold start_ in I.
    destruct (schedule c); auto. destruct (r <? last c); lia.
  - destruct (grp c r) eqn:G; [|unfold itB in I; rewrite G in I; destruct I].
    destruct (itB_slots sb rb r Hr G) as [_ Q]. apply (in_map islot) in I. destruct (islot x) as [a i]. apply Q in I.
    destruct I as [-> I]. cbn [fst snd]. unfold reqsize, cntB in *.
    destruct (split2_is c r Hr G) as (C & E1 & E2 & E3 & E4 & E5 & E6). rewrite E4. destruct (schedule c); lia.
Qed.
End Phase.
