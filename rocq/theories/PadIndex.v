(** The output index of a pass: index(r,i), the loop over residues, and their bijection
    with 0..M-1. *)
From Coq Require Import Reals ZArith Arith Lia List Bool Permutation.
From Verif Require Import CNum Sums Roots Mem VecModel PadModel PadMath PadGeom.
Import ListNotations.

Lemma zmod_shift (M a b : Z) (k : Z) : (a = b + M * k)%Z -> (a mod M = b mod M)%Z.
Proof. intros ->. rewrite Z.mul_comm. apply Z_mod_plus_full. Qed.

(** wrap-around of a negative residue *)
Lemma neg_row (m q n M r k a : nat) : q = n -> M = m * q -> 1 <= r <= n -> k < m ->
  a = q * (if 0 <? k then k - 1 else m - 1) + (n - r) ->
  a < M /\ (Z.of_nat a mod Z.of_nat M = (Z.of_nat q * Z.of_nat k + - Z.of_nat r) mod Z.of_nat M)%Z.
Proof.
  intros -> -> Hr Hk ->. destruct (Nat.ltb_spec 0 k) as [H|H].
  - destruct k as [|k]; [lia|]. replace (S k - 1) with k by lia. split.
    + assert (n * (k + 1) <= n * m) by (apply Nat.mul_le_mono_l; lia). lia.
    + f_equal. lia.
  - assert (k = 0) by lia. subst k. destruct m as [|m]; [lia|]. replace (S m - 1) with m by lia. split; [lia|].
    apply (zmod_shift _ _ _ 1). lia.
Qed.

Ltac ufix := repeat match goal with |- context[if 0 <? 0 then 0 - 1 else 1 - 1] => change (if 0 <? 0 then 0 - 1 else 1 - 1) with 0 end;
  rewrite ?Nat.mul_0_r; rewrite ?Nat.add_0_r; rewrite ?Nat.add_0_l; try reflexivity; lia.

Section T.
Variable t : pad.
Hypothesis Hwf : wf t.
Notation m := (gm t). Notation q := (gq t). Notation M := (gM t). Notation n := (gn t).
Notation D := (gD t). Notation p := (gp t).

Lemma divm e k : k < m -> (m * e + k) / m = e.
Proof. intros H. symmetry. apply (Nat.div_unique _ _ e k); lia. Qed.
Lemma modm e k : k < m -> (m * e + k) mod m = k.
Proof. intros H. symmetry. apply (Nat.mod_unique _ _ e k); lia. Qed.

Lemma conj_eq : conjugates t = true <-> 1 < D /\ p <= 2.
Proof.
  unfold conjugates. rewrite andb_true_iff, Nat.ltb_lt, Nat.leb_le. tauto.
Qed.

(** bounds on the residue started by a pass *)
Lemma pass_bound r e : passr t r -> q <> 1 -> e < nrows t r ->
  if 2 <? p then r + e / p < n
  else if D =? 1 then r < n
  else (1 <= r -> r + e / 2 <= (n - 1) / 2 /\ 2 * (r + e / 2) < n).
Proof.
  intros Hr Hq He. pose proof (n_pos t Hwf) as Hn. pose proof (wf_D t Hwf) as HD.
  unfold nrows in He.
  destruct (Nat.ltb_spec 2 p) as [Hp|Hp].
  - rewrite (P_big t) in He by assumption.
    assert (HR : gR t = n /\ gdr t = D).
    { unfold gR, residueBlocks, gdr, gDr, conjugates. destruct (Nat.eqb_spec q 1) as [?Heq|?Hneq]; [lia|].
      destruct (Nat.leb_spec p 2); [lia|]. rewrite andb_false_r. auto. }
    destruct HR as [ER Ed].
    destruct Hr as [->|(H1 & H2 & H3)].
    + rewrite Nat.eqb_refl in He. assert (e / p < gD0 t) by (apply Nat.div_lt_upper_bound; lia).
      pose proof (D0_le_n t Hwf). lia.
    + destruct (Nat.eqb_spec r 0) as [?Heq|?Hneq]; [lia|]. assert (e / p < D) by (apply Nat.div_lt_upper_bound; lia). lia.
  - rewrite (P_small t Hwf) in He by assumption.
    destruct (Nat.eqb_spec D 1) as [ED|ED].
    + destruct Hr as [->|(H1 & H2 & H3)]; [lia|]. pose proof (R_le_n t Hwf).
      rewrite (dr_D1 t ED) in H3. lia.
    + intros Hr1. assert (HD1 : 1 < D) by lia.
      pose proof (D_even t r Hwf Hq Hp HD1 Hr1 Hr) as Hev.
      destruct Hr as [->|(H1 & H2 & H3)]; [lia|].
      destruct (Nat.eqb_spec r 0) as [?Heq|?Hneq]; [lia|].
      rewrite (dr_pair t Hq Hp HD1) in H3.
      assert (ER : gR t = cq n 2).
      { unfold gR, residueBlocks. destruct (Nat.eqb_spec q 1) as [?Heq|?Hneq]; [lia|].
        replace (conjugates t) with true by (symmetry; apply conj_eq; lia). reflexivity. }
      rewrite ER in H3. unfold cq in H3. replace (n + 2 - 1) with (n + 1) in H3 by lia.
      assert (e / 2 < D / 2) by (apply Nat.div_lt_upper_bound; lia).
      pose proof (Nat.div_mod (n + 1) 2 ltac:(lia)). pose proof (Nat.mod_upper_bound (n + 1) 2 ltac:(lia)).
      pose proof (Nat.div_mod (n - 1) 2 ltac:(lia)). pose proof (Nat.mod_upper_bound (n - 1) 2 ltac:(lia)).
      lia.
Qed.

Lemma index_rho r e k : passr t r -> e < nrows t r -> k < m ->
  index t r (m * e + k) < M /\
  (Z.of_nat (index t r (m * e + k)) mod Z.of_nat M
   = (Z.of_nat q * Z.of_nat k + rho t r e) mod Z.of_nat M)%Z.
Proof.
  intros Hr He Hk. pose proof (n_pos t Hwf) as Hn. pose proof (wf_m t Hwf) as Hm.
  pose proof (wf_p t Hwf) as Hp1. pose proof (q_eq t) as Eq.
  unfold index. destruct (Nat.eqb_spec q 1) as [Hq|Hq].
  { (* q = 1 *)
    pose proof (q1_p1 t Hwf Hq) as Ep. pose proof (q1_n1 t Hwf Hq) as En.
    assert (HD : D = 1) by (unfold gD; rewrite Hq; reflexivity).
    assert (Er : r = 0).
    { destruct Hr as [|(H1 & H2 & H3)]; [assumption|]. exfalso.
      unfold gR in H3. rewrite Hq in H3. cbn in H3. rewrite (dr_D1 t HD) in H3. lia. }
    subst r. assert (e = 0).
    { unfold nrows in He. rewrite (P_small t Hwf) in He by lia. rewrite Nat.eqb_refl, (D0_D1 t HD) in He. lia. }
    subst e. rewrite Nat.mul_0_r, Nat.add_0_l. unfold gM. rewrite Hq. split; [lia|].
    unfold rho. rewrite Ep, HD. cbn [Nat.ltb Nat.leb Nat.eqb]. f_equal. lia. }
  pose proof (pass_bound r e Hr Hq He) as HB.
  cbv zeta. rewrite modm by assumption.
  assert (HM : M = m * q) by reflexivity.
  assert (Hbig : q * k + q <= M) by (rewrite HM; nia).
  unfold rho.
  destruct (Nat.ltb_spec 2 p) as [Hp|Hp].
  - destruct (Nat.leb_spec p 2); [lia|]. rewrite andb_false_r.
    rewrite divm by assumption.
    replace ((m * e + k) / (p * m)) with (e / p).
    2:{ rewrite (Nat.mul_comm p m), <- Nat.div_div, divm by lia. reflexivity. }
    rewrite (P_big t) in Eq by assumption.
    pose proof (Nat.mod_upper_bound e p ltac:(lia)).
    split; [|f_equal; lia].
    assert (n * (e mod p) + n <= q) by (rewrite Eq; nia). lia.
  - rewrite (P_small t Hwf) in Eq by assumption.
    destruct (Nat.eqb_spec D 1) as [ED|ED].
    + rewrite ED. cbn [Nat.ltb Nat.leb andb]. rewrite divm by assumption.
      unfold nrows in He. rewrite (P_small t Hwf) in He by assumption.
      assert (e = 0). { rewrite ED, (D0_D1 t ED) in He. destruct (r =? 0); lia. }
      subst e. rewrite Nat.mod_0_l, Nat.mul_0_r by lia. rewrite Nat.mul_0_r, Nat.add_0_l.
      rewrite Nat.div_small by nia. split; [lia|]. f_equal; lia.
    + pose proof (wf_D t Hwf). destruct (Nat.ltb_spec 1 D); [|lia].
      destruct (Nat.leb_spec p 2); [|lia]. cbn [andb].
      assert (EP : cq p 2 = 1).
      { unfold cq. assert (p = 1 \/ p = 2) as [->| ->] by lia; reflexivity. }
      rewrite EP, !Nat.mul_1_l, Nat.mul_1_r. rewrite Nat.mod_1_r.
      rewrite divm by assumption.
      pose proof (D0_parity t Hwf Hq ED) as Hpar. rewrite Hpar.
      destruct (Nat.eqb_spec r 0) as [->|Hr0].
      * (* first pass *)
        clear HB. cbn [andb].
        assert (HeD : e < gD0 t) by (unfold nrows in He; rewrite (P_small t Hwf) in He by assumption; cbn [Nat.eqb] in He; lia).
        pose proof (D0_le_n t Hwf) as HDn.
        assert (Hnm : n mod 2 = 1 \/ n mod 2 = 0) by (pose proof (Nat.mod_upper_bound n 2); lia).
        pose proof (Nat.div_mod n 2 ltac:(lia)) as Hn2.
        pose proof (Nat.div_mod (gD0 t) 2 ltac:(lia)) as HD2. rewrite Hpar in HD2.
        destruct Hnm as [En|En]; rewrite En in *; cbn [Nat.eqb].
        -- rewrite andb_true_r. destruct (Nat.leb_spec m (m * e + k)) as [Hle|Hle].
           ++ assert (He1 : 1 <= e) by nia.
              replace (m * e + k + m * 1) with (m * (e + 1) + k) by lia.
              rewrite (Nat.mul_comm 2 m), <- Nat.div_div, divm by lia.
              set (d := (e - 1) / 2).
              pose proof (Nat.div_mod (e - 1) 2 ltac:(lia)) as Hd. fold d in Hd.
              pose proof (Nat.mod_upper_bound (e - 1) 2 ltac:(lia)) as Hd'.
              assert (E1 : (e + 1) / 2 = d + 1).
              { symmetry. apply (Nat.div_unique _ _ (d + 1) ((e - 1) mod 2)); lia. }
              rewrite E1. destruct (Nat.ltb_spec e 1); [lia|]. destruct (Nat.ltb_spec 0 (0 + (d + 1))); [|lia].
              destruct (Nat.eqb_spec (e + 1) (2 * (d + 1) + 1)) as [Eo|Eo].
              ** destruct (Nat.eqb_spec ((e - 1) mod 2) 0) as [|]; [lia|]. rewrite orb_true_r.
                 destruct (Nat.eqb_spec (0 + (d + 1)) 0) as [?Heq|?Hneq]; [lia|].
                 apply neg_row with (m := m) (n := gn t); [lia|lia|lia|lia|ufix].
              ** destruct (Nat.eqb_spec ((e - 1) mod 2) 0) as [|]; [|lia].
                 split; [lia|]. f_equal. lia.
           ++ assert (e = 0) by nia. subst e. rewrite Nat.mul_0_r, !Nat.add_0_l, Nat.add_0_r.
              rewrite Nat.div_small by lia. destruct (Nat.ltb_spec 0 1); [|lia]. cbn [Nat.eqb].
              rewrite Nat.mul_0_r. cbn. split; [lia|]. f_equal. lia.
        -- rewrite andb_false_r, Nat.mul_0_r, !Nat.add_0_r.
           rewrite (Nat.mul_comm 2 m), <- Nat.div_div, divm by lia.
           pose proof (Nat.div_mod e 2 ltac:(lia)) as Hd. set (d := e / 2) in *.
           pose proof (Nat.mod_upper_bound e 2 ltac:(lia)) as Hd'.
           destruct (Nat.ltb_spec e 2) as [H2|H2].
           ++ assert (Hd0 : d = 0) by lia. rewrite Hd0 in *. change (0 <? 0 + 0) with false. change (0 + 0 =? 0) with true.
              rewrite Nat.mul_0_r, !Nat.add_0_l. cbn [andb]. rewrite orb_false_r. cbn [andb].
              assert (e = 0 \/ e = 1) as [->| ->] by lia; cbn [Nat.eqb].
              ** split; [lia|]. f_equal. lia.
              ** rewrite Nat.mul_0_r, Nat.add_0_r. rewrite Eq, Nat.mul_1_l.
                 rewrite Eq, Nat.mul_1_l in Hbig, HM.
                 destruct (Nat.eqb_spec p 2).
                 --- apply neg_row with (m := m) (n := gn t); [lia|lia|lia|lia|ufix].
                 --- split; [lia|]. f_equal. lia.
           ++ set (d1 := (e - 2) / 2). pose proof (Nat.div_mod (e - 2) 2 ltac:(lia)) as Hd1. fold d1 in Hd1.
              pose proof (Nat.mod_upper_bound (e - 2) 2 ltac:(lia)) as Hd1'.
              assert (Hdd : d = d1 + 1) by lia. rewrite Hdd.
              destruct (Nat.ltb_spec 0 (0 + (d1 + 1))); [|lia].
              destruct (Nat.eqb_spec e (2 * (d1 + 1) + 1)) as [Eo|Eo].
              ** destruct (Nat.eqb_spec ((e - 2) mod 2) 0) as [|]; [lia|]. rewrite orb_true_r.
                 destruct (Nat.eqb_spec (0 + (d1 + 1)) 0) as [?Heq|?Hneq]; [lia|].
                 apply neg_row with (m := m) (n := gn t); [lia|lia|lia|lia|ufix].
              ** destruct (Nat.eqb_spec ((e - 2) mod 2) 0) as [|]; [|lia].
                 split; [lia|]. f_equal. lia.
      * cbn [andb]. destruct (HB ltac:(lia)) as [_ HB1]. rewrite Nat.mul_0_r, !Nat.add_0_r.
        rewrite (Nat.mul_comm 2 m), <- Nat.div_div, divm by lia.
        destruct (Nat.ltb_spec e 0); [lia|]. rewrite Nat.sub_0_r.
        pose proof (Nat.div_mod e 2 ltac:(lia)) as Hd. set (d := e / 2) in *.
        pose proof (Nat.mod_upper_bound e 2 ltac:(lia)) as Hd'.
        destruct (Nat.ltb_spec 0 (r + d)); [|lia].
        destruct (Nat.eqb_spec e (2 * d + 1)) as [Eo|Eo].
        -- destruct (Nat.eqb_spec (e mod 2) 0) as [|]; [lia|]. rewrite orb_true_r.
           destruct (Nat.eqb_spec (r + d) 0) as [?Heq|?Hneq]; [lia|].
           apply neg_row with (m := m) (n := gn t); [lia|lia|lia|lia|ufix].
        -- destruct (Nat.eqb_spec (e mod 2) 0) as [|]; [|lia].
           split; [lia|]. f_equal. lia.
Qed.

(** *** The residue loop  for(size_t r=0; r < R; r += increment(r))
    (convolve.cc:7689, 7697, 7706, 7713, 7727; convolve.h:1010, 1424...). *)
Fixpoint rloop (fuel r : nat) : list nat :=
  match fuel with
  | O => []
  | S k => if r <? gR t then r :: rloop k (r + increment t r) else []
  end.
(** fuel R suffices: every increment is positive, see [residues_shape] *)
Definition residues : list nat := rloop (gR t) 0.

Lemma cq2_add a k : cq (a + 2 * k) 2 = cq a 2 + k.
Proof.
  unfold cq. replace (a + 2 * k + 2 - 1) with (a + 2 - 1 + k * 2) by lia.
  rewrite Nat.div_add by lia. reflexivity.
Qed.

Lemma pass_count : exists K,
  gR t = increment t 0 + gdr t * K /\ M = m * (gP t * (gD0 t + D * K)) /\
  1 <= increment t 0 /\ 1 <= gdr t /\ (conjugates t = true -> 1 <= K -> D = 2 * gdr t) /\
  (q = 1 -> K = 0) /\ n = gD0 t + D * K.
Proof.
  pose proof (n_pos t Hwf) as Hn. pose proof (wf_D t Hwf) as HD.
  pose proof (D0_bounds t Hwf) as HD0. pose proof (q_eq t) as Eq.
  assert (Ei : increment t 0 = if conjugates t then cq (gD0 t) 2 else gD0 t) by reflexivity.
  rewrite Ei.
  destruct (Nat.eq_dec q 1) as [Hq|Hq].
  { assert (HD1 : D = 1) by (unfold gD; rewrite Hq; reflexivity).
    assert (HC : conjugates t = false) by (unfold conjugates; rewrite HD1; reflexivity).
    exists 0. rewrite HC. pose proof (D0_D1 t HD1). pose proof (dr_D1 t HD1).
    pose proof (q1_n1 t Hwf Hq). pose proof (q1_p1 t Hwf Hq).
    unfold gR, gM. rewrite Hq. cbn [Nat.eqb]. rewrite (P_small t Hwf) by lia. repeat split; lia. }
  destruct (n_D0 t Hwf Hq) as [K HK].
  assert (HM : M = m * (gP t * (gD0 t + D * K))) by (unfold gM; rewrite Eq, <- HK; reflexivity).
  destruct (conjugates t) eqn:HC.
  - pose proof (proj1 conj_eq HC) as [HD1 Hp].
    rewrite (dr_pair t Hq Hp HD1).
    assert (ER : gR t = cq n 2).
    { unfold gR, residueBlocks. rewrite HC. destruct (Nat.eqb_spec q 1); [contradiction|reflexivity]. }
    assert (1 <= D / 2) by (apply Nat.div_le_lower_bound; lia).
    assert (1 <= cq (gD0 t) 2) by (apply cq_pos; lia).
    exists K. rewrite ER.
    destruct (valid_D t Hwf Hq) as [V|[_ [[V V']|V]]]; [lia| |].
    + assert (Hev : D = 2 * (D / 2)) by (pose proof (Nat.div_mod D 2 ltac:(lia)); lia).
      split; [|repeat split; auto; lia].
      rewrite HK. rewrite Hev at 1.
      replace (gD0 t + 2 * (D / 2) * K) with (gD0 t + 2 * (D / 2 * K)) by lia. apply cq2_add.
    + assert (E0 : gD0 t = n).
      { unfold gD0. destruct (Nat.eqb_spec q 1); [contradiction|]. rewrite V, Nat.mod_same by lia. reflexivity. }
      assert (HK0 : K = 0) by nia. subst K. split; [rewrite E0; lia|]. repeat split; auto; lia.
  - exists K. unfold gR, residueBlocks, gdr, gDr. rewrite HC.
    destruct (Nat.eqb_spec q 1); [contradiction|]. repeat split; auto; try lia; discriminate.
Qed.

Lemma rloop_tail K : 1 <= increment t 0 -> 1 <= gdr t -> gR t = increment t 0 + gdr t * K ->
  forall j fuel, j <= K -> K - j <= fuel ->
  rloop fuel (increment t 0 + gdr t * j) = map (fun i => increment t 0 + gdr t * i) (seq j (K - j)).
Proof.
  intros H0 Hd HR. intros j fuel. revert j.
  induction fuel as [|fuel IH]; intros j Hj Hf.
  - replace (K - j) with 0 by lia. reflexivity.
  - cbn [rloop]. rewrite HR.
    destruct (Nat.ltb_spec (increment t 0 + gdr t * j) (increment t 0 + gdr t * K)) as [H|H].
    + assert (j < K) by nia. replace (K - j) with (S (K - S j)) by lia. cbn [seq map]. f_equal.
      rewrite <- IH by lia. f_equal.
      assert (Hi : increment t (increment t 0 + gdr t * j) = gdr t).
      { unfold increment at 1. destruct (Nat.ltb_spec 0 (increment t 0 + gdr t * j)); [reflexivity|lia]. }
      rewrite Hi. lia.
    + assert (j = K) by nia. subst j. rewrite Nat.sub_diag. reflexivity.
Qed.

Lemma residues_shape : exists K,
  residues = 0 :: map (fun i => increment t 0 + gdr t * i) (seq 0 K) /\
  gR t = increment t 0 + gdr t * K /\ M = m * (gP t * (gD0 t + D * K)) /\
  1 <= increment t 0 /\ 1 <= gdr t /\ (conjugates t = true -> 1 <= K -> D = 2 * gdr t) /\
  (q = 1 -> K = 0) /\ n = gD0 t + D * K.
Proof.
  destruct pass_count as (K & HR & HM & H0 & Hd & Hc & Hq & Hn).
  exists K. split; [|repeat split; assumption].
  unfold residues. destruct (gR t) as [|fuel] eqn:EF; [lia|]. rewrite <- EF in HR.
  cbn [rloop]. destruct (Nat.ltb_spec 0 (gR t)); [|lia]. f_equal.
  rewrite Nat.add_0_l. pose proof (rloop_tail K H0 Hd HR 0 fuel ltac:(lia)) as E.
  rewrite Nat.mul_0_r, Nat.add_0_r, Nat.sub_0_r in E. apply E.
  assert (K <= gdr t * K) by (clear -Hd; nia). lia.
Qed.

Lemma residues_passr r : In r residues -> passr t r.
Proof.
  destruct residues_shape as (K & E & HR & HM & H0 & Hd & Hc & Hq & Hn). rewrite E.
  intros [<-|Hin]; [left; reflexivity|]. apply in_map_iff in Hin. destruct Hin as (i & <- & Hi).
  apply in_seq in Hi. right. rewrite HR. repeat split; nia.
Qed.
Lemma residues_lt r : In r residues -> r < gR t.
Proof.
  destruct residues_shape as (K & E & HR & HM & H0 & Hd & Hc & Hq & Hn). rewrite E, HR.
  intros [<-|Hin]; [lia|]. apply in_map_iff in Hin. destruct Hin as (i & <- & Hi).
  apply in_seq in Hi. nia.
Qed.

Definition noutputs_total (l : list nat) : nat := fold_right (fun r a => noutputs t r + a) 0 l.

Lemma total_outputs : noutputs_total residues = M.
Proof.
  destruct residues_shape as (K & E & HR & HM & H0 & Hd & Hc & Hq & Hn). rewrite E, HM.
  cbn [noutputs_total fold_right]. rewrite noutputs_rows by assumption. unfold nrows at 1. cbn [Nat.eqb].
  assert (HT : forall j c, noutputs_total (map (fun i => increment t 0 + gdr t * i) (seq c j)) = m * (gP t * (D * j))).
  { induction j as [|j IH]; intros c; cbn [seq map noutputs_total fold_right]; [lia|].
    fold (noutputs_total (map (fun i => increment t 0 + gdr t * i) (seq (S c) j))). rewrite IH.
    rewrite noutputs_rows by assumption. unfold nrows.
    destruct (Nat.eqb_spec (increment t 0 + gdr t * c) 0); lia. }
  fold (noutputs_total (map (fun i => increment t 0 + gdr t * i) (seq 0 K))). rewrite HT. lia.
Qed.

Lemma in_later K i : residues = 0 :: map (fun i => increment t 0 + gdr t * i) (seq 0 K) -> i < K ->
  In (increment t 0 + gdr t * i) residues.
Proof. intros E Hi. rewrite E. right. apply in_map_iff. exists i. split; [reflexivity|]. apply in_seq. lia. Qed.
Lemma in_zero : In 0 residues.
Proof. destruct residues_shape as (K & E & _). rewrite E. left. reflexivity. Qed.

(** every residue modulo q is carried by some row of some pass *)
Lemma row_exists rr : rr < q -> exists r e z, In r residues /\ e < nrows t r /\
  (rho t r e = Z.of_nat rr + Z.of_nat q * z)%Z.
Proof.
  intros Hrr. pose proof (n_pos t Hwf) as Hn. pose proof (wf_D t Hwf) as HD. pose proof (wf_p t Hwf) as Hp1.
  pose proof (D0_bounds t Hwf) as HD0. pose proof (q_eq t) as Eq.
  destruct residues_shape as (K & E & HR & HM & H0 & Hd & Hc & Hq1 & HnK).
  destruct (Nat.eq_dec q 1) as [Hq|Hq].
  { pose proof (q1_p1 t Hwf Hq) as Ep.
    assert (HD1 : D = 1) by (unfold gD; rewrite Hq; reflexivity).
    exists 0, 0, 0%Z. split; [apply in_zero|]. split.
    - unfold nrows. rewrite (P_small t Hwf) by lia. cbn [Nat.eqb]. lia.
    - rewrite rho_D1 by lia. lia. }
  assert (Einc : increment t 0 = if conjugates t then cq (gD0 t) 2 else gD0 t) by reflexivity.
  destruct (Nat.ltb_spec 2 p) as [Hp|Hp].
  - (* inner *)
    assert (HC : conjugates t = false) by (unfold conjugates; destruct (Nat.leb_spec p 2); [lia|apply andb_false_r]).
    rewrite HC in Einc. rewrite (P_big t) in Eq by assumption.
    assert (Edr : gdr t = D).
    { unfold gdr, gDr. rewrite HC. destruct (Nat.eqb_spec q 1); [lia|reflexivity]. }
    set (u := rr / n). set (r' := rr mod n).
    pose proof (Nat.div_mod rr n ltac:(lia)) as Edm. fold u r' in Edm.
    assert (Hr' : r' < n) by (apply Nat.mod_upper_bound; lia).
    assert (Hu : u < p) by (apply Nat.div_lt_upper_bound; lia).
    assert (Hrho : forall r d, rho t r (p * d + u) = Z.of_nat (n * u + (r + d))).
    { intros r d. unfold rho. destruct (Nat.ltb_spec 2 p); [|lia].
      replace (p * d + u) with (u + d * p) by lia. rewrite Nat.mod_add, Nat.div_add by lia.
      rewrite Nat.mod_small, Nat.div_small by lia. f_equal. }
    destruct (Nat.ltb_spec r' (gD0 t)) as [Hl|Hl].
    + exists 0, (p * r' + u), 0%Z. split; [apply in_zero|]. split.
      * unfold nrows. rewrite (P_big t) by assumption. cbn [Nat.eqb]. nia.
      * rewrite Hrho. lia.
    + set (k := (r' - gD0 t) / D). set (d := (r' - gD0 t) mod D).
      pose proof (Nat.div_mod (r' - gD0 t) D ltac:(lia)) as Ek. fold k d in Ek.
      assert (Hdd : d < D) by (apply Nat.mod_upper_bound; lia).
      assert (Hk : k < K) by nia.
      exists (increment t 0 + gdr t * k), (p * d + u), 0%Z. split; [apply (in_later K); assumption|]. split.
      * unfold nrows. rewrite (P_big t) by assumption.
        destruct (Nat.eqb_spec (increment t 0 + gdr t * k) 0); [lia|]. clear -Hdd Hu. nia.
      * rewrite Hrho, Einc, Edr. lia.
  - rewrite (P_small t Hwf) in Eq by assumption.
    destruct (Nat.eq_dec D 1) as [HD1|HD1].
    + assert (HC : conjugates t = false) by (unfold conjugates; rewrite HD1; reflexivity).
      rewrite HC, (D0_D1 t HD1) in Einc. rewrite (D0_D1 t HD1) in HnK.
      destruct (Nat.eq_dec rr 0) as [->|Hr0].
      * exists 0, 0, 0%Z. split; [apply in_zero|]. split; [rewrite nrows_small by assumption; cbn [Nat.eqb]; lia|].
        rewrite rho_D1 by assumption. lia.
      * exists rr, 0, 0%Z. split; [|split].
        -- replace rr with (increment t 0 + gdr t * (rr - 1)) by (rewrite Einc, (dr_D1 t HD1); lia).
           apply (in_later K); [assumption|]. lia.
        -- rewrite nrows_small by assumption. destruct (rr =? 0); lia.
        -- rewrite rho_D1 by assumption. lia.
    + assert (HC : conjugates t = true) by (apply conj_eq; lia).
      rewrite HC in Einc. specialize (Hc HC).
      pose proof (D0_parity t Hwf Hq HD1) as Hpar.
      set (off := if n mod 2 =? 1 then 1 else 2).
      assert (Hoff : 2 * increment t 0 = gD0 t + (2 - off) /\ off <= 2 /\ 1 <= off /\ (n mod 2 = 0 <-> off = 2)).
      { rewrite Einc. unfold cq, off. pose proof (Nat.div_mod (gD0 t) 2 ltac:(lia)) as Hdm. rewrite Hpar in Hdm.
        pose proof (Nat.mod_upper_bound n 2 ltac:(lia)).
        replace (gD0 t + 2 - 1) with ((n mod 2 + 1) + (gD0 t / 2) * 2) by lia. rewrite Nat.div_add by lia.
        destruct (Nat.eqb_spec (n mod 2) 1) as [E1|E1].
        - rewrite E1 in *. change ((1 + 1) / 2) with 1. lia.
        - assert (n mod 2 = 0) as E0 by lia. rewrite E0 in *. change ((0 + 1) / 2) with 0. lia. }
      destruct Hoff as (Hinc & Hoff2 & Hoff1 & Hoffn).
      pose proof (Nat.div_mod n 2 ltac:(lia)) as Hn2. pose proof (Nat.mod_upper_bound n 2 ltac:(lia)) as Hnm.
      (* a positive residue rh with 2 rh < n, and its sign *)
      assert (HP : forall rh, 1 <= rh -> 2 * rh < n -> exists r e, In r residues /\ e + 1 < nrows t r /\
                rho t r e = Z.of_nat rh /\ rho t r (e + 1) = (- Z.of_nat rh)%Z).
      { intros rh Hrh1 Hrh2.
        destruct (Nat.ltb_spec rh (increment t 0)) as [Hl|Hl].
        - exists 0, (off + 2 * (rh - 1)). split; [apply in_zero|]. split; [|split].
          + rewrite nrows_small by assumption. cbn [Nat.eqb]. lia.
          + rewrite (rho_tail0 t _ off) by (auto; lia).
            replace (off + 2 * (rh - 1) - off) with (2 * (rh - 1)) by lia. rewrite tailrho_even by assumption. f_equal; lia.
          + rewrite (rho_tail0 t _ off) by (auto; lia).
            replace (off + 2 * (rh - 1) + 1 - off) with (2 * (rh - 1) + 1) by lia. rewrite tailrho_odd by assumption. lia.
        - assert (HK : 1 <= K).
          { destruct K; [|lia]. exfalso. rewrite Nat.mul_0_r, Nat.add_0_r in HnK. lia. }
          specialize (Hc HK).
          set (k := (rh - increment t 0) / gdr t). set (d := (rh - increment t 0) mod gdr t).
          pose proof (Nat.div_mod (rh - increment t 0) (gdr t) ltac:(lia)) as Ek. fold k d in Ek.
          assert (Hdd : d < gdr t) by (apply Nat.mod_upper_bound; lia).
          assert (Hk : k < K) by nia.
          assert (Hi1 : 1 <= increment t 0 + gdr t * k) by lia.
          exists (increment t 0 + gdr t * k), (2 * d). split; [apply (in_later K); assumption|]. split; [|split].
          + rewrite nrows_small by assumption.
            destruct (Nat.eqb_spec (increment t 0 + gdr t * k) 0); lia.
          + rewrite rho_tail by assumption. rewrite tailrho_even by assumption. f_equal. lia.
          + rewrite rho_tail by assumption. rewrite tailrho_odd by assumption. do 2 f_equal. lia. }
      destruct (Nat.eq_dec rr 0) as [->|Hr0].
      { exists 0, 0, 0%Z. split; [apply in_zero|]. split; [rewrite nrows_small by assumption; cbn [Nat.eqb]; lia|].
        rewrite rho_00 by assumption. lia. }
      destruct (Nat.eq_dec (2 * rr) n) as [Hh|Hh].
      { assert (Ev : n mod 2 = 0) by lia.
        assert (gD0 t <> 1) by (intros H1; apply Hoffn in Ev; lia).
        assert (Eh : q / 2 = rr) by (rewrite Eq, Nat.mul_1_l; lia).
        exists 0, 1, (if p =? 2 then (-1)%Z else 0%Z). split; [apply in_zero|]. split.
        - rewrite nrows_small by assumption. cbn [Nat.eqb]. lia.
        - rewrite rho_01 by assumption. rewrite Eh. destruct (p =? 2); lia. }
      destruct (Nat.ltb_spec (2 * rr) n) as [Hl|Hl].
      { destruct (HP rr ltac:(lia) Hl) as (r & e & H1 & H2 & H3 & _).
        exists r, e, 0%Z. split; [assumption|]. split; [lia|]. rewrite H3. lia. }
      { destruct (HP (n - rr) ltac:(lia) ltac:(lia)) as (r & e & H1 & H2 & _ & H3).
        exists r, (e + 1), (-1)%Z. split; [assumption|]. split; [lia|]. rewrite H3. lia. }
Qed.

Lemma index_surj j : j < M -> exists r i, In r residues /\ i < noutputs t r /\ index t r i = j.
Proof.
  intros Hj. pose proof (q_pos t Hwf) as Hq. pose proof (wf_m t Hwf) as Hm. pose proof (M_pos t Hwf) as HM.
  assert (EM : M = m * q) by reflexivity.
  set (rr := j mod q). assert (Hrr : rr < q) by (apply Nat.mod_upper_bound; lia).
  set (kk := j / q). pose proof (Nat.div_mod j q ltac:(lia)) as Edm. fold rr kk in Edm.
  destruct (row_exists rr Hrr) as (r & e & z & Hin & He & Hz).
  set (kz := ((Z.of_nat kk - z) mod Z.of_nat m)%Z).
  assert (Hkz : (0 <= kz < Z.of_nat m)%Z) by (apply Z.mod_pos_bound; lia).
  set (k := Z.to_nat kz). assert (Hk : k < m) by lia.
  pose proof (residues_passr r Hin) as Hpr.
  destruct (index_rho r e k Hpr He Hk) as [Hlt Hmod].
  exists r, (m * e + k). split; [assumption|]. split.
  - rewrite noutputs_rows by assumption. nia.
  - assert (Hcong : (Z.of_nat (index t r (m * e + k)) mod Z.of_nat M = Z.of_nat j mod Z.of_nat M)%Z).
    { rewrite Hmod, Hz. unfold k. rewrite Z2Nat.id by lia. unfold kz.
      pose proof (Z.div_mod (Z.of_nat kk - z) (Z.of_nat m) ltac:(lia)) as Ez.
      apply (zmod_shift _ _ _ (- ((Z.of_nat kk - z) / Z.of_nat m))%Z).
      set (Q := ((Z.of_nat kk - z) / Z.of_nat m)%Z) in *. set (RR := ((Z.of_nat kk - z) mod Z.of_nat m)%Z) in *.
      assert (EkR : RR = (Z.of_nat kk - z - Z.of_nat m * Q)%Z) by lia. rewrite EkR, EM, Edm.
      rewrite !Nat2Z.inj_add, !Nat2Z.inj_mul. ring. }
    rewrite !Z.mod_small in Hcong by lia. lia.
Qed.

(** all output indices of all passes, in the order they are produced *)
Definition all_indices : list nat :=
  flat_map (fun r => map (index t r) (seq 0 (noutputs t r))) residues.

Lemma all_indices_length : length all_indices = M.
Proof.
  rewrite <- total_outputs. unfold all_indices, noutputs_total.
  induction residues as [|r l IH]; cbn [flat_map fold_right]; [reflexivity|].
  rewrite app_length, map_length, seq_length, IH. reflexivity.
Qed.

Lemma index_perm : Permutation (seq 0 M) all_indices.
Proof.
  apply NoDup_Permutation_bis.
  - apply seq_NoDup.
  - rewrite all_indices_length, seq_length. lia.
  - intros j Hj. apply in_seq in Hj. destruct (index_surj j ltac:(lia)) as (r & i & H1 & H2 & H3).
    unfold all_indices. apply in_flat_map. exists r. split; [assumption|].
    apply in_map_iff. exists i. split; [assumption|]. apply in_seq. lia.
Qed.

Lemma nodup_app_l {A} (l l' : list A) : NoDup (l ++ l') -> NoDup l'.
Proof. induction l as [|a l IH]; cbn; intros H; [assumption|]. inversion H; auto. Qed.
Lemma nodup_app_r {A} (l l' : list A) : NoDup (l ++ l') -> NoDup l.
Proof.
  induction l as [|a l IH]; cbn; intros H; [constructor|]. inversion H as [|? ? H1 H2]; subst.
  constructor; [|auto]. intros Hin. apply H1, in_or_app. auto.
Qed.
Lemma NoDup_flat_map_inj {A B} (g : A -> list B) l : NoDup (flat_map g l) ->
  forall a b x, In a l -> In b l -> In x (g a) -> In x (g b) -> a = b.
Proof.
  induction l as [|c l IH]; intros Hnd a b x Ha Hb Hxa Hxb; [contradiction|].
  cbn [flat_map] in Hnd.
  assert (Hdis : forall y, In y (g c) -> ~ In y (flat_map g l)).
  { clear -Hnd. intros y Hy Hy'. revert Hnd Hy. induction (g c) as [|z w IH]; cbn; intros Hnd Hy; [contradiction|].
    inversion Hnd as [|? ? H1 H2]; subst. destruct Hy as [<-|Hy]; [|auto].
    apply H1, in_or_app. right. assumption. }
  destruct Ha as [<-|Ha], Hb as [<-|Hb]; auto.
  - exfalso. apply (Hdis x Hxa), in_flat_map. exists b; auto.
  - exfalso. apply (Hdis x Hxb), in_flat_map. exists a; auto.
  - eapply IH; eauto. eapply nodup_app_l; eassumption.
Qed.
Lemma NoDup_flat_map_part {A B} (g : A -> list B) l : NoDup (flat_map g l) -> forall a, In a l -> NoDup (g a).
Proof.
  induction l as [|c l IH]; intros Hnd a Ha; [contradiction|]. cbn [flat_map] in Hnd.
  destruct Ha as [<-|Ha]; [eapply nodup_app_r; eassumption|].
  apply IH; [|assumption]. eapply nodup_app_l; eassumption.
Qed.

Lemma index_inj r i r' i' : In r residues -> In r' residues -> i < noutputs t r -> i' < noutputs t r' ->
  index t r i = index t r' i' -> r = r' /\ i = i'.
Proof.
  intros Hr Hr' Hi Hi' E.
  assert (Hnd : NoDup all_indices) by (eapply Permutation_NoDup; [apply index_perm|apply seq_NoDup]).
  assert (Hin : forall r i, i < noutputs t r -> In (index t r i) (map (index t r) (seq 0 (noutputs t r)))).
  { intros r0 i0 H0. apply in_map, in_seq. lia. }
  assert (Er : r = r').
  { eapply (NoDup_flat_map_inj _ residues Hnd r r' (index t r i)); auto. rewrite E. auto. }
  subst r'. split; [reflexivity|].
  pose proof (NoDup_flat_map_part _ residues Hnd r Hr) as Hr1. cbv beta in Hr1.
  assert (HI : forall l, NoDup (map (index t r) l) -> forall a b, In a l -> In b l -> index t r a = index t r b -> a = b).
  { induction l as [|c l IH]; cbn [map]; intros Hl a b Ha Hb Hab; [contradiction|].
    inversion Hl as [|? ? H1 H2]; subst. destruct Ha as [<-|Ha], Hb as [<-|Hb]; auto.
    - exfalso. apply H1. rewrite Hab. apply in_map. assumption.
    - exfalso. apply H1. rewrite <- Hab. apply in_map. assumption. }
  apply (HI _ Hr1); auto; apply in_seq; lia.
Qed.
Lemma index_lt r i : In r residues -> i < noutputs t r -> index t r i < M.
Proof.
  intros Hr Hi. assert (In (index t r i) all_indices) as Hin.
  { unfold all_indices. apply in_flat_map. exists r. split; [assumption|]. apply in_map, in_seq. lia. }
  apply (Permutation_in _ (Permutation_sym index_perm)), in_seq in Hin. lia.
Qed.
End T.
