(** Arithmetic of the block distribution used by mpitranspose. *)
From Coq Require Import List Arith Bool Lia.
From Verif Require Import MpiTrModel.
Import ListNotations.

Lemma cq_spec : forall a b, 0 < b -> a <= cq a b * b < a + b.
Proof.
  intros a b Hb. unfold cq. pose proof (Nat.div_mod (a + b - 1) b ltac:(lia)) as E.
  pose proof (Nat.mod_upper_bound (a + b - 1) b ltac:(lia)). rewrite Nat.mul_comm.
  split; lia.
Qed.
Lemma cq_pos : forall a b, 0 < a -> 0 < b -> 0 < cq a b.
Proof. intros a b Ha Hb. pose proof (cq_spec a b Hb). destruct (cq a b); lia. Qed.

Lemma cq_char : forall a b k, 0 < b -> 0 < k -> (k - 1) * b < a <= k * b -> cq a b = k.
Proof.
  intros a b k Hb Hk H. pose proof (cq_spec a b Hb) as Q.
  assert (cq a b < k + 1) by (apply (Nat.mul_lt_mono_pos_r b); lia).
  assert (k - 1 < cq a b) by (apply (Nat.mul_lt_mono_pos_r b); lia). lia.
Qed.

(** the distribution of X indices over P ranks *)
Section One.
Variables (X P : nat).
Hypothesis HX : 0 < X.
Hypothesis HP : 0 < P.
Let d := cq X P.                                   (* extent of a full rank *)
Let l := Nat.min (cq X d) P - 1.                   (* last rank with data *)
Let e := ldim X P l.                               (* its extent *)

Lemma d_pos : 0 < d. Proof. apply cq_pos; auto. Qed.
Lemma ldim0 : ldim X P 0 = d.
Proof.
  unfold ldim, lbeg. rewrite Nat.mul_0_r, Nat.sub_0_r. pose proof (cq_spec X P HP) as Q. fold d in Q. fold d.
  assert (d <= X); [|lia]. destruct (Nat.le_gt_cases d X); auto.
  assert ((X + 1) * P <= d * P) by (apply Nat.mul_le_mono_r; lia).
  assert (X * 1 <= X * P) by (apply Nat.mul_le_mono_l; lia). rewrite Nat.mul_add_distr_r in *. lia.
Qed.
Lemma cqd : cq X d <= P /\ 0 < cq X d.
Proof.
  pose proof d_pos. pose proof (cq_spec X d H). pose proof (cq_spec X P HP). fold d in H1.
  split; [|apply cq_pos; auto]. destruct (Nat.le_gt_cases (cq X d) P); auto.
  assert ((P + 1) * d <= cq X d * d) by (apply Nat.mul_le_mono_r; lia).
  rewrite Nat.mul_add_distr_r in H3. rewrite (Nat.mul_comm P d) in H3. lia.
Qed.
Lemma l_eq : l = cq X d - 1.
Proof. unfold l. pose proof cqd. lia. Qed.
Lemma l_lt : l < P. Proof. rewrite l_eq. pose proof cqd. lia. Qed.
Lemma e_eq : d * l + e = X /\ 0 < e <= d.
Proof.
  pose proof d_pos. pose proof cqd. pose proof (cq_spec X d H). unfold e, ldim, lbeg. fold d. rewrite l_eq.
  assert (d * (cq X d - 1) = cq X d * d - d). { rewrite Nat.mul_sub_distr_l, Nat.mul_1_r, Nat.mul_comm. auto. }
  assert (d <= cq X d * d). { rewrite <- (Nat.mul_1_l d) at 1. apply Nat.mul_le_mono_r. lia. }
  lia.
Qed.
Lemma l_lt_pos : forall r, r < l -> ldim X P r = d.
Proof.
  intros r Hr. unfold ldim, lbeg. fold d. destruct e_eq as [E1 E2].
  assert (d * (r + 1) <= d * l) by (apply Nat.mul_le_mono_l; lia). rewrite Nat.mul_add_distr_l in H. lia.
Qed.
Lemma l_gt_zero : forall r, l < r -> ldim X P r = 0.
Proof.
  intros r Hr. unfold ldim, lbeg. fold d. destruct e_eq as [E1 E2].
  assert (d * (l + 1) <= d * r) by (apply Nat.mul_le_mono_l; lia). rewrite Nat.mul_add_distr_l in H. lia.
Qed.
End One.

(** sensible arguments: nothing is empty *)
Class good (c : cfg) : Prop := mkGood {
  gN : 0 < cN c; gM : 0 < cM c; gP : 0 < cP c; ga : 0 < oa c; gS : 0 < S_ c }.

Set Default Proof Using "All".
Section Geo.
Variable c : cfg.
Context {Hc : good c}.
Let HN : 0 < cN c := gN.
Let HM : 0 < cM c := gM.
Let HP : 0 < cP c := gP.
Notation N := (cN c). Notation M := (cM c). Notation P := (cP c).

Lemma n0_eq : n0 c = cq N P. Proof. unfold n0. apply ldim0; auto. Qed.
Lemma m0_eq : m0 c = cq M P. Proof. unfold m0. apply ldim0; auto. Qed.
Lemma n0_pos : 0 < n0 c. Proof. rewrite n0_eq. apply cq_pos; auto. Qed.
Lemma m0_pos : 0 < m0 c. Proof. rewrite m0_eq. apply cq_pos; auto. Qed.
Lemma nlast_lt : nlast c < P. Proof. unfold nlast. rewrite n0_eq. apply l_lt; auto. Qed.
Lemma mlast_lt : mlast c < P. Proof. unfold mlast. rewrite m0_eq. apply l_lt; auto. Qed.
Lemma np_eq : n0 c * nlast c + np c = N /\ 0 < np c <= n0 c.
Proof. unfold np, nlast. rewrite n0_eq. apply e_eq; auto. Qed.
Lemma mp_eq : m0 c * mlast c + mp c = M /\ 0 < mp c <= m0 c.
Proof. unfold mp, mlast. rewrite m0_eq. apply e_eq; auto. Qed.
(** ni and mi are the local dimensions of the constructor's contract *)
Lemma ni_ldim : forall r, ni c r = ldim N P r.
Proof.
  intros r. unfold ni. destruct (Nat.ltb_spec r (nlast c)).
  - rewrite n0_eq. symmetry. apply l_lt_pos; auto. unfold nlast in H. rewrite n0_eq in H. auto.
  - destruct (Nat.eqb_spec r (nlast c)) as [->|]; auto. symmetry. apply l_gt_zero; auto.
    unfold nlast in *. rewrite n0_eq in *. lia.
Qed.
Lemma mi_ldim : forall r, mi c r = ldim M P r.
Proof.
  intros r. unfold mi. destruct (Nat.ltb_spec r (mlast c)).
  - rewrite m0_eq. symmetry. apply l_lt_pos; auto. unfold mlast in H. rewrite m0_eq in H. auto.
  - destruct (Nat.eqb_spec r (mlast c)) as [->|]; auto. symmetry. apply l_gt_zero; auto.
    unfold mlast in *. rewrite m0_eq in *. lia.
Qed.
Lemma ni_beg : forall r, lbeg N P r = n0 c * r. Proof. intros. unfold lbeg. rewrite n0_eq. auto. Qed.
Lemma mi_beg : forall r, lbeg M P r = m0 c * r. Proof. intros. unfold lbeg. rewrite m0_eq. auto. Qed.
Lemma ni_le : forall r, ni c r <= n0 c.
Proof. intros r. pose proof np_eq. unfold ni. destruct (r <? nlast c), (r =? nlast c); lia. Qed.
Lemma mi_le : forall r, mi c r <= m0 c.
Proof. intros r. pose proof mp_eq. unfold mi. destruct (r <? mlast c), (r =? mlast c); lia. Qed.
Lemma ni_end : forall r, 0 < ni c r -> n0 c * r + ni c r <= N.
Proof.
  intros r. destruct np_eq as [E1 E2]. unfold ni. destruct (Nat.ltb_spec r (nlast c)).
  - intros _. assert (n0 c * (r + 1) <= n0 c * nlast c) by (apply Nat.mul_le_mono_l; lia).
    rewrite Nat.mul_add_distr_l in H0. lia.
  - destruct (Nat.eqb_spec r (nlast c)) as [->|]; lia.
Qed.
Lemma mi_end : forall r, 0 < mi c r -> m0 c * r + mi c r <= M.
Proof.
  intros r. destruct mp_eq as [E1 E2]. unfold mi. destruct (Nat.ltb_spec r (mlast c)).
  - intros _. assert (m0 c * (r + 1) <= m0 c * mlast c) by (apply Nat.mul_le_mono_l; lia).
    rewrite Nat.mul_add_distr_l in H0. lia.
  - destruct (Nat.eqb_spec r (mlast c)) as [->|]; lia.
Qed.

Lemma size_le : size c <= P.
Proof. unfold size. pose proof nlast_lt. pose proof mlast_lt. destruct (Nat.eqb_spec P 1); lia. Qed.
Lemma size_pos : 0 < size c.
Proof. unfold size. destruct (Nat.eqb_spec P 1); lia. Qed.
Lemma nlast_size : nlast c < size c.
Proof. unfold size. pose proof nlast_lt. destruct (Nat.eqb_spec P 1); lia. Qed.
Lemma mlast_size : mlast c < size c.
Proof. unfold size. pose proof mlast_lt. destruct (Nat.eqb_spec P 1); lia. Qed.
Lemma ni_idle : forall r, size c <= r -> ni c r = 0.
Proof. intros r H. pose proof nlast_size. unfold ni. destruct (Nat.ltb_spec r (nlast c)), (Nat.eqb_spec r (nlast c)); lia. Qed.
Lemma mi_idle : forall r, size c <= r -> mi c r = 0.
Proof. intros r H. pose proof mlast_size. unfold mi. destruct (Nat.ltb_spec r (mlast c)), (Nat.eqb_spec r (mlast c)); lia. Qed.

(** every row has an owner *)
Lemma row_owner : forall i, i < N -> i / n0 c < size c /\ i mod n0 c < ni c (i / n0 c) /\ i = n0 c * (i / n0 c) + i mod n0 c.
Proof.
  intros i Hi. pose proof n0_pos. destruct np_eq as [E1 E2]. pose proof nlast_size.
  pose proof (Nat.div_mod i (n0 c) ltac:(lia)). pose proof (Nat.mod_upper_bound i (n0 c) ltac:(lia)).
  assert (i / n0 c <= nlast c).
  { destruct (Nat.le_gt_cases (i / n0 c) (nlast c)); auto.
    assert (n0 c * (nlast c + 1) <= n0 c * (i / n0 c)) by (apply Nat.mul_le_mono_l; lia).
    rewrite Nat.mul_add_distr_l in H4. lia. }
  split; [lia|]. split; auto. unfold ni. destruct (Nat.ltb_spec (i / n0 c) (nlast c)); auto.
  assert (i / n0 c = nlast c) as Q by lia. rewrite Q, Nat.eqb_refl. rewrite Q in H1. lia.
Qed.
Lemma col_owner : forall i, i < M -> i / m0 c < size c /\ i mod m0 c < mi c (i / m0 c) /\ i = m0 c * (i / m0 c) + i mod m0 c.
Proof.
  intros i Hi. pose proof m0_pos. destruct mp_eq as [E1 E2]. pose proof mlast_size.
  pose proof (Nat.div_mod i (m0 c) ltac:(lia)). pose proof (Nat.mod_upper_bound i (m0 c) ltac:(lia)).
  assert (i / m0 c <= mlast c).
  { destruct (Nat.le_gt_cases (i / m0 c) (mlast c)); auto.
    assert (m0 c * (mlast c + 1) <= m0 c * (i / m0 c)) by (apply Nat.mul_le_mono_l; lia).
    rewrite Nat.mul_add_distr_l in H4. lia. }
  split; [lia|]. split; auto. unfold mi. destruct (Nat.ltb_spec (i / m0 c) (mlast c)); auto.
  assert (i / m0 c = mlast c) as Q by lia. rewrite Q, Nat.eqb_refl. rewrite Q in H1. lia.
Qed.

Lemma full_ni : forall r, r < Pbar c -> ni c r = n0 c.
Proof.
  intros r H. unfold Pbar in H. unfold ni. destruct (Nat.ltb_spec r (nlast c)); auto.
  destruct (Nat.eqb_spec (n0 c) (np c)); [|lia]. assert (r = nlast c) as -> by lia. rewrite Nat.eqb_refl; auto.
Qed.
Lemma full_mi : forall r, r < Pbar c -> mi c r = m0 c.
Proof.
  intros r H. unfold Pbar in H. unfold mi. destruct (Nat.ltb_spec r (mlast c)); auto.
  destruct (Nat.eqb_spec (m0 c) (mp c)); [|lia]. assert (r = mlast c) as -> by lia. rewrite Nat.eqb_refl; auto.
Qed.
Lemma Pbar_le : Pbar c <= size c.
Proof. pose proof nlast_size. unfold Pbar. destruct (n0 c =? np c), (m0 c =? mp c); lia. Qed.
Lemma Pbar_last : last c <= Pbar c.
Proof. unfold Pbar, last. lia. Qed.
Lemma last_lt : last c < size c.
Proof. pose proof nlast_size. unfold last. lia. Qed.
Lemma full_last : forall r, r < last c -> ni c r = n0 c /\ mi c r = m0 c.
Proof. intros r H. pose proof Pbar_last. split; [apply full_ni|apply full_mi]; lia. Qed.

Lemma ab_Pbar : 1 < a_ c -> a_ c * b_ c <= Pbar c.
Proof.
  unfold a_, b_, ab. destruct (Nat.eqb_spec P 1); [lia|]. intros H.
  set (bb := if (1 <? oa c) || Uniform c then Pbar c / oa c else Pbar c + 1) in *.
  destruct (Nat.eqb_spec bb 1); cbn [fst snd] in *; [lia|].
  unfold bb. destruct (Nat.ltb_spec 1 (oa c)); [|lia]. cbn [orb]. rewrite Nat.mul_comm.
  rewrite Nat.mul_comm. apply Nat.mul_div_le. lia.
Qed.
Lemma a_pos : 0 < a_ c.
Proof.
  pose proof ga as H. unfold a_, ab. destruct (P =? 1); [lia|].
  destruct ((if (1 <? oa c) || Uniform c then Pbar c / oa c else Pbar c + 1) =? 1); simpl; lia.
Qed.

(** the uniform case *)
Lemma unif_one : forall X p s, 0 < X -> 0 < s -> s <= p -> 0 < p -> X mod s = 0 ->
  Nat.min (cq X (cq X p)) p - 1 + 1 <= s -> cq X p * s = X.
Proof.
  intros X p s HX Hs Hsp Hp Hm Hl.
  pose proof (cq_spec X p Hp) as Q. pose proof (cq_pos X p HX Hp) as D. set (d := cq X p) in *.
  pose proof (cqd X p HX Hp) as [Q1 Q2]. fold d in Q1, Q2. pose proof (cq_spec X d D) as Q3.
  assert (A : X <= d * s).
  { assert (cq X d * d <= s * d) by (apply Nat.mul_le_mono_r; lia). rewrite (Nat.mul_comm s d) in H. lia. }
  pose proof (Nat.div_mod X s ltac:(lia)) as E. rewrite Hm, Nat.add_0_r in E. set (x := X / s) in *.
  assert (x <= d). { destruct (Nat.le_gt_cases x d); auto. exfalso.
    assert (s * (d + 1) <= s * x) by (apply Nat.mul_le_mono_l; lia). rewrite Nat.mul_add_distr_l, (Nat.mul_comm s d) in H0. lia. }
  assert (d < x + 1).
  { destruct (Nat.lt_ge_cases d (x + 1)); auto. exfalso.
    assert (p * (x + 1) <= p * d) by (apply Nat.mul_le_mono_l; lia).
    rewrite Nat.mul_add_distr_l, (Nat.mul_comm p d) in H1.
    assert (s * x <= p * x) by (apply Nat.mul_le_mono_r; lia). lia. }
  assert (x = d) by lia. rewrite Nat.mul_comm. congruence.
Qed.

Lemma unif : Uniform c = true -> n0 c * size c = N /\ m0 c * size c = M.
Proof.
  unfold Uniform, divisible. rewrite !andb_true_iff, !Nat.leb_le, !Nat.eqb_eq. intros [[[H1 H2] H3] H4].
  pose proof size_le. pose proof size_pos. pose proof nlast_size as A. pose proof mlast_size as B.
  unfold nlast in A. unfold mlast in B. rewrite n0_eq in *. rewrite m0_eq in *.
  split; apply unif_one; auto; lia.
Qed.
Lemma unif_full : Uniform c = true -> forall r, r < size c -> ni c r = n0 c /\ mi c r = m0 c.
Proof.
  intros U r Hr. destruct (unif U) as [E1 E2]. pose proof n0_pos. pose proof m0_pos.
  destruct np_eq as [A1 A2]. destruct mp_eq as [B1 B2]. pose proof nlast_size. pose proof mlast_size.
  assert (n0 c * (nlast c + 1) = n0 c * size c).
  { apply Nat.le_antisymm; [apply Nat.mul_le_mono_l; lia|]. rewrite Nat.mul_add_distr_l. lia. }
  assert (m0 c * (mlast c + 1) = m0 c * size c).
  { apply Nat.le_antisymm; [apply Nat.mul_le_mono_l; lia|]. rewrite Nat.mul_add_distr_l. lia. }
  apply Nat.mul_cancel_l in H3; [|lia]. apply Nat.mul_cancel_l in H4; [|lia].
  assert (np c = n0 c). { rewrite <- H3, Nat.mul_add_distr_l in E1. lia. }
  assert (mp c = m0 c). { rewrite <- H4, Nat.mul_add_distr_l in E2. lia. }
  unfold ni, mi. rewrite H5, H6.
  destruct (Nat.ltb_spec r (nlast c)), (Nat.ltb_spec r (mlast c)), (Nat.eqb_spec r (nlast c)), (Nat.eqb_spec r (mlast c)); lia.
Qed.
Lemma uniform_U : uniform c = true -> Uniform c = true /\ a_ c * b_ c = size c.
Proof. unfold uniform. rewrite andb_true_iff, Nat.eqb_eq. auto. Qed.
Lemma subblock_full : forall r, subblock c r = true -> 1 < a_ c /\ r < a_ c * b_ c /\ ni c r = n0 c /\ mi c r = m0 c.
Proof.
  intros r. unfold subblock. rewrite andb_true_iff, !Nat.ltb_lt. intros [H1 H2].
  pose proof (ab_Pbar H1). split; auto. split; auto. split; [apply full_ni|apply full_mi]; lia.
Qed.
End Geo.
