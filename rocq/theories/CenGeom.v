(** Geometry, tables and leaf reasoning for the centered transforms. *)
From Coq Require Import Reals ZArith Arith Lia List Bool.
From Verif Require Import CNum Sums Roots Mem VecModel VecProofs PadModel PadKernels Loops
  PadLemmas PadMath PadGeom Fwd1 PadForward Fill CenModel CenMath.

(** *** leaves that read a source buffer and write the rows of a target buffer *)
Section Leaf.
Variables (SS CC f L W N : nat) (x : nat -> nat -> C) (g : nat -> nat -> C) (m : mem).
Notation adr := (fun i => W + SS * i).
Hypothesis HCS : CC <= SS.
Lemma buf_inj : injrows adr CC N.
Proof. intros i c i' c' _ _ Hc Hc' E. apply (stride_inj SS); lia. Qed.
Hypothesis Hsep : sepbuf SS CC f L W N.
Hypothesis Hsrc : forall j c, j < L -> c < CC -> m (f + SS * j + c) = Val (x j c).
Lemma src_rd Y a j c k : j < L -> c < CC -> a = f + SS * j + c ->
  wpe (outs adr CC N) Y (k (x j c)) m -> wpe (outs adr CC N) Y (Rd a k) m.
Proof.
  intros Hj Hc -> Hk. eapply wpe_rd; [|apply Hsrc; assumption|exact Hk].
  left. intros i c' Hi Hc'. apply Hsep; assumption.
Qed.
End Leaf.

Section Wr.
Variables (adr : nat -> addr) (CC : nat) (g : nat -> nat -> C) (R : addr -> Prop) (m : mem).
Lemma row_w1 i c d v : d = adr i + c -> v = g i c -> m d <> Unalloc -> wpe R (row adr g i c) (Wr d v Ret) m.
Proof. intros -> -> Ha. apply wpe_w1; [split; reflexivity|intros a w [-> ->]; auto|assumption]. Qed.
Lemma row_w2 i i' c d v d' v' : d = adr i + c -> d' = adr i' + c -> d <> d' -> v = g i c -> v' = g i' c ->
  m d <> Unalloc -> m d' <> Unalloc -> wpe R (row2 adr g i i' c) (Wr d v (Wr d' v' Ret)) m.
Proof.
  intros -> -> Hne -> -> Ha Ha'. apply wpe_w2; [left; split; reflexivity|right; split; reflexivity| |assumption..].
  intros a w [[-> ->]|[-> ->]]; auto.
Qed.
Lemma row_w2c i i' c d v d' k : d = adr i + c -> d' = adr i' + c -> d <> d' -> v = g i c -> k v = g i' c ->
  m d <> Unalloc -> m d' <> Unalloc -> wpe R (row2 adr g i i' c) (Wr d v (Rd d (fun y => Wr d' (k y) Ret))) m.
Proof.
  intros -> -> Hne -> E Ha Ha'. apply wpe_w2c; [left; split; reflexivity|right; split; [reflexivity|assumption]| |assumption..].
  intros a w [[-> ->]|[-> ->]]; auto.
Qed.
Lemma row_w2r i i' c d v d' y k : d = adr i + c -> d' = adr i' + c -> d <> d' -> v = g i c -> k y = g i' c ->
  m d <> Unalloc -> m d' = Val y -> wpe R (row2 adr g i i' c) (Wr d v (Rd d' (fun y => Wr d' (k y) Ret))) m.
Proof.
  intros -> -> Hne -> E Ha Ha'. eapply wpe_w2r; [left; split; reflexivity|right; split; [reflexivity|eassumption]| |assumption..].
  intros a w [[-> ->]|[-> ->]]; auto.
Qed.
Lemma row_w3 i i' i2 c d v d' v' d2 v2 : d = adr i + c -> d' = adr i' + c -> d2 = adr i2 + c ->
  d <> d' -> d <> d2 -> d' <> d2 -> v = g i c -> v' = g i' c -> v2 = g i2 c ->
  m d <> Unalloc -> m d' <> Unalloc -> m d2 <> Unalloc ->
  wpe R (row3 adr g i i' i2 c) (Wr d v (Wr d' v' (Wr d2 v2 Ret))) m.
Proof.
  intros -> -> -> N1 N2 N3 -> -> -> Ha Ha' Ha2.
  apply wpe_w3; [left; split; reflexivity|right; left; split; reflexivity|right; right; split; reflexivity| |assumption..].
  intros a w [[-> ->]|[[-> ->]|[-> ->]]]; auto.
Qed.
End Wr.

(** filling a second group of rows after a first one *)
Lemma sets_app adr CC g N1 N2 m m1 m2 :
  injrows adr CC (N1 + N2) ->
  sets adr CC g N1 m m1 ->
  sets (fun i => adr (N1 + i)) CC (fun i => g (N1 + i)) N2 m1 m2 ->
  sets adr CC g (N1 + N2) m m2.
Proof.
  intros Hinj (A1 & A2 & A3) (B1 & B2 & B3). split; [|split; [|auto]].
  - intros i c Hi Hc. destruct (Nat.lt_ge_cases i N1) as [H1|H1].
    + rewrite B2; [apply A1; assumption|]. intros i' c' Hi' Hc' E.
      destruct (Hinj i c (N1 + i') c'); try assumption; lia.
    + replace i with (N1 + (i - N1)) by lia. apply B1; lia.
  - intros a Ha. rewrite B2, A2; [reflexivity| |].
    + intros i c Hi Hc. apply Ha; [lia|assumption].
    + intros i c Hi Hc. apply Ha; [lia|assumption].
Qed.

Lemma cpair2_minus z w f g :
  CONJ (vsub (vadd (vmul (CONJ z) (UNPACKL f f)) (vmul w (UNPACKL g g)))
       (ZMULTI (vadd (vmul (CONJ z) (UNPACKH f f)) (vmul w (UNPACKH g g))))) = (z * f + Cconj w * g)%C.
Proof. rewrite pair2_minus. f_equal. f_equal. apply Cconj_conj. Qed.
Lemma cpair2_plus z w f g :
  vadd (vadd (vmul (CONJ z) (UNPACKL f f)) (vmul w (UNPACKL g g)))
       (ZMULTI (vadd (vmul (CONJ z) (UNPACKH f f)) (vmul w (UNPACKH g g)))) = (Cconj z * f + w * g)%C.
Proof. rewrite pair2_plus. reflexivity. Qed.
Lemma cpair_minus z f :
  CONJ (vsub (vmul (CONJ z) (UNPACKL f f)) (ZMULTI (vmul (CONJ z) (UNPACKH f f)))) = (z * f)%C.
Proof. rewrite pair_minus. f_equal. apply Cconj_conj. Qed.
Lemma cpair_plus z f :
  vadd (vmul (CONJ z) (UNPACKL f f)) (ZMULTI (vmul (CONJ z) (UNPACKH f f))) = (Cconj z * f)%C.
Proof. rewrite pair_plus. reflexivity. Qed.

(** *** geometry *)
Section T.
Variable t : pad.
Hypothesis Hwf : kwf t.
Notation L := (aL t).  Notation CC := (aC t).  Notation SS := (aS t).  Notation m := (am t).
Notation p := (kp t).  Notation q := (kq t).   Notation n := (kn t).   Notation M := (kM t).
Notation D := (kD t).  Notation D0 := (kD0 t). Notation P := (kP t). Notation l := (kl t).

Lemma k_CS : CC <= SS. Proof. apply Hwf. Qed.
Lemma k_C : 1 <= CC. Proof. apply Hwf. Qed.
Lemma k_m : 1 <= m. Proof. apply Hwf. Qed.
Lemma k_L : 1 <= L. Proof. apply Hwf. Qed.
Lemma k_S1 : SS = 1 -> CC = 1. Proof. pose proof k_CS. pose proof k_C. lia. Qed.
Lemma k_p : 1 <= p. Proof. apply cq_pos; [apply k_m|apply k_L]. Qed.
Lemma k_n : 1 <= n.
Proof.
  destruct Hwf as (H1 & H2 & _ & _ & H5 & _). apply cq_pos; [|lia].
  assert (1 <= param_P true p); [|fold p; nia]. unfold param_P. pose proof k_p.
  destruct (Nat.eqb_spec p (2 * (p / 2))); cbn [andb orb]; [lia|]. destruct (Nat.eqb_spec p 2) as [E|]; [rewrite E; cbn; lia|lia].
Qed.
Lemma k_D : 1 <= D. Proof. unfold kD. destruct (q =? 1); [lia|apply Hwf]. Qed.

Hypothesis Hq : q <> 1.
Lemma k_even : p = 2 * (p / 2) /\ 1 <= p / 2.
Proof.
  destruct Hwf as (_ & _ & _ & _ & _ & _ & _ & Hv). unfold kvalid in Hv.
  destruct (Nat.eqb_spec q 1); [contradiction|]. apply andb_prop in Hv. destruct Hv as [Hv _].
  apply Nat.eqb_eq in Hv. pose proof (Nat.div_mod p 2 ltac:(lia)). pose proof k_p. lia.
Qed.
Lemma k_P : P = p / 2.
Proof. unfold kP. destruct (Nat.eqb_spec p 2) as [->|]; reflexivity. Qed.
Lemma k_paramP : param_P true p = P.
Proof.
  rewrite k_P. destruct k_even as [E _]. unfold param_P.
  destruct (Nat.eqb_spec p (2 * (p / 2))); [reflexivity|contradiction].
Qed.
Lemma k_q : q = P * n.
Proof. unfold kq, param_q. fold p. rewrite k_paramP. reflexivity. Qed.
Lemma k_l : l = cl m P.
Proof. unfold kl, cl. destruct (Nat.eqb_spec q 1); [contradiction|reflexivity]. Qed.
Lemma k_cg : cg m P n L.
Proof.
  destruct Hwf as (H1 & H2 & _ & _ & H5 & _). destruct k_even as [E1 E2]. constructor.
  - assumption.
  - rewrite k_P. assumption.
  - apply k_n.
  - assumption.
  - pose proof (cq_lt L m H5 H1) as H. replace (2 * P) with p by (rewrite k_P; lia). exact H.
  - pose proof (cq_le L m H5) as H. replace (2 * (m * P)) with (m * p) by (rewrite k_P, E1 at 1; lia). exact H.
Qed.
Lemma k_n2 : 2 <= n.
Proof.
  destruct k_cg as [G1 G2 G3 G4 G5 G6]. destruct Hwf as (H1 & H2 & _).
  destruct (Nat.le_gt_cases 2 n) as [|Hn]; [assumption|]. exfalso. assert (En : n = 1) by lia.
  assert (HM : aM t <= (P * m) * n).
  { unfold kn, param_n. fold p. rewrite k_paramP. apply cq_le. nia. }
  rewrite En in HM. replace (2 * P - 1) with (P + (P - 1)) in G5 by lia. rewrite Nat.mul_add_distr_l in G5. lia.
Qed.
Lemma k_M : M = cM m P n. Proof. unfold kM, cM, cqq. rewrite k_q. reflexivity. Qed.
Lemma k_qq : q = cqq P n. Proof. apply k_q. Qed.
Lemma k_Mpos : 0 < M. Proof. rewrite k_M. apply (cM_pos m P n L k_cg). Qed.
Lemma k_qpos : 0 < q. Proof. rewrite k_q. destruct k_cg. nia. Qed.
Lemma k_nq : n <= q. Proof. rewrite k_q. destruct k_cg. nia. Qed.

Lemma k_D1 : SS <> 1 -> D = 1.
Proof.
  intros HS. destruct Hwf as (_ & _ & _ & _ & _ & _ & _ & Hv). unfold kvalid in Hv.
  destruct (Nat.eqb_spec q 1); [contradiction|]. apply andb_prop in Hv. destruct Hv as [_ Hv].
  destruct (Nat.eqb_spec D 1); [assumption|]. destruct (Nat.eqb_spec SS 1); [contradiction|]. discriminate.
Qed.

(** *** tables *)
(** p=2: rows of m+1 entries *)
Lemma zqm2 r s : p = 2 -> 1 <= r < q -> s <= m -> kZqm t ((m + 1) * r + s) = Some (zeta M (Z.of_nat r * Z.of_nat s)).
Proof.
  intros Hp Hr Hs. unfold kZqm. rewrite Hp. cbn [Nat.eqb].
  rewrite initZetaqm_get by lia. do 2 apply f_equal. lia.
Qed.
Lemma zqm2m r s : p = 2 -> 1 <= r < q -> s <= m -> kZqm t ((m + 1) * r + m - s) = Some (zeta M (Z.of_nat r * (Z.of_nat m - Z.of_nat s))).
Proof.
  intros Hp Hr Hs. replace ((m + 1) * r + m - s) with ((m + 1) * r + (m - s)) by lia.
  rewrite zqm2 by lia. do 2 apply f_equal. rewrite Nat2Z.inj_sub by lia. reflexivity.
Qed.
(** p>2: rows of m entries; entry m*(n*u+r)+s *)
Lemma zqmI r s : 2 < p -> 1 <= r < q -> s < m -> kZqm t (m * r + s) = Some (zeta M (Z.of_nat r * Z.of_nat s)).
Proof.
  intros Hp Hr Hs. unfold kZqm. destruct (Nat.eqb_spec p 2); [lia|].
  rewrite initZetaqm_get by lia. do 2 apply f_equal. lia.
Qed.
Lemma zqpI r u : 1 <= r < n -> 1 <= u <= P -> kZqp t (P * r + u) = Some (zeta q (Z.of_nat r * Z.of_nat u)).
Proof.
  intros Hr Hu. unfold kZqp. replace (P * r + u) with ((P + 1 - 1) * r + u) by (f_equal; f_equal; lia).
  rewrite initZetaqp_get by lia. do 2 apply f_equal. lia.
Qed.
End T.

Lemma al_at (SS CC W N : nat) (m1 : mem) a i c :
  (forall i c, i < N -> c < CC -> m1 (W + SS * i + c) <> Unalloc) ->
  i < N -> c < CC -> a = W + SS * i + c -> m1 a <> Unalloc.
Proof. intros Ha Hi Hc ->. auto. Qed.

Ltac srd j c := match goal with
  Hsep : sepbuf ?S ?C ?f ?L ?W ?N, Hsrc : forall j c, _ -> _ -> ?m1 (_ + _ * j + c) = Val (?x j c) |- _ =>
  eapply (src_rd S C f L W N x m1 Hsep Hsrc _ _ j c); [lia|lia|lia|] end.
Ltac sal i c := match goal with
  Ha : forall i c, _ -> _ -> ?m1 (?W + ?S * i + c) <> Unalloc |- _ =>
  apply (al_at _ _ _ _ _ _ i c Ha); lia end.

