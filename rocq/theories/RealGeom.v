(** Geometry of the real transforms. *)
From Coq Require Import Reals ZArith Arith Lia List Bool.
From Verif Require Import CNum Sums Roots Mem VecModel PadModel PadLemmas RealModel.

Section G.
Variable t : pad.
Hypothesis Hwf : rwf t.
Notation L := (aL t).  Notation m := (am t).  Notation D := (aD t).
Notation q := (gq t).  Notation p := (gp t).  Notation e := (re_ t).  Notation D0 := (rD0 t).

Lemma r_L : 1 <= L. Proof. apply Hwf. Qed.
Lemma r_m : 1 <= m. Proof. destruct Hwf as (? & ? & ? & ? & H & _). exact H. Qed.
Lemma r_D : 1 <= D. Proof. destruct Hwf as (? & ? & ? & ? & ? & H & _). exact H. Qed.
Lemma cq_le a b : 1 <= b -> a <= cq a b * b.
Proof.
  intros Hb. unfold cq. pose proof (Nat.div_mod (a + b - 1) b ltac:(lia)). pose proof (Nat.mod_upper_bound (a + b - 1) b ltac:(lia)). lia.
Qed.
Lemma cq_lt a b : 1 <= b -> 1 <= a -> (cq a b - 1) * b < a.
Proof.
  intros Hb Ha. unfold cq. pose proof (Nat.div_mod (a + b - 1) b ltac:(lia)). rewrite Nat.mul_sub_distr_r. lia.
Qed.
Lemma r_p : (p = 1 /\ L <= m) \/ (p = 2 /\ m < L /\ L <= 2 * m).
Proof.
  pose proof r_L as HL. pose proof r_m as Hm. destruct Hwf as (_ & _ & _ & _ & _ & _ & _ & _ & Hp).
  unfold gp, param_p in *. pose proof (cq_le L m Hm). pose proof (cq_lt L m Hm HL).
  destruct (cq L m) as [|[|[|k]]]; try lia.
Qed.
Lemma r_q : q = gn t.
Proof. unfold gq, gn, param_q, param_n. pose proof r_p as Hp. unfold gp in Hp. unfold param_P. destruct Hp as [[-> _]|[-> _]]; cbn [andb orb Nat.eqb]; [|change (2 / 2) with 1]; lia. Qed.
Lemma r_M : gM t = m * q. Proof. reflexivity. Qed.
Lemma r_LM : L <= gM t. Proof. rewrite r_M. destruct Hwf as (_ & H1 & _ & _ & _ & _ & H2 & _). lia. Qed.
Lemma r_q1 : 1 <= q.
Proof. pose proof r_LM as H. rewrite r_M in H. pose proof r_L. destruct q; lia. Qed.
Lemma r_qL : q = 1 -> L <= m /\ p = 1.
Proof. intros E. pose proof r_LM as H. rewrite r_M, E in H. pose proof r_p. lia. Qed.
Lemma r_even : q <> 1 -> q mod 2 = 0 -> m = 2 * (m / 2).
Proof.
  intros Hq E. destruct Hwf as (_ & _ & _ & _ & _ & _ & _ & Hv & _). unfold rvalid in Hv.
  apply Nat.eqb_neq in Hq. rewrite Hq, E in Hv. cbn [orb] in Hv.
  apply andb_prop in Hv. destruct Hv as [Hv _]. apply andb_prop in Hv. destruct Hv as [_ Hv].
  change (0 =? 1) with false in Hv. cbn [orb] in Hv. apply Nat.eqb_eq in Hv. apply Nat.div_exact; lia.
Qed.
Lemma r_Dv : q <> 1 -> D = 1 \/ D <= (gn t - 1) / 2.
Proof.
  intros Hq. destruct Hwf as (_ & _ & _ & HS & _ & _ & _ & Hv & _). unfold rvalid in Hv.
  apply Nat.eqb_neq in Hq. rewrite Hq in Hv. cbn [orb] in Hv.
  apply andb_prop in Hv. destruct Hv as [_ Hv]. apply orb_prop in Hv. destruct Hv as [Hv|Hv]; [left; apply Nat.eqb_eq; assumption|right].
  apply andb_prop in Hv. destruct Hv as [_ Hv]. apply orb_prop in Hv. destruct Hv as [Hv|Hv].
  - apply andb_prop in Hv. destruct Hv as [Hv _]. apply Nat.ltb_lt in Hv. lia.
  - apply Nat.eqb_eq in Hv. lia.
Qed.
Lemma r_rn : rn t = q. Proof. unfold rn. destruct (Nat.eqb_spec q 1); [lia|symmetry; apply r_q]. Qed.
Lemma r_D0 : 1 <= D0 <= D.
Proof.
  pose proof r_D as HD. unfold rD0. destruct (q =? 1); [lia|]. pose proof (Nat.mod_upper_bound ((rn t - 1) / 2) D ltac:(lia)).
  destruct (Nat.eqb_spec (((rn t - 1) / 2) mod D) 0); lia.
Qed.
(** the residues strictly between 0 and q/2 are exactly covered *)
Lemma r_D0_mod : q <> 1 -> 3 <= q -> exists k, (q - 1) / 2 = D0 + k * D.
Proof.
  intros Hq H3. pose proof r_D as HD. unfold rD0. apply Nat.eqb_neq in Hq. rewrite Hq, r_rn.
  set (h := (q - 1) / 2). assert (Hh : 1 <= h) by (subst h; apply (Nat.div_le_mono 2 (q - 1) 2); lia).
  pose proof (Nat.div_mod h D ltac:(lia)) as E. destruct (Nat.eqb_spec (h mod D) 0) as [E0|E0].
  - exists (h / D - 1). rewrite E0 in E. assert (1 <= h / D) by (destruct (h / D); lia). rewrite Nat.mul_sub_distr_r. nia.
  - exists (h / D). lia.
Qed.
(** passes *)
Definition midw (r : nat) : nat := if (r =? 1) && negb (D0 =? D) then D0 else D.
Definition rpass (r : nat) : Prop :=
  r = 0 \/ (q <> 1 /\ 1 <= r /\ 2 * r < q /\ 2 * (r + midw r) <= q + 1) \/ (q <> 1 /\ 2 * r = q).
Lemma midw_inc r : 1 <= r -> midw r = rincrement t r.
Proof.
  intros Hr. unfold midw, rincrement. destruct (Nat.eqb_spec r 1) as [->|]; cbn [andb].
  - change (1 <? 1) with false. destruct (Nat.eqb_spec D0 D); cbn [negb]; lia.
  - destruct (Nat.ltb_spec 1 r); [reflexivity|lia].
Qed.
Lemma midw_pos r : 1 <= midw r <= D.
Proof. unfold midw. pose proof r_D0. destruct (_ && _); lia. Qed.
Lemma r_nout0 : rnoutputs t 0 = e. Proof. reflexivity. Qed.
Lemma r_noutm r : q <> 1 -> 1 <= r -> 2 * r < q -> rnoutputs t r = m * midw r.
Proof.
  intros Hq H1 H2. unfold rnoutputs, rblocksize, rl, midw. rewrite r_rn. apply Nat.eqb_neq in Hq. rewrite Hq.
  destruct (Nat.eqb_spec r 0); [lia|]. destruct (Nat.eqb_spec (2 * r) q); [lia|].
  destruct (Nat.eqb_spec r 1); cbn [andb]; [|reflexivity]. destruct (Nat.eqb_spec D0 D); cbn [negb]; congruence.
Qed.
Lemma r_nouth r : q <> 1 -> 2 * r = q -> rnoutputs t r = m / 2.
Proof.
  intros Hq H2. unfold rnoutputs, rblocksize. rewrite r_rn. pose proof r_q1.
  destruct (Nat.eqb_spec r 0); [lia|]. destruct (Nat.eqb_spec (2 * r) q); [|lia]. unfold re_. lia.
Qed.
Lemma r_osz : e <= routputSize t.
Proof.
  unfold routputSize, rl. rewrite r_rn. destruct (Nat.eqb_spec q 2); [lia|]. pose proof r_D.
  destruct (Nat.eqb_spec q 1); [nia|]. unfold re_. pose proof r_m. pose proof (Nat.div_mod m 2 ltac:(lia)). nia.
Qed.
Lemma r_oszm : q <> 1 -> 3 <= q -> routputSize t = m * D.
Proof. intros Hq H3. unfold routputSize, rl. rewrite r_rn. destruct (Nat.eqb_spec q 2); [lia|]. destruct (Nat.eqb_spec q 1); [lia|reflexivity]. Qed.
Lemma r_nout r : rpass r -> rnoutputs t r <= routputSize t.
Proof.
  pose proof r_osz as Ho. intros [->|[(Hq & H1 & H2 & H3)|(Hq & H2)]].
  - rewrite r_nout0. exact Ho.
  - rewrite r_noutm by assumption. rewrite r_oszm by lia. apply Nat.mul_le_mono_l. apply midw_pos.
  - rewrite r_nouth by assumption. unfold re_ in Ho. lia.
Qed.
Lemma r_e : e = m / 2 + 1. Proof. reflexivity. Qed.
(** tables *)
Lemma zq r s : 1 <= r < q -> s < m -> rZqm t (m * r + s) = Some (zeta (gM t) (Z.of_nat (r * s))).
Proof. intros Hr Hs. unfold rZqm. apply initZetaqm_get; assumption. Qed.
Lemma zqS r s : 1 <= r < q -> m <= s < L -> rZqmS t ((L - m) * r + s) = Some (zeta (gM t) (Z.of_nat (r * s))).
Proof. intros Hr Hs. unfold rZqmS. apply initZetaqmS_get; assumption. Qed.
End G.
