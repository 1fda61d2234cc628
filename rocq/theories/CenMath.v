(** Arithmetic of the centered transforms: folding the two halves of the data into blocks of
    l words, the radix-P stage and the rows of a block. *)
From Coq Require Import Reals ZArith Arith Lia List Bool.
From Verif Require Import CNum Sums Roots Mem VecModel PadModel PadMath.
Local Open Scope C_scope.

(** DFT of length M at frequency k of x_0..x_{L-1}, where x_{L/2} is at the origin *)
Definition outc (M L : nat) (x : nat -> C) (k : Z) : C :=
  Csum L (fun j => x j * zeta M ((Z.of_nat j - Z.of_nat (L / 2)) * k)).

Lemma outc_ext M L x y k : (forall j, (j < L)%nat -> x j = y j) -> outc M L x k = outc M L y k.
Proof. intros H. apply Csum_ext. intros. rewrite H by assumption. reflexivity. Qed.
Lemma outc_mod M L x k k' : (0 < M)%nat -> (k mod Z.of_nat M = k' mod Z.of_nat M)%Z ->
  outc M L x k = outc M L x k'.
Proof.
  intros HM H. apply Csum_ext. intros j Hj. f_equal. apply zeta_mod_eq; [assumption|].
  rewrite Z.mul_mod, H, <- Z.mul_mod by lia. reflexivity.
Qed.

Section M.
Variables m P n L : nat.
Record cg : Prop := mkcg { cg_m : (1 <= m)%nat; cg_P : (1 <= P)%nat; cg_n : (1 <= n)%nat;
  cg_L : (1 <= L)%nat; cg_lo : (m * (2 * P - 1) < L)%nat; cg_hi : (L <= 2 * (m * P))%nat }.
Hypothesis G : cg.
Definition cl : nat := m * P.
Definition cqq : nat := P * n.
Definition cM : nat := m * cqq.
Definition cH : nat := L / 2.
Definition cm0 : nat := cl - cH.
Definition cLH : nat := L - cH.
Notation l := cl. Notation q := cqq. Notation M := cM. Notation H := cH. Notation m0 := cm0. Notation LH := cLH.

Lemma cM_l : M = (l * n)%nat. Proof. unfold cM, cqq, cl. lia. Qed.
Lemma cM_pos : (0 < M)%nat. Proof. destruct G. unfold cM, cqq. assert (1 <= P * n)%nat by nia. nia. Qed.
Lemma cq_pos' : (0 < q)%nat. Proof. destruct G. unfold cqq. nia. Qed.
Lemma cl_pos : (0 < l)%nat. Proof. destruct G. unfold cl. nia. Qed.
Lemma cH_2 : (2 * H <= L <= 2 * H + 1)%nat.
Proof. unfold cH. pose proof (Nat.div_mod L 2). pose proof (Nat.mod_upper_bound L 2). lia. Qed.
Lemma cH_l : (H <= l)%nat.
Proof. pose proof cH_2. destruct G. unfold cl. lia. Qed.
Lemma cLH_l : (LH <= l)%nat.
Proof. pose proof cH_2. destruct G. unfold cLH, cl. lia. Qed.
Lemma cm0_m : (2 * m0 <= m)%nat.
Proof.
  pose proof cH_2. destruct G. unfold cm0, cl.
  replace (m * (2 * P - 1))%nat with (2 * (m * P) - m)%nat in cg_lo0; [lia|].
  rewrite Nat.mul_sub_distr_l. lia.
Qed.
Lemma cLH_lo : (m * (P - 1) + m <= l /\ l < LH + m /\ 2 * l <= 2 * LH + m)%nat.
Proof.
  pose proof cH_2. destruct G. unfold cLH, cl.
  replace (m * (2 * P - 1))%nat with (2 * (m * P) - m)%nat in cg_lo0 by (rewrite Nat.mul_sub_distr_l; lia).
  rewrite Nat.mul_sub_distr_l, Nat.mul_1_r. assert (m * 1 <= m * P)%nat by (apply Nat.mul_le_mono_l; lia). lia.
Qed.
Lemma cm0_LH : (m0 <= LH)%nat.
Proof. pose proof cm0_m. pose proof cLH_lo. destruct G. assert (m * 1 <= m * P)%nat by (apply Nat.mul_le_mono_l; lia). unfold cl in *. lia. Qed.

(** the block of l words for residue rr *)
Definition fold (rr : Z) (x : nat -> C) (i : nat) : C :=
  (if (i <? LH)%nat then x (H + i)%nat else C0) +
  (if (m0 <=? i)%nat then zeta n (- rr) * x (i - m0)%nat else C0).
Lemma fold_lo rr x i : (i < m0)%nat -> fold rr x i = x (H + i)%nat.
Proof.
  intros Hi. pose proof cm0_LH. unfold fold.
  destruct (Nat.ltb_spec i LH) as [?Hx|?Hx]; [|lia]. destruct (Nat.leb_spec m0 i) as [?Hx|?Hx]; [lia|]. ring.
Qed.
Lemma fold_mid rr x i : (m0 <= i < LH)%nat -> fold rr x i = x (H + i)%nat + zeta n (- rr) * x (i - m0)%nat.
Proof.
  intros Hi. unfold fold.
  destruct (Nat.ltb_spec i LH) as [?Hx|?Hx]; [|lia]. destruct (Nat.leb_spec m0 i) as [?Hx|?Hx]; [|lia]. reflexivity.
Qed.
Lemma fold_hi rr x i : (LH <= i)%nat -> fold rr x i = zeta n (- rr) * x (i - m0)%nat.
Proof.
  intros Hi. pose proof cm0_LH. unfold fold.
  destruct (Nat.ltb_spec i LH) as [?Hx|?Hx]; [lia|]. destruct (Nat.leb_spec m0 i) as [?Hx|?Hx]; [|lia]. ring.
Qed.

Lemma zeta_l (w rr i : Z) :
  zeta M ((i - Z.of_nat l) * (Z.of_nat n * w + rr)) = zeta M (i * (Z.of_nat n * w + rr)) * zeta n (- rr).
Proof.
  pose proof cl_pos. pose proof cM_pos.
  assert (E : zeta n (- rr) = zeta M (Z.of_nat l * - rr)).
  { rewrite cM_l. symmetry. apply zeta_cancel; [assumption|]. apply (cg_n G). }
  rewrite E, <- zeta_add. apply zeta_mod_eq; [assumption|]. rewrite cM_l.
  replace ((i - Z.of_nat l) * (Z.of_nat n * w + rr))%Z with
    (i * (Z.of_nat n * w + rr) + Z.of_nat l * - rr + (- w) * Z.of_nat (l * n))%Z by lia.
  apply Z.mod_add. rewrite cM_l in *. lia.
Qed.

Lemma fold_out (w rr : Z) x : outc M L x (Z.of_nat n * w + rr) = outv M l (fold rr x) (Z.of_nat n * w + rr).
Proof.
  pose proof cH_2 as Hh. pose proof cH_l as Hl. pose proof cLH_l as HLl. set (k := (Z.of_nat n * w + rr)%Z).
  unfold outc, outv, fold. fold H.
  rewrite (Csum_ext l _ (fun i => (if (i <? LH)%nat then x (H + i)%nat * zeta M (Z.of_nat i * k) else C0) +
     (if (m0 <=? i)%nat then zeta n (- rr) * x (i - m0)%nat * zeta M (Z.of_nat i * k) else C0))).
  2:{ intros i Hi. destruct (i <? LH)%nat, (m0 <=? i)%nat; ring. }
  rewrite Csum_add.
  replace (Csum l (fun i => if (i <? LH)%nat then x (H + i)%nat * zeta M (Z.of_nat i * k) else C0))
    with (Csum LH (fun i => x (H + i)%nat * zeta M (Z.of_nat i * k))).
  2:{ symmetry. rewrite (Csum_pad LH l); [|assumption|].
      - apply Csum_ext. intros i Hi. destruct (Nat.ltb_spec i LH) as [?Hx|?Hx]; [reflexivity|lia].
      - intros i H1 H2. destruct (Nat.ltb_spec i LH) as [?Hx|?Hx]; [lia|reflexivity]. }
  replace l with (m0 + H)%nat at 1 by (unfold cm0; lia). rewrite Csum_split.
  replace (Csum m0 (fun i => if (m0 <=? i)%nat then zeta n (- rr) * x (i - m0)%nat * zeta M (Z.of_nat i * k) else C0)) with C0.
  2:{ symmetry. rewrite (Csum_ext m0 _ (fun _ => C0)).
      - induction m0; cbn [Csum]; [reflexivity|]. rewrite IHn0. ring.
      - intros i Hi. destruct (Nat.leb_spec m0 i) as [?Hx|?Hx]; [lia|reflexivity]. }
  replace L with (H + LH)%nat at 1 by (unfold cLH; lia). rewrite Csum_split.
  assert (A1 : Csum H (fun j => x j * zeta M ((Z.of_nat j - Z.of_nat H) * k)) =
    Csum H (fun i => if (m0 <=? m0 + i)%nat then zeta n (- rr) * x (m0 + i - m0)%nat * zeta M (Z.of_nat (m0 + i) * k) else C0)).
  { apply Csum_ext. intros i Hi. destruct (Nat.leb_spec m0 (m0 + i)) as [?Hx|?Hx]; [|lia].
    replace (m0 + i - m0)%nat with i by lia. unfold k.
    replace (Z.of_nat i - Z.of_nat H)%Z with (Z.of_nat (m0 + i) - Z.of_nat l)%Z by (unfold cm0; lia).
    rewrite zeta_l. ring. }
  rewrite A1.
  assert (A2 : Csum LH (fun i => x (H + i)%nat * zeta M ((Z.of_nat (H + i) - Z.of_nat H) * k)) =
    Csum LH (fun i => x (H + i)%nat * zeta M (Z.of_nat i * k))).
  { apply Csum_ext. intros i Hi. do 2 f_equal. lia. }
  rewrite A2. ring.
Qed.

(** pre-transform value of row u of the block for residue rr *)
Definition pre (rr : Z) (x : nat -> C) (u s : nat) : C :=
  rowval m P l M (Z.of_nat n * Z.of_nat u + rr) (fold rr x) s.
Lemma pre_dft rr x u k :
  dft m 1 (pre rr x u) k = outc M L x (Z.of_nat q * Z.of_nat k + Z.of_nat n * Z.of_nat u + rr).
Proof.
  unfold pre. change (fun s => rowval m P l M (Z.of_nat n * Z.of_nat u + rr) (fold rr x) s)
    with (rowval m P l M (Z.of_nat n * Z.of_nat u + rr) (fold rr x)).
  rewrite (row_dft m P l M q); [|reflexivity|apply (cg_m G)|apply cq_pos'|reflexivity].
  replace (Z.of_nat q * Z.of_nat k + (Z.of_nat n * Z.of_nat u + rr))%Z with
    (Z.of_nat n * (Z.of_nat P * Z.of_nat k + Z.of_nat u) + rr)%Z by (unfold cqq; lia).
  replace (Z.of_nat q * Z.of_nat k + Z.of_nat n * Z.of_nat u + rr)%Z with
    (Z.of_nat n * (Z.of_nat P * Z.of_nat k + Z.of_nat u) + rr)%Z by (unfold cqq; lia).
  symmetry. apply fold_out.
Qed.

(** input of the radix-P stage *)
Definition stA (rr : Z) (x : nat -> C) (i : nat) : C := zeta q (rr * Z.of_nat (i / m)) * fold rr x i.
Lemma stB rr x u s : (s < m)%nat ->
  dft P 1 (fun t => stA rr x (m * t + s)) u * zeta M ((Z.of_nat n * Z.of_nat u + rr) * Z.of_nat s) = pre rr x u s.
Proof.
  intros Hs. destruct G. unfold dft, pre, rowval. rewrite <- Csum_mul_r.
  apply Csum_ext. intros t Ht. unfold stA.
  replace ((m * t + s) / m)%nat with t by (apply (Nat.div_unique _ _ t s); lia).
  assert (Hlt : (m * t + s < l)%nat) by (unfold cl; nia).
  apply Nat.ltb_lt in Hlt. rewrite Hlt.
  assert (E1 : zeta q (rr * Z.of_nat t) = zeta M (Z.of_nat m * (rr * Z.of_nat t))).
  { symmetry. apply zeta_cancel; [lia|apply cq_pos']. }
  assert (E2 : zeta P (1 * Z.of_nat t * Z.of_nat u) = zeta M (Z.of_nat (m * n) * (1 * Z.of_nat t * Z.of_nat u))).
  { replace M with ((m * n) * P)%nat by (unfold cM, cqq; lia). symmetry. apply zeta_cancel; nia. }
  rewrite E1, E2.
  replace ((Z.of_nat n * Z.of_nat u + rr) * Z.of_nat (m * t + s))%Z with
    (Z.of_nat m * (rr * Z.of_nat t) + Z.of_nat (m * n) * (1 * Z.of_nat t * Z.of_nat u)
     + (Z.of_nat n * Z.of_nat u + rr) * Z.of_nat s)%Z by lia.
  rewrite !zeta_add. ring.
Qed.
(** P=1 *)
Lemma pre_1 rr x s : P = 1%nat -> (s < m)%nat -> pre rr x 0 s = zeta M (rr * Z.of_nat s) * fold rr x s.
Proof.
  intros HP Hs. unfold pre. rewrite HP, rowval_1.
  assert (Hlt : (s < l)%nat) by (unfold cl; rewrite HP; lia). apply Nat.ltb_lt in Hlt. rewrite Hlt.
  rewrite Z.mul_0_r, Z.add_0_l. ring.
Qed.

(** *** backward *)
(** contribution to element j of the block y (rows u<P, k<m) with residue rr *)
Definition cb (rr : Z) (y : nat -> nat -> C) (j : nat) : C :=
  Csum P (fun u => Csum m (fun k =>
    y u k * zeta M (- ((Z.of_nat j - Z.of_nat H) * (Z.of_nat q * Z.of_nat k + Z.of_nat n * Z.of_nat u + rr))))).
(** the same before the two halves are separated *)
Definition bl (rr : Z) (y : nat -> nat -> C) (i : nat) : C :=
  Csum P (fun u => bval M q m (Z.of_nat n * Z.of_nat u + rr) (y u) i).
Lemma cb_hi rr y i : cb rr y (H + i) = bl rr y i.
Proof.
  unfold cb, bl, bval. apply Csum_ext. intros u Hu. apply Csum_ext. intros k Hk. do 2 f_equal. lia.
Qed.
Lemma cb_lo rr y i : (m0 <= i)%nat -> cb rr y (i - m0) = zeta n rr * bl rr y i.
Proof.
  intros Hi. pose proof cH_l as HHl. unfold cb, bl, bval. rewrite <- Csum_mul_l. apply Csum_ext. intros u Hu.
  rewrite <- Csum_mul_l. apply Csum_ext. intros k Hk.
  set (w := (Z.of_nat P * Z.of_nat k + Z.of_nat u)%Z).
  replace (- ((Z.of_nat (i - m0) - Z.of_nat H) * (Z.of_nat q * Z.of_nat k + Z.of_nat n * Z.of_nat u + rr)))%Z
    with ((Z.of_nat i - Z.of_nat l) * (Z.of_nat n * (- w) + - rr))%Z.
  2:{ unfold w. replace (Z.of_nat (i - m0) - Z.of_nat H)%Z with (Z.of_nat i - Z.of_nat l)%Z by (unfold cm0 in *; lia).
      unfold cqq. rewrite Nat2Z.inj_mul. ring. }
  rewrite zeta_l, Z.opp_involutive.
  replace (Z.of_nat i * (Z.of_nat n * - w + - rr))%Z with
    (- (Z.of_nat i * (Z.of_nat q * Z.of_nat k + (Z.of_nat n * Z.of_nat u + rr))))%Z
    by (unfold w, cqq; rewrite Nat2Z.inj_mul; ring).
  ring.
Qed.
(** value left in the work array by the inverse radix-P stage *)
Definition stU (rr : Z) (y : nat -> nat -> C) (i : nat) : C :=
  dft P (-1) (fun u => dft m (-1) (y u) (i mod m) * Cconj (zeta M ((Z.of_nat n * Z.of_nat u + rr) * Z.of_nat (i mod m)))) (i / m).
Lemma bl_stU rr y i : bl rr y i = Cconj (zeta q (rr * Z.of_nat (i / m))) * stU rr y i.
Proof.
  destruct G. unfold bl, stU. unfold dft at 1. rewrite <- Csum_mul_l.
  pose proof (Nat.div_mod i m ltac:(lia)) as Ei. set (t := (i / m)%nat) in *. set (s := (i mod m)%nat) in *.
  apply Csum_ext. intros u Hu. rewrite Ei.
  rewrite (bval_row M q m); [|reflexivity|lia|apply cq_pos'].
  rewrite <- !zeta_neg.
  assert (E1 : zeta q (- (rr * Z.of_nat t)) = zeta M (Z.of_nat m * - (rr * Z.of_nat t))).
  { symmetry. apply zeta_cancel; [lia|apply cq_pos']. }
  assert (E2 : zeta P (-1 * Z.of_nat u * Z.of_nat t) = zeta M (Z.of_nat (m * n) * (-1 * Z.of_nat u * Z.of_nat t))).
  { replace M with ((m * n) * P)%nat by (unfold cM, cqq; lia). symmetry. apply zeta_cancel; nia. }
  rewrite E1, E2.
  replace (- ((Z.of_nat n * Z.of_nat u + rr) * Z.of_nat (m * t + s)))%Z with
    (Z.of_nat m * - (rr * Z.of_nat t) + Z.of_nat (m * n) * (-1 * Z.of_nat u * Z.of_nat t)
     + - ((Z.of_nat n * Z.of_nat u + rr) * Z.of_nat s))%Z by lia.
  rewrite !zeta_add. ring.
Qed.
Lemma bl_1 rr y i : P = 1%nat -> bl rr y i = Cconj (zeta M (rr * Z.of_nat i)) * dft m (-1) (y 0%nat) i.
Proof.
  intros HP. unfold bl. rewrite HP. cbn [Csum].
  rewrite (bval_row0 M q m); [|reflexivity|apply (cg_m G)|apply cq_pos'].
  rewrite <- zeta_neg. replace (Z.of_nat n * Z.of_nat 0 + rr)%Z with rr by lia. ring.
Qed.
End M.
