(** Arithmetic of the Hermitian transforms: they are the centered transforms of the symmetric
    extension of the data. *)
From Coq Require Import Reals ZArith Arith Lia List Bool Lra.
From Verif Require Import CNum Sums Roots Mem VecModel PadModel PadMath PadLemmas CenMath HerModel.
Local Open Scope C_scope.

(** real numbers among the complex numbers *)
Definition isreal (z : C) : Prop := Cconj z = z.
Lemma isreal_im z : isreal z <-> im z = 0%R.
Proof.
  unfold isreal. split.
  - intros H. apply (f_equal im) in H. cbn in H. lra.
  - intros H. apply C_ext; cbn; [reflexivity|]. rewrite H. ring.
Qed.
Lemma isreal_re z : isreal z -> z = RtoC (re z).
Proof. intros H. apply isreal_im in H. apply C_ext; cbn; [reflexivity|assumption]. Qed.
Lemma isreal_RtoC a : isreal (RtoC a). Proof. unfold isreal. apply C_ext; cbn; ring. Qed.

Lemma Csum_1 f : Csum 1 f = f 0%nat. Proof. cbn [Csum]. ring. Qed.

(** inverting the DFT *)
Lemma dft_inv m (X : nat -> C) s : (0 < m)%nat -> (s < m)%nat ->
  Csum m (fun k => dft m 1 X k * zeta m (- (Z.of_nat s * Z.of_nat k))) = RtoC (INR m) * X s.
Proof.
  intros Hm Hs. unfold dft.
  rewrite (Csum_ext m _ (fun k => Csum m (fun j => X j * zeta m (Z.of_nat k * (Z.of_nat j - Z.of_nat s))))).
  2:{ intros k Hk. rewrite <- Csum_mul_r. apply Csum_ext. intros j Hj.
      replace (Z.of_nat k * (Z.of_nat j - Z.of_nat s))%Z with
        (1 * Z.of_nat j * Z.of_nat k + - (Z.of_nat s * Z.of_nat k))%Z by ring.
      rewrite zeta_add. ring. }
  rewrite Csum_swap.
  rewrite (Csum_ext m _ (fun j => if (j =? s)%nat then RtoC (INR m) * X s else C0)).
  2:{ intros j Hj. rewrite Csum_mul_l, zeta_orth by assumption.
      destruct (Nat.eqb_spec j s) as [->|Hne].
      - rewrite Z.sub_diag, Z.mod_0_l by lia. cbn [Z.eqb]. ring.
      - destruct (Z.eqb_spec ((Z.of_nat j - Z.of_nat s) mod Z.of_nat m) 0) as [E|E]; [|ring].
        exfalso. apply Z.mod_divide in E; [|lia]. destruct E as [z E]. assert (z < 1)%Z by nia. assert (-1 < z)%Z by nia. lia. }
  rewrite (Csum_single m s); [rewrite Nat.eqb_refl; reflexivity|assumption|].
  intros i Hi Hne; destruct (Nat.eqb_spec i s); [contradiction|reflexivity].
Qed.
Lemma INR_nz m : (0 < m)%nat -> RtoC (INR m) <> C0.
Proof. intros H. apply RtoC_neq_0. apply not_0_INR. lia. Qed.
Lemma Cmul_cancel a x y : a <> C0 -> a * x = a * y -> x = y.
Proof.
  intros Ha E. assert (H : a * (x - y) = C0) by (replace (a * (x - y)) with (a * x - a * y) by ring; rewrite E; ring).
  apply Cmul_integral in H; [|assumption]. replace x with ((x - y) + y) by ring. rewrite H. ring.
Qed.
(** a sequence with a real DFT is Hermitian *)
Lemma real_dft_herm m (X : nat -> C) : (0 < m)%nat -> (forall k, (k < m)%nat -> isreal (dft m 1 X k)) ->
  isreal (X 0%nat) /\ (forall s, (0 < s < m)%nat -> X (m - s)%nat = Cconj (X s)).
Proof.
  intros Hm HR.
  assert (Hc : forall s, (s < m)%nat -> RtoC (INR m) * Cconj (X s) = Csum m (fun k => dft m 1 X k * zeta m (Z.of_nat s * Z.of_nat k))).
  { intros s Hs. replace (RtoC (INR m) * Cconj (X s)) with (Cconj (RtoC (INR m) * X s))
      by (rewrite Cconj_mul, isreal_RtoC; reflexivity).
    rewrite <- dft_inv, Csum_conj by assumption. apply Csum_ext. intros k Hk.
    rewrite Cconj_mul, (HR k Hk), <- zeta_neg. f_equal. f_equal. lia. }
  split.
  - apply (Cmul_cancel (RtoC (INR m))); [apply INR_nz; assumption|]. rewrite Hc by assumption.
    rewrite <- dft_inv by assumption. apply Csum_ext. intros k Hk. do 2 f_equal.
  - intros s Hs. apply (Cmul_cancel (RtoC (INR m))); [apply INR_nz; assumption|]. rewrite Hc by lia.
    rewrite <- dft_inv by lia. apply Csum_ext. intros k Hk. f_equal.
    replace (- (Z.of_nat (m - s) * Z.of_nat k))%Z with (Z.of_nat s * Z.of_nat k + Z.of_nat m * (- Z.of_nat k))%Z by nia.
    apply zeta_period. assumption.
Qed.
Lemma herm_id m X : (0 < m)%nat -> (forall k, (k < m)%nat -> isreal (dft m 1 X k)) ->
  forall k, c2r m X k = re (dft m 1 X k).
Proof.
  intros Hm HR k. destruct (real_dft_herm m X Hm HR) as [_ H2]. unfold c2r. f_equal. apply dft_ext. intros j Hj.
  unfold herm. destruct (Nat.ltb_spec j (m / 2 + 1)) as [|Hj']; [reflexivity|].
  rewrite <- H2 by lia. f_equal. lia.
Qed.
Lemma real_mid m X : (0 < m)%nat -> (forall k, (k < m)%nat -> isreal (dft m 1 X k)) ->
  forall s, (s < m)%nat -> (s = 0 \/ 2 * s = m)%nat -> im (X s) = 0%R.
Proof.
  intros Hm HR s Hs Hc. destruct (real_dft_herm m X Hm HR) as [H1 H2]. apply isreal_im.
  destruct Hc as [->|E]; [assumption|]. unfold isreal. rewrite <- H2 by lia. f_equal. lia.
Qed.

(** *** the symmetric extension *)
Definition hx (H : nat) (f : nat -> C) (j : nat) : C :=
  if (j =? 0)%nat then C0 else if (j <? H)%nat then Cconj (f (H - j)%nat) else f (j - H)%nat.
(** DFT at frequency k *)
Definition outh (M H : nat) (f : nat -> C) (k : Z) : C :=
  f 0%nat + Csum (H - 1) (fun i => f (i + 1)%nat * zeta M (Z.of_nat (i + 1) * k) +
    Cconj (f (i + 1)%nat) * zeta M (- (Z.of_nat (i + 1) * k))).
Lemma outh_real M H f k : isreal (f 0%nat) -> isreal (outh M H f k).
Proof.
  intros Hf. unfold isreal, outh. rewrite Cconj_add, Hf. f_equal. rewrite Csum_conj. apply Csum_ext. intros i Hi.
  rewrite Cconj_add, !Cconj_mul, Cconj_conj, <- !zeta_neg, Z.opp_involutive. ring.
Qed.
Lemma outc_hx M H f k : (1 <= H)%nat -> outc M (2 * H) (hx H f) k = outh M H f k.
Proof.
  intros HH. unfold outc, outh. replace (2 * H / 2)%nat with H by (rewrite Nat.mul_comm, Nat.div_mul; lia).
  assert (E : exists h, H = S h) by (exists (H - 1)%nat; lia). destruct E as [h ->].
  replace (S h - 1)%nat with h by lia. replace (2 * S h)%nat with (S h + S h)%nat by lia.
  rewrite Csum_split, !Csum_S_l.
  assert (E0 : hx (S h) f 0 = C0) by reflexivity. rewrite E0.
  assert (E1 : hx (S h) f (S h + 0) = f 0%nat).
  { unfold hx. destruct (Nat.eqb_spec (S h + 0) 0); [lia|]. destruct (Nat.ltb_spec (S h + 0) (S h)); [lia|]. f_equal. lia. }
  rewrite E1. replace (Z.of_nat (S h + 0) - Z.of_nat (S h))%Z with 0%Z by lia. rewrite Z.mul_0_l, zeta_0.
  rewrite Csum_add, (Csum_rev h (fun i => hx (S h) f (S i) * _)).
  rewrite (Csum_ext h (fun i => hx (S h) f (S (h - 1 - i)) * _) (fun i => Cconj (f (i + 1)%nat) * zeta M (- (Z.of_nat (i + 1) * k)))).
  2:{ intros i Hi. f_equal.
      - unfold hx. destruct (Nat.eqb_spec (S (h - 1 - i)) 0); [lia|]. destruct (Nat.ltb_spec (S (h - 1 - i)) (S h)); [|lia].
        do 2 f_equal. lia.
      - f_equal. rewrite <- Z.mul_opp_l. f_equal. lia. }
  rewrite (Csum_ext h (fun i => hx (S h) f (S h + S i) * _) (fun i => f (i + 1)%nat * zeta M (Z.of_nat (i + 1) * k))).
  2:{ intros i Hi. f_equal.
      - unfold hx. destruct (Nat.eqb_spec (S h + S i) 0); [lia|]. destruct (Nat.ltb_spec (S h + S i) (S h)); [lia|]. f_equal. lia.
      - do 2 f_equal. lia. }
  ring.
Qed.

Section M.
Variables m P n H : nat.
Record hg : Prop := mkhg { hg_m : (1 <= m)%nat; hg_P : (1 <= P)%nat; hg_n : (2 <= n)%nat;
  hg_H : (1 <= H)%nat; hg_lo : (m * (P - 1) + (m / 2 + 1) <= H)%nat; hg_hi : (H <= m * P)%nat }.
Hypothesis G : hg.
Notation l := (cl m P). Notation q := (cqq P n). Notation M := (cM m P n). Notation e := (m / 2 + 1)%nat.

Lemma hcg : cg m P n (2 * H).
Proof.
  destruct G. pose proof (Nat.div_mod m 2). pose proof (Nat.mod_upper_bound m 2). split; try lia.
  replace (2 * P - 1)%nat with ((P - 1) + P)%nat by lia. rewrite Nat.mul_add_distr_l.
  replace (m * P)%nat with (m * (P - 1) + m)%nat; [lia|]. replace P with (P - 1 + 1)%nat at 2 by lia. lia.
Qed.
Lemma h_cH : cH (2 * H) = H. Proof. unfold cH. rewrite Nat.mul_comm, Nat.div_mul; lia. Qed.
Lemma h_cm0 : cm0 m P (2 * H) = (l - H)%nat. Proof. unfold cm0. rewrite h_cH. reflexivity. Qed.
Lemma h_cLH : cLH (2 * H) = H. Proof. unfold cLH. rewrite h_cH. lia. Qed.
Lemma h_e : (2 * e <= m + 2 /\ m < 2 * e /\ 1 <= e <= m)%nat.
Proof. destruct G. pose proof (Nat.div_mod m 2). pose proof (Nat.mod_upper_bound m 2). lia. Qed.
Lemma h_m0 : (2 * (l - H) + 2 <= m + 1)%nat.
Proof. pose proof h_e. destruct G. unfold cl. pose proof (Nat.div_mod m 2). pose proof (Nat.mod_upper_bound m 2).
  assert (m * P = m * (P - 1) + m)%nat by (clear -hg_P0; destruct P as [|P']; [lia|]; replace (S P' - 1)%nat with P' by lia; lia). lia. Qed.

(** what the kernels put into row t, column s of the work array for residue rr *)
Definition hfold (rr : Z) (f : nat -> C) (i : nat) : C :=
  (if (i <? H)%nat then f i else C0) +
  (if (l - H <? i)%nat then zeta n (- rr) * Cconj (f (l - i)%nat) else C0).
Lemma hfold_fold rr f i : (i < l)%nat -> fold m P n (2 * H) rr (hx H f) i = hfold rr f i.
Proof.
  intros Hi. destruct G. assert (HHl : (H <= l)%nat) by exact hg_hi0. unfold fold, hfold. rewrite h_cLH, h_cm0, h_cH. f_equal.
  - destruct (Nat.ltb_spec i H); [|reflexivity]. unfold hx.
    destruct (Nat.eqb_spec (H + i) 0); [lia|]. destruct (Nat.ltb_spec (H + i) H); [lia|]. f_equal. lia.
  - destruct (Nat.leb_spec (l - H) i), (Nat.ltb_spec (l - H) i); try lia; try reflexivity; unfold hx.
    + destruct (Nat.eqb_spec (i - (l - H)) 0); [lia|]. destruct (Nat.ltb_spec (i - (l - H)) H); [|lia]. do 3 f_equal. lia.
    + destruct (Nat.eqb_spec (i - (l - H)) 0); [|lia]. ring.
Qed.
Lemma hfold_lo rr f i : (i <= l - H)%nat -> (i < H)%nat -> hfold rr f i = f i.
Proof.
  intros H1 H2. unfold hfold. destruct (Nat.ltb_spec i H); [|lia]. destruct (Nat.ltb_spec (l - H) i); [lia|]. ring.
Qed.
Lemma hfold_hi rr f i : (l - H < i < H)%nat -> hfold rr f i = f i + zeta n (- rr) * Cconj (f (l - i)%nat).
Proof.
  intros H1. unfold hfold. destruct (Nat.ltb_spec i H); [|lia]. destruct (Nat.ltb_spec (l - H) i); [|lia]. reflexivity.
Qed.

(** input of the radix-P stage; rows before the complex-to-real transform *)
Definition hst (rr : Z) (f : nat -> C) (i : nat) : C := zeta q (rr * Z.of_nat (i / m)) * hfold rr f i.
Definition hpre (rr : Z) (f : nat -> C) (u s : nat) : C := pre m P n (2 * H) rr (hx H f) u s.
Lemma hstB rr f u s : (s < m)%nat ->
  dft P 1 (fun t => hst rr f (m * t + s)) u * zeta M ((Z.of_nat n * Z.of_nat u + rr) * Z.of_nat s) = hpre rr f u s.
Proof.
  intros Hs. unfold hpre. rewrite <- (stB m P n (2 * H) hcg) by assumption. f_equal. apply dft_ext. intros t Ht.
  unfold stA, hst. rewrite hfold_fold; [reflexivity|]. unfold cl. nia.
Qed.
Lemma hpre_1 rr f s : P = 1%nat -> (s < m)%nat -> hpre rr f 0 s = zeta M (rr * Z.of_nat s) * hfold rr f s.
Proof.
  intros HP Hs. unfold hpre. rewrite (pre_1 m P n (2 * H)) by assumption. rewrite hfold_fold; [reflexivity|].
  unfold cl. rewrite HP. lia.
Qed.
Lemma hpre_dft rr f u k :
  dft m 1 (hpre rr f u) k = outh M H f (Z.of_nat q * Z.of_nat k + Z.of_nat n * Z.of_nat u + rr).
Proof. rewrite <- outc_hx by apply (hg_H G). unfold hpre. apply (pre_dft m P n (2 * H) hcg). Qed.
Lemma hpre_isreal rr f u k : isreal (f 0%nat) -> isreal (dft m 1 (hpre rr f u) k).
Proof. intros Hf. rewrite hpre_dft. apply outh_real. assumption. Qed.
Lemma hpre_c2r rr f u k : isreal (f 0%nat) ->
  c2r m (hpre rr f u) k = re (outh M H f (Z.of_nat q * Z.of_nat k + Z.of_nat n * Z.of_nat u + rr)).
Proof.
  intros Hf. rewrite herm_id; [rewrite hpre_dft; reflexivity|apply (hg_m G)|]. intros. apply hpre_isreal. assumption.
Qed.
Lemma hpre_mid rr f u s : isreal (f 0%nat) -> (s < e)%nat -> (s = 0 \/ 2 * s = m)%nat -> im (hpre rr f u s) = 0%R.
Proof.
  intros Hf Hs Hc. pose proof h_e. apply (real_mid m (hpre rr f u)); try assumption; [apply (hg_m G)| |lia].
  intros. apply hpre_isreal. assumption.
Qed.

(** *** backward: contribution of the real block y (rows u<P, k<m) with residue rr to element j *)
Definition hbw (rr : Z) (y : nat -> nat -> R) (j : Z) : C :=
  Csum P (fun u => Csum m (fun k =>
    RtoC (y u k) * zeta M (- (j * (Z.of_nat q * Z.of_nat k + Z.of_nat n * Z.of_nat u + rr))))).
Lemma hbw_conj rr y j : hbw rr y (- j) = Cconj (hbw rr y j).
Proof.
  unfold hbw. rewrite Csum_conj. apply Csum_ext. intros u Hu. rewrite Csum_conj. apply Csum_ext. intros k Hk.
  rewrite Cconj_mul, isreal_RtoC, <- zeta_neg. do 2 f_equal. ring.
Qed.
(** value left in the work array by the inverse radix-P stage: row t, column s *)
Definition hU (rr : Z) (y : nat -> nat -> R) (t s : nat) : C :=
  dft P (-1) (fun u => r2c m (y u) s * Cconj (zeta M ((Z.of_nat n * Z.of_nat u + rr) * Z.of_nat s))) t.
Lemma hbw_bl rr y i : hbw rr y (Z.of_nat i) = bl m P n rr (fun u k => RtoC (y u k)) i.
Proof.
  rewrite <- (cb_hi m P n (2 * H)). unfold cb, hbw. rewrite h_cH. apply Csum_ext. intros u Hu. apply Csum_ext. intros k Hk.
  do 5 f_equal. lia.
Qed.
Lemma hbw_direct rr y t s : (s < m)%nat ->
  hbw rr y (Z.of_nat (m * t + s)) = Cconj (zeta q (rr * Z.of_nat t)) * hU rr y t s.
Proof.
  intros Hs. rewrite hbw_bl, (bl_stU m P n (2 * H) hcg). unfold stU, hU, r2c.
  replace ((m * t + s) / m)%nat with t by (apply (Nat.div_unique _ _ t s); lia).
  replace ((m * t + s) mod m)%nat with s by (apply (Nat.mod_unique _ _ t s); lia). reflexivity.
Qed.
Lemma hbw_reflect rr y t s : (s < m)%nat -> (l - H <= m * t + s < l)%nat ->
  hbw rr y (Z.of_nat (l - (m * t + s))) = Cconj (zeta n rr * (Cconj (zeta q (rr * Z.of_nat t)) * hU rr y t s)).
Proof.
  intros Hs Hi. pose proof (hg_hi G). unfold cl in *.
  rewrite <- hbw_direct by assumption. rewrite (hbw_bl rr y (m * t + s)).
  rewrite <- (cb_lo m P n (2 * H) hcg) by (rewrite h_cm0; unfold cl; lia).
  replace (Z.of_nat (m * P - (m * t + s)))%Z with (- - Z.of_nat (m * P - (m * t + s)))%Z by ring.
  rewrite hbw_conj. f_equal. unfold cb, hbw. rewrite h_cH, h_cm0. unfold cl.
  apply Csum_ext. intros u Hu. apply Csum_ext. intros k Hk. do 5 f_equal. lia.
Qed.
Lemma hU_1 rr y s : P = 1%nat -> hU rr y 0 s = r2c m (y 0%nat) s * Cconj (zeta M (rr * Z.of_nat s)).
Proof.
  intros HP. unfold hU. rewrite HP. unfold dft. rewrite Csum_1. rewrite Z.mul_0_r, zeta_0, Cmul_1_r.
  do 4 f_equal.
Qed.
End M.

(** q=1: explicit padding *)
Lemma explicit_dft m H f k : (1 <= H)%nat -> (2 * H <= m + 1)%nat ->
  dft m 1 (herm m (fun s => if (s <? H)%nat then f s else C0)) k = outh m H f (Z.of_nat k).
Proof.
  intros HH Hm. unfold dft, outh.
  assert (E : exists h, H = S h) by (exists (H - 1)%nat; lia). destruct E as [h ->].
  assert (E : exists g, m = (S h + (g + h))%nat) by (exists (m - S h - h)%nat; lia). destruct E as [g ->].
  replace (S h - 1)%nat with h by lia. set (mm := (S h + (g + h))%nat) in *.
  assert (He : (mm < 2 * (mm / 2 + 1) <= mm + 2)%nat).
  { pose proof (Nat.div_mod mm 2). pose proof (Nat.mod_upper_bound mm 2). lia. }
  unfold mm at 1. rewrite Csum_split, Csum_S_l, Csum_split.
  assert (Hmm : mm = (S h + (g + h))%nat) by reflexivity. clearbody mm.
  set (Y := herm mm (fun s => if (s <? S h)%nat then f s else C0)).
  assert (Y1 : forall s, (s < S h)%nat -> Y s = f s).
  { intros s Hs. unfold Y, herm. destruct (Nat.ltb_spec s (mm / 2 + 1)); [|lia]. destruct (Nat.ltb_spec s (S h)); [reflexivity|lia]. }
  assert (Y2 : forall s, (S h <= s < S h + g)%nat -> Y s = C0).
  { intros s Hs. unfold Y, herm. destruct (Nat.ltb_spec s (mm / 2 + 1)).
    - destruct (Nat.ltb_spec s (S h)); [lia|reflexivity].
    - destruct (Nat.ltb_spec (mm - s) (S h)); [lia|apply Cconj_0]. }
  assert (Y3 : forall s, (S h + g <= s < mm)%nat -> Y s = Cconj (f (mm - s)%nat)).
  { intros s Hs. unfold Y, herm. destruct (Nat.ltb_spec s (mm / 2 + 1)); [lia|].
    destruct (Nat.ltb_spec (mm - s) (S h)); [reflexivity|lia]. }
  rewrite (Y1 0%nat) by lia. rewrite Z.mul_0_r, Z.mul_0_l, zeta_0.
  rewrite (Csum_zero g) by (intros i Hi; rewrite Y2 by lia; ring).
  rewrite Csum_add, (Csum_rev h (fun i => Y (S h + (g + i))%nat * _)).
  rewrite (Csum_ext h (fun i => Y (S i) * _) (fun i => f (i + 1)%nat * zeta mm (Z.of_nat (i + 1) * Z.of_nat k))).
  2:{ intros i Hi. rewrite Y1 by lia. replace (S i) with (i + 1)%nat by lia. do 2 f_equal. ring. }
  rewrite (Csum_ext h (fun i => Y (S h + (g + (h - 1 - i)))%nat * _) (fun i => Cconj (f (i + 1)%nat) * zeta mm (- (Z.of_nat (i + 1) * Z.of_nat k)))).
  2:{ intros i Hi. rewrite Y3 by lia. f_equal; [do 2 f_equal; lia|].
      replace (1 * Z.of_nat (S h + (g + (h - 1 - i))) * Z.of_nat k)%Z with
        (- (Z.of_nat (i + 1) * Z.of_nat k) + Z.of_nat mm * Z.of_nat k)%Z.
      - apply zeta_period. lia.
      - replace (Z.of_nat (S h + (g + (h - 1 - i))))%Z with (Z.of_nat mm - Z.of_nat (i + 1))%Z by lia. ring. }
  ring.
Qed.
