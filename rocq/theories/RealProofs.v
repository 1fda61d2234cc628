(** The transforms of fftPadReal against the specification. *)
From Coq Require Import Reals ZArith Arith Lia Lra List Bool Permutation.
From Verif Require Import CNum Sums Roots Mem VecModel PadModel PadKernels PadSpec PadMath PadLemmas PadBridge ConvMath CenModel HerModel RealModel RealMath RealGeom RLoops RFft RealSpec RFwd RBwd RealFreq.
Import ListNotations.

Lemma dapart_apart2 a n b k : 1 <= n -> 1 <= k -> dapart a n b k -> apart2 a n b k.
Proof.
  intros Hn Hk H. unfold apart2. destruct (Nat.le_gt_cases (a + n) b); [left; assumption|]. destruct (Nat.le_gt_cases (b + k) a); [right; assumption|].
  exfalso. apply (H (Nat.max a b)); unfold dspan; lia.
Qed.
Lemma wC_complexes F n y mm : (forall i, i < n -> wC mm F i (y i)) <-> complexes F n y mm.
Proof. reflexivity. Qed.

Lemma rf_W t f F r W W' : getW F W = getW F W' -> rforward t f F r W = rforward t f F r W'.
Proof. intros E. unfold rforward, rforwardExplicit, rforward1, rforward2. rewrite E. reflexivity. Qed.
Lemma rb_W t f F r W W' : getW F W = getW F W' -> rbackward t F f r W = rbackward t F f r W'.
Proof. intros E. unfold rbackward, rbackwardExplicit, rbackward1, rbackward2. rewrite E. reflexivity. Qed.

(** *** the specification sums *)
Lemma rsum_Rlist n g : rsum n g = Rlist (seq 0 n) g.
Proof.
  assert (G : forall l a, Rlist (l ++ [a]) g = (Rlist l g + g a)%R).
  { unfold Rlist. induction l as [|b l IH]; intros a; cbn [app fold_right]; [ring|]. rewrite IH. ring. }
  induction n as [|n IH]; cbn [rsum]; [reflexivity|]. rewrite seq_S, G, IH. reflexivity.
Qed.
Lemma re_Csum n f : re (Csum n f) = rsum n (fun i => re (f i)).
Proof. induction n as [|n IH]; cbn [Csum rsum]; [reflexivity|]. rewrite re_add, IH. reflexivity. Qed.
Lemma rsum_ext n f g : (forall i, i < n -> f i = g i) -> rsum n f = rsum n g.
Proof. induction n as [|n IH]; intros Hf; cbn [rsum]; [reflexivity|]. rewrite IH, Hf by (intros; try apply Hf; lia). reflexivity. Qed.
Lemma Rlist_app a b g : Rlist (a ++ b) g = (Rlist a g + Rlist b g)%R.
Proof. unfold Rlist. induction a as [|x a IH]; cbn [app fold_right]; [ring|]. rewrite IH. ring. Qed.
Lemma Rlist_map l h g : Rlist (map h l) g = Rlist l (fun i => g (h i)).
Proof. unfold Rlist. induction l as [|x l IH]; cbn [map fold_right]; [reflexivity|]. rewrite IH. reflexivity. Qed.
Lemma Rlist_flat l h g : Rlist (flat_map h l) g = Rlist l (fun i => Rlist (h i) g).
Proof. induction l as [|x l IH]; cbn [flat_map]; [reflexivity|]. rewrite Rlist_app, IH. reflexivity. Qed.
Lemma Rlist_perm l l' g : Permutation l l' -> Rlist l g = Rlist l' g.
Proof. unfold Rlist. induction 1; cbn [fold_right]; try congruence. ring. Qed.
Lemma Rlist_ext l f g : (forall i, In i l -> f i = g i) -> Rlist l f = Rlist l g.
Proof. unfold Rlist. induction l as [|x l IH]; intros Hf; cbn [fold_right]; [reflexivity|]. rewrite IH, Hf; [reflexivity|left; reflexivity|intros; apply Hf; right; assumption]. Qed.
Lemma rpi_sum M n freq y j : rpartial_inverse M n freq y j =
  rsum n (fun i => (rweight M (freq i) * re (Cmul (y i) (zeta M (- Z.of_nat (j * freq i)))))%R).
Proof. unfold rpartial_inverse. rewrite re_Csum. apply rsum_ext. intros i Hi. rewrite <- zeta_nat_neg. apply re_scal. Qed.

Section T.
Variable t : pad.
Hypothesis Hwf : rwf t.
Notation L := (aL t).  Notation m := (am t).  Notation D := (aD t).
Notation q := (gq t).  Notation p := (gp t).  Notation e := (re_ t).  Notation D0 := (rD0 t).
Notation M := (gM t). Notation N := (routputSize t).

Lemma M_pos : 0 < M. Proof. destruct (sizes t Hwf) as (A & B & C). rewrite C. nia. Qed.
Lemma N_pos : 1 <= N. Proof. pose proof (r_osz t Hwf). unfold re_ in *. lia. Qed.
Lemma freq0_mod i : i < e -> (Z.of_nat (rfreq M q m 0 i) mod Z.of_nat M = (- (Z.of_nat q * Z.of_nat i)) mod Z.of_nat M)%Z.
Proof.
  intros Hi. destruct (sizes t Hwf) as (Hm & Hq & HM). pose proof M_pos as HMp. unfold rfreq. cbn [Nat.eqb].
  unfold re_ in Hi. pose proof (Nat.div_mod m 2 ltac:(lia)).
  assert (Hle : q * i <= M) by (rewrite HM; nia).
  rewrite Nat2Z.inj_mod, Z.mod_mod by lia. rewrite Nat2Z.inj_sub by assumption.
  replace (Z.of_nat M - Z.of_nat (q * i))%Z with (- (Z.of_nat q * Z.of_nat i) + 1 * Z.of_nat M)%Z by lia. apply Z_mod_plus_full.
Qed.
Lemma freq_bridge r i x : rpass t r -> i < rnoutputs t r -> outv M L (rx x) (zfreq t r i) = rdft M L x (rfreq M q m r i).
Proof.
  intros Hr Hi. unfold rdft. change (fun j => RtoC (x j)) with (rx x). rewrite <- outv_pdft. apply outv_mod; [apply M_pos|].
  unfold zfreq. destruct Hr as [->|[(Hq1 & H1 & H2 & H3)|(Hq1 & H2)]].
  - cbn [Nat.eqb]. symmetry. apply freq0_mod. rewrite r_nout0 in Hi. exact Hi.
  - unfold rfreq. destruct (Nat.eqb_spec r 0); [lia|]. destruct (Nat.eqb_spec (2 * r) q); [lia|]. f_equal. lia.
  - unfold rfreq. destruct (Nat.eqb_spec r 0) as [E|E]; [pose proof (r_q1 t Hwf); lia|]. destruct (Nat.eqb_spec (2 * r) q); [|lia]. reflexivity.
Qed.
Lemma conjz a : Cconj (zeta M (Z.of_nat a)) = zeta M (- Z.of_nat a).
Proof. symmetry. apply zeta_neg. Qed.
Lemma share_bridge r y j : rpass t r -> bshare t r y j = rpartial_inverse M (rnoutputs t r) (rfreq M q m r) y j.
Proof.
  intros Hr. rewrite rpi_sum. destruct (sizes t Hwf) as (Hm & Hq & HM). pose proof M_pos as HMp.
  unfold bshare. destruct Hr as [->|[(Hq1 & H1 & H2 & H3)|(Hq1 & H2)]].
  - cbn [Nat.eqb]. rewrite c2r_fold by lia. rewrite re_Csum, r_nout0. apply rsum_ext. intros i Hi. fold e in Hi. cbn [re RtoC].
    unfold rweight. rewrite self_0 by assumption. f_equal. f_equal. f_equal.
    transitivity (zeta M (Z.of_nat q * (Z.of_nat i * Z.of_nat j))).
    + rewrite HM, Nat.mul_comm, zeta_cancel by lia. apply zeta_mod_eq; [lia|].
      rewrite Nat2Z.inj_mod. rewrite Z.mul_mod_idemp_r by lia. reflexivity.
    + apply zeta_mod_eq; [assumption|]. rewrite Nat2Z.inj_mul.
      replace (- (Z.of_nat j * Z.of_nat (rfreq M q m 0 i)))%Z with (- Z.of_nat j * Z.of_nat (rfreq M q m 0 i))%Z by lia.
      rewrite <- (Z.mul_mod_idemp_r (- Z.of_nat j) (Z.of_nat (rfreq M q m 0 i))) by lia. rewrite freq0_mod by assumption. rewrite Z.mul_mod_idemp_r by lia. f_equal. lia.
  - destruct (Nat.eqb_spec r 0); [lia|]. destruct (Nat.eqb_spec (2 * r) q); [lia|]. rewrite (r_noutm t Hwf) by assumption.
    transitivity (re (Csum (m * midw t r) (fun i => RtoC (rweight M (rfreq M q m r i) * re (Cmul (y i) (zeta M (- Z.of_nat (j * rfreq M q m r i)))))))).
    2:{ rewrite re_Csum. reflexivity. }
    rewrite (Nat.mul_comm m), Csum_mul_nat, re_Csum. apply rsum_ext. intros d Hd.
    transitivity (2 * re (bval M q m (Z.of_nat (r + d)%nat) (fun k => y (m * d + k)%nat) j))%R.
    + f_equal. f_equal. pose proof (Nat.div_mod j m ltac:(lia)) as Ej. rewrite Ej at 3. rewrite (bval_row M q m) by lia. f_equal. rewrite conjz. f_equal. rewrite <- Ej. lia.
    + unfold bval. rewrite !re_Csum.
      assert (G : forall nn f, (2 * rsum nn f)%R = rsum nn (fun k => 2 * f k)%R) by (induction nn as [|nn IHnn]; intros f; cbn [rsum]; [ring|rewrite <- IHnn; ring]).
      rewrite G. apply rsum_ext. intros k Hk. cbn [re RtoC].
      assert (Hi : m * d + k < m * midw t r) by (apply row_join; assumption).
      destruct (freq_mid t Hwf r (m * d + k) H1 H2 H3 Hi) as (Ef & _ & _). destruct (row_div m d k Hk) as [E1 E2].
      assert (Ew : rweight M (rfreq M q m r (m * d + k)) = 2%R).
      { unfold rweight. destruct (Nat.eqb_spec ((2 * rfreq M q m r (m * d + k)) mod M) 0) as [E|E]; [|reflexivity].
        exfalso. exact (self_mid t Hwf r (m * d + k) H1 H2 H3 Hi E). }
      rewrite Ew, Ef, E1, E2. f_equal. f_equal. f_equal. f_equal. lia.
  - assert (He2 : q mod 2 = 0) by (rewrite <- H2, Nat.mul_comm; apply Nat.mod_mul; lia).
    pose proof (r_even t Hwf Hq1 He2) as Hm2.
    destruct (Nat.eqb_spec r 0); [lia|]. destruct (Nat.eqb_spec (2 * r) q); [|lia]. rewrite (r_nouth t Hwf) by assumption. set (h := m / 2) in *.
    transitivity (2 * re (Csum h (fun k => Cmul (y k) (zeta M (- (Z.of_nat j * Z.of_nat (r + 2 * q * k)%nat))))))%R.
    + f_equal. f_equal. rewrite (half_back h q r M y j (j mod h)).
      * f_equal. rewrite conjz. f_equal. lia.
      * lia.
      * rewrite <- Hm2. exact HM.
      * lia.
      * lia.
      * rewrite Nat2Z.inj_mod, Z.mod_mod by lia. reflexivity.
    + rewrite re_Csum. assert (G : forall nn f, (2 * rsum nn f)%R = rsum nn (fun k => 2 * f k)%R) by (induction nn as [|nn IHnn]; intros f; cbn [rsum]; [ring|rewrite <- IHnn; ring]).
      rewrite G. apply rsum_ext. intros k Hk.
      assert (Ew : rweight M (rfreq M q m r k) = 2%R).
      { unfold rweight. destruct (Nat.eqb_spec ((2 * rfreq M q m r k) mod M) 0) as [E|E]; [|reflexivity].
        exfalso. exact (self_half t Hwf r k Hq1 H2 Hk E). }
      rewrite Ew. unfold rfreq. destruct (Nat.eqb_spec r 0); [lia|]. destruct (Nat.eqb_spec (2 * r) q); [|lia]. f_equal. f_equal. f_equal. f_equal. lia.
Qed.
(** the shares add up *)
Lemma share_mirror (Y : nat -> C) j k : k < M -> (0 < k -> Y (M - k) = Cconj (Y k)) ->
  (rweight M k * re (Cmul (Y k) (zeta M (- Z.of_nat (j * k)))))%R = Rlist (mirror M k) (fun k => re (Cmul (Y k) (zeta M (- Z.of_nat (j * k))))).
Proof.
  intros Hk HY. unfold rweight, mirror. destruct (Nat.eqb_spec ((2 * k) mod M) 0) as [E|E]; cbn [Rlist fold_right]; [ring|].
  assert (Hk0 : 0 < k). { destruct k; [|lia]. exfalso. apply E. rewrite Nat.mul_0_r. apply Nat.mod_0_l. lia. }
  rewrite (HY Hk0).
  assert (Ez : zeta M (- Z.of_nat (j * (M - k))) = Cconj (zeta M (- Z.of_nat (j * k)))).
  { rewrite <- zeta_neg. apply zeta_mod_eq; [lia|]. rewrite Nat.mul_sub_distr_l, Nat2Z.inj_sub by (apply Nat.mul_le_mono_l; lia).
    replace (- (Z.of_nat (j * M) - Z.of_nat (j * k)))%Z with (- - Z.of_nat (j * k) + (- Z.of_nat j) * Z.of_nat M)%Z by lia. apply Z_mod_plus_full. }
  rewrite Ez. cbn. ring.
Qed.
Definition hsym (Y : nat -> C) : Prop := forall k, 0 < k < M -> Y (M - k) = Cconj (Y k).
Lemma passes_sum Y j : hsym Y -> Rlist (rtrace t) (fun r => rpartial_inverse M (rnoutputs t r) (rfreq M q m r) (fun i => Y (rfreq M q m r i)) j) = re (ipdft M Y j).
Proof.
  intros HY. unfold ipdft.
  transitivity (Rlist (seq 0 M) (fun k => re (Cmul (Y k) (zeta M (- Z.of_nat (j * k)))))).
  - rewrite (Rlist_perm _ _ _ (freq_perm t Hwf)). rewrite !Rlist_flat. apply Rlist_ext. intros r Hr.
    rewrite rpi_sum, rsum_Rlist. unfold stored. rewrite Rlist_map. apply Rlist_ext. intros i Hi. apply in_seq in Hi.
    pose proof (freq_lt t Hwf r i (rtrace_pass t Hwf r Hr) ltac:(lia)) as Hf. apply (share_mirror Y j); [assumption|]. intros H0. apply HY. lia.
  - rewrite re_Csum, rsum_Rlist. apply Rlist_ext. intros k Hk. rewrite <- zeta_nat_neg. reflexivity.
Qed.
Lemma rdft_sym x : hsym (rdft M L x).
Proof.
  intros k Hk. unfold rdft. change (fun j => RtoC (x j)) with (rx x). rewrite <- !outv_pdft, outv_conj. apply outv_mod; [lia|].
  rewrite Nat2Z.inj_sub by lia. replace (Z.of_nat M - Z.of_nat k)%Z with (- Z.of_nat k + 1 * Z.of_nat M)%Z by lia. apply Z_mod_plus_full.
Qed.
Lemma rdft_self x k : k < M -> (2 * k) mod M = 0 -> im (rdft M L x k) = 0%R.
Proof.
  intros Hk E. assert (Hc : Cconj (rdft M L x k) = rdft M L x k).
  { unfold rdft. change (fun j => RtoC (x j)) with (rx x). rewrite <- !outv_pdft, outv_conj. apply outv_mod; [lia|].
    apply Nat.mod_divides in E; [|lia]. destruct E as [c E].
    replace (Z.of_nat k) with (- Z.of_nat k + Z.of_nat c * Z.of_nat M)%Z at 2 by lia. symmetry. apply Z_mod_plus_full. }
  apply (f_equal im) in Hc. cbn in Hc. lra.
Qed.
Lemma rdft_inverse x j : j < L -> re (ipdft M (rdft M L x) j) = (INR M * x j)%R.
Proof.
  intros Hj. pose proof (r_LM t Hwf) as HLM. unfold rdft. change (fun j => RtoC (x j)) with (rx x).
  transitivity (re (Cmul (RtoC (INR M)) (rx x j))); [|unfold rx; cbn; ring]. f_equal. rewrite <- (idft_outv M L (rx x) j Hj HLM).
  unfold ipdft, idft. apply Csum_ext. intros k Hk. rewrite outv_pdft. f_equal. rewrite <- zeta_nat_neg. f_equal. lia.
Qed.
End T.
