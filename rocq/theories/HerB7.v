(** Hermitian backward transforms: explicit padding, final statement, round trip. *)
From Coq Require Import Reals ZArith Arith Lia List Bool Permutation.
From Verif Require Import CNum Sums Roots Mem VecModel VecProofs PadModel PadKernels PadSpec Loops
  PadLemmas PadMath PadGeom Fwd1 PadForward Fill ConvMath ConvModel CenModel CenMath CenGeom CenFft CenF2 CenPass CenStage CenTw CenFI
  CenBack CenB2 CenBPass CenBwd2 CenBI HerModel HerSpec HerMath HerFft HerGeom HerF2 HerFI HerForward HerDisp HerIndex HerB1 HerB2 HerB3 HerB4 HerB5 HerB6.
Import ListNotations.

Lemma cdist (x y z : C) : Cmul (Cadd x y) z = Cadd (Cmul x z) (Cmul y z). Proof. ring. Qed.
Section T.
Variables (al : nat) (t : pad).
Hypothesis Hwf : hwf t.
Hypothesis Hal1 : 1 <= al.
Notation CC := (aC t).  Notation m := (am t).
Notation p := (kp t).  Notation q := (kq t).   Notation n := (kn t).   Notation M := (kM t).
Notation P := (hP t). Notation e := (he t). Notation H := (hH t).
Notation B := (hB al t). Notation b := (hb al t).
Notation l := (e * P).

Lemma zeta_h j k : 0 < M -> zeta M (- (Z.of_nat j * Z.of_nat k)) = expi (- (2 * PI * (INR j * INR k) / INR M)).
Proof.
  intros _. unfold zeta. rewrite opp_IZR, mult_IZR, <- !INR_IZR_INZ. f_equal. unfold Rdiv. ring.
Qed.
Lemma hMpos : 0 < M. Proof. destruct Hwf as (A1 & A2 & _ & _ & _ & _ & A7 & _). lia. Qed.

Section Q1.
Hypothesis Hq : q = 1.
Lemma hback_1 f F W r y (m0 : mem) (K : mem -> Prop) :
  let W0 := getW F W in
  ainplace t = (W0 =? F) ->
  hasB t al F 1 y m0 -> alloc W0 B m0 -> alloc f (CC * H) m0 -> apart f (CC * H) W0 B -> (W0 = F \/ apart W0 B F b) ->
  (forall m', bpassed al t W0 f 1 (fun j c => r2c m (fun k => y 0 k c) j) m0 m' -> K m') ->
  WP (hbackward al t F f r W) m0 K.
Proof.
  intros W0 Hin Hy Ha1 Ha2 Hs1 Hs2 HK. pose proof (hP_q1 t Hq) as EP. pose proof (he_m t Hwf) as He. pose proof (hH_q1 al t Hwf Hal1 Hq) as HH.
  pose proof (h_C t Hwf) as HC. pose proof (h_m t Hwf) as Hm. pose proof (hB_q1 al t Hq) as EB. pose proof (hb_q1 al t Hq) as Eb.
  pose proof (hB_ge t al Hal1) as HBg. pose proof (hb_ge t Hwf al Hal1) as Hbg.
  set (g := fun j c => r2c m (fun k => y 0 k c) j).
  assert (Hbf : forall j c, j < H -> c < CC -> span_of f (CC * H) (f + CC * j + c)).
  { intros j c Hj Hc. unfold span_of. assert (CC * (j + 1) <= CC * H) by (apply Nat.mul_le_mono_l; lia). rewrite Nat.mul_add_distr_l in *. lia. }
  assert (HT : forall c', (forall m2, (forall s c, s < e -> c < CC -> m2 (W0 + CC * s + c) = Val (g s c)) ->
       (forall a, ~ span_of W0 B a -> m2 a = m0 a) -> (forall a, m0 a <> Unalloc -> m2 a <> Unalloc) -> WP c' m2 K) ->
     WP (Seq (rcfft (hcr t) F W0) c') m0 K).
  { intros c' Hc'. apply WP_seq. apply (hrc_ok t Hwf F W0 (fun i => y 0 (i / CC) (i mod CC))).
    - rewrite Hin. apply Nat.eqb_sym.
    - intros i Hi. pose proof (Nat.div_mod i CC ltac:(lia)) as E. rewrite E at 1.
      assert (X1 : i / CC < P * m) by (apply Nat.div_lt_upper_bound; lia). assert (X2 : i mod CC < CC) by (apply Nat.mod_upper_bound; lia).
      pose proof (Hy 0 (i / CC) (i mod CC) ltac:(lia) X1 X2) as E'. rewrite Nat.mul_0_l, Nat.add_0_r in E'. exact E'.
    - intros a Ha. apply Ha1. unfold wblk, span_of in *. lia.
    - destruct Hs2 as [E|Hs2]; [left; congruence|right]. intros a X1 X2. apply (Hs2 a); unfold fblk, wblk, span_of in *; lia.
    - intros m2 X1 X2 X3. apply Hc'; [| |assumption].
      + intros s c Hs Hc. specialize (X1 0 s c ltac:(lia) Hs Hc). rewrite Nat.mul_0_l, Nat.add_0_l in X1. rewrite X1. unfold g. f_equal.
        apply r2c_ext. intros k Hk.
        replace ((CC * (0 * m + k) + c) / CC) with k by (apply (Nat.div_unique _ CC _ c); lia).
        replace ((CC * (0 * m + k) + c) mod CC) with c by (apply (Nat.mod_unique _ CC k c); lia). reflexivity.
      + intros a Ha. apply X2. unfold wblk, span_of in *. lia. }
  set (adr := fun j => f + CC * j).
  assert (Hinj : injrows adr CC H) by (apply buf_inj; lia).
  assert (Hout : forall i c, i < H -> c < CC -> outs adr CC H (W0 + CC * i + c)).
  { intros i c Hi Hc j c' Hj Hc' E. apply (Hs1 (W0 + CC * i + c)); [rewrite E; apply Hbf; assumption|].
    unfold span_of. assert (CC * (i + 1) <= CC * e) by (apply Nat.mul_le_mono_l; lia). rewrite Nat.mul_add_distr_l in *. lia. }
  assert (HF : forall m2, (forall a, ~ span_of W0 B a -> m2 a = m0 a) -> (forall a, m0 a <> Unalloc -> m2 a <> Unalloc) ->
     forall m', sets adr CC g H m2 m' -> K m').
  { intros m2 X1 X2 m' (V & Fr & Al). apply HK. split; [exact V|]. split; [|auto].
    intros a A1 A2. rewrite Fr, X1; [reflexivity|rewrite Nat.mul_1_l in A1; assumption|].
    intros j c Hj Hc E. apply A2. rewrite E. apply Hbf; assumption. }
  pose proof (WP_pfx1 adr CC g H Hinj) as HL.
  unfold hbackward. rewrite Hq. cbn [Nat.eqb]. unfold hbackwardExplicit, hbackwardExplicitMany. cbv zeta. fold W0.
  change (cq (aL t) 2) with H.
  destruct (Nat.eqb_spec CC 1) as [EC|EC]; apply HT; intros m2 X1 X2 X3;
    (assert (Hal : forall j c, j < H -> c < CC -> m2 (adr j + c) <> Unalloc) by (intros j c Hj Hc; apply X3, Ha2, Hbf; assumption));
    (assert (X1' : forall s c, s < H -> c < CC -> m2 (W0 + CC * s + c) = Val (g s c)) by (intros s c Hs Hc; apply X1; [lia|assumption]));
    (eapply HL; [lia|apply pfx1_nil| |intros m3 H3; apply (HF m2 X2 X3); apply pfx1_sets; exact H3]); intros s Hs'.
  - apply lset_one; [assumption|]. eapply (grb _ _ _ _ _ _ _ _ _ s 0 _ X1' Hout); [lia|lia|rewrite EC; lia|].
    apply row_w1; [unfold adr; rewrite EC; lia|reflexivity|].
    replace (f + s) with (adr s + 0) by (unfold adr; rewrite EC; lia). apply Hal; lia.
  - apply lset_cols1; [exact Hinj|lia|]. intros c Hc.
    eapply (grb _ _ _ _ _ _ _ _ _ s c _ X1' Hout); [lia|lia|lia|].
    apply row_w1; [unfold adr; lia|reflexivity|]. apply (Hal s c); lia.
Qed.
End Q1.

(** the share of pass r *)
Definition hshare (r : nat) (y : nat -> nat -> R) (j : nat) : C :=
  Csum (hblocks t r) (fun be => hpartial_inverse M (hnoutputs t) (fun i => hindex t r (be * hnoutputs t + i)) (y be) j).

Lemma hsum_share r (y : nat -> nat -> nat -> R) j c : q <> 1 -> r < hR t ->
  hsum t (hblocks t r) (hrho t r) y j c = hshare r (fun be i => y be i c) j.
Proof.
  intros Hq Hr. pose proof hMpos as HM. unfold hsum, hshare. apply Csum_ext. intros be Hbe. unfold hbw, hpartial_inverse.
  rewrite hno_P, Csum_mul_nat. apply Csum_ext. intros u Hu. apply Csum_ext. intros k Hk.
  rewrite <- (h_qq t Hwf Hq), <- (h_M t Hwf Hq). rewrite (Nat.mul_comm m u). f_equal. rewrite <- zeta_h by assumption.
  destruct (hindex_cong t Hwf Hq r be u k Hr Hbe Hu Hk) as (z & E). rewrite hno_P in E. rewrite E.
  match goal with |- zeta _ ?a = zeta _ (- (Z.of_nat j * (?b + _))) =>
    replace (- (Z.of_nat j * (b + Z.of_nat M * z)))%Z with (a + Z.of_nat M * (- (Z.of_nat j * z)))%Z by ring end.
  rewrite zeta_period by assumption. reflexivity.
Qed.
Lemma r2c_share r (y : nat -> nat -> nat -> R) j c : q = 1 -> r2c m (fun k => y 0 k c) j = hshare r (fun be i => y be i c) j.
Proof.
  intros Hq. pose proof hMpos as HM. unfold hshare, hblocks. rewrite Hq. cbn [Nat.eqb]. rewrite Csum_1.
  unfold hpartial_inverse, r2c, dft. rewrite hno_P, (hP_q1 t Hq), Nat.mul_1_l, (hM_q1 al t Hal1 Hq).
  apply Csum_ext. intros k Hk. f_equal. rewrite <- (hM_q1 al t Hal1 Hq), <- zeta_h by assumption. f_equal.
  unfold hindex. rewrite Hq. cbn [Nat.eqb]. lia.
Qed.

(** one pass of backward *)
Lemma hbackward_b f F W r y acc (m0 : mem) :
  let W0 := getW F W in
  r < hR t -> ainplace t = (W0 =? F) ->
  (forall be i c, be < hblocks t r -> i < hnoutputs t -> c < CC -> dbl m0 (F + be * b) (CC * i + c) (y be i c)) ->
  (r <> 0 -> hasC CC f H acc m0) ->
  alloc F (houtputSize al t) m0 -> alloc W0 (hworkSizeW al t) m0 -> alloc f (CC * H) m0 ->
  apart f (CC * H) F (houtputSize al t) -> apart f (CC * H) W0 (hworkSizeW al t) ->
  (W0 = F \/ apart W0 (hworkSizeW al t) F (houtputSize al t)) ->
  WP (hbackward al t F f r W) m0 (fun m' =>
    hasC CC f H (fun j c => Cadd (if r =? 0 then C0 else acc j c) (hshare r (fun be i => y be i c) j)) m' /\
    only (fun a => span_of f (CC * H) a \/ span_of F (houtputSize al t) a \/ span_of W0 (hworkSizeW al t) a) m0 m').
Proof.
  intros W0 Hr Hin Hy Hacc Ha1 Ha2 Ha3 Hs1 Hs2 Hs3.
  assert (HD : 1 <= aD t) by apply Hwf.
  pose proof (hno_P t) as Hno.
  assert (Hsw : forall k, k <= aD t -> (forall a, span_of W0 (k * B) a -> span_of F (houtputSize al t) a \/ span_of W0 (hworkSizeW al t) a)).
  { intros k Hk a Ha. unfold hworkSizeW, houtputSize, span_of in *. destruct (ainplace t) eqn:E.
    - left. rewrite (hb_inplace t al E). symmetry in Hin. apply Nat.eqb_eq in Hin. rewrite <- Hin.
      assert (k * B <= B * aD t) by (rewrite Nat.mul_comm; apply Nat.mul_le_mono_l; assumption). lia.
    - right. assert (k * B <= B * aD t) by (rewrite Nat.mul_comm; apply Nat.mul_le_mono_l; assumption). lia. }
  assert (Hsf : forall k, k <= aD t -> (forall a, span_of F (k * b) a -> span_of F (houtputSize al t) a)).
  { intros k Hk a Ha. unfold houtputSize, span_of in *.
    assert (k * b <= b * aD t) by (rewrite Nat.mul_comm; apply Nat.mul_le_mono_l; assumption). lia. }
  assert (HW0 : forall k, k <= aD t -> alloc W0 (k * B) m0 /\ apart f (CC * H) W0 (k * B) /\ (W0 = F \/ apart W0 (k * B) F (k * b))).
  { intros k Hk. split; [|split].
    - intros a Ha. destruct (Hsw k Hk a Ha) as [Hx|Hx]; [apply Ha1|apply Ha2]; assumption.
    - intros a H1 H2. destruct (Hsw k Hk a H2) as [Hx|Hx]; [apply (Hs1 a)|apply (Hs2 a)]; assumption.
    - destruct (Nat.eq_dec W0 F) as [|Hne]; [auto|right]. destruct Hs3 as [|Hs3]; [contradiction|].
      intros a H1 H2. assert (Ei : ainplace t = false) by (rewrite Hin; apply Nat.eqb_neq; assumption).
      apply (Hs3 a).
      + unfold hworkSizeW, span_of in *. rewrite Ei. assert (k * B <= B * aD t) by (rewrite Nat.mul_comm; apply Nat.mul_le_mono_l; assumption). lia.
      + eapply Hsf; eassumption. }
  assert (Hfin : forall nb g, nb <= aD t -> (forall j c, j < H -> c < CC -> g j c = Cadd (if r =? 0 then C0 else acc j c) (hshare r (fun be i => y be i c) j)) ->
    forall m', bpassed al t W0 f nb g m0 m' ->
    hasC CC f H (fun j c => Cadd (if r =? 0 then C0 else acc j c) (hshare r (fun be i => y be i c) j)) m' /\
    only (fun a => span_of f (CC * H) a \/ span_of F (houtputSize al t) a \/ span_of W0 (hworkSizeW al t) a) m0 m').
  { intros nb g Hnb Hg m' (V & Fr & Al). split; [|split; [|exact Al]].
    - intros j c Hj Hc. rewrite V by assumption. f_equal. apply Hg; assumption.
    - intros a Ha. apply Fr; intros Hx; apply Ha; [right; apply (Hsw nb); assumption|left; assumption]. }
  destruct (Nat.eq_dec q 1) as [Hq|Hq].
  - assert (Enb : hblocks t r = 1) by (unfold hblocks; rewrite Hq; reflexivity).
    destruct (HW0 1 HD) as (A1 & A2 & A4). rewrite !Nat.mul_1_l in *.
    assert (Hr0 : r = 0) by (unfold hR in Hr; rewrite Hq in Hr; cbn [Nat.eqb] in Hr; lia).
    apply (hback_1 Hq f F W r y m0); try assumption.
    + intros be i c Hbe Hi Hc. apply Hy; [lia|rewrite Hno; assumption|assumption].
    + apply Hfin; [assumption|]. intros j c Hj Hc. rewrite Hr0. cbn [Nat.eqb]. rewrite (r2c_share 0 y j c Hq). ring.
  - pose proof (hD_2 t Hwf Hq) as ED.
    assert (Enb : hblocks t r <= aD t) by (rewrite (hblocks_q t Hwf Hq), ED; destruct ((r =? 0) && negb (n mod 2 =? 0)); lia).
    destruct (HW0 _ Enb) as (A1 & A2 & A4).
    apply (hback_q al t Hwf Hal1 Hq f F W r y acc m0); try assumption.
    + intros be i c Hbe Hi Hc. apply Hy; [assumption|rewrite Hno; assumption|assumption].
    + apply Hfin; [assumption|]. intros j c Hj Hc. rewrite hsum_share by assumption. reflexivity.
Qed.

(** the shares of all passes *)
Lemma hpasses_b rs (Y : nat -> R) j : loop_trace (hR t) (hincrement t) 0 rs ->
  Clist rs (fun r => hshare r (fun be i => Y (hindex t r (be * hnoutputs t + i))) j) = hpartial_inverse M M (fun k => k) Y j.
Proof.
  intros Htr. unfold hpartial_inverse. rewrite <- csl_seq, (csl_perm _ _ _ (hindex_perm t Hwf rs Htr)).
  rewrite csl_flat_map. change Clist with (@csl nat). apply csl_ext. intros r Hr.
  rewrite csl_map, csl_seq. unfold hshare, hpartial_inverse. rewrite Csum_mul_nat. apply Csum_ext. intros be Hbe. apply Csum_ext. intros i Hi.
  rewrite (Nat.mul_comm (hnoutputs t) be). reflexivity.
Qed.
(** inversion *)
Lemma hinv (x : nat -> C) j : im (x 0) = 0%R -> j < H ->
  hpartial_inverse M M (fun k => k) (fun k => re (hdft M H x k)) j = Cmul (RtoC (INR M)) (x j).
Proof.
  intros Hx Hj. pose proof hMpos as HM.
  assert (HH : 2 * H <= M + 1). { destruct Hwf as (A1 & A2 & _ & _ & _ & _ & A7 & _). pose proof (hH_L t). lia. }
  unfold hpartial_inverse.
  assert (Ho : forall a : Z, Csum M (fun k => zeta M (a * Z.of_nat k)) = if (a mod Z.of_nat M =? 0)%Z then RtoC (INR M) else C0).
  { intros a. rewrite <- (zeta_orth M a HM). apply Csum_ext. intros k Hk. f_equal. ring. }
  assert (Hz : forall a : Z, (a <> 0 -> Z.abs a < Z.of_nat M -> (a mod Z.of_nat M =? 0) = false)%Z).
  { intros a Ha Hb. apply Z.eqb_neq. intros E. apply Z.mod_divide in E; [|lia].
    apply Z.divide_abs_r in E. apply Z.divide_pos_le in E; lia. }
  rewrite (Csum_ext M _ (fun k => Cadd (Cmul (x 0) (zeta M (- Z.of_nat j * Z.of_nat k)))
     (Csum (H - 1) (fun i => Cadd (Cmul (x (i + 1)) (zeta M ((Z.of_nat (i + 1) - Z.of_nat j) * Z.of_nat k)))
        (Cmul (Cconj (x (i + 1))) (zeta M ((- Z.of_nat (i + 1) - Z.of_nat j) * Z.of_nat k))))))).
  2:{ intros k Hk. rewrite hdft_outh by assumption. rewrite <- isreal_re by (apply outh_real, isreal_im; assumption).
      rewrite <- zeta_h by assumption. unfold outh. rewrite cdist, <- Csum_mul_r. f_equal.
      - do 2 f_equal. ring.
      - apply Csum_ext. intros i Hi. rewrite cdist, <- !Cmul_assoc, <- !zeta_add. f_equal; do 2 f_equal; ring. }
  rewrite Csum_add, Csum_swap, Csum_mul_l, Ho.
  rewrite (Csum_ext (H - 1) _ (fun i => if i + 1 =? j then Cmul (RtoC (INR M)) (x j) else C0)).
  2:{ intros i Hi. rewrite Csum_add, !Csum_mul_l, !Ho. rewrite (Hz (- Z.of_nat (i + 1) - Z.of_nat j)%Z) by lia.
      destruct (Nat.eqb_spec (i + 1) j) as [E|E].
      - rewrite E, Z.sub_diag, Z.mod_0_l by lia. rewrite Z.eqb_refl. ring.
      - rewrite Hz by lia. ring. }
  destruct j as [|j].
  - rewrite Z.mod_0_l by lia. rewrite Z.eqb_refl. rewrite Csum_zero; [ring|]. intros i Hi. destruct (Nat.eqb_spec (i + 1) 0); [lia|reflexivity].
  - rewrite Hz by lia. rewrite (Csum_single (H - 1) j); [|lia|].
    + replace (j + 1 =? S j) with true by (symmetry; apply Nat.eqb_eq; lia). ring.
    + intros i Hi Hne. destruct (Nat.eqb_spec (i + 1) (S j)); [lia|reflexivity].
Qed.

(** the caller's loop: forward then backward for every pass *)
Lemma hroundtrip_b f F h W x (m0 : mem) rs :
  let W0 := getW F W in
  loop_trace (hR t) (hincrement t) 0 rs ->
  ainplace t = (W0 =? F) ->
  hasC CC f H x m0 -> (forall c, c < CC -> im (x 0 c) = 0%R) ->
  alloc F (houtputSize al t) m0 -> alloc W0 (hworkSizeW al t) m0 -> alloc h (CC * H) m0 ->
  apart f (CC * H) F (houtputSize al t) -> apart f (CC * H) W0 (hworkSizeW al t) ->
  apart h (CC * H) F (houtputSize al t) -> apart h (CC * H) W0 (hworkSizeW al t) -> apart f (CC * H) h (CC * H) ->
  (W0 = F \/ apart W0 (hworkSizeW al t) F (houtputSize al t)) ->
  WP (rfor rs (fun r => Seq (hforward al t f F r W) (hbackward al t F h r W))) m0 (fun m' =>
    hasC CC h H (fun j c => Cmul (RtoC (INR M)) (x j c)) m' /\
    hasC CC f H x m' /\
    only (fun a => span_of F (houtputSize al t) a \/ span_of W0 (hworkSizeW al t) a \/ span_of h (CC * H) a) m0 m').
Proof.
  intros W0 Htr Hin Hx Hx0 Ha1 Ha2 Ha3 H1 H2 H4 H5 H6 H3.
  destruct (hloop t Hwf) as [_ Hun]. pose proof (Hun rs Htr) as ER.
  set (wr := fun a => span_of F (houtputSize al t) a \/ span_of W0 (hworkSizeW al t) a \/ span_of h (CC * H) a).
  assert (Hbf : forall f j c, j < H -> c < CC -> span_of f (CC * H) (f + CC * j + c)).
  { intros f' j c Hj Hc. unfold span_of. assert (CC * (j + 1) <= CC * H) by (apply Nat.mul_le_mono_l; lia). rewrite Nat.mul_add_distr_l in *. lia. }
  assert (Hfw : forall j c, j < H -> c < CC -> ~ wr (f + CC * j + c)).
  { intros i c Hi Hc [Hw|[Hw|Hw]]; [apply (H1 (f + CC * i + c))|apply (H2 (f + CC * i + c))|apply (H6 (f + CC * i + c))]; try exact Hw; apply Hbf; assumption. }
  set (y := fun r be i c => re (hdft M H (fun j => x j c) (hindex t r (be * hnoutputs t + i)))).
  set (acc := fun done c j => csl done (fun r => hshare r (fun be i => y r be i c) j)).
  assert (G : forall rest done (mm : mem), rs = done ++ rest ->
     (done <> [] -> forall j c, j < H -> c < CC -> mm (h + CC * j + c) = Val (acc done c j)) ->
     only wr m0 mm ->
     WP (rfor rest (fun r => Seq (hforward al t f F r W) (hbackward al t F h r W))) mm (fun m' =>
       (rs <> [] -> forall j c, j < H -> c < CC -> m' (h + CC * j + c) = Val (acc rs c j)) /\ only wr m0 m')).
  { induction rest as [|r rest IH]; intros done mm E Hacc (Hfr & Hal).
    - rewrite app_nil_r in E. subst done. cbn [rfor]. apply WP_skip. split; [exact Hacc|split; assumption].
    - cbn [rfor]. apply WP_seq, WP_seq.
      assert (Hri : In r rs) by (rewrite E; apply in_or_app; right; left; reflexivity).
      assert (Hr : r < hR t) by (rewrite ER in Hri; apply in_seq in Hri; lia).
      eapply WP_mono; [|apply (hforward_b al t Hwf Hal1 f F W r x mm)]; try assumption.
      2:{ intros i c Hi Hc. rewrite Hfr by (apply Hfw; assumption). apply Hx; assumption. }
      2:{ intros a Ha. apply Hal, Ha1. assumption. }
      2:{ intros a Ha. apply Hal, Ha2. assumption. }
      intros m1 (V1 & F1 & O1 & A1).
      eapply WP_mono; [|apply (hbackward_b h F W r (y r) (fun j c => acc done c j) m1)]; try assumption.
      + intros m2 (V2 & O2 & A2). apply (IH (done ++ [r])).
        * rewrite <- app_assoc. assumption.
        * intros _ j c Hj Hc. rewrite V2 by assumption. f_equal. unfold acc. rewrite csl_app. cbn [csl fold_right].
          destruct (Nat.eqb_spec r 0) as [Er|Hr0].
          -- assert (done = []).
             { destruct done as [|d done]; [reflexivity|]. exfalso. cbn [app] in E. rewrite ER in E.
               destruct (hR t) as [|k]; [discriminate|]. cbn [seq] in E. injection E as E1 E.
               assert (Hi0 : In r (seq 1 k)) by (rewrite E; apply in_or_app; right; left; reflexivity).
               apply in_seq in Hi0. lia. }
             subst done. cbn [csl fold_right]. ring.
          -- ring.
        * split; [|auto]. intros a Ha. rewrite O2, O1, Hfr; auto.
          -- intros [Hw|Hw]; apply Ha; [left|right; left]; exact Hw.
          -- intros [Hw|[Hw|Hw]]; apply Ha; [right; right; exact Hw|left; exact Hw|right; left; exact Hw].
      + intros be i c Hbe Hi Hc. apply (V1 be i c); assumption.
      + intros Hr0 j c Hj Hc. pose proof (Hbf h j c Hj Hc) as Hb. rewrite O1; [apply Hacc; auto|].
        2:{ intros [Hw|Hw]; [eapply H4|eapply H5]; eassumption. }
        intros Ed. rewrite Ed in E. cbn [app] in E. rewrite ER in E. destruct (hR t) as [|k]; [discriminate|]. cbn [seq] in E. injection E as E1 _. congruence.
      + intros a Ha. apply A1, Hal, Ha1. assumption.
      + intros a Ha. apply A1, Hal, Ha2. assumption.
      + intros a Ha. apply A1, Hal, Ha3. assumption. }
  assert (HRp : 1 <= hR t).
  { destruct (Nat.eq_dec q 1) as [Hq|Hq]; [unfold hR; rewrite Hq; cbn [Nat.eqb]; lia|]. rewrite (h_R t Hwf Hq).
    pose proof (h_n2 t Hwf Hq). pose proof (cq2 n). lia. }
  assert (Hne : rs <> []).
  { rewrite ER. destruct (hR t); [lia|discriminate]. }
  eapply WP_mono; [|apply (G rs []); [reflexivity|contradiction|split; auto]].
  intros m' (V & Fr). specialize (V Hne). split; [|split; [|exact Fr]].
  - intros j c Hj Hc. rewrite V by assumption. f_equal. unfold acc.
    rewrite <- (hinv (fun j => x j c) j) by auto. rewrite <- (hpasses_b rs _ j Htr). reflexivity.
  - intros j c Hj Hc. destruct Fr as [Fr _]. rewrite Fr by (apply Hfw; assumption). apply Hx; assumption.
Qed.
End T.
