(** Hermitian backward transforms: real transforms of the blocks, inverse radix stage, and the
    order in which the rows of f are written. *)
From Coq Require Import Reals ZArith Arith Lia List Bool.
From Verif Require Import CNum Sums Roots Mem VecModel VecProofs PadModel PadKernels Loops
  PadLemmas PadMath PadGeom Fwd1 PadForward Fill CenModel CenMath CenGeom CenFft CenF2 CenPass CenStage CenTw CenFI
  CenBack CenB2 CenBPass CenBwd2 CenBI HerModel HerSpec HerMath HerFft HerGeom HerF2 HerFI HerForward.

(** the work array after the real-to-complex transforms of the blocks y *)
Definition hrow (t : pad) (y : nat -> nat -> nat -> R) (i c : nat) : C :=
  r2c (am t) (fun k => y (i / (he t * hP t)) (i mod (he t * hP t) / he t * am t + k) c) (i mod he t).
(** after the inverse radix stage *)
Definition hUrow (t : pad) (rh : nat -> Z) (y : nat -> nat -> nat -> R) (i c : nat) : C :=
  hU (am t) (hP t) (kn t) (rh (i / (he t * hP t))) (fun u k => y (i / (he t * hP t)) (u * am t + k) c)
    (i mod (he t * hP t) / he t) (i mod he t).
(** contribution of the blocks to element j *)
Definition hsum (t : pad) (nb : nat) (rh : nat -> Z) (y : nat -> nat -> nat -> R) (j c : nat) : C :=
  Csum nb (fun b => hbw (am t) (hP t) (kn t) (rh b) (fun u k => y b (u * am t + k) c) (Z.of_nat j)).

Section T.
Variable t : pad.
Hypothesis Hwf : hwf t.
Hypothesis Hq : kq t <> 1.
Notation CC := (aC t). Notation m := (am t).
Notation q := (kq t).   Notation n := (kn t).   Notation M := (kM t).
Notation e := (he t). Notation H := (hH t). Notation P := (hP t).
Notation l := (e * P).
Notation m0 := (m * P - H + 1).

Lemma bb0 i : l * 0 + i = i. Proof. lia. Qed.
Lemma bb1 i : l * 1 + i = l + i. Proof. lia. Qed.
Lemma hrow_bus y b u s c : u < P -> s < e -> hrow t y (l * b + (e * u + s)) c = r2c m (fun k => y b (u * m + k) c) s.
Proof. intros Hu Hs. unfold hrow. rewrite bus_div, bus_mod, us_div, bus_mod_e by assumption. reflexivity. Qed.
Lemma hUrow_bus rh y b u s c : u < P -> s < e ->
  hUrow t rh y (l * b + (e * u + s)) c = hU m P n (rh b) (fun u k => y b (u * m + k) c) u s.
Proof. intros Hu Hs. unfold hUrow. rewrite bus_div, bus_mod, us_div, bus_mod_e by assumption. reflexivity. Qed.
Lemma hsum_direct nb rh y u s c : u < P -> s < e ->
  hsum t nb rh y (m * u + s) c = Csum nb (fun b => Cconj (zeta q (rh b * Z.of_nat u)) * hUrow t rh y (l * b + (e * u + s)) c)%C.
Proof.
  intros Hu Hs. pose proof (he_m t Hwf) as He. unfold hsum. apply Csum_ext. intros b Hb.
  rewrite (hbw_direct m P n H (h_hg t Hwf Hq)) by lia. rewrite hUrow_bus by assumption. rewrite <- (h_qq t Hwf Hq). reflexivity.
Qed.
Lemma hsum_reflect nb rh y u s c : u < P -> s < e -> m0 <= m * u + s -> 
  hsum t nb rh y (m * P - (m * u + s)) c =
  Csum nb (fun b => Cconj (zeta n (rh b) * (Cconj (zeta q (rh b * Z.of_nat u)) * hUrow t rh y (l * b + (e * u + s)) c)))%C.
Proof.
  intros Hu Hs Hm0. pose proof (he_m t Hwf) as He. unfold hsum. apply Csum_ext. intros b Hb.
  assert (Hx : m * (u + 1) <= m * P) by (apply Nat.mul_le_mono_l; lia). rewrite Nat.mul_add_distr_l in Hx.
  pose proof (hbw_reflect m P n H (h_hg t Hwf Hq) (rh b) (fun u k => y b (u * m + k) c) u s) as E. unfold cl in E.
  rewrite E by lia. rewrite hUrow_bus by assumption. rewrite <- (h_qq t Hwf Hq). reflexivity.
Qed.
Lemma hUrow_1 rh y b s c : P = 1 -> s < e ->
  hUrow t rh y (l * b + s) c = (hrow t y (l * b + s) c * Cconj (zeta M (rh b * Z.of_nat s)))%C.
Proof.
  intros HP Hs. pose proof (hUrow_bus rh y b 0 s c ltac:(lia) Hs) as E1. pose proof (hrow_bus y b 0 s c ltac:(lia) Hs) as E2.
  rewrite Nat.mul_0_r in E1, E2. cbn [Nat.add] in E1, E2. rewrite E1, E2, (hU_1 m P n) by assumption.
  rewrite <- (h_M t Hwf Hq). reflexivity.
Qed.

(** *** the real transforms *)
Variable al : nat.
Hypothesis Hal1 : 1 <= al.
Notation B := (hB al t). Notation b := (hb al t).
Definition hasB (F nb : nat) (y : nat -> nat -> nat -> R) (m1 : mem) : Prop :=
  forall be i c, be < nb -> i < P * m -> c < CC -> dbl m1 (F + be * b) (CC * i + c) (y be i c).

Section Head.
Variables (F W : nat) (y : nat -> nat -> nat -> R) (k : cmd C) (m1 : mem) (K : mem -> Prop).
Hypothesis Hin : ainplace t = (W =? F).
Notation adr := (adr2 CC l W (W + B)).

Lemma rblk_ok be F' W' (ma : mem) (K' : mem -> Prop) :
  ainplace t = (W' =? F') ->
  (forall i c, i < P * m -> c < CC -> dbl ma F' (CC * i + c) (y be i c)) ->
  (forall a, wblk t W' a -> ma a <> Unalloc) ->
  (W' = F' \/ forall a, wblk t W' a -> fblk t F' a -> False) ->
  (forall m', (forall u s c, u < P -> s < e -> c < CC ->
       m' (W' + CC * (e * u + s) + c) = Val (hrow t y (l * be + (e * u + s)) c)) ->
     (forall a, ~ wblk t W' a -> m' a = ma a) ->
     (forall a, ma a <> Unalloc -> m' a <> Unalloc) -> K' m') ->
  WP (rcfft (hcr t) F' W') ma K'.
Proof.
  intros Hin' Hd Ha Hsep HK. pose proof (h_C t Hwf) as HC.
  apply (hrc_ok t Hwf F' W' (fun i => y be (i / CC) (i mod CC))).
  - rewrite Hin'. apply Nat.eqb_sym.
  - intros i Hi. pose proof (Nat.div_mod i CC ltac:(lia)) as E. rewrite E at 1. apply Hd.
    + apply Nat.div_lt_upper_bound; lia.
    + apply Nat.mod_upper_bound. lia.
  - assumption.
  - destruct Hsep as [->|Hs]; auto.
  - intros m' H1 H2 H3. apply HK; [|assumption|assumption].
    intros u s c Hu Hs Hc. rewrite (Nat.mul_comm e u), H1 by assumption. f_equal.
    rewrite (Nat.mul_comm u e), hrow_bus by assumption.
    apply r2c_ext. intros k' Hk.
    replace ((CC * (u * m + k') + c) / CC) with (u * m + k') by (apply (Nat.div_unique _ CC _ c); lia).
    replace ((CC * (u * m + k') + c) mod CC) with c by (apply (Nat.mod_unique _ CC (u * m + k') c); lia). reflexivity.
Qed.
Lemma wblk_row W' a : wblk t W' a -> exists u s c, u < P /\ s < e /\ c < CC /\ a = W' + CC * (e * u + s) + c.
Proof.
  intros Ha. pose proof (h_C t Hwf) as HC. pose proof (he_m t Hwf) as He. unfold wblk, hWw in Ha.
  set (i := a - W'). assert (Hi : i < CC * (P * e)) by (unfold i; lia).
  set (j := i / CC). assert (Hj : j < P * e) by (apply Nat.div_lt_upper_bound; lia).
  exists (j / e), (j mod e), (i mod CC). split; [apply Nat.div_lt_upper_bound; lia|]. split; [apply Nat.mod_upper_bound; lia|].
  split; [apply Nat.mod_upper_bound; lia|]. pose proof (Nat.div_mod j e ltac:(lia)) as E1. rewrite <- E1.
  pose proof (Nat.div_mod i CC ltac:(lia)) as E2. unfold j. unfold i in *. lia.
Qed.
Lemma row_us i : i < l -> i / e < P /\ i mod e < e /\ i = e * (i / e) + i mod e.
Proof.
  intros Hi. pose proof (he_m t Hwf) as He. split; [apply Nat.div_lt_upper_bound; lia|]. split; [apply Nat.mod_upper_bound; lia|].
  apply Nat.div_mod. lia.
Qed.
Lemma head_one :
  hasB F 1 y m1 -> alloc W B m1 -> (W = F \/ apart W B F b) ->
  (forall m', sets adr CC (hrow t y) (l * 1) m1 m' -> WP k m' K) ->
  WP (Seq (rcfft (hcr t) F W) k) m1 K.
Proof.
  intros Hy HW Hsep HK. pose proof (hB_ge t al Hal1) as HB. pose proof (hb_ge t Hwf al Hal1) as Hb.
  apply WP_seq. apply (rblk_ok 0 F W).
  - assumption.
  - intros i c Hi Hc. specialize (Hy 0 i c ltac:(lia) Hi Hc). rewrite Nat.mul_0_l, Nat.add_0_r in Hy. exact Hy.
  - intros a Ha. apply HW. unfold wblk, span_of in *. lia.
  - destruct Hsep as [->|Hsep]; [auto|right]. intros a H1 H2. apply (Hsep a); unfold fblk, wblk, span_of in *; lia.
  - intros m' H1 H2 H3. apply HK. split; [|split; [|assumption]].
    + intros i c Hi Hc. rewrite adr2_lo by lia. destruct (row_us i ltac:(lia)) as (D1 & D2 & D3).
      rewrite D3, H1 by assumption. rewrite bb0. reflexivity.
    + intros a Ha. apply H2. intros Hw. destruct (wblk_row W a Hw) as (u & s & c & Hu & Hs & Hc & ->).
      assert (e * u + s < l) by nia.
      apply (Ha (e * u + s) c); [lia|assumption|]. rewrite adr2_lo by assumption. reflexivity.
Qed.
Lemma head_two :
  hasB F 2 y m1 -> alloc W (2 * B) m1 -> (W = F \/ apart W (2 * B) F (2 * b)) ->
  (forall m', sets adr CC (hrow t y) (l * 2) m1 m' -> WP k m' K) ->
  WP (Seq (rcfft (hcr t) F W) (Seq (rcfft (hcr t) (F + b) (W + B)) k)) m1 K.
Proof.
  intros Hy HW Hsep HK. pose proof (hB_ge t al Hal1) as HB. pose proof (hb_ge t Hwf al Hal1) as Hb.
  assert (HWF : W = F -> B = b).
  { intros E. symmetry. apply hb_inplace. rewrite Hin, E. apply Nat.eqb_refl. }
  assert (HsA : forall W' F', (W' = W /\ F' = F) \/ (W' = W + B /\ F' = F + b) -> W' = F' \/ forall a, wblk t W' a -> fblk t F' a -> False).
  { intros W' F' HE. destruct Hsep as [E|Hs]; [left; specialize (HWF E); lia|right]. intros a H1 H2.
    apply (Hs a); unfold fblk, wblk, span_of in *; lia. }
  assert (HsX : forall a, wblk t W a -> (wblk t (W + B) a \/ fblk t (F + b) a) -> False).
  { intros a H1 H2. destruct Hsep as [E|Hs]; [specialize (HWF E); unfold fblk, wblk in *; pose proof (hFw_Ww t Hwf); lia|].
    specialize (Hs a). unfold fblk, wblk, span_of in *. lia. }
  apply WP_seq. apply (rblk_ok 0 F W).
  - assumption.
  - intros i c Hi Hc. specialize (Hy 0 i c ltac:(lia) Hi Hc). rewrite Nat.mul_0_l, Nat.add_0_r in Hy. exact Hy.
  - intros a Ha. apply HW. unfold wblk, span_of in *. lia.
  - apply HsA. auto.
  - intros m3 H1 H2 H3. apply WP_seq. apply (rblk_ok 1 (F + b) (W + B)).
    + rewrite Hin. destruct (Nat.eqb_spec W F) as [E|E].
      * specialize (HWF E). symmetry. apply Nat.eqb_eq. lia.
      * destruct Hsep as [E'|Hs]; [contradiction|]. symmetry. apply Nat.eqb_neq. intros E2.
        pose proof (h_C t Hwf) as HC. pose proof (he_m t Hwf) as He. pose proof (hP_pos t Hwf) as HP.
        assert (1 <= hFw t). { unfold hFw. pose proof (cq2 (CC * (P * m))). pose proof (h_m t Hwf).
          assert (1 * (1 * 1) <= CC * (P * m)) by (repeat apply Nat.mul_le_mono; lia). lia. }
        assert (1 <= hWw t). { unfold hWw. assert (1 * (1 * 1) <= CC * (P * e)) by (repeat apply Nat.mul_le_mono; lia). lia. }
        apply (Hs (W + B)); unfold span_of; lia.
    + intros i c Hi Hc. specialize (Hy 1 i c ltac:(lia) Hi Hc). rewrite Nat.mul_1_l in Hy. eapply dbl_eq; [|exact Hy].
      pose proof (h_m t Hwf) as Hm.
      assert (Hu : i / m < P) by (apply Nat.div_lt_upper_bound; lia). pose proof (Nat.mod_upper_bound i m ltac:(lia)) as Hk.
      pose proof (hdbl_in al t Hal1 (i / m) (i mod m) c Hu Hk Hc) as Hd. replace (i / m * m + i mod m) with i in Hd by (pose proof (Nat.div_mod i m ltac:(lia)); lia).
      apply H2. intros Hx. apply (HsX (F + b + (CC * i + c) / 2)); [assumption|]. right. unfold fblk. lia.
    + intros a Ha. apply H3, HW. unfold wblk, span_of in *. lia.
    + apply HsA. auto.
    + intros m4 I1 I2 I3. apply HK. split; [|split].
      * intros i c Hi Hc. destruct (Nat.lt_ge_cases i l) as [Hl|Hl].
        -- rewrite adr2_lo by lia. destruct (row_us i ltac:(lia)) as (D1 & D2 & D3). rewrite D3.
           pose proof (hWw_in al t Hal1 (i / e) (i mod e) c D1 D2 Hc) as Hx. rewrite (Nat.mul_comm (i / e) e) in Hx.
           rewrite I2, H1 by (assumption || (unfold wblk; lia)). rewrite bb0. reflexivity.
        -- destruct (row_us (i - l) ltac:(lia)) as (D1 & D2 & D3). replace i with (l + (e * ((i - l) / e) + (i - l) mod e)) by lia.
           rewrite adr2_hi, I1 by assumption. rewrite bb1. reflexivity.
      * intros a Ha. rewrite I2, H2; [reflexivity| |]; intros Hw.
        -- destruct (wblk_row W a Hw) as (u & s & c & Hu & Hs & Hc & ->). assert (e * u + s < l) by nia.
           apply (Ha (e * u + s) c); [lia|assumption|]. rewrite adr2_lo by assumption. reflexivity.
        -- destruct (wblk_row _ a Hw) as (u & s & c & Hu & Hs & Hc & ->). assert (e * u + s < l) by nia.
           apply (Ha (l + (e * u + s)) c); [lia|assumption|]. rewrite adr2_hi. reflexivity.
      * auto.
Qed.
End Head.
End T.
