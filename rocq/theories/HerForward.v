(** Hermitian forward transforms: one pass. *)
From Coq Require Import Reals ZArith Arith Lia List Bool.
From Verif Require Import CNum Sums Roots Mem VecModel VecProofs PadModel PadKernels Loops
  PadLemmas PadMath PadGeom Fwd1 PadForward Fill CenModel CenMath CenGeom CenFft CenF2 CenPass CenStage CenTw CenFI
  HerModel HerSpec HerMath HerFft HerGeom HerF2 HerFI.

(** number of blocks that pass r computes *)
Definition hblocks (t : pad) (r : nat) : nat :=
  if kq t =? 1 then 1 else if r =? 0 then hD0 t else aD t.

Lemma hdft_outh M H f k : 0 < M -> hdft M H f k = outh M H f (Z.of_nat k).
Proof.
  intros HM. unfold hdft, outh. f_equal. apply Csum_ext. intros i Hi.
  assert (E : zeta M (Z.of_nat (i + 1) * Z.of_nat k) = expi (2 * PI * (INR (i + 1) * INR k) / INR M)).
  { unfold zeta. f_equal. rewrite mult_IZR, <- !INR_IZR_INZ. reflexivity. }
  rewrite E. f_equal. f_equal. rewrite zeta_neg, E. apply expi_neg.
Qed.

Section T.
Variables (al : nat) (t : pad).
Hypothesis Hwf : hwf t.
Hypothesis Hal1 : 1 <= al.
Notation CC := (aC t).  Notation m := (am t).
Notation p := (kp t).  Notation q := (kq t).   Notation n := (kn t).   Notation M := (kM t).
Notation P := (hP t). Notation e := (he t). Notation H := (hH t).
Notation B := (hB al t). Notation b := (hb al t).
Notation l := (e * P).

(** the work array after the filling stages *)
Definition filled (W nb : nat) (rh : nat -> Z) (x : nat -> nat -> C) (m1 m' : mem) : Prop :=
  (forall be u s c, be < nb -> u < P -> s < e -> c < CC ->
     m' (W + B * be + CC * (u * e + s) + c) = Val (hpre m P n H (rh be) (fun j => x j c) u s)) /\
  (forall a, ~ span_of W (nb * B) a -> m' a = m1 a) /\
  (forall a, m1 a <> Unalloc -> m' a <> Unalloc).
(** the pass *)
Definition passed (W F nb : nat) (rh : nat -> Z) (x : nat -> nat -> C) (m1 m' : mem) : Prop :=
  (forall be u k c, be < nb -> u < P -> k < m -> c < CC ->
     dbl m' (F + be * b) (CC * (u * m + k) + c)
       (re (outh M H (fun j => x j c) (Z.of_nat q * Z.of_nat k + Z.of_nat n * Z.of_nat u + rh be)))) /\
  (forall a, ~ span_of W (nb * B) a -> ~ span_of F (nb * b) a -> m' a = m1 a) /\
  (forall a, m1 a <> Unalloc -> m' a <> Unalloc).

Lemma dbl_eq (m1 m2 : mem) base i v : m2 (base + i / 2) = m1 (base + i / 2) -> dbl m1 base i v -> dbl m2 base i v.
Proof. intros E (w & H1 & H2). exists w. rewrite E. auto. Qed.
Lemma hdbl_in u k c : u < P -> k < m -> c < CC -> (CC * (u * m + k) + c) / 2 < hFw t.
Proof.
  intros Hu Hk Hc. unfold hFw. pose proof (cq2 (CC * (P * m))) as E.
  assert (u * m + k < P * m) by nia. assert (CC * (u * m + k + 1) <= CC * (P * m)) by (apply Nat.mul_le_mono_l; lia).
  rewrite Nat.mul_add_distr_l in *. apply Nat.div_lt_upper_bound; lia.
Qed.
Lemma hWw_in u s c : u < P -> s < e -> c < CC -> CC * (u * e + s) + c < hWw t.
Proof.
  intros Hu Hk Hc. unfold hWw. assert (u * e + s < P * e) by nia.
  assert (CC * (u * e + s + 1) <= CC * (P * e)) by (apply Nat.mul_le_mono_l; lia).
  rewrite Nat.mul_add_distr_l in *. lia.
Qed.

Section Tail.
Variables (F W : nat) (rh : nat -> Z) (x : nat -> nat -> C) (m1 m2 : mem) (K : mem -> Prop).
Hypothesis Hq : q <> 1.
Hypothesis Hin : ainplace t = (W =? F).
Hypothesis Hx0 : forall c, c < CC -> im (x 0 c) = 0%R.
(** one block *)
Lemma pre_mid rr u s c : c < CC -> s < e -> s = 0 \/ 2 * s = m -> im (hpre m P n H rr (fun j => x j c) u s) = 0%R.
Proof.
  intros Hc Hs Hm. apply (hpre_mid m P n H (h_hg t Hwf Hq)); [apply isreal_im; apply Hx0; assumption|exact Hs|exact Hm].
Qed.
Lemma blk_ok be W' F' (ma : mem) (K' : mem -> Prop) :
  ainplace t = (W' =? F') ->
  (forall u s c, u < P -> s < e -> c < CC -> ma (W' + CC * (u * e + s) + c) = Val (hpre m P n H (rh be) (fun j => x j c) u s)) ->
  (forall a, fblk t F' a -> ma a <> Unalloc) ->
  (W' = F' \/ forall a, wblk t W' a -> fblk t F' a -> False) ->
  (forall m', (forall u k c, u < P -> k < m -> c < CC ->
     dbl m' F' (CC * (u * m + k) + c)
       (re (outh M H (fun j => x j c) (Z.of_nat q * Z.of_nat k + Z.of_nat n * Z.of_nat u + rh be)))) ->
    (forall a, ~ wblk t W' a -> ~ fblk t F' a -> m' a = ma a) ->
    (forall a, ma a <> Unalloc -> m' a <> Unalloc) -> K' m') ->
  WP (crfft (hcr t) W' F') ma K'.
Proof.
  intros Hin' Hv Ha Hsep HK. pose proof (he_m t Hwf) as He.
  assert (D : forall i, i < P * e -> i / e < P /\ i mod e < e /\ i = i / e * e + i mod e).
  { intros i Hi. split; [apply Nat.div_lt_upper_bound; lia|]. split; [apply Nat.mod_upper_bound; lia|].
    pose proof (Nat.div_mod i e ltac:(lia)). lia. }
  apply (hcr_ok t Hwf W' F' (fun i c => hpre m P n H (rh be) (fun j => x j c) (i / e) (i mod e)));
    [assumption| | |assumption|assumption|].
  - intros i c Hi Hc. destruct (D i Hi) as (D1 & D2 & D3). rewrite D3 at 1. apply Hv; assumption.
  - intros u s c Hu Hs Hc Hm. replace ((u * e + s) / e) with u by (apply (Nat.div_unique _ e u s); lia).
    replace ((u * e + s) mod e) with s by (apply (Nat.mod_unique _ e u s); lia). apply pre_mid; assumption.
  - intros m' H1 H2 H3. apply HK; [|assumption|assumption].
    intros u k c Hu Hk Hc. specialize (H1 u k c Hu Hk Hc). rewrite (h_M t Hwf Hq), (h_qq t Hwf Hq).
    rewrite <- (hpre_c2r m P n H (h_hg t Hwf Hq)) by (apply isreal_im; apply Hx0; assumption).
    rewrite (c2r_ext m _ (fun s => hpre m P n H (rh be) (fun j => x j c) ((u * e + s) / e) ((u * e + s) mod e))); [exact H1|].
    intros s Hs. change (m / 2 + 1) with e in Hs. replace ((u * e + s) / e) with u by (apply (Nat.div_unique _ e u s); lia).
    replace ((u * e + s) mod e) with s by (apply (Nat.mod_unique _ e u s); lia). reflexivity.
Qed.

Lemma tail_one :
  filled W 1 rh x m1 m2 -> alloc F b m1 -> (W = F \/ apart W B F b) ->
  (forall m', passed W F 1 rh x m1 m' -> K m') ->
  WP (crfft (hcr t) W F) m2 K.
Proof.
  intros (V & Fr & Al) HF Hsep HK. pose proof (hB_ge t al Hal1) as HB. pose proof (hb_ge t Hwf al Hal1) as Hb.
  apply (blk_ok 0 W F).
  - assumption.
  - intros u s c Hu Hs Hc. rewrite <- V by (assumption || lia). f_equal. lia.
  - intros a Ha. apply Al, HF. unfold fblk, span_of in *. lia.
  - destruct Hsep as [->|Hsep]; [auto|right]. intros a H1 H2. apply (Hsep a); unfold fblk, wblk, span_of in *; lia.
  - intros m' H1 H2 H3. apply HK. split; [|split].
    + intros be u k c Hbe Hu Hk Hc. assert (be = 0) by lia. subst be. rewrite Nat.mul_0_l, Nat.add_0_r. apply H1; assumption.
    + intros a A1 A2. unfold span_of in *. rewrite H2; [apply Fr; exact A1| |]; unfold fblk, wblk; lia.
    + auto.
Qed.
Lemma tail_two :
  filled W 2 rh x m1 m2 -> alloc F (2 * b) m1 -> (W = F \/ apart W (2 * B) F (2 * b)) ->
  (forall m', passed W F 2 rh x m1 m' -> K m') ->
  WP (Seq (crfft (hcr t) W F) (crfft (hcr t) (W + B) (F + b))) m2 K.
Proof.
  intros (V & Fr & Al) HF Hsep HK. pose proof (hB_ge t al Hal1) as HB. pose proof (hb_ge t Hwf al Hal1) as Hb.
  assert (HWF : W = F -> B = b).
  { intros E. symmetry. apply hb_inplace. rewrite Hin, E. apply Nat.eqb_refl. }
  assert (HsA : forall W' F', (W' = W /\ F' = F) \/ (W' = W + B /\ F' = F + b) -> W' = F' \/ forall a, wblk t W' a -> fblk t F' a -> False).
  { intros W' F' HE. destruct Hsep as [E|Hs]; [left; specialize (HWF E); lia|right]. intros a H1 H2.
    apply (Hs a); unfold fblk, wblk, span_of in *; lia. }
  assert (HsX : forall a, (wblk t W a \/ fblk t F a) -> (wblk t (W + B) a \/ fblk t (F + b) a) -> False).
  { intros a H1 H2. destruct Hsep as [E|Hs]; [specialize (HWF E); unfold fblk, wblk in *; pose proof (hFw_Ww t Hwf); lia|].
    specialize (Hs a). unfold fblk, wblk, span_of in *. lia. }
  apply WP_seq. apply (blk_ok 0 W F).
  - assumption.
  - intros u s c Hu Hs Hc. rewrite <- V by (assumption || lia). f_equal. lia.
  - intros a Ha. apply Al, HF. unfold fblk, span_of in *. lia.
  - apply HsA. auto.
  - intros m3 H1 H2 H3. apply (blk_ok 1 (W + B) (F + b)).
    + rewrite Hin. destruct (Nat.eqb_spec W F) as [E|E].
      * specialize (HWF E). symmetry. apply Nat.eqb_eq. lia.
      * destruct Hsep as [E'|Hs]; [contradiction|]. symmetry. apply Nat.eqb_neq. intros E2.
        pose proof (h_C t Hwf) as HC. pose proof (he_m t Hwf) as He. pose proof (hP_pos t Hwf) as HP.
        assert (1 <= hFw t). { unfold hFw. pose proof (cq2 (CC * (P * m))). pose proof (h_m t Hwf).
          assert (1 * (1 * 1) <= CC * (P * m)) by (repeat apply Nat.mul_le_mono; lia). lia. }
        assert (1 <= hWw t). { unfold hWw. assert (1 * (1 * 1) <= CC * (P * e)) by (repeat apply Nat.mul_le_mono; lia). lia. }
        apply (Hs (W + B)); unfold span_of; lia.
    + intros u s c Hu Hs Hc. pose proof (hWw_in u s c Hu Hs Hc). rewrite H2.
      * rewrite <- V by (assumption || lia). f_equal. lia.
      * intros Hx. apply (HsX (W + B + CC * (u * e + s) + c)); unfold fblk, wblk in *; lia.
      * intros Hx. apply (HsX (W + B + CC * (u * e + s) + c)); unfold fblk, wblk in *; lia.
    + intros a Ha. apply H3, Al, HF. unfold fblk, span_of in *. lia.
    + apply HsA. auto.
    + intros m4 I1 I2 I3. apply HK. split; [|split].
      * intros be u k c Hbe Hu Hk Hc. destruct be as [|[|be]]; [| |lia].
        -- rewrite Nat.mul_0_l, Nat.add_0_r. eapply dbl_eq; [|apply H1; assumption].
           pose proof (hdbl_in u k c Hu Hk Hc).
           apply I2; intros Hx; (eapply HsX; [right|(left; exact Hx) || (right; exact Hx)]); unfold fblk; lia.
        -- rewrite Nat.mul_1_l. apply I1; assumption.
      * intros a A1 A2. unfold span_of in *. rewrite I2, H2; [apply Fr; exact A1| | | |]; unfold fblk, wblk; lia.
      * auto.
Qed.
End Tail.

(** from the filling stages *)
Lemma hval_bus rh x be u s c : u < P -> s < e ->
  hval t rh x (l * be + (e * u + s)) c = hpre m P n H (rh be) (fun j => x j c) u s.
Proof. intros Hu Hs. unfold hval. rewrite bus_div, bus_mod, us_div, bus_mod_e by assumption. reflexivity. Qed.
Lemma sets_filled1 (adr : nat -> addr) W rh x (m1 m' : mem) :
  (forall i, i < l -> adr i = W + CC * i) ->
  sets adr CC (hval t rh x) l m1 m' -> filled W 1 rh x m1 m'.
Proof.
  intros Ha (V & Fr & Al). pose proof (hB_ge t al Hal1) as HB. split; [|split; [|assumption]].
  - intros be u s c Hbe Hu Hs Hc. assert (be = 0) by lia. subst be. assert (Hi : e * u + s < l) by nia.
    rewrite <- hval_bus by assumption. rewrite <- V by lia. f_equal. rewrite Ha by lia.
    rewrite (Nat.mul_comm u e), !Nat.mul_0_r, Nat.add_0_r. reflexivity.
  - intros a Hn. apply Fr. intros i c Hi Hc E. apply Hn. rewrite Ha in E by assumption. unfold span_of.
    unfold hWw in HB. assert (CC * (i + 1) <= CC * (P * e)) by (apply Nat.mul_le_mono_l; lia).
    rewrite Nat.mul_add_distr_l in *. lia.
Qed.
Lemma sets_filled2 W rh x (m1 m' : mem) :
  sets (adr2 CC l W (W + B)) CC (hval t rh x) (l * 2) m1 m' -> filled W 2 rh x m1 m'.
Proof.
  intros (V & Fr & Al). pose proof (hB_ge t al Hal1) as HB. split; [|split; [|assumption]].
  - intros be u s c Hbe Hu Hs Hc. assert (Hi : e * u + s < l) by nia.
    rewrite <- hval_bus by assumption. destruct be as [|[|be]]; [| |lia].
    + rewrite <- V by lia. f_equal. rewrite Nat.mul_0_r. cbn [Nat.add]. rewrite adr2_lo by lia. rewrite (Nat.mul_comm u e). lia.
    + rewrite <- V by lia. f_equal. rewrite (Nat.mul_1_r l), adr2_hi. rewrite (Nat.mul_comm u e). lia.
  - intros a Hn. apply Fr. intros i c Hi Hc E. apply Hn. unfold span_of. unfold hWw in HB. unfold adr2 in E.
    destruct (Nat.ltb_spec i l).
    + assert (CC * (i + 1) <= CC * (P * e)) by (apply Nat.mul_le_mono_l; lia). rewrite Nat.mul_add_distr_l in *. lia.
    + assert (E3 : CC * (i - l + 1) <= CC * (P * e)) by (apply Nat.mul_le_mono_l; lia). rewrite Nat.mul_add_distr_l in *.
      revert E E3. generalize (CC * (i - l)). intros; lia.
Qed.

Section Pass.
Variables (f F W : nat) (x : nat -> nat -> C) (m1 : mem) (K : mem -> Prop).
Hypothesis Hq : q <> 1.
Hypothesis Hin : ainplace t = (W =? F).
Hypothesis Hx0 : forall c, c < CC -> im (x 0 c) = 0%R.
Hypothesis Hsrc : hasC CC f H x m1.
Hypothesis HaF : alloc F (2 * b) m1.
Hypothesis HaW : alloc W (2 * B) m1.
Hypothesis HfW : apart f (CC * H) W (2 * B).
Hypothesis HWF : W = F \/ apart W (2 * B) F (2 * b).

Lemma hsrc_in j c : j < H -> c < CC -> span_of f (CC * H) (f + CC * j + c).
Proof.
  intros Hj Hc. unfold span_of. assert (CC * (j + 1) <= CC * H) by (apply Nat.mul_le_mono_l; lia).
  rewrite Nat.mul_add_distr_l in *. lia.
Qed.
Lemma wadr_in N' i c : N' <= l * 2 -> i < N' -> c < CC -> span_of W (2 * B) (adr2 CC l W (W + B) i + c).
Proof.
  intros HN Hi Hc. pose proof (hB_ge t al Hal1) as HB. unfold hWw in HB. unfold span_of, adr2. destruct (Nat.ltb_spec i l).
  - assert (CC * (i + 1) <= CC * (P * e)) by (apply Nat.mul_le_mono_l; lia). rewrite Nat.mul_add_distr_l in *. lia.
  - assert (E : CC * (i - l + 1) <= CC * (P * e)) by (apply Nat.mul_le_mono_l; lia). rewrite Nat.mul_add_distr_l in *.
    revert E. generalize (CC * (i - l)). intros; lia.
Qed.
Lemma hout_l N' : N' <= l * 2 -> forall j c, j < H -> c < CC -> outs (adr2 CC l W (W + B)) CC N' (f + CC * j + c).
Proof.
  intros HN j c Hj Hc i c' Hi Hc' E. apply (HfW (f + CC * j + c)); [apply hsrc_in; assumption|].
  rewrite E. eapply wadr_in; eassumption.
Qed.
Lemma hal_l N' : N' <= l * 2 -> forall i c, i < N' -> c < CC -> m1 (adr2 CC l W (W + B) i + c) <> Unalloc.
Proof. intros HN i c Hi Hc. apply HaW. eapply wadr_in; eassumption. Qed.

(** the continuation *)
Definition tl (nb : nat) : cmd C :=
  if nb =? 1 then crfft (hcr t) W F else Seq (crfft (hcr t) W F) (crfft (hcr t) (W + B) (F + b)).
Lemma tl_ok nb rh m2 : nb = 1 \/ nb = 2 -> filled W nb rh x m1 m2 -> (forall m', passed W F nb rh x m1 m' -> K m') -> WP (tl nb) m2 K.
Proof.
  intros [-> | ->] Hf HK; cbn [tl Nat.eqb].
  - apply (tail_one F W rh x m1 m2 K); auto.
    + intros a Ha. apply HaF. unfold span_of in *. lia.
    + destruct HWF as [|Hs]; [auto|right]. intros a H1 H2. apply (Hs a); unfold span_of in *; lia.
  - apply (tail_two F W rh x m1 m2 K); auto.
Qed.

Lemma HBl : CC * l <= B.
Proof. pose proof (hB_ge t al Hal1) as HB. unfold hWw in HB. replace (CC * l) with (CC * (P * e)) by lia. exact HB. Qed.

Definition hrho (r : nat) : nat -> Z := if r =? 0 then rho2 0 (Z.of_nat (n / 2)) else rho2 (Z.of_nat r) (- Z.of_nat r).

Section P2.
Hypothesis Hp : p = 2.
Lemma l_e : l = e. Proof. rewrite (hP2 t Hq Hp). lia. Qed.
Lemma pass2_0 : n mod 2 <> 0 -> (forall m', passed W F 1 (fun _ => 0%Z) x m1 m' -> K m') ->
  WP (fill2_0 t CC f W (tl 1)) m1 K.
Proof.
  intros Hn HK. pose proof l_e as El. apply (fill2_0_ok t Hwf Hq Hp CC f W x (tl 1) m1 K).
  - exact Hsrc.
  - intros j c Hj Hc. intros i c' Hi Hc' E. apply (hout_l e ltac:(lia) j c Hj Hc i c' Hi Hc'). rewrite adr2_lo by lia. exact E.
  - intros i c Hi Hc. rewrite <- (adr2_lo CC l W (W + B) i) by lia. apply (hal_l e); [lia|assumption|assumption].
  - intros m' Hs. apply (tl_ok 1 (fun _ => 0%Z)); [auto| |assumption].
    apply (sets_filled1 (fun i => W + CC * i)); [reflexivity|]. rewrite El. exact Hs.
Qed.
Lemma pass2_h : n mod 2 = 0 -> (forall m', passed W F 2 (hrho 0) x m1 m' -> K m') ->
  WP (fill2_h t CC f W (W + B) (tl 2)) m1 K.
Proof.
  intros Hn HK. pose proof l_e as El. pose proof (h_C t Hwf) as HC. pose proof HBl as HB. rewrite El in HB.
  apply (fill2_h_ok t Hwf Hq Hp CC f W B x (tl 2) m1 K).
  - exact HB.
  - exact HC.
  - exact Hsrc.
  - rewrite <- El. apply hout_l. lia.
  - rewrite <- El. apply hal_l. lia.
  - exact Hn.
  - intros m' Hs. apply (tl_ok 2 (hrho 0)); [auto| |assumption].
    apply sets_filled2. rewrite El, Nat.mul_comm. exact Hs.
Qed.
Lemma pass2_r r : 1 <= r -> 2 * r <= n -> (forall m', passed W F 2 (hrho r) x m1 m' -> K m') ->
  WP (fill2_r t CC f W (W + B) r (tl 2)) m1 K.
Proof.
  intros Hr1 Hr2 HK. pose proof l_e as El. pose proof (h_C t Hwf) as HC. pose proof HBl as HB. rewrite El in HB.
  apply (fill2_r_ok t Hwf Hq Hp CC f W B x (tl 2) m1 K).
  - exact HB.
  - exact HC.
  - exact Hsrc.
  - rewrite <- El. apply hout_l. lia.
  - rewrite <- El. apply hal_l. lia.
  - exact Hr1.
  - exact Hr2.
  - intros m' Hs. apply (tl_ok 2 (hrho r)); [auto| |assumption].
    apply sets_filled2. rewrite El, Nat.mul_comm. unfold hrho. destruct (Nat.eqb_spec r 0); [lia|]. exact Hs.
Qed.
End P2.
Section PI.
Hypothesis Hp : 2 < p.
Lemma passI_0 : n mod 2 <> 0 -> (forall m', passed W F 1 (fun _ => 0%Z) x m1 m' -> K m') ->
  WP (fillI_0 t f W (tl 1)) m1 K.
Proof.
  intros Hn HK. pose proof (hC_1 t Hwf Hq Hp) as HC. pose proof HBl as HB. pose proof (hout_l (l * 1) ltac:(lia)) as Ho.
  pose proof (hal_l (l * 1) ltac:(lia)) as Ha. pose proof Hsrc as Hs0. unfold hasC in Hs0. rewrite HC in Ho, Ha, Hs0, HB.
  apply (fillI_0_ok t Hwf Hq Hp f W B x (tl 1) m1 K); try assumption; try lia.
  intros m' Hs. apply (tl_ok 1 (fun _ => 0%Z)); [auto| |assumption].
  apply (sets_filled1 (adr2 1 l W (W + B))); rewrite HC; [intros; apply adr2_lo; lia|].
  rewrite <- (Nat.mul_1_r l). rewrite (Nat.mul_1_r l) at 1. exact Hs.
Qed.
Lemma passI_h : n mod 2 = 0 -> (forall m', passed W F 2 (hrho 0) x m1 m' -> K m') ->
  WP (fillI_h t f W (W + B) (tl 2)) m1 K.
Proof.
  intros Hn HK. pose proof (hC_1 t Hwf Hq Hp) as HC. pose proof HBl as HB. pose proof (hout_l (l * 2) ltac:(lia)) as Ho.
  pose proof (hal_l (l * 2) ltac:(lia)) as Ha. pose proof Hsrc as Hs0. unfold hasC in Hs0. rewrite HC in Ho, Ha, Hs0, HB.
  apply (fillI_h_ok t Hwf Hq Hp f W B x (tl 2) m1 K); try assumption; try lia.
  intros m' Hs. apply (tl_ok 2 (hrho 0)); [auto| |assumption].
  apply sets_filled2. rewrite HC. exact Hs.
Qed.
Lemma passI_r r : 1 <= r < n -> (forall m', passed W F 2 (hrho r) x m1 m' -> K m') ->
  WP (fillI_r t f W (W + B) r (tl 2)) m1 K.
Proof.
  intros Hr HK. pose proof (hC_1 t Hwf Hq Hp) as HC. pose proof HBl as HB. pose proof (hout_l (l * 2) ltac:(lia)) as Ho.
  pose proof (hal_l (l * 2) ltac:(lia)) as Ha. pose proof Hsrc as Hs0. unfold hasC in Hs0. rewrite HC in Ho, Ha, Hs0, HB.
  apply (fillI_r_ok t Hwf Hq Hp f W B x (tl 2) m1 K); try assumption; try lia.
  intros m' Hs. apply (tl_ok 2 (hrho r)); [auto| |assumption].
  apply sets_filled2. rewrite HC. unfold hrho. destruct (Nat.eqb_spec r 0); [lia|]. exact Hs.
Qed.
End PI.
End Pass.
End T.
