(** Steps of a Hermitian convolution: multiplication of packed real blocks, forward and backward
    transforms with framing. *)
From Coq Require Import Reals ZArith Arith Lia List Bool.
From Verif Require Import CNum Sums Roots Mem VecModel VecProofs PadModel PadKernels PadSpec Loops
  PadLemmas PadMath PadGeom Fwd1 PadForward Fill CenModel CenMath CenGeom
  HerModel HerSpec HerMath HerFft HerGeom HerF2 HerFI HerForward HerDisp HerIndex HerB7 ConvModel HConvModel.

Lemma WP_and (c : cmd C) m Q Q' : WP c m Q -> WP c m Q' -> WP c m (fun m' => Q m' /\ Q' m').
Proof.
  intros (m1 & E1 & Q1 & U1) (m2 & E2 & Q2 & U2). exists m1. split; [assumption|]. split; [|assumption].
  split; [assumption|]. apply U1 in E2. injection E2 as E2. rewrite <- E2. assumption.
Qed.

Definition dbls (h n : nat) (u : nat -> R) (m : mem) : Prop := forall i, i < n -> dbl m h i (u i).
Definition words (h n : nat) (m : mem) : Prop := forall w, w < cq n 2 -> exists v, m (h + w) = Val v.
Definition hasx (f n : nat) (x : nat -> C) (m : mem) : Prop := forall j, j < n -> m (f + j) = Val (x j).
Lemma dbls_words h n u m : dbls h n u m -> words h n m.
Proof.
  intros Hd w Hw. pose proof (cq2 n). destruct (Hd (2 * w) ltac:(lia)) as (v & E & _).
  rewrite Nat.mul_comm, Nat.div_mul in E by lia. exists v. assumption.
Qed.
Lemma hasx_C f n x m : hasx f n x m <-> hasC 1 f n (fun j _ => x j) m.
Proof.
  split; intros H0 j.
  - intros c Hj Hc. assert (c = 0) by lia. subst c. rewrite Nat.mul_1_l, Nat.add_0_r. apply H0. assumption.
  - intros Hj. specialize (H0 j 0 Hj ltac:(lia)). rewrite Nat.mul_1_l, Nat.add_0_r in H0. assumption.
Qed.
Lemma hasx_frame f n x (m m' : mem) : hasx f n x m -> (forall a, span_of f n a -> m' a = m a) -> hasx f n x m'.
Proof. intros H0 H1 j Hj. rewrite H1; [apply H0; assumption|]. unfold span_of. lia. Qed.
Lemma dbls_frame h n u (m m' : mem) : dbls h n u m -> (forall a, span_of h (cq n 2) a -> m' a = m a) -> dbls h n u m'.
Proof.
  intros H0 H1 i Hi. apply (dbl_eq m); [|apply H0; assumption]. apply H1. unfold span_of. pose proof (cq2 n).
  assert (i / 2 < cq n 2) by (apply Nat.div_lt_upper_bound; lia). lia.
Qed.
Lemma words_frame h n (m m' : mem) : words h n m -> (forall a, span_of h (cq n 2) a -> m' a = m a) -> words h n m'.
Proof. intros H0 H1 w Hw. destruct (H0 w Hw) as [v E]. exists v. rewrite H1; [assumption|]. unfold span_of. lia. Qed.

(** realMultBinary *)
Definition vw (c : Mem.cell C) : C := match c with Val v => v | _ => C0 end.
Lemma realMult_ok (P : parr) h0 h1 n r off (m : mem) :
  P 0 = Some h0 -> P 1 = Some h1 ->
  apart h0 (cq n 2) h1 (cq n 2) -> words h0 n m -> words h1 n m ->
  WP (realMultBinary P n r off) m (fun m' =>
    (forall u v, dbls h0 n u m -> dbls h1 n v m -> dbls h0 n (fun i => u i * v i)%R m') /\
    words h0 n m' /\ only (span_of h0 (cq n 2)) m m').
Proof.
  intros E0 E1 Hd H0 H1. unfold realMultBinary, pget. rewrite E0, E1.
  set (X := fun w => vw (m (h0 + w))). set (Y := fun w => vw (m (h1 + w))).
  assert (HX : forall w, w < cq n 2 -> m (h0 + w) = Val (X w)). { intros w Hw. unfold X. destruct (H0 w Hw) as [v ->]. reflexivity. }
  assert (HY : forall w, w < cq n 2 -> m (h1 + w) = Val (Y w)). { intros w Hw. unfold Y. destruct (H1 w Hw) as [v ->]. reflexivity. }
  apply WP_map1 with (dst := fun w => h0 + w)
    (g := fun w => mkC (re (X w) * re (Y w)) (if 2 * w + 1 <? n then (im (X w) * im (Y w))%R else im (X w))); unfold rng.
  - intros; lia.
  - intros s Hs. cbn [wp]. split; [right; reflexivity|]. exists (X s). split; [apply HX; lia|]. split.
    + left. intros s' Hs' E'. apply (Hd (h1 + s)); unfold span_of; lia.
    + exists (Y s). split; [apply HY; lia|]. split; [reflexivity|]. split; [rewrite HX by lia; discriminate|apply upd_eq].
  - intros m' HV HF Ha. split; [|split; [|split]].
    + intros u v Hu Hv i Hi. pose proof (cq2 n) as Hn. assert (Hw : i / 2 < cq n 2) by (apply Nat.div_lt_upper_bound; lia).
      destruct (Hu i Hi) as (x & Ex & Hx). destruct (Hv i Hi) as (y & Ey & Hy).
      pose proof (Nat.div_mod i 2 ltac:(lia)) as Ei. unfold dbl. assert (Hm2 : i mod 2 < 2) by (apply Nat.mod_upper_bound; lia).
      assert (Ev : Nat.even i = true -> i mod 2 = 0). { intros E. apply Nat.even_spec in E. destruct E as [z E]. rewrite E, Nat.mul_comm. apply Nat.mod_mul. lia. }
      assert (Eo : Nat.even i = false -> i mod 2 = 1). { intros E. destruct (Nat.eq_dec (i mod 2) 0) as [Ez|]; [|lia]. exfalso.
        assert (Et : Nat.even i = true) by (apply Nat.even_spec; exists (i / 2); lia). congruence. }
      set (k := i / 2) in *. clearbody k.
      rewrite HX in Ex by assumption. rewrite HY in Ey by assumption. injection Ex as Ex. injection Ey as Ey.
      eexists. split; [apply HV; lia|]. rewrite Ex, Ey.
      destruct (Nat.even i) eqn:Ez; cbn [re im]; [congruence|]. specialize (Eo eq_refl).
      replace (2 * k + 1 <? n) with true by (symmetry; apply Nat.ltb_lt; lia). congruence.
    + intros w Hw. eexists. apply HV. lia.
    + intros a Ha'. apply HF. intros s Hs <-. apply Ha'. unfold span_of. lia.
    + assumption.
Qed.

(** a map over one block *)
Lemma map_ok ga ha L fn Y (m0 : mem) : ga = ha \/ apart ga L ha L -> hasx ha L Y m0 -> alloc ga L m0 ->
  WP (Do (pForR 0 L (fun i => x <- ha + i ;; ga + i ::= fn x ;; Ret))) m0 (fun m' =>
    hasx ga L (fun j => fn (Y j)) m' /\ only (span_of ga L) m0 m').
Proof.
  intros Hgh HY Hga.
  apply WP_Do with (W := fun a => exists s, rng 0 L s /\ ga + s = a)
    (Q := fun mm' => forall s, rng 0 L s -> mm' (ga + s) = Val (fn (Y s))).
  { intros ma mb Hm HQ s Hs. rewrite <- Hm; [apply HQ; assumption|]. exists s. auto. }
  { apply wp_for with (W := fun s => eq (ga + s)); unfold rng.
    - intros s s' a Hs Hs' E1 E2. lia.
    - intros s a Hs <-. intros HN. apply HN. exists s. unfold rng. auto.
    - intros s Hs. apply local_one.
    - intros s Hs. cbn [wp]. split.
      + destruct Hgh as [Hgh|Hgh]; [right; congruence|left].
        intros (s' & Hs' & E). unfold rng in Hs'. apply (Hgh (ha + s)); unfold span_of; lia.
      + exists (Y s). split; [apply HY; lia|]. split; [reflexivity|].
        split; [apply Hga; unfold span_of; lia|apply upd_eq]. }
  intros m' HQ HF Ha. split; [|split].
  - intros j Hj. apply HQ. unfold rng. lia.
  - intros a Ha'. apply HF. intros (s & Hs & <-). unfold rng in Hs. apply Ha'. unfold span_of. lia.
  - assumption.
Qed.

Section T.
Variables (al : nat) (t : pad).
Hypothesis Hwf : hwf t.
Hypothesis Hal1 : 1 <= al.
Hypothesis HC : aC t = 1.
Notation m := (am t). Notation q := (kq t). Notation n := (kn t). Notation M := (kM t).
Notation H := (hH t). Notation N := (hnoutputs t). Notation b := (hb al t).
Notation OS := (houtputSize al t). Notation WS := (hworkSizeW al t).

Lemma N_w : cq N 2 <= b.
Proof. pose proof (hb_ge t Hwf al Hal1) as E. unfold hFw in E. rewrite HC, Nat.mul_1_l, <- (hno_P t) in E. assumption. Qed.
Lemma N_pos : 1 <= N.
Proof.
  rewrite (hno_P t). pose proof (h_m t Hwf). pose proof (hP_pos t Hwf). nia.
Qed.
Lemma b_pos : 1 <= b. Proof. pose proof N_w. pose proof N_pos. pose proof (cq2 N). lia. Qed.
Lemma OS_q : q <> 1 -> OS = 2 * b. Proof. intros Hq. unfold houtputSize. rewrite (hD_2 t Hwf Hq). lia. Qed.
Lemma OS_pos : 1 <= OS.
Proof. unfold houtputSize. assert (1 <= aD t) by apply Hwf. pose proof b_pos. nia. Qed.
Lemma OS_b : b <= OS.
Proof. unfold houtputSize. assert (1 <= aD t) by apply Hwf. pose proof b_pos. nia. Qed.
Lemma WS_pos : ainplace t = false -> 1 <= WS.
Proof.
  intros E. unfold hworkSizeW. rewrite E. assert (1 <= aD t) by apply Hwf.
  assert (1 <= hB al t).
  { pose proof (hB_ge t al Hal1) as E1. pose proof (hFw_Ww t Hwf) as E2. unfold hFw in E2.
    rewrite HC, Nat.mul_1_l, <- (hno_P t) in E2. pose proof N_pos. pose proof (cq2 N). lia. }
  nia.
Qed.
Lemma H_pos : 1 <= H. Proof. pose proof (hH_L t). assert (1 <= aL t) by apply Hwf. lia. Qed.

(** the work array argument of a transform between f and F *)
Definition Wfor (W : option addr) (w : addr) : Prop := W = if ainplace t then None else Some w.
Lemma W_eq F W w : Wfor W w -> apart F OS w WS -> ainplace t = (getW F W =? F).
Proof.
  intros E Hd. unfold Wfor in E. rewrite E. destruct (ainplace t) eqn:Ei; cbn [getW].
  - symmetry. apply Nat.eqb_refl.
  - symmetry. apply Nat.eqb_neq. intros E'. apply (Hd F); unfold span_of; [pose proof OS_pos; lia|].
    pose proof (WS_pos Ei). lia.
Qed.
Lemma W_in F W w a : Wfor W w -> span_of (getW F W) WS a -> span_of w WS a.
Proof.
  unfold Wfor. intros E. rewrite E. destruct (ainplace t) eqn:Ei; cbn [getW]; [|auto].
  unfold hworkSizeW, span_of. rewrite Ei. lia.
Qed.
Lemma W_sep F W w : Wfor W w -> apart F OS w WS -> getW F W = F \/ apart (getW F W) WS F OS.
Proof.
  intros E Hd. unfold Wfor in E. rewrite E. destruct (ainplace t) eqn:Ei; cbn [getW]; [left; reflexivity|right].
  intros a H1 H2. apply (Hd a); assumption.
Qed.

Definition xr (x : nat -> C) (r be i : nat) : R := re (hdft M H x (hindex t r (be * N + i))).
Definition spec_F (F : addr) (x : nat -> C) (r : nat) (m' : mem) : Prop :=
  forall be, be < hblocks t r -> dbls (F + be * b) N (xr x r be) m'.
Definition ready (F : addr) (mm : mem) : Prop := forall be, be < 2 -> words (F + be * b) N mm.

Lemma fwd f F W w r x (m0 : mem) : r < hR t -> Wfor W w ->
  apart f H F OS -> apart f H w WS -> apart F OS w WS -> alloc F OS m0 -> alloc w WS m0 ->
  hasx f H x m0 -> im (x 0) = 0%R ->
  WP (hforward al t f F r W) m0 (fun m' =>
    spec_F F x r m' /\ (q <> 1 -> hblocks t r = 2 \/ words (F + b) N m0 -> ready F m') /\
    only (fun a => span_of F OS a \/ span_of w WS a) m0 m').
Proof.
  intros Hr HW Hd1 Hd2 Hd3 Ha1 Ha2 Hx Hx0.
  pose proof (W_eq F W w HW Hd3) as Hin. pose proof (W_sep F W w HW Hd3) as Hsep.
  assert (HaW : alloc (getW F W) WS m0) by (intros a Ha; apply Ha2; eapply W_in; eassumption).
  assert (HdW : apart f H (getW F W) WS) by (intros a H1 H2; apply (Hd2 a H1); eapply W_in; eassumption).
  assert (HF : WP (hforward al t f F r W) m0 (fun m' => spec_F F x r m' /\
    only (fun a => span_of F OS a \/ span_of w WS a) m0 m')).
  { eapply WP_mono; [|apply (hforward_b al t Hwf Hal1 f F W r (fun j _ => x j) m0)]; rewrite ?HC, ?Nat.mul_1_l; try assumption.
    - intros m' (V & _ & O). split.
      + intros be Hbe i Hi. specialize (V be i 0 Hbe Hi ltac:(lia)). cbv zeta in V. rewrite Nat.mul_1_l, Nat.add_0_r in V. apply V.
      + destruct O as [O1 O2]. split; [|assumption]. intros a Ha. apply O1. intros [Hx1|Hx1]; apply Ha; [left; assumption|right; eapply W_in; eassumption].
    - apply hasx_C. assumption.
    - intros c _. assumption. }
  destruct (Nat.eq_dec q 1) as [Hq|Hq].
  { eapply WP_mono; [|exact HF]. intros m' [V O]. split; [assumption|]. split; [intros; contradiction|assumption]. }
  pose proof (OS_q Hq) as EOS. pose proof N_w as Nw.
  assert (EWS : ainplace t = false -> WS = 2 * hB al t). { intros Ei. unfold hworkSizeW. rewrite Ei, (hD_2 t Hwf Hq). lia. }
  assert (HP : WP (hforward al t f F r W) m0 (fun m' => passed al t (getW F W) F (hblocks t r) (hrho t r) (fun j _ => x j) m0 m')).
  { apply (hpass_q al t Hwf Hal1 Hq f F W r (fun j _ => x j) m0); rewrite ?HC, ?Nat.mul_1_l; try assumption.
    - intros c _. assumption.
    - apply hasx_C. assumption.
    - rewrite <- EOS. assumption.
    - destruct (ainplace t) eqn:Ei.
      + unfold Wfor in HW. rewrite Ei in HW. rewrite HW. cbn [getW]. rewrite <- (hb_inplace t al Ei), <- EOS. assumption.
      + rewrite <- EWS by reflexivity. assumption.
    - destruct (ainplace t) eqn:Ei.
      + unfold Wfor in HW. rewrite Ei in HW. rewrite HW. cbn [getW]. rewrite <- (hb_inplace t al Ei), <- EOS. assumption.
      + rewrite <- EWS by reflexivity. assumption.
    - destruct Hsep as [E|E]; [left; assumption|]. rewrite <- EOS.
      destruct (ainplace t) eqn:Ei; [left; symmetry in Hin; apply Nat.eqb_eq; assumption|right].
      rewrite <- EWS by reflexivity. assumption.
    - intros m' Hm'. exact Hm'. }
  eapply WP_mono; [|exact (WP_and _ _ _ _ HF HP)]. intros m' [[V O] (_ & Fr & _)]. split; [assumption|]. split; [|assumption].
  intros _ Hc be Hbe. destruct (Nat.eq_dec be 0) as [->|Hb0].
  { apply (dbls_words _ _ (xr x r 0)). apply V. rewrite (hblocks_q t Hwf Hq). destruct (_ && _); lia. }
  assert (be = 1) by lia. subst be. rewrite Nat.mul_1_l in *.
  rewrite (hblocks_q t Hwf Hq) in Hc, Fr. destruct ((r =? 0) && negb (n mod 2 =? 0)) eqn:Eb.
  - destruct Hc as [Hc|Hc]; [discriminate|]. apply (words_frame _ _ m0); [assumption|]. intros a Ha. apply Fr.
    + intros Hs. destruct (ainplace t) eqn:Ei.
      * unfold Wfor in HW. rewrite Ei in HW. rewrite HW in Hs. cbn [getW] in Hs. rewrite <- (hb_inplace t al Ei) in Hs. unfold span_of in *. lia.
      * unfold Wfor in HW. rewrite Ei in HW. rewrite HW in Hs. cbn [getW] in Hs. apply (Hd3 a); [unfold span_of in *; lia|].
        rewrite EWS by reflexivity. unfold span_of in *. lia.
    + unfold span_of in *. lia.
  - apply (dbls_words _ _ (xr x r 1)). specialize (V 1). rewrite Nat.mul_1_l in V. apply V. rewrite (hblocks_q t Hwf Hq), Eb. lia.
Qed.
End T.
