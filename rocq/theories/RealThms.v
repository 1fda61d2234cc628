(** The theorems about fftPadReal in the form the property file uses. *)
From Coq Require Import Reals ZArith Arith Lia Lra List Bool Permutation.
From Verif Require Import CNum Sums Roots Mem VecModel PadModel PadKernels PadSpec PadBridge CenModel HerModel RealModel RealMath RealGeom RLoops RFft RealSpec RFwd RBwd RealFreq RealProofs.
Import ListNotations.

Section T.
Variable t : pad.
Hypothesis Hwf : rwf t.
Notation L := (aL t).  Notation m := (am t).  Notation D := (aD t).
Notation q := (gq t).  Notation p := (gp t).  Notation e := (re_ t).
Notation M := (gM t). Notation N := (routputSize t).

Lemma wsW : ainplace t = false -> rworkSizeW t = N.
Proof. intros E. unfold rworkSizeW. rewrite E. reflexivity. Qed.
Section B.
Variables (F : nat) (W : option addr).
Notation W0 := (getW F W).
Hypothesis Hip : ainplace t = (W0 =? F).
Lemma wcase : (ainplace t = true /\ W0 = F) \/ (ainplace t = false /\ W0 <> F /\ rworkSizeW t = N).
Proof.
  destruct (Nat.eqb_spec W0 F) as [E|E]; [left; auto|right]. split; [assumption|]. split; [assumption|]. apply wsW. assumption.
Qed.
Lemma EWW : W0 = getW F (if ainplace t then None else Some W0).
Proof. rewrite Hip. destruct (Nat.eqb_spec W0 F) as [E|]; [exact E|reflexivity]. Qed.
Lemma ap_W g n : 1 <= n -> dapart g n F (2 * N) -> dapart g n W0 (2 * rworkSizeW t) -> apart2 g n F (2 * N) /\ apart2 g n W0 (2 * N).
Proof.
  intros Hn H1 H2. pose proof (N_pos t Hwf). split; [apply dapart_apart2; [assumption|lia|assumption]|].
  destruct wcase as [(_ & E)|(_ & _ & E)]; [rewrite E; apply dapart_apart2; [assumption|lia|assumption]|].
  rewrite E in H2. apply dapart_apart2; [assumption|lia|assumption].
Qed.
Lemma ap_WF : (W0 = F \/ dapart W0 (2 * rworkSizeW t) F (2 * N)) -> W0 = F \/ apart2 W0 (2 * N) F (2 * N).
Proof.
  intros H. pose proof (N_pos t Hwf). destruct wcase as [(_ & E)|(_ & Hne & E)]; [left; exact E|]. destruct H as [H|H]; [left; exact H|right].
  rewrite E in H. apply dapart_apart2; [lia|lia|assumption].
Qed.
Lemma al_W mm : dalloc F (2 * N) mm -> dalloc W0 (2 * rworkSizeW t) mm ->
  (forall a, rspan F (2 * N) a -> mm a <> Unalloc) /\ (forall a, rspan W0 (2 * N) a -> mm a <> Unalloc).
Proof.
  intros H1 H2. split; [exact H1|]. destruct wcase as [(_ & E)|(_ & _ & E)]; [rewrite E; exact H1|rewrite E in H2; exact H2].
Qed.
Lemma fr_W (P : nat -> Prop) mm m' :
  (forall a, ~ P a -> ~ rspan F (2 * N) a -> ~ rspan W0 (2 * N) a -> m' a = mm a) -> (forall a, mm a <> Unalloc -> m' a <> Unalloc) ->
  ronly (fun a => P a \/ dspan F (2 * N) a \/ dspan W0 (2 * rworkSizeW t) a) mm m'.
Proof.
  intros H1 H2. split; [|exact H2]. intros a Ha. apply H1; [tauto|intros Hc; apply Ha; right; left; exact Hc|].
  intros Hc. apply Ha. destruct wcase as [(_ & E)|(_ & _ & E)]; [right; left; rewrite E in Hc; exact Hc|right; right; rewrite E; exact Hc].
Qed.

Lemma rforward_b f r (x : nat -> R) m0 : rpass t r ->
  reals f L x m0 -> dalloc F (2 * N) m0 -> dalloc W0 (2 * rworkSizeW t) m0 ->
  dapart f L F (2 * N) -> dapart f L W0 (2 * rworkSizeW t) ->
  (W0 = F \/ dapart W0 (2 * rworkSizeW t) F (2 * N)) ->
  rpadded t W0 m0 ->
  WP (rforward t f F r W) m0 (fun m' =>
    complexes F (rnoutputs t r) (fun i => rdft M L x (rfreq M q m r i)) m' /\
    reals f L x m' /\
    ronly (fun a => dspan F (2 * N) a \/ dspan W0 (2 * rworkSizeW t) a) m0 m' /\
    rpadded t W0 m').
Proof.
  intros Hr Hx HaF HaW H1 H2 H3 Hpd. pose proof (r_L t Hwf) as HL. rewrite (rf_W t f F r W _ EWW).
  destruct (ap_W f L HL H1 H2) as [A1 A2]. pose proof (ap_WF H3) as A3. destruct (al_W m0 HaF HaW) as [A4 A5].
  eapply WP_mono; [|apply (rforward_ok t Hwf f F W0 x m0 Hip A1 A2 A3 Hx A4 A5 r Hr (fun _ => Hpd))].
  intros m' (V & Fr & Al & Pd). split; [|split; [|split]].
  - intros i Hi. rewrite <- (freq_bridge t Hwf r i x Hr Hi). apply V. assumption.
  - intros k Hk. rewrite Fr by (unfold rspan, apart2 in *; lia). apply Hx. assumption.
  - destruct (fr_W (fun _ => False) m0 m' (fun a _ => Fr a) Al) as [B1 B2]. split; [|exact B2]. intros a Ha. apply B1. tauto.
  - destruct wcase as [(E & _)|(_ & E & _)]; [intros _ E2; congruence|apply Pd; assumption].
Qed.
Lemma rbackward_b f r (y : nat -> C) (acc : nat -> R) m0 : rpass t r ->
  complexes F (rnoutputs t r) y m0 ->
  (forall i, i < rnoutputs t r -> (2 * rfreq M q m r i) mod M = 0 -> im (y i) = 0%R) ->
  (r <> 0 -> reals f L acc m0) ->
  dalloc f L m0 -> dalloc F (2 * N) m0 -> dalloc W0 (2 * rworkSizeW t) m0 ->
  dapart f L F (2 * N) -> dapart f L W0 (2 * rworkSizeW t) ->
  (W0 = F \/ dapart W0 (2 * rworkSizeW t) F (2 * N)) ->
  WP (rbackward t F f r W) m0 (fun m' =>
    reals f L (fun j => (if r =? 0 then 0 else acc j) + rpartial_inverse M (rnoutputs t r) (rfreq M q m r) y j)%R m' /\
    ronly (fun a => dspan f L a \/ dspan F (2 * N) a \/ dspan W0 (2 * rworkSizeW t) a) m0 m').
Proof.
  intros Hr Hy Him Hacc Haf HaF HaW H1 H2 H3. pose proof (r_L t Hwf) as HL. rewrite (rb_W t f F r W _ EWW).
  destruct (ap_W f L HL H1 H2) as [A1 A2]. pose proof (ap_WF H3) as A3. destruct (al_W m0 HaF HaW) as [A4 A5].
  pose proof (r_m t Hwf) as Hm. pose proof (Nat.div_mod m 2 ltac:(lia)) as Hdm. pose proof (Nat.mod_upper_bound m 2 ltac:(lia)) as Hmb.
  assert (Him' : r = 0 -> forall s, s = 0 \/ 2 * s = m -> im (y s) = 0%R).
  { intros -> s Hs. assert (He : s < e) by (unfold re_; lia). apply Him; [rewrite r_nout0; assumption|]. apply Nat.eqb_eq. rewrite (self_0 t Hwf) by assumption.
    apply Nat.eqb_eq. destruct Hs as [-> | ->]; [rewrite Nat.mul_0_r; apply Nat.mod_0_l; lia|apply Nat.mod_same; lia]. }
  assert (Hacc' : forall j, j < L -> m0 (f + j) = Val (acc j) \/ r = 0).
  { intros j Hj. destruct (Nat.eq_dec r 0); [right; assumption|left; apply Hacc; assumption]. }
  destruct (Nat.eq_dec r 0) as [E|E].
  - (* pass 0 needs nothing about acc *)
    subst r.
    assert (Hgo : WP (rbackward t F f 0 (if ainplace t then None else Some W0)) m0 (bpost t f F W0 y acc m0 0)).
    { unfold rbackward. pose proof (eq_sym EWW) as EB. destruct (Nat.eqb_spec q 1) as [Hq1|Hq1].
      - unfold rbackwardExplicit. rewrite EB. cbv zeta.
        apply (back1_0 t Hwf f F W0 y acc m0 Hip A1 A2 A3 A5 Haf); [apply (r_qL t Hwf Hq1)|exact Hy|apply Him'; reflexivity].
      - destruct (r_p t Hwf) as [(Hp & HLm)|(Hp & HmL & HL2)]; rewrite Hp; cbn [Nat.eqb].
        + unfold rbackward1. rewrite EB. cbv zeta. cbn [Nat.eqb].
          apply (back1_0 t Hwf f F W0 y acc m0 Hip A1 A2 A3 A5 Haf); [assumption|exact Hy|apply Him'; reflexivity].
        + unfold rbackward2. rewrite EB. cbv zeta. cbn [Nat.eqb].
          apply (back2_0 t Hwf f F W0 y acc m0 Hip A1 A2 A3 A5 Haf); [assumption|assumption|exact Hy|apply Him'; reflexivity]. }
    eapply WP_mono; [|exact Hgo]. intros m' (V & Fr & Al). split.
    + intros j Hj. rewrite V by assumption. rewrite (share_bridge t Hwf) by assumption. reflexivity.
    + apply fr_W; assumption.
  - eapply WP_mono; [|apply (rbackward_ok t Hwf f F W0 y acc m0 Hip A1 A2 A3 A5 Haf (Hacc E) r Hr Hy Him')].
    intros m' (V & Fr & Al). split.
    + intros j Hj. rewrite V by assumption. rewrite (share_bridge t Hwf) by assumption. reflexivity.
    + apply fr_W; assumption.
Qed.
End B.
Lemma rPad_b W m0 : dalloc W (2 * rworkSizeW t) m0 ->
  WP (rPad t W) m0 (fun m' => rpadded t W m' /\ ronly (dspan W (2 * rworkSizeW t)) m0 m').
Proof.
  intros HaW. pose proof (r_D t Hwf) as HD. pose proof (r_m t Hwf) as Hm. unfold rPad, rrepad.
  destruct (Nat.ltb_spec 1 q) as [Hq|Hq]; [|apply WP_skip; split; [intros _ _ H; pose proof (r_q1 t Hwf); lia|split; auto]].
  destruct (Nat.eqb_spec p 1) as [Hp|Hp]; [|apply WP_skip; split; [intros H; contradiction|split; auto]].
  destruct (Bool.bool_dec (ainplace t) true) as [Ei|Ei]; [rewrite Ei; apply WP_skip; split; [intros _ H; congruence|split; auto]|].
  apply Bool.not_true_is_false in Ei. rewrite Ei. cbn [negb andb].
  assert (Hpw : padw t <= m) by (unfold padw; destruct (q =? 2); [apply Nat.div_le_upper_bound; lia|lia]).
  destruct (Nat.ltb_spec L m) as [HL|HL]; [|apply WP_skip; split; [intros _ _ _ d s Hd Hs; lia|split; auto]].
  cbn [andb]. unfold rpadSingle. fold (padw t). rewrite Hp, Nat.mul_1_r. rewrite (wsW Ei) in HaW |- *.
  assert (HN : padw t * D <= N).
  { unfold padw. destruct (Nat.eqb_spec q 2) as [E|E].
    - destruct (q2_geo t Hwf E) as (_ & -> & _). pose proof (r_osz t Hwf) as Ho. unfold re_ in Ho. lia.
    - rewrite (r_oszm t Hwf) by lia. lia. }
  set (w := padw t) in *.
  eapply WP_mono; [|apply (WP_cfor R D _ (fun d mm => (forall d' s, d' < d -> L <= s < w -> mm (W + 2 * (w * d' + s)) = Val 0%R /\ mm (W + 2 * (w * d' + s) + 1) = Val 0%R) /\ ronly (dspan W (2 * N)) m0 mm))].
  - intros m' (V & Fr). split; [|exact Fr]. intros _ _ _ d s Hd Hs. apply V; assumption.
  - split; [intros; lia|split; auto].
  - intros d mm Hd (V & Fr & Al). assert (Hwd : w * d + w <= w * D) by nia.
    apply WP_rw with (out := fun s => [(W + 2 * (w * d) + 2 * s, 0%R); (W + 2 * (w * d) + 2 * s + 1, 0%R)]).
    + linj.
    + intros s Hs. unfold rng in Hs. unfold wrC. lwr; [apply Al, HaW; unfold dspan; lia|]. lwr; [apply Al, HaW; unfold dspan; lia|]. lend.
    + intros m' HV HF Hal. split; [|split].
      * intros d' s Hd' Hs. destruct (Nat.eq_dec d' d) as [->|Hne].
        -- specialize (HV s ltac:(unfold rng; lia)). apply (proj1 (wrote_2 m' (W + 2 * (w * d)) s C0)) in HV. destruct HV as [E1 E2].
           replace (W + 2 * (w * d + s)) with (W + 2 * (w * d) + 2 * s) by lia. split; assumption.
        -- assert (Hlt : w * d' + s < w * d) by nia. 
           rewrite !HF by (intros (s' & ? & Hs' & Hi); fsts Hi; unfold rng in *; lia). apply V; lia.
      * intros a Ha. rewrite HF; [apply Fr; assumption|]. intros (s' & ? & Hs' & Hi); fsts Hi; unfold rng, dspan in *; lia.
      * intros a Ha. apply Hal, Al, Ha.
Qed.

Lemma rtrace_tl : exists l, rtrace t = 0 :: l /\ forall r, In r l -> r <> 0 /\ rpass t r.
Proof.
  assert (HP := rtrace_pass t Hwf). revert HP. unfold rtrace. destruct (Nat.eqb_spec q 1) as [E|E]; [|destruct (Nat.eqb_spec q 2) as [E2|E2]]; intros HP.
  - exists []. split; [reflexivity|]. intros r [].
  - exists [1]. split; [reflexivity|]. intros r [<-|[]]. split; [lia|]. apply HP. right. left. reflexivity.
  - eexists. split; [reflexivity|]. intros r Hin. split; [|apply HP; right; exact Hin]. destruct Hin as [<-|Hin]; [lia|].
    pose proof (r_q1 t Hwf). pose proof (r_D0 t Hwf). assert (H3 : 3 <= q) by lia. pose proof (k_val t Hwf H3) as Ek.
    assert (G : forall k r0, 2 <= r0 -> In r (chain t r0 k) -> r <> 0).
    { induction k as [|k IH]; intros r0 Hr0 Hi; cbn [chain] in Hi; [pose proof (tail_pass t Hwf r E Hi); lia|]. destruct Hi as [<-|Hi]; [lia|]. apply (IH (r0 + D)); [lia|assumption]. }
    apply (G _ (1 + rD0 t)) in Hin; [assumption|lia].
Qed.

Section RT.
Variables (f F h : nat) (W : option addr) (x : nat -> R) (m0 : mem).
Notation W0 := (getW F W).
Hypothesis Hip : ainplace t = (W0 =? F).
Hypothesis Hx : reals f L x m0.
Hypothesis HaF : dalloc F (2 * N) m0.
Hypothesis HaW : dalloc W0 (2 * rworkSizeW t) m0.
Hypothesis Hah : dalloc h L m0.
Hypothesis HfF : dapart f L F (2 * N).
Hypothesis HfW : dapart f L W0 (2 * rworkSizeW t).
Hypothesis HhF : dapart h L F (2 * N).
Hypothesis HhW : dapart h L W0 (2 * rworkSizeW t).
Hypothesis Hfh : dapart f L h L.
Hypothesis HWF : W0 = F \/ dapart W0 (2 * rworkSizeW t) F (2 * N).
Definition Spans (a : nat) : Prop := dspan F (2 * N) a \/ dspan W0 (2 * rworkSizeW t) a \/ dspan h L a.
Definition body (r : nat) : rcmd := Seq (rPad t W0) (Seq (rforward t f F r W) (rbackward t F h r W)).
Definition share (r j : nat) : R := rpartial_inverse M (rnoutputs t r) (rfreq M q m r) (fun i => rdft M L x (rfreq M q m r i)) j.
Definition RI (acc : nat -> R) (mm : mem) : Prop := reals h L acc mm /\ reals f L x mm /\ ronly Spans m0 mm.
Lemma ronly_trans (P Q S : nat -> Prop) (a b c : mem) : (forall z, P z -> S z) -> (forall z, Q z -> S z) -> ronly P a b -> ronly Q b c -> ronly S a c.
Proof. intros H1 H2 [A1 A2] [B1 B2]. split; [|auto]. intros z Hz. rewrite B1, A1 by auto. reflexivity. Qed.
Lemma pass_ok r acc mm : rpass t r -> reals f L x mm -> ronly Spans m0 mm -> (r <> 0 -> reals h L acc mm) ->
  WP (body r) mm (RI (fun j => (if r =? 0 then 0 else acc j) + share r j)%R).
Proof.
  intros Hr Hf Ho Hacc. pose proof Ho as [Ho1 Ho2]. unfold body. apply WP_seq.
  eapply WP_mono; [|apply rPad_b; intros a Ha; apply Ho2, HaW, Ha]. intros m1 (Hpd & P1 & P2).
  apply WP_seq.
  eapply WP_mono; [|apply (rforward_b F W Hip f r x m1 Hr)].
  - intros m2 (V & Vf & (Q1 & Q2) & _).
    eapply WP_mono; [|apply (rbackward_b F W Hip h r (fun i => rdft M L x (rfreq M q m r i)) acc m2 Hr V)].
    + intros m3 (V3 & (R1 & R2)). split; [exact V3|]. split.
      * intros k Hk. assert (Hfk : dspan f L (f + k)) by (unfold dspan; lia). rewrite R1; [apply Vf; assumption|].
        intros [Hc|[Hc|Hc]]; [exact (Hfh _ Hfk Hc)|exact (HfF _ Hfk Hc)|exact (HfW _ Hfk Hc)].
      * eapply (ronly_trans Spans Spans); [auto|auto|exact Ho|]. split.
        -- intros a Ha. unfold Spans in Ha. rewrite R1, Q1, P1 by tauto. reflexivity.
        -- intros a Ha. apply R2, Q2, P2, Ha.
    + intros i Hi E. apply (rdft_self t); [apply (freq_lt t Hwf); assumption|assumption].
    + intros Hr0. intros k Hk. assert (Hhk : dspan h L (h + k)) by (unfold dspan; lia).
      rewrite Q1, P1; [apply Hacc; assumption|intros Hc; exact (HhW _ Hhk Hc)|intros [Hc|Hc]; [exact (HhF _ Hhk Hc)|exact (HhW _ Hhk Hc)]].
    + intros a Ha. apply Q2, P2, Ho2, Hah, Ha.
    + intros a Ha. apply Q2, P2, Ho2, HaF, Ha.
    + intros a Ha. apply Q2, P2, Ho2, HaW, Ha.
    + assumption.
    + assumption.
    + assumption.
  - intros k Hk. assert (Hfk : dspan f L (f + k)) by (unfold dspan; lia). rewrite P1; [apply Hf; assumption|]. intros Hc. exact (HfW _ Hfk Hc).
  - intros a Ha. apply P2, Ho2, HaF, Ha.
  - intros a Ha. apply P2, Ho2, HaW, Ha.
  - assumption.
  - assumption.
  - assumption.
  - assumption.
Qed.
Lemma loop_ok l : (forall r, In r l -> r <> 0 /\ rpass t r) -> forall acc mm, RI acc mm ->
  WP (rloop l body) mm (RI (fun j => acc j + Rlist l (fun r => share r j))%R).
Proof.
  induction l as [|r l IH]; intros Hl acc mm (I1 & I2 & I3); cbn [rloop].
  - apply WP_skip. split; [|split; assumption]. intros k Hk. rewrite I1 by assumption. f_equal. cbn. ring.
  - destruct (Hl r (or_introl eq_refl)) as [Hr0 Hr]. apply WP_seq.
    eapply WP_mono; [|apply (pass_ok r acc mm Hr I2 I3 (fun _ => I1))]. intros m1 HI.
    destruct (Nat.eqb_spec r 0) as [E|E]; [contradiction|].
    eapply WP_mono; [|apply (IH (fun r' Hr' => Hl r' (or_intror Hr')) _ _ HI)].
    intros m2 (J1 & J2 & J3). split; [|split; assumption]. intros k Hk. rewrite J1 by assumption. f_equal. cbn [Rlist fold_right]. unfold Rlist. ring.
Qed.
Lemma roundtrip_b rs : loop_trace (rR t) (rincrement t) 0 rs ->
  WP (rloop rs body) m0 (fun m' => reals h L (fun j => INR M * x j)%R m' /\ reals f L x m' /\ ronly Spans m0 m').
Proof.
  intros HT. apply (rtrace_unique t Hwf) in HT. destruct rtrace_tl as (l & El & Hl).
  rewrite HT, El. cbn [rloop]. apply WP_seq.
  eapply WP_mono; [|apply (pass_ok 0 (fun _ => 0%R) m0 (or_introl eq_refl) Hx)].
  - intros m1 HI. cbn [Nat.eqb] in HI. eapply WP_mono; [|apply (loop_ok l Hl _ _ HI)].
    intros m2 (J1 & J2 & J3). split; [|split; assumption]. intros j Hj. rewrite J1 by assumption. f_equal.
    rewrite <- (rdft_inverse t Hwf x j Hj), <- (passes_sum t Hwf (rdft M L x) j (rdft_sym t x)). rewrite El. cbn [Rlist fold_right]. unfold share, Rlist. ring.
  - split; auto.
  - intros Hc. contradiction.
Qed.
End RT.
End T.
