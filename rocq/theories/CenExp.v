(** Centered transforms with explicit zero padding (q=1). *)
From Coq Require Import Reals ZArith Arith Lia List Bool.
From Verif Require Import CNum Sums Roots Mem VecModel VecProofs PadModel PadKernels Loops
  PadLemmas PadMath PadGeom Fwd1 FwdMany FwdAll Bwd1 BwdMany BwdAll PadForward Fill CenModel CenMath CenGeom CenFft CenPass CenStage.

(** inverse transform of y_0..y_{M-1} at position j, x_{L/2} being at the origin *)
Definition invc (M L : nat) (y : nat -> C) (j : nat) : C :=
  Csum M (fun k => Cmul (y k) (zeta M (- ((Z.of_nat j - Z.of_nat (L / 2)) * Z.of_nat k)))).

Definition csgn (i : nat) : C := if Nat.odd i then Copp C1 else C1.
Lemma csgn_zeta h i : 1 <= h -> csgn i = zeta (h * 2) (- (Z.of_nat h * Z.of_nat i)).
Proof.
  intros Hh. rewrite <- Z.mul_opp_r, zeta_cancel by lia.
  unfold csgn. destruct (Nat.odd i) eqn:E.
  - apply Nat.odd_spec in E. destruct E as [k ->]. rewrite <- zeta_2_1. apply zeta_mod_eq; [lia|].
    replace (- Z.of_nat (2 * k + 1))%Z with (1 + (- Z.of_nat k - 1) * Z.of_nat 2)%Z by lia. rewrite Z.mod_add by lia. reflexivity.
  - assert (E2 : Nat.Even i). { apply Nat.even_spec. rewrite <- Nat.negb_odd, E. reflexivity. }
    destruct E2 as [k ->]. rewrite <- (zeta_0 2). apply zeta_mod_eq; [lia|].
    replace (- Z.of_nat (2 * k))%Z with (0 + (- Z.of_nat k) * Z.of_nat 2)%Z by lia. rewrite Z.mod_add by lia. reflexivity.
Qed.

Lemma csgn_conj i : Cconj (csgn i) = csgn i.
Proof. unfold csgn. destruct (Nat.odd i); apply C_ext; cbn; ring. Qed.
Lemma csgn_zeta' h i : 1 <= h -> csgn i = zeta (h * 2) (Z.of_nat h * Z.of_nat i).
Proof.
  intros Hh. rewrite <- csgn_conj, (csgn_zeta h) by assumption. rewrite <- zeta_neg, Z.opp_involutive. reflexivity.
Qed.

Section T.
Variable t : pad.
Hypothesis Hwf : kwf t.
Hypothesis Hq : kq t = 1.
Notation L := (aL t).  Notation CC := (aC t).  Notation SS := (aS t).  Notation m := (am t).
Notation M := (kM t).
Notation off := (cq (M - L) 2).

Lemma e_facts : kp t = 1 /\ kn t = 1 /\ kl t = m /\ M = m /\ L <= m /\ 1 <= m /\ kD t = 1.
Proof.
  destruct (k_q1 t Hwf Hq) as (A & B & C' & D). repeat (split; [assumption|]).
  pose proof Hwf as (H1 & H2 & _ & _ & H5 & _ & H7 & _). rewrite D in H7.
  split; [lia|]. split; [lia|]. unfold kD. rewrite Hq. reflexivity.
Qed.
Lemma e_gq : gq t = 1.
Proof.
  destruct e_facts as (Hp & Hn & _). pose proof Hq as Hq'. unfold kq, param_q in Hq'. fold (kp t) (kn t) in Hq'.
  unfold gq, param_q. fold (kp t). unfold kn, param_n in Hn. fold (kp t) in Hn. unfold param_n. fold (kp t).
  rewrite Hp in *. change (param_P true 1) with 1 in Hn. change (param_P false 1) with 1. lia.
Qed.
Lemma e_wf : wf t.
Proof.
  destruct e_facts as (_ & _ & _ & EM & _ & _ & _).
  pose proof Hwf as (H1 & H2 & H3 & H4 & H5 & H6 & H7 & _). unfold wf, valid, gL, gC, gS, gm, gD. rewrite e_gq. cbn [Nat.eqb].
  rewrite EM in H7. rewrite Nat.mul_1_r. auto 10.
Qed.
Lemma e_plan sg : kfftm t sg = fftm t sg.
Proof. unfold kfftm, fftm. rewrite Hq, e_gq. reflexivity. Qed.
Lemma e_gM : gM t = M.
Proof. destruct e_facts as (_ & _ & _ & -> & _). unfold gM. rewrite e_gq. unfold gm. lia. Qed.

Lemma e_out x i c : i < m -> kout t (fun _ => 0%Z) x i c = outc M L (fun j => x j c) (Z.of_nat i).
Proof.
  intros Hi. destruct e_facts as (_ & Hn & Hl & _). unfold kout. rewrite Hq, Hn, Hl, !Nat.mod_small by assumption.
  rewrite Nat.div_small by assumption. f_equal. lia.
Qed.

Lemma e_fft sg W F g (m0 : mem) : ainplace t = (W =? F) ->
  (forall i c, i < m -> c < CC -> m0 (W + SS * i + c) = Val (g i c)) ->
  (forall i c, i < m -> c < CC -> m0 (F + SS * i + c) <> Unalloc) ->
  (W = F \/ sepbuf SS CC W m F m) ->
  WP (fft (kfftm t sg) W F) m0 (sets (fun i => F + SS * i) CC (fun k c => dft m sg (fun s => g s c) k) m m0).
Proof.
  intros Hin Hv Ha Hd. rewrite e_plan. apply (col_fft t e_wf) with (x := g); try assumption.
  - left. exact e_gq.
  - intros m' HV HF Hal. split; [exact HV|]. split; [|exact Hal].
    intros a Hout. apply HF. intros k c Hk Hc E. apply (Hout k c Hk Hc). auto.
Qed.

(** the odd rows change sign *)
Definition negr (g : nat -> nat -> C) (i c : nat) : C := Cmul (csgn i) (g i c).
Lemma e_neg F g (m0 : mem) body :
  (forall i c, i < m -> c < CC -> m0 (F + SS * i + c) = Val (g i c)) ->
  (forall i, i < m -> Nat.odd i = true ->
    lset (fun i => F + SS * i) CC (negr g) m (eq i) (body ((i - 1) / 2)) m0) ->
  WP (ParFor 0 (m / 2) body) m0 (sets (fun i => F + SS * i) CC (negr g) m m0).
Proof.
  intros Hv Hb. pose proof (k_CS t Hwf). assert (Hinj : injrows (fun i => F + SS * i) CC m) by (apply buf_inj; lia).
  pose proof (Nat.div_mod m 2 ltac:(lia)) as Hdm. pose proof (Nat.mod_upper_bound m 2 ltac:(lia)).
  assert (Hodd : forall s, Nat.odd (1 + 2 * s) = true) by (intros; apply Nat.odd_spec; exists s; lia).
  eapply (WP_rows (fun i => F + SS * i) CC (negr g) m Hinj (fun s i => 1 + 2 * s = i) (fun i => i < m /\ Nat.odd i = false) (fun i => i < m)).
  - apply dn_have. intros i c (Hi & Ho) Hc. rewrite Hv by assumption. unfold negr, csgn. rewrite Ho. f_equal. ring.
  - intros i (Hi & _). exact Hi.
  - unfold rng. intros s i Hs <-. split; [lia|]. rewrite Hodd. intros [_ E]. discriminate.
  - intros. lia.
  - unfold rng. intros i. split.
    + intros Hi. destruct (Nat.odd i) eqn:E; [right|auto]. apply Nat.odd_spec in E. destruct E as [k ->]. exists k. lia.
    + intros [[Hi _]|(s & Hs & <-)]; lia.
  - unfold rng. intros s Hs. specialize (Hb (1 + 2 * s)). replace ((1 + 2 * s - 1) / 2) with s in Hb.
    + apply Hb; [lia|apply Hodd].
    + replace (1 + 2 * s - 1) with (s * 2) by lia. rewrite Nat.div_mul; lia.
  - intros m' Hd. apply (dn_sets _ _ _ _ (fun i => i < m)); [tauto|exact Hd].
Qed.
Lemma e_odd i : Nat.odd i = true -> 1 + 2 * ((i - 1) / 2) = i.
Proof.
  intros E. apply Nat.odd_spec in E. destruct E as [k ->]. replace (2 * k + 1 - 1) with (k * 2) by lia. rewrite Nat.div_mul by lia. lia.
Qed.
Lemma e_neg1 F g (m0 : mem) : SS = 1 ->
  (forall i c, i < m -> c < CC -> m0 (F + SS * i + c) = Val (g i c)) ->
  WP (ParFor 0 (m / 2) (fun k => let s := 1 + 2 * k in x <- F + s ;; F + s ::= Cmul x (Copp C1) ;; Ret)) m0
    (sets (fun i => F + SS * i) CC (negr g) m m0).
Proof.
  intros HS Hv. pose proof (k_S1 t Hwf HS) as HC. apply e_neg; [exact Hv|]. intros i Hi Ho. cbv zeta beta. rewrite e_odd by assumption.
  rewrite HS, HC in *. apply lset_one; [reflexivity|]. assert (Ea : F + i = F + 1 * i + 0) by lia. rewrite Ea.
  eapply wpe_rd; [right; eexists; split; reflexivity|apply Hv; lia|].
  apply row_w1; [reflexivity| |rewrite Hv by lia; discriminate]. unfold negr, csgn. rewrite Ho. ring.
Qed.
Lemma e_negN F g (m0 : mem) :
  (forall i c, i < m -> c < CC -> m0 (F + SS * i + c) = Val (g i c)) ->
  WP (ParFor 0 (m / 2) (fun k => let s := 1 + 2 * k in let Fs := F + SS * s in
         pForR 0 CC (fun c => x <- Fs + c ;; Fs + c ::= Cmul x (Copp C1) ;; Ret))) m0
    (sets (fun i => F + SS * i) CC (negr g) m m0).
Proof.
  intros Hv. pose proof (k_CS t Hwf). assert (Hinj : injrows (fun i => F + SS * i) CC m) by (apply buf_inj; lia).
  apply e_neg; [exact Hv|]. intros i Hi Ho. cbv zeta beta. rewrite e_odd by assumption.
  apply (lset_cols1 _ _ _ _ Hinj); [lia|]. intros c Hc.
  eapply wpe_rd; [right; eexists; split; reflexivity|apply Hv; lia|].
  apply row_w1; [reflexivity| |rewrite Hv by lia; discriminate]. unfold negr, csgn. rewrite Ho. ring.
Qed.

(** the padded data *)
Definition putv (x : nat -> nat -> C) (i c : nat) : C :=
  if (off <=? i) && (i <? off + L) then x (i - off) c else C0.
Lemma e_off : off + L <= m.
Proof.
  destruct e_facts as (_ & _ & _ & EM & HL & Hm & _). pose proof (k_L t Hwf). rewrite EM.
  destruct (Nat.le_gt_cases (m - L) 0); [replace (m - L) with 0 by lia; cbn; lia|].
  pose proof (cq_lt (m - L) 2 ltac:(lia) ltac:(lia)). pose proof (cq_pos (m - L) 2 ltac:(lia) ltac:(lia)). lia.
Qed.
Lemma put_lo x i c : i < off -> putv x i c = C0.
Proof. intros. unfold putv. destruct (Nat.leb_spec off i); [lia|reflexivity]. Qed.
Lemma put_mid x s c : s < L -> putv x (off + s) c = x s c.
Proof.
  intros. unfold putv. destruct (Nat.leb_spec off (off + s)); [|lia]. destruct (Nat.ltb_spec (off + s) (off + L)); [|lia].
  cbn [andb]. f_equal. lia.
Qed.
Lemma put_hi x i c : off + L <= i -> putv x i c = C0.
Proof. intros. unfold putv. destruct (Nat.ltb_spec i (off + L)); [lia|]. rewrite andb_false_r. reflexivity. Qed.
(** M even: the origin lands on M/2 *)
Lemma e_center : M mod 2 = 0 -> off + L / 2 = M / 2.
Proof.
  intros HM. destruct e_facts as (_ & _ & _ & EM & HL & Hm & _). rewrite EM in *. unfold cq.
  pose proof (Nat.div_mod m 2 ltac:(lia)). pose proof (Nat.div_mod L 2 ltac:(lia)). pose proof (Nat.mod_upper_bound L 2 ltac:(lia)).
  pose proof (Nat.div_mod (m - L + 2 - 1) 2 ltac:(lia)). pose proof (Nat.mod_upper_bound (m - L + 2 - 1) 2 ltac:(lia)).
  lia.
Qed.
Lemma e_Mh : M mod 2 = 0 -> m = m / 2 * 2 /\ 1 <= m / 2.
Proof.
  intros HM. destruct e_facts as (_ & _ & _ & EM & HL & Hm & _). rewrite EM in HM.
  pose proof (Nat.div_mod m 2 ltac:(lia)). lia.
Qed.
Lemma put_dft x i c : M mod 2 = 0 -> i < m ->
  negr (fun k c => dft m 1 (fun s => putv x s c) k) i c = outc M L (fun j => x j c) (Z.of_nat i).
Proof.
  intros HM Hi. destruct e_facts as (_ & _ & _ & EM & HL & Hm & _). pose proof e_off. pose proof (e_center HM) as HE. destruct (e_Mh HM) as [E2 Hh].
  unfold negr, dft. replace (Csum m (fun j => Cmul (putv x j c) (zeta m (1 * Z.of_nat j * Z.of_nat i)))) with
    (Csum L (fun j => Cmul (x j c) (zeta m (Z.of_nat (off + j) * Z.of_nat i)))).
  - unfold outc. rewrite <- Csum_mul_l. apply Csum_ext. intros j Hj. remember off as o eqn:Eo.
    rewrite (csgn_zeta (m / 2)) by assumption. rewrite <- E2. rewrite EM.
    transitivity (Cmul (x j c) (Cmul (zeta m (- (Z.of_nat (m / 2) * Z.of_nat i))) (zeta m (Z.of_nat (o + j) * Z.of_nat i)))); [ring|].
    f_equal. rewrite <- zeta_add. f_equal. rewrite EM in HE. rewrite <- HE. lia.
  - replace (Csum m) with (Csum (off + (L + (m - (off + L))))) by (f_equal; lia). rewrite Csum_split, Csum_split.
    rewrite (Csum_zero off), (Csum_zero (m - (off + L))).
    + rewrite (Csum_ext L (fun j => Cmul (putv x (off + j) c) (zeta m (1 * Z.of_nat (off + j) * Z.of_nat i))) (fun j => Cmul (x j c) (zeta m (Z.of_nat (off + j) * Z.of_nat i)))); [ring|].
      intros j Hj. rewrite put_mid by assumption. f_equal. f_equal. lia.
    + intros j Hj. rewrite put_hi by lia. ring.
    + intros j Hj. rewrite put_lo by lia. ring.
Qed.

Lemma fdone_sets3 S0 C0 F W N g g' g2 (m0 m1 m2 m3 : mem) :
  sets (fun i => W + S0 * i) C0 g N m0 m1 -> sets (fun i => F + S0 * i) C0 g' N m1 m2 ->
  sets (fun i => F + S0 * i) C0 g2 N m2 m3 -> fdone S0 C0 F W N g2 m0 m3.
Proof. intros A B D. eapply fdone_sets; [exact A|]. eapply sets_trans; [exact B|exact D]. Qed.

Section Fwd.
Variables (f F : addr) (W : option addr) (x : nat -> nat -> C) (m0 : mem).
Let W0 := getW F W.
Hypothesis Hin : ainplace t = (W0 =? F).
Hypothesis Hsep : sepbuf SS CC f L W0 m.
Hypothesis HWF : W0 = F \/ sepbuf SS CC W0 m F m.
Hypothesis Hsrc : forall j c, j < L -> c < CC -> m0 (f + SS * j + c) = Val (x j c).
Hypothesis HWa : forall i c, i < m -> c < CC -> m0 (W0 + SS * i + c) <> Unalloc.
Hypothesis HFa : forall i c, i < m -> c < CC -> m0 (F + SS * i + c) <> Unalloc.

Lemma e_fin m3 neg : M mod 2 = 0 -> sets (fun i => W0 + SS * i) CC (putv x) m m0 m3 ->
  (forall g m4, (forall i c, i < m -> c < CC -> m4 (F + SS * i + c) = Val (g i c)) -> WP neg m4 (sets (fun i => F + SS * i) CC (negr g) m m4)) ->
  WP (Seq (fft (kfftm t 1) W0 F) neg) m3 (fdone SS CC F W0 m (kout t (fun _ => 0%Z) x) m0).
Proof.
  intros HM S3 Hneg. apply WP_seq. eapply WP_mono; [|apply (e_fft 1 W0 F (putv x) m3); try assumption; [apply S3|intros; apply S3; auto]].
  intros m4 S4. eapply WP_mono; [|apply (Hneg (fun k c => dft m 1 (fun s => putv x s c) k)); apply S4].
  intros m5 S5. eapply fdone_ext with (g := negr (fun k c => dft m 1 (fun s => putv x s c) k)).
  - intros i c Hi Hc. rewrite put_dft, e_out by assumption. reflexivity.
  - eapply fdone_sets3; eassumption.
Qed.
Lemma forwardExplicitFast_ok : SS = 1 -> M mod 2 = 0 ->
  WP (cforwardExplicitFast t f F W) m0 (fdone SS CC F W0 m (kout t (fun _ => 0%Z) x) m0).
Proof.
  intros HS HM. pose proof (k_CS t Hwf). pose proof (k_S1 t Hwf HS) as HC. destruct e_facts as (_ & _ & _ & EM & HL & Hm & _). pose proof e_off as Ho.
  unfold cforwardExplicitFast. cbv zeta. fold W0.
  assert (Hinj : injrows (fun i => W0 + SS * i) CC m) by (apply buf_inj; lia).
  pose proof (WP_pfx1 (fun i => W0 + SS * i) CC (putv x) m Hinj) as Hp.
  apply WP_seq. eapply Hp; [|apply pfx1_nil| |].
  { lia. }
  { intros s Hs. rewrite HC in *. apply lset_one; [reflexivity|].
    apply row_w1; [rewrite HS; lia|rewrite put_lo by lia; reflexivity|apply (al_at SS 1 W0 m m0 _ s 0 HWa); lia]. }
  intros m1 H1. apply WP_seq.
  eapply (WP_rows (fun i => W0 + SS * i) CC (putv x) m Hinj (fun s i => off + s = i) (fun i => i < off) (fun i => i < off + L)); [exact H1|intros; lia|unfold rng; intros; lia|intros; lia|unfold rng; intros i; split; [intros; destruct (Nat.lt_ge_cases i off); [auto|right; exists (i - off); lia]|intros [|(s & Hs & <-)]; lia]| |].
  { unfold rng. intros s Hs. rewrite HC in *. apply lset_one; [reflexivity|].
    eapply (src_rd SS 1 f L W0 m x m0 Hsep Hsrc _ _ s 0); [lia|lia|rewrite HS; lia|].
    apply row_w1; [rewrite HS; lia|rewrite put_mid by lia; reflexivity|apply (al_at SS 1 W0 m m0 _ (off + s) 0 HWa); try lia; rewrite HS; lia]. }
  intros m2 H2. apply WP_seq. eapply Hp; [|exact H2| |].
  { lia. }
  { intros s Hs. rewrite HC in *. apply lset_one; [reflexivity|].
    apply row_w1; [rewrite HS; lia|rewrite put_hi by lia; reflexivity|apply (al_at SS 1 W0 m m0 _ s 0 HWa); lia]. }
  intros m3 H3. apply e_fin; [assumption| |].
  - apply (dn_sets _ _ _ _ (fun i => i < M)); [rewrite EM; tauto|exact H3].
  - intros g m4 Hg. apply e_neg1; assumption.
Qed.
Lemma forwardExplicitManyFast_ok : M mod 2 = 0 ->
  WP (cforwardExplicitManyFast t f F W) m0 (fdone SS CC F W0 m (kout t (fun _ => 0%Z) x) m0).
Proof.
  intros HM. pose proof (k_CS t Hwf). destruct e_facts as (_ & _ & _ & EM & HL & Hm & _). pose proof e_off as Ho.
  unfold cforwardExplicitManyFast. cbv zeta. fold W0.
  assert (Hinj : injrows (fun i => W0 + SS * i) CC m) by (apply buf_inj; lia).
  pose proof (WP_pfx1 (fun i => W0 + SS * i) CC (putv x) m Hinj) as Hp.
  apply WP_seq. eapply Hp; [|apply pfx1_nil| |].
  { lia. }
  { intros s Hs. apply (lset_cols1 _ _ _ _ Hinj); [lia|]. intros c Hc.
    apply row_w1; [lia|rewrite put_lo by lia; reflexivity|apply (al_at SS CC W0 m m0 _ s c HWa); lia]. }
  intros m1 H1. apply WP_seq.
  eapply (WP_rows (fun i => W0 + SS * i) CC (putv x) m Hinj (fun s i => off + s = i) (fun i => i < off) (fun i => i < off + L)); [exact H1|intros; lia|unfold rng; intros; lia|intros; lia|unfold rng; intros i; split; [intros; destruct (Nat.lt_ge_cases i off); [auto|right; exists (i - off); lia]|intros [|(s & Hs & <-)]; lia]| |].
  { unfold rng. intros s Hs. apply (lset_cols1 _ _ _ _ Hinj); [lia|]. intros c Hc.
    eapply (src_rd SS CC f L W0 m x m0 Hsep Hsrc _ _ s c); [lia|lia|lia|].
    apply row_w1; [lia|rewrite put_mid by lia; reflexivity|apply (al_at SS CC W0 m m0 _ (off + s) c HWa); lia]. }
  intros m2 H2. apply WP_seq. eapply Hp; [|exact H2| |].
  { lia. }
  { intros s Hs. apply (lset_cols1 _ _ _ _ Hinj); [lia|]. intros c Hc.
    apply row_w1; [lia|rewrite put_hi by lia; reflexivity|apply (al_at SS CC W0 m m0 _ s c HWa); lia]. }
  intros m3 H3. apply e_fin; [assumption| |].
  - apply (dn_sets _ _ _ _ (fun i => i < M)); [rewrite EM; tauto|exact H3].
  - intros g m4 Hg. apply e_negN; assumption.
Qed.

(** M odd: the uncentered transform followed by a shift of the origin *)
Lemma e_slow mul :
  (forall m4 g, (forall i c, i < m -> c < CC -> m4 (F + SS * i + c) = Val (g i c)) ->
     WP mul m4 (sets (fun i => F + SS * i) CC (fun i c => Cmul (g i c) (zeta M (- (Z.of_nat (L / 2) * Z.of_nat i)))) m m4)) ->
  forall m4, (forall k c, k < m -> c < CC -> m4 (F + SS * k + c) = Val (outv (gM t) (gL t) (fun j => x j c) (Z.of_nat k))) ->
     (forall a, (forall i c, i < m -> c < CC -> F + SS * i + c <> a) -> (forall s c, s < m -> c < CC -> W0 + SS * s + c <> a) -> m4 a = m0 a) ->
     (forall a, m0 a <> Unalloc -> m4 a <> Unalloc) ->
  WP mul m4 (fdone SS CC F W0 m (kout t (fun _ => 0%Z) x) m0).
Proof.
  intros Hmul m4 Hv Hf Hal. eapply WP_mono; [|apply (Hmul m4 _ Hv)]. intros m5 (B1 & B2 & B3). split; [|split; [|auto]].
  - intros i c Hi Hc. rewrite B1 by assumption. f_equal. rewrite e_out by assumption. rewrite e_gM. unfold outv, outc, gL.
    rewrite <- Csum_mul_r. apply Csum_ext. intros j Hj. rewrite <- Cmul_assoc, <- zeta_add. f_equal. f_equal. lia.
  - intros a Ha Hb. rewrite B2; [|apply outs_inbuf; assumption]. apply Hf.
    + intros i c Hi Hc E. apply Ha. exists i, c. auto.
    + intros i c Hi Hc E. apply Hb. exists i, c. auto.
Qed.
End Fwd.

Lemma e_shift s : s < m -> kShift t s = Some (zeta M (Z.of_nat (L / 2) * Z.of_nat s)).
Proof.
  intros Hs. unfold kShift. rewrite Hq. cbn [tloop].
  rewrite (tloop_ext m _ (fun s T => tset T (0 + s) (expi (INR (L / 2) * twopi / INR M * INR s)))).
  2:{ intros k T Hk. rewrite Nat.mul_1_l, Nat.add_0_r. reflexivity. }
  rewrite (tloop_row m 0 (fun s => expi (INR (L / 2) * twopi / INR M * INR s))). cbn [Nat.leb Nat.add andb].
  destruct (Nat.ltb_spec s m); [|lia]. rewrite Nat.sub_0_r. f_equal. unfold zeta, twopi. f_equal.
  rewrite mult_IZR, <- !INR_IZR_INZ. unfold Rdiv. ring.
Qed.
(** every row times a table entry *)
Lemma e_mulr F (k : C -> C) g g' (m0 : mem) body :
  (forall i c, i < m -> c < CC -> m0 (F + SS * i + c) = Val (g i c)) ->
  (forall i, i < m -> lset (fun i => F + SS * i) CC g' m (eq i) (body i) m0) ->
  WP (ParFor 0 m body) m0 (sets (fun i => F + SS * i) CC g' m m0).
Proof.
  intros Hv Hb. pose proof (k_CS t Hwf). assert (Hinj : injrows (fun i => F + SS * i) CC m) by (apply buf_inj; lia).
  eapply (WP_pfx1 (fun i => F + SS * i) CC g' m Hinj); [lia|apply pfx1_nil| |].
  - intros s Hs. apply Hb. lia.
  - intros m' Hd. apply (dn_sets _ _ _ _ (fun i => i < m)); [tauto|exact Hd].
Qed.
Lemma e_mul1 F (k : C -> C) g (m0 : mem) : SS = 1 ->
  (forall i c, i < m -> c < CC -> m0 (F + SS * i + c) = Val (g i c)) ->
  WP (ParFor 0 m (fun s => x <- F + s ;; z <~ kShift t [s] ;; F + s ::= Cmul x (k z) ;; Ret)) m0
    (sets (fun i => F + SS * i) CC (fun i c => Cmul (g i c) (k (zeta M (Z.of_nat (L / 2) * Z.of_nat i)))) m m0).
Proof.
  intros HS Hv. pose proof (k_S1 t Hwf HS) as HC. apply (e_mulr F k g); [exact Hv|]. intros i Hi. cbv beta.
  rewrite HS, HC in *. apply lset_one; [reflexivity|]. assert (Ea : F + i = F + 1 * i + 0) by lia. rewrite Ea.
  eapply wpe_rd; [right; eexists; split; reflexivity|apply Hv; lia|]. eapply wpe_tget; [apply e_shift; assumption|].
  apply row_w1; [reflexivity|reflexivity|rewrite Hv by lia; discriminate].
Qed.
Lemma e_mulN F (k : C -> C) g (m0 : mem) :
  (forall i c, i < m -> c < CC -> m0 (F + SS * i + c) = Val (g i c)) ->
  WP (ParFor 0 m (fun s => let Fs := F + SS * s in z <~ kShift t [s] ;; pForR 0 CC (fun c => x <- Fs + c ;; Fs + c ::= Cmul x (k z) ;; Ret))) m0
    (sets (fun i => F + SS * i) CC (fun i c => Cmul (g i c) (k (zeta M (Z.of_nat (L / 2) * Z.of_nat i)))) m m0).
Proof.
  intros Hv. pose proof (k_CS t Hwf). assert (Hinj : injrows (fun i => F + SS * i) CC m) by (apply buf_inj; lia).
  apply (e_mulr F k g); [exact Hv|]. intros i Hi. cbv zeta beta. eapply lset_tget; [apply e_shift; assumption|].
  apply (lset_cols1 _ _ _ _ Hinj); [lia|]. intros c Hc.
  eapply wpe_rd; [right; eexists; split; reflexivity|apply Hv; lia|].
  apply row_w1; [reflexivity|reflexivity|rewrite Hv by lia; discriminate].
Qed.

Section Fwd2.
Variables (f F : addr) (W : option addr) (x : nat -> nat -> C) (m0 : mem).
Let W0 := getW F W.
Hypothesis Hin : ainplace t = (W0 =? F).
Hypothesis Hsep : sepbuf SS CC f L W0 m.
Hypothesis HWF : W0 = F \/ sepbuf SS CC W0 m F m.
Hypothesis Hsrc : forall j c, j < L -> c < CC -> m0 (f + SS * j + c) = Val (x j c).
Hypothesis HWa : forall i c, i < m -> c < CC -> m0 (W0 + SS * i + c) <> Unalloc.
Hypothesis HFa : forall i c, i < m -> c < CC -> m0 (F + SS * i + c) <> Unalloc.
Lemma forwardExplicitManySlow_ok : SS <> 1 ->
  WP (cforwardExplicitManySlow t f F W) m0 (fdone SS CC F W0 m (kout t (fun _ => 0%Z) x) m0).
Proof.
  intros HS. unfold cforwardExplicitManySlow. apply WP_seq.
  apply (forwardExplicitMany_spec t e_wf) with (x := x); try assumption; [exact e_gq|].
  intros m' A1 A2 A3. apply (e_slow F W x m0); try assumption. intros m4 g Hg. eapply WP_mono; [|apply (e_mulN F Cconj g m4 Hg)].
  intros m5. apply sets_ext. intros i c Hi Hc. rewrite zeta_neg. reflexivity.
Qed.
Lemma forwardExplicitSlow_ok : SS = 1 ->
  WP (cforwardExplicitSlow t f F W) m0 (fdone SS CC F W0 m (kout t (fun _ => 0%Z) x) m0).
Proof.
  intros HS. pose proof (k_S1 t Hwf HS) as HC. unfold cforwardExplicitSlow. apply WP_seq.
  assert (E : forall (B : nat) s c, c < CC -> B + SS * s + c = B + s) by (intros; rewrite HS; lia).
  apply (forwardExplicit_spec t e_wf) with (x := fun j => x j 0); try assumption.
  - exact e_gq.
  - intros i i' Hi Hi'. rewrite <- (E f i 0), <- (E _ i' 0) by lia. apply Hsep; [exact Hi|lia|exact Hi'|lia].
  - destruct HWF as [|HW]; [auto|right]. intros i i' Hi Hi'. rewrite <- (E _ i 0), <- (E F i' 0) by lia. apply HW; [exact Hi|lia|exact Hi'|lia].
  - intros s Hs. rewrite <- (E f s 0) by lia. apply Hsrc; [assumption|lia].
  - intros s Hs. rewrite <- (E _ s 0) by lia. apply HWa; [assumption|lia].
  - intros s Hs. rewrite <- (E _ s 0) by lia. apply HFa; [assumption|lia].
  - intros m' A1 A2 A3.
    apply (e_slow F W x m0); try assumption.
    + intros m4 g Hg. eapply WP_mono; [|apply (e_mul1 F Cconj g m4 HS Hg)].
      intros m5. apply sets_ext. intros i c Hi Hc. rewrite zeta_neg. reflexivity.
    + intros k c Hk Hc. rewrite E by assumption. replace c with 0 by lia. apply A1. assumption.
    + intros a Ha Hb. apply A2; intros i Hi; [rewrite <- (E F i 0) by lia; apply Ha; [assumption|lia]|].
      rewrite <- (E _ i 0) by lia. apply Hb; [assumption|lia].
Qed.
End Fwd2.

(** *** backward *)
Definition bdone (SS CC f L F W N : nat) (g : nat -> nat -> C) (m m' : mem) : Prop :=
  (forall j c, j < L -> c < CC -> m' (f + SS * j + c) = Val (g j c)) /\
  (forall a, ~ inbuf SS CC f L a -> ~ inbuf SS CC W N a -> ~ inbuf SS CC F N a -> m' a = m a) /\
  (forall a, m a <> Unalloc -> m' a <> Unalloc).

Section Bwd.
Variables (f F : addr) (W : option addr) (y : nat -> nat -> C) (m0 : mem).
Let W0 := getW F W.
Hypothesis Hin : ainplace t = (W0 =? F).
Hypothesis Hsep : sepbuf SS CC f L W0 m.
Hypothesis HWF : W0 = F \/ sepbuf SS CC W0 m F m.
Hypothesis Hsrc : forall i c, i < m -> c < CC -> m0 (F + SS * i + c) = Val (y i c).
Hypothesis HWa : forall i c, i < m -> c < CC -> m0 (W0 + SS * i + c) <> Unalloc.
Hypothesis Hfa : forall j c, j < L -> c < CC -> m0 (f + SS * j + c) <> Unalloc.
Notation inv := (fun j c => invc M L (fun k => y k c) j).

Lemma Hin' : ainplace t = (F =? W0).
Proof. rewrite Hin. apply Nat.eqb_sym. Qed.
Lemma HWF' : F = W0 \/ sepbuf SS CC F m W0 m.
Proof. destruct HWF as [E|Hs]; [auto|right]. apply sepbuf_sym. assumption. Qed.

Lemma e_getv j c : M mod 2 = 0 -> j < L -> dft m (-1) (fun s => negr y s c) (off + j) = invc M L (fun k => y k c) j.
Proof.
  intros HM Hj. destruct e_facts as (_ & _ & _ & EM & HL & Hm & _). pose proof e_off. pose proof (e_center HM) as HE. destruct (e_Mh HM) as [E2 Hh].
  unfold dft, invc. replace (Csum M) with (Csum m) by (rewrite EM; reflexivity). apply Csum_ext. intros k Hk. unfold negr. remember off as o eqn:Eo.
  rewrite (csgn_zeta' (m / 2)) by assumption. rewrite <- E2. rewrite EM.
  rewrite (Cmul_comm (zeta m _)), <- Cmul_assoc, <- zeta_add. f_equal. f_equal. rewrite EM in HE. rewrite <- HE. lia.
Qed.
Lemma e_bfast m2 cp : M mod 2 = 0 -> sets (fun i => F + SS * i) CC (negr y) m m0 m2 ->
  (forall g m3, (forall i c, i < m -> c < CC -> m3 (W0 + SS * i + c) = Val (g i c)) ->
     (forall j c, j < L -> c < CC -> m3 (f + SS * j + c) <> Unalloc) ->
     WP cp m3 (sets (fun j => f + SS * j) CC (fun j c => g (off + j) c) L m3)) ->
  WP (Seq (fft (kfftm t (-1)) F W0) cp) m2 (bdone SS CC f L F W0 m inv m0).
Proof.
  intros HM (A1 & A2 & A3) Hcp. apply WP_seq.
  eapply WP_mono; [|apply (e_fft (-1) F W0 (negr y) m2 Hin' A1)]; [|intros; apply A3; auto|exact HWF'].
  intros m3 (B1 & B2 & B3). eapply WP_mono; [|apply (Hcp _ m3 B1); intros; apply B3, A3; auto].
  intros m4 (D1 & D2 & D3). split; [|split; [|auto]].
  - intros j c Hj Hc. rewrite D1 by assumption. f_equal. apply e_getv; assumption.
  - intros a Ha Hb Hc. rewrite D2, B2, A2; [reflexivity| | |]; apply outs_inbuf; assumption.
Qed.
Lemma bwdExplicitFast_ok : SS = 1 -> M mod 2 = 0 ->
  WP (cbackwardExplicitFast t F f W) m0 (bdone SS CC f L F W0 m inv m0).
Proof.
  intros HS HM. pose proof (k_S1 t Hwf HS) as HC. pose proof e_off.
  unfold cbackwardExplicitFast. cbv zeta. fold W0. apply WP_seq.
  eapply WP_mono; [|apply (e_neg1 F y m0 HS Hsrc)]. intros m2 S2. apply e_bfast; [assumption|assumption|].
  clear m2 S2. intros g m3 Hg Ha. rewrite HC in *.
  assert (Hinj : injrows (fun j => f + SS * j) 1 L) by (apply buf_inj; lia).
  eapply (WP_pfx1 (fun j => f + SS * j) 1 (fun j c => g (off + j) c) L Hinj); [lia|apply pfx1_nil| |].
  - intros s Hs. apply lset_one; [reflexivity|]. 
    assert (Ea : W0 + SS * off + s = W0 + SS * (off + s) + 0) by (rewrite HS; lia). rewrite Ea.
    eapply wpe_rd; [|apply Hg; lia|].
    + left. intros j c Hj Hc E. apply (Hsep j c (off + s) 0); auto; lia.
    + apply row_w1; [rewrite HS; lia|reflexivity|]. specialize (Ha s 0 ltac:(lia) ltac:(lia)). rewrite HS in Ha. replace (f + s) with (f + 1 * s + 0) by lia. exact Ha.
  - intros m' Hd. apply (dn_sets _ _ _ _ (fun i => i < L)); [tauto|exact Hd].
Qed.
Lemma bwdExplicitManyFast_ok : M mod 2 = 0 ->
  WP (cbackwardExplicitManyFast t F f W) m0 (bdone SS CC f L F W0 m inv m0).
Proof.
  intros HM. pose proof (k_CS t Hwf). pose proof e_off.
  unfold cbackwardExplicitManyFast. cbv zeta. fold W0. apply WP_seq.
  eapply WP_mono; [|apply (e_negN F y m0 Hsrc)]. intros m2 S2. apply e_bfast; [assumption|assumption|].
  clear m2 S2. intros g m3 Hg Ha.
  assert (Hinj : injrows (fun j => f + SS * j) CC L) by (apply buf_inj; lia).
  eapply (WP_pfx1 (fun j => f + SS * j) CC (fun j c => g (off + j) c) L Hinj); [lia|apply pfx1_nil| |].
  - intros s Hs. apply (lset_cols1 _ _ _ _ Hinj); [lia|]. intros c Hc.
    assert (Ea : W0 + SS * off + SS * s + c = W0 + SS * (off + s) + c) by lia. rewrite Ea.
    eapply wpe_rd; [|apply Hg; lia|].
    + left. intros j c' Hj Hc' E. apply (Hsep j c' (off + s) c); auto; lia.
    + apply row_w1; [lia|reflexivity|]. apply Ha; lia.
  - intros m' Hd. apply (dn_sets _ _ _ _ (fun i => i < L)); [tauto|exact Hd].
Qed.

Lemma e_bval j c : j < L -> 
  bval (gM t) (gq t) (gm t) 0 (fun k => Cmul (y k c) (zeta M (Z.of_nat (L / 2) * Z.of_nat k))) j = invc M L (fun k => y k c) j.
Proof.
  intros Hj. destruct e_facts as (_ & _ & _ & EM & _). rewrite e_gM, e_gq. unfold bval, invc, gm. replace (Csum M) with (Csum m) by (rewrite EM; reflexivity). apply Csum_ext. intros k Hk.
  rewrite <- Cmul_assoc, <- zeta_add. f_equal. f_equal. lia.
Qed.
Lemma bwdExplicitManySlow_ok : SS <> 1 ->
  WP (cbackwardExplicitManySlow t F f W) m0 (bdone SS CC f L F W0 m inv m0).
Proof.
  intros HS. unfold cbackwardExplicitManySlow. apply WP_seq. eapply WP_mono; [|apply (e_mulN F (fun z => z) y m0 Hsrc)].
  intros m2 (A1 & A2 & A3).
  apply (backwardExplicitMany_spec t e_wf) with (y := fun i c => Cmul (y i c) (zeta M (Z.of_nat (L / 2) * Z.of_nat i))); try assumption.
  - exact e_gq.
  - intros; apply A3; auto.
  - intros; apply A3; auto.
  - intros m' B1 B2 B3. split; [|split; [|auto]].
    + intros j c Hj Hc. rewrite B1 by assumption. f_equal. apply e_bval. assumption.
    + intros a Ha Hb Hc. rewrite B2, A2; [reflexivity| | |].
      * apply outs_inbuf. assumption.
      * intros i c Hi Hc' E. apply Ha. exists i, c. auto.
      * intros i c Hi Hc' E. apply Hb. exists i, c. auto.
Qed.
Lemma bwdExplicitSlow_ok : SS = 1 -> 
  WP (cbackwardExplicitSlow t F f W) m0 (bdone SS CC f L F W0 m inv m0).
Proof.
  intros HS. pose proof (k_S1 t Hwf HS) as HC. 
  assert (E : forall (B : nat) s c, c < CC -> B + SS * s + c = B + s) by (intros; rewrite HS; lia).
  unfold cbackwardExplicitSlow. apply WP_seq. eapply WP_mono; [|apply (e_mul1 F (fun z => z) y m0 HS Hsrc)].
  intros m2 (A1 & A2 & A3).
  apply (backwardExplicit_spec t e_wf) with (y := fun i => Cmul (y i 0) (zeta M (Z.of_nat (L / 2) * Z.of_nat i))); try assumption.
  - exact e_gq.
  - intros i i' Hi Hi'. rewrite <- (E f i 0), <- (E _ i' 0) by lia. apply Hsep; [exact Hi|lia|exact Hi'|lia].
  - destruct HWF as [|HW]; [auto|right]. intros i i' Hi Hi'. rewrite <- (E _ i 0), <- (E F i' 0) by lia. apply HW; [exact Hi|lia|exact Hi'|lia].
  - intros k Hk. rewrite <- (E F k 0) by lia. apply A1; [assumption|lia].
  - intros s Hs. rewrite <- (E _ s 0) by lia. apply A3, HWa; [assumption|lia].
  - intros s Hs. rewrite <- (E _ s 0) by lia. apply A3, Hfa; [assumption|lia].
  - intros m' B1 B2 B3. split; [|split; [|auto]].
    + intros j c Hj Hc. rewrite E by assumption. rewrite B1 by assumption. f_equal. replace c with 0 by lia. apply e_bval. assumption.
    + intros a Ha Hb Hc. rewrite B2, A2; [reflexivity| | |].
      * apply outs_inbuf. assumption.
      * intros i Hi Eq. apply Ha. exists i, 0. rewrite E by lia. repeat split; auto; lia.
      * intros i Hi Eq. apply Hb. exists i, 0. rewrite E by lia. repeat split; auto; lia.
Qed.
End Bwd.
End T.
