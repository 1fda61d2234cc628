(** One statement for every centered backward kernel, in the vocabulary of CenSpec, and the round trip. *)
From Coq Require Import Reals ZArith Arith Lia List Bool Permutation.
From Verif Require Import CNum Sums Roots Mem VecModel VecProofs PadModel PadKernels Loops
  PadLemmas PadMath PadGeom Fwd1 PadIndex PadForward PadBackward ConvMath ConvModel Fill CenModel CenMath CenGeom CenF2 CenPass CenFft CenStage
  CenTw CenFwd2 CenFI CenFIM CenThree CenOv CenFA CenExp PadSpec PadRound PadBridge CenSpec CenIndex CenForward CenBack CenB2 CenBPass CenBwd2 CenBI CenBIM CenBAll.
Import ListNotations.

Section T.
Variable t : pad.
Hypothesis Hwf : kwf t.
Notation L := (aL t).  Notation CC := (aC t).  Notation SS := (aS t).  Notation m := (am t).
Notation q := (kq t).   Notation n := (kn t).   Notation M := (kM t).
Notation D := (kD t).  Notation D0 := (kD0 t). Notation P := (kP t). Notation l := (kl t).

Lemma kindex_mod r g u s : q <> 1 -> passr (sh t) r -> g < kblocks t r -> u < P -> s < m ->
  (Z.of_nat (kindex t r (l * g + (m * u + s))) mod Z.of_nat M
   = (Z.of_nat q * Z.of_nat s + Z.of_nat n * Z.of_nat u + krho t r g) mod Z.of_nat M)%Z.
Proof.
  intros Hq Hr Hg Hu Hs. destruct (k_cg t Hwf Hq) as [Gm GP _ _ _ _]. pose proof (lmP t Hq) as Hl.
  assert (Hk : P * s + u < l) by (rewrite Hl; nia). assert (Hk' : m * u + s < l) by (rewrite Hl; nia).
  rewrite (kindex_tau t Hwf r) by (rewrite ?knout_E; try assumption; assert (l * (g + 1) <= l * kblocks t r) by (apply Nat.mul_le_mono_l; lia); lia).
  rewrite Hl, tau_eq by assumption. rewrite <- Hl.
  destruct (index_rho (sh t) (sh_wf t Hwf) r g (P * s + u) Hr) as [_ HI].
  { unfold nrows. rewrite sh_D, sh_D0 by assumption. unfold gP. rewrite sh_p by assumption. cbn [Nat.eqb]. unfold kblocks in Hg. lia. }
  { rewrite sh_m. assumption. }
  rewrite sh_m, sh_M, sh_q in HI by assumption. rewrite HI. f_equal. unfold krho. rewrite (k_q t Hwf Hq).
  rewrite !Nat2Z.inj_mul, Nat2Z.inj_add, Nat2Z.inj_mul. ring.
Qed.

Lemma bsum_cpi r y j c : q <> 1 -> passr (sh t) r ->
  bsum t (kblocks t r) (krho t r) y j c = cpartial_inverse M L (knoutputs t r) (kindex t r) (fun i => y i c) j.
Proof.
  intros Hq Hr. pose proof (lmP t Hq) as Hl. pose proof (k_Mpos t Hwf Hq) as HM.
  unfold cpartial_inverse. rewrite knout_E, Nat.mul_comm, Csum_mul_nat. unfold bsum. apply Csum_ext. intros b Hb.
  transitivity (Csum (P * m) (fun v => Cmul (y (l * b + v)%nat c) (expi (- (2 * PI * ((INR j - INR (L / 2)) * INR (kindex t r (l * b + v))) / INR M))))).
  2:{ replace (P * m) with l by lia. reflexivity. }
  rewrite Csum_mul_nat. unfold cb. apply Csum_ext. intros u Hu. apply Csum_ext. intros k Hk.
  apply (f_equal2 Cmul); [reflexivity|]. rewrite <- zeta_c_neg.
  replace (cM m P n) with M by (rewrite (k_M t Hwf Hq); reflexivity).
  apply zeta_mod_eq; [assumption|]. rewrite <- !Z.mul_opp_l.
  rewrite (Z.mul_mod _ (Z.of_nat (kindex _ _ _))), kindex_mod, <- Z.mul_mod by (assumption || lia).
  do 2 f_equal. rewrite (k_qq t Hwf Hq). reflexivity.
Qed.

Lemma cbackward_spec f F W r y acc (m0 : mem) (W0 := getW F W) (N := knoutputs t r) :
  koverwrite t = false -> passr (sh t) r -> ainplace t = (W0 =? F) ->
  sepbuf SS CC f L W0 N -> (W0 = F \/ sepbuf SS CC W0 N F N) ->
  (forall i c, i < N -> c < CC -> m0 (F + SS * i + c) = Val (y i c)) ->
  (forall i c, i < N -> c < CC -> m0 (W0 + SS * i + c) <> Unalloc) ->
  (forall j c, j < L -> c < CC -> m0 (f + SS * j + c) <> Unalloc) ->
  (r <> 0 -> forall j c, j < L -> c < CC -> m0 (f + SS * j + c) = Val (acc j c)) ->
  WP (cbackward t F f r W) m0 (bdone SS CC f L F W0 N (fun j c => Cadd (if r =? 0 then C0 else acc j c)
     (cpartial_inverse M L N (kindex t r) (fun i => y i c) j)) m0).
Proof.
  intros Hov Hr Hin Hsep HWF Hsrc HWa Hfa Hacc. unfold cbackward. rewrite Hov.
  set (G := fun j c => Cadd (if r =? 0 then C0 else acc j c) (cpartial_inverse M L N (kindex t r) (fun i => y i c) j)).
  assert (Hout : forall g, (forall j c, j < L -> c < CC -> g j c = G j c) ->
    forall m', bdone SS CC f L F W0 N g m0 m' -> bdone SS CC f L F W0 N G m0 m').
  { intros g Hg m' (A1 & A2 & A3). split; [|split; assumption]. intros i c Hi Hc. rewrite A1, Hg by assumption. reflexivity. }
  destruct (Nat.eqb_spec q 1) as [Hq|Hq].
  { destruct (e_facts t Hwf Hq) as (_ & _ & El & EM & HL & Hm & HD).
    assert (EN : N = m) by (unfold N; rewrite knout_E, (kblocks_D1 t Hwf r HD); lia).
    assert (Hr0 : r = 0) by (apply (passr_q1 (sh t)); [apply Nat.eqb_eq; rewrite sh_q1 by assumption; apply Nat.eqb_eq; assumption|assumption]).
    assert (Hx : forall j c, j < L -> c < CC -> invc M L (fun k => y k c) j = G j c).
    { intros j c Hj Hc. unfold G. rewrite Hr0 at 1. cbn [Nat.eqb]. unfold cpartial_inverse, invc. rewrite EN.
      replace (Csum M) with (Csum m) by (rewrite EM; reflexivity). rewrite <- (Cadd_0_l (Csum m _)).
      f_equal. apply Csum_ext. intros k Hk. destruct (kindex_q1 t Hwf r k Hq) as [-> _]. rewrite <- zeta_c_neg. reflexivity. }
    rewrite EN in *.
    destruct (Nat.eqb_spec (M mod 2) 0) as [H2|H2]; destruct (Nat.eqb_spec SS 1) as [HS|HS];
      (eapply WP_mono; [apply (Hout _ Hx)|]).
    - apply (bwdExplicitFast_ok t Hwf Hq); assumption.
    - apply (bwdExplicitManyFast_ok t Hwf Hq); assumption.
    - apply (bwdExplicitSlow_ok t Hwf Hq); assumption.
    - apply (bwdExplicitManySlow_ok t Hwf Hq); assumption. }
  assert (EN : N = l * kblocks t r) by reflexivity.
  assert (Hx : forall j c, j < L -> c < CC -> Cadd (if r =? 0 then C0 else acc j c) (bsum t (kblocks t r) (krho t r) y j c) = G j c).
  { intros j c Hj Hc. unfold G. rewrite bsum_cpi by assumption. reflexivity. }
  pose proof (kpass_n t Hwf r Hr) as Hrn.
  assert (HxN : SS <> 1 -> N = l /\ forall j c, j < L -> c < CC -> Cadd (if r =? 0 then C0 else acc j c) (bsum t 1 (fun _ => Z.of_nat r) y j c) = G j c).
  { intros HS. pose proof (k_D1 t Hwf Hq HS) as HD. split; [rewrite EN, (kblocks_D1 t Hwf r HD); lia|].
    intros j c Hj Hc. rewrite <- Hx by assumption. rewrite (kblocks_D1 t Hwf r HD). unfold bsum. cbn [Csum]. rewrite (krho_D1 t Hwf r _ HD). reflexivity. }
  destruct (two_p t Hwf Hq) as [Hp|Hp].
  - destruct (Nat.ltb_spec 2 (kp t)) as [_|]; [|lia]. destruct (Nat.eqb_spec SS 1) as [HS|HS].
    + eapply WP_mono; [apply (Hout _ Hx)|]. pose proof (k_S1 t Hwf HS) as HC. rewrite HC, HS in *. rewrite EN in *.
      apply (backwardInner_ok t Hwf Hq Hp); assumption.
    + destruct (HxN HS) as [El HxN']. eapply WP_mono; [apply (Hout _ HxN')|]. rewrite El in *.
      apply (backwardInnerMany_ok t Hwf Hq Hp); assumption.
  - destruct (Nat.ltb_spec 2 (kp t)) as [|_]; [lia|]. destruct (Nat.eqb_spec SS 1) as [HS|HS].
    + eapply WP_mono; [apply (Hout _ Hx)|]. pose proof (k_S1 t Hwf HS) as HC. rewrite HC, HS in *. rewrite EN in *.
      apply (backward2_ok t Hwf Hq Hp); assumption.
    + destruct (HxN HS) as [El HxN']. eapply WP_mono; [apply (Hout _ HxN')|]. rewrite El in *.
      rewrite (l2 t Hq Hp) in *. apply (backward2Many_ok t Hwf Hq Hp); assumption.
Qed.

Lemma cbackward_b f F W r y acc (m0 : mem) rs :
  let W0 := getW F W in let N := knoutputs t r in
  koverwrite t = false -> loop_trace (kR t) (kincrement t) 0 rs -> In r rs ->
  ainplace t = (W0 =? F) ->
  separate SS CC f L W0 N -> separate SS CC f L F N -> (W0 = F \/ separate SS CC W0 N F N) ->
  has SS CC F N y m0 -> allocated SS CC W0 N m0 -> allocated SS CC f L m0 ->
  (r <> 0 -> has SS CC f L acc m0) ->
  WP (cbackward t F f r W) m0 (fun m' =>
    has SS CC f L (fun j c => Cadd (if r =? 0 then C0 else acc j c)
       (cpartial_inverse M L N (kindex t r) (fun i => y i c) j)) m' /\
    only (fun a => word SS CC f L a \/ word SS CC W0 N a \/ word SS CC F N a) m0 m').
Proof.
  intros W0 N How Htr Hr Hin H1 H2 H3 Hy Ha1 Ha2 Hacc.
  eapply WP_mono; [|apply (cbackward_spec f F W r y acc m0); try assumption].
  - fold W0 N. intros m' (A1 & A2 & A3). split; [exact A1|]. split; [|assumption].
    intros a Hn. apply A2; intros Hw; apply Hn; [left|right; left|right; right]; exact Hw.
  - eapply kpass; eassumption.
  - apply sep_sepbuf; assumption.
  - destruct H3; [auto|right; apply sep_sepbuf; assumption].
Qed.

Lemma cpasses_b rs (y : nat -> C) j : loop_trace (kR t) (kincrement t) 0 rs ->
  Clist rs (fun r => cpartial_inverse M L (knoutputs t r) (kindex t r) (fun i => y (kindex t r i)) j) = cipdft M L y j.
Proof.
  intros Htr. unfold cipdft, cpartial_inverse. rewrite <- csl_seq, (csl_perm _ _ _ (kindex_perm t Hwf rs Htr)).
  rewrite csl_flat_map. change Clist with (@csl nat). apply csl_ext. intros r Hr.
  rewrite csl_map, csl_seq. reflexivity.
Qed.

Lemma cipdft_cpdft (x : nat -> C) j : j < L -> L <= M ->
  cipdft M L (fun k => cpdft M L x k) j = Cmul (RtoC (INR M)) (x j).
Proof.
  intros Hj HM. rewrite <- (idft_outv M L x j Hj HM). unfold cipdft, cpartial_inverse, idft. apply Csum_ext. intros k Hk.
  rewrite <- outc_cpdft, <- zeta_c_neg. unfold outc, outv. rewrite <- !Csum_mul_r. apply Csum_ext. intros a Ha.
  rewrite <- !Cmul_assoc. f_equal. rewrite <- !zeta_add. f_equal. ring.
Qed.
Lemma kL_M : L <= M.
Proof. pose proof Hwf as (_ & H2 & _ & _ & _ & _ & H7 & _). lia. Qed.

Notation N := (l * D).
Lemma knout_N r : knoutputs t r <= N.
Proof.
  pose proof (nout_N (sh t) (sh_wf t Hwf) r) as Hn. rewrite sh_nout, sh_gl, sh_D in Hn by assumption. exact Hn.
Qed.

(** the caller's loop: forward then backward for every residue *)
Lemma croundtrip_b f F h W x (m0 : mem) rs :
  let W0 := getW F W in
  koverwrite t = false -> loop_trace (kR t) (kincrement t) 0 rs ->
  ainplace t = (W0 =? F) ->
  separate SS CC f L W0 N -> separate SS CC f L F N -> (W0 = F \/ separate SS CC W0 N F N) ->
  separate SS CC h L W0 N -> separate SS CC h L F N -> separate SS CC f L h L ->
  has SS CC f L x m0 -> allocated SS CC W0 N m0 -> allocated SS CC F N m0 -> allocated SS CC h L m0 ->
  WP (rfor rs (fun r => Seq (cforward t f F r W) (cbackward t F h r W))) m0 (fun m' =>
    has SS CC h L (fun j c => Cmul (RtoC (INR M)) (x j c)) m' /\
    has SS CC f L x m' /\
    only (fun a => word SS CC F N a \/ word SS CC W0 N a \/ word SS CC h L a) m0 m').
Proof.
  intros W0 How Htr Hin H1 H2 H3 H4 H5 H6 Hx Ha1 Ha2 Ha3.
  pose proof (trace_res (sh t) (sh_wf t Hwf) rs (ktrace t Hwf rs Htr)) as ER.
  set (wr := fun a => word SS CC F N a \/ word SS CC W0 N a \/ word SS CC h L a).
  assert (Hfw : forall i c, i < L -> c < CC -> ~ wr (f + SS * i + c)).
  { intros i c Hi Hc [Hw|[Hw|Hw]]; [apply (H2 (f + SS * i + c))|apply (H1 (f + SS * i + c))|apply (H6 (f + SS * i + c))]; try exact Hw; exists i, c; auto. }
  set (y := fun r c i => cpdft M L (fun j => x j c) (kindex t r i)).
  set (acc := fun done c j => csl done (fun r => cpartial_inverse M L (knoutputs t r) (kindex t r) (y r c) j)).
  assert (G : forall rest done (mm : mem), rs = done ++ rest ->
    (done <> [] -> has SS CC h L (fun j c => acc done c j) mm) ->
    only wr m0 mm ->
    WP (rfor rest (fun r => Seq (cforward t f F r W) (cbackward t F h r W))) mm (fun m' =>
      has SS CC h L (fun j c => Cmul (RtoC (INR M)) (x j c)) m' /\ has SS CC f L x m' /\ only wr m0 m')).
  { induction rest as [|r rest IH]; intros done mm E Hacc [Hfr Hal].
    - cbn [rfor]. apply WP_skip. rewrite app_nil_r in E. split; [|split; [|split; assumption]].
      + intros j c Hj Hc. rewrite Hacc; [|rewrite <- E|assumption|assumption].
        * f_equal. unfold acc. rewrite <- E. rewrite <- (cipdft_cpdft (fun j => x j c) j Hj kL_M).
          apply (cpasses_b rs (fun k => cpdft M L (fun j => x j c) k) j Htr).
        * destruct (residues_shape (sh t) (sh_wf t Hwf)) as (k & ER' & _). rewrite ER, ER'. discriminate.
      + intros i c Hi Hc. rewrite Hfr by (apply Hfw; assumption). apply Hx; assumption.
    - cbn [rfor]. assert (Hr : In r rs) by (rewrite E; apply in_or_app; right; left; reflexivity).
      pose proof (kpass t Hwf rs r Htr Hr) as Hpr. pose proof (knout_N r) as HN.
      assert (Hle : forall X, word SS CC X (knoutputs t r) = word SS CC X (knoutputs t r)) by reflexivity. clear Hle.
      assert (Hinb : forall X a, word SS CC X (knoutputs t r) a -> word SS CC X N a).
      { intros X a (i & c & Hi & Hc & E'). exists i, c. repeat split; auto. lia. }
      assert (Hs : forall X k Y, separate SS CC X k Y N -> separate SS CC X k Y (knoutputs t r)).
      { intros X k Y Hs a Ha Hb. apply (Hs a Ha (Hinb _ _ Hb)). }
      assert (HWF : W0 = F \/ separate SS CC W0 (knoutputs t r) F (knoutputs t r)).
      { destruct H3 as [|H3]; [auto|right]. intros a Ha Hb. apply (H3 a (Hinb _ _ Ha) (Hinb _ _ Hb)). }
      assert (Hal' : forall X, allocated SS CC X N m0 -> forall m9 : mem, (forall a, m0 a <> Unalloc -> m9 a <> Unalloc) -> allocated SS CC X (knoutputs t r) m9).
      { intros X HX m9 H9 i c Hi Hc. apply H9, HX; [lia|assumption]. }
      apply WP_seq, WP_seq.
      eapply WP_mono; [|apply (cforward_b t Hwf f F W r x mm rs); auto].
      2:{ intros i c Hi Hc. rewrite Hfr by (apply Hfw; assumption). apply Hx; assumption. }
      intros m1 (V1 & F1 & O1 & A1).
      assert (Hwh : forall i c, i < L -> c < CC -> ~ word SS CC F N (h + SS * i + c) /\ ~ word SS CC W0 N (h + SS * i + c)).
      { intros i c Hi Hc. split; intros Hw; [apply (H5 (h + SS * i + c))|apply (H4 (h + SS * i + c))]; try exact Hw; exists i, c; auto. }
      eapply WP_mono; [|apply (cbackward_b h F W r (fun i c => y r c i) (fun j c => acc done c j) m1 rs); auto].
      + intros m2 (V2 & O2 & A2). apply (IH (done ++ [r])).
        * rewrite <- app_assoc. assumption.
        * intros _ j c Hj Hc. rewrite V2 by assumption. f_equal. unfold acc. rewrite csl_app. cbn [csl fold_right].
          destruct (Nat.eqb_spec r 0) as [Er|Hr0].
          -- assert (done = []).
             { destruct done as [|d done]; [reflexivity|]. exfalso. cbn [app] in E.
               destruct (residues_shape (sh t) (sh_wf t Hwf)) as (k & ER' & _ & _ & H0 & _). rewrite ER, ER' in E. injection E as E1 E.
               assert (Hi0 : In r (map (fun i => increment (sh t) 0 + gdr (sh t) * i) (seq 0 k))) by (rewrite E; apply in_or_app; right; left; reflexivity).
               apply in_map_iff in Hi0. destruct Hi0 as (i & Ei & _). lia. }
             subst done. cbn [csl fold_right]. change (fun i => y r c i) with (y r c). ring.
          -- change (fun i => y r c i) with (y r c). ring.
        * split; [|auto]. intros a Ha. rewrite O2, O1, Hfr; auto.
          -- intros [Hw|Hw]; apply Ha; [left|right; left]; apply Hinb; exact Hw.
          -- intros [Hw|[Hw|Hw]]; apply Ha; [right; right; exact Hw|right; left; apply Hinb; exact Hw|left; apply Hinb; exact Hw].
      + intros i c Hi Hc. apply A1, Hal, Ha3; assumption.
      + intros Hr0 j c Hj Hc. destruct (Hwh j c Hj Hc) as [Q1 Q2].
        rewrite O1; [apply Hacc; auto|]. 2:{ intros [Hw|Hw]; [apply Q1|apply Q2]; apply Hinb; exact Hw. }
        intros Ed. rewrite Ed in E. cbn [app] in E.
        destruct (residues_shape (sh t) (sh_wf t Hwf)) as (k & ER' & _). rewrite ER, ER' in E. injection E as E1 _. congruence. }
  apply (G rs []); [reflexivity|contradiction|split; auto].
Qed.

(** overwrite mode *)
Lemma csum3 (h : Z -> C) : q <> 1 -> n = 3 -> (forall k k', (k mod Z.of_nat M = k' mod Z.of_nat M)%Z -> h k = h k') ->
  Csum 3 (fun b => Csum P (fun u => Csum m (fun k => h (Z.of_nat q * Z.of_nat k + Z.of_nat n * Z.of_nat u + rh3 b)%Z))) =
  Csum M (fun k => h (Z.of_nat k)).
Proof.
  intros Hq Hn Hper. pose proof (k_Mpos t Hwf Hq) as HM. pose proof (lmP t Hq) as Hl.
  assert (EM : M = l * 3) by (unfold kM; rewrite (k_q t Hwf Hq), Hl, Hn; lia).
  assert (Hb : forall z, Csum P (fun u => Csum m (fun k => h (Z.of_nat q * Z.of_nat k + Z.of_nat n * Z.of_nat u + z)%Z)) =
    Csum l (fun i => h (3 * Z.of_nat i + z)%Z)).
  { intros z. rewrite Csum_swap. rewrite Hl. rewrite (Csum_mul_nat m P). apply Csum_ext. intros k Hk. apply Csum_ext. intros u Hu.
    f_equal. rewrite (k_q t Hwf Hq), Hn. lia. }
  rewrite (Csum_ext 3 _ (fun b => Csum l (fun i => h (3 * Z.of_nat i + rh3 b)%Z))) by (intros; apply Hb).
  assert (E2 : Csum l (fun i => h (3 * Z.of_nat i + Z.opp 1)%Z) = Csum l (fun i => h (3 * Z.of_nat i + 2)%Z)).
  { rewrite (Csum_ext l _ (fun i => h (3 * (Z.of_nat i - 1) + 2)%Z)) by (intros; f_equal; lia).
    apply (cyc_shift l (fun z => h (3 * z + 2)%Z)). intros k. apply Hper. rewrite EM.
    replace (3 * (k + Z.of_nat l) + 2)%Z with (3 * k + 2 + 1 * Z.of_nat (l * 3))%Z by lia. apply Z.mod_add. lia. }
  transitivity (Cadd (Cadd (Csum l (fun i => h (3 * Z.of_nat i + 0)%Z)) (Csum l (fun i => h (3 * Z.of_nat i + 1)%Z))) (Csum l (fun i => h (3 * Z.of_nat i + 2)%Z))).
  { rewrite <- E2. cbn [Csum rh3]. ring. }
  rewrite EM, Csum_mul_nat. rewrite <- !Csum_add. apply Csum_ext. intros i Hi. cbn [Csum].
  replace (Z.of_nat (3 * i + 0)) with (3 * Z.of_nat i + 0)%Z by lia.
  replace (Z.of_nat (3 * i + 1)) with (3 * Z.of_nat i + 1)%Z by lia.
  replace (Z.of_nat (3 * i + 2)) with (3 * Z.of_nat i + 2)%Z by lia. ring.
Qed.

Lemma cobackward_b f F r W (Y : nat -> nat -> C) (m0 : mem) : koverwrite t = true ->
  separate SS CC f L F l ->
  (forall u, u < P -> has SS CC (f + SS * (m * u)) m (fun k c => Y c (q * k + n * u)) m0 /\
     has SS CC (f + SS * (l + m * u)) m (fun k c => Y c (q * k + n * u + 1)) m0 /\
     has SS CC (F + SS * (m * u)) m (fun k c => Y c ((q * k + n * u + (M - 1)) mod M)) m0) ->
  WP (cbackward t F f r W) m0 (fun m' =>
    has SS CC f L (fun j c => cipdft M L (Y c) j) m' /\
    only (fun a => word SS CC F l a \/ word SS CC f L a) m0 m').
Proof.
  intros Hov Hsep Hsrc.
  assert (Hq : q <> 1) by (apply ov_q; assumption).
  apply sep_sepbuf in Hsep. destruct (k_cg t Hwf Hq) as [Gm GP _ _ _ _]. pose proof (lmP t Hq) as Hl.
  destruct (ov_facts t Hov) as (_ & HL & Hn & HD). pose proof (k_Mpos t Hwf Hq) as HM.
  assert (Eq : q = P * 3) by (rewrite (k_q t Hwf Hq), Hn; reflexivity).
  set (YZ := fun c (k : Z) => Y c (Z.to_nat (k mod Z.of_nat M))).
  set (y := fun i c => YZ c (Z.of_nat q * Z.of_nat (i mod m) + Z.of_nat n * Z.of_nat (i mod l / m) + rh3 (i / l))%Z).
  assert (Ey : forall b u k c, u < P -> k < m -> y (l * b + (m * u + k)) c = YZ c (Z.of_nat q * Z.of_nat k + Z.of_nat n * Z.of_nat u + rh3 b)%Z).
  { intros b u k c Hu Hk. assert (Hlt : m * u + k < l) by (rewrite Hl; nia). unfold y.
    assert (F3 : (l * b + (m * u + k)) / l = b) by (symmetry; apply (Nat.div_unique _ _ _ (m * u + k)); lia).
    assert (F4 : (l * b + (m * u + k)) mod m = k) by (symmetry; apply (Nat.mod_unique _ _ (P * b + u)); [lia|rewrite Hl; lia]).
    assert (F5 : (l * b + (m * u + k)) mod l = m * u + k) by (symmetry; apply (Nat.mod_unique _ _ b); lia).
    assert (F6 : (m * u + k) / m = u) by (symmetry; apply (Nat.div_unique _ _ _ k); lia).
    rewrite F3, F4, F5, F6. reflexivity. }
  assert (Hsrc3 : forall i c, i < l * 3 -> c < CC -> m0 (adr3 t f F i + c) = Val (y i c)).
  { intros i c Hi Hc. destruct (tau_cases m P Gm GP i) as (b & u & k & Hu & Hk & E). rewrite <- Hl in E.
    assert (Hlt : m * u + k < l) by (rewrite Hl; nia).
    assert (Hb : b < 3) by (destruct (Nat.lt_ge_cases b 3); [assumption|]; assert (l * 3 <= l * b) by (apply Nat.mul_le_mono_l; assumption); lia).
    subst i. rewrite Ey by assumption. unfold YZ. destruct (Hsrc u Hu) as (S0 & S1 & S2).
    assert (Hmax : q * k + n * u + 1 < M).
    { unfold kM. rewrite Eq, Hn. nia. }
    destruct b as [|[|[|b]]]; [| | |lia]; cbn [rh3].
    - rewrite Nat.mul_0_r. cbn [Nat.add]. rewrite adr3_0 by assumption.
      replace (f + SS * (m * u + k) + c) with (f + SS * (m * u) + SS * k + c) by lia. rewrite S0 by assumption. do 2 f_equal.
      rewrite Z.mod_small by lia. lia.
    - rewrite Nat.mul_1_r. rewrite adr3_1 by assumption. unfold kb.
      replace (f + SS * l + SS * (m * u + k) + c) with (f + SS * (l + m * u) + SS * k + c) by lia. rewrite S1 by assumption. do 2 f_equal.
      rewrite Z.mod_small by lia. lia.
    - rewrite adr3_2 by assumption.
      replace (F + SS * (m * u + k) + c) with (F + SS * (m * u) + SS * k + c) by lia. rewrite S2 by assumption. do 2 f_equal.
      replace (Z.of_nat q * Z.of_nat k + Z.of_nat n * Z.of_nat u + Z.opp 1)%Z with
        (Z.of_nat (q * k + n * u + (M - 1)) + (- 1) * Z.of_nat M)%Z by lia.
      rewrite Z.mod_add by lia. rewrite <- Nat2Z.inj_mod, Nat2Z.id. reflexivity. }
  assert (Hw : WP (cbackward t F f r W) m0 (bdone SS CC f L F F l (bsum t 3 rh3 y) m0)).
  { unfold cbackward. rewrite Hov. destruct (Nat.eqb_spec q 1); [contradiction|].
    destruct (two_p t Hwf Hq) as [Hp|Hp].
    - destruct (Nat.ltb_spec 2 (kp t)) as [_|]; [|lia]. destruct (Nat.eqb_spec SS 1) as [HS|HS].
      + apply (backwardInnerAll_ok t Hwf Hov); assumption.
      + apply (backwardInnerManyAll_ok t Hwf Hov); assumption.
    - destruct (Nat.ltb_spec 2 (kp t)) as [|_]; [lia|]. destruct (Nat.eqb_spec SS 1) as [HS|HS].
      + apply (backward2All_ok t Hwf Hov); assumption.
      + apply (backward2ManyAll_ok t Hwf Hov); assumption. }
  eapply WP_mono; [|exact Hw]. clear Hw. intros m' (A1 & A2 & A3). split; [|split; [|assumption]].
  - intros j c Hj Hc. rewrite A1 by assumption. f_equal.
    set (h := fun z => Cmul (YZ c z) (zeta M (- ((Z.of_nat j - Z.of_nat (L / 2)) * z)))).
    transitivity (Csum 3 (fun b => Csum P (fun u => Csum m (fun k => h (Z.of_nat q * Z.of_nat k + Z.of_nat n * Z.of_nat u + rh3 b)%Z)))).
    { unfold bsum. apply Csum_ext. intros b Hb. unfold cb. apply Csum_ext. intros u Hu. apply Csum_ext. intros k Hk.
      rewrite Ey by assumption. unfold h. rewrite <- (k_qq t Hwf Hq), <- (k_M t Hwf Hq). reflexivity. }
    rewrite (csum3 h Hq Hn).
    + unfold cipdft, cpartial_inverse. apply Csum_ext. intros k Hk. unfold h, YZ. rewrite zeta_c_neg. f_equal. f_equal.
      rewrite Z.mod_small by lia. lia.
    + intros k k' E. unfold h, YZ. rewrite E. f_equal. apply zeta_mod_eq; [assumption|].
      rewrite <- !Z.mul_opp_l. rewrite Z.mul_mod, E, <- Z.mul_mod by lia. reflexivity.
  - intros a Hn'. apply A2; intros Hw; apply Hn'; [right|left|left]; exact Hw.
Qed.
End T.
