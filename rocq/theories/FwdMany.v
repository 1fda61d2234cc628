(** forwardExplicit, forwardExplicitMany, forward1Many, forward2Many, forwardInnerMany. *)
From Coq Require Import Reals ZArith Arith Lia List Bool.
From Verif Require Import CNum Sums Roots Mem VecModel VecProofs PadModel PadKernels Loops
  PadLemmas PadMath PadGeom Fwd1 FwdI.

(** C interleaved columns of stride S *)
Lemma WP_smap (CC SS F lo hi : nat) body inner (g : nat -> nat -> C) (m0 : mem) (K : mem -> Prop) :
  CC <= SS ->
  (forall s, lo <= s < hi -> body s = pForR 0 CC (inner s)) ->
  (forall s c, lo <= s < hi -> c < CC ->
     wp (fun a => forall i c', lo <= i < hi -> c' < CC -> F + SS * i + c' <> a)
        (eq (F + SS * s + c)) (inner s c) m0 (fun m' => m' (F + SS * s + c) = Val (g s c))) ->
  (forall m', (forall s c, lo <= s < hi -> c < CC -> m' (F + SS * s + c) = Val (g s c)) ->
     (forall a, (forall s c, lo <= s < hi -> c < CC -> F + SS * s + c <> a) -> m' a = m0 a) ->
     (forall a, m0 a <> Unalloc -> m' a <> Unalloc) -> K m') ->
  WP (ParFor lo hi body) m0 K.
Proof.
  intros HCS Hb Hleaf HK.
  apply WP_map2 with (lo2 := 0) (hi2 := CC) (inner := inner) (dst := fun s c => F + SS * s + c) (g := g);
    unfold rng.
  - assumption.
  - intros s c s' c' Hs Hc Hs' Hc' E. apply (stride_inj SS); lia.
  - intros s c Hs Hc. eapply wp_weaken; [| |apply Hleaf; [exact Hs|lia]].
    + intros a Ha. left. intros; apply Ha; lia.
    + auto.
  - intros m' H1 H2 H3. apply HK; [intros; apply H1; lia| |assumption].
    intros a Ha. apply H2. intros; apply Ha; lia.
Qed.

(** the c loop alone: element 0 of every column *)
Lemma WP_cmap (CC F : nat) body (g : nat -> C) (m0 : mem) (K : mem -> Prop) :
  (forall c, c < CC ->
     wp (fun a => forall c', c' < CC -> F + c' <> a)
        (eq (F + c)) (body c) m0 (fun m' => m' (F + c) = Val (g c))) ->
  (forall m', (forall c, c < CC -> m' (F + c) = Val (g c)) ->
     (forall a, (forall c, c < CC -> F + c <> a) -> m' a = m0 a) ->
     (forall a, m0 a <> Unalloc -> m' a <> Unalloc) -> K m') ->
  WP (ParFor 0 CC body) m0 K.
Proof.
  intros Hleaf HK. apply WP_map1 with (dst := fun c => F + c) (g := g); unfold rng.
  - intros; lia.
  - intros c Hc. eapply wp_weaken; [| |apply Hleaf; lia].
    + intros a Ha. left. intros; apply Ha; lia.
    + auto.
  - intros m' H1 H2 H3. apply HK; [intros; apply H1; lia| |assumption].
    intros a Ha. apply H2. intros; apply Ha; lia.
Qed.

Lemma WP_smap3 (CC SS m Sm F lo hi lo2 : nat) body inner inner2 (g : nat -> nat -> nat -> C)
  (m0 : mem) (K : mem -> Prop) :
  CC <= SS -> Sm = SS * m ->
  (forall u, lo <= u < hi -> body u = pForR lo2 m (inner u)) ->
  (forall u s, lo <= u < hi -> lo2 <= s < m -> inner u s = pForR 0 CC (inner2 u s)) ->
  (forall u s c, lo <= u < hi -> lo2 <= s < m -> c < CC ->
     wp (fun a => forall u' s' c', lo <= u' < hi -> lo2 <= s' < m -> c' < CC ->
           F + SS * (m * u' + s') + c' <> a)
        (eq (F + Sm * u + SS * s + c)) (inner2 u s c) m0
        (fun m' => m' (F + Sm * u + SS * s + c) = Val (g u s c))) ->
  (forall m', (forall u s c, lo <= u < hi -> lo2 <= s < m -> c < CC ->
        m' (F + SS * (m * u + s) + c) = Val (g u s c)) ->
     (forall a, (forall u s c, lo <= u < hi -> lo2 <= s < m -> c < CC ->
        F + SS * (m * u + s) + c <> a) -> m' a = m0 a) ->
     (forall a, m0 a <> Unalloc -> m' a <> Unalloc) -> K m') ->
  WP (ParFor lo hi body) m0 K.
Proof.
  intros HCS -> Hb Hb2 Hleaf HK.
  assert (E : forall u s c, F + SS * m * u + SS * s + c = F + SS * (m * u + s) + c) by (intros; lia).
  apply WP_map3 with (lo2 := lo2) (hi2 := m) (lo3 := 0) (hi3 := CC) (inner := inner) (inner2 := inner2)
    (dst := fun u s c => F + SS * m * u + SS * s + c) (g := g); unfold rng.
  - assumption.
  - assumption.
  - intros u s c u' s' c' Hu Hs Hc Hu' Hs' Hc' Ed. rewrite !E in Ed.
    destruct (stride_inj SS (m * u + s) c (m * u' + s') c') as [E1 E2]; [lia|lia|lia|].
    destruct (stride_inj m u s u' s') as [E3 E4]; [lia|lia|lia|]. auto.
  - intros u s c Hu Hs Hc. eapply wp_weaken; [| |apply Hleaf; [exact Hu|exact Hs|lia]].
    + intros a Ha. left. intros. rewrite E. apply Ha; lia.
    + auto.
  - intros m' H1 H2 H3. apply HK; [intros; rewrite <- E; apply H1; lia| |assumption].
    intros a Ha. apply H2. intros. rewrite E; apply Ha; lia.
Qed.

Lemma pfor_ext (k : nat) (b1 b2 : nat -> prog C) : (forall i, i < k -> b1 i = b2 i) -> pfor k b1 = pfor k b2.
Proof.
  intros H. induction k as [|k IH]; cbn [pfor]; [reflexivity|].
  rewrite IH, H by (intros; try apply H; lia). reflexivity.
Qed.

(** reading a word no iteration writes / one's own word *)
Ltac rdo Hdis Hval := split; [left; intros; apply not_eq_sym; apply Hdis; lia|eexists; split; [apply Hval; lia|]].
Ltac rds Hval := split; [right; reflexivity|eexists; split; [apply Hval; lia|]].
Ltac wrs Hal := split; [reflexivity|split; [apply Hal; lia|]].

Section T.
Variable t : pad.
Hypothesis Hwf : wf t.
Notation L := (gL t).  Notation m := (gm t). Notation q := (gq t). Notation M := (gM t).
Notation D := (gD t). Notation p := (gp t). Notation n := (gn t). Notation CC := (gC t). Notation SS := (gS t).

Lemma m_plan sg : SS <> 1 -> fftm t sg = mkplan m sg CC SS 1 (ainplace t).
Proof.
  intros HS. unfold fftm. destruct (Nat.eqb_spec SS 1); [contradiction|]. destruct (q =? 1); reflexivity.
Qed.

Lemma many_D1 : SS <> 1 -> D = 1.
Proof.
  intros HS. destruct (Nat.eq_dec q 1) as [Hq|Hq].
  - unfold gD. rewrite Hq. reflexivity.
  - destruct (valid_D t Hwf Hq) as [|[? _]]; [assumption|contradiction].
Qed.

Hypothesis HS : SS <> 1.

Lemma RVc_in rh (x : nat -> nat -> C) c s : p = 1 -> s < L ->
  rowval m p L M rh (fun j => x j c) s = Cmul (zeta M (rh * Z.of_nat s)) (x s c).
Proof. intros -> H. rewrite rowval_1. destruct (Nat.ltb_spec s L); [ring|lia]. Qed.
Lemma RVc_out rh (x : nat -> nat -> C) c s : p = 1 -> L <= s ->
  rowval m p L M rh (fun j => x j c) s = C0.
Proof. intros -> H. rewrite rowval_1. destruct (Nat.ltb_spec s L); [lia|reflexivity]. Qed.

(** transform of one row of columns *)
Lemma row_fft W F (rh : Z) (x : nat -> nat -> C) (m0 : mem) (K : mem -> Prop) :
  ainplace t = (W =? F) ->
  (forall s c, s < m -> c < CC -> m0 (W + SS * s + c) = Val (rowval m p L M rh (fun j => x j c) s)) ->
  (forall s c, s < m -> c < CC -> m0 (F + SS * s + c) <> Unalloc) ->
  (W = F \/ forall k c k' c', k < m -> c < CC -> k' < m -> c' < CC -> W + SS * k + c <> F + SS * k' + c') ->
  (forall m', (forall k c, k < m -> c < CC -> m' (F + SS * k + c) =
        Val (outv M L (fun j => x j c) (Z.of_nat q * Z.of_nat k + rh))) ->
     (forall a, (forall k c, k < m -> c < CC -> F + SS * k + c <> a) -> m' a = m0 a) ->
     (forall a, m0 a <> Unalloc -> m' a <> Unalloc) -> K m') ->
  WP (fft (fftm t 1) W F) m0 K.
Proof.
  intros Hi Hv Ha Hd HK. rewrite m_plan by assumption.
  apply WP_fft_strided with (x := fun s c => rowval m p L M rh (fun j => x j c) s).
  - assumption.
  - apply (wf_m t Hwf).
  - apply (wf_CS t Hwf).
  - assumption.
  - assumption.
  - assumption.
  - intros m' HV HF Hal. apply HK; [|assumption|assumption].
    intros k c Hk Hc. rewrite HV by assumption. f_equal.
    change (fun j => rowval m p L M rh (fun j0 => x j0 c) j) with (rowval m p L M rh (fun j0 => x j0 c)).
    apply row_dft; [reflexivity|apply (wf_m t Hwf)|apply (q_pos t Hwf)|apply (wf_Lmp t Hwf)].
Qed.

Lemma forward1Many_spec f F W r (x : nat -> nat -> C) (m0 : mem) (K : mem -> Prop) :
  let W0 := getW F W in
  p = 1 -> r < q ->
  ainplace t = (W0 =? F) ->
  (forall i c i' c', i < L -> c < CC -> i' < m -> c' < CC -> f + SS * i + c <> W0 + SS * i' + c') ->
  (forall i c i' c', i < L -> c < CC -> i' < m -> c' < CC -> f + SS * i + c <> F + SS * i' + c') ->
  (W0 = F \/ forall i c i' c', i < m -> c < CC -> i' < m -> c' < CC -> W0 + SS * i + c <> F + SS * i' + c') ->
  (forall s c, s < L -> c < CC -> m0 (f + SS * s + c) = Val (x s c)) ->
  (forall s c, s < m -> c < CC -> m0 (W0 + SS * s + c) <> Unalloc) ->
  (forall s c, s < m -> c < CC -> m0 (F + SS * s + c) <> Unalloc) ->
  (ainplace t = false -> forall s c, L <= s < m -> c < CC -> m0 (W0 + SS * s + c) = Val C0) ->
  (forall m',
     (forall k c, k < m -> c < CC -> m' (F + SS * k + c) =
        Val (outv M L (fun j => x j c) (Z.of_nat q * Z.of_nat k + Z.of_nat r))) ->
     (forall a, (forall i c, i < m -> c < CC -> F + SS * i + c <> a) ->
        (forall s c, s < L -> c < CC -> W0 + SS * s + c <> a) -> m' a = m0 a) ->
     (forall a, m0 a <> Unalloc -> m' a <> Unalloc) -> K m') ->
  WP (forward1Many t f F r W) m0 K.
Proof.
  intros W0 Hp Hr Hi Hdw Hdf Hwd Hx Hwa Hfa Hpad HK.
  pose proof (wf_L t Hwf) as HL1. pose proof (wf_m t Hwf) as Hm1. pose proof (wf_CS t Hwf) as HCS.
  pose proof (wf_Lmp t Hwf) as HLm. rewrite Hp, Nat.mul_1_r in HLm. pose proof (wf_C t Hwf) as HC1.
  unfold forward1Many. fold W0. cbv zeta. clearbody W0. apply WP_seq.
  assert (Hcont : forall m1 : mem,
     (forall s c, L <= s < m -> c < CC -> m1 (W0 + SS * s + c) = Val C0) ->
     (forall a, (forall i c, i < m -> c < CC -> F + SS * i + c <> a) -> m1 a = m0 a) ->
     (forall s c, s < L -> c < CC -> m1 (f + SS * s + c) = Val (x s c)) ->
     (forall a, m0 a <> Unalloc -> m1 a <> Unalloc) ->
     WP (if r =? 0 then if negb (ainplace t) && (m <=? L) && (SS =? CC) then fft (fftm t 1) f F
        else Seq (ParFor 0 L (fun s => pForR 0 CC (fun c => x <- f + SS * s + c ;; W0 + SS * s + c ::= x ;; Ret)))
           (fft (fftm t 1) W0 F)
       else Seq (ParFor 0 CC (fun c => x <- f + c ;; W0 + c ::= x ;; Ret))
        (Seq (ParFor 1 L (fun s => Zeta <~ Zetaqm t [m * r + s] ;;
            pForR 0 CC (fun c => x <- f + SS * s + c ;; W0 + SS * s + c ::=
               ZMULTxy (UNPACKL Zeta Zeta) (UNPACKH Zeta (vneg Zeta)) x ;; Ret)))
         (fft (fftm t 1) W0 F))) m1 K).
  { intros m1 H1p H1f H1x H1a.
    assert (Hfin : forall m2 : mem,
      (forall s c, s < L -> c < CC -> m2 (W0 + SS * s + c) = Val (rowval m p L M (Z.of_nat r) (fun j => x j c) s)) ->
      (forall a, (forall s c, s < L -> c < CC -> W0 + SS * s + c <> a) -> m2 a = m1 a) ->
      (forall a, m1 a <> Unalloc -> m2 a <> Unalloc) -> WP (fft (fftm t 1) W0 F) m2 K).
    { intros m2 H2v H2f H2a. apply row_fft with (rh := Z.of_nat r) (x := x); [assumption| | |assumption|].
      - intros s c Hs Hc. destruct (Nat.lt_ge_cases s L); [apply H2v; assumption|].
        rewrite RVc_out by assumption. rewrite H2f; [apply H1p; lia|].
        intros s' c' Hs' Hc' E. destruct (stride_inj SS s' c' s c); lia.
      - auto.
      - intros m3 HV HF Hal. apply HK; [assumption| |auto].
        intros a Ha Hb. rewrite HF, H2f, H1f by assumption. reflexivity. }
    destruct (Nat.eqb_spec r 0) as [->|Hr0].
    - destruct (negb (ainplace t) && (m <=? L) && (SS =? CC)) eqn:Ed.
      + apply andb_true_iff in Ed. destruct Ed as [Ed _]. apply andb_true_iff in Ed. destruct Ed as [Ed1 Ed2].
        apply negb_true_iff in Ed1. apply Nat.leb_le in Ed2.
        apply row_fft with (rh := 0%Z) (x := x).
        * rewrite Ed1. symmetry. apply Nat.eqb_neq. intros E. apply (Hdf 0 0 0 0); lia.
        * intros s c Hs Hc. rewrite RVc_in by (assumption || lia). rewrite H1x by lia.
          rewrite Z.mul_0_l, zeta_0. f_equal. ring.
        * auto.
        * right. intros; apply Hdf; lia.
        * intros m2 HV HF Hal. apply HK; [assumption| |auto].
          intros a Ha Hb. rewrite HF, H1f by assumption. reflexivity.
      + apply WP_seq. apply WP_smap with (CC := CC) (SS := SS) (F := W0) (g := x)
          (inner := fun s c => x <- f + SS * s + c ;; W0 + SS * s + c ::= x ;; Ret).
        * assumption.
        * reflexivity.
        * intros s c Hs Hc. cbn [wp]. rdo Hdw H1x.
          split; [reflexivity|split; [apply H1a, Hwa; lia|apply upd_get; reflexivity]].
        * intros m2 H2v H2f H2a. apply Hfin; [| |assumption].
          -- intros s c Hs Hc. rewrite RVc_in by assumption. rewrite Z.mul_0_l, zeta_0, H2v by lia. f_equal. ring.
          -- intros a Ha. apply H2f. intros; apply Ha; lia.
    - apply WP_seq. apply WP_cmap with (F := W0) (g := x 0).
      { intros c Hc. cbn [wp]. split; [left; intros c' Hc' E; apply (Hdw 0 c 0 c'); lia|].
        exists (x 0 c). split; [replace (f + c) with (f + SS * 0 + c) by lia; apply H1x; lia|].
        split; [reflexivity|split; [|apply upd_get; reflexivity]].
        replace (W0 + c) with (W0 + SS * 0 + c) by lia. apply H1a, Hwa; lia. }
      intros m2 H2v H2f H2a. apply WP_seq.
      apply WP_smap with (CC := CC) (SS := SS) (F := W0) (g := fun s c => rowval m p L M (Z.of_nat r) (fun j => x j c) s)
          (inner := fun s c => x <- f + SS * s + c ;; W0 + SS * s + c ::=
             ZMULTxy (UNPACKL (zeta M (Z.of_nat (r * s))) (zeta M (Z.of_nat (r * s))))
               (UNPACKH (zeta M (Z.of_nat (r * s))) (vneg (zeta M (Z.of_nat (r * s))))) x ;; Ret).
      { assumption. }
      { intros s Hs. rewrite (tget_some _ _ (zeta M (Z.of_nat (r * s))) _); [reflexivity|].
        apply initZetaqm_get; lia. }
      { intros s c Hs Hc. cbn [wp]. split; [left; intros; apply not_eq_sym, Hdw; lia|].
        exists (x s c). split.
        { rewrite H2f; [apply H1x; lia|]. intros c' Hc' E. apply (Hdw s c 0 c'); lia. }
        split; [reflexivity|split; [apply H2a, H1a, Hwa; lia|apply upd_get; [reflexivity|]]].
        rewrite ZMULTxy_eq, RVc_in by (assumption || lia). f_equal. f_equal. lia. }
      intros m3 H3v H3f H3a. apply Hfin; [| |auto].
      + intros s c Hs Hc. destruct (Nat.eq_dec s 0) as [->|]; [|apply H3v; lia].
        rewrite H3f; [|intros s' c' Hs' Hc' E; destruct (stride_inj SS s' c' 0 c); lia].
        rewrite RVc_in by assumption. rewrite Z.mul_0_r, zeta_0, Nat.mul_0_r, Nat.add_0_r.
        rewrite H2v by assumption. f_equal. ring.
      + intros a Ha. rewrite H3f, H2f; [reflexivity| |].
        * intros c Hc E. apply (Ha 0 c); lia.
        * intros; apply Ha; lia. }
  destruct (ainplace t) eqn:Ei.
  - apply WP_smap with (CC := CC) (SS := SS) (F := W0) (g := fun _ _ => C0)
       (inner := fun s c => W0 + SS * s + c ::= C0 ;; Ret).
    + assumption.
    + reflexivity.
    + intros s c Hs Hc. cbn [wp]. split; [reflexivity|split; [apply Hwa; lia|apply upd_get; reflexivity]].
    + intros m1 H1v H1f H1a. symmetry in Hi. apply Nat.eqb_eq in Hi. subst W0. apply Hcont; auto.
      * intros a Ha. apply H1f. intros; apply Ha; lia.
      * intros s c Hs Hc. rewrite H1f; [apply Hx; assumption|].
        intros. apply not_eq_sym, Hdw; lia.
  - apply WP_skip. apply Hcont; auto.
Qed.

Lemma RV2_in rh (x : nat -> nat -> C) c s : p = 2 -> s < L - m ->
  rowval m p L M rh (fun j => x j c) s =
  Cadd (Cmul (zeta M (rh * Z.of_nat s)) (x s c)) (Cmul (zeta M (rh * Z.of_nat (m + s))) (x (m + s) c)).
Proof.
  intros Hp H. pose proof (wf_Lmp t Hwf) as HLm. pose proof (wf_mpL t Hwf) as HmL.
  rewrite Hp in *. cbn [Nat.sub] in HmL.
  rewrite rowval_2 by lia. destruct (Nat.ltb_spec s (L - m)); [ring|lia].
Qed.
Lemma RV2_out rh (x : nat -> nat -> C) c s : p = 2 -> L - m <= s -> s < m ->
  rowval m p L M rh (fun j => x j c) s = Cmul (zeta M (rh * Z.of_nat s)) (x s c).
Proof.
  intros Hp H Hs. pose proof (wf_Lmp t Hwf) as HLm. pose proof (wf_mpL t Hwf) as HmL.
  rewrite Hp in *. cbn [Nat.sub] in HmL.
  rewrite rowval_2 by lia. destruct (Nat.ltb_spec s (L - m)); [lia|ring].
Qed.

Lemma forward2Many_spec f F W r (x : nat -> nat -> C) (m0 : mem) (K : mem -> Prop) :
  let W0 := getW F W in
  p = 2 -> r < q ->
  ainplace t = (W0 =? F) ->
  (forall i c i' c', i < L -> c < CC -> i' < m -> c' < CC -> f + SS * i + c <> W0 + SS * i' + c') ->
  (forall i c i' c', i < L -> c < CC -> i' < m -> c' < CC -> f + SS * i + c <> F + SS * i' + c') ->
  (W0 = F \/ forall i c i' c', i < m -> c < CC -> i' < m -> c' < CC -> W0 + SS * i + c <> F + SS * i' + c') ->
  (forall s c, s < L -> c < CC -> m0 (f + SS * s + c) = Val (x s c)) ->
  (forall s c, s < m -> c < CC -> m0 (W0 + SS * s + c) <> Unalloc) ->
  (forall s c, s < m -> c < CC -> m0 (F + SS * s + c) <> Unalloc) ->
  (forall m',
     (forall k c, k < m -> c < CC -> m' (F + SS * k + c) =
        Val (outv M L (fun j => x j c) (Z.of_nat q * Z.of_nat k + Z.of_nat r))) ->
     (forall a, (forall i c, i < m -> c < CC -> F + SS * i + c <> a) ->
        (forall s c, s < m -> c < CC -> W0 + SS * s + c <> a) -> m' a = m0 a) ->
     (forall a, m0 a <> Unalloc -> m' a <> Unalloc) -> K m') ->
  WP (forward2Many t f F r W) m0 K.
Proof.
  intros W0 Hp Hr Hi Hdw Hdf Hwd Hx Hwa Hfa HK.
  pose proof (wf_L t Hwf) as HL1. pose proof (wf_m t Hwf) as Hm1. pose proof (wf_CS t Hwf) as HCS.
  pose proof (wf_Lmp t Hwf) as HLm. pose proof (wf_mpL t Hwf) as HmL. pose proof (wf_C t Hwf) as HC1.
  assert (HL2 : L <= 2 * m /\ m < L) by (rewrite Hp in *; cbn [Nat.sub] in *; lia).
  clear HLm HmL.
  assert (Eg : forall s c, f + gSm t + SS * s + c = f + SS * (m + s) + c) by (intros; unfold gSm; lia).
  assert (Eg0 : forall c, f + gSm t + c = f + SS * m + c) by (intros; unfold gSm; lia).
  unfold forward2Many. fold W0. cbv zeta. clearbody W0. apply WP_seq.
  assert (Hfin : forall m2 : mem,
      (forall s c, s < m -> c < CC -> m2 (W0 + SS * s + c) = Val (rowval m p L M (Z.of_nat r) (fun j => x j c) s)) ->
      (forall a, (forall s c, s < m -> c < CC -> W0 + SS * s + c <> a) -> m2 a = m0 a) ->
      (forall a, m0 a <> Unalloc -> m2 a <> Unalloc) -> WP (fft (fftm t 1) W0 F) m2 K).
  { intros m2 H2v H2f H2a. apply row_fft with (rh := Z.of_nat r) (x := x); [assumption|assumption|auto|assumption|].
    intros m3 HV HF Hal. apply HK; [assumption| |auto].
    intros a Ha Hb. rewrite HF, H2f by assumption. reflexivity. }
  destruct (Nat.eqb_spec r 0) as [->|Hr0].
  - apply WP_seq. apply WP_smap with (CC := CC) (SS := SS) (F := W0) (g := fun s c => Cadd (x s c) (x (m + s) c))
       (inner := fun s c => x <- f + SS * s + c ;; y <- f + gSm t + SS * s + c ;; W0 + SS * s + c ::= Cadd x y ;; Ret).
    { assumption. }
    { reflexivity. }
    { intros s c Hs Hc. cbn [wp]. rdo Hdw Hx.
      split; [left; intros; rewrite Eg; apply not_eq_sym, Hdw; lia|]. exists (x (m + s) c).
      split; [rewrite Eg; apply Hx; lia|].
      split; [reflexivity|split; [apply Hwa; lia|apply upd_get; reflexivity]]. }
    intros m1 H1v H1f H1a.
    assert (Hx1 : forall s c, s < L -> c < CC -> m1 (f + SS * s + c) = Val (x s c)).
    { intros s c Hs Hc. rewrite H1f; [apply Hx; assumption|]. intros. apply not_eq_sym, Hdw; lia. }
    apply WP_smap with (CC := CC) (SS := SS) (F := W0) (g := x)
       (inner := fun s c => x <- f + SS * s + c ;; W0 + SS * s + c ::= x ;; Ret).
    { assumption. }
    { reflexivity. }
    { intros s c Hs Hc. cbn [wp]. rdo Hdw Hx1.
      split; [reflexivity|split; [apply H1a, Hwa; lia|apply upd_get; reflexivity]]. }
    intros m2 H2v H2f H2a. apply Hfin; [| |auto].
    + intros s c Hs Hc. destruct (Nat.lt_ge_cases s (L - m)).
      * rewrite H2f; [|intros s' c' Hs' Hc' E; destruct (stride_inj SS s' c' s c); lia].
        rewrite H1v by lia. rewrite RV2_in by assumption. rewrite !Z.mul_0_l, zeta_0. f_equal. ring.
      * rewrite H2v by lia. rewrite RV2_out by assumption. rewrite !Z.mul_0_l, zeta_0. f_equal. ring.
    + intros a Ha. rewrite H2f, H1f; [reflexivity| |]; intros; apply Ha; lia.
  - apply WP_seq. apply WP_cmap with (F := W0) (g := fun c => rowval m p L M (Z.of_nat r) (fun j => x j c) 0).
    { intros c Hc. rewrite (tget_some _ _ (zeta M (Z.of_nat (r * m))) _).
      2:{ apply initZetaqmS_get; lia. }
      cbn [wp].
      split; [left; intros c' Hc' E; apply (Hdw 0 c 0 c'); lia|].
      exists (x 0 c). split; [replace (f + c) with (f + SS * 0 + c) by lia; apply Hx; lia|].
      split; [left; intros c' Hc' E; rewrite Eg0 in E; apply (Hdw m c 0 c'); lia|].
      exists (x m c). split; [rewrite Eg0; apply Hx; lia|].
      split; [reflexivity|split; [|apply upd_get; [reflexivity|]]].
      - replace (W0 + c) with (W0 + SS * 0 + c) by lia. apply Hwa; lia.
      - rewrite RV2_in by (assumption || lia). rewrite Z.mul_0_r, zeta_0, Nat.add_0_r, Nat2Z.inj_mul. ring. }
    intros m1 H1v H1f H1a.
    assert (Hx1 : forall s c, s < L -> c < CC -> m1 (f + SS * s + c) = Val (x s c)).
    { intros s c Hs Hc. rewrite H1f; [apply Hx; assumption|]. intros c' Hc' E. apply (Hdw s c 0 c'); lia. }
    apply WP_seq.
    apply WP_smap with (CC := CC) (SS := SS) (F := W0) (g := fun s c => rowval m p L M (Z.of_nat r) (fun j => x j c) s)
          (inner := fun s c => x <- f + SS * s + c ;; y <- f + gSm t + SS * s + c ;;
             W0 + SS * s + c ::= Cadd (Cmul (zeta M (Z.of_nat (r * s))) x)
                                   (Cmul (zeta M (Z.of_nat (r * (m + s)))) y) ;; Ret).
    { assumption. }
    { intros s Hs. rewrite (tget_some _ _ (zeta M (Z.of_nat (r * s))) _) by (apply initZetaqm_get; lia).
      rewrite (tget_some _ _ (zeta M (Z.of_nat (r * (m + s)))) _); [reflexivity|].
      rewrite <- Nat.add_assoc. apply initZetaqmS_get; lia. }
    { intros s c Hs Hc. cbn [wp]. rdo Hdw Hx1.
      split; [left; intros; rewrite Eg; apply not_eq_sym, Hdw; lia|]. exists (x (m + s) c).
      split; [rewrite Eg; apply Hx1; lia|].
      split; [reflexivity|split; [apply H1a, Hwa; lia|apply upd_get; [reflexivity|]]].
      rewrite RV2_in by (assumption || lia). rewrite !Nat2Z.inj_mul. reflexivity. }
    intros m2 H2v H2f H2a.
    assert (Hx2 : forall s c, s < L -> c < CC -> m2 (f + SS * s + c) = Val (x s c)).
    { intros s c Hs Hc. rewrite H2f; [apply Hx1; assumption|]. intros. apply not_eq_sym, Hdw; lia. }
    apply WP_smap with (CC := CC) (SS := SS) (F := W0) (g := fun s c => rowval m p L M (Z.of_nat r) (fun j => x j c) s)
          (inner := fun s c => x <- f + SS * s + c ;; 
             W0 + SS * s + c ::= Cmul (zeta M (Z.of_nat (r * s))) x ;; Ret).
    { assumption. }
    { intros s Hs. rewrite (tget_some _ _ (zeta M (Z.of_nat (r * s))) _) by (apply initZetaqm_get; lia).
      reflexivity. }
    { intros s c Hs Hc. cbn [wp]. rdo Hdw Hx2.
      split; [reflexivity|split; [apply H2a, H1a, Hwa; lia|apply upd_get; [reflexivity|]]].
      rewrite RV2_out by (assumption || lia). rewrite !Nat2Z.inj_mul. reflexivity. }
    intros m3 H3v H3f H3a. apply Hfin; [| |auto].
    + intros s c Hs Hc. destruct (Nat.lt_ge_cases s (L - m)); [|apply H3v; lia].
      rewrite H3f; [|intros s' c' Hs' Hc' E; destruct (stride_inj SS s' c' s c); lia].
      destruct (Nat.eq_dec s 0) as [->|]; [|apply H2v; lia].
      rewrite H2f; [|intros s' c' Hs' Hc' E; destruct (stride_inj SS s' c' 0 c); lia].
      rewrite Nat.mul_0_r, Nat.add_0_r. apply H1v; assumption.
    + intros a Ha. rewrite H3f, H2f, H1f; [reflexivity| | |].
      * intros c Hc E. apply (Ha 0 c); lia.
      * intros; apply Ha; lia.
      * intros; apply Ha; lia.
Qed.

Lemma forwardExplicitMany_spec f F W (x : nat -> nat -> C) (m0 : mem) (K : mem -> Prop) :
  let W0 := getW F W in
  q = 1 ->
  ainplace t = (W0 =? F) ->
  (forall i c i' c', i < L -> c < CC -> i' < m -> c' < CC -> f + SS * i + c <> W0 + SS * i' + c') ->
  (W0 = F \/ forall i c i' c', i < m -> c < CC -> i' < m -> c' < CC -> W0 + SS * i + c <> F + SS * i' + c') ->
  (forall s c, s < L -> c < CC -> m0 (f + SS * s + c) = Val (x s c)) ->
  (forall s c, s < m -> c < CC -> m0 (W0 + SS * s + c) <> Unalloc) ->
  (forall s c, s < m -> c < CC -> m0 (F + SS * s + c) <> Unalloc) ->
  (forall m',
     (forall k c, k < m -> c < CC -> m' (F + SS * k + c) =
        Val (outv M L (fun j => x j c) (Z.of_nat k))) ->
     (forall a, (forall i c, i < m -> c < CC -> F + SS * i + c <> a) ->
        (forall s c, s < m -> c < CC -> W0 + SS * s + c <> a) -> m' a = m0 a) ->
     (forall a, m0 a <> Unalloc -> m' a <> Unalloc) -> K m') ->
  WP (forwardExplicitMany t f F W) m0 K.
Proof.
  intros W0 Hq Hi Hdw Hwd Hx Hwa Hfa HK.
  pose proof (wf_L t Hwf) as HL1. pose proof (wf_m t Hwf) as Hm1. pose proof (wf_CS t Hwf) as HCS.
  pose proof (q1_p1 t Hwf Hq) as Hp.
  pose proof (wf_Lmp t Hwf) as HLm. rewrite Hp, Nat.mul_1_r in HLm.
  unfold forwardExplicitMany, padMany. fold W0. cbv zeta. rewrite Hp, Nat.mul_1_r. clearbody W0. apply WP_seq.
  apply WP_smap with (CC := CC) (SS := SS) (F := W0) (g := x)
       (inner := fun s c => x <- f + SS * s + c ;; W0 + SS * s + c ::= x ;; Ret).
  { assumption. }
  { reflexivity. }
  { intros s c Hs Hc. cbn [wp]. rdo Hdw Hx.
    split; [reflexivity|split; [apply Hwa; lia|apply upd_get; reflexivity]]. }
  intros m1 H1v H1f H1a. apply WP_seq.
  apply WP_smap with (CC := CC) (SS := SS) (F := W0) (g := fun _ _ => C0)
       (inner := fun s c => W0 + SS * s + c ::= C0 ;; Ret).
  { assumption. }
  { reflexivity. }
  { intros s c Hs Hc. cbn [wp]. split; [reflexivity|split; [apply H1a, Hwa; lia|apply upd_get; reflexivity]]. }
  intros m2 H2v H2f H2a.
  apply row_fft with (rh := 0%Z) (x := x); [assumption| |auto|assumption|].
  - intros s c Hs Hc. destruct (Nat.lt_ge_cases s L).
    + rewrite H2f; [|intros s' c' Hs' Hc' E; destruct (stride_inj SS s' c' s c); lia].
      rewrite RVc_in by assumption. rewrite Z.mul_0_l, zeta_0, H1v by lia. f_equal. ring.
    + rewrite H2v by lia. rewrite RVc_out by assumption. reflexivity.
  - intros m3 HV HF Hal. apply HK; [| |auto].
    + intros k c Hk Hc. rewrite HV by assumption. rewrite Hq. f_equal. f_equal. lia.
    + intros a Ha Hb. rewrite HF, H2f, H1f; [reflexivity| | |assumption]; intros; apply Hb; lia.
Qed.

(** *** p > 2 *)
Hypothesis Hp : 2 < p.
Hypothesis Hq : q <> 1.

Lemma fftpAll_spec sg W (A : nat -> nat -> nat -> C) (m0 : mem) (K : mem -> Prop) :
  (forall u s c, u < p -> s < m -> c < CC -> m0 (W + SS * (m * u + s) + c) = Val (A u s c)) ->
  (forall m', (forall u s c, u < p -> s < m -> c < CC ->
       m' (W + SS * (m * u + s) + c) = Val (dft p sg (fun u => A u s c) u)) ->
     (forall a, (forall i c, i < m * p -> c < CC -> W + SS * i + c <> a) -> m' a = m0 a) ->
     (forall a, m0 a <> Unalloc -> m' a <> Unalloc) -> K m') ->
  WP (fftpAll t sg W) m0 K.
Proof.
  intros HA HK. pose proof (wf_m t Hwf) as Hm1. pose proof (wf_CS t Hwf) as HCS. pose proof (wf_C t Hwf) as HC1.
  unfold fftpAll, fftp. rewrite (P_big t Hp).
  assert (Hmp : forall u s, u < p -> s < m -> m * u + s < m * p) by (intros; nia).
  destruct (Nat.eqb_spec SS CC) as [E|E].
  - (* one call *)
    assert (Es : forall u s c, SS * (m * u + s) + c = gCm t * u + (CC * s + c)) by (intros; unfold gCm; rewrite E; lia).
    assert (Hdm : forall k, k < gCm t -> k = CC * (k / CC) + k mod CC /\ k mod CC < CC /\ k / CC < m).
    { intros k Hk. pose proof (Nat.div_mod k CC ltac:(lia)). pose proof (Nat.mod_upper_bound k CC ltac:(lia)).
      split; [assumption|]. split; [assumption|]. apply Nat.div_lt_upper_bound; [lia|]. exact Hk. }
    apply WP_fft_strided with (x := fun u k => A u (k / CC) (k mod CC)).
    + rewrite Nat.eqb_refl. reflexivity.
    + lia.
    + lia.
    + intros u k Hu Hk. destruct (Hdm k Hk) as (E1 & H2 & H3).
      rewrite <- HA by assumption. f_equal. rewrite <- !Nat.add_assoc. f_equal. rewrite Es. lia.
    + intros u k Hu Hk. destruct (Hdm k Hk) as (E1 & H2 & H3).
      replace (W + gCm t * u + k) with (W + SS * (m * u + k / CC) + k mod CC).
      * rewrite HA by assumption. discriminate.
      * rewrite <- !Nat.add_assoc. f_equal. rewrite Es. lia.
    + auto.
    + intros m' HV HF Hal. apply HK; [| |assumption].
      * intros u s c Hu Hs Hc.
        replace (W + SS * (m * u + s) + c) with (W + gCm t * u + (CC * s + c)) by (rewrite <- !Nat.add_assoc; f_equal; rewrite Es; lia).
        rewrite HV; [|assumption|unfold gCm; nia]. f_equal. apply dft_ext. intros j Hj.
        replace (CC * s + c) with (c + s * CC) by lia.
        rewrite Nat.div_add, Nat.mod_add, Nat.div_small, Nat.mod_small by lia. reflexivity.
      * intros a Ha. apply HF. intros u k Hu Hk. destruct (Hdm k Hk) as (E1 & H2 & H3).
        replace (W + gCm t * u + k) with (W + SS * (m * u + k / CC) + k mod CC).
        -- apply Ha; auto.
        -- rewrite <- !Nat.add_assoc. f_equal. rewrite Es. lia.
  - (* one call per row *)
    assert (Ee : forall s u c, W + SS * s + gSm t * u + c = W + SS * (m * u + s) + c) by (intros; unfold gSm; lia).
    set (I := fun s0 (m1 : mem) =>
       (forall u s c, u < p -> s < s0 -> c < CC ->
          m1 (W + SS * (m * u + s) + c) = Val (dft p sg (fun u => A u s c) u)) /\
       (forall a, (forall u s c, u < p -> s < s0 -> c < CC -> W + SS * (m * u + s) + c <> a) -> m1 a = m0 a) /\
       (forall a, m0 a <> Unalloc -> m1 a <> Unalloc)).
    eapply WP_mono; [|apply (WP_cfor C m _ I)].
    + intros m1 (I1 & I2 & I3). apply HK; [assumption| |assumption].
      intros a Ha. apply I2. intros. apply Ha; auto.
    + unfold I. split; [intros; lia|]. split; [reflexivity|auto].
    + intros s m1 Hs (I1 & I2 & I3).
      assert (Hinj : forall u s c u' s' c', s < m -> c < CC -> s' < m -> c' < CC ->
        W + SS * (m * u + s) + c = W + SS * (m * u' + s') + c' -> u = u' /\ s = s' /\ c = c').
      { intros u1 s1 c1 u2 s2 c2 H1 H2 H3 H4 E'.
        destruct (stride_inj SS (m * u1 + s1) c1 (m * u2 + s2) c2) as [Ea Eb]; [lia|lia|lia|].
        destruct (stride_inj m u1 s1 u2 s2) as [Ec Ed]; [lia|lia|lia|]. auto. }
      assert (HA1 : forall u c, u < p -> c < CC -> m1 (W + SS * (m * u + s) + c) = Val (A u s c)).
      { intros u c Hu Hc. rewrite I2; [apply HA; assumption|]. intros u' s' c' Hu' Hs' Hc' E'.
        apply Hinj in E'; lia. }
      apply WP_fft_strided with (x := fun u c => A u s c).
      * rewrite Nat.eqb_refl. reflexivity.
      * lia.
      * unfold gSm. nia.
      * intros u c Hu Hc. rewrite Ee. apply HA1; assumption.
      * intros u c Hu Hc. rewrite Ee, HA1 by assumption. discriminate.
      * auto.
      * intros m2 HV HF Hal. unfold I. split; [|split].
        -- intros u s' c Hu Hs' Hc. destruct (Nat.eq_dec s' s) as [->|Hne].
           ++ rewrite <- Ee, HV by assumption. reflexivity.
           ++ rewrite HF; [apply I1; lia|]. intros u' c' Hu' Hc' E'. rewrite Ee in E'.
              apply Hinj in E'; lia.
        -- intros a Ha. rewrite HF, I2; [reflexivity| |].
           ++ intros; apply Ha; lia.
           ++ intros u c Hu Hc. rewrite Ee. apply Ha; lia.
        -- auto.
Qed.

Lemma forwardInnerMany_spec f F W r (x : nat -> nat -> C) (m0 : mem) (K : mem -> Prop) :
  let W0 := getW F W in
  r < n ->
  ainplace t = (W0 =? F) ->
  (forall i c i' c', i < L -> c < CC -> i' < m * p -> c' < CC -> f + SS * i + c <> W0 + SS * i' + c') ->
  (W0 = F \/ forall i c i' c', i < m * p -> c < CC -> i' < m * p -> c' < CC ->
     W0 + SS * i + c <> F + SS * i' + c') ->
  (forall s c, s < L -> c < CC -> m0 (f + SS * s + c) = Val (x s c)) ->
  (forall s c, s < m * p -> c < CC -> m0 (W0 + SS * s + c) <> Unalloc) ->
  (forall s c, s < m * p -> c < CC -> m0 (F + SS * s + c) <> Unalloc) ->
  (forall m',
     (forall u k c, u < p -> k < m -> c < CC -> m' (F + SS * (m * u + k) + c) =
        Val (outv M L (fun j => x j c) (Z.of_nat q * Z.of_nat k + Z.of_nat (n * u + r)))) ->
     (forall a, (forall i c, i < m * p -> c < CC -> F + SS * i + c <> a) ->
        (forall s c, s < m * p -> c < CC -> W0 + SS * s + c <> a) -> m' a = m0 a) ->
     (forall a, m0 a <> Unalloc -> m' a <> Unalloc) -> K m') ->
  WP (forwardInnerMany t f F r W) m0 K.
Proof.
  intros W0 Hr Hi Hdw Hwd Hx Hwa Hfa HK.
  pose proof (wf_m t Hwf) as Hm1. pose proof (wf_CS t Hwf) as HCS. pose proof (wf_C t Hwf) as HC1.
  pose proof (L_inner t Hwf) as HL. pose proof (q_pn t Hp) as Hqpn.
  assert (Hb : forall u s, u < p -> s < m -> m * u + s < m * p) by (intros; nia).
  assert (Hb' : forall u s, u < p - 1 -> s < m -> m * u + s < m * (p - 1)) by (intros; nia).
  assert (Hmm : m <= m * (p - 1)) by nia.
  assert (Hmp : m * p = m * (p - 1) + m) by nia.
  assert (ESm : gSm t = SS * m) by reflexivity.
  assert (Ef : forall (B : nat) u s c, B + gSm t * u + SS * s + c = B + SS * (m * u + s) + c) by (intros; rewrite ESm; lia).
  assert (Hinj : forall u s c u' s' c', s < m -> c < CC -> s' < m -> c' < CC ->
        W0 + SS * (m * u + s) + c = W0 + SS * (m * u' + s') + c' -> u = u' /\ s = s' /\ c = c').
  { intros u1 s1 c1 u2 s2 c2 H1 H2 H3 H4 E'.
    destruct (stride_inj SS (m * u1 + s1) c1 (m * u2 + s2) c2) as [Ea Eb]; [lia|lia|lia|].
    destruct (stride_inj m u1 s1 u2 s2) as [Ec Ed]; [lia|lia|lia|]. auto. }
  unfold forwardInnerMany. fold W0. cbv zeta. clearbody W0. apply WP_seq.
  set (pm1 := p - 1) in *.
  set (A := fun u s c => stageA t r (fun j => x j c) u s).
  (* final transforms *)
  assert (Hfin : forall m1 : mem,
     (forall u s c, u < p -> s < m -> c < CC ->
        m1 (W0 + SS * (m * u + s) + c) = Val (rowval m p L M (Z.of_nat (n * u + r)) (fun j => x j c) s)) ->
     (forall a, (forall i c, i < m * p -> c < CC -> W0 + SS * i + c <> a) -> m1 a = m0 a) ->
     (forall a, m0 a <> Unalloc -> m1 a <> Unalloc) ->
     WP (cfor p (fun t' => fft (fftm t 1) (W0 + gSm t * t') (F + gSm t * t'))) m1 K).
  { intros m1 H1v H1f H1a.
    set (I := fun u0 (m2 : mem) =>
       (forall u k c, u < u0 -> k < m -> c < CC -> m2 (F + SS * (m * u + k) + c) =
          Val (outv M L (fun j => x j c) (Z.of_nat q * Z.of_nat k + Z.of_nat (n * u + r)))) /\
       (forall a, (forall u k c, u < u0 -> k < m -> c < CC -> F + SS * (m * u + k) + c <> a) -> m2 a = m1 a) /\
       (forall a, m1 a <> Unalloc -> m2 a <> Unalloc)).
    eapply WP_mono; [|apply (WP_cfor C p _ I)].
    - intros m2 (I1 & I2 & I3). apply HK; [assumption| |auto].
      intros a Ha Hb1. rewrite I2, H1f; [reflexivity|assumption|]. intros. apply Ha; auto.
    - unfold I. split; [intros; lia|]. split; [reflexivity|auto].
    - intros u m2 Hu (I1 & I2 & I3).
      apply row_fft with (rh := Z.of_nat (n * u + r)) (x := x).
      + rewrite Hi. destruct (Nat.eqb_spec W0 F) as [->|]; symmetry; [apply Nat.eqb_refl|apply Nat.eqb_neq; lia].
      + intros s c Hs Hc. rewrite Ef. rewrite I2; [apply H1v; assumption|].
        intros u' k' c' Hu' Hk' Hc' E'. destruct Hwd as [->|Hwd].
        * apply Hinj in E'; lia.
        * eapply Hwd; [| | | |symmetry; exact E']; auto. apply Hb; lia.
      + intros s c Hs Hc. rewrite Ef. apply I3, H1a, Hfa; auto.
      + destruct Hwd as [->|Hwd]; [left; reflexivity|right]. intros. rewrite !Ef. apply Hwd; auto.
      + intros m3 HV HF Hal. unfold I. split; [|split].
        * intros u' k c Hu' Hk Hc. destruct (Nat.eq_dec u' u) as [->|Hne].
          -- rewrite <- Ef. apply HV; assumption.
          -- rewrite HF; [apply I1; lia|]. intros k' c' Hk' Hc' E'. rewrite Ef in E'.
             assert (m * u' + k = m * u + k' /\ c = c') as [Ea Eb].
             { destruct (stride_inj SS (m * u + k') c' (m * u' + k) c); lia. }
             destruct (stride_inj m u' k u k'); lia.
        * intros a Ha. rewrite HF, I2; [reflexivity| |].
          -- intros; apply Ha; lia.
          -- intros. rewrite Ef. apply Ha; lia.
        * auto. }
  destruct (Nat.eqb_spec r 0) as [Hr0|Hr0].
  - apply WP_seq.
    apply WP_smap3 with (CC := CC) (SS := SS) (m := m) (Sm := gSm t) (F := W0) (lo2 := 0) (g := A)
      (inner := fun u s => pForR 0 CC (fun c => x <- f + gSm t * u + SS * s + c ;; W0 + gSm t * u + SS * s + c ::= x ;; Ret))
      (inner2 := fun u s c => x <- f + gSm t * u + SS * s + c ;; W0 + gSm t * u + SS * s + c ::= x ;; Ret);
      try reflexivity; try assumption.
    { intros u s c Hu Hs Hc. cbn [wp]. rewrite !Ef. pose proof (Hb' u s ltac:(lia) ltac:(lia)).
      split; [left; intros; apply not_eq_sym, Hdw; auto; try lia; apply Hb; lia|].
      exists (x (m * u + s) c). split; [apply Hx; lia|].
      split; [reflexivity|split; [apply Hwa; lia|apply upd_get; [reflexivity|]]].
      unfold A. rewrite Hr0. symmetry. apply (stageA_r0 t Hp). lia. }
    intros m1 H1v H1f H1a. apply WP_seq.
    assert (Hx1 : forall s c, s < L -> c < CC -> m1 (f + SS * s + c) = Val (x s c)).
    { intros s c Hs Hc. rewrite H1f; [apply Hx; assumption|]. intros. apply not_eq_sym, Hdw; auto. apply Hb; lia. }
    apply WP_smap with (CC := CC) (SS := SS) (F := W0 + gSm t * pm1) (g := A pm1)
      (inner := fun s c => x <- f + gSm t * pm1 + SS * s + c ;; W0 + gSm t * pm1 + SS * s + c ::= x ;; Ret);
      try reflexivity; try assumption.
    { intros s c Hs Hc. cbn [wp]. 
      split; [left; intros; rewrite !Ef; apply not_eq_sym, Hdw; auto; lia|].
      exists (x (m * pm1 + s) c). split; [rewrite Ef; apply Hx1; lia|].
      split; [reflexivity|split; [rewrite Ef; apply H1a, Hwa; lia|apply upd_get; [reflexivity|]]].
      unfold A. rewrite Hr0. symmetry. apply (stageA_r0 t Hp). lia. }
    intros m2 H2v H2f H2a. apply WP_seq.
    apply WP_smap with (CC := CC) (SS := SS) (F := W0 + gSm t * pm1) (g := A pm1)
      (inner := fun s c => W0 + gSm t * pm1 + SS * s + c ::= C0 ;; Ret);
      try reflexivity; try assumption.
    { intros s c Hs Hc. cbn [wp]. 
      split; [reflexivity|split; [rewrite Ef; apply H2a, H1a, Hwa; lia|apply upd_get; [reflexivity|]]].
      unfold A. symmetry. apply (stageA_out t Hp). fold pm1. lia. }
    intros m3 H3v H3f H3a. apply WP_seq.
    apply fftpAll_spec with (A := A).
    { intros u s c Hu Hs Hc. destruct (Nat.eq_dec u pm1) as [->|Hne].
      - rewrite <- Ef. destruct (Nat.lt_ge_cases s (L - m * pm1)); [|apply H3v; lia].
        rewrite H3f; [apply H2v; lia|]. intros s' c' Hs' Hc' E'. rewrite !Ef in E'. apply Hinj in E'; lia.
      - rewrite H3f, H2f; [apply H1v; lia| |]; intros s' c' Hs' Hc' E'; rewrite !Ef in E'; apply Hinj in E'; lia. }
    intros m4 H4v H4f H4a.
    apply WP_smap3 with (CC := CC) (SS := SS) (m := m) (Sm := gSm t) (F := W0) (lo2 := 1)
      (g := fun u s c => rowval m p L M (Z.of_nat (n * u + r)) (fun j => x j c) s)
      (inner := fun u s => pForR 0 CC (fun c => x <- W0 + gSm t * u + SS * s + c ;; W0 + gSm t * u + SS * s + c ::= Cmul x (zeta M (Z.of_nat (n * u * s))) ;; Ret))
      (inner2 := fun u s c => x <- W0 + gSm t * u + SS * s + c ;; W0 + gSm t * u + SS * s + c ::= Cmul x (zeta M (Z.of_nat (n * u * s))) ;; Ret);
      try reflexivity; try assumption.
    { intros u Hu. unfold pForR.
      apply pfor_ext. intros i Hi'. 
      rewrite (tget_some _ _ (zeta M (Z.of_nat (n * u * (1 + i)))) _); [reflexivity|].
      apply initZetaqm_get; [|lia]. nia. }
    { intros u s c Hu Hs Hc. cbn [wp].
      split; [right; reflexivity|]. eexists. split; [rewrite Ef; apply H4v; lia|].
      split; [reflexivity|split; [rewrite Ef; apply H4a, H3a, H2a, H1a, Hwa; auto; apply Hb; lia|apply upd_get; [reflexivity|]]].
      rewrite <- (stageB t Hwf Hp r _ u s) by lia. unfold A. rewrite Hr0, Nat.add_0_r. reflexivity. }
    intros m5 H5v H5f H5a. apply Hfin; [| |auto 10].
    + intros u s c Hu Hs Hc.
      destruct (Nat.eq_dec s 0) as [Es|Es]; [|destruct (Nat.eq_dec u 0) as [Eu|Eu]; [|apply H5v; lia]].
      * rewrite H5f; [|intros u' s' c' Hu' Hs' Hc' E'; apply Hinj in E'; lia].
        rewrite H4v by assumption. f_equal. rewrite <- (stageB t Hwf Hp r _ u s) by lia.
        rewrite Es, Nat.mul_0_r. cbn [Z.of_nat]. rewrite zeta_0. unfold A. ring.
      * rewrite H5f; [|intros u' s' c' Hu' Hs' Hc' E'; apply Hinj in E'; lia].
        rewrite H4v by assumption. f_equal. rewrite <- (stageB t Hwf Hp r _ u s) by lia.
        rewrite Eu, Hr0, Nat.mul_0_r. cbn [Z.of_nat Nat.add Nat.mul]. rewrite zeta_0. unfold A. rewrite Hr0. ring.
    + intros a Ha. rewrite H5f, H4f, H3f, H2f, H1f; [reflexivity| | | | |].
      * intros; apply Ha; auto; apply Hb; lia.
      * intros; rewrite Ef; apply Ha; auto; lia.
      * intros; rewrite Ef; apply Ha; auto; lia.
      * assumption.
      * intros; apply Ha; auto; apply Hb; lia.
  - apply WP_seq.
    apply WP_smap with (CC := CC) (SS := SS) (F := W0) (g := A 0)
      (inner := fun s c => x <- f + SS * s + c ;; W0 + SS * s + c ::= x ;; Ret);
      try reflexivity; try assumption.
    { intros s c Hs Hc. cbn [wp].
      split; [left; intros; apply not_eq_sym, Hdw; auto; lia|].
      exists (x s c). split; [apply Hx; lia|].
      split; [reflexivity|split; [apply Hwa; lia|apply upd_get; [reflexivity|]]].
      unfold A. rewrite (stageA_0u t Hwf Hp) by lia. reflexivity. }
    intros m1 H1v H1f H1a. apply WP_seq.
    assert (Hx1 : forall s c, s < L -> c < CC -> m1 (f + SS * s + c) = Val (x s c)).
    { intros s c Hs Hc. rewrite H1f; [apply Hx; assumption|]. intros. apply not_eq_sym, Hdw; auto. lia. }
    apply WP_smap3 with (CC := CC) (SS := SS) (m := m) (Sm := gSm t) (F := W0) (lo2 := 0) (g := A)
      (inner := fun u s => pForR 0 CC (fun c => x <- f + gSm t * u + SS * s + c ;; W0 + gSm t * u + SS * s + c ::= Cmul (zeta q (Z.of_nat (r * u))) x ;; Ret))
      (inner2 := fun u s c => x <- f + gSm t * u + SS * s + c ;; W0 + gSm t * u + SS * s + c ::= Cmul (zeta q (Z.of_nat (r * u))) x ;; Ret);
      try reflexivity; try assumption.
    { intros u Hu. rewrite (tget_some _ _ (zeta q (Z.of_nat (r * u))) _); [reflexivity|].
      apply (zqp_getI t Hp); lia. }
    { intros u s c Hu Hs Hc. cbn [wp]. rewrite !Ef. pose proof (Hb' u s ltac:(lia) ltac:(lia)).
      split; [left; intros; apply not_eq_sym, Hdw; auto; try lia; apply Hb; lia|].
      exists (x (m * u + s) c). split; [apply Hx1; lia|].
      split; [reflexivity|split; [apply H1a, Hwa; lia|apply upd_get; [reflexivity|]]].
      unfold A. symmetry. apply (stageA_in t Hp). lia. }
    intros m2 H2v H2f H2a. apply WP_seq.
    assert (Hx2 : forall s c, s < L -> c < CC -> m2 (f + SS * s + c) = Val (x s c)).
    { intros s c Hs Hc. rewrite H2f; [apply Hx1; assumption|]. intros. apply not_eq_sym, Hdw; auto. apply Hb; lia. }
    apply WP_smap with (CC := CC) (SS := SS) (F := W0 + gSm t * pm1) (g := A pm1)
      (inner := fun s c => x <- f + gSm t * pm1 + SS * s + c ;; W0 + gSm t * pm1 + SS * s + c ::=
          ZMULTxy (UNPACKL (zeta q (Z.of_nat (r * pm1))) (zeta q (Z.of_nat (r * pm1))))
             (UNPACKH (zeta q (Z.of_nat (r * pm1))) (vneg (zeta q (Z.of_nat (r * pm1))))) x ;; Ret);
      try reflexivity; try assumption.
    { intros s Hs. rewrite (tget_some _ _ (zeta q (Z.of_nat (r * pm1))) _); [reflexivity|].
      apply (zqp_getI t Hp); lia. }
    { intros s c Hs Hc. cbn [wp]. 
      split; [left; intros; rewrite !Ef; apply not_eq_sym, Hdw; auto; lia|].
      exists (x (m * pm1 + s) c). split; [rewrite Ef; apply Hx2; lia|].
      split; [reflexivity|split; [rewrite Ef; apply H2a, H1a, Hwa; lia|apply upd_get; [reflexivity|]]].
      unfold A. rewrite ZMULTxy_eq. symmetry. apply (stageA_in t Hp). lia. }
    intros m3 H3v H3f H3a. apply WP_seq.
    apply WP_smap with (CC := CC) (SS := SS) (F := W0 + gSm t * pm1) (g := A pm1)
      (inner := fun s c => W0 + gSm t * pm1 + SS * s + c ::= C0 ;; Ret);
      try reflexivity; try assumption.
    { intros s c Hs Hc. cbn [wp]. 
      split; [reflexivity|split; [rewrite Ef; apply H3a, H2a, H1a, Hwa; lia|apply upd_get; [reflexivity|]]].
      unfold A. symmetry. apply (stageA_out t Hp). fold pm1. lia. }
    intros m4 H4v H4f H4a. apply WP_seq.
    apply fftpAll_spec with (A := A).
    { intros u s c Hu Hs Hc. destruct (Nat.eq_dec u pm1) as [->|Hne].
      - rewrite <- Ef. destruct (Nat.lt_ge_cases s (L - m * pm1)); [|apply H4v; lia].
        rewrite H4f; [apply H3v; lia|]. intros s' c' Hs' Hc' E'. rewrite !Ef in E'. apply Hinj in E'; lia.
      - rewrite H4f, H3f; try (intros s' c' Hs' Hc' E'; rewrite !Ef in E'; apply Hinj in E'; lia).
        destruct (Nat.eq_dec u 0) as [->|]; [|apply H2v; lia].
        rewrite H2f; [|intros u' s' c' Hu' Hs' Hc' E'; apply Hinj in E'; lia].
        rewrite Nat.mul_0_r. apply H1v; lia. }
    intros m5 H5v H5f H5a.
    apply WP_smap3 with (CC := CC) (SS := SS) (m := m) (Sm := gSm t) (F := W0) (lo2 := 1)
      (g := fun u s c => rowval m p L M (Z.of_nat (n * u + r)) (fun j => x j c) s)
      (inner := fun u s => pForR 0 CC (fun c => x <- W0 + gSm t * u + SS * s + c ;; W0 + gSm t * u + SS * s + c ::=
         ZMULTxy (UNPACKL (zeta M (Z.of_nat ((n * u + r) * s))) (zeta M (Z.of_nat ((n * u + r) * s))))
             (UNPACKH (zeta M (Z.of_nat ((n * u + r) * s))) (vneg (zeta M (Z.of_nat ((n * u + r) * s))))) x ;; Ret))
      (inner2 := fun u s c => x <- W0 + gSm t * u + SS * s + c ;; W0 + gSm t * u + SS * s + c ::=
         ZMULTxy (UNPACKL (zeta M (Z.of_nat ((n * u + r) * s))) (zeta M (Z.of_nat ((n * u + r) * s))))
             (UNPACKH (zeta M (Z.of_nat ((n * u + r) * s))) (vneg (zeta M (Z.of_nat ((n * u + r) * s))))) x ;; Ret);
      try reflexivity; try assumption.
    { intros u Hu. unfold pForR.
      apply pfor_ext. intros i Hi'. 
      rewrite (tget_some _ _ (zeta M (Z.of_nat ((n * u + r) * (1 + i)))) _); [reflexivity|].
      apply initZetaqm_get; [|lia]. nia. }
    { intros u s c Hu Hs Hc. cbn [wp].
      split; [right; reflexivity|]. eexists. split; [rewrite Ef; apply H5v; lia|].
      split; [reflexivity|split; [rewrite Ef; apply H5a, H4a, H3a, H2a, H1a, Hwa; auto; apply Hb; lia|apply upd_get; [reflexivity|]]].
      rewrite <- (stageB t Hwf Hp r _ u s) by lia. rewrite ZMULTxy_eq. unfold A. ring. }
    intros m6 H6v H6f H6a. apply Hfin; [| |auto 10].
    + intros u s c Hu Hs Hc.
      destruct (Nat.eq_dec s 0) as [Es|Es]; [|apply H6v; lia].
      rewrite H6f; [|intros u' s' c' Hu' Hs' Hc' E'; apply Hinj in E'; lia].
      rewrite H5v by assumption. f_equal. rewrite <- (stageB t Hwf Hp r _ u s) by lia.
      rewrite Es, Nat.mul_0_r. cbn [Z.of_nat]. rewrite zeta_0. unfold A. ring.
    + intros a Ha. rewrite H6f, H5f, H4f, H3f, H2f, H1f; [reflexivity| | | | | |].
      * intros; apply Ha; auto; lia.
      * intros; apply Ha; auto; apply Hb; lia.
      * intros; rewrite Ef; apply Ha; auto; lia.
      * intros; rewrite Ef; apply Ha; auto; lia.
      * assumption.
      * intros; apply Ha; auto; apply Hb; lia.
Qed.
End T.
