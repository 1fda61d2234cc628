(** forwardExplicit and the overwriting kernels forward1All, forward1ManyAll, forward2All,
    forward2ManyAll. *)
From Coq Require Import Reals ZArith Arith Lia List Bool.
From Verif Require Import CNum Sums Roots Mem VecModel VecProofs PadModel PadKernels Loops
  PadLemmas PadMath PadGeom Fwd1 FwdMany.

Section T.
Variable t : pad.
Hypothesis Hwf : wf t.
Notation L := (gL t).  Notation m := (gm t). Notation q := (gq t). Notation M := (gM t).
Notation D := (gD t). Notation p := (gp t). Notation n := (gn t). Notation CC := (gC t). Notation SS := (gS t).

(** one FFTW call that transforms a single row of columns *)
Definition single : Prop := q = 1 \/ SS <> 1 \/ (D = 1 /\ gP t = 1).

Lemma col_fft sg W F (x : nat -> nat -> C) (m0 : mem) (K : mem -> Prop) :
  single -> ainplace t = (W =? F) ->
  (forall s c, s < m -> c < CC -> m0 (W + SS * s + c) = Val (x s c)) ->
  (forall s c, s < m -> c < CC -> m0 (F + SS * s + c) <> Unalloc) ->
  (W = F \/ forall k c k' c', k < m -> c < CC -> k' < m -> c' < CC -> W + SS * k + c <> F + SS * k' + c') ->
  (forall m', (forall k c, k < m -> c < CC -> m' (F + SS * k + c) = Val (dft m sg (fun s => x s c) k)) ->
     (forall a, (forall k c, k < m -> c < CC -> F + SS * k + c <> a) -> m' a = m0 a) ->
     (forall a, m0 a <> Unalloc -> m' a <> Unalloc) -> K m') ->
  WP (fft (fftm t sg) W F) m0 K.
Proof.
  intros Hs Hi Hv Ha Hd HK. pose proof (wf_m t Hwf) as Hm1.
  destruct (Nat.eq_dec SS 1) as [HS|HS].
  - assert (HC : CC = 1) by (apply S1_C1; assumption).
    assert (E : exists dist, fftm t sg = mkplan m sg 1 1 dist (ainplace t)).
    { unfold fftm. rewrite HS, HC. cbn [Nat.eqb]. destruct (Nat.eqb_spec q 1) as [|Hq]; [eexists; reflexivity|].
      destruct Hs as [|[|[-> ->]]]; [contradiction|contradiction|]. eexists; reflexivity. }
    destruct E as [dist ->]. rewrite HS, HC in *.
    assert (El : forall h k, h < 1 -> lay (mkplan m sg 1 1 dist (ainplace t)) h k = 1 * k + h).
    { intros h k Hh. unfold lay. cbn. assert (h = 0) by lia. subst. lia. }
    apply WP_fft with (x := fun h s => x s h); cbn [pl_n pl_M pl_sign pl_inplace].
    + assumption.
    + assumption.
    + intros h h' k k' Hh Hh' Hk Hk'. rewrite !El by assumption. lia.
    + intros h k Hh Hk. rewrite El, Nat.add_assoc by assumption. apply Hv; assumption.
    + intros h k Hh Hk. rewrite El, Nat.add_assoc by assumption. apply Ha; assumption.
    + destruct Hd as [->|Hd]; [auto|right]. intros. rewrite !El, !Nat.add_assoc by assumption. apply Hd; assumption.
    + intros m' HV HF Hal. apply HK; [| |assumption].
      * intros k c Hk Hc. rewrite <- Nat.add_assoc, <- El by assumption. apply HV; assumption.
      * intros a H. apply HF. intros h k Hh Hk. rewrite El, Nat.add_assoc by assumption. apply H; assumption.
  - rewrite m_plan by assumption. apply WP_fft_strided with (x := x); auto. apply (wf_CS t Hwf).
Qed.

Lemma col_fft1 sg W F (x : nat -> C) (m0 : mem) (K : mem -> Prop) : SS = 1 ->
  single -> ainplace t = (W =? F) ->
  (forall s, s < m -> m0 (W + s) = Val (x s)) ->
  (forall s, s < m -> m0 (F + s) <> Unalloc) ->
  (W = F \/ forall k k', k < m -> k' < m -> W + k <> F + k') ->
  (forall m', (forall k, k < m -> m' (F + k) = Val (dft m sg x k)) ->
     (forall a, (forall k, k < m -> F + k <> a) -> m' a = m0 a) ->
     (forall a, m0 a <> Unalloc -> m' a <> Unalloc) -> K m') ->
  WP (fft (fftm t sg) W F) m0 K.
Proof.
  intros HS Hs Hi Hv Ha Hd HK. assert (HC : CC = 1) by (apply S1_C1; assumption).
  assert (E : forall (B : nat) s c, c < CC -> B + SS * s + c = B + s) by (intros; rewrite HS; lia).
  apply col_fft with (x := fun s _ => x s); auto.
  - intros. rewrite E by assumption. auto.
  - intros. rewrite E by assumption. auto.
  - destruct Hd as [->|Hd]; [auto|right]. intros. rewrite !E by assumption. auto.
  - intros m' HV HF Hal. apply HK; [| |assumption].
    + intros k Hk. rewrite <- (E F k 0) by lia. apply HV; [assumption|lia].
    + intros a H. apply HF. intros. rewrite E by assumption. auto.
Qed.

Lemma row_dft' rh (x : nat -> C) k : k < m -> dft m 1 (rowval m p L M rh x) k = outv M L x (Z.of_nat q * Z.of_nat k + rh).
Proof. intros. apply row_dft; [reflexivity|apply (wf_m t Hwf)|apply (q_pos t Hwf)|apply (wf_Lmp t Hwf)]. Qed.

Lemma forwardExplicit_spec f F W (x : nat -> C) (m0 : mem) (K : mem -> Prop) :
  let W0 := getW F W in
  SS = 1 -> q = 1 ->
  ainplace t = (W0 =? F) ->
  (forall i i', i < L -> i' < m -> f + i <> W0 + i') ->
  (W0 = F \/ forall i i', i < m -> i' < m -> W0 + i <> F + i') ->
  (forall s, s < L -> m0 (f + s) = Val (x s)) ->
  (forall s, s < m -> m0 (W0 + s) <> Unalloc) ->
  (forall s, s < m -> m0 (F + s) <> Unalloc) ->
  (forall m',
     (forall k, k < m -> m' (F + k) = Val (outv M L x (Z.of_nat k))) ->
     (forall a, (forall i, i < m -> F + i <> a) -> (forall s, s < m -> W0 + s <> a) -> m' a = m0 a) ->
     (forall a, m0 a <> Unalloc -> m' a <> Unalloc) -> K m') ->
  WP (forwardExplicit t f F W) m0 K.
Proof.
  intros W0 HS Hq Hi Hdw Hwd Hx Hwa Hfa HK.
  pose proof (wf_m t Hwf) as Hm1. pose proof (q1_p1 t Hwf Hq) as Hp.
  pose proof (wf_Lmp t Hwf) as HLm. rewrite Hp, Nat.mul_1_r in HLm.
  assert (HM : M = m) by (unfold gM; rewrite Hq; lia).
  unfold forwardExplicit. fold W0. clearbody W0. cbv zeta. apply WP_seq.
  apply WP_map1 with (dst := fun s => W0 + s) (g := x); unfold rng.
  { intros; lia. }
  { intros s Hs. cbn [wp]. split; [left; intros; apply not_eq_sym, Hdw; lia|].
    exists (x s). split; [apply Hx; lia|]. wr; [apply Hwa; lia|apply upd_get; reflexivity]. }
  intros m1 H1v H1f H1a. apply WP_seq.
  apply WP_map1 with (dst := fun s => W0 + s) (g := fun _ => C0); unfold rng.
  { intros; lia. }
  { intros s Hs. cbn [wp]. wr; [apply H1a, Hwa; lia|apply upd_get; reflexivity]. }
  intros m2 H2v H2f H2a.
  apply col_fft1 with (x := rowval m p L M 0 x); auto.
  - left; assumption.
  - intros s Hs. rewrite Hp, rowval_1. destruct (Nat.ltb_spec s L).
    + rewrite H2f by (intros; lia). rewrite H1v by lia. rewrite Z.mul_0_l, zeta_0. f_equal. ring.
    + apply H2v. lia.
  - intros m3 HV HF Hal. apply HK; [| |auto].
    + intros k Hk. rewrite HV by assumption. rewrite row_dft' by assumption. f_equal. f_equal. lia.
    + intros a Ha Hb. rewrite HF, H2f, H1f; [reflexivity| | |assumption]; intros; apply Hb; lia.
Qed.

(** *** overwriting kernels *)
Hypothesis How : goverwrite t = true.

Lemma ow_facts : q <> 1 /\ ainplace t = true /\ L = p * m /\ n = p + 1 /\ D = 1 /\ p <= 2 /\ q = p + 1 /\ single.
Proof.
  pose proof How as H. unfold goverwrite in H. destruct (Nat.eqb_spec q 1) as [|Hq]; [discriminate|].
  repeat rewrite andb_true_iff in H. destruct H as ((((((H1 & H2) & H3) & H4) & _) & _) & H5).
  apply Nat.eqb_eq in H2. apply Nat.eqb_eq in H3. apply Nat.eqb_eq in H4. apply negb_true_iff, Nat.ltb_ge in H5.
  repeat split; auto.
  - rewrite (q_small t Hwf) by assumption. assumption.
  - right; right. split; [assumption|apply (P_small t Hwf); assumption].
Qed.

Lemma RV1 rh (x : nat -> C) s : p = 1 -> s < m -> rowval m p L M rh x s = Cmul (zeta M (rh * Z.of_nat s)) (x s).
Proof.
  intros Hp Hs. destruct ow_facts as (_ & _ & HL & _). rewrite Hp in *. rewrite rowval_1.
  destruct (Nat.ltb_spec s L); [ring|lia].
Qed.
Lemma RV2 rh (x : nat -> C) s : p = 2 -> s < m -> rowval m p L M rh x s =
  Cadd (Cmul (zeta M (rh * Z.of_nat s)) (x s)) (Cmul (zeta M (rh * Z.of_nat (m + s))) (x (m + s))).
Proof.
  intros Hp Hs. destruct ow_facts as (_ & _ & HL & _). rewrite Hp in *. rewrite rowval_2 by lia.
  destruct (Nat.ltb_spec s (L - m)); [ring|lia].
Qed.

Lemma forward1All_spec f F (x : nat -> C) (m0 : mem) (K : mem -> Prop) :
  p = 1 -> SS = 1 ->
  (forall i i', i < m -> i' < m -> f + i <> F + i') ->
  (forall s, s < m -> m0 (f + s) = Val (x s)) ->
  (forall s, s < m -> m0 (F + s) <> Unalloc) ->
  (forall m',
     (forall k, k < m -> m' (f + k) = Val (outv M L x (Z.of_nat q * Z.of_nat k))) ->
     (forall k, k < m -> m' (F + k) = Val (outv M L x (Z.of_nat q * Z.of_nat k + 1))) ->
     (forall a, (forall i, i < m -> F + i <> a) -> (forall s, s < m -> f + s <> a) -> m' a = m0 a) ->
     (forall a, m0 a <> Unalloc -> m' a <> Unalloc) -> K m') ->
  WP (forward1All t f F) m0 K.
Proof.
  intros Hp HS Hd Hx Hfa HK. destruct ow_facts as (Hq & Hi & HL & Hn & HD & Hp2 & Hqp & Hsg).
  pose proof (wf_m t Hwf) as Hm1.
  unfold forward1All. apply WP_seq.
  apply WP_Do with (W := eq F) (Q := fun mm => mm F = Val (x 0)).
  { apply local_one. }
  { cbn [wp]. split; [left; intros E; apply (Hd 0 0); lia|]. exists (x 0).
    split; [rewrite <- (Nat.add_0_r f); apply Hx; lia|]. split; [reflexivity|].
    split; [rewrite <- (Nat.add_0_r F); apply Hfa; lia|apply upd_get; reflexivity]. }
  intros m1 H1v H1f H1a. apply WP_seq.
  apply WP_map1 with (dst := fun s => F + s) (g := rowval m p L M 1 x); unfold rng.
  { intros; lia. }
  { intros s Hs. rewrite (tget_some _ _ (zeta M (Z.of_nat (1 * s))) _).
    2:{ replace (m + s) with (m * 1 + s) by lia. apply initZetaqm_get; lia. }
    cbn [wp]. split; [left; intros; apply not_eq_sym, Hd; lia|]. exists (x s).
    split; [rewrite H1f; [apply Hx; lia|intros E; apply (Hd s 0); lia]|].
    wr; [apply H1a, Hfa; lia|apply upd_get; [reflexivity|]].
    rewrite RV1 by (assumption || lia). f_equal. f_equal. lia. }
  intros m2 H2v H2f H2a. apply WP_seq.
  apply col_fft1 with (x := rowval m p L M 0 x); auto.
  - rewrite Hi, Nat.eqb_refl. reflexivity.
  - intros s Hs. rewrite H2f, H1f.
    + rewrite RV1, Z.mul_0_l, zeta_0 by assumption. rewrite Hx by lia. f_equal. ring.
    + intros E. apply (Hd s 0); lia.
    + intros. apply not_eq_sym, Hd; lia.
  - intros s Hs. apply H2a, H1a. rewrite Hx by lia. discriminate.
  - intros m3 H3v H3f H3a. apply col_fft1 with (x := rowval m p L M 1 x); auto.
    + rewrite Hi, Nat.eqb_refl. reflexivity.
    + intros s Hs. rewrite H3f by (intros; apply Hd; lia).
      destruct (Nat.eq_dec s 0) as [->|]; [|apply H2v; lia].
      rewrite H2f by (intros; lia). rewrite RV1 by assumption. rewrite Z.mul_0_r, zeta_0, Nat.add_0_r, H1v.
      f_equal. ring.
    + intros m4 HV HF Hal. apply HK; [| | |auto 10].
      * intros k Hk. rewrite HF by (intros; apply not_eq_sym, Hd; lia). rewrite H3v by assumption.
        rewrite row_dft' by assumption. f_equal. f_equal. lia.
      * intros k Hk. rewrite HV by assumption. rewrite row_dft' by assumption. reflexivity.
      * intros a Ha Hb. rewrite HF, H3f, H2f, H1f; [reflexivity| | | |].
        -- intros E. apply (Ha 0); lia.
        -- intros; apply Ha; lia.
        -- assumption.
        -- assumption.
Qed.

Lemma forward1ManyAll_spec f F (x : nat -> nat -> C) (m0 : mem) (K : mem -> Prop) :
  p = 1 ->
  (forall i c i' c', i < m -> c < CC -> i' < m -> c' < CC -> f + SS * i + c <> F + SS * i' + c') ->
  (forall s c, s < m -> c < CC -> m0 (f + SS * s + c) = Val (x s c)) ->
  (forall s c, s < m -> c < CC -> m0 (F + SS * s + c) <> Unalloc) ->
  (forall m',
     (forall k c, k < m -> c < CC -> m' (f + SS * k + c) = Val (outv M L (fun j => x j c) (Z.of_nat q * Z.of_nat k))) ->
     (forall k c, k < m -> c < CC -> m' (F + SS * k + c) = Val (outv M L (fun j => x j c) (Z.of_nat q * Z.of_nat k + 1))) ->
     (forall a, (forall i c, i < m -> c < CC -> F + SS * i + c <> a) ->
        (forall s c, s < m -> c < CC -> f + SS * s + c <> a) -> m' a = m0 a) ->
     (forall a, m0 a <> Unalloc -> m' a <> Unalloc) -> K m') ->
  WP (forward1ManyAll t f F) m0 K.
Proof.
  intros Hp Hd Hx Hfa HK. destruct ow_facts as (Hq & Hi & HL & Hn & HD & Hp2 & Hqp & Hsg).
  pose proof (wf_m t Hwf) as Hm1. pose proof (wf_CS t Hwf) as HCS.
  assert (E0 : forall (B : nat) c, B + c = B + SS * 0 + c) by (intros; lia).
  unfold forward1ManyAll. apply WP_seq.
  apply WP_cmap with (F := F) (g := x 0).
  { intros c Hc. cbn [wp]. split; [left; intros c' Hc' E; apply (Hd 0 c 0 c'); lia|]. exists (x 0 c).
    split; [rewrite E0; apply Hx; lia|]. split; [reflexivity|].
    split; [rewrite E0; apply Hfa; lia|apply upd_get; reflexivity]. }
  intros m1 H1v H1f H1a. apply WP_seq. cbv zeta.
  apply WP_smap with (CC := CC) (SS := SS) (F := F) (g := fun s c => rowval m p L M 1 (fun j => x j c) s)
    (inner := fun s c => x <- f + SS * s + c ;; F + SS * s + c ::= 
        ZMULTxy (UNPACKL (zeta M (Z.of_nat (1 * s))) (zeta M (Z.of_nat (1 * s))))
            (UNPACKH (zeta M (Z.of_nat (1 * s))) (vneg (zeta M (Z.of_nat (1 * s))))) x ;; Ret).
  { assumption. }
  { intros s Hs. rewrite (tget_some _ _ (zeta M (Z.of_nat (1 * s))) _); [reflexivity|].
    replace (m + s) with (m * 1 + s) by lia. apply initZetaqm_get; lia. }
  { intros s c Hs Hc. cbn [wp]. split; [left; intros; apply not_eq_sym, Hd; lia|]. exists (x s c).
    split; [rewrite H1f; [apply Hx; lia|intros c' Hc' E; apply (Hd s c 0 c'); lia]|].
    split; [reflexivity|split; [apply H1a, Hfa; lia|apply upd_get; [reflexivity|]]].
    rewrite ZMULTxy_eq, RV1 by (assumption || lia). f_equal. f_equal. lia. }
  intros m2 H2v H2f H2a. apply WP_seq.
  apply col_fft with (x := fun s c => rowval m p L M 0 (fun j => x j c) s); auto.
  - rewrite Hi, Nat.eqb_refl. reflexivity.
  - intros s c Hs Hc. rewrite H2f, H1f.
    + rewrite RV1, Z.mul_0_l, zeta_0 by assumption. rewrite Hx by lia. f_equal. ring.
    + intros c' Hc' E. apply (Hd s c 0 c'); lia.
    + intros. apply not_eq_sym, Hd; lia.
  - intros s c Hs Hc. apply H2a, H1a. rewrite Hx by lia. discriminate.
  - intros m3 H3v H3f H3a. apply col_fft with (x := fun s c => rowval m p L M 1 (fun j => x j c) s); auto.
    + rewrite Hi, Nat.eqb_refl. reflexivity.
    + intros s c Hs Hc. rewrite H3f by (intros; apply Hd; lia).
      destruct (Nat.eq_dec s 0) as [->|]; [|apply H2v; lia].
      rewrite H2f; [|intros s' c' Hs' Hc' E; destruct (stride_inj SS s' c' 0 c); lia].
      rewrite RV1 by assumption. rewrite Z.mul_0_r, zeta_0, <- E0, H1v by assumption. f_equal. ring.
    + intros m4 HV HF Hal. apply HK; [| | |auto 10].
      * intros k c Hk Hc. rewrite HF by (intros; apply not_eq_sym, Hd; lia). rewrite H3v by assumption.
        change (fun s => rowval m p L M 0 (fun j => x j c) s) with (rowval m p L M 0 (fun j => x j c)).
        rewrite row_dft' by assumption. f_equal. f_equal. lia.
      * intros k c Hk Hc. rewrite HV by assumption.
        change (fun s => rowval m p L M 1 (fun j => x j c) s) with (rowval m p L M 1 (fun j => x j c)).
        rewrite row_dft' by assumption. reflexivity.
      * intros a Ha Hb. rewrite HF, H3f, H2f, H1f; [reflexivity| | | |].
        -- intros c Hc E. apply (Ha 0 c); lia.
        -- intros; apply Ha; lia.
        -- assumption.
        -- assumption.
Qed.

Lemma pair0_plus v z g :
  vadd (vadd v (vmul z (UNPACKL g g))) (ZMULTI (vmul z (UNPACKH g g))) = Cadd v (Cmul z g).
Proof. vec. Qed.
Lemma pair0_minus v z g :
  vadd v (CONJ (vsub (vmul z (UNPACKL g g)) (ZMULTI (vmul z (UNPACKH g g))))) = Cadd v (Cmul (Cconj z) g).
Proof. vec. Qed.

Lemma forward2All_spec f F (x : nat -> C) (m0 : mem) (K : mem -> Prop) :
  p = 2 -> SS = 1 ->
  (forall i i', i < 2 * m -> i' < m -> f + i <> F + i') ->
  (forall s, s < 2 * m -> m0 (f + s) = Val (x s)) ->
  (forall s, s < m -> m0 (F + s) <> Unalloc) ->
  (forall m',
     (forall k, k < m -> m' (f + k) = Val (outv M L x (Z.of_nat q * Z.of_nat k))) ->
     (forall k, k < m -> m' (f + m + k) = Val (outv M L x (Z.of_nat q * Z.of_nat k + 1))) ->
     (forall k, k < m -> m' (F + k) = Val (outv M L x (Z.of_nat q * Z.of_nat k + -1))) ->
     (forall a, (forall i, i < m -> F + i <> a) -> (forall s, s < 2 * m -> f + s <> a) -> m' a = m0 a) ->
     (forall a, m0 a <> Unalloc -> m' a <> Unalloc) -> K m') ->
  WP (forward2All t f F) m0 K.
Proof.
  intros Hp HS Hd Hx Hfa HK. destruct ow_facts as (Hq & Hi & HL & Hn & HD & Hp2 & Hqp & Hsg).
  pose proof (wf_m t Hwf) as Hm1. rewrite Hp in HL, Hqp.
  unfold forward2All. cbv zeta. apply WP_seq.
  assert (Hdg : forall s s', s < m -> s' < m -> f + m + s <> F + s').
  { intros s s' Hs Hs'. rewrite <- Nat.add_assoc. apply Hd; lia. }
  assert (Hdf : forall s s', s < m -> s' < m -> f + s <> F + s') by (intros; apply Hd; lia).
  assert (Hxg : forall s, s < m -> m0 (f + m + s) = Val (x (m + s))).
  { intros s Hs. rewrite <- Nat.add_assoc. apply Hx; lia. }
  assert (Hal : forall s, s < 2 * m -> m0 (f + s) <> Unalloc) by (intros s Hs; rewrite Hx by lia; discriminate).
  assert (Halg : forall s, s < m -> m0 (f + m + s) <> Unalloc) by (intros s Hs; rewrite Hxg by lia; discriminate).
  assert (H01 : F <> f) by (specialize (Hd 0 0); lia). assert (H02 : F <> f + m) by (specialize (Hd m 0); lia).
  set (R0 := rowval m p L M 0 x). set (R1 := rowval m p L M 1 x). set (R2 := rowval m p L M (-1) x).
  apply WP_Do with (W := fun a => f = a \/ f + m = a \/ F = a)
    (Q := fun mm => mm f = Val (R0 0) /\ mm (f + m) = Val (R1 0) /\ mm F = Val (R2 0)).
  { intros ma mb Hm (A & B & E). rewrite <- !Hm by auto. auto. }
  { cbn [wp]. split; [right; auto|]. exists (x m).
    split; [apply Hx; lia|].
    rewrite (tget_some _ _ (zeta M (Z.of_nat (1 * m))) _).
    2:{ replace L with ((L - m) * 1 + m) at 1 by lia. apply initZetaqmS_get; lia. }
    cbn [wp]. split; [right; auto|]. exists (x 0). split; [rewrite <- Hx by lia; f_equal; lia|].
    rewrite pair0_plus, pair0_minus, vadd_eq.
    split; [auto|]. split; [rewrite <- (Nat.add_0_r f); apply Hal; lia|].
    split; [auto|]. split; [apply upd_alloc; rewrite <- (Nat.add_0_r (f + m)); apply Halg; lia|].
    split; [auto|]. split; [apply upd_alloc, upd_alloc; rewrite <- (Nat.add_0_r F); apply Hfa; lia|].
    split; [|split].
    - rewrite !upd_neq by lia. apply upd_get; [reflexivity|].
      unfold R0. rewrite RV2 by assumption. rewrite !Z.mul_0_l, !zeta_0, Nat.add_0_r. ring.
    - rewrite upd_neq by lia. apply upd_get; [reflexivity|].
      unfold R1. rewrite RV2 by assumption. rewrite Z.mul_0_r, zeta_0, Nat.add_0_r, Z.mul_1_l, Nat.mul_1_l. ring.
    - apply upd_get; [reflexivity|].
      unfold R2. rewrite RV2 by assumption. rewrite Z.mul_0_r, zeta_0, Nat.add_0_r, <- zeta_neg, Nat.mul_1_l.
      replace (-1 * Z.of_nat m)%Z with (- Z.of_nat m)%Z by lia. ring. }
  intros m1 (H1v0 & H1v1 & H1v2) H1f H1a. apply WP_seq.
  assert (Hx1 : forall s, 1 <= s < m -> m1 (f + s) = Val (x s)).
  { intros s Hs. rewrite H1f; [apply Hx; lia|]. specialize (Hdf s 0 ltac:(lia) ltac:(lia)). lia. }
  assert (Hx1g : forall s, 1 <= s < m -> m1 (f + m + s) = Val (x (m + s))).
  { intros s Hs. rewrite H1f; [apply Hxg; lia|]. specialize (Hdg s 0 ltac:(lia) ltac:(lia)). lia. }
  apply WP_map1x3 with (d1 := fun s => f + s) (d2 := fun s => f + m + s) (d3 := fun s => F + s)
    (g1 := R0) (g2 := R1) (g3 := R2); unfold rng.
  { intros s s' Hs Hs'. split; [lia|]. split; [lia|]. split; [lia|]. split; [lia|].
    split; [apply Hdf; lia|apply Hdg; lia]. }
  { intros s Hs. cbn [wp]. split; [right; auto|]. exists (x s). split; [apply Hx1; lia|].
    split; [right; auto|]. exists (x (m + s)). split; [apply Hx1g; lia|].
    rewrite (tget_some _ _ (zeta M (Z.of_nat (1 * s))) _).
    2:{ replace (m + s) with (m * 1 + s) by lia. apply initZetaqm_get; lia. }
    rewrite (tget_some _ _ (zeta M (Z.of_nat (1 * (m + s)))) _).
    2:{ replace (L + s) with ((L - m) * 1 + (m + s)) by lia. apply initZetaqmS_get; lia. }
    rewrite pair2_plus, pair2_minus, vadd_eq. cbn [wp].
    assert (f + s <> F + s) by (apply Hdf; lia). assert (f + m + s <> F + s) by (apply Hdg; lia).
    split; [auto|]. split; [apply H1a, Hal; lia|].
    split; [auto|]. split; [apply upd_alloc, H1a, Halg; lia|].
    split; [auto|]. split; [apply upd_alloc, upd_alloc, H1a, Hfa; lia|].
    split; [|split].
    - rewrite !upd_neq by lia. apply upd_get; [reflexivity|].
      unfold R0. rewrite RV2 by (assumption || lia). rewrite !Z.mul_0_l, !zeta_0. ring.
    - rewrite upd_neq by lia. apply upd_get; [reflexivity|].
      unfold R1. rewrite RV2 by (assumption || lia). rewrite !Z.mul_1_l, !Nat.mul_1_l. reflexivity.
    - apply upd_get; [reflexivity|].
      unfold R2. rewrite RV2 by (assumption || lia). rewrite <- !zeta_neg, !Nat.mul_1_l.
      replace (-1 * Z.of_nat s)%Z with (- Z.of_nat s)%Z by lia.
      replace (-1 * Z.of_nat (m + s))%Z with (- Z.of_nat (m + s))%Z by lia. ring. }
  intros m2 H2v0 H2v1 H2v2 H2f H2a.
  assert (Hv : forall s, s < m -> m2 (f + s) = Val (R0 s) /\ m2 (f + m + s) = Val (R1 s) /\ m2 (F + s) = Val (R2 s)).
  { intros s Hs. destruct (Nat.eq_dec s 0) as [->|].
    - rewrite !Nat.add_0_r. rewrite !H2f; [auto| | |].
      + intros s' Hs'. specialize (Hdf s' 0 ltac:(lia) ltac:(lia)). specialize (Hdg s' 0 ltac:(lia) ltac:(lia)). lia.
      + intros s' Hs'. specialize (Hdg 0 s' ltac:(lia) ltac:(lia)). lia.
      + intros s' Hs'. specialize (Hdf 0 s' ltac:(lia) ltac:(lia)). lia.
    - auto with arith. split; [apply H2v0; lia|]. split; [apply H2v1; lia|apply H2v2; lia]. }
  assert (Hal2 : forall a, m0 a <> Unalloc -> m2 a <> Unalloc) by auto.
  assert (Hf2 : forall a, (forall i, i < m -> F + i <> a) -> (forall s, s < 2 * m -> f + s <> a) -> m2 a = m0 a).
  { intros a Ha Hb. rewrite H2f, H1f; [reflexivity| |].
    - specialize (Ha 0 ltac:(lia)). pose proof (Hb 0 ltac:(lia)). pose proof (Hb m ltac:(lia)). lia.
    - intros s Hs. specialize (Ha s ltac:(lia)). pose proof (Hb s ltac:(lia)). pose proof (Hb (m + s) ltac:(lia)). lia. }
  clear H2v0 H2v1 H2v2 H2f H2a H1v0 H1v1 H1v2 H1f H1a Hx1 Hx1g.
  apply WP_seq. apply col_fft1 with (x := R0); auto.
  { rewrite Hi, Nat.eqb_refl. reflexivity. }
  { intros s Hs. apply Hv; assumption. }
  { intros s Hs. apply Hal2, Hal; lia. }
  intros m3 H3v H3f H3a. apply WP_seq. apply col_fft1 with (x := R1); auto.
  { rewrite Hi, Nat.eqb_refl. reflexivity. }
  { intros s Hs. rewrite H3f by (intros; lia). apply Hv; assumption. }
  intros m4 H4v H4f H4a. apply col_fft1 with (x := R2); auto.
  { rewrite Hi, Nat.eqb_refl. reflexivity. }
  { intros s Hs. rewrite H4f, H3f by (intros; auto). apply Hv; assumption. }
  intros m5 H5v H5f H5a. apply HK; [| | | |auto 10].
  - intros k Hk. rewrite H5f by (intros; apply not_eq_sym, Hdf; lia). rewrite H4f by (intros; lia).
    rewrite H3v by assumption. unfold R0. rewrite row_dft' by assumption. f_equal. f_equal. lia.
  - intros k Hk. rewrite H5f by (intros; apply not_eq_sym, Hdg; lia).
    rewrite H4v by assumption. unfold R1. rewrite row_dft' by assumption. reflexivity.
  - intros k Hk. rewrite H5v by assumption. unfold R2. rewrite row_dft' by assumption. reflexivity.
  - intros a Ha Hb. rewrite H5f, H4f, H3f; [auto| | |assumption].
    + intros; apply Hb; lia.
    + intros. rewrite <- Nat.add_assoc. apply Hb; lia.
Qed.

Lemma forward2ManyAll_spec f F (x : nat -> nat -> C) (m0 : mem) (K : mem -> Prop) :
  p = 2 ->
  (forall i c i' c', i < 2 * m -> c < CC -> i' < m -> c' < CC -> f + SS * i + c <> F + SS * i' + c') ->
  (forall s c, s < 2 * m -> c < CC -> m0 (f + SS * s + c) = Val (x s c)) ->
  (forall s c, s < m -> c < CC -> m0 (F + SS * s + c) <> Unalloc) ->
  (forall m',
     (forall k c, k < m -> c < CC -> m' (f + SS * k + c) = Val (outv M L (fun j => x j c) (Z.of_nat q * Z.of_nat k))) ->
     (forall k c, k < m -> c < CC -> m' (f + SS * (m + k) + c) = Val (outv M L (fun j => x j c) (Z.of_nat q * Z.of_nat k + 1))) ->
     (forall k c, k < m -> c < CC -> m' (F + SS * k + c) = Val (outv M L (fun j => x j c) (Z.of_nat q * Z.of_nat k + -1))) ->
     (forall a, (forall i c, i < m -> c < CC -> F + SS * i + c <> a) ->
        (forall s c, s < 2 * m -> c < CC -> f + SS * s + c <> a) -> m' a = m0 a) ->
     (forall a, m0 a <> Unalloc -> m' a <> Unalloc) -> K m') ->
  WP (forward2ManyAll t f F) m0 K.
Proof.
  intros Hp Hd Hx Hfa HK. destruct ow_facts as (Hq & Hi & HL & Hn & HD & Hp2 & Hqp & Hsg).
  pose proof (wf_m t Hwf) as Hm1. pose proof (wf_CS t Hwf) as HCS. rewrite Hp in HL, Hqp.
  assert (E0 : forall (B : nat) c, B + c = B + SS * 0 + c) by (intros; lia).
  assert (Eg : forall s c, f + gSm t + SS * s + c = f + SS * (m + s) + c) by (intros; unfold gSm; lia).
  assert (Eg0 : forall c, f + gSm t + c = f + SS * (m + 0) + c) by (intros; unfold gSm; lia).
  unfold forward2ManyAll. cbv zeta. apply WP_seq.
  assert (Hfg : forall s c s' c', s < m -> c < CC -> s' < m -> c' < CC -> f + SS * s + c <> f + SS * (m + s') + c').
  { intros s c s' c' Hs Hc Hs' Hc' E. destruct (stride_inj SS s c (m + s') c'); lia. }
  assert (Hdf : forall s c s' c', s < m -> c < CC -> s' < m -> c' < CC -> f + SS * s + c <> F + SS * s' + c') by (intros; apply Hd; lia).
  assert (Hdg : forall s c s' c', s < m -> c < CC -> s' < m -> c' < CC -> f + SS * (m + s) + c <> F + SS * s' + c') by (intros; apply Hd; lia).
  assert (Hal : forall s c, s < 2 * m -> c < CC -> m0 (f + SS * s + c) <> Unalloc) by (intros s c Hs Hc; rewrite Hx by lia; discriminate).
  set (R0 := fun c => rowval m p L M 0 (fun j => x j c)). set (R1 := fun c => rowval m p L M 1 (fun j => x j c)).
  set (R2 := fun c => rowval m p L M (-1) (fun j => x j c)).
  apply WP_map1x3 with (d1 := fun c => f + c) (d2 := fun c => f + gSm t + c) (d3 := fun c => F + c)
    (g1 := fun c => R0 c 0) (g2 := fun c => R1 c 0) (g3 := fun c => R2 c 0); unfold rng.
  { intros c c' Hc Hc'. split; [lia|]. split; [lia|]. split; [lia|].
    rewrite !Eg0, (E0 f c), (E0 F c'). split; [apply Hfg; lia|]. split; [apply Hdf; lia|apply Hdg; lia]. }
  { intros c Hc. rewrite (tget_some _ _ (zeta M (Z.of_nat (1 * m))) _).
    2:{ replace L with ((L - m) * 1 + m) at 1 by lia. apply initZetaqmS_get; lia. }
    cbn [wp]. split; [right; auto|]. exists (x m c).
    split; [rewrite Eg0, Nat.add_0_r; apply Hx; lia|].
    cbn [wp]. split; [right; auto|]. exists (x 0 c). split; [rewrite E0; apply Hx; lia|].
    rewrite pair0_plus, pair0_minus, vadd_eq.
    assert (f + c <> f + gSm t + c) by (rewrite Eg0, (E0 f); apply Hfg; lia).
    assert (f + c <> F + c) by (rewrite (E0 f), (E0 F); apply Hdf; lia).
    assert (f + gSm t + c <> F + c) by (rewrite Eg0, (E0 F); apply Hdg; lia).
    split; [auto|]. split; [rewrite E0; apply Hal; lia|].
    split; [auto|]. split; [apply upd_alloc; rewrite Eg0; apply Hal; lia|].
    split; [auto|]. split; [apply upd_alloc, upd_alloc; rewrite E0; apply Hfa; lia|].
    split; [|split].
    - rewrite !upd_neq by lia. apply upd_get; [reflexivity|].
      unfold R0. rewrite RV2 by assumption. rewrite !Z.mul_0_l, !zeta_0, Nat.add_0_r. ring.
    - rewrite upd_neq by lia. apply upd_get; [reflexivity|].
      unfold R1. rewrite RV2 by assumption. rewrite Z.mul_0_r, zeta_0, Nat.add_0_r, Z.mul_1_l, Nat.mul_1_l. ring.
    - apply upd_get; [reflexivity|].
      unfold R2. rewrite RV2 by assumption. rewrite Z.mul_0_r, zeta_0, Nat.add_0_r, <- zeta_neg, Nat.mul_1_l.
      replace (-1 * Z.of_nat m)%Z with (- Z.of_nat m)%Z by lia. ring. }
  intros m1 H1v0 H1v1 H1v2 H1f H1a. apply WP_seq.
  assert (Hx1 : forall s c, 1 <= s < m -> c < CC -> m1 (f + SS * s + c) = Val (x s c)).
  { intros s c Hs Hc. rewrite H1f; [apply Hx; lia|]. intros c' Hc'. rewrite Eg0, (E0 f c'), (E0 F c').
    split; [intros E; destruct (stride_inj SS 0 c' s c); lia|].
    split; [apply not_eq_sym, Hfg; lia|apply not_eq_sym, Hdf; lia]. }
  assert (Hx1g : forall s c, 1 <= s < m -> c < CC -> m1 (f + SS * (m + s) + c) = Val (x (m + s) c)).
  { intros s c Hs Hc. rewrite H1f; [apply Hx; lia|]. intros c' Hc'. rewrite Eg0, (E0 f c'), (E0 F c').
    split; [apply Hfg; lia|].
    split; [intros E; destruct (stride_inj SS (m + 0) c' (m + s) c); lia|apply not_eq_sym, Hdg; lia]. }
  apply WP_map2x3 with (lo2 := 0) (hi2 := CC)
    (inner := fun s c => V0 <- f + SS * s + c ;; V1 <- f + gSm t + SS * s + c ;;
           let Zeta := zeta M (Z.of_nat (1 * s)) in let Zetam := zeta M (Z.of_nat (1 * (m + s))) in
           let A := vadd (vmul Zeta (UNPACKL V0 V0)) (vmul Zetam (UNPACKL V1 V1)) in
           let B := ZMULTI (vadd (vmul Zeta (UNPACKH V0 V0)) (vmul Zetam (UNPACKH V1 V1))) in
           f + SS * s + c ::= vadd V0 V1 ;;
           f + gSm t + SS * s + c ::= vadd A B ;;
           F + SS * s + c ::= CONJ (vsub A B) ;; Ret)
    (d1 := fun s c => f + SS * s + c) (d2 := fun s c => f + gSm t + SS * s + c) (d3 := fun s c => F + SS * s + c)
    (g1 := fun s c => R0 c s) (g2 := fun s c => R1 c s) (g3 := fun s c => R2 c s); unfold rng.
  { intros s Hs. rewrite (tget_some _ _ (zeta M (Z.of_nat (1 * s))) _).
    2:{ replace (m + s) with (m * 1 + s) by lia. apply initZetaqm_get; lia. }
    rewrite (tget_some _ _ (zeta M (Z.of_nat (1 * (m + s)))) _); [reflexivity|].
    replace (L + s) with ((L - m) * 1 + (m + s)) by lia. apply initZetaqmS_get; lia. }
  { intros s c s' c' Hs Hc Hs' Hc'. rewrite !Eg.
    split; [intros; apply (stride_inj SS); lia|].
    split; [intros E; destruct (stride_inj SS (m + s) c (m + s') c'); lia|].
    split; [intros; apply (stride_inj SS); lia|]. split; [apply Hfg; lia|].
    split; [apply Hdf; lia|apply Hdg; lia]. }
  { intros s c Hs Hc. cbn [wp]. split; [right; auto|]. exists (x s c). split; [apply Hx1; lia|].
    split; [right; auto|]. exists (x (m + s) c). split; [rewrite Eg; apply Hx1g; lia|]. cbv zeta.
    rewrite pair2_plus, pair2_minus, vadd_eq. cbn [wp].
    assert (f + SS * s + c <> F + SS * s + c) by (apply Hdf; lia).
    assert (f + gSm t + SS * s + c <> F + SS * s + c) by (rewrite Eg; apply Hdg; lia).
    assert (f + SS * s + c <> f + gSm t + SS * s + c) by (rewrite Eg; apply Hfg; lia).
    split; [auto|]. split; [apply H1a, Hal; lia|].
    split; [auto|]. split; [apply upd_alloc, H1a; rewrite Eg; apply Hal; lia|].
    split; [auto|]. split; [apply upd_alloc, upd_alloc, H1a, Hfa; lia|].
    split; [|split].
    - rewrite !upd_neq by lia. apply upd_get; [reflexivity|].
      unfold R0. rewrite RV2 by (assumption || lia). rewrite !Z.mul_0_l, !zeta_0. ring.
    - rewrite upd_neq by lia. apply upd_get; [reflexivity|].
      unfold R1. rewrite RV2 by (assumption || lia). rewrite !Z.mul_1_l, !Nat.mul_1_l. reflexivity.
    - apply upd_get; [reflexivity|].
      unfold R2. rewrite RV2 by (assumption || lia). rewrite <- !zeta_neg, !Nat.mul_1_l.
      replace (-1 * Z.of_nat s)%Z with (- Z.of_nat s)%Z by lia.
      replace (-1 * Z.of_nat (m + s))%Z with (- Z.of_nat (m + s))%Z by lia. ring. }
  intros m2 H2v0 H2v1 H2v2 H2f H2a.
  assert (Hv : forall s c, s < m -> c < CC -> m2 (f + SS * s + c) = Val (R0 c s) /\
     m2 (f + SS * (m + s) + c) = Val (R1 c s) /\ m2 (F + SS * s + c) = Val (R2 c s)).
  { intros s c Hs Hc. destruct (Nat.eq_dec s 0) as [->|].
    - rewrite <- Eg0, <- !E0. rewrite !H2f; [split; [apply H1v0; lia|split; [apply H1v1; lia|apply H1v2; lia]]| | |].
      + intros s' c' Hs' Hc'. rewrite Eg, (E0 F). split; [apply Hdf; lia|]. split; [apply Hdg; lia|].
        intros E. destruct (stride_inj SS s' c' 0 c); lia.
      + intros s' c' Hs' Hc'. rewrite Eg, Eg0. split; [apply Hfg; lia|].
        split; [intros E; destruct (stride_inj SS (m + s') c' (m + 0) c); lia|]. apply not_eq_sym, Hdg; lia.
      + intros s' c' Hs' Hc'. rewrite Eg, (E0 f c).
        split; [intros E; destruct (stride_inj SS s' c' 0 c); lia|].
        split; [apply not_eq_sym, Hfg; lia|apply not_eq_sym, Hdf; lia].
    - rewrite <- Eg. split; [apply H2v0; lia|]. split; [apply H2v1; lia|apply H2v2; lia]. }
  assert (Hal2 : forall a, m0 a <> Unalloc -> m2 a <> Unalloc) by auto.
  assert (Hf2 : forall a, (forall i c, i < m -> c < CC -> F + SS * i + c <> a) ->
     (forall s c, s < 2 * m -> c < CC -> f + SS * s + c <> a) -> m2 a = m0 a).
  { intros a Ha Hb. rewrite H2f, H1f; [reflexivity| |].
    - intros c Hc. rewrite Eg0, (E0 f), (E0 F). split; [apply Hb; lia|]. split; [apply Hb; lia|apply Ha; lia].
    - intros s c Hs Hc. rewrite Eg. split; [apply Hb; lia|]. split; [apply Hb; lia|apply Ha; lia]. }
  clear H2v0 H2v1 H2v2 H2f H2a H1v0 H1v1 H1v2 H1f H1a Hx1 Hx1g.
  apply WP_seq. apply col_fft with (x := fun s c => R0 c s); auto.
  { rewrite Hi, Nat.eqb_refl. reflexivity. }
  { intros s c Hs Hc. apply Hv; assumption. }
  { intros s c Hs Hc. apply Hal2, Hal; lia. }
  intros m3 H3v H3f H3a. apply WP_seq. apply col_fft with (x := fun s c => R1 c s); auto.
  { rewrite Hi, Nat.eqb_refl. reflexivity. }
  { intros s c Hs Hc. rewrite Eg. rewrite H3f by (intros; apply Hfg; lia). apply Hv; assumption. }
  { intros s c Hs Hc. rewrite Eg. apply H3a, Hal2, Hal; lia. }
  intros m4 H4v H4f H4a. apply col_fft with (x := fun s c => R2 c s); auto.
  { rewrite Hi, Nat.eqb_refl. reflexivity. }
  { intros s c Hs Hc. rewrite H4f, H3f by (intros; rewrite ?Eg; auto). apply Hv; assumption. }
  intros m5 H5v H5f H5a. apply HK; [| | | |auto 10].
  - intros k c Hk Hc. rewrite H5f by (intros; apply not_eq_sym, Hdf; lia).
    rewrite H4f by (intros; rewrite Eg; apply not_eq_sym, Hfg; lia).
    rewrite H3v by assumption. change (fun s => R0 c s) with (rowval m p L M 0 (fun j => x j c)).
    rewrite row_dft' by assumption. f_equal. f_equal. lia.
  - intros k c Hk Hc. rewrite H5f by (intros; apply not_eq_sym, Hdg; lia).
    rewrite <- Eg. rewrite H4v by assumption. change (fun s => R1 c s) with (rowval m p L M 1 (fun j => x j c)).
    rewrite row_dft' by assumption. reflexivity.
  - intros k c Hk Hc. rewrite H5v by assumption. change (fun s => R2 c s) with (rowval m p L M (-1) (fun j => x j c)).
    rewrite row_dft' by assumption. reflexivity.
  - intros a Ha Hb. rewrite H5f, H4f, H3f; [auto| | |assumption].
    + intros; apply Hb; lia.
    + intros. rewrite Eg. apply Hb; lia.
Qed.
End T.
