(** backwardExplicit and the overwriting kernels backward1All, backward1ManyAll, backward2All,
    backward2ManyAll. *)
From Coq Require Import Reals ZArith Arith Lia List Bool.
From Verif Require Import CNum Sums Roots Mem VecModel VecProofs PadModel PadKernels Loops
  PadLemmas PadMath PadGeom Fwd1 FwdMany FwdAll Bwd1.

Section T.
Variable t : pad.
Hypothesis Hwf : wf t.
Notation L := (gL t).  Notation m := (gm t). Notation q := (gq t). Notation M := (gM t).
Notation D := (gD t). Notation p := (gp t). Notation n := (gn t). Notation CC := (gC t). Notation SS := (gS t).
Notation BV rh y j := (bval M q m rh y j).
Notation Zf y s := (dft m (-1) y s).
Notation col y c := (fun k => y k c).

Lemma backwardExplicit_spec f F W (y : nat -> C) (m0 : mem) (K : mem -> Prop) :
  let W0 := getW F W in
  SS = 1 -> q = 1 ->
  ainplace t = (W0 =? F) ->
  (forall i i', i < L -> i' < m -> f + i <> W0 + i') ->
  (W0 = F \/ forall i i', i < m -> i' < m -> W0 + i <> F + i') ->
  (forall k, k < m -> m0 (F + k) = Val (y k)) ->
  (forall s, s < m -> m0 (W0 + s) <> Unalloc) ->
  (forall s, s < L -> m0 (f + s) <> Unalloc) ->
  (forall m',
     (forall j, j < L -> m' (f + j) = Val (BV 0 y j)) ->
     (forall a, (forall i, i < L -> f + i <> a) -> (forall s, s < m -> W0 + s <> a) -> m' a = m0 a) ->
     (forall a, m0 a <> Unalloc -> m' a <> Unalloc) -> K m') ->
  WP (backwardExplicit t F f W) m0 K.
Proof.
  intros W0 HS Hq Hi Hdw Hwd Hy Hwa Hfa HK.
  pose proof (wf_m t Hwf) as Hm1. pose proof (q1_p1 t Hwf Hq) as Hp.
  pose proof (wf_Lmp t Hwf) as HLm. rewrite Hp, Nat.mul_1_r in HLm.
  unfold backwardExplicit. fold W0. clearbody W0. cbv zeta. apply WP_seq.
  apply col_fft1 with (x := y); auto.
  { left. assumption. }
  { rewrite Hi. apply Nat.eqb_sym. }
  { destruct Hwd as [->|Hwd]; [auto|right]. intros. apply not_eq_sym, Hwd; assumption. }
  intros m1 H1v H1f H1a.
  apply WP_map1 with (dst := fun s => f + s) (g := fun s => Zf y s); unfold rng.
  { intros; lia. }
  { intros s Hs. cbn [wp]. split; [left; intros; apply Hdw; lia|].
    exists (Zf y s). split; [apply H1v; lia|]. wr; [apply H1a, Hfa; lia|apply upd_get; reflexivity]. }
  intros m2 H2v H2f H2a. apply HK; [| |auto].
  - intros j Hj. rewrite H2v by lia. rewrite BV_res00 by assumption. reflexivity.
  - intros a Ha Hb. rewrite H2f, H1f; [reflexivity|assumption|]. intros; apply Ha; lia.
Qed.

(** *** overwriting kernels *)
Hypothesis How : goverwrite t = true.

Lemma BV_p1 (y : nat -> C) s : BV 1 y s = Cmul (Cconj (zeta M (Z.of_nat (1 * s)))) (Zf y s).
Proof. apply (BV_pos0 t Hwf 1). Qed.
Lemma BV_m1 (y : nat -> C) s : BV (-1) y s = Cmul (zeta M (Z.of_nat (1 * s))) (Zf y s).
Proof. apply (BV_neg0 t Hwf 1). Qed.
Lemma BV_p1' (y : nat -> C) s : BV 1 y (m + s) = Cmul (Cconj (zeta M (Z.of_nat (1 * (m + s))))) (Zf y s).
Proof. rewrite (BV_pos1 t Hwf 1) by lia. replace (m + s - m) with s by lia. reflexivity. Qed.
Lemma BV_m1' (y : nat -> C) s : BV (-1) y (m + s) = Cmul (zeta M (Z.of_nat (1 * (m + s)))) (Zf y s).
Proof. rewrite (BV_neg1 t Hwf 1) by lia. replace (m + s - m) with s by lia. reflexivity. Qed.
Lemma BV_01' (y : nat -> C) s : BV 0 y (m + s) = Zf y s.
Proof. rewrite (BV_res01 t Hwf) by lia. replace (m + s - m) with s by lia. reflexivity. Qed.

Lemma backward1ManyAll_gen f F (y0 y1 : nat -> nat -> C) (m0 : mem) (K : mem -> Prop) :
  p = 1 ->
  (forall i c i' c', i < m -> c < CC -> i' < m -> c' < CC -> f + SS * i + c <> F + SS * i' + c') ->
  (forall s c, s < m -> c < CC -> m0 (f + SS * s + c) = Val (y0 s c)) ->
  (forall s c, s < m -> c < CC -> m0 (F + SS * s + c) = Val (y1 s c)) ->
  (forall m',
     (forall j c, j < m -> c < CC -> m' (f + SS * j + c) = Val (Cadd (BV 0 (col y0 c) j) (BV 1 (col y1 c) j))) ->
     (forall a, (forall i c, i < m -> c < CC -> F + SS * i + c <> a) ->
        (forall s c, s < m -> c < CC -> f + SS * s + c <> a) -> m' a = m0 a) ->
     (forall a, m0 a <> Unalloc -> m' a <> Unalloc) -> K m') ->
  WP (backward1ManyAll t F f) m0 K.
Proof.
  intros Hp Hd Hx HF HK. destruct (ow_facts t Hwf How) as (Hq & Hi & HL & Hn & HD & Hp2 & Hqp & Hsg).
  pose proof (wf_m t Hwf) as Hm1. pose proof (wf_CS t Hwf) as HCS.
  assert (E0 : forall (B : nat) c, B + c = B + SS * 0 + c) by (intros; lia).
  unfold backward1ManyAll. apply WP_seq.
  apply col_fft with (x := y0); auto.
  { rewrite Hi, Nat.eqb_refl. reflexivity. }
  { intros s c Hs Hc. rewrite Hx by assumption. discriminate. }
  intros m1 H1v H1f H1a. apply WP_seq.
  apply col_fft with (x := y1); auto.
  { rewrite Hi, Nat.eqb_refl. reflexivity. }
  { intros s c Hs Hc. rewrite H1f; [apply HF; assumption|]. intros; apply Hd; assumption. }
  { intros s c Hs Hc. apply H1a. rewrite HF by assumption. discriminate. }
  intros m2 H2v H2f H2a.
  assert (H2x : forall s c, s < m -> c < CC -> m2 (f + SS * s + c) = Val (Zf (col y0 c) s)).
  { intros s c Hs Hc. rewrite H2f; [apply H1v; assumption|]. intros; apply not_eq_sym, Hd; assumption. }
  set (new := fun j c => Cadd (BV 0 (col y0 c) j) (BV 1 (col y1 c) j)).
  apply WP_seq. apply WP_cmap with (F := f) (g := new 0).
  { intros c Hc. cbn [wp]. split; [right; reflexivity|]. exists (Zf (col y0 c) 0).
    split; [rewrite E0; apply H2x; lia|].
    split; [left; intros c' Hc' E; apply (Hd 0 c' 0 c); lia|]. exists (Zf (col y1 c) 0).
    split; [rewrite E0; apply H2v; lia|]. split; [reflexivity|].
    split; [rewrite E0, H2x by lia; discriminate|apply upd_get; [reflexivity|]].
    unfold new. rewrite !BV_0 by assumption. reflexivity. }
  intros m3 H3v H3f H3a. cbv zeta.
  apply WP_smap with (CC := CC) (SS := SS) (F := f) (g := new)
    (inner := fun s c => x <- f + SS * s + c ;; y <- F + SS * s + c ;; f + SS * s + c ::=
        vadd x (ZMULTxy (UNPACKL (zeta M (Z.of_nat (1 * s))) (zeta M (Z.of_nat (1 * s))))
            (UNPACKH (vneg (zeta M (Z.of_nat (1 * s)))) (zeta M (Z.of_nat (1 * s)))) y) ;; Ret).
  { assumption. }
  { intros s Hs. rewrite (tget_some _ _ (zeta M (Z.of_nat (1 * s))) _); [reflexivity|].
    replace (m + s) with (m * 1 + s) by lia. apply initZetaqm_get; lia. }
  { intros s c Hs Hc. cbn [wp]. split; [right; reflexivity|]. exists (Zf (col y0 c) s).
    split; [rewrite H3f; [apply H2x; lia|intros c' Hc' E; destruct (stride_inj SS 0 c' s c); lia]|].
    split; [left; intros; apply Hd; lia|]. exists (Zf (col y1 c) s).
    split; [rewrite H3f; [apply H2v; lia|intros c' Hc' E; apply (Hd 0 c' s c); lia]|].
    split; [reflexivity|split; [apply H3a; rewrite H2x by lia; discriminate|apply upd_get; [reflexivity|]]].
    rewrite vadd_eq, ZMULTxy_conj_eq. unfold new. rewrite BV_p1, BV_res00 by assumption. reflexivity. }
  intros m4 H4v H4f H4a. apply HK; [| |auto].
  - intros j c Hj Hc. fold (new j c). destruct (Nat.eq_dec j 0) as [->|]; [|apply H4v; lia].
    rewrite H4f; [|intros s' c' Hs' Hc' E; destruct (stride_inj SS s' c' 0 c); lia].
    rewrite <- E0. apply H3v; assumption.
  - intros a Ha Hb. rewrite H4f, H3f, H2f, H1f; [reflexivity|assumption|assumption| |].
    + intros c Hc E. apply (Hb 0 c); lia.
    + intros; apply Hb; lia.
Qed.

Lemma backward1All_spec f F (y0 y1 : nat -> C) (m0 : mem) (K : mem -> Prop) :
  p = 1 -> SS = 1 ->
  (forall i i', i < m -> i' < m -> f + i <> F + i') ->
  (forall s, s < m -> m0 (f + s) = Val (y0 s)) ->
  (forall s, s < m -> m0 (F + s) = Val (y1 s)) ->
  (forall m',
     (forall j, j < m -> m' (f + j) = Val (Cadd (BV 0 y0 j) (BV 1 y1 j))) ->
     (forall a, (forall i, i < m -> F + i <> a) -> (forall s, s < m -> f + s <> a) -> m' a = m0 a) ->
     (forall a, m0 a <> Unalloc -> m' a <> Unalloc) -> K m') ->
  WP (backward1All t F f) m0 K.
Proof.
  intros Hp HS Hd Hx HF HK. destruct (ow_facts t Hwf How) as (Hq & Hi & HL & Hn & HD & Hp2 & Hqp & Hsg).
  pose proof (wf_m t Hwf) as Hm1.
  unfold backward1All. apply WP_seq.
  apply col_fft1 with (x := y0); auto.
  { rewrite Hi, Nat.eqb_refl. reflexivity. }
  { intros s Hs. rewrite Hx by assumption. discriminate. }
  intros m1 H1v H1f H1a. apply WP_seq.
  apply col_fft1 with (x := y1); auto.
  { rewrite Hi, Nat.eqb_refl. reflexivity. }
  { intros s Hs. rewrite H1f; [apply HF; assumption|]. intros; apply Hd; assumption. }
  { intros s Hs. apply H1a. rewrite HF by assumption. discriminate. }
  intros m2 H2v H2f H2a.
  assert (H2x : forall s, s < m -> m2 (f + s) = Val (Zf y0 s)).
  { intros s Hs. rewrite H2f; [apply H1v; assumption|]. intros; apply not_eq_sym, Hd; assumption. }
  set (new := fun j => Cadd (BV 0 y0 j) (BV 1 y1 j)).
  apply WP_seq. apply WP_Do with (W := eq f) (Q := fun mm => mm f = Val (new 0)).
  { apply local_one. }
  { cbn [wp]. split; [right; reflexivity|]. exists (Zf y0 0).
    split; [rewrite <- (Nat.add_0_r f); apply H2x; lia|].
    split; [left; intros E; apply (Hd 0 0); lia|]. exists (Zf y1 0).
    split; [rewrite <- (Nat.add_0_r F); apply H2v; lia|]. split; [reflexivity|].
    split; [rewrite <- (Nat.add_0_r f), H2x by lia; discriminate|apply upd_get; [reflexivity|]].
    unfold new. rewrite !BV_0 by assumption. reflexivity. }
  intros m3 H3v H3f H3a.
  apply WP_map1 with (dst := fun s => f + s) (g := new); unfold rng.
  { intros; lia. }
  { intros s Hs. cbn [wp]. split; [right; reflexivity|]. exists (Zf y0 s).
    split; [rewrite H3f by lia; apply H2x; lia|].
    rewrite (tget_some _ _ (zeta M (Z.of_nat (1 * s))) _).
    2:{ replace (m + s) with (m * 1 + s) by lia. apply initZetaqm_get; lia. }
    cbn [wp]. split; [left; intros; apply Hd; lia|]. exists (Zf y1 s).
    split; [rewrite H3f; [apply H2v; lia|intros E; apply (Hd 0 s); lia]|].
    wr; [apply H3a; rewrite H2x by lia; discriminate|apply upd_get; [reflexivity|]].
    unfold new. rewrite BV_p1, BV_res00 by assumption. reflexivity. }
  intros m4 H4v H4f H4a. apply HK; [| |auto].
  - intros j Hj. fold (new j). destruct (Nat.eq_dec j 0) as [->|]; [|apply H4v; lia].
    rewrite H4f by (intros; lia). rewrite Nat.add_0_r. apply H3v.
  - intros a Ha Hb. rewrite H4f, H3f, H2f, H1f; [reflexivity|assumption|assumption| |].
    + intros E. apply (Hb 0); lia.
    + intros; apply Hb; lia.
Qed.

Definition new2 (y0 y1 y2 : nat -> C) (j : nat) : C := Cadd (BV 0 y0 j) (Cadd (BV 1 y1 j) (BV (-1) y2 j)).

Lemma backward2All_spec f F (y0 y1 y2 : nat -> C) (m0 : mem) (K : mem -> Prop) :
  p = 2 -> SS = 1 ->
  (forall i i', i < 2 * m -> i' < m -> f + i <> F + i') ->
  (forall s, s < m -> m0 (f + s) = Val (y0 s)) ->
  (forall s, s < m -> m0 (f + m + s) = Val (y1 s)) ->
  (forall s, s < m -> m0 (F + s) = Val (y2 s)) ->
  (forall m',
     (forall j, j < 2 * m -> m' (f + j) = Val (new2 y0 y1 y2 j)) ->
     (forall a, (forall i, i < m -> F + i <> a) -> (forall s, s < 2 * m -> f + s <> a) -> m' a = m0 a) ->
     (forall a, m0 a <> Unalloc -> m' a <> Unalloc) -> K m') ->
  WP (backward2All t F f) m0 K.
Proof.
  intros Hp HS Hd Hx Hg HF HK. destruct (ow_facts t Hwf How) as (Hq & Hi & HL & Hn & HD & Hp2 & Hqp & Hsg).
  pose proof (wf_m t Hwf) as Hm1. rewrite Hp in HL, Hqp.
  assert (Hdg : forall s s', s < m -> s' < m -> f + m + s <> F + s').
  { intros s s' Hs Hs'. rewrite <- Nat.add_assoc. apply Hd; lia. }
  assert (Hdf : forall s s', s < m -> s' < m -> f + s <> F + s') by (intros; apply Hd; lia).
  assert (H01 : F <> f) by (specialize (Hd 0 0); lia). assert (H02 : F <> f + m) by (specialize (Hd m 0); lia).
  unfold backward2All. cbv zeta. apply WP_seq.
  apply col_fft1 with (x := y0); auto.
  { rewrite Hi, Nat.eqb_refl. reflexivity. }
  { intros s Hs. rewrite Hx by assumption. discriminate. }
  intros m1 H1v H1f H1a. apply WP_seq.
  apply col_fft1 with (x := y1); auto.
  { rewrite Hi, Nat.eqb_refl. reflexivity. }
  { intros s Hs. rewrite H1f; [apply Hg; assumption|]. intros; lia. }
  { intros s Hs. apply H1a. rewrite Hg by assumption. discriminate. }
  intros m2 H2v H2f H2a. apply WP_seq.
  apply col_fft1 with (x := y2); auto.
  { rewrite Hi, Nat.eqb_refl. reflexivity. }
  { intros s Hs. rewrite H2f, H1f; [apply HF; assumption| |]; intros; [apply Hdf|apply Hdg]; assumption. }
  { intros s Hs. apply H2a, H1a. rewrite HF by assumption. discriminate. }
  intros m3 H3v H3f H3a.
  assert (H30 : forall s, s < m -> m3 (f + s) = Val (Zf y0 s)).
  { intros s Hs. rewrite H3f, H2f; [apply H1v; assumption| |]; intros; [lia|apply not_eq_sym, Hdf; assumption]. }
  assert (H31 : forall s, s < m -> m3 (f + m + s) = Val (Zf y1 s)).
  { intros s Hs. rewrite H3f; [apply H2v; assumption|]. intros; apply not_eq_sym, Hdg; assumption. }
  set (new := new2 y0 y1 y2).
  apply WP_seq.
  apply WP_Do with (W := fun a => f = a \/ f + m = a)
    (Q := fun mm => mm f = Val (new 0) /\ mm (f + m) = Val (new m)).
  { intros ma mb Hm (A & B). rewrite <- !Hm by auto. auto. }
  { cbn [wp]. split; [right; auto|]. exists (Zf y0 0). split; [rewrite <- (Nat.add_0_r f); apply H30; lia|].
    split; [right; auto|]. exists (Zf y1 0). split; [rewrite <- (Nat.add_0_r (f + m)); apply H31; lia|].
    split; [left; lia|]. exists (Zf y2 0). split; [rewrite <- (Nat.add_0_r F); apply H3v; lia|].
    split; [auto|]. split; [rewrite <- (Nat.add_0_r f), H30 by lia; discriminate|].
    rewrite (tget_some _ _ (zeta M (Z.of_nat (1 * m))) _).
    2:{ replace L with ((L - m) * 1 + m) at 1 by lia. apply initZetaqmS_get; lia. }
    cbn [wp]. split; [auto|]. split; [apply upd_alloc; rewrite <- (Nat.add_0_r (f + m)), H31 by lia; discriminate|].
    split.
    - rewrite upd_neq by lia. apply upd_get; [reflexivity|]. unfold new, new2. rewrite !BV_0 by assumption. rewrite (vadd_eq (vadd _ _)), (vadd_eq (Zf y0 0)).  ring.
    - apply upd_get; [reflexivity|]. unfold new, new2. rewrite vadd_eq, ZMULT2_eq.
      pose proof (BV_01' y0 0) as A0. pose proof (BV_p1' y1 0) as A1. pose proof (BV_m1' y2 0) as A2.
      rewrite Nat.add_0_r in *. rewrite A0, A1, A2. ring. }
  intros m4 (H4a & H4b) H4f H4al.
  apply WP_map1x2 with (d1 := fun s => f + s) (d2 := fun s => f + m + s) (g1 := new) (g2 := fun s => new (m + s)); unfold rng.
  { intros s s' Hs Hs'. split; [lia|]. split; lia. }
  { intros s Hs. cbn [wp]. split; [right; auto|]. exists (Zf y0 s). split; [rewrite H4f by lia; apply H30; lia|].
    split; [right; auto|]. exists (Zf y1 s). split; [rewrite H4f by lia; apply H31; lia|].
    split; [left; intros; split; [apply Hdf; lia|apply Hdg; lia]|]. exists (Zf y2 s).
    split; [rewrite H4f; [apply H3v; lia|specialize (Hdf 0 s); specialize (Hdg 0 s); lia]|].
    rewrite (tget_some _ _ (zeta M (Z.of_nat (1 * s))) _).
    2:{ replace (m + s) with (m * 1 + s) by lia. apply initZetaqm_get; lia. }
    cbn [wp]. split; [auto|]. split; [apply H4al; rewrite H30 by lia; discriminate|].
    rewrite (tget_some _ _ (zeta M (Z.of_nat (1 * (m + s)))) _).
    2:{ replace (L + s) with ((L - m) * 1 + (m + s)) by lia. apply initZetaqmS_get; lia. }
    cbn [wp]. split; [auto|]. split; [apply upd_alloc, H4al; rewrite H31 by lia; discriminate|].
    split.
    - rewrite upd_neq by lia. apply upd_get; [reflexivity|]. unfold new, new2.
      rewrite vadd_eq, ZMULT2_eq, BV_res00, BV_p1, BV_m1 by assumption. ring.
    - apply upd_get; [reflexivity|]. unfold new, new2.
      rewrite vadd_eq, ZMULT2_eq, BV_01', BV_p1', BV_m1'. ring. }
  intros m5 H51 H52 H5f H5al. apply HK; [| |auto 10].
  - intros j Hj. fold new. destruct (Nat.eq_dec j 0) as [->|].
    { rewrite H5f by (intros; lia). rewrite Nat.add_0_r. assumption. }
    destruct (Nat.eq_dec j m) as [->|].
    { rewrite H5f by (intros; lia). assumption. }
    destruct (Nat.lt_ge_cases j m); [apply H51; lia|].
    specialize (H52 (j - m) ltac:(lia)). replace (f + m + (j - m)) with (f + j) in H52 by lia.
    replace (m + (j - m)) with j in H52 by lia. assumption.
  - intros a Ha Hb.
    assert (forall s, s < m -> f + s <> a /\ f + m + s <> a).
    { intros s Hs. split; [apply Hb; lia|rewrite <- Nat.add_assoc; apply Hb; lia]. }
    rewrite H5f, H4f, H3f, H2f, H1f; [reflexivity| | |assumption| |]; intros; try apply H; try lia.
    destruct (H 0) as (A1 & A2); [lia|]. lia.
Qed.

Lemma backward2ManyAll_spec f F (y0 y1 y2 : nat -> nat -> C) (m0 : mem) (K : mem -> Prop) :
  p = 2 ->
  (forall i c i' c', i < 2 * m -> c < CC -> i' < m -> c' < CC -> f + SS * i + c <> F + SS * i' + c') ->
  (forall s c, s < m -> c < CC -> m0 (f + SS * s + c) = Val (y0 s c)) ->
  (forall s c, s < m -> c < CC -> m0 (f + SS * (m + s) + c) = Val (y1 s c)) ->
  (forall s c, s < m -> c < CC -> m0 (F + SS * s + c) = Val (y2 s c)) ->
  (forall m',
     (forall j c, j < 2 * m -> c < CC -> m' (f + SS * j + c) = Val (new2 (col y0 c) (col y1 c) (col y2 c) j)) ->
     (forall a, (forall i c, i < m -> c < CC -> F + SS * i + c <> a) ->
        (forall s c, s < 2 * m -> c < CC -> f + SS * s + c <> a) -> m' a = m0 a) ->
     (forall a, m0 a <> Unalloc -> m' a <> Unalloc) -> K m') ->
  WP (backward2ManyAll t F f) m0 K.
Proof.
  intros Hp Hd Hx Hg HF HK. destruct (ow_facts t Hwf How) as (Hq & Hi & HL & Hn & HD & Hp2 & Hqp & Hsg).
  pose proof (wf_m t Hwf) as Hm1. rewrite Hp in HL, Hqp. pose proof (wf_CS t Hwf) as HCS.
  assert (E0 : forall (B : nat) c, B + c = B + SS * 0 + c) by (intros; lia).
  assert (Eg : forall s c, f + gSm t + SS * s + c = f + SS * (m + s) + c) by (intros; unfold gSm; lia).
  assert (Eg0 : forall c, f + gSm t + c = f + SS * (m + 0) + c) by (intros; unfold gSm; lia).
  assert (Hfg : forall s c s' c', s < m -> c < CC -> s' < m -> c' < CC -> f + SS * s + c <> f + SS * (m + s') + c').
  { intros s c s' c' Hs Hc Hs' Hc' E. destruct (stride_inj SS s c (m + s') c'); lia. }
  assert (Hdf : forall s c s' c', s < m -> c < CC -> s' < m -> c' < CC -> f + SS * s + c <> F + SS * s' + c') by (intros; apply Hd; lia).
  assert (Hdg : forall s c s' c', s < m -> c < CC -> s' < m -> c' < CC -> f + SS * (m + s) + c <> F + SS * s' + c') by (intros; apply Hd; lia).
  unfold backward2ManyAll. cbv zeta. apply WP_seq.
  apply col_fft with (x := y0); auto.
  { rewrite Hi, Nat.eqb_refl. reflexivity. }
  { intros s c Hs Hc. rewrite Hx by assumption. discriminate. }
  intros m1 H1v H1f H1a. apply WP_seq.
  apply col_fft with (x := y1); auto.
  { rewrite Hi, Nat.eqb_refl. reflexivity. }
  { intros s c Hs Hc. rewrite Eg, H1f; [apply Hg; assumption|]. intros; apply Hfg; assumption. }
  { intros s c Hs Hc. rewrite Eg. apply H1a. rewrite Hg by assumption. discriminate. }
  intros m2 H2v H2f H2a. apply WP_seq.
  apply col_fft with (x := y2); auto.
  { rewrite Hi, Nat.eqb_refl. reflexivity. }
  { intros s c Hs Hc. rewrite H2f, H1f; [apply HF; assumption| |]; intros; rewrite ?Eg; [apply Hdf|apply Hdg]; assumption. }
  { intros s c Hs Hc. apply H2a, H1a. rewrite HF by assumption. discriminate. }
  intros m3 H3v H3f H3a.
  assert (H30 : forall s c, s < m -> c < CC -> m3 (f + SS * s + c) = Val (Zf (col y0 c) s)).
  { intros s c Hs Hc. rewrite H3f, H2f; [apply H1v; assumption| |]; intros; rewrite ?Eg; [apply not_eq_sym, Hfg|apply not_eq_sym, Hdf]; assumption. }
  assert (H31 : forall s c, s < m -> c < CC -> m3 (f + SS * (m + s) + c) = Val (Zf (col y1 c) s)).
  { intros s c Hs Hc. rewrite H3f; [rewrite <- Eg; apply H2v; assumption|]. intros; apply not_eq_sym, Hdg; assumption. }
  set (new := fun j c => new2 (col y0 c) (col y1 c) (col y2 c) j).
  apply WP_seq.
  apply WP_map1x2 with (d1 := fun c => f + c) (d2 := fun c => f + gSm t + c) (g1 := new 0) (g2 := new m); unfold rng.
  { intros c c' Hc Hc'. split; [lia|]. split; [lia|]. rewrite E0, Eg0. apply Hfg; lia. }
  { intros c Hc. rewrite (tget_some _ _ (zeta M (Z.of_nat (1 * m))) _).
    2:{ replace L with ((L - m) * 1 + m) at 1 by lia. apply initZetaqmS_get; lia. }
    cbn [wp]. split; [right; auto|]. exists (Zf (col y0 c) 0). split; [rewrite E0; apply H30; lia|].
    split; [right; auto|]. exists (Zf (col y1 c) 0). split; [rewrite Eg0; apply H31; lia|].
    split; [left; intros c' Hc'; rewrite Eg0; split; intros E; [apply (Hdf 0 c' 0 c); lia|apply (Hdg 0 c' 0 c); lia]|].
    exists (Zf (col y2 c) 0). split; [rewrite (E0 F); apply H3v; lia|].
    assert (f + c <> f + gSm t + c) by (rewrite (E0 f), Eg0; apply Hfg; lia).
    split; [auto|]. split; [rewrite E0, H30 by lia; discriminate|].
    split; [auto|]. split; [apply upd_alloc; rewrite Eg0, H31 by lia; discriminate|].
    split.
    - rewrite upd_neq by lia. apply upd_get; [reflexivity|]. unfold new, new2. rewrite !BV_0 by assumption. rewrite (vadd_eq (vadd _ _)), (vadd_eq (Zf (col y0 c) 0)). ring.
    - apply upd_get; [reflexivity|]. unfold new, new2. rewrite vadd_eq, ZMULT2xy_eq.
      pose proof (BV_01' (col y0 c) 0) as A0. pose proof (BV_p1' (col y1 c) 0) as A1. pose proof (BV_m1' (col y2 c) 0) as A2.
      rewrite Nat.add_0_r in *. rewrite A0, A1, A2. ring. }
  intros m4 H41 H42 H4f H4al.
  assert (H4f' : forall s c, c < CC -> 1 <= s -> (s < m \/ m < s) -> m4 (f + SS * s + c) = m3 (f + SS * s + c)).
  { intros s c Hc Hs Hs'. apply H4f. intros c' Hc'. rewrite (E0 f c'), Eg0. split; intros E.
    - destruct (stride_inj SS 0 c' s c); lia.
    - destruct (stride_inj SS (m + 0) c' s c); lia. }
  eapply WP_for2 with (lo2 := 0) (hi2 := CC)
    (inner := fun s c => V0 <- f + SS * s + c ;; V1 <- f + gSm t + SS * s + c ;; V2 <- F + SS * s + c ;;
       f + SS * s + c ::= vadd V0 (ZMULT2xy (UNPACKL (zeta M (Z.of_nat (1 * s))) (zeta M (Z.of_nat (1 * s))))
            (UNPACKH (zeta M (Z.of_nat (1 * s))) (vneg (zeta M (Z.of_nat (1 * s))))) V2 V1) ;;
       f + gSm t + SS * s + c ::= vadd V0 (ZMULT2xy (UNPACKL (zeta M (Z.of_nat (1 * (m + s)))) (zeta M (Z.of_nat (1 * (m + s)))))
            (UNPACKH (zeta M (Z.of_nat (1 * (m + s)))) (vneg (zeta M (Z.of_nat (1 * (m + s)))))) V2 V1) ;; Ret)
    (W := fun s c a => f + SS * s + c = a \/ f + gSm t + SS * s + c = a)
    (Q := fun s c mm => mm (f + SS * s + c) = Val (new s c) /\ mm (f + gSm t + SS * s + c) = Val (new (m + s) c)); unfold rng.
  { intros s Hs. rewrite (tget_some _ _ (zeta M (Z.of_nat (1 * s))) _).
    2:{ replace (m + s) with (m * 1 + s) by lia. apply initZetaqm_get; lia. }
    rewrite (tget_some _ _ (zeta M (Z.of_nat (1 * (m + s)))) _).
    2:{ replace (L + s) with ((L - m) * 1 + (m + s)) by lia. apply initZetaqmS_get; lia. }
    reflexivity. }
  { intros s c s' c' a Hs Hc Hs' Hc' A B. rewrite Eg in A, B. destruct A as [A|A], B as [B|B]; rewrite <- B in A.
    - apply (stride_inj SS); lia.
    - exfalso. apply (Hfg s c s' c'); lia.
    - exfalso. apply (Hfg s' c' s c); lia.
    - destruct (stride_inj SS (m + s) c (m + s') c'); lia. }
  { intros s c Hs Hc ma mb H (A & B). rewrite <- !H by auto. auto. }
  { intros s c Hs Hc. cbn [wp]. rewrite !Eg.
    split; [right; auto|]. exists (Zf (col y0 c) s). split; [rewrite H4f' by lia; apply H30; lia|].
    split; [right; auto|]. exists (Zf (col y1 c) s). split; [rewrite H4f' by lia; apply H31; lia|].
    split; [left; intros s' c' Hs' Hc' [E|E]; rewrite ?Eg in E; [apply (Hdf s' c' s c); lia|apply (Hdg s' c' s c); lia]|].
    exists (Zf (col y2 c) s). split.
    { rewrite H4f; [apply H3v; lia|]. intros c' Hc'. rewrite (E0 f c'), Eg0. split; intros E.
      - apply (Hdf 0 c' s c); lia.
      - apply (Hdg 0 c' s c); lia. }
    assert (f + SS * s + c <> f + SS * (m + s) + c) by (apply Hfg; lia).
    split; [auto|]. split; [rewrite H4f', H30 by lia; discriminate|].
    split; [auto|]. split; [apply upd_alloc; rewrite H4f', H31 by lia; discriminate|].
    split.
    - rewrite upd_neq by lia. apply upd_get; [reflexivity|]. unfold new, new2.
      rewrite vadd_eq, ZMULT2xy_eq, BV_res00, BV_p1, BV_m1 by assumption. ring.
    - apply upd_get; [reflexivity|]. unfold new, new2.
      rewrite vadd_eq, ZMULT2xy_eq, BV_01', BV_p1', BV_m1'. ring. }
  intros m5 H5 H5f H5al. apply HK; [| |auto 10].
  - intros j c Hj Hc. fold (new j c). destruct (Nat.eq_dec j 0) as [->|].
    { rewrite H5f; [rewrite <- E0; apply H41; lia|].
      intros s c' Hs Hc' [E|E]; [destruct (stride_inj SS s c' 0 c); lia|].
      rewrite Eg in E. destruct (stride_inj SS (m + s) c' 0 c); lia. }
    destruct (Nat.eq_dec j m) as [->|].
    { rewrite H5f; [specialize (H42 c ltac:(lia)); rewrite Eg0, Nat.add_0_r in H42; assumption|].
      intros s c' Hs Hc' [E|E]; [destruct (stride_inj SS s c' m c); lia|].
      rewrite Eg in E. destruct (stride_inj SS (m + s) c' m c); lia. }
    destruct (Nat.lt_ge_cases j m); [apply H5; lia|].
    destruct (H5 (j - m) c ltac:(lia) ltac:(lia)) as [_ H52]. rewrite Eg in H52.
    replace (m + (j - m)) with j in H52 by lia. assumption.
  - intros a Ha Hb.
    rewrite H5f, H4f, H3f, H2f, H1f; [reflexivity| | |assumption| |].
    + intros; apply Hb; lia.
    + intros; rewrite Eg; apply Hb; lia.
    + intros; rewrite Eg0, E0; split; apply Hb; lia.
    + intros s c Hs Hc [E|E]; [|rewrite Eg in E]; revert E; apply Hb; lia.
Qed.
End T.
