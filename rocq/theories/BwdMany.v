(** backwardExplicit, backwardExplicitMany, backward1Many, backward2Many, backwardInnerMany. *)
From Coq Require Import Reals ZArith Arith Lia List Bool.
From Verif Require Import CNum Sums Roots Mem VecModel VecProofs PadModel PadKernels Loops
  PadLemmas PadMath PadGeom Fwd1 FwdI FwdMany Bwd1 BwdI.

Section T.
Variable t : pad.
Hypothesis Hwf : wf t.
Notation L := (gL t).  Notation m := (gm t). Notation q := (gq t). Notation M := (gM t).
Notation D := (gD t). Notation p := (gp t). Notation n := (gn t). Notation CC := (gC t). Notation SS := (gS t).
Notation BV rh y j := (bval M q m rh y j).
Notation Zf y s := (dft m (-1) y s).
Notation col y c := (fun k => y k c).

Lemma BV_q1 y j : q = 1 -> BV 0 y j = Csum m (fun k => Cmul (y k) (zeta M (- (Z.of_nat j * Z.of_nat k)))).
Proof. intros ->. apply Csum_ext. intros k Hk. f_equal. f_equal. lia. Qed.

Hypothesis HS : SS <> 1.

(** inverse transform of one row of columns *)
Lemma rowB_fft F W (y : nat -> nat -> C) (m0 : mem) (K : mem -> Prop) :
  ainplace t = (W =? F) ->
  (forall k c, k < m -> c < CC -> m0 (F + SS * k + c) = Val (y k c)) ->
  (forall s c, s < m -> c < CC -> m0 (W + SS * s + c) <> Unalloc) ->
  (W = F \/ forall k c k' c', k < m -> c < CC -> k' < m -> c' < CC -> W + SS * k + c <> F + SS * k' + c') ->
  (forall m', (forall s c, s < m -> c < CC -> m' (W + SS * s + c) = Val (Zf (col y c) s)) ->
     (forall a, (forall s c, s < m -> c < CC -> W + SS * s + c <> a) -> m' a = m0 a) ->
     (forall a, m0 a <> Unalloc -> m' a <> Unalloc) -> K m') ->
  WP (fft (fftm t (-1)) F W) m0 K.
Proof.
  intros Hi Hv Ha Hd HK. rewrite m_plan by assumption.
  apply WP_fft_strided with (x := y).
  - rewrite Hi. apply Nat.eqb_sym.
  - apply (wf_m t Hwf).
  - apply (wf_CS t Hwf).
  - assumption.
  - assumption.
  - destruct Hd as [->|Hd]; [auto|right]. intros. apply not_eq_sym. apply Hd; assumption.
  - assumption.
Qed.

Definition bwd1c (r : nat) (acc y : nat -> nat -> C) (j c : nat) : C :=
  Cadd (if r =? 0 then C0 else acc j c) (BV (Z.of_nat r) (col y c) j).

Lemma bwd1c_0 acc y j c : bwd1c 0 acc y j c = BV 0 (col y c) j.
Proof. unfold bwd1c. cbn [Nat.eqb Z.of_nat]. ring. Qed.
Lemma bwd1c_r r acc y j c : r <> 0 -> bwd1c r acc y j c = Cadd (acc j c) (BV (Z.of_nat r) (col y c) j).
Proof. intros H. unfold bwd1c. destruct (Nat.eqb_spec r 0); [contradiction|reflexivity]. Qed.

Lemma backward1Many_spec f F W r (y acc : nat -> nat -> C) (m0 : mem) (K : mem -> Prop) :
  let W0 := getW F W in
  p = 1 -> r < q ->
  ainplace t = (W0 =? F) ->
  (forall i c i' c', i < L -> c < CC -> i' < m -> c' < CC -> f + SS * i + c <> W0 + SS * i' + c') ->
  (forall i c i' c', i < L -> c < CC -> i' < m -> c' < CC -> f + SS * i + c <> F + SS * i' + c') ->
  (W0 = F \/ forall i c i' c', i < m -> c < CC -> i' < m -> c' < CC -> W0 + SS * i + c <> F + SS * i' + c') ->
  (forall k c, k < m -> c < CC -> m0 (F + SS * k + c) = Val (y k c)) ->
  (forall s c, s < m -> c < CC -> m0 (W0 + SS * s + c) <> Unalloc) ->
  (forall s c, s < L -> c < CC -> m0 (f + SS * s + c) <> Unalloc) ->
  (r <> 0 -> forall s c, s < L -> c < CC -> m0 (f + SS * s + c) = Val (acc s c)) ->
  (forall m',
     (forall j c, j < L -> c < CC -> m' (f + SS * j + c) = Val (bwd1c r acc y j c)) ->
     (forall a, (forall i c, i < L -> c < CC -> f + SS * i + c <> a) ->
        (forall s c, s < m -> c < CC -> W0 + SS * s + c <> a) -> m' a = m0 a) ->
     (forall a, m0 a <> Unalloc -> m' a <> Unalloc) -> K m') ->
  WP (backward1Many t F f r W) m0 K.
Proof.
  intros W0 Hp Hr Hi Hdw Hdf Hwd Hy Hwa Hfa Hacc HK.
  pose proof (wf_L t Hwf) as HL1. pose proof (wf_m t Hwf) as Hm1. pose proof (wf_CS t Hwf) as HCS.
  pose proof (wf_Lmp t Hwf) as HLm. rewrite Hp, Nat.mul_1_r in HLm. pose proof (wf_C t Hwf) as HC1.
  unfold backward1Many. fold W0. cbv zeta.
  destruct ((r =? 0) && negb (ainplace t) && (m <=? L)) eqn:Ed.
  { apply andb_true_iff in Ed. destruct Ed as [Ed E4]. apply andb_true_iff in Ed. destruct Ed as [E1 E2].
    apply Nat.eqb_eq in E1. apply negb_true_iff in E2. apply Nat.leb_le in E4. subst r.
    apply rowB_fft with (y := y); auto.
    - rewrite E2. symmetry. apply Nat.eqb_neq. intros E. apply (Hdf 0 0 0 0); lia.
    - intros. apply Hfa; lia.
    - right. intros. apply Hdf; lia.
    - intros m' HV HF Hal. apply HK; [| |assumption].
      + intros j c Hj Hc. rewrite HV by lia. rewrite bwd1c_0, BV_res00 by assumption. reflexivity.
      + intros a Ha Hb. apply HF. intros; apply Ha; lia. }
  clear Ed. apply WP_seq. apply rowB_fft with (y := y); auto. intros m1 H1v H1f H1a.
  clearbody W0.
  assert (Hm1f : forall j c, j < L -> c < CC -> m1 (f + SS * j + c) = m0 (f + SS * j + c)).
  { intros. apply H1f. intros. apply not_eq_sym, Hdw; assumption. }
  destruct (Nat.eqb_spec r 0) as [->|Hr0].
  - apply WP_smap with (CC := CC) (SS := SS) (F := f) (g := fun s c => Zf (col y c) s)
       (inner := fun s c => x <- W0 + SS * s + c ;; f + SS * s + c ::= x ;; Ret).
    + assumption.
    + reflexivity.
    + intros s c Hs Hc. cbn [wp]. split; [left; intros; apply Hdw; lia|].
      exists (Zf (col y c) s). split; [apply H1v; lia|].
      split; [reflexivity|split; [apply H1a, Hfa; lia|apply upd_get; reflexivity]].
    + intros m2 H2v H2f H2a. apply HK; [| |auto].
      * intros j c Hj Hc. rewrite H2v by lia. rewrite bwd1c_0, BV_res00 by assumption. reflexivity.
      * intros a Ha Hb. rewrite H2f, H1f; [reflexivity|assumption|]. intros; apply Ha; lia.
  - specialize (Hacc Hr0). apply WP_seq.
    apply WP_cmap with (F := f) (g := fun c => bwd1c r acc y 0 c).
    { intros c Hc. cbn [wp]. split; [right; reflexivity|]. exists (acc 0 c).
      split; [replace (f + c) with (f + SS * 0 + c) by lia; rewrite Hm1f by lia; apply Hacc; lia|].
      split; [left; intros c' Hc' E; apply (Hdw 0 c' 0 c); lia|].
      exists (Zf (col y c) 0). split; [replace (W0 + c) with (W0 + SS * 0 + c) by lia; apply H1v; lia|].
      split; [reflexivity|split; [|apply upd_get; [reflexivity|]]].
      - replace (f + c) with (f + SS * 0 + c) by lia. apply H1a, Hfa; lia.
      - rewrite bwd1c_r, BV_0 by assumption. reflexivity. }
    intros m2 H2v H2f H2a.
    apply WP_smap with (CC := CC) (SS := SS) (F := f) (g := fun s c => bwd1c r acc y s c)
          (inner := fun s c => x <- f + SS * s + c ;; y <- W0 + SS * s + c ;; f + SS * s + c ::=
             vadd x (ZMULTxy (UNPACKL (zeta M (Z.of_nat (r * s))) (zeta M (Z.of_nat (r * s))))
               (UNPACKH (vneg (zeta M (Z.of_nat (r * s)))) (zeta M (Z.of_nat (r * s)))) y) ;; Ret).
    { assumption. }
    { intros s Hs. rewrite (tget_some _ _ (zeta M (Z.of_nat (r * s))) _); [reflexivity|].
      apply initZetaqm_get; lia. }
    { intros s c Hs Hc. cbn [wp]. split; [right; reflexivity|].
      exists (acc s c). split.
      { rewrite H2f; [rewrite Hm1f by lia; apply Hacc; lia|]. intros c' Hc' E. destruct (stride_inj SS 0 c' s c); lia. }
      split; [left; intros; apply Hdw; lia|]. exists (Zf (col y c) s). split.
      { rewrite H2f; [apply H1v; lia|]. intros c' Hc' E. apply (Hdw 0 c' s c); lia. }
      split; [reflexivity|split; [apply H2a, H1a, Hfa; lia|apply upd_get; [reflexivity|]]].
      rewrite vadd_eq, ZMULTxy_conj_eq, bwd1c_r, BV_pos0 by assumption. reflexivity. }
    intros m3 H3v H3f H3a. apply HK; [| |auto].
    + intros s c Hs Hc. destruct (Nat.eq_dec s 0) as [->|]; [|apply H3v; lia].
      rewrite H3f; [|intros s' c' Hs' Hc' E; destruct (stride_inj SS s' c' 0 c); lia].
      rewrite Nat.mul_0_r, Nat.add_0_r. apply H2v; assumption.
    + intros a Ha Hb. rewrite H3f, H2f, H1f; [reflexivity|assumption| |].
      * intros c Hc E. apply (Ha 0 c); lia.
      * intros; apply Ha; lia.
Qed.

Lemma backward2Many_spec f F W r (y acc : nat -> nat -> C) (m0 : mem) (K : mem -> Prop) :
  let W0 := getW F W in
  p = 2 -> r < q ->
  ainplace t = (W0 =? F) ->
  (forall i c i' c', i < L -> c < CC -> i' < m -> c' < CC -> f + SS * i + c <> W0 + SS * i' + c') ->
  (forall i c i' c', i < L -> c < CC -> i' < m -> c' < CC -> f + SS * i + c <> F + SS * i' + c') ->
  (W0 = F \/ forall i c i' c', i < m -> c < CC -> i' < m -> c' < CC -> W0 + SS * i + c <> F + SS * i' + c') ->
  (forall k c, k < m -> c < CC -> m0 (F + SS * k + c) = Val (y k c)) ->
  (forall s c, s < m -> c < CC -> m0 (W0 + SS * s + c) <> Unalloc) ->
  (forall s c, s < L -> c < CC -> m0 (f + SS * s + c) <> Unalloc) ->
  (r <> 0 -> forall s c, s < L -> c < CC -> m0 (f + SS * s + c) = Val (acc s c)) ->
  (forall m',
     (forall j c, j < L -> c < CC -> m' (f + SS * j + c) = Val (bwd1c r acc y j c)) ->
     (forall a, (forall i c, i < L -> c < CC -> f + SS * i + c <> a) ->
        (forall s c, s < m -> c < CC -> W0 + SS * s + c <> a) -> m' a = m0 a) ->
     (forall a, m0 a <> Unalloc -> m' a <> Unalloc) -> K m') ->
  WP (backward2Many t F f r W) m0 K.
Proof.
  intros W0 Hp Hr Hi Hdw Hdf Hwd Hy Hwa Hfa Hacc HK.
  pose proof (wf_L t Hwf) as HL1. pose proof (wf_m t Hwf) as Hm1. pose proof (wf_CS t Hwf) as HCS.
  pose proof (wf_Lmp t Hwf) as HLm. pose proof (wf_mpL t Hwf) as HmL. pose proof (wf_C t Hwf) as HC1.
  assert (HL2 : L <= 2 * m /\ m < L) by (rewrite Hp in *; cbn [Nat.sub] in *; lia).
  clear HLm HmL.
  unfold backward2Many. fold W0. cbv zeta. clearbody W0. apply WP_seq.
  assert (Eg : forall s c, m <= s -> W0 + SS * s - gSm t + c = W0 + SS * (s - m) + c).
  { intros s c Hs. unfold gSm. assert (SS * s = SS * m + SS * (s - m)) as Hx0 by (rewrite <- Nat.mul_add_distr_l; f_equal; lia).
    rewrite Hx0. generalize (SS * m) (SS * (s - m)). intros; lia. }
  apply rowB_fft with (y := y); auto. intros m1 H1v H1f H1a.
  assert (Hm1f : forall j c, j < L -> c < CC -> m1 (f + SS * j + c) = m0 (f + SS * j + c)).
  { intros. apply H1f. intros. apply not_eq_sym, Hdw; assumption. }
  destruct (Nat.eqb_spec r 0) as [->|Hr0].
  - apply WP_seq. apply WP_smap with (CC := CC) (SS := SS) (F := f) (g := fun s c => Zf (col y c) s)
       (inner := fun s c => x <- W0 + SS * s + c ;; f + SS * s + c ::= x ;; Ret).
    { assumption. }
    { reflexivity. }
    { intros s c Hs Hc. cbn [wp]. split; [left; intros; apply Hdw; lia|].
      exists (Zf (col y c) s). split; [apply H1v; lia|].
      split; [reflexivity|split; [apply H1a, Hfa; lia|apply upd_get; reflexivity]]. }
    intros m2 H2v H2f H2a.
    apply WP_smap with (CC := CC) (SS := SS) (F := f) (g := fun s c => Zf (col y c) (s - m))
       (inner := fun s c => x <- W0 + SS * s - gSm t + c ;; f + SS * s + c ::= x ;; Ret).
    { assumption. }
    { reflexivity. }
    { intros s c Hs Hc. cbn [wp]. split; [left; intros; rewrite Eg by lia; apply Hdw; lia|].
      exists (Zf (col y c) (s - m)). split.
      { rewrite Eg by lia. rewrite H2f; [apply H1v; lia|]. intros; apply Hdw; lia. }
      split; [reflexivity|split; [apply H2a, H1a, Hfa; lia|apply upd_get; reflexivity]]. }
    intros m3 H3v H3f H3a. apply HK; [| |auto].
    + intros j c Hj Hc. rewrite bwd1c_0. destruct (Nat.lt_ge_cases j m) as [H|H].
      * rewrite H3f; [|intros s' c' Hs' Hc' E; destruct (stride_inj SS s' c' j c); lia].
        rewrite H2v, BV_res00 by (assumption || lia). reflexivity.
      * rewrite H3v, BV_res01 by (assumption || lia). reflexivity.
    + intros a Ha Hb. rewrite H3f, H2f, H1f; [reflexivity|assumption| |]; intros; apply Ha; lia.
  - specialize (Hacc Hr0). apply WP_seq.
    apply WP_cmap with (F := f) (g := fun c => bwd1c r acc y 0 c).
    { intros c Hc. cbn [wp]. split; [right; reflexivity|]. exists (acc 0 c).
      split; [replace (f + c) with (f + SS * 0 + c) by lia; rewrite Hm1f by lia; apply Hacc; lia|].
      split; [left; intros c' Hc' E; apply (Hdw 0 c' 0 c); lia|].
      exists (Zf (col y c) 0). split; [replace (W0 + c) with (W0 + SS * 0 + c) by lia; apply H1v; lia|].
      split; [reflexivity|split; [|apply upd_get; [reflexivity|]]].
      - replace (f + c) with (f + SS * 0 + c) by lia. apply H1a, Hfa; lia.
      - rewrite bwd1c_r, BV_0 by assumption. reflexivity. }
    intros m2 H2v H2f H2a. apply WP_seq.
    apply WP_smap with (CC := CC) (SS := SS) (F := f) (g := fun s c => bwd1c r acc y s c)
          (inner := fun s c => x <- f + SS * s + c ;; y <- W0 + SS * s + c ;; f + SS * s + c ::=
             Cadd x (Cmul (Cconj (zeta M (Z.of_nat (r * s)))) y) ;; Ret).
    { assumption. }
    { intros s Hs. rewrite (tget_some _ _ (zeta M (Z.of_nat (r * s))) _); [reflexivity|].
      apply initZetaqm_get; lia. }
    { intros s c Hs Hc. cbn [wp]. split; [right; reflexivity|].
      exists (acc s c). split.
      { rewrite H2f; [rewrite Hm1f by lia; apply Hacc; lia|]. intros c' Hc' E. destruct (stride_inj SS 0 c' s c); lia. }
      split; [left; intros; apply Hdw; lia|]. exists (Zf (col y c) s). split.
      { rewrite H2f; [apply H1v; lia|]. intros c' Hc' E. apply (Hdw 0 c' s c); lia. }
      split; [reflexivity|split; [apply H2a, H1a, Hfa; lia|apply upd_get; [reflexivity|]]].
      rewrite bwd1c_r, BV_pos0 by assumption. reflexivity. }
    intros m3 H3v H3f H3a.
    apply WP_smap with (CC := CC) (SS := SS) (F := f) (g := fun s c => bwd1c r acc y s c)
          (inner := fun s c => x <- f + SS * s + c ;; y <- W0 + SS * s - gSm t + c ;; f + SS * s + c ::=
             Cadd x (Cmul (Cconj (zeta M (Z.of_nat (r * s)))) y) ;; Ret).
    { assumption. }
    { intros s Hs. rewrite (tget_some _ _ (zeta M (Z.of_nat (r * s))) _); [reflexivity|].
      replace s with (m + (s - m)) by lia. apply initZetaqmS_get; lia. }
    { intros s c Hs Hc. cbn [wp]. split; [right; reflexivity|].
      exists (acc s c). split.
      { rewrite H3f; [|intros s' c' Hs' Hc' E; destruct (stride_inj SS s' c' s c); lia].
        rewrite H2f; [rewrite Hm1f by lia; apply Hacc; lia|]. intros c' Hc' E. destruct (stride_inj SS 0 c' s c); lia. }
      split; [left; intros; rewrite Eg by lia; apply Hdw; lia|]. exists (Zf (col y c) (s - m)). split.
      { rewrite Eg by lia. rewrite H3f; [|intros; apply Hdw; lia].
        rewrite H2f; [apply H1v; lia|]. intros c' Hc' E. apply (Hdw 0 c' (s - m) c); lia. }
      split; [reflexivity|split; [apply H3a, H2a, H1a, Hfa; lia|apply upd_get; [reflexivity|]]].
      rewrite bwd1c_r, BV_pos1 by (assumption || lia). reflexivity. }
    intros m4 H4v H4f H4a. apply HK; [| |auto].
    + intros s c Hs Hc. destruct (Nat.lt_ge_cases s m) as [H|H]; [|apply H4v; lia].
      rewrite H4f; [|intros s' c' Hs' Hc' E; destruct (stride_inj SS s' c' s c); lia].
      destruct (Nat.eq_dec s 0) as [->|]; [|apply H3v; lia].
      rewrite H3f; [|intros s' c' Hs' Hc' E; destruct (stride_inj SS s' c' 0 c); lia].
      rewrite Nat.mul_0_r, Nat.add_0_r. apply H2v; assumption.
    + intros a Ha Hb. rewrite H4f, H3f, H2f, H1f; [reflexivity|assumption| | |].
      * intros c Hc E. apply (Ha 0 c); lia.
      * intros; apply Ha; lia.
      * intros; apply Ha; lia.
Qed.

Lemma backwardExplicitMany_spec f F W (y : nat -> nat -> C) (m0 : mem) (K : mem -> Prop) :
  let W0 := getW F W in
  q = 1 ->
  ainplace t = (W0 =? F) ->
  (forall i c i' c', i < L -> c < CC -> i' < m -> c' < CC -> f + SS * i + c <> W0 + SS * i' + c') ->
  (W0 = F \/ forall i c i' c', i < m -> c < CC -> i' < m -> c' < CC -> W0 + SS * i + c <> F + SS * i' + c') ->
  (forall k c, k < m -> c < CC -> m0 (F + SS * k + c) = Val (y k c)) ->
  (forall s c, s < m -> c < CC -> m0 (W0 + SS * s + c) <> Unalloc) ->
  (forall s c, s < L -> c < CC -> m0 (f + SS * s + c) <> Unalloc) ->
  (forall m',
     (forall j c, j < L -> c < CC -> m' (f + SS * j + c) = Val (BV 0 (col y c) j)) ->
     (forall a, (forall i c, i < L -> c < CC -> f + SS * i + c <> a) ->
        (forall s c, s < m -> c < CC -> W0 + SS * s + c <> a) -> m' a = m0 a) ->
     (forall a, m0 a <> Unalloc -> m' a <> Unalloc) -> K m') ->
  WP (backwardExplicitMany t F f W) m0 K.
Proof.
  intros W0 Hq Hi Hdw Hwd Hy Hwa Hfa HK.
  pose proof (wf_L t Hwf) as HL1. pose proof (wf_m t Hwf) as Hm1. pose proof (wf_CS t Hwf) as HCS.
  pose proof (q1_p1 t Hwf Hq) as Hp.
  pose proof (wf_Lmp t Hwf) as HLm. rewrite Hp, Nat.mul_1_r in HLm.
  unfold backwardExplicitMany. fold W0. cbv zeta. clearbody W0. apply WP_seq.
  apply rowB_fft with (y := y); auto. intros m1 H1v H1f H1a.
  apply WP_smap with (CC := CC) (SS := SS) (F := f) (g := fun s c => Zf (col y c) s)
       (inner := fun s c => x <- W0 + SS * s + c ;; f + SS * s + c ::= x ;; Ret).
  { assumption. }
  { reflexivity. }
  { intros s c Hs Hc. cbn [wp]. split; [left; intros; apply Hdw; lia|].
    exists (Zf (col y c) s). split; [apply H1v; lia|].
    split; [reflexivity|split; [apply H1a, Hfa; lia|apply upd_get; reflexivity]]. }
  intros m2 H2v H2f H2a. apply HK; [| |auto].
  - intros j c Hj Hc. rewrite H2v by lia. rewrite BV_res00 by assumption. reflexivity.
  - intros a Ha Hb. rewrite H2f, H1f; [reflexivity|assumption|]. intros; apply Ha; lia.
Qed.

(** *** p > 2 *)
Hypothesis Hp : 2 < p.
Hypothesis Hq : q <> 1.

Definition bwdIc (r : nat) (acc : nat -> nat -> C) (y : nat -> nat -> nat -> C) (j c : nat) : C :=
  Cadd (if r =? 0 then C0 else acc j c) (Csum p (fun u => BV (Z.of_nat (n * u + r)) (col (y u) c) j)).

Lemma backwardInnerMany_spec f F W r (y : nat -> nat -> nat -> C) (acc : nat -> nat -> C) (m0 : mem) (K : mem -> Prop) :
  let W0 := getW F W in
  r < n ->
  ainplace t = (W0 =? F) ->
  (forall i c i' c', i < L -> c < CC -> i' < m * p -> c' < CC -> f + SS * i + c <> W0 + SS * i' + c') ->
  (W0 = F \/ forall i c i' c', i < m * p -> c < CC -> i' < m * p -> c' < CC ->
     W0 + SS * i + c <> F + SS * i' + c') ->
  (forall u k c, u < p -> k < m -> c < CC -> m0 (F + SS * (m * u + k) + c) = Val (y u k c)) ->
  (forall s c, s < m * p -> c < CC -> m0 (W0 + SS * s + c) <> Unalloc) ->
  (forall s c, s < L -> c < CC -> m0 (f + SS * s + c) <> Unalloc) ->
  (r <> 0 -> forall s c, s < L -> c < CC -> m0 (f + SS * s + c) = Val (acc s c)) ->
  (forall m',
     (forall j c, j < L -> c < CC -> m' (f + SS * j + c) = Val (bwdIc r acc y j c)) ->
     (forall a, (forall i c, i < L -> c < CC -> f + SS * i + c <> a) ->
        (forall s c, s < m * p -> c < CC -> W0 + SS * s + c <> a) -> m' a = m0 a) ->
     (forall a, m0 a <> Unalloc -> m' a <> Unalloc) -> K m') ->
  WP (backwardInnerMany t F f r W) m0 K.
Proof.
  intros W0 Hr Hi Hdw Hwd Hy Hwa Hfa Hacc HK.
  pose proof (wf_m t Hwf) as Hm1. pose proof (wf_CS t Hwf) as HCS. pose proof (wf_C t Hwf) as HC1.
  pose proof (L_inner t Hwf) as HL. pose proof (q_pn t Hp) as Hqpn.
  assert (Hb : forall u s, u < p -> s < m -> m * u + s < m * p) by (intros; nia).
  assert (Hb' : forall u s, u < p - 1 -> s < m -> m * u + s < m * (p - 1)) by (intros; nia).
  assert (Hb1 : forall u s, 1 <= u -> m <= m * u + s) by (intros; nia).
  assert (Hmm : m <= m * (p - 1)) by nia.
  assert (Hmp : m * p = m * (p - 1) + m) by nia.
  assert (ESm : gSm t = SS * m) by reflexivity.
  assert (Ef : forall (B : nat) u s c, B + gSm t * u + SS * s + c = B + SS * (m * u + s) + c) by (intros; rewrite ESm; lia).
  assert (Hinj : forall B u s c u' s' c', s < m -> c < CC -> s' < m -> c' < CC ->
        B + SS * (m * u + s) + c = B + SS * (m * u' + s') + c' -> u = u' /\ s = s' /\ c = c').
  { intros B u1 s1 c1 u2 s2 c2 H1 H2 H3 H4 E'.
    destruct (stride_inj SS (m * u1 + s1) c1 (m * u2 + s2) c2) as [Ea Eb]; [lia|lia|lia|].
    destruct (stride_inj m u1 s1 u2 s2) as [Ec Ed]; [lia|lia|lia|]. auto. }
  assert (Hdec : forall j, j < m * p -> exists u s, j = m * u + s /\ u < p /\ s < m).
  { intros j Hj. exists (j / m), (j mod m). pose proof (Nat.div_mod j m ltac:(lia)).
    pose proof (Nat.mod_upper_bound j m ltac:(lia)). split; [lia|]. split; [|lia].
    apply Nat.div_lt_upper_bound; lia. }
  unfold backwardInnerMany. fold W0. cbv zeta. clearbody W0. apply WP_seq.
  set (pm1 := p - 1) in *.
  (* inverse row transforms *)
  set (I := fun u0 (m2 : mem) =>
       (forall u s c, u < u0 -> s < m -> c < CC -> m2 (W0 + SS * (m * u + s) + c) = Val (Zf (col (y u) c) s)) /\
       (forall a, (forall u k c, u < u0 -> k < m -> c < CC -> W0 + SS * (m * u + k) + c <> a) -> m2 a = m0 a) /\
       (forall a, m0 a <> Unalloc -> m2 a <> Unalloc)).
  eapply WP_mono; [|apply (WP_cfor C p _ I)].
  2:{ unfold I. split; [intros; lia|]. split; [reflexivity|auto]. }
  2:{ intros u m2 Hu (I1 & I2 & I3).
      apply rowB_fft with (y := y u).
      + rewrite Hi. destruct (Nat.eqb_spec W0 F) as [->|]; symmetry; [apply Nat.eqb_refl|apply Nat.eqb_neq; lia].
      + intros k c Hk Hc. rewrite Ef. rewrite I2; [apply Hy; assumption|].
        intros u' k' c' Hu' Hk' Hc' E'. destruct Hwd as [->|Hwd].
        * apply Hinj in E'; lia.
        * eapply Hwd; [| | | |exact E']; auto. apply Hb; lia.
      + intros s c Hs Hc. rewrite Ef. apply I3, Hwa; auto.
      + destruct Hwd as [->|Hwd]; [left; reflexivity|right]. intros. rewrite !Ef. apply Hwd; auto.
      + intros m3 HV HF Hal. unfold I. split; [|split].
        * intros u' k c Hu' Hk Hc. destruct (Nat.eq_dec u' u) as [->|Hne].
          -- rewrite <- Ef. apply HV; assumption.
          -- rewrite HF; [apply I1; lia|]. intros k' c' Hk' Hc' E'. rewrite Ef in E'.
             apply Hinj in E'; lia.
        * intros a Ha. rewrite HF, I2; [reflexivity| |].
          -- intros; apply Ha; lia.
          -- intros. rewrite Ef. apply Ha; lia.
        * auto. }
  intros m1 (H1v & H1f0 & H1a).
  assert (H1f : forall a, (forall i c, i < m * p -> c < CC -> W0 + SS * i + c <> a) -> m1 a = m0 a).
  { intros a Ha. apply H1f0. intros; apply Ha; auto. }
  clear H1f0 I.
  assert (Hm1f : forall j c, j < L -> c < CC -> m1 (f + SS * j + c) = m0 (f + SS * j + c)).
  { intros. apply H1f. intros. apply not_eq_sym, Hdw; assumption. }
  set (A := fun u s c => stageC t r (fun u k => y u k c) u s).
  set (new := bwdIc r acc y).
  assert (HC : forall u s c, stageD t r (fun u k => y u k c) (m * u + s) =
       Csum p (fun e => BV (Z.of_nat (n * e + r)) (col (y e) c) (m * u + s))) by reflexivity.
  destruct (Nat.eqb_spec r 0) as [Hr0|Hr0].
  - apply WP_seq.
    apply WP_smap3 with (CC := CC) (SS := SS) (m := m) (Sm := gSm t) (F := W0) (lo2 := 1) (g := A)
      (inner := fun u s => pForR 0 CC (fun c => x <- W0 + gSm t * u + SS * s + c ;; W0 + gSm t * u + SS * s + c ::= Cmul x (Cconj (zeta M (Z.of_nat (n * u * s)))) ;; Ret))
      (inner2 := fun u s c => x <- W0 + gSm t * u + SS * s + c ;; W0 + gSm t * u + SS * s + c ::= Cmul x (Cconj (zeta M (Z.of_nat (n * u * s)))) ;; Ret);
      try reflexivity; try assumption.
    { intros u Hu. unfold pForR.
      apply pfor_ext. intros i Hi'.
      rewrite (tget_some _ _ (zeta M (Z.of_nat (n * u * (1 + i)))) _); [reflexivity|].
      apply initZetaqm_get; [|lia]. clear -Hu Hqpn Hr. nia. }
    { intros u s c Hu Hs Hc. cbn [wp].
      split; [right; reflexivity|]. eexists. split; [rewrite Ef; apply H1v; lia|].
      split; [reflexivity|split; [rewrite Ef; apply H1a, Hwa; auto; apply Hb; lia|apply upd_get; [reflexivity|]]].
      unfold A, stageC. rewrite Hr0, Nat.add_0_r. reflexivity. }
    intros m2 H2v H2f H2a. apply WP_seq.
    apply fftpAll_spec with (A := A); auto.
    { intros u s c Hu Hs Hc.
      destruct (Nat.eq_dec s 0) as [Es|Es]; [|destruct (Nat.eq_dec u 0) as [Eu|Eu]; [|apply H2v; lia]].
      - rewrite H2f; [|intros u' s' c' Hu' Hs' Hc' E'; apply Hinj in E'; lia].
        rewrite H1v by assumption. f_equal. unfold A. rewrite Es, (stageC_s0 t). reflexivity.
      - rewrite H2f; [|intros u' s' c' Hu' Hs' Hc' E'; apply Hinj in E'; lia].
        rewrite H1v by assumption. f_equal. unfold A. rewrite Eu, Hr0, (stageC_00 t). reflexivity. }
    intros m3 H3v H3f H3a.
    assert (H3d : forall u s c, u < p -> s < m -> c < CC -> m3 (W0 + SS * (m * u + s) + c) = Val (new (m * u + s) c)).
    { intros u s c Hu Hs Hc. rewrite H3v by assumption. f_equal. unfold new, bwdIc. rewrite <- HC. unfold A.
      rewrite Hr0. cbn [Nat.eqb]. rewrite (stageD_r0 t Hwf Hp) by lia. ring. }
    clear H3v. apply WP_seq.
    apply WP_smap3 with (CC := CC) (SS := SS) (m := m) (Sm := gSm t) (F := f) (lo2 := 0) (g := fun u s c => new (m * u + s) c)
      (inner := fun u s => pForR 0 CC (fun c => x <- W0 + gSm t * u + SS * s + c ;; f + gSm t * u + SS * s + c ::= x ;; Ret))
      (inner2 := fun u s c => x <- W0 + gSm t * u + SS * s + c ;; f + gSm t * u + SS * s + c ::= x ;; Ret);
      try reflexivity; try assumption.
    { intros u s c Hu Hs Hc. cbn [wp]. rewrite !Ef. pose proof (Hb' u s ltac:(lia) ltac:(lia)).
      split; [left; intros u' s' c' Hu' Hs' Hc'; pose proof (Hb' u' s' ltac:(lia) ltac:(lia)); apply Hdw; lia|].
      exists (new (m * u + s) c). split; [apply H3d; lia|].
      split; [reflexivity|split; [apply H3a, H2a, H1a, Hfa; lia|apply upd_get; reflexivity]]. }
    intros m4 H4v H4f H4a.
    apply WP_smap with (CC := CC) (SS := SS) (F := f + gSm t * pm1) (g := fun s c => new (m * pm1 + s) c)
      (inner := fun s c => x <- W0 + gSm t * pm1 + SS * s + c ;; f + gSm t * pm1 + SS * s + c ::= x ;; Ret);
      try reflexivity; try assumption.
    { intros s c Hs Hc. cbn [wp].
      split; [left; intros; rewrite !Ef; apply Hdw; auto; lia|].
      exists (new (m * pm1 + s) c). split.
      { rewrite Ef. rewrite H4f; [apply H3d; lia|]. intros u' s' c' Hu' Hs' Hc'.
        pose proof (Hb' u' s' ltac:(lia) ltac:(lia)). apply Hdw; lia. }
      split; [reflexivity|split; [rewrite Ef; apply H4a, H3a, H2a, H1a, Hfa; lia|apply upd_get; reflexivity]]. }
    intros m5 H5v H5f H5a. apply HK; [| |auto 10].
    + intros j c Hj Hc. fold new. destruct (Hdec j ltac:(lia)) as (u & s & -> & Hu & Hs).
      destruct (Nat.eq_dec u pm1) as [->|].
      * rewrite <- Ef. apply H5v; lia.
      * rewrite H5f; [apply H4v; lia|]. intros s' c' Hs' Hc' E'. rewrite Ef in E'. apply Hinj in E'; lia.
    + intros a Ha Hb2. rewrite H5f, H4f, H3f, H2f, H1f; [reflexivity|assumption| |assumption| |].
      * intros; apply Hb2; auto; apply Hb; lia.
      * intros u s c Hu Hs Hc. pose proof (Hb' u s ltac:(lia) ltac:(lia)). apply Ha; lia.
      * intros; rewrite Ef; apply Ha; lia.
  - specialize (Hacc Hr0). apply WP_seq.
    apply WP_smap3 with (CC := CC) (SS := SS) (m := m) (Sm := gSm t) (F := W0) (lo2 := 1) (g := A)
      (inner := fun u s => pForR 0 CC (fun c => x <- W0 + gSm t * u + SS * s + c ;; W0 + gSm t * u + SS * s + c ::= Cmul x (Cconj (zeta M (Z.of_nat ((n * u + r) * s)))) ;; Ret))
      (inner2 := fun u s c => x <- W0 + gSm t * u + SS * s + c ;; W0 + gSm t * u + SS * s + c ::= Cmul x (Cconj (zeta M (Z.of_nat ((n * u + r) * s)))) ;; Ret);
      try reflexivity; try assumption.
    { intros u Hu. unfold pForR.
      apply pfor_ext. intros i Hi'.
      rewrite (tget_some _ _ (zeta M (Z.of_nat ((n * u + r) * (1 + i)))) _); [reflexivity|].
      apply initZetaqm_get; [|lia]. clear -Hu Hqpn Hr Hr0. nia. }
    { intros u s c Hu Hs Hc. cbn [wp].
      split; [right; reflexivity|]. eexists. split; [rewrite Ef; apply H1v; lia|].
      split; [reflexivity|split; [rewrite Ef; apply H1a, Hwa; auto; apply Hb; lia|apply upd_get; reflexivity]]. }
    intros m2 H2v H2f H2a. apply WP_seq.
    apply fftpAll_spec with (A := A); auto.
    { intros u s c Hu Hs Hc.
      destruct (Nat.eq_dec s 0) as [Es|Es]; [|apply H2v; lia].
      rewrite H2f; [|intros u' s' c' Hu' Hs' Hc' E'; apply Hinj in E'; lia].
      rewrite H1v by assumption. f_equal. unfold A. rewrite Es, (stageC_s0 t). reflexivity. }
    intros m3 H3v H3f H3a.
    assert (H3d : forall u s c, u < p -> s < m -> c < CC ->
       Cadd (acc (m * u + s) c) (Cmul (Cconj (zeta q (Z.of_nat (r * u)))) (dft p (-1) (fun u => A u s c) u)) = new (m * u + s) c).
    { intros u s c Hu Hs Hc. unfold new, bwdIc. rewrite <- HC. unfold A. rewrite (stageD_eq t Hwf Hp) by lia.
      destruct (Nat.eqb_spec r 0); [contradiction|reflexivity]. }
    assert (Hacc3 : forall j c, j < L -> c < CC -> m3 (f + SS * j + c) = Val (acc j c)).
    { intros j c Hj Hc. rewrite H3f by (intros; apply not_eq_sym, Hdw; auto).
      rewrite H2f by (intros; apply not_eq_sym, Hdw; auto; apply Hb; lia).
      rewrite Hm1f by assumption. apply Hacc; assumption. }
    apply WP_seq.
    apply WP_smap with (CC := CC) (SS := SS) (F := f) (g := fun s c => new s c)
      (inner := fun s c => x <- f + SS * s + c ;; y <- W0 + SS * s + c ;; f + SS * s + c ::= Cadd x y ;; Ret);
      try reflexivity; try assumption.
    { intros s c Hs Hc. cbn [wp]. split; [right; reflexivity|].
      exists (acc s c). split; [apply Hacc3; lia|].
      split; [left; intros; apply Hdw; auto; lia|].
      eexists. split; [replace (W0 + SS * s + c) with (W0 + SS * (m * 0 + s) + c) by lia; apply H3v; lia|].
      split; [reflexivity|split; [rewrite Hacc3 by lia; discriminate|apply upd_get; [reflexivity|]]].
      pose proof (H3d 0 s c ltac:(lia) ltac:(lia) Hc) as E'. rewrite !Nat.mul_0_r in E'. cbn [Nat.add Z.of_nat] in E'.
      rewrite <- E', zeta_0. Cext; ring. }
    intros m4 H4v H4f H4a. apply WP_seq.
    assert (HW4 : forall u s c, u < p -> s < m -> c < CC -> m4 (W0 + SS * (m * u + s) + c) = Val (dft p (-1) (fun u => A u s c) u)).
    { intros u s c Hu Hs Hc. rewrite H4f; [apply H3v; assumption|]. intros s' c' Hs' Hc'. apply Hdw; auto; lia. }
    assert (Hacc4 : forall j c, m <= j < L -> c < CC -> m4 (f + SS * j + c) = Val (acc j c)).
    { intros j c Hj Hc. rewrite H4f; [apply Hacc3; lia|]. intros s' c' Hs' Hc' E'. destruct (stride_inj SS s' c' j c); lia. }
    apply WP_smap3 with (CC := CC) (SS := SS) (m := m) (Sm := gSm t) (F := f) (lo2 := 0) (g := fun u s c => new (m * u + s) c)
      (inner := fun u s => pForR 0 CC (fun c => x <- f + gSm t * u + SS * s + c ;; y <- W0 + gSm t * u + SS * s + c ;; f + gSm t * u + SS * s + c ::= Cadd x (Cmul (Cconj (zeta q (Z.of_nat (r * u)))) y) ;; Ret))
      (inner2 := fun u s c => x <- f + gSm t * u + SS * s + c ;; y <- W0 + gSm t * u + SS * s + c ;; f + gSm t * u + SS * s + c ::= Cadd x (Cmul (Cconj (zeta q (Z.of_nat (r * u)))) y) ;; Ret);
      try reflexivity; try assumption.
    { intros u Hu. rewrite (tget_some _ _ (zeta q (Z.of_nat (r * u))) _); [reflexivity|].
      apply (zqp_getI t Hp); lia. }
    { intros u s c Hu Hs Hc. cbn [wp]. rewrite !Ef. pose proof (Hb' u s ltac:(lia) ltac:(lia)). pose proof (Hb1 u s ltac:(lia)).
      split; [right; reflexivity|].
      exists (acc (m * u + s) c). split; [apply Hacc4; lia|].
      split; [left; intros u' s' c' Hu' Hs' Hc'; pose proof (Hb' u' s' ltac:(lia) ltac:(lia)); apply Hdw; lia|].
      eexists. split; [apply HW4; lia|].
      split; [reflexivity|split; [rewrite Hacc4 by lia; discriminate|apply upd_get; [reflexivity|]]].
      apply H3d; lia. }
    intros m5 H5v H5f H5a.
    assert (Hout5 : forall j c, c < CC -> (j < m \/ m * pm1 <= j) -> m5 (f + SS * j + c) = m4 (f + SS * j + c)).
    { intros j c Hc Hj. apply H5f. intros u' s' c' Hu' Hs' Hc' E'. pose proof (Hb' u' s' ltac:(lia) ltac:(lia)).
      pose proof (Hb1 u' s' ltac:(lia)). destruct (stride_inj SS (m * u' + s') c' j c); lia. }
    apply WP_smap with (CC := CC) (SS := SS) (F := f + gSm t * pm1) (g := fun s c => new (m * pm1 + s) c)
      (inner := fun s c => x <- f + gSm t * pm1 + SS * s + c ;; y <- W0 + gSm t * pm1 + SS * s + c ;;
          f + gSm t * pm1 + SS * s + c ::= Cadd x (Cmul (Cconj (zeta q (Z.of_nat (r * pm1)))) y) ;; Ret);
      try reflexivity; try assumption.
    { intros s Hs. rewrite (tget_some _ _ (zeta q (Z.of_nat (r * pm1))) _); [reflexivity|].
      apply (zqp_getI t Hp); lia. }
    { intros s c Hs Hc. cbn [wp].
      split; [right; reflexivity|]. exists (acc (m * pm1 + s) c). split.
      { rewrite Ef, Hout5 by lia. apply Hacc4; lia. }
      split; [left; intros; rewrite !Ef; apply Hdw; auto; lia|].
      eexists. split.
      { rewrite Ef, H5f; [apply HW4; lia|]. intros u' s' c' Hu' Hs' Hc'. pose proof (Hb' u' s' ltac:(lia) ltac:(lia)).
        apply Hdw; lia. }
      split; [reflexivity|split; [rewrite Ef, Hout5, Hacc4 by lia; discriminate|apply upd_get; [reflexivity|]]].
      apply H3d; lia. }
    intros m6 H6v H6f H6a. apply HK; [| |auto 10].
    + intros j c Hj Hc. fold new. destruct (Hdec j ltac:(lia)) as (u & s & -> & Hu & Hs).
      destruct (Nat.eq_dec u pm1) as [->|].
      * rewrite <- Ef. apply H6v; lia.
      * rewrite H6f by (intros s' c' Hs' Hc' E'; rewrite Ef in E'; apply Hinj in E'; lia).
        destruct (Nat.eq_dec u 0) as [->|]; [|apply H5v; lia].
        rewrite Hout5 by lia. rewrite Nat.mul_0_r. apply H4v; lia.
    + intros a Ha Hb2. rewrite H6f, H5f, H4f, H3f, H2f, H1f; [reflexivity|assumption| |assumption| | |].
      * intros; apply Hb2; auto; apply Hb; lia.
      * intros; apply Ha; lia.
      * intros u s c Hu Hs Hc. pose proof (Hb' u s ltac:(lia) ltac:(lia)). apply Ha; lia.
      * intros; rewrite Ef; apply Ha; lia.
Qed.
End T.
