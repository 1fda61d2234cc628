(** The transform selected by init(): one statement for every forward kernel. *)
From Coq Require Import Reals ZArith Arith Lia List Bool.
From Verif Require Import CNum Sums Roots Mem VecModel VecProofs PadModel PadKernels Loops
  PadLemmas PadMath PadGeom PadIndex Fwd1 Fwd2 FwdI FwdMany FwdAll.

(** words F[S*i+c], i < N, c < C *)
Definition inbuf (SS CC F N a : nat) : Prop := exists i c, i < N /\ c < CC /\ a = F + SS * i + c.
Definition sepbuf (SS CC f L F N : nat) : Prop :=
  forall i c i' c', i < L -> c < CC -> i' < N -> c' < CC -> f + SS * i + c <> F + SS * i' + c'.

Lemma sepbuf_dj f L F N : 1 <= L -> 1 <= N -> sepbuf 1 1 f L F N -> dj f L F N.
Proof.
  intros HL HN H. unfold dj. destruct (Nat.le_gt_cases (f + L) F) as [|H1]; [auto|].
  destruct (Nat.le_gt_cases (F + N) f) as [|H2]; [auto|]. exfalso.
  destruct (Nat.le_gt_cases f F) as [H3|H3].
  - apply (H (F - f) 0 0 0); lia.
  - apply (H 0 0 (f - F) 0); lia.
Qed.
Lemma sepbuf_1 f L F N : sepbuf 1 1 f L F N -> forall i i', i < L -> i' < N -> f + i <> F + i'.
Proof. intros H i i' Hi Hi'. specialize (H i 0 i' 0 Hi ltac:(lia) Hi' ltac:(lia)). lia. Qed.
Lemma sepbuf_sym SS CC f L F N : sepbuf SS CC f L F N -> sepbuf SS CC F N f L.
Proof. intros H i c i' c' Hi Hc Hi' Hc' E. apply (H i' c' i c); auto. Qed.
Lemma sepbuf_le SS CC f L F N L' N' : sepbuf SS CC f L F N -> L' <= L -> N' <= N -> sepbuf SS CC f L' F N'.
Proof. intros H HL HN i c i' c' Hi Hc Hi' Hc'. apply H; lia. Qed.

Section T.
Variable t : pad.
Hypothesis Hwf : wf t.
Notation L := (gL t).  Notation CC := (gC t). Notation SS := (gS t).
Notation m := (gm t). Notation q := (gq t). Notation M := (gM t). Notation p := (gp t).

Lemma nrows_pos r : 1 <= nrows t r.
Proof.
  unfold nrows. pose proof (P_pos t Hwf). pose proof (D0_bounds t Hwf). pose proof (wf_D t Hwf).
  destruct (r =? 0); nia.
Qed.
Lemma noutputs_pos r : 1 <= noutputs t r.
Proof. rewrite noutputs_rows by assumption. pose proof (nrows_pos r). pose proof (wf_m t Hwf). nia. Qed.

(** the part of W that must hold zeros for the out-of-place p=1 kernels: pad(W) sets it *)
Definition padrow (i : nat) : Prop := L <= i mod m.

Definition wzero (W : nat) (N : nat) (mm : mem) : Prop :=
  repad t = true -> q <> 1 -> p = 1 ->
  forall i c, i < N -> c < CC -> padrow i -> mm (W + SS * i + c) = Val C0.

Lemma D1_nrows r : p <= 2 -> gD t = 1 -> nrows t r = 1.
Proof.
  intros Hp HD. unfold nrows. rewrite (P_small t Hwf) by assumption. rewrite HD, (D0_D1 t HD).
  destruct (r =? 0); reflexivity.
Qed.
Lemma D1_nrowsI r : 2 < p -> gD t = 1 -> nrows t r = p.
Proof.
  intros Hp HD. unfold nrows. rewrite (P_big t) by assumption. rewrite HD, (D0_D1 t HD).
  destruct (r =? 0); lia.
Qed.

Lemma out_index r e k (x : nat -> C) : passr t r -> e < nrows t r -> k < m ->
  outv M L x (Z.of_nat q * Z.of_nat k + rho t r e) = outv M L x (Z.of_nat (index t r (m * e + k))).
Proof.
  intros Hr He Hk. apply outv_mod; [apply M_pos; assumption|].
  symmetry. apply (index_rho t Hwf r e k Hr He Hk).
Qed.

Lemma passr_q1 r : q = 1 -> passr t r -> r = 0.
Proof.
  intros Hq [|(H1 & H2 & H3)]; [assumption|]. exfalso.
  assert (HD : gD t = 1) by (unfold gD; rewrite Hq; reflexivity).
  unfold gR in H3. rewrite Hq in H3. cbn in H3. rewrite (dr_D1 t HD) in H3. lia.
Qed.
Lemma passr_n r : passr t r -> r < gn t.
Proof.
  intros Hr. pose proof (n_pos t Hwf). pose proof (R_le_n t Hwf). destruct Hr as [->|(H1 & H2 & H3)]; [lia|].
  assert (1 <= gdr t); [|lia].
  destruct (residues_shape t Hwf) as (K & _ & _ & _ & _ & Hd & _). assumption.
Qed.

Lemma forward_spec f F W r (x : nat -> nat -> C) (m0 : mem) (K : mem -> Prop) :
  let W0 := getW F W in let N := noutputs t r in
  goverwrite t = false ->
  passr t r ->
  ainplace t = (W0 =? F) ->
  sepbuf SS CC f L W0 N -> sepbuf SS CC f L F N -> (W0 = F \/ sepbuf SS CC W0 N F N) ->
  (forall i c, i < L -> c < CC -> m0 (f + SS * i + c) = Val (x i c)) ->
  (forall i c, i < N -> c < CC -> m0 (W0 + SS * i + c) <> Unalloc) ->
  (forall i c, i < N -> c < CC -> m0 (F + SS * i + c) <> Unalloc) ->
  wzero W0 N m0 ->
  (forall m',
     (forall i c, i < N -> c < CC -> m' (F + SS * i + c) =
        Val (outv M L (fun j => x j c) (Z.of_nat (index t r i)))) ->
     (forall a, ~ inbuf SS CC F N a -> ~ inbuf SS CC W0 N a -> m' a = m0 a) ->
     wzero W0 N m' ->
     (forall a, m0 a <> Unalloc -> m' a <> Unalloc) -> K m') ->
  WP (forward t f F r W) m0 K.
Proof.
  intros W0 N How Hr Hin HfW HfF HWF Hx HWa HFa Hz HK.
  pose proof (wf_m t Hwf) as Hm. pose proof (wf_L t Hwf) as HL. pose proof (wf_C t Hwf) as HC.
  pose proof (wf_p t Hwf) as Hp1. pose proof (noutputs_pos r) as HN. fold N in HN.
  assert (EN : N = m * nrows t r) by (unfold N; apply noutputs_rows; assumption).
  assert (HKz : p <> 1 \/ q = 1 \/ ainplace t = true -> forall mm, wzero W0 N mm).
  { intros H mm Hrp Hq1 Hp'. unfold repad in Hrp. destruct (ainplace t); [discriminate|]. destruct H as [H|[H|H]]; [contradiction|contradiction|discriminate]. }
  unfold forward. destruct (Nat.eqb_spec q 1) as [Hq|Hq].
  { (* explicit *)
    pose proof (q1_p1 t Hwf Hq) as Ep.
    assert (HD : gD t = 1) by (unfold gD; rewrite Hq; reflexivity).
    assert (Er : r = 0) by (apply passr_q1; assumption).
    assert (ENm : N = m) by (rewrite EN, D1_nrows by lia; lia). rewrite ENm in *.
    assert (Eidx : forall i, index t r i = i) by (intros; unfold index; rewrite Hq; reflexivity).
    destruct (Nat.eqb_spec SS 1) as [HS|HS].
    - pose proof (S1_C1 t Hwf HS) as HC1.
      apply forwardExplicit_spec with (x := fun j => x j 0); auto; fold W0.
      + rewrite HS, HC1 in HfW. apply sepbuf_1. assumption.
      + rewrite HS, HC1 in HWF. destruct HWF as [|HWF]; [auto|right]. apply sepbuf_1. assumption.
      + intros s Hs. specialize (Hx s 0 Hs ltac:(lia)). rewrite HS in Hx. rewrite <- Hx. f_equal. lia.
      + intros s Hs. specialize (HWa s 0 Hs ltac:(lia)). rewrite HS in HWa.
        replace (W0 + s) with (W0 + 1 * s + 0) by lia. assumption.
      + intros s Hs. specialize (HFa s 0 Hs ltac:(lia)). rewrite HS in HFa.
        replace (F + s) with (F + 1 * s + 0) by lia. assumption.
      + intros m' HV HF Hal. apply HK; [| |apply HKz; auto|assumption].
        * intros i c Hi Hc. rewrite HC1 in Hc. replace c with 0 by lia. rewrite HS, Eidx.
          replace (F + 1 * i + 0) with (F + i) by lia. apply HV. assumption.
        * intros a Ha Hb. apply HF.
          -- intros i Hi E. apply Ha. exists i, 0. rewrite HS. lia.
          -- intros i Hi E. apply Hb. exists i, 0. rewrite HS. lia.
    - apply forwardExplicitMany_spec with (x := x); auto; fold W0.
      intros m' HV HF Hal. apply HK; [| |apply HKz; auto|assumption].
      * intros i c Hi Hc. rewrite Eidx. apply HV; assumption.
      * intros a Ha Hb. apply HF.
        -- intros i c Hi Hc E. apply Ha. exists i, c. auto.
        -- intros i c Hi Hc E. apply Hb. exists i, c. auto. }
  (* translation of the S=1 hypotheses *)
  assert (HS1 : SS = 1 -> CC = 1 /\ dj f L W0 N /\ dj f L F N /\ (W0 = F \/ dj W0 N F N) /\
    (forall s, s < L -> m0 (f + s) = Val (x s 0)) /\
    (forall i, i < N -> m0 (W0 + i) <> Unalloc) /\ (forall i, i < N -> m0 (F + i) <> Unalloc)).
  { intros HS. pose proof (S1_C1 t Hwf HS) as HC1. rewrite HS, HC1 in *.
    split; [reflexivity|]. split; [apply sepbuf_dj; assumption|]. split; [apply sepbuf_dj; assumption|].
    split; [destruct HWF as [|HWF]; [auto|right; apply sepbuf_dj; assumption]|].
    split; [intros s Hs; rewrite <- (Hx s 0) by lia; f_equal; lia|].
    split.
    - intros i Hi. specialize (HWa i 0 Hi ltac:(lia)). replace (W0 + i) with (W0 + 1 * i + 0) by lia. assumption.
    - intros i Hi. specialize (HFa i 0 Hi ltac:(lia)). replace (F + i) with (F + 1 * i + 0) by lia. assumption. }
  (* translation of the S=1 conclusion *)
  assert (HK1 : SS = 1 -> forall m',
     (forall e k, e < nrows t r -> k < m ->
        m' (F + (m * e + k)) = Val (outv M L (fun j => x j 0) (Z.of_nat q * Z.of_nat k + rho t r e))) ->
     (forall a, (forall i, i < N -> F + i <> a) -> (forall i, i < N -> W0 + i <> a) -> m' a = m0 a) ->
     wzero W0 N m' ->
     (forall a, m0 a <> Unalloc -> m' a <> Unalloc) -> K m').
  { intros HS m' HV HF Hwz Hal. destruct (HS1 HS) as (HC1 & _). apply HK; [| |assumption|assumption].
    - intros i c Hi Hc. rewrite HC1 in Hc. replace c with 0 by lia. rewrite HS.
      set (e := i / m). set (k := i mod m).
      pose proof (Nat.div_mod i m ltac:(lia)) as Ei. fold e k in Ei.
      assert (Hk : k < m) by (apply Nat.mod_upper_bound; lia).
      assert (He : e < nrows t r) by (apply Nat.div_lt_upper_bound; lia).
      rewrite Ei. rewrite <- out_index by assumption.
      rewrite <- HV by assumption. f_equal. lia.
    - intros a Ha Hb. apply HF.
      + intros i Hi E. apply Ha. exists i, 0. rewrite HS. lia.
      + intros i Hi E. apply Hb. exists i, 0. rewrite HS. lia. }
  destruct (Nat.ltb_spec 2 p) as [Hp|Hp].
  { destruct (Nat.eqb_spec SS 1) as [HS|HS].
    - destruct (HS1 HS) as (HC1 & D1 & D2 & D3 & H1 & H2 & H3). rewrite EN in *.
      apply forwardInner_spec with (x := fun j => x j 0); auto; fold W0.
      all: try (rewrite <- EN; assumption).
      intros m' HV HF Hal. apply HK1; auto. apply HKz. left. lia.
    - assert (HD : gD t = 1) by (apply many_D1; assumption).
      assert (ENm : N = m * p) by (rewrite EN, D1_nrowsI by lia; reflexivity). rewrite ENm in *.
      apply forwardInnerMany_spec with (x := x); auto; fold W0.
      + apply passr_n. assumption.
      + intros m' HV HF Hal. apply HK; [| |apply HKz; left; lia|assumption].
        * intros i c Hi Hc. set (e := i / m). set (k := i mod m).
          pose proof (Nat.div_mod i m ltac:(lia)) as Ei. fold e k in Ei.
          assert (Hk : k < m) by (apply Nat.mod_upper_bound; lia).
          assert (He : e < p) by (apply Nat.div_lt_upper_bound; lia).
          rewrite Ei. rewrite <- out_index by (rewrite ?D1_nrowsI by lia; assumption).
          rewrite HV by assumption. do 3 f_equal. unfold rho. destruct (Nat.ltb_spec 2 p); [|lia].
          rewrite Nat.mod_small, Nat.div_small by lia. f_equal. lia.
        * intros a Ha Hb. apply HF.
          -- intros i c Hi Hc E. apply Ha. exists i, c. auto.
          -- intros i c Hi Hc E. apply Hb. exists i, c. auto. }
  (* p <= 2, many *)
  assert (HMany : SS <> 1 -> N = m /\ forall m',
     (forall k c, k < m -> c < CC -> m' (F + SS * k + c) =
        Val (outv M L (fun j => x j c) (Z.of_nat q * Z.of_nat k + Z.of_nat r))) ->
     (forall a, (forall i c, i < m -> c < CC -> F + SS * i + c <> a) ->
        (forall s c, s < m -> c < CC -> W0 + SS * s + c <> a) -> m' a = m0 a) ->
     wzero W0 N m' ->
     (forall a, m0 a <> Unalloc -> m' a <> Unalloc) -> K m').
  { intros HS. assert (HD : gD t = 1) by (apply many_D1; assumption).
    assert (ENm : N = m) by (rewrite EN, D1_nrows by lia; lia). split; [assumption|].
    intros m' HV HF Hwz Hal. apply HK; [| |assumption|assumption].
    - intros i c Hi Hc. rewrite ENm in Hi. rewrite HV by assumption. f_equal.
      replace i with (m * 0 + i) at 2 by lia. rewrite <- out_index by (rewrite ?D1_nrows by lia; auto; lia).
      rewrite rho_D1 by assumption. reflexivity.
    - intros a Ha Hb. rewrite ENm in *. apply HF.
      -- intros i c Hi Hc E. apply Ha. exists i, c. auto.
      -- intros i c Hi Hc E. apply Hb. exists i, c. auto. }
  assert (Hrq : r < q) by (rewrite (q_small t Hwf) by assumption; apply passr_n; assumption).
  rewrite How. destruct (Nat.eqb_spec p 2) as [Hp2|Hp2].
  { destruct (Nat.eqb_spec SS 1) as [HS|HS].
    - destruct (HS1 HS) as (HC1 & D1 & D2 & D3 & H1 & H2 & H3). rewrite EN in *.
      apply forward2_spec with (x := fun j => x j 0); auto; fold W0.
      all: try (rewrite <- EN; assumption).
      intros m' HV HF Hal. apply HK1; auto. apply HKz. left. lia.
    - destruct (HMany HS) as [ENm HKM]. rewrite ENm in *.
      apply forward2Many_spec with (x := x); auto; fold W0.
      intros m' HV HF Hal. apply HKM; auto. apply HKz. left. lia. }
  assert (Ep : p = 1) by lia.
  assert (HLm : L <= m) by (pose proof (wf_Lmp t Hwf); rewrite Ep in *; lia).
  assert (Hrep : ainplace t = false -> L < m -> repad t = true).
  { intros Hi Hl. unfold repad. rewrite Hi. cbn. apply Nat.ltb_lt. assumption. }
  destruct (Nat.eqb_spec SS 1) as [HS|HS].
  - destruct (HS1 HS) as (HC1 & D1 & D2 & D3 & H1 & H2 & H3). rewrite EN in *.
    assert (Hzz : ainplace t = false -> forall e s, e < nrows t r -> L <= s < m -> m0 (W0 + (m * e + s)) = Val C0).
    { intros Hi e s He Hs.
      pose proof (Hz (Hrep Hi ltac:(lia)) Hq Ep (m * e + s) 0) as Hz'. rewrite HS in Hz'.
      rewrite <- Hz'; [f_equal; lia|nia|lia|]. unfold padrow. rewrite modm by lia. lia. }
    apply forward1_spec with (x := fun j => x j 0); auto; fold W0.
    all: try (rewrite <- EN; assumption).
    intros m' HV HF Hal. apply HK1; auto.
    + intros a Ha Hb. apply HF; [assumption|]. intros e s He Hs. apply Hb. nia.
    + intros Hrp _ _ i c Hi Hc Hpr. rewrite HF.
      * apply Hz; assumption.
      * intros i' Hi' E. unfold repad in Hrp. destruct (ainplace t); [discriminate|].
        symmetry in Hin. apply Nat.eqb_neq in Hin. destruct D3 as [|D3]; [contradiction|].
        unfold dj in D3. rewrite HS in E. lia.
      * intros e s He Hs E. unfold padrow in Hpr. rewrite HS in E. assert (i = m * e + s) by lia. subst i.
        rewrite modm in Hpr by lia. lia.
  - destruct (HMany HS) as [ENm HKM]. rewrite ENm in *.
    assert (Hzz : ainplace t = false -> forall s c, L <= s < m -> c < CC -> m0 (W0 + SS * s + c) = Val C0).
    { intros Hi s c Hs Hc. apply Hz; auto; [apply Hrep; auto; lia|lia|]. unfold padrow. rewrite Nat.mod_small; lia. }
    apply forward1Many_spec with (x := x); auto; fold W0.
    intros m' HV HF Hal. apply HKM; auto.
    + intros a Ha Hb. apply HF; [assumption|]. intros s c Hs Hc. apply Hb; lia.
    + intros Hrp _ _ i c Hi Hc Hpr. rewrite HF.
      * apply Hz; assumption.
      * intros i' c' Hi' Hc'. unfold repad in Hrp. destruct (ainplace t); [discriminate|].
        symmetry in Hin. apply Nat.eqb_neq in Hin. destruct HWF as [|HWF]; [contradiction|].
        apply not_eq_sym, HWF; assumption.
      * intros s c' Hs Hc' E. unfold padrow in Hpr. rewrite Nat.mod_small in Hpr by assumption.
        pose proof (wf_CS t Hwf). destruct (stride_inj SS s c' i c); lia.
Qed.
End T.
