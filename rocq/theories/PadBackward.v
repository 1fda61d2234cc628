(** The backward transform selected by init(): one statement for every backward kernel, and
    the overwrite pair (forward*All, backward*All). *)
From Coq Require Import Reals ZArith Arith Lia List Bool.
From Verif Require Import CNum Sums Roots Mem VecModel VecProofs PadModel PadKernels Loops
  PadLemmas PadMath PadGeom PadIndex Fwd1 Fwd2 FwdI FwdMany FwdAll PadForward
  Bwd1 BwdI BwdMany BwdAll.

Section T.
Variable t : pad.
Hypothesis Hwf : wf t.
Notation L := (gL t).  Notation CC := (gC t). Notation SS := (gS t). Notation n := (gn t).
Notation m := (gm t). Notation q := (gq t). Notation M := (gM t). Notation p := (gp t).
Notation col y c := (fun k => y k c).

(** what pass r adds to element j of the inverse transform *)
Definition badd (r : nat) (y : nat -> C) (j : nat) : C :=
  Csum (noutputs t r) (fun i => Cmul (y i) (zeta M (- (Z.of_nat j * Z.of_nat (index t r i))))).
Definition bpass (r : nat) (acc y : nat -> C) (j : nat) : C :=
  Cadd (if r =? 0 then C0 else acc j) (badd r y j).

Lemma badd_ext r y y' j : (forall i, i < noutputs t r -> y i = y' i) -> badd r y j = badd r y' j.
Proof. intros H. apply Csum_ext. intros i Hi. rewrite H by assumption. reflexivity. Qed.

Lemma badd_rows r y j : passr t r ->
  badd r y j = Csum (nrows t r) (fun e => bval M q m (rho t r e) (fun k => y (m * e + k)) j).
Proof.
  intros Hr. unfold badd. rewrite noutputs_rows by assumption. rewrite Nat.mul_comm, Csum_mul_nat.
  apply Csum_ext. intros e He. unfold bval. apply Csum_ext. intros k Hk. f_equal.
  apply zeta_mod_eq; [apply M_pos; assumption|].
  pose proof (proj2 (index_rho t Hwf r e k Hr He Hk)) as H. pose proof (M_pos t Hwf).
  rewrite <- !Z.mul_opp_l. rewrite Z.mul_mod, H by lia. rewrite <- Z.mul_mod by lia. reflexivity.
Qed.

Lemma bval_eta (y : nat -> C) rh j : bval M q m rh (fun k => y (m * 0 + k)) j = bval M q m rh y j.
Proof. rewrite Nat.mul_0_r. reflexivity. Qed.

Lemma backward_spec f F W r (y acc : nat -> nat -> C) (m0 : mem) (K : mem -> Prop) :
  let W0 := getW F W in let N := noutputs t r in
  goverwrite t = false ->
  passr t r ->
  ainplace t = (W0 =? F) ->
  sepbuf SS CC f L W0 N -> sepbuf SS CC f L F N -> (W0 = F \/ sepbuf SS CC W0 N F N) ->
  (forall i c, i < N -> c < CC -> m0 (F + SS * i + c) = Val (y i c)) ->
  (forall i c, i < N -> c < CC -> m0 (W0 + SS * i + c) <> Unalloc) ->
  (forall j c, j < L -> c < CC -> m0 (f + SS * j + c) <> Unalloc) ->
  (r <> 0 -> forall j c, j < L -> c < CC -> m0 (f + SS * j + c) = Val (acc j c)) ->
  (forall m',
     (forall j c, j < L -> c < CC -> m' (f + SS * j + c) = Val (bpass r (col acc c) (col y c) j)) ->
     (forall a, ~ inbuf SS CC f L a -> ~ inbuf SS CC W0 N a -> m' a = m0 a) ->
     (forall a, m0 a <> Unalloc -> m' a <> Unalloc) -> K m') ->
  WP (backward t F f r W) m0 K.
Proof.
  intros W0 N How Hr Hin HfW HfF HWF Hy HWa Hfa Hacc HK.
  pose proof (wf_m t Hwf) as Hm. pose proof (wf_L t Hwf) as HL. pose proof (wf_C t Hwf) as HC.
  pose proof (wf_p t Hwf) as Hp1. pose proof (noutputs_pos t Hwf r) as HN. fold N in HN.
  assert (EN : N = m * nrows t r) by (unfold N; apply noutputs_rows; assumption).
  (* many-kernel frames *)
  assert (HF' : forall (N' : nat) m', N' = N -> (forall a, (forall i c, i < L -> c < CC -> f + SS * i + c <> a) ->
        (forall s c, s < N' -> c < CC -> W0 + SS * s + c <> a) -> m' a = m0 a) ->
     forall a, ~ inbuf SS CC f L a -> ~ inbuf SS CC W0 N a -> m' a = m0 a).
  { intros N' m' -> HF a Ha Hb. apply HF.
    - intros i c Hi Hc E. apply Ha. exists i, c. auto.
    - intros i c Hi Hc E. apply Hb. exists i, c. auto. }
  unfold backward. destruct (Nat.eqb_spec q 1) as [Hq|Hq].
  { pose proof (q1_p1 t Hwf Hq) as Ep.
    assert (HD : gD t = 1) by (unfold gD; rewrite Hq; reflexivity).
    assert (Er : r = 0) by (apply (passr_q1 t); assumption).
    assert (Enr : nrows t r = 1) by (apply D1_nrows; auto; lia).
    assert (ENm : N = m) by (rewrite EN, Enr; lia).
    assert (Eval : forall acc y j, bpass r acc y j = bval M q m 0 y j).
    { intros a0 y0 j. unfold bpass. rewrite Er. cbn [Nat.eqb]. rewrite <- Er.
      rewrite badd_rows by assumption. rewrite Enr. cbn [Csum]. rewrite (rho_D1 t) by lia. rewrite Er. cbn [Z.of_nat].
      rewrite (bval_eta y0). ring. }
    destruct (Nat.eqb_spec SS 1) as [HS|HS].
    - pose proof (S1_C1 t Hwf HS) as HC1. rewrite ENm in *. rewrite HS, HC1 in *.
      apply backwardExplicit_spec with (y := fun k => y k 0); auto; fold W0.
      + apply sepbuf_1. assumption.
      + destruct HWF as [|HWF]; [auto|right]. apply sepbuf_1. assumption.
      + intros k Hk. rewrite <- (Hy k 0) by lia. f_equal. lia.
      + intros s Hs. specialize (HWa s 0 Hs ltac:(lia)). replace (W0 + s) with (W0 + 1 * s + 0) by lia. assumption.
      + intros s Hs. specialize (Hfa s 0 Hs ltac:(lia)). replace (f + s) with (f + 1 * s + 0) by lia. assumption.
      + intros m' HV HF Hal. apply HK; [| |assumption].
        * intros j c Hj Hc. replace c with 0 by lia. rewrite Eval.
          replace (f + 1 * j + 0) with (f + j) by lia. apply HV. assumption.
        * intros a Ha Hb. apply HF.
          -- intros i Hi E. apply Ha. exists i, 0. lia.
          -- intros i Hi E. apply Hb. exists i, 0. lia.
    - rewrite ENm in HfW, HfF, HWF, Hy, HWa.
      apply backwardExplicitMany_spec with (y := y); auto; fold W0.
      intros m' HV HF Hal. apply HK; [| |assumption].
      * intros j c Hj Hc. rewrite Eval. apply HV; assumption.
      * apply (HF' m); auto. }
  assert (HS1 : SS = 1 -> CC = 1 /\ dj f L W0 N /\ dj f L F N /\ (W0 = F \/ dj W0 N F N) /\
    (forall e k, e < nrows t r -> k < m -> m0 (F + (m * e + k)) = Val (y (m * e + k) 0)) /\
    (forall i, i < N -> m0 (W0 + i) <> Unalloc) /\ (forall i, i < L -> m0 (f + i) <> Unalloc) /\
    (r <> 0 -> forall j, j < L -> m0 (f + j) = Val (acc j 0))).
  { intros HS. pose proof (S1_C1 t Hwf HS) as HC1. rewrite HS, HC1 in *.
    split; [reflexivity|]. split; [apply sepbuf_dj; assumption|]. split; [apply sepbuf_dj; assumption|].
    split; [destruct HWF as [|HWF]; [auto|right; apply sepbuf_dj; assumption]|].
    split; [intros e k He Hk; rewrite <- (Hy (m * e + k) 0); [f_equal; lia| |lia];
            rewrite EN; clear -He Hk; nia|].
    split; [|split].
    - intros i Hi. specialize (HWa i 0 Hi ltac:(lia)). replace (W0 + i) with (W0 + 1 * i + 0) by lia. assumption.
    - intros i Hi. specialize (Hfa i 0 Hi ltac:(lia)). replace (f + i) with (f + 1 * i + 0) by lia. assumption.
    - intros H0 j Hj. rewrite <- (Hacc H0 j 0) by lia. f_equal. lia. }
  assert (HK1 : SS = 1 -> forall m',
     (forall j, j < L -> m' (f + j) = Val (bwd_val t r (fun j => acc j 0) (fun e k => y (m * e + k) 0) j)) ->
     (forall a, a < f \/ f + L <= a -> (forall i, i < N -> W0 + i <> a) -> m' a = m0 a) ->
     (forall a, m0 a <> Unalloc -> m' a <> Unalloc) -> K m').
  { intros HS m' HV HF Hal. destruct (HS1 HS) as (HC1 & _). apply HK; [| |assumption].
    - intros j c Hj Hc. rewrite HC1 in Hc. replace c with 0 by lia. rewrite HS.
      replace (f + 1 * j + 0) with (f + j) by lia. rewrite HV by assumption. f_equal.
      unfold bwd_val, bpass. rewrite badd_rows by assumption. reflexivity.
    - intros a Ha Hb. apply HF.
      + destruct (Nat.lt_ge_cases a f); [auto|]. right. destruct (Nat.lt_ge_cases a (f + L)); [|assumption].
        exfalso. apply Ha. exists (a - f), 0. rewrite HS. lia.
      + intros i Hi E. apply Hb. exists i, 0. rewrite HS. lia. }
  destruct (Nat.ltb_spec 2 p) as [Hp|Hp].
  { destruct (Nat.eqb_spec SS 1) as [HS|HS].
    - destruct (HS1 HS) as (HC1 & D1 & D2 & D3 & H1 & H2 & H3 & H4). rewrite EN in *.
      apply backwardInner_spec with (y := fun e k => y (m * e + k) 0) (acc := fun j => acc j 0); auto.
    - assert (HD : gD t = 1) by (apply many_D1; assumption).
      assert (ENm : N = m * p) by (rewrite EN, D1_nrowsI by (assumption || lia); reflexivity). rewrite ENm in HfW, HfF, HWF, Hy, HWa.
      apply backwardInnerMany_spec with (y := fun u k c => y (m * u + k) c) (acc := acc); auto; fold W0.
      + apply passr_n; assumption.
      + intros u k c Hu Hk Hc. apply Hy; [clear -Hu Hk; nia|assumption].
      + intros m' HV HF Hal. apply HK; [|apply (HF' (m * p)); auto|assumption].
        intros j c Hj Hc. rewrite HV by assumption. f_equal. unfold bwdIc, bpass. f_equal.
        rewrite badd_rows by assumption. rewrite D1_nrowsI by assumption. apply Csum_ext. intros u Hu.
        f_equal. unfold rho. destruct (Nat.ltb_spec 2 p); [|lia].
        rewrite Nat.mod_small, Nat.div_small by lia. f_equal. lia. }
  assert (HMany : SS <> 1 -> N = m /\ forall m',
     (forall j c, j < L -> c < CC -> m' (f + SS * j + c) = Val (bwd1c t r acc y j c)) ->
     (forall a, (forall i c, i < L -> c < CC -> f + SS * i + c <> a) ->
        (forall s c, s < m -> c < CC -> W0 + SS * s + c <> a) -> m' a = m0 a) ->
     (forall a, m0 a <> Unalloc -> m' a <> Unalloc) -> K m').
  { intros HS. assert (HD : gD t = 1) by (apply many_D1; assumption).
    assert (Enr : nrows t r = 1) by (apply D1_nrows; auto; lia).
    assert (ENm : N = m) by (rewrite EN, Enr; lia). split; [assumption|].
    intros m' HV HF Hal. apply HK; [|apply (HF' m); auto|assumption].
    intros j c Hj Hc. rewrite HV by assumption. f_equal. unfold bwd1c, bpass. f_equal.
    rewrite badd_rows by assumption. rewrite Enr. cbn [Csum]. rewrite rho_D1 by lia.
    rewrite (bval_eta (col y c)). ring. }
  assert (Hrq : r < q) by (rewrite (q_small t Hwf) by assumption; apply passr_n; assumption).
  rewrite How. destruct (Nat.eqb_spec p 2) as [Hp2|Hp2].
  { destruct (Nat.eqb_spec SS 1) as [HS|HS].
    - destruct (HS1 HS) as (HC1 & D1 & D2 & D3 & H1 & H2 & H3 & H4). rewrite EN in *.
      apply backward2_spec with (y := fun e k => y (m * e + k) 0) (acc := fun j => acc j 0); auto.
    - destruct (HMany HS) as [ENm HKM]. rewrite ENm in *.
      apply backward2Many_spec with (y := y) (acc := acc); auto; fold W0. }
  assert (Ep : p = 1) by lia.
  destruct (Nat.eqb_spec SS 1) as [HS|HS].
  - destruct (HS1 HS) as (HC1 & D1 & D2 & D3 & H1 & H2 & H3 & H4). rewrite EN in *.
    apply backward1_spec with (y := fun e k => y (m * e + k) 0) (acc := fun j => acc j 0); auto.
  - destruct (HMany HS) as [ENm HKM]. rewrite ENm in *.
    apply backward1Many_spec with (y := y) (acc := acc); auto; fold W0.
Qed.

(** *** overwrite mode: the p first residues stay in f, the last one goes to F *)
Definition orho (u : nat) : Z := if u =? 2 then (-1)%Z else Z.of_nat u.
Definition oaddr (f F u k c : nat) : nat := if u <? p then f + SS * (m * u + k) + c else F + SS * k + c.

Hypothesis How : goverwrite t = true.

Lemma oforward_spec f F r W (x : nat -> nat -> C) (m0 : mem) (K : mem -> Prop) :
  sepbuf SS CC f L F m ->
  (forall i c, i < L -> c < CC -> m0 (f + SS * i + c) = Val (x i c)) ->
  (forall i c, i < m -> c < CC -> m0 (F + SS * i + c) <> Unalloc) ->
  (forall m',
     (forall u k c, u <= p -> k < m -> c < CC -> m' (oaddr f F u k c) =
        Val (outv M L (fun j => x j c) (Z.of_nat q * Z.of_nat k + orho u))) ->
     (forall a, ~ inbuf SS CC F m a -> ~ inbuf SS CC f L a -> m' a = m0 a) ->
     (forall a, m0 a <> Unalloc -> m' a <> Unalloc) -> K m') ->
  WP (forward t f F r W) m0 K.
Proof.
  intros Hs Hx HFa HK. destruct (ow_facts t Hwf How) as (Hq & Hi & HL & Hn & HD & Hp2 & Hqp & Hsg).
  pose proof (wf_m t Hwf) as Hm1. pose proof (wf_p t Hwf) as Hp1.
  unfold forward. destruct (Nat.eqb_spec q 1); [contradiction|]. destruct (Nat.ltb_spec 2 p); [lia|]. rewrite How.
  assert (HF' : forall (N : nat) m', N = L -> (forall a, (forall i c, i < m -> c < CC -> F + SS * i + c <> a) ->
        (forall s c, s < N -> c < CC -> f + SS * s + c <> a) -> m' a = m0 a) ->
     forall a, ~ inbuf SS CC F m a -> ~ inbuf SS CC f L a -> m' a = m0 a).
  { intros N m' -> HF a Ha Hb. apply HF.
    - intros i c Hi' Hc E. apply Ha. exists i, c. auto.
    - intros i c Hi' Hc E. apply Hb. exists i, c. auto. }
  assert (HF1 : SS = 1 -> forall (N : nat) m', N = L -> (forall a, (forall i, i < m -> F + i <> a) ->
        (forall s, s < N -> f + s <> a) -> m' a = m0 a) ->
     forall a, ~ inbuf SS CC F m a -> ~ inbuf SS CC f L a -> m' a = m0 a).
  { intros HS N m' -> HF a Ha Hb. pose proof (S1_C1 t Hwf HS) as HC1. apply HF.
    - intros i Hi' E. apply Ha. exists i, 0. rewrite HS, HC1. lia.
    - intros i Hi' E. apply Hb. exists i, 0. rewrite HS, HC1. lia. }
  assert (HS1 : SS = 1 -> CC = 1 /\ (forall i i', i < L -> i' < m -> f + i <> F + i') /\
     (forall s, s < L -> m0 (f + s) = Val (x s 0)) /\ (forall s, s < m -> m0 (F + s) <> Unalloc)).
  { intros HS. pose proof (S1_C1 t Hwf HS) as HC1. rewrite HS, HC1 in *. split; [reflexivity|].
    split; [apply sepbuf_1; assumption|]. split.
    - intros s Hs'. rewrite <- (Hx s 0) by lia. f_equal. lia.
    - intros s Hs'. specialize (HFa s 0 Hs' ltac:(lia)). replace (F + s) with (F + 1 * s + 0) by lia. assumption. }
  destruct (Nat.eqb_spec p 2) as [Ep|Ep].
  - assert (EL : L = 2 * m) by (rewrite HL, Ep; reflexivity).
    destruct (Nat.eqb_spec SS 1) as [HS|HS].
    + destruct (HS1 HS) as (HC1 & A1 & A2 & A3). rewrite EL in A1, A2.
      apply forward2All_spec with (x := fun j => x j 0); auto.
      intros m' V0 V1 V2 HF Hal. apply HK; [|apply (HF1 HS (2 * m)); auto|assumption].
      intros u k c Hu Hk Hc. rewrite HC1 in Hc. replace c with 0 by lia. unfold oaddr, orho. rewrite HS, Ep.
      assert (Hu' : u = 0 \/ u = 1 \/ u = 2) by lia. destruct Hu' as [->|[->| ->]]; cbn [Nat.ltb Nat.leb Nat.eqb Z.of_nat].
      * rewrite Z.add_0_r, <- V0 by assumption. f_equal. lia.
      * rewrite <- V1 by assumption. f_equal. lia.
      * rewrite <- V2 by assumption. f_equal. lia.
    + unfold sepbuf in Hs. rewrite EL in Hs, Hx. apply forward2ManyAll_spec with (x := x); auto.
      intros m' V0 V1 V2 HF Hal. apply HK; [|apply (HF' (2 * m)); auto|assumption].
      intros u k c Hu Hk Hc. unfold oaddr, orho. rewrite Ep.
      assert (Hu' : u = 0 \/ u = 1 \/ u = 2) by lia. destruct Hu' as [->|[->| ->]]; cbn [Nat.ltb Nat.leb Nat.eqb Z.of_nat].
      * rewrite Z.add_0_r, Nat.mul_0_r. apply V0; assumption.
      * rewrite Nat.mul_1_r. apply V1; assumption.
      * apply V2; assumption.
  - assert (Ep1 : p = 1) by lia. assert (EL : L = m) by (rewrite HL, Ep1; lia).
    destruct (Nat.eqb_spec SS 1) as [HS|HS].
    + destruct (HS1 HS) as (HC1 & A1 & A2 & A3). rewrite EL in A1, A2.
      apply forward1All_spec with (x := fun j => x j 0); auto.
      intros m' V0 V1 HF Hal. apply HK; [|apply (HF1 HS m); auto|assumption].
      intros u k c Hu Hk Hc. rewrite HC1 in Hc. replace c with 0 by lia. unfold oaddr, orho. rewrite HS, Ep1.
      assert (Hu' : u = 0 \/ u = 1) by lia. destruct Hu' as [->| ->]; cbn [Nat.ltb Nat.leb Nat.eqb Z.of_nat].
      * rewrite Z.add_0_r, <- V0 by assumption. f_equal. lia.
      * rewrite <- V1 by assumption. f_equal. lia.
    + unfold sepbuf in Hs. rewrite EL in Hs, Hx. apply forward1ManyAll_spec with (x := x); auto.
      intros m' V0 V1 HF Hal. apply HK; [|apply (HF' m); auto|assumption].
      intros u k c Hu Hk Hc. unfold oaddr, orho. rewrite Ep1.
      assert (Hu' : u = 0 \/ u = 1) by lia. destruct Hu' as [->| ->]; cbn [Nat.ltb Nat.leb Nat.eqb Z.of_nat].
      * rewrite Z.add_0_r, Nat.mul_0_r. apply V0; assumption.
      * apply V1; assumption.
Qed.

(** inverse transform of all q = p+1 residues at once *)
Definition obwd (y : nat -> nat -> C) (j : nat) : C :=
  Csum (S p) (fun u => bval M q m (orho u) (y u) j).

Lemma obackward_spec f F r W (y : nat -> nat -> nat -> C) (m0 : mem) (K : mem -> Prop) :
  sepbuf SS CC f L F m ->
  (forall u k c, u <= p -> k < m -> c < CC -> m0 (oaddr f F u k c) = Val (y u k c)) ->
  (forall m',
     (forall j c, j < L -> c < CC -> m' (f + SS * j + c) = Val (obwd (fun u k => y u k c) j)) ->
     (forall a, ~ inbuf SS CC F m a -> ~ inbuf SS CC f L a -> m' a = m0 a) ->
     (forall a, m0 a <> Unalloc -> m' a <> Unalloc) -> K m') ->
  WP (backward t F f r W) m0 K.
Proof.
  intros Hs Hy HK. destruct (ow_facts t Hwf How) as (Hq & Hi & HL & Hn & HD & Hp2 & Hqp & Hsg).
  pose proof (wf_m t Hwf) as Hm1. pose proof (wf_p t Hwf) as Hp1.
  unfold backward. destruct (Nat.eqb_spec q 1); [contradiction|]. destruct (Nat.ltb_spec 2 p); [lia|]. rewrite How.
  assert (HF' : forall (N : nat) m', N = L -> (forall a, (forall i c, i < m -> c < CC -> F + SS * i + c <> a) ->
        (forall s c, s < N -> c < CC -> f + SS * s + c <> a) -> m' a = m0 a) ->
     forall a, ~ inbuf SS CC F m a -> ~ inbuf SS CC f L a -> m' a = m0 a).
  { intros N m' -> HF a Ha Hb. apply HF.
    - intros i c Hi' Hc E. apply Ha. exists i, c. auto.
    - intros i c Hi' Hc E. apply Hb. exists i, c. auto. }
  assert (HF1 : SS = 1 -> forall (N : nat) m', N = L -> (forall a, (forall i, i < m -> F + i <> a) ->
        (forall s, s < N -> f + s <> a) -> m' a = m0 a) ->
     forall a, ~ inbuf SS CC F m a -> ~ inbuf SS CC f L a -> m' a = m0 a).
  { intros HS N m' -> HF a Ha Hb. pose proof (S1_C1 t Hwf HS) as HC1. apply HF.
    - intros i Hi' E. apply Ha. exists i, 0. rewrite HS, HC1. lia.
    - intros i Hi' E. apply Hb. exists i, 0. rewrite HS, HC1. lia. }
  destruct (Nat.eqb_spec p 2) as [Ep|Ep].
  - assert (EL : L = 2 * m) by (rewrite HL, Ep; reflexivity).
    assert (Y : forall k c, k < m -> c < CC -> m0 (f + SS * k + c) = Val (y 0 k c) /\
       m0 (f + SS * (m + k) + c) = Val (y 1 k c) /\ m0 (F + SS * k + c) = Val (y 2 k c)).
    { intros k c Hk Hc. pose proof (Hy 0 k c ltac:(lia) Hk Hc) as A. pose proof (Hy 1 k c ltac:(lia) Hk Hc) as B.
      pose proof (Hy 2 k c ltac:(lia) Hk Hc) as D. unfold oaddr in *. rewrite Ep in *.
      cbn [Nat.ltb Nat.leb] in *. rewrite Nat.mul_0_r in A. rewrite Nat.mul_1_r in B. auto. }
    assert (EV : forall c j, obwd (fun u k => y u k c) j = new2 t (fun k => y 0 k c) (fun k => y 1 k c) (fun k => y 2 k c) j).
    { intros c j. unfold obwd, new2. rewrite Ep. cbn [Csum]. unfold orho. cbn [Nat.eqb Z.of_nat Z.of_nat Pos.of_succ_nat].
      ring. }
    destruct (Nat.eqb_spec SS 1) as [HS|HS].
    + pose proof (S1_C1 t Hwf HS) as HC1.
      apply backward2All_spec with (y0 := fun k => y 0 k 0) (y1 := fun k => y 1 k 0) (y2 := fun k => y 2 k 0); auto.
      * rewrite HS, HC1 in Hs. rewrite EL in Hs. apply sepbuf_1. assumption.
      * intros s Hs'. destruct (Y s 0 Hs') as (A & _); [lia|]. rewrite <- A. rewrite HS. f_equal. lia.
      * intros s Hs'. destruct (Y s 0 Hs') as (_ & A & _); [lia|]. rewrite <- A. rewrite HS. f_equal. lia.
      * intros s Hs'. destruct (Y s 0 Hs') as (_ & _ & A); [lia|]. rewrite <- A. rewrite HS. f_equal. lia.
      * intros m' HV HF Hal. apply HK; [|apply (HF1 HS (2 * m)); auto|assumption].
        intros j c Hj Hc. rewrite HC1 in Hc. replace c with 0 by lia. rewrite EV, HS. rewrite EL in Hj.
        rewrite <- HV by assumption. f_equal. lia.
    + apply backward2ManyAll_spec with (y0 := y 0) (y1 := y 1) (y2 := y 2); auto.
      * unfold sepbuf in Hs. rewrite EL in Hs. assumption.
      * intros s c Hs' Hc. apply Y; assumption.
      * intros s c Hs' Hc. apply Y; assumption.
      * intros s c Hs' Hc. apply Y; assumption.
      * intros m' HV HF Hal. apply HK; [|apply (HF' (2 * m)); auto|assumption].
        intros j c Hj Hc. rewrite EV. rewrite EL in Hj. apply HV; assumption.
  - assert (Ep1 : p = 1) by lia. assert (EL : L = m) by (rewrite HL, Ep1; lia).
    assert (Y : forall k c, k < m -> c < CC -> m0 (f + SS * k + c) = Val (y 0 k c) /\
       m0 (F + SS * k + c) = Val (y 1 k c)).
    { intros k c Hk Hc. pose proof (Hy 0 k c ltac:(lia) Hk Hc) as A. pose proof (Hy 1 k c ltac:(lia) Hk Hc) as B.
      unfold oaddr in *. rewrite Ep1 in *.
      cbn [Nat.ltb Nat.leb] in *. rewrite Nat.mul_0_r in A. auto. }
    assert (EV : forall c j, obwd (fun u k => y u k c) j = Cadd (bval M q m 0 (fun k => y 0 k c) j) (bval M q m 1 (fun k => y 1 k c) j)).
    { intros c j. unfold obwd. rewrite Ep1. cbn [Csum]. unfold orho. cbn [Nat.eqb Z.of_nat Pos.of_succ_nat]. ring. }
    destruct (Nat.eqb_spec SS 1) as [HS|HS].
    + pose proof (S1_C1 t Hwf HS) as HC1.
      apply backward1All_spec with (y0 := fun k => y 0 k 0) (y1 := fun k => y 1 k 0); auto.
      * rewrite HS, HC1 in Hs. rewrite EL in Hs. apply sepbuf_1. assumption.
      * intros s Hs'. destruct (Y s 0 Hs') as (A & _); [lia|]. rewrite <- A. rewrite HS. f_equal. lia.
      * intros s Hs'. destruct (Y s 0 Hs') as (_ & A); [lia|]. rewrite <- A. rewrite HS. f_equal. lia.
      * intros m' HV HF Hal. apply HK; [|apply (HF1 HS m); auto|assumption].
        intros j c Hj Hc. rewrite HC1 in Hc. replace c with 0 by lia. rewrite EV, HS. rewrite EL in Hj.
        rewrite <- HV by assumption. f_equal. lia.
    + apply backward1ManyAll_gen with (y0 := y 0) (y1 := y 1); auto.
      * unfold sepbuf in Hs. rewrite EL in Hs. assumption.
      * intros s c Hs' Hc. apply Y; assumption.
      * intros s c Hs' Hc. apply Y; assumption.
      * intros m' HV HF Hal. apply HK; [|apply (HF' m); auto|assumption].
        intros j c Hj Hc. rewrite EV. rewrite EL in Hj. apply HV; assumption.
Qed.
End T.
