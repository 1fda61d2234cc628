(** Hermitian backward transforms, p>2: twiddle factors and inverse radix-p/2 stage. *)
From Coq Require Import Reals ZArith Arith Lia List Bool.
From Verif Require Import CNum Sums Roots Mem VecModel VecProofs PadModel PadKernels Loops
  PadLemmas PadMath PadGeom Fwd1 PadForward Fill CenModel CenMath CenGeom CenFft CenF2 CenPass CenStage CenTw CenFI
  CenBack CenB2 CenBPass CenBwd2 CenBI HerModel HerSpec HerMath HerFft HerGeom HerF2 HerFI HerForward HerB1 HerB2 HerB3.

Lemma cc0 l i : l * 0 + i = i. Proof. lia. Qed.
Lemma cc1 l i : l * 1 + i = l + i. Proof. lia. Qed.
(** after the inverse twiddle factors *)
Definition htwb (t : pad) (rh : nat -> Z) (y : nat -> nat -> nat -> R) (i c : nat) : C :=
  Cmul (hrow t y i c) (Cconj (zeta (kM t)
    ((Z.of_nat (kn t) * Z.of_nat (i mod (he t * hP t) / he t) + rh (i / (he t * hP t))%nat) * Z.of_nat (i mod he t)))).

Section T.
Variable t : pad.
Hypothesis Hwf : hwf t.
Hypothesis Hq : kq t <> 1.
Hypothesis Hp : 2 < kp t.
Notation m := (am t).
Notation q := (kq t).   Notation n := (kn t).   Notation M := (kM t).
Notation e := (he t). Notation H := (hH t). Notation P := (hP t).
Notation l := (e * P).

Section V.
Variables (rh : nat -> Z) (y : nat -> nat -> nat -> R) (c : nat).
Lemma htwb_at b u s : u < P -> s < e -> htwb t rh y (l * b + (e * u + s)) c =
  (hrow t y (l * b + (e * u + s)) c * Cconj (zeta M ((Z.of_nat n * Z.of_nat u + rh b) * Z.of_nat s)))%C.
Proof. intros Hu Hs. unfold htwb. rewrite bus_div, bus_mod, us_div, bus_mod_e by assumption. reflexivity. Qed.
Lemma htwb_at0 u s : u < P -> s < e -> htwb t rh y (e * u + s) c =
  (hrow t y (e * u + s) c * Cconj (zeta M ((Z.of_nat n * Z.of_nat u + rh 0%nat) * Z.of_nat s)))%C.
Proof. intros Hu Hs. pose proof (htwb_at 0 u s Hu Hs) as E. rewrite cc0 in E. exact E. Qed.
Lemma htwb_at1 u s : u < P -> s < e -> htwb t rh y (l + (e * u + s)) c =
  (hrow t y (l + (e * u + s)) c * Cconj (zeta M ((Z.of_nat n * Z.of_nat u + rh 1%nat) * Z.of_nat s)))%C.
Proof. intros Hu Hs. pose proof (htwb_at 1 u s Hu Hs) as E. rewrite cc1 in E. exact E. Qed.
Lemma hcol_U b u s : u < P -> s < e -> colv e P (-1) (htwb t rh y) (l * b + (e * u + s)) c = hUrow t rh y (l * b + (e * u + s)) c.
Proof.
  intros Hu Hs. rewrite colv_bus, hUrow_bus by assumption. unfold hU. apply dft_ext. intros j Hj.
  rewrite htwb_at by assumption. rewrite hrow_bus by assumption. rewrite <- (h_M t Hwf Hq). reflexivity.
Qed.
End V.
Lemma hcol_ext rh y i c : colv e P (-1) (htwb t rh y) i c = hUrow t rh y i c.
Proof.
  pose proof (hrgI t Hwf Hq Hp) as Hg. assert (Hl : 1 <= l) by nia.
  pose proof (Nat.div_mod i l ltac:(lia)) as E1. pose proof (Nat.mod_upper_bound i l ltac:(lia)) as B1.
  set (j := i mod l) in *. pose proof (Nat.div_mod j e ltac:(lia)) as E2. pose proof (Nat.mod_upper_bound j e ltac:(lia)) as B2.
  rewrite E1, E2. apply hcol_U; [apply Nat.div_lt_upper_bound; lia|assumption].
Qed.
Lemma htwb_start adr B rh y (Q : nat -> nat -> nat -> Prop) (m7 : mem) :
  (forall i c, i < l * B -> c < 1 -> m7 (adr i + c) = Val (hrow t y i c)) ->
  (forall b u s, b < B -> u < P -> s < e -> Q b u s -> ((Z.of_nat n * Z.of_nat u + rh b) * Z.of_nat s = 0)%Z) ->
  dn adr 1 (htwb t rh y) (at3 e P B Q) m7 m7.
Proof.
  intros HV HQ. pose proof (hrgI t Hwf Hq Hp) as Hg. apply dn_at3_have. intros b u s c Hb Hu Hs Hc Hx.
  rewrite htwb_at by assumption. rewrite (HQ b u s Hb Hu Hs Hx), zeta_0, Cconj_C1.
  rewrite HV; [f_equal; ring| |assumption].
  assert (e * u + s < l) by nia. nia.
Qed.

Definition unI_0 (W : nat) (k : cmd C) : cmd C :=
     Seq (ParFor 1 P (fun u => let mu := m * u in let eu := u * e in
             let Wu := W + eu in let Zeta0 := n * mu in
             pForR 1 e (fun s => x <- Wu + s ;; z <~ (hZqm t) [Zeta0 + s] ;; Wu + s ::= Cmul x (Cconj z) ;; Ret)))
     (Seq (fft (mkplan P (-1) e e 1 true) W W) k).
Definition unI_h (W V : nat) (k : cmd C) : cmd C :=
      let n2 := n / 2 in
      let mn := m * n in
      let mn2 := m * n2 in
     Seq (ParFor 1 e (fun s => x <- V + s ;; z <~ (hZqm t) [mn2 + s] ;; V + s ::= Cmul x (Cconj z) ;; Ret))
     (Seq (ParFor 1 P (fun u => let eu := u * e in
             let Wu := W + eu in let Zeta0 := mn * u in let Vu := V + eu in
             let Zetan2 := Zeta0 + mn2 in
             pseq (pForR 1 e (fun s => x <- Wu + s ;; z <~ (hZqm t) [Zeta0 + s] ;; Wu + s ::= Cmul x (Cconj z) ;; Ret))
                  (pForR 1 e (fun s => x <- Vu + s ;; z <~ (hZqm t) [Zetan2 + s] ;; Vu + s ::= Cmul x (Cconj z) ;; Ret))))
     (Seq (fft (mkplan P (-1) e e 1 true) W W)
     (Seq (fft (mkplan P (-1) e e 1 true) V V) k))).
Definition unI_r (W V r : nat) (k : cmd C) : cmd C :=
    let mr := m * r in
    Seq (ParFor 1 e (fun s => Zeta <~ (hZqm t) [mr + s] ;;
           x <- W + s ;; W + s ::= Cmul x (Cconj Zeta) ;;
           y <- V + s ;; V + s ::= Cmul y Zeta ;; Ret))
   (Seq (ParFor 1 P (fun u => let eu := u * e in
           let Zetar0 := n * m * u in let Zetar1 := Zetar0 + mr in let Wu := W + eu in
           let Zetar2 := Zetar0 - mr in let Vu := V + eu in
           pseq (pForR 1 e (fun s => x <- Wu + s ;; z <~ (hZqm t) [Zetar1 + s] ;; Wu + s ::= Cmul x (Cconj z) ;; Ret))
                (pForR 1 e (fun s => x <- Vu + s ;; z <~ (hZqm t) [Zetar2 + s] ;; Vu + s ::= Cmul x (Cconj z) ;; Ret))))
   (Seq (fft (mkplan P (-1) e e 1 true) W W)
   (Seq (fft (mkplan P (-1) e e 1 true) V V) k))).

Section F.
Variables (W B : nat) (y : nat -> nat -> nat -> R) (k : cmd C) (m1 : mem) (K : mem -> Prop).
Notation V := (W + B).
Notation adr := (adr2 1 l W V).
Hypothesis HB : l <= B.

Lemma unI_0_ok :
  (forall i c, i < l * 1 -> c < 1 -> m1 (adr i + c) = Val (hrow t y i c)) ->
  (forall m', sets adr 1 (hUrow t (fun _ => 0%Z) y) (l * 1) m1 m' -> WP k m' K) ->
  WP (unI_0 W k) m1 K.
Proof.
  intros V7 HK. pose proof (hrgI t Hwf Hq Hp) as Hg. unfold unI_0. cbv zeta.
  assert (Hinj : injrows adr 1 (l * 1)) by (apply adr_inj1; lia).
  set (rh := fun _ : nat => 0%Z) in *. set (g := htwb t rh y).
  assert (HN : e * P * 1 <= l * 1) by lia. assert (Hm1 : 1 <= e) by lia. assert (HP1 : 1 <= P) by lia.
  apply WP_seq.
  eapply (WP_at3 adr 1 g (l * 1) Hinj e P 1 Hm1 HP1 HN (fun k b u' s => u' = k /\ 1 <= s)
       (fun b u' s => s = 0 \/ u' < 1) (fun b u' s => True)); [apply htwb_start; [exact V7|]|intros; lia|intros; lia| | |].
  - intros b u s Hb Hu Hs [->|HQ]; [lia|]. replace u with 0 by lia. unfold rh. lia.
  - intros b u' s Hb Hu' Hs. split; [|auto].
    intros _. destruct (Nat.eq_dec s 0); [auto|]. destruct (Nat.lt_ge_cases u' 1); [auto|]. right. exists u'. lia.
  - intros u Hu. apply (lset_at3_r1 adr 1 g (l * 1) Hinj e P 1 Hm1 HP1 HN); [reflexivity|lia|].
    intros s Hs. apply lset_one; [reflexivity|]. pose proof (row_bd t Hwf Hq Hp B HB u s Hu ltac:(lia)) as Hb.
    assert (Ea : W + u * e + s = adr (e * u + s) + 0) by (rewrite adr2_lo by lia; lia).
    eapply twb_leaf; [exact Ea|rewrite Ea; apply V7; lia| |].
    + replace (n * (m * u) + s) with (m * (n * u + 0) + s) by lia. apply (hzqm_u t Hwf Hq Hp); lia.
    + unfold g. rewrite htwb_at0 by lia. reflexivity.
  - intros m9 H9.
    assert (S9 : sets adr 1 g (l * 1) m1 m9).
    { eapply (at3_sets adr 1 g (l * 1) e P 1 Hm1 HP1 HN); [lia| |exact H9]. intros; exact Logic.I. }
    apply WP_seq. apply (fftp_one e P W B ltac:(lia) ltac:(lia) HB (-1) g); [apply S9|].
    intros m10 S10. apply HK. eapply sets_trans; [exact S9|]. eapply sets_ext; [|exact S10]. intros i c Hi Hc. apply hcol_ext.
Qed.

Section Two.
Hypothesis V7 : forall i c, i < l * 2 -> c < 1 -> m1 (adr i + c) = Val (hrow t y i c).

Lemma unI_h_ok : n mod 2 = 0 ->
  (forall m', sets adr 1 (hUrow t (rho2 0 (Z.of_nat (n / 2))) y) (l * 2) m1 m' -> WP k m' K) ->
  WP (unI_h W V k) m1 K.
Proof.
  intros He HK. pose proof (hrgI t Hwf Hq Hp) as Hg. unfold unI_h. cbv zeta.
  assert (Hinj : injrows adr 1 (l * 2)) by (apply adr_inj1; lia).
  assert (Hn2 : 1 <= n / 2 < n) by (pose proof (Nat.div_mod n 2 ltac:(lia)); lia).
  set (rh := rho2 0 (Z.of_nat (n / 2))) in *. assert (R0 : rh 0 = 0%Z) by reflexivity. assert (R1 : rh 1 = Z.of_nat (n / 2)) by reflexivity.
  set (g := htwb t rh y).
  assert (Hel : e <= l) by nia.
  assert (HN : e * P * 2 <= l * 2) by lia. assert (Hm1 : 1 <= e) by lia. assert (HP1 : 1 <= P) by lia.
  apply WP_seq.
  eapply (WP_at3 adr 1 g (l * 2) Hinj e P 2 Hm1 HP1 HN (fun k b u' s => b = 1 /\ u' = 0 /\ s = k)
     (fun b u' s => s = 0 \/ (b = 0 /\ u' = 0)) (fun b u' s => s = 0 \/ u' < 1)); [apply htwb_start; [exact V7|]|intros; lia|intros; lia| | |].
  - intros b u s Hb Hu Hs [->|[-> ->]]; [lia|]. rewrite R0. lia.
  - intros b u' s Hb Hu' Hs. split.
    + intros HQ. destruct (Nat.eq_dec s 0); [left; auto|]. destruct (Nat.eq_dec b 0); [left; right; lia|]. right. exists s. lia.
    + intros [HQ|(k0 & Hk & HQ)]; lia.
  - intros s Hs.
    apply (lset_at3_1 adr 1 g (l * 2) e P 2 1 0 s); [lia|lia|lia|].
    apply lset_one; [reflexivity|].
    assert (Ea : V + s = adr (l * 1 + (e * 0 + s)) + 0) by (rewrite cc1, adr2_hi; lia).
    eapply twb_leaf; [exact Ea|rewrite Ea; apply V7; lia| |].
    + replace (m * (n / 2) + s) with (m * (n * 0 + n / 2) + s) by lia. apply (hzqm_u t Hwf Hq Hp); lia.
    + unfold g. rewrite htwb_at by lia. reflexivity.
  - intros m8 H8. apply WP_seq.
    eapply (WP_at3 adr 1 g (l * 2) Hinj e P 2 Hm1 HP1 HN (fun k b u' s => u' = k /\ 1 <= s)
       (fun b u' s => s = 0 \/ u' < 1) (fun b u' s => True)); [exact H8|intros; lia|intros; lia| | |].
    + intros b u' s Hb Hu' Hs. split; [|auto].
      intros _. destruct (Nat.eq_dec s 0); [auto|]. destruct (Nat.lt_ge_cases u' 1); [auto|]. right. exists u'. lia.
    + intros u Hu. apply (lset_at3_r2 adr 1 g (l * 2) Hinj e P 2 Hm1 HP1 HN); [reflexivity|lia| |].
      * intros s Hs. apply lset_one; [reflexivity|]. pose proof (row_bd t Hwf Hq Hp B HB u s Hu ltac:(lia)) as Hb.
        assert (Ea : W + u * e + s = adr (e * u + s) + 0) by (rewrite adr2_lo by lia; lia).
        eapply twb_leaf; [exact Ea|rewrite Ea; apply V7; lia| |].
        -- replace (m * n * u + s) with (m * (n * u + 0) + s) by lia. apply (hzqm_u t Hwf Hq Hp); lia.
        -- unfold g. rewrite htwb_at0 by lia. reflexivity.
      * intros s Hs. apply lset_one; [reflexivity|]. pose proof (row_bd t Hwf Hq Hp B HB u s Hu ltac:(lia)) as Hb.
        assert (Ea : V + u * e + s = adr (l + (e * u + s)) + 0) by (rewrite adr2_hi; lia).
        eapply twb_leaf; [exact Ea|rewrite Ea; apply V7; lia| |].
        -- replace (m * n * u + m * (n / 2) + s) with (m * (n * u + n / 2) + s) by lia. apply (hzqm_u t Hwf Hq Hp); lia.
        -- unfold g. rewrite htwb_at1, R1 by lia. reflexivity.
    + intros m9 H9.
      assert (S9 : sets adr 1 g (l * 2) m1 m9).
      { eapply (at3_sets adr 1 g (l * 2) e P 2 Hm1 HP1 HN); [lia| |exact H9]. intros; exact Logic.I. }
      apply (fftp_two e P W B ltac:(lia) ltac:(lia) HB (-1) g); [apply S9|].
      intros m10 S10. apply HK. eapply sets_trans; [exact S9|]. eapply sets_ext; [|exact S10]. intros i c Hi Hc. apply hcol_ext.
Qed.

Lemma unI_r_ok r : 1 <= r < n ->
  (forall m', sets adr 1 (hUrow t (rho2 (Z.of_nat r) (- Z.of_nat r)) y) (l * 2) m1 m' -> WP k m' K) ->
  WP (unI_r W V r k) m1 K.
Proof.
  intros Hr HK. pose proof (hrgI t Hwf Hq Hp) as Hg. unfold unI_r. cbv zeta.
  assert (Hinj : injrows adr 1 (l * 2)) by (apply adr_inj1; lia).
  set (rh := rho2 (Z.of_nat r) (- Z.of_nat r)) in *. assert (R0 : rh 0 = Z.of_nat r) by reflexivity. assert (R1 : rh 1 = (- Z.of_nat r)%Z) by reflexivity.
  set (g := htwb t rh y).
  assert (Hel : e <= l) by nia.
  assert (HN : e * P * 2 <= l * 2) by lia. assert (Hm1 : 1 <= e) by lia. assert (HP1 : 1 <= P) by lia.
  apply WP_seq.
  eapply (WP_at3 adr 1 g (l * 2) Hinj e P 2 Hm1 HP1 HN (fun k b u' s => u' = 0 /\ s = k)
     (fun b u' s => s = 0) (fun b u' s => s = 0 \/ u' < 1)); [apply htwb_start; [exact V7|]|intros; lia|intros; lia| | |].
  - intros b u s Hb Hu Hs ->. lia.
  - intros b u' s Hb Hu' Hs. split.
    + intros HQ. destruct (Nat.eq_dec s 0); [auto|]. right. exists s. lia.
    + intros [HQ|(k0 & Hk & HQ)]; lia.
  - intros s Hs. apply (lset_at3_b2 adr 1 g (l * 2) e P 2 Hm1 HP1 HN 0 s); [reflexivity|lia|lia|].
    apply lset_two; [reflexivity|].
    assert (Ea : W + s = adr (e * 0 + s) + 0) by (rewrite adr2_lo by lia; lia).
    assert (Eb : V + s = adr (l + (e * 0 + s)) + 0) by (rewrite adr2_hi; lia).
    eapply wpe_tget; [replace (m * r + s) with (m * (n * 0 + r) + s) by lia; apply (hzqm_u t Hwf Hq Hp); lia|].
    eapply wpe_rd; [right; eexists; left; split; [exact Ea|reflexivity]|rewrite Ea; apply V7; lia|].
    eapply row_w2r; [exact Ea|exact Eb|lia| | |rewrite Ea, V7 by lia; discriminate|rewrite Eb; apply V7; lia].
    + unfold g. rewrite htwb_at0, R0 by lia. reflexivity.
    + unfold g. rewrite htwb_at1, R1 by lia. f_equal. rewrite <- zeta_neg. f_equal. lia.
  - intros m8 H8. apply WP_seq.
    eapply (WP_at3 adr 1 g (l * 2) Hinj e P 2 Hm1 HP1 HN (fun k b u' s => u' = k /\ 1 <= s)
       (fun b u' s => s = 0 \/ u' < 1) (fun b u' s => True)); [exact H8|intros; lia|intros; lia| | |].
    + intros b u' s Hb Hu' Hs. split; [|auto].
      intros _. destruct (Nat.eq_dec s 0); [auto|]. destruct (Nat.lt_ge_cases u' 1); [auto|]. right. exists u'. lia.
    + intros u Hu. apply (lset_at3_r2 adr 1 g (l * 2) Hinj e P 2 Hm1 HP1 HN); [reflexivity|lia| |].
      * intros s Hs. apply lset_one; [reflexivity|]. pose proof (row_bd t Hwf Hq Hp B HB u s Hu ltac:(lia)) as Hb.
        assert (Ea : W + u * e + s = adr (e * u + s) + 0) by (rewrite adr2_lo by lia; lia).
        eapply twb_leaf; [exact Ea|rewrite Ea; apply V7; lia| |].
        -- replace (n * m * u + m * r + s) with (m * (n * u + r) + s) by lia. apply (hzqm_u t Hwf Hq Hp); lia.
        -- unfold g. rewrite htwb_at0, R0 by lia. reflexivity.
      * intros s Hs. apply lset_one; [reflexivity|]. pose proof (row_bd t Hwf Hq Hp B HB u s Hu ltac:(lia)) as Hb.
        assert (Ea : V + u * e + s = adr (l + (e * u + s)) + 0) by (rewrite adr2_hi; lia).
        eapply twb_leaf; [exact Ea|rewrite Ea; apply V7; lia| |].
        -- replace (n * m * u - m * r + s) with (m * (n * u - r) + s) by (rewrite Nat.mul_sub_distr_l; f_equal; f_equal; lia).
           apply (hzqm_um t Hwf Hq Hp); lia.
        -- unfold g. rewrite htwb_at1, R1 by lia. reflexivity.
    + intros m9 H9.
      assert (S9 : sets adr 1 g (l * 2) m1 m9).
      { eapply (at3_sets adr 1 g (l * 2) e P 2 Hm1 HP1 HN); [lia| |exact H9]. intros; exact Logic.I. }
      apply (fftp_two e P W B ltac:(lia) ltac:(lia) HB (-1) g); [apply S9|].
      intros m10 S10. apply HK. eapply sets_trans; [exact S9|]. eapply sets_ext; [|exact S10]. intros i c Hi Hc. apply hcol_ext.
Qed.
End Two.
End F.
End T.
