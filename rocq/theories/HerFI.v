(** Hermitian forward transforms, p>2: folding, radix-p/2 stage and twiddle factors. *)
From Coq Require Import Reals ZArith Arith Lia List Bool.
From Verif Require Import CNum Sums Roots Mem VecModel VecProofs PadModel PadKernels Loops
  PadLemmas PadMath PadGeom Fwd1 PadForward Fill CenModel CenMath CenGeom CenFft CenF2 CenPass CenStage CenTw CenFI
  HerModel HerSpec HerMath HerFft HerGeom HerF2.

(** the folded data, before the radix stage *)
Definition hstA (t : pad) (rh : nat -> Z) (x : nat -> nat -> C) (i c : nat) : C :=
  hst (am t) (hP t) (kn t) (hH t) (rh (i / (he t * hP t))) (fun j => x j c)
    (am t * (i mod (he t * hP t) / he t) + i mod he t).

Lemma bus_div e P b u s : u < P -> s < e -> (e * P * b + (e * u + s)) / (e * P) = b.
Proof. intros Hu Hs. assert (e * u + s < e * P) by nia. symmetry. apply (Nat.div_unique _ _ b (e * u + s)); lia. Qed.
Lemma bus_mod e P b u s : u < P -> s < e -> (e * P * b + (e * u + s)) mod (e * P) = e * u + s.
Proof. intros Hu Hs. assert (e * u + s < e * P) by nia. symmetry. apply (Nat.mod_unique _ _ b (e * u + s)); lia. Qed.
Lemma us_div e u s : s < e -> (e * u + s) / e = u.
Proof. intros Hs. symmetry. apply (Nat.div_unique _ _ u s); lia. Qed.
Lemma bus_mod_e e P b u s : s < e -> (e * P * b + (e * u + s)) mod e = s.
Proof. intros Hs. symmetry. apply (Nat.mod_unique _ _ (P * b + u) s); [assumption|]. rewrite Nat.mul_add_distr_l. lia. Qed.
Lemma colv_bus e P sg A b u s c : u < P -> s < e ->
  colv e P sg A (e * P * b + (e * u + s)) c = dft P sg (fun t => A (e * P * b + (e * t + s)) c) u.
Proof.
  intros Hu Hs. unfold colv. rewrite bus_div, bus_mod, us_div, bus_mod_e by assumption. apply dft_ext. intros j Hj.
  f_equal. lia.
Qed.

(** one in-place radix-P transform of the e columns of a block *)
Lemma fft_block P e sg W (A : nat -> C) (m1 : mem) (K : mem -> Prop) : 1 <= P ->
  (forall i, i < e * P -> m1 (W + i) = Val (A i)) ->
  (forall m', (forall u s, u < P -> s < e -> m' (W + (e * u + s)) = Val (dft P sg (fun t => A (e * t + s)) u)) ->
     (forall a, (forall i, i < e * P -> a <> W + i) -> m' a = m1 a) ->
     (forall a, m1 a <> Unalloc -> m' a <> Unalloc) -> K m') ->
  WP (fft (mkplan P sg e e 1 true) W W) m1 K.
Proof.
  intros HP HA HK. apply (WP_fft_strided P sg e e true W W (fun t s => A (e * t + s))).
  - symmetry. apply Nat.eqb_refl.
  - assumption.
  - lia.
  - intros u s Hu Hs. rewrite <- Nat.add_assoc. apply HA. nia.
  - intros u s Hu Hs. rewrite <- Nat.add_assoc, HA by nia. discriminate.
  - left. reflexivity.
  - intros m' H1 H2 H3. apply HK; [|intros a Ha|assumption].
    + intros u s Hu Hs. rewrite Nat.add_assoc. apply H1; assumption.
    + apply H2. intros u s Hu Hs E. apply (Ha (e * u + s)); [nia|lia].
Qed.

Section Blocks.
Variables (e P W B : nat).
Hypothesis HP : 1 <= P.
Hypothesis He : 1 <= e.
Notation l := (e * P).
Notation adr := (adr2 1 l W (W + B)).
Hypothesis HB : l <= B.
Lemma adr_blk b i : b < 2 -> i < l -> adr (l * b + i) + 0 = W + B * b + i.
Proof.
  intros Hb Hi. destruct b as [|[|b]]; [| |lia].
  - rewrite Nat.mul_0_r, adr2_lo by lia. lia.
  - rewrite !Nat.mul_1_r, adr2_hi. lia.
Qed.
Lemma adr_inj1 N : N <= 2 * l -> injrows adr 1 N.
Proof. intros HN i c i' c' Hi Hi' Hc Hc' E. apply (adr2_inj 1 l W B); try lia. Qed.
Lemma fftp_one sg (A : nat -> nat -> C) (m1 : mem) (K : mem -> Prop) :
  (forall i c, i < l * 1 -> c < 1 -> m1 (adr i + c) = Val (A i c)) ->
  (forall m', sets adr 1 (colv e P sg A) (l * 1) m1 m' -> K m') ->
  WP (fft (mkplan P sg e e 1 true) W W) m1 K.
Proof.
  intros HA HK. apply (fft_block P e sg W (fun i => A i 0)); [assumption| |].
  - intros i Hi. replace (W + i) with (adr i + 0) by (rewrite adr2_lo by lia; lia). apply HA; lia.
  - intros m' H1 H2 H3. apply HK. split; [|split; [|assumption]].
    + intros i c Hi Hc. assert (c = 0) by lia. subst c. rewrite adr2_lo by lia.
      assert (Hu : i / e < P) by (apply Nat.div_lt_upper_bound; lia).
      assert (Hs : i mod e < e) by (apply Nat.mod_upper_bound; lia).
      pose proof (Nat.div_mod i e ltac:(lia)) as Ei.
      set (u := i / e) in *. set (s := i mod e) in *. clearbody u s. subst i.
      replace (W + 1 * (e * u + s) + 0) with (W + (e * u + s)) by lia. rewrite H1 by assumption. f_equal.
      replace (e * u + s) with (e * P * 0 + (e * u + s)) by lia.
      rewrite colv_bus by assumption. apply dft_ext. intros j Hj. f_equal; lia.
    + intros a Ha. apply H2. intros i Hi E. apply (Ha i 0); [lia|lia|]. rewrite adr2_lo by lia. lia.
Qed.
Lemma fftp_two sg (A : nat -> nat -> C) k (m1 : mem) (K : mem -> Prop) :
  (forall i c, i < l * 2 -> c < 1 -> m1 (adr i + c) = Val (A i c)) ->
  (forall m', sets adr 1 (colv e P sg A) (l * 2) m1 m' -> WP k m' K) ->
  WP (Seq (fft (mkplan P sg e e 1 true) W W) (Seq (fft (mkplan P sg e e 1 true) (W + B) (W + B)) k)) m1 K.
Proof.
  intros HA HK. apply WP_seq. apply (fft_block P e sg W (fun i => A i 0)); [assumption| |].
  { intros i Hi. replace (W + i) with (adr i + 0) by (rewrite adr2_lo by lia; lia). apply HA; lia. }
  intros m2 H1 H2 H3. apply WP_seq. apply (fft_block P e sg (W + B) (fun i => A (l + i) 0)); [assumption| |].
  { intros i Hi. rewrite H2 by (intros; lia). replace (W + B + i) with (adr (l + i) + 0) by (rewrite adr2_hi; lia). apply HA; lia. }
  intros m3 I1 I2 I3. apply HK. split; [|split].
  - intros i c Hi Hc. assert (c = 0) by lia. subst c. assert (Hl : 1 <= l) by nia.
    assert (Hb : i / l < 2) by (apply Nat.div_lt_upper_bound; lia).
    pose proof (Nat.div_mod i l ltac:(lia)) as Ei. pose proof (Nat.mod_upper_bound i l ltac:(lia)) as Hj.
    set (b := i / l) in *. set (j := i mod l) in *.
    assert (Hu : j / e < P) by (apply Nat.div_lt_upper_bound; lia).
    assert (Hs : j mod e < e) by (apply Nat.mod_upper_bound; lia).
    pose proof (Nat.div_mod j e ltac:(lia)) as Ej. rewrite Ei, adr_blk by assumption. rewrite Ej.
    rewrite colv_bus by assumption. clearbody b j. destruct b as [|[|b]]; [| |lia].
    + rewrite Nat.mul_0_r, Nat.add_0_r, I2 by (intros; lia). rewrite H1 by assumption. f_equal. apply dft_ext. intros; f_equal; lia.
    + rewrite !Nat.mul_1_r, I1 by assumption. reflexivity.
  - intros a Ha. rewrite I2, H2; [reflexivity| |].
    + intros i Hi E. apply (Ha i 0); [lia|lia|]. rewrite adr2_lo by lia. lia.
    + intros i Hi E. apply (Ha (l + i) 0); [lia|lia|]. rewrite adr2_hi. lia.
  - auto.
Qed.
End Blocks.

Section T.
Variable t : pad.
Hypothesis Hwf : hwf t.
Hypothesis Hq : kq t <> 1.
Hypothesis Hp : 2 < kp t.
Notation m := (am t).
Notation q := (kq t).   Notation n := (kn t).   Notation M := (kM t).
Notation e := (he t). Notation H := (hH t). Notation P := (hP t).
Notation l := (e * P).
Notation m0 := (m * P - H + 1).

Lemma hP_2 : 2 <= P.
Proof. rewrite hP_q by assumption. destruct (h_valid t Hwf Hq) as (_ & E & _). lia. Qed.
Lemma hC_1 : aC t = 1.
Proof. destruct (h_valid t Hwf Hq) as (_ & E & _ & [E2|E2]); [lia|assumption]. Qed.
Lemma hrgI : 1 <= m /\ 2 <= P /\ (P - 1) * m + e <= H /\ H <= m * P /\ m < 2 * e /\ 1 <= e /\ e <= m /\ 2 <= n /\ m0 <= e /\
  (P - 1) * m + m = m * P /\ 2 * e <= m + 2 /\ 2 * m0 <= m + 1.
Proof.
  pose proof (h_hg t Hwf Hq) as G. pose proof (h_m0 _ _ _ _ G) as Hm0. pose proof hP_2. destruct G as [G1 G2 G3 G4 G5 G6].
  pose proof (he_m t Hwf). unfold he, cl in *. assert ((P - 1) * m + m = m * P) by nia. rewrite (Nat.mul_comm m (P - 1)) in *. lia.
Qed.
Lemma hm0_min : Nat.min (P * m - H + 1) e = m0.
Proof. pose proof hrgI as Hg0. rewrite (Nat.mul_comm P m). lia. Qed.

Section V.
Variables (rh : nat -> Z) (x : nat -> nat -> C) (c : nat).
Notation A := (hstA t rh x).
Lemma hA_bus b u s : u < P -> s < e ->
  A (l * b + (e * u + s)) c = (zeta q (rh b * Z.of_nat u) * hfold m P n H (rh b) (fun j => x j c) (m * u + s))%C.
Proof.
  intros Hu Hs. pose proof hrgI as Hg0. unfold hstA. rewrite bus_div, bus_mod, us_div, bus_mod_e by assumption. unfold hst.
  rewrite us_div by lia. rewrite <- h_qq by assumption. reflexivity.
Qed.
Lemma hA_lo b s : s < m0 -> A (l * b + s) c = x s c.
Proof.
  intros Hs. pose proof hrgI as Hg0. replace s with (e * 0 + s) at 1 by lia. rewrite hA_bus by lia.
  rewrite Z.mul_0_r, zeta_0, hfold_lo by (unfold cl; lia). rewrite Nat.mul_0_r. cbn [Nat.add]. ring.
Qed.
Lemma hA_m b s : m0 <= s < e -> A (l * b + s) c = (x s c + zeta n (- rh b) * Cconj (x (m * P - s)%nat c))%C.
Proof.
  intros Hs. pose proof hrgI as Hg0. replace s with (e * 0 + s) at 1 by lia. rewrite hA_bus by lia.
  rewrite Z.mul_0_r, zeta_0, hfold_hi by (unfold cl; lia). unfold cl. rewrite Nat.mul_0_r. cbn [Nat.add]. ring.
Qed.
Lemma hA_t b u s : 1 <= u < P -> s < e -> A (l * b + (e * u + s)) c =
  (zeta q (rh b * Z.of_nat u) * (x (m * u + s)%nat c + zeta n (- rh b) * Cconj (x (m * P - (m * u + s))%nat c)))%C.
Proof.
  intros Hu Hs. pose proof hrgI as Hg0. rewrite hA_bus by lia.
  assert (m * 1 <= m * u) by (apply Nat.mul_le_mono_l; lia).
  assert (m * u <= m * (P - 1)) by (apply Nat.mul_le_mono_l; lia). rewrite (Nat.mul_comm m (P - 1)) in *.
  rewrite hfold_hi by (unfold cl; lia). reflexivity.
Qed.
Lemma hval_tw b u s : u < P -> s < e ->
  hval t rh x (l * b + (e * u + s)) c =
  (colv e P 1 A (l * b + (e * u + s)) c * zeta M ((Z.of_nat n * Z.of_nat u + rh b) * Z.of_nat s))%C.
Proof.
  intros Hu Hs. pose proof hrgI as Hg0. pose proof (h_hg t Hwf Hq) as G. unfold hval.
  rewrite colv_bus by assumption.
  rewrite bus_div, bus_mod, us_div, bus_mod_e by assumption.
  rewrite <- (hstB m P n H G) by lia. rewrite <- h_M by assumption. f_equal. apply dft_ext. intros j Hj.
  unfold hstA. rewrite bus_div, bus_mod, us_div, bus_mod_e by assumption. reflexivity.
Qed.
End V.
(** the same for blocks 0 and 1 *)
Lemma b0 i : l * 0 + i = i. Proof. lia. Qed.
Lemma b1 i : l * 1 + i = l + i. Proof. lia. Qed.
Lemma hA_lo0 rh x c s : s < m0 -> hstA t rh x s c = x s c.
Proof. intros Hs. pose proof (hA_lo rh x c 0 s Hs) as E. rewrite b0 in E. exact E. Qed.
Lemma hA_lo1 rh x c s : s < m0 -> hstA t rh x (l + s) c = x s c.
Proof. intros Hs. pose proof (hA_lo rh x c 1 s Hs) as E. rewrite b1 in E. exact E. Qed.
Lemma hA_m0 rh x c s : m0 <= s < e -> hstA t rh x s c = (x s c + zeta n (- rh 0%nat) * Cconj (x (m * P - s)%nat c))%C.
Proof. intros Hs. pose proof (hA_m rh x c 0 s Hs) as E. rewrite b0 in E. exact E. Qed.
Lemma hA_m1 rh x c s : m0 <= s < e -> hstA t rh x (l + s) c = (x s c + zeta n (- rh 1%nat) * Cconj (x (m * P - s)%nat c))%C.
Proof. intros Hs. pose proof (hA_m rh x c 1 s Hs) as E. rewrite b1 in E. exact E. Qed.
Lemma hval_tw0 rh x c u s : u < P -> s < e -> hval t rh x (e * u + s) c =
  (colv e P 1 (hstA t rh x) (e * u + s) c * zeta M ((Z.of_nat n * Z.of_nat u + rh 0%nat) * Z.of_nat s))%C.
Proof. intros Hu Hs. pose proof (hval_tw rh x c 0 u s Hu Hs) as E. rewrite b0 in E. exact E. Qed.
Lemma hval_tw1 rh x c u s : u < P -> s < e -> hval t rh x (l + (e * u + s)) c =
  (colv e P 1 (hstA t rh x) (l + (e * u + s)) c * zeta M ((Z.of_nat n * Z.of_nat u + rh 1%nat) * Z.of_nat s))%C.
Proof. intros Hu Hs. pose proof (hval_tw rh x c 1 u s Hu Hs) as E. rewrite b1 in E. exact E. Qed.

Lemma htw_start adr B rh x (Q : nat -> nat -> nat -> Prop) (m7 : mem) :
  (forall i c, i < l * B -> c < 1 -> m7 (adr i + c) = Val (colv e P 1 (hstA t rh x) i c)) ->
  (forall b u s, b < B -> u < P -> s < e -> Q b u s -> ((Z.of_nat n * Z.of_nat u + rh b) * Z.of_nat s = 0)%Z) ->
  dn adr 1 (hval t rh x) (at3 e P B Q) m7 m7.
Proof.
  intros HV HQ. pose proof hrgI as Hg. apply dn_at3_have. intros b u s c Hb Hu Hs Hc Hx.
  rewrite hval_tw by assumption. rewrite (HQ b u s Hb Hu Hs Hx), zeta_0.
  rewrite HV; [f_equal; ring| |assumption].
  assert (e * u + s < l) by nia. nia.
Qed.
(** tables *)
Lemma hzqm_u r u s : r < n -> u < P -> 1 <= r + u -> s < m -> hZqm t (m * (n * u + r) + s) = Some (zeta M ((Z.of_nat n * Z.of_nat u + Z.of_nat r) * Z.of_nat s)).
Proof.
  intros Hr Hu H1 Hs. pose proof hrgI as Hg. rewrite (hzqm t Hq); [do 3 f_equal; lia|assert (1 <= u -> 1 * 1 <= n * u) by (intros; apply Nat.mul_le_mono; lia); destruct (Nat.eq_dec u 0); [subst u; lia|lia]|intros E2; rewrite E2 in Hp; lia| |assumption].
  intros _. rewrite (h_q t Hwf Hq). nia.
Qed.
Lemma hzqm_um r u s : r < n -> 1 <= u < P -> s < m -> hZqm t (m * (n * u - r) + s) = Some (zeta M ((Z.of_nat n * Z.of_nat u - Z.of_nat r) * Z.of_nat s)).
Proof.
  intros Hr Hu Hs. pose proof hrgI as Hg. assert (n <= n * u) by nia. rewrite (hzqm t Hq); [do 3 f_equal; lia|lia|intros E2; rewrite E2 in Hp; lia| |assumption].
  intros _. rewrite (h_q t Hwf Hq). nia.
Qed.
Lemma hzqpP r : 1 <= r < n -> hZqp t (P * r + P) = Some (zeta n (Z.of_nat r)).
Proof.
  intros Hr. pose proof hrgI as Hg. rewrite (hzqp t Hq) by lia. f_equal. rewrite (h_q t Hwf Hq).
  replace (P * n) with (n * P) by lia. replace (Z.of_nat r * Z.of_nat P)%Z with (Z.of_nat P * Z.of_nat r)%Z by lia.
  rewrite Nat.mul_comm. apply zeta_cancel; lia.
Qed.
Lemma hz_half : n mod 2 = 0 -> zeta n (- Z.of_nat (n / 2)) = Copp C1.
Proof.
  intros He. pose proof hrgI as Hg0. pose proof (Nat.div_mod n 2 ltac:(lia)) as Hn. rewrite He, Nat.add_0_r in Hn.
  rewrite Hn at 1. replace (- Z.of_nat (n / 2))%Z with (Z.of_nat (n / 2) * Z.opp 1)%Z by lia.
  rewrite Nat.mul_comm, zeta_cancel by lia. rewrite zeta_neg, zeta_2_1. apply C_ext; cbn; ring.
Qed.

(** residue 0 alone (n odd) *)
Definition fillI_0 (f W : nat) (k : cmd C) : cmd C :=
  let fm := f + P * m in
  let mn := m * n in
      Seq (ParFor 0 m0 (fun s => x <- f + s ;; W + s ::= x ;; Ret))
     (Seq (ParFor m0 e (fun s => y <- fm - s ;; x <- f + s ;; W + s ::= Cadd (Cconj y) x ;; Ret))
     (Seq (ParFor 1 P (fun t' => let tm := t' * m in let te := t' * e in
             let fmt := fm - tm in let ft := f + tm in let Wt := W + te in
             pForR 0 e (fun s => y <- fmt - s ;; x <- ft + s ;; Wt + s ::= Cadd (Cconj y) x ;; Ret)))
     (Seq (fft (mkplan P 1 e e 1 true) W W)
     (Seq (ParFor 1 P (fun u => let Wu := W + u * e in let Zeta0 := mn * u in
             pForR 1 e (fun s => x <- Wu + s ;; z <~ (hZqm t) [Zeta0 + s] ;; Wu + s ::= Cmul x z ;; Ret))) k)))).
(** residues 0 and n/2 *)
Definition fillI_h (f W V : nat) (k : cmd C) : cmd C :=
      let fm := f + P * m in
      let n2 := n / 2 in
      let Zn2 := P * n2 in
      let mn := m * n in
      let mn2 := m * n2 in
      Seq (ParFor 0 m0 (fun s => x <- f + s ;; W + s ::= x ;; V + s ::= x ;; Ret))
     (Seq (ParFor m0 e (fun s => y <- fm - s ;; let fms := Cconj y in
             fs <- f + s ;;
             W + s ::= Cadd fms fs ;; V + s ::= Cadd (Copp fms) fs ;; Ret))
     (Seq (ParFor 1 P (fun t' => let tm := t' * m in let te := t' * e in
             let Wt := W + te in let Vt := V + te in let fmt := fm - tm in let ft := f + tm in
             Zeta <~ (hZqp t) [Zn2 + t'] ;;
             let X := UNPACKL Zeta Zeta in let Y := UNPACKH Zeta (vneg Zeta) in
             pForR 0 e (fun s => y <- fmt - s ;; let fmts := CONJ y in
               fts <- ft + s ;;
               Wt + s ::= vadd fmts fts ;; Vt + s ::= ZMULTxy X Y (vsub fts fmts) ;; Ret)))
     (Seq (fft (mkplan P 1 e e 1 true) W W)
     (Seq (fft (mkplan P 1 e e 1 true) V V)
     (Seq (ParFor 0 e (fun s => x <- V + s ;; z <~ (hZqm t) [mn2 + s] ;; V + s ::= Cmul x z ;; Ret))
     (Seq (ParFor 1 P (fun u => let ue := u * e in
             let Wu := W + ue in let Zeta0 := mn * u in let Vu := V + ue in
             let Zetan2 := Zeta0 + mn2 in
             pseq (pForR 1 e (fun s => x <- Wu + s ;; z <~ (hZqm t) [Zeta0 + s] ;; Wu + s ::= Cmul x z ;; Ret))
                  (pForR 1 e (fun s => x <- Vu + s ;; z <~ (hZqm t) [Zetan2 + s] ;; Vu + s ::= Cmul x z ;; Ret)))) k)))))).
(** residues r and -r *)
Definition fillI_r (f W V r : nat) (k : cmd C) : cmd C :=
    let fm := f + P * m in
    let Zqr := P * r in
    let mr := m * r in
    Z <== (hZqp t) [P * r + P] ;;;
    let Zetanr := CONJ Z in
    Seq (ParFor 0 m0 (fun s => x <- f + s ;; W + s ::= x ;; V + s ::= x ;; Ret))
   (Seq (ParFor m0 e (fun s => y <- fm - s ;; let fms := CONJ y in
           fs <- f + s ;;
           let A := vmul Zetanr (UNPACKL fms fms) in
           let B := ZMULTI (vmul Zetanr (UNPACKH fms fms)) in
           W + s ::= vadd (vadd A B) fs ;; V + s ::= vadd (CONJ (vsub A B)) fs ;; Ret))
   (Seq (ParFor 1 P (fun t' => let tm := t' * m in let te := t' * e in
           let Wt := W + te in let Vt := V + te in let fmt := fm - tm in let ft := f + tm in
           Zeta <~ (hZqp t) [Zqr + t'] ;;
           let Zetam := ZMULT Zeta Zetanr in
           pForR 0 e (fun s => y <- fmt - s ;; let fmts := CONJ y in
             fts <- ft + s ;;
             let A := vadd (vmul Zetam (UNPACKL fmts fmts)) (vmul Zeta (UNPACKL fts fts)) in
             let B := ZMULTI (vadd (vmul Zetam (UNPACKH fmts fmts)) (vmul Zeta (UNPACKH fts fts))) in
             Wt + s ::= vadd A B ;; Vt + s ::= CONJ (vsub A B) ;; Ret)))
   (Seq (fft (mkplan P 1 e e 1 true) W W)
   (Seq (fft (mkplan P 1 e e 1 true) V V)
   (Seq (ParFor 1 e (fun s => Zeta <~ (hZqm t) [mr + s] ;;
           x <- W + s ;; W + s ::= Cmul x Zeta ;;
           y <- V + s ;; V + s ::= Cmul y (Cconj Zeta) ;; Ret))
   (Seq (ParFor 1 P (fun u => let mu := m * u in let eu := e * u in
           let Zetar0 := n * mu in let Zetar1 := Zetar0 + mr in let Wu := W + eu in
           let Zetar2 := Zetar0 - mr in let Vu := V + eu in
           pseq (pForR 1 e (fun s => x <- Wu + s ;; z <~ (hZqm t) [Zetar1 + s] ;; Wu + s ::= Cmul x z ;; Ret))
                (pForR 1 e (fun s => x <- Vu + s ;; z <~ (hZqm t) [Zetar2 + s] ;; Vu + s ::= Cmul x z ;; Ret)))) k)))))).

Section F.
Variables (f W B : nat) (x : nat -> nat -> C) (k : cmd C) (m1 : mem) (K : mem -> Prop).
Notation V := (W + B).
Notation adr := (adr2 1 l W V).
Hypothesis HB : l <= B.
Hypothesis Hsrc : forall j c, j < H -> c < 1 -> m1 (f + 1 * j + c) = Val (x j c).
Lemma tm_sub u s : u < P -> s < m -> m * u + s < m * P.
Proof. intros Hu Hs. assert (m * (u + 1) <= m * P) by (apply Nat.mul_le_mono_l; lia). rewrite Nat.mul_add_distr_l in *. lia. Qed.
(** bounds for row t>=1 *)
Lemma row_bd u s : 1 <= u < P -> s < e -> e <= e * u /\ e * u + e <= l /\ m * u + s < H /\ m <= m * u /\ m * P - (m * u + s) < H /\ m * u + m <= m * P.
Proof.
  intros Hu Hs. pose proof (hrgI) as Hg.
  assert (e * 1 <= e * u) by (apply Nat.mul_le_mono_l; lia). assert (e * (u + 1) <= e * P) by (apply Nat.mul_le_mono_l; lia).
  assert (m * 1 <= m * u) by (apply Nat.mul_le_mono_l; lia). assert (m * (u + 1) <= m * P) by (apply Nat.mul_le_mono_l; lia).
  assert (m * u <= m * (P - 1)) by (apply Nat.mul_le_mono_l; lia). rewrite (Nat.mul_comm m (P - 1)) in *.
  rewrite Nat.mul_add_distr_l in *. lia.
Qed.

Lemma fillI_0_ok :
  (forall j c, j < H -> c < 1 -> outs adr 1 (l * 1) (f + 1 * j + c)) ->
  (forall i c, i < l * 1 -> c < 1 -> m1 (adr i + c) <> Unalloc) ->
  (forall m', sets adr 1 (hval t (fun _ => 0%Z) x) (l * 1) m1 m' -> WP k m' K) ->
  WP (fillI_0 f W k) m1 K.
Proof.
  intros Hout Hal HK. pose proof hrgI as Hg. unfold fillI_0. cbv zeta.
  assert (Hinj : injrows adr 1 (l * 1)) by (apply adr_inj1; lia).
  assert (Hel : e <= l) by nia.
  set (A := hstA t (fun _ => 0%Z) x).
  pose proof (WP_pfx1 adr 1 A (l * 1) Hinj) as HL.
  apply WP_seq. eapply HL; [lia|apply pfx1_nil| |].
  { intros s Hs. apply lset_one; [reflexivity|]. grd s 0.
    apply row_w1; [rewrite adr2_lo by lia; lia| |gal s 0]. unfold A. rewrite hA_lo0 by lia. reflexivity. }
  intros m2 H2. apply WP_seq. eapply HL; [lia|exact H2| |].
  { intros s Hs. apply lset_one; [reflexivity|]. grd (m * P - s) 0. grd s 0.
    apply row_w1; [rewrite adr2_lo by lia; lia| |gal s 0]. unfold A. rewrite hA_m0 by lia. cbn [Z.opp]. rewrite zeta_0. ring. }
  intros m3 H3. apply WP_seq.
  eapply (WP_pfx1n adr 1 A (l * 1) Hinj e 1 P); [lia|lia|lia| | |].
  { eapply pfx1_eq; [|exact H3]. lia. }
  { intros u Hu. pose proof (row_bd u 0 Hu ltac:(lia)) as Hb0.
    apply (lset_rows _ _ _ _ Hinj); [lia|]. intros s Hs. apply lset_one; [reflexivity|].
    pose proof (row_bd u s Hu Hs) as Hb. grd (m * P - (m * u + s)) 0. grd (m * u + s) 0.
    apply row_w1; [rewrite adr2_lo by lia; lia| |gal (e * u + s) 0]. unfold A.
    replace (u * e + s) with (l * 0 + (e * u + s)) by lia. rewrite hA_t by lia. cbn [Z.mul Z.opp]. rewrite !zeta_0. ring. }
  intros m4 H4. assert (S4 : sets adr 1 A (l * 1) m1 m4).
  { apply pfx1_sets. eapply pfx1_eq; [|exact H4]. lia. }
  clear m2 m3 H2 H3 H4 HL.
  apply WP_seq. apply (fftp_one e P W B ltac:(lia) ltac:(lia) HB 1 A); [apply S4|].
  intros m7 S7. apply WP_seq.
  assert (V7 : forall i c, i < l * 1 -> c < 1 -> m7 (adr i + c) = Val (colv e P 1 A i c)) by (apply S7).
  set (g := hval t (fun _ => 0%Z) x) in *.
  assert (HN : e * P * 1 <= l * 1) by lia. assert (Hm1 : 1 <= e) by lia. assert (HP1 : 1 <= P) by lia.
  eapply (WP_at3 adr 1 g (l * 1) Hinj e P 1 Hm1 HP1 HN (fun k b u' s => u' = k /\ 1 <= s)
       (fun b u' s => s = 0 \/ u' < 1) (fun b u' s => True)); [apply htw_start; [exact V7|]|intros; lia|intros; lia| | |].
  - intros b u s Hb Hu Hs [->|HQ]; [lia|]. replace u with 0 by lia. lia.
  - intros b u' s Hb Hu' Hs. split; [|auto].
    intros _. destruct (Nat.eq_dec s 0); [auto|]. destruct (Nat.lt_ge_cases u' 1); [auto|]. right. exists u'. lia.
  - intros u Hu. apply (lset_at3_r1 adr 1 g (l * 1) Hinj e P 1 Hm1 HP1 HN); [reflexivity|lia|].
    intros s Hs. apply lset_one; [reflexivity|]. pose proof (row_bd u s Hu ltac:(lia)) as Hb.
    assert (Ea : W + u * e + s = adr (e * u + s) + 0) by (rewrite adr2_lo by lia; lia).
    eapply tw_leaf; [exact Ea|rewrite Ea; apply V7; lia| |].
    + replace (m * n * u + s) with (m * (n * u + 0) + s) by lia. apply hzqm_u; lia.
    + unfold g. rewrite hval_tw0 by lia. reflexivity.
  - intros m9 H9. apply HK. eapply sets_trans; [exact S4|eapply sets_trans; [exact S7|]].
    eapply (at3_sets adr 1 g (l * 1) e P 1 Hm1 HP1 HN); [lia| |exact H9]. intros; exact Logic.I.
Qed.

Section Two.
Hypothesis Hout : forall j c, j < H -> c < 1 -> outs adr 1 (l * 2) (f + 1 * j + c).
Hypothesis Hal : forall i c, i < l * 2 -> c < 1 -> m1 (adr i + c) <> Unalloc.

Ltac rows2 s c := apply row_w2; [rewrite adr2_lo by lia; lia|rewrite adr2_hi by lia; lia|lia| | |gal s c|gal (l + (s)) c].

Lemma fillI_h_ok : n mod 2 = 0 ->
  (forall m', sets adr 1 (hval t (rho2 0 (Z.of_nat (n / 2))) x) (l * 2) m1 m' -> WP k m' K) ->
  WP (fillI_h f W V k) m1 K.
Proof.
  intros He HK. pose proof hrgI as Hg. unfold fillI_h. cbv zeta.
  assert (Hinj : injrows adr 1 (l * 2)) by (apply adr_inj1; lia).
  assert (Hel : e <= l) by nia.
  assert (Hn2 : 1 <= n / 2 < n) by (pose proof (Nat.div_mod n 2 ltac:(lia)); lia).
  set (rh := rho2 0 (Z.of_nat (n / 2))). assert (R0 : rh 0 = 0%Z) by reflexivity. assert (R1 : rh 1 = Z.of_nat (n / 2)) by reflexivity.
  set (A := hstA t rh x).
  pose proof (hz_half He) as Hz.
  pose proof (WP_pfx2 adr 1 A (l * 2) Hinj) as HL.
  apply WP_seq. eapply (HL l); [lia|lia|apply pfx2_nil| |].
  { intros s Hs. apply lset_two; [reflexivity|]. grd s 0. rows2 s 0; unfold A.
    - rewrite hA_lo0 by lia. reflexivity.
    - rewrite hA_lo1 by lia. reflexivity. }
  intros m2 H2. apply WP_seq. eapply (HL l); [lia|lia|exact H2| |].
  { intros s Hs. apply lset_two; [reflexivity|]. grd (m * P - s) 0. grd s 0. rows2 s 0; unfold A.
    - rewrite hA_m0, R0 by lia. cbn [Z.opp]. rewrite zeta_0. ring.
    - rewrite hA_m1, R1, Hz by lia. ring. }
  intros m3 H3. apply WP_seq.
  eapply (WP_pfx2n adr 1 A (l * 2) Hinj l e 1 P); [lia|lia|lia|lia|rewrite Nat.mul_1_l; exact H3| |].
  { intros u Hu. pose proof (row_bd u 0 Hu ltac:(lia)) as Hb0.
    eapply lset_tget; [apply (hzqp t Hq); lia|].
    apply (lset_rows2 _ _ _ _ Hinj); [lia|lia|]. intros s Hs. apply lset_two; [reflexivity|].
    pose proof (row_bd u s Hu Hs) as Hb. grd (m * P - (m * u + s)) 0. grd (m * u + s) 0. rows2 (u * e + s) 0; unfold A.
    - replace (u * e + s) with (l * 0 + (e * u + s)) by lia. rewrite hA_t, R0 by lia. cbn [Z.mul Z.opp]. rewrite !zeta_0, vadd_eq, CONJ_eq. ring.
    - replace (l + (u * e + s)) with (l * 1 + (e * u + s)) by lia. rewrite hA_t, R1, Hz by lia. rewrite ZMULTxy_eq, vsub_eq, CONJ_eq. ring. }
  intros m4 H4. assert (S4 : sets adr 1 A (l * 2) m1 m4).
  { eapply (pfx2_sets _ _ _ _ Hinj l); [lia|]. replace (P * e) with l in H4 by lia. exact H4. }
  clear m2 m3 H2 H3 H4 HL.
  apply (fftp_two e P W B ltac:(lia) ltac:(lia) HB 1 A); [apply S4|].
  intros m7 S7. apply WP_seq.
  assert (V7 : forall i c, i < l * 2 -> c < 1 -> m7 (adr i + c) = Val (colv e P 1 A i c)) by (apply S7).
  set (g := hval t rh x) in *.
  assert (HN : e * P * 2 <= l * 2) by lia. assert (Hm1 : 1 <= e) by lia. assert (HP1 : 1 <= P) by lia.
  eapply (WP_at3 adr 1 g (l * 2) Hinj e P 2 Hm1 HP1 HN (fun k b u' s => b = 1 /\ u' = 0 /\ s = k)
     (fun b u' s => (s = 0 /\ (u' <> 0 \/ b = 0)) \/ (b = 0 /\ u' = 0)) (fun b u' s => s = 0 \/ u' < 1)); [apply htw_start; [exact V7|]|intros; lia|intros; lia| | |].
  - intros b u s Hb Hu Hs [[-> _]|[-> ->]]; [lia|]. rewrite R0. lia.
  - intros b u' s Hb Hu' Hs. split.
    + intros HQ. destruct (Nat.eq_dec u' 0).
      * destruct (Nat.eq_dec b 0); [left; right; lia|]. right. exists s. lia.
      * left. left. lia.
    + intros [HQ|(k0 & Hk & HQ)]; lia.
  - intros s Hs.
    apply (lset_at3_1 adr 1 g (l * 2) e P 2 1 0 s); [lia|lia|lia|].
    apply lset_one; [reflexivity|].
    assert (Ea : V + s = adr (l * 1 + (e * 0 + s)) + 0) by (rewrite b1, adr2_hi; lia).
    eapply tw_leaf; [exact Ea|rewrite Ea; apply V7; lia| |].
    + replace (m * (n / 2) + s) with (m * (n * 0 + n / 2) + s) by lia. apply hzqm_u; lia.
    + unfold g. rewrite hval_tw by lia. reflexivity.
  - intros m8 H8. apply WP_seq.
    eapply (WP_at3 adr 1 g (l * 2) Hinj e P 2 Hm1 HP1 HN (fun k b u' s => u' = k /\ 1 <= s)
       (fun b u' s => s = 0 \/ u' < 1) (fun b u' s => True)); [exact H8|intros; lia|intros; lia| | |].
    + intros b u' s Hb Hu' Hs. split; [|auto].
      intros _. destruct (Nat.eq_dec s 0); [auto|]. destruct (Nat.lt_ge_cases u' 1); [auto|]. right. exists u'. lia.
    + intros u Hu. apply (lset_at3_r2 adr 1 g (l * 2) Hinj e P 2 Hm1 HP1 HN); [reflexivity|lia| |].
      * intros s Hs. apply lset_one; [reflexivity|]. pose proof (row_bd u s Hu ltac:(lia)) as Hb.
        assert (Ea : W + u * e + s = adr (e * u + s) + 0) by (rewrite adr2_lo by lia; lia).
        eapply tw_leaf; [exact Ea|rewrite Ea; apply V7; lia| |].
        -- replace (m * n * u + s) with (m * (n * u + 0) + s) by lia. apply hzqm_u; lia.
        -- unfold g. rewrite hval_tw0 by lia. reflexivity.
      * intros s Hs. apply lset_one; [reflexivity|]. pose proof (row_bd u s Hu ltac:(lia)) as Hb.
        assert (Ea : V + u * e + s = adr (l + (e * u + s)) + 0) by (rewrite adr2_hi; lia).
        eapply tw_leaf; [exact Ea|rewrite Ea; apply V7; lia| |].
        -- replace (m * n * u + m * (n / 2) + s) with (m * (n * u + n / 2) + s) by lia. apply hzqm_u; lia.
        -- unfold g. rewrite hval_tw1, R1 by lia. reflexivity.
    + intros m9 H9. apply HK. eapply sets_trans; [exact S4|eapply sets_trans; [exact S7|]].
      eapply (at3_sets adr 1 g (l * 2) e P 2 Hm1 HP1 HN); [lia| |exact H9]. intros; exact Logic.I.
Qed.

Lemma fillI_r_ok r : 1 <= r < n ->
  (forall m', sets adr 1 (hval t (rho2 (Z.of_nat r) (- Z.of_nat r)) x) (l * 2) m1 m' -> WP k m' K) ->
  WP (fillI_r f W V r k) m1 K.
Proof.
  intros Hr HK. pose proof hrgI as Hg. unfold fillI_r. cbv zeta.
  rewrite (cget_some _ _ _ _ (hzqpP r Hr)).
  assert (Hinj : injrows adr 1 (l * 2)) by (apply adr_inj1; lia).
  assert (Hel : e <= l) by nia.
  set (rh := rho2 (Z.of_nat r) (- Z.of_nat r)). assert (R0 : rh 0 = Z.of_nat r) by reflexivity. assert (R1 : rh 1 = (- Z.of_nat r)%Z) by reflexivity.
  set (A := hstA t rh x).
  pose proof (WP_pfx2 adr 1 A (l * 2) Hinj) as HL.
  apply WP_seq. eapply (HL l); [lia|lia|apply pfx2_nil| |].
  { intros s Hs. apply lset_two; [reflexivity|]. grd s 0. rows2 s 0; unfold A.
    - rewrite hA_lo0 by lia. reflexivity.
    - rewrite hA_lo1 by lia. reflexivity. }
  intros m2 H2. apply WP_seq. eapply (HL l); [lia|lia|exact H2| |].
  { intros s Hs. apply lset_two; [reflexivity|]. grd (m * P - s) 0. grd s 0. rows2 s 0; unfold A.
    - rewrite hA_m0, R0 by lia. rewrite pair_plus, vadd_eq. change CONJ with Cconj. rewrite ?Cconj_conj, <- zeta_neg. ring.
    - rewrite hA_m1, R1 by lia. rewrite pair_minus, vadd_eq. change CONJ with Cconj. rewrite ?Cconj_conj, Z.opp_involutive. ring. }
  intros m3 H3. apply WP_seq.
  eapply (WP_pfx2n adr 1 A (l * 2) Hinj l e 1 P); [lia|lia|lia|lia|rewrite Nat.mul_1_l; exact H3| |].
  { intros u Hu. pose proof (row_bd u 0 Hu ltac:(lia)) as Hb0.
    eapply lset_tget; [apply (hzqp t Hq); lia|].
    apply (lset_rows2 _ _ _ _ Hinj); [lia|lia|]. intros s Hs. apply lset_two; [reflexivity|].
    pose proof (row_bd u s Hu Hs) as Hb. grd (m * P - (m * u + s)) 0. grd (m * u + s) 0. rows2 (u * e + s) 0; unfold A.
    - replace (u * e + s) with (l * 0 + (e * u + s)) by lia. rewrite hA_t, R0 by lia.
      rewrite pair2_plus, ZMULT_eq. change CONJ with Cconj. rewrite ?Cconj_conj, <- zeta_neg. ring.
    - replace (l + (u * e + s)) with (l * 1 + (e * u + s)) by lia. rewrite hA_t, R1 by lia.
      rewrite pair2_minus, ZMULT_eq. change CONJ with Cconj. rewrite ?Cconj_conj, Cconj_mul, Cconj_conj, <- zeta_neg, Z.opp_involutive, Z.mul_opp_l. ring. }
  intros m4 H4. assert (S4 : sets adr 1 A (l * 2) m1 m4).
  { eapply (pfx2_sets _ _ _ _ Hinj l); [lia|]. replace (P * e) with l in H4 by lia. exact H4. }
  clear m2 m3 H2 H3 H4 HL.
  apply (fftp_two e P W B ltac:(lia) ltac:(lia) HB 1 A); [apply S4|].
  intros m7 S7. apply WP_seq.
  assert (V7 : forall i c, i < l * 2 -> c < 1 -> m7 (adr i + c) = Val (colv e P 1 A i c)) by (apply S7).
  set (g := hval t rh x) in *.
  assert (HN : e * P * 2 <= l * 2) by lia. assert (Hm1 : 1 <= e) by lia. assert (HP1 : 1 <= P) by lia.
  eapply (WP_at3 adr 1 g (l * 2) Hinj e P 2 Hm1 HP1 HN (fun k b u' s => u' = 0 /\ s = k)
     (fun b u' s => s = 0) (fun b u' s => s = 0 \/ u' < 1)); [apply htw_start; [exact V7|]|intros; lia|intros; lia| | |].
  - intros b u s Hb Hu Hs ->. lia.
  - intros b u' s Hb Hu' Hs. split.
    + intros HQ. destruct (Nat.eq_dec s 0); [auto|]. right. exists s. lia.
    + intros [HQ|(k0 & Hk & HQ)]; lia.
  - intros s Hs. apply (lset_at3_b2 adr 1 g (l * 2) e P 2 Hm1 HP1 HN 0 s); [reflexivity|lia|lia|].
    apply lset_two; [reflexivity|].
    assert (Ea : W + s = adr (e * 0 + s) + 0) by (rewrite adr2_lo by lia; lia).
    assert (Eb : V + s = adr (l + (e * 0 + s)) + 0) by (rewrite adr2_hi; lia).
    eapply wpe_tget; [replace (m * r + s) with (m * (n * 0 + r) + s) by lia; apply hzqm_u; lia|].
    eapply wpe_rd; [right; eexists; left; split; [exact Ea|reflexivity]|rewrite Ea; apply V7; lia|].
    eapply row_w2r; [exact Ea|exact Eb|lia| | |rewrite Ea, V7 by lia; discriminate|rewrite Eb; apply V7; lia].
    + unfold g. rewrite hval_tw0, R0 by lia. reflexivity.
    + unfold g. rewrite hval_tw1, R1 by lia. f_equal. rewrite <- zeta_neg. f_equal. lia.
  - intros m8 H8. apply WP_seq.
    eapply (WP_at3 adr 1 g (l * 2) Hinj e P 2 Hm1 HP1 HN (fun k b u' s => u' = k /\ 1 <= s)
       (fun b u' s => s = 0 \/ u' < 1) (fun b u' s => True)); [exact H8|intros; lia|intros; lia| | |].
    + intros b u' s Hb Hu' Hs. split; [|auto].
      intros _. destruct (Nat.eq_dec s 0); [auto|]. destruct (Nat.lt_ge_cases u' 1); [auto|]. right. exists u'. lia.
    + intros u Hu. apply (lset_at3_r2 adr 1 g (l * 2) Hinj e P 2 Hm1 HP1 HN); [reflexivity|lia| |].
      * intros s Hs. apply lset_one; [reflexivity|]. pose proof (row_bd u s Hu ltac:(lia)) as Hb.
        assert (Ea : W + e * u + s = adr (e * u + s) + 0) by (rewrite adr2_lo by lia; lia).
        eapply tw_leaf; [exact Ea|rewrite Ea; apply V7; lia| |].
        -- replace (n * (m * u) + m * r + s) with (m * (n * u + r) + s) by lia. apply hzqm_u; lia.
        -- unfold g. rewrite hval_tw0, R0 by lia. reflexivity.
      * intros s Hs. apply lset_one; [reflexivity|]. pose proof (row_bd u s Hu ltac:(lia)) as Hb.
        assert (Ea : V + e * u + s = adr (l + (e * u + s)) + 0) by (rewrite adr2_hi; lia).
        eapply tw_leaf; [exact Ea|rewrite Ea; apply V7; lia| |].
        -- replace (n * (m * u) - m * r + s) with (m * (n * u - r) + s) by (rewrite Nat.mul_sub_distr_l; f_equal; f_equal; lia).
           apply hzqm_um; lia.
        -- unfold g. rewrite hval_tw1, R1 by lia. reflexivity.
    + intros m9 H9. apply HK. eapply sets_trans; [exact S4|eapply sets_trans; [exact S7|]].
      eapply (at3_sets adr 1 g (l * 2) e P 2 Hm1 HP1 HN); [lia| |exact H9]. intros; exact Logic.I.
Qed.
End Two.
End F.
End T.
