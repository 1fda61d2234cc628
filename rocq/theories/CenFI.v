(** Centered forward transforms, p>2: folding, radix-P stage and twiddle factors, S=1. *)
From Coq Require Import Reals ZArith Arith Lia List Bool.
From Verif Require Import CNum Sums Roots Mem VecModel VecProofs PadModel PadKernels Loops
  PadLemmas PadMath PadGeom Fwd1 PadForward Fill CenModel CenMath CenGeom CenFft CenF2 CenPass CenStage CenTw.

(** the folded data, before the radix-P stage *)
Definition cstA (t : pad) (rh : nat -> Z) (x : nat -> nat -> C) (i c : nat) : C :=
  stA (am t) (kP t) (kn t) (aL t) (rh (i / kl t)) (fun j => x j c) (i mod kl t).

Lemma cget_some T i v k : T i = Some v -> cget T i k = k v.
Proof. unfold cget. intros ->. reflexivity. Qed.

Lemma tw_leaf R adr g i c a T k v z (m : mem) : a = adr i + c -> m a = Val v -> T k = Some z -> g i c = Cmul v z ->
  wpe R (row adr g i c) (Rd a (fun x => tget T k (fun z => Wr a (Cmul x z) Ret))) m.
Proof.
  intros Ea Hv Ht Hg. eapply wpe_rd; [right; eexists; split; [exact Ea|reflexivity]|exact Hv|].
  eapply wpe_tget; [exact Ht|]. apply row_w1; [assumption|symmetry; assumption|rewrite Hv; discriminate].
Qed.

Section T.
Variable t : pad.
Hypothesis Hwf : kwf t.
Hypothesis Hq : kq t <> 1.
Hypothesis Hp : 2 < kp t.
Notation L := (aL t).  Notation CC := (aC t).  Notation SS := (aS t).  Notation m := (am t).
Notation q := (kq t).   Notation n := (kn t).   Notation M := (kM t).
Notation D := (kD t).  Notation D0 := (kD0 t). Notation P := (kP t). Notation l := (kl t).
Notation H := (kH t). Notation m0 := (km0 t). Notation m1 := (km1 t).

Lemma P_2 : 2 <= P.
Proof. rewrite k_P by assumption. destruct (k_even t Hwf Hq). lia. Qed.
Lemma rgI : 1 <= m /\ 2 <= P /\ m0 + H = m * P /\ 2 * m0 <= m /\ (P - 1) * m + m = m * P /\
  (P - 1) * m + m1 = L - H /\ m1 <= m /\ 2 * H <= L <= 2 * H + 1 /\ 2 <= n /\ m <= (P - 1) * m.
Proof.
  pose proof (k_cg t Hwf Hq) as G. pose proof (cH_2 L) as H1. pose proof (cm0_m m P n L G) as H2.
  pose proof (cLH_lo m P n L G) as H3. pose proof (cLH_l m P n L G) as H4. pose proof (cH_l m P n L G) as H5.
  pose proof P_2 as HP. pose proof (k_n2 t Hwf Hq) as Hn. destruct G as [Gm _ _ _ _ _].
  unfold km0, km1, kH. rewrite <- k_P by assumption. unfold cm0, cLH, cl, cH in *.
  assert (E : (P - 1) * m + m = m * P) by nia. assert (m <= (P - 1) * m) by nia.
  rewrite (Nat.mul_comm P m), (Nat.mul_comm m (P - 1)) in *. lia.
Qed.
Lemma m0_c : m0 = cm0 m P L.
Proof. unfold km0, cm0, cl, cH, kH. rewrite <- k_P by assumption. lia. Qed.
Lemma lt_l u s : u < P -> s < m -> u * m + s < l.
Proof. intros Hu Hs. rewrite (lP t Hq). nia. Qed.

Section V.
Variables (rh : nat -> Z) (x : nat -> nat -> C) (b c : nat).
Lemma st_at i : i < l -> cstA t rh x (l * b + i) c = (zeta q (rh b * Z.of_nat (i / m)) * fold m P n L (rh b) (fun j => x j c) i)%C.
Proof.
  intros Hi. pose proof (sh_l t Hwf). unfold cstA. replace (l * b + i) with (i + b * l) by lia.
  rewrite Nat.div_add, Nat.mod_add, Nat.div_small, Nat.mod_small by lia. unfold stA.
  rewrite <- k_qq by assumption. reflexivity.
Qed.
Lemma a_lo i : i < m0 -> cstA t rh x (l * b + i) c = x (H + i) c.
Proof.
  intros Hi. pose proof rgI. rewrite st_at by (rewrite (lP t Hq); lia).
  rewrite Nat.div_small by lia. rewrite Z.mul_0_r, zeta_0.
  rewrite (fold_lo m P n L (k_cg t Hwf Hq)) by (rewrite <- m0_c; lia). unfold kH, cH. ring.
Qed.
Lemma a_m i : m0 <= i < m -> cstA t rh x (l * b + i) c = (x (H + i)%nat c + zeta n (- rh b) * x (i - m0)%nat c)%C.
Proof.
  intros Hi. pose proof rgI. rewrite st_at by (rewrite (lP t Hq); lia).
  rewrite Nat.div_small by lia. rewrite Z.mul_0_r, zeta_0.
  rewrite (fold_mid m P n L) by (rewrite <- m0_c; unfold cLH, cH; unfold kH in *; lia). rewrite <- m0_c. unfold kH, cH. ring.
Qed.
Lemma a_mid u s : u < P -> s < m -> m0 <= u * m + s < L - H ->
  cstA t rh x (l * b + (u * m + s)) c =
  (zeta q (rh b * Z.of_nat u) * (x (H + (u * m + s))%nat c + zeta n (- rh b) * x (u * m + s - m0)%nat c))%C.
Proof.
  intros Hu Hs Hi. pose proof rgI. rewrite st_at by (apply lt_l; assumption).
  replace ((u * m + s) / m) with u by (rewrite Nat.div_add_l, Nat.div_small by lia; lia).
  rewrite (fold_mid m P n L) by (rewrite <- m0_c; unfold cLH, cH; unfold kH in *; lia). rewrite <- m0_c. unfold kH, cH. ring.
Qed.
Lemma a_hi u s : u < P -> s < m -> L - H <= u * m + s ->
  cstA t rh x (l * b + (u * m + s)) c =
  (zeta q (rh b * Z.of_nat u) * (zeta n (- rh b) * x (u * m + s - m0)%nat c))%C.
Proof.
  intros Hu Hs Hi. pose proof rgI. rewrite st_at by (apply lt_l; assumption).
  replace ((u * m + s) / m) with u by (rewrite Nat.div_add_l, Nat.div_small by lia; lia).
  rewrite (fold_hi m P n L (k_cg t Hwf Hq)) by (unfold cLH, cH; unfold kH in *; lia). rewrite <- m0_c. unfold kH, cH. ring.
Qed.
(** the twiddle factors *)
Lemma cval_tw u s : u < P -> s < m ->
  cval t rh x (l * b + (m * u + s)) c =
  (colv m P 1 (cstA t rh x) (l * b + (m * u + s)) c * zeta M ((Z.of_nat n * Z.of_nat u + rh b) * Z.of_nat s))%C.
Proof.
  intros Hu Hs. pose proof rgI as Hg. pose proof (sh_l t Hwf) as Hl.
  assert (Hms : m * u + s < l) by (rewrite (lP t Hq); nia).
  unfold cval. replace (l * b + (m * u + s)) with ((m * u + s) + b * l) by lia.
  rewrite Nat.div_add, (Nat.mod_add _ b l), (Nat.div_small (m * u + s)), (Nat.mod_small (m * u + s) l) by lia.
  replace ((m * u + s) / m) with u by (replace (m * u + s) with (u * m + s) by lia; rewrite Nat.div_add_l, Nat.div_small by lia; lia).
  replace ((m * u + s + b * l) mod m) with s.
  2:{ replace (m * u + s + b * l) with (s + (u + b * P) * m) by (rewrite (lP t Hq); lia). rewrite Nat.mod_add, Nat.mod_small by lia. reflexivity. }
  rewrite <- (stB m P n L (k_cg t Hwf Hq)) by assumption. rewrite <- k_M by assumption.
  replace (m * u + s + b * l) with (l * b + (m * u + s)) by lia.
  rewrite <- (colv_at t Hwf Hq) by assumption. cbn [Nat.add]. apply (f_equal2 Cmul); [|reflexivity].
  apply dft_ext. intros j Hj. unfold cstA.
  assert (Hmj : m * j + s < l) by (rewrite (lP t Hq); nia).
  replace (l * b + (m * j + s)) with ((m * j + s) + b * l) by lia.
  rewrite Nat.div_add, Nat.mod_add, (Nat.div_small (m * j + s)), (Nat.mod_small (m * j + s)) by lia. reflexivity.
Qed.
End V.


(** the same for blocks 0 and 1 *)
Section V2.
Variables (rh : nat -> Z) (x : nat -> nat -> C) (c : nat).
Lemma a_lo0 i : i < m0 -> cstA t rh x i c = x (H + i) c.
Proof. intros Hi. rewrite <- (a_lo rh x 0 c i Hi). f_equal. lia. Qed.
Lemma a_lo1 i : i < m0 -> cstA t rh x (l + i) c = x (H + i) c.
Proof. intros Hi. rewrite <- (a_lo rh x 1 c i Hi). f_equal. lia. Qed.
Lemma a_m0 i : m0 <= i < m -> cstA t rh x i c = (x (H + i)%nat c + zeta n (- rh 0) * x (i - m0)%nat c)%C.
Proof. intros Hi. rewrite <- (a_m rh x 0 c i Hi). f_equal. lia. Qed.
Lemma a_m1 i : m0 <= i < m -> cstA t rh x (l + i) c = (x (H + i)%nat c + zeta n (- rh 1) * x (i - m0)%nat c)%C.
Proof. intros Hi. rewrite <- (a_m rh x 1 c i Hi). f_equal. lia. Qed.
Lemma a_mid0 u s : u < P -> s < m -> m0 <= u * m + s < L - H ->
  cstA t rh x (u * m + s) c =
  (zeta q (rh 0 * Z.of_nat u) * (x (H + (u * m + s))%nat c + zeta n (- rh 0) * x (u * m + s - m0)%nat c))%C.
Proof. intros Hu Hs Hi. rewrite <- (a_mid rh x 0 c u s Hu Hs Hi). f_equal. lia. Qed.
Lemma a_mid1 u s : u < P -> s < m -> m0 <= u * m + s < L - H ->
  cstA t rh x (l + (u * m + s)) c =
  (zeta q (rh 1 * Z.of_nat u) * (x (H + (u * m + s))%nat c + zeta n (- rh 1) * x (u * m + s - m0)%nat c))%C.
Proof. intros Hu Hs Hi. rewrite <- (a_mid rh x 1 c u s Hu Hs Hi). f_equal. lia. Qed.
Lemma a_hi0 u s : u < P -> s < m -> L - H <= u * m + s ->
  cstA t rh x (u * m + s) c = (zeta q (rh 0 * Z.of_nat u) * (zeta n (- rh 0) * x (u * m + s - m0)%nat c))%C.
Proof. intros Hu Hs Hi. rewrite <- (a_hi rh x 0 c u s Hu Hs Hi). f_equal. lia. Qed.
Lemma a_hi1 u s : u < P -> s < m -> L - H <= u * m + s ->
  cstA t rh x (l + (u * m + s)) c = (zeta q (rh 1 * Z.of_nat u) * (zeta n (- rh 1) * x (u * m + s - m0)%nat c))%C.
Proof. intros Hu Hs Hi. rewrite <- (a_hi rh x 1 c u s Hu Hs Hi). f_equal. lia. Qed.
Lemma cval_tw0 u s : u < P -> s < m -> cval t rh x (m * u + s) c =
  (colv m P 1 (cstA t rh x) (m * u + s) c * zeta M ((Z.of_nat n * Z.of_nat u + rh 0) * Z.of_nat s))%C.
Proof. intros Hu Hs. pose proof (cval_tw rh x 0 c u s Hu Hs) as E. rewrite Nat.mul_0_r in E. exact E. Qed.
Lemma cval_tw1 u s : u < P -> s < m -> cval t rh x (l + (m * u + s)) c =
  (colv m P 1 (cstA t rh x) (l + (m * u + s)) c * zeta M ((Z.of_nat n * Z.of_nat u + rh 1) * Z.of_nat s))%C.
Proof. intros Hu Hs. pose proof (cval_tw rh x 1 c u s Hu Hs) as E. rewrite Nat.mul_1_r in E. exact E. Qed.
End V2.
Lemma tw_start adr CC0 B rh x (Q : nat -> nat -> nat -> Prop) (m7 : mem) :
  (forall i c, i < l * B -> c < CC0 -> m7 (adr i + c) = Val (colv m P 1 (cstA t rh x) i c)) ->
  (forall b u s, b < B -> u < P -> s < m -> Q b u s -> ((Z.of_nat n * Z.of_nat u + rh b) * Z.of_nat s = 0)%Z) ->
  dn adr CC0 (cval t rh x) (at3 m P B Q) m7 m7.
Proof.
  intros HV HQ. pose proof rgI as Hg. apply dn_at3_have. intros b u s c Hb Hu Hs Hc Hx.
  rewrite <- (lP t Hq). rewrite cval_tw by assumption. rewrite (HQ b u s Hb Hu Hs Hx), zeta_0.
  rewrite HV; [f_equal; ring| |assumption].
  assert (m * u + s < l) by (rewrite (lP t Hq); nia). nia.
Qed.
(** tables *)
Lemma zqm_u r u s : r < n -> u < P -> 1 <= r + u -> s < m -> kZqm t (m * (n * u + r) + s) = Some (zeta M ((Z.of_nat n * Z.of_nat u + Z.of_nat r) * Z.of_nat s)).
Proof.
  intros Hr Hu H1 Hs. pose proof rgI as Hg. rewrite (zqmI t Hq) by (try assumption; rewrite (k_q t Hwf Hq); nia). do 3 f_equal. lia.
Qed.
Lemma zqm_um r u s : r < n -> 1 <= u < P -> s < m -> kZqm t (m * (n * u - r) + s) = Some (zeta M ((Z.of_nat n * Z.of_nat u - Z.of_nat r) * Z.of_nat s)).
Proof.
  intros Hr Hu Hs. pose proof rgI as Hg. assert (n <= n * u) by nia. rewrite (zqmI t Hq); [|assumption| |assumption].
  - do 3 f_equal. lia.
  - rewrite (k_q t Hwf Hq). nia.
Qed.
Lemma zqpP r : 1 <= r < n -> kZqp t (P * r + P) = Some (zeta n (Z.of_nat r)).
Proof.
  intros Hr. pose proof rgI as Hg. rewrite (zqpI t Hq) by lia. f_equal. rewrite (k_q t Hwf Hq).
  replace (P * n) with (n * P) by lia. replace (Z.of_nat r * Z.of_nat P)%Z with (Z.of_nat P * Z.of_nat r)%Z by lia.
  rewrite Nat.mul_comm. apply zeta_cancel; lia.
Qed.
Lemma cj_n r : CONJ (zeta n (Z.of_nat r)) = zeta n (- Z.of_nat r).
Proof. rewrite CONJ_eq. symmetry. apply zeta_neg. Qed.
Lemma cj_n' r : Cconj (zeta n (- Z.of_nat r)) = zeta n (- - Z.of_nat r).
Proof. symmetry. apply zeta_neg. Qed.
Lemma cj_q r u : Cconj (zeta q (Z.of_nat r * Z.of_nat u)) = zeta q (- Z.of_nat r * Z.of_nat u).
Proof. rewrite <- zeta_neg. f_equal. lia. Qed.
Lemma cj_mul a b : Cconj (a * b) = (Cconj a * Cconj b)%C.
Proof. apply C_ext; cbn; ring. Qed.
Lemma nmr u r s : r <= n -> 1 <= u -> n * (m * u) - m * r + s = m * (n * u - r) + s.
Proof. intros. rewrite Nat.mul_sub_distr_l. f_equal. f_equal. lia. Qed.

Section S1.
Hypothesis HS : SS = 1.
Variables (f W : nat) (x : nat -> nat -> C) (mm : mem).
Hypothesis Hsrc : forall j c, j < L -> c < 1 -> mm (f + 1 * j + c) = Val (x j c).

Lemma forwardInner_zero1_ok :
  sepbuf 1 1 f L W l ->
  (forall i c, i < l -> c < 1 -> mm (W + 1 * i + c) <> Unalloc) ->
  WP (cforwardInner_zero1 t f W) mm
     (sets (fun i => W + 1 * i) 1 (cval t (fun _ => 0%Z) x) l mm).
Proof.
  intros Hsep Hal. pose proof rgI as Hg. pose proof (lP t Hq) as Hl. unfold cforwardInner_zero1. cbv zeta.
  rewrite <- (k_P t).
  assert (Hinj : injrows (fun i => W + 1 * i) 1 l) by (apply buf_inj; lia).
  set (A := cstA t (fun _ => 0%Z) x).
  pose proof (WP_pfx1 (fun i => W + 1 * i) 1 A l Hinj) as HL.
  pose proof (WP_pfx1o (fun i => W + 1 * i) 1 A l Hinj) as HLo.
  apply WP_seq. eapply HL; [lia|apply pfx1_nil| |].
  { intros s Hs. apply lset_one; [reflexivity|]. srd (H + s) 0.
    apply row_w1; [lia| |sal s 0]. unfold A. rewrite a_lo0 by lia. reflexivity. }
  intros m2 H2. apply WP_seq. eapply HL; [lia|exact H2| |].
  { intros s Hs. apply lset_one; [reflexivity|]. srd (s - m0) 0. srd (H + s) 0.
    apply row_w1; [lia| |sal s 0]. unfold A. rewrite a_m0 by lia. rewrite zeta_0. ring. }
  intros m3 H3. apply WP_seq.
  eapply (WP_pfx1n (fun i => W + 1 * i) 1 A l Hinj m 1 (P - 1)); [lia|lia|lia| | |].
  { eapply pfx1_eq; [|exact H3]. lia. }
  { intros u Hu. assert (Hu1 : m <= u * m) by nia. assert (Hu2 : u * m + m <= (P - 1) * m) by nia.
    apply (lset_rows _ _ _ _ Hinj); [lia|]. intros s Hs. apply lset_one; [reflexivity|].
    srd (u * m + s - m0) 0. srd (H + (u * m + s)) 0.
    apply row_w1; [lia| |sal (u * m + s) 0]. unfold A.
    rewrite a_mid0 by lia. cbn [Z.mul Z.opp]. rewrite !zeta_0. ring. }
  intros m4 H4.
  apply WP_seq. eapply (HLo ((P - 1) * m)); [lia|lia|eapply pfx1_eq; [|exact H4]; lia| |].
  { intros s Hs. apply lset_one; [reflexivity|]. 
    srd ((P - 1) * m + s - m0) 0. srd (H + ((P - 1) * m + s)) 0.
    apply row_w1; [lia| |sal ((P - 1) * m + s) 0]. unfold A.
    rewrite a_mid0 by lia. cbn [Z.mul Z.opp]. rewrite !zeta_0. ring. }
  intros m5 H5. apply WP_seq. eapply (HLo ((P - 1) * m)); [lia|lia|exact H5| |].
  { intros s Hs. apply lset_one; [reflexivity|]. 
    srd ((P - 1) * m + s - m0) 0.
    apply row_w1; [lia| |sal ((P - 1) * m + s) 0]. unfold A.
    rewrite a_hi0 by lia. cbn [Z.mul Z.opp]. rewrite !zeta_0. ring. }
  intros m6 H6. assert (S6 : sets (fun i => W + 1 * i) 1 A l mm m6).
  { apply pfx1_sets. eapply pfx1_eq; [|exact H6]. lia. }
  clear m2 m3 m4 m5 H2 H3 H4 H5 H6 HL HLo.
  apply WP_seq. eapply WP_mono; [|apply (fftp1_ok t Hwf Hq 1 W A m6 HS); apply S6].
  intros m7 S7. 
  eapply WP_mono; [intros m8 S8; eapply sets_trans; [exact S6|eapply sets_trans; [exact S7|exact S8]]|].
  set (adr := fun i => W + 1 * i) in *.
  assert (V7 : forall i c, i < l * 1 -> c < 1 -> m7 (adr i + c) = Val (colv m P 1 A i c)) by (rewrite Nat.mul_1_r; apply S7). clear S7 S6 m6.
  set (g := cval t (fun _ => 0%Z) x).
  assert (HN : m * P * 1 <= l) by lia. assert (Hm1 : 1 <= m) by lia. assert (HP1 : 1 <= P) by lia.
  apply (WP_dnfor adr 1 g (fun u => at3 m P 1 (fun b u' s => s = 0 \/ u' < 1 + u))) with (m := m7).
  - apply tw_start; [assumption|]. intros b u s Hb Hu Hs [->|HQ]; [lia|]. replace u with 0 by lia. lia.
  - intros u m8 Hu H8.
    eapply (WP_at3 adr 1 g l Hinj m P 1 Hm1 HP1 HN (fun k b u' s => u' = 1 + u /\ s = k)
       (fun b u' s => s = 0 \/ u' < 1 + u) (fun b u' s => s = 0 \/ u' < 1 + S u)); [exact H8|intros; lia|intros; lia| | |].
    + intros b u' s Hb Hu' Hs. split.
      * intros HQ. destruct (Nat.eq_dec s 0); [auto|]. destruct (Nat.lt_ge_cases u' (1 + u)); [auto|]. right. exists s. lia.
      * intros [HQ|(k & Hk & HQ)]; lia.
    + intros s Hs. apply (lset_at3_b1 adr 1 g l m P 1 Hm1 HP1 HN); [reflexivity|lia|lia|].
      apply lset_one; [reflexivity|].
      assert (Hlt : (1 + u) * m + s < l) by (apply lt_l; lia).
      assert (Ea : W + (1 + u) * m + s = adr (m * (1 + u) + s) + 0) by (unfold adr; lia).
      eapply tw_leaf; [exact Ea|rewrite Ea; apply V7; lia| |].
      * replace (m * n * (1 + u) + s) with (m * (n * (1 + u) + 0) + s) by lia. apply zqm_u; lia.
      * unfold g. rewrite cval_tw0 by lia. reflexivity.
    + intros m9 H9. exact H9.
  - intros m8 H8. eapply (at3_sets adr 1 g l m P 1 Hm1 HP1 HN); [lia| |exact H8]. intros; cbv beta. lia.
Qed.

Lemma forwardInner_residue1_ok r : 1 <= r < n ->
  sepbuf 1 1 f L W l ->
  (forall i c, i < l -> c < 1 -> mm (W + 1 * i + c) <> Unalloc) ->
  WP (cforwardInner_residue1 t f W r) mm
     (sets (fun i => W + 1 * i) 1 (cval t (fun _ => Z.of_nat r) x) l mm).
Proof.
  intros Hr Hsep Hal. pose proof rgI as Hg. pose proof (lP t Hq) as Hl. unfold cforwardInner_residue1. cbv zeta.
  rewrite <- (k_P t). rewrite (cget_some _ _ _ _ (zqpP r Hr)).
  assert (Hinj : injrows (fun i => W + 1 * i) 1 l) by (apply buf_inj; lia).
  set (rh := fun _ : nat => Z.of_nat r). set (A := cstA t rh x).
  pose proof (WP_pfx1 (fun i => W + 1 * i) 1 A l Hinj) as HL.
  pose proof (WP_pfx1o (fun i => W + 1 * i) 1 A l Hinj) as HLo.
  apply WP_seq. eapply HL; [lia|apply pfx1_nil| |].
  { intros s Hs. apply lset_one; [reflexivity|]. srd (H + s) 0.
    apply row_w1; [lia| |sal s 0]. unfold A. rewrite a_lo0 by lia. reflexivity. }
  intros m2 H2. apply WP_seq. eapply HL; [lia|exact H2| |].
  { intros s Hs. apply lset_one; [reflexivity|]. srd (s - m0) 0. srd (H + s) 0.
    apply row_w1; [lia| |sal s 0]. unfold A. rewrite a_m0 by lia. 
    rewrite ZMULTxy_eq, vadd_eq, cj_n. unfold rh. ring. }
  intros m3 H3. apply WP_seq.
  eapply (WP_pfx1n (fun i => W + 1 * i) 1 A l Hinj m 1 (P - 1)); [lia|lia|lia| | |].
  { eapply pfx1_eq; [|exact H3]. lia. }
  { intros u Hu. assert (Hu1 : m <= u * m) by nia. assert (Hu2 : u * m + m <= (P - 1) * m) by nia.
    eapply lset_tget; [apply zqpI; auto; lia|].
    apply (lset_rows _ _ _ _ Hinj); [lia|]. intros s Hs. apply lset_one; [reflexivity|].
    srd (u * m + s - m0) 0. srd (H + (u * m + s)) 0.
    apply row_w1; [lia| |sal (u * m + s) 0]. unfold A.
    rewrite a_mid0 by lia. rewrite !ZMULTxy_eq, vadd_eq, ZMULT_eq, cj_n. unfold rh. ring. }
  intros m4 H4.
  rewrite (cget_some _ _ _ _ (zqpI t Hq r (P - 1) Hr ltac:(lia))).
  apply WP_seq. eapply (HLo ((P - 1) * m)); [lia|lia|eapply pfx1_eq; [|exact H4]; lia| |].
  { intros s Hs. apply lset_one; [reflexivity|]. 
    srd ((P - 1) * m + s - m0) 0. srd (H + ((P - 1) * m + s)) 0.
    apply row_w1; [lia| |sal ((P - 1) * m + s) 0]. unfold A.
    rewrite a_mid0 by lia. rewrite !ZMULTxy_eq, vadd_eq, ZMULT_eq, cj_n. unfold rh. ring. }
  intros m5 H5. apply WP_seq. eapply (HLo ((P - 1) * m)); [lia|lia|exact H5| |].
  { intros s Hs. apply lset_one; [reflexivity|]. 
    srd ((P - 1) * m + s - m0) 0.
    apply row_w1; [lia| |sal ((P - 1) * m + s) 0]. unfold A.
    rewrite a_hi0 by lia. rewrite !ZMULTxy_eq, ZMULT_eq, cj_n. unfold rh. ring. }
  intros m6 H6. assert (S6 : sets (fun i => W + 1 * i) 1 A l mm m6).
  { apply pfx1_sets. eapply pfx1_eq; [|exact H6]. lia. }
  clear m2 m3 m4 m5 H2 H3 H4 H5 H6 HL HLo.
  apply WP_seq. eapply WP_mono; [|apply (fftp1_ok t Hwf Hq 1 W A m6 HS); apply S6].
  intros m7 S7. 
  eapply WP_mono; [intros m8 S8; eapply sets_trans; [exact S6|eapply sets_trans; [exact S7|exact S8]]|].
  set (adr := fun i => W + 1 * i) in *.
  assert (V7 : forall i c, i < l * 1 -> c < 1 -> m7 (adr i + c) = Val (colv m P 1 A i c)) by (rewrite Nat.mul_1_r; apply S7). clear S7 S6 m6.
  set (g := cval t rh x).
  assert (HN : m * P * 1 <= l) by lia. assert (Hm1 : 1 <= m) by lia. assert (HP1 : 1 <= P) by lia.
  apply WP_seq.
  eapply (WP_at3 adr 1 g l Hinj m P 1 Hm1 HP1 HN (fun k b u' s => u' = 0 /\ s = k)
     (fun b u' s => s = 0) (fun b u' s => s = 0 \/ u' < 1)); [apply tw_start; [assumption|]|intros; lia|intros; lia| | |].
  - intros b u s Hb Hu Hs ->. lia.
  - intros b u' s Hb Hu' Hs. split.
    + intros HQ. destruct (Nat.eq_dec s 0); [auto|]. right. exists s. lia.
    + intros [HQ|(k & Hk & HQ)]; lia.
  - intros s Hs. apply (lset_at3_b1 adr 1 g l m P 1 Hm1 HP1 HN); [reflexivity|lia|lia|].
    apply lset_one; [reflexivity|].
    assert (Hlt : 0 * m + s < l) by (apply lt_l; lia).
    assert (Ea : W + s = adr (m * 0 + s) + 0) by (unfold adr; lia).
    eapply tw_leaf; [exact Ea|rewrite Ea; apply V7; lia| |].
    + replace (m * r + s) with (m * (n * 0 + r) + s) by lia. apply zqm_u; lia.
    + unfold g. rewrite cval_tw0 by lia. reflexivity.
  - intros m8 H8.
    eapply (WP_at3 adr 1 g l Hinj m P 1 Hm1 HP1 HN (fun k b u' s => u' = k /\ 1 <= s)
       (fun b u' s => s = 0 \/ u' < 1) (fun b u' s => True)); [exact H8|intros; lia|intros; lia| | |].
    + intros b u' s Hb Hu' Hs. split; [|auto].
      intros _. destruct (Nat.eq_dec s 0); [auto|]. destruct (Nat.lt_ge_cases u' 1); [auto|]. right. exists u'. lia.
    + intros u Hu. apply (lset_at3_r1 adr 1 g l Hinj m P 1 Hm1 HP1 HN); [reflexivity|lia|].
      intros s Hs. apply lset_one; [reflexivity|].
      assert (Hlt : u * m + s < l) by (apply lt_l; lia).
      assert (Ea : W + m * u + s = adr (m * u + s) + 0) by (unfold adr; lia).
      eapply tw_leaf; [exact Ea|rewrite Ea; apply V7; lia| |].
      * replace (m * r + n * (m * u) + s) with (m * (n * u + r) + s) by lia. apply zqm_u; lia.
      * unfold g. rewrite cval_tw0 by lia. reflexivity.
    + intros m9 H9. eapply (at3_sets adr 1 g l m P 1 Hm1 HP1 HN); [lia| |exact H9]. intros; exact Logic.I.
Qed.

Lemma forwardInner_residue2_ok r : 1 <= r < n ->
  sepbuf 1 1 f L W (l * 2) ->
  (forall i c, i < l * 2 -> c < 1 -> mm (W + 1 * i + c) <> Unalloc) ->
  WP (cforwardInner_residue2 t f W r) mm
     (sets (fun i => W + 1 * i) 1 (cval t (fun b => if b =? 0 then Z.of_nat r else (- Z.of_nat r)%Z) x) (l * 2) mm).
Proof.
  intros Hr Hsep Hal. pose proof rgI as Hg. pose proof (lP t Hq) as Hl.
  assert (Hkb : kb t = l) by (unfold kb; rewrite HS; lia).
  unfold cforwardInner_residue2. cbv zeta. rewrite Hkb.
  rewrite <- (k_P t). rewrite (cget_some _ _ _ _ (zqpP r Hr)).
  assert (Hinj : injrows (fun i => W + 1 * i) 1 (l * 2)) by (apply buf_inj; lia).
  set (rh := fun b : nat => if b =? 0 then Z.of_nat r else (- Z.of_nat r)%Z). set (A := cstA t rh x).
  assert (R0 : rh 0 = Z.of_nat r) by reflexivity. assert (R1 : rh 1 = (- Z.of_nat r)%Z) by reflexivity.
  pose proof (WP_pfx2 (fun i => W + 1 * i) 1 A (l * 2) Hinj l) as HL.
  pose proof (WP_pfx2o (fun i => W + 1 * i) 1 A (l * 2) Hinj l) as HLo.
  apply WP_seq. eapply HL; [lia|lia|apply pfx2_nil| |].
  { intros s Hs. apply lset_two; [reflexivity|]. srd (H + s) 0.
    apply (row_w2c _ _ _ _ s (l + s) 0 _ _ _ (fun y => y)); [lia|lia|lia| | |sal s 0|sal (l + s) 0]; unfold A.
    - rewrite a_lo0 by lia. reflexivity.
    - rewrite a_lo1 by lia. reflexivity. }
  intros m2 H2. apply WP_seq. eapply HL; [lia|lia|exact H2| |].
  { intros s Hs. apply lset_two; [reflexivity|]. srd (s - m0) 0. srd (H + s) 0.
    apply row_w2; [lia|lia|lia| | |sal s 0|sal (l + s) 0]; unfold A.
    - rewrite a_m0 by lia. rewrite cpair_plus, vadd_eq, cj_n, R0. ring.
    - rewrite a_m1 by lia. rewrite cpair_minus, vadd_eq, R1, Z.opp_involutive. ring. }
  intros m3 H3. apply WP_seq.
  eapply (WP_pfx2n (fun i => W + 1 * i) 1 A (l * 2) Hinj l m 1 (P - 1)); [lia|lia|lia|lia| | |].
  { rewrite Nat.mul_1_l. exact H3. }
  { intros u Hu. assert (Hu1 : m <= u * m) by nia. assert (Hu2 : u * m + m <= (P - 1) * m) by nia.
    eapply lset_tget; [apply zqpI; auto; lia|].
    apply (lset_rows2 _ _ _ _ Hinj); [lia|lia|]. intros s Hs. apply lset_two; [reflexivity|].
    srd (u * m + s - m0) 0. srd (H + (u * m + s)) 0.
    apply row_w2; [lia|lia|lia| | |sal (u * m + s) 0|sal (l + (u * m + s)) 0]; unfold A.
    - rewrite a_mid0 by lia. rewrite pair2_plus, ZMULT_eq, cj_n, R0. ring.
    - rewrite a_mid1 by lia. rewrite pair2_minus, ZMULT_eq, cj_n, cj_mul, cj_q, cj_n', R1. ring. }
  intros m4 H4.
  rewrite (cget_some _ _ _ _ (zqpI t Hq r (P - 1) Hr ltac:(lia))).
  apply WP_seq. eapply (HLo ((P - 1) * m)); [lia|lia|lia|rewrite Nat.add_0_r; exact H4| |].
  { intros s Hs. apply lset_two; [reflexivity|]. 
    srd ((P - 1) * m + s - m0) 0. srd (H + ((P - 1) * m + s)) 0.
    apply row_w2; [lia|lia|lia| | |sal ((P - 1) * m + s) 0|sal (l + ((P - 1) * m + s)) 0]; unfold A.
    - rewrite a_mid0 by lia. rewrite pair2_plus, ZMULT_eq, cj_n, R0. ring.
    - rewrite a_mid1 by lia. rewrite pair2_minus, ZMULT_eq, cj_n, cj_mul, cj_q, cj_n', R1. ring. }
  intros m5 H5. apply WP_seq. eapply (HLo ((P - 1) * m)); [lia|lia|lia|exact H5| |].
  { intros s Hs. apply lset_two; [reflexivity|]. 
    srd ((P - 1) * m + s - m0) 0.
    apply row_w2; [lia|lia|lia| | |sal ((P - 1) * m + s) 0|sal (l + ((P - 1) * m + s)) 0]; unfold A.
    - rewrite a_hi0 by lia. rewrite pair_plus, ZMULT_eq, cj_n, R0. ring.
    - rewrite a_hi1 by lia. rewrite pair_minus, ZMULT_eq, cj_n, cj_mul, cj_q, cj_n', R1. ring. }
  intros m6 H6. assert (S6 : sets (fun i => W + 1 * i) 1 A (l * 2) mm m6).
  { eapply (pfx2_sets _ _ _ _ Hinj l); [lia|]. replace ((P - 1) * m + m) with l in H6 by lia. exact H6. }
  clear m2 m3 m4 m5 H2 H3 H4 H5 H6 HL HLo.
  apply WP_seq. eapply (fftp2_ok' t Hwf Hq 1 W A m6 _ _ HS); [apply S6|].
  intros m7 S7. 
  eapply WP_mono; [intros m8 S8; eapply sets_trans; [exact S6|eapply sets_trans; [exact S7|exact S8]]|].
  set (adr := fun i => W + 1 * i) in *.
  assert (V7 : forall i c, i < l * 2 -> c < 1 -> m7 (adr i + c) = Val (colv m P 1 A i c)) by (apply S7). clear S7 S6 m6.
  set (g := cval t rh x).
  assert (HN : m * P * 2 <= l * 2) by lia. assert (Hm1 : 1 <= m) by lia. assert (HP1 : 1 <= P) by lia.
  apply WP_seq.
  eapply (WP_at3 adr 1 g (l * 2) Hinj m P 2 Hm1 HP1 HN (fun k b u' s => u' = 0 /\ s = k)
     (fun b u' s => s = 0) (fun b u' s => s = 0 \/ u' < 1)); [apply tw_start; [assumption|]|intros; lia|intros; lia| | |].
  - intros b u s Hb Hu Hs ->. lia.
  - intros b u' s Hb Hu' Hs. split.
    + intros HQ. destruct (Nat.eq_dec s 0); [auto|]. right. exists s. lia.
    + intros [HQ|(k & Hk & HQ)]; lia.
  - intros s Hs. apply (lset_at3_b2 adr 1 g (l * 2) m P 2 Hm1 HP1 HN); [reflexivity|lia|lia|].
    apply lset_two; [reflexivity|].
    assert (Hlt : 0 * m + s < l) by (apply lt_l; lia).
    eapply wpe_tget; [replace (m * r + s) with (m * (n * 0 + r) + s) by lia; apply zqm_u; lia|].
    assert (Ea : W + s = adr (m * 0 + s) + 0) by (unfold adr; lia).
    assert (Eb : W + l + s = adr (l + (m * 0 + s)) + 0) by (unfold adr; lia).
    rewrite <- Hl. rewrite Ea, Eb.
    eapply wpe_rd; [right; eexists; left; split; reflexivity|apply V7; lia|].
    eapply (row_w2r _ _ _ _ (m * 0 + s) (l + (m * 0 + s)) 0 _ _ _ _ (fun y => Cmul y _)); [reflexivity|reflexivity|unfold adr; lia| | | |apply V7; lia].
    + unfold g. rewrite cval_tw0 by lia. reflexivity.
    + unfold g. rewrite cval_tw1 by lia. rewrite R1. rewrite <- zeta_neg. do 2 f_equal. lia.
    + rewrite V7 by lia. discriminate.
  - intros m8 H8.
    eapply (WP_at3 adr 1 g (l * 2) Hinj m P 2 Hm1 HP1 HN (fun k b u' s => u' = k /\ 1 <= s)
       (fun b u' s => s = 0 \/ u' < 1) (fun b u' s => True)); [exact H8|intros; lia|intros; lia| | |].
    + intros b u' s Hb Hu' Hs. split; [|auto].
      intros _. destruct (Nat.eq_dec s 0); [auto|]. destruct (Nat.lt_ge_cases u' 1); [auto|]. right. exists u'. lia.
    + intros u Hu. apply (lset_at3_r2 adr 1 g (l * 2) Hinj m P 2 Hm1 HP1 HN); [reflexivity|lia| |].
      * intros s Hs. apply lset_one; [reflexivity|].
        assert (Hlt : u * m + s < l) by (apply lt_l; lia).
        assert (Ea : W + m * u + s = adr (m * u + s) + 0) by (unfold adr; lia).
        eapply tw_leaf; [exact Ea|rewrite Ea; apply V7; lia| |].
        -- replace (n * (m * u) + m * r + s) with (m * (n * u + r) + s) by lia. apply zqm_u; lia.
        -- unfold g. rewrite cval_tw0 by lia. reflexivity.
      * intros s Hs. rewrite <- Hl. apply lset_one; [reflexivity|].
        assert (Hlt : u * m + s < l) by (apply lt_l; lia).
        assert (Ea : W + l + m * u + s = adr (l + (m * u + s)) + 0) by (unfold adr; lia).
        eapply tw_leaf; [exact Ea|rewrite Ea; apply V7; lia| |].
        -- rewrite (nmr u r) by lia. apply zqm_um; lia.
        -- unfold g. rewrite cval_tw1 by lia. rewrite R1. reflexivity.
    + intros m9 H9. eapply (at3_sets adr 1 g (l * 2) m P 2 Hm1 HP1 HN); [lia| |exact H9]. intros; exact Logic.I.
Qed.

Lemma half_n : n mod 2 = 0 -> zeta n (- Z.of_nat (n / 2)) = Copp C1.
Proof.
  intros He. pose proof rgI as Hg. pose proof (Nat.div_mod n 2 ltac:(lia)) as Hd.
  set (h := n / 2) in *. assert (Hn : n = h * 2) by lia. rewrite Hn.
  rewrite zeta_neg. replace (Z.of_nat h) with (Z.of_nat h * 1)%Z by lia.
  rewrite zeta_cancel by lia. rewrite zeta_2_1. apply C_ext; cbn; ring.
Qed.

Lemma forwardInner_zero2_ok : n mod 2 = 0 ->
  sepbuf 1 1 f L W (l * 2) ->
  (forall i c, i < l * 2 -> c < 1 -> mm (W + 1 * i + c) <> Unalloc) ->
  WP (cforwardInner_zero2 t f W) mm
     (sets (fun i => W + 1 * i) 1 (cval t (fun b => if b =? 0 then 0%Z else Z.of_nat (n / 2)) x) (l * 2) mm).
Proof.
  intros He Hsep Hal. pose proof rgI as Hg. pose proof (lP t Hq) as Hl.
  assert (Hn2 : 1 <= n / 2 < n) by (pose proof (Nat.div_mod n 2 ltac:(lia)); lia).
  assert (Hkb : kb t = l) by (unfold kb; rewrite HS; lia).
  unfold cforwardInner_zero2. cbv zeta. rewrite Hkb.
  rewrite <- (k_P t).
  assert (Hinj : injrows (fun i => W + 1 * i) 1 (l * 2)) by (apply buf_inj; lia).
  pose proof (half_n He) as Hz.
  set (n2 := n / 2) in *.
  set (rh := fun b : nat => if b =? 0 then 0%Z else Z.of_nat n2). set (A := cstA t rh x).
  assert (R0 : rh 0 = 0%Z) by reflexivity. assert (R1 : rh 1 = Z.of_nat n2) by reflexivity.
  pose proof (WP_pfx2 (fun i => W + 1 * i) 1 A (l * 2) Hinj l) as HL.
  pose proof (WP_pfx2o (fun i => W + 1 * i) 1 A (l * 2) Hinj l) as HLo.
  apply WP_seq. eapply HL; [lia|lia|apply pfx2_nil| |].
  { intros s Hs. apply lset_two; [reflexivity|]. srd (H + s) 0.
    apply (row_w2c _ _ _ _ s (l + s) 0 _ _ _ (fun y => y)); [lia|lia|lia| | |sal s 0|sal (l + s) 0]; unfold A.
    - rewrite a_lo0 by lia. reflexivity.
    - rewrite a_lo1 by lia. reflexivity. }
  intros m2 H2. apply WP_seq. eapply HL; [lia|lia|exact H2| |].
  { intros s Hs. apply lset_two; [reflexivity|]. srd (s - m0) 0. srd (H + s) 0.
    apply row_w2; [lia|lia|lia| | |sal s 0|sal (l + s) 0]; unfold A.
    - rewrite a_m0 by lia. rewrite R0. rewrite zeta_0. ring.
    - rewrite a_m1 by lia. rewrite R1, Hz. ring. }
  intros m3 H3. apply WP_seq.
  eapply (WP_pfx2n (fun i => W + 1 * i) 1 A (l * 2) Hinj l m 1 (P - 1)); [lia|lia|lia|lia| | |].
  { rewrite Nat.mul_1_l. exact H3. }
  { intros u Hu. assert (Hu1 : m <= u * m) by nia. assert (Hu2 : u * m + m <= (P - 1) * m) by nia.
    eapply lset_tget; [apply zqpI; auto; lia|].
    apply (lset_rows2 _ _ _ _ Hinj); [lia|lia|]. intros s Hs. apply lset_two; [reflexivity|].
    srd (u * m + s - m0) 0. srd (H + (u * m + s)) 0.
    apply row_w2; [lia|lia|lia| | |sal (u * m + s) 0|sal (l + (u * m + s)) 0]; unfold A.
    - rewrite a_mid0 by lia. rewrite R0, Z.mul_0_l, !zeta_0. ring.
    - rewrite a_mid1 by lia. rewrite R1, Hz. ring. }
  intros m4 H4.
  rewrite (cget_some _ _ _ _ (zqpI t Hq n2 (P - 1) Hn2 ltac:(lia))).
  apply WP_seq. eapply (HLo ((P - 1) * m)); [lia|lia|lia|rewrite Nat.add_0_r; exact H4| |].
  { intros s Hs. apply lset_two; [reflexivity|]. 
    srd ((P - 1) * m + s - m0) 0. srd (H + ((P - 1) * m + s)) 0.
    apply row_w2; [lia|lia|lia| | |sal ((P - 1) * m + s) 0|sal (l + ((P - 1) * m + s)) 0]; unfold A.
    - rewrite a_mid0 by lia. rewrite R0, Z.mul_0_l, !zeta_0. ring.
    - rewrite a_mid1 by lia. rewrite R1, Hz. ring. }
  intros m5 H5. apply WP_seq. eapply (HLo ((P - 1) * m)); [lia|lia|lia|exact H5| |].
  { intros s Hs. apply lset_two; [reflexivity|]. 
    srd ((P - 1) * m + s - m0) 0.
    apply row_w2; [lia|lia|lia| | |sal ((P - 1) * m + s) 0|sal (l + ((P - 1) * m + s)) 0]; unfold A.
    - rewrite a_hi0 by lia. rewrite R0, Z.mul_0_l, !zeta_0. ring.
    - rewrite a_hi1 by lia. rewrite R1, Hz. ring. }
  intros m6 H6. assert (S6 : sets (fun i => W + 1 * i) 1 A (l * 2) mm m6).
  { eapply (pfx2_sets _ _ _ _ Hinj l); [lia|]. replace ((P - 1) * m + m) with l in H6 by lia. exact H6. }
  clear m2 m3 m4 m5 H2 H3 H4 H5 H6 HL HLo.
  apply WP_seq. eapply (fftp2_ok' t Hwf Hq 1 W A m6 _ _ HS); [apply S6|].
  intros m7 S7. 
  eapply WP_mono; [intros m8 S8; eapply sets_trans; [exact S6|eapply sets_trans; [exact S7|exact S8]]|].
  set (adr := fun i => W + 1 * i) in *.
  assert (V7 : forall i c, i < l * 2 -> c < 1 -> m7 (adr i + c) = Val (colv m P 1 A i c)) by (apply S7). clear S7 S6 m6.
  set (g := cval t rh x).
  assert (HN : m * P * 2 <= l * 2) by lia. assert (Hm1 : 1 <= m) by lia. assert (HP1 : 1 <= P) by lia.
  apply WP_seq.
  eapply (WP_at3 adr 1 g (l * 2) Hinj m P 2 Hm1 HP1 HN (fun k b u' s => b = 1 /\ u' = 0 /\ s = k)
     (fun b u' s => (s = 0 /\ (u' <> 0 \/ b = 0)) \/ (b = 0 /\ u' = 0)) (fun b u' s => s = 0 \/ u' < 1)); [apply tw_start; [assumption|]|intros; lia|intros; lia| | |].
  - intros b u s Hb Hu Hs [[-> _]|[-> ->]]; [lia|]. rewrite R0. lia.
  - intros b u' s Hb Hu' Hs. split.
    + intros HQ. destruct (Nat.eq_dec u' 0).
      * destruct (Nat.eq_dec b 0); [left; right; lia|]. right. exists s. lia.
      * left. left. lia.
    + intros [HQ|(k & Hk & HQ)]; lia.
  - intros s Hs.
    apply (lset_at3_1 adr 1 g (l * 2) m P 2 1 0 s); [lia|lia|lia|].
    rewrite <- Hl.
    apply lset_one; [reflexivity|].
    assert (Hlt : 0 * m + s < l) by (apply lt_l; lia).
    assert (Ea : W + l + s = adr (l * 1 + (m * 0 + s)) + 0) by (unfold adr; lia).
    eapply tw_leaf; [exact Ea|rewrite Ea; apply V7; lia| |].
    + replace (m * n2 + s) with (m * (n * 0 + n2) + s) by lia. apply zqm_u; lia.
    + unfold g. rewrite cval_tw by lia. reflexivity.
  - intros m8 H8.
    eapply (WP_at3 adr 1 g (l * 2) Hinj m P 2 Hm1 HP1 HN (fun k b u' s => u' = k /\ 1 <= s)
       (fun b u' s => s = 0 \/ u' < 1) (fun b u' s => True)); [exact H8|intros; lia|intros; lia| | |].
    + intros b u' s Hb Hu' Hs. split; [|auto].
      intros _. destruct (Nat.eq_dec s 0); [auto|]. destruct (Nat.lt_ge_cases u' 1); [auto|]. right. exists u'. lia.
    + intros u Hu. apply (lset_at3_r2 adr 1 g (l * 2) Hinj m P 2 Hm1 HP1 HN); [reflexivity|lia| |].
      * intros s Hs. apply lset_one; [reflexivity|].
        assert (Hlt : u * m + s < l) by (apply lt_l; lia).
        assert (Ea : W + u * m + s = adr (m * u + s) + 0) by (unfold adr; lia).
        eapply tw_leaf; [exact Ea|rewrite Ea; apply V7; lia| |].
        -- replace (m * n * u + s) with (m * (n * u + 0) + s) by lia. apply zqm_u; lia.
        -- unfold g. rewrite cval_tw0 by lia. reflexivity.
      * intros s Hs. rewrite <- Hl. apply lset_one; [reflexivity|].
        assert (Hlt : u * m + s < l) by (apply lt_l; lia).
        assert (Ea : W + l + u * m + s = adr (l + (m * u + s)) + 0) by (unfold adr; lia).
        eapply tw_leaf; [exact Ea|rewrite Ea; apply V7; lia| |].
        -- replace (m * n * u + m * n2 + s) with (m * (n * u + n2) + s) by lia. apply zqm_u; lia.
        -- unfold g. rewrite cval_tw1 by lia. rewrite R1. reflexivity.
    + intros m9 H9. eapply (at3_sets adr 1 g (l * 2) m P 2 Hm1 HP1 HN); [lia| |exact H9]. intros; exact Logic.I.
Qed.
End S1.

Lemma cforwardInner_gpass f F r W :
  cforwardInner t f F r W = gpass t (cforwardInner_zero1 t) (cforwardInner_zero2 t) (cforwardInner_residue1 t) (cforwardInner_residue2 t) n (kb t) f F r W.
Proof. unfold cforwardInner, gpass, cforwardInner_tail, gtail. reflexivity. Qed.

Lemma forwardInner_ok f F W r x (mm : mem) (W0 := getW F W) (E := kblocks t r) : SS = 1 ->
  passr (sh t) r -> ainplace t = (W0 =? F) ->
  sepbuf 1 1 f L W0 (l * E) -> (W0 = F \/ sepbuf 1 1 W0 (l * E) F (l * E)) ->
  (forall j c, j < L -> c < 1 -> mm (f + 1 * j + c) = Val (x j c)) ->
  (forall i c, i < l * E -> c < 1 -> mm (W0 + 1 * i + c) <> Unalloc) ->
  (forall i c, i < l * E -> c < 1 -> mm (F + 1 * i + c) <> Unalloc) ->
  WP (cforwardInner t f F r W) mm (fdone 1 1 F W0 (l * E) (kout t (krho t r) x) mm).
Proof.
  intros HS Hpass Hin Hsep HWF Hsrc HWa HFa. rewrite cforwardInner_gpass.
  assert (Hkb : kb t = l) by (unfold kb; rewrite HS; lia).
  apply gpass_ok; try assumption; try (symmetry; assumption); try reflexivity.
  - intros f1 W1 x1 m1 Hs. rewrite Nat.mul_1_r. intros. apply forwardInner_zero1_ok; assumption.
  - intros He f1 W1 x1 m1 Hs. intros. apply forwardInner_zero2_ok; assumption.
  - intros r1 Hr1 f1 W1 x1 m1 Hs. rewrite Nat.mul_1_r. intros. apply forwardInner_residue1_ok; try assumption.
  - intros r1 Hr1 f1 W1 x1 m1 Hs. intros. apply forwardInner_residue2_ok; try assumption.
Qed.
End T.
