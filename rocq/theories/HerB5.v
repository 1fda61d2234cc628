(** Hermitian backward transforms, p>2: writing f. *)
From Coq Require Import Reals ZArith Arith Lia List Bool.
From Verif Require Import CNum Sums Roots Mem VecModel VecProofs PadModel PadKernels Loops
  PadLemmas PadMath PadGeom Fwd1 PadForward Fill CenModel CenMath CenGeom CenFft CenF2 CenPass CenStage CenTw CenFI
  CenBack CenB2 CenBPass CenBwd2 CenBI HerModel HerSpec HerMath HerFft HerGeom HerF2 HerFI HerForward HerB1 HerB2 HerB3 HerB4.

Section T.
Variable t : pad.
Hypothesis Hwf : hwf t.
Hypothesis Hq : kq t <> 1.
Hypothesis Hp : 2 < kp t.
Notation m := (am t).
Notation q := (kq t).   Notation n := (kn t).   Notation M := (kM t).
Notation e := (he t). Notation H := (hH t). Notation P := (hP t).
Notation l := (e * P). Notation me := (m - e).
Notation m0 := (m * P - H + 1).

(** residue 0 alone (n odd) *)
Definition foldI_0 (f W : nat) : cmd C :=
  let fm := f + P * m in
     Seq (ParFor 0 m0 (fun s => x <- W + s ;; f + s ::= x ;; Ret))
     (Seq (ParFor m0 (me + 1) (fun s => Ws <- W + s ;; f + s ::= Ws ;; fm - s ::= Cconj Ws ;; Ret))
     (Seq (ParFor 1 P (fun t' => let tm := t' * m in let te := t' * e in
             let Wt := W + te in let ft := f + tm in let fmt := fm - tm in
             x <- Wt ;; ft ::= x ;;
             pForR 1 (me + 1) (fun s => Wts <- Wt + s ;; ft + s ::= Wts ;; fmt - s ::= Cconj Wts ;; Ret)))
          (if m =? 2 * (e - 1) then
             let fe1 := f + e - 1 in let We1 := W + e - 1 in
             ParFor 0 P (fun t' => x <- We1 + t' * e ;; fe1 + t' * m ::= x ;; Ret)
           else Skip))).
Definition foldI_h (f W V : nat) : cmd C :=
  let fm := f + P * m in
  let Zn2 := P * (n / 2) in
     Seq (ParFor 0 m0 (fun s => x <- W + s ;; y <- V + s ;; f + s ::= Cadd x y ;; Ret))
     (Seq (ParFor m0 (me + 1) (fun s => Wts <- W + s ;; Vts <- V + s ;;
             fm - s ::= Cconj (Csub Wts Vts) ;; f + s ::= Cadd Wts Vts ;; Ret))
     (Seq (ParFor 1 P (fun t' => let tm := t' * m in let te := t' * e in
             let Wt := W + te in let Vt := V + te in let ft := f + tm in let fmt := fm - tm in
             Zeta <~ (hZqp t) [Zn2 + t'] ;;
             let X := UNPACKL Zeta Zeta in let Y := UNPACKH (vneg Zeta) Zeta in
             x <- Wt ;; y <- Vt ;; ft ::= vadd x (ZMULTxy X Y y) ;;
             pForR 1 (me + 1) (fun s => Wts <- Wt + s ;; y <- Vt + s ;;
               let Vts := ZMULTxy X Y y in
               fmt - s ::= CONJ (vsub Wts Vts) ;; ft + s ::= vadd Wts Vts ;; Ret)))
          (if m =? 2 * (e - 1) then
             let e1 := e - 1 in
             let fe1 := f + e1 in let We1 := W + e1 in let Ve1 := V + e1 in
             Seq (Do (x <- We1 ;; y <- Ve1 ;; fe1 ::= Cadd x y ;; Ret))
                 (ParFor 1 P (fun t' => x <- We1 + t' * e ;; z <~ (hZqp t) [Zn2 + t'] ;; y <- Ve1 + t' * e ;;
                    fe1 + t' * m ::= Cadd x (Cmul (Cconj z) y) ;; Ret))
           else Skip))).
Definition foldI_r (f W V r : nat) (Zetanr : C) : cmd C :=
  let fm := f + P * m in
  let Zqr := P * r in
   Seq (ParFor 0 m0 (fun s => y <- f + s ;; x <- W + s ;; v <- V + s ;; f + s ::= Cadd y (Cadd x v) ;; Ret))
   (let Xm := UNPACKL Zetanr Zetanr in let Ym := UNPACKH Zetanr (vneg Zetanr) in
    Seq (ParFor m0 (me + 1) (fun s => Wts <- W + s ;; Vts <- V + s ;;
           y' <- fm - s ;; fm - s ::= vadd y' (CONJ (ZMULT2xy Xm Ym Wts Vts)) ;;
           y <- f + s ;; f + s ::= vadd (vadd y Wts) Vts ;; Ret))
   (Seq (ParFor 1 P (fun t' => let tm := t' * m in let te := t' * e in
           let Wt := W + te in let Vt := V + te in let ft := f + tm in let fmt := fm - tm in
           Zeta <~ (hZqp t) [Zqr + t'] ;;
           let X := UNPACKL Zeta Zeta in let Y := UNPACKH Zeta (vneg Zeta) in
           y0 <- ft ;; v0 <- Vt ;; x0 <- Wt ;; ft ::= vadd y0 (ZMULT2xy X Y v0 x0) ;;
           let Zeta2 := ZMULTxy X (vneg Y) Zetanr in
           let Xm := UNPACKL Zeta2 Zeta2 in let Ym := UNPACKH Zeta2 (vneg Zeta2) in
           pForR 1 (me + 1) (fun s => Wts <- Wt + s ;; Vts <- Vt + s ;;
             y' <- fmt - s ;; fmt - s ::= vadd y' (CONJ (ZMULT2xy Xm Ym Wts Vts)) ;;
             y <- ft + s ;; ft + s ::= vadd y (ZMULT2xy X Y Vts Wts) ;; Ret)))
        (if m =? 2 * (e - 1) then
           let fe1 := f + e - 1 in let We1 := W + e - 1 in let Ve1 := V + e - 1 in
           Seq (Do (y <- fe1 ;; x <- We1 ;; v <- Ve1 ;; fe1 ::= Cadd y (Cadd x v) ;; Ret))
               (ParFor 1 P (fun t' => Zeta <~ (hZqp t) [Zqr + t'] ;;
                  let X := UNPACKL Zeta Zeta in let Y := UNPACKH Zeta (vneg Zeta) in
                  y <- fe1 + t' * m ;; v <- Ve1 + t' * e ;; x <- We1 + t' * e ;;
                  fe1 + t' * m ::= vadd y (ZMULT2xy X Y v x) ;; Ret))
         else Skip))).

Lemma foldI_hyps : 1 <= P /\ 1 <= m /\ (m < 2 * e /\ 2 * e <= m + 2 /\ 1 <= e <= m) /\
  ((P - 1) * m + e <= H /\ H <= m * P) /\ 2 * m0 <= m + 1.
Proof. pose proof (hrgI t Hwf Hq Hp) as Hg. lia. Qed.

Section Pieces.
Variables (f W V : nat) (y : nat -> nat -> nat -> R) (acc : nat -> nat -> C) (rh : nat -> Z) (mm : mem) (K : mem -> Prop).
Notation adr := (fun j => f + 1 * j).
Notation U := (hUrow t rh y).
Hypothesis HA0 : forall i c, i < l -> c < 1 -> mm (W + 1 * i + c) = Val (U i c).
Hypothesis HO0 : forall i c, i < l -> c < 1 -> outs adr 1 H (W + 1 * i + c).
Hypothesis Hal : forall j c, j < H -> c < 1 -> mm (f + 1 * j + c) <> Unalloc.
Lemma inj_f : injrows adr 1 H. Proof. apply buf_inj. lia. Qed.
Lemma bd u s : u < P -> s < e -> e * u + s < l /\ m * u + s < H /\ m * u + m <= m * P.
Proof.
  intros Hu Hs. pose proof (hrgI t Hwf Hq Hp) as Hg. assert (e * (u + 1) <= e * P) by (apply Nat.mul_le_mono_l; lia).
  assert (m * (u + 1) <= m * P) by (apply Nat.mul_le_mono_l; lia).
  assert (m * u <= m * (P - 1)) by (apply Nat.mul_le_mono_l; lia). rewrite (Nat.mul_comm m (P - 1)) in *.
  rewrite Nat.mul_add_distr_l in *. lia.
Qed.
Lemma bdr u s : 1 <= u < P -> s < m -> m * P - (m * u + s) < H /\ m0 <= m * u + s.
Proof.
  intros Hu Hs. pose proof (hrgI t Hwf Hq Hp) as Hg. assert (m * 1 <= m * u) by (apply Nat.mul_le_mono_l; lia). lia.
Qed.
(** the two indices of a body differ *)
Lemma bdne u s : u < P -> 1 <= s < me + 1 -> m * P - (m * u + s) <> m * u + s.
Proof.
  intros Hu Hs E. pose proof (hrgI t Hwf Hq Hp) as Hg. destruct (bd u 0 Hu ltac:(lia)) as (_ & _ & X).
  assert (Y : m * (2 * u) + 2 * s = m * P) by lia.
  destruct (Nat.le_gt_cases (2 * u + 1) P) as [Z|Z]; [destruct (Nat.eq_dec (2 * u + 1) P) as [E1|E1]|].
  - assert (m * (2 * u + 1) = m * P) by (f_equal; lia). rewrite Nat.mul_add_distr_l in *. lia.
  - assert (m * (2 * u + 2) <= m * P) by (apply Nat.mul_le_mono_l; lia). rewrite Nat.mul_add_distr_l in *. lia.
  - assert (m * P <= m * (2 * u)) by (apply Nat.mul_le_mono_l; lia). lia.
Qed.

Ltac wr0 j c := apply row_w1; [lia| |sal j c].
Ltac wr2 j j' c := apply row_w2; [lia|lia| | | |sal j c|sal j' c].
Ltac folds g :=
  destruct foldI_hyps as (X1 & X2 & X3 & X4 & X5);
  pose proof (fold_s2 m e P H X1 X2 X3 X4 X5 adr 1 g inj_f) as F2;
  pose proof (fold_s3 m e P H X1 X2 X3 X4 X5 adr 1 g inj_f) as F3;
  pose proof (lset_r3 m e P H X1 X2 X3 X4 X5 adr 1 g inj_f) as L3;
  pose proof (S4_0 m e H adr 1 g) as F4;
  pose proof (fold_mid m e P H X1 X2 X3 X4 X5 adr 1 g inj_f) as F5;
  pose proof (fold_even m e P H X1 X2 X3 X4 X5 adr 1 g) as F6;
  pose proof (fold_odd m e P H X1 X2 X3 X4 X5 adr 1 g) as F7; clear X1 X2 X3 X4 X5.

Lemma foldI_0_ok (g := fun j c => hsum t 1 rh y j c) : (forall b, rh b = 0%Z) ->
  (forall m', sets adr 1 g H mm m' -> K m') -> WP (foldI_0 f W) mm K.
Proof.
  intros Hrh HK. pose proof (hrgI t Hwf Hq Hp) as Hg. unfold foldI_0. cbv zeta.
  assert (G0 : forall u s c, u < P -> s < e -> g (m * u + s) c = U (e * u + s) c).
  { intros u s c Hu Hs. unfold g. rewrite (hsum_direct t Hwf Hq) by assumption. cbn [Csum]. rewrite Hrh, Z.mul_0_l, zeta_0, Cconj_C1, cc0. ring. }
  assert (G1 : forall u s c, u < P -> s < e -> m0 <= m * u + s -> g (m * P - (m * u + s)) c = Cconj (U (e * u + s) c)).
  { intros u s c Hu Hs Hx. unfold g. rewrite (hsum_reflect t Hwf Hq) by lia. cbn [Csum]. rewrite Hrh, Z.mul_0_l, !zeta_0, Cconj_C1, cc0. rewrite !Cmul_1_l. ring. }
  clearbody g.
  assert (Z0 : forall s, m * 0 + s = s) by (intros; lia). assert (Z1 : forall s, e * 0 + s = s) by (intros; lia).
  pose proof (G0 0) as G00. pose proof (G1 0) as G10. setoid_rewrite Z0 in G00. setoid_rewrite Z0 in G10. setoid_rewrite Z1 in G00. setoid_rewrite Z1 in G10.
  assert (Hel : e <= l) by nia.
  folds g. pose proof (WP_pfx1 adr 1 g H inj_f) as HL.
  apply WP_seq. eapply HL; [lia|apply pfx1_nil| |].
  { intros s Hs. apply lset_one; [reflexivity|]. rdW HA0 HO0 s 0. wr0 s 0. rewrite G00 by lia. reflexivity. }
  intros m2 H2. apply WP_seq. eapply F2; [exact H2| |].
  { intros s Hs. apply lset_two; [reflexivity|]. rdW HA0 HO0 s 0. wr2 s (m * P - s) 0; [lia|rewrite G00 by lia; reflexivity|rewrite G10 by lia; reflexivity]. }
  intros m3 H3. apply WP_seq. eapply F3; [exact H3| |].
  { intros u Hu.
    eapply (L3 u (x <- W + u * e ;; f + u * m ::= x ;; Ret)); [lia| |].
    - apply lset_one; [reflexivity|]. destruct (bd u 0 ltac:(lia) ltac:(lia)) as (B1 & B2 & B3). rdW HA0 HO0 (e * u + 0) 0. wr0 (m * u) 0.
      rewrite <- G0 by lia. f_equal. lia.
    - intros s Hs. apply lset_two; [reflexivity|]. destruct (bd u s ltac:(lia) ltac:(lia)) as (B1 & B2 & B3). destruct (bdr u s Hu ltac:(lia)) as (B4 & B5).
      pose proof (bdne u s ltac:(lia) Hs) as B6.
      rdW HA0 HO0 (e * u + s) 0. wr2 (m * u + s) (m * P - (m * u + s)) 0; [lia|rewrite G0 by lia; reflexivity|rewrite G1 by lia; reflexivity]. }
  intros m4 H4. destruct (Nat.eqb_spec m (2 * (e - 1))) as [Ev|Od].
  - apply F4 in H4. eapply F5; [exact Ev|lia|lia|exact H4| |].
    + intros u Hu. apply lset_one; [reflexivity|]. destruct (bd u (e - 1) ltac:(lia) ltac:(lia)) as (B1 & B2 & B3).
      rdW HA0 HO0 (e * u + (e - 1)) 0. wr0 (m * u + (e - 1)) 0. rewrite G0 by lia. reflexivity.
    + intros m5 H5. apply HK, F6. exact H5.
  - apply WP_skip. apply HK. eapply F7; [assumption|exact H4].
Qed.

Hypothesis HA1 : forall i c, i < l -> c < 1 -> mm (V + 1 * i + c) = Val (U (l + i) c).
Hypothesis HO1 : forall i c, i < l -> c < 1 -> outs adr 1 H (V + 1 * i + c).
Ltac rdV i c := match goal with |- wpe _ _ (Rd ?a ?k) _ =>
  eapply (grb _ _ _ (fun i0 c0 => U (l + i0) c0) _ _ _ _ a i c k HA1 HO1); [lia|lia|lia|] end.
Ltac swp := eapply lset_iff; [intros ?i; rewrite or_comm; reflexivity|].

Lemma foldI_h_ok (g := fun j c => hsum t 2 rh y j c) : n mod 2 = 0 -> rh 0 = 0%Z -> rh 1 = Z.of_nat (n / 2) ->
  (forall m', sets adr 1 g H mm m' -> K m') -> WP (foldI_h f W V) mm K.
Proof.
  intros Hn R0 R1 HK. pose proof (hrgI t Hwf Hq Hp) as Hg. unfold foldI_h. cbv zeta.
  assert (Hn2 : 1 <= n / 2 < n) by (pose proof (Nat.div_mod n 2 ltac:(lia)); lia).
  assert (Hz : zeta n (Z.of_nat (n / 2)) = Copp C1).
  { pose proof (hz_half t Hwf Hq Hp Hn) as E. rewrite zeta_neg in E. rewrite <- (Cconj_conj (zeta n (Z.of_nat (n / 2)))), E. apply C_ext; cbn; ring. }
  assert (G0 : forall u s c, u < P -> s < e -> g (m * u + s) c = (U (e * u + s) c + Cconj (zeta q (Z.of_nat (n / 2) * Z.of_nat u)) * U (l + (e * u + s)) c)%C).
  { intros u s c Hu Hs. unfold g. rewrite (hsum_direct t Hwf Hq) by assumption. cbn [Csum]. rewrite R0, R1, Z.mul_0_l, zeta_0, Cconj_C1, cc0, cc1. ring. }
  assert (G1 : forall u s c, u < P -> s < e -> m0 <= m * u + s -> g (m * P - (m * u + s)) c =
    Cconj (U (e * u + s) c - Cconj (zeta q (Z.of_nat (n / 2) * Z.of_nat u)) * U (l + (e * u + s)) c)%C).
  { intros u s c Hu Hs Hx. unfold g. rewrite (hsum_reflect t Hwf Hq) by lia. cbn [Csum]. rewrite R0, R1, Z.mul_0_l, !zeta_0, Cconj_C1, cc0, cc1, Hz. apply C_ext; cbn; ring. }
  clearbody g.
  assert (G00 : forall s c, s < e -> g s c = (U s c + U (l + s) c)%C).
  { intros s c Hs. pose proof (G0 0 s c ltac:(lia) Hs) as E. rewrite !Nat.mul_0_r, Z.mul_0_r, zeta_0, Cconj_C1 in E. cbn [Nat.add] in E. rewrite E. ring. }
  assert (G10 : forall s c, m0 <= s < e -> g (m * P - s) c = Cconj (U s c - U (l + s) c)%C).
  { intros s c Hs. pose proof (G1 0 s c ltac:(lia)) as E. rewrite !Nat.mul_0_r, Z.mul_0_r, zeta_0, Cconj_C1 in E. cbn [Nat.add] in E. rewrite E by lia. f_equal. ring. }
  assert (Hel : e <= l) by nia.
  folds g. pose proof (WP_pfx1 adr 1 g H inj_f) as HL.
  apply WP_seq. eapply HL; [lia|apply pfx1_nil| |].
  { intros s Hs. apply lset_one; [reflexivity|]. rdW HA0 HO0 s 0. rdV s 0. wr0 s 0. rewrite G00 by lia. reflexivity. }
  intros m2 H2. apply WP_seq. eapply F2; [exact H2| |].
  { intros s Hs. swp. apply lset_two; [reflexivity|]. rdW HA0 HO0 s 0. rdV s 0.
    wr2 (m * P - s) s 0; [lia|rewrite G10 by lia; reflexivity|rewrite G00 by lia; reflexivity]. }
  intros m3 H3. apply WP_seq. eapply F3; [exact H3| |].
  { intros u Hu. eapply lset_tget; [apply (hzqp t Hq); lia|].
    set (z := zeta q (Z.of_nat (n / 2) * Z.of_nat u)) in *.
    eapply (L3 u (x <- W + u * e ;; y <- V + u * e ;; f + u * m ::= vadd x (ZMULTxy (UNPACKL z z) (UNPACKH (vneg z) z) y) ;; Ret)); [lia| |].
    - apply lset_one; [reflexivity|]. destruct (bd u 0 ltac:(lia) ltac:(lia)) as (B1 & B2 & B3). rdW HA0 HO0 (e * u + 0) 0. rdV (e * u + 0) 0. wr0 (m * u) 0.
      rewrite vadd_eq, ZMULTxy_conj_eq. unfold z. rewrite <- G0 by lia. f_equal. lia.
    - intros s Hs. swp. apply lset_two; [reflexivity|]. destruct (bd u s ltac:(lia) ltac:(lia)) as (B1 & B2 & B3). destruct (bdr u s Hu ltac:(lia)) as (B4 & B5).
      pose proof (bdne u s ltac:(lia) Hs) as B6.
      rdW HA0 HO0 (e * u + s) 0. rdV (e * u + s) 0.
      wr2 (m * P - (m * u + s)) (m * u + s) 0; [lia|rewrite G1 by lia; rewrite CONJ_eq, vsub_eq, ZMULTxy_conj_eq; reflexivity|rewrite G0 by lia; rewrite vadd_eq, ZMULTxy_conj_eq; reflexivity]. }
  intros m4 H4. destruct (Nat.eqb_spec m (2 * (e - 1))) as [Ev|Od].
  - apply F4 in H4. apply WP_seq. match goal with |- WP (Do ?p) _ _ => change (Do p) with (ParFor 0 1 (fun _ => p)) end.
    eapply F5; [exact Ev|lia|lia|exact H4| |].
    + intros u Hu. assert (u = 0) by lia. subst u. destruct (bd 0 (e - 1) ltac:(lia) ltac:(lia)) as (B1 & B2 & B3). apply lset_one; [reflexivity|].
      rdW HA0 HO0 (e - 1) 0. rdV (e - 1) 0. wr0 (m * 0 + (e - 1)) 0. rewrite Nat.mul_0_r. cbn [Nat.add]. rewrite G00 by lia. reflexivity.
    + intros m5 H5. eapply F5; [exact Ev|lia|lia|exact H5| |].
      * intros u Hu. apply lset_one; [reflexivity|]. destruct (bd u (e - 1) ltac:(lia) ltac:(lia)) as (B1 & B2 & B3).
        rdW HA0 HO0 (e * u + (e - 1)) 0. eapply wpe_tget; [apply (hzqp t Hq); lia|]. rdV (e * u + (e - 1)) 0. wr0 (m * u + (e - 1)) 0. rewrite G0 by lia. reflexivity.
      * intros m6 H6. apply HK, F6. exact H6.
  - apply WP_skip. apply HK. eapply F7; [assumption|exact H4].
Qed.

Hypothesis Hacc : forall j c, j < H -> c < 1 -> mm (f + 1 * j + c) = Val (acc j c).
Ltac rdf j c := eapply row_r1; [|apply (acc_at _ _ _ _ _ _ _ j c Hacc); lia|]; [lia|].
Lemma zx_c z w : ZMULTxy (UNPACKL z z) (vneg (UNPACKH z (vneg z))) w = (Cconj z * w)%C.
Proof. vec. Qed.
Lemma foldI_r_ok r (g := fun j c => Cadd (acc j c) (hsum t 2 rh y j c)) : 1 <= r < n -> rh 0 = Z.of_nat r -> rh 1 = (- Z.of_nat r)%Z ->
  (forall m', sets adr 1 g H mm m' -> K m') -> WP (foldI_r f W V r (zeta n (Z.of_nat r))) mm K.
Proof.
  intros Hr R0 R1 HK. pose proof (hrgI t Hwf Hq Hp) as Hg. unfold foldI_r. cbv zeta.
  assert (Zm : forall k a, zeta k (- a) = Cconj (zeta k a)) by (intros; apply zeta_neg).
  assert (G0 : forall u s c, u < P -> s < e -> g (m * u + s) c = (acc (m * u + s)%nat c + (zeta q (Z.of_nat r * Z.of_nat u) * U (l + (e * u + s)) c + Cconj (zeta q (Z.of_nat r * Z.of_nat u)) * U (e * u + s) c))%C).
  { intros u s c Hu Hs. unfold g. rewrite (hsum_direct t Hwf Hq) by assumption. cbn [Csum]. rewrite R0, R1, cc0, cc1, Z.mul_opp_l, Zm, Cconj_conj. ring. }
  assert (G1 : forall u s c, u < P -> s < e -> m0 <= m * u + s -> g (m * P - (m * u + s)) c = (acc (m * P - (m * u + s))%nat c +
    Cconj (Cconj (zeta q (Z.of_nat r * Z.of_nat u)) * zeta n (Z.of_nat r) * U (e * u + s) c + Cconj (Cconj (zeta q (Z.of_nat r * Z.of_nat u)) * zeta n (Z.of_nat r)) * U (l + (e * u + s)) c))%C).
  { intros u s c Hu Hs Hx. unfold g. rewrite (hsum_reflect t Hwf Hq) by lia. cbn [Csum]. rewrite R0, R1, cc0, cc1, Z.mul_opp_l, !Zm. apply C_ext; cbn; ring. }
  clearbody g.
  assert (G00 : forall s c, s < e -> g s c = (acc s c + (U s c + U (l + s) c))%C).
  { intros s c Hs. pose proof (G0 0 s c ltac:(lia) Hs) as E. rewrite !Nat.mul_0_r, Z.mul_0_r, zeta_0, Cconj_C1 in E. cbn [Nat.add] in E. rewrite E. ring. }
  assert (G10 : forall s c, m0 <= s < e -> g (m * P - s) c = (acc (m * P - s)%nat c + Cconj (zeta n (Z.of_nat r) * U s c + Cconj (zeta n (Z.of_nat r)) * U (l + s) c))%C).
  { intros s c Hs. pose proof (G1 0 s c ltac:(lia)) as E. rewrite !Nat.mul_0_r, Z.mul_0_r, zeta_0, Cconj_C1 in E. cbn [Nat.add] in E. rewrite E by lia. rewrite !Cmul_1_l. reflexivity. }
  assert (Hel : e <= l) by nia.
  folds g. pose proof (WP_pfx1 adr 1 g H inj_f) as HL.
  apply WP_seq. eapply HL; [lia|apply pfx1_nil| |].
  { intros s Hs. apply lset_one; [reflexivity|]. rdf s 0. rdW HA0 HO0 s 0. rdV s 0. wr0 s 0. rewrite G00 by lia. reflexivity. }
  intros m2 H2. apply WP_seq. eapply F2; [exact H2| |].
  { intros s Hs. swp. apply lset_two; [reflexivity|]. rdW HA0 HO0 s 0. rdV s 0.
    eapply row_r2a; [|apply (acc_at _ _ _ _ _ _ _ (m * P - s) 0 Hacc); lia|]; [lia|].
    eapply row_w2r; [lia|lia|lia| | |sal (m * P - s) 0|apply (acc_at _ _ _ _ _ _ _ s 0 Hacc); lia].
    - rewrite G10 by lia. rewrite vadd_eq, CONJ_eq, zm2_p. reflexivity.
    - rewrite G00 by lia. cbv beta. rewrite vadd_eq, (vadd_eq (acc s 0)). ring. }
  intros m3 H3. apply WP_seq. eapply F3; [exact H3| |].
  { intros u Hu. eapply lset_tget; [apply (hzqp t Hq); lia|].
    set (z := zeta q (Z.of_nat r * Z.of_nat u)) in *.
    eapply (L3 u (y0 <- f + u * m ;; v0 <- V + u * e ;; x0 <- W + u * e ;; f + u * m ::= vadd y0 (ZMULT2xy (UNPACKL z z) (UNPACKH z (vneg z)) v0 x0) ;; Ret)); [lia| |].
    - apply lset_one; [reflexivity|]. destruct (bd u 0 ltac:(lia) ltac:(lia)) as (B1 & B2 & B3). rdf (m * u) 0. rdV (e * u + 0) 0. rdW HA0 HO0 (e * u + 0) 0. wr0 (m * u) 0.
      rewrite vadd_eq, zm2_p. pose proof (G0 u 0 0 ltac:(lia) ltac:(lia)) as E. rewrite Nat.add_0_r in E. rewrite E, Nat.add_0_r. reflexivity.
    - intros s Hs. swp. apply lset_two; [reflexivity|]. destruct (bd u s ltac:(lia) ltac:(lia)) as (B1 & B2 & B3). destruct (bdr u s Hu ltac:(lia)) as (B4 & B5).
      pose proof (bdne u s ltac:(lia) Hs) as B6.
      rdW HA0 HO0 (e * u + s) 0. rdV (e * u + s) 0.
      eapply row_r2a; [|apply (acc_at _ _ _ _ _ _ _ (m * P - (m * u + s)) 0 Hacc); lia|]; [lia|].
      eapply row_w2r; [lia|lia|lia| | |sal (m * P - (m * u + s)) 0|apply (acc_at _ _ _ _ _ _ _ (m * u + s) 0 Hacc); lia].
      + rewrite G1 by lia. rewrite vadd_eq, CONJ_eq, zm2_p, zx_c. reflexivity.
      + rewrite G0 by lia. rewrite vadd_eq, zm2_p. reflexivity. }
  intros m4 H4. destruct (Nat.eqb_spec m (2 * (e - 1))) as [Ev|Od].
  - apply F4 in H4. apply WP_seq. match goal with |- WP (Do ?p) _ _ => change (Do p) with (ParFor 0 1 (fun _ => p)) end.
    eapply F5; [exact Ev|lia|lia|exact H4| |].
    + intros u Hu. assert (u = 0) by lia. subst u. destruct (bd 0 (e - 1) ltac:(lia) ltac:(lia)) as (B1 & B2 & B3). apply lset_one; [reflexivity|]. rdf (m * 0 + (e - 1)) 0.
      rdW HA0 HO0 (e - 1) 0. rdV (e - 1) 0. wr0 (m * 0 + (e - 1)) 0. rewrite !Nat.mul_0_r. cbn [Nat.add]. rewrite G00 by lia. reflexivity.
    + intros m5 H5. eapply F5; [exact Ev|lia|lia|exact H5| |].
      * intros u Hu. apply lset_one; [reflexivity|]. destruct (bd u (e - 1) ltac:(lia) ltac:(lia)) as (B1 & B2 & B3).
        eapply wpe_tget; [apply (hzqp t Hq); lia|]. rdf (m * u + (e - 1)) 0. rdV (e * u + (e - 1)) 0. rdW HA0 HO0 (e * u + (e - 1)) 0. wr0 (m * u + (e - 1)) 0.
        rewrite G0 by lia. rewrite vadd_eq, zm2_p. reflexivity.
      * intros m6 H6. apply HK, F6. exact H6.
  - apply WP_skip. apply HK. eapply F7; [assumption|exact H4].
Qed.
End Pieces.
End T.
