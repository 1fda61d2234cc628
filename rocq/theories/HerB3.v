(** Hermitian backward transforms, p=2: writing f. *)
From Coq Require Import Reals ZArith Arith Lia List Bool.
From Verif Require Import CNum Sums Roots Mem VecModel VecProofs PadModel PadKernels Loops
  PadLemmas PadMath PadGeom Fwd1 PadForward Fill CenModel CenMath CenGeom CenFft CenF2 CenPass CenStage CenTw CenFI
  CenBack CenB2 CenBPass CenBwd2 CenBI HerModel HerSpec HerMath HerFft HerGeom HerF2 HerFI HerForward HerB1 HerB2.

(** reading the work array while rows of f are written *)
Lemma grb adr CC N (A : nat -> nat -> C) (m : mem) W lw Y a i c k :
  (forall i c, i < lw -> c < CC -> m (W + CC * i + c) = Val (A i c)) ->
  (forall i c, i < lw -> c < CC -> outs adr CC N (W + CC * i + c)) ->
  i < lw -> c < CC -> a = W + CC * i + c ->
  wpe (outs adr CC N) Y (k (A i c)) m -> wpe (outs adr CC N) Y (Rd a k) m.
Proof. intros HA HO Hi Hc -> Hk. eapply wpe_rd; [left; apply HO; assumption|apply HA; assumption|assumption]. Qed.
Ltac rdW HA HO i c := eapply (grb _ _ _ _ _ _ _ _ _ i c _ HA HO); [lia|lia|lia|].
(** second block: rows l + i *)
Lemma zm2_c z w v : ZMULT2xy (UNPACKL z (vneg z)) (UNPACKH z z) w v = Cconj (z * w + Cconj z * v)%C.
Proof. vec. Qed.
Lemma zm2_p z w v : ZMULT2xy (UNPACKL z z) (UNPACKH z (vneg z)) w v = (z * w + Cconj z * v)%C.
Proof. vec. Qed.
Lemma zeta_4_1 : zeta 4 1 = Ci.
Proof.
  unfold zeta. apply C_ext; cbn [re im Ci]; rewrite ?INR_IZR_INZ; cbn [Z.of_nat Pos.of_succ_nat Pos.succ].
  - replace (2 * PI * IZR 1 / IZR 4)%R with (PI / 2)%R by field. apply cos_PI2.
  - replace (2 * PI * IZR 1 / IZR 4)%R with (PI / 2)%R by field. apply sin_PI2.
Qed.

Section T.
Variable t : pad.
Hypothesis Hwf : hwf t.
Hypothesis Hq : kq t <> 1.
Hypothesis Hp : kp t = 2.
Notation m := (am t). Notation q := (kq t).   Notation n := (kn t).   Notation M := (kM t).
Notation e := (he t). Notation H := (hH t). Notation P := (hP t).
Notation me := (m - e).

Lemma b2_dir nb rh y s c : s < e ->
  hsum t nb rh y s c = Csum nb (fun b => Cconj (zeta M (rh b * Z.of_nat s)) * hrow t y (e * b + s) c)%C.
Proof.
  intros Hs. pose proof (hP2 t Hq Hp) as HP. pose proof (hsum_direct t Hwf Hq nb rh y 0 s c ltac:(lia) Hs) as E.
  rewrite !Nat.mul_0_r in E. cbn [Nat.add] in E. rewrite E. apply Csum_ext. intros b Hb.
  rewrite Z.mul_0_r, zeta_0. rewrite (hUrow_1 t Hwf Hq) by assumption. rewrite HP, Nat.mul_1_r.
  rewrite (Cconj_C1). ring.
Qed.
Lemma b2_ref nb rh y s c : s < e -> m - H + 1 <= s ->
  hsum t nb rh y (m - s) c = Csum nb (fun b => Cconj (zeta M (rh b * (Z.of_nat m - Z.of_nat s)) * hrow t y (e * b + s) c))%C.
Proof.
  intros Hs Hs0. pose proof (hP2 t Hq Hp) as HP. pose proof (hrg2 t Hwf Hq Hp) as Hg.
  pose proof (hsum_reflect t Hwf Hq nb rh y 0 s c ltac:(lia) Hs) as E.
  rewrite !Nat.mul_0_r, HP, !Nat.mul_1_r in E. cbn [Nat.add] in E. rewrite E by lia. apply Csum_ext. intros b Hb.
  rewrite Z.mul_0_r, zeta_0, Cconj_C1. pose proof (hUrow_1 t Hwf Hq rh y b s c HP Hs) as E1. rewrite HP, Nat.mul_1_r in E1. rewrite E1.
  assert (E2 : zeta M (rh b * (Z.of_nat m - Z.of_nat s)) = (zeta n (rh b) * Cconj (zeta M (rh b * Z.of_nat s)))%C).
  { rewrite <- zeta_neg. rewrite (hM2 t Hwf Hq Hp).
    assert (E3 : zeta n (rh b) = zeta (m * n) (Z.of_nat m * rh b)) by (symmetry; apply zeta_cancel; lia).
    rewrite E3, <- zeta_add. f_equal. lia. }
  rewrite E2. f_equal. ring.
Qed.
(** the middle frequency of the residue n/2 *)
Lemma hmid_Ci : n mod 2 = 0 -> m = 2 * (e - 1) -> zeta M (Z.of_nat (n / 2) * Z.of_nat (e - 1)) = Ci.
Proof.
  intros Hn Hm. pose proof (hrg2 t Hwf Hq Hp) as Hg. rewrite (hM2 t Hwf Hq Hp).
  pose proof (Nat.div_mod n 2 ltac:(lia)) as En. rewrite Hn, Nat.add_0_r in En.
  rewrite <- zeta_4_1. rewrite <- Nat2Z.inj_mul.
  assert (E : m * n = (n / 2 * (e - 1)) * 4) by (rewrite En at 1; rewrite Hm at 1; ring).
  rewrite E. replace (Z.of_nat (n / 2 * (e - 1))) with (Z.of_nat (n / 2 * (e - 1)) * 1)%Z by lia.
  apply zeta_cancel; [|lia]. assert (1 * 1 <= n / 2 * (e - 1)) by (apply Nat.mul_le_mono; lia). lia.
Qed.
Lemma fold_hyps : 1 <= 1 /\ 1 <= m /\ (m < 2 * e /\ 2 * e <= m + 2 /\ 1 <= e <= m) /\
  ((1 - 1) * m + e <= H /\ H <= m * 1) /\ 2 * (m * 1 - H + 1) <= m + 1.
Proof. pose proof (hrg2 t Hwf Hq Hp) as Hg. lia. Qed.

(** residue 0 alone (q odd) *)
Definition fold2_0 (CC f W : nat) : cmd C :=
  if CC =? 1 then
      Seq (ParFor 0 (m - H + 1) (fun s => x <- W + s ;; f + s ::= x ;; Ret))
     (Seq (ParFor (m - H + 1) (me + 1) (fun s => A <- W + s ;; f + s ::= A ;; f + m - s ::= Cconj A ;; Ret))
          (if m =? 2 * (e - 1) then Do (x <- W + (e - 1) ;; f + (e - 1) ::= x ;; Ret) else Skip))
  else
      Seq (ParFor 0 (m - H + 1) (fun s => pForR 0 CC (fun c => x <- W + CC * s + c ;; f + CC * s + c ::= x ;; Ret)))
     (Seq (ParFor (m - H + 1) (me + 1) (fun s =>
             pForR 0 CC (fun c => A <- W + CC * s + c ;; f + CC * s + c ::= A ;; f + CC * m - CC * s + c ::= Cconj A ;; Ret)))
          (if m =? 2 * (e - 1) then ParFor 0 CC (fun c => x <- W + CC * (e - 1) + c ;; f + CC * (e - 1) + c ::= x ;; Ret) else Skip)).
(** residues 0 and n/2 *)
Definition fold2_h (CC f W V : nat) : cmd C :=
  let Zr := m * (q / 2) in
  if CC =? 1 then
      Seq (Do (x <- W ;; y <- V ;; f ::= Cadd x y ;; Ret))
     (Seq (ParFor 1 (m - H + 1) (fun s => x <- W + s ;; z <~ (hZqm t) [Zr + s] ;; y <- V + s ;;
             f + s ::= Cadd x (Cmul (Cconj z) y) ;; Ret))
     (Seq (ParFor (m - H + 1) (me + 1) (fun s => A <- W + s ;; z <~ (hZqm t) [Zr + s] ;; y <- V + s ;;
             let B := Cmul (Cconj z) y in
             f + s ::= Cadd A B ;; f + m - s ::= Cconj (Csub A B) ;; Ret))
          (if m =? 2 * (e - 1) then Do (x <- W + (e - 1) ;; y <- V + (e - 1) ;;
             f + (e - 1) ::= Csub x (Cmul Ci y) ;; Ret) else Skip)))
  else
      Seq (ParFor 0 CC (fun c => x <- W + c ;; y <- V + c ;; f + c ::= Cadd x y ;; Ret))
     (Seq (ParFor 1 (m - H + 1) (fun s =>
             z <~ (hZqm t) [Zr + s] ;; let Zetars := Cconj z in
             pForR 0 CC (fun c => x <- W + CC * s + c ;; y <- V + CC * s + c ;; f + CC * s + c ::= Cadd x (Cmul Zetars y) ;; Ret)))
     (Seq (ParFor (m - H + 1) (me + 1) (fun s =>
             z <~ (hZqm t) [Zr + s] ;; let Zetars := Cconj z in
             pForR 0 CC (fun c => A <- W + CC * s + c ;; y <- V + CC * s + c ;;
               let B := Cmul Zetars y in
               f + CC * s + c ::= Cadd A B ;; f + CC * m - CC * s + c ::= Cconj (Csub A B) ;; Ret)))
          (if m =? 2 * (e - 1) then ParFor 0 CC (fun c => x <- W + CC * (e - 1) + c ;; y <- V + CC * (e - 1) + c ;;
             f + CC * (e - 1) + c ::= Csub x (Cmul Ci y) ;; Ret) else Skip))).
(** residues r and -r *)
Definition fold2_r (CC f W V r : nat) : cmd C :=
  let Zr := m * r in
  let Zrm := Zr + m in
  if CC =? 1 then
    Seq (Do (y <- f ;; x <- W ;; v <- V ;; f ::= Cadd y (Cadd x v) ;; Ret))
   (Seq (ParFor 1 (m - H + 1) (fun s => y <- f + s ;; z <~ (hZqm t) [Zr + s] ;; v <- V + s ;; x <- W + s ;;
           f + s ::= vadd y (ZMULT2 z v x) ;; Ret))
   (Seq (ParFor (m - H + 1) (me + 1) (fun s => Zeta <~ (hZqm t) [Zr + s] ;; Zetam <~ (hZqm t) [Zrm - s] ;;
           Ws <- W + s ;; Vs <- V + s ;; y <- f + s ;;
           f + s ::= vadd y (ZMULT2 Zeta Vs Ws) ;;
           y' <- f + m - s ;; f + m - s ::= vadd y' (CONJ (ZMULT2 Zetam Ws Vs)) ;; Ret))
        (if m =? 2 * (e - 1) then Do (y <- f + e - 1 ;; z <~ (hZqm t) [Zr + e - 1] ;; v <- V + e - 1 ;; x <- W + e - 1 ;;
           f + e - 1 ::= vadd y (ZMULT2 z v x) ;; Ret) else Skip)))
  else
    Seq (ParFor 0 CC (fun c => y <- f + c ;; x <- W + c ;; v <- V + c ;; f + c ::= Cadd y (Cadd x v) ;; Ret))
   (Seq (ParFor 1 (m - H + 1) (fun s =>
           Zeta <~ (hZqm t) [Zr + s] ;;
           pForR 0 CC (fun c => y <- f + CC * s + c ;; v <- V + CC * s + c ;; x <- W + CC * s + c ;;
             f + CC * s + c ::= vadd y (ZMULT2 Zeta v x) ;; Ret)))
   (Seq (ParFor (m - H + 1) (me + 1) (fun s =>
           Zeta <~ (hZqm t) [Zr + s] ;;
           let X := UNPACKL Zeta Zeta in let Y := UNPACKH Zeta (vneg Zeta) in
           Zetam <~ (hZqm t) [Zrm - s] ;;
           let Xm := UNPACKL Zetam (vneg Zetam) in let Ym := UNPACKH Zetam Zetam in
           pForR 0 CC (fun c => Wsc <- W + CC * s + c ;; Vsc <- V + CC * s + c ;; y <- f + CC * s + c ;;
             f + CC * s + c ::= vadd y (ZMULT2xy X Y Vsc Wsc) ;;
             y' <- f + CC * m - CC * s + c ;; f + CC * m - CC * s + c ::= vadd y' (ZMULT2xy Xm Ym Wsc Vsc) ;; Ret)))
        (if m =? 2 * (e - 1) then
           Zeta <== (hZqm t) [Zr + e - 1] ;;;
           let X := UNPACKL Zeta Zeta in let Y := UNPACKH Zeta (vneg Zeta) in
           ParFor 0 CC (fun c => y <- f + CC * (e - 1) + c ;; v <- V + CC * (e - 1) + c ;; x <- W + CC * (e - 1) + c ;;
             f + CC * (e - 1) + c ::= vadd y (ZMULT2xy X Y v x) ;; Ret)
         else Skip))).

Section Pieces.
Variables (CC f W V : nat) (y : nat -> nat -> nat -> R) (acc : nat -> nat -> C) (mm : mem) (K : mem -> Prop).
Notation adr := (fun j => f + CC * j).
Hypothesis HCC : 1 <= CC.
Hypothesis HA0 : forall i c, i < e -> c < CC -> mm (W + CC * i + c) = Val (hrow t y i c).
Hypothesis HO0 : forall i c, i < e -> c < CC -> outs adr CC H (W + CC * i + c).
Hypothesis Hal : forall j c, j < H -> c < CC -> mm (f + CC * j + c) <> Unalloc.

Ltac wr0 j c := apply row_w1; [lia| |sal j c].
Ltac wr2 j j' c := apply row_w2; [lia|lia| | | |sal j c|sal j' c].

Ltac folds Hinj g := 
  destruct fold_hyps as (X1 & X2 & X3 & X4 & X5);
  pose proof (fold_s2 m e 1 H X1 X2 X3 X4 X5 adr CC g Hinj) as F2; rewrite Nat.mul_1_r in F2;
  pose proof (S3_P1 m e 1 H X1 X2 X3 X4 X5 adr CC g) as F3;
  pose proof (S4_0 m e H adr CC g) as F4;
  pose proof (fold_mid m e 1 H X1 X2 X3 X4 X5 adr CC g Hinj 0 1) as F5;
  pose proof (fold_even m e 1 H X1 X2 X3 X4 X5 adr CC g) as F6;
  pose proof (fold_odd m e 1 H X1 X2 X3 X4 X5 adr CC g) as F7;
  pose proof (fold_mid_cols m e 1 H X1 X2 X3 X4 X5 adr CC g Hinj) as F8; clear X1 X2 X3 X4 X5.

Lemma fold2_0_ok (g := fun j c => hsum t 1 (fun _ => 0%Z) y j c) :
  (forall m', sets adr CC g H mm m' -> K m') -> WP (fold2_0 CC f W) mm K.
Proof.
  intros HK. pose proof (hrg2 t Hwf Hq Hp) as Hg. unfold fold2_0.
  assert (Hinj : injrows adr CC H) by (apply buf_inj; lia).
  assert (G0 : forall s c, s < e -> g s c = hrow t y s c).
  { intros s c Hs. unfold g. rewrite b2_dir by assumption. cbn [Csum]. rewrite Nat.mul_0_r, Z.mul_0_l, zeta_0, Cconj_C1. cbn [Nat.add]. ring. }
  assert (G1 : forall s c, m - H + 1 <= s < e -> g (m - s) c = Cconj (hrow t y s c)).
  { intros s c Hs. unfold g. rewrite b2_ref by lia. cbn [Csum]. rewrite Nat.mul_0_r, Z.mul_0_l, zeta_0. cbn [Nat.add]. rewrite Cmul_1_l. ring. }
  clearbody g. folds Hinj g.
  pose proof (WP_pfx1 adr CC g H Hinj) as HL.
  destruct (Nat.eqb_spec CC 1) as [EC|HC].
  - clear HCC. rewrite EC in *.
    apply WP_seq. eapply HL; [lia|apply pfx1_nil| |].
    { intros s Hs. apply lset_one; [reflexivity|]. rdW HA0 HO0 s 0. wr0 s 0. rewrite G0 by lia. reflexivity. }
    intros m2 H2. apply WP_seq. eapply F2; [exact H2| |].
    { intros s Hs. apply lset_two; [reflexivity|]. rdW HA0 HO0 s 0. wr2 s (m - s) 0; [lia|rewrite G0 by lia; reflexivity|rewrite G1 by lia; reflexivity]. }
    intros m3 H3. apply F3 in H3; [|reflexivity]. destruct (Nat.eqb_spec m (2 * (e - 1))) as [Ev|Od].
    + apply F4 in H3. match goal with |- WP (Do ?p) _ _ => change (Do p) with (ParFor 0 1 (fun _ => p)) end.
      eapply F5; [exact Ev|lia|lia|exact H3| |].
      { intros u Hu. assert (u = 0) by lia. subst u. rewrite Nat.mul_0_r. cbn [Nat.add]. apply lset_one; [reflexivity|].
        rdW HA0 HO0 (e - 1) 0. wr0 (e - 1) 0. rewrite G0 by lia. reflexivity. }
      intros m4 H4. apply HK, F6. exact H4.
    + apply WP_skip. apply HK. eapply F7; [assumption|exact H3].
  - apply WP_seq. eapply HL; [lia|apply pfx1_nil| |].
    { intros s Hs. apply lset_cols1; [exact Hinj|lia|]. intros c Hc. rdW HA0 HO0 s c. wr0 s c. rewrite G0 by lia. reflexivity. }
    intros m2 H2. apply WP_seq. eapply F2; [exact H2| |].
    { intros s Hs. apply lset_cols2; [exact Hinj|lia|lia|]. intros c Hc. rdW HA0 HO0 s c.
      assert (CC * s <= CC * m) by (apply Nat.mul_le_mono_l; lia).
      assert (E : CC * (m - s) = CC * m - CC * s) by apply Nat.mul_sub_distr_l.
      assert (CC * (s + 1) <= CC * (m - s)) by (apply Nat.mul_le_mono_l; lia). rewrite Nat.mul_add_distr_l in *.
      wr2 s (m - s) c; [lia|rewrite G0 by lia; reflexivity|rewrite G1 by lia; reflexivity]. }
    intros m3 H3. apply F3 in H3; [|reflexivity]. destruct (Nat.eqb_spec m (2 * (e - 1))) as [Ev|Od].
    + eapply F8; [exact Ev|reflexivity|exact H3| |].
      { intros c Hc. rdW HA0 HO0 (e - 1) c. wr0 (e - 1) c. rewrite G0 by lia. reflexivity. }
      intros m4 H4. apply HK. exact H4.
    + apply WP_skip. apply HK. eapply F7; [assumption|exact H3].
Qed.

Hypothesis HA1 : forall i c, i < e -> c < CC -> mm (V + CC * i + c) = Val (hrow t y (e + i) c).
Hypothesis HO1 : forall i c, i < e -> c < CC -> outs adr CC H (V + CC * i + c).
Ltac rdV i c := match goal with |- wpe _ _ (Rd ?a ?k) _ =>
  eapply (grb _ _ _ (fun i0 c0 => hrow t y (e + i0) c0) _ _ _ _ a i c k HA1 HO1); [lia|lia|lia|] end.
Lemma fold2_h_ok (g := fun j c => hsum t 2 (rho2 0 (Z.of_nat (n / 2))) y j c) : n mod 2 = 0 ->
  (forall m', sets adr CC g H mm m' -> K m') -> WP (fold2_h CC f W V) mm K.
Proof.
  intros Hn HK. pose proof (hrg2 t Hwf Hq Hp) as Hg. unfold fold2_h. cbv zeta. rewrite (hq2 t Hwf Hq Hp).
  assert (Hq2 : 1 <= n / 2 /\ 2 * (n / 2) <= n).
  { pose proof (Nat.div_mod n 2 ltac:(lia)). lia. }
  assert (Hinj : injrows adr CC H) by (apply buf_inj; lia).
  assert (G0 : forall s c, s < e -> g s c = (hrow t y s c + Cconj (zeta M (Z.of_nat (n / 2) * Z.of_nat s)) * hrow t y (e + s) c)%C).
  { intros s c Hs. unfold g. rewrite b2_dir by assumption. cbn [Csum rho2 Nat.eqb]. rewrite Nat.mul_0_r, Nat.mul_1_r, Z.mul_0_l, zeta_0, Cconj_C1. cbn [Nat.add]. ring. }
  assert (G1 : forall s c, m - H + 1 <= s < e -> g (m - s) c = Cconj (hrow t y s c - Cconj (zeta M (Z.of_nat (n / 2) * Z.of_nat s)) * hrow t y (e + s) c)%C).
  { intros s c Hs. unfold g. rewrite b2_ref by lia. cbn [Csum rho2 Nat.eqb]. rewrite Nat.mul_0_r, Nat.mul_1_r, Z.mul_0_l, zeta_0. cbn [Nat.add].
    replace (Z.of_nat (n / 2) * (Z.of_nat m - Z.of_nat s))%Z with (- (Z.of_nat (n / 2) * (Z.of_nat s - Z.of_nat m)))%Z by lia.
    rewrite zeta_neg, (hhalf_m t Hwf Hq Hp) by assumption. apply C_ext; cbn; ring. }
  assert (G2 : forall c, m = 2 * (e - 1) -> g (e - 1) c = (hrow t y (e - 1) c - Ci * hrow t y (e + (e - 1)) c)%C).
  { intros c Ev. rewrite G0, hmid_Ci by lia. apply C_ext; cbn; ring. }
  assert (G3 : forall c, g 0 c = (hrow t y 0 c + hrow t y (e + 0) c)%C).
  { intros c. rewrite G0 by lia. rewrite Z.mul_0_r, zeta_0, Cconj_C1. ring. }
  clearbody g. folds Hinj g.
  pose proof (WP_pfx1 adr CC g H Hinj) as HL.
  destruct (Nat.eqb_spec CC 1) as [EC|HC].
  - clear HCC. rewrite EC in *.
    match goal with |- WP (Seq (Do ?p) _) _ _ => change (Do p) with (ParFor 0 1 (fun _ => p)) end.
    apply WP_seq. eapply HL; [lia|apply pfx1_nil| |].
    { intros s Hs. assert (s = 0) by lia. subst s. apply lset_one; [reflexivity|]. rdW HA0 HO0 0 0. rdV 0 0. wr0 0 0. rewrite G3. reflexivity. }
    intros m1 H1. apply WP_seq. eapply HL; [lia|exact H1| |].
    { intros s Hs. apply lset_one; [reflexivity|]. rdW HA0 HO0 s 0. eapply wpe_tget; [apply (hzqm_a t Hwf Hq Hp (n / 2) s); lia|]. rdV s 0.
      wr0 s 0. rewrite G0 by lia. reflexivity. }
    intros m2 H2. apply WP_seq. eapply F2; [exact H2| |].
    { intros s Hs. apply lset_two; [reflexivity|]. rdW HA0 HO0 s 0. eapply wpe_tget; [apply (hzqm_a t Hwf Hq Hp (n / 2) s); lia|]. rdV s 0.
      wr2 s (m - s) 0; [lia|rewrite G0 by lia; reflexivity|rewrite G1 by lia; reflexivity]. }
    intros m3 H3. apply F3 in H3; [|reflexivity]. destruct (Nat.eqb_spec m (2 * (e - 1))) as [Ev|Od].
    + apply F4 in H3. match goal with |- WP (Do ?p) _ _ => change (Do p) with (ParFor 0 1 (fun _ => p)) end.
      eapply F5; [exact Ev|lia|lia|exact H3| |].
      { intros u Hu. assert (u = 0) by lia. subst u. rewrite Nat.mul_0_r. cbn [Nat.add]. apply lset_one; [reflexivity|].
        rdW HA0 HO0 (e - 1) 0. rdV (e - 1) 0. wr0 (e - 1) 0. rewrite G2 by assumption. reflexivity. }
      intros m4 H4. apply HK, F6. exact H4.
    + apply WP_skip. apply HK. eapply F7; [assumption|exact H3].
  - apply WP_seq. eapply (WP_cols1 adr CC g H Hinj 0 (fun i => i < 0) (fun i => i < 1) _ mm); [apply pfx1_nil|lia|lia|lia|lia| |].
    { intros c Hc. rdW HA0 HO0 0 c. rdV 0 c. wr0 0 c. rewrite G3. reflexivity. }
    intros m1 H1. apply WP_seq. eapply HL; [lia|exact H1| |].
    { intros s Hs. eapply lset_tget; [apply (hzqm_a t Hwf Hq Hp (n / 2) s); lia|]. apply lset_cols1; [exact Hinj|lia|]. intros c Hc.
      rdW HA0 HO0 s c. rdV s c. wr0 s c. rewrite G0 by lia. reflexivity. }
    intros m2 H2. apply WP_seq. eapply F2; [exact H2| |].
    { intros s Hs. eapply lset_tget; [apply (hzqm_a t Hwf Hq Hp (n / 2) s); lia|]. apply lset_cols2; [exact Hinj|lia|lia|]. intros c Hc. rdW HA0 HO0 s c. rdV s c.
      assert (CC * s <= CC * m) by (apply Nat.mul_le_mono_l; lia).
      assert (E : CC * (m - s) = CC * m - CC * s) by apply Nat.mul_sub_distr_l.
      assert (CC * (s + 1) <= CC * (m - s)) by (apply Nat.mul_le_mono_l; lia). rewrite Nat.mul_add_distr_l in *.
      wr2 s (m - s) c; [lia|rewrite G0 by lia; reflexivity|rewrite G1 by lia; reflexivity]. }
    intros m3 H3. apply F3 in H3; [|reflexivity]. destruct (Nat.eqb_spec m (2 * (e - 1))) as [Ev|Od].
    + eapply F8; [exact Ev|reflexivity|exact H3| |].
      { intros c Hc. rdW HA0 HO0 (e - 1) c. rdV (e - 1) c. wr0 (e - 1) c. rewrite G2 by lia. reflexivity. }
      intros m4 H4. apply HK. exact H4.
    + apply WP_skip. apply HK. eapply F7; [assumption|exact H3].
Qed.

Hypothesis Hacc : forall j c, j < H -> c < CC -> mm (f + CC * j + c) = Val (acc j c).
Ltac rdf j c := eapply row_r1; [|apply (acc_at _ _ _ _ _ _ _ j c Hacc); lia|]; [lia|].
Lemma fold2_r_ok r (g := fun j c => Cadd (acc j c) (hsum t 2 (rho2 (Z.of_nat r) (- Z.of_nat r)) y j c)) : 1 <= r -> 2 * r <= n ->
  (forall m', sets adr CC g H mm m' -> K m') -> WP (fold2_r CC f W V r) mm K.
Proof.
  intros Hr1 Hr2 HK. pose proof (hrg2 t Hwf Hq Hp) as Hg. unfold fold2_r. cbv zeta.
  assert (Hinj : injrows adr CC H) by (apply buf_inj; lia).
  assert (G0 : forall s c, s < e -> g s c = (acc s c + (zeta M (Z.of_nat r * Z.of_nat s) * hrow t y (e + s) c + Cconj (zeta M (Z.of_nat r * Z.of_nat s)) * hrow t y s c))%C).
  { intros s c Hs. unfold g. rewrite b2_dir by assumption. cbn [Csum rho2 Nat.eqb]. rewrite Nat.mul_0_r, Nat.mul_1_r. cbn [Nat.add].
    rewrite <- (hcj_s t Hq Hp), Cconj_conj. ring. }
  assert (G1 : forall s c, m - H + 1 <= s < e -> g (m - s) c = (acc (m - s)%nat c +
    Cconj (zeta M (Z.of_nat r * (Z.of_nat m - Z.of_nat s)) * hrow t y s c + Cconj (zeta M (Z.of_nat r * (Z.of_nat m - Z.of_nat s))) * hrow t y (e + s) c))%C).
  { intros s c Hs. unfold g. rewrite b2_ref by lia. cbn [Csum rho2 Nat.eqb]. rewrite Nat.mul_0_r, Nat.mul_1_r. cbn [Nat.add].
    rewrite <- (hcj_s t Hq Hp). apply C_ext; cbn; ring. }
  assert (G3 : forall c, g 0 c = (acc 0%nat c + (hrow t y 0 c + hrow t y (e + 0) c))%C).
  { intros c. rewrite G0 by lia. rewrite Z.mul_0_r, zeta_0, Cconj_C1. ring. }
  clearbody g. folds Hinj g.
  pose proof (WP_pfx1 adr CC g H Hinj) as HL.
  destruct (Nat.eqb_spec CC 1) as [EC|HC].
  - clear HCC. rewrite EC in *.
    match goal with |- WP (Seq (Do ?p) _) _ _ => change (Do p) with (ParFor 0 1 (fun _ => p)) end.
    apply WP_seq. eapply HL; [lia|apply pfx1_nil| |].
    { intros s Hs. assert (s = 0) by lia. subst s. apply lset_one; [reflexivity|]. rdf 0 0. rdW HA0 HO0 0 0. rdV 0 0. wr0 0 0. rewrite G3. reflexivity. }
    intros m1 H1. apply WP_seq. eapply HL; [lia|exact H1| |].
    { intros s Hs. apply lset_one; [reflexivity|]. rdf s 0. eapply wpe_tget; [apply (hzqm_a t Hwf Hq Hp r s); lia|]. rdV s 0. rdW HA0 HO0 s 0.
      wr0 s 0. rewrite vadd_eq, ZMULT2_eq, G0 by lia. reflexivity. }
    intros m2 H2. apply WP_seq. eapply F2; [exact H2| |].
    { intros s Hs. apply lset_two; [reflexivity|]. eapply wpe_tget; [apply (hzqm_a t Hwf Hq Hp r s); lia|]. eapply wpe_tget; [apply (hzqm_b t Hwf Hq Hp r s); lia|].
      rdW HA0 HO0 s 0. rdV s 0. eapply row_r2a; [|apply (acc_at _ _ _ _ _ _ _ s 0 Hacc); lia|]; [lia|].
      eapply row_w2r; [lia|lia|lia| | |sal s 0|apply (acc_at _ _ _ _ _ _ _ (m - s) 0 Hacc); lia].
      - rewrite vadd_eq, ZMULT2_eq, G0 by lia. reflexivity.
      - rewrite vadd_eq, CONJ_eq, ZMULT2_eq, G1 by lia. reflexivity. }
    intros m3 H3. apply F3 in H3; [|reflexivity]. destruct (Nat.eqb_spec m (2 * (e - 1))) as [Ev|Od].
    + apply F4 in H3. match goal with |- WP (Do ?p) _ _ => change (Do p) with (ParFor 0 1 (fun _ => p)) end.
      eapply F5; [exact Ev|lia|lia|exact H3| |].
      { intros u Hu. assert (u = 0) by lia. subst u. rewrite Nat.mul_0_r. cbn [Nat.add]. apply lset_one; [reflexivity|].
        rdf (e - 1) 0. replace (m * r + e - 1) with (m * r + (e - 1)) by lia. eapply wpe_tget; [apply (hzqm_a t Hwf Hq Hp r (e - 1)); lia|].
        rdV (e - 1) 0. rdW HA0 HO0 (e - 1) 0. wr0 (e - 1) 0. rewrite vadd_eq, ZMULT2_eq, G0 by lia. reflexivity. }
      intros m4 H4. apply HK, F6. exact H4.
    + apply WP_skip. apply HK. eapply F7; [assumption|exact H3].
  - apply WP_seq. eapply (WP_cols1 adr CC g H Hinj 0 (fun i => i < 0) (fun i => i < 1) _ mm); [apply pfx1_nil|lia|lia|lia|lia| |].
    { intros c Hc. rdf 0 c. rdW HA0 HO0 0 c. rdV 0 c. wr0 0 c. rewrite G3. reflexivity. }
    intros m1 H1. apply WP_seq. eapply HL; [lia|exact H1| |].
    { intros s Hs. eapply lset_tget; [apply (hzqm_a t Hwf Hq Hp r s); lia|]. apply lset_cols1; [exact Hinj|lia|]. intros c Hc.
      rdf s c. rdV s c. rdW HA0 HO0 s c. wr0 s c. rewrite vadd_eq, ZMULT2_eq, G0 by lia. reflexivity. }
    intros m2 H2. apply WP_seq. eapply F2; [exact H2| |].
    { intros s Hs. eapply lset_tget; [apply (hzqm_a t Hwf Hq Hp r s); lia|]. eapply lset_tget; [apply (hzqm_b t Hwf Hq Hp r s); lia|].
      apply lset_cols2; [exact Hinj|lia|lia|]. intros c Hc.
      assert (CC * s <= CC * m) by (apply Nat.mul_le_mono_l; lia).
      assert (E : CC * (m - s) = CC * m - CC * s) by apply Nat.mul_sub_distr_l.
      assert (CC * (s + 1) <= CC * (m - s)) by (apply Nat.mul_le_mono_l; lia). rewrite Nat.mul_add_distr_l in *.
      rdW HA0 HO0 s c. rdV s c. eapply row_r2a; [|apply (acc_at _ _ _ _ _ _ _ s c Hacc); lia|]; [lia|].
      eapply row_w2r; [lia|lia|lia| | |sal s c|apply (acc_at _ _ _ _ _ _ _ (m - s) c Hacc); lia].
      - rewrite vadd_eq, zm2_p, G0 by lia. reflexivity.
      - rewrite vadd_eq, zm2_c, G1 by lia. reflexivity. }
    intros m3 H3. apply F3 in H3; [|reflexivity]. destruct (Nat.eqb_spec m (2 * (e - 1))) as [Ev|Od].
    + replace (m * r + e - 1) with (m * r + (e - 1)) by lia. rewrite (cget_some _ _ _ _ (hzqm_a t Hwf Hq Hp r (e - 1) ltac:(lia) ltac:(lia) ltac:(lia))).
      eapply F8; [exact Ev|reflexivity|exact H3| |].
      { intros c Hc. rdf (e - 1) c. rdV (e - 1) c. rdW HA0 HO0 (e - 1) c. wr0 (e - 1) c. rewrite vadd_eq, zm2_p, G0 by lia. reflexivity. }
      intros m4 H4. apply HK. exact H4.
    + apply WP_skip. apply HK. eapply F7; [assumption|exact H3].
Qed.
End Pieces.
End T.
