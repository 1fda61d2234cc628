(** Hermitian forward transforms, p=2: filling the work array. *)
From Coq Require Import Reals ZArith Arith Lia List Bool.
From Verif Require Import CNum Sums Roots Mem VecModel VecProofs PadModel PadKernels Loops
  PadLemmas PadMath PadGeom Fwd1 PadForward Fill CenModel CenMath CenGeom HerModel HerSpec HerMath HerFft HerGeom.

Lemma hpair2_plus z w f g :
  vadd (vadd (vmul z (UNPACKL f f)) (vmul w (UNPACKL g g)))
       (ZMULTI (vsub (vmul z (UNPACKH f f)) (vmul w (UNPACKH g g)))) = (z * f + w * Cconj g)%C.
Proof. vec. Qed.
Lemma hpair2_minus z w f g :
  CONJ (vsub (vadd (vmul z (UNPACKL f f)) (vmul w (UNPACKL g g)))
       (ZMULTI (vsub (vmul z (UNPACKH f f)) (vmul w (UNPACKH g g))))) = (Cconj z * f + Cconj w * Cconj g)%C.
Proof. vec. Qed.

(** two blocks of l rows *)
Definition adr2 (CC l W V i : nat) : addr := if i <? l then W + CC * i else V + CC * (i - l).
Lemma adr2_lo CC l W V i : i < l -> adr2 CC l W V i = W + CC * i.
Proof. intros Hi. unfold adr2. destruct (Nat.ltb_spec i l); [reflexivity|lia]. Qed.
Lemma adr2_hi CC l W V i : adr2 CC l W V (l + i) = V + CC * i.
Proof. unfold adr2. destruct (Nat.ltb_spec (l + i) l); [lia|]. do 2 f_equal. lia. Qed.
Lemma adr2_inj CC l W B : CC * l <= B -> injrows (adr2 CC l W (W + B)) CC (2 * l).
Proof.
  intros HB i c i' c' Hi Hi' Hc Hc'. unfold adr2.
  assert (K : forall a, a < l -> forall d, d < CC -> CC * a + d < CC * l).
  { intros a Ha d Hd. assert (CC * (a + 1) <= CC * l) by (apply Nat.mul_le_mono_l; lia). rewrite Nat.mul_add_distr_l in *. lia. }
  destruct (Nat.ltb_spec i l) as [H1|H1], (Nat.ltb_spec i' l) as [H2|H2]; intros E.
  - apply (stride_inj CC); lia.
  - exfalso. specialize (K i H1 c Hc). revert E. generalize (CC * (i' - l)). intros; lia.
  - exfalso. specialize (K i' H2 c' Hc'). revert E. generalize (CC * (i - l)). intros; lia.
  - destruct (stride_inj CC (i - l) c (i' - l) c'); try assumption; [revert E; generalize (CC * (i - l)), (CC * (i' - l)); intros; lia|]. lia.
Qed.

Section Cols.
Variables (adr : nat -> addr) (CC : nat) (g : nat -> nat -> C) (N : nat).
Hypothesis Hinj : injrows adr CC N.
(** a parallel loop over the columns of some rows *)
Lemma WP_cols (R P P' : nat -> Prop) body (m m1 : mem) (K : mem -> Prop) :
  dn adr CC g P m m1 ->
  (forall i, P i -> i < N) -> (forall i, R i -> i < N /\ ~ P i) ->
  (forall i, P' i <-> P i \/ R i) ->
  (forall c, c < CC -> wpe (outs adr CC N) (fun a v => exists i, R i /\ row adr g i c a v) (body c) m) ->
  (forall m', dn adr CC g P' m m' -> K m') ->
  WP (ParFor 0 CC body) m1 K.
Proof.
  intros Hd HP HR HP' Hb HK.
  apply (WP_eff (rset adr CC g P) (fun c a v => exists i, R i /\ row adr g i c a v)) with (m := m); [exact Hd| | | |]; unfold rng.
  - intros c c' a v v' Hc Hc' (i & Hi & E & _) (i' & Hi' & E' & _). destruct (HR i Hi), (HR i' Hi').
    destruct (Hinj i c i' c'); try lia.
  - intros c a v v' Hc (i & Hi & E & _) (i' & c' & Hi' & Hc' & E' & _). destruct (HR i Hi) as [A B].
    destruct (Hinj i c i' c'); try lia; auto. subst. contradiction.
  - intros c Hc. eapply wp_weaken; [| |exact (Hb c ltac:(lia))].
    + intros a Ha. left. split.
      * intros v (i & c' & Hi & Hc' & E & _). apply (Ha i c'); auto.
      * intros c' v Hc' (i & Hi & E & _). destruct (HR i Hi). apply (Ha i c'); auto. lia.
    + auto.
  - intros m' He. apply HK. eapply eff_iff; [|exact He]. intros a v. split.
    + intros [(i & c & Hi & Hc & Hr)|(c & Hc & i & Hi & Hr)]; exists i, c; (split; [apply HP'; auto|split; [lia|assumption]]).
    + intros (i & c & Hi & Hc & Hr). apply HP' in Hi. destruct Hi as [Hi|Hi]; [left; exists i, c; auto|].
      right. exists c. split; [lia|]. exists i. auto.
Qed.
Lemma WP_cols1 i0 (P P' : nat -> Prop) body (m m1 : mem) (K : mem -> Prop) :
  dn adr CC g P m m1 ->
  (forall i, P i -> i < N) -> i0 < N -> ~ P i0 ->
  (forall i, P' i <-> P i \/ i0 = i) ->
  (forall c, c < CC -> wpe (outs adr CC N) (row adr g i0 c) (body c) m) ->
  (forall m', dn adr CC g P' m m' -> K m') ->
  WP (ParFor 0 CC body) m1 K.
Proof.
  intros Hd HP Hi0 HnP HP' Hb HK. apply (WP_cols (eq i0) P P') with (m := m); auto.
  - intros i <-. auto.
  - intros c Hc. eapply wpe_iff; [|apply (Hb c Hc)]. intros a v. split; [exists i0; auto|]. intros (i & <- & Hr). assumption.
Qed.
Lemma WP_cols2 l body (m : mem) (K : mem -> Prop) :
  1 <= l -> 2 * l <= N ->
  (forall c, c < CC -> wpe (outs adr CC N) (row2 adr g 0 l c) (body c) m) ->
  (forall m', dn adr CC g (pfx2 l 1) m m' -> K m') ->
  WP (ParFor 0 CC body) m K.
Proof.
  intros Hl HN Hb HK. apply (WP_cols (fun i => 0 = i \/ l = i) (fun _ => False) (pfx2 l 1)) with (m := m).
  - apply dn_nil.
  - intros i [].
  - intros i Hi. split; [lia|auto].
  - intros i. unfold pfx2. lia.
  - intros c Hc. eapply wpe_iff; [|apply (Hb c Hc)]. intros a v. unfold row2. split.
    + intros [Hr|Hr]; [exists 0|exists l]; auto.
    + intros (i & [<-|<-] & Hr); auto.
  - assumption.
Qed.
(** reading the source *)
Variables (f H : nat) (x : nat -> nat -> C) (m : mem).
Lemma gsrd Y a j c k : (forall j c, j < H -> c < CC -> m (f + CC * j + c) = Val (x j c)) ->
  (forall j c, j < H -> c < CC -> outs adr CC N (f + CC * j + c)) ->
  j < H -> c < CC -> a = f + CC * j + c ->
  wpe (outs adr CC N) Y (k (x j c)) m -> wpe (outs adr CC N) Y (Rd a k) m.
Proof. intros Hs Ho Hj Hc -> Hk. eapply wpe_rd; [left; apply Ho; assumption|apply Hs; assumption|assumption]. Qed.
End Cols.
Ltac grd j c := match goal with
  Hsrc : forall j c, _ -> _ -> ?m1 (?f + ?CC * j + c) = Val (?x j c),
  Hout : forall j c, _ -> _ -> outs ?adr ?CC ?N (_ + _ * j + c) |- _ =>
  eapply (gsrd adr CC N f _ x m1 _ _ j c _ Hsrc Hout); [lia|lia|lia|] end.
Ltac gal i c := match goal with
  Ha : forall i c, _ -> _ -> _ <> Unalloc |- _ =>
  let E := fresh in pose proof (Ha i c ltac:(lia) ltac:(lia)) as E; cbv beta in E; rewrite ?adr2_lo, ?adr2_hi in E by lia;
  replace_al E end
with replace_al E := first [exact E | match type of E with ?m ?b <> _ => match goal with |- m ?a <> _ => replace a with b by lia; exact E end end].

(** what row i of the work array must hold before the complex-to-real transforms *)
Definition hval (t : pad) (rh : nat -> Z) (x : nat -> nat -> C) (i c : nat) : C :=
  hpre (am t) (hP t) (kn t) (hH t) (rh (i / (he t * hP t))) (fun j => x j c) (i mod (he t * hP t) / he t) (i mod he t).

Section T.
Variable t : pad.
Hypothesis Hwf : hwf t.
Hypothesis Hq : kq t <> 1.
Hypothesis Hp : kp t = 2.
Notation L := (aL t).  Notation m := (am t).
Notation q := (kq t).   Notation n := (kn t).   Notation M := (kM t).
Notation e := (he t). Notation H := (hH t).

Lemma hP2 : hP t = 1. Proof. rewrite hP_q by assumption. unfold hp2. rewrite Hp. reflexivity. Qed.
Lemma hq2 : q = n. Proof. rewrite h_q by assumption. rewrite hP2. lia. Qed.
Lemma hM2 : M = m * n. Proof. unfold kM. rewrite hq2. reflexivity. Qed.
Lemma hrg2 : 1 <= m /\ e <= H /\ H <= m /\ m < 2 * e /\ 1 <= e /\ e <= m /\ 2 <= n /\ m - H + 1 <= e /\ 2 * e <= m + 2 /\ 2 * (m - H) + 1 <= m.
Proof.
  pose proof (h_hg t Hwf Hq) as G. pose proof (h_m0 _ _ _ _ G) as Hm0. rewrite hP2 in *. destruct G as [G1 G2 G3 G4 G5 G6].
  pose proof (he_m t Hwf). unfold he, cl in *. rewrite Nat.mul_1_r in *. lia.
Qed.
Lemma hzM2 rr s : (zeta n (- rr) * zeta M (rr * s) = zeta M (rr * (s - Z.of_nat m)))%C.
Proof.
  pose proof hrg2 as Hrg. rewrite hM2.
  assert (E : zeta n (- rr) = zeta (m * n) (Z.of_nat m * - rr)) by (symmetry; apply zeta_cancel; lia).
  rewrite E, <- zeta_add. f_equal. lia.
Qed.
Lemma hv_lo rr x s : s < m - H + 1 -> hpre m (hP t) n H rr x 0 s = (zeta M (rr * Z.of_nat s) * x s)%C.
Proof.
  intros Hs. pose proof hrg2 as Hrg. pose proof (h_hg t Hwf Hq) as G. rewrite (hpre_1 m (hP t) n H G) by (apply hP2 || lia).
  rewrite hfold_lo by (unfold cl; rewrite ?hP2; lia). rewrite <- h_M by assumption. reflexivity.
Qed.
Lemma hv_hi rr x s : m - H + 1 <= s < e -> hpre m (hP t) n H rr x 0 s =
  (zeta M (rr * Z.of_nat s) * x s + zeta M (rr * (Z.of_nat s - Z.of_nat m)) * Cconj (x (m - s)%nat))%C.
Proof.
  intros Hs. pose proof hrg2 as Hrg. pose proof (h_hg t Hwf Hq) as G. rewrite (hpre_1 m (hP t) n H G) by (apply hP2 || lia).
  rewrite hfold_hi by (unfold cl; rewrite ?hP2; lia). rewrite <- h_M by assumption. rewrite <- hzM2.
  unfold cl. rewrite hP2, Nat.mul_1_r. ring.
Qed.
Lemma hval_0 rh x i c : i < e -> hval t rh x i c = hpre m (hP t) n H (rh 0) (fun j => x j c) 0 i.
Proof. intros Hi. unfold hval. rewrite hP2, Nat.mul_1_r. rewrite (Nat.mod_small i e), (Nat.div_small i e) by assumption. reflexivity. Qed.
Lemma hval_1 rh x i c : i < e -> hval t rh x (e + i) c = hpre m (hP t) n H (rh 1) (fun j => x j c) 0 i.
Proof.
  intros Hi. unfold hval. rewrite hP2, Nat.mul_1_r. replace (e + i) with (i + 1 * e) by lia.
  rewrite Nat.mod_add, Nat.div_add by lia. rewrite (Nat.mod_small i e), (Nat.div_small i e) by assumption. reflexivity.
Qed.
Lemma hval_0z rh x c : hval t rh x 0 c = x 0 c.
Proof. pose proof hrg2. rewrite hval_0, hv_lo by lia. rewrite Z.mul_0_r, zeta_0. ring. Qed.
Lemma hval_1z rh x c : hval t rh x e c = x 0 c.
Proof. pose proof hrg2. replace e with (e + 0) by lia. rewrite hval_1, hv_lo by lia. rewrite Z.mul_0_r, zeta_0. ring. Qed.

Lemma hcj_m r s : Cconj (zeta M (Z.of_nat r * (Z.of_nat m - s))) = zeta M (Z.of_nat r * (s - Z.of_nat m)).
Proof. rewrite <- zeta_neg. f_equal. lia. Qed.
Lemma hcj_s r s : Cconj (zeta M (Z.of_nat r * s)) = zeta M (- Z.of_nat r * s).
Proof. rewrite <- zeta_neg. f_equal. lia. Qed.
Lemma hhalf_m s : n mod 2 = 0 -> (zeta M (Z.of_nat (n / 2) * (s - Z.of_nat m)) = - zeta M (Z.of_nat (n / 2) * s))%C.
Proof.
  intros He. pose proof hrg2. rewrite <- hzM2.
  pose proof (Nat.div_mod n 2 ltac:(lia)) as Hn. rewrite He, Nat.add_0_r in Hn.
  assert (E : zeta n (- Z.of_nat (n / 2)) = Copp C1).
  { rewrite Hn at 1. replace (- Z.of_nat (n / 2))%Z with (Z.of_nat (n / 2) * Z.opp 1)%Z by lia.
    rewrite Nat.mul_comm, zeta_cancel by lia. rewrite zeta_neg, zeta_2_1. apply C_ext; cbn; ring. }
  rewrite E. ring.
Qed.
Lemma hzqm_a r s : 1 <= r -> 2 * r <= n -> s < m -> hZqm t (m * r + s) = Some (zeta M (Z.of_nat r * Z.of_nat s)).
Proof. intros H1 H2 H3. apply hzqm; auto; rewrite ?hq2; lia. Qed.
Lemma hzqm_b r s : 1 <= r -> 2 * r <= n -> 1 <= s <= m -> hZqm t (m * r + m - s) = Some (zeta M (Z.of_nat r * (Z.of_nat m - Z.of_nat s))).
Proof.
  intros H1 H2 H3. replace (m * r + m - s) with (m * r + (m - s)) by lia. rewrite hzqm_a by lia. do 3 f_equal. lia.
Qed.

(** residue 0 alone (q odd) *)
Definition fill2_0 (CC f W : nat) : cmd C -> cmd C := fun k =>
  if CC =? 1 then
    Seq (ParFor 0 (m - H + 1) (fun s => x <- f + s ;; W + s ::= x ;; Ret))
   (Seq (ParFor (m - H + 1) e (fun s => x <- f + s ;; y <- f + m - s ;; W + s ::= Cadd x (Cconj y) ;; Ret)) k)
  else
    Seq (ParFor 0 (m - H + 1) (fun s => pForR 0 CC (fun c => x <- f + CC * s + c ;; W + CC * s + c ::= x ;; Ret)))
   (Seq (ParFor (m - H + 1) e (fun s =>
           pForR 0 CC (fun c => x <- f + CC * s + c ;; y <- f + CC * m - CC * s + c ;; W + CC * s + c ::= Cadd x (Cconj y) ;; Ret))) k).
Lemma fill2_0_ok CC f W x k (m1 : mem) (K : mem -> Prop) :
  (forall j c, j < H -> c < CC -> m1 (f + CC * j + c) = Val (x j c)) ->
  (forall j c, j < H -> c < CC -> outs (fun i => W + CC * i) CC e (f + CC * j + c)) ->
  (forall i c, i < e -> c < CC -> m1 ((fun i => W + CC * i) i + c) <> Unalloc) ->
  (forall m', sets (fun i => W + CC * i) CC (hval t (fun _ => 0%Z) x) e m1 m' -> WP k m' K) ->
  WP (fill2_0 CC f W k) m1 K.
Proof.
  intros Hsrc Hout Hal HK. pose proof hrg2 as Hg. unfold fill2_0.
  assert (Hinj : injrows (fun i => W + CC * i) CC e) by (apply buf_inj; lia).
  pose proof (WP_pfx1 (fun i => W + CC * i) CC (hval t (fun _ => 0%Z) x) e Hinj) as HL.
  destruct (Nat.eqb_spec CC 1) as [->|HC].
  - apply WP_seq. eapply HL; [lia|apply pfx1_nil| |].
    { intros s Hs. apply lset_one; [reflexivity|]. grd s 0.
      apply row_w1; [lia| |gal s 0]. rewrite hval_0, hv_lo, Z.mul_0_l, zeta_0 by lia. ring. }
    intros m2 H2. apply WP_seq. eapply HL; [lia|exact H2| |].
    { intros s Hs. apply lset_one; [reflexivity|]. grd s 0. grd (m - s) 0.
      apply row_w1; [lia| |gal s 0].
      rewrite hval_0, hv_hi, !Z.mul_0_l, zeta_0 by lia. ring. }
    intros m3 H3. apply HK. apply pfx1_sets. exact H3.
  - apply WP_seq. eapply HL; [lia|apply pfx1_nil| |].
    { intros s Hs. apply lset_cols1; [exact Hinj|lia|]. intros c Hc. grd s c.
      apply row_w1; [lia| |gal s c]. rewrite hval_0, hv_lo, Z.mul_0_l, zeta_0 by lia. ring. }
    intros m2 H2. apply WP_seq. eapply HL; [lia|exact H2| |].
    { intros s Hs. apply lset_cols1; [exact Hinj|lia|]. intros c Hc. grd s c.
      assert (CC * s <= CC * m) by (apply Nat.mul_le_mono_l; lia).
      assert (E : CC * (m - s) = CC * m - CC * s) by apply Nat.mul_sub_distr_l. grd (m - s) c.
      apply row_w1; [lia| |gal s c].
      rewrite hval_0, hv_hi, !Z.mul_0_l, zeta_0 by lia. ring. }
    intros m3 H3. apply HK. apply pfx1_sets. exact H3.
Qed.

Definition rho2 (a b : Z) (i : nat) : Z := if i =? 0 then a else b.
(** residues 0 and n/2 *)
Definition fill2_h (CC f W V : nat) : cmd C -> cmd C := fun k =>
  let Zr := m * (q / 2) in
  if CC =? 1 then
    Seq (Do (x <- f ;; W ::= x ;; V ::= x ;; Ret))
   (Seq (ParFor 1 (m - H + 1) (fun s => fs <- f + s ;; W + s ::= fs ;;
             z <~ (hZqm t) [Zr + s] ;; V + s ::= Cmul z fs ;; Ret))
   (Seq (ParFor (m - H + 1) e (fun s => fs <- f + s ;; y <- f + m - s ;;
             let fms := Cconj y in
             W + s ::= Cadd fs fms ;;
             z <~ (hZqm t) [Zr + s] ;; V + s ::= Cmul z (Csub fs fms) ;; Ret)) k))
  else
    Seq (ParFor 0 CC (fun c => x <- f + c ;; W + c ::= x ;; V + c ::= x ;; Ret))
   (Seq (ParFor 1 (m - H + 1) (fun s =>
             Zetars <~ (hZqm t) [Zr + s] ;;
             pForR 0 CC (fun c => fsc <- f + CC * s + c ;; W + CC * s + c ::= fsc ;; V + CC * s + c ::= Cmul Zetars fsc ;; Ret)))
   (Seq (ParFor (m - H + 1) e (fun s =>
             Zetars <~ (hZqm t) [Zr + s] ;;
             pForR 0 CC (fun c => fsc <- f + CC * s + c ;; y <- f + CC * m - CC * s + c ;;
               let fmsc := Cconj y in
               W + CC * s + c ::= Cadd fsc fmsc ;; V + CC * s + c ::= Cmul Zetars (Csub fsc fmsc) ;; Ret))) k)).
(** residues r and -r *)
Definition fill2_r (CC f W V r : nat) : cmd C -> cmd C := fun k =>
  let Zr := m * r in
  let Zrm := Zr + m in
  if CC =? 1 then
    Seq (Do (x <- f ;; W ::= x ;; V ::= x ;; Ret))
   (Seq (ParFor 1 (m - H + 1) (fun s => Zeta <~ (hZqm t) [Zr + s] ;; fs <- f + s ;;
           let A := vmul Zeta (UNPACKL fs fs) in
           let B := ZMULTI (vmul Zeta (UNPACKH fs fs)) in
           W + s ::= vadd A B ;;
           V + s ::= CONJ (vsub A B) ;; Ret))
   (Seq (ParFor (m - H + 1) e (fun s => Zeta <~ (hZqm t) [Zr + s] ;; Z <~ (hZqm t) [Zrm - s] ;;
           let Zetam := CONJ Z in
           fs <- f + s ;; fms <- f + m - s ;;
           let A := vadd (vmul Zeta (UNPACKL fs fs)) (vmul Zetam (UNPACKL fms fms)) in
           let B := ZMULTI (vsub (vmul Zeta (UNPACKH fs fs)) (vmul Zetam (UNPACKH fms fms))) in
           W + s ::= vadd A B ;;
           V + s ::= CONJ (vsub A B) ;; Ret)) k))
  else
    Seq (ParFor 0 CC (fun c => x <- f + c ;; W + c ::= x ;; V + c ::= x ;; Ret))
   (Seq (ParFor 1 (m - H + 1) (fun s =>
           Zeta <~ (hZqm t) [Zr + s] ;;
           pForR 0 CC (fun c => fsc <- f + CC * s + c ;;
             let A := vmul Zeta (UNPACKL fsc fsc) in
             let B := ZMULTI (vmul Zeta (UNPACKH fsc fsc)) in
             W + CC * s + c ::= vadd A B ;; V + CC * s + c ::= CONJ (vsub A B) ;; Ret)))
   (Seq (ParFor (m - H + 1) e (fun s =>
           Zeta <~ (hZqm t) [Zr + s] ;; Z <~ (hZqm t) [Zrm - s] ;;
           let Zetam := CONJ Z in
           pForR 0 CC (fun c => fsc <- f + CC * s + c ;; fmsc <- f + CC * m - CC * s + c ;;
             let A := vadd (vmul Zeta (UNPACKL fsc fsc)) (vmul Zetam (UNPACKL fmsc fmsc)) in
             let B := ZMULTI (vsub (vmul Zeta (UNPACKH fsc fsc)) (vmul Zetam (UNPACKH fmsc fmsc))) in
             W + CC * s + c ::= vadd A B ;; V + CC * s + c ::= CONJ (vsub A B) ;; Ret))) k)).

Section Two.
Variables (CC f W B : nat) (x : nat -> nat -> C) (k : cmd C) (m1 : mem) (K : mem -> Prop).
Notation V := (W + B).
Notation adr := (adr2 CC e W V).
Hypothesis HB : CC * e <= B.
Hypothesis HCC : 1 <= CC.
Hypothesis Hsrc : forall j c, j < H -> c < CC -> m1 (f + CC * j + c) = Val (x j c).
Hypothesis Hout : forall j c, j < H -> c < CC -> outs adr CC (2 * e) (f + CC * j + c).
Hypothesis Hal : forall i c, i < 2 * e -> c < CC -> m1 (adr i + c) <> Unalloc.
Lemma ne_WV s c : s < e -> c < CC -> W + CC * s + c <> V + CC * s + c.
Proof. intros Hs Hc. assert (1 <= CC * e) by (pose proof hrg2; nia). lia. Qed.

Ltac rows2 s c := apply row_w2; [rewrite adr2_lo by lia; lia|rewrite adr2_hi by lia; lia| | | |gal s c|gal (e + s) c].

Lemma fill2_h_ok : n mod 2 = 0 ->
  (forall m', sets adr CC (hval t (rho2 0 (Z.of_nat (n / 2))) x) (2 * e) m1 m' -> WP k m' K) ->
  WP (fill2_h CC f W V k) m1 K.
Proof.
  intros He HK. pose proof hrg2 as Hg. unfold fill2_h. cbv zeta. rewrite hq2.
  assert (Hq2 : 1 <= n / 2 /\ 2 * (n / 2) <= n).
  { pose proof (Nat.div_mod n 2 ltac:(lia)). lia. }
  assert (Hinj : injrows adr CC (2 * e)) by (apply adr2_inj; assumption).
  set (g := hval t (rho2 0 (Z.of_nat (n / 2))) x) in *.
  pose proof (WP_pfx2 adr CC g (2 * e) Hinj) as HL.
  assert (G0 : forall s c, s < m - H + 1 -> g s c = x s c).
  { intros s c Hs. unfold g. rewrite hval_0, hv_lo by lia. cbn [rho2 Nat.eqb]. rewrite Z.mul_0_l, zeta_0. ring. }
  assert (G1 : forall s c, s < m - H + 1 -> g (e + s) c = (zeta M (Z.of_nat (n / 2) * Z.of_nat s) * x s c)%C).
  { intros s c Hs. unfold g. rewrite hval_1, hv_lo by lia. reflexivity. }
  assert (G2 : forall s c, m - H + 1 <= s < e -> g s c = (x s c + Cconj (x (m - s)%nat c))%C).
  { intros s c Hs. unfold g. rewrite hval_0, hv_hi by lia. cbn [rho2 Nat.eqb]. rewrite !Z.mul_0_l, zeta_0. ring. }
  assert (G3 : forall s c, m - H + 1 <= s < e -> g (e + s) c =
    (zeta M (Z.of_nat (n / 2) * Z.of_nat s) * (x s c - Cconj (x (m - s)%nat c)))%C).
  { intros s c Hs. unfold g. rewrite hval_1, hv_hi by lia. cbn [rho2 Nat.eqb]. rewrite hhalf_m by assumption. ring. }
  assert (G1z : forall c, g e c = x 0 c) by (intros; apply hval_1z).
  clearbody g.
  assert (NE : forall s c, s < e -> c < CC -> W + CC * s + c <> V + CC * s + c) by (intros; apply ne_WV; assumption).
  destruct (Nat.eqb_spec CC 1) as [EC|HC].
  - clear HCC. rewrite EC in *. change (Do ?p) with (ParFor 0 1 (fun _ => p)).
    apply WP_seq. eapply (HL e); [lia|lia|apply pfx2_nil| |].
    { intros s Hs. assert (s = 0) by lia. subst s. apply lset_two; [reflexivity|]. grd 0 0. rows2 0 0.
      - specialize (NE 0 0). lia.
      - rewrite G0 by lia. reflexivity.
      - rewrite G1 by lia. rewrite Z.mul_0_r, zeta_0. ring. }
    intros m2 H2. apply WP_seq. eapply (HL e); [lia|lia|exact H2| |].
    { intros s Hs. apply lset_two; [reflexivity|]. grd s 0.
      rewrite (tget_some _ _ _ _ (hzqm_a (n / 2) s ltac:(lia) ltac:(lia) ltac:(lia))). rows2 s 0.
      - specialize (NE s 0). lia.
      - rewrite G0 by lia. reflexivity.
      - rewrite G1 by lia. reflexivity. }
    intros m3 H3. apply WP_seq. eapply (HL e); [lia|lia|exact H3| |].
    { intros s Hs. apply lset_two; [reflexivity|]. grd s 0. grd (m - s) 0.
      rewrite (tget_some _ _ _ _ (hzqm_a (n / 2) s ltac:(lia) ltac:(lia) ltac:(lia))). rows2 s 0.
      - specialize (NE s 0). lia.
      - rewrite G2 by lia. reflexivity.
      - rewrite G3 by lia. reflexivity. }
    intros m4 H4. apply HK. eapply pfx2_sets; [exact Hinj|reflexivity|exact H4].
  - apply WP_seq. eapply (WP_cols2 adr CC g (2 * e) Hinj e); [lia|lia| |].
    { intros c Hc. grd 0 c. apply row_w2; [rewrite adr2_lo by lia; lia|replace e with (e + 0) at 2 by lia; rewrite adr2_hi by lia; lia| | | |gal 0 c|gal (e + 0) c].
      - specialize (NE 0 c). lia.
      - rewrite G0 by lia. reflexivity.
      - rewrite G1z. reflexivity. }
    intros m2 H2. apply WP_seq. eapply (HL e); [lia|lia|exact H2| |].
    { intros s Hs. eapply wpe_tget; [apply (hzqm_a (n / 2) s); lia|].
      apply lset_cols2; [exact Hinj|lia|lia|]. intros c Hc. grd s c. rows2 s c.
      - apply NE; lia.
      - rewrite G0 by lia. reflexivity.
      - rewrite G1 by lia. reflexivity. }
    intros m3 H3. apply WP_seq. eapply (HL e); [lia|lia|exact H3| |].
    { intros s Hs. eapply wpe_tget; [apply (hzqm_a (n / 2) s); lia|].
      apply lset_cols2; [exact Hinj|lia|lia|]. intros c Hc. grd s c.
      assert (CC * s <= CC * m) by (apply Nat.mul_le_mono_l; lia).
      assert (E : CC * (m - s) = CC * m - CC * s) by apply Nat.mul_sub_distr_l. grd (m - s) c. rows2 s c.
      - apply NE; lia.
      - rewrite G2 by lia. reflexivity.
      - rewrite G3 by lia. reflexivity. }
    intros m4 H4. apply HK. eapply pfx2_sets; [exact Hinj|reflexivity|exact H4].
Qed.

Lemma fill2_r_ok r : 1 <= r -> 2 * r <= n ->
  (forall m', sets adr CC (hval t (rho2 (Z.of_nat r) (- Z.of_nat r)) x) (2 * e) m1 m' -> WP k m' K) ->
  WP (fill2_r CC f W V r k) m1 K.
Proof.
  intros Hr1 Hr2 HK. pose proof hrg2 as Hg. unfold fill2_r. cbv zeta.
  assert (Hinj : injrows adr CC (2 * e)) by (apply adr2_inj; assumption).
  set (g := hval t (rho2 (Z.of_nat r) (- Z.of_nat r)) x) in *.
  pose proof (WP_pfx2 adr CC g (2 * e) Hinj) as HL.
  assert (G0 : forall s c, s < m - H + 1 -> g s c = (zeta M (Z.of_nat r * Z.of_nat s) * x s c)%C).
  { intros s c Hs. unfold g. rewrite hval_0, hv_lo by lia. reflexivity. }
  assert (G1 : forall s c, s < m - H + 1 -> g (e + s) c = (zeta M (- Z.of_nat r * Z.of_nat s) * x s c)%C).
  { intros s c Hs. unfold g. rewrite hval_1, hv_lo by lia. reflexivity. }
  assert (G2 : forall s c, m - H + 1 <= s < e -> g s c = (zeta M (Z.of_nat r * Z.of_nat s) * x s c +
     zeta M (Z.of_nat r * (Z.of_nat s - Z.of_nat m)) * Cconj (x (m - s)%nat c))%C).
  { intros s c Hs. unfold g. rewrite hval_0, hv_hi by lia. reflexivity. }
  assert (G3 : forall s c, m - H + 1 <= s < e -> g (e + s) c = (zeta M (- Z.of_nat r * Z.of_nat s) * x s c +
     zeta M (- Z.of_nat r * (Z.of_nat s - Z.of_nat m)) * Cconj (x (m - s)%nat c))%C).
  { intros s c Hs. unfold g. rewrite hval_1, hv_hi by lia. reflexivity. }
  assert (G0z : forall c, g 0 c = x 0 c) by (intros; apply hval_0z).
  assert (G1z : forall c, g e c = x 0 c) by (intros; apply hval_1z).
  clearbody g.
  assert (NE : forall s c, s < e -> c < CC -> W + CC * s + c <> V + CC * s + c) by (intros; apply ne_WV; assumption).
  destruct (Nat.eqb_spec CC 1) as [EC|HC].
  - clear HCC. rewrite EC in *. change (Do ?p) with (ParFor 0 1 (fun _ => p)).
    apply WP_seq. eapply (HL e); [lia|lia|apply pfx2_nil| |].
    { intros s Hs. assert (s = 0) by lia. subst s. apply lset_two; [reflexivity|]. grd 0 0. rows2 0 0.
      - specialize (NE 0 0). lia.
      - rewrite G0z. reflexivity.
      - rewrite Nat.add_0_r, G1z. reflexivity. }
    intros m2 H2. apply WP_seq. eapply (HL e); [lia|lia|exact H2| |].
    { intros s Hs. apply lset_two; [reflexivity|]. eapply wpe_tget; [apply (hzqm_a r s); lia|]. grd s 0. rows2 s 0.
      - specialize (NE s 0). lia.
      - rewrite G0, pair_plus by lia. reflexivity.
      - rewrite G1, pair_minus, hcj_s by lia. reflexivity. }
    intros m3 H3. apply WP_seq. eapply (HL e); [lia|lia|exact H3| |].
    { intros s Hs. apply lset_two; [reflexivity|]. eapply wpe_tget; [apply (hzqm_a r s); lia|].
      eapply wpe_tget; [apply (hzqm_b r s); lia|]. grd s 0. grd (m - s) 0. rows2 s 0.
      - specialize (NE s 0). lia.
      - rewrite G2, hpair2_plus, CONJ_eq, hcj_m by lia. reflexivity.
      - rewrite G3, hpair2_minus by lia. rewrite (CONJ_eq (zeta M (Z.of_nat r * (Z.of_nat m - Z.of_nat s)))), hcj_m, hcj_s. rewrite hcj_s. reflexivity. }
    intros m4 H4. apply HK. eapply pfx2_sets; [exact Hinj|reflexivity|exact H4].
  - apply WP_seq. eapply (WP_cols2 adr CC g (2 * e) Hinj e); [lia|lia| |].
    { intros c Hc. grd 0 c. apply row_w2; [rewrite adr2_lo by lia; lia|replace e with (e + 0) at 2 by lia; rewrite adr2_hi by lia; lia| | | |gal 0 c|gal (e + 0) c].
      - specialize (NE 0 c). lia.
      - rewrite G0z. reflexivity.
      - rewrite G1z. reflexivity. }
    intros m2 H2. apply WP_seq. eapply (HL e); [lia|lia|exact H2| |].
    { intros s Hs. eapply wpe_tget; [apply (hzqm_a r s); lia|].
      apply lset_cols2; [exact Hinj|lia|lia|]. intros c Hc. grd s c. rows2 s c.
      - apply NE; lia.
      - rewrite G0, pair_plus by lia. reflexivity.
      - rewrite G1, pair_minus, hcj_s by lia. reflexivity. }
    intros m3 H3. apply WP_seq. eapply (HL e); [lia|lia|exact H3| |].
    { intros s Hs. eapply wpe_tget; [apply (hzqm_a r s); lia|]. eapply wpe_tget; [apply (hzqm_b r s); lia|].
      apply lset_cols2; [exact Hinj|lia|lia|]. intros c Hc. grd s c.
      assert (CC * s <= CC * m) by (apply Nat.mul_le_mono_l; lia).
      assert (E : CC * (m - s) = CC * m - CC * s) by apply Nat.mul_sub_distr_l. grd (m - s) c. rows2 s c.
      - apply NE; lia.
      - rewrite G2, hpair2_plus, CONJ_eq, hcj_m by lia. reflexivity.
      - rewrite G3, hpair2_minus by lia. rewrite (CONJ_eq (zeta M (Z.of_nat r * (Z.of_nat m - Z.of_nat s)))), hcj_m, hcj_s. rewrite hcj_s. reflexivity. }
    intros m4 H4. apply HK. eapply pfx2_sets; [exact Hinj|reflexivity|exact H4].
Qed.
End Two.
End T.
