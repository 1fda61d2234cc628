(** Convolution::convolveRaw: the branches q=1, overwrite and the general residue loop. *)
From Coq Require Import Reals ZArith Arith Lia List Bool Permutation.
From Verif Require Import CNum Sums Roots Mem VecModel VecProofs PadModel PadKernels Loops
  PadLemmas PadMath PadGeom Fwd1 FwdAll PadForward ConvMath ConvModel Conv1 Conv2 Conv3 Xf XfProofs.
Import ListNotations.

Section T.
Variable c : conv.
Notation t := (cpad c).
Hypothesis Hwf : wf t.
Hypothesis HS : gS t = 1.
Notation L := (gL t). Notation A := (aA t). Notation B := (aB t).
Notation m := (gm t). Notation q := (gq t). Notation M := (gM t). Notation p := (gp t).
Notation OS := (OS c). Notation NN := (NN c).
Notation outW := (outW c). Notation Wdj := (Wdj c). Notation Wok := (Wok c).
Variables (ga Fa Va : nat -> addr).
Hypothesis HcF : forall a, cF c a = arr NN Fa a.
Hypothesis HdgF : djbb NN ga L NN Fa OS.
Hypothesis HdFF : djb NN Fa OS.
Hypothesis Hdgg : djb NN ga L.
Hypothesis HgW : forall a, a < NN -> Wdj (ga a) L.
Hypothesis HFW : forall a, a < NN -> Wdj (Fa a) OS.
Variable phi : nat -> nat -> nat -> (nat -> C) -> C.
Hypothesis Hmult : mult_ok A B phi (cmult c).
Variable Phi : nat -> nat -> (nat -> C) -> C.
Variable x : nat -> nat -> C.
Notation Yk := (Yk c Phi x).

Lemma q1_branch (m0 : mem) (K : mem -> Prop) :
  q = 1 -> phi_ok c phi Phi ->
  Wok m0 -> allocb NN Fa OS m0 ->
  (forall a i, a < A -> i < L -> m0 (ga a + i) = Val (x a i)) ->
  allocb NN ga L m0 ->
  (forall m',
     (forall b j, b < B -> j < L -> m' (ga b + j) = Val (idftx t (Yk b) j)) ->
     (forall ad, outb 0 B ga L ad -> outb 0 NN Fa OS ad -> outW ad -> m' ad = m0 ad) ->
     Wok m' -> (forall ad, m0 ad <> Unalloc -> m' ad <> Unalloc) -> K m') ->
  WP (Seq (cforward c (arr NN ga) (cF c) 0 0 A)
     (Seq (cmult c (cF c) (blocksize t 0) 0 0)
          (cbackward c (cF c) (arr NN ga) 0 0 B (cW c)))) m0 K.
Proof.
  intros Hq Hphi HW HFa Hx Hga HK. pose proof (A_N c HS) as HAN. pose proof (B_N c HS) as HBN.
  pose proof (q1_residues t Hwf Hq) as ER. pose proof (q1_ow t Hq) as How.
  assert (Hr : In 0 (residues t)) by (rewrite ER; left; reflexivity).
  pose proof (q1_D t Hq) as HD.
  pose proof (D0_D1 t HD) as HD0. pose proof (XfProofs.l_pos (cpad c) Hwf) as Hl.
  assert (En : noutputs t 0 = gl t) by (unfold noutputs, blocksize; cbn [Nat.eqb]; rewrite HD0; lia).
  assert (EO : OS = gl t) by (rewrite (OS_eq c HS), HD; lia).
  assert (HoutF : forall a, a < NN -> forall i, i < OS -> outW (Fa a + i)).
  { intros a Ha i Hi. pose proof (HFW a Ha) as Hd. unfold Conv1.Wdj, Conv1.outW in *. destruct (cW c); [|exact I]. unfold dj in Hd. lia. }
  assert (Houtg : forall a, a < NN -> forall i, i < L -> outW (ga a + i) /\ outb 0 NN Fa OS (ga a + i)).
  { intros a Ha i Hi. split.
    - pose proof (HgW a Ha) as Hd. unfold Conv1.Wdj, Conv1.outW in *. destruct (cW c); [|exact I]. unfold dj in Hd. lia.
    - intros b Hb. pose proof (HdgF a b Ha ltac:(lia)) as Hd. unfold dj in Hd. lia. }
  apply WP_seq. apply cforward_spec with (ga := ga) (Fa := Fa) (x := x); auto; try lia.
  { intros a Ha. rewrite HcF, !arr_some by lia. auto. }
  { intros. apply HdgF; lia. }
  { intros. apply HdFF; lia. }
  { intros. split; [apply HgW|apply HFW]; lia. }
  { intros; apply Hx; lia. }
  { intros; apply HFa; lia. }
  intros m1 H1v H1f H1w H1a. apply WP_seq. unfold blocksize.
  rewrite En in *.
  eapply (mult_blk c HS phi Hmult (cF c) Fa (gl t) 0 0 0 (fun a i => outx t (x a) (Z.of_nat (index t 0 i)))); auto; try lia.
  { intros a. rewrite HcF. unfold arr. rewrite Nat.add_0_r. reflexivity. }
  { intros a i Ha Hi. apply H1v; lia. }
  { intros a i Ha Hi. apply H1a, HFa; assumption. }
  intros m2 H2v H2f H2a.
  assert (H2f' : forall ad, outb 0 NN Fa OS ad -> m2 ad = m1 ad).
  { intros ad Had. apply H2f. intros a Ha. specialize (Had a Ha). lia. }
  assert (H2w : Wok m2).
  { apply (Wok_frame c HS m1); [assumption|]. intros ad Had. apply H2f'. intros a Ha.
    destruct (Nat.lt_ge_cases ad (Fa a)); [auto|]. destruct (Nat.lt_ge_cases ad (Fa a + OS)); [|auto].
    exfalso. apply Had. replace ad with (Fa a + (ad - Fa a)) by lia. apply HoutF; lia. }
  apply cbackward_spec with (Fa := Fa) (ha := ga) (Y := fun b i => Yk b (index t 0 i)) (acc := fun _ _ => C0); auto; try lia.
  { intros b Hb. rewrite HcF, !arr_some by lia. auto. }
  { intros. apply HdgF; lia. }
  { intros. apply HdFF; lia. }
  { intros. apply Hdgg; lia. }
  { unfold Conv1.Wok in H2w. unfold Conv1.Wdj in *. destruct (cW c) as [w|]; [|assumption].
    destruct H2w as (Hin & HWa & _). split; [assumption|]. split; [|assumption].
    intros b Hb. split; [apply HgW; lia|apply HFW; lia]. }
  { intros b i Hb Hi. rewrite En in Hi. pose proof (H2v b i ltac:(lia) Hi) as E. rewrite Nat.add_0_l in E. rewrite E. f_equal.
    unfold Conv3.Yk. rewrite <- Hphi; [|assumption|rewrite En; assumption].
    unfold opos. rewrite Nat.div_small, Nat.mod_small, Nat.mul_0_r by assumption. reflexivity. }
  { intros b i Hb Hi. apply H2a, H1a, Hga; lia. }
  intros m3 H3v H3f H3a. apply HK; auto.
  - intros b j Hb Hj. rewrite H3v by lia. f_equal. rewrite <- pass_sum by assumption. rewrite ER.
    unfold bpass. cbn [csl fold_right Nat.eqb]. ring.
  - intros ad O1 O2 O3. rewrite H3f, H2f', H1f; auto.
    + eapply outb_mono; [exact O2|lia|lia|lia].
    + eapply outb_mono; [exact O2|lia|lia|lia].
  - unfold Conv1.Wok in *. destruct (cW c) as [w|]; [|assumption].
    destruct HW as (Hin & HWa & _). split; [assumption|]. split; [|intros; contradiction].
    intros i Hi. apply H3a, H2a, H1a, HWa. assumption.
Qed.

(** *** overwrite *)
Hypothesis Hext : forall k b v v', (forall a, a < A -> v a = v' a) -> Phi k b v = Phi k b v'.

Notation nn := (gn t - 1). Notation ll := (gl t).
Lemma ow_oaddr f F u k : goverwrite t = true -> oaddr t f F u k 0 = if u <? gn t - 1 then f + gl t * u + k else F + k.
Proof. intros _. unfold oaddr. rewrite HS. destruct (u <? gn t - 1); lia. Qed.

Lemma ow_branch (m0 : mem) (K : mem -> Prop) :
  goverwrite t = true ->
  (forall r i k b v, phi r i b v = Phi k b v) ->
  allocb NN Fa OS m0 ->
  (forall a i, a < A -> i < L -> m0 (ga a + i) = Val (x a i)) ->
  (forall m',
     (forall b j, b < B -> j < L -> m' (ga b + j) = Val (idftx t (Yk b) j)) ->
     (forall ad, outb 0 NN ga L ad -> outb 0 NN Fa OS ad -> m' ad = m0 ad) ->
     (forall ad, m0 ad <> Unalloc -> m' ad <> Unalloc) -> K m') ->
  WP (Seq (cforward c (arr NN ga) (cF c) 0 0 A)
   (Seq (cfor (gn t - 1) (fun r =>
           let h : parr := fun a => if a <? A then option_map (fun x => x + r * blocksize t r) (arr NN ga a) else None in
           cmult c h (blocksize t r) r 0))
   (Seq (cmult c (cF c) (blocksize t (gn t - 1)) (gn t - 1) 0)
        (cbackward c (cF c) (arr NN ga) 0 0 B None)))) m0 K.
Proof.
  intros How Hphi HFa Hx HK. destruct (ow_facts t Hwf How) as (Hq & Hi & HL & Hn & HD & HAB).
  pose proof (XfProofs.l_pos t Hwf) as Hm1. pose proof (HC1 c Hwf HS) as HC.
  assert (EN : NN = A) by (unfold Conv1.NN; lia).
  assert (EO : OS = gl t) by (rewrite (OS_eq c HS), HD; lia).
  rewrite EN, EO in *. unfold blocksize.
  set (XX := fun a u k => outx t (x a) (ofreq t u k)).
  assert (Hup : forall u, u < nn -> ll * u + ll <= L) by (intros u Hu; rewrite HL; clear -Hu; nia).
  (* forward *)
  apply WP_seq. unfold cforward. rewrite Nat.sub_0_r.
  set (I := fun k (mm : mem) =>
    (forall a u s, a < k -> u < gn t -> s < ll -> mm (oaddr t (ga a) (Fa a) u s 0) = Val (XX a u s)) /\
    (forall ad, outb 0 k ga L ad -> outb 0 k Fa ll ad -> mm ad = m0 ad) /\
    (forall ad, m0 ad <> Unalloc -> mm ad <> Unalloc)).
  apply WP_mono with (Q := I A).
  2:{ apply WP_cfor.
      { split; [intros; lia|]. split; auto. }
      intros a mm Ha (H1 & H2 & H3). unfold pget. rewrite HcF, !arr_some by lia. cbn [Nat.add].
      apply oforward_spec with (x := fun i _ => x a i); auto.
      - rewrite HS, HC. apply dj_sepbuf. apply HdgF; lia.
      - intros i e Hi' He. rewrite HS. replace (ga a + 1 * i + e) with (ga a + i) by lia. rewrite H2; [apply Hx; lia| |].
        + intros a' Ha'. pose proof (Hdgg a a' ltac:(lia) ltac:(lia) ltac:(lia)) as Hd. unfold dj in Hd. lia.
        + intros a' Ha'. pose proof (HdgF a a' ltac:(lia) ltac:(lia)) as Hd. unfold dj in Hd. lia.
      - intros i e Hi' He. rewrite HS. replace (Fa a + 1 * i + e) with (Fa a + i) by lia. apply H3, HFa; lia.
      - intros m' HV HF Hal. split; [|split; [|auto]].
        + intros a' u s Ha' Hu Hs. destruct (Nat.eq_dec a' a) as [->|Hne]; [apply (HV u s 0); lia|].
          rewrite HF; [apply H1; lia| |]; rewrite ow_oaddr by assumption; rewrite HS, HC; intros (i & e & Hi' & He & E).
          * pose proof (HdgF a' a ltac:(lia) ltac:(lia)) as Hd1.
            pose proof (HdFF a' a ltac:(lia) ltac:(lia) ltac:(lia)) as Hd2. unfold dj in *.
            destruct (Nat.ltb_spec u nn) as [Hu'|Hu']; [specialize (Hup u Hu')|]; lia.
          * pose proof (Hdgg a' a ltac:(lia) ltac:(lia) ltac:(lia)) as Hd1.
            pose proof (HdgF a a' ltac:(lia) ltac:(lia)) as Hd2. unfold dj in *.
            destruct (Nat.ltb_spec u nn) as [Hu'|Hu']; [specialize (Hup u Hu')|]; lia.
        + intros ad O1 O2. rewrite HF.
          * apply H2; eapply outb_mono; eauto; lia.
          * rewrite HS, HC. intros (i & e & Hi' & He & E). specialize (O2 a ltac:(lia)). lia.
          * rewrite HS, HC. intros (i & e & Hi' & He & E). specialize (O1 a ltac:(lia)). lia. }
  intros m1 (H1v & H1f & H1a). apply WP_seq.
  (* multiply the residues kept in the data arrays *)
  set (YY := fun b u k => Phi 0 b (fun a => XX a u k)).
  assert (Hg1 : forall a u k, a < A -> u < nn -> k < ll -> m1 (ga a + (ll * u + k)) = Val (XX a u k)).
  { intros a u k Ha Hu Hk. rewrite <- H1v by lia. rewrite ow_oaddr by assumption. destruct (Nat.ltb_spec u nn); [|lia]. f_equal. lia. }
  assert (HF1 : forall a k, a < A -> k < ll -> m1 (Fa a + k) = Val (XX a nn k)).
  { intros a k Ha Hk. rewrite <- H1v by lia. rewrite ow_oaddr by assumption. destruct (Nat.ltb_spec nn nn); [lia|]. reflexivity. }
  assert (Hga1 : forall a i, a < A -> i < L -> m1 (ga a + i) <> Unalloc).
  { intros a i Ha Hi'. apply H1a. rewrite Hx by lia. discriminate. }
  set (J := fun k (mm : mem) =>
    (forall b u s, b < B -> u < k -> s < ll -> mm (ga b + (ll * u + s)) = Val (YY b u s)) /\
    (forall a u s, a < A -> k <= u < nn -> s < ll -> mm (ga a + (ll * u + s)) = Val (XX a u s)) /\
    (forall ad, outb 0 A ga L ad -> mm ad = m1 ad) /\
    (forall ad, m1 ad <> Unalloc -> mm ad <> Unalloc)).
  apply WP_mono with (Q := J nn).
  2:{ apply WP_cfor.
      { split; [intros; lia|]. split; [intros; apply Hg1; lia|]. auto. }
      intros r mm Hr (J1 & J2 & J3 & J4). cbv zeta.
      assert (Hrm : ll * r + ll <= L) by (apply Hup; assumption).
      eapply (Hmult (fun a => ga a + r * ll) ll r 0 (fun a s => XX a r s)).
      - replace (max A B) with A by lia. intros a a' Ha Ha' Hne. pose proof (Hdgg a a' Ha Ha' Hne) as Hd. unfold dj in *. lia.
      - intros a i Ha Hi'. rewrite <- J2 by lia. f_equal. lia.
      - replace (max A B) with A by lia. intros a i Ha Hi'. rewrite <- Nat.add_assoc. apply J4, Hga1; lia.
      - replace (max A B) with A by lia. intros m' HV HF Hal. split; [|split; [|split; [|auto]]].
        + intros b u s Hb Hu Hs. destruct (Nat.eq_dec u r) as [->|Hne].
          * replace (ga b + (ll * r + s)) with (ga b + r * ll + s) by lia. rewrite HV by assumption. f_equal.
            apply Hphi.
          * rewrite HF; [apply J1; lia|]. intros a Ha. assert (ll * u + ll <= ll * r) by (clear -Hu Hne; nia).
            destruct (Nat.eq_dec a b) as [->|Hab]; [lia|].
            pose proof (Hdgg b a ltac:(lia) ltac:(lia) ltac:(lia)) as Hd. unfold dj in Hd. lia.
        + intros a u s Ha Hu Hs. rewrite HF; [apply J2; lia|]. intros a' Ha'.
          assert (ll * r + ll <= ll * u) by (clear -Hu; nia). assert (ll * u + ll <= L) by (apply Hup; lia).
          destruct (Nat.eq_dec a a') as [<-|Hab]; [lia|].
          pose proof (Hdgg a a' ltac:(lia) ltac:(lia) ltac:(lia)) as Hd. unfold dj in Hd. lia.
        + intros ad O1. rewrite HF; [auto|]. intros a Ha. specialize (O1 a Ha). lia.
      - replace (max A B) with A by lia. intros a. unfold arr. destruct (Nat.ltb_spec a A); reflexivity. }
  intros m2 (J1 & _ & J3 & J4). apply WP_seq.
  assert (HF2 : forall a k, a < A -> k < ll -> m2 (Fa a + k) = Val (XX a nn k)).
  { intros a k Ha Hk. rewrite J3; [auto|]. intros a' Ha'.
    pose proof (HdgF a' a ltac:(lia) Ha) as Hd. unfold dj in Hd. lia. }
  eapply (Hmult Fa ll nn 0 (fun a s => XX a nn s)).
  - replace (max A B) with A by lia. assumption.
  - assumption.
  - replace (max A B) with A by lia. intros a i Ha Hi'. apply J4, H1a, HFa; lia.
  - replace (max A B) with A by lia. intros m3 H3v H3f H3a.
    (* backward *)
    assert (Hg3 : forall b u s, b < B -> u < gn t -> s < ll -> m3 (oaddr t (ga b) (Fa b) u s 0) = Val (YY b u s)).
    { intros b u s Hb Hu Hs. rewrite ow_oaddr by assumption. destruct (Nat.ltb_spec u nn) as [Hu'|Hu'].
      - rewrite H3f; [rewrite <- J1 by lia; f_equal; lia|]. intros a Ha. specialize (Hup u Hu').
        pose proof (HdgF b a ltac:(lia) ltac:(lia)) as Hd. unfold dj in Hd. lia.
      - replace u with nn by lia. rewrite H3v by assumption. f_equal. apply Hphi. }
    unfold cbackward. rewrite Nat.sub_0_r.
    set (Q := fun k (mm : mem) =>
      (forall b j, b < k -> j < L -> mm (ga b + j) = Val (idftx t (Yk b) j)) /\
      (forall b u s, k <= b < B -> u < gn t -> s < ll -> mm (oaddr t (ga b) (Fa b) u s 0) = Val (YY b u s)) /\
      (forall ad, outb 0 A ga L ad -> outb 0 A Fa ll ad -> mm ad = m3 ad) /\
      (forall ad, m3 ad <> Unalloc -> mm ad <> Unalloc)).
    apply WP_mono with (Q := Q B).
    { intros mm (Q1 & _ & Q3 & Q4). apply HK; auto.
      intros ad O1 O2. rewrite Q3, H3f, J3, H1f; auto. }
    apply WP_cfor.
    { split; [intros; lia|]. split; [intros; apply Hg3; lia|]. auto. }
    intros b mm Hb (Q1 & Q2 & Q3 & Q4). unfold pget. rewrite HcF, !arr_some by lia. cbn [Nat.add].
    apply obackward_spec with (Y := fun _ k => Phi 0 b (fun a => outx t (x a) k)); auto.
    + rewrite HS, HC. apply dj_sepbuf. apply HdgF; lia.
    + intros e k k' E. apply Hext. intros a Ha. apply outx_mod; assumption.
    + intros u k e Hu Hk He. replace e with 0 by lia. apply Q2; lia.
    + intros m' HV HF Hal. split; [|split; [|split; [|auto]]].
      * intros b' j Hb' Hj. destruct (Nat.eq_dec b' b) as [->|Hne].
        -- specialize (HV j 0 Hj ltac:(lia)). rewrite HS in HV. replace (ga b + 1 * j + 0) with (ga b + j) in HV by lia.
           rewrite HV. f_equal. apply idftx_ext. intros k Hk. unfold Conv3.Yk. rewrite <- (Hphi 0 0 0), <- (Hphi 0 0 k). reflexivity.
        -- rewrite HF; [apply Q1; lia| |]; rewrite HS, HC; intros (i & e & Hi' & He & E).
           ++ pose proof (HdgF b' b ltac:(lia) ltac:(lia)) as Hd. unfold dj in Hd. lia.
           ++ pose proof (Hdgg b' b ltac:(lia) ltac:(lia) Hne) as Hd. unfold dj in Hd. lia.
      * intros b' u s Hb' Hu Hs. rewrite HF; [apply Q2; lia| |]; rewrite ow_oaddr by assumption; rewrite HS, HC; intros (i & e & Hi' & He & E).
        -- pose proof (HdgF b' b ltac:(lia) ltac:(lia)) as Hd1.
           pose proof (HdFF b' b ltac:(lia) ltac:(lia) ltac:(lia)) as Hd2. unfold dj in *.
           destruct (Nat.ltb_spec u nn) as [Hu'|Hu']; [specialize (Hup u Hu')|]; lia.
        -- pose proof (Hdgg b' b ltac:(lia) ltac:(lia) ltac:(lia)) as Hd1.
           pose proof (HdgF b b' ltac:(lia) ltac:(lia)) as Hd2. unfold dj in *.
           destruct (Nat.ltb_spec u nn) as [Hu'|Hu']; [specialize (Hup u Hu')|]; lia.
      * intros ad O1 O2. rewrite HF; [auto| |]; rewrite HS, HC; intros (i & e & Hi' & He & E).
        -- specialize (O2 b ltac:(lia)). lia.
        -- specialize (O1 b ltac:(lia)). lia.
  - replace (max A B) with A by lia. intros a. apply HcF.
Qed.

(** *** the general loop *)
Lemma gen_branch (m0 : mem) (K : mem -> Prop) :
  goverwrite t = false -> phi_ok c phi Phi -> (gD t = 1 \/ B <= A) -> W0ok c Fa 0 B ->
  (1 < nloops t -> (forall b, cV c b = arr B Va b) /\ djb B Va L /\ djbb NN ga L B Va L /\
     djbb B Va L NN Fa OS /\ (forall b, b < B -> Wdj (Va b) L) /\ allocb B Va L m0) ->
  Wok m0 -> allocb NN Fa OS m0 -> allocb NN ga L m0 ->
  (forall a i, a < A -> i < L -> m0 (ga a + i) = Val (x a i)) ->
  (forall m',
     (forall b j, b < B -> j < L -> m' (ga b + j) = Val (idftx t (Yk b) j)) ->
     (forall ad, outb 0 B ga L ad -> outb 0 NN Fa OS ad -> (1 < nloops t -> outb 0 B Va L ad) -> outW ad -> m' ad = m0 ad) ->
     Wok m' -> (forall ad, m0 ad <> Unalloc -> m' ad <> Unalloc) -> K m') ->
  WP (let h0 := if 1 <? nloops t then cV c else arr NN ga in
    Seq (rfor (residues t) (fun r =>
           Seq (cforward c (arr NN ga) (cF c) r 0 A)
          (Seq (operate c (cF c) r)
               (cbackwardPad c (cF c) h0 r 0 B (cW0 c)))))
        (if 1 <? nloops t then copyback c h0 (arr NN ga) else Skip)) m0 K.
Proof.
  intros How Hphi HAB HW0 HV HW HFa Hga Hx HK. cbv zeta. pose proof (A_N c HS) as HAN. pose proof (B_N c HS) as HBN.
  destruct (Nat.ltb_spec 1 (nloops t)) as [Hn|Hn].
  - destruct (HV Hn) as (V1 & V2 & V3 & V4 & V5 & V6). apply WP_seq.
    eapply (rfor_spec c Hwf HS ga Fa HcF HdgF HdFF HgW HFW phi Hmult Phi x (cV c) Va How Hphi HAB HW0) with (done := []); auto.
    { intros b Hb. rewrite V1, arr_some by assumption. reflexivity. }
    { intros H. contradiction. }
    intros m1 H1v H1f H1w H1a. unfold copyback.
    assert (HoutV : forall b j, b < B -> j < L -> outW (ga b + j)).
    { intros b j Hb Hj. pose proof (HgW b ltac:(lia)) as Hd. unfold Conv1.Wdj, Conv1.outW in *. destruct (cW c); [|exact I]. unfold dj in Hd. lia. }
    apply (blockmap c HS (arr NN ga) (cV c) ga Va (fun v => v) (fun b j => idftx t (Yk b) j)); auto.
    { intros b Hb. rewrite V1, !arr_some by lia. auto. }
    { intros. apply Hdgg; lia. }
    { right. intros. apply V3; lia. }
    { intros b j Hb Hj. apply H1a, Hga; lia. }
    intros m2 H2v H2f H2a. apply HK; auto.
    + intros ad O1 O2 O3 O4. rewrite H2f, H1f; auto.
    + apply (Wok_frame c HS m1); [assumption|]. intros ad Had. apply H2f. intros b Hb.
      destruct (Nat.lt_ge_cases ad (ga b)); [auto|]. destruct (Nat.lt_ge_cases ad (ga b + L)); [|auto].
      exfalso. apply Had. replace ad with (ga b + (ad - ga b)) by lia. apply HoutV; lia.
  - assert (ER : residues t = [0]).
    { destruct (residues_shape t Hwf) as (k & ER & _). unfold nloops in Hn. rewrite ER in *. cbn [length] in Hn.
      rewrite map_length, seq_length in Hn. assert (k = 0) by lia. subst k. reflexivity. }
    rewrite ER. cbn [rfor]. apply WP_seq, WP_seq.
    apply (pass_spec c Hwf HS ga Fa HcF HdgF HdFF HgW HFW phi Hmult Phi x (arr NN ga) ga 0 (fun _ _ => C0)); auto.
    { rewrite ER. left. reflexivity. }
    { intros b Hb. apply arr_some. lia. }
    { intros b b' Hb Hb'. apply HdgF; lia. }
    { intros b b' Hb Hb' Hne. apply Hdgg; lia. }
    { intros b Hb. apply HgW. lia. }
    { intros b j Hb Hj. apply Hga; lia. }
    { intros; lia. }
    intros m1 H1v H1f H1w H1a. apply WP_skip, WP_skip. apply HK; auto.
    intros b j Hb Hj. rewrite H1v by assumption. f_equal. rewrite <- pass_sum by assumption. rewrite ER.
    unfold bpass. cbn [csl fold_right Nat.eqb]. ring.
Qed.
End T.
