(** Convolution::convolveRaw, loop2 branch; the whole of convolveRaw and convolve. *)
From Coq Require Import Reals ZArith Arith Lia List Bool Permutation.
From Verif Require Import CNum Sums Roots Mem VecModel VecProofs PadModel PadKernels Loops PadLemmas PadMath PadGeom Fwd1 FwdAll PadForward ConvMath ConvModel Conv1 Conv2 Conv3 Conv4 Xf XfProofs.
Import ListNotations.

(** *** the permuted pointer array Fp *)
Lemma upfor_snoc {T} n lo (body : nat -> T -> T) s : upfor (S n) lo body s = body (lo + n) (upfor n lo body s).
Proof.
  revert lo s. induction n as [|n IH]; intros lo s; [cbn [upfor]; f_equal; lia|].
  change (upfor (S (S n)) lo body s) with (upfor (S n) (S lo) body (body lo s)).
  rewrite IH. cbn [upfor]. f_equal. lia.
Qed.

Lemma upfor_pset n lo off (F : nat -> option addr) P i :
  upfor n lo (fun c P => pset P (off + c) (F c)) P i =
  if (off + lo <=? i) && (i <? off + lo + n) then F (i - off) else P i.
Proof.
  induction n as [|n IH].
  - cbn [upfor]. destruct (Nat.leb_spec (off + lo) i), (Nat.ltb_spec i (off + lo + 0)); cbn [andb]; try reflexivity. lia.
  - rewrite upfor_snoc. unfold pset at 1. destruct (Nat.eqb_spec (off + (lo + n)) i) as [<-|Hne].
    + destruct (Nat.leb_spec (off + lo) (off + (lo + n))), (Nat.ltb_spec (off + (lo + n)) (off + lo + S n)); cbn [andb]; try lia.
      f_equal. lia.
    + rewrite IH. destruct (Nat.leb_spec (off + lo) i), (Nat.ltb_spec i (off + lo + n)), (Nat.ltb_spec i (off + lo + S n)); cbn [andb]; try reflexivity; lia.
Qed.

Lemma upfor_pset0 n (F : nat -> option addr) P i :
  upfor n 0 (fun c P => pset P c (F c)) P i = if i <? n then F i else P i.
Proof.
  pose proof (upfor_pset n 0 0 F P i) as H. cbn [Nat.add] in H. rewrite H, Nat.sub_0_r. reflexivity.
Qed.

(** position of Fp[b] in F *)
Definition sig (A B b : nat) : nat := if b <? A - B then B + b else b - (A - B).

Lemma initFp_spec A B (F : parr) i : B < A ->
  initFp A B F i = if i <? A then F (sig A B i) else None.
Proof.
  intros HAB. unfold initFp. set (c0 := A - B). assert (Hc0 : 1 <= c0) by (unfold c0; lia).
  set (P0 := upfor c0 0 (fun c Fp => pset Fp c (F (B + c))) (fun _ => None)).
  assert (H0 : forall i, P0 i = if i <? c0 then F (B + i) else None).
  { intros j. unfold P0. exact (upfor_pset0 c0 (fun c => F (B + c)) (fun _ => None) j). }
  clearbody P0.
  assert (G : forall fuel b P, (B <= b + fuel * 1) ->
    (forall j, P j = if j <? c0 then F (B + j) else if (b <=? j - c0) && (j <? A) then P j else
       if j <? A then F (j - c0) else None) ->
    forall j, stepfor fuel b B c0 (fun b Fp => upfor (B - b) b (fun c Fp => pset Fp (c0 + c) (F c)) Fp) P j =
     if j <? c0 then F (B + j) else if j <? A then F (j - c0) else None).
  { induction fuel as [|fuel IH]; intros b P Hf HP j.
    - cbn [stepfor]. rewrite HP. destruct (Nat.ltb_spec j c0); [reflexivity|].
      destruct (Nat.leb_spec b (j - c0)), (Nat.ltb_spec j A); cbn [andb]; try reflexivity. unfold c0 in *; lia.
    - cbn [stepfor]. destruct (Nat.ltb_spec b B) as [Hb|Hb].
      + apply IH; [lia|]. clear j. intros j. rewrite upfor_pset.
        destruct (Nat.leb_spec (c0 + b) j), (Nat.ltb_spec j (c0 + b + (B - b))); cbn [andb];
        destruct (Nat.ltb_spec j c0), (Nat.leb_spec (b + c0) (j - c0)), (Nat.ltb_spec j A); cbn [andb]; try reflexivity; try (unfold c0 in *; lia);
        rewrite HP; destruct (Nat.ltb_spec j c0), (Nat.leb_spec b (j - c0)), (Nat.ltb_spec j A); cbn [andb]; try reflexivity; try (unfold c0 in *; lia).
      + rewrite HP. destruct (Nat.ltb_spec j c0); [reflexivity|].
        destruct (Nat.leb_spec b (j - c0)), (Nat.ltb_spec j A); cbn [andb]; try reflexivity. unfold c0 in *; lia. }
  rewrite G.
  - unfold sig. fold c0. destruct (Nat.ltb_spec i c0), (Nat.ltb_spec i A); try reflexivity. unfold c0 in *; lia.
  - lia.
  - intros j. rewrite H0. destruct (Nat.ltb_spec j c0); [reflexivity|]. cbn [Nat.leb andb].
    destruct (j <? A); reflexivity.
Qed.

Section T.
Variable c : conv.
Notation t := (cpad c).
Hypothesis Hwf : wf t.
Hypothesis HS : gS t = 1.
Notation L := (gL t). Notation A := (aA t). Notation B := (aB t).
Notation m := (gm t). Notation q := (gq t). Notation M := (gM t). Notation p := (gp t).
Notation OS := (OS c). Notation NN := (NN c).
Notation outW := (outW c). Notation Wdj := (Wdj c). Notation Wok := (Wok c).
Variables (ga Fa : nat -> addr).
Hypothesis HcF : forall a, cF c a = arr NN Fa a.
Hypothesis HcFp : cFp c = initFp A B (cF c).
Hypothesis HdgF : djbb NN ga L NN Fa OS.
Hypothesis HdFF : djb NN Fa OS.
Hypothesis Hdgg : djb NN ga L.
Hypothesis HgW : forall a, a < NN -> Wdj (ga a) L.
Hypothesis HFW : forall a, a < NN -> Wdj (Fa a) OS.
Variable phi : nat -> nat -> nat -> (nat -> C) -> C.
Hypothesis Hmult : mult_ok A B phi (cmult c).
Variable Phi : nat -> nat -> (nat -> C) -> C.
Variable x : nat -> nat -> C.
Notation Yk := (Yk c Phi x).
Notation sg := (sig A B).
Definition Fs (b : nat) : addr := Fa (sg b).

Lemma sig_lt b : B <= A -> b < A -> sg b < A.
Proof. intros H1 H. unfold sig. destruct (Nat.ltb_spec b (A - B)); lia. Qed.
Lemma sig_inj b b' : B <= A -> b < A -> b' < A -> b <> b' -> sg b <> sg b'.
Proof. intros H1 H H' Hne. unfold sig. destruct (Nat.ltb_spec b (A - B)), (Nat.ltb_spec b' (A - B)); lia. Qed.

Lemma loop2_spec (m0 : mem) (K : mem -> Prop) :
  loop2 t = true -> (exists s, B = (A - B) * s) ->
  goverwrite t = false -> phi_ok c phi Phi -> cW0 c = cW c -> cPadNone c = false ->
  Wok m0 -> allocb NN Fa OS m0 -> allocb NN ga L m0 ->
  (forall a i, a < A -> i < L -> m0 (ga a + i) = Val (x a i)) ->
  (forall m',
     (forall b j, b < B -> j < L -> m' (ga b + j) = Val (idftx t (Yk b) j)) ->
     (forall ad, outb 0 B ga L ad -> outb 0 NN Fa OS ad -> outW ad -> m' ad = m0 ad) ->
     Wok m' -> (forall ad, m0 ad <> Unalloc -> m' ad <> Unalloc) -> K m') ->
  WP (let r := increment t 0 in
    Seq (cforward c (arr NN ga) (cF c) 0 0 A)
   (Seq (operate c (cF c) 0)
        (l2loop c B 0 (arr NN ga) r (fun a =>
           Seq (cforward c (arr NN ga) (cFp c) r a A)
          (Seq (operate c (cFp c) r)
               (cbackwardPad c (cFp c) (arr NN ga) r 0 B (cW0 c))))))) m0 K.
Proof.
  intros Hl2 Hdiv How Hphi HW0e HPN HW HFa Hga Hx HK. cbv zeta.
  unfold loop2 in Hl2. repeat rewrite andb_true_iff in Hl2. destruct Hl2 as ((Hn2 & HBA) & _).
  apply Nat.eqb_eq in Hn2. apply Nat.ltb_lt in HBA.
  assert (EN : NN = A) by (unfold Conv1.NN; lia). rewrite EN in *.
  assert (ER : residues t = [0; increment t 0] /\ increment t 0 <> 0).
  { destruct (residues_shape t Hwf) as (k & ER & H0 & _). unfold nloops in Hn2. rewrite ER in *. cbn [length] in Hn2.
    rewrite map_length, seq_length in Hn2. assert (k = 1) by lia. subst k. cbn [seq map]. rewrite Nat.mul_0_r, Nat.add_0_r. split; [reflexivity|lia]. }
  destruct ER as [ER Hr0]. set (r := increment t 0) in *. clearbody r.
  assert (HR0 : In 0 (residues t)) by (rewrite ER; left; reflexivity).
  assert (HRr : In r (residues t)) by (rewrite ER; right; left; reflexivity).
  assert (HW0 : forall lo hi, W0ok c Fa lo hi) by (intros; left; auto).
  assert (HW0s : forall lo hi, W0ok c Fs lo hi) by (intros; left; auto).
  assert (HdgFs : forall a b, a < A -> b < A -> dj (ga a) L (Fs b) OS).
  { intros a b Ha Hb. apply HdgF; [assumption|apply sig_lt; lia]. }
  assert (HdFFs : forall a b, a < A -> b < A -> a <> b -> dj (Fs a) OS (Fs b) OS).
  { intros a b Ha Hb Hne. apply HdFF; [apply sig_lt; lia|apply sig_lt; lia|apply sig_inj; lia]. }
  assert (HFWs : forall a, a < A -> Wdj (Fs a) OS) by (intros; apply HFW, sig_lt; lia).
  assert (HcFp' : forall a, cFp c a = arr A Fs a).
  { intros a. rewrite HcFp, initFp_spec by assumption. unfold arr, Fs. destruct (Nat.ltb_spec a A) as [Ha|Ha]; [|reflexivity].
    rewrite HcF. apply arr_some. apply sig_lt; lia. }
  assert (HoutW : forall b n, Wdj b n -> forall i, i < n -> outW (b + i)).
  { intros b n Hd i Hi. unfold Conv1.Wdj, Conv1.outW in *. destruct (cW c); [|exact I]. unfold dj in Hd. lia. }
  assert (HnO0 : noutputs t 0 <= OS) by (apply (nout_OS c Hwf HS)).
  assert (HnOr : noutputs t r <= OS) by (apply (nout_OS c Hwf HS)).
  (* forward, residue 0 *)
  apply WP_seq. apply cforward_spec with (ga := ga) (Fa := Fa) (x := x); auto; try lia.
  { intros a Ha. rewrite HcF, !arr_some by lia. auto. }
  { intros. apply HdgF; lia. }
  { intros. apply HdFF; lia. }
  { intros. split; [apply HgW|apply HFW]; lia. }
  { intros; apply Hx; lia. }
  { intros; apply HFa; lia. }
  intros m1 H1v H1f H1w H1a. apply WP_seq.
  eapply (operate_spec c Hwf HS phi Hmult) with (Fa := Fa) (X := fun a i => outx t (x a) (Z.of_nat (index t 0 i))); auto; try lia.
  { rewrite EN; assumption. }
  { intros a. rewrite EN. apply HcF. }
  { intros. apply H1v; lia. }
  { intros a i Ha Hi. rewrite EN in Ha. apply H1a, HFa; assumption. }
  rewrite EN. intros m2 H2v H2f H2a.
  assert (H2w : Wok m2).
  { apply (Wok_frame c HS m1); [assumption|]. intros ad Had. apply H2f. intros a Ha.
    destruct (Nat.lt_ge_cases ad (Fa a)); [auto|]. destruct (Nat.lt_ge_cases ad (Fa a + OS)); [|auto].
    exfalso. apply Had. replace ad with (Fa a + (ad - Fa a)) by lia. apply (HoutW _ OS); [apply HFW|]; lia. }
  assert (H2x : forall a i, a < A -> i < L -> m2 (ga a + i) = Val (x a i)).
  { intros a i Ha Hi. rewrite H2f, H1f; [auto| | |].
    - intros b Hb. pose proof (HdgF a b Ha ltac:(lia)) as Hd. unfold dj in Hd. lia.
    - apply (HoutW _ L); [apply HgW|]; lia.
    - intros b Hb. pose proof (HdgF a b Ha ltac:(lia)) as Hd. unfold dj in Hd. lia. }
  assert (H2Y : forall b i, b < B -> i < noutputs t 0 -> m2 (Fa b + i) = Val (Yk b (index t 0 i))).
  { intros b i Hb Hi. rewrite H2v by assumption. f_equal. unfold Conv3.Yk. apply Hphi; assumption. }
  set (k := A - B) in *. assert (Hk : 1 <= k) by (unfold k; lia).
  set (Xr := fun a i => outx t (x a) (Z.of_nat (index t r i))).
  (* the state after processing arrays below a *)
  set (I := fun a (mm : mem) =>
    (forall b j, b < a -> j < L -> mm (ga b + j) = Val (accsum c Phi x [0] b j)) /\
    (forall b j, a <= b < A -> j < L -> mm (ga b + j) = Val (x b j)) /\
    (forall b i, a <= b < B -> i < noutputs t 0 -> mm (Fa b + i) = Val (Yk b (index t 0 i))) /\
    (forall b i, b < a -> i < noutputs t r -> mm (Fs b + i) = Val (Xr b i)) /\
    (forall ad, outb 0 B ga L ad -> outb 0 A Fa OS ad -> outW ad -> mm ad = m2 ad) /\
    Wok mm /\ (forall ad, m2 ad <> Unalloc -> mm ad <> Unalloc)).
  assert (HI0 : I 0 m2).
  { split; [intros; lia|]. split; [intros; apply H2x; lia|]. split; [intros; apply H2Y; lia|]. split; [intros; lia|]. auto. }
  assert (Hfin : forall mm, I B mm ->
    WP (Seq (cforward c (arr A ga) (cFp c) r B A)
       (Seq (operate c (cFp c) r) (cbackwardPad c (cFp c) (arr A ga) r 0 B (cW0 c)))) mm K).
  { intros mm (I1 & I2 & _ & I4 & I5 & I6 & I7). apply WP_seq.
    apply cforward_spec with (ga := ga) (Fa := Fs) (x := x); auto; try lia.
    { intros a Ha. rewrite HcFp', !arr_some by lia. auto. }
    { intros; apply HdgFs; lia. }
    { intros; apply HdFFs; lia. }
    { intros. split; [apply HgW|apply HFWs]; lia. }
    { intros a i Ha Hi. apply I7, H2a, H1a, HFa; [apply sig_lt; lia|assumption]. }
    intros m3 H3v H3f H3w H3a.
    assert (H3X : forall a i, a < A -> i < noutputs t r -> m3 (Fs a + i) = Val (Xr a i)).
    { intros a i Ha Hi. destruct (Nat.lt_ge_cases a B) as [Hab|Hab]; [|apply H3v; lia].
      rewrite H3f; [apply I4; assumption| |].
      - intros b Hb. pose proof (HdFFs a b ltac:(lia) ltac:(lia) ltac:(lia)) as Hd. unfold dj in Hd. lia.
      - apply (HoutW _ OS); [apply HFWs|]; lia. }
    apply WP_seq. eapply (operate_spec c Hwf HS phi Hmult) with (Fa := Fs) (X := Xr); auto; try lia.
    { rewrite EN. intros a b Ha Hb Hne. apply HdFFs; assumption. }
    { intros a. rewrite EN. apply HcFp'. }
    { intros a i Ha Hi. rewrite EN in Ha. apply H3a, I7, H2a, H1a, HFa; [apply sig_lt; lia|assumption]. }
    rewrite EN. intros m4 H4v H4f H4a.
    assert (H4w : Wok m4).
    { apply (Wok_frame c HS m3); [assumption|]. intros ad Had. apply H4f. intros a Ha.
      destruct (Nat.lt_ge_cases ad (Fs a)); [auto|]. destruct (Nat.lt_ge_cases ad (Fs a + OS)); [|auto].
      exfalso. apply Had. replace ad with (Fs a + (ad - Fs a)) by lia. apply (HoutW _ OS); [apply HFWs|]; lia. }
    assert (Houts : forall ad, outb 0 A Fa OS ad -> outb 0 A Fs OS ad).
    { intros ad H b Hb. apply H. pose proof (sig_lt b). lia. }
    apply cbackwardPad_spec with (Fa := Fs) (ha := ga) (Y := fun b i => Yk b (index t r i)) (acc := fun b j => accsum c Phi x [0] b j); auto; try lia.
    { intros b Hb. rewrite HcFp', !arr_some by lia. auto. }
    { rewrite EN. intros. apply HdgFs; lia. }
    { rewrite EN. intros a b Ha Hb Hne. apply HdFFs; assumption. }
    { intros. apply Hdgg; lia. }
    { intros. apply HgW; lia. }
    { rewrite EN. assumption. }
    { intros a i Ha Hi. rewrite EN in Ha. apply H4a, H3a, I7, H2a, H1a, HFa; [apply sig_lt; lia|assumption]. }
    { intros b i Hb Hi. rewrite H4v by lia. f_equal. unfold Conv3.Yk, Xr. apply Hphi; assumption. }
    { intros b i Hb Hi. apply H4a, H3a, I7, H2a, H1a, Hga; lia. }
    { intros _ b j Hb Hj. rewrite H4f, H3f; [apply I1; lia| | |].
      - intros b' Hb'. pose proof (HdgFs b b' ltac:(lia) ltac:(lia)) as Hd. unfold dj in Hd. lia.
      - apply (HoutW _ L); [apply HgW|]; lia.
      - intros b' Hb'. pose proof (HdgFs b b' ltac:(lia) ltac:(lia)) as Hd. unfold dj in Hd. lia. }
    rewrite EN. intros m5 H5v H5f H5w H5a. apply HK; auto.
    - intros b j Hb Hj. rewrite H5v by lia. f_equal.
      rewrite (accsum_step c Hwf HS Phi x [0] r []) by assumption. unfold accsum. cbn [app]. rewrite <- ER.
      apply pass_sum. assumption.
    - intros ad O1 O2 O3. rewrite H5f, H4f, H3f, I5, H2f, H1f; auto.
      + eapply outb_mono; [apply Houts; exact O2|lia|lia|lia].
      + split; [|auto]. eapply outb_mono; [apply Houts; exact O2|lia|lia|lia].
    - intros ad Had. apply H5a, H4a, H3a, I7, H2a, H1a, Had. }
  destruct Hdiv as [s Hs].
  assert (Hloop : forall fuel i mm, i <= s -> s - i <= fuel -> I (k * i) mm ->
    WP (l2loop c fuel (k * i) (arr A ga) r (fun a =>
           Seq (cforward c (arr A ga) (cFp c) r a A)
          (Seq (operate c (cFp c) r)
               (cbackwardPad c (cFp c) (arr A ga) r 0 B (cW0 c))))) mm K).
  { induction fuel as [|fuel IH]; intros i mm Hi Hf HI.
    - cbn [l2loop]. assert (i = s) by lia. subst i. rewrite <- Hs in *. apply Hfin. assumption.
    - cbn [l2loop]. fold k. destruct (Nat.leb_spec (k * i + k) B) as [Hb|Hb].
      2:{ assert (i = s). { destruct (Nat.eq_dec i s); [assumption|]. exfalso. assert (k * i + k <= k * s) by (assert (S i <= s) by lia; clear -H; nia). lia. }
          subst i. rewrite <- Hs in *. apply Hfin. assumption. }
      assert (Hi' : i < s). { destruct (Nat.eq_dec i s); [subst|lia]. lia. }
      set (a := k * i) in *. assert (Ea : k * S i = a + k) by (unfold a; lia). clearbody a.
      destruct HI as (I1 & I2 & I3 & I4 & I5 & I6 & I7).
      apply WP_seq. apply cforward_spec with (ga := ga) (Fa := Fs) (x := x); auto; try lia.
      { intros b Hb'. rewrite HcFp', !arr_some by lia. auto. }
      { intros; apply HdgFs; lia. }
      { intros; apply HdFFs; lia. }
      { intros. split; [apply HgW|apply HFWs]; lia. }
      { intros; apply I2; lia. }
      { intros b j Hb' Hj. apply I7, H2a, H1a, HFa; [apply sig_lt; lia|assumption]. }
      intros m3 H3v H3f H3w H3a.
      assert (Hsg : forall b b', a <= b < a + k -> a <= b' < B -> sg b <> b').
      { intros b b' Hb1 Hb2. unfold sig. fold k. destruct (Nat.ltb_spec b k); lia. }
      assert (H3F : forall b j, a <= b < B -> j < noutputs t 0 -> m3 (Fa b + j) = Val (Yk b (index t 0 j))).
      { intros b j Hb' Hj. rewrite H3f; [apply I3; assumption| |].
        - intros b' Hb2. pose proof (Hsg b' b Hb2 Hb') as Hne. pose proof (HdFF b (sg b') ltac:(lia) ltac:(apply sig_lt; lia) ltac:(lia)) as Hd.
          unfold Fs. unfold dj in Hd. lia.
        - apply (HoutW _ OS); [apply HFW|]; lia. }
      assert (H3g : forall b j, b < A -> j < L -> m3 (ga b + j) = mm (ga b + j)).
      { intros b j Hb' Hj. apply H3f.
        - intros b' Hb2. pose proof (HdgFs b b' ltac:(lia) ltac:(lia)) as Hd. unfold dj in Hd. lia.
        - apply (HoutW _ L); [apply HgW|]; lia. }
      apply WP_seq.
      apply cbackwardPad_spec with (Fa := Fa) (ha := ga) (Y := fun b i => Yk b (index t 0 i)) (acc := fun _ _ => C0); auto; try lia.
      { intros b Hb'. rewrite HcF, !arr_some by lia. auto. }
      { rewrite EN. intros. apply HdgF; lia. }
      { rewrite EN. assumption. }
      { intros. apply Hdgg; lia. }
      { intros. apply HgW; lia. }
      { rewrite EN. assumption. }
      { intros b j Hb' Hj. rewrite EN in Hb'. apply H3a, I7, H2a, H1a, HFa; assumption. }
      { intros b j Hb' Hj. apply H3F; lia. }
      { intros b j Hb' Hj. apply H3a, I7, H2a, H1a, Hga; lia. }
      rewrite EN. intros m4 H4v H4f H4w H4a. rewrite <- Ea. apply IH; [lia|lia|]. rewrite Ea.
      assert (H4out : forall ad, outb a (a + k) ga L ad -> outW ad -> outb a (a + k) Fa OS ad -> m4 ad = m3 ad).
      { intros ad O1 O2 O3. apply H4f; [assumption|assumption|]. auto. }
      split; [|split; [|split; [|split; [|split; [|split]]]]].
      + intros b j Hb' Hj. destruct (Nat.lt_ge_cases b a) as [Hba|Hba].
        * rewrite H4out, H3g; [apply I1; assumption|lia|assumption| | |].
          -- intros b' Hb2. pose proof (Hdgg b b' ltac:(lia) ltac:(lia) ltac:(lia)) as Hd. unfold dj in Hd. lia.
          -- apply (HoutW _ L); [apply HgW|]; lia.
          -- intros b' Hb2. pose proof (HdgF b b' ltac:(lia) ltac:(lia)) as Hd. unfold dj in Hd. lia.
        * rewrite H4v by lia. f_equal. unfold bpass, accsum. cbn [csl fold_right Nat.eqb]. ring.
      + intros b j Hb' Hj. rewrite H4out, H3g; [apply I2; lia|lia|assumption| | |].
          -- intros b' Hb2. pose proof (Hdgg b b' ltac:(lia) ltac:(lia) ltac:(lia)) as Hd. unfold dj in Hd. lia.
          -- apply (HoutW _ L); [apply HgW|]; lia.
          -- intros b' Hb2. pose proof (HdgF b b' ltac:(lia) ltac:(lia)) as Hd. unfold dj in Hd. lia.
      + intros b j Hb' Hj. rewrite H4out; [apply H3F; lia| | |].
          -- intros b' Hb2. pose proof (HdgF b' b ltac:(lia) ltac:(lia)) as Hd. unfold dj in Hd. lia.
          -- apply (HoutW _ OS); [apply HFW|]; lia.
          -- intros b' Hb2. pose proof (HdFF b b' ltac:(lia) ltac:(lia) ltac:(lia)) as Hd. unfold dj in Hd. lia.
      + intros b j Hb' Hj. rewrite H4out.
          -- destruct (Nat.lt_ge_cases b a) as [Hba|Hba]; [|apply H3v; lia].
             rewrite H3f; [apply I4; assumption| |].
             ++ intros b' Hb2. pose proof (HdFFs b b' ltac:(lia) ltac:(lia) ltac:(lia)) as Hd. unfold dj in Hd. lia.
             ++ apply (HoutW _ OS); [apply HFWs|]; lia.
          -- intros b' Hb2. pose proof (HdgFs b' b ltac:(lia) ltac:(lia)) as Hd. unfold dj in Hd. lia.
          -- apply (HoutW _ OS); [apply HFWs|]; lia.
          -- intros b' Hb2. assert (Hne : sg b <> b').
             { unfold sig. fold k. destruct (Nat.ltb_spec b k); lia. }
             pose proof (HdFF (sg b) b' ltac:(apply sig_lt; lia) ltac:(lia) Hne) as Hd. fold (Fs b) in Hd. unfold dj in Hd. lia.
      + intros ad O1 O2 O3. rewrite H4out, H3f, I5; auto.
        * intros b Hb'. apply (O2 (sg b)). pose proof (sig_lt b). lia.
        * eapply outb_mono; [exact O1|lia|lia|lia].
        * eapply outb_mono; [exact O2|lia|lia|lia].
      + assumption.
      + auto. }
  pose proof (Hloop B 0 m2) as H. rewrite Nat.mul_0_r in H. apply H; [lia| |assumption].
  clearbody k. assert (s <= k * s) by (clear -Hk; nia). lia.
Qed.
End T.
