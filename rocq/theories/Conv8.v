(** What convolveRaw does outside its correct range: loop2 with A-B > B, a caller-supplied work
    array, and more outputs than inputs with D > 1. *)
From Coq Require Import Reals ZArith Arith Lia Lra List Bool Permutation.
From Verif Require Import CNum Sums Roots Mem VecModel VecProofs PadModel PadKernels Loops PadLemmas PadMath PadGeom Fwd1 FwdAll PadForward ConvMath ConvModel ConvSpec Conv1 Conv2 Conv3 Conv4 Conv5 Conv6 Conv7 Xf XfProofs.
Import ListNotations.

(** *** loop2 with A-B > B: residue 0 is computed and then lost *)
Section T.
Variable c : conv.
Notation t := (cpad c).
Hypothesis Hwf : wf t.
Hypothesis HS : gS t = 1.
Notation L := (gL t). Notation A := (aA t). Notation B := (aB t).
Notation m := (gm t). Notation q := (gq t). Notation M := (gM t). Notation p := (gp t).
Notation OS := (OS c). Notation NN := (NN c).
Notation outW := (outW c). Notation Wdj := (Wdj c). Notation Wok := (Wok c).
Variables (ga Fa : nat -> addr).
Hypothesis HcF : forall a, cF c a = arr NN Fa a.
Hypothesis HcFp : cFp c = initFp A B (cF c).
Hypothesis HdgF : djbb NN ga L NN Fa OS.
Hypothesis HdFF : djb NN Fa OS.
Hypothesis Hdgg : djb NN ga L.
Hypothesis HgW : forall a, a < NN -> Wdj (ga a) L.
Hypothesis HFW : forall a, a < NN -> Wdj (Fa a) OS.
Variable phi : nat -> nat -> nat -> (nat -> C) -> C.
Hypothesis Hmult : mult_ok A B phi (cmult c).
Variable Phi : nat -> nat -> (nat -> C) -> C.
Variable x : nat -> nat -> C.
Notation Yk := (Yk c Phi x).
Notation Fs := (Fs c Fa).

Lemma loop2_bad (m0 : mem) (K : mem -> Prop) :
  loop2 t = true -> B < A - B ->
  goverwrite t = false -> phi_ok c phi Phi -> cW0 c = cW c -> cPadNone c = false ->
  Wok m0 -> allocb NN Fa OS m0 -> allocb NN ga L m0 ->
  (forall a i, a < A -> i < L -> m0 (ga a + i) = Val (x a i)) ->
  (forall m',
     (forall b j, b < B -> j < L -> m' (ga b + j) =
        Val (Cadd (x b j) (badd t (increment t 0) (fun i => Yk b (index t (increment t 0) i)) j))) -> K m') ->
  WP (let r := increment t 0 in
    Seq (cforward c (arr NN ga) (cF c) 0 0 A)
   (Seq (operate c (cF c) 0)
        (l2loop c B 0 (arr NN ga) r (fun a =>
           Seq (cforward c (arr NN ga) (cFp c) r a A)
          (Seq (operate c (cFp c) r)
               (cbackwardPad c (cFp c) (arr NN ga) r 0 B (cW0 c))))))) m0 K.
Proof.
  intros Hl2 Hbig How Hphi HW0e HPN HW HFa Hga Hx HK. cbv zeta.
  unfold loop2 in Hl2. repeat rewrite andb_true_iff in Hl2. destruct Hl2 as ((Hn2 & HBA) & _).
  apply Nat.eqb_eq in Hn2. apply Nat.ltb_lt in HBA.
  assert (EN : NN = A) by (unfold Conv1.NN; lia). rewrite EN in *.
  assert (ER : residues t = [0; increment t 0] /\ increment t 0 <> 0).
  { destruct (residues_shape t Hwf) as (k & ER & H0 & _). unfold nloops in Hn2. rewrite ER in *. cbn [length] in Hn2.
    rewrite map_length, seq_length in Hn2. assert (k = 1) by lia. subst k. cbn [seq map]. rewrite Nat.mul_0_r, Nat.add_0_r. split; [reflexivity|lia]. }
  destruct ER as [ER Hr0]. set (r := increment t 0) in *. clearbody r.
  assert (HR0 : In 0 (residues t)) by (rewrite ER; left; reflexivity).
  assert (HRr : In r (residues t)) by (rewrite ER; right; left; reflexivity).
  assert (HW0s : forall lo hi, W0ok c Fs lo hi) by (intros; left; auto).
  assert (Hsl : forall b, b < A -> sig A B b < A) by (intros; apply sig_lt; lia).
  assert (HdgFs : forall a b, a < A -> b < A -> dj (ga a) L (Fs b) OS).
  { intros a b Ha Hb. apply HdgF; [assumption|apply Hsl; lia]. }
  assert (HdFFs : forall a b, a < A -> b < A -> a <> b -> dj (Fs a) OS (Fs b) OS).
  { intros a b Ha Hb Hne. apply HdFF; [apply Hsl; lia|apply Hsl; lia|]. unfold sig.
    destruct (Nat.ltb_spec a (A - B)), (Nat.ltb_spec b (A - B)); lia. }
  assert (HFWs : forall a, a < A -> Wdj (Fs a) OS) by (intros; apply HFW, Hsl; lia).
  assert (HcFp' : forall a, cFp c a = arr A Fs a).
  { intros a. rewrite HcFp, initFp_spec by assumption. unfold arr, Conv5.Fs. destruct (Nat.ltb_spec a A) as [Ha|Ha]; [|reflexivity].
    rewrite HcF. apply arr_some. apply Hsl; lia. }
  assert (HoutW : forall b n, Wdj b n -> forall i, i < n -> outW (b + i)).
  { intros b n Hd i Hi. unfold Conv1.Wdj, Conv1.outW in *. destruct (cW c); [|exact I]. unfold dj in Hd. lia. }
  assert (HnO0 : noutputs t 0 <= OS) by (apply (nout_OS c Hwf HS)).
  assert (HnOr : noutputs t r <= OS) by (apply (nout_OS c Hwf HS)).
  apply WP_seq. apply cforward_spec with (ga := ga) (Fa := Fa) (x := x); auto; try lia.
  { intros a Ha. rewrite HcF, !arr_some by lia. auto. }
  { intros. apply HdgF; lia. }
  { intros. apply HdFF; lia. }
  { intros. split; [apply HgW|apply HFW]; lia. }
  { intros; apply Hx; lia. }
  { intros; apply HFa; lia. }
  intros m1 H1v H1f H1w H1a. apply WP_seq.
  eapply (operate_spec c Hwf HS phi Hmult) with (Fa := Fa) (X := fun a i => outx t (x a) (Z.of_nat (index t 0 i))); auto; try lia.
  { rewrite EN; assumption. }
  { intros a. rewrite EN. apply HcF. }
  { intros. apply H1v; lia. }
  { intros a i Ha Hi. rewrite EN in Ha. apply H1a, HFa; assumption. }
  rewrite EN. intros m2 H2v H2f H2a.
  assert (H2w : Wok m2).
  { apply (Wok_frame c HS m1); [assumption|]. intros ad Had. apply H2f. intros a Ha.
    destruct (Nat.lt_ge_cases ad (Fa a)); [auto|]. destruct (Nat.lt_ge_cases ad (Fa a + OS)); [|auto].
    exfalso. apply Had. replace ad with (Fa a + (ad - Fa a)) by lia. apply (HoutW _ OS); [apply HFW|]; lia. }
  assert (H2x : forall a i, a < A -> i < L -> m2 (ga a + i) = Val (x a i)).
  { intros a i Ha Hi. rewrite H2f, H1f; [auto| | |].
    - intros b Hb. pose proof (HdgF a b Ha ltac:(lia)) as Hd. unfold dj in Hd. lia.
    - apply (HoutW _ L); [apply HgW|]; lia.
    - intros b Hb. pose proof (HdgF a b Ha ltac:(lia)) as Hd. unfold dj in Hd. lia. }
  set (Xr := fun a i => outx t (x a) (Z.of_nat (index t r i))).
  assert (Hl : forall k, l2loop c B 0 (arr A ga) r k = k 0).
  { intros k. destruct B as [|B'] eqn:EB; cbn [l2loop]; [reflexivity|].
    rewrite <- EB in *. cbn [Nat.add]. destruct (Nat.leb_spec (A - B) B); [lia|reflexivity]. }
  rewrite Hl.
  apply WP_seq. apply cforward_spec with (ga := ga) (Fa := Fs) (x := x); auto; try lia.
  { intros a Ha. rewrite HcFp', !arr_some by lia. auto. }
  { intros; apply HdgFs; lia. }
  { intros; apply HdFFs; lia. }
  { intros. split; [apply HgW|apply HFWs]; lia. }
  { intros; apply H2x; lia. }
  { intros a i Ha Hi. apply H2a, H1a, HFa; [apply Hsl; lia|assumption]. }
  intros m3 H3v H3f H3w H3a.
  apply WP_seq. eapply (operate_spec c Hwf HS phi Hmult) with (Fa := Fs) (X := Xr); auto; try lia.
  { rewrite EN. intros a b Ha Hb Hne. apply HdFFs; assumption. }
  { intros a. rewrite EN. apply HcFp'. }
  { intros a i Ha Hi. apply H3v; lia. }
  { intros a i Ha Hi. rewrite EN in Ha. apply H3a, H2a, H1a, HFa; [apply Hsl; lia|assumption]. }
  rewrite EN. intros m4 H4v H4f H4a.
  assert (H4w : Wok m4).
  { apply (Wok_frame c HS m3); [assumption|]. intros ad Had. apply H4f. intros a Ha.
    destruct (Nat.lt_ge_cases ad (Fs a)); [auto|]. destruct (Nat.lt_ge_cases ad (Fs a + OS)); [|auto].
    exfalso. apply Had. replace ad with (Fs a + (ad - Fs a)) by lia. apply (HoutW _ OS); [apply HFWs|]; lia. }
  apply cbackwardPad_spec with (Fa := Fs) (ha := ga) (Y := fun b i => Yk b (index t r i)) (acc := x); auto; try lia.
  { intros b Hb. rewrite HcFp', !arr_some by lia. auto. }
  { rewrite EN. intros. apply HdgFs; lia. }
  { rewrite EN. intros a b Ha Hb Hne. apply HdFFs; assumption. }
  { intros. apply Hdgg; lia. }
  { intros. apply HgW; lia. }
  { rewrite EN. assumption. }
  { intros a i Ha Hi. rewrite EN in Ha. apply H4a, H3a, H2a, H1a, HFa; [apply Hsl; lia|assumption]. }
  { intros b i Hb Hi. rewrite H4v by lia. f_equal. unfold Conv3.Yk, Xr. apply Hphi; assumption. }
  { intros b i Hb Hi. apply H4a, H3a, H2a, H1a, Hga; lia. }
  { intros _ b j Hb Hj. rewrite H4f, H3f; [apply H2x; lia| | |].
    - intros b' Hb'. pose proof (HdgFs b b' ltac:(lia) ltac:(lia)) as Hd. unfold dj in Hd. lia.
    - apply (HoutW _ L); [apply HgW|]; lia.
    - intros b' Hb'. pose proof (HdgFs b b' ltac:(lia) ltac:(lia)) as Hd. unfold dj in Hd. lia. }
  intros m5 H5v _ _ _. apply HK. intros b j Hb Hj. rewrite H5v by lia. f_equal. unfold bpass.
  destruct (Nat.eqb_spec r 0); [contradiction|]. reflexivity.
Qed.
End T.

Section U.
Variable t : xf.
Hypothesis Hwf : wf t.
Hypothesis HS : gS t = 1.
Notation L := (gL t). Notation A := (aA t). Notation B := (aB t). Notation M := (gM t).
Notation N := (max A B).
Variables (ga Fa Va : nat -> addr) (w : addr).

(** one object, first call, A-B > B and two passes: outputs are input + contribution of the
    second residue only *)
Lemma loop2_bad_call mult Phi x (m0 : mem) (K : mem -> Prop) :
  loop2 t = true -> B < A - B -> mult_ok A B (fun _ _ => Phi) mult ->
  buffers t ga Fa Va w m0 -> holds A L ga x m0 ->
  (forall m',
     (forall b j, b < B -> j < L -> m' (ga b + j) =
        Val (Cadd (x b j) (badd t (increment t 0) (fun i => Phi b (fun a => outx t (x a) (Z.of_nat (index t (increment t 0) i)))) j))) -> K m') ->
  WP (Seq (cinit_cmd (cc t Fa Va w mult)) (convolveRaw (cc t Fa Va w mult) (arr N ga))) m0 K.
Proof.
  intros Hl2 Hbig Hmult Hb Hx HK. set (c := cc t Fa Va w mult).
  apply WP_seq. apply (init_spec t Hwf HS ga Fa Va w mult); auto.
  intros m1 (Hb1 & HW1) Hf Hal.
  assert (Hx1 : forall a i, a < A -> i < L -> m1 (ga a + i) = Val (x a i)).
  { intros a i Ha Hi. rewrite Hf; [auto|]. pose proof (b_gw _ _ _ _ _ _ Hb a ltac:(lia)) as Hd. unfold apart in Hd. unfold gL in Hi. lia. }
  destruct (bfacts t Hwf HS ga Fa Va w mult m1 Hb1) as (Hgg & HFF & HgF & Hw & _).
  pose proof (b_ga _ _ _ _ _ _ Hb1) as Hga. pose proof (b_Fa _ _ _ _ _ _ Hb1) as HFal.
  assert (HgW : forall a, a < N -> Wdj c (ga a) L).
  { intros a Ha. unfold Wdj. cbn [c cc cinit cW negb andb]. destruct (ainplace t); cbn [negb]; [exact I|]. apply (Hw eq_refl). assumption. }
  assert (HFW : forall a, a < N -> Wdj c (Fa a) (OS c)).
  { intros a Ha. unfold Wdj. cbn [c cc cinit cW negb andb]. destruct (ainplace t); cbn [negb]; [exact I|]. apply (Hw eq_refl). assumption. }
  assert (How : goverwrite t = false).
  { unfold loop2 in Hl2. destruct (goverwrite t); [rewrite andb_false_r in Hl2; discriminate|reflexivity]. }
  unfold convolveRaw. change (cpad c) with t. rewrite How, Hl2.
  destruct (Nat.eqb_spec (gq t) 1) as [Hq|Hq].
  { exfalso. unfold loop2, nloops in Hl2. rewrite (q1_residues t Hwf Hq) in Hl2. discriminate. }
  apply (loop2_bad c Hwf HS ga Fa ltac:(reflexivity) eq_refl HgF HFF Hgg HgW HFW (fun _ _ => Phi) Hmult (fun _ => Phi) x); auto.
  - intros r i b v _ _. reflexivity.
  - cbn [c cc cinit cW cW0 cpad]. rewrite Hl2. cbn [negb andb]. rewrite andb_false_r. reflexivity.
  - cbn [c cc cinit cPadNone cpad]. rewrite Hl2. cbn [negb andb]. apply andb_false_r.
Qed.

End U.

(** *** a caller-supplied W (complex transforms) *)
Section UW.
Variable s0 : pad.
Notation t := (FP s0).
Hypothesis Hwf : wf t.
Hypothesis HS : gS t = 1.
Notation L := (gL t). Notation A := (aA t). Notation B := (aB t). Notation M := (gM t).
Notation N := (max A B).
Lemma userW_exit mult (F V : parr) wn g f F0 rest (m0 : mem) o :
  gq t = 1 -> ainplace t = false -> 1 <= A ->
  let c := cinit t mult F V true wn in
  g 0 = Some f -> F 0 = Some F0 ->
  dj f L F0 M -> (forall i, i < L -> exists v, m0 (f + i) = Val v) -> (forall i, i < M -> m0 (F0 + i) <> Unalloc) ->
  exec (Seq (cinit_cmd c) (Seq (convolveRaw c g) rest)) m0 o -> o = ExitErr.
Proof.
  intros Hq Hi HA c Hg HF Hdj Hf HFa.
  pose proof (wf_LM t Hwf) as HLM.
  assert (Hstep : forall o', exec (forward t f F0 0 None) m0 o' -> o' = ExitErr).
  { assert (Hq' : PadModel.gq s0 = 1) by exact Hq. assert (HS' : PadModel.gS s0 = 1) by exact HS.
    assert (Hi' : PadModel.ainplace s0 = false) by exact Hi.
    change (forward t f F0 0 None) with (PadKernels.forward s0 f F0 0 None).
    unfold PadKernels.forward. rewrite Hq', Nat.eqb_refl. rewrite HS', Nat.eqb_refl. unfold forwardExplicit. cbn [getW].
    assert (E : fft (fftm s0 1) F0 F0 = Exit).
    { unfold fft, fftm. rewrite Hq', HS'. cbn [Nat.eqb pl_inplace]. rewrite Hi', Nat.eqb_refl. reflexivity. }
    rewrite E. intros o' Ho.
    change (PadModel.gL s0) with L in Ho. change (PadModel.gM s0) with M in Ho.
    assert (H1 : WP (ParFor 0 L (fun s => x <- f + s ;; F0 + s ::= x ;; Ret)) m0 (fun mm => forall ad, m0 ad <> Unalloc -> mm ad <> Unalloc)).
    { apply WP_map1 with (dst := fun s => F0 + s) (g := fun s => match m0 (f + s) with Val v => v | _ => C0 end); unfold rng.
      - intros; lia.
      - intros s Hs. cbn [wp]. destruct (Hf s ltac:(lia)) as [v Hv]. split.
        + left. intros s' Hs' E'. unfold dj in Hdj. lia.
        + exists v. split; [assumption|]. split; [reflexivity|]. split; [apply HFa; lia|]. rewrite Hv. apply upd_eq.
      - auto. }
    assert (H2 : forall mm : mem, (forall ad, m0 ad <> Unalloc -> mm ad <> Unalloc) -> WP (ParFor L M (fun s => F0 + s ::= C0 ;; Ret)) mm (fun _ => True)).
    { intros mm Hm. apply WP_map1 with (dst := fun s => F0 + s) (g := fun s => C0); unfold rng.
      - intros; lia.
      - intros s Hs. cbn [wp]. split; [reflexivity|]. split; [apply Hm, HFa; lia|apply upd_eq].
      - auto. }
    inversion Ho as [|? ? ? ma ? Ha Hrest|? ? ? Hub|? ? ? Hub| | | |]; subst.
    - destruct (WP_all _ _ _ _ _ H1 Ha) as (ma' & Ema & Hma). injection Ema as <-.
      inversion Hrest as [|? ? ? mb ? Hb Hr2|? ? ? Hub|? ? ? Hub| | | |]; subst.
      + inversion Hr2. reflexivity.
      + destruct (WP_all _ _ _ _ _ (H2 ma Hma) Hub) as (? & ? & _). discriminate.
      + destruct (WP_all _ _ _ _ _ (H2 ma Hma) Hub) as (? & ? & _). discriminate.
    - destruct (WP_all _ _ _ _ _ H1 Hub) as (? & ? & _). discriminate.
    - destruct (WP_all _ _ _ _ _ H1 Hub) as (? & ? & _). discriminate. }
  assert (Hcf : forall n o', exec (cfor (S n) (fun i => pget g (0 + i) (fun fa => pget F (0 + i) (fun Fb => forward t fa Fb 0 None)))) m0 o' -> o' = ExitErr).
  { induction n as [|n IH]; intros o' Ho; cbn [cfor] in Ho.
    - inversion Ho as [|? ? ? ma ? Ha Hrest|? ? ? Hub|? ? ? Hub| | | |]; subst; try (inversion Ha; subst); try (inversion Hub; fail).
      cbn [Nat.add] in Hrest. unfold pget in Hrest. rewrite Hg, HF in Hrest. apply Hstep. assumption.
    - inversion Ho as [|? ? ? ma ? Ha Hrest|? ? ? Hub|? ? ? Hub| | | |]; subst.
      + apply IH in Ha. discriminate.
      + apply IH in Hub. discriminate.
      + reflexivity. }
  intros Ho. unfold cinit_cmd in Ho. change (cpad c) with t in Ho. rewrite Hq, Nat.eqb_refl in Ho.
  inversion Ho as [|? ? ? ma ? Ha Hrest|? ? ? Hub|? ? ? Hub| | | |]; subst; try (inversion Hub; fail).
  inversion Ha; subst ma.
  assert (HcW : cW c = None) by reflexivity.
  assert (Hraw : forall o', exec (convolveRaw c g) m0 o' -> o' = ExitErr).
  { intros o' Ho'. unfold convolveRaw in Ho'. change (cpad c) with t in Ho'. rewrite Hq, Nat.eqb_refl in Ho'.
    assert (Hfw : forall o', exec (cforward c g F 0 0 A) m0 o' -> o' = ExitErr).
    { intros o2 Ho2. unfold cforward in Ho2. change (cpad c) with t in Ho2. rewrite HcW, Nat.sub_0_r in Ho2.
      destruct A as [|A']; [lia|]. apply (Hcf A' o2). exact Ho2. }
    change (cF c) with F in Ho'.
    inversion Ho' as [|? ? ? ma2 ? Ha2 Hrest2|? ? ? Hub|? ? ? Hub| | | |]; subst.
    - apply Hfw in Ha2. discriminate.
    - apply Hfw in Hub. discriminate.
    - reflexivity. }
  inversion Hrest as [|? ? ? ma2 ? Ha2 Hrest2|? ? ? Hub|? ? ? Hub| | | |]; subst.
  - apply Hraw in Ha2. discriminate.
  - apply Hraw in Hub. discriminate.
  - reflexivity.
Qed.
End UW.
