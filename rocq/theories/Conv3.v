(** Convolution::convolveRaw, convolve and normalize: what is left in the data arrays. *)
From Coq Require Import Reals ZArith Arith Lia List Bool Permutation.
From Verif Require Import CNum Sums Roots Mem VecModel VecProofs PadModel PadKernels Loops
  PadLemmas PadMath PadGeom Fwd1 FwdAll PadForward ConvMath ConvModel Conv1 Conv2 Xf XfProofs.
Import ListNotations.

Lemma arr_some n (h : nat -> addr) a : a < n -> arr n h a = Some (h a).
Proof. intros H. unfold arr. destruct (Nat.ltb_spec a n); [reflexivity|lia]. Qed.

Section T.
Variable c : conv.
Notation t := (cpad c).
Hypothesis Hwf : wf t.
Hypothesis HS : gS t = 1.
Notation L := (gL t). Notation A := (aA t). Notation B := (aB t).
Notation m := (gm t). Notation q := (gq t). Notation M := (gM t). Notation p := (gp t).
Notation OS := (OS c). Notation NN := (NN c).
Notation outW := (outW c). Notation Wdj := (Wdj c). Notation Wok := (Wok c).

Lemma A_N : A <= NN. Proof. unfold Conv1.NN. lia. Qed.
Lemma B_N : B <= NN. Proof. unfold Conv1.NN. lia. Qed.

(** copying L words between blocks, one block after another *)
Lemma blockmap (g h : parr) (ga ha : nat -> addr) (fn : C -> C) (Y : nat -> nat -> C) (m0 : mem) (K : mem -> Prop) :
  (forall b, b < B -> g b = Some (ga b) /\ h b = Some (ha b)) ->
  (forall b b', b < B -> b' < B -> b <> b' -> dj (ga b) L (ga b') L) ->
  (forall b, b < B -> ga b = ha b) \/ (forall b b', b < B -> b' < B -> dj (ga b) L (ha b') L) ->
  (forall b j, b < B -> j < L -> m0 (ha b + j) = Val (Y b j)) ->
  (forall b j, b < B -> j < L -> m0 (ga b + j) <> Unalloc) ->
  (forall m', (forall b j, b < B -> j < L -> m' (ga b + j) = Val (fn (Y b j))) ->
     (forall ad, outb 0 B ga L ad -> m' ad = m0 ad) ->
     (forall ad, m0 ad <> Unalloc -> m' ad <> Unalloc) -> K m') ->
  WP (cfor B (fun b => pget g b (fun gb => pget h b (fun hb =>
    Do (pForR 0 L (fun i => x <- hb + i ;; gb + i ::= fn x ;; Ret)))))) m0 K.
Proof.
  intros Hp Hgg Hgh HY Hga HK.
  set (I := fun k (mm : mem) =>
    (forall b j, b < k -> j < L -> mm (ga b + j) = Val (fn (Y b j))) /\
    (forall ad, outb 0 k ga L ad -> mm ad = m0 ad) /\ (forall ad, m0 ad <> Unalloc -> mm ad <> Unalloc)).
  apply WP_mono with (Q := I B).
  { intros mm (H1 & H2 & H3). apply HK; assumption. }
  apply WP_cfor.
  { split; [intros; lia|]. split; auto. }
  intros b mm Hb (H1 & H2 & H3). unfold pget. destruct (Hp b Hb) as [-> ->].
  assert (Hh : forall j, j < L -> mm (ha b + j) = Val (Y b j)).
  { intros j Hj. rewrite H2; [apply HY; assumption|]. intros b' Hb'. destruct Hgh as [Hgh|Hgh].
    - rewrite <- Hgh by assumption. pose proof (Hgg b b' Hb ltac:(lia) ltac:(lia)) as Hd. unfold dj in Hd. lia.
    - pose proof (Hgh b' b ltac:(lia) Hb) as Hd. unfold dj in Hd. lia. }
  apply WP_Do with (W := fun a => exists s, rng 0 L s /\ ga b + s = a)
    (Q := fun mm' => forall s, rng 0 L s -> mm' (ga b + s) = Val (fn (Y b s))).
  { intros ma mb Hm HQ s Hs. rewrite <- Hm; [apply HQ; assumption|]. exists s. auto. }
  { apply wp_for with (W := fun s => eq (ga b + s)); unfold rng.
    - intros s s' a Hs Hs' E1 E2. lia.
    - intros s a Hs <-. intros HN. apply HN. exists s. unfold rng. auto.
    - intros s Hs. apply local_one.
    - intros s Hs. cbn [wp]. split.
      + destruct Hgh as [Hgh|Hgh]; [right; rewrite Hgh by assumption; reflexivity|left].
        intros (s' & Hs' & E). unfold rng in Hs'. pose proof (Hgh b b Hb Hb) as Hd. unfold dj in Hd. lia.
      + exists (Y b s). split; [apply Hh; lia|]. split; [reflexivity|].
        split; [apply H3, Hga; lia|apply upd_eq]. }
  intros m' HQ HF Hal. split; [|split; [|auto]].
  - intros b' j Hb' Hj. destruct (Nat.eq_dec b' b) as [->|Hne]; [apply HQ; unfold rng; lia|].
    rewrite HF; [apply H1; lia|]. intros (s & Hs & E). unfold rng in Hs.
    pose proof (Hgg b' b ltac:(lia) Hb Hne) as Hd. unfold dj in Hd. lia.
  - intros ad Had. rewrite HF; [apply H2; eapply outb_mono; [eassumption|lia|lia|lia]|].
    intros (s & Hs & <-). unfold rng in Hs. specialize (Had b ltac:(lia)). lia.
Qed.

(** *** one pass *)
Variables (ga Fa : nat -> addr).
Hypothesis HcF : forall a, cF c a = arr NN Fa a.
Hypothesis HdgF : djbb NN ga L NN Fa OS.
Hypothesis HdFF : djb NN Fa OS.
Hypothesis Hdgg : djb NN ga L.
Hypothesis HgW : forall a, a < NN -> Wdj (ga a) L.
Hypothesis HFW : forall a, a < NN -> Wdj (Fa a) OS.
Variable phi : nat -> nat -> nat -> (nat -> C) -> C.
Hypothesis Hmult : mult_ok A B phi (cmult c).
Variable Phi : nat -> nat -> (nat -> C) -> C.
Variable x : nat -> nat -> C.

(** the product at frequency k, output b *)
Definition Yk (b k : nat) : C := Phi k b (fun a => outx t (x a) (Z.of_nat k)).
Definition phi_ok : Prop :=
  forall r i b v, In r (residues t) -> i < noutputs t r -> phi r (opos c i) b v = Phi (index t r i) b v.

Lemma pass_spec (h : parr) (ha : nat -> addr) r (acc : nat -> nat -> C) (m0 : mem) (K : mem -> Prop) :
  goverwrite t = false -> phi_ok -> In r (residues t) -> (gD t = 1 \/ B <= A) ->
  W0ok c Fa 0 B ->
  (forall b, b < B -> h b = Some (ha b)) ->
  djbb B ha L NN Fa OS -> djb B ha L -> (forall b, b < B -> Wdj (ha b) L) ->
  Wok m0 -> allocb NN Fa OS m0 ->
  (forall a i, a < A -> i < L -> m0 (ga a + i) = Val (x a i)) ->
  allocb B ha L m0 ->
  (r <> 0 -> forall b j, b < B -> j < L -> m0 (ha b + j) = Val (acc b j)) ->
  (forall m',
     (forall b j, b < B -> j < L -> m' (ha b + j) = Val (bpass t r (acc b) (fun i => Yk b (index t r i)) j)) ->
     (forall ad, outb 0 B ha L ad -> outb 0 NN Fa OS ad -> outW ad -> m' ad = m0 ad) ->
     Wok m' -> (forall ad, m0 ad <> Unalloc -> m' ad <> Unalloc) -> K m') ->
  WP (Seq (cforward c (arr NN ga) (cF c) r 0 A) (Seq (operate c (cF c) r) (cbackwardPad c (cF c) h r 0 B (cW0 c)))) m0 K.
Proof.
  intros How Hphi Hr HAB HW0 Hh HdhF Hdhh HhW HW HFa Hx Hha Hacc HK.
  pose proof A_N as HAN. pose proof B_N as HBN. pose proof (nout_OS c Hwf HS r) as HnO.
  apply WP_seq. apply cforward_spec with (ga := ga) (Fa := Fa) (x := x); auto; try lia.
  { intros a Ha. rewrite HcF, !arr_some by lia. auto. }
  { intros. apply HdgF; lia. }
  { intros. apply HdFF; lia. }
  { intros. split; [apply HgW|apply HFW]; lia. }
  { intros; apply Hx; lia. }
  { intros; apply HFa; lia. }
  intros m1 H1v H1f H1w H1a. apply WP_seq.
  eapply operate_spec with (phi := phi) (Fa := Fa) (X := fun a i => outx t (x a) (Z.of_nat (index t r i))); auto.
  { destruct HAB as [HD|]; [left|auto]. pose proof (blk_bounds c Hwf HS r). lia. }
  { intros. apply H1v; lia. }
  { intros a i Ha Hi. apply H1a, HFa; assumption. }
  intros m2 H2v H2f H2a.
  assert (H12 : forall ad, outb 0 NN Fa OS ad -> outW ad -> m2 ad = m0 ad).
  { intros ad Ha Hb. rewrite H2f by assumption. apply H1f; [eapply outb_mono; [exact Ha|lia|lia|lia]|assumption]. }
  assert (Hout_h : forall b j, b < B -> j < L -> outb 0 NN Fa OS (ha b + j) /\ outW (ha b + j)).
  { intros b j Hb Hj. split.
    - intros a Ha. pose proof (HdhF b a Hb ltac:(lia)) as Hd. unfold dj in Hd. lia.
    - pose proof (HhW b Hb) as Hd. unfold Conv1.Wdj, Conv1.outW in *. destruct (cW c); [|exact I]. unfold dj in Hd. lia. }
  assert (HoutF : forall a, a < NN -> forall i, i < OS -> outW (Fa a + i)).
  { intros a Ha i Hi. pose proof (HFW a Ha) as Hd. unfold Conv1.Wdj, Conv1.outW in *. destruct (cW c); [|exact I]. unfold dj in Hd. lia. }
  apply cbackwardPad_spec with (Fa := Fa) (ha := ha) (Y := fun b i => Yk b (index t r i)) (acc := acc); auto; try lia.
  { intros b Hb. rewrite HcF, arr_some, Hh by lia. auto. }
  { intros. apply HdhF; lia. }
  { intros. apply Hdhh; lia. }
  { intros. apply HhW; lia. }
  { apply (Wok_frame c HS m1); [assumption|]. intros ad Had. apply H2f. intros a Ha.
    pose proof (HFW a ltac:(lia)) as Hd. unfold Conv1.Wdj, Conv1.outW in *. destruct (cW c); [|tauto]. unfold dj in Hd. lia. }
  { intros a i Ha Hi. apply H2a, H1a, HFa; assumption. }
  { intros b i Hb Hi. rewrite H2v by lia. f_equal. unfold Yk. apply Hphi; assumption. }
  { intros b i Hb Hi. apply H2a, H1a, Hha; lia. }
  { intros H0 b j Hb Hj. destruct (Hout_h b j) as [O1 O2]; [lia|assumption|]. rewrite H12 by assumption. apply Hacc; auto; lia. }
  intros m3 H3v H3f H3w H3a. apply HK; auto.
  - intros b j Hb Hj. apply H3v; lia.
  - intros ad H1 H2 H3. rewrite H3f, H12; auto.
    split; [eapply outb_mono; [exact H2|lia|lia|lia]|auto].
Qed.

Definition accsum (done : list nat) (b j : nat) : C :=
  csl done (fun r => badd t r (fun i => Yk b (index t r i)) j).

Lemma accsum_step done r rest b j : residues t = done ++ r :: rest ->
  bpass t r (accsum done b) (fun i => Yk b (index t r i)) j = accsum (done ++ [r]) b j.
Proof.
  intros E. unfold bpass, accsum. rewrite csl_app. cbn [csl fold_right].
  destruct (residues_shape t Hwf) as (k & ER & H0 & Hd & _). rewrite ER in E.
  destruct done as [|d done]; cbn [app] in E.
  - injection E as <- _. cbn [Nat.eqb csl fold_right]. ring.
  - injection E as <- E. assert (Hin : In r (map (fun i => increment t 0 + gdr t * i) (seq 0 k))).
    { rewrite E. apply in_or_app. right. left. reflexivity. }
    apply in_map_iff in Hin. destruct Hin as (i & <- & _).
    destruct (Nat.eqb_spec (increment t 0 + gdr t * i) 0); [lia|]. ring.
Qed.

(** the residue loop, accumulating in blocks disjoint from the data *)
Lemma rfor_spec (h : parr) (ha : nat -> addr) : goverwrite t = false -> phi_ok -> (gD t = 1 \/ B <= A) ->
  W0ok c Fa 0 B ->
  (forall b, b < B -> h b = Some (ha b)) ->
  djbb B ha L NN Fa OS -> djb B ha L -> (forall b, b < B -> Wdj (ha b) L) ->
  djbb NN ga L B ha L ->
  forall rs done (m0 : mem) (K : mem -> Prop), residues t = done ++ rs ->
  Wok m0 -> allocb NN Fa OS m0 ->
  (forall a i, a < A -> i < L -> m0 (ga a + i) = Val (x a i)) ->
  allocb B ha L m0 ->
  (done <> [] -> forall b j, b < B -> j < L -> m0 (ha b + j) = Val (accsum done b j)) ->
  (forall m',
     (forall b j, b < B -> j < L -> m' (ha b + j) = Val (idftx t (Yk b) j)) ->
     (forall ad, outb 0 B ha L ad -> outb 0 NN Fa OS ad -> outW ad -> m' ad = m0 ad) ->
     Wok m' -> (forall ad, m0 ad <> Unalloc -> m' ad <> Unalloc) -> K m') ->
  WP (rfor rs (fun r => Seq (cforward c (arr NN ga) (cF c) r 0 A) (Seq (operate c (cF c) r) (cbackwardPad c (cF c) h r 0 B (cW0 c))))) m0 K.
Proof.
  intros How Hphi HAB HW0 Hh HdhF Hdhh HhW Hdgh. pose proof A_N as HAN.
  induction rs as [|r rs IH]; intros done m0 K E HW HFa Hx Hha Hacc HK; cbn [rfor].
  - apply WP_skip. rewrite app_nil_r in E. apply HK; auto.
    intros b j Hb Hj. rewrite Hacc; [|rewrite <- E|assumption|assumption].
    + unfold accsum. rewrite <- E, pass_sum by assumption. reflexivity.
    + destruct (residues_shape t Hwf) as (k & ER & _). rewrite ER. discriminate.
  - apply WP_seq. apply pass_spec with (ha := ha) (acc := accsum done); auto.
    { rewrite E. apply in_or_app. right. left. reflexivity. }
    { intros Hr. apply Hacc. intros ->. cbn [app] in E. destruct (residues_shape t Hwf) as (k & ER & _).
      rewrite ER in E. injection E as E1 _. congruence. }
    intros m1 H1v H1f H1w H1a.
    assert (Hout : forall a i, a < A -> i < L -> m1 (ga a + i) = m0 (ga a + i)).
    { intros a i Ha Hi. apply H1f.
      - intros b Hb. pose proof (Hdgh a b ltac:(lia) ltac:(lia)) as Hd. unfold dj in Hd. lia.
      - intros b Hb. pose proof (HdgF a b ltac:(lia) ltac:(lia)) as Hd. unfold dj in Hd. lia.
      - pose proof (HgW a ltac:(lia)) as Hd. unfold Conv1.Wdj, Conv1.outW in *. destruct (cW c); [|exact I]. unfold dj in Hd. lia. }
    apply (IH (done ++ [r])); auto.
    { rewrite <- app_assoc. assumption. }
    { intros a i Ha Hi. apply H1a, HFa; assumption. }
    { intros a i Ha Hi. rewrite Hout by assumption. auto. }
    { intros a i Ha Hi. apply H1a, Hha; assumption. }
    { intros _ b j Hb Hj. rewrite H1v by assumption. f_equal. eapply accsum_step. eassumption. }
    intros m' HV HF HWm Hal. apply HK; auto.
    intros ad O1 O2 O3. rewrite HF, H1f; auto.
Qed.
End T.
