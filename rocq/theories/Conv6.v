(** Convolution: the constructor followed by convolveRaw / convolve. *)
From Coq Require Import Reals ZArith Arith Lia List Bool Permutation.
From Verif Require Import CNum Sums Roots Mem VecModel VecProofs PadModel PadKernels Loops PadLemmas PadMath PadGeom Fwd1 FwdAll PadForward ConvMath ConvModel ConvSpec Conv1 Conv2 Conv3 Conv4 Conv5 Xf XfProofs.
Import ListNotations.

Lemma cfor_ext n (f g : nat -> cmd C) : (forall i, i < n -> f i = g i) -> cfor n f = cfor n g.
Proof.
  induction n as [|n IH]; intros H; [reflexivity|]. cbn [cfor]. rewrite (H n) by lia.
  rewrite IH; [reflexivity|]. intros; apply H; lia.
Qed.

Definition sh (h : parr) (off : nat) : parr := fun b => option_map (fun a => a + off) (h b).
Lemma normalize_eq c h off : normalize c h off =
  cfor (aB (cpad c)) (fun b => pget (sh h off) b (fun gb => pget (sh h off) b (fun hb =>
    Do (pForR 0 (gL (cpad c)) (fun i => x <- hb + i ;; gb + i ::= Cmul x (RtoC (/ INR (gM (cpad c)))) ;; Ret))))).
Proof. unfold normalize. apply cfor_ext. intros b Hb. unfold pget, sh. destruct (h b); reflexivity. Qed.

Section T.
Variable t : xf.
Hypothesis Hwf : wf t.
Hypothesis HS : gS t = 1.
Notation L := (gL t). Notation A := (aA t). Notation B := (aB t). Notation M := (gM t).
Notation N := (max A B).
Variables (ga Fa Va : nat -> addr) (w : addr).
Variable mult : multiplier.
Definition cc : conv := cinit t mult (arr N Fa) (arr B Va) false w.
Notation c := cc.
Variable phi : nat -> nat -> nat -> (nat -> C) -> C.
Hypothesis Hmult : mult_ok A B phi mult.
Variable Phi : nat -> nat -> (nat -> C) -> C.
Hypothesis Hext : forall k b v v', (forall a, a < A -> v a = v' a) -> Phi k b v = Phi k b v'.

(** which element of the spectrum each call of the multiplier sees *)
Definition sees : Prop :=
  if goverwrite t then forall r i k b v, phi r i b v = Phi k b v else phi_ok c phi Phi.

(** the state between calls *)
Definition ready (mm : mem) : Prop := buffers t ga Fa Va w mm /\ Wok c mm.

Lemma buffers_alloc mm mm' : buffers t ga Fa Va w mm -> (forall ad, mm ad <> Unalloc -> mm' ad <> Unalloc) ->
  buffers t ga Fa Va w mm'.
Proof. intros [] H. constructor; auto. Qed.

Lemma OS_pos' : 1 <= outputSize t.
Proof.
  change (outputSize t) with (OS c). rewrite (OS_eq c HS). pose proof (XfProofs.l_pos t Hwf). change (cpad c) with t in *.
  pose proof (wf_D t Hwf). nia.
Qed.
Lemma wW_out : ainplace t = false -> workSizeW t = outputSize t.
Proof. intros E. unfold workSizeW. rewrite E. reflexivity. Qed.
Lemma wV_out : 1 < nloops t -> loop2 t = false -> workSizeV t = L.
Proof.
  intros Hn El. unfold workSizeV. rewrite El, orb_false_r. destruct (Nat.eqb_spec (nloops t) 1); [lia|]. rewrite HS.
  replace (2 * 1 * L) with (2 * L) by lia. unfold cq. replace (2 * L + 2 - 1) with (1 + L * 2) by lia. rewrite Nat.div_add by lia. reflexivity.
Qed.
Lemma bfacts mm : buffers t ga Fa Va w mm ->
  djb N ga L /\ djb N Fa (outputSize t) /\ djbb N ga L N Fa (outputSize t) /\
  (ainplace t = false -> (forall a, a < N -> dj (ga a) L w (outputSize t)) /\ (forall a, a < N -> dj (Fa a) (outputSize t) w (outputSize t))) /\
  (1 < nloops t -> loop2 t = false -> djb B Va L /\ djbb N ga L B Va L /\ djbb B Va L N Fa (outputSize t) /\
     (ainplace t = false -> forall a, a < B -> dj (Va a) L w (outputSize t)) /\ allocb B Va L mm).
Proof.
  intros [Hgg HFF HVV HgF HgV HVF Hgw HFw HVw Hga HFal HVal Hwal]. pose proof OS_pos' as HO. assert (HL : 1 <= L) by apply (wf_L t Hwf).
  change (aL t) with L in *. unfold apart in *. unfold djb, djbb, dj, allocb.
  split; [intros a b Ha Hb Hne; specialize (Hgg a b Ha Hb Hne); lia|].
  split; [intros a b Ha Hb Hne; specialize (HFF a b Ha Hb Hne); lia|].
  split; [intros a b Ha Hb; specialize (HgF a b Ha Hb); lia|].
  split.
  - intros Ei. rewrite (wW_out Ei) in *. split; intros a Ha; [specialize (Hgw a Ha)|specialize (HFw a Ha)]; lia.
  - intros Hn El. rewrite (wV_out Hn El) in *.
    split; [intros a b Ha Hb Hne; specialize (HVV a b Ha Hb Hne); lia|].
    split; [intros a b Ha Hb; specialize (HgV a b Ha Hb); lia|].
    split; [intros a b Ha Hb; specialize (HVF a b Ha Hb); lia|].
    split; [|assumption]. intros Ei. rewrite (wW_out Ei) in *. intros a Ha; specialize (HVw a Ha); lia.
Qed.

Lemma init_spec (m0 : mem) (K : mem -> Prop) : buffers t ga Fa Va w m0 ->
  (forall m', ready m' -> (forall ad, ad < w \/ w + workSizeW t <= ad -> m' ad = m0 ad) ->
     (forall ad, m0 ad <> Unalloc -> m' ad <> Unalloc) -> K m') ->
  WP (cinit_cmd c) m0 K.
Proof.
  intros Hb HK. unfold cinit_cmd. cbn [cpad cc cinit cW negb andb]. pose proof (b_wa _ _ _ _ _ _ Hb) as Hw.
  destruct (Nat.eqb_spec (gq t) 1) as [Hq|Hq].
  - apply WP_skip. apply HK; auto. split; [assumption|]. unfold Wok. cbn [cc cinit cW cpad negb andb].
    destruct (ainplace t) eqn:Ei; cbn [negb]; [reflexivity|]. rewrite (wW_out Ei) in *. split; [reflexivity|]. split; [assumption|]. intros; contradiction.
  - unfold padOpt. destruct (ainplace t) eqn:Ei; cbn [negb].
    + replace (repad t) with false by (unfold repad; rewrite Ei; reflexivity).
      rewrite orb_true_r. apply WP_skip. apply HK; auto. split; [assumption|]. unfold Wok. cbn [cc cinit cW cpad negb andb]. rewrite Ei. reflexivity.
    + rewrite (wW_out Ei) in *. apply (padW_spec c Hwf HS w). { intros i Hi. apply Hw. exact Hi. }
      intros m' HZ HF Hal. apply HK; auto. split; [eapply buffers_alloc; eauto|].
      unfold Wok. cbn [cc cinit cW cpad negb andb]. rewrite Ei. cbn [negb]. split; [reflexivity|]. split; [|exact HZ].
      intros i Hi. apply Hal, Hw. exact Hi.
Qed.

Section Call.
Variable x : nat -> nat -> C.
Notation Yk := (Yk c Phi x).

Lemma convolveRaw_spec (m0 : mem) (K : mem -> Prop) :
  sees -> (gD t = 1 \/ B <= A) -> (loop2 t = true -> exists s, B = (A - B) * s) ->
  ready m0 -> holds A L ga x m0 ->
  (forall m', (forall b j, b < B -> j < L -> m' (ga b + j) = Val (idftx t (Yk b) j)) ->
     (forall ad, outside t ga Fa Va w ad -> m' ad = m0 ad) -> ready m' -> K m') ->
  WP (convolveRaw c (arr N ga)) m0 K.
Proof.
  intros Hsees HAB Hdiv (Hb & HW) Hx HK.
  assert (HC : forall a, cF c a = arr N Fa a) by reflexivity.
  destruct (bfacts m0 Hb) as (Hgg & HFF & HgF & Hw & HVb).
  pose proof (b_ga _ _ _ _ _ _ Hb) as Hga. pose proof (b_Fa _ _ _ _ _ _ Hb) as HFal.
  assert (HgW : forall a, a < N -> Wdj c (ga a) L).
  { intros a Ha. unfold Wdj. cbn [cc cinit cW negb andb]. destruct (ainplace t); cbn [negb]; [exact I|]. apply (Hw eq_refl); assumption. }
  assert (HFW : forall a, a < N -> Wdj c (Fa a) (OS c)).
  { intros a Ha. unfold Wdj. cbn [cc cinit cW negb andb]. destruct (ainplace t); cbn [negb]; [exact I|]. apply (Hw eq_refl); assumption. }
  assert (HVW : 1 < nloops t -> loop2 t = false -> forall a, a < B -> Wdj c (Va a) L).
  { intros Hn El a Ha. destruct (HVb Hn El) as (_ & _ & _ & HVw & _). unfold Wdj. cbn [cc cinit cW negb andb]. destruct (ainplace t); cbn [negb]; [exact I|]. apply HVw; auto. }
  assert (Hout : forall ad, outside t ga Fa Va w ad -> outb 0 B ga L ad /\ outb 0 N ga L ad /\ outb 0 N Fa (OS c) ad /\ (1 < nloops t -> loop2 t = false -> outb 0 B Va L ad) /\ outW c ad).
  { intros ad (O1 & O2 & O3 & O4). split; [intros i Hi; apply O1; lia|]. split; [intros i Hi; apply O1; lia|].
    split; [intros i Hi; apply O2; lia|]. split.
    - intros Hn El i Hi. rewrite (wV_out Hn El) in O3. apply O3; lia.
    - unfold outW. cbn [cc cinit cW negb andb]. destruct (ainplace t) eqn:Ei; cbn [negb]; [exact I|]. rewrite (wW_out Ei) in O4. exact O4. }
  unfold convolveRaw. change (cpad c) with t. unfold sees in Hsees.
  destruct (Nat.eqb_spec (gq t) 1) as [Hq|Hq].
  { rewrite (q1_ow t Hq) in Hsees.
    apply (q1_branch c Hwf HS ga Fa HC HgF HFF Hgg HgW HFW phi Hmult Phi x); auto.
    intros m' HV HF HWm Hal. apply HK; [exact HV| |split; [eapply buffers_alloc; eauto|assumption]].
    intros ad Had. destruct (Hout ad Had) as (O1 & _ & O2 & _ & O3). apply HF; assumption. }
  destruct (goverwrite t) eqn:How.
  { apply (ow_branch c Hwf HS ga Fa HC HgF HFF Hgg HgW HFW phi Hmult Phi x Hext); auto.
    intros m' HV HF Hal. apply HK; [exact HV| |split; [eapply buffers_alloc; eauto|]].
    - intros ad Had. destruct (Hout ad Had) as (_ & O1 & O2 & _ & O3). apply HF; assumption.
    - destruct (ow_facts t Hwf How) as (_ & Hi & _). unfold Wok. cbn [cc cinit cW cpad negb andb]. rewrite Hi. cbn [negb]. reflexivity. }
  destruct (loop2 t) eqn:Hl2.
  { apply (loop2_spec c Hwf HS ga Fa HC eq_refl HgF HFF Hgg HgW HFW phi Hmult Phi x); auto.
    - cbn [cc cinit cW cW0 cpad]. rewrite Hl2. cbn [negb andb]. rewrite andb_false_r. reflexivity.
    - cbn [cc cinit cPadNone cpad]. rewrite Hl2. cbn [negb andb]. apply andb_false_r.
    - intros m' HV HF HWm Hal. apply HK; [exact HV| |split; [eapply buffers_alloc; eauto|assumption]].
      intros ad Had. destruct (Hout ad Had) as (O1 & _ & O2 & _ & O3). apply HF; assumption. }
  apply (gen_branch c Hwf HS ga Fa Va HC HgF HFF Hgg HgW HFW phi Hmult Phi x); auto.
  - unfold W0ok. cbn [cc cinit cW cW0 cpad cPadNone negb andb].
    destruct (negb (gq t =? 1) && (negb (loop2 t) && (B <? A) && negb (ainplace t) && (workSizeW t <=? outputSize t))) eqn:E; [right|left; auto].
    repeat rewrite andb_true_iff in E. destruct E as (_ & ((_ & E1) & E2) & _). apply Nat.ltb_lt in E1.
    exists B. unfold NN. cbn [cc cinit cpad]. split; [lia|]. split; [lia|].
    split; [apply arr_some; lia|]. destruct (ainplace t); [discriminate|reflexivity].
  - intros Hn. split; [reflexivity|]. destruct (HVb Hn eq_refl) as (V1 & V2 & V3 & V4 & V5). repeat (split; auto).
  - intros m' HV HF HWm Hal. apply HK; [exact HV| |split; [eapply buffers_alloc; eauto|assumption]].
    intros ad Had. destruct (Hout ad Had) as (O1 & _ & O2 & O3 & O4). apply HF; auto.
Qed.

Lemma convolve_spec (m0 : mem) (K : mem -> Prop) :
  sees -> (gD t = 1 \/ B <= A) -> (loop2 t = true -> exists s, B = (A - B) * s) ->
  ready m0 -> holds A L ga x m0 ->
  (forall m', (forall b j, b < B -> j < L -> m' (ga b + j) = Val (Cmul (idftx t (Yk b) j) (RtoC (/ INR M)))) ->
     (forall ad, outside t ga Fa Va w ad -> m' ad = m0 ad) -> ready m' -> K m') ->
  WP (convolve c (arr N ga)) m0 K.
Proof.
  intros Hsees HAB Hdiv Hr Hx HK. unfold convolve. apply WP_seq. apply convolveRaw_spec; auto.
  intros m1 H1v H1f (H1b & H1w).
  apply WP_mono with (Q := fun mm => (forall b j, b < B -> j < L -> mm (ga b + j) = Val (Cmul (idftx t (Yk b) j) (RtoC (/ INR M)))) /\
    (forall ad, outb 0 B ga L ad -> mm ad = m1 ad) /\ (forall ad, m1 ad <> Unalloc -> mm ad <> Unalloc)).
  { intros mm (HV & HF & Hal). apply HK; auto.
    - intros ad Had. rewrite HF, H1f; auto. intros b Hb. destruct Had as (O & _). apply O. lia.
    - split; [eapply buffers_alloc; eauto|]. apply (Wok_frame c HS m1); [assumption|].
      intros ad Had. apply HF. intros b Hb. pose proof (b_gw _ _ _ _ _ _ H1b b ltac:(lia)) as Hd.
      destruct (Nat.lt_ge_cases ad (ga b)); [auto|]. destruct (Nat.lt_ge_cases ad (ga b + L)); [|auto].
      exfalso. apply Had. unfold outW. cbn [cc cinit cW negb andb]. destruct (ainplace t) eqn:Ei; cbn [negb]; [exact I|].
      rewrite (wW_out Ei) in Hd. pose proof OS_pos' as HO.
      change (cpad c) with t. unfold OS. change (cpad c) with t. unfold apart in Hd. change (aL t) with L in Hd. lia. }
  rewrite (normalize_eq c (arr N ga) 0). change (cpad c) with t.
  assert (Es : forall b, b < B -> sh (arr N ga) 0 b = Some (ga b)).
  { intros b Hb. unfold sh. rewrite arr_some by lia. cbn [option_map]. rewrite Nat.add_0_r. reflexivity. }
  apply (blockmap c HS (sh (arr N ga) 0) (sh (arr N ga) 0) ga ga (fun v => Cmul v (RtoC (/ INR M))) (fun b j => idftx t (Yk b) j)); auto.
  - intros b b' Hb Hb' Hne. destruct (bfacts m1 H1b) as (Dg & _). change (cpad c) with t in *. apply Dg; lia.
  - intros b j Hb Hj. apply (b_ga _ _ _ _ _ _ H1b); change (cpad c) with t in *; [lia|assumption].
Qed.
End Call.
End T.
