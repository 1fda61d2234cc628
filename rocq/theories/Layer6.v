(** From separated lists of blocks to the disjointness facts of Layer5; the generic object. *)
From Coq Require Import Reals ZArith Arith Lia List Bool Permutation FunctionalExtensionality.
From Verif Require Import CNum Sums Roots Mem VecModel PadModel PadKernels Loops PadLemmas PadGeom PadIndex Fwd1 FwdAll
  ConvModel ConvSpec Conv1 Conv3 Conv6 PadSpec PadRound PadBridge PadProofs Team TeamGood LayerModel LayerSpec Layer1 Layer2 Layer3 Layer4 Layer5 Xf XfProofs XfBridge.
Import ListNotations.

Definition cross (l1 l2 : list block) : Prop := forall x y, In x l1 -> In y l2 -> apart (fst x) (snd x) (fst y) (snd y).
Lemma apart_sym a n b k : apart a n b k -> apart b k a n.
Proof. unfold apart. intuition. Qed.
Lemma cross_sym l1 l2 : cross l1 l2 -> cross l2 l1.
Proof. intros H x y Hx Hy. apply apart_sym, H; assumption. Qed.
Lemma sep_app l1 l2 : separated (l1 ++ l2) <-> separated l1 /\ separated l2 /\ cross l1 l2.
Proof.
  unfold separated. induction l1 as [|a l1 IH]; cbn [app].
  - split; [intros H; split; [constructor|]; split; [assumption|intros x y []]|tauto].
  - split.
    + intros H. inversion H as [|? ? Ha Hr]; subst. apply IH in Hr. destruct Hr as (H1 & H2 & H3).
      apply Forall_app in Ha. destruct Ha as [Ha1 Ha2]. split; [constructor; assumption|]. split; [assumption|].
      intros x y [<-|Hx] Hy; [|apply H3; assumption]. rewrite Forall_forall in Ha2. apply Ha2. assumption.
    + intros (H1 & H2 & H3). inversion H1 as [|? ? Ha Hr]; subst. constructor.
      * apply Forall_app. split; [assumption|]. apply Forall_forall. intros y Hy. apply H3; [left; reflexivity|assumption].
      * apply IH. split; [assumption|]. split; [assumption|]. intros x y Hx Hy. apply H3; [right; assumption|assumption].
Qed.
Lemma sep_map (g : nat -> block) n a b : separated (map g (seq 0 n)) -> a < n -> b < n -> a <> b ->
  apart (fst (g a)) (snd (g a)) (fst (g b)) (snd (g b)).
Proof.
  intros H Ha Hb Hne. assert (G : forall a b, a < b -> b < n -> apart (fst (g a)) (snd (g a)) (fst (g b)) (snd (g b))).
  { clear a b Ha Hb Hne. intros a b Hab Hb. replace n with (a + S (n - a - 1)) in H by lia. rewrite seq_app, map_app in H. apply sep_app in H.
    destruct H as (_ & H & _). cbn [seq map Nat.add] in H. inversion H as [|? ? Hf _]; subst. rewrite Forall_forall in Hf. apply Hf.
    apply in_map, in_seq. lia. }
  destruct (Nat.lt_ge_cases a b); [apply G; lia|apply apart_sym, G; lia].
Qed.
Lemma cross_incl l1 l2 k1 k2 : cross l1 l2 -> incl k1 l1 -> incl k2 l2 -> cross k1 k2.
Proof. intros H H1 H2 x y Hx Hy. apply H; auto. Qed.
Lemma sep_flat (g : nat -> list block) n : separated (flat_map g (seq 0 n)) ->
  (forall th, th < n -> separated (g th)) /\ (forall th th', th < n -> th' < n -> th <> th' -> cross (g th) (g th')).
Proof.
  intros H. assert (G : forall a, a < n -> separated (g a) /\ forall b, a < b < n -> cross (g a) (g b)).
  { intros a Ha. replace n with (a + S (n - a - 1)) in H by lia. rewrite seq_app, flat_map_app in H. apply sep_app in H.
    destruct H as (_ & H & _). cbn [seq flat_map Nat.add] in H. apply sep_app in H. destruct H as (H1 & _ & H2). split; [assumption|].
    intros b Hb. eapply cross_incl; [exact H2|apply incl_refl|]. intros x Hx. apply in_flat_map. exists b. split; [apply in_seq; lia|assumption]. }
  split; [intros th Hth; apply G; assumption|]. intros th th' H1 H2 Hne.
  destruct (Nat.lt_ge_cases th th'); [apply G; lia|apply cross_sym, G; lia].
Qed.

Definition inb (l : list block) (ad : addr) : bool := existsb (fun bn => inblk (fst bn) (snd bn) ad) l.
Lemma inb_iff l ad : inb l ad = true <-> exists b n, In (b, n) l /\ b <= ad < b + n.
Proof.
  unfold inb. rewrite existsb_exists. split.
  - intros ([b n] & H1 & H2). apply inblk_iff in H2. exists b, n. auto.
  - intros (b & n & H1 & H2). exists (b, n). split; [assumption|]. apply inblk_iff. assumption.
Qed.
Lemma cross_inb l1 l2 ad : cross l1 l2 -> inb l1 ad = true -> inb l2 ad = true -> False.
Proof.
  intros H H1 H2. apply inb_iff in H1, H2. destruct H1 as (b & n & Hi & Hr), H2 as (b' & n' & Hi' & Hr').
  specialize (H _ _ Hi Hi'). cbn [fst snd] in H. unfold apart in H. lia.
Qed.
Lemma cross_one l b n ad : cross l [(b, n)] -> inb l ad = true -> ad < b \/ b + n <= ad.
Proof.
  intros H H1. destruct (Nat.lt_ge_cases ad b); [auto|]. destruct (Nat.lt_ge_cases ad (b + n)); [|auto]. exfalso.
  eapply cross_inb; [exact H|exact H1|]. apply inb_iff. exists b, n. split; [left; reflexivity|lia].
Qed.
Lemma inb_out l ad : inb l ad = false <-> elsewhere l ad.
Proof.
  split.
  - intros H b n Hi. destruct (Nat.lt_ge_cases ad b); [auto|]. destruct (Nat.lt_ge_cases ad (b + n)); [|auto].
    rewrite (proj2 (inb_iff l ad)) in H; [discriminate|]. exists b, n. auto.
  - intros H. apply not_true_is_false. intros Hi. apply inb_iff in Hi. destruct Hi as (b & n & Hi & Hr). specialize (H b n Hi). lia.
Qed.
Lemma pt_apart a n b k : (forall ad, b <= ad < b + k -> ad < a \/ a + n <= ad) -> apart a n b k.
Proof.
  intros H. unfold apart. destruct (Nat.eq_dec n 0); [auto|]. destruct (Nat.eq_dec k 0); [auto|].
  destruct (Nat.le_gt_cases (a + n) b); [auto|]. destruct (Nat.le_gt_cases (b + k) a); [auto|]. exfalso.
  destruct (H (max a b)); lia.
Qed.

Section Own.
Variable t : xf.
Variables (J Sy rl : nat).
Hypothesis HG : geo t J Sy rl.
Notation S := (gS t). Notation l := (gl t). Notation L := (gL t). Notation A := (aA t). Notation B := (aB t).
Lemma OS_Sl : outputSize t = S * l.
Proof. unfold outputSize, gb. rewrite (g_D _ _ _ _ HG). lia. Qed.
Lemma WV_SL : useV t -> workSizeV t = S * L.
Proof.
  intros (H1 & H2 & _). unfold workSizeV. rewrite H2, orb_false_r. destruct (Nat.eqb_spec (nloops t) 1); [lia|].
  unfold cq. replace (2 * S * L + 2 - 1) with (1 + S * L * 2) by lia. rewrite Nat.div_add by lia. reflexivity.
Qed.
Lemma pos_Sl : 1 <= S * l. Proof. exact (Sl_pos t J Sy rl HG). Qed.
Lemma pos_SL : 1 <= S * L. Proof. pose proof (S_pos t J Sy rl HG). pose proof (wf_L t (g_wf _ _ _ _ HG)). nia. Qed.

Variables (F V : nat -> addr) (w : addr).
Notation own := (own_blocks t F V w).
Lemma in_F a : a < max A B -> In (F a, outputSize t) own.
Proof. intros Ha. unfold own_blocks. apply in_or_app. left. apply (in_map (fun a => (F a, outputSize t))), in_seq. lia. Qed.
Lemma in_V b : b < B -> In (V b, workSizeV t) own.
Proof. intros Ha. unfold own_blocks. apply in_or_app. right. apply in_or_app. left. apply (in_map (fun a => (V a, workSizeV t))), in_seq. lia. Qed.
Lemma in_W : In (w, workSizeW t) own.
Proof. unfold own_blocks. apply in_or_app. right. apply in_or_app. right. left. reflexivity. Qed.

Section Sep.
Hypothesis Hs : separated own.
Lemma sep_FF a b : a < max A B -> b < max A B -> a <> b -> dj (F a) (S * l) (F b) (S * l).
Proof.
  intros Ha Hb Hne. unfold own_blocks in Hs. apply sep_app in Hs. destruct Hs as (H1 & _ & _).
  pose proof (sep_map _ _ _ _ H1 Ha Hb Hne) as H. cbn [fst snd] in H. rewrite OS_Sl in H. unfold apart in H. pose proof pos_Sl. unfold dj. lia.
Qed.
Lemma sep_VV a b : useV t -> a < B -> b < B -> a <> b -> dj (V a) (S * L) (V b) (S * L).
Proof.
  intros HV Ha Hb Hne. unfold own_blocks in Hs. apply sep_app in Hs. destruct Hs as (_ & H1 & _). apply sep_app in H1. destruct H1 as (H1 & _ & _).
  pose proof (sep_map _ _ _ _ H1 Ha Hb Hne) as H. cbn [fst snd] in H. rewrite (WV_SL HV) in H. unfold apart in H. pose proof pos_SL. unfold dj. lia.
Qed.
Lemma sep_VF a b : useV t -> a < B -> b < max A B -> dj (V a) (S * L) (F b) (S * l).
Proof.
  intros HV Ha Hb. unfold own_blocks in Hs. apply sep_app in Hs. destruct Hs as (_ & _ & H).
  specialize (H (F b, outputSize t) (V a, workSizeV t)). cbn [fst snd] in H. rewrite OS_Sl, (WV_SL HV) in H. pose proof pos_SL. pose proof pos_Sl.
  assert (Hd : apart (F b) (S * l) (V a) (S * L)).
  { apply H.
    - apply in_map_iff. exists b. split; [reflexivity|apply in_seq; lia].
    - apply in_or_app. left. apply in_map_iff. exists a. split; [reflexivity|apply in_seq; lia]. }
  unfold apart in Hd. unfold dj. lia.
Qed.
Lemma sep_FW a : a < max A B -> Wfree t (lay_W t w) (F a) (S * l).
Proof.
  intros Ha. unfold lay_W, Wfree. destruct (ainplace t) eqn:E; [exact I|]. unfold own_blocks in Hs. apply sep_app in Hs. destruct Hs as (_ & _ & H).
  specialize (H (F a, outputSize t) (w, workSizeW t)). cbn [fst snd] in H. unfold workSizeW in H. rewrite E, OS_Sl in H. pose proof pos_Sl.
  assert (Hd : apart (F a) (S * l) w (S * l)).
  { apply H.
    - apply in_map_iff. exists a. split; [reflexivity|apply in_seq; lia].
    - apply in_or_app. right. left. reflexivity. }
  unfold apart in Hd. unfold dj. lia.
Qed.
Lemma sep_VW a : useV t -> a < B -> Wfree t (lay_W t w) (V a) (S * L).
Proof.
  intros HV Ha. unfold lay_W, Wfree. destruct (ainplace t) eqn:E; [exact I|]. unfold own_blocks in Hs. apply sep_app in Hs. destruct Hs as (_ & H1 & _).
  apply sep_app in H1. destruct H1 as (_ & _ & H).
  specialize (H (V a, workSizeV t) (w, workSizeW t)). cbn [fst snd] in H. unfold workSizeW in H. rewrite E, OS_Sl, (WV_SL HV) in H. pose proof pos_Sl. pose proof pos_SL.
  assert (Hd : apart (V a) (S * L) w (S * l)).
  { apply H.
    - apply in_map_iff. exists a. split; [reflexivity|apply in_seq; lia].
    - left. reflexivity. }
  unfold apart in Hd. unfold dj. lia.
Qed.
End Sep.

(** blocks apart from all of the own blocks *)
Section Away.
Variable ll : list block.
Hypothesis Hc : cross own ll.
Lemma away_F a ad : a < max A B -> inb ll ad = true -> ad < F a \/ F a + S * l <= ad.
Proof.
  intros Ha Hi. rewrite <- OS_Sl. eapply cross_one; [|exact Hi]. apply cross_sym. eapply cross_incl; [exact Hc| |apply incl_refl].
  intros x [<-|[]]. apply in_F. assumption.
Qed.
Lemma away_V b ad : useV t -> b < B -> inb ll ad = true -> ad < V b \/ V b + S * L <= ad.
Proof.
  intros HV Ha Hi. rewrite <- (WV_SL HV). eapply cross_one; [|exact Hi]. apply cross_sym. eapply cross_incl; [exact Hc| |apply incl_refl].
  intros x [<-|[]]. apply in_V. assumption.
Qed.
Lemma away_W ad : inb ll ad = true -> ~ Ww t (lay_W t w) ad.
Proof.
  intros Hi. unfold lay_W, Ww. destruct (ainplace t) eqn:E; [auto|]. intros Hw. apply (word_blk t J Sy rl HG) in Hw.
  assert (ad < w \/ w + workSizeW t <= ad).
  { eapply cross_one; [|exact Hi]. apply cross_sym. eapply cross_incl; [exact Hc| |apply incl_refl]. intros x [<-|[]]. apply in_W. }
  unfold workSizeW in H. rewrite E, OS_Sl in H. lia.
Qed.
End Away.
End Own.

Section Good.
Variable ly : layer.
Hypothesis Hrow : forall th k F off, tgood (lrow ly th k F off).
Lemma tgood_cmd (c : cmd C) : cgood c -> tgood (emb c).
Proof. apply cgood_emb. Qed.
Lemma cgood_lforward f F r a b off : cgood (lforward ly f F r a b off).
Proof.
  unfold lforward, pget. apply cgood_cfor. intros i _. destruct (f (a + i)); [|apply cgood_UBc]. destruct (F (a + i)); [|apply cgood_UBc].
  apply cgood_cfor. intros j _. apply cgood_forward.
Qed.
Lemma cgood_lbackward F f r a b off W : cgood (lbackward ly F f r a b off W).
Proof.
  unfold lbackward, pget. apply cgood_seq.
  - apply cgood_cfor. intros i _. destruct (F (a + i)); [|apply cgood_UBc]. destruct (f (a + i)); [|apply cgood_UBc].
    apply cgood_cfor. intros j _. apply cgood_backward.
  - destruct (lW ly); [|exact I]. destruct (opt_eqb _ _); [|exact I]. unfold padOpt. destruct W; [apply cgood_padW|].
    destruct (_ || _); [exact I|apply cgood_UBc].
Qed.
Lemma cgood_lcopy h f off : cgood (lcopy ly h f off).
Proof.
  unfold lcopy, pget. apply cgood_cfor. intros b _. destruct (f b); [|apply cgood_UBc]. destruct (h b); [|apply cgood_UBc]. exact I.
Qed.
Lemma tgood_lsub F r off : tgood (lsub ly F r off).
Proof. unfold lsub. constructor. intros i Hi. apply tgood_list. intros j Hj. apply Hrow. Qed.
Lemma tgood_tfor n (f : nat -> tc C) : (forall i, tgood (f i)) -> tgood (tfor n f).
Proof. intros H. induction n as [|n IH]; cbn [tfor]; [constructor|]. constructor; auto. Qed.
Lemma tgood_l2 fuel : forall a f off r k, (forall a, tgood (k a)) -> tgood (ll2loop ly fuel a f off r k).
Proof.
  induction fuel as [|fu IH]; intros a f off r k Hk; cbn [ll2loop]; [apply Hk|]. cbv zeta. destruct (_ <=? _); [|apply Hk].
  constructor; [apply tgood_cmd, cgood_lforward|]. constructor; [apply tgood_cmd, cgood_lbackward|]. apply IH, Hk.
Qed.
Lemma tgood_raw f off : tgood (lconvolveRaw ly f off).
Proof.
  unfold lconvolveRaw. destruct (goverwrite (lpad ly)).
  - constructor; [apply tgood_cmd, cgood_lforward|]. constructor; [apply tgood_tfor; intros; apply tgood_lsub|].
    constructor; [apply tgood_lsub|apply tgood_cmd, cgood_lbackward].
  - destruct (loop2 (lpad ly)).
    + cbv zeta. constructor; [apply tgood_cmd, cgood_lforward|]. constructor; [apply tgood_lsub|]. apply tgood_l2. intros a.
      constructor; [apply tgood_cmd, cgood_lforward|]. constructor; [apply tgood_lsub|apply tgood_cmd, cgood_lbackward].
    + cbv zeta. constructor.
      * apply tgood_list. intros r Hr. constructor; [apply tgood_cmd, cgood_lforward|]. constructor; [apply tgood_lsub|apply tgood_cmd, cgood_lbackward].
      * destruct (1 <? nloops (lpad ly)); [apply tgood_cmd, cgood_lcopy|constructor].
Qed.
End Good.
Lemma plain_good (c : cmd C) : plain c -> cgood c.
Proof. induction c; cbn [plain cgood]; try tauto. intros H S m Hp. destruct (H _ Hp). Qed.
