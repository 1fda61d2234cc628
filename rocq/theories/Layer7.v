(** The object of Layer5 from separated blocks; its constructor. *)
From Coq Require Import Reals ZArith Arith Lia List Bool Permutation FunctionalExtensionality.
From Verif Require Import CNum Sums Roots Mem VecModel PadModel PadKernels Loops PadLemmas PadGeom PadIndex Fwd1 FwdAll
  ConvModel ConvSpec Conv1 Conv3 Conv6 PadSpec PadRound PadBridge PadProofs Team TeamGood LayerModel LayerSpec Layer1 Layer2 Layer3 Layer4 Layer5 Layer6 Xf XfProofs XfBridge.
Import ListNotations.

Section Obj.
Variable ly : layer.
Notation t := (lpad ly).
Notation L := (gL t). Notation S := (gS t). Notation l := (gl t). Notation M := (gM t).
Notation J := (lJ ly). Notation Sy := (lSy ly). Notation W := (lW ly).
Notation A := (aA t). Notation B := (aB t). Notation T := (lT ly).
Variable rl : nat.
Variables (F V : nat -> addr) (w : addr) (RB : nat -> list block).
Variable rdy : nat -> mem -> Prop.
Variable Z : nat -> nat -> (nat -> nat -> C) -> nat -> C.
Variable ok_index : nat -> Prop.
Variable okx : (nat -> nat -> C) -> Prop.
Notation P := (fun th => inb (RB th)).
Notation rooms := (flat_map RB (seq 0 T)).

(** the arrays are those of the constructor *)
Record built : Prop := mkbuilt {
  e_F : lF ly = arr (max A B) F;
  e_Fp : lFp ly = lay_Fp t (arr (max A B) F);
  e_V : lV ly = arr B V;
  e_W : lW ly = lay_W t w;
  e_W0 : lW0 ly = lay_W0 t (arr (max A B) F) w
}.
Record rowok : Prop := mkrowok {
  k_loc : forall th m m', th < T -> (forall a, P th a = true -> m a = m' a) -> rdy th m -> rdy th m';
  k_row : row_ok ly rl P rdy Z ok_index okx;
  k_good : forall th k F off, tgood (lrow ly th k F off);
  k_idx : forall k, k < M -> ok_index k;
  k_sch : forall r, schedule T l (lsch ly r);
  k_ow : goverwrite t = true -> (forall k, ok_index k) /\ forall k k' b y o, b < B -> col t J Sy o -> Z k b y o = Z k' b y o
}.
Hypothesis HG : geo t J Sy rl.
Hypothesis HC : cgeo ly.
Hypothesis Hb : built.
Hypothesis HBA : B <= A.
Hypothesis Hl2 : loop2 t = true -> A = B + 1.
Hypothesis Hsep : separated (own_blocks t F V w ++ rooms).
Hypothesis Hk : rowok.

Lemma Sown : separated (own_blocks t F V w).
Proof. apply sep_app in Hsep. tauto. Qed.
Lemma Srooms : separated rooms.
Proof. apply sep_app in Hsep. tauto. Qed.
Lemma Xroom th : th < T -> cross (own_blocks t F V w) (RB th).
Proof.
  intros Hth. apply sep_app in Hsep. destruct Hsep as (_ & _ & H). eapply cross_incl; [exact H|apply incl_refl|].
  intros x Hx. apply in_flat_map. exists th. split; [apply in_seq; lia|assumption].
Qed.

Lemma Aeq : max A B = A. Proof. lia. Qed.
Definition rdy' (th : nat) (m : mem) : Prop := th < T -> rdy th m.
Lemma mk_obj : lobj ly rl P rdy' Z ok_index okx F V.
Proof.
  destruct Hb as [EF EFp EV EW EW0]. destruct Hk as [Kl Kr Kg Ki Ks Ko]. constructor; auto.
  - intros a Ha. rewrite EF. apply arr_some. lia.
  - intros Hl a Ha. rewrite EFp. unfold lay_Fp. destruct (Nat.eqb_spec a 0).
    + apply arr_some. lia.
    + destruct (Nat.ltb_spec a A); [|lia]. apply arr_some. lia.
  - intros Hl. rewrite EW0, EW. unfold lay_W0. rewrite Hl. specialize (Hl2 Hl). destruct (Nat.ltb_spec (B + 1) A); [lia|]. reflexivity.
  - intros HV b Hbb. rewrite EV. apply arr_some. assumption.
  - intros a b Ha Hbb Hne. apply (sep_FF t J Sy rl HG F V w Sown); lia.
  - intros a Ha. rewrite EW. apply (sep_FW t J Sy rl HG F V w Sown). lia.
  - intros HV a b Ha Hbb Hne. apply (sep_VV t J Sy rl HG F V w Sown); auto.
  - intros HV a b Ha Hbb. apply (sep_VF t J Sy rl HG F V w Sown); auto; lia.
  - intros HV a Ha. rewrite EW. apply (sep_VW t J Sy rl HG F V w Sown); auto.
  - intros th a ad Hth Ha Hp. apply (away_F t J Sy rl HG F V w (RB th) (Xroom th Hth) a ad); [lia|assumption].
  - intros HV th b ad Hth Hbb Hp. apply (away_V t F V w (RB th) (Xroom th Hth) b ad); auto.
  - intros th ad Hth Hp. rewrite EW. apply (away_W t J Sy rl HG F V w (RB th) (Xroom th Hth) ad). assumption.
  - intros th th' a Hth Hth' Hne Hp. apply not_true_is_false. intros Hp'.
    destruct (sep_flat RB T Srooms) as [_ H]. eapply cross_inb; [apply (H th th' Hth Hth' Hne)|exact Hp|exact Hp'].
  - intros th m m' H Hr Hth. eapply Kl; eauto.
  - intros th k F0 G off x m0 Hth Hok Hox EF0 HGG HPG Hx Hr. eapply TWP_mono; [|apply (Kr th k F0 G off x m0); auto].
    intros m' (H1 & H2 & H3). split; [assumption|]. split; [intros _; assumption|assumption].
  - intros r i Hr Hi. apply Ki. apply (index_lt t (g_wf _ _ _ _ HG)); [assumption|]. rewrite (noutl t J Sy rl HG). assumption.
  - intros How r i b y o Hr Hi Hbb Ho. apply (proj2 (Ko How)); assumption.
  - intros How r i Hr Hi. apply (proj1 (Ko How)).
Qed.

Lemma data_in f off a : a < A -> In (f a + off, S * L) (data_blocks t f off).
Proof. intros Ha. unfold data_blocks. apply (in_map (fun a => (f a + off, S * L))), in_seq. lia. Qed.

Lemma mk_arg (Pf : parr) f off : (forall a, a < A -> Pf a = Some (f a)) -> separated (data_blocks t f off) -> cross (data_blocks t f off) (own_blocks t F V w ++ rooms) ->
  larg ly P F V Pf f off.
Proof.
  intros HN Hs Hx. destruct Hb as [EF EFp EV EW EW0]. pose proof (pos_Sl t J Sy rl HG) as Hp1. pose proof (pos_SL t J Sy rl HG) as Hp2.
  assert (Hown : cross (data_blocks t f off) (own_blocks t F V w)).
  { eapply cross_incl; [exact Hx|apply incl_refl|]. intros x H. apply in_or_app. auto. }
  constructor.
  - exact HN.
  - intros a b Ha Hbb Hne. pose proof (sep_map _ _ _ _ Hs Ha Hbb Hne) as H. cbn [fst snd] in H. unfold apart in H. unfold dj. lia.
  - intros a b Ha Hbb. pose proof (Hown _ _ (data_in f off a Ha) (in_F t F V w b ltac:(lia))) as H. cbn [fst snd] in H.
    rewrite (OS_Sl t J Sy rl HG) in H. unfold apart in H. unfold dj. lia.
  - intros a Ha. rewrite EW. unfold lay_W, Wfree. destruct (ainplace t) eqn:E; [exact I|].
    pose proof (Hown _ _ (data_in f off a Ha) (in_W t F V w)) as H. cbn [fst snd] in H. unfold workSizeW in H. rewrite E, (OS_Sl t J Sy rl HG) in H.
    unfold apart in H. unfold dj. lia.
  - intros HV a b Ha Hbb. pose proof (Hown _ _ (data_in f off a Ha) (in_V t F V w b Hbb)) as H. cbn [fst snd] in H.
    rewrite (WV_SL t HV) in H. unfold apart in H. unfold dj. lia.
  - intros th a ad Hth Ha Hp. eapply cross_one; [|exact Hp]. apply cross_sym. eapply cross_incl; [exact Hx| |].
    + intros x [<-|[]]. apply data_in. assumption.
    + intros x H. apply in_or_app. right. apply in_flat_map. exists th. split; [apply in_seq; lia|assumption].
Qed.

Lemma rw_prov b n m : (forall i, i < S * n -> m (b + i) <> Unalloc) -> allocr t J Sy b n m.
Proof. intros H a Ha. apply (rw_blk t J Sy rl HG) in Ha. replace a with (b + (a - b)) by lia. apply H. lia. Qed.
Lemma word_prov b n m : (forall i, i < S * n -> m (b + i) <> Unalloc) -> allocated S (gC t) b n m.
Proof.
  intros H i c Hi Hc. rewrite <- Nat.add_assoc. apply H. pose proof (wf_CS t (g_wf _ _ _ _ HG)).
  assert (S * i + S <= S * n). { replace (S * i + S) with (S * (i + 1)) by lia. apply Nat.mul_le_mono_l. lia. } lia.
Qed.

(** the constructor's padding *)
Lemma pad_spec (m0 : mem) : provided (own_blocks t F V w) m0 -> (forall th, th < T -> rdy th m0) ->
  WP (padOpt t (lay_W t w)) m0 (fun m' => lst ly rdy' F V m' /\ only (fun ad => w <= ad < w + workSizeW t) m0 m').
Proof.
  intros Hpr Hr. destruct Hb as [EF EFp EV EW EW0].
  assert (HW : WP (padOpt t (lay_W t w)) m0 (fun m' => Wst t (lay_W t w) m' /\ only (fun ad => w <= ad < w + workSizeW t) m0 m')).
  { unfold lay_W, padOpt. destruct (ainplace t) eqn:E.
    - destruct (_ || _) eqn:E2; [apply WP_skip; split; [split; [exact E|exact I]|apply only_refl]|].
      exfalso. unfold repad in E2. apply orb_false_iff in E2. destruct E2 as [E2 E3]. apply orb_false_iff in E2. destruct E2 as [E2 E4].
      apply negb_false_iff in E3, E4. rewrite E in E3. discriminate.
    - pose proof (fun i Hi => Hpr w (workSizeW t) i (in_W t F V w) Hi) as Hw. unfold workSizeW in *. rewrite E in *. rewrite (OS_Sl t J Sy rl HG) in *.
      assert (Ha : allocated S (gC t) w l m0) by (apply word_prov; assumption).
      eapply WP_mono; [|apply (pad_x t (g_wf _ _ _ _ HG) w m0)].
      + rewrite (g_D _ _ _ _ HG), Nat.mul_1_r. intros m' [H1 H2]. split.
        * split; [split; [exact E|]|].
          -- intros i c Hi Hc. apply (proj2 H2). apply Ha; assumption.
          -- rewrite <- (noutl t J Sy rl HG 0). apply H1.
        * eapply only_mono; [exact H2|]. intros a Ha2. apply (word_blk t J Sy rl HG) in Ha2. assumption.
      + rewrite (g_D _ _ _ _ HG), Nat.mul_1_r. assumption. }
  eapply WP_mono; [|exact HW]. intros m' [H1 H2]. split; [|assumption]. constructor.
  - intros a Ha. apply rw_prov. intros i Hi. apply (proj2 H2). apply (Hpr (F a) (outputSize t) i); [apply in_F; lia|].
    rewrite (OS_Sl t J Sy rl HG). assumption.
  - intros HV b Hbb. apply rw_prov. intros i Hi. apply (proj2 H2). apply (Hpr (V b) (workSizeV t) i); [apply in_V; lia|].
    rewrite (WV_SL t HV). assumption.
  - rewrite EW. assumption.
  - intros th Hth _. eapply (k_loc Hk); [assumption| |apply Hr; assumption]. intros a Hp. symmetry. apply (proj1 H2). intros Ha.
    eapply cross_inb; [apply (Xroom th Hth)| |exact Hp]. apply inb_iff. exists w, (workSizeW t). split; [apply in_W|assumption].
Qed.

Lemma touched_in f off ad : touched ly P F V f off ad -> (exists a, a < A /\ rw t J Sy (f a + off) L ad) \/ inb (own_blocks t F V w ++ rooms) ad = true.
Proof.
  destruct Hb as [EF EFp EV EW EW0]. intros [H|[(a & Ha & H)|[(HV & b & Hbb & H)|[H|(th & Hth & H)]]]]; [left; exact H| | | |]; right; apply inb_iff.
  - apply (rw_blk t J Sy rl HG) in H. exists (F a), (outputSize t). split; [|rewrite (OS_Sl t J Sy rl HG); assumption].
    apply in_or_app. left. apply in_F. lia.
  - apply (rw_blk t J Sy rl HG) in H. exists (V b), (workSizeV t). split; [|rewrite (WV_SL t HV); assumption].
    apply in_or_app. left. apply in_V. lia.
  - rewrite EW in H. unfold lay_W, Ww in H. destruct (ainplace t) eqn:E; [contradiction|]. apply (word_blk t J Sy rl HG) in H.
    exists w, (workSizeW t). split; [apply in_or_app; left; apply in_W|]. unfold workSizeW. rewrite E, (OS_Sl t J Sy rl HG). assumption.
  - apply inb_iff in H. destruct H as (b & n & Hi & Hr). exists b, n. split; [|assumption]. apply in_or_app. right.
    apply in_flat_map. exists th. split; [apply in_seq; lia|assumption].
Qed.

(** the state depends on the object's own memory only *)
Lemma lst_loc (m m' : mem) : (forall a, inb (own_blocks t F V w ++ rooms) a = true -> m a = m' a) -> lst ly rdy' F V m -> lst ly rdy' F V m'.
Proof.
  intros E [S1 S2 [S3 S3'] S4]. destruct Hb as [EF EFp EV EW EW0].
  assert (E1 : forall b n ad, In (b, n) (own_blocks t F V w) -> b <= ad < b + n -> m' ad = m ad).
  { intros b n ad Hi Hr. symmetry. apply E. apply inb_iff. exists b, n. split; [apply in_or_app; left; assumption|assumption]. }
  assert (EWw : forall ad, Ww t W ad -> m' ad = m ad).
  { intros ad Hw. rewrite EW in Hw. unfold lay_W, Ww in Hw. destruct (ainplace t) eqn:Ei; [contradiction|]. apply (word_blk t J Sy rl HG) in Hw.
    apply (E1 w (workSizeW t)); [apply in_W|]. unfold workSizeW. rewrite Ei, (OS_Sl t J Sy rl HG). assumption. }
  constructor.
  - intros a Ha ad Hr. rewrite (E1 (F a) (outputSize t)); [apply (S1 a Ha ad Hr)|apply in_F; lia|]. rewrite (OS_Sl t J Sy rl HG).
    apply (rw_blk t J Sy rl HG) in Hr. assumption.
  - intros HV b Hbb ad Hr. rewrite (E1 (V b) (workSizeV t)); [apply (S2 HV b Hbb ad Hr)|apply in_V; assumption|]. rewrite (WV_SL t HV).
    apply (rw_blk t J Sy rl HG) in Hr. assumption.
  - unfold Wst, Wal in *. destruct W as [w'|]; [|split; assumption]. destruct S3 as [S3 S5]. split; [split; [assumption|]|].
    + intros i c Hi Hc. rewrite EWw; [apply S5; assumption|]. exists i, c. auto.
    + intros H1 H2 H3 i c Hi Hc Hm. rewrite EWw; [apply S3'; assumption|]. exists i, c. auto.
  - intros th Hth Hth'. eapply (k_loc Hk); [assumption| |apply S4; assumption]. intros a Ha. apply E. apply inb_iff in Ha. destruct Ha as (b & n & Hi & Hr).
    apply inb_iff. exists b, n. split; [|assumption]. apply in_or_app. right. apply in_flat_map. exists th. split; [apply in_seq; lia|assumption].
Qed.

(** convolveRaw, for a caller that sees only blocks *)
Lemma raw_blocks (Pf : parr) f off x (m0 : mem) : okd ly okx x -> (forall a, a < A -> Pf a = Some (f a)) -> separated (data_blocks t f off ++ own_blocks t F V w ++ rooms) ->
  (forall a, a < A -> hasr t J Sy (f a + off) L (x a) m0) -> lst ly rdy' F V m0 ->
  TWP (lconvolveRaw ly Pf off) m0 (fun m' =>
    (forall b, b < B -> hasr t J Sy (f b + off) L (out ly Z x b) m') /\ lst ly rdy' F V m' /\
    only (fun ad => (exists a, a < A /\ rw t J Sy (f a + off) L ad) \/ inb (own_blocks t F V w ++ rooms) ad = true) m0 m').
Proof.
  intros Hokd HN Hs Hx Hst. apply sep_app in Hs. destruct Hs as (H1 & H2 & H3).
  eapply TWP_mono; [|apply (raw_spec ly rl P rdy' Z ok_index okx F V mk_obj Pf f off x m0 Hokd (mk_arg Pf f off HN H1 H3) Hx Hst)].
  intros m' (K1 & K2 & K3). split; [assumption|]. split; [assumption|]. eapply only_mono; [exact K3|]. intros ad. apply touched_in.
Qed.
Lemma conv_blocks (Pf : parr) f off x (m0 : mem) : okd ly okx x -> (forall a, a < A -> Pf a = Some (f a)) -> separated (data_blocks t f off ++ own_blocks t F V w ++ rooms) ->
  (forall a, a < A -> hasr t J Sy (f a + off) L (x a) m0) -> lst ly rdy' F V m0 ->
  TWP (lconvolve ly Pf off) m0 (fun m' =>
    (forall b, b < B -> hasr t J Sy (f b + off) L (fun i o => Cmul (out ly Z x b i o) (RtoC (lscale ly))) m') /\ lst ly rdy' F V m' /\
    only (fun ad => (exists a, a < A /\ rw t J Sy (f a + off) L ad) \/ inb (own_blocks t F V w ++ rooms) ad = true) m0 m').
Proof.
  intros Hokd HN Hs Hx Hst. apply sep_app in Hs. destruct Hs as (H1 & H2 & H3).
  eapply TWP_mono; [|apply (convolve_spec ly rl P rdy' Z ok_index okx F V mk_obj Pf f off x m0 Hokd (mk_arg Pf f off HN H1 H3) Hx Hst)].
  intros m' (K1 & K2 & K3). split; [assumption|]. split; [assumption|]. eapply only_mono; [exact K3|]. intros ad. apply touched_in.
Qed.
End Obj.
