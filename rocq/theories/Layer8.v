(** Convolution2: the rows are Convolution objects. *)
From Coq Require Import Reals ZArith Arith Lia List Bool Permutation FunctionalExtensionality.
From Verif Require Import CNum Sums Roots Mem VecModel PadModel PadKernels Loops PadLemmas PadGeom PadIndex Fwd1 FwdAll
  ConvMath ConvModel ConvSpec Conv1 Conv2 Conv3 Conv4 Conv5 Conv6 PadSpec PadRound PadBridge PadProofs Team TeamGood LayerModel LayerSpec
  Layer1 Layer2 Layer3 Layer4 Layer5 Layer6 Layer7 Xf XfProofs XfBridge.
Import ListNotations.

Lemma sep_in l x y : separated l -> In x l -> In y l -> x = y \/ apart (fst x) (snd x) (fst y) (snd y).
Proof.
  unfold separated. induction l as [|a l IH]; intros H Hx Hy; [destruct Hx|]. inversion H as [|? ? Hf Hr]; subst. rewrite Forall_forall in Hf.
  destruct Hx as [<-|Hx], Hy as [<-|Hy]; [left; reflexivity|right; apply Hf; assumption|right; apply apart_sym, Hf; assumption|apply IH; assumption].
Qed.

(** the memory of one Convolution object and of the row it works on *)
Lemma own_buffers t (g F V : nat -> addr) w m : separated (own_blocks t F V w) -> provided (own_blocks t F V w) m ->
  (forall a b, a < max (aA t) (aB t) -> b < max (aA t) (aB t) -> a <> b -> apart (g a) (aL t) (g b) (aL t)) ->
  (forall a ad, a < max (aA t) (aB t) -> inb (own_blocks t F V w) ad = true -> ad < g a \/ g a + aL t <= ad) ->
  (forall a i, a < max (aA t) (aB t) -> i < aL t -> m (g a + i) <> Unalloc) -> buffers t g F V w m.
Proof.
  intros Hs Hp Hgg Hg Ha.
  assert (HX : forall a b n, a < max (aA t) (aB t) -> In (b, n) (own_blocks t F V w) -> apart (g a) (aL t) b n).
  { intros a b n Haa Hi. apply pt_apart. intros ad Had. apply Hg; [assumption|]. apply inb_iff. exists b, n. auto. }
  pose proof Hs as Hs0. unfold own_blocks in Hs0. apply sep_app in Hs0. destruct Hs0 as (SF & S2 & X1). apply sep_app in S2. destruct S2 as (SV & _ & X2).
  assert (IF : forall a, a < max (aA t) (aB t) -> In (F a, outputSize t) (map (fun a => (F a, outputSize t)) (seq 0 (max (aA t) (aB t))))).
  { intros a Haa. apply in_map_iff. exists a. split; [reflexivity|apply in_seq; lia]. }
  assert (IV : forall a, a < aB t -> In (V a, workSizeV t) (map (fun a => (V a, workSizeV t)) (seq 0 (aB t)))).
  { intros a Haa. apply in_map_iff. exists a. split; [reflexivity|apply in_seq; lia]. }
  constructor.
  - exact Hgg.
  - intros a b Haa Hb Hne. apply (sep_map _ _ _ _ SF Haa Hb Hne).
  - intros a b Haa Hb Hne. apply (sep_map _ _ _ _ SV Haa Hb Hne).
  - intros a b Haa Hb. apply HX; [assumption|apply in_F; assumption].
  - intros a b Haa Hb. apply HX; [assumption|apply in_V; assumption].
  - intros a b Haa Hb. apply apart_sym. apply (X1 (F b, outputSize t) (V a, workSizeV t)); [apply IF; assumption|apply in_or_app; left; apply IV; assumption].
  - intros a Haa. apply HX; [assumption|apply in_W].
  - intros a Haa. apply (X1 (F a, outputSize t) (w, workSizeW t)); [apply IF; assumption|apply in_or_app; right; left; reflexivity].
  - intros a Haa. apply (X2 (V a, workSizeV t) (w, workSizeW t)); [apply IV; assumption|left; reflexivity].
  - exact Ha.
  - intros a i Haa Hi. apply (Hp (F a) (outputSize t) i); [apply in_F; assumption|assumption].
  - intros a i Haa Hi. apply (Hp (V a) (workSizeV t) i); [apply in_V; assumption|assumption].
  - intros i Hi. apply (Hp w (workSizeW t) i); [apply in_W|assumption].
Qed.

(** the Convolution constructor *)
Lemma init_own t (F V : nat -> addr) w mult (m0 : mem) : wf t -> gS t = 1 -> (forall i, i < workSizeW t -> m0 (w + i) <> Unalloc) ->
  WP (cinit_cmd (cc t F V w mult)) m0 (fun m' => Wok (cc t F V w mult) m' /\ only (fun ad => w <= ad < w + workSizeW t) m0 m').
Proof.
  intros Hwf HS Hw. unfold cinit_cmd. cbn [cpad cc cinit cW negb andb].
  destruct (Nat.eqb_spec (gq t) 1) as [Hq|Hq].
  - apply WP_skip. split; [|apply only_refl]. unfold Wok. cbn [cc cinit cW cpad negb andb].
    destruct (ainplace t) eqn:Ei; cbn [negb]; [reflexivity|]. rewrite (wW_out t Ei) in *. split; [reflexivity|]. split; [assumption|]. intros; contradiction.
  - unfold padOpt. destruct (ainplace t) eqn:Ei; cbn [negb].
    + replace (repad t) with false by (unfold repad; rewrite Ei; reflexivity).
      rewrite orb_true_r. apply WP_skip. split; [|apply only_refl]. unfold Wok. cbn [cc cinit cW cpad negb andb]. rewrite Ei. reflexivity.
    + rewrite (wW_out t Ei) in *. apply (padW_spec (cc t F V w mult) Hwf HS w). { intros i Hi. apply Hw. exact Hi. }
      intros m' HZ HF Hal. split.
      * unfold Wok. cbn [cc cinit cW cpad negb andb]. rewrite Ei. cbn [negb]. split; [reflexivity|]. split; [|exact HZ].
        intros i Hi. apply Hal, Hw. exact Hi.
      * split; [|exact Hal]. intros a Ha. apply HF. unfold OS. cbn [cc cinit cpad]. lia.
Qed.

(** which element of a row's spectrum each call of the multiplier sees *)
Definition sees1 (t : xf) (phi : nat -> nat -> nat -> (nat -> C) -> C) (Phi : nat -> nat -> (nat -> C) -> C) : Prop :=
  if goverwrite t then forall r i k b v, phi r i b v = Phi k b v else
  forall r i b v, In r (residues t) -> i < noutputs t r ->
    phi r (noutputs t 0 * (i / gl t) + i mod gl t) b v = Phi (index t r i) b v.

Section C2.
Variables (tx ty : xf) (mult : nat -> multiplier).
Variables (phi : nat -> nat -> nat -> nat -> (nat -> C) -> C) (Phi : nat -> nat -> nat -> (nat -> C) -> C).
Notation A := (aA tx). Notation B := (aB tx). Notation Mx := (gM tx). Notation My := (gM ty). Notation Lx := (gL tx). Notation Ly := (gL ty).

(** the two transforms fit together *)
Record fit2 : Prop := mkfit2 {
  f_wfx : wf tx; f_wfy : wf ty; f_D : gD tx = 1; f_Sy : gS ty = 1;
  f_C : gC tx = Ly; f_S : Ly <= gS tx; f_A : aA ty = A; f_B : aB ty = B; f_BA : B <= A;
  f_l2x : loop2 tx = true -> A = B + 1;
  f_l2y : loop2 ty = true -> exists s, B = (A - B) * s
}.
(** the multiplication routine *)
Record mul2 : Prop := mkmul2 {
  u_ok : forall k, mult_ok A B (phi k) (mult k);
  u_good : forall k, good_mult (mult k);
  u_ext : forall k ky b v v', (forall a, a < A -> v a = v' a) -> Phi k ky b v = Phi k ky b v';
  u_sees : forall k, k < Mx -> sees1 ty (phi k) (Phi k);
  u_ow : goverwrite tx = true -> (forall k, sees1 ty (phi k) (Phi k)) /\ forall k k' ky b v, b < B -> Phi k ky b v = Phi k' ky b v
}.
Definition Z2 (k b : nat) (x : nat -> nat -> C) (o : nat) : C :=
  oidft (origin ty) My (fun ky => Phi k ky b (fun a => odft (origin ty) My Ly (x a) ky)) o.

Hypothesis HF : fit2.
Hypothesis HM : mul2.
Variables (T : nat) (sch : nat -> nat -> list nat) (F V : nat -> addr) (w : addr) (rooms : nat -> room).
Hypothesis Hsch : forall r, schedule T (gl tx) (sch r).
Hypothesis Hsep : separated (work2 tx ty T F V w rooms).
Notation ly := (convolution2 tx ty mult T sch F V w rooms).
Notation RB := (fun th => room_blocks ty (rooms th)).
Notation obj := (fun th k => cobj ty mult (rooms th) k).
Definition rdy2 (th : nat) (m : mem) : Prop := provided (RB th) m /\ Wok (obj th 0) m.

Lemma col2 o : col tx 1 0 o <-> o < Ly.
Proof.
  rewrite <- (f_C HF). split.
  - intros (j & c & Hj & Hc & ->). lia.
  - intros Ho. exists 0, o. repeat split; auto; lia.
Qed.
Lemma geo2 : geo tx 1 0 Ly.
Proof. destruct HF. constructor; auto; intros; lia. Qed.
Lemma cgeo2 : cgeo ly.
Proof.
  constructor; cbn [convolution2 lcJ lcC lcS lpad lJ lSy].
  - intros o. rewrite col2. split; [intros (j & k & Hj & Hk & ->); lia|intros Ho; exists 0, o; repeat split; lia].
  - intros; lia.
Qed.
Lemma Sroom th : th < T -> separated (RB th).
Proof. intros Hth. unfold work2 in Hsep. apply sep_app in Hsep. destruct Hsep as (_ & H & _). destruct (sep_flat RB T H) as [H1 _]. auto. Qed.

Lemma rdy2_loc th m m' : (forall a, inb (RB th) a = true -> m a = m' a) -> rdy2 th m -> rdy2 th m'.
Proof.
  intros E [H1 H2]. split.
  - intros b n i Hi Hn. rewrite <- E; [apply (H1 b n i); assumption|]. apply inb_iff. exists b, n. split; [assumption|lia].
  - eapply Wok_frame; [apply (f_Sy HF)|exact H2|]. intros a Ha. symmetry. apply E. unfold outW in Ha. cbn [cobj cinit cW negb andb cpad] in Ha.
    destruct (ainplace ty) eqn:Ei; cbn [negb] in Ha; [tauto|]. unfold OS in Ha. cbn [cobj cinit cpad] in Ha.
    apply inb_iff. exists (rW (rooms th)), (workSizeW ty). split; [apply in_W|]. unfold workSizeW. rewrite Ei. lia.
Qed.

Lemma row2 : row_ok ly Ly (fun th => inb (RB th)) rdy2 Z2 (fun k => sees1 ty (phi k) (Phi k)) (fun _ => True).
Proof.
  intros th k F0 G off x m0 Hth Hsees _ EF HGG HPG Hx [Hpr Hw]. cbn [convolution2 lT lpad lrow lJ lSy] in *.
  apply TWP_emb. destruct HF as [Hwx Hwy HDx HSy HCC HS HA HB HBA Hl2 Hl2y].
  set (g := fun a => G a + off).
  assert (EN : max (aA ty) (aB ty) = A) by lia.
  assert (Hcol : forall o, o < Ly -> col tx 1 0 o) by (intros o Ho; apply col2; assumption).
  assert (Eraw : convolveRawAt (obj th k) F0 off = convolveRaw (cc ty (rF (rooms th)) (rV (rooms th)) (rW (rooms th)) (mult k)) (arr (max (aA ty) (aB ty)) g)).
  { unfold convolveRawAt. apply f_equal. apply functional_extensionality. intros a. unfold arr. cbn [cobj cinit cpad]. rewrite EN, HA.
    destruct (Nat.ltb_spec a A); [|reflexivity]. rewrite EF by assumption. reflexivity. }
  rewrite Eraw.
  assert (Hb : buffers ty g (rF (rooms th)) (rV (rooms th)) (rW (rooms th)) m0).
  { apply own_buffers; auto.
    - apply Sroom. assumption.
    - rewrite EN. intros a b Ha Hb Hne. pose proof (HGG a b Ha Hb Hne) as H. unfold dj in H. unfold apart, g. change (aL ty) with Ly. lia.
    - rewrite EN. intros a ad Ha Hp. apply HPG; assumption.
    - rewrite EN. intros a i Ha Hi. unfold g. rewrite (Hx a i) by (auto; apply Hcol; assumption). discriminate. }
  apply (convolveRaw_spec ty Hwy HSy g (rF (rooms th)) (rV (rooms th)) (rW (rooms th)) (mult k) (phi k)) with (Phi := Phi k) (x := x).
  - rewrite HA, HB. apply (u_ok HM).
  - rewrite HA. apply (u_ext HM).
  - exact Hsees.
  - right. lia.
  - rewrite HA, HB. exact Hl2y.
  - split; [exact Hb|exact Hw].
  - intros a i Ha Hi. apply Hx; [lia|apply Hcol; assumption].
  - intros m' K1 K2 [Kb Kw]. rewrite HB in K1.
    assert (Kp : provided (RB th) m').
    { intros b n i Hi Hn. unfold room_blocks, own_blocks in Hi. apply in_app_or in Hi. destruct Hi as [Hi|Hi]; [|apply in_app_or in Hi; destruct Hi as [Hi|[Hi|[]]]].
      * apply in_map_iff in Hi. destruct Hi as (a & Ea & Ha). apply in_seq in Ha. injection Ea as <- <-. apply (b_Fa _ _ _ _ _ _ Kb); [lia|assumption].
      * apply in_map_iff in Hi. destruct Hi as (a & Ea & Ha). apply in_seq in Ha. injection Ea as <- <-. apply (b_Va _ _ _ _ _ _ Kb); [lia|assumption].
      * injection Hi as <- <-. apply (b_wa _ _ _ _ _ _ Kb). assumption. }
    split; [|split; [split; assumption|]].
    + intros b o Hbb Ho. apply col2 in Ho. unfold g in K1. rewrite K1 by assumption. apply (f_equal Val). rewrite ConvProofs.idftx_odft. unfold Z2, oidft.
      apply Csum_ext. intros ky Hky. f_equal. unfold Yk. apply (u_ext HM). intros a Ha. apply ConvProofs.outx_odft.
    + set (D := map (fun a => (g a, Ly)) (seq 0 A)).
      assert (Hout : forall ad, inb (D ++ RB th) ad = false -> m' ad = m0 ad).
      { intros ad He. apply inb_out in He. apply K2. split; [|split; [|split]].
        - intros b Hbb. apply He. apply in_or_app. left. apply in_map_iff. exists b. split; [reflexivity|apply in_seq; lia].
        - intros b Hbb. apply He. apply in_or_app. right. apply in_F. assumption.
        - intros b Hbb. apply He. apply in_or_app. right. apply in_V. assumption.
        - apply He. apply in_or_app. right. apply in_W. }
      assert (HD : forall ad, inb D ad = true -> exists a o, a < A /\ o < Ly /\ ad = G a + off + o).
      { intros ad Hi. apply inb_iff in Hi. destruct Hi as (b & n & Hi & Hr). apply in_map_iff in Hi. destruct Hi as (a & Ea & Ha). apply in_seq in Ha.
        injection Ea as <- <-. unfold g in Hr. exists a, (ad - (G a + off)). repeat split; lia. }
      assert (Happ : forall ad, inb (D ++ RB th) ad = inb D ad || inb (RB th) ad) by (intros; apply existsb_app).
      split.
      * intros ad Hn. apply Hout. rewrite Happ. apply orb_false_iff. split; apply not_true_is_false; intros Hi; apply Hn; [left|right; assumption].
        destruct (HD ad Hi) as (a & o & Ha & Ho & ->). exists a, o. auto.
      * intros ad Hal. destruct (inb (D ++ RB th) ad) eqn:Ei; [|rewrite Hout by assumption; assumption]. rewrite Happ in Ei. apply orb_prop in Ei. destruct Ei as [Ei|Ei].
        -- destruct (HD ad Ei) as (a & o & Ha & Ho & ->). apply (b_ga _ _ _ _ _ _ Kb a o); [lia|assumption].
        -- apply inb_iff in Ei. destruct Ei as (b & n & Hi & Hr). replace ad with (b + (ad - b)) by lia. apply (Kp b n); [assumption|lia].
Qed.

Lemma good2 th k P off : tgood (lrow ly th k P off).
Proof. cbn [convolution2 lrow]. apply cgood_emb. unfold convolveRawAt. apply cgood_convolveRaw. cbn [cobj cinit cmult]. apply (u_good HM). Qed.
Lemma rowok2 : rowok ly Ly RB rdy2 Z2 (fun k => sees1 ty (phi k) (Phi k)) (fun _ => True).
Proof.
  constructor.
  - intros th m m' _. apply rdy2_loc.
  - apply row2.
  - apply good2.
  - apply (u_sees HM).
  - exact Hsch.
  - intros How. destruct (u_ow HM How) as [H1 H2]. split; [exact H1|]. intros k k' b y o Hb Ho. unfold Z2, oidft. apply Csum_ext. intros ky Hky.
    apply f_equal2; [|reflexivity]. apply H2. assumption.
Qed.
Lemma built2 : built ly F V w.
Proof. constructor; reflexivity. Qed.

(** the constructor *)
Definition st2 (m : mem) : Prop := lst ly (rdy' ly rdy2) F V m.
Lemma wsub th : th < T -> incl (RB th) (work2 tx ty T F V w rooms).
Proof. intros Hth x Hx. unfold work2. apply in_or_app. right. apply in_flat_map. exists th. split; [apply in_seq; lia|assumption]. Qed.
Lemma init2 (m0 : mem) : provided (work2 tx ty T F V w rooms) m0 ->
  WP (convolution2_cmd tx ty mult T w rooms) m0 (fun m' => st2 m' /\ only (fun ad => inb (work2 tx ty T F V w rooms) ad = true) m0 m').
Proof.
  intros Hp. unfold convolution2_cmd. apply WP_seq.
  assert (H1 : WP (cfor T (fun th => cinit_cmd (obj th 0))) m0 (fun m' => (forall th, th < T -> rdy2 th m') /\ only (fun ad => inb (work2 tx ty T F V w rooms) ad = true) m0 m')).
  { apply WP_cfor with (I := fun n m' => (forall th, th < n -> rdy2 th m') /\ only (fun ad => inb (work2 tx ty T F V w rooms) ad = true) m0 m').
    { split; [intros; lia|apply only_refl]. }
    intros th mm Hth (H1 & H2). set (rm := rooms th).
    assert (Hpt : provided (RB th) mm).
    { intros b n i Hi Hn. apply (proj2 H2). apply (Hp b n i); [apply (wsub th Hth); assumption|assumption]. }
    eapply WP_mono; [|apply (init_own ty (rF rm) (rV rm) (rW rm) (mult 0) mm (f_wfy HF) (f_Sy HF))].
    - intros m' (K1 & K2). split.
      + intros th' Hth'. destruct (Nat.eq_dec th' th) as [->|Hne].
        * split; [|exact K1]. intros b n i Hi Hn. apply (proj2 K2). apply (Hpt b n i); assumption.
        * eapply rdy2_loc; [|apply H1; lia]. intros a Ha. symmetry. apply (proj1 K2). intros Hr.
          destruct (sep_flat RB T) as [_ Hx]. { unfold work2 in Hsep. apply sep_app in Hsep. tauto. }
          eapply cross_inb; [apply (Hx th th'); lia| |exact Ha]. apply inb_iff. exists (rW rm), (workSizeW ty). split; [apply in_W|assumption].
      + eapply only_trans; [exact H2|exact K2|auto|]. intros a Ha. apply inb_iff. exists (rW rm), (workSizeW ty). split; [|assumption].
        apply (wsub th Hth). apply in_W.
    - intros i Hi. apply (Hpt (rW rm) (workSizeW ty) i); [apply in_W|assumption]. }
  eapply WP_mono; [|exact H1]. intros m1 (R1 & R2).
  eapply WP_mono; [|apply (pad_spec ly Ly F V w RB rdy2 Z2 (fun k => sees1 ty (phi k) (Phi k)) (fun _ => True) geo2 built2 (f_BA HF) (f_l2x HF) Hsep rowok2 m1)].
  - intros m2 (S1 & S2). split; [exact S1|]. eapply only_trans; [exact R2|exact S2|auto|]. intros a Ha. apply inb_iff. exists w, (workSizeW tx).
    split; [|assumption]. unfold work2. apply in_or_app. left. apply in_W.
  - intros b n i Hi Hn. apply (proj2 R2). apply (Hp b n i); [|assumption]. unfold work2. apply in_or_app. left. assumption.
  - exact R1.
Qed.

Notation blocks f off := (data_blocks tx f off ++ work2 tx ty T F V w rooms).
Definition out2 (x : nat -> nat -> nat -> C) (b i o : nat) : C :=
  oidft (origin tx) Mx (fun k => Z2 k b (fun a o' => odft (origin tx) Mx Lx (fun i => x a i o') k) o) i.
Lemma raw2 (Pf : parr) f off x (m0 : mem) : (forall a, a < A -> Pf a = Some (f a)) -> separated (blocks f off) -> holds2 A Lx Ly (gS tx) f off x m0 -> st2 m0 ->
  TWP (lconvolveRaw ly Pf off) m0 (fun m' =>
    holds2 B Lx Ly (gS tx) f off (out2 x) m' /\ st2 m' /\ only (fun ad => element2 A Lx Ly (gS tx) f off ad \/ inb (work2 tx ty T F V w rooms) ad = true) m0 m').
Proof.
  intros HN Hs Hx Hst.
  eapply TWP_mono; [|apply (raw_blocks ly Ly F V w RB rdy2 Z2 (fun k => sees1 ty (phi k) (Phi k)) (fun _ => True) geo2 cgeo2 built2 (f_BA HF) (f_l2x HF) Hsep rowok2 Pf f off x m0)]; [|intros k; exact Logic.I|assumption|assumption| |assumption].
  - intros m' (K1 & K2 & K3). split; [|split; [exact K2|]].
    + intros b i o Hb Hi Ho. apply (K1 b Hb i o Hi). apply col2. assumption.
    + eapply only_mono; [exact K3|]. intros ad [(a & Ha & i & o & Hi & Ho & ->)|H]; [left|right; exact H]. apply col2 in Ho. exists a, i, o. auto.
  - intros a Ha i o Hi Ho. apply col2 in Ho. apply Hx; assumption.
Qed.
Lemma conv2 (Pf : parr) f off x (m0 : mem) : (forall a, a < A -> Pf a = Some (f a)) -> separated (blocks f off) -> holds2 A Lx Ly (gS tx) f off x m0 -> st2 m0 ->
  TWP (lconvolve ly Pf off) m0 (fun m' =>
    holds2 B Lx Ly (gS tx) f off (fun b i o => Cmul (out2 x b i o) (RtoC (/ (INR Mx * INR My)))) m' /\ st2 m' /\
    only (fun ad => element2 A Lx Ly (gS tx) f off ad \/ inb (work2 tx ty T F V w rooms) ad = true) m0 m').
Proof.
  intros HN Hs Hx Hst.
  eapply TWP_mono; [|apply (conv_blocks ly Ly F V w RB rdy2 Z2 (fun k => sees1 ty (phi k) (Phi k)) (fun _ => True) geo2 cgeo2 built2 (f_BA HF) (f_l2x HF) Hsep rowok2 Pf f off x m0)]; [|intros k; exact Logic.I|assumption|assumption| |assumption].
  - intros m' (K1 & K2 & K3). split; [|split; [exact K2|]].
    + intros b i o Hb Hi Ho. apply (K1 b Hb i o Hi). apply col2. assumption.
    + eapply only_mono; [exact K3|]. intros ad [(a & Ha & i & o & Hi & Ho & ->)|H]; [left|right; exact H]. apply col2 in Ho. exists a, i, o. auto.
  - intros a Ha i o Hi Ho. apply col2 in Ho. apply Hx; assumption.
Qed.
Lemma tgood2 P off : tgood (lconvolveRaw ly P off).
Proof. apply tgood_raw. apply good2. Qed.
End C2.

(** the state of the object does not depend on the multiplier or on the distribution of the rows *)
Lemma st2_swap tx ty mult mult' T sch sch' F V w rooms m :
  st2 tx ty mult T sch F V w rooms m -> st2 tx ty mult' T sch' F V w rooms m.
Proof. intros [S1 S2 S3 S4]. constructor; [exact S1|exact S2|exact S3|exact S4]. Qed.
