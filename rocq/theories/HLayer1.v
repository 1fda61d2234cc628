(** Convolution2 on Hermitian data: the rows are Convolution objects on a fftPadHermitian. *)
From Coq Require Import Reals ZArith Arith Lia List Bool Permutation FunctionalExtensionality.
From Verif Require Import CNum Sums Roots Mem VecModel PadModel PadKernels Loops PadLemmas PadGeom PadIndex Fwd1 FwdAll
  CenModel HerModel HerSpec HerGeom HerForward HerDisp
  ConvMath ConvModel ConvSpec PadSpec HConvModel HConvSpec HConvMath HConv1 HConv2 HConv3
  Team TeamGood LayerModel LayerSpec HLayerModel HLayerSpec HLayerGood
  Layer1 Layer2 Layer3 Layer4 Layer5 Layer6 Layer7 Layer8 Xf XfProofs.
Import ListNotations.
Notation hapart := HerSpec.apart.

Lemma ap_h a n b k : ConvSpec.apart a n b k -> hapart a n b k.
Proof. unfold ConvSpec.apart, HerSpec.apart, span_of. intros Hd x Hx Hy. lia. Qed.

Section H2.
Variables (al : nat) (tx : xf) (ty : pad).
Notation A := (aA tx). Notation B := (aB tx). Notation Mx := (gM tx). Notation My := (kM ty). Notation Lx := (gL tx). Notation H := (hH ty).
Notation OS := (houtputSize al ty). Notation VS := (hworkSizeV ty). Notation WS := (hworkSizeW al ty).
Record hfit2 : Prop := mkhfit2 {
  hf_al : 1 <= al; hf_wfx : wf tx; hf_wfy : hwf ty; hf_D : gD tx = 1; hf_C : gC tx = H; hf_S : H <= gS tx;
  hf_Ax : aA tx = 2; hf_Bx : aB tx = 1; hf_Ay : PadModel.aA ty = 2; hf_By : PadModel.aB ty = 1; hf_Cy : PadModel.aC ty = 1;
  hf_n : kq ty = 1 \/ kn ty mod 2 = 0 }.
Hypothesis HF : hfit2.
Definition ZH (k b : nat) (x : nat -> nat -> C) (o : nat) : C :=
  hpartial_inverse My My (fun k => k) (fun k => (re (hdft My H (x 0%nat) k) * re (hdft My H (x 1%nat) k))%R) o.
Definition okH (x : nat -> nat -> C) : Prop := forall a, a < 2 -> im (x a 0) = 0%R.

Variables (T : nat) (sch : nat -> nat -> list nat) (F V : nat -> addr) (w : addr) (rooms : nat -> room).
Hypothesis Hsch : forall r, schedule T (gl tx) (sch r).
Hypothesis Hsep : separated (hwork2 al tx ty T F V w rooms).
Notation ly := (hconvolution2 al tx ty realMultBinary T sch F V w rooms).
Notation RB := (fun th => hroom_blocks al ty (rooms th)).
Definition rdyH (th : nat) (m : mem) : Prop := provided (RB th) m.

Lemma colH o : col tx 1 0 o <-> o < H.
Proof.
  rewrite <- (hf_C HF). split.
  - intros (j & c & Hj & Hc & ->). lia.
  - intros Ho. exists 0, o. repeat split; auto; lia.
Qed.
Lemma geoH : geo tx 1 0 H.
Proof. destruct HF. constructor; auto; intros; lia. Qed.
Lemma cgeoH : cgeo ly.
Proof.
  constructor; cbn [hconvolution2 lcJ lcC lcS lpad lJ lSy].
  - intros o. rewrite colH. split; [intros (j & k & Hj & Hk & ->); lia|intros Ho; exists 0, o; repeat split; lia].
  - intros; lia.
Qed.
Lemma SroomH th : th < T -> separated (RB th).
Proof. intros Hth. unfold hwork2 in Hsep. apply sep_app in Hsep. destruct Hsep as (_ & Hr & _). destruct (sep_flat RB T Hr) as [H1 _]. auto. Qed.

Lemma mxy : max (PadModel.aA ty) (PadModel.aB ty) = 2. Proof. rewrite (hf_Ay HF), (hf_By HF). reflexivity. Qed.
Lemma inhF rm a : a < 2 -> In (rF rm a, OS) (hroom_blocks al ty rm).
Proof. intros Ha. unfold hroom_blocks. rewrite mxy. apply in_or_app. left. apply in_map_iff. exists a. split; [reflexivity|apply in_seq; lia]. Qed.
Lemma inhV rm : In (rV rm 0, VS) (hroom_blocks al ty rm).
Proof. unfold hroom_blocks. rewrite (hf_By HF). apply in_or_app. right. apply in_or_app. left. apply in_map_iff. exists 0. split; [reflexivity|apply in_seq; lia]. Qed.
Lemma inhW rm : In (rW rm, WS) (hroom_blocks al ty rm).
Proof. unfold hroom_blocks. apply in_or_app. right. apply in_or_app. right. left. reflexivity. Qed.

Lemma hrow_buffers (g : nat -> addr) rm (m : mem) : separated (hroom_blocks al ty rm) -> provided (hroom_blocks al ty rm) m ->
  (forall a b, a < 2 -> b < 2 -> a <> b -> hapart (g a) H (g b) H) ->
  (forall a ad, a < 2 -> inb (hroom_blocks al ty rm) ad = true -> ad < g a \/ g a + H <= ad) ->
  (forall a i, a < 2 -> i < H -> m (g a + i) <> Unalloc) -> hbuffers al ty g (rF rm) (rV rm) (rW rm) m.
Proof.
  intros Hs Hp Hgg Hg Ha.
  assert (HX : forall a b n, a < 2 -> In (b, n) (hroom_blocks al ty rm) -> hapart (g a) H b n).
  { intros a b n Haa Hi x H1 H2. destruct (Hg a x Haa); [apply inb_iff; exists b, n; auto| |]; unfold span_of in *; lia. }
  assert (HP : forall b n, In (b, n) (hroom_blocks al ty rm) -> alloc b n m).
  { intros b n Hi a Haa. unfold span_of in Haa. replace a with (b + (a - b)) by lia. apply (Hp b n); [assumption|lia]. }
  pose proof Hs as Hs0. unfold hroom_blocks in Hs0. apply sep_app in Hs0. destruct Hs0 as (SF & S2 & X1). apply sep_app in S2. destruct S2 as (SV & _ & X2).
  rewrite mxy, (hf_By HF) in *.
  assert (IF : forall a, a < 2 -> In (rF rm a, OS) (map (fun a => (rF rm a, OS)) (seq 0 2))).
  { intros a Haa. apply in_map_iff. exists a. split; [reflexivity|apply in_seq; lia]. }
  assert (IV : forall b, b < 1 -> In (rV rm b, VS) (map (fun b => (rV rm b, VS)) (seq 0 1))).
  { intros b Hb. apply in_map_iff. exists b. split; [reflexivity|apply in_seq; lia]. }
  constructor; rewrite ?mxy, ?(hf_By HF).
  - exact Hgg.
  - intros a b Haa Hb Hne. apply ap_h. apply (sep_map _ _ _ _ SF Haa Hb Hne).
  - intros a b Haa Hb. apply HX; [assumption|apply inhF; assumption].
  - intros a b Haa Hb. replace b with 0 by lia. apply HX; [assumption|apply inhV].
  - intros a b Haa Hb Hne. lia.
  - intros a b Haa Hb. apply ap_h, apart_sym. apply (X1 (rF rm b, OS) (rV rm a, VS)); [apply IF; assumption|apply in_or_app; left; apply IV; assumption].
  - intros a Haa. apply HX; [assumption|apply inhW].
  - intros a Haa. apply ap_h. apply (X1 (rF rm a, OS) (rW rm, WS)); [apply IF; assumption|apply in_or_app; right; left; reflexivity].
  - intros a Haa. apply ap_h. apply (X2 (rV rm a, VS) (rW rm, WS)); [apply IV; assumption|left; reflexivity].
  - intros a Haa i Hi. unfold span_of in Hi. replace i with (g a + (i - g a)) by lia. apply Ha; [assumption|lia].
  - intros a Haa. apply HP, inhF. assumption.
  - intros a Haa. replace a with 0 by lia. apply HP, inhV.
  - apply HP, inhW.
Qed.

Lemma rowH : row_ok ly H (fun th => inb (RB th)) rdyH ZH (fun _ => True) okH.
Proof.
  intros th k F0 G off x m0 Hth _ Hok EF HGG HPG Hx Hpr. cbn [hconvolution2 lT lpad lrow lJ lSy] in *.
  apply TWP_emb. pose proof mxy as Emx. pose proof HF as HF'. destruct HF' as [Hal Hwx Hwy HDx HCC HS HAx HBx HAy HBy HCy Hn].
  set (g := fun a => G a + off). set (rm := rooms th) in *.
  assert (Hcol : forall o, o < H -> col tx 1 0 o) by (intros o Ho; apply colH; assumption).
  assert (Eraw : hconvolveRawAt al ty (hobj al ty realMultBinary rm) F0 off = hconvolveRaw al ty (hcinit al ty realMultBinary (arr 2 (rF rm)) (arr 1 (rV rm)) (rW rm)) (arr 2 g)).
  { unfold hconvolveRawAt, hobj. rewrite Emx, HBy. apply f_equal. apply functional_extensionality. intros a. unfold arr. rewrite HAy.
    destruct (Nat.ltb_spec a 2) as [Ha|Ha]; [|reflexivity]. rewrite EF by lia. reflexivity. }
  rewrite Eraw.
  assert (Hb : hbuffers al ty g (rF rm) (rV rm) (rW rm) m0).
  { apply hrow_buffers; auto.
    - apply SroomH. assumption.
    - intros a b Ha Hb Hne. rewrite HAx in HGG. pose proof (HGG a b Ha Hb Hne) as Hd. unfold dj in Hd. intros y H1 H2. unfold span_of, g in *. lia.
    - intros a ad Ha Hp. unfold g. apply HPG; [lia|assumption].
    - intros a i Ha Hi. unfold g. rewrite (Hx a i) by (auto; try lia; apply Hcol; assumption). discriminate. }
  assert (Hx0 : hasx (g 0) H (x 0) m0) by (intros j Hj; apply Hx; [lia|apply Hcol; assumption]).
  assert (Hx1 : hasx (g 1) H (x 1) m0) by (intros j Hj; apply Hx; [lia|apply Hcol; assumption]).
  assert (Hz0 : im (x 0 0) = 0%R) by (apply Hok; lia). assert (Hz1 : im (x 1 0) = 0%R) by (apply Hok; lia).
  assert (Hlv : kq ty = 1 \/ kn ty mod 2 = 0 \/ initialised al ty (rF rm) m0) by tauto.
  assert (K : WP (hconvolveRaw al ty (hcinit al ty realMultBinary (arr 2 (rF rm)) (arr 1 (rV rm)) (rW rm)) (arr 2 g)) m0
     (fun m' => hasx (g 0) H (raw ty (x 0) (x 1)) m' /\ only (outw al ty g (rF rm) (rV rm) (rW rm)) m0 m')).
  { destruct (Nat.eq_dec (kq ty) 1) as [Hq|Hq].
    - eapply raw_q1; eassumption.
    - destruct (Nat.eq_dec (hR ty) 2) as [HR|HR]; [eapply raw_l2; eassumption|eapply raw_gen; eassumption]. }
  eapply WP_mono; [|exact K]. intros m' (K1 & K2). split; [|split].
  - intros b o Hbb Ho. apply colH in Ho. rewrite HBx in Hbb. replace b with 0 by lia. apply K1. assumption.
  - intros b n i Hi Hn'. apply (proj2 K2). apply (Hpr b n i); assumption.
  - eapply only_mono; [exact K2|]. intros ad Had. unfold outw in Had.
    assert (Hin : forall b n, In (b, n) (RB th) -> span_of b n ad -> inb (RB th) ad = true).
    { intros b n Hi Hs. apply inb_iff. exists b, n. split; [assumption|exact Hs]. }
    destruct Had as [Hs|[Hs|[Hs|[Hs|Hs]]]].
    + left. exists 0, (ad - (G 0 + off)). unfold span_of, g in Hs. split; [lia|]. split; [apply colH; lia|lia].
    + right. eapply Hin; [apply (inhF rm 0); lia|exact Hs].
    + right. eapply Hin; [apply (inhF rm 1); lia|exact Hs].
    + right. eapply Hin; [apply inhW|exact Hs].
    + right. eapply Hin; [apply inhV|exact Hs].
Qed.
Lemma goodH th k P off : tgood (lrow ly th k P off).
Proof. cbn [hconvolution2 lrow]. apply cgood_emb. unfold hconvolveRawAt. apply cgood_hconvolveRaw. cbn [hobj hcinit hcmult]. apply good_realMult. Qed.
Lemma rowokH : rowok ly H RB rdyH ZH (fun _ => True) okH.
Proof.
  constructor.
  - intros th m m' _ E Hp b n i Hi Hn. rewrite <- E; [apply (Hp b n i); assumption|]. apply inb_iff. exists b, n. split; [assumption|lia].
  - apply rowH.
  - apply goodH.
  - auto.
  - exact Hsch.
  - intros _. split; [auto|reflexivity].
Qed.
Lemma builtH : built ly F V w.
Proof. constructor; reflexivity. Qed.
Lemma hBA : B <= A. Proof. rewrite (hf_Ax HF), (hf_Bx HF). lia. Qed.
Lemma hl2x : loop2 tx = true -> A = B + 1. Proof. rewrite (hf_Ax HF), (hf_Bx HF). lia. Qed.

Definition stH (m : mem) : Prop := lst ly (rdy' ly rdyH) F V m.
Lemma initH (m0 : mem) : provided (hwork2 al tx ty T F V w rooms) m0 ->
  WP (hconvolution2_cmd tx w) m0 (fun m' => stH m' /\ only (fun ad => inb (hwork2 al tx ty T F V w rooms) ad = true) m0 m').
Proof.
  intros Hp. unfold hconvolution2_cmd.
  eapply WP_mono; [|apply (pad_spec ly H F V w RB rdyH ZH (fun _ => True) okH geoH builtH hBA hl2x Hsep rowokH m0)].
  - intros m2 (S1 & S2). split; [exact S1|]. eapply only_mono; [exact S2|]. intros a Ha. apply inb_iff. exists w, (workSizeW tx).
    split; [|assumption]. unfold hwork2. apply in_or_app. left. apply in_W.
  - intros b n i Hi Hn. apply (Hp b n i); [|assumption]. unfold hwork2. apply in_or_app. left. assumption.
  - intros th Hth b n i Hi Hn. cbn [hconvolution2 lT] in Hth. apply (Hp b n i); [|assumption]. unfold hwork2. apply in_or_app. right. apply in_flat_map. exists th.
    split; [apply in_seq; lia|assumption].
Qed.

Notation blocks f off := (data_blocks tx f off ++ hwork2 al tx ty T F V w rooms).
Definition outH (x : nat -> nat -> nat -> C) (b i o : nat) : C :=
  oidft (origin tx) Mx (fun k => ZH k b (fun a o' => odft (origin tx) Mx Lx (fun i => x a i o') k) o) i.
Definition okdH (x : nat -> nat -> nat -> C) : Prop := forall k a, a < 2 -> im (odft (origin tx) Mx Lx (fun i => x a i 0) k) = 0%R.
Lemma rawH (Pf : parr) f off x (m0 : mem) : okdH x -> (forall a, a < A -> Pf a = Some (f a)) -> separated (blocks f off) -> holds2 A Lx H (gS tx) f off x m0 -> stH m0 ->
  TWP (lconvolveRaw ly Pf off) m0 (fun m' =>
    holds2 B Lx H (gS tx) f off (outH x) m' /\ stH m' /\ only (fun ad => element2 A Lx H (gS tx) f off ad \/ inb (hwork2 al tx ty T F V w rooms) ad = true) m0 m').
Proof.
  intros Hok HN Hs Hx Hst.
  eapply TWP_mono; [|apply (raw_blocks ly H F V w RB rdyH ZH (fun _ => True) okH geoH cgeoH builtH hBA hl2x Hsep rowokH Pf f off x m0)]; [|exact Hok|assumption|assumption| |assumption].
  - intros m' (K1 & K2 & K3). split; [|split; [exact K2|]].
    + intros b i o Hb Hi Ho. apply (K1 b Hb i o Hi). apply colH. assumption.
    + eapply only_mono; [exact K3|]. intros ad [(a & Ha & i & o & Hi & Ho & ->)|Hr]; [left|right; exact Hr]. apply colH in Ho. exists a, i, o. auto.
  - intros a Ha i o Hi Ho. apply colH in Ho. apply Hx; assumption.
Qed.
Lemma convH (Pf : parr) f off x (m0 : mem) : okdH x -> (forall a, a < A -> Pf a = Some (f a)) -> separated (blocks f off) -> holds2 A Lx H (gS tx) f off x m0 -> stH m0 ->
  TWP (lconvolve ly Pf off) m0 (fun m' =>
    holds2 B Lx H (gS tx) f off (fun b i o => Cmul (outH x b i o) (RtoC (/ (INR Mx * INR My)))) m' /\ stH m' /\
    only (fun ad => element2 A Lx H (gS tx) f off ad \/ inb (hwork2 al tx ty T F V w rooms) ad = true) m0 m').
Proof.
  intros Hok HN Hs Hx Hst.
  eapply TWP_mono; [|apply (conv_blocks ly H F V w RB rdyH ZH (fun _ => True) okH geoH cgeoH builtH hBA hl2x Hsep rowokH Pf f off x m0)]; [|exact Hok|assumption|assumption| |assumption].
  - intros m' (K1 & K2 & K3). split; [|split; [exact K2|]].
    + intros b i o Hb Hi Ho. apply (K1 b Hb i o Hi). apply colH. assumption.
    + eapply only_mono; [exact K3|]. intros ad [(a & Ha & i & o & Hi & Ho & ->)|Hr]; [left|right; exact Hr]. apply colH in Ho. exists a, i, o. auto.
  - intros a Ha i o Hi Ho. apply colH in Ho. apply Hx; assumption.
Qed.
Lemma tgoodH P off : tgood (lconvolveRaw ly P off).
Proof. apply tgood_raw. apply goodH. Qed.
End H2.
