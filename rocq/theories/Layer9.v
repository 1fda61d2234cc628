(** Convolution3: the planes are Convolution2 objects. *)
From Coq Require Import Reals ZArith Arith Lia List Bool Permutation FunctionalExtensionality.
From Verif Require Import CNum Sums Roots Mem VecModel PadModel PadKernels Loops PadLemmas PadGeom PadIndex Fwd1 FwdAll
  ConvMath ConvModel ConvSpec Conv1 Conv2 Conv3 Conv4 Conv5 Conv6 PadSpec PadRound PadBridge PadProofs Team TeamGood LayerModel LayerSpec
  Layer1 Layer2 Layer3 Layer4 Layer5 Layer6 Layer7 Layer8 Xf XfProofs XfBridge.
Import ListNotations.

Section C3.
Variables (tx ty tz : xf) (mult : nat -> nat -> multiplier).
Variables (phi : nat -> nat -> nat -> nat -> nat -> (nat -> C) -> C) (Phi : nat -> nat -> nat -> nat -> (nat -> C) -> C).
Notation A := (aA tx). Notation B := (aB tx). Notation Mx := (gM tx). Notation My := (gM ty). Notation Mz := (gM tz).
Notation Lx := (gL tx). Notation Ly := (gL ty). Notation Lz := (gL tz). Notation Sy := (gS ty).

Record fit3 : Prop := mkfit3 {
  f3_wfx : wf tx; f3_yz : fit2 ty tz; f3_D : gD tx = 1;
  f3_cs : checkStrides tx ty = true; f3_A : aA ty = A; f3_B : aB ty = B;
  f3_l2x : loop2 tx = true -> A = B + 1
}.
Record mul3 : Prop := mkmul3 {
  u3_good : forall k ky, good_mult (mult k ky);
  u3_0 : mul2 ty tz (mult 0) (phi 0) (Phi 0);
  u3_k : forall k, k < Mx -> mul2 ty tz (mult k) (phi k) (Phi k);
  u3_ow : goverwrite tx = true -> (forall k, mul2 ty tz (mult k) (phi k) (Phi k)) /\ forall k k' ky kz b v, b < B -> Phi k ky kz b v = Phi k' ky kz b v
}.
Definition Z3 (k b : nat) (x : nat -> nat -> C) (o : nat) : C :=
  out2 ty tz (Phi k) (fun a i c => x a (Sy * i + c)) b (o / Sy) (o mod Sy).

Hypothesis HF : fit3.
Hypothesis HM : mul3.
Variables (T : nat) (sch : nat -> nat -> list nat) (F V : nat -> addr) (w : addr) (rooms : nat -> room2) (schy : nat -> nat -> nat -> nat -> list nat).
Hypothesis Hsch : forall r, schedule T (gl tx) (sch r).
Hypothesis Hschy : forall th k r, th < T -> schedule (r2T (rooms th)) (gl ty) (schy th k r).
Hypothesis Hsep : separated (work3 tx ty tz T F V w rooms).
Notation ly := (convolution3 tx ty tz mult T sch F V w rooms schy).
Notation RB := (fun th => room2_blocks ty tz (rooms th)).
Notation st th k := (st2 ty tz (mult k) (r2T (rooms th)) (schy th k) (r2F (rooms th)) (r2V (rooms th)) (r2W (rooms th)) (r2rooms (rooms th))).
Definition rdy3 (th : nat) (m : mem) : Prop := st th 0 m.

Lemma fyz : fit2 ty tz. Proof. apply HF. Qed.
Lemma Spos : 1 <= Sy. Proof. pose proof (f_S _ _ fyz). pose proof (wf_L tz (f_wfy _ _ fyz)). lia. Qed.
Lemma strides : Ly * Sy <= gS tx /\ gC tx = (if contiguous ty then Ly * Sy else gC ty).
Proof. pose proof (f3_cs HF) as H. unfold checkStrides in H. apply andb_prop in H. destruct H as [H1 H2]. apply Nat.leb_le in H1. apply Nat.eqb_eq in H2. auto. Qed.
Notation J := (if contiguous ty then 1 else Ly).
Notation SJ := (if contiguous ty then 0 else Sy).
Lemma cont : contiguous ty = true -> Sy = Lz.
Proof. unfold contiguous. intros H. apply Nat.eqb_eq in H. rewrite H. apply (f_C _ _ fyz). Qed.
Lemma rowlt i c : i < Ly -> c < Lz -> Sy * i + c < Ly * Sy.
Proof. intros Hi Hc. pose proof (f_S _ _ fyz). nia. Qed.
Lemma divmod i c : c < Lz -> (Sy * i + c) / Sy = i /\ (Sy * i + c) mod Sy = c.
Proof.
  intros Hc. pose proof (f_S _ _ fyz). split.
  - rewrite Nat.mul_comm, Nat.div_add_l by lia. rewrite Nat.div_small by lia. lia.
  - rewrite Nat.add_comm, Nat.mul_comm, Nat.mod_add by lia. apply Nat.mod_small. lia.
Qed.
Lemma col3 o : col tx J SJ o <-> exists i c, i < Ly /\ c < Lz /\ o = Sy * i + c.
Proof.
  destruct strides as [H1 H2]. pose proof (f_C _ _ fyz) as HC. pose proof Spos as Hp. unfold col. split.
  - intros (j & c & Hj & Hc & ->). destruct (contiguous ty) eqn:Ec.
    + rewrite H2 in Hc. pose proof (cont Ec) as E. exists (c / Sy), (c mod Sy). pose proof (Nat.div_mod c Sy ltac:(lia)). pose proof (Nat.mod_upper_bound c Sy ltac:(lia)).
      split; [apply Nat.div_lt_upper_bound; lia|]. split; lia.
    + exists j, c. repeat split; auto. lia.
  - intros (i & c & Hi & Hc & ->). destruct (contiguous ty) eqn:Ec.
    + exists 0, (Sy * i + c). split; [lia|]. split; [|lia]. rewrite H2. apply rowlt; assumption.
    + exists i, c. repeat split; auto. lia.
Qed.
Lemma geo3 : geo tx J SJ (Sy * Ly).
Proof.
  destruct strides as [H1 H2]. pose proof (f_wfx _ _ fyz) as Hwy. pose proof (f_C _ _ fyz) as HC. pose proof (f_S _ _ fyz) as HS. constructor.
  - apply HF.
  - apply HF.
  - intros j Hj. rewrite H2. destruct (contiguous ty); [lia|]. rewrite HC.
    assert (Sy * j + Sy <= Sy * Ly). { replace (Sy * j + Sy) with (Sy * (j + 1)) by lia. apply Nat.mul_le_mono_l. lia. } lia.
  - lia.
  - intros j j' c c' Hj Hj' Hc Hc' E. rewrite H2 in *. destruct (contiguous ty) eqn:Ec; [lia|]. rewrite HC in *.
    destruct (divmod j c Hc) as [E1 _]. destruct (divmod j' c' Hc') as [E2 _]. rewrite E in E1. congruence.
Qed.
Lemma cgeo3 : cgeo ly.
Proof.
  constructor; cbn [convolution3 lcJ lcC lcS lpad lJ lSy].
  - intros o. rewrite col3. split; intros (i & c & H); exists i, c; exact H.
  - intros j j' k k' Hj Hj' Hk Hk' E. destruct (divmod j k Hk) as [E1 E1']. destruct (divmod j' k' Hk') as [E2 E2']. rewrite E in E1, E1'. split; congruence.
Qed.
Lemma Sroom3 th : th < T -> separated (RB th).
Proof. intros Hth. unfold work3 in Hsep. apply sep_app in Hsep. destruct Hsep as (_ & H & _). destruct (sep_flat RB T H) as [H1 _]. auto. Qed.

Lemma rdy3_loc th m m' : th < T -> (forall a, inb (RB th) a = true -> m a = m' a) -> rdy3 th m -> rdy3 th m'.
Proof.
  intros Hth E H. unfold rdy3, st2 in *. set (rm := rooms th) in *.
  refine (lst_loc (convolution2 ty tz (mult 0) (r2T rm) (schy th 0) (r2F rm) (r2V rm) (r2W rm) (r2rooms rm)) Lz (r2F rm) (r2V rm) (r2W rm)
    (fun th => room_blocks tz (r2rooms rm th)) (rdy2 tz (mult 0) (r2rooms rm)) (Z2 tz (Phi 0)) (fun k => sees1 tz (phi 0 k) (Phi 0 k)) (fun _ => True)
    (geo2 ty tz fyz) _ (f_BA _ _ fyz) (f_l2x _ _ fyz) _ m m' _ H).
  - apply built2.
  - apply rowok2; [apply fyz|apply (u3_0 HM)|intros r; apply Hschy; assumption|apply Sroom3; assumption].
  - exact E.
Qed.

Lemma row3 : row_ok ly (Sy * Ly) (fun th => inb (RB th)) rdy3 Z3 (fun k => mul2 ty tz (mult k) (phi k) (Phi k)) (fun _ => True).
Proof.
  intros th k F0 G off x m0 Hth Hm _ EF HGG HPG Hx Hr. cbn [convolution3 lT lpad lrow lJ lSy] in *.
  pose proof (f3_A HF) as HA. pose proof (f3_B HF) as HB. pose proof (f_BA _ _ fyz) as HBA. set (rm := rooms th) in *.
  assert (Hs : separated (data_blocks ty G off ++ room2_blocks ty tz rm)).
  { apply sep_app. split; [|split].
    - unfold data_blocks. rewrite HA. assert (forall s n, s + n <= A -> separated (map (fun a => (G a + off, Sy * Ly)) (seq s n))) as Hall; [|apply (Hall 0 A); lia].
      intros s n. revert s. induction n as [|n IH]; intros s Hn; cbn [seq map]; constructor; [|apply IH; lia].
      apply Forall_forall. intros y Hy. apply in_map_iff in Hy. destruct Hy as (a & <- & Ha). apply in_seq in Ha. cbn [fst snd].
      pose proof (HGG s a ltac:(lia) ltac:(lia) ltac:(lia)) as Hd. unfold dj in Hd. unfold apart. lia.
    - apply Sroom3. assumption.
    - intros y z Hy Hz. unfold data_blocks in Hy. apply in_map_iff in Hy. destruct Hy as (a & <- & Ha). apply in_seq in Ha. cbn [fst snd].
      destruct z as [b n]. cbn [fst snd]. apply pt_apart. intros ad Had. apply HPG; [lia|]. apply inb_iff. exists b, n. auto. }
  eapply TWP_mono; [|apply (raw2 ty tz (mult k) (phi k) (Phi k) fyz Hm (r2T rm) (schy th k) (r2F rm) (r2V rm) (r2W rm) (r2rooms rm)
     (fun r => Hschy th k r Hth) (Sroom3 th Hth) F0 G off (fun a i c => x a (Sy * i + c)) m0)].
  - intros m' (K1 & K2 & K3). split; [|split; [eapply st2_swap; exact K2|]].
    + intros b o Hb Ho. apply col3 in Ho. destruct Ho as (i & c & Hi & Hc & ->). rewrite Nat.add_assoc. rewrite K1 by (auto; lia). unfold Z3.
      destruct (divmod i c Hc) as [-> ->]. reflexivity.
    + eapply only_mono; [exact K3|]. intros ad [(a & i & c & Ha & Hi & Hc & ->)|H]; [left|right; exact H].
      exists a, (Sy * i + c). split; [lia|]. split; [apply col3; exists i, c; auto|lia].
  - intros a Ha. apply EF. lia.
  - exact Hs.
  - intros a i c Ha Hi Hc. replace (G a + off + Sy * i + c) with (G a + off + (Sy * i + c)) by lia. apply Hx; [lia|]. apply col3. exists i, c. auto.
  - eapply st2_swap. exact Hr.
Qed.

Lemma good3 th k P off : tgood (lrow ly th k P off).
Proof. cbn [convolution3 lrow]. apply tgood_raw. intros th' k' F' off'. cbn [convolution2 lrow]. apply cgood_emb. unfold convolveRawAt. apply cgood_convolveRaw. apply (u3_good HM). Qed.
Lemma rowok3 : rowok ly (Sy * Ly) RB rdy3 Z3 (fun k => mul2 ty tz (mult k) (phi k) (Phi k)) (fun _ => True).
Proof.
  constructor.
  - apply rdy3_loc.
  - apply row3.
  - apply good3.
  - apply (u3_k HM).
  - exact Hsch.
  - intros How. destruct (u3_ow HM How) as [H1 H2]. split; [exact H1|]. intros k k' b y o Hb Ho. unfold Z3, out2, Z2, oidft. apply Csum_ext. intros ky Hky.
    apply f_equal2; [|reflexivity]. apply Csum_ext. intros kz Hkz. apply f_equal2; [|reflexivity]. apply H2. assumption.
Qed.
Lemma built3 : built ly F V w.
Proof. constructor; reflexivity. Qed.
Lemma B_A : B <= A. Proof. pose proof (f_BA _ _ fyz). pose proof (f3_A HF). pose proof (f3_B HF). lia. Qed.

Definition st3 (m : mem) : Prop := lst ly (rdy' ly rdy3) F V m.
Lemma wsub3 th : th < T -> incl (RB th) (work3 tx ty tz T F V w rooms).
Proof. intros Hth x Hx. unfold work3. apply in_or_app. right. apply in_flat_map. exists th. split; [apply in_seq; lia|assumption]. Qed.
Lemma inb_incl l l' ad : incl l l' -> inb l ad = true -> inb l' ad = true.
Proof. intros H H1. apply inb_iff in H1. destruct H1 as (b & n & Hi & Hr). apply inb_iff. exists b, n. auto. Qed.

Lemma init3 (m0 : mem) : provided (work3 tx ty tz T F V w rooms) m0 ->
  WP (convolution3_cmd tx ty tz mult T w rooms) m0 (fun m' => st3 m' /\ only (fun ad => inb (work3 tx ty tz T F V w rooms) ad = true) m0 m').
Proof.
  intros Hp. unfold convolution3_cmd. rewrite (f3_cs HF). apply WP_seq.
  assert (H1 : WP (cfor T (fun th => convolution2_cmd ty tz (mult 0) (r2T (rooms th)) (r2W (rooms th)) (r2rooms (rooms th)))) m0
    (fun m' => (forall th, th < T -> rdy3 th m') /\ only (fun ad => inb (work3 tx ty tz T F V w rooms) ad = true) m0 m')).
  { apply WP_cfor with (I := fun n m' => (forall th, th < n -> rdy3 th m') /\ only (fun ad => inb (work3 tx ty tz T F V w rooms) ad = true) m0 m').
    { split; [intros; lia|apply only_refl]. }
    intros th mm Hth (H1 & H2). set (rm := rooms th).
    assert (Hpt : provided (RB th) mm).
    { intros b n i Hi Hn. apply (proj2 H2). apply (Hp b n i); [apply (wsub3 th Hth); assumption|assumption]. }
    eapply WP_mono; [|apply (init2 ty tz (mult 0) (phi 0) (Phi 0) fyz (u3_0 HM) (r2T rm) (schy th 0) (r2F rm) (r2V rm) (r2W rm) (r2rooms rm) (fun r => Hschy th 0 r Hth) (Sroom3 th Hth) mm Hpt)].
    intros m' (K1 & K2). split.
    - intros th' Hth'. destruct (Nat.eq_dec th' th) as [->|Hne]; [exact K1|].
      eapply rdy3_loc; [lia| |apply H1; lia]. intros a Ha. symmetry. apply (proj1 K2). intros Hr.
      destruct (sep_flat RB T) as [_ Hx]. { unfold work3 in Hsep. apply sep_app in Hsep. tauto. }
      eapply cross_inb; [apply (Hx th th'); lia|exact Hr|exact Ha].
    - eapply only_trans; [exact H2|exact K2|auto|]. intros a Ha. eapply inb_incl; [apply (wsub3 th Hth)|exact Ha]. }
  eapply WP_mono; [|exact H1]. intros m1 (R1 & R2).
  eapply WP_mono; [|apply (pad_spec ly (Sy * Ly) F V w RB rdy3 Z3 (fun k => mul2 ty tz (mult k) (phi k) (Phi k)) (fun _ => True) geo3 built3 B_A (f3_l2x HF) Hsep rowok3 m1)].
  - intros m2 (S1 & S2). split; [exact S1|]. eapply only_trans; [exact R2|exact S2|auto|]. intros a Ha. apply inb_iff. exists w, (workSizeW tx).
    split; [|assumption]. unfold work3. apply in_or_app. left. apply in_W.
  - intros b n i Hi Hn. apply (proj2 R2). apply (Hp b n i); [|assumption]. unfold work3. apply in_or_app. left. assumption.
  - exact R1.
Qed.

Definition out3 (x : nat -> nat -> nat -> nat -> C) (b i j l : nat) : C :=
  oidft (origin tx) Mx (fun kx => oidft (origin ty) My (fun ky => oidft (origin tz) Mz (fun kz => Phi kx ky kz b (fun a =>
    odft (origin tz) Mz Lz (fun l => odft (origin ty) My Ly (fun j => odft (origin tx) Mx Lx (fun i => x a i j l) kx) ky) kz)) l) j) i.
Lemma odft_ext c M L x y k : (forall i, i < L -> x i = y i) -> odft c M L x k = odft c M L y k.
Proof. intros H. unfold odft. apply Csum_ext. intros i Hi. rewrite H by assumption. reflexivity. Qed.
Lemma conv3 (Pf : parr) f off x (m0 : mem) : (forall a, a < A -> Pf a = Some (f a)) ->
  separated (data_blocks tx f off ++ work3 tx ty tz T F V w rooms) -> holds3 A Lx Ly Lz (gS tx) Sy f off x m0 -> st3 m0 ->
  TWP (lconvolve ly Pf off) m0 (fun m' =>
    holds3 B Lx Ly Lz (gS tx) Sy f off (fun b i j l => Cmul (out3 x b i j l) (RtoC (/ (INR Mx * (INR My * INR Mz))))) m' /\ st3 m' /\
    only (fun ad => element3 A Lx Ly Lz (gS tx) Sy f off ad \/ inb (work3 tx ty tz T F V w rooms) ad = true) m0 m').
Proof.
  intros HN Hs Hx Hst. pose (y := fun a i o => x a i (o / Sy) (o mod Sy)).
  eapply TWP_mono; [|apply (conv_blocks ly (Sy * Ly) F V w RB rdy3 Z3 (fun k => mul2 ty tz (mult k) (phi k) (Phi k)) (fun _ => True) geo3 cgeo3 built3 B_A (f3_l2x HF) Hsep rowok3 Pf f off y m0)]; [|intros k; exact Logic.I|assumption|assumption| |assumption].
  - intros m' (K1 & K2 & K3). split; [|split; [exact K2|]].
    + intros b i j l Hb Hi Hj Hl. rewrite <- Nat.add_assoc. pose proof (K1 b Hb i (Sy * j + l) Hi ltac:(apply col3; exists j, l; auto)) as HK. cbn [convolution3 lpad] in HK. rewrite HK.
      apply (f_equal Val). cbn [convolution3 lscale]. apply f_equal2; [|reflexivity]. unfold out, out3. cbn [convolution3 lpad]. unfold oidft at 1 2. apply Csum_ext. intros kx Hkx.
      apply f_equal2; [|reflexivity]. unfold Zk, Z3. destruct (divmod j l Hl) as [-> ->]. unfold out2. unfold oidft at 1 2. apply Csum_ext. intros ky Hky.
      apply f_equal2; [|reflexivity]. unfold Z2. unfold oidft at 1 2. apply Csum_ext. intros kz Hkz.
      apply f_equal2; [|reflexivity]. apply (u_ext _ _ _ _ _ (u3_k HM kx Hkx)). intros a Ha. apply odft_ext. intros l' Hl'. apply odft_ext. intros j' Hj'.
      apply odft_ext. intros i' Hi'. unfold y. destruct (divmod j' l' Hl') as [-> ->]. reflexivity.
    + eapply only_mono; [exact K3|]. intros ad [(a & Ha & i & o & Hi & Ho & ->)|H]; [left|right; exact H]. apply col3 in Ho.
      destruct Ho as (j & l & Hj & Hl & ->). exists a, i, j, l. repeat split; auto. cbn [convolution3 lpad]. lia.
  - intros a Ha i o Hi Ho. apply col3 in Ho. destruct Ho as (j & l & Hj & Hl & ->). unfold y. destruct (divmod j l Hl) as [-> ->].
    rewrite Nat.add_assoc. apply Hx; assumption.
Qed.
End C3.
