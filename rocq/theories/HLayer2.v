(** Convolution3 on Hermitian data: the planes are Convolution2 objects on Hermitian data. *)
From Coq Require Import Reals ZArith Arith Lia List Bool Permutation FunctionalExtensionality.
From Verif Require Import CNum Sums Roots Mem VecModel PadModel PadKernels Loops PadLemmas PadGeom PadIndex Fwd1 FwdAll
  CenModel HerModel HerSpec HConvModel HConvSpec HConv1 HConv2 HConv3
  ConvMath ConvModel ConvSpec PadSpec Team TeamGood LayerModel LayerSpec HLayerModel HLayerSpec
  Layer1 Layer2 Layer3 Layer4 Layer5 Layer6 Layer7 Layer8 Layer9 LayerProofs HLayer1 Xf XfProofs.
Import ListNotations.

Section C3.
Variables (al : nat) (tx ty : xf) (tz : pad).
Notation A := (aA tx). Notation B := (aB tx). Notation Mx := (gM tx). Notation My := (gM ty). Notation Mz := (kM tz).
Notation Lx := (gL tx). Notation Ly := (gL ty). Notation Lz := (hH tz). Notation Sy := (gS ty).

Record hfit3 : Prop := mkhfit3 {
  hf3_wfx : wf tx; hf3_yz : hfit2 al ty tz; hf3_D : gD tx = 1;
  hf3_cs : checkStrides tx ty = true; hf3_A : A = 2; hf3_B : B = 1
}.
Definition ZH3 (k b : nat) (x : nat -> nat -> C) (o : nat) : C :=
  outH ty tz (fun a i c => x a (Sy * i + c)) b (o / Sy) (o mod Sy).
Definition okH3 (x : nat -> nat -> C) : Prop := okdH ty (fun a i c => x a (Sy * i + c)).

Hypothesis HF : hfit3.
Variables (T : nat) (sch : nat -> nat -> list nat) (F V : nat -> addr) (w : addr) (rooms : nat -> room2) (schy : nat -> nat -> nat -> nat -> list nat).
Hypothesis Hsch : forall r, schedule T (gl tx) (sch r).
Hypothesis Hschy : forall th k r, th < T -> schedule (r2T (rooms th)) (gl ty) (schy th k r).
Hypothesis Hsep : separated (hwork3 al tx ty tz T F V w rooms).
Notation ly := (hconvolution3 al tx ty tz realMultBinary T sch F V w rooms schy).
Notation RB := (fun th => hroom2_blocks al ty tz (rooms th)).
Notation st th k := (stH al ty tz (r2T (rooms th)) (schy th k) (r2F (rooms th)) (r2V (rooms th)) (r2W (rooms th)) (r2rooms (rooms th))).
Definition rdyH3 (th : nat) (m : mem) : Prop := st th 0 m.

Lemma stH_swap t t' T0 s s' F0 V0 w0 r0 m : stH al t t' T0 s F0 V0 w0 r0 m -> stH al t t' T0 s' F0 V0 w0 r0 m.
Proof. intros [S1 S2 S3 S4]. constructor; [exact S1|exact S2|exact S3|exact S4]. Qed.

Lemma hfyz : hfit2 al ty tz. Proof. apply HF. Qed.
Lemma Lzpos : 1 <= Lz. Proof. destruct hfyz. eapply H_pos; eassumption. Qed.
Lemma hSpos : 1 <= Sy. Proof. pose proof (hf_S _ _ _ hfyz). pose proof Lzpos. lia. Qed.
Lemma hstrides : Ly * Sy <= gS tx /\ gC tx = (if contiguous ty then Ly * Sy else gC ty).
Proof. pose proof (hf3_cs HF) as Hc. unfold checkStrides in Hc. apply andb_prop in Hc. destruct Hc as [H1 H2]. apply Nat.leb_le in H1. apply Nat.eqb_eq in H2. auto. Qed.
Notation J := (if contiguous ty then 1 else Ly).
Notation SJ := (if contiguous ty then 0 else Sy).
Lemma hcont : contiguous ty = true -> Sy = Lz.
Proof. unfold contiguous. intros Hc. apply Nat.eqb_eq in Hc. rewrite Hc. apply (hf_C _ _ _ hfyz). Qed.
Lemma hrowlt i c : i < Ly -> c < Lz -> Sy * i + c < Ly * Sy.
Proof. intros Hi Hc. pose proof (hf_S _ _ _ hfyz). nia. Qed.
Lemma hdivmod i c : c < Lz -> (Sy * i + c) / Sy = i /\ (Sy * i + c) mod Sy = c.
Proof.
  intros Hc. pose proof (hf_S _ _ _ hfyz). split.
  - rewrite Nat.mul_comm, Nat.div_add_l by lia. rewrite Nat.div_small by lia. lia.
  - rewrite Nat.add_comm, Nat.mul_comm, Nat.mod_add by lia. apply Nat.mod_small. lia.
Qed.
Lemma hcol3 o : col tx J SJ o <-> exists i c, i < Ly /\ c < Lz /\ o = Sy * i + c.
Proof.
  destruct hstrides as [H1 H2]. pose proof (hf_C _ _ _ hfyz) as HC. pose proof hSpos as Hp. unfold col. split.
  - intros (j & c & Hj & Hc & ->). destruct (contiguous ty) eqn:Ec.
    + rewrite H2 in Hc. pose proof (hcont Ec) as E. exists (c / Sy), (c mod Sy). pose proof (Nat.div_mod c Sy ltac:(lia)). pose proof (Nat.mod_upper_bound c Sy ltac:(lia)).
      split; [apply Nat.div_lt_upper_bound; lia|]. split; lia.
    + exists j, c. repeat split; auto. lia.
  - intros (i & c & Hi & Hc & ->). destruct (contiguous ty) eqn:Ec.
    + exists 0, (Sy * i + c). split; [lia|]. split; [|lia]. rewrite H2. apply hrowlt; assumption.
    + exists i, c. repeat split; auto. lia.
Qed.
Lemma hgeo3 : geo tx J SJ (Sy * Ly).
Proof.
  destruct hstrides as [H1 H2]. pose proof (hf_C _ _ _ hfyz) as HC. pose proof (hf_S _ _ _ hfyz) as HS. constructor.
  - apply HF.
  - apply HF.
  - intros j Hj. rewrite H2. destruct (contiguous ty); [lia|]. rewrite HC.
    assert (Sy * j + Sy <= Sy * Ly). { replace (Sy * j + Sy) with (Sy * (j + 1)) by lia. apply Nat.mul_le_mono_l. lia. } lia.
  - lia.
  - intros j j' c c' Hj Hj' Hc Hc' E. rewrite H2 in *. destruct (contiguous ty) eqn:Ec; [lia|]. rewrite HC in *.
    destruct (hdivmod j c Hc) as [E1 _]. destruct (hdivmod j' c' Hc') as [E2 _]. rewrite E in E1. congruence.
Qed.
Lemma hcgeo3 : cgeo ly.
Proof.
  constructor; cbn [hconvolution3 lcJ lcC lcS lpad lJ lSy].
  - intros o. rewrite hcol3. split; intros (i & c & Hy); exists i, c; exact Hy.
  - intros j j' k k' Hj Hj' Hk Hk' E. destruct (hdivmod j k Hk) as [E1 E1']. destruct (hdivmod j' k' Hk') as [E2 E2']. rewrite E in E1, E1'. split; congruence.
Qed.
Lemma hSroom3 th : th < T -> separated (RB th).
Proof. intros Hth. unfold hwork3 in Hsep. apply sep_app in Hsep. destruct Hsep as (_ & Hy & _). destruct (sep_flat RB T Hy) as [H1 _]. auto. Qed.

Lemma rdyH3_loc th m m' : th < T -> (forall a, inb (RB th) a = true -> m a = m' a) -> rdyH3 th m -> rdyH3 th m'.
Proof.
  intros Hth E Hst. unfold rdyH3, stH in *. set (rm := rooms th) in *.
  refine (lst_loc (hconvolution2 al ty tz realMultBinary (r2T rm) (schy th 0) (r2F rm) (r2V rm) (r2W rm) (r2rooms rm)) Lz (r2F rm) (r2V rm) (r2W rm)
    (fun th => hroom_blocks al tz (r2rooms rm th)) (rdyH al tz (r2rooms rm)) (ZH tz) (fun _ => True) okH
    (geoH al ty tz hfyz) _ (hBA al ty tz hfyz) (hl2x al ty tz hfyz) _ m m' _ Hst).
  - apply builtH.
  - apply rowokH; [apply hfyz|intros r; apply Hschy; assumption|apply hSroom3; assumption].
  - exact E.
Qed.

Lemma rowH3 : row_ok ly (Sy * Ly) (fun th => inb (RB th)) rdyH3 ZH3 (fun _ => True) okH3.
Proof.
  intros th k F0 G off x m0 Hth _ Hok EF HGG HPG Hx Hr. cbn [hconvolution3 lT lpad lrow lJ lSy] in *.
  pose proof (hf3_A HF) as HA. pose proof (hf3_B HF) as HB. pose proof (hf_Ax _ _ _ hfyz) as HAy. pose proof (hf_Bx _ _ _ hfyz) as HBy. set (rm := rooms th) in *.
  assert (Hs : separated (data_blocks ty G off ++ hroom2_blocks al ty tz rm)).
  { apply sep_app. split; [|split].
    - unfold data_blocks. rewrite HAy. assert (forall s n, s + n <= 2 -> separated (map (fun a => (G a + off, Sy * Ly)) (seq s n))) as Hall; [|apply (Hall 0 2); lia].
      intros s n. revert s. induction n as [|n IH]; intros s Hn; cbn [seq map]; constructor; [|apply IH; lia].
      apply Forall_forall. intros y Hy. apply in_map_iff in Hy. destruct Hy as (a & <- & Ha). apply in_seq in Ha. cbn [fst snd].
      rewrite HA in HGG. pose proof (HGG s a ltac:(lia) ltac:(lia) ltac:(lia)) as Hd. unfold dj in Hd. unfold ConvSpec.apart. lia.
    - apply hSroom3. assumption.
    - intros y z Hy Hz. unfold data_blocks in Hy. apply in_map_iff in Hy. destruct Hy as (a & <- & Ha). apply in_seq in Ha. cbn [fst snd].
      destruct z as [b n]. cbn [fst snd]. apply pt_apart. intros ad Had. apply HPG; [lia|]. apply inb_iff. exists b, n. auto. }
  eapply TWP_mono; [|apply (rawH al ty tz hfyz (r2T rm) (schy th k) (r2F rm) (r2V rm) (r2W rm) (r2rooms rm)
     (fun r => Hschy th k r Hth) (hSroom3 th Hth) F0 G off (fun a i c => x a (Sy * i + c)) m0)].
  - intros m' (K1 & K2 & K3). split; [|split; [eapply stH_swap; exact K2|]].
    + intros b o Hb Ho. apply hcol3 in Ho. destruct Ho as (i & c & Hi & Hc & ->). rewrite Nat.add_assoc. rewrite K1 by (auto; lia). unfold ZH3.
      destruct (hdivmod i c Hc) as [-> ->]. reflexivity.
    + eapply only_mono; [exact K3|]. intros ad [(a & i & c & Ha & Hi & Hc & ->)|Hy]; [left|right; exact Hy].
      exists a, (Sy * i + c). split; [lia|]. split; [apply hcol3; exists i, c; auto|lia].
  - exact Hok.
  - intros a Ha. apply EF. lia.
  - exact Hs.
  - intros a i c Ha Hi Hc. replace (G a + off + Sy * i + c) with (G a + off + (Sy * i + c)) by lia. apply Hx; [lia|]. apply hcol3. exists i, c. auto.
  - eapply stH_swap. exact Hr.
Qed.

Lemma goodH3 th k P off : tgood (lrow ly th k P off).
Proof. cbn [hconvolution3 lrow]. apply tgoodH. Qed.
Lemma rowokH3 : rowok ly (Sy * Ly) RB rdyH3 ZH3 (fun _ => True) okH3.
Proof.
  constructor.
  - apply rdyH3_loc.
  - apply rowH3.
  - apply goodH3.
  - auto.
  - exact Hsch.
  - intros _. split; [auto|reflexivity].
Qed.
Lemma builtH3 : built ly F V w.
Proof. constructor; reflexivity. Qed.
Lemma hBA3 : B <= A. Proof. rewrite (hf3_A HF), (hf3_B HF). lia. Qed.
Lemma hl2x3 : loop2 tx = true -> A = B + 1. Proof. rewrite (hf3_A HF), (hf3_B HF). lia. Qed.

Definition stH3 (m : mem) : Prop := lst ly (rdy' ly rdyH3) F V m.
Lemma hwsub3 th : th < T -> incl (RB th) (hwork3 al tx ty tz T F V w rooms).
Proof. intros Hth x Hx. unfold hwork3. apply in_or_app. right. apply in_flat_map. exists th. split; [apply in_seq; lia|assumption]. Qed.

Lemma initH3 (m0 : mem) : provided (hwork3 al tx ty tz T F V w rooms) m0 ->
  WP (hconvolution3_cmd tx ty T w rooms) m0 (fun m' => stH3 m' /\ only (fun ad => inb (hwork3 al tx ty tz T F V w rooms) ad = true) m0 m').
Proof.
  intros Hp. unfold hconvolution3_cmd. rewrite (hf3_cs HF). apply WP_seq.
  assert (H1 : WP (cfor T (fun th => hconvolution2_cmd ty (r2W (rooms th)))) m0
    (fun m' => (forall th, th < T -> rdyH3 th m') /\ only (fun ad => inb (hwork3 al tx ty tz T F V w rooms) ad = true) m0 m')).
  { apply WP_cfor with (I := fun n m' => (forall th, th < n -> rdyH3 th m') /\ only (fun ad => inb (hwork3 al tx ty tz T F V w rooms) ad = true) m0 m').
    { split; [intros; lia|apply only_refl]. }
    intros th mm Hth (H1 & H2). set (rm := rooms th).
    assert (Hpt : provided (RB th) mm).
    { intros b n i Hi Hn. apply (proj2 H2). apply (Hp b n i); [apply (hwsub3 th Hth); assumption|assumption]. }
    eapply WP_mono; [|apply (initH al ty tz hfyz (r2T rm) (schy th 0) (r2F rm) (r2V rm) (r2W rm) (r2rooms rm) (fun r => Hschy th 0 r Hth) (hSroom3 th Hth) mm Hpt)].
    intros m' (K1 & K2). split.
    - intros th' Hth'. destruct (Nat.eq_dec th' th) as [->|Hne]; [exact K1|].
      eapply rdyH3_loc; [lia| |apply H1; lia]. intros a Ha. symmetry. apply (proj1 K2). intros Hr.
      destruct (sep_flat RB T) as [_ Hx]. { unfold hwork3 in Hsep. apply sep_app in Hsep. tauto. }
      eapply cross_inb; [apply (Hx th th'); lia|exact Hr|exact Ha].
    - eapply only_trans; [exact H2|exact K2|auto|]. intros a Ha. eapply inb_incl; [apply (hwsub3 th Hth)|exact Ha]. }
  eapply WP_mono; [|exact H1]. intros m1 (R1 & R2).
  eapply WP_mono; [|apply (pad_spec ly (Sy * Ly) F V w RB rdyH3 ZH3 (fun _ => True) okH3 hgeo3 builtH3 hBA3 hl2x3 Hsep rowokH3 m1)].
  - intros m2 (S1 & S2). split; [exact S1|]. eapply only_trans; [exact R2|exact S2|auto|]. intros a Ha. apply inb_iff. exists w, (workSizeW tx).
    split; [|assumption]. unfold hwork3. apply in_or_app. left. apply in_W.
  - intros b n i Hi Hn. apply (proj2 R2). apply (Hp b n i); [|assumption]. unfold hwork3. apply in_or_app. left. assumption.
  - exact R1.
Qed.

Definition outH3 (x : nat -> nat -> nat -> nat -> C) (b i j l : nat) : C :=
  oidft (origin tx) Mx (fun kx => outH ty tz (fun a j l => odft (origin tx) Mx Lx (fun i => x a i j l) kx) b j l) i.
Definition okdH3 (x : nat -> nat -> nat -> nat -> C) : Prop :=
  forall kx ky a, a < 2 -> im (odft (origin ty) My Ly (fun j => odft (origin tx) Mx Lx (fun i => x a i j 0) kx) ky) = 0%R.
Lemma convH3 (Pf : parr) f off x (m0 : mem) : okdH3 x -> (forall a, a < A -> Pf a = Some (f a)) ->
  separated (data_blocks tx f off ++ hwork3 al tx ty tz T F V w rooms) -> holds3 A Lx Ly Lz (gS tx) Sy f off x m0 -> stH3 m0 ->
  TWP (lconvolve ly Pf off) m0 (fun m' =>
    holds3 B Lx Ly Lz (gS tx) Sy f off (fun b i j l => Cmul (outH3 x b i j l) (RtoC (/ (INR Mx * (INR My * INR Mz))))) m' /\ stH3 m' /\
    only (fun ad => element3 A Lx Ly Lz (gS tx) Sy f off ad \/ inb (hwork3 al tx ty tz T F V w rooms) ad = true) m0 m').
Proof.
  intros Hok HN Hs Hx Hst. pose (y := fun a i o => x a i (o / Sy) (o mod Sy)). pose proof Lzpos as Hz.
  eapply TWP_mono; [|apply (conv_blocks ly (Sy * Ly) F V w RB rdyH3 ZH3 (fun _ => True) okH3 hgeo3 hcgeo3 builtH3 hBA3 hl2x3 Hsep rowokH3 Pf f off y m0)];
    [| |assumption|assumption| |assumption].
  - intros m' (K1 & K2 & K3). split; [|split; [exact K2|]].
    + intros b i j l Hb Hi Hj Hl. rewrite <- Nat.add_assoc. pose proof (K1 b Hb i (Sy * j + l) Hi ltac:(apply hcol3; exists j, l; auto)) as HK. cbn [hconvolution3 lpad] in HK. rewrite HK.
      apply (f_equal Val). cbn [hconvolution3 lscale]. apply f_equal2; [|reflexivity]. unfold out, outH3. cbn [hconvolution3 lpad]. apply oidft_ext. intros kx Hkx.
      unfold Zk, ZH3. destruct (hdivmod j l Hl) as [-> ->]. unfold outH. apply oidft_ext. intros ky Hky. unfold ZH, hpartial_inverse. apply Csum_ext. intros kz Hkz.
      assert (E : forall a, hdft Mz Lz (fun o' => odft (origin ty) My Ly (fun i0 => odft (origin tx) Mx Lx (fun i1 => y a i1 (Sy * i0 + o')) kx) ky) kz =
                            hdft Mz Lz (fun o' => odft (origin ty) My Ly (fun j => odft (origin tx) Mx Lx (fun i => x a i j o') kx) ky) kz).
      { intros a.
        assert (E0 : forall l', l' < Lz -> odft (origin ty) My Ly (fun i0 => odft (origin tx) Mx Lx (fun i1 => y a i1 (Sy * i0 + l')) kx) ky =
                                  odft (origin ty) My Ly (fun j => odft (origin tx) Mx Lx (fun i => x a i j l') kx) ky).
        { intros l' Hl'. apply odft_ext. intros j' Hj'. apply odft_ext. intros i' Hi'. unfold y. destruct (hdivmod j' l' Hl') as [-> ->]. reflexivity. }
        unfold hdft. apply f_equal2; [apply E0; lia|]. apply Csum_ext. intros o Ho. rewrite E0 by lia. reflexivity. }
      rewrite !E. reflexivity.
    + eapply only_mono; [exact K3|]. intros ad [(a & Ha & i & o & Hi & Ho & ->)|Hy]; [left|right; exact Hy]. apply hcol3 in Ho.
      destruct Ho as (j & l & Hj & Hl & ->). exists a, i, j, l. repeat split; auto. cbn [hconvolution3 lpad]. lia.
  - intros kx ky a Ha. rewrite <- (Hok kx ky a Ha). apply f_equal. cbn [hconvolution3 lpad]. apply odft_ext. intros j' Hj'. apply odft_ext. intros i' Hi'. unfold y.
    destruct (hdivmod j' 0 ltac:(lia)) as [-> ->]. reflexivity.
  - intros a Ha i o Hi Ho. apply hcol3 in Ho. destruct Ho as (j & l & Hj & Hl & ->). unfold y. destruct (hdivmod j l Hl) as [-> ->].
    rewrite Nat.add_assoc. apply Hx; assumption.
Qed.
End C3.
