(** The Hermitian transforms and the Hermitian 1D convolution touch only words that they name. *)
From Coq Require Import Reals ZArith Arith Lia List Bool FunctionalExtensionality.
From Verif Require Import CNum Sums Roots Mem VecModel PadModel PadKernels CenModel HerModel ConvModel HConvModel Team TeamGood.

Lemma c2r_good P pin pout : good_ext (c2r_pre P pin pout) (c2r_post P pin pout).
Proof.
  intros S m (H1 & H2 & H3 & H4).
  assert (Hin : forall a, cword P pin a -> S a = true).
  { intros a (h & s & Hh & Hs & ->). destruct (H2 h s Hh Hs) as (v & Hv & _). apply restr_val in Hv. tauto. }
  assert (Hout : forall a, rword P pout a -> S a = true).
  { intros a (w & Hw & ->). specialize (H3 w Hw). apply restr_alloc in H3. tauto. }
  split; [|split].
  - split; [assumption|]. split; [|split; [|assumption]].
    + intros h s Hh Hs. destruct (H2 h s Hh Hs) as (v & Hv & Hz). apply restr_val in Hv. exists v. tauto.
    + intros w Hw. specialize (H3 w Hw). apply restr_alloc in H3. tauto.
  - intros m' (P1 & P2 & P3). split; [split; [|split]|].
    + intros x d Hx Hd Hd0 w Hw. rewrite restr_in by (apply Hout; exists w; auto). apply (P1 x d); auto.
      intros h s Hh Hs. specialize (Hx h s Hh Hs). apply restr_val in Hx. tauto.
    + intros a Ha Hn. rewrite restr_in by auto. auto.
    + intros a Ha Hn. unfold restr. rewrite P3 by assumption. reflexivity.
    + intros a Ha. apply P3; intros Hy; [rewrite (Hin a Hy) in Ha|rewrite (Hout a Hy) in Ha]; discriminate.
  - intros rm (P1 & P2 & P3). exists (fun a => if S a then rm a else m a). split; [split; [|split]|split].
    + intros x d Hx Hd Hd0 w Hw. rewrite Hout by (exists w; auto). apply (P1 x d); auto.
      intros h s Hh Hs. rewrite restr_in by (apply Hin; exists h, s; auto). auto.
    + intros a Ha Hn. rewrite (Hin a Ha). auto.
    + intros a Ha Hn. destruct (S a) eqn:E; [|reflexivity]. rewrite P3 by assumption. apply restr_in. assumption.
    + apply functional_extensionality. intros a. unfold restr. destruct (S a) eqn:E; [reflexivity|].
      symmetry. rewrite P3; [apply restr_out; assumption| |]; intros Hy; [rewrite (Hin a Hy) in E|rewrite (Hout a Hy) in E]; discriminate.
    + intros a Ha. rewrite Ha. reflexivity.
Qed.

Lemma r2c_good P pin pout : good_ext (r2c_pre P pin pout) (r2c_post P pin pout).
Proof.
  intros S m (H1 & H2 & H3 & H4).
  assert (Hin : forall a, rword P pin a -> S a = true).
  { intros a (w & Hw & ->). destruct (H2 w Hw) as (v & Hv). apply restr_val in Hv. tauto. }
  assert (Hout : forall a, cword P pout a -> S a = true).
  { intros a (h & s & Hh & Hs & ->). specialize (H3 h s Hh Hs). apply restr_alloc in H3. tauto. }
  assert (Hi : forall i, i < rp_N P -> rword P pin (pin + i / 2)).
  { intros i Hi. exists (i / 2). split; [|reflexivity]. unfold rp_w, cq. apply Nat.div_lt_upper_bound; [lia|].
    pose proof (Nat.div_mod_eq (rp_N P + 2 - 1) 2). pose proof (Nat.mod_upper_bound (rp_N P + 2 - 1) 2 ltac:(lia)).
    replace (2 * _) with (2 * ((rp_N P + 2 - 1) / 2)) by reflexivity. lia. }
  split; [|split].
  - split; [assumption|]. split; [|split; [|assumption]].
    + intros w Hw. destruct (H2 w Hw) as (v & Hv). apply restr_val in Hv. exists v. tauto.
    + intros h s Hh Hs. specialize (H3 h s Hh Hs). apply restr_alloc in H3. tauto.
  - intros m' (P1 & P2). split; [split|].
    + intros d Hd h s Hh Hs. rewrite restr_in by (apply Hout; exists h, s; auto). apply P1; auto.
      intros i Hx. destruct (Hd i Hx) as (v & Hv & E). apply restr_val in Hv. exists v. tauto.
    + intros a Ha. unfold restr. rewrite P2 by assumption. reflexivity.
    + intros a Ha. apply P2. intros Hy. rewrite (Hout a Hy) in Ha. discriminate.
  - intros rm (P1 & P2). exists (fun a => if S a then rm a else m a). split; [split|split].
    + intros d Hd h s Hh Hs. rewrite Hout by (exists h, s; auto). apply P1; auto.
      intros i Hx. destruct (Hd i Hx) as (v & Hv & E). exists v. rewrite restr_in by (apply Hin, Hi, Hx). auto.
    + intros a Ha. destruct (S a) eqn:E; [|reflexivity]. rewrite P2 by assumption. apply restr_in. assumption.
    + apply functional_extensionality. intros a. unfold restr. destruct (S a) eqn:E; [reflexivity|].
      symmetry. rewrite P2; [apply restr_out; assumption|]. intros Hy. rewrite (Hout a Hy) in E. discriminate.
    + intros a Ha. rewrite Ha. reflexivity.
Qed.

Lemma cgood_crfft P pin pout : cgood (crfft P pin pout).
Proof. unfold crfft. destruct (Bool.eqb _ _); cbn [cgood]; [apply c2r_good|exact Logic.I]. Qed.
Lemma cgood_rcfft P pin pout : cgood (rcfft P pin pout).
Proof. unfold rcfft. destruct (Bool.eqb _ _); cbn [cgood]; [apply r2c_good|exact Logic.I]. Qed.

Lemma cgood_hforward al t f F r W : cgood (hforward al t f F r W).
Proof. unfold hforward, hforwardExplicit, hforwardExplicitMany, hforwardInner, hforward2, hforward2Many, padMany, cget; cbv zeta; repeat first [apply cgood_crfft | apply cgood_rcfft | good1]. Qed.
Lemma cgood_hbackward al t f F r W : cgood (hbackward al t f F r W).
Proof. unfold hbackward, hbackwardExplicit, hbackwardExplicitMany, hbackwardInner, hbackward2, hbackward2Many, cget; cbv zeta; repeat first [apply cgood_crfft | apply cgood_rcfft | good1]. Qed.

Lemma good_realMult : good_mult realMultBinary.
Proof. intros P n r off. unfold realMultBinary, pget. good. Qed.

Section Conv.
Variables (al : nat) (t : pad) (c : hconv).
Hypothesis Hm : good_mult (hcmult c).
Lemma cgood_hcforward f F r a b : cgood (hcforward al t c f F r a b).
Proof. unfold hcforward, pget. good. apply cgood_hforward. Qed.
Lemma cgood_hcbackward f F r a b W : cgood (hcbackward al t f F r a b W).
Proof. unfold hcbackward, pget. good. apply cgood_hbackward. Qed.
Lemma cgood_hoperate F r : cgood (hoperate al t c F r).
Proof.
  unfold hoperate. apply cgood_seq; [apply Hm|]. generalize 1 as d. induction (hspan al t) as [|k IH]; intros d; cbn [hoploop]; [exact Logic.I|].
  destruct (_ <? _); [|exact Logic.I]. cbv zeta. apply cgood_seq; [apply Hm|apply IH].
Qed.
Lemma cgood_hl2loop fuel a g r k : (forall a, cgood (k a)) -> cgood (hl2loop al t c fuel a g r k).
Proof.
  intros Hk. revert a. induction fuel as [|fu IH]; intros a; cbn [hl2loop]; [auto|]. good; auto using cgood_hcforward, cgood_hcbackward.
Qed.
Lemma cgood_hconvolveRaw g : cgood (hconvolveRaw al t c g).
Proof.
  unfold hconvolveRaw. cbv zeta. good; auto using cgood_hcforward, cgood_hcbackward, cgood_hoperate; try (apply Hm).
  - apply cgood_hl2loop. intros a. good; auto using cgood_hcforward, cgood_hcbackward, cgood_hoperate.
  - apply cgood_rfor. intros r. good; auto using cgood_hcforward, cgood_hcbackward, cgood_hoperate.
  - unfold hcopyback, pget. good.
Qed.
End Conv.
