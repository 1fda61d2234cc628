(** convolveRaw of Convolution2/Convolution3: copy and normalize loops, one pass, all branches. *)
From Coq Require Import Reals ZArith Arith Lia List Bool Permutation FunctionalExtensionality.
From Verif Require Import CNum Sums Roots Mem VecModel PadModel PadKernels Loops PadLemmas PadGeom PadIndex Fwd1 FwdAll
  ConvModel Conv1 Conv6 PadSpec PadRound PadBridge PadProofs Team LayerModel Layer1 Layer2 Layer3 ConvSpec Xf XfProofs XfBridge.
Import ListNotations.

(** the loops of normalize and copy visit exactly the columns of a row, each once *)
Record cgeo (ly : layer) : Prop := mkcgeo {
  c_col : forall o, (exists j k, j < lcJ ly /\ k < lcC ly /\ o = lcS ly * j + k) <-> col (lpad ly) (lJ ly) (lSy ly) o;
  c_inj : forall j j' k k', j < lcJ ly -> j' < lcJ ly -> k < lcC ly -> k' < lcC ly -> lcS ly * j + k = lcS ly * j' + k' -> j = j' /\ k = k'
}.

Section Rows.
Variable ly : layer.
Notation t := (lpad ly).
Notation L := (gL t). Notation S := (gS t). Notation CC := (gC t). Notation l := (gl t). Notation M := (gM t).
Notation J := (lJ ly). Notation Sy := (lSy ly). Notation B := (aB t).
Variable rl : nat.
Hypothesis HG : geo t J Sy rl.
Hypothesis HC : cgeo ly.
Notation col := (col t J Sy). Notation rw := (rw t J Sy). Notation hasr := (hasr t J Sy). Notation allocr := (allocr t J Sy).
Notation rwd := (rw_dj t J Sy rl HG).

Lemma rowcol j k : j < lcJ ly -> k < lcC ly -> col (lcS ly * j + k).
Proof. intros Hj Hk. apply (c_col ly HC). exists j, k. auto. Qed.
Lemma word_inj i i' o o' : col o -> col o' -> S * i + o = S * i' + o' -> i = i' /\ o = o'.
Proof.
  intros Ho Ho' E. apply (col_S t J Sy rl HG) in Ho, Ho'. destruct (Nat.eq_dec i i') as [->|Hne]; [split; [reflexivity|lia]|].
  exfalso. assert (S * i + S <= S * i' \/ S * i' + S <= S * i).
  { destruct (Nat.lt_total i i') as [H|[H|H]]; [left|contradiction|right];
    [replace (S * i + S) with (S * (i + 1)) by lia|replace (S * i' + S) with (S * (i' + 1)) by lia]; apply Nat.mul_le_mono_l; lia. }
  lia.
Qed.

Lemma rowmap src dst (fn : C -> C) y (m0 : mem) :
  src = dst \/ dj src (S * L) dst (S * L) -> hasr src L y m0 -> allocr dst L m0 ->
  WP (lrows ly (fun o => x <- src + o ;; dst + o ::= fn x ;; Ret)) m0 (fun m' =>
    hasr dst L (fun i o => fn (y i o)) m' /\ only (rw dst L) m0 m').
Proof.
  intros Hd Hs Ha. unfold lrows.
  pose (wd := fun i j k => dst + (S * i + lcS ly * j + k)).
  assert (Hwd : forall i j k, i < L -> j < lcJ ly -> k < lcC ly -> rw dst L (wd i j k)).
  { intros i j k Hi Hj Hk. exists i, (lcS ly * j + k). split; [assumption|]. split; [apply rowcol; assumption|unfold wd; lia]. }
  assert (Hinj : forall i i' j j' k k', i < L -> i' < L -> j < lcJ ly -> j' < lcJ ly -> k < lcC ly -> k' < lcC ly ->
    wd i j k = wd i' j' k' -> i = i' /\ j = j' /\ k = k').
  { intros i i' j j' k k' Hi Hi' Hj Hj' Hk Hk' E.
    destruct (word_inj i i' (lcS ly * j + k) (lcS ly * j' + k')) as [-> E2]; [apply rowcol; assumption|apply rowcol; assumption|unfold wd in E; lia|].
    destruct (c_inj ly HC j j' k k') as [-> ->]; auto. }
  apply WP_Do with (W := fun a => exists i, rng 0 L i /\ exists j, rng 0 (lcJ ly) j /\ exists k, rng 0 (lcC ly) k /\ wd i j k = a)
    (Q := fun m' => forall i, rng 0 L i -> forall j, rng 0 (lcJ ly) j -> forall k, rng 0 (lcC ly) k -> m' (wd i j k) = Val (fn (y i (lcS ly * j + k)))).
  - intros ma mb Hm HQ i Hi j Hj k Hk. rewrite <- Hm; [apply HQ; assumption|]. exists i. split; [assumption|]. exists j. split; [assumption|]. exists k. auto.
  - apply wp_for with (W := fun i a => exists j, rng 0 (lcJ ly) j /\ exists k, rng 0 (lcC ly) k /\ wd i j k = a).
    + unfold rng. intros i i' a Hi Hi' (j & Hj & k & Hk & E) (j' & Hj' & k' & Hk' & E'). apply (Hinj i i' j j' k k'); lia.
    + intros i a Hi Hw Hn. apply Hn. exists i. auto.
    + intros i Hi ma mb Hm HQ j Hj k Hk. rewrite <- Hm; [apply HQ; assumption|]. exists j. split; [assumption|]. exists k. auto.
    + intros i Hi. apply wp_for with (W := fun j a => exists k, rng 0 (lcC ly) k /\ wd i j k = a)
        (Q := fun j m' => forall k, rng 0 (lcC ly) k -> m' (wd i j k) = Val (fn (y i (lcS ly * j + k)))).
      * unfold rng in *. intros j j' a Hj Hj' (k & Hk & E) (k' & Hk' & E'). apply (Hinj i i j j' k k'); lia.
      * intros j a Hj Hw Hn. apply Hn. exists i. split; [assumption|]. exists j. auto.
      * intros j Hj ma mb Hm HQ k Hk. rewrite <- Hm; [apply HQ; assumption|]. exists k. auto.
      * intros j Hj. apply wp_for with (W := fun k a => wd i j k = a)
          (Q := fun k m' => m' (wd i j k) = Val (fn (y i (lcS ly * j + k)))).
        -- unfold rng in *. intros k k' a Hk Hk' E E'. apply (Hinj i i j j k k'); lia.
        -- intros k a Hk Hw Hn. apply Hn. exists i. split; [assumption|]. exists j. split; [assumption|]. exists k. auto.
        -- intros k Hk. apply local_one.
        -- unfold rng in *. intros k Hk. cbn [wp].
           assert (Hcol : col (lcS ly * j + k)) by (apply rowcol; lia).
           assert (Esrc : m0 (src + (S * i + lcS ly * j + k)) = Val (y i (lcS ly * j + k))).
           { replace (src + (S * i + lcS ly * j + k)) with (src + S * i + (lcS ly * j + k)) by lia. apply Hs; [lia|assumption]. }
           split.
           ++ destruct Hd as [->|Hd]; [right; reflexivity|left]. intros (i' & Hi' & j' & Hj' & k' & Hk' & E).
              apply (rwd src L dst L (wd i' j' k') Hd).
              ** rewrite E. exists i, (lcS ly * j + k). split; [lia|]. split; [assumption|lia].
              ** apply Hwd; lia.
           ++ exists (y i (lcS ly * j + k)). split; [exact Esrc|]. split; [reflexivity|]. split; [|apply upd_eq].
              apply Ha. apply (Hwd i j k); lia.
  - intros m' HQ HF Hal. split; [|split; [|assumption]].
    + intros i o Hi Ho. apply (c_col ly HC) in Ho. destruct Ho as (j & k & Hj & Hk & ->).
      replace (dst + S * i + (lcS ly * j + k)) with (wd i j k) by (unfold wd; lia). apply HQ; unfold rng; lia.
    + intros a Hn. apply HF. intros (i & Hi & j & Hj & k & Hk & <-). unfold rng in *. apply Hn, Hwd; lia.
Qed.

(** the loop over b of copy and normalize *)
Lemma mapN (ha ga : nat -> addr) (fn : C -> C) y (m0 : mem) n :
  (forall b, b < n -> dj (ha b) (S * L) (ga b) (S * L) \/ ha b = ga b) ->
  (forall b b', b < n -> b' < n -> b <> b' -> dj (ga b) (S * L) (ga b') (S * L)) ->
  (forall b b', b < n -> b' < n -> b <> b' -> dj (ha b) (S * L) (ga b') (S * L)) ->
  (forall b, b < n -> hasr (ha b) L (y b) m0) -> (forall b, b < n -> allocr (ga b) L m0) ->
  forall body, (forall b, b < n -> body b = lrows ly (fun o => x <- ha b + o ;; ga b + o ::= fn x ;; Ret)) ->
  WP (cfor n body) m0 (fun m' =>
    (forall b, b < n -> hasr (ga b) L (fun i o => fn (y b i o)) m') /\ only (fun ad => exists b, b < n /\ rw (ga b) L ad) m0 m').
Proof.
  intros Hhg Hgg Hhg' Hy Hal body Hbody.
  apply WP_cfor with (I := fun n (m' : mem) => (forall b, b < n -> hasr (ga b) L (fun i o => fn (y b i o)) m') /\ only (fun ad => exists b, b < n /\ rw (ga b) L ad) m0 m').
  { split; [intros; lia|apply only_refl]. }
  intros b mm Hb (H1 & H2). rewrite Hbody by assumption.
  eapply WP_mono; [|apply (rowmap (ha b) (ga b) fn (y b) mm)].
  - intros m' (K1 & K2). split.
    + intros b' Hb'. destruct (Nat.eq_dec b' b) as [->|Hne]; [exact K1|].
      eapply hasr_only; [apply H1; lia|exact K2|]. intros a Hp Hq. eapply rwd; [|exact Hq|exact Hp]. apply Hgg; lia.
    + eapply only_trans; [exact H2|exact K2| |]; [intros a (b' & Hb' & Hr)|intros a Hr].
      * exists b'. split; [lia|assumption].
      * exists b. split; [lia|assumption].
  - destruct (Hhg b Hb); auto.
  - eapply hasr_only; [apply Hy; assumption|exact H2|]. intros a (b' & Hb' & Hp) Hq. eapply rwd; [|exact Hq|exact Hp]. apply Hhg'; lia.
  - eapply allocr_only; [apply Hal; assumption|exact H2].
Qed.

Lemma normalize_spec (f : parr) (fa : nat -> addr) off y (m0 : mem) :
  (forall b, b < B -> f b = Some (fa b)) ->
  (forall b b', b < B -> b' < B -> b <> b' -> dj (fa b + off) (S * L) (fa b' + off) (S * L)) ->
  (forall b, b < B -> hasr (fa b + off) L (y b) m0) ->
  WP (lnormalize ly f off) m0 (fun m' =>
    (forall b, b < B -> hasr (fa b + off) L (fun i o => Cmul (y b i o) (RtoC (lscale ly))) m') /\
    only (fun ad => exists b, b < B /\ rw (fa b + off) L ad) m0 m').
Proof.
  intros Ef Hff Hy. unfold lnormalize. apply (mapN (fun b => fa b + off) (fun b => fa b + off) (fun x => Cmul x (RtoC (lscale ly))) y); auto.
  - intros b Hb. eapply hasr_alloc. apply Hy. assumption.
  - intros b Hb. unfold pget. rewrite Ef by assumption. reflexivity.
Qed.
Lemma copy_spec (h f : parr) (ha fa : nat -> addr) off y (m0 : mem) :
  (forall b, b < B -> h b = Some (ha b)) -> (forall b, b < B -> f b = Some (fa b)) ->
  (forall b b', b < B -> b' < B -> dj (ha b) (S * L) (fa b' + off) (S * L)) ->
  (forall b b', b < B -> b' < B -> b <> b' -> dj (fa b + off) (S * L) (fa b' + off) (S * L)) ->
  (forall b, b < B -> hasr (ha b) L (y b) m0) -> (forall b, b < B -> allocr (fa b + off) L m0) ->
  WP (lcopy ly h f off) m0 (fun m' =>
    (forall b, b < B -> hasr (fa b + off) L (y b) m') /\ only (fun ad => exists b, b < B /\ rw (fa b + off) L ad) m0 m').
Proof.
  intros Eh Ef Hhf Hff Hy Ha. unfold lcopy. apply (mapN ha (fun b => fa b + off) (fun x => x) y); auto.
  intros b Hb. unfold pget. rewrite Eh, Ef by assumption. reflexivity.
Qed.
End Rows.
