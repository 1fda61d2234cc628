(** The loops over arrays of Convolution2/Convolution3::forward and backward. *)
From Coq Require Import Reals ZArith Arith Lia List Bool Permutation.
From Verif Require Import CNum Sums Roots Mem VecModel PadModel PadKernels Loops PadLemmas PadGeom PadIndex Fwd1 FwdAll
  ConvModel Conv1 PadSpec PadRound PadBridge PadProofs Team LayerModel Layer1 ConvSpec Xf XfProofs XfBridge.
Import ListNotations.

Section Arrays.
Variable ly : layer.
Notation t := (lpad ly).
Notation L := (gL t). Notation S := (gS t). Notation CC := (gC t). Notation l := (gl t). Notation M := (gM t).
Notation J := (lJ ly). Notation Sy := (lSy ly). Notation W := (lW ly).
Variable rl : nat.
Hypothesis HG : geo t J Sy rl.
Notation Hwf := (g_wf _ _ _ _ HG). Notation HD := (g_D _ _ _ _ HG).
Notation col := (col t J Sy). Notation rw := (rw t J Sy). Notation hasr := (hasr t J Sy). Notation allocr := (allocr t J Sy).
Notation Ww := (Ww t). Notation Wal := (Wal t). Notation Wst := (Wst t). Notation Wfree := (Wfree t).
Notation rwb := (rw_blk t J Sy rl HG).
Notation rwd := (rw_dj t J Sy rl HG).

Section NoOv.
Hypothesis How : goverwrite t = false.

Lemma fwdN (f F : parr) (fa G : nat -> addr) off r start stop x (m0 : mem) : In r (residues t) ->
  (forall a, start <= a < stop -> f a = Some (fa a)) -> (forall a, start <= a < stop -> F a = Some (G a)) ->
  (forall a b, start <= a < stop -> start <= b < stop -> dj (fa a + off) (S * L) (G b) (S * l)) ->
  (forall a b, start <= a < stop -> start <= b < stop -> a <> b -> dj (G a) (S * l) (G b) (S * l)) ->
  (forall a, start <= a < stop -> Wfree W (fa a + off) (S * L)) -> (forall a, start <= a < stop -> Wfree W (G a) (S * l)) ->
  (forall a, start <= a < stop -> hasr (fa a + off) L (x a) m0) -> (forall a, start <= a < stop -> allocr (G a) l m0) -> Wst W m0 ->
  WP (lforward ly f F r start stop off) m0 (fun m' =>
    (forall a, start <= a < stop -> hasr (G a) l (fun i o => odft (origin t) M L (fun k => x a k o) (index t r i)) m') /\ Wst W m' /\
    only (fun ad => (exists a, start <= a < stop /\ rw (G a) l ad) \/ Ww W ad) m0 m').
Proof.
  intros Hr Ef EF HfG HGG HfW HGW Hx HGa HW. unfold lforward.
  pose (I := fun k (m' : mem) =>
    (forall a, start <= a < start + k -> hasr (G a) l (fun i o => odft (origin t) M L (fun k => x a k o) (index t r i)) m') /\ Wst W m' /\
    only (fun ad => (exists a, start <= a < start + k /\ rw (G a) l ad) \/ Ww W ad) m0 m').
  apply WP_mono with (Q := I (stop - start)).
  { intros m' (H1 & H2 & H3). split; [intros a Ha; apply H1; lia|]. split; [assumption|].
    eapply only_mono; [exact H3|]. intros ad [(a & Ha & Hr')|Hw]; [left; exists a; split; [lia|assumption]|right; assumption]. }
  apply WP_cfor with (I := I).
  { split; [intros; lia|]. split; [assumption|apply only_refl]. }
  intros k mm Hk (H1 & H2 & H3). cbv zeta. set (a := start + k) in *. assert (Ha : start <= a < stop) by lia.
  unfold pget. rewrite (Ef a Ha), (EF a Ha).
  eapply WP_mono; [|apply (fwd1 t J Sy rl HG How W (fa a + off) (G a) r (x a) mm Hr)]; auto.
  - intros m' (G1 & G2 & G3). split; [|split].
    + intros b Hb. destruct (Nat.eq_dec b a) as [->|Hne]; [exact G1|].
      eapply hasr_only; [apply H1; lia|exact G3|]. intros ad [Hp|Hp] Hq.
      * eapply rwd; [|exact Hq|exact Hp]. apply HGG; lia.
      * eapply (Wfree_no t J Sy rl HG W (G b)); [apply HGW; lia|eapply rwb; exact Hq|exact Hp].
    + exact G2.
    + eapply only_trans; [exact H3|exact G3| |].
      * intros ad [(b & Hb & Hq)|Hq]; [left; exists b; split; [lia|assumption]|right; assumption].
      * intros ad [Hq|Hq]; [left; exists a; split; [lia|assumption]|right; assumption].
  - eapply hasr_only; [apply Hx; assumption|exact H3|]. intros ad [(b & Hb & Hp)|Hp] Hq.
    + eapply rwd; [|exact Hq|exact Hp]. apply HfG; lia.
    + eapply (Wfree_no t J Sy rl HG W (fa a + off)); [apply HfW; lia|eapply rwb; exact Hq|exact Hp].
  - eapply allocr_only; [apply HGa; assumption|exact H3].
Qed.

Lemma bwdN (F h : parr) (G ha : nat -> addr) off r start stop y acc (m0 : mem) : In r (residues t) ->
  (forall a, start <= a < stop -> F a = Some (G a)) -> (forall a, start <= a < stop -> h a = Some (ha a)) ->
  (forall a b, start <= a < stop -> start <= b < stop -> dj (ha a + off) (S * L) (G b) (S * l)) ->
  (forall a b, start <= a < stop -> start <= b < stop -> a <> b -> dj (G a) (S * l) (G b) (S * l)) ->
  (forall a b, start <= a < stop -> start <= b < stop -> a <> b -> dj (ha a + off) (S * L) (ha b + off) (S * L)) ->
  (forall a, start <= a < stop -> Wfree W (ha a + off) (S * L)) -> (forall a, start <= a < stop -> Wfree W (G a) (S * l)) ->
  (forall a, start <= a < stop -> hasr (G a) l (y a) m0) -> (forall a, start <= a < stop -> allocr (ha a + off) L m0) ->
  (r <> 0 -> forall a, start <= a < stop -> hasr (ha a + off) L (acc a) m0) -> Wal W m0 ->
  WP (lbackward ly F h r start stop off W) m0 (fun m' =>
    (forall b, start <= b < stop -> hasr (ha b + off) L (fun k o => Cadd (if r =? 0 then C0 else acc b k o) (badd t r (fun i => y b i o) k)) m') /\
    Wst W m' /\
    only (fun ad => (exists b, start <= b < stop /\ (rw (ha b + off) L ad \/ rw (G b) l ad)) \/ Ww W ad) m0 m').
Proof.
  intros Hr EF Eh HhG HGG Hhh HhW HGW Hy Hh Hacc HW. unfold lbackward.
  set (val := fun b k o => Cadd (if r =? 0 then C0 else acc b k o) (badd t r (fun i => y b i o) k)).
  pose (I := fun k (m' : mem) =>
    (forall b, start <= b < start + k -> hasr (ha b + off) L (val b) m') /\
    only (fun ad => (exists b, start <= b < start + k /\ (rw (ha b + off) L ad \/ rw (G b) l ad)) \/ Ww W ad) m0 m').
  apply WP_seq. apply WP_mono with (Q := I (stop - start)).
  { intros m1 (H1 & H2).
    assert (HO1 : only (fun ad => (exists b, start <= b < stop /\ (rw (ha b + off) L ad \/ rw (G b) l ad)) \/ Ww W ad) m0 m1).
    { eapply only_mono; [exact H2|]. intros ad [(a & Ha & Hr')|Hw]; [left; exists a; split; [lia|assumption]|right; assumption]. }
    assert (HW1 : Wal W m1) by (eapply Wal_only; eassumption).
    destruct W as [w|] eqn:EW.
    - unfold opt_eqb. rewrite Nat.eqb_refl. cbn [padOpt].
      eapply WP_mono; [|apply (pad_x t Hwf w m1)].
      + intros m' (P1 & P2). rewrite HD, Nat.mul_1_r in P2. split; [|split].
        * intros b Hb. eapply hasr_only; [apply H1; lia|exact P2|]. intros ad Hp Hq.
          eapply (Wfree_no t J Sy rl HG (Some w) (ha b + off)); [apply HhW; lia|eapply rwb; exact Hq|exact Hp].
        * split; [eapply Wal_only; [exact HW1|exact P2]|]. specialize (P1 0). rewrite (noutl t J Sy rl HG) in P1. exact P1.
        * eapply only_trans; [exact HO1|exact P2|auto|]. intros ad Hp. right. exact Hp.
      + rewrite HD, Nat.mul_1_r. apply HW1.
    - apply WP_skip. split; [intros b Hb; apply H1; lia|]. split; [split; [assumption|exact Logic.I]|assumption]. }
  apply WP_cfor with (I := I).
  { split; [intros; lia|apply only_refl]. }
  intros k mm Hk (H1 & H3). cbv zeta. set (a := start + k) in *. assert (Ha : start <= a < stop) by lia.
  unfold pget. rewrite (EF a Ha), (Eh a Ha).
  assert (Hun : forall ad, rw (ha a + off) L ad \/ rw (G a) l ad -> mm ad = m0 ad).
  { intros ad Hq. destruct H3 as [HF _]. apply HF. intros [(b & Hb & [Hp|Hp])|Hp]; destruct Hq as [Hq|Hq].
    - eapply rwd; [|exact Hq|exact Hp]. apply Hhh; lia.
    - eapply rwd; [|exact Hp|exact Hq]. apply HhG; lia.
    - eapply rwd; [|exact Hq|exact Hp]. apply HhG; lia.
    - eapply rwd; [|exact Hq|exact Hp]. apply HGG; lia.
    - eapply (Wfree_no t J Sy rl HG W (ha a + off)); [apply HhW; lia|eapply rwb; exact Hq|exact Hp].
    - eapply (Wfree_no t J Sy rl HG W (G a)); [apply HGW; lia|eapply rwb; exact Hq|exact Hp]. }
  eapply WP_mono; [|apply (bwd1 t J Sy rl HG How W (G a) (ha a + off) r (y a) (acc a) mm Hr)]; auto.
  - intros m' (G1 & G3). split.
    + intros b Hb. destruct (Nat.eq_dec b a) as [->|Hne]; [exact G1|].
      eapply hasr_only; [apply H1; lia|exact G3|]. intros ad [Hp|[Hp|Hp]] Hq.
      * eapply rwd; [|exact Hq|exact Hp]. apply Hhh; lia.
      * eapply rwd; [|exact Hq|exact Hp]. apply HhG; lia.
      * eapply (Wfree_no t J Sy rl HG W (ha b + off)); [apply HhW; lia|eapply rwb; exact Hq|exact Hp].
    + eapply only_trans; [exact H3|exact G3| |].
      * intros ad [(b & Hb & Hq)|Hq]; [left; exists b; split; [lia|assumption]|right; assumption].
      * intros ad [Hq|[Hq|Hq]]; [left; exists a; split; [lia|auto]|left; exists a; split; [lia|auto]|right; assumption].
  - intros i o Hi Ho. rewrite Hun by (right; apply rw_ex; assumption). apply Hy; assumption.
  - intros ad Hq. rewrite Hun by auto. exact (Hh a Ha ad Hq).
  - intros H0 i o Hi Ho. rewrite Hun by (left; apply rw_ex; assumption). apply Hacc; assumption.
  - eapply Wal_only; eassumption.
Qed.
End NoOv.

Section Ov.
Hypothesis How : goverwrite t = true.
Notation p := (gn t - 1).
Notation ofreq := (ofr t).
Lemma ofwdN (f F : parr) (fa G : nat -> addr) off r n x (m0 : mem) :
  (forall a, a < n -> f a = Some (fa a)) -> (forall a, a < n -> F a = Some (G a)) ->
  (forall a b, a < n -> b < n -> dj (fa a + off) (S * L) (G b) (S * l)) ->
  (forall a b, a < n -> b < n -> a <> b -> dj (G a) (S * l) (G b) (S * l)) ->
  (forall a b, a < n -> b < n -> a <> b -> dj (fa a + off) (S * L) (fa b + off) (S * L)) ->
  (forall a, a < n -> hasr (fa a + off) L (x a) m0) -> (forall a, a < n -> allocr (G a) l m0) ->
  WP (lforward ly f F r 0 n off) m0 (fun m' =>
    (forall a u, a < n -> u < p -> hasr (fa a + off + S * (l * u)) l (fun i o => odft (origin t) M L (fun k => x a k o) (ofreq u i)) m') /\
    (forall a, a < n -> hasr (G a) l (fun i o => odft (origin t) M L (fun k => x a k o) (ofreq p i)) m') /\
    only (fun ad => exists a, a < n /\ (rw (G a) l ad \/ rw (fa a + off) L ad)) m0 m').
Proof.
  intros Ef EF HfG HGG Hff Hx HGa. unfold lforward. rewrite Nat.sub_0_r.
  pose (I := fun k (m' : mem) =>
    (forall a u, a < k -> u < p -> hasr (fa a + off + S * (l * u)) l (fun i o => odft (origin t) M L (fun k => x a k o) (ofreq u i)) m') /\
    (forall a, a < k -> hasr (G a) l (fun i o => odft (origin t) M L (fun k => x a k o) (ofreq p i)) m') /\
    only (fun ad => exists a, a < k /\ (rw (G a) l ad \/ rw (fa a + off) L ad)) m0 m').
  apply WP_cfor with (I := I).
  { split; [intros; lia|]. split; [intros; lia|apply only_refl]. }
  intros a mm Ha (H0 & H1 & H3). cbv zeta. cbn [Nat.add]. unfold pget. rewrite (Ef a Ha), (EF a Ha).
  assert (Hun : forall ad, rw (fa a + off) L ad \/ rw (G a) l ad -> mm ad = m0 ad).
  { intros ad Hq. destruct H3 as [HF _]. apply HF. intros (b & Hb & [Hp|Hp]); destruct Hq as [Hq|Hq].
    - eapply rwd; [|exact Hq|exact Hp]. apply HfG; lia.
    - eapply rwd; [|exact Hq|exact Hp]. apply HGG; lia.
    - eapply rwd; [|exact Hq|exact Hp]. apply Hff; lia.
    - eapply rwd; [|exact Hp|exact Hq]. apply HfG; lia. }
  eapply WP_mono; [|apply (ofwd1 t J Sy rl HG How W (fa a + off) (G a) r (x a) mm)].
  - intros m' (G0 & G1 & G3).
    assert (Hkeep : forall b ad, b < a -> (rw (fa b + off) L ad \/ rw (G b) l ad) -> m' ad = mm ad).
    { intros b ad Hb Hq. apply G3. intros [Hp|Hp]; destruct Hq as [Hq|Hq].
      - eapply rwd; [|exact Hq|exact Hp]. apply HfG; lia.
      - eapply rwd; [|exact Hq|exact Hp]. apply HGG; lia.
      - eapply rwd; [|exact Hq|exact Hp]. apply Hff; lia.
      - eapply rwd; [|exact Hp|exact Hq]. apply HfG; lia. }
    split; [|split].
    + intros b u Hb Hu. destruct (Nat.eq_dec b a) as [->|Hne]; [apply G0; assumption|].
      intros i o Hi Ho. rewrite (Hkeep b); [apply H0; auto; lia|lia|]. left. eapply (ow_sub t J Sy rl HG How); [exact Hu|]. apply rw_ex; assumption.
    + intros b Hb. destruct (Nat.eq_dec b a) as [->|Hne]; [exact G1|].
      intros i o Hi Ho. rewrite (Hkeep b); [apply H1; auto; lia|lia|]. right. apply rw_ex; assumption.
    + eapply only_trans; [exact H3|exact G3| |].
      * intros ad (b & Hb & Hq). exists b. split; [lia|assumption].
      * intros ad Hq. exists a. split; [lia|assumption].
  - apply HfG; assumption.
  - intros i o Hi Ho. rewrite Hun by (left; apply rw_ex; assumption). apply Hx; assumption.
  - intros ad Hq. rewrite Hun by auto. exact (HGa a Ha ad Hq).
Qed.

Lemma obwdN (F f : parr) (G fa : nat -> addr) off r n (Y : nat -> nat -> nat -> C) (m0 : mem) : Wal W m0 ->
  (forall a, a < n -> F a = Some (G a)) -> (forall a, a < n -> f a = Some (fa a)) ->
  (forall a b, a < n -> b < n -> dj (fa a + off) (S * L) (G b) (S * l)) ->
  (forall a b, a < n -> b < n -> a <> b -> dj (G a) (S * l) (G b) (S * l)) ->
  (forall a b, a < n -> b < n -> a <> b -> dj (fa a + off) (S * L) (fa b + off) (S * L)) ->
  (forall a u, a < n -> u < p -> hasr (fa a + off + S * (l * u)) l (fun k o => Y a o (ofreq u k)) m0) ->
  (forall a, a < n -> hasr (G a) l (fun k o => Y a o (ofreq p k)) m0) ->
  WP (lbackward ly F f r 0 n off W) m0 (fun m' =>
    (forall a, a < n -> hasr (fa a + off) L (fun k o => oidft (origin t) M (Y a o) k) m') /\ Wst W m' /\
    only (fun ad => exists a, a < n /\ (rw (G a) l ad \/ rw (fa a + off) L ad)) m0 m').
Proof.
  intros HW EF Ef HfG HGG Hff HY HGY. unfold lbackward. rewrite Nat.sub_0_r.
  pose (I := fun k (m' : mem) =>
    (forall a, a < k -> hasr (fa a + off) L (fun k o => oidft (origin t) M (Y a o) k) m') /\
    only (fun ad => exists a, a < k /\ (rw (G a) l ad \/ rw (fa a + off) L ad)) m0 m').
  apply WP_seq. apply WP_mono with (Q := I n).
  { intros m1 (H1 & H2). assert (HW1 : Wal W m1) by (eapply Wal_only; eassumption).
    destruct W as [w|] eqn:EW.
    - exfalso. destruct HW1 as [E _]. rewrite (ow_in t J Sy rl HG How) in E. discriminate.
    - apply WP_skip. split; [assumption|]. split; [split; [assumption|exact Logic.I]|assumption]. }
  apply WP_cfor with (I := I).
  { split; [intros; lia|apply only_refl]. }
  intros a mm Ha (H1 & H3). cbv zeta. cbn [Nat.add]. unfold pget. rewrite (Ef a Ha), (EF a Ha).
  assert (Hun : forall ad, rw (fa a + off) L ad \/ rw (G a) l ad -> mm ad = m0 ad).
  { intros ad Hq. destruct H3 as [HF _]. apply HF. intros (b & Hb & [Hp|Hp]); destruct Hq as [Hq|Hq].
    - eapply rwd; [|exact Hq|exact Hp]. apply HfG; lia.
    - eapply rwd; [|exact Hq|exact Hp]. apply HGG; lia.
    - eapply rwd; [|exact Hq|exact Hp]. apply Hff; lia.
    - eapply rwd; [|exact Hp|exact Hq]. apply HfG; lia. }
  eapply WP_mono; [|apply (obwd1 t J Sy rl HG How W (G a) (fa a + off) r (Y a) mm)].
  - intros m' (G1 & G3). split.
    + intros b Hb. destruct (Nat.eq_dec b a) as [->|Hne]; [exact G1|].
      eapply hasr_only; [apply H1; lia|exact G3|]. intros ad [Hp|Hp] Hq.
      * eapply rwd; [|exact Hq|exact Hp]. apply HfG; lia.
      * eapply rwd; [|exact Hq|exact Hp]. apply Hff; lia.
    + eapply only_trans; [exact H3|exact G3| |].
      * intros ad (b & Hb & Hq). exists b. split; [lia|assumption].
      * intros ad Hq. exists a. split; [lia|assumption].
  - apply HfG; assumption.
  - intros u Hu i o Hi Ho. rewrite Hun; [apply HY; assumption|]. left. eapply (ow_sub t J Sy rl HG How); [exact Hu|]. apply rw_ex; assumption.
  - intros i o Hi Ho. rewrite Hun by (right; apply rw_ex; assumption). apply HGY; assumption.
Qed.
End Ov.
End Arrays.
