(** Steps of a convolution of real data: multiplication, forward and backward transforms with framing. *)
From Coq Require Import Reals ZArith Arith Lia Lra List Bool Permutation.
From Verif Require Import CNum Sums Roots Mem VecModel PadModel PadKernels PadSpec PadBridge ConvModel CenModel HerModel RealModel RealMath RealGeom RLoops RFft RealSpec RFwd RBwd RealFreq RealProofs RealThms RConvModel RConvSpec.
Import ListNotations.

Lemma reals_keep b n x (P : nat -> Prop) (m m' : mem) : reals b n x m -> ronly P m m' -> (forall a, dspan b n a -> ~ P a) -> reals b n x m'.
Proof. intros H0 [H1 _] H2 k Hk. rewrite H1; [apply H0; assumption|]. apply H2. unfold dspan. lia. Qed.
Lemma complexes_keep b n x (P : nat -> Prop) (m m' : mem) : complexes b n x m -> ronly P m m' -> (forall a, dspan b (2 * n) a -> ~ P a) -> complexes b n x m'.
Proof. intros H0 [H1 _] H2 k Hk. rewrite !H1; [apply H0; assumption| |]; apply H2; unfold dspan; lia. Qed.
Lemma complexes_ext b n x y (m : mem) : complexes b n x m -> (forall i, i < n -> x i = y i) -> complexes b n y m.
Proof. intros H0 H1 i Hi. rewrite <- H1 by assumption. apply H0. assumption. Qed.
Lemma reals_ext b n x y (m : mem) : reals b n x m -> (forall i, i < n -> x i = y i) -> reals b n y m.
Proof. intros H0 H1 i Hi. rewrite <- H1 by assumption. apply H0. assumption. Qed.
Lemma ronly_refl P (m : mem) : ronly P m m. Proof. split; auto. Qed.
Lemma ronly_sub (P Q : nat -> Prop) (m m' : mem) : ronly P m m' -> (forall a, P a -> Q a) -> ronly Q m m'.
Proof. intros [H1 H2] H. split; [|assumption]. intros a Ha. apply H1. auto. Qed.

(** multBinary *)
Lemma rmult_ok (P : parr) h0 h1 n r off u v (m : mem) :
  P 0 = Some h0 -> P 1 = Some h1 -> dapart h0 (2 * n) h1 (2 * n) ->
  complexes h0 n u m -> complexes h1 n v m ->
  WP (rmultBinary P n r off) m (fun m' =>
    complexes h0 n (fun i => Cmul (u i) (v i)) m' /\ ronly (dspan h0 (2 * n)) m m').
Proof.
  intros E0 E1 Hd H0 H1. unfold rmultBinary, rpget. rewrite E0, E1.
  assert (Hd' : forall a b, a < 2 * n -> b < 2 * n -> h0 + a <> h1 + b).
  { intros a b Ha Hb E. apply (Hd (h0 + a)); unfold dspan; lia. }
  apply WP_for with (W := fun s a => a = h0 + 2 * s \/ a = h0 + 2 * s + 1)
    (Q := fun s mm => mm (h0 + 2 * s) = Val (re (Cmul (u s) (v s))) /\ mm (h0 + 2 * s + 1) = Val (im (Cmul (u s) (v s)))); unfold rng.
  - intros s s' a Hs Hs' A1 A2. lia.
  - intros s Hs ma mb Hm [Q1 Q2]. rewrite <- !Hm by lia. split; assumption.
  - intros s Hs. destruct (H0 s ltac:(lia)) as [R1 R2]. destruct (H1 s ltac:(lia)) as [S1 S2].
    unfold rdC, wrC. cbn [wp].
    split; [right; left; reflexivity|]. exists (re (u s)). split; [assumption|].
    split; [right; right; reflexivity|]. exists (im (u s)). split; [assumption|].
    split; [left; intros s' Hs' Hc; pose proof (Hd' (2 * s') (2 * s)); pose proof (Hd' (2 * s' + 1) (2 * s)); lia|].
    exists (re (v s)). split; [assumption|].
    split; [left; intros s' Hs' Hc; pose proof (Hd' (2 * s') (2 * s + 1)); pose proof (Hd' (2 * s' + 1) (2 * s + 1)); lia|].
    exists (im (v s)). split; [assumption|].
    split; [left; reflexivity|]. split; [rewrite R1; discriminate|].
    split; [right; reflexivity|]. split; [rewrite upd_neq by lia; rewrite R2; discriminate|].
    assert (Eu : mkC (re (u s)) (im (u s)) = u s) by (destruct (u s); reflexivity).
    assert (Ev : mkC (re (v s)) (im (v s)) = v s) by (destruct (v s); reflexivity).
    rewrite Eu, Ev. split; [rewrite upd_neq by lia; apply upd_eq|apply upd_eq].
  - intros m' HQ HF Ha. split; [|split].
    + intros i Hi. apply HQ. lia.
    + intros a Ha'. apply HF. intros s Hs Hc. apply Ha'. unfold dspan. lia.
    + assumption.
Qed.

(** a sequential map over one array *)
Lemma rmap_ok ga ha L fn Y (m0 : mem) : ga = ha \/ dapart ga L ha L -> reals ha L Y m0 -> dalloc ga L m0 ->
  WP (cfor L (fun i => rDo (Rd (ha + i) (fun x => Wr (ga + i) (fn x) Ret)))) m0 (fun m' =>
    reals ga L (fun j => fn (Y j)) m' /\ ronly (dspan ga L) m0 m').
Proof.
  intros Hgh HY Hga.
  eapply WP_mono; [|apply (WP_cfor R L _ (fun k mm => reals ga k (fun j => fn (Y j)) mm /\ ronly (dspan ga k) m0 mm))].
  - intros m' H0. exact H0.
  - split; [intros k Hk; lia|apply ronly_refl].
  - intros k mm Hk [J1 [J2 J3]].
    assert (Ek : mm (ha + k) = Val (Y k)).
    { rewrite J2; [apply HY; assumption|]. unfold dspan. intros Hc. destruct Hgh as [->|Hgh]; [lia|]. apply (Hgh (ha + k)); unfold dspan; lia. }
    apply WP_Do with (W := eq (ga + k)) (Q := fun mm' => mm' (ga + k) = Val (fn (Y k))).
    { intros ma mb Hm HQ. rewrite <- Hm; auto. }
    { cbn [wp]. split.
      - destruct (Nat.eq_dec (ga + k) (ha + k)) as [E|E]; [right; congruence|left; congruence].
      - exists (Y k). split; [assumption|]. split; [reflexivity|]. split; [apply J3, Hga; unfold dspan; lia|apply upd_eq]. }
    intros m' HQ HF Ha. split; [|split].
    + intros i Hi. destruct (Nat.eq_dec i k) as [->|Hne]; [assumption|]. rewrite HF by lia. apply J1. lia.
    + intros a Ha'. rewrite HF; [apply J2; unfold dspan in *; lia|]. unfold dspan in *. lia.
    + intros a Ha'. apply Ha, J3. assumption.
Qed.

Section T.
Variable t : pad.
Hypothesis Hwf : rwf t.
Notation L := (aL t). Notation m := (am t). Notation q := (gq t). Notation M := (gM t).
Notation N := (routputSize t). Notation WS := (rworkSizeW t).

(** the residue loop as the model computes it *)
Lemma rr_trace fuel : forall r, rR t <= fuel + r -> loop_trace (rR t) (rincrement t) r (rrloop t fuel r).
Proof.
  assert (Hi : forall r, 1 <= rincrement t r).
  { intros r. unfold rincrement. pose proof (r_D t Hwf). pose proof (r_D0 t Hwf). destruct (1 <? r); [assumption|]. destruct (r =? 1); lia. }
  induction fuel as [|k IH]; intros r Hr; cbn [rrloop].
  - apply lt_stop. lia.
  - destruct (Nat.ltb_spec r (rR t)) as [Hl|Hl]; [|apply lt_stop; assumption].
    apply lt_step; [assumption|]. apply IH. specialize (Hi r). lia.
Qed.
Lemma rres_eq : rresidues t = rtrace t.
Proof. apply (rtrace_unique t Hwf). apply rr_trace. lia. Qed.
Lemma rnl_2 : q <> 1 -> 2 <= rnloops t.
Proof.
  intros Hq. unfold rnloops. rewrite rres_eq. unfold rtrace.
  destruct (Nat.eqb_spec q 1); [contradiction|]. destruct (q =? 2); cbn [length]; lia.
Qed.
Lemma rtr_2 : q <> 1 -> rnloops t = 2 -> rtrace t = [0; 1] /\ rincrement t 0 = 1.
Proof.
  intros Hq. unfold rnloops. rewrite rres_eq. unfold rtrace. intros E. split; [|reflexivity].
  destruct (Nat.eqb_spec q 1); [contradiction|]. destruct (q =? 2); [reflexivity|]. cbn [length] in E.
  match type of E with context [chain t ?a ?b] => destruct (chain t a b) as [|a' l] end; [reflexivity|]. cbn [length] in E. lia.
Qed.

(** operate *)
Lemma op_shape r : rpass t r -> exists k, 1 <= k /\ rnoutputs t r = rblocksize t r * k /\
  (k = 1 -> rblocksize t r <= rl t) /\ (1 < k -> rblocksize t r = rl t) /\ 1 <= rl t.
Proof.
  intros Hr. pose proof (r_m t Hwf) as Hm. pose proof (r_D t Hwf) as HD.
  assert (Hl : 1 <= rl t) by (unfold rl, re_; destruct (q =? 1); lia).
  destruct Hr as [->|[(Hq & H1 & H2 & _)|(Hq & H2)]].
  - exists 1. split; [lia|]. unfold rnoutputs, rblocksize. cbn [Nat.eqb]. split; [lia|]. split; [|lia].
    intros _. unfold rl, re_. destruct (Nat.eqb_spec q 1); [lia|].
    destruct (Nat.eq_dec m 1) as [E|E]; [rewrite E; cbn; lia|]. pose proof (Nat.div_lt m 2 ltac:(lia) ltac:(lia)). lia.
  - exists (midw t r). rewrite (r_noutm t Hwf) by assumption. pose proof (midw_pos t Hwf r).
    assert (E : rblocksize t r = rl t).
    { unfold rblocksize. rewrite (r_rn t Hwf). destruct (Nat.eqb_spec r 0); [lia|]. destruct (Nat.eqb_spec (2 * r) q); [lia|reflexivity]. }
    rewrite E. assert (El : rl t = m) by (unfold rl; destruct (Nat.eqb_spec q 1); [contradiction|reflexivity]).
    rewrite El. split; [lia|]. split; [reflexivity|]. lia.
  - exists 1. rewrite (r_nouth t Hwf) by assumption.
    assert (E : rblocksize t r = m / 2).
    { unfold rblocksize. rewrite (r_rn t Hwf). pose proof (r_q1 t Hwf). destruct (Nat.eqb_spec r 0); [lia|]. destruct (Nat.eqb_spec (2 * r) q); [|contradiction]. unfold re_. lia. }
    rewrite E. split; [lia|]. split; [lia|]. split; [|lia]. intros _. unfold rl. destruct (Nat.eqb_spec q 1); [contradiction|].
    apply Nat.div_le_upper_bound; lia.
Qed.
Hypothesis HA : aA t = 2.
Variable c : rconv.
Hypothesis Hmult : rcmult c = rmultBinary.
Variables (P : parr) (h0 h1 : nat) (u v : nat -> C) (r : nat).
Hypothesis P0 : P 0 = Some h0.
Hypothesis P1 : P 1 = Some h1.
Hypothesis Hr : rpass t r.
Hypothesis Hd : dapart h0 (2 * N) h1 (2 * N).
Notation n := (rnoutputs t r).
Definition opst (d : nat) (m0 mm : mem) : Prop :=
  complexes h0 n (fun i => if i <? rl t * d then Cmul (u i) (v i) else u i) mm /\
  complexes h1 n v mm /\ ronly (dspan h0 (2 * n)) m0 mm.
Lemma op_block (G : parr) d off bs m0 mm : G 0 = Some (h0 + 2 * (rl t * d)) -> G 1 = Some (h1 + 2 * (rl t * d)) ->
  (bs = rl t \/ rl t * d + bs = n /\ bs <= rl t) -> rl t * d + bs <= n ->
  opst d m0 mm -> WP (rcmult c G bs r off) mm (opst (S d) m0).
Proof.
  intros G0 G1 Hbs Hn (S1 & S2 & S3). rewrite Hmult. set (z := rl t * d) in *.
  pose proof (r_nout t Hwf r Hr) as HN.
  eapply WP_mono; [|apply (rmult_ok G (h0 + 2 * z) (h1 + 2 * z) bs r off (fun i => u (z + i)) (fun i => v (z + i)) mm G0 G1)].
  - intros m' (V & O). split; [|split].
    + intros i Hi. destruct (lt_dec i z) as [Hz|Hz].
      * destruct O as [O _]. rewrite !O by (unfold dspan; lia). destruct (S1 i Hi) as [Q1 Q2]. cbv beta in Q1, Q2.
        destruct (Nat.ltb_spec i z); [|lia]. destruct (Nat.ltb_spec i (rl t * S d)) as [_|Hc]; [split; assumption|]. unfold z in *. lia.
      * destruct (lt_dec i (z + bs)) as [Hb|Hb].
        -- specialize (V (i - z) ltac:(lia)). replace (h0 + 2 * z + 2 * (i - z)) with (h0 + 2 * i) in V by lia.
           replace (z + (i - z)) with i in V by lia.
           destruct (Nat.ltb_spec i (rl t * S d)) as [_|Hc]; [exact V|]. exfalso. unfold z in *. lia.
        -- destruct O as [O _]. rewrite !O by (unfold dspan; lia). destruct (S1 i Hi) as [Q1 Q2]. cbv beta in Q1, Q2.
           destruct (Nat.ltb_spec i z); [lia|]. destruct (Nat.ltb_spec i (rl t * S d)) as [Hc|_]; [|split; assumption].
           exfalso. unfold z in *. lia.
    + apply (complexes_keep _ _ _ _ _ _ S2 O). intros a A1 A2. apply (Hd a); unfold dspan in *; lia.
    + apply (ronly_trans _ _ _ _ _ _ (fun z Hz => Hz) (fun a (Ha : dspan (h0 + 2 * z) (2 * bs) a) => (ltac:(unfold dspan in *; lia) : dspan h0 (2 * n) a)) S3 O).
  - intros a A1 A2. apply (Hd a); unfold dspan in *; lia.
  - intros i Hi. specialize (S1 (z + i) ltac:(lia)). cbv beta in S1. destruct (Nat.ltb_spec (z + i) z); [lia|].
    replace (h0 + 2 * z + 2 * i) with (h0 + 2 * (z + i)) by lia. exact S1.
  - intros i Hi. specialize (S2 (z + i) ltac:(lia)).
    replace (h1 + 2 * z + 2 * i) with (h1 + 2 * (z + i)) by lia. exact S2.
Qed.
Lemma op_loop fuel : forall d m0 mm, 1 <= d -> n <= fuel + d -> opst d m0 mm ->
  WP (roploop t c fuel d P r) mm (fun m' => complexes h0 n (fun i => Cmul (u i) (v i)) m' /\ ronly (dspan h0 (2 * n)) m0 m').
Proof.
  destruct (op_shape r Hr) as (k & Hk & En & Hb1 & Hb2 & Hl).
  assert (HE : forall d m0 mm, n <= rl t * d -> opst d m0 mm -> complexes h0 n (fun i => Cmul (u i) (v i)) mm /\ ronly (dspan h0 (2 * n)) m0 mm).
  { intros d m0 mm Hd0 (S1 & _ & S3). split; [|assumption]. apply (complexes_ext _ _ _ _ _ S1). intros i Hi. destruct (Nat.ltb_spec i (rl t * d)); [reflexivity|lia]. }
  induction fuel as [|f IH]; intros d m0 mm Hd1 Hf HS; cbn [roploop].
  - apply WP_skip. apply (HE d); [|assumption]. pose proof (Nat.mul_le_mono_r 1 (rl t) d Hl). lia.
  - destruct (Nat.ltb_spec (rl t * d) n) as [Hlt|Hge]; [|apply WP_skip; apply (HE d); assumption].
    apply WP_seq. assert (Hk1 : 1 < k).
    { destruct (Nat.eq_dec k 1) as [E1|]; [|lia]. specialize (Hb1 E1). subst k. pose proof (Nat.mul_le_mono_l 1 d (rl t) Hd1). lia. }
    specialize (Hb2 Hk1).
    assert (Hdk : d < k). { rewrite En, Hb2 in Hlt. apply (Nat.mul_lt_mono_pos_l (rl t)) in Hlt; lia. }
    eapply WP_mono; [|apply (op_block _ d _ (rblocksize t r) m0 mm)].
    + intros m1 H1. apply IH; [lia|lia|exact H1].
    + rewrite HA. cbn [Nat.ltb Nat.leb]. rewrite P0. reflexivity.
    + rewrite HA. cbn [Nat.ltb Nat.leb]. rewrite P1. reflexivity.
    + left. assumption.
    + rewrite En, Hb2. pose proof (Nat.mul_le_mono_l (S d) k (rl t) ltac:(lia)). lia.
    + assumption.
Qed.
Lemma op_ok (m0 : mem) : complexes h0 n u m0 -> complexes h1 n v m0 ->
  WP (roperate t c P r) m0 (fun m' => complexes h0 n (fun i => Cmul (u i) (v i)) m' /\ ronly (dspan h0 (2 * n)) m0 m').
Proof.
  intros H0 H1. destruct (op_shape r Hr) as (k & Hk & En & Hb1 & Hb2 & Hl). unfold roperate. apply WP_seq.
  eapply WP_mono; [|apply (op_block P 0 _ (rblocksize t r) m0 m0)].
  - intros m1 S1. apply op_loop; [lia|lia|exact S1].
  - rewrite P0. f_equal. lia.
  - rewrite P1. f_equal. lia.
  - destruct (Nat.eq_dec k 1) as [E|E]; [right; subst k; split; [lia|apply Hb1; reflexivity]|left; apply Hb2; lia].
  - rewrite En. pose proof (Nat.mul_le_mono_l 1 k (rblocksize t r) Hk). lia.
  - split; [|split; [assumption|apply ronly_refl]]. apply (complexes_ext _ _ _ _ _ H0). intros i Hi. destruct (Nat.ltb_spec i (rl t * 0)); [lia|reflexivity].
Qed.
End T.
