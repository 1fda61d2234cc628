(** The building blocks of Convolution::convolveRaw with S=C=1. *)
From Coq Require Import Reals ZArith Arith Lia List Bool Permutation.
From Verif Require Import CNum Sums Roots Mem VecModel VecProofs PadModel PadKernels Loops
  PadLemmas PadMath PadGeom Fwd1 FwdAll PadForward ConvMath ConvModel Xf XfProofs.

(** a lies outside the blocks h lo .. h (hi-1), each of n words *)
Definition outb (lo hi : nat) (h : nat -> addr) (n a : nat) : Prop :=
  forall i, lo <= i < hi -> a < h i \/ h i + n <= a.
Definition djb (N : nat) (h : nat -> addr) (n : nat) : Prop :=
  forall i i', i < N -> i' < N -> i <> i' -> dj (h i) n (h i') n.
Definition djbb (N : nat) (h : nat -> addr) (n : nat) (N' : nat) (h' : nat -> addr) (n' : nat) : Prop :=
  forall i i', i < N -> i' < N' -> dj (h i) n (h' i') n'.
Definition allocb (N : nat) (h : nat -> addr) (n : nat) (mm : mem) : Prop :=
  forall a i, a < N -> i < n -> mm (h a + i) <> Unalloc.

Lemma outb_mono lo hi lo' hi' h n n' a : outb lo hi h n a -> lo <= lo' -> hi' <= hi -> n' <= n -> outb lo' hi' h n' a.
Proof. intros H H1 H2 H3 i Hi. specialize (H i ltac:(lia)). lia. Qed.

Lemma dj_sepbuf f L F N : dj f L F N -> sepbuf 1 1 f L F N.
Proof. unfold dj. intros H i c i' c' Hi Hc Hi' Hc'. lia. Qed.

(** contract of a multiplier on max(A,B) arrays: the B outputs are computed pointwise by
    phi r i from the A inputs, where i = offset + position; nothing else is written *)
Definition mult_ok (A B : nat) (phi : nat -> nat -> nat -> (nat -> C) -> C) (mult : multiplier) : Prop :=
  forall (h : nat -> addr) (cnt r off : nat) (x : nat -> nat -> C) (m0 : mem) (K : mem -> Prop),
  djb (max A B) h cnt ->
  (forall a i, a < A -> i < cnt -> m0 (h a + i) = Val (x a i)) ->
  allocb (max A B) h cnt m0 ->
  (forall m', (forall b i, b < B -> i < cnt -> m' (h b + i) = Val (phi r (off + i) b (fun a => x a i))) ->
     (forall ad, outb 0 (max A B) h cnt ad -> m' ad = m0 ad) ->
     (forall ad, m0 ad <> Unalloc -> m' ad <> Unalloc) -> K m') ->
  forall P : parr, (forall a, P a = arr (max A B) h a) -> WP (mult P cnt r off) m0 K.

Section T.
Variable c : conv.
Notation t := (cpad c).
Hypothesis Hwf : wf t.
Hypothesis HS : gS t = 1.
Notation L := (gL t). Notation A := (aA t). Notation B := (aB t).
Notation m := (gm t). Notation q := (gq t). Notation M := (gM t). Notation p := (gp t).
Definition OS := outputSize t.
Definition NN := max A B.

Lemma HC1 : gC t = 1. Proof. apply S1_C1; assumption. Qed.
Definition blk (r : nat) : nat := if r =? 0 then gD0 t else gD t.
Lemma nout_blk r : noutputs t r = gl t * blk r. Proof. reflexivity. Qed.
Lemma OS_eq : OS = gl t * gD t.
Proof. unfold OS, outputSize, gb. rewrite HS. lia. Qed.
Lemma blk_bounds r : 1 <= blk r <= gD t.
Proof. unfold blk. pose proof (D0_bounds t Hwf). pose proof (wf_D t Hwf). destruct (r =? 0); lia. Qed.
Lemma nout_OS r : noutputs t r <= OS.
Proof. rewrite OS_eq, nout_blk. apply Nat.mul_le_mono_l. apply blk_bounds. Qed.
Lemma l_pos : 1 <= gl t.
Proof. apply XfProofs.l_pos. assumption. Qed.

(** W allocated and, where the kernels rely on it, zero padded *)
Definition Wok (mm : mem) : Prop :=
  match cW c with
  | None => ainplace t = true
  | Some w => ainplace t = false /\ (forall i, i < OS -> mm (w + i) <> Unalloc) /\
      (repad t = true -> q <> 1 -> p = 1 -> forall i, i < OS -> L <= i mod m -> mm (w + i) = Val C0)
  end.
Definition Wdj (b k : nat) : Prop := match cW c with None => True | Some w => dj b k w OS end.
Definition outW (a : nat) : Prop := match cW c with None => True | Some w => a < w \/ w + OS <= a end.

Lemma Wok_frame m0 m' : Wok m0 -> (forall a, ~ outW a -> m' a = m0 a) -> Wok m'.
Proof.
  unfold Wok, outW. destruct (cW c) as [w|]; [|auto]. intros (H1 & H2 & H3) HF.
  split; [assumption|]. split.
  - intros i Hi. rewrite HF by lia. apply H2. assumption.
  - intros H4 H5 H6 i Hi Hm. rewrite HF by lia. apply H3; assumption.
Qed.

Lemma fwd1 f F r (x : nat -> C) (m0 : mem) (K : mem -> Prop) :
  goverwrite t = false -> In r (residues t) ->
  dj f L F OS -> Wdj f L -> Wdj F OS -> Wok m0 ->
  (forall i, i < L -> m0 (f + i) = Val (x i)) ->
  (forall i, i < OS -> m0 (F + i) <> Unalloc) ->
  (forall m',
     (forall i, i < noutputs t r -> m' (F + i) = Val (outx t x (Z.of_nat (index t r i)))) ->
     (forall a, a < F \/ F + OS <= a -> outW a -> m' a = m0 a) -> Wok m' ->
     (forall a, m0 a <> Unalloc -> m' a <> Unalloc) -> K m') ->
  WP (forward t f F r (cW c)) m0 K.
Proof.
  intros How Hr HfF HfW HFW HW Hx HFa HK. pose proof HC1 as HC. pose proof (nout_OS r) as HN.
  pose proof (wf_L t Hwf). pose proof l_pos. pose proof (blk_bounds r).
  assert (HOS1 : 1 <= OS) by (pose proof (noutputs_pos t Hwf r); lia).
  unfold Wdj, Wok, outW in *. destruct (cW c) as [w|].
  - destruct HW as (Hin & HWa & HWz).
    apply forward_spec with (x := fun i _ => x i); auto; cbn [getW]; rewrite ?HS, ?HC.
    + rewrite Hin. symmetry. apply Nat.eqb_neq. unfold dj in HFW. lia.
    + apply dj_sepbuf. unfold dj in *. lia.
    + apply dj_sepbuf. unfold dj in *. lia.
    + right. apply dj_sepbuf. unfold dj in *. lia.
    + intros i e Hi He. rewrite Nat.mul_1_l. replace e with 0 by lia. rewrite Nat.add_0_r. auto.
    + intros i e Hi He. rewrite Nat.mul_1_l. replace e with 0 by lia. rewrite Nat.add_0_r. apply HWa. lia.
    + intros i e Hi He. rewrite Nat.mul_1_l. replace e with 0 by lia. rewrite Nat.add_0_r. apply HFa. lia.
    + intros H4 H5 H6 i e Hi He Hp. rewrite HS, Nat.mul_1_l. rewrite HC in He. replace e with 0 by lia. rewrite Nat.add_0_r.
      apply HWz; auto. lia.
    + intros m' HV HF Hz Hal.
      assert (HF' : forall a, a < F \/ F + noutputs t r <= a -> a < w \/ w + noutputs t r <= a -> m' a = m0 a).
      { intros a Ha Hb. apply HF; intros (i & e & Hi & He & E); lia. }
      apply HK; [| | |assumption].
      * intros i Hi. specialize (HV i 0 Hi ltac:(lia)). replace (F + 1 * i + 0) with (F + i) in HV by lia. exact HV.
      * intros a Ha Hb. apply HF'; lia.
      * split; [assumption|]. split; [intros i Hi; apply Hal, HWa; assumption|].
        intros H4 H5 H6 i Hi Hm. destruct (Nat.lt_ge_cases i (noutputs t r)) as [Hlt|Hge].
        -- specialize (Hz H4 H5 H6 i 0 Hlt). rewrite HS, HC in Hz. rewrite <- Hz; [f_equal; lia|lia|assumption].
        -- rewrite HF'; [apply HWz; assumption| |lia]. unfold dj in HFW. lia.
  - apply forward_spec with (x := fun i _ => x i); auto; cbn [getW]; rewrite ?HS, ?HC.
    + rewrite HW, Nat.eqb_refl. reflexivity.
    + apply dj_sepbuf. unfold dj in *. lia.
    + apply dj_sepbuf. unfold dj in *. lia.
    + intros i e Hi He. rewrite Nat.mul_1_l. replace e with 0 by lia. rewrite Nat.add_0_r. auto.
    + intros i e Hi He. rewrite Nat.mul_1_l. replace e with 0 by lia. rewrite Nat.add_0_r. apply HFa. lia.
    + intros i e Hi He. rewrite Nat.mul_1_l. replace e with 0 by lia. rewrite Nat.add_0_r. apply HFa. lia.
    + intros H4. unfold repad in H4. rewrite HW in H4. discriminate.
    + intros m' HV HF Hz Hal. apply HK; [| |assumption|assumption].
      * intros i Hi. specialize (HV i 0 Hi ltac:(lia)). replace (F + 1 * i + 0) with (F + i) in HV by lia. exact HV.
      * intros a Ha _. apply HF; intros (i & e & Hi & He & E); lia.
Qed.

(** Convolution::forward *)
Lemma cforward_spec (g F : parr) (ga Fa : nat -> addr) r lo hi (x : nat -> nat -> C) (m0 : mem) (K : mem -> Prop) :
  goverwrite t = false -> In r (residues t) -> lo <= hi ->
  (forall a, lo <= a < hi -> g a = Some (ga a) /\ F a = Some (Fa a)) ->
  (forall a a', lo <= a < hi -> lo <= a' < hi -> dj (ga a) L (Fa a') OS) ->
  (forall a a', lo <= a < hi -> lo <= a' < hi -> a <> a' -> dj (Fa a) OS (Fa a') OS) ->
  (forall a, lo <= a < hi -> Wdj (ga a) L /\ Wdj (Fa a) OS) ->
  Wok m0 ->
  (forall a i, lo <= a < hi -> i < L -> m0 (ga a + i) = Val (x a i)) ->
  (forall a i, lo <= a < hi -> i < OS -> m0 (Fa a + i) <> Unalloc) ->
  (forall m',
     (forall a i, lo <= a < hi -> i < noutputs t r -> m' (Fa a + i) = Val (outx t (x a) (Z.of_nat (index t r i)))) ->
     (forall ad, outb lo hi Fa OS ad -> outW ad -> m' ad = m0 ad) -> Wok m' ->
     (forall ad, m0 ad <> Unalloc -> m' ad <> Unalloc) -> K m') ->
  WP (cforward c g F r lo hi) m0 K.
Proof.
  intros How Hr Hlh HgF HdgF HdF HdW HW Hx HFa HK. unfold cforward.
  apply WP_mono with (Q := fun mm =>
    (forall a i, lo <= a < lo + (hi - lo) -> i < noutputs t r -> mm (Fa a + i) = Val (outx t (x a) (Z.of_nat (index t r i)))) /\
    (forall ad, outb lo (lo + (hi - lo)) Fa OS ad -> outW ad -> mm ad = m0 ad) /\ Wok mm /\
    (forall ad, m0 ad <> Unalloc -> mm ad <> Unalloc)).
  { intros mm (H1 & H2 & H3 & H4). replace (lo + (hi - lo)) with hi in * by lia. apply HK; assumption. }
  apply WP_cfor with (I := fun k mm =>
    (forall a i, lo <= a < lo + k -> i < noutputs t r -> mm (Fa a + i) = Val (outx t (x a) (Z.of_nat (index t r i)))) /\
    (forall ad, outb lo (lo + k) Fa OS ad -> outW ad -> mm ad = m0 ad) /\ Wok mm /\
    (forall ad, m0 ad <> Unalloc -> mm ad <> Unalloc)).
  { split; [intros; lia|]. auto. }
  intros k mm Hk (H1 & H2 & H3 & H4). set (a := lo + k). unfold pget.
  assert (Ha : lo <= a < hi) by (unfold a; lia).
  destruct (HgF a Ha) as [-> ->]. destruct (HdW a Ha) as [Wg WF].
  assert (HgW : forall i, i < L -> outW (ga a + i)).
  { intros i Hi. unfold outW, Wdj in *. destruct (cW c); [|exact I]. unfold dj in Wg. lia. }
  apply fwd1 with (x := x a); auto.
  - intros i Hi. rewrite H2; [auto| |auto]. intros a' Ha'.
    pose proof (HdgF a a' Ha ltac:(lia)) as Hd. unfold dj in Hd. lia.
  - intros m' HV HF HW' Hal. split; [|split; [|split; [assumption|auto]]].
    + intros a' i Ha' Hi. destruct (Nat.eq_dec a' a) as [->|Hne]; [apply HV; assumption|].
      pose proof (nout_OS r). pose proof (HdF a' a ltac:(lia) Ha Hne) as Hd. unfold dj in Hd.
      rewrite HF; [apply H1; [unfold a in *; lia|assumption]|lia|].
      destruct (HdW a' ltac:(lia)) as [_ WF']. unfold outW, Wdj in *. destruct (cW c); [|exact I]. unfold dj in WF'. lia.
    + intros ad Had Hw. rewrite HF; [apply H2; [|assumption]| |assumption].
      * eapply outb_mono; [eassumption|lia|lia|lia].
      * apply Had. unfold a. lia.
Qed.

(** *** operate *)
Variable phi : nat -> nat -> nat -> (nat -> C) -> C.
Hypothesis Hmult : mult_ok A B phi (cmult c).
(** the position that the multiplier is told for word i of pass r *)
Definition opos (i : nat) : nat := noutputs t 0 * (i / gl t) + i mod gl t.

Lemma mult_blk P Fa cnt r off base (x : nat -> nat -> C) (m0 : mem) (K : mem -> Prop) :
  djb NN Fa OS -> base + cnt <= OS ->
  (forall a, P a = arr NN (fun a => Fa a + base) a) ->
  (forall a i, a < A -> i < cnt -> m0 (Fa a + (base + i)) = Val (x a i)) ->
  allocb NN Fa OS m0 ->
  (forall m', (forall b i, b < B -> i < cnt -> m' (Fa b + (base + i)) = Val (phi r (off + i) b (fun a => x a i))) ->
     (forall ad, outb 0 NN (fun a => Fa a + base) cnt ad -> m' ad = m0 ad) ->
     (forall ad, m0 ad <> Unalloc -> m' ad <> Unalloc) -> K m') ->
  WP (cmult c P cnt r off) m0 K.
Proof.
  intros Hdj Hb HP Hx Hal HK.
  apply (Hmult (fun a => Fa a + base) cnt r off x m0 K); auto.
  - intros a a' Ha Ha' Hne. pose proof (Hdj a a' Ha Ha' Hne) as Hd. unfold dj in *. lia.
  - intros a i Ha Hi. rewrite <- Nat.add_assoc. auto.
  - intros a i Ha Hi. rewrite <- Nat.add_assoc. apply Hal; [assumption|lia].
  - intros m' HV HF Hal'. apply HK; auto. intros b i Hb' Hi. rewrite Nat.add_assoc. auto.
Qed.

Lemma divl e k : k < gl t -> (gl t * e + k) / gl t = e /\ (gl t * e + k) mod gl t = k.
Proof.
  intros Hk. split.
  - rewrite Nat.mul_comm, Nat.div_add_l, Nat.div_small by lia. lia.
  - rewrite Nat.add_comm, Nat.mul_comm, Nat.mod_add, Nat.mod_small by lia. reflexivity.
Qed.

Lemma oploop_spec fuel : forall d P Fa r (X : nat -> nat -> C) (m0 : mem) (K : mem -> Prop),
  1 <= d <= blk r -> blk r - d <= fuel ->
  (blk r = 1 \/ B <= A) ->
  djb NN Fa OS -> (forall a, a < NN -> P a = Some (Fa a)) ->
  (forall a i, a < A -> gl t * d <= i < noutputs t r -> m0 (Fa a + i) = Val (X a i)) ->
  allocb NN Fa OS m0 ->
  (forall m', (forall b i, b < B -> gl t * d <= i < noutputs t r -> m' (Fa b + i) = Val (phi r (opos i) b (fun a => X a i))) ->
     (forall ad, (outb 0 NN Fa OS ad \/ exists a i, a < NN /\ i < gl t * d /\ ad = Fa a + i) -> m' ad = m0 ad) ->
     (forall ad, m0 ad <> Unalloc -> m' ad <> Unalloc) -> K m') ->
  WP (oploop c fuel d P r) m0 K.
Proof.
  pose proof l_pos as Hl.
  induction fuel as [|fuel IH]; intros d P Fa r X m0 K Hd Hf HAB Hdj HP HX Hal HK.
  - cbn [oploop]. apply WP_skip. apply HK; auto. intros b i Hb Hi. rewrite nout_blk in Hi.
    assert (d = blk r) by lia. subst d. lia.
  - cbn [oploop]. assert (Espan : span t r = gl t * blk r) by (unfold span; rewrite HS, nout_blk; lia).
    assert (Egb : gb t = gl t) by (unfold gb; rewrite HS; lia). rewrite Espan, Egb.
    destruct (Nat.ltb_spec (gl t * d) (gl t * blk r)) as [Hlt|Hge].
    2:{ apply WP_skip. apply HK; auto. intros b i Hb Hi. rewrite nout_blk in Hi. lia. }
    assert (Hdr : d < blk r) by (clear -Hlt; nia).
    assert (HAB' : B <= A) by (destruct HAB; lia). assert (EN : NN = A) by (unfold NN; lia).
    assert (HdOS : gl t * d + gl t <= OS).
    { rewrite OS_eq. pose proof (blk_bounds r). clear -Hdr H. nia. }
    apply WP_seq. unfold blocksize.
    eapply (mult_blk _ Fa (gl t) r _ (gl t * d) (fun a i => X a (gl t * d + i))); auto.
    + intros a. unfold arr. rewrite EN. destruct (Nat.ltb_spec a A); [|reflexivity].
      rewrite HP by lia. reflexivity.
    + intros a i Ha Hi. apply HX; [assumption|]. rewrite nout_blk. clear -Hdr Hi. nia.
    + intros m1 HV HF Hal1. apply (IH (S d) P Fa r X m1 K); auto; try lia.
      * intros a i Ha Hi. rewrite HF; [apply HX; [assumption|lia]|].
        intros a' Ha'. destruct (Nat.eq_dec a a') as [<-|Hne]; [lia|].
        pose proof (Hdj a a' ltac:(lia) ltac:(lia) Hne) as Hd'. unfold dj in Hd'. pose proof (nout_OS r). lia.
      * intros a i Ha Hi. apply Hal1, Hal; assumption.
      * intros m' HV' HF' Hal'. apply HK.
        -- intros b i Hb Hi. destruct (Nat.lt_ge_cases i (gl t * S d)) as [H1|H1]; [|apply HV'; [assumption|lia]].
           rewrite HF'; [|right; exists b, i; lia].
           replace i with (gl t * d + (i - gl t * d)) by lia. rewrite HV by lia. f_equal.
           unfold opos. destruct (divl d (i - gl t * d) ltac:(lia)) as [-> ->]. rewrite HS, Nat.mul_1_l. reflexivity.
        -- intros ad Had. rewrite HF', HF; [reflexivity| |].
           ++ destruct Had as [Had|(a & i & Ha & Hi & ->)].
              ** intros a Ha. specialize (Had a Ha). lia.
              ** intros a' Ha'. destruct (Nat.eq_dec a a') as [<-|Hne]; [lia|].
                 pose proof (Hdj a a' ltac:(lia) ltac:(lia) Hne) as Hd'. unfold dj in Hd'. lia.
           ++ destruct Had as [Had|(a & i & Ha & Hi & ->)]; [auto|]. right. exists a, i. lia.
        -- auto.
Qed.

Lemma operate_spec P Fa r (X : nat -> nat -> C) (m0 : mem) (K : mem -> Prop) :
  (blk r = 1 \/ B <= A) ->
  djb NN Fa OS -> (forall a, P a = arr NN Fa a) ->
  (forall a i, a < A -> i < noutputs t r -> m0 (Fa a + i) = Val (X a i)) ->
  allocb NN Fa OS m0 ->
  (forall m', (forall b i, b < B -> i < noutputs t r -> m' (Fa b + i) = Val (phi r (opos i) b (fun a => X a i))) ->
     (forall ad, outb 0 NN Fa OS ad -> m' ad = m0 ad) ->
     (forall ad, m0 ad <> Unalloc -> m' ad <> Unalloc) -> K m') ->
  WP (operate c P r) m0 K.
Proof.
  intros HAB Hdj HP HX Hal HK. pose proof l_pos as Hl. pose proof (blk_bounds r) as Hb.
  unfold operate. apply WP_seq. unfold blocksize.
  assert (Hl1 : gl t <= noutputs t r) by (rewrite nout_blk; clear -Hb Hl; nia).
  pose proof (nout_OS r) as HnO.
  eapply (mult_blk _ Fa (gl t) r 0 0 X); auto; try lia.
  { intros a. rewrite HP. unfold arr. rewrite Nat.add_0_r. reflexivity. }
  { intros a i Ha Hi. apply HX; lia. }
  intros m1 HV HF Hal1.
  apply (oploop_spec (span t r) 1 P Fa r X m1 K); auto.
  - lia.
  - unfold span. rewrite HS, nout_blk. clear -Hl. nia.
  - intros a Ha. rewrite HP. unfold arr. destruct (Nat.ltb_spec a NN); [reflexivity|lia].
  - intros a i Ha Hi. rewrite HF; [apply HX; [assumption|lia]|].
    intros a' Ha'. destruct (Nat.eq_dec a a') as [<-|Hne]; [lia|].
    pose proof (Hdj a a' ltac:(unfold NN; lia) ltac:(lia) Hne) as Hd'. unfold dj in Hd'. lia.
  - intros a i Ha Hi. apply Hal1, Hal; assumption.
  - intros m' HV' HF' Hal'. apply HK.
    + intros b i Hb' Hi. destruct (Nat.lt_ge_cases i (gl t * 1)) as [H1|H1]; [|apply HV'; lia].
      rewrite HF' by (right; exists b, i; unfold NN; lia).
      pose proof (HV b i Hb' ltac:(lia)) as E. rewrite !Nat.add_0_l in E. rewrite E. f_equal.
      unfold opos. rewrite Nat.div_small, Nat.mod_small by lia. f_equal. lia.
    + intros ad Had. rewrite HF', HF; [reflexivity| |auto].
      intros a Ha. specialize (Had a Ha). lia.
    + auto.
Qed.
End T.
