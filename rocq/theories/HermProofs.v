(** Proofs about Hermitian symmetrization. *)
From Coq Require Import Reals ZArith Arith Bool Lia Lra Classical_Prop.
From Verif Require Import CNum Mem FftwModel FftwLoops FftwShift FftwSpec FftwRun FftwNyq FftwProofs HermModel HermSpec.

(** *** conjugating copies *)
Lemma wp_conjTo f d s m z (R W : addr -> Prop) (Q : dmem -> Prop) :
  cell_C m (f + 2 * s) z -> allocated m (f + 2 * d) -> allocated m (f + 2 * d + 1) -> d <> s ->
  (forall a, two (f + 2 * s) a -> R a) -> (forall a, two (f + 2 * d) a -> W a) ->
  (forall m', cell_C m' (f + 2 * d) (Cconj z) -> Q m') ->
  wp R W (conjTo f (Z.of_nat d) (Z.of_nat s)) m Q.
Proof.
  intros [A B] C D Hne HR HW HQ. unfold conjTo.
  replace ((0 <=? Z.of_nat f + 2 * Z.of_nat d) && (0 <=? Z.of_nat f + 2 * Z.of_nat s))%Z with true
    by (symmetry; apply andb_true_iff; split; apply Z.leb_le; lia).
  replace (Z.to_nat (Z.of_nat f + 2 * Z.of_nat d)) with (f + 2 * d) by lia.
  replace (Z.to_nat (Z.of_nat f + 2 * Z.of_nat s)) with (f + 2 * s) by lia.
  unfold two in *. cbn [wp]. split; [left; apply HR; auto|]. exists (re z). split; [exact A|].
  split; [left; apply HR; auto|]. exists (im z). split; [exact B|].
  split; [apply HW; auto|]. split; [exact C|]. split; [apply HW; auto|].
  split; [rewrite upd_neq by lia; exact D|]. apply HQ. split.
  - rewrite upd_neq by lia. apply upd_eq.
  - apply upd_eq.
Qed.

Definition conjpost (f : addr) (m : dmem) (d s : nat) (m' : dmem) : Prop :=
  forall z, cell_C m (f + 2 * s) z -> cell_C m' (f + 2 * d) (Cconj z).

Lemma cell_inj m a z z' : cell_C m a z -> cell_C m a z' -> z = z'.
Proof. intros [A B] [C D]. destruct z, z'. cbn in *. congruence. Qed.

Lemma conj_par n f (dst src : nat -> nat) body m :
  (forall i j, i < n -> j < n -> dst i = dst j -> i = j) ->
  (forall i j, i < n -> j < n -> dst i <> src j) ->
  (forall i, i < n -> exists z, cell_C m (f + 2 * src i) z) ->
  (forall i, i < n -> allocated m (f + 2 * dst i) /\ allocated m (f + 2 * dst i + 1)) ->
  (forall i, i < n -> body i = conjTo f (Z.of_nat (dst i)) (Z.of_nat (src i))) ->
  WP (Par n body) m (fun m' => (forall i, i < n -> conjpost f m (dst i) (src i) m') /\
     (forall a, (forall i, i < n -> ~ two (f + 2 * dst i) a) -> m' a = m a)).
Proof.
  intros Hi Hs Hc Ha Hb.
  eapply WP_mono; [|apply (WP_par R n (fun i => two (f + 2 * src i)) (fun i => two (f + 2 * dst i))
     (fun i m' => conjpost f m (dst i) (src i) m'))].
  - intros m' [A [B _]]. split; [exact A|]. intros a H. apply B. intros (i & Hi' & Hw). exact (H i Hi' Hw).
  - intros i j a H1 H2 Hne A B. unfold two in *. destruct B as [B|B].
    + apply (Hs i j H1 H2). lia.
    + apply Hne, Hi; try assumption. lia.
  - intros i H m1 m2 E G z Hz. destruct (G z Hz) as [G1 G2]. unfold two in E.
    split; rewrite <- E; auto.
  - intros i H. rewrite (Hb i H). destruct (Hc i H) as [z Hz]. destruct (Ha i H).
    apply (wp_conjTo _ _ _ _ z); auto. intros m' G z' Hz'. rewrite (cell_inj _ _ _ _ Hz' Hz). exact G.
Qed.

Lemma conj_par2 n n' f (dst src : nat -> nat -> nat) body inner m :
  (forall i j i' j', i < n -> j < n' -> i' < n -> j' < n' -> dst i j = dst i' j' -> i = i' /\ j = j') ->
  (forall i j i' j', i < n -> j < n' -> i' < n -> j' < n' -> dst i j <> src i' j') ->
  (forall i j, i < n -> j < n' -> exists z, cell_C m (f + 2 * src i j) z) ->
  (forall i j, i < n -> j < n' -> allocated m (f + 2 * dst i j) /\ allocated m (f + 2 * dst i j + 1)) ->
  (forall i, i < n -> body i = pfor n' (inner i)) ->
  (forall i j, i < n -> j < n' -> inner i j = conjTo f (Z.of_nat (dst i j)) (Z.of_nat (src i j))) ->
  WP (Par n body) m (fun m' => (forall i j, i < n -> j < n' -> conjpost f m (dst i j) (src i j) m') /\
     (forall a, (forall i j, i < n -> j < n' -> ~ two (f + 2 * dst i j) a) -> m' a = m a)).
Proof.
  intros Hi Hs Hc Ha Hb Hin.
  set (W := fun i a => exists j, j < n' /\ two (f + 2 * dst i j) a).
  set (RR := fun i a => exists j, j < n' /\ two (f + 2 * src i j) a).
  assert (Hl : forall i j, local (fun a => two (f + 2 * src i j) a \/ two (f + 2 * dst i j) a)
     (fun m' => conjpost f m (dst i j) (src i j) m')).
  { intros i j m1 m2 E G z Hz. destruct (G z Hz) as [G1 G2]. unfold two in E. split; rewrite <- E; auto. }
  eapply WP_mono; [|apply (WP_par R n RR W (fun i m' => forall j, j < n' -> conjpost f m (dst i j) (src i j) m'))].
  - intros m' [A [B _]]. split; [intros i j H1 H2; apply A; assumption|].
    intros a H. apply B. intros (i & Hi' & (j & Hj & Hw)). exact (H i j Hi' Hj Hw).
  - intros i i' a H1 H2 Hne (j & Hj & A) B. unfold two in *. destruct B as [(j' & Hj' & B)|(j' & Hj' & B)].
    + apply (Hs i j i' j'); try assumption. unfold two in *. lia.
    + apply Hne. apply (Hi i j i' j'); try assumption. unfold two in *. lia.
  - intros i H m1 m2 E G j Hj. eapply (Hl i j); [|apply G; exact Hj].
    intros a [Ha'|Ha']; apply E; [left|right]; exists j; auto.
  - intros i H. rewrite (Hb i H).
    eapply wp_mono; [|apply (wp_pfor R n' (fun j => two (f + 2 * src i j)) (fun j => two (f + 2 * dst i j))
      (fun j m' => conjpost f m (dst i j) (src i j) m'))].
    + intros m' [A _]. exact A.
    + intros j j' a H1 H2 Hne A B. unfold two in *. destruct B as [B|B].
      * apply (Hs i j i j'); try assumption. lia.
      * apply Hne. apply (Hi i j i j'); try assumption. lia.
    + intros j Hj. apply Hl.
    + intros j a Hj Hw. left. exists j. auto.
    + intros j a Hj Hw. exists j. auto.
    + intros j Hj. rewrite (Hin i j H Hj). destruct (Hc i j H Hj) as [z Hz]. destruct (Ha i j H Hj).
      apply (wp_conjTo _ _ _ _ z); auto. intros m' G z' Hz'. rewrite (cell_inj _ _ _ _ Hz' Hz). exact G.
Qed.

Lemma WP_im0 f n m (K : dmem -> Prop) : allocated m (f + 2 * n + 1) ->
  (forall m', m' (f + 2 * n + 1) = Val 0%R -> (forall a, a <> f + 2 * n + 1 -> m' a = m a) -> K m') ->
  WP (Par 1 (fun _ => Wr (f + 2 * n + 1) 0%R Ret)) m K.
Proof.
  intros Ha HK.
  eapply WP_mono; [|apply (WP_par R 1 (fun _ _ => False) (fun _ => one (f + 2 * n + 1))
     (fun _ m' => m' (f + 2 * n + 1) = Val 0%R))].
  - intros m' [A [B _]]. apply HK; [apply (A 0); lia|]. intros a H. apply B. intros (i & _ & E). exact (H E).
  - intros i j a H1 H2 Hne. lia.
  - intros i _ m1 m2 E G. rewrite <- E by (right; reflexivity). exact G.
  - intros i _. cbn [wp]. split; [reflexivity|]. split; [exact Ha|]. apply upd_eq.
Qed.

(** *** one centred line *)
Definition herm (F : Z -> C) (a : Z) : C :=
  if (0 <? a)%Z then F a else if (a =? 0)%Z then mkC (re (F 0%Z)) 0 else Cconj (F (- a)%Z).
Definition lat (o Sx : nat) (a : Z) : nat := Z.to_nat (Z.of_nat o + a * Z.of_nat Sx).

Lemma lat_pos o Sx H a : (H - 1) * Sx <= o -> inside H a -> (0 <= Z.of_nat o + a * Z.of_nat Sx)%Z.
Proof.
  unfold inside. intros Ho [H1 H2].
  assert ((- (Z.of_nat H - 1)) * Z.of_nat Sx <= a * Z.of_nat Sx)%Z by (apply Z.mul_le_mono_nonneg_r; lia).
  assert (Z.of_nat ((H - 1) * Sx) = (Z.of_nat H - 1) * Z.of_nat Sx)%Z by (rewrite Nat2Z.inj_mul, Nat2Z.inj_sub by lia; reflexivity). lia.
Qed.
Lemma lat_inj o Sx H a a' : 0 < Sx -> (H - 1) * Sx <= o -> inside H a -> inside H a' ->
  lat o Sx a = lat o Sx a' -> a = a'.
Proof.
  intros HS Ho Ha Ha' E. unfold lat in E. pose proof (lat_pos _ _ _ _ Ho Ha). pose proof (lat_pos _ _ _ _ Ho Ha').
  apply (Z.mul_cancel_r _ _ (Z.of_nat Sx)); lia.
Qed.

Lemma WP_line f o Sx Hx m (F : Z -> C) rest (Q : dmem -> Prop) : 0 < Sx -> 0 < Hx -> (Hx - 1) * Sx <= o ->
  (forall a, (0 <= a < Z.of_nat Hx)%Z -> cell_C m (f + 2 * lat o Sx a) (F a)) ->
  (forall a, inside Hx a -> allocated m (f + 2 * lat o Sx a) /\ allocated m (f + 2 * lat o Sx a + 1)) ->
  (forall m', (forall a, inside Hx a -> cell_C m' (f + 2 * lat o Sx a) (herm F a)) ->
     (forall x, (forall a, inside Hx a -> ~ two (f + 2 * lat o Sx a) x) -> m' x = m x) -> WP rest m' Q) ->
  WP (Seq (ParStep Sx (Hx * Sx) Sx (fun i => conjTo f (Z.of_nat o - Z.of_nat i) (Z.of_nat o + Z.of_nat i)))
     (Seq (Par 1 (fun _ => Wr (f + 2 * o + 1) 0%R Ret)) rest)) m Q.
Proof.
  intros HS HH Ho Hc Ha HQ. apply WP_seq.
  assert (Hn : forall k, k < nsteps Sx (Hx * Sx) Sx <-> k < Hx - 1).
  { intros k. rewrite nsteps_lt by assumption. split; intros G.
    - assert (Sx * (k + 1) < Sx * Hx) as G' by lia. apply Nat.mul_lt_mono_pos_l in G'; lia.
    - assert (Sx * (k + 2) <= Sx * Hx) by (apply Nat.mul_le_mono_l; lia). lia. }
  set (n := nsteps Sx (Hx * Sx) Sx) in *.
  assert (Hz : forall k, k < n -> inside Hx (- (Z.of_nat k + 1)) /\ inside Hx (Z.of_nat k + 1)).
  { intros k G. apply Hn in G. unfold inside. lia. }
  eapply WP_mono; [|apply (conj_par n f (fun k => lat o Sx (- (Z.of_nat k + 1))) (fun k => lat o Sx (Z.of_nat k + 1)))].
  - intros m1 [A B]. cbn beta in A. apply WP_seq. apply WP_im0.
    { unfold allocated. rewrite B; [|intros i Hi'; destruct (Hz i Hi') as [Z1 Z2]].
      - replace o with (lat o Sx 0) by (unfold lat; lia). apply Ha. unfold inside. lia.
      - intros T. assert (lat o Sx (- (Z.of_nat i + 1)) = lat o Sx 0) as E by (unfold two in T; unfold lat at 2; lia).
        apply (lat_inj _ _ Hx) in E; try assumption; unfold inside; lia. }
    intros m2 E2 F2. apply HQ.
    + intros a Hin. assert (Hin' := Hin). destruct Hin' as [I1 I2]. unfold herm.
      assert (L0 : lat o Sx 0 = o) by (unfold lat; lia).
      assert (Hneq : a <> 0%Z -> lat o Sx a <> o).
      { intros N E. apply N. apply (lat_inj o Sx Hx); try assumption; [unfold inside; lia|congruence]. }
      assert (HB : (0 <= a)%Z -> forall c, c < 2 -> m1 (f + 2 * lat o Sx a + c) = m (f + 2 * lat o Sx a + c)).
      { intros P c Hc2. apply B. intros i Hi' T. destruct (Hz i Hi') as [Z1 Z2].
        assert (lat o Sx (- (Z.of_nat i + 1)) = lat o Sx a) as E by (unfold two in T; lia).
        apply (lat_inj _ _ Hx) in E; try assumption. lia. }
      destruct (Z.ltb_spec 0 a).
      * destruct (Hc a ltac:(lia)) as [C1 C2]. pose proof (Hneq ltac:(lia)).
        pose proof (HB ltac:(lia) 0 ltac:(lia)) as B0. pose proof (HB ltac:(lia) 1 ltac:(lia)) as B1.
        rewrite Nat.add_0_r in B0. split; rewrite F2 by lia; congruence.
      * destruct (Z.eqb_spec a 0) as [->|N].
        -- destruct (Hc 0%Z ltac:(lia)) as [C1 C2]. cbn [re im].
           pose proof (HB ltac:(lia) 0 ltac:(lia)) as B0. rewrite Nat.add_0_r in B0. rewrite L0 in C1, C2, B0 |- *.
           split; [rewrite F2 by lia; cbn [re]; congruence|exact E2].
        -- pose proof (Hneq N). set (k := Z.to_nat (- a - 1)).
           assert (Hk : k < n) by (apply Hn; unfold k; lia).
           assert (Ek : (Z.of_nat k + 1 = - a)%Z) by (unfold k; lia).
           pose proof (A k Hk (F (- a)%Z)) as G. rewrite Ek, Z.opp_involutive in G.
           destruct (G (Hc (- a)%Z ltac:(lia))) as [G1 G2].
           split; rewrite F2 by lia; assumption.
    + intros x Hx'. rewrite F2.
      * apply B. intros i Hi'. apply Hx'. apply Hz. assumption.
      * intros ->. apply (Hx' 0%Z ltac:(unfold inside; lia)). unfold lat, two. lia.
  - intros i j Hi' Hj' E. cbn beta in E. apply (lat_inj _ _ Hx) in E; try assumption; try apply Hz; try assumption. lia.
  - intros i j Hi' Hj' E. cbn beta in E. apply (lat_inj _ _ Hx) in E; try assumption; try apply Hz; try assumption. lia.
  - intros i Hi'. exists (F (Z.of_nat i + 1)%Z). apply Hc. apply Hn in Hi'. lia.
  - intros i Hi'. apply Ha. apply Hz. assumption.
  - intros i Hi'. destruct (Hz i Hi') as [Z1 Z2]. cbn beta. unfold lat.
    pose proof (lat_pos _ _ _ _ Ho Z1). pose proof (lat_pos _ _ _ _ Ho Z2).
    f_equal; lia.
Qed.

Lemma herm_sym F a : herm F (- a) = Cconj (herm F a).
Proof.
  unfold herm. destruct (Z.ltb_spec 0 a), (Z.ltb_spec 0 (- a)), (Z.eqb_spec a 0), (Z.eqb_spec (- a) 0); try lia.
  - rewrite Z.opp_involutive. reflexivity.
  - unfold Cconj. cbn [re im]. destruct (F (- a)%Z). cbn. f_equal. lra.
  - subst a. unfold Cconj. cbn [re im]. f_equal. lra.
Qed.
Lemma herm_pos F a : (0 < a)%Z -> herm F a = F a.
Proof. intros H. unfold herm. destruct (Z.ltb_spec 0 a); [reflexivity|lia]. Qed.
Lemma herm_0 F : herm F 0 = mkC (re (F 0%Z)) 0.
Proof. reflexivity. Qed.
Lemma herm_idem F G a : (forall b, (0 <= b)%Z -> G b = herm F b) -> herm G a = herm F a.
Proof.
  intros E. unfold herm at 1. destruct (Z.ltb_spec 0 a); [apply E; lia|]. destruct (Z.eqb_spec a 0) as [->|N].
  - rewrite E by lia. reflexivity.
  - rewrite E by lia. rewrite herm_sym. unfold Cconj. destruct (herm F a). cbn. f_equal. lra.
Qed.
Lemma herm_ext F G H a : (forall b, (0 <= b < Z.of_nat H)%Z -> F b = G b) -> inside H a -> herm F a = herm G a.
Proof.
  unfold inside. intros E [A B]. unfold herm. destruct (Z.ltb_spec 0 a); [apply E; lia|]. destruct (Z.eqb_spec a 0) as [->|N].
  - rewrite E by lia. reflexivity.
  - rewrite E by lia. reflexivity.
Qed.

Lemma row_lat x0 Sx H a : H <= x0 + 1 -> inside H a -> row x0 a * Sx = lat (x0 * Sx) Sx a.
Proof.
  unfold inside, row, lat. intros Hx [A B].
  replace (Z.of_nat (x0 * Sx) + a * Z.of_nat Sx)%Z with ((Z.of_nat x0 + a) * Z.of_nat Sx)%Z by lia.
  rewrite Z2Nat.inj_mul by lia. rewrite Nat2Z.id. reflexivity.
Qed.

Definition postX (Hx Hy x0 f Sx : nat) (F : Z -> C) (m m' : dmem) : Prop :=
  (forall a, inside Hx a -> cell_C m' (mode2 f x0 Sx a 0) (herm F a)) /\
  (x0 = Hx -> forall j, j < Hy -> cell_C m' (mode2 f x0 Sx (- Z.of_nat Hx) j) C0) /\
  (forall x, (forall a, inside Hx a -> ~ word_of (mode2 f x0 Sx a 0) x) ->
     (x0 = Hx -> forall j, j < Hy -> ~ word_of (mode2 f x0 Sx (- Z.of_nat Hx) j) x) -> m' x = m x).

Lemma symX_WP Hx Hy x0 f Sx m (F : Z -> C) : 0 < Hx -> Hx <= x0 + 1 -> 0 < Sx -> Hy <= Sx ->
  (forall a, (0 <= a < Z.of_nat Hx)%Z -> cell_C m (mode2 f x0 Sx a 0) (F a)) ->
  (forall a, inside Hx a -> allocated m (mode2 f x0 Sx a 0) /\ allocated m (mode2 f x0 Sx a 0 + 1)) ->
  (x0 = Hx -> forall j, j < Hy -> allocated m (mode2 f x0 Sx (- Z.of_nat Hx) j) /\ allocated m (mode2 f x0 Sx (- Z.of_nat Hx) j + 1)) ->
  WP (HermitianSymmetrizeX Hx Hy x0 f Sx) m (postX Hx Hy x0 f Sx F m).
Proof.
  intros HH Hx0 HS HHy HF Ha Hn. unfold HermitianSymmetrizeX.
  assert (Em : forall a, inside Hx a -> mode2 f x0 Sx a 0 = f + 2 * lat (x0 * Sx) Sx a).
  { intros a H. unfold mode2. rewrite (row_lat _ _ Hx) by assumption. lia. }
  assert (En : x0 = Hx -> forall j, mode2 f x0 Sx (- Z.of_nat Hx) j = f + 2 * j).
  { intros -> j. unfold mode2, row. replace (Z.of_nat Hx + - Z.of_nat Hx)%Z with 0%Z by lia. lia. }
  assert (Hlat : x0 = Hx -> forall a j, inside Hx a -> j < Hy -> lat (x0 * Sx) Sx a <> j).
  { intros E a j H Hj. rewrite <- (row_lat _ _ Hx) by assumption. unfold row, inside in *.
    assert (1 * Sx <= Z.to_nat (Z.of_nat x0 + a) * Sx) by (apply Nat.mul_le_mono_r; lia). lia. }
  apply (WP_line f (x0 * Sx) Sx Hx m F); try assumption.
  - apply Nat.mul_le_mono_r. lia.
  - intros a H. rewrite <- Em by (unfold inside; lia). apply HF. assumption.
  - intros a H. rewrite <- Em by assumption. apply Ha. assumption.
  - intros m1 A B.
    destruct (Nat.eqb_spec x0 Hx) as [E|E].
    + eapply WP_mono; [|apply (zero_par Hy f (fun j => j))].
      * intros m2 [C D]. split; [|split].
        -- intros a H. rewrite Em by assumption. destruct (A a H) as [A1 A2].
           assert (forall i, i < Hy -> lat (x0 * Sx) Sx a <> i) by (intros i Hi; apply Hlat; assumption).
           split; (rewrite D; [assumption|]); intros (i & Hi & T); unfold two in T; specialize (H0 i Hi); lia.
        -- intros _ j Hj. rewrite En by assumption. split; apply C; exists j; unfold two; auto.
        -- intros x X1 X2. rewrite D.
           ++ apply B. intros a H. rewrite <- Em by assumption. apply X1. assumption.
           ++ intros (j & Hj & T). apply (X2 E j Hj). rewrite En by assumption. exact T.
      * auto.
      * intros j Hj. specialize (Hn E j Hj). rewrite En in Hn by assumption. unfold allocated.
        assert (G : forall c, c < 2 -> m1 (f + 2 * j + c) = m (f + 2 * j + c)).
        { intros c Hc. apply B. intros a H T. apply (Hlat E a j H Hj). unfold two in T. lia. }
        pose proof (G 0 ltac:(lia)) as G0. pose proof (G 1 ltac:(lia)) as G1. rewrite Nat.add_0_r in G0.
        rewrite G0, G1. exact Hn.
    + apply WP_skip. split; [|split].
      * intros a H. rewrite Em by assumption. apply A. assumption.
      * intros E'. contradiction.
      * intros x X1 X2. apply B. intros a H. rewrite <- Em by assumption. apply X1. assumption.
Qed.

Lemma cell_alloc m a z : cell_C m a z -> allocated m a /\ allocated m (a + 1).
Proof. intros [A B]. unfold allocated. split; congruence. Qed.

Lemma postX_idem Hx Hy x0 f Sx F m m1 m2 : 0 < Hx ->
  postX Hx Hy x0 f Sx F m m1 -> postX Hx Hy x0 f Sx (herm F) m1 m2 -> forall x, m2 x = m1 x.
Proof.
  intros HH (A & B & C) (A' & B' & C') x.
  destruct (classic (exists a, inside Hx a /\ word_of (mode2 f x0 Sx a 0) x)) as [(a & H & T)|N1].
  { specialize (A a H). specialize (A' a H). rewrite (herm_idem F) in A' by reflexivity.
    destruct A, A'. destruct T as [->| ->]; congruence. }
  destruct (classic (x0 = Hx /\ exists j, j < Hy /\ word_of (mode2 f x0 Sx (- Z.of_nat Hx) j) x)) as [(E & j & H & T)|N2].
  { specialize (B E j H). specialize (B' E j H). destruct B, B'. destruct T as [->| ->]; congruence. }
  apply C'.
  - intros a H T. apply N1. eauto.
  - intros E j H T. apply N2. eauto.
Qed.

(** *** 3D *)
Definition herm3 (F : Z -> Z -> C) (a b : Z) : C :=
  if (0 <? b)%Z then F a b else if (b =? 0)%Z then herm (fun a => F a 0%Z) a else Cconj (F (- a)%Z (- b)%Z).

Lemma Cconj2 z : Cconj (Cconj z) = z.
Proof. unfold Cconj. destruct z. cbn. f_equal. lra. Qed.

Lemma herm3_sym F a b : herm3 F (- a) (- b) = Cconj (herm3 F a b).
Proof.
  unfold herm3. destruct (Z.ltb_spec 0 b), (Z.ltb_spec 0 (- b)), (Z.eqb_spec b 0), (Z.eqb_spec (- b) 0); try lia.
  - rewrite !Z.opp_involutive. reflexivity.
  - rewrite Cconj2. reflexivity.
  - apply herm_sym.
Qed.
Lemma herm3_idem F a b : herm3 (herm3 F) a b = herm3 F a b.
Proof.
  unfold herm3 at 1. destruct (Z.ltb_spec 0 b); [reflexivity|]. destruct (Z.eqb_spec b 0) as [->|N].
  - unfold herm3. cbn. apply herm_idem. reflexivity.
  - rewrite herm3_sym, Cconj2. reflexivity.
Qed.

Definition postXY (Hx Hy Hz x0 y0 f Sx Sy : nat) (F : Z -> Z -> C) (m m' : dmem) : Prop :=
  let at3 := mode3 f x0 y0 Sx Sy in
  (forall a b, inside Hx a -> inside Hy b -> cell_C m' (at3 a b 0) (herm3 F a b)) /\
  (x0 = Hx -> forall b k, (- Z.of_nat y0 <= b < Z.of_nat Hy)%Z -> k < Hz -> cell_C m' (at3 (- Z.of_nat Hx)%Z b k) C0) /\
  (y0 = Hy -> forall a k, (- Z.of_nat x0 <= a < Z.of_nat Hx)%Z -> k < Hz -> cell_C m' (at3 a (- Z.of_nat Hy)%Z k) C0) /\
  (forall x, (forall a b, inside Hx a -> inside Hy b -> ~ word_of (at3 a b 0) x) ->
     (x0 = Hx -> forall b k, (- Z.of_nat y0 <= b < Z.of_nat Hy)%Z -> k < Hz -> ~ word_of (at3 (- Z.of_nat Hx)%Z b k) x) ->
     (y0 = Hy -> forall a k, (- Z.of_nat x0 <= a < Z.of_nat Hx)%Z -> k < Hz -> ~ word_of (at3 a (- Z.of_nat Hy)%Z k) x) ->
     m' x = m x).

Lemma postXY_idem Hx Hy Hz x0 y0 f Sx Sy F m m1 m2 :
  postXY Hx Hy Hz x0 y0 f Sx Sy F m m1 -> postXY Hx Hy Hz x0 y0 f Sx Sy (herm3 F) m1 m2 -> forall x, m2 x = m1 x.
Proof.
  intros (A & B & C & D) (A' & B' & C' & D') x. set (at3 := mode3 f x0 y0 Sx Sy) in *.
  destruct (classic (exists a b, inside Hx a /\ inside Hy b /\ word_of (at3 a b 0) x)) as [(a & b & H & H' & T)|N1].
  { specialize (A a b H H'). specialize (A' a b H H'). rewrite herm3_idem in A'.
    destruct A, A'. destruct T as [->| ->]; congruence. }
  destruct (classic (x0 = Hx /\ exists b k, (- Z.of_nat y0 <= b < Z.of_nat Hy)%Z /\ k < Hz /\ word_of (at3 (- Z.of_nat Hx)%Z b k) x))
    as [(E & b & k & H & H' & T)|N2].
  { specialize (B E b k H H'). specialize (B' E b k H H'). destruct B, B'. destruct T as [->| ->]; congruence. }
  destruct (classic (y0 = Hy /\ exists a k, (- Z.of_nat x0 <= a < Z.of_nat Hx)%Z /\ k < Hz /\ word_of (at3 a (- Z.of_nat Hy)%Z k) x))
    as [(E & b & k & H & H' & T)|N3].
  { specialize (C E b k H H'). specialize (C' E b k H H'). destruct C, C'. destruct T as [->| ->]; congruence. }
  apply D'.
  - intros a b H H' T. apply N1. eauto 6.
  - intros E a b H H' T. apply N2. eauto 6.
  - intros E a b H H' T. apply N3. eauto 6.
Qed.

Section XY.
Variables Hx Hy Hz x0 y0 f Sx Sy : nat.
Hypothesis (PHx : 0 < Hx) (PHy : 0 < Hy) (Px : Hx <= x0 + 1) (Py : Hy <= y0 + 1) (PSy : 0 < Sy) (Pz : Hz <= Sy)
  (PSx : (y0 + Hy) * Sy <= Sx).
Let idx (X Y k : nat) : nat := X * Sx + Y * Sy + k.

Lemma idx_inj X Y k X' Y' k' : Y < y0 + Hy -> Y' < y0 + Hy -> k < Sy -> k' < Sy ->
  idx X Y k = idx X' Y' k' -> X = X' /\ Y = Y' /\ k = k'.
Proof using PSx.
  clear - PSx. unfold idx. intros H1 H2 H3 H4 E.
  assert ((Y + 1) * Sy <= (y0 + Hy) * Sy) by (apply Nat.mul_le_mono_r; lia).
  assert ((Y' + 1) * Sy <= (y0 + Hy) * Sy) by (apply Nat.mul_le_mono_r; lia).
  rewrite <- !Nat.add_assoc in E. apply pair_inj in E; [|lia|lia]. destruct E as [-> E].
  apply pair_inj in E; [|assumption|assumption]. tauto.
Qed.
Lemma idx_z X Y k : Z.of_nat (idx X Y k) = (Z.of_nat X * Z.of_nat Sx + Z.of_nat Y * Z.of_nat Sy + Z.of_nat k)%Z.
Proof using. clear. unfold idx. lia. Qed.

Lemma row_in H z0 a : H <= z0 + 1 -> inside H a -> Z.of_nat (row z0 a) = (Z.of_nat z0 + a)%Z.
Proof using. clear. unfold inside, row. lia. Qed.

Variables (m : dmem) (F : Z -> Z -> C).
Notation at3 := (mode3 f x0 y0 Sx Sy).
Hypothesis HF : forall a b, inside Hx a -> inside Hy b -> (0 < b \/ (b = 0 /\ 0 <= a))%Z -> cell_C m (at3 a b 0) (F a b).
Hypothesis Ha : forall a b, inside Hx a -> inside Hy b -> allocated m (at3 a b 0) /\ allocated m (at3 a b 0 + 1).
Hypothesis Hnx : x0 = Hx -> forall b k, (- Z.of_nat y0 <= b < Z.of_nat Hy)%Z -> k < Hz ->
  allocated m (at3 (- Z.of_nat Hx)%Z b k) /\ allocated m (at3 (- Z.of_nat Hx)%Z b k + 1).
Hypothesis Hny : y0 = Hy -> forall a k, (- Z.of_nat x0 <= a < Z.of_nat Hx)%Z -> k < Hz ->
  allocated m (at3 a (- Z.of_nat Hy)%Z k) /\ allocated m (at3 a (- Z.of_nat Hy)%Z k + 1).

Lemma at_idx a b k : at3 a b k = f + 2 * idx (row x0 a) (row y0 b) k.
Proof using. reflexivity. Qed.
Lemma lat_idx a : inside Hx a -> lat (x0 * Sx + y0 * Sy) Sx a = idx (row x0 a) (row y0 0) 0.
Proof using Px.
  clear - Px. intros H. pose proof (row_in _ _ _ Px H) as R.
  apply Nat2Z.inj. rewrite idx_z, R. unfold lat, row. rewrite Z2Nat.id; [lia|].
  assert (0 <= (Z.of_nat x0 + a) * Z.of_nat Sx)%Z by (unfold inside in H; apply Z.mul_nonneg_nonneg; lia). lia.
Qed.

Lemma rows b : inside Hy b -> row y0 b < y0 + Hy.
Proof using. clear. unfold inside, row. lia. Qed.
Lemma rowin_inj H z0 a a' : H <= z0 + 1 -> inside H a -> inside H a' -> row z0 a = row z0 a' -> a = a'.
Proof using. clear. unfold inside, row. lia. Qed.
Lemma modes_inj a b a' b' : inside Hx a -> inside Hy b -> inside Hx a' -> inside Hy b' ->
  idx (row x0 a) (row y0 b) 0 = idx (row x0 a') (row y0 b') 0 -> a = a' /\ b = b'.
Proof using Px Py PSy PSx.
  intros H1 H2 H3 H4 E. apply idx_inj in E; try (apply rows; assumption); try assumption. destruct E as (E & E' & _).
  split; [apply (rowin_inj Hx x0)|apply (rowin_inj Hy y0)]; assumption.
Qed.

Lemma symXY_WP : WP (HermitianSymmetrizeXY Hx Hy Hz x0 y0 f Sx Sy) m (postXY Hx Hy Hz x0 y0 f Sx Sy F m).
Proof.
  assert (HS : 0 < Sx).
  { assert (1 * 1 <= (y0 + Hy) * Sy) by (apply Nat.mul_le_mono; lia). lia. }
  unfold HermitianSymmetrizeXY.
  assert (I0 : inside Hy 0) by (unfold inside; lia).
  apply (WP_line f (x0 * Sx + y0 * Sy) Sx Hx m (fun a => F a 0%Z)); try assumption.
  { assert ((Hx - 1) * Sx <= x0 * Sx) by (apply Nat.mul_le_mono_r; lia). lia. }
  { intros a H. rewrite lat_idx by (unfold inside; lia). apply (HF a 0%Z); try assumption; [unfold inside; lia|lia]. }
  { intros a H. rewrite lat_idx by assumption. apply (Ha a 0%Z); assumption. }
  intros m1 A1 B1.
  assert (E1 : forall a b c, inside Hx a -> inside Hy b -> b <> 0%Z -> c < 2 -> m1 (at3 a b 0 + c) = m (at3 a b 0 + c)).
  { intros a b c H1 H2 N Hc. apply B1. intros a' H' T. rewrite lat_idx in T by assumption. rewrite at_idx in T.
    assert (idx (row x0 a) (row y0 b) 0 = idx (row x0 a') (row y0 0) 0) as E by (unfold two in T; lia).
    apply modes_inj in E; try assumption. lia. }
  assert (X1 : forall z, m1 z <> m z -> exists a, inside Hx a /\ two (f + 2 * idx (row x0 a) (row y0 0) 0) z).
  { intros z Hz'. apply NNPP. intros N. apply Hz', B1. intros a H T. apply N. exists a. split; [assumption|].
    rewrite lat_idx in T by assumption. exact T. }
  apply WP_seq.
  set (lo := ((- Z.of_nat Hx + 1) * Z.of_nat Sx)%Z).
  assert (Hn : nstepsZ lo (Z.of_nat (Hx * Sx)) (Z.of_nat Sx) = 2 * Hx - 1).
  { unfold nstepsZ, lo.
    replace (Z.of_nat (Hx * Sx) - (- Z.of_nat Hx + 1) * Z.of_nat Sx + (Z.of_nat Sx - 1))%Z
      with ((2 * Z.of_nat Hx - 1) * Z.of_nat Sx + (Z.of_nat Sx - 1))%Z by lia.
    rewrite Z.div_add_l by lia. rewrite (Z.div_small (Z.of_nat Sx - 1)) by lia. lia. }
  rewrite Hn.
  assert (Hm : nsteps Sy (Sy * Hy) Sy = Hy - 1).
  { assert (G : forall k, k < nsteps Sy (Sy * Hy) Sy <-> k < Hy - 1).
    { intros k. rewrite nsteps_lt by assumption. split; intros G.
      - assert (Sy * (k + 1) < Sy * Hy) as G' by lia. apply Nat.mul_lt_mono_pos_l in G'; lia.
      - assert (Sy * (k + 2) <= Sy * Hy) by (apply Nat.mul_le_mono_l; lia). lia. }
    pose proof (G (Hy - 1)). pose proof (G (nsteps Sy (Sy * Hy) Sy)). lia. }
  set (wa := fun n => (Z.of_nat n - (Z.of_nat Hx - 1))%Z). set (wb := fun j => (Z.of_nat j + 1)%Z).
  assert (Ia : forall n, n < 2 * Hx - 1 -> inside Hx (wa n) /\ inside Hx (- wa n)) by (unfold inside, wa; lia).
  assert (Ib : forall j, j < Hy - 1 -> inside Hy (wb j) /\ inside Hy (- wb j)) by (unfold inside, wb; lia).
  eapply WP_mono; [|apply (conj_par2 (2 * Hx - 1) (Hy - 1) f
     (fun n j => idx (row x0 (- wa n)) (row y0 (- wb j)) 0) (fun n j => idx (row x0 (wa n)) (row y0 (wb j)) 0) _
     (fun n j => conjTo f (Z.of_nat (x0 * Sx + y0 * Sy) - (lo + Z.of_nat Sx * Z.of_nat n) - Z.of_nat (Sy + Sy * j))
                          (Z.of_nat (x0 * Sx + y0 * Sy) + (lo + Z.of_nat Sx * Z.of_nat n) + Z.of_nat (Sy + Sy * j))))].
  - intros m2 [A2 B2]. cbn beta in A2, B2.
    assert (L2 : forall a b, inside Hx a -> inside Hy b -> cell_C m2 (at3 a b 0) (herm3 F a b)).
    { intros a b H1 H2. unfold herm3.
      assert (E2 : (0 <= b)%Z -> forall c, c < 2 -> m2 (at3 a b 0 + c) = m1 (at3 a b 0 + c)).
      { intros P c Hc. apply B2. intros i j Hi Hj T. destruct (Ia i Hi), (Ib j Hj). rewrite at_idx in T.
        assert (idx (row x0 a) (row y0 b) 0 = idx (row x0 (- wa i)) (row y0 (- wb j)) 0) as E by (unfold two in T; lia).
        apply modes_inj in E; try assumption. unfold wb in E. lia. }
      destruct (Z.ltb_spec 0 b).
      - destruct (HF a b H1 H2 ltac:(lia)) as [F1 F2].
        pose proof (E2 ltac:(lia) 0 ltac:(lia)) as G0. pose proof (E2 ltac:(lia) 1 ltac:(lia)) as G1.
        rewrite E1 in G0, G1 by (assumption || lia). rewrite Nat.add_0_r in G0. split; congruence.
      - destruct (Z.eqb_spec b 0) as [->|N].
        + destruct (A1 a H1) as [F1 F2]. rewrite lat_idx in F1, F2 by assumption. rewrite <- at_idx in F1, F2.
          pose proof (E2 ltac:(lia) 0 ltac:(lia)) as G0. pose proof (E2 ltac:(lia) 1 ltac:(lia)) as G1.
          rewrite Nat.add_0_r in G0. split; congruence.
        + set (n := Z.to_nat (- a + (Z.of_nat Hx - 1))). set (j := Z.to_nat (- b - 1)).
          assert (Hn' : n < 2 * Hx - 1) by (unfold n, inside in *; lia).
          assert (Hj' : j < Hy - 1) by (unfold j, inside in *; lia).
          assert (En : wa n = (- a)%Z) by (unfold wa, n, inside in *; lia).
          assert (Ej : wb j = (- b)%Z) by (unfold wb, j, inside in *; lia).
          specialize (A2 n j Hn' Hj'). rewrite En, Ej, !Z.opp_involutive in A2. rewrite at_idx. apply A2.
          assert (J1 : inside Hx (- a)) by (unfold inside in *; lia). assert (J2 : inside Hy (- b)) by (unfold inside in *; lia).
          destruct (HF (- a)%Z (- b)%Z J1 J2 ltac:(lia)) as [F1 F2]. rewrite <- at_idx.
          pose proof (E1 (- a)%Z (- b)%Z 0 J1 J2 ltac:(lia) ltac:(lia)) as G0.
          pose proof (E1 (- a)%Z (- b)%Z 1 J1 J2 ltac:(lia) ltac:(lia)) as G1. rewrite Nat.add_0_r in G0.
          split; congruence. }
    assert (X2 : forall z, (forall a b, inside Hx a -> inside Hy b -> ~ two (f + 2 * idx (row x0 a) (row y0 b) 0) z) -> m2 z = m z).
    { intros z Hz'. rewrite B2.
      - apply NNPP. intros N. destruct (X1 z N) as (a & H & T). exact (Hz' a 0%Z H I0 T).
      - intros i j Hi Hj. apply Hz'; [apply Ia|apply Ib]; assumption. }
    clear A1 B1 E1 X1 A2 B2.
    (* the Nyquist planes do not meet the modes *)
    set (PX := fun z => exists j k, j < y0 + Hy /\ k < Hz /\ two (f + 2 * idx 0 j k) z).
    set (PY := fun z => exists i k, i < x0 + Hx /\ k < Hz /\ two (f + 2 * idx i 0 k) z).
    assert (NX : x0 = Hx -> forall z, PX z -> m2 z = m z).
    { intros E z (j & k & Hj & Hk & T). apply X2. intros a b Iax Iby T'. 
      assert (idx 0 j k = idx (row x0 a) (row y0 b) 0) as E' by (unfold two in *; lia).
      apply idx_inj in E'; try (apply rows; assumption); try lia. unfold row, inside in *. lia. }
    assert (NY : y0 = Hy -> forall z, PY z -> m2 z = m z).
    { intros E z (j & k & Hj & Hk & T). apply X2. intros a b Iax Iby T'.
      assert (idx j 0 k = idx (row x0 a) (row y0 b) 0) as E' by (unfold two in *; lia).
      apply idx_inj in E'; try (apply rows; assumption); try lia. unfold row, inside in *. lia. }
    assert (EX : x0 = Hx -> forall b k, (- Z.of_nat y0 <= b < Z.of_nat Hy)%Z -> at3 (- Z.of_nat Hx)%Z b k = f + 2 * idx 0 (row y0 b) k).
    { intros E b k H. rewrite at_idx. replace (row x0 (- Z.of_nat Hx)) with 0 by (unfold row; lia). reflexivity. }
    assert (EY : y0 = Hy -> forall a k, (- Z.of_nat x0 <= a < Z.of_nat Hx)%Z -> at3 a (- Z.of_nat Hy)%Z k = f + 2 * idx (row x0 a) 0 k).
    { intros E b k H. rewrite at_idx. replace (row y0 (- Z.of_nat Hy)) with 0 by (unfold row; lia). reflexivity. }
    assert (AX : x0 = Hx -> forall j k, j < y0 + Hy -> k < Hz -> allocated m (f + 2 * idx 0 j k) /\ allocated m (f + 2 * idx 0 j k + 1)).
    { intros E j k Hj Hk. specialize (Hnx E (Z.of_nat j - Z.of_nat y0)%Z k ltac:(lia) Hk). rewrite EX in Hnx by lia.
      replace (row y0 (Z.of_nat j - Z.of_nat y0)) with j in Hnx by (unfold row; lia). exact Hnx. }
    assert (AY : y0 = Hy -> forall j k, j < x0 + Hx -> k < Hz -> allocated m (f + 2 * idx j 0 k) /\ allocated m (f + 2 * idx j 0 k + 1)).
    { intros E j k Hj Hk. specialize (Hny E (Z.of_nat j - Z.of_nat x0)%Z k ltac:(lia) Hk). rewrite EY in Hny by lia.
      replace (row x0 (Z.of_nat j - Z.of_nat x0)) with j in Hny by (unfold row; lia). exact Hny. }
    set (P := fun z : addr => allocated m z).
    assert (HP : forall z, P z -> allocated m2 z).
    { intros z Hz'. destruct (classic (exists a b, inside Hx a /\ inside Hy b /\ two (f + 2 * idx (row x0 a) (row y0 b) 0) z))
        as [(a & b & Ja & Jb & T)|N].
      - destruct (cell_alloc _ _ _ (L2 a b Ja Jb)) as [U V]. rewrite at_idx in U, V. destruct T as [->| ->]; assumption.
      - unfold allocated. rewrite X2; [exact Hz'|]. intros a b Ja Jb T. apply N. eauto 6. }
    eapply WP_mono; [|apply (zeroes_seq (fun z => (x0 =? Hx) = true /\ PX z) (fun z => (y0 =? Hy) = true /\ PY z) _ _ m2 P HP)].
    + intros m3 [Z1 Z2]. cbn beta in Z1, Z2. split; [|split; [|split]].
      * intros a b Ja Jb. destruct (L2 a b Ja Jb) as [U V].
        assert (G : forall c, c < 2 -> ~ (((x0 =? Hx) = true /\ PX (at3 a b 0 + c)) \/ ((y0 =? Hy) = true /\ PY (at3 a b 0 + c)))).
        { intros c Hc [[E (j & k & Hj & Hk & T)]|[E (j & k & Hj & Hk & T)]]; apply Nat.eqb_eq in E; rewrite at_idx in T.
          - assert (idx 0 j k = idx (row x0 a) (row y0 b) 0) as E' by (unfold two in *; lia).
            apply idx_inj in E'; try (apply rows; assumption); try lia. unfold row, inside in *. lia.
          - assert (idx j 0 k = idx (row x0 a) (row y0 b) 0) as E' by (unfold two in *; lia).
            apply idx_inj in E'; try (apply rows; assumption); try lia. unfold row, inside in *. lia. }
        pose proof (G 0 ltac:(lia)) as G0. pose proof (G 1 ltac:(lia)) as G1. rewrite Nat.add_0_r in G0.
        split; rewrite Z2 by assumption; assumption.
      * intros E b k Hb Hk. rewrite EX by assumption.
        split; apply Z1; left; (split; [apply Nat.eqb_eq; exact E|]); exists (row y0 b), k; unfold row, two; repeat split; auto; lia.
      * intros E b k Hb Hk. rewrite EY by assumption.
        split; apply Z1; right; (split; [apply Nat.eqb_eq; exact E|]); exists (row x0 b), k; unfold row, two; repeat split; auto; lia.
      * intros z W1 W2 W3. rewrite Z2.
        -- apply X2. intros a b Ja Jb. apply (W1 a b Ja Jb).
        -- intros [[E (j & k & Hj & Hk & T)]|[E (j & k & Hj & Hk & T)]]; apply Nat.eqb_eq in E.
           ++ apply (W2 E (Z.of_nat j - Z.of_nat y0)%Z k ltac:(lia) Hk). rewrite EX by lia.
              replace (row y0 (Z.of_nat j - Z.of_nat y0)) with j by (unfold row; lia). exact T.
           ++ apply (W3 E (Z.of_nat j - Z.of_nat x0)%Z k ltac:(lia) Hk). rewrite EY by lia.
              replace (row x0 (Z.of_nat j - Z.of_nat x0)) with j by (unfold row; lia). exact T.
    + apply zeroes_if. intros E. apply Nat.eqb_eq in E.
      apply (zero_par2 (y0 + Hy) Hz f (fun j k => idx 0 j k)).
      * intros i j i' j' H1 H2 H3 H4 E'. apply idx_inj in E'; try assumption; lia.
      * intros j k Hj Hk. destruct (AX E j k Hj Hk). split; apply HP; assumption.
      * intros j. apply f_equal. unfold idx. apply FunctionalExtensionality.functional_extensionality. intros k.
        f_equal. lia.
    + intros m3 H3. apply zeroes_if. intros E. apply Nat.eqb_eq in E.
      apply (zero_par2 (x0 + Hx) Hz f (fun j k => idx j 0 k)).
      * intros i j i' j' H1 H2 H3' H4 E'. apply idx_inj in E'; try assumption; lia.
      * intros j k Hj Hk. destruct (AY E j k Hj Hk). split; apply H3; assumption.
      * intros j. apply f_equal. unfold idx. apply FunctionalExtensionality.functional_extensionality. intros k.
        f_equal. lia.
  - intros i j i' j' H1 H2 H3 H4 E. cbn beta in E.
    apply modes_inj in E; try (apply Ia; assumption); try (apply Ib; assumption). unfold wa, wb in E. lia.
  - intros i j i' j' H1 H2 H3 H4 E. cbn beta in E.
    apply modes_inj in E; try (apply Ia; assumption); try (apply Ib; assumption). unfold wa, wb in E. lia.
  - intros i j Hi Hj. destruct (Ia i Hi), (Ib j Hj). exists (F (wa i) (wb j)). cbn beta.
    destruct (HF (wa i) (wb j)) as [F1 F2]; try assumption; [unfold wb; lia|].
    rewrite <- at_idx.
    pose proof (E1 (wa i) (wb j) 0 ltac:(assumption) ltac:(assumption) ltac:(unfold wb; lia) ltac:(lia)) as G0.
    pose proof (E1 (wa i) (wb j) 1 ltac:(assumption) ltac:(assumption) ltac:(unfold wb; lia) ltac:(lia)) as G1.
    rewrite Nat.add_0_r in G0. split; congruence.
  - intros i j Hi Hj. destruct (Ia i Hi), (Ib j Hj). cbn beta. rewrite <- at_idx. unfold allocated.
    pose proof (E1 (- wa i)%Z (- wb j)%Z 0 ltac:(assumption) ltac:(assumption) ltac:(unfold wb; lia) ltac:(lia)) as G0.
    pose proof (E1 (- wa i)%Z (- wb j)%Z 1 ltac:(assumption) ltac:(assumption) ltac:(unfold wb; lia) ltac:(lia)) as G1.
    rewrite Nat.add_0_r in G0. rewrite G0, G1. apply Ha; assumption.
  - intros i Hi. unfold pStep. rewrite Hm. reflexivity.
  - intros i j Hi Hj. destruct (Ia i Hi) as [J1 J2], (Ib j Hj) as [J3 J4]. cbn beta.
    rewrite !idx_z, !(row_in Hx x0), !(row_in Hy y0) by assumption. unfold wa, wb, lo. f_equal; lia.
Qed.
End XY.
