(** The distributed transforms. *)
From Coq Require Import Reals ZArith List Arith Bool Lia Lra FunctionalExtensionality.
From Verif Require Import CNum Sums Roots PadModel MpiMachine MpiRun MpiTrModel MpiTrGeom MpiTrPhase MpiTrXch MpiTrSpec MpiTrTop MpiTrProofs MpiFftModel MpiFftSpec MpiFft1 MpiFft2.
Import ListNotations.
Local Open Scope nat_scope.

(** *** arithmetic of the transforms *)
Lemma zeta_expi : forall N sg j k, (0 < N)%nat ->
  zeta N (sg * Z.of_nat j * Z.of_nat k) = expi (2 * PI * (IZR sg * (INR j * INR k / INR N))).
Proof.
  intros N sg j k H. unfold zeta. f_equal. rewrite !mult_IZR, <- !INR_IZR_INZ. field. apply not_0_INR. lia.
Qed.
Lemma expi_plus : forall a b, expi (a + b) = Cmul (expi a) (expi b).
Proof. intros a b. unfold expi. apply C_ext; cbn [re im Cmul]; [rewrite cos_plus; ring|rewrite sin_plus; ring]. Qed.

Lemma fourier3_dft : forall sg X Y Z G kx ky kz, 0 < X -> 0 < Y -> 0 < Z ->
  fourier3 sg X Y Z G kx ky kz =
  dft X sg (fun i => dft Y sg (fun j => dft Z sg (fun l => G i j l) kz) ky) kx.
Proof.
  intros sg X Y Z G kx ky kz HX HY HZ. unfold fourier3, dft. apply Csum_ext. intros i Hi.
  rewrite <- Csum_mul_r. apply Csum_ext. intros j Hj. rewrite <- Csum_mul_r, <- Csum_mul_r. apply Csum_ext. intros l Hl.
  rewrite !zeta_expi by auto.
  replace (2 * PI * (IZR sg * (INR i * INR kx / INR X + INR j * INR ky / INR Y + INR l * INR kz / INR Z)))%R
    with (2 * PI * (IZR sg * (INR l * INR kz / INR Z)) + (2 * PI * (IZR sg * (INR j * INR ky / INR Y)) + 2 * PI * (IZR sg * (INR i * INR kx / INR X))))%R by ring.
  rewrite !expi_plus. rewrite !Cmul_assoc. reflexivity.
Qed.
Lemma fourier3_1 : forall sg X Y G kx ky, 0 < X -> 0 < Y ->
  fourier3 sg X Y 1 G kx ky 0 = fourier2 sg X Y (fun i j => G i j 0) kx ky.
Proof.
  intros sg X Y G kx ky HX HY. unfold fourier3, fourier2. apply Csum_ext. intros i Hi. apply Csum_ext. intros j Hj.
  cbn [Csum]. rewrite Cadd_0_l. f_equal. f_equal. cbn [INR]. field. split; apply not_0_INR; lia.
Qed.

Lemma dft_inv : forall N sg x j, j < N -> (sg = 1 \/ sg = -1)%Z -> dft N (- sg) (dft N sg x) j = Cmul (RtoC (INR N)) (x j).
Proof.
  intros N sg x j Hj Hsg. unfold dft.
  rewrite (Csum_ext N _ (fun k => Csum N (fun i => Cmul (x i) (zeta N (Z.of_nat k * (sg * (Z.of_nat i - Z.of_nat j))))))).
  2:{ intros k Hk. rewrite <- Csum_mul_r. apply Csum_ext. intros i Hi. rewrite <- Cmul_assoc, <- zeta_add. f_equal. f_equal. ring. }
  rewrite Csum_swap. rewrite (Csum_single N j).
  - rewrite (Csum_ext N _ (fun k => Cmul (x j) (zeta N (Z.of_nat k * 0)))).
    2:{ intros k Hk. f_equal. f_equal. ring. }
    rewrite Csum_mul_l, zeta_orth by lia. rewrite Z.mod_0_l by lia. cbn [Z.eqb]. apply Cmul_comm.
  - exact Hj.
  - intros i Hi N'. rewrite Csum_mul_l, zeta_orth by lia.
    destruct (Z.eqb_spec ((sg * (Z.of_nat i - Z.of_nat j)) mod Z.of_nat N) 0) as [E|E]; [|apply Cmul_0_r].
    exfalso. apply Z.mod_divide in E; [|lia]. destruct E as [q E].
    assert (Q : (q = 0 \/ 1 <= q \/ q <= -1)%Z) by lia.
    assert (P1 : (1 <= q -> Z.of_nat N <= q * Z.of_nat N)%Z) by (intros; nia).
    assert (P2 : (q <= -1 -> q * Z.of_nat N <= - Z.of_nat N)%Z) by (intros; nia).
    destruct Q as [-> | [Q | Q]]; destruct Hsg; subst sg; try specialize (P1 Q); try specialize (P2 Q); lia.
Qed.
Lemma dft_scale : forall N sg a x k, dft N sg (fun j => Cmul a (x j)) k = Cmul a (dft N sg x k).
Proof. intros. unfold dft. rewrite <- Csum_mul_l. apply Csum_ext. intros i Hi. rewrite Cmul_assoc. reflexivity. Qed.
Lemma dft_swap : forall N N' sg sg' (f : nat -> nat -> C) k k',
  dft N sg (fun i => dft N' sg' (fun j => f i j) k') k = dft N' sg' (fun j => dft N sg (fun i => f i j) k) k'.
Proof.
  intros. unfold dft.
  rewrite (Csum_ext N _ (fun i => Csum N' (fun j => Cmul (Cmul (f i j) (zeta N' (sg' * Z.of_nat j * Z.of_nat k'))) (zeta N (sg * Z.of_nat i * Z.of_nat k))))).
  2:{ intros i Hi. rewrite <- Csum_mul_r. reflexivity. }
  rewrite Csum_swap. apply Csum_ext. intros j Hj. rewrite <- Csum_mul_r. apply Csum_ext. intros i Hi.
  rewrite <- !Cmul_assoc. f_equal. apply Cmul_comm.
Qed.
Lemma fourier3_inv : forall sg X Y Z G i j l, i < X -> j < Y -> l < Z -> (sg = 1 \/ sg = -1)%Z ->
  fourier3 (- sg) X Y Z (fourier3 sg X Y Z G) i j l = Cmul (RtoC (INR (X * Y * Z))) (G i j l).
Proof.
  intros sg X Y Z G i j l Hi Hj Hl Hs. rewrite fourier3_dft by lia.
  transitivity (dft X (- sg) (fun kx => dft Y (- sg) (fun ky => dft Z (- sg) (dft Z sg (fun l => dft Y sg (fun j => dft X sg (fun i => G i j l) kx) ky)) l) j) i).
  { apply dft_ext'. intros kx Hx. apply dft_ext'. intros ky Hy. apply dft_ext'. intros kz Hz.
    rewrite fourier3_dft by lia.
    rewrite (dft_swap X Y sg sg (fun i j => dft Z sg (fun l => G i j l) kz)).
    transitivity (dft Y sg (fun j => dft Z sg (fun l => dft X sg (fun i => G i j l) kx) kz) ky).
    { apply dft_ext'. intros j' Hj'. apply (dft_swap X Z sg sg (fun i l => G i j' l)). }
    apply (dft_swap Y Z sg sg (fun j l => dft X sg (fun i => G i j l) kx)). }
  transitivity (dft X (- sg) (fun kx => dft Y (- sg) (fun ky => Cmul (RtoC (INR Z)) (dft Y sg (fun j => dft X sg (fun i => G i j l) kx) ky)) j) i).
  { apply dft_ext'. intros kx Hx. apply dft_ext'. intros ky Hy.
    exact (dft_inv Z sg (fun l => dft Y sg (fun j => dft X sg (fun i => G i j l) kx) ky) l Hl Hs). }
  transitivity (dft X (- sg) (fun kx => Cmul (RtoC (INR Z)) (Cmul (RtoC (INR Y)) (dft X sg (fun i => G i j l) kx))) i).
  { apply dft_ext'. intros kx Hx. rewrite dft_scale. f_equal. exact (dft_inv Y sg (fun j => dft X sg (fun i => G i j l) kx) j Hj Hs). }
  rewrite !dft_scale, (dft_inv X sg (fun i => G i j l) i Hi Hs). rewrite !Cmul_assoc. f_equal.
  apply C_ext; cbn [re im Cmul RtoC]; rewrite ?mult_INR; ring.
Qed.

(** *** the phases *)
Section Phases.
Variable c : cfg.
Context {Hc : good c}.
Hypothesis Hz : csz c = 1.
Notation X := (cN c). Notation Y := (cM c). Notation P := (cP c). Notation Z_ := (S_ c).
Variable sign : Z.

Lemma S_cL : Z_ = cL c. Proof. unfold S_. rewrite Hz. lia. Qed.
Definition yz (sg : Z) (G : nat -> nat -> nat -> C) : nat -> nat -> nat -> C :=
  fun i j l => dft Y sg (fun a => dft Z_ sg (fun b => G i a b) l) j.
Definition xs (sg : Z) (G : nat -> nat -> nat -> C) : nat -> nat -> nat -> C :=
  fun i j l => dft X sg (fun a => G a j l) i.
Lemma xs_yz : forall sg G i j l, xs sg (yz sg G) i j l = fourier3 sg X Y Z_ G i j l.
Proof.
  intros. destruct Hc as [HX HY _ _ HS]. rewrite fourier3_dft by auto. reflexivity.
Qed.
Lemma yz_xs : forall sg G i j l, yz sg (xs sg G) i j l = fourier3 sg X Y Z_ G i j l.
Proof.
  intros. rewrite <- xs_yz. unfold xs, yz.
  transitivity (dft Y sg (fun a => dft X sg (fun i' => dft Z_ sg (fun b => G i' a b) l) i) j).
  { apply dft_ext'. intros a Ha. apply (dft_swap Z_ X sg sg (fun b i' => G i' a b)). }
  apply (dft_swap Y X sg sg (fun a i' => dft Z_ sg (fun b => G i' a b) l)).
Qed.

Definition rowsPhase (sg : Z) (cm : nat -> nat -> nat -> cmdC) : Prop :=
  (forall bi bo r k, size c <= r -> cm bi bo r k = k) /\
  forall r s bi bo G, r < size c -> quiet C s -> cap c r <= bsz C s bi -> cap c r <= bsz C s bo ->
  has_rows C X Y Z_ P G r (mem C s bi) ->
  exists m', runsC (cm bi bo r) s (setmem C s m') /\ has_rows C X Y Z_ P (yz sg G) r (m' bo) /\
    (forall b o, b <> bo -> m' b o = mem C s b o).
Definition colsPhase (sg : Z) (cm : nat -> nat -> nat -> cmdC) : Prop :=
  (forall bi bo r k, size c <= r -> cm bi bo r k = k) /\
  forall r s bi bo G, r < size c -> quiet C s -> cap c r <= bsz C s bi -> cap c r <= bsz C s bo ->
  has_cols C X Y Z_ P G r (mem C s bi) ->
  exists m', runsC (cm bi bo r) s (setmem C s m') /\ has_cols C X Y Z_ P (xs sg G) r (m' bo) /\
    (forall b o, b <> bo -> b <> bi -> m' b o = mem C s b o).

Lemma x_cap : forall r, count X P r * Y * Z_ <= cap c r.
Proof.
  intros r. unfold cap. change (count X P r) with (ldim X P r). rewrite <- (ni_ldim c).
  apply Nat.mul_le_mono_r. apply Nat.le_max_l.
Qed.
Lemma y_cap : forall r, X * count Y P r * Z_ <= cap c r.
Proof.
  intros r. unfold cap. change (count Y P r) with (ldim Y P r). rewrite <- (mi_ldim c).
  apply Nat.mul_le_mono_r. apply Nat.le_max_r.
Qed.
Lemma x_idle : forall r, size c <= r -> ldim X P r = 0.
Proof. intros r H. rewrite <- (ni_ldim c). apply ni_idle; auto. Qed.
Lemma y_idle : forall r, size c <= r -> ldim Y P r = 0.
Proof. intros r H. rewrite <- (mi_ldim c). apply mi_idle; auto. Qed.

(** 3D *)
Lemma rows3_phase : forall sg, rowsPhase sg (fun bi bo r => mfft2d Y (cL c) sg (ldim X P r) bi bo).
Proof.
  intros sg. split.
  { intros bi bo r k H. rewrite x_idle by auto. reflexivity. }
  intros r s bi bo G Hr Q Z1 Z2 HG. pose proof (x_cap r) as B. rewrite <- S_cL.
  assert (E : ldim X P r * (Y * Z_) = count X P r * Y * Z_) by (rewrite Nat.mul_assoc; reflexivity).
  destruct (planes_run Y Z_ sg (ldim X P r) bi bo s Q) as (m' & R & W & F); [lia|lia|].
  exists m'. split; [exact R|]. split; [|exact F].
  intros i j t Hi Hj Ht. rewrite W by auto. unfold yz. apply dft_ext'. intros a Ha. apply dft_ext'. intros b Hb. apply HG; auto.
Qed.
Lemma cols3_phase : forall sg, colsPhase sg (fun bi bo r => mfft1d X sg (ldim Y P r * cL c) (ldim Y P r * cL c) 1 bi bo).
Proof.
  intros sg. split.
  { intros bi bo r k H. rewrite y_idle by auto. reflexivity. }
  intros r s bi bo G Hr Q Z1 Z2 HG. pose proof (y_cap r) as B. rewrite <- S_cL.
  assert (E : X * (ldim Y P r * Z_) = X * count Y P r * Z_) by (rewrite Nat.mul_assoc; reflexivity).
  destruct (cols_run X sg (ldim Y P r * Z_) bi bo s Q) as (m' & R & W & F); [lia|lia|].
  exists m'. split; [exact R|]. split; [|auto].
  intros i j t Hi Hj Ht. change (count Y P r) with (ldim Y P r) in *. pose proof (fit j t (ldim Y P r) Z_ Hj Ht) as Hh.
  replace ((i * ldim Y P r + j) * Z_ + t) with (i * (ldim Y P r * Z_) + (j * Z_ + t)) by ring.
  rewrite W by auto. unfold xs. apply dft_ext'. intros a Ha.
  replace (a * (ldim Y P r * Z_) + (j * Z_ + t)) with ((a * ldim Y P r + j) * Z_ + t) by ring. apply HG; auto.
Qed.

(** 2D *)
Hypothesis HL : cL c = 1.
Lemma S_1 : Z_ = 1. Proof. rewrite S_cL. exact HL. Qed.
Lemma dft_1 : forall sg f, dft 1 sg f 0 = f 0.
Proof. intros. unfold dft. cbn [Csum]. rewrite zeta_1, Cmul_1_r, Cadd_0_l. reflexivity. Qed.
Lemma rows2_phase : forall sg, rowsPhase sg (fun bi bo r => mfft1d Y sg (ldim X P r) 1 Y bi bo).
Proof.
  intros sg. split.
  { intros bi bo r k H. rewrite x_idle by auto. reflexivity. }
  intros r s bi bo G Hr Q Z1 Z2 HG. pose proof (x_cap r) as B. unfold yz in *. rewrite S_1 in *. rewrite Nat.mul_1_r in B.
  change (count X P r) with (ldim X P r) in *.
  destruct (rows_run Y sg (ldim X P r) bi bo s Q) as (m' & R & W & F); [lia|lia|].
  exists m'. split; [exact R|]. split; [|exact F].
  intros i j t Hi Hj Ht. assert (t = 0) by lia. subst t. rewrite Nat.mul_1_r, Nat.add_0_r. rewrite W by auto.
  apply dft_ext'. intros a Ha. rewrite dft_1. specialize (HG i a 0 Hi Ha ltac:(lia)). rewrite Nat.mul_1_r, Nat.add_0_r in HG. exact HG.
Qed.
Lemma cols2_phase : forall sg, colsPhase sg (fun bi bo r => xfft c r sg bi bo).
Proof.
  intros sg. split.
  { intros bi bo r k H. unfold xfft, strided. rewrite y_idle by auto. cbn [Nat.land Nat.eqb negb]. unfold seqc, transpose1.
    rewrite orb_true_r. reflexivity. }
  intros r s bi bo G Hr Q Z1 Z2 HG. pose proof (y_cap r) as B. rewrite S_1 in *. rewrite Nat.mul_1_r in B.
  unfold xfft. change (count Y P r) with (ldim Y P r) in *. set (y := ldim Y P r) in *.
  assert (HG' : forall i j, i < X -> j < y -> mem C s bi (i * y + j) = G i (first Y P r + j) 0).
  { intros i j Hi Hj. specialize (HG i j 0 Hi Hj ltac:(lia)). rewrite Nat.mul_1_r, Nat.add_0_r in HG. exact HG. }
  destruct (strided c r).
  - destruct (cols_run X sg y bi bo s Q) as (m' & R & W & F); [lia|lia|].
    exists m'. split; [exact R|]. split; [|auto].
    intros i j t Hi Hj Ht. assert (t = 0) by lia. subst t. rewrite Nat.mul_1_r, Nat.add_0_r. change (count Y P r) with y in *.
    rewrite W by auto. unfold xs. apply dft_ext'. intros a Ha. apply HG'; auto.
  - destruct (transpose_run X y bi s Q) as (m1 & R1 & W1 & F1); [lia|].
    destruct (rows_run X sg y bi bo (setmem C s m1) Q) as (m2 & R2 & W2 & F2); [cbn; lia|cbn; lia|].
    rewrite setmem_setmem' in R2. cbn [mem setmem] in W2, F2.
    destruct (transpose_run y X bo (setmem C s m2) Q) as (m3 & R3 & W3 & F3); [cbn; lia|].
    rewrite setmem_setmem' in R3. cbn [mem setmem] in W3, F3.
    exists m3. split; [|split].
    + apply (runs_seq C (transpose1 X y bi) _ s (setmem C s m1)); auto.
      apply (runs_seq C (mfft1d X sg y 1 X bi bo) _ (setmem C s m1) (setmem C s m2)); auto.
    + intros i j t Hi Hj Ht. assert (t = 0) by lia. subst t. rewrite Nat.mul_1_r, Nat.add_0_r. change (count Y P r) with y in *.
      rewrite W3 by auto. rewrite W2 by auto. unfold xs. apply dft_ext'. intros a Ha. rewrite W1 by auto. apply HG'; auto.
    + intros b o N1 N2. rewrite F3, F2, F1 by auto. reflexivity.
Qed.
End Phases.
