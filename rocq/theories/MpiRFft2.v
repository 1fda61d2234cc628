(** The local phases of rcfft2dMPI on distributed arrays. *)
From Coq Require Import Reals ZArith List Arith Bool Lia FunctionalExtensionality.
From Verif Require Import CNum Sums Roots PadModel HerModel MpiMachine MpiRun MpiTrModel MpiTrGeom MpiTrPhase MpiTrXch MpiTrSpec MpiTrTop MpiColl MpiFftModel MpiFft1 MpiRFftModel MpiRFftSpec MpiRFft1.
Import ListNotations.
Local Open Scope nat_scope.

Definition dm (H : nat -> nat -> C) : nat -> nat -> nat -> R := fun i j t => if t =? 0 then re (H i j) else im (H i j).
Lemma wc_2 : forall z j t, t < 2 -> wc z (2 * j + t) = if t =? 0 then re (z j) else im (z j).
Proof.
  intros z j t Ht. unfold wc. rewrite (Nat.mul_comm 2 j), (Nat.add_comm (j * 2)), Nat.mod_add, Nat.div_add by lia.
  rewrite Nat.mod_small, Nat.div_small by lia. reflexivity.
Qed.
Lemma split_word : forall k, exists j t, k = 2 * j + t /\ t < 2.
Proof. intros k. exists (k / 2), (k mod 2). split; [apply Nat.div_mod; lia|apply Nat.mod_upper_bound; lia]. Qed.

Section Phases.
Variable c : cfg.
Context {Hc : good c}.
Hypothesis Hz : csz c = 2. Hypothesis HL : cL c = 1.
Variable Yr : nat.
Hypothesis HY : cM c = Yr / 2 + 1.
Hypothesis HYr : 0 < Yr.
Variable inplace : bool.
Notation X := (cN c). Notation e := (cM c). Notation P := (cP c). Notation Z_ := (S_ c).
Notation locR := (loc R).

Inductive ik := IN | IR (G : nat -> nat -> R) | IRow (H : nat -> nat -> C) | ICol (H : nat -> nat -> C).
Definition toK (k : ik) : know R :=
  match k with IRow H => Some (true, dm H) | ICol H => Some (false, dm H) | _ => None end.
Definition iheld (k : ik) (r : nat) (m : nat -> R) : Prop :=
  match k with IR G => rrows X Yr P (rdist c Yr inplace) G r m | _ => agrees R X e Z_ P (toK k) r m end.

Lemma Z2 : Z_ = 2. Proof. unfold S_. rewrite Hz, HL. reflexivity. Qed.
Lemma rdist_le : rdist c Yr inplace <= 2 * e /\ Yr <= rdist c Yr inplace.
Proof.
  unfold rdist. rewrite HY. pose proof (Nat.div_mod Yr 2 ltac:(lia)). pose proof (Nat.mod_upper_bound Yr 2 ltac:(lia)).
  destruct inplace; lia.
Qed.
Lemma capx : forall r, count X P r * (2 * e) <= cap c r.
Proof.
  intros r. unfold cap. change (count X P r) with (ldim X P r). rewrite <- (ni_ldim c), Z2.
  replace (ni c r * (2 * e)) with (ni c r * e * 2) by ring. apply Nat.mul_le_mono_r. apply Nat.le_max_l.
Qed.
Lemma capy : forall r, 2 * (X * count e P r) <= cap c r.
Proof.
  intros r. unfold cap. change (count e P r) with (ldim e P r). rewrite <- (mi_ldim c), Z2.
  rewrite Nat.mul_comm. apply Nat.mul_le_mono_r. apply Nat.le_max_r.
Qed.
Lemma rows_words : forall H r m, iheld (IRow H) r m <->
  forall i j t, i < count X P r -> j < e -> t < 2 -> m (i * (2 * e) + (2 * j + t)) = dm H (first X P r + i) j t.
Proof.
  intros H r m. cbn [iheld toK agrees]. unfold has_rows. rewrite Z2. split; intros A i j t Hi Hj Ht.
  - rewrite <- A by auto. f_equal. ring.
  - rewrite <- A by auto. f_equal. ring.
Qed.
Lemma cols_words : forall H r m, iheld (ICol H) r m <->
  forall i j t, i < X -> j < count e P r -> t < 2 -> m ((i * count e P r + j) * 2 + t) = dm H i (first e P r + j) t.
Proof. intros H r m. cbn [iheld toK agrees]. unfold has_cols. rewrite Z2. reflexivity. Qed.
Lemma row_split : forall d h j h' j', j < d -> j' < d -> h * d + j = h' * d + j' -> h = h' /\ j = j'.
Proof. intros. apply (split2 d); auto. Qed.
Lemma row_bound : forall r h j d, h < count X P r -> d <= 2 * e -> j < d -> h * d + j < cap c r.
Proof.
  intros r h j d Hh Hd Hj. pose proof (capx r) as K. pose proof (fit h j _ _ Hh Hj) as F.
  apply Nat.lt_le_trans with (count X P r * d); auto. apply Nat.le_trans with (count X P r * (2 * e)); auto. apply Nat.mul_le_mono_l; auto.
Qed.

Lemma yForward_phase : forall r (s : locR) bi bo G, quiet R s -> cap c r <= bsz R s bi -> cap c r <= bsz R s bo ->
  inplace = (bi =? bo) -> iheld (IR G) r (mem R s bi) ->
  exists m', runs R (yForward c Yr inplace r bi bo) s (setmem R s m') /\
    iheld (IRow (fun i => r2c Yr (G i))) r (m' bo) /\ (forall b o, b <> bo -> m' b o = mem R s b o).
Proof.
  intros r s bi bo G Q Bi Bo Ei HG. destruct rdist_le as [L1 L2]. change (ldim X P r) with (count X P r).
  destruct (plan_run R 0%R Yr (2 * e) (r2cw Yr) always None (count X P r)
    (fun h j => h * rdist c Yr inplace + j) (fun h t => h * (2 * e) + t) bi bo s Q) as (m' & Ru & W & F).
  - intros x x' E k Hk. unfold r2cw, wc, r2c. destruct (k mod 2 =? 0); [apply (f_equal re)|apply (f_equal im)]; apply dft_ext'; intros j Hj; rewrite E; auto.
  - auto.
  - intros h j Hh Hj. apply Nat.lt_le_trans with (cap c r); auto. apply row_bound; auto; lia.
  - intros h j Hh Hj. apply Nat.lt_le_trans with (cap c r); auto. apply row_bound; auto; lia.
  - intros h j h' j' Hh Hj Hh' Hj' E. apply row_split in E; auto; lia.
  - intros h j h' j' Hh Hj Hh' Hj' E. apply row_split in E; auto; lia.
  - intros Eb h j h' j' Hh Hj Hh' Hj' N E. destruct (Nat.eqb_spec bi bo); [|contradiction].
    unfold rdist in E, L2. rewrite Ei in E, L2. apply row_split in E; lia.
  - auto.
  - exists m'. split; [exact Ru|]. split.
    + apply rows_words. intros i j t Hi Hj Ht. rewrite W by lia. unfold r2cw. rewrite wc_2 by auto. unfold dm.
      replace (r2c Yr (fun j0 => mem R s bi (i * rdist c Yr inplace + j0)) j) with (r2c Yr (G (first X P r + i)) j); auto.
      unfold r2c. apply dft_ext'. intros a Ha. f_equal. symmetry. apply HG; auto.
    + intros b o N. apply F; auto.
Qed.

Lemma c2r_ext : forall n z z' k, (forall j, j < n / 2 + 1 -> z j = z' j) -> c2r n z k = c2r n z' k.
Proof.
  intros n z z' k E. unfold c2r. f_equal. apply dft_ext'. intros j Hj. unfold herm.
  destruct (Nat.ltb_spec j (n / 2 + 1)); [apply E; auto|]. f_equal. apply E.
  pose proof (Nat.div_mod n 2 ltac:(lia)). pose proof (Nat.mod_upper_bound n 2 ltac:(lia)). lia.
Qed.
Lemma yBackward_phase : forall junk r (s : locR) bi bo W, quiet R s -> cap c r <= bsz R s bi -> cap c r <= bsz R s bo ->
  inplace = (bi =? bo) -> iheld (IRow W) r (mem R s bi) ->
  (forall i ky, i < X -> ky = 0 \/ 2 * ky = Yr -> im (W i ky) = 0%R) ->
  exists m', runs R (yBackward c Yr inplace junk r bi bo) s (setmem R s m') /\
    iheld (IR (fun i => c2r Yr (W i))) r (m' bo) /\ (forall b o, b <> bo -> b <> bi -> m' b o = mem R s b o).
Proof.
  intros junk r s bi bo W Q Bi Bo Ei HW Re. destruct rdist_le as [L1 L2].
  pose proof (proj1 (rows_words W r (mem R s bi)) HW) as HW'. 
  assert (Ec : forall i j, i < count X P r -> j < e -> cw (fun t => mem R s bi (i * (2 * e) + t)) j = W (first X P r + i) j).
  { intros i j Hi Hj. unfold cw. pose proof (HW' i j 0 Hi Hj ltac:(lia)) as A. pose proof (HW' i j 1 Hi Hj ltac:(lia)) as B.
    rewrite Nat.add_0_r in A. rewrite A, B. unfold dm. cbn [Nat.eqb]. destruct (W (first X P r + i) j); reflexivity. }
  destruct (plan_run R 0%R (2 * e) Yr (c2rw Yr) (c2rok Yr) (Some junk) (count X P r)
    (fun h t => h * (2 * e) + t) (fun h j => h * rdist c Yr inplace + j) bi bo s Q) as (m' & Ru & V & F).
  - intros x x' E k Hk. unfold c2rw. apply c2r_ext. intros j Hj. unfold cw. rewrite HY in E. rewrite !E by lia. reflexivity.
  - intros x x' E. rewrite HY in E. unfold c2rok. rewrite (E 1) by lia. destruct (Nat.eqb_spec (Yr mod 2) 0) as [Ev|]; auto.
    rewrite (E (Yr + 1)); auto. pose proof (Nat.div_mod Yr 2 ltac:(lia)). lia.
  - intros h j Hh Hj. apply Nat.lt_le_trans with (cap c r); auto. apply row_bound; auto; lia.
  - intros h j Hh Hj. apply Nat.lt_le_trans with (cap c r); auto. apply row_bound; auto; lia.
  - intros h j h' j' Hh Hj Hh' Hj' E. apply row_split in E; auto; lia.
  - intros h j h' j' Hh Hj Hh' Hj' E. apply row_split in E; auto; lia.
  - intros Eb h j h' j' Hh Hj Hh' Hj' N E. destruct (Nat.eqb_spec bi bo); [|contradiction].
    unfold rdist in E, L2. rewrite Ei in E, L2. apply row_split in E; lia.
  - intros h Hh. assert (Fx : first X P r + h < X) by (unfold count in Hh; lia). unfold c2rok.
    pose proof (HW' h 0 1 Hh ltac:(lia) ltac:(lia)) as A. rewrite Nat.mul_0_r, Nat.add_0_l in A. rewrite A. unfold dm. cbn [Nat.eqb].
    rewrite Re by auto. destruct (Req_EM_T 0 0); [|contradiction]. destruct (Nat.eqb_spec (Yr mod 2) 0) as [Ev|]; auto.
    pose proof (Nat.div_mod Yr 2 ltac:(lia)) as Dv. rewrite Ev, Nat.add_0_r in Dv.
    pose proof (HW' h (Yr / 2) 1 Hh ltac:(lia) ltac:(lia)) as A2. rewrite <- Dv in A2. rewrite A2. unfold dm. cbn [Nat.eqb].
    rewrite Re by (auto; right; lia). destruct (Req_EM_T 0 0); [auto|contradiction].
  - exists m'. split; [exact Ru|]. split.
    + intros i j Hi Hj. rewrite V by auto. unfold c2rw. apply c2r_ext. intros k Hk. apply Ec; auto. lia.
    + intros b o N N'. apply F; auto.
Qed.

Lemma xfft_phase : forall sg r (s : locR) b H, quiet R s -> cap c r <= bsz R s b -> iheld (ICol H) r (mem R s b) ->
  exists m', runs R (xfftR c r sg b) s (setmem R s m') /\
    iheld (ICol (fun kx ky => dft X sg (fun i => H i ky) kx)) r (m' b) /\ (forall b' o, b' <> b -> m' b' o = mem R s b' o).
Proof.
  intros sg r s b H Q B HH. pose proof (proj1 (cols_words H r (mem R s b)) HH) as HH'. pose proof (capy r) as K.
  change (ldim e P r) with (count e P r) in *. set (y := count e P r) in *.
  assert (Ia : inj2 (fun h t => (t / 2 * y + h) * 2 + t mod 2) y (2 * X)).
  { intros h t h' t' Hh Ht Hh' Ht' E. apply (split2 2) in E; try (apply Nat.mod_upper_bound; lia). destruct E as [E E2].
    apply (split2 y) in E; auto. split; [lia|]. rewrite (Nat.div_mod t 2), (Nat.div_mod t' 2) by lia. lia. }
  assert (Bd : forall h t, h < y -> t < 2 * X -> (t / 2 * y + h) * 2 + t mod 2 < bsz R s b).
  { intros h t Hh Ht. assert (t / 2 < X) by (apply Nat.div_lt_upper_bound; lia). pose proof (fit _ _ _ _ H0 Hh).
    pose proof (Nat.mod_upper_bound t 2 ltac:(lia)). lia. }
  destruct (plan_run R 0%R (2 * X) (2 * X) (dftw X sg) always None y (fun h t => (t / 2 * y + h) * 2 + t mod 2) (fun h t => (t / 2 * y + h) * 2 + t mod 2) b b s Q) as (m' & Ru & V & F); auto.
  - intros x x' E k Hk. unfold dftw, wc.
    assert (D : dft X sg (cw x) (k / 2) = dft X sg (cw x') (k / 2)). { apply dft_ext'. intros j Hj. unfold cw. rewrite !E by lia. reflexivity. }
    rewrite D. reflexivity.
  - intros _ h t h' t' Hh Ht Hh' Ht' N E. apply Ia in E; auto. lia.
  - exists m'. split; [exact Ru|]. split.
    + apply cols_words. fold y. intros i j t Hi Hj Ht.
      specialize (V j (2 * i + t) Hj ltac:(lia)).
      assert (D2 : (2 * i + t) / 2 = i). { rewrite Nat.mul_comm, Nat.div_add_l, Nat.div_small; lia. }
      assert (M2 : (2 * i + t) mod 2 = t). { rewrite Nat.mul_comm, Nat.add_comm, Nat.mod_add, Nat.mod_small; lia. }
      rewrite D2, M2 in V. rewrite V. unfold dftw. rewrite wc_2 by auto. unfold dm.
      replace (dft X sg (cw (fun j0 => mem R s b ((j0 / 2 * y + j) * 2 + j0 mod 2))) i) with (dft X sg (fun i0 => H i0 (first e P r + j)) i); auto.
      apply dft_ext'. intros a Ha. unfold cw.
      replace (2 * a / 2) with a by (rewrite Nat.mul_comm, Nat.div_mul; lia).
      replace (2 * a mod 2) with 0 by (rewrite Nat.mul_comm, Nat.mod_mul; lia).
      replace ((2 * a + 1) / 2) with a by (rewrite Nat.mul_comm, Nat.div_add_l, Nat.div_small; lia).
      replace ((2 * a + 1) mod 2) with 1 by (rewrite Nat.mul_comm, Nat.add_comm, Nat.mod_add, Nat.mod_small; lia).
      rewrite !HH' by (auto; lia). unfold dm. cbn [Nat.eqb]. destruct (H a (first e P r + j)); reflexivity.
    + intros b' o N. apply F; auto.
Qed.

Definition altsign (i : nat) (v : R) : R := if Nat.even i then v else Ropp v.
Lemma shift_phase : forall r (s : locR) b G, Nat.even X = true -> quiet R s -> cap c r <= bsz R s b -> iheld (IR G) r (mem R s b) ->
  exists m', runs R (ShiftR c Yr inplace r b) s (setmem R s m') /\
    iheld (IR (fun i j => altsign i (G i j))) r (m' b) /\ (forall b' o, b' <> b -> m' b' o = mem R s b' o).
Proof.
  intros r s b G Ev Q B HG. destruct rdist_le as [L1 L2].
  unfold ShiftR. replace (X mod 2 =? 0) with true.
  2:{ symmetry. apply Nat.eqb_eq. apply Nat.even_spec in Ev. destruct Ev as [q ->]. rewrite Nat.mul_comm. apply Nat.mod_mul. lia. }
  assert (Es : shiftStart c r = if Nat.even (first X P r) then 1 else 0).
  { unfold shiftStart. change (lbeg X P r) with (first X P r). destruct (Nat.even (first X P r)) eqn:E0.
    - apply Nat.even_spec in E0. destruct E0 as [q ->]. rewrite Nat.mul_comm, Nat.add_comm, Nat.mod_add by lia. reflexivity.
    - assert (O : Nat.odd (first X P r) = true) by (unfold Nat.odd; rewrite E0; auto). apply Nat.odd_spec in O. destruct O as [q ->].
      replace (2 * q + 1 + 1) with ((q + 1) * 2) by lia. apply Nat.mod_mul. lia. }
  change (ldim X P r) with (count X P r). set (st := shiftStart c r) in *. set (d := rdist c Yr inplace) in *.
  set (M := (count X P r - st + 1) / 2).
  assert (HM : forall h, h < M <-> st + 2 * h < count X P r).
  { intros h. unfold M. pose proof (Nat.div_mod (count X P r - st + 1) 2 ltac:(lia)). pose proof (Nat.mod_upper_bound (count X P r - st + 1) 2 ltac:(lia)). lia. }
  assert (Ia : inj2 (fun h j => (st + 2 * h) * d + j) M Yr).
  { intros h j h' j' Hh Hj Hh' Hj' E. apply (split2 d) in E; lia. }
  assert (Bd : forall h j, h < M -> j < Yr -> (st + 2 * h) * d + j < bsz R s b).
  { intros h j Hh Hj. apply Nat.lt_le_trans with (cap c r); auto. apply row_bound; [apply HM; auto|lia|lia]. }
  destruct (plan_run R 0%R Yr Yr (fun x j => Ropp (x j)) always None M (fun h j => (st + 2 * h) * d + j) (fun h j => (st + 2 * h) * d + j) b b s Q) as (m' & Ru & V & F); auto.
  - intros x x' E k Hk. rewrite E; auto.
  - intros _ h t h' t' Hh Ht Hh' Ht' N E. apply Ia in E; auto. lia.
  - exists m'. split; [exact Ru|]. split.
    + intros i j Hi Hj. unfold altsign. fold d. rewrite Nat.even_add. destruct (Nat.even i) eqn:E1.
      * apply Nat.even_spec in E1. destruct E1 as [q ->]. destruct (Nat.even (first X P r)) eqn:E0; rewrite Es in *.
        -- cbn [Bool.eqb]. rewrite F; auto. right. intros h k Hh Hk E. apply (split2 d) in E; lia.
        -- cbn [Bool.eqb]. pose proof (V q j ltac:(apply HM; lia) Hj) as Vq. rewrite Nat.add_0_l in Vq. rewrite Vq. f_equal. apply HG; auto.
      * assert (O : Nat.odd i = true) by (unfold Nat.odd; rewrite E1; auto). apply Nat.odd_spec in O. destruct O as [q ->].
        destruct (Nat.even (first X P r)) eqn:E0; rewrite Es in *.
        -- cbn [Bool.eqb]. pose proof (V q j ltac:(apply HM; lia) Hj) as Vq. rewrite (Nat.add_comm 1) in Vq. rewrite Vq. f_equal. apply HG; auto.
        -- cbn [Bool.eqb]. rewrite F; auto. right. intros h k Hh Hk E. apply (split2 d) in E; lia.
    + intros b' o N. apply F; auto.
Qed.

Lemma normalize_phase : forall r (s : locR) b G, quiet R s -> cap c r <= bsz R s b -> iheld (IR G) r (mem R s b) ->
  exists m', runs R (normalizeR c Yr inplace r b) s (setmem R s m') /\
    iheld (IR (fun i j => (/ INR (X * Yr) * G i j)%R)) r (m' b) /\ (forall b' o, b' <> b -> m' b' o = mem R s b' o).
Proof.
  intros r s b G Q B HG. destruct rdist_le as [L1 L2]. change (ldim X P r) with (count X P r). set (d := rdist c Yr inplace) in *.
  assert (Bx : count X P r * d <= cap c r).
  { apply Nat.le_trans with (count X P r * (2 * e)); [apply Nat.mul_le_mono_l; auto|apply capx]. }
  destruct (plan_run R 0%R 1 1 (fun x _ => (/ INR (X * Yr) * x 0%nat)%R) always None (count X P r * d) (fun h _ => h) (fun h _ => h) b b s Q) as (m' & Ru & V & F); auto.
  - intros x x' E k Hk. rewrite E; auto.
  - intros; lia.
  - intros; lia.
  - intros h t h' t' Hh Ht Hh' Ht' E. lia.
  - intros h t h' t' Hh Ht Hh' Ht' E. lia.
  - exists m'. split; [exact Ru|]. split.
    + intros i j Hi Hj. fold d. pose proof (fit i j (count X P r) d Hi ltac:(lia)). rewrite (V (i * d + j) 0) by lia. f_equal. apply HG; auto.
    + intros b' o N. apply F; auto.
Qed.
End Phases.
