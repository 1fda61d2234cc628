(** The local phases of rcfft3dMPI on distributed arrays. *)
From Coq Require Import Reals ZArith List Arith Bool Lia FunctionalExtensionality.
From Verif Require Import CNum Sums Roots PadModel HerModel MpiMachine MpiRun MpiTrModel MpiTrGeom MpiTrPhase MpiTrXch MpiTrSpec MpiTrTop MpiColl MpiFftModel MpiFft1 MpiRFftModel MpiRFftSpec MpiRFft1 MpiRFft2 MpiR3Model MpiR3Spec.
Import ListNotations.
Local Open Scope nat_scope.

Definition dm3 (H : nat -> nat -> nat -> C) : nat -> nat -> nat -> R := fun i j t => wc (H i j) t.
Lemma half2 : forall k t, t < 2 -> (2 * k + t) / 2 = k /\ (2 * k + t) mod 2 = t.
Proof.
  intros k t Ht. rewrite (Nat.mul_comm 2). split.
  - rewrite Nat.div_add_l, Nat.div_small; lia.
  - rewrite Nat.add_comm, Nat.mod_add, Nat.mod_small; lia.
Qed.
Lemma dm3_2 : forall H i j k t, t < 2 -> dm3 H i j (2 * k + t) = if t =? 0 then re (H i j k) else im (H i j k).
Proof. intros. unfold dm3. apply wc_2; auto. Qed.
Lemma even_mod' : forall n, (n mod 2 =? 0) = Nat.even n.
Proof.
  intros n. destruct (Nat.even n) eqn:E.
  - apply Nat.even_spec in E. destruct E as [q ->]. rewrite Nat.mul_comm, Nat.mod_mul by lia. reflexivity.
  - assert (O : Nat.odd n = true) by (unfold Nat.odd; rewrite E; auto). apply Nat.odd_spec in O. destruct O as [q ->].
    rewrite Nat.mul_comm, Nat.add_comm, Nat.mod_add by lia. reflexivity.
Qed.
Lemma dm_split : forall h d, 0 < d -> h = h / d * d + h mod d /\ h mod d < d.
Proof. intros h d Hd. split; [rewrite Nat.mul_comm; apply Nat.div_mod; lia|apply Nat.mod_upper_bound; lia]. Qed.
Lemma div_lt : forall h a d, 0 < d -> h < a * d -> h / d < a.
Proof. intros. apply Nat.div_lt_upper_bound; lia. Qed.
Lemma div_is : forall a d b, b < d -> (a * d + b) / d = a /\ (a * d + b) mod d = b.
Proof.
  intros. split; [rewrite Nat.div_add_l, Nat.div_small; lia|]. rewrite Nat.add_comm, Nat.mod_add, Nat.mod_small; lia.
Qed.

Lemma c2r_ext' : forall n z z' k, (forall j, j < n / 2 + 1 -> z j = z' j) -> c2r n z k = c2r n z' k.
Proof.
  intros n z z' k E. unfold c2r. f_equal. apply dft_ext'. intros j Hj. unfold herm.
  destruct (Nat.ltb_spec j (n / 2 + 1)); [apply E; auto|]. f_equal. apply E.
  pose proof (Nat.div_mod n 2 ltac:(lia)). pose proof (Nat.mod_upper_bound n 2 ltac:(lia)). lia.
Qed.

Section Phases.
Variable c : cfg.
Context {Hc : good c}.
Hypothesis Hz : csz c = 2.
Variable Zr : nat.
Hypothesis HZ : cL c = Zr / 2 + 1.
Hypothesis HZr : 0 < Zr.
Variable inplace : bool.
Notation X := (cN c). Notation Y := (cM c). Notation Zc := (cL c). Notation P := (cP c). Notation Z_ := (S_ c).
Notation locR := (loc R).
Notation rd := (rdist3 c Zr inplace).

Inductive ik3 := IN3 | IR3 (G : nat -> nat -> nat -> R) | IRow3 (H : nat -> nat -> nat -> C) | ICol3 (H : nat -> nat -> nat -> C).
Definition toK3 (k : ik3) : know R :=
  match k with IRow3 H => Some (true, dm3 H) | ICol3 H => Some (false, dm3 H) | _ => None end.
Definition iheld3 (k : ik3) (r : nat) (m : nat -> R) : Prop :=
  match k with IR3 G => rslab X Y Zr P rd G r m | _ => agrees R X Y Z_ P (toK3 k) r m end.

Lemma Z2c : Z_ = 2 * Zc. Proof. unfold S_. rewrite Hz. lia. Qed.
Lemma Zc_pos : 0 < Zc. Proof. rewrite HZ. lia. Qed.
Lemma Xpos3 : 0 < X. Proof. exact gN. Qed.
Lemma Ypos3 : 0 < Y. Proof. exact gM. Qed.
Lemma rd_le : rd <= 2 * Zc /\ Zr <= rd.
Proof.
  unfold rdist3. rewrite HZ. pose proof (Nat.div_mod Zr 2 ltac:(lia)). pose proof (Nat.mod_upper_bound Zr 2 ltac:(lia)).
  destruct inplace; lia.
Qed.
Lemma cap_x : forall r, count X P r * Y * (2 * Zc) <= cap c r.
Proof.
  intros r. unfold cap. change (count X P r) with (ldim X P r). rewrite <- (ni_ldim c), Z2c.
  apply Nat.mul_le_mono_r. apply Nat.le_max_l.
Qed.
Lemma cap_y : forall r, X * count Y P r * (2 * Zc) <= cap c r.
Proof.
  intros r. unfold cap. change (count Y P r) with (ldim Y P r). rewrite <- (mi_ldim c), Z2c.
  apply Nat.mul_le_mono_r. apply Nat.le_max_r.
Qed.
Lemma rows3_words : forall H r m, iheld3 (IRow3 H) r m <->
  forall i j t, i < count X P r -> j < Y -> t < 2 * Zc -> m ((i * Y + j) * (2 * Zc) + t) = dm3 H (first X P r + i) j t.
Proof. intros H r m. cbn [iheld3 toK3 agrees]. unfold has_rows. rewrite Z2c. reflexivity. Qed.
Lemma cols3_words : forall H r m, iheld3 (ICol3 H) r m <->
  forall i j t, i < X -> j < count Y P r -> t < 2 * Zc -> m ((i * count Y P r + j) * (2 * Zc) + t) = dm3 H i (first Y P r + j) t.
Proof. intros H r m. cbn [iheld3 toK3 agrees]. unfold has_cols. rewrite Z2c. reflexivity. Qed.
Lemma row_bound3 : forall r h j d, h < count X P r * Y -> d <= 2 * Zc -> j < d -> h * d + j < cap c r.
Proof.
  intros r h j d Hh Hd Hj. pose proof (cap_x r) as K. pose proof (fit h j _ _ Hh Hj) as F.
  apply Nat.lt_le_trans with (count X P r * Y * d); auto. apply Nat.le_trans with (count X P r * Y * (2 * Zc)); auto. apply Nat.mul_le_mono_l; auto.
Qed.

Lemma zForward_phase : forall r (s : locR) bi bo G, quiet R s -> cap c r <= bsz R s bi -> cap c r <= bsz R s bo ->
  inplace = (bi =? bo) -> iheld3 (IR3 G) r (mem R s bi) ->
  exists m', runs R (zForward c Zr inplace r bi bo) s (setmem R s m') /\
    iheld3 (IRow3 (fun i j => r2c Zr (G i j))) r (m' bo) /\ (forall b o, b <> bo -> m' b o = mem R s b o).
Proof.
  intros r s bi bo G Q Bi Bo Ei HG. destruct rd_le as [L1 L2]. change (ldim X P r) with (count X P r).
  destruct (plan_run R 0%R Zr (2 * Zc) (r2cw Zr) always None (count X P r * Y)
    (fun h j => h * rd + j) (fun h t => h * (2 * Zc) + t) bi bo s Q) as (m' & Ru & W & F).
  - intros x x' E k Hk. unfold r2cw, wc, r2c. destruct (k mod 2 =? 0); [apply (f_equal re)|apply (f_equal im)]; apply dft_ext'; intros j Hj; rewrite E; auto.
  - auto.
  - intros h j Hh Hj. apply Nat.lt_le_trans with (cap c r); auto. apply row_bound3; auto; lia.
  - intros h j Hh Hj. apply Nat.lt_le_trans with (cap c r); auto. apply row_bound3; auto; lia.
  - intros h j h' j' Hh Hj Hh' Hj' E. apply split2 in E; auto; lia.
  - intros h j h' j' Hh Hj Hh' Hj' E. apply split2 in E; auto; lia.
  - intros Eb h j h' j' Hh Hj Hh' Hj' N E. destruct (Nat.eqb_spec bi bo); [|contradiction].
    unfold rdist3 in E, L2. rewrite Ei in E, L2. apply split2 in E; lia.
  - auto.
  - exists m'. split; [exact Ru|]. split.
    + apply rows3_words. intros i j t Hi Hj Ht. rewrite W by (auto using fit). unfold r2cw, dm3, wc.
      replace (r2c Zr (fun j0 => mem R s bi ((i * Y + j) * rd + j0))) with (r2c Zr (G (first X P r + i) j)); auto.
      apply functional_extensionality. intros k. unfold r2c. apply dft_ext'. intros a Ha. f_equal. symmetry. apply HG; auto.
    + intros b o N. apply F; auto.
Qed.

Lemma zBackward_phase : forall junk r (s : locR) bi bo W, quiet R s -> cap c r <= bsz R s bi -> cap c r <= bsz R s bo ->
  inplace = (bi =? bo) -> iheld3 (IRow3 W) r (mem R s bi) ->
  (forall i j kz, i < X -> j < Y -> kz = 0 \/ 2 * kz = Zr -> im (W i j kz) = 0%R) ->
  exists m', runs R (zBackward c Zr inplace junk r bi bo) s (setmem R s m') /\
    iheld3 (IR3 (fun i j => c2r Zr (W i j))) r (m' bo) /\ (forall b o, b <> bo -> b <> bi -> m' b o = mem R s b o).
Proof.
  intros junk r s bi bo W Q Bi Bo Ei HW Re. destruct rd_le as [L1 L2]. pose proof Ypos3 as HY.
  pose proof (proj1 (rows3_words W r (mem R s bi)) HW) as HW'.
  assert (Ew : forall h k t, h < count X P r * Y -> k < Zc -> t < 2 ->
    mem R s bi (h * (2 * Zc) + (2 * k + t)) = if t =? 0 then re (W (first X P r + h / Y) (h mod Y) k) else im (W (first X P r + h / Y) (h mod Y) k)).
  { intros h k t Hh Hk Ht. destruct (dm_split h Y HY) as [E1 E2]. rewrite E1 at 1. rewrite HW' by (try lia; apply div_lt; auto).
    apply dm3_2; auto. }
  assert (Ec : forall h k, h < count X P r * Y -> k < Zc -> cw (fun t => mem R s bi (h * (2 * Zc) + t)) k = W (first X P r + h / Y) (h mod Y) k).
  { intros h k Hh Hk. unfold cw. pose proof (Ew h k 0 Hh Hk ltac:(lia)) as A. pose proof (Ew h k 1 Hh Hk ltac:(lia)) as B.
    rewrite Nat.add_0_r in A. rewrite A, B. cbn [Nat.eqb]. destruct (W (first X P r + h / Y) (h mod Y) k); reflexivity. }
  destruct (plan_run R 0%R (2 * Zc) Zr (c2rw Zr) (c2rok Zr) (Some junk) (count X P r * Y)
    (fun h t => h * (2 * Zc) + t) (fun h j => h * rd + j) bi bo s Q) as (m' & Ru & V & F).
  - intros x x' E k Hk. unfold c2rw. apply c2r_ext'. intros j Hj. unfold cw. rewrite HZ in E. rewrite !E by lia. reflexivity.
  - intros x x' E. rewrite HZ in E. unfold c2rok. rewrite (E 1) by lia. destruct (Nat.eqb_spec (Zr mod 2) 0) as [Ev|]; auto.
    rewrite (E (Zr + 1)); auto. pose proof (Nat.div_mod Zr 2 ltac:(lia)). lia.
  - intros h j Hh Hj. apply Nat.lt_le_trans with (cap c r); auto. apply row_bound3; auto; lia.
  - intros h j Hh Hj. apply Nat.lt_le_trans with (cap c r); auto. apply row_bound3; auto; lia.
  - intros h j h' j' Hh Hj Hh' Hj' E. apply split2 in E; auto; lia.
  - intros h j h' j' Hh Hj Hh' Hj' E. apply split2 in E; auto; lia.
  - intros Eb h j h' j' Hh Hj Hh' Hj' N E. destruct (Nat.eqb_spec bi bo); [|contradiction].
    unfold rdist3 in E, L2. rewrite Ei in E, L2. apply split2 in E; lia.
  - intros h Hh. assert (Hi : h / Y < count X P r) by (apply div_lt; auto). destruct (dm_split h Y HY) as [_ E2].
    assert (Fx : first X P r + h / Y < X) by (unfold count in Hi; lia). unfold c2rok. pose proof Zc_pos.
    pose proof (Ew h 0 1 Hh ltac:(lia) ltac:(lia)) as A. rewrite Nat.mul_0_r, Nat.add_0_l in A. rewrite A. cbn [Nat.eqb].
    rewrite Re by auto. destruct (Req_EM_T 0 0); [|contradiction]. destruct (Nat.eqb_spec (Zr mod 2) 0) as [Ev|]; auto.
    pose proof (Nat.div_mod Zr 2 ltac:(lia)) as Dv. rewrite Ev, Nat.add_0_r in Dv.
    pose proof (Ew h (Zr / 2) 1 Hh ltac:(lia) ltac:(lia)) as A2. rewrite <- Dv in A2. rewrite A2. cbn [Nat.eqb].
    rewrite Re by (auto; right; lia). destruct (Req_EM_T 0 0); [auto|contradiction].
  - exists m'. split; [exact Ru|]. split.
    + intros i j l Hi Hj Hl. rewrite V by (auto using fit). unfold c2rw. apply c2r_ext'. intros k Hk.
      rewrite Ec by (try lia; auto using fit). destruct (div_is i Y j Hj) as [-> ->]. reflexivity.
    + intros b o N N'. apply F; auto.
Qed.

(** a transform in place of n Complex numbers whose words are at adr h *)
Lemma dftw_phase : forall n sg M adr b (s : locR), quiet R s -> inj2 adr M (2 * n) ->
  (forall h t, h < M -> t < 2 * n -> adr h t < bsz R s b) ->
  forall z, (forall h a, h < M -> a < n -> mem R s b (adr h (2 * a)) = re (z h a) /\ mem R s b (adr h (2 * a + 1)) = im (z h a)) ->
  exists m', runs R (rplanw (2 * n) (2 * n) (dftw n sg) always None M adr adr b b) s (setmem R s m') /\
    (forall h k t, h < M -> k < n -> t < 2 -> m' b (adr h (2 * k + t)) = if t =? 0 then re (dft n sg (z h) k) else im (dft n sg (z h) k)) /\
    (forall b' o, b' <> b -> m' b' o = mem R s b' o).
Proof.
  intros n sg M adr b s Q Ia Bd z Hzz.
  destruct (plan_run R 0%R (2 * n) (2 * n) (dftw n sg) always None M adr adr b b s Q) as (m' & Ru & V & F); auto.
  - intros x x' E k Hk. unfold dftw, wc.
    assert (D : dft n sg (cw x) (k / 2) = dft n sg (cw x') (k / 2)). { apply dft_ext'. intros j Hj. unfold cw. rewrite !E by lia. reflexivity. }
    rewrite D. reflexivity.
  - intros _ h t h' t' Hh Ht Hh' Ht' N E. apply Ia in E; auto. lia.
  - exists m'. split; [exact Ru|]. split; [|intros b' o N; apply F; auto].
    intros h k t Hh Hk Ht. rewrite V by (auto; lia). unfold dftw. rewrite wc_2 by auto.
    replace (dft n sg (cw (fun j0 => mem R s b (adr h j0))) k) with (dft n sg (z h) k); auto.
    apply dft_ext'. intros a Ha. unfold cw. destruct (Hzz h a Hh Ha) as [-> ->]. destruct (z h a); reflexivity.
Qed.

Lemma yfft3_phase : forall sg r (s : locR) b H, quiet R s -> cap c r <= bsz R s b -> iheld3 (IRow3 H) r (mem R s b) ->
  exists m', runs R (yfft3 c r sg b) s (setmem R s m') /\
    iheld3 (IRow3 (fun i ky k => dft Y sg (fun j => H i j k) ky)) r (m' b) /\ (forall b' o, b' <> b -> m' b' o = mem R s b' o).
Proof.
  intros sg r s b H Q B HH. pose proof (proj1 (rows3_words H r (mem R s b)) HH) as HH'. pose proof Zc_pos as HZp. pose proof Ypos3 as HY.
  change (ldim X P r) with (count X P r).
  assert (Ad : forall h a t, t < 2 -> yadr c h (2 * a + t) = (h / Zc * Y + a) * (2 * Zc) + (2 * (h mod Zc) + t)).
  { intros h a t Ht. unfold yadr. destruct (half2 a t Ht) as [-> ->]. ring. }
  assert (Ix : forall h, h < count X P r * Zc -> h / Zc < count X P r /\ h mod Zc < Zc /\ h = h / Zc * Zc + h mod Zc).
  { intros h Hh. destruct (dm_split h Zc HZp). split; [apply div_lt; auto|auto]. }
  assert (Sp : forall t n, t < 2 * n -> exists a u, t = 2 * a + u /\ u < 2 /\ a < n).
  { intros t n Ht. destruct (split_word t) as (a & u & E & Hu). exists a, u. repeat split; auto. lia. }
  destruct (dftw_phase Y sg (count X P r * Zc) (yadr c) b s Q) with (z := fun h a => H (first X P r + h / Zc) a (h mod Zc)) as (m' & Ru & V & F).
  - intros h t h' t' Hh Ht Hh' Ht' E. destruct (Ix h Hh) as (A1 & A2 & A3). destruct (Ix h' Hh') as (B1 & B2 & B3).
    destruct (Sp t Y Ht) as (a & u & -> & Hu & Ha). destruct (Sp t' Y Ht') as (a' & u' & -> & Hu' & Ha'). rewrite !Ad in E by auto.
    apply split2 in E; [|lia|lia]. destruct E as [E E']. apply split2 in E; [|auto|auto].
    rewrite (Nat.mul_comm 2 (h mod Zc)), (Nat.mul_comm 2 (h' mod Zc)) in E'. apply split2 in E'; [|auto|auto].
    destruct E as [E ->], E' as [E' ->]. split; [|reflexivity]. rewrite A3, B3, E, E'. reflexivity.
  - intros h t Hh Ht. destruct (Ix h Hh) as (A1 & A2 & A3). destruct (Sp t Y Ht) as (a & u & -> & Hu & Ha). rewrite Ad by auto.
    apply Nat.lt_le_trans with (cap c r); auto. apply row_bound3; auto using fit. lia.
  - intros h a Hh Ha. destruct (Ix h Hh) as (A1 & A2 & A3). pose proof (Ad h a 0 ltac:(lia)) as E0. rewrite Nat.add_0_r in E0. rewrite E0, Ad by lia.
    rewrite !HH' by (auto; lia). rewrite !dm3_2 by lia. split; reflexivity.
  - exists m'. split; [exact Ru|]. split; [|exact F].
    apply rows3_words. intros i j t Hi Hj Ht. destruct (Sp t Zc Ht) as (k & u & -> & Hu & Hk).
    destruct (div_is i Zc k Hk) as [D1 D2]. pose proof (V (i * Zc + k) j u ltac:(auto using fit) Hj Hu) as V1.
    rewrite Ad, D1, D2 in V1 by auto. rewrite V1. rewrite dm3_2 by auto. reflexivity.
Qed.

Lemma xfft3_phase : forall sg r (s : locR) b H, quiet R s -> cap c r <= bsz R s b -> iheld3 (ICol3 H) r (mem R s b) ->
  exists m', runs R (xfft3 c r sg b) s (setmem R s m') /\
    iheld3 (ICol3 (fun kx j k => dft X sg (fun i => H i j k) kx)) r (m' b) /\ (forall b' o, b' <> b -> m' b' o = mem R s b' o).
Proof.
  intros sg r s b H Q B HH. pose proof (proj1 (cols3_words H r (mem R s b)) HH) as HH'. pose proof Zc_pos as HZp.
  unfold xfft3, xadr. change (ldim Y P r) with (count Y P r). pose proof (cap_y r) as K. set (y := count Y P r) in *.
  set (adr := fun h t => (t / 2 * (y * Zc) + h) * 2 + t mod 2).
  assert (Ad : forall h a t, t < 2 -> adr h (2 * a + t) = (a * (y * Zc) + h) * 2 + t).
  { intros h a t Ht. unfold adr. destruct (half2 a t Ht) as [-> ->]. reflexivity. }
  assert (Ad2 : forall h a t, h < y * Zc -> t < 2 -> adr h (2 * a + t) = (a * y + h / Zc) * (2 * Zc) + (2 * (h mod Zc) + t)).
  { intros h a t Hh Ht. rewrite Ad by auto. destruct (dm_split h Zc HZp) as [E _]. rewrite E at 1. ring. }
  assert (Ix : forall h, h < y * Zc -> h / Zc < y /\ h mod Zc < Zc).
  { intros h Hh. destruct (dm_split h Zc HZp). split; [apply div_lt; auto|auto]. }
  assert (Sp : forall t n, t < 2 * n -> exists a u, t = 2 * a + u /\ u < 2 /\ a < n).
  { intros t n Ht. destruct (split_word t) as (a & u & E & Hu). exists a, u. repeat split; auto. lia. }
  destruct (dftw_phase X sg (y * Zc) adr b s Q) with (z := fun h a => H a (first Y P r + h / Zc) (h mod Zc)) as (m' & Ru & V & F).
  - intros h t h' t' Hh Ht Hh' Ht' E. destruct (Sp t X Ht) as (a & u & -> & Hu & Ha). destruct (Sp t' X Ht') as (a' & u' & -> & Hu' & Ha'). rewrite !Ad in E by auto.
    apply split2 in E; [|lia|lia]. destruct E as [E ->]. apply split2 in E; [|auto|auto]. destruct E as [-> ->]. auto.
  - intros h t Hh Ht. destruct (Sp t X Ht) as (a & u & -> & Hu & Ha). rewrite Ad by auto.
    apply Nat.lt_le_trans with (cap c r); auto. apply Nat.lt_le_trans with (X * y * (2 * Zc)); auto.
    replace (X * y * (2 * Zc)) with (X * (y * Zc) * 2) by ring. apply fit; auto. apply fit; auto.
  - intros h a Hh Ha. destruct (Ix h Hh) as (A1 & A2). pose proof (Ad2 h a 0 Hh ltac:(lia)) as E0. rewrite Nat.add_0_r in E0. rewrite E0, Ad2 by (auto; lia).
    rewrite !HH' by (auto; lia). rewrite !dm3_2 by lia. split; reflexivity.
  - exists m'. split; [exact Ru|]. split; [|exact F].
    apply cols3_words. fold y. intros i j t Hi Hj Ht. destruct (Sp t Zc Ht) as (k & u & -> & Hu & Hk).
    destruct (div_is j Zc k Hk) as [D1 D2]. pose proof (V (j * Zc + k) i u ltac:(auto using fit) Hi Hu) as V1.
    rewrite Ad2, D1, D2 in V1 by (auto using fit). rewrite V1. rewrite dm3_2 by auto. reflexivity.
Qed.

Definition altsign2 (i j : nat) (v : R) : R := if Nat.even (i + j) then v else Ropp v.
Lemma shift3_phase : forall r (s : locR) b G, Nat.even X = true -> Nat.even Y = true -> quiet R s -> cap c r <= bsz R s b -> iheld3 (IR3 G) r (mem R s b) ->
  exists m', runs R (Shift3R c Zr inplace r b) s (setmem R s m') /\
    iheld3 (IR3 (fun i j l => altsign2 i j (G i j l))) r (m' b) /\ (forall b' o, b' <> b -> m' b' o = mem R s b' o).
Proof.
  intros r s b G EvX EvY Q B HG. destruct rd_le as [L1 L2]. pose proof Ypos3 as HY.
  unfold Shift3R. rewrite !even_mod', EvX, EvY. cbn [andb].
  change (ldim X P r) with (count X P r). unfold sadr. change (lbeg X P r) with (first X P r).
  assert (EY : Y = Y / 2 * 2). { apply Nat.even_spec in EvY. destruct EvY as [q E]. rewrite E at 2. rewrite (Nat.mul_comm 2), Nat.div_mul; lia. }
  set (Y2 := Y / 2) in *. set (x := count X P r) in *. set (x0 := first X P r) in *. set (d := rd) in *.
  set (ys := fun i => (i + x0 + 0 + 1) mod 2).
  assert (Hys : forall i, ys i < 2) by (intros; apply Nat.mod_upper_bound; lia).
  set (adr := fun h j => (h / Y2 * Y + (ys (h / Y2) + 2 * (h mod Y2))) * d + j).
  assert (HY2 : 0 < Y2) by lia.
  assert (Ix : forall h, h < x * Y2 -> h / Y2 < x /\ h mod Y2 < Y2 /\ h = h / Y2 * Y2 + h mod Y2).
  { intros h Hh. destruct (dm_split h Y2 HY2). split; [apply div_lt; auto|auto]. }
  assert (Bj : forall i k, k < Y2 -> ys i + 2 * k < Y) by (intros i k Hk; pose proof (Hys i); lia).
  assert (Ia : inj2 adr (x * Y2) Zr).
  { intros h j h' j' Hh Hj Hh' Hj' E. destruct (Ix h Hh) as (A1 & A2 & A3). destruct (Ix h' Hh') as (B1 & B2 & B3).
    unfold adr in E. apply split2 in E; [|lia|lia]. destruct E as [E ->]. apply split2 in E; [|auto|auto]. destruct E as [E E'].
    rewrite E in E'. split; [|reflexivity]. rewrite A3, B3, E. f_equal. lia. }
  assert (Bd : forall h j, h < x * Y2 -> j < Zr -> adr h j < bsz R s b).
  { intros h j Hh Hj. destruct (Ix h Hh) as (A1 & A2 & A3). apply Nat.lt_le_trans with (cap c r); auto. apply row_bound3; [|auto|lia].
    apply fit; auto. }
  destruct (plan_run R 0%R Zr Zr (fun x j => Ropp (x j)) always None (x * Y2) adr adr b b s Q) as (m' & Ru & V & F); auto.
  - intros x1 x' E k Hk. rewrite E; auto.
  - intros _ h t h' t' Hh Ht Hh' Ht' N E. apply Ia in E; auto. lia.
  - exists m'. split; [exact Ru|]. split.
    + intros i j l Hi Hj Hl. unfold altsign2. fold d. fold x0.
      assert (Ys : ys i = if Nat.even (x0 + i) then 1 else 0).
      { unfold ys. pose proof (even_mod' (i + x0 + 0 + 1)) as E1. replace (Nat.even (i + x0 + 0 + 1)) with (negb (Nat.even (x0 + i))) in E1.
        2:{ replace (i + x0 + 0 + 1) with (S (x0 + i)) by lia. rewrite Nat.even_succ, <- Nat.negb_even. reflexivity. }
        pose proof (Nat.mod_upper_bound (i + x0 + 0 + 1) 2 ltac:(lia)).
        destruct (Nat.even (x0 + i)); cbn [negb] in E1; [apply Nat.eqb_neq in E1|apply Nat.eqb_eq in E1]; lia. }
      assert (Cj : Nat.even (x0 + i + j) = negb (Nat.eqb (j mod 2) (ys i))).
      { rewrite Nat.even_add, Ys, <- (even_mod' j). pose proof (Nat.mod_upper_bound j 2 ltac:(lia)).
        destruct (Nat.even (x0 + i)), (Nat.eqb_spec (j mod 2) 0) as [E|E]; cbn [Bool.eqb]; try rewrite E; try reflexivity; replace (j mod 2) with 1 by lia; reflexivity. }
      rewrite Cj. pose proof (Nat.div_mod j 2 ltac:(lia)) as Dj. destruct (Nat.eqb_spec (j mod 2) (ys i)) as [E|E]; cbn [negb].
      * assert (Hk : j / 2 < Y2) by lia. pose proof (V (i * Y2 + j / 2) l ltac:(auto using fit) Hl) as V1.
        unfold adr in V1. destruct (div_is i Y2 (j / 2) Hk) as [D1 D2]. rewrite D1, D2 in V1.
        replace (ys i + 2 * (j / 2)) with j in V1 by lia. rewrite V1. f_equal. apply HG; auto.
      * rewrite F; [apply HG; auto| |auto]. right. intros h k Hh Hk E1. destruct (Ix h Hh) as (A1 & A2 & A3).
        unfold adr in E1. apply split2 in E1; [|lia|lia]. destruct E1 as [E1 _]. apply split2 in E1; [|auto|auto].
        destruct E1 as [E1 E2]. rewrite <- E1 in E2. apply E. rewrite E2, Nat.mul_comm, Nat.mod_add by lia. apply Nat.mod_small. auto.
    + intros b' o N. apply F; auto.
Qed.

Lemma normalize3_phase : forall r (s : locR) b G, quiet R s -> cap c r <= bsz R s b -> iheld3 (IR3 G) r (mem R s b) ->
  exists m', runs R (normalize3R c Zr inplace r b) s (setmem R s m') /\
    iheld3 (IR3 (fun i j l => (/ INR (X * Y * Zr) * G i j l)%R)) r (m' b) /\ (forall b' o, b' <> b -> m' b' o = mem R s b' o).
Proof.
  intros r s b G Q B HG. destruct rd_le as [L1 L2]. unfold normalize3R. change (ldim X P r) with (count X P r). set (d := rd) in *.
  assert (Bx : count X P r * Y * d <= cap c r).
  { apply Nat.le_trans with (count X P r * Y * (2 * Zc)); [apply Nat.mul_le_mono_l; auto|apply cap_x]. }
  destruct (plan_run R 0%R 1 1 (fun x _ => (/ INR (X * Y * Zr) * x 0%nat)%R) always None (count X P r * Y * d) (fun h _ => h) (fun h _ => h) b b s Q) as (m' & Ru & V & F); auto.
  all: try (intros; lia).
  - intros x x' E k Hk. rewrite E; auto.
  - intros h t h' t' Hh Ht Hh' Ht' E. lia.
  - intros h t h' t' Hh Ht Hh' Ht' E. lia.
  - exists m'. split; [exact Ru|]. split.
    + intros i j l Hi Hj Hl. fold d. rewrite (V ((i * Y + j) * d + l) 0) by (first [lia | apply fit; [apply fit; auto|lia]]). f_equal. apply HG; auto.
    + intros b' o N. apply F; auto.
Qed.

(** one loop of deNyquist: writes 0 where the predicate Pz holds *)
Lemma zero_phase : forall r (s : locR) b H (cond : bool) adr n (Pz : nat -> nat -> nat -> bool), quiet R s ->
  cap c r <= bsz R s b ->
  (forall i j t, i < X -> j < count Y P r -> t < 2 * Zc -> mem R s b ((i * count Y P r + j) * (2 * Zc) + t) = dm3 H i (first Y P r + j) t) ->
  (cond = true -> inj2 (fun h (_ : nat) => adr h) n 1) ->
  (cond = true -> forall h, h < n -> exists i j k u, i < X /\ j < count Y P r /\ k < Zc /\ u < 2 /\
     adr h = (i * count Y P r + j) * (2 * Zc) + (2 * k + u) /\ Pz i (first Y P r + j) k = true) ->
  (forall i j k u, i < X -> j < count Y P r -> k < Zc -> u < 2 -> Pz i (first Y P r + j) k = true ->
     cond = true /\ exists h, h < n /\ adr h = (i * count Y P r + j) * (2 * Zc) + (2 * k + u)) ->
  exists m', runs R (if cond then wrw R b adr n (fun _ => 0%R) else skip R) s (setmem R s m') /\
    (forall i j t, i < X -> j < count Y P r -> t < 2 * Zc ->
       m' b ((i * count Y P r + j) * (2 * Zc) + t) = dm3 (fun i j k => if Pz i j k then C0 else H i j k) i (first Y P r + j) t) /\
    (forall b' o, b' <> b -> m' b' o = mem R s b' o).
Proof.
  intros r s b H cond adr n Pz Q B HH Inj Sound Compl. pose proof (cap_y r) as K. set (y := count Y P r) in *. set (y0 := first Y P r) in *.
  assert (Sp : forall t, t < 2 * Zc -> exists a u, t = 2 * a + u /\ u < 2 /\ a < Zc).
  { intros t Ht. destruct (split_word t) as (a & u & E & Hu). exists a, u. repeat split; auto. lia. }
  destruct cond.
  - destruct (wrw_run R b adr n (fun _ => 0%R) s Q) as (m1 & Ru & W & F).
    + intros h Hh. destruct (Sound eq_refl h Hh) as (i & j & k & u & Hi & Hj & Hk & Hu & -> & _).
      apply Nat.lt_le_trans with (cap c r); auto. apply Nat.lt_le_trans with (X * y * (2 * Zc)); auto. apply fit; [apply fit; auto|lia].
    + intros h h' Hh Hh' E. apply (Inj eq_refl h 0 h' 0); auto.
    + exists m1. split; [exact Ru|]. split; [|intros; apply F; auto].
      intros i j t Hi Hj Ht. destruct (Sp t Ht) as (k & u & -> & Hu & Hk). rewrite dm3_2 by auto. destruct (Pz i (y0 + j) k) eqn:E.
      * destruct (Compl i j k u Hi Hj Hk Hu E) as (_ & h & Hh & <-). rewrite W by auto. destruct (u =? 0); reflexivity.
      * rewrite F; [rewrite HH by auto; apply dm3_2; auto|]. right. intros h Hh E'.
        destruct (Sound eq_refl h Hh) as (i' & j' & k' & u' & Hi' & Hj' & Hk' & Hu' & E1 & E2). rewrite E1 in E'.
        apply split2 in E'; [|lia|lia]. destruct E' as [E' Eu]. apply split2 in E'; [|auto|auto]. destruct E' as [-> ->].
        rewrite (Nat.mul_comm 2 k'), (Nat.mul_comm 2 k) in Eu. apply split2 in Eu; [|auto|auto]. destruct Eu as [-> _]. congruence.
  - exists (mem R s). split; [rewrite setmem_sameV; apply runs_skip|]. split; [|auto].
    intros i j t Hi Hj Ht. destruct (Sp t Ht) as (k & u & -> & Hu & Hk). rewrite HH by auto. rewrite !dm3_2 by auto.
    destruct (Pz i (y0 + j) k) eqn:E; auto. destruct (Compl i j k u Hi Hj Hk Hu E) as [A _]. discriminate.
Qed.
Lemma deny3_phase : forall r (s : locR) b H, quiet R s -> cap c r <= bsz R s b -> iheld3 (ICol3 H) r (mem R s b) ->
  exists m', runs R (deNyquist3 c Zr r b) s (setmem R s m') /\
    iheld3 (ICol3 (denyquist3 X Y Zr H)) r (m' b) /\ (forall b' o, b' <> b -> m' b' o = mem R s b' o).
Proof.
  intros r s b H Q B HH. pose proof (proj1 (cols3_words H r (mem R s b)) HH) as HH'. pose proof Zc_pos as HZp. pose proof Xpos3 as HX.
  unfold deNyquist3. rewrite !even_mod'. change (ldim Y P r) with (count Y P r). change (lbeg Y P r) with (first Y P r).
  set (y := count Y P r) in *. set (y0 := first Y P r) in *.
  assert (Sp : forall t n, t < 2 * n -> exists a u, t = 2 * a + u /\ u < 2 /\ a < n).
  { intros t n Ht. destruct (split_word t) as (a & u & E & Hu). exists a, u. repeat split; auto. lia. }
  assert (Bnd : forall i j k u, i < X -> j < y -> k < Zc -> u < 2 -> (i * y + j) * (2 * Zc) + (2 * k + u) < bsz R s b).
  { intros i j k u Hi Hj Hk Hu. apply Nat.lt_le_trans with (cap c r); auto. apply Nat.lt_le_trans with (X * y * (2 * Zc)); [|apply cap_y].
    apply fit; [apply fit; auto|lia]. }
  assert (Y0p : y0 = 0 -> 0 < y).
  { unfold y0, y, count, first. pose proof Ypos3 as HY. pose proof gP. intros E0.
    assert (0 < blocklen Y P). { unfold blocklen. apply Nat.div_str_pos. lia. }
    rewrite E0, Nat.sub_0_r. lia. }
  set (P1 := fun i j k : nat => Nat.even X && (i =? 0)).
  destruct (zero_phase r s b H (Nat.even X) (fun t => t) (2 * (y * Zc)) P1 Q B) as (m1 & R1 & W1 & F1).
  { exact HH'. }
  { intros _ h t h' t' Hh Ht Hh' Ht' E. lia. }
  { intros Ev h Hh. destruct (Sp h _ Hh) as (a & u & -> & Hu & Ha). destruct (dm_split a Zc HZp) as [E1 E2].
    exists 0, (a / Zc), (a mod Zc), u. repeat split; auto.
    - apply div_lt; auto.
    - fold y. rewrite Nat.mul_0_l, Nat.add_0_l. rewrite E1 at 1. ring.
    - unfold P1. rewrite Ev. reflexivity. }
  { intros i j k u Hi Hj Hk Hu E. unfold P1 in E. apply andb_true_iff in E. destruct E as [Ev E]. apply Nat.eqb_eq in E. subst i. split; auto.
    exists ((0 * y + j) * (2 * Zc) + (2 * k + u)). split; [|reflexivity]. fold y in Hj. replace (2 * (y * Zc)) with (y * (2 * Zc)) by ring. rewrite Nat.mul_0_l, Nat.add_0_l. apply fit; [auto|lia]. }
  fold y y0 in W1.
  set (H1 := fun i j k => if P1 i j k then C0 else H i j k) in *.
  set (P2 := fun i j k : nat => Nat.even Y && (j =? 0)).
  destruct (zero_phase r (setmem R s m1) b H1 (Nat.even Y && (y0 =? 0))
     (fun t => t / (2 * Zc) * (2 * (y * Zc)) + t mod (2 * Zc)) (X * (2 * Zc)) P2 Q B) as (m2 & R2 & W2 & F2).
  { exact W1. }
  { intros Ev h t h' t' Hh Ht Hh' Ht' E. split; [|lia].
    replace (2 * (y * Zc)) with (y * (2 * Zc)) in E by ring.
    destruct (dm_split h (2 * Zc) ltac:(lia)) as [A1 A2]. destruct (dm_split h' (2 * Zc) ltac:(lia)) as [B1 B2].
    destruct (Nat.eq_dec y 0) as [Y0|Y0].
    { exfalso. apply andb_true_iff in Ev. destruct Ev as [_ E0]. apply Nat.eqb_eq in E0. specialize (Y0p E0). lia. }
    assert (E' : (h / (2 * Zc) * y + 0) * (2 * Zc) + h mod (2 * Zc) = (h' / (2 * Zc) * y + 0) * (2 * Zc) + h' mod (2 * Zc)) by (rewrite !Nat.add_0_r, <- !Nat.mul_assoc; exact E).
    apply split2 in E'; [|auto|auto]. destruct E' as [E1 E2]. apply split2 in E1; [|lia|lia]. destruct E1 as [E1 _]. rewrite A1, B1, E1, E2. reflexivity. }
  { intros Ev h Hh. apply andb_true_iff in Ev. destruct Ev as [Ev E0]. apply Nat.eqb_eq in E0. specialize (Y0p E0).
    destruct (dm_split h (2 * Zc) ltac:(lia)) as [A1 A2]. destruct (Sp (h mod (2 * Zc)) Zc A2) as (k & u & E & Hu & Hk).
    exists (h / (2 * Zc)), 0, k, u. repeat split; auto.
    - apply div_lt; [lia|auto].
    - fold y. rewrite <- E, Nat.add_0_r. ring.
    - fold y0. unfold P2. rewrite Ev, E0. reflexivity. }
  { intros i j k u Hi Hj Hk Hu E. fold y in Hj |- *. fold y0 in E |- *. unfold P2 in E. apply andb_true_iff in E. destruct E as [Ev E]. apply Nat.eqb_eq in E.
    rewrite Ev. split; [cbn [andb]; apply Nat.eqb_eq; lia|]. assert (j = 0) by lia. subst j.
    exists (i * (2 * Zc) + (2 * k + u)). split; [apply fit; [auto|lia]|].
    destruct (div_is i (2 * Zc) (2 * k + u) ltac:(lia)) as [-> ->]. ring. }
  fold y y0 in W2.
  set (H2 := fun i j k => if P2 i j k then C0 else H1 i j k) in *.
  set (P3 := fun i j k : nat => Nat.even Zr && (2 * k =? Zr)).
  assert (Hlast : Nat.even Zr = true -> forall k, k < Zc -> (2 * k =? Zr) = (k =? Zc - 1)).
  { intros Ev k Hk. apply Nat.even_spec in Ev. destruct Ev as [q Eq].
    assert (Zc = q + 1). { rewrite HZ, Eq, Nat.mul_comm, Nat.div_mul by lia. reflexivity. }
    destruct (Nat.eqb_spec (2 * k) Zr) as [A1|A1], (Nat.eqb_spec k (Zc - 1)) as [A2|A2]; auto; exfalso; lia. }
  assert (A3 : forall a u, u < 2 -> ((2 * a + u) / 2 * Zc + Zc - 1) * 2 + (2 * a + u) mod 2 = a * (2 * Zc) + (2 * (Zc - 1) + u)).
  { intros a u Hu. destruct (half2 a u Hu) as [-> ->]. replace (a * Zc + Zc - 1) with (a * Zc + (Zc - 1)) by lia. ring. }
  destruct (zero_phase r (setmem R (setmem R s m1) m2) b H2 (Nat.even Zr)
     (fun t => (t / 2 * Zc + Zc - 1) * 2 + t mod 2) (2 * (X * y)) P3 Q B) as (m3 & R3 & W3 & F3).
  { exact W2. }
  { intros Ev h t h' t' Hh Ht Hh' Ht' E. split; [|lia]. destruct (Sp h _ Hh) as (a & u & -> & Hu & Ha). destruct (Sp h' _ Hh') as (a' & u' & -> & Hu' & Ha').
    rewrite !A3 in E by auto. apply split2 in E; [|lia|lia]. lia. }
  { intros Ev h Hh. destruct (Sp h _ Hh) as (a & u & -> & Hu & Ha). fold y y0.
    destruct (Nat.eq_dec y 0) as [Yn|Yn]. { rewrite Yn, Nat.mul_0_r in Ha. lia. }
    destruct (dm_split a y ltac:(lia)) as [E1 E2]. exists (a / y), (a mod y), (Zc - 1), u. repeat split; auto.
    - apply div_lt; [lia|auto].
    - lia.
    - rewrite A3, <- E1 by auto. reflexivity.
    - unfold P3. rewrite Ev, Hlast, Nat.eqb_refl by (auto; lia). reflexivity. }
  { intros i j k u Hi Hj Hk Hu E. fold y in Hj |- *. fold y0 in E |- *. unfold P3 in E. apply andb_true_iff in E. destruct E as [Ev E]. split; auto.
    rewrite Hlast in E by auto. apply Nat.eqb_eq in E. subst k. exists (2 * (i * y + j) + u). split; [|apply A3; auto].
    pose proof (fit i j X y Hi Hj). lia. }
  fold y y0 in W3.
  exists m3. split; [|split].
  - intros k. unfold seqc. eapply lstar_trans; [apply R1|]. eapply lstar_trans; [apply R2|apply R3].
  - apply cols3_words. fold y y0. intros i j t Hi Hj Ht. rewrite W3 by auto. unfold dm3. f_equal.
    apply functional_extensionality. intros k. unfold denyquist3, H2, H1, P1, P2, P3.
    destruct (Nat.even X && (i =? 0)), (Nat.even Y && (y0 + j =? 0)), (Nat.even Zr && (2 * k =? Zr)); reflexivity.
  - intros b' o N. rewrite F3 by auto. cbn [mem setmem]. rewrite F2 by auto. cbn [mem setmem]. auto.
Qed.
End Phases.
