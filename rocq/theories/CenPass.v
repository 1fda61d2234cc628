(** The residues handled by a pass of the centered transform, and the composition of the
    pieces of a pass (S=1 kernels). *)
From Coq Require Import Reals ZArith Arith Lia List Bool.
From Verif Require Import CNum Sums Roots Mem VecModel VecProofs PadModel PadKernels Loops
  PadLemmas PadMath PadGeom Fwd1 PadIndex PadForward Fill CenModel CenMath CenGeom CenF2.

(** An uncentered pad without folding (p=1) whose rows are the blocks of l words: its residue
    loop is that of t. *)
Definition sh (t : pad) : pad :=
  mkpad (kl t) (kn t * kl t) (aC t) (aS t) (kl t) (aD t) (ainplace t) (aA t) (aB t) (aoverwrite t).

Section Sh.
Variable t : pad.
Hypothesis Hwf : kwf t.
Lemma k_q1 : kq t = 1 -> kp t = 1 /\ kn t = 1 /\ kl t = am t /\ kM t = am t.
Proof.
  intros Hq. pose proof (k_n t Hwf) as Hn. unfold kl, kM. rewrite Hq, Nat.mul_1_r. cbn [Nat.eqb].
  unfold kq, param_q in Hq. fold (kp t) (kn t) in Hq.
  apply Nat.eq_mul_1 in Hq. destruct Hq as [HP Hn1].
  split; [|auto]. pose proof (k_p t Hwf). unfold param_P in HP. rewrite andb_true_l in HP.
  destruct (Nat.eqb_spec (kp t) 2) as [E2|N2].
  - exfalso. unfold kn, param_n in Hn1. fold (kp t) in Hn1.
    assert (HP2 : param_P true (kp t) = 1) by (rewrite E2; reflexivity). rewrite HP2, Nat.mul_1_l in Hn1.
    destruct Hwf as (H1 & H2 & _ & _ & H5 & _).
    pose proof (cq_le (aM t) (am t) H5) as HM. rewrite Hn1 in HM. pose proof (cq_lt (aL t) (am t) H5 H1) as HL.
    unfold kp, param_p in E2. rewrite E2 in HL. lia.
  - rewrite orb_false_r in HP. destruct (Nat.eqb_spec (kp t) (2 * (kp t / 2))); lia.
Qed.
Lemma sh_l : 1 <= kl t.
Proof.
  unfold kl. destruct (Nat.eqb_spec (kq t) 1) as [E|E].
  - destruct (k_q1 E) as (_ & _ & _ & ->). apply (k_m t Hwf).
  - pose proof (k_cg t Hwf E) as [G1 G2 _ _ _ _]. nia.
Qed.
Lemma sh_p : gp (sh t) = 1.
Proof.
  unfold gp, param_p, sh, cq; cbn [aL am]. pose proof sh_l.
  symmetry. apply (Nat.div_unique _ _ 1 (kl t - 1)); lia.
Qed.
Lemma sh_n : gn (sh t) = kn t.
Proof.
  unfold gn, param_n. change (param_p (aL (sh t)) (am (sh t))) with (gp (sh t)). rewrite sh_p.
  cbn [aM am sh param_P andb orb Nat.eqb]. rewrite Nat.mul_1_l. unfold cq. pose proof sh_l.
  symmetry. apply (Nat.div_unique _ _ _ (kl t - 1)); lia.
Qed.
Lemma sh_q : gq (sh t) = kn t.
Proof.
  unfold gq, param_q. change (param_p (aL (sh t)) (am (sh t))) with (gp (sh t)). rewrite sh_p.
  change (param_n (aL (sh t)) (aM (sh t)) (am (sh t)) false) with (gn (sh t)). rewrite sh_n.
  cbn [param_P andb orb Nat.eqb]. lia.
Qed.
Lemma sh_q1 : (gq (sh t) =? 1) = (kq t =? 1).
Proof.
  rewrite sh_q. destruct (Nat.eqb_spec (kq t) 1) as [E|E].
  - destruct (k_q1 E) as (_ & -> & _). reflexivity.
  - pose proof (k_n2 t Hwf E). destruct (Nat.eqb_spec (kn t) 1); [lia|reflexivity].
Qed.
Lemma sh_D : gD (sh t) = kD t.
Proof. unfold gD, kD. rewrite sh_q1. reflexivity. Qed.
Lemma sh_D0 : gD0 (sh t) = kD0 t.
Proof. unfold gD0, kD0. rewrite sh_q1, sh_n, sh_D. reflexivity. Qed.
Lemma sh_conj : conjugates (sh t) = kconjugates t.
Proof.
  unfold conjugates, kconjugates. rewrite sh_D, sh_p. cbn [Nat.leb]. rewrite andb_true_r.
  destruct (Nat.ltb_spec 1 (kD t)) as [HD|HD]; [|reflexivity]. symmetry. cbn [andb].
  assert (Hq : kq t <> 1) by (intros E; unfold kD in HD; rewrite E in HD; cbn in HD; lia).
  destruct (k_even t Hwf Hq) as [E _]. rewrite E, Nat.mul_comm, Nat.mod_mul by lia.
  rewrite orb_true_r. reflexivity.
Qed.
Lemma sh_R : gR (sh t) = kR t.
Proof. unfold gR, kR, residueBlocks, kresidueBlocks. rewrite sh_q1, sh_n, sh_conj. reflexivity. Qed.
Lemma sh_dr : gdr (sh t) = kdr t.
Proof. unfold gdr, kdr, gDr. rewrite sh_q1, sh_D, sh_conj. reflexivity. Qed.
Lemma sh_inc r : increment (sh t) r = kincrement t r.
Proof. unfold increment, kincrement. rewrite sh_dr, sh_D0, sh_conj. reflexivity. Qed.
Lemma sh_m : gm (sh t) = kl t. Proof. reflexivity. Qed.
Lemma sh_gl : gl (sh t) = kl t.
Proof.
  unfold gl. rewrite sh_q1. unfold gM. rewrite sh_q, sh_m. unfold gP. rewrite sh_p. cbn [Nat.eqb].
  destruct (Nat.eqb_spec (kq t) 1) as [E|E]; [|lia]. destruct (k_q1 E) as (_ & -> & _). lia.
Qed.
Lemma sh_M : gM (sh t) = kM t.
Proof.
  unfold gM. rewrite sh_q, sh_m. unfold kM. destruct (Nat.eq_dec (kq t) 1) as [E|E].
  - destruct (k_q1 E) as (_ & En & El & _). rewrite En, El, E. lia.
  - rewrite (k_l t E), (k_q t Hwf E). unfold cl. lia.
Qed.
Lemma sh_nout r : noutputs (sh t) r = knoutputs t r.
Proof. unfold noutputs, knoutputs, blocksize. rewrite sh_gl, sh_D, sh_D0. reflexivity. Qed.
Lemma sh_wf : wf (sh t).
Proof.
  pose proof sh_l. pose proof (k_n t Hwf). pose proof Hwf as (H1 & H2 & H3 & H4 & H5 & H6 & H7 & H8).
  unfold wf, gL, gC, gS. rewrite sh_m, sh_q. cbn [aL aM aC aS aD sh].
  split; [lia|]. split; [nia|]. split; [lia|]. split; [lia|]. split; [lia|]. split; [lia|]. split; [lia|].
  unfold valid, gS. rewrite sh_q1, sh_D, sh_n. unfold kvalid in H8. destruct (kq t =? 1); [assumption|].
  apply andb_prop in H8. destruct H8 as [_ H8]. exact H8.
Qed.
End Sh.

(** residue of block g of pass r *)
Definition krho (t : pad) (r g : nat) : Z := rho (sh t) r g.
(** number of blocks of pass r *)
Definition kblocks (t : pad) (r : nat) : nat := if r =? 0 then kD0 t else kD t.
(** output i of a pass whose blocks have residues rh *)
Definition kout (t : pad) (rh : nat -> Z) (x : nat -> nat -> C) (i c : nat) : C :=
  outc (kM t) (aL t) (fun j => x j c)
    (Z.of_nat (kq t) * Z.of_nat (i mod am t) + Z.of_nat (kn t) * Z.of_nat (i mod kl t / am t) + rh (i / kl t)).

(** a finished transform into F *)
Definition fdone (SS CC F W N : nat) (g : nat -> nat -> C) (m m' : mem) : Prop :=
  (forall i c, i < N -> c < CC -> m' (F + SS * i + c) = Val (g i c)) /\
  (forall a, ~ inbuf SS CC F N a -> ~ inbuf SS CC W N a -> m' a = m a) /\
  (forall a, m a <> Unalloc -> m' a <> Unalloc).

Lemma outs_inbuf SS CC W N a : ~ inbuf SS CC W N a -> outs (fun i => W + SS * i) CC N a.
Proof. intros H i c Hi Hc E. apply H. exists i, c. auto. Qed.
Lemma inbuf_outs SS CC W N a : outs (fun i => W + SS * i) CC N a -> ~ inbuf SS CC W N a.
Proof. intros H (i & c & Hi & Hc & E). apply (H i c); auto. Qed.

Section T.
Variable t : pad.
Hypothesis Hwf : kwf t.
Hypothesis Hq : kq t <> 1.
Notation L := (aL t).  Notation m := (am t).
Notation q := (kq t).   Notation n := (kn t).   Notation M := (kM t).
Notation D := (kD t).  Notation D0 := (kD0 t). Notation P := (kP t). Notation l := (kl t).

Lemma lmP : l = m * P. Proof. rewrite (k_l t Hq). reflexivity. Qed.
Lemma div_l i : i / l = i / m / P.
Proof. rewrite lmP. destruct (k_cg t Hwf Hq). symmetry. apply Nat.div_div; lia. Qed.
Lemma mod_l_div i : i mod l / m = (i / m) mod P.
Proof.
  rewrite lmP. destruct (k_cg t Hwf Hq). rewrite Nat.mod_mul_r by lia.
  rewrite Nat.mul_comm, Nat.div_add by lia. rewrite (Nat.div_small (i mod m)); [lia|]. apply Nat.mod_upper_bound. lia.
Qed.
(** cval and kout of row h, column k of that row *)
Lemma cval_row rh x h k c : k < m -> cval t rh x (m * h + k) c = pre m P n L (rh (h / P)) (fun j => x j c) (h mod P) k.
Proof.
  intros Hk. destruct (k_cg t Hwf Hq). unfold cval. rewrite mod_l_div, div_l.
  replace (m * h + k) with (k + h * m) by lia. rewrite Nat.div_add, Nat.mod_add by lia.
  rewrite (Nat.div_small k), (Nat.mod_small k) by assumption. reflexivity.
Qed.
Lemma kout_row rh x h k c : k < m ->
  dft m 1 (fun s => cval t rh x (m * h + s) c) k = kout t rh x (m * h + k) c.
Proof.
  intros Hk. rewrite (dft_ext m 1 _ (pre m P n L (rh (h / P)) (fun j => x j c) (h mod P))).
  2:{ intros s Hs. apply cval_row. assumption. }
  rewrite (pre_dft m P n L (k_cg t Hwf Hq)). destruct (k_cg t Hwf Hq). unfold kout. rewrite mod_l_div, div_l.
  replace (m * h + k) with (k + h * m) by lia. rewrite Nat.div_add, Nat.mod_add by lia.
  rewrite (Nat.div_small k), (Nat.mod_small k) by assumption. cbn [Nat.add].
  rewrite <- (k_M t Hwf Hq), <- (k_qq t Hwf Hq). reflexivity.
Qed.

(** the row transforms, S=1 *)
Lemma rows_S1 rh x E F0 W0 m1 m2 (N := l * E) :
  ainplace t = (W0 =? F0) ->
  sets (fun i => W0 + 1 * i) 1 (cval t rh x) N m1 m2 ->
  (W0 = F0 \/ sepbuf 1 1 W0 N F0 N) ->
  (forall i c, i < N -> c < 1 -> m1 (F0 + 1 * i + c) <> Unalloc) ->
  WP (fft (mkplan m 1 (P * E) 1 m (ainplace t)) W0 F0) m2 (fdone 1 1 F0 W0 N (kout t rh x) m1).
Proof.
  intros Hin (S1 & S2 & S3) HWF Hal. destruct (k_cg t Hwf Hq) as [Gm GP _ _ _ _].
  assert (EN : N = m * (P * E)) by (unfold N; rewrite lmP; lia).
  apply WP_fft_rows with (x := fun h k => cval t rh x (m * h + k) 0).
  - assumption.
  - assumption.
  - intros h k Hh Hk. replace (W0 + (m * h + k)) with (W0 + 1 * (m * h + k) + 0) by lia. apply S1; [|lia].
    rewrite EN. nia.
  - intros i Hi. apply S3. replace (F0 + i) with (F0 + 1 * i + 0) by lia. apply Hal; lia.
  - destruct HWF as [|HWF]; [auto|right]. intros i j Hi Hj. apply (sepbuf_1 _ _ _ _ HWF); lia.
  - intros m3 HV HF Ha. split; [|split; [|auto]].
    + intros i c Hi Hc. replace c with 0 by lia.
      pose proof (Nat.div_mod i m ltac:(lia)) as Ei. pose proof (Nat.mod_upper_bound i m ltac:(lia)).
      assert (Hh : i / m < P * E) by (apply Nat.div_lt_upper_bound; lia).
      replace (F0 + 1 * i + 0) with (F0 + (m * (i / m) + i mod m)) by lia.
      rewrite HV by assumption. f_equal. rewrite kout_row by assumption. rewrite <- Ei. reflexivity.
    + intros a H1 H2. rewrite HF.
      * apply S2. apply outs_inbuf. assumption.
      * intros i Hi E'. apply H1. exists i, 0. lia.
Qed.

(** gluing blocks *)
Lemma cval_shift rh x B i c : cval t rh x (l * B + i) c = cval t (fun b => rh (B + b)) x i c.
Proof.
  pose proof (sh_l t Hwf) as Hl. destruct (k_cg t Hwf Hq) as [Gm GP _ _ _ _]. unfold cval.
  replace (l * B + i) with (i + B * l) by lia. rewrite Nat.div_add, (Nat.mod_add i B l) by lia.
  replace (i + B * l) with (i + (B * P) * m) by (rewrite lmP; lia). rewrite Nat.mod_add by lia.
  rewrite (Nat.add_comm B). reflexivity.
Qed.
Lemma cval_ext rh rh' x N i c : (forall b, b < N -> rh b = rh' b) -> i < l * N -> cval t rh x i c = cval t rh' x i c.
Proof.
  intros HR Hi. pose proof (sh_l t Hwf) as Hl. unfold cval. rewrite HR; [reflexivity|].
  apply Nat.div_lt_upper_bound; lia.
Qed.
Lemma glue SS CC W B B' rh rh' x m1 m2 m3 : CC <= SS ->
  sets (fun i => W + SS * i) CC (cval t rh x) (l * B) m1 m2 ->
  sets (fun i => W + SS * (l * B) + SS * i) CC (cval t rh' x) (l * B') m2 m3 ->
  (forall b, b < B' -> rh (B + b) = rh' b) ->
  sets (fun i => W + SS * i) CC (cval t rh x) (l * (B + B')) m1 m3.
Proof.
  intros HCS S1 S2 HR. rewrite Nat.mul_add_distr_l.
  apply sets_app with (m1 := m2); [apply buf_inj; assumption|assumption|].
  destruct S2 as (A1 & A2 & A3). split; [|split; [|assumption]].
  - intros i c Hi Hc. rewrite cval_shift. rewrite (cval_ext _ rh' x B' i c HR Hi).
    rewrite <- A1 by assumption. f_equal. lia.
  - intros a Ha. apply A2. intros i c Hi Hc. specialize (Ha i c Hi Hc). cbv beta in Ha. rewrite Nat.mul_add_distr_l in Ha. lia.
Qed.
End T.

(** *** one pass of a forward kernel with S=1 *)
Section Pass.
Variable t : pad.
Hypothesis Hwf : kwf t.
Hypothesis Hq : kq t <> 1.
Hypothesis HS : aS t = 1.
Notation L := (aL t).  Notation m := (am t).
Notation q := (kq t).   Notation n := (kn t).   Notation M := (kM t).
Notation D := (kD t).  Notation D0 := (kD0 t). Notation P := (kP t). Notation l := (kl t).
Variables (zero1 zero2 : addr -> addr -> cmd C) (res1 res2 : addr -> addr -> nat -> cmd C) (nq bb : nat).
Hypothesis Hbb : bb = l.
Hypothesis Hnq : nq = n.

Definition gtail (f F0 W0 W : addr) (r0 dr0 : nat) (plan1 : plan) : cmd C :=
  Seq (if D =? 1 then (if 0 <? dr0 then res1 f W r0 else Skip)
       else cfor dr0 (fun d => res2 f (W + 2 * bb * d) (r0 + d)))
      (fft plan1 W0 F0).
Definition gpass (f F0 : addr) (r0 : nat) (W : option addr) : cmd C :=
  let W := getW F0 W in
  if r0 =? 0 then
    let plan1 := if D0 =? D then kfftm t 1 else kfftm0 t 1 in
    if (D =? 1) || (2 * (nq / 2) <? nq) then
      Seq (zero1 f W) (gtail f F0 W (W + 1 * bb) 1 ((D0 - 1) / 2) plan1)
    else
      Seq (zero2 f W) (gtail f F0 W (W + 2 * bb) 1 ((D0 - 2) / 2) plan1)
  else gtail f F0 W W r0 (kdr t) (kfftm t 1).

Definition srcok (f : nat) (x : nat -> nat -> C) (m1 : mem) : Prop :=
  forall j c, j < L -> c < 1 -> m1 (f + 1 * j + c) = Val (x j c).
Definition piece (B : nat) (rh : nat -> Z) (p : addr -> addr -> cmd C) : Prop :=
  forall f W x (m1 : mem), srcok f x m1 -> sepbuf 1 1 f L W (l * B) ->
  (forall i c, i < l * B -> c < 1 -> m1 (W + 1 * i + c) <> Unalloc) ->
  WP (p f W) m1 (sets (fun i => W + 1 * i) 1 (cval t rh x) (l * B) m1).
Hypothesis Hz1 : piece 1 (fun _ => 0%Z) zero1.
Hypothesis Hz2 : n mod 2 = 0 -> piece 2 (fun b => if b =? 0 then 0%Z else Z.of_nat (n / 2)) zero2.
Hypothesis Hr1 : forall r, 1 <= r < n -> piece 1 (fun _ => Z.of_nat r) (fun f W => res1 f W r).
Hypothesis Hr2 : forall r, 1 <= r < n ->
  piece 2 (fun b => if b =? 0 then Z.of_nat r else (- Z.of_nat r)%Z) (fun f W => res2 f W r).

Lemma kplan sg : kfftm t sg = mkplan m sg (P * D) 1 m (ainplace t).
Proof.
  unfold kfftm. destruct (Nat.eqb_spec q 1); [contradiction|]. rewrite HS, (k_S1 t Hwf HS). cbn [Nat.eqb].
  f_equal. lia.
Qed.
Lemma kplan0 sg : (if D0 =? D then kfftm t sg else kfftm0 t sg) = mkplan m sg (P * D0) 1 m (ainplace t).
Proof.
  destruct (Nat.eqb_spec D0 D) as [->|]; [apply kplan|]. unfold kfftm0. f_equal. lia.
Qed.

Lemma gtail_ok f F0 W0 Wt r0 dr0 e0 E (rh : nat -> Z) x (m0 m1 : mem) :
  Wt = W0 + l * e0 ->
  E = e0 + (if D =? 1 then dr0 else 2 * dr0) ->
  (D = 1 -> dr0 <= 1) ->
  ainplace t = (W0 =? F0) ->
  1 <= r0 -> (1 <= dr0 -> r0 + dr0 <= n) ->
  sepbuf 1 1 f L W0 (l * E) -> (W0 = F0 \/ sepbuf 1 1 W0 (l * E) F0 (l * E)) ->
  srcok f x m0 ->
  (forall i c, i < l * E -> c < 1 -> m0 (W0 + 1 * i + c) <> Unalloc) ->
  (forall i c, i < l * E -> c < 1 -> m0 (F0 + 1 * i + c) <> Unalloc) ->
  sets (fun i => W0 + 1 * i) 1 (cval t rh x) (l * e0) m0 m1 ->
  (forall e, e0 <= e < E -> rh e = tailrho D r0 (e - e0)) ->
  WP (gtail f F0 W0 Wt r0 dr0 (mkplan m 1 (P * E) 1 m (ainplace t))) m1
     (fdone 1 1 F0 W0 (l * E) (kout t rh x) m0).
Proof.
  intros HWt HE HD1 Hin Hr0 Hrn Hsep HWF Hsrc HWa HFa Hst Hrh. unfold gtail. apply WP_seq.
  assert (Hphase : forall m2, sets (fun i => W0 + 1 * i) 1 (cval t rh x) (l * E) m0 m2 ->
    WP (fft (mkplan m 1 (P * E) 1 m (ainplace t)) W0 F0) m2 (fdone 1 1 F0 W0 (l * E) (kout t rh x) m0)).
  { intros m2 H2. apply rows_S1; assumption. }
  assert (Hmon : forall e, e <= E -> l * e <= l * E) by (intros; apply Nat.mul_le_mono_l; assumption).
  assert (Hsrc' : forall e m2, e <= E -> sets (fun i => W0 + 1 * i) 1 (cval t rh x) (l * e) m0 m2 -> srcok f x m2).
  { intros e m2 He (_ & S2 & _) j c Hj Hc. rewrite S2; [apply Hsrc; assumption|].
    intros i c' Hi Hc'. specialize (Hmon e He). apply Hsep; try assumption. lia. }
  destruct (Nat.eqb_spec D 1) as [ED|ED].
  - destruct (Nat.ltb_spec 0 dr0) as [Hd|Hd].
    + assert (dr0 = 1) by lia. subst dr0. assert (HE1 : E = e0 + 1) by lia.
      assert (Hl1 : l * E = l * e0 + l * 1) by (rewrite HE1; lia).
      eapply WP_mono; [|apply (Hr1 r0 ltac:(lia) f Wt x)].
      * intros m2 H2. apply Hphase. rewrite HE1. eapply (glue t Hwf Hq 1 1 W0 e0 1); [lia|exact Hst| |].
        -- replace (W0 + 1 * (l * e0)) with Wt by lia. exact H2.
        -- intros b Hb. rewrite Hrh by lia. unfold tailrho. rewrite ED. reflexivity.
      * apply (Hsrc' e0); [lia|exact Hst].
      * intros i c i' c' Hi Hc Hi' Hc'. rewrite HWt.
        replace (W0 + l * e0 + 1 * i' + c') with (W0 + 1 * (l * e0 + i') + c') by lia. apply Hsep; try assumption. lia.
      * intros i c Hi Hc. destruct Hst as (_ & _ & S3). apply S3. rewrite HWt.
        replace (W0 + l * e0 + 1 * i + c) with (W0 + 1 * (l * e0 + i) + c) by lia. apply HWa; lia.
    + apply WP_skip. apply Hphase. replace E with e0 by lia. assumption.
  - assert (Hd2 : forall d, d < dr0 -> e0 + 2 * d + 2 <= E) by (intros; lia).
    eapply WP_mono; [|apply (WP_cfor C dr0 _ (fun d m2 => sets (fun i => W0 + 1 * i) 1 (cval t rh x) (l * (e0 + 2 * d)) m0 m2))].
    + intros m2 H2. apply Hphase. rewrite HE. exact H2.
    + replace (e0 + 2 * 0) with e0 by lia. exact Hst.
    + intros d m2 Hd H2. specialize (Hd2 d Hd). pose proof (Hmon _ Hd2) as Hld.
      assert (Hl2 : l * (e0 + 2 * d + 2) = l * (e0 + 2 * d) + l * 2) by lia.
      assert (EW : Wt + 2 * bb * d = W0 + l * (e0 + 2 * d)) by (rewrite HWt, Hbb; lia). rewrite EW.
      eapply WP_mono; [|apply (Hr2 (r0 + d) ltac:(lia) f _ x)].
      * intros m3 H3. replace (e0 + 2 * S d) with (e0 + 2 * d + 2) by lia.
        eapply (glue t Hwf Hq 1 1 W0 (e0 + 2 * d) 2); [lia|exact H2| |].
        -- rewrite Nat.mul_1_l. exact H3.
        -- intros b Hb. rewrite Hrh by lia. destruct b as [|[|b]]; [| |lia]; cbn [Nat.eqb].
           ++ replace (e0 + 2 * d + 0 - e0) with (2 * d) by lia. apply tailrho_even. assumption.
           ++ replace (e0 + 2 * d + 1 - e0) with (2 * d + 1) by lia. apply tailrho_odd. assumption.
      * apply (Hsrc' (e0 + 2 * d)); [lia|exact H2].
      * intros i c i' c' Hi Hc Hi' Hc'.
        replace (W0 + l * (e0 + 2 * d) + 1 * i' + c') with (W0 + 1 * (l * (e0 + 2 * d) + i') + c') by lia. apply Hsep; try assumption. lia.
      * intros i c Hi Hc. destruct H2 as (_ & _ & S3). apply S3.
        replace (W0 + l * (e0 + 2 * d) + 1 * i + c) with (W0 + 1 * (l * (e0 + 2 * d) + i) + c) by lia. apply HWa; lia.
Qed.

Lemma gpass_ok f F0 W r x (m0 : mem) (W0 := getW F0 W) (E := kblocks t r) :
  passr (sh t) r -> ainplace t = (W0 =? F0) ->
  sepbuf 1 1 f L W0 (l * E) -> (W0 = F0 \/ sepbuf 1 1 W0 (l * E) F0 (l * E)) ->
  srcok f x m0 ->
  (forall i c, i < l * E -> c < 1 -> m0 (W0 + 1 * i + c) <> Unalloc) ->
  (forall i c, i < l * E -> c < 1 -> m0 (F0 + 1 * i + c) <> Unalloc) ->
  WP (gpass f F0 r W) m0 (fdone 1 1 F0 W0 (l * E) (kout t (krho t r) x) m0).
Proof.
  intros Hpass Hin Hsep HWF Hsrc HWa HFa.
  pose proof (sh_wf t Hwf) as Hw. pose proof (sh_p t Hwf) as Ep. pose proof (sh_n t Hwf) as En.
  pose proof (sh_D t Hwf) as ED. pose proof (sh_D0 t Hwf) as ED0. pose proof (sh_dr t Hwf) as Edr.
  pose proof (sh_q t Hwf) as Eq. pose proof (k_n2 t Hwf Hq) as Hn2.
  assert (Hshq : gq (sh t) <> 1) by lia.
  pose proof (D0_bounds _ Hw) as HB. pose proof (D0_le_n _ Hw) as HB'. rewrite ED0, ED, En in *.
  unfold gpass. cbv zeta. fold W0. unfold E, kblocks in *. clear E. destruct (Nat.eqb_spec r 0) as [->|Hr].
  - rewrite kplan0.
    destruct ((D =? 1) || (2 * (nq / 2) <? nq)) eqn:Ec.
    + assert (Hodd : D = 1 \/ n mod 2 = 1).
      { apply orb_prop in Ec. destruct Ec as [Ec|Ec]; [left; apply Nat.eqb_eq; assumption|right].
        apply Nat.ltb_lt in Ec. rewrite Hnq in Ec. pose proof (Nat.div_mod n 2 ltac:(lia)).
        pose proof (Nat.mod_upper_bound n 2 ltac:(lia)). lia. }
      pose proof (D0_odd _ Hw Hshq) as HD0. rewrite ED0, ED, En in HD0. specialize (HD0 Hodd).
      assert (Hl1 : l * 1 <= l * D0) by (apply Nat.mul_le_mono_l; lia).
      apply WP_seq. eapply WP_mono; [|apply (Hz1 f W0 x)].
      * intros m2 H2. apply (gtail_ok f F0 W0 _ 1 ((D0 - 1) / 2) 1 D0); try assumption.
        -- rewrite Hbb. lia.
        -- intros E1. rewrite E1 in HB. replace D0 with 1 by lia. cbn. lia.
        -- lia.
        -- pose proof (Nat.div_le_upper_bound (D0 - 1) 2 (D0 - 1) ltac:(lia) ltac:(lia)). lia.
        -- eapply sets_ext; [|exact H2]. intros i c Hi Hc. apply (cval_ext t Hwf Hq) with (N := 1); [|assumption].
           intros b Hb. replace b with 0 by lia. symmetry. apply rho_00. lia.
        -- intros e He. destruct (Nat.eq_dec D 1) as [D1|D1].
           { exfalso. rewrite D1 in HB. lia. }
           unfold krho. rewrite <- ED. apply (rho_tail0 (sh t)); [lia|lia| |lia]. rewrite En.
           destruct Hodd as [|Hodd]; [contradiction|]. rewrite Hodd. reflexivity.
      * assumption.
      * eapply sepbuf_le; [exact Hsep|lia|lia].
      * intros; apply HWa; lia.
    + apply orb_false_elim in Ec. destruct Ec as [Ec1 Ec2]. apply Nat.eqb_neq in Ec1. apply Nat.ltb_ge in Ec2.
      assert (Hev : n mod 2 = 0).
      { rewrite Hnq in Ec2. pose proof (Nat.div_mod n 2 ltac:(lia)). lia. }
      pose proof (D0_even _ Hw Hshq) as HD0. rewrite ED0, ED, En in HD0. specialize (HD0 Ec1 Hev).
      assert (Hl1 : l * 2 <= l * D0) by (apply Nat.mul_le_mono_l; lia).
      apply WP_seq. eapply WP_mono; [|apply (Hz2 Hev f W0 x)].
      * intros m2 H2. apply (gtail_ok f F0 W0 _ 1 ((D0 - 2) / 2) 2 D0); try assumption.
        -- rewrite Hbb. lia.
        -- intros; contradiction.
        -- lia.
        -- pose proof (Nat.div_le_upper_bound (D0 - 2) 2 (D0 - 2) ltac:(lia) ltac:(lia)). lia.
        -- eapply sets_ext; [|exact H2]. intros i c Hi Hc. apply (cval_ext t Hwf Hq) with (N := 2); [|assumption].
           intros b Hb. unfold krho. destruct b as [|[|b]]; [| |lia]; cbn [Nat.eqb].
           ++ symmetry. apply rho_00. lia.
           ++ rewrite (rho_01 (sh t)); [|lia|lia|rewrite En; assumption]. rewrite Ep, Eq. reflexivity.
        -- intros e He. unfold krho. rewrite <- ED. apply (rho_tail0 (sh t)); [lia|lia| |lia]. rewrite En, Hev. reflexivity.
      * assumption.
      * eapply sepbuf_le; [exact Hsep|lia|lia].
      * intros; apply HWa; lia.
  - assert (Hr1' : 1 <= r) by lia.
    assert (HrR : r + kdr t <= n).
    { destruct Hpass as [|(_ & _ & H)]; [contradiction|]. pose proof (R_le_n _ Hw). rewrite En, Edr in *. lia. }
    rewrite kplan. apply (gtail_ok f F0 W0 W0 r (kdr t) 0 D); try assumption.
    + lia.
    + destruct (Nat.eqb_spec D 1) as [D1|D1].
      * rewrite <- Edr, dr_D1 by lia. lia.
      * pose proof (D_even (sh t) r Hw Hshq) as HDe. rewrite Ep, ED in HDe.
        rewrite <- Edr. rewrite (dr_pair (sh t)); [|assumption|lia|pose proof (k_D t Hwf); lia]. rewrite ED.
        cbn [Nat.add]. apply HDe; try assumption; [lia|]. pose proof (k_D t Hwf). lia.
    + intros D1. rewrite <- Edr, dr_D1 by lia. lia.
    + intros _. assumption.
    + rewrite Nat.mul_0_r. split; [intros; lia|]. split; [reflexivity|auto].
    + intros e He. rewrite Nat.sub_0_r. unfold krho. destruct (Nat.eq_dec D 1) as [D1|D1].
      * rewrite rho_D1 by lia. unfold tailrho. rewrite D1. reflexivity.
      * rewrite <- ED. apply rho_tail; lia.
Qed.
End Pass.
