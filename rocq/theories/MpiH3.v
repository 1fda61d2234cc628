(** Distributed Hermitian symmetrization: the Nyquist modes, all stages, two dimensions. *)
From Coq Require Import Reals List Arith Bool Lia FunctionalExtensionality.
From Verif Require Import CNum Sums MpiMachine MpiRun MpiTrModel MpiTrGeom MpiTrPhase MpiTrXch MpiTrSpec MpiTrTop MpiColl MpiFftModel MpiFft1 MpiRFft1 MpiCModel MpiC1 MpiHModel MpiHSpec MpiH1 MpiH2.
Import ListNotations.
Local Open Scope nat_scope.
Unset Default Proof Using.

(** start of the processes: no messages, one request *)
Definition start1 (mem : nat -> nat -> C) (bsz : nat -> nat) : loc C :=
  mkLoc C mem bsz (fun _ _ => Uninit) (fun _ => 1) (fun _ _ => []) (fun _ _ => []).

Lemma beg0 : forall Y P r, 0 < Y -> 0 < P -> lbeg Y P r = 0 -> r = 0 /\ 0 < ldim Y P r.
Proof.
  intros Y P r HY HP E. unfold ldim, lbeg in *.
  assert (Hb : 0 < cq Y P).
  { unfold cq. apply Nat.div_str_pos. lia. }
  destruct (Nat.eq_mul_0 (cq Y P) r) as [H _]. specialize (H E). split; lia.
Qed.

Section H.
Variables (X Y P dz : nat).
Variable dn : nat -> nat.
Variable G : nat -> nat -> nat -> C.
Variable mem0 : nat -> nat -> nat -> C.
Variable bsz0 : nat -> nat -> nat.
Hypothesis HX : 0 < X. Hypothesis HY : 0 < Y. Hypothesis HP : 0 < P. Hypothesis Hz : 0 < dz.
Notation y0 := (lbeg Y P). Notation dy := (ldim Y P).
Hypothesis Hdn : forall r, r < P -> X * (dy r * dz) <= dn r.
Hypothesis Hf : forall r, r < P -> X * (dy r * dz) <= bsz0 r 0.
Hypothesis Hu : forall r, r < P -> nxH X <= bsz0 r 1.
Notation xc := (X / 2). Notation yc := (Y / 2). Notation xe := (extra1 X). Notation ye := (extra1 Y).
Notation A := (A Y P dz).
Notation cur := (cur X Y G).
Notation MemI := (MemI X Y P dz G mem0).

Lemma cur_final : forall x y k, y < Y -> (Nat.even X && (x =? 0) || Nat.even Y && (y =? 0)) = false -> cur (Y - yc) x y k = hermitian3 X Y G x y k.
Proof.
  intros x y k Hy E. unfold hermitian3. rewrite E.
  destruct (half_facts X) as (_ & Hx1 & Hx2 & _ & Ex). destruct (half_facts Y) as (_ & Hy1 & Hy2 & _ & Ey). rewrite Ex, Ey in E. clear Ex Ey.
  apply orb_false_iff in E. destruct E as [E1 E2].
  assert (Hx : xe <= x) by (destruct (Nat.eqb_spec xe 1), (Nat.eqb_spec x 0); cbn [andb] in E1; try discriminate; lia).
  assert (Hyy : ye <= y) by (destruct (Nat.eqb_spec ye 1), (Nat.eqb_spec y 0); cbn [andb] in E2; try discriminate; lia).
  unfold MpiH2.cur. destruct (Nat.eqb_spec k 0) as [->|]; cbn [andb]; auto.
  destruct (Nat.leb_spec xe x); [|lia]. rewrite !andb_true_r.
  destruct (Nat.ltb_spec y yc); cbn [andb orb].
  - destruct (Nat.ltb_spec yc (y + (Y - yc))); [reflexivity|lia].
  - destruct (Nat.eqb_spec y yc) as [->|]; cbn [andb]; auto.
    destruct (Nat.ltb_spec 0 (Y - yc)); [|lia]. destruct (Nat.ltb_spec x xc); auto.
    f_equal. f_equal; lia.
Qed.

Record FinI (r : nat) (m : nat -> nat -> C) : Prop := mkFinI {
  fi_f : forall x j k, x < X -> j < dy r -> k < dz -> m 0 (A r x j k) = hermitian3 X Y G x (y0 r + j) k;
  fi_o : forall o, X * (dy r * dz) <= o -> m 0 o = mem0 r 0 o;
  fi_b : forall b o, 2 <= b -> m b o = mem0 r b o }.

Lemma A_h : forall h, dz * (h / dz) + h mod dz = h.
Proof. intros h. symmetry. apply Nat.div_mod_eq. Qed.

Lemma nyq_run : forall r (s : loc C), r < P -> quiet C s -> bsz C s = bsz0 r -> MemI (Y - yc) r (mem C s) ->
  exists m', runs C (nyquist X Y dz (dy r) (y0 r)) s (setmem C s m') /\ FinI r m'.
Proof.
  intros r s Hr Q Z [F O B]. specialize (Hf r Hr).
  destruct (half_facts X) as (_ & Hx1 & Hx2 & _ & Ex). destruct (half_facts Y) as (_ & Hy1 & Hy2 & _ & Ey).
  assert (S1 : exists m1, runs C (if xe =? 1 then fill (dy r * dz) C0 (fun h => (0, dz * (h / dz) + h mod dz)) else skip C) s (setmem C s m1) /\
    (forall x j k, x < X -> j < dy r -> k < dz -> m1 0 (A r x j k) = if Nat.even X && (x =? 0) then C0 else cur (Y - yc) x (y0 r + j) k) /\
    (forall o, X * (dy r * dz) <= o -> m1 0 o = mem0 r 0 o) /\ (forall b o, 2 <= b -> m1 b o = mem0 r b o)).
  { rewrite Ex. destruct (Nat.eqb_spec xe 1) as [E1|N1]; cbn [andb].
    - destruct (fill_run (dy r * dz) C0 (fun h => (0, dz * (h / dz) + h mod dz)) s Q) as (m1 & R1 & W1 & U1).
      + intros h Hh. cbn [fst snd]. rewrite A_h, Z. assert (1 * (dy r * dz) <= X * (dy r * dz)) by (apply Nat.mul_le_mono_r; lia). lia.
      + intros h h' _ _ E. apply (f_equal snd) in E. cbn [snd] in E. rewrite !A_h in E. auto.
      + exists m1. split; [exact R1|]. split; [|split].
        * intros x j k Hx Hj Hk. destruct (Nat.eqb_spec x 0) as [->|Nx].
          -- assert (Lh : A r 0 j k < dy r * dz) by (pose proof (addr_lt (dy r) dz 1 0 j k ltac:(lia) Hj Hk); unfold MpiH2.A; lia).
             specialize (W1 _ Lh). unfold rd2 in W1. cbn [fst snd] in W1. rewrite A_h in W1. exact W1.
          -- rewrite U1; [apply F; auto|]. intros h Hh E. apply (f_equal snd) in E. cbn [snd] in E. rewrite A_h in E.
             unfold MpiH2.A in E. assert (dy r * dz * 1 <= dy r * dz * x) by (apply Nat.mul_le_mono_l; lia). lia.
        * intros o Ho. rewrite U1; auto. intros h Hh E. apply (f_equal snd) in E. cbn [snd] in E. rewrite A_h in E.
          assert (1 * (dy r * dz) <= X * (dy r * dz)) by (apply Nat.mul_le_mono_r; lia). lia.
        * intros b o Hb. rewrite U1; auto. intros h Hh E. apply (f_equal fst) in E. cbn [fst] in E. lia.
    - exists (mem C s). split; [rewrite setmem_sameV; apply runs_skip|]. split; auto. }
  destruct S1 as (m1 & R1 & F1 & O1 & B1).
  assert (S2 : exists m2, runs C (if (ye =? 1) && (y0 r =? 0) then fill (X * dz) C0 (fun h => (0, dy r * dz * (h / dz) + h mod dz)) else skip C) (setmem C s m1) (setmem C s m2) /\
    (forall x j k, x < X -> j < dy r -> k < dz -> m2 0 (A r x j k) = if Nat.even X && (x =? 0) || Nat.even Y && (y0 r + j =? 0) then C0 else cur (Y - yc) x (y0 r + j) k) /\
    (forall o, X * (dy r * dz) <= o -> m2 0 o = mem0 r 0 o) /\ (forall b o, 2 <= b -> m2 b o = mem0 r b o)).
  { rewrite Ey. destruct (Nat.eqb_spec (y0 r) 0) as [E0|N0].
    - destruct (beg0 Y P r HY HP E0) as [_ Hd]. rewrite andb_true_r.
      destruct (Nat.eqb_spec ye 1) as [E1|N1]; cbn [andb].
      + assert (Hm : forall h, h < X * dz -> h / dz < X /\ h mod dz < dz).
        { intros h Hh. split; [apply Nat.div_lt_upper_bound; lia|apply Nat.mod_upper_bound; lia]. }
        assert (EA : forall h, dy r * dz * (h / dz) + h mod dz = A r (h / dz) 0 (h mod dz)) by (intros; unfold MpiH2.A; lia).
        destruct (fill_run (X * dz) C0 (fun h => (0, dy r * dz * (h / dz) + h mod dz)) (setmem C s m1) Q) as (m2 & R2 & W2 & U2).
        * intros h Hh. cbn [fst snd bsz setmem]. destruct (Hm h Hh). rewrite EA, Z. pose proof (addr_lt (dy r) dz X (h / dz) 0 (h mod dz) ltac:(auto) Hd ltac:(auto)). unfold MpiH2.A. lia.
        * intros h h' Hh Hh' E. apply (f_equal snd) in E. cbn [snd] in E. destruct (Hm h Hh), (Hm h' Hh'). rewrite !EA in E. apply addr_inj in E; auto.
          rewrite (Nat.div_mod_eq h dz), (Nat.div_mod_eq h' dz). destruct E as (-> & _ & ->). reflexivity.
        * exists m2. split; [exact R2|]. split; [|split].
          -- intros x j k Hx Hj Hk. destruct (Nat.eqb_spec (y0 r + j) 0) as [Ej|Nj].
             ++ rewrite orb_true_r. assert (j = 0) by lia. subst j.
                assert (Lh : x * dz + k < X * dz) by (assert (S x * dz <= X * dz) by (apply Nat.mul_le_mono_r; lia); lia).
                specialize (W2 _ Lh). unfold rd2 in W2. cbn [fst snd] in W2. rewrite EA in W2.
                rewrite Nat.div_add_l, Nat.div_small, Nat.add_0_r in W2 by lia. rewrite Nat.add_comm, Nat.mod_add, Nat.mod_small in W2 by lia. exact W2.
             ++ rewrite orb_false_r, U2; [apply F1; auto|]. intros h Hh E. apply (f_equal snd) in E. cbn [snd] in E. destruct (Hm h Hh). rewrite EA in E. apply addr_inj in E; auto. lia.
          -- intros o Ho. rewrite U2; auto. intros h Hh E. apply (f_equal snd) in E. cbn [snd] in E. destruct (Hm h Hh). rewrite EA in E.
             pose proof (addr_lt (dy r) dz X (h / dz) 0 (h mod dz) ltac:(auto) Hd ltac:(auto)). unfold MpiH2.A in E. lia.
          -- intros b o Hb. rewrite U2; auto. intros h Hh E. apply (f_equal fst) in E. cbn [fst] in E. lia.
      + exists m1. split; [apply runs_skip|]. rewrite ?orb_false_r. split; auto. intros. rewrite orb_false_r. auto.
    - rewrite andb_false_r. exists m1. split; [apply runs_skip|]. split; auto.
      intros x j k Hx Hj Hk. destruct (Nat.eqb_spec (y0 r + j) 0); [lia|]. rewrite andb_false_r, orb_false_r. auto. }
  destruct S2 as (m2 & R2 & F2 & O2 & B2).
  exists m2. split.
  - intros k. unfold nyquist, seqc. eapply lstar_trans; [apply R1|apply R2].
  - constructor; auto. intros x j k Hx Hj Hk. rewrite F2 by auto.
    destruct (Nat.even X && (x =? 0) || Nat.even Y && (y0 r + j =? 0)) eqn:E.
    + unfold hermitian3. rewrite E. reflexivity.
    + apply cur_final; auto. destruct (beg_dim Y P r); lia.
Qed.

Lemma stages : forall n t (g : gst C) k s, t + n = Y - yc -> InvS X Y P dz G mem0 bsz0 t s -> (forall r, r < P -> g r = (progt X Y P dz dn t r (k r), s r)) ->
  exists N g2 s2, steps C false P N g g2 /\ (forall r, r < P -> g2 r = (k r, s2 r)) /\ InvS X Y P dz G mem0 bsz0 (Y - yc) s2 /\ (forall r, P <= r -> g2 r = g r).
Proof.
  induction n as [|n IH]; intros t g k s Ht I Eg.
  - assert (t = Y - yc) by lia. subst t. exists 0, g, s. split; [constructor|]. split; [|split; auto].
    intros r Hr. rewrite Eg by auto. rewrite (progt_end X Y P dz dn HX HY HP Hz). reflexivity.
  - destruct (stage X Y P dz dn G mem0 bsz0 HX HY HP Hz Hdn Hf Hu t g k s ltac:(lia) I Eg) as (n1 & g1 & s1 & S1 & E1 & I1 & O1).
    destruct (IH (S t) g1 k s1 ltac:(lia) I1 E1) as (n2 & g2 & s2 & S2 & E2 & I2 & O2).
    exists (n1 + n2), g2, s2. split; [eapply steps_trans; eauto|]. split; auto. split; auto. intros r Hr. rewrite O2, O1; auto.
Qed.

Theorem symXY_always : forall N, P <= N -> (forall r, r < P -> slab X Y P dz r (mem0 r 0) G) ->
  always_ends C N (fun r => (symXYall X Y P dz (dn r) r (Halt C), start1 (mem0 r) (bsz0 r)))
    (fun gf => forall r, r < N -> if r <? P then FinI r (mem C (snd (gf r))) else forall b o, mem C (snd (gf r)) b o = mem0 r b o).
Proof.
  intros N HN HG.
  set (g0 := fun r => (symXYall X Y P dz (dn r) r (Halt C), start1 (mem0 r) (bsz0 r))).
  destruct (stages (Y - yc) 0 g0 (fun r => nyquist X Y dz (dy r) (y0 r) (Halt C)) (fun r => start1 (mem0 r) (bsz0 r)) ltac:(lia)) as (n1 & g1 & s1 & S1 & E1 & I1 & O1).
  - constructor.
    + intros p q c _ _. reflexivity.
    + intros r _ a i l. discriminate.
    + reflexivity.
    + intros r _. cbn. lia.
    + intros r Hr. constructor; auto. intros x j k Hx Hj Hk. rewrite (cur0 X Y P dz G HX HY HP Hz). apply (HG r Hr x j k); auto.
  - intros r Hr. unfold g0, symXYall. destruct (Nat.ltb_spec r P); [|lia]. rewrite (progt_start X Y P dz dn HX HY HP Hz). reflexivity.
  - destruct I1 as [B1 Q1 Z1 L1' M1].
    assert (HN' : forall r, r < P -> exists m', runs C (nyquist X Y dz (dy r) (y0 r)) (s1 r) (setmem C (s1 r) m') /\ FinI r m').
    { intros r Hr. apply nyq_run; auto. }
    destruct (fin_choice' (nat -> nat -> C) (fun _ _ => C0) (fun r m' => runs C (nyquist X Y dz (dy r) (y0 r)) (s1 r) (setmem C (s1 r) m') /\ FinI r m') P HN') as [mf Hmf].
    set (g2 := fun r => if r <? P then (Halt C, setmem C (s1 r) (mf r)) else g1 r).
    destruct (all_local C false P g1 g2) as [n2 S2].
    + intros r Hr. unfold g2. rewrite E1 by auto. destruct (Nat.ltb_spec r P); [|lia]. apply Hmf. auto.
    + intros r Hr. unfold g2. destruct (Nat.ltb_spec r P); [lia|auto].
    + assert (E2 : forall r, P <= r -> g2 r = (Halt C, start1 (mem0 r) (bsz0 r))).
      { intros r Hr. unfold g2. destruct (Nat.ltb_spec r P); [lia|]. rewrite O1 by auto. unfold g0, symXYall. destruct (Nat.ltb_spec r P); [lia|]. reflexivity. }
      eapply decides.
      * apply (steps_mono C false P N); [auto|]. eapply steps_trans; [exact S1|exact S2].
      * intros r Hr. destruct (le_lt_dec P r) as [L|L]; [rewrite E2 by auto; reflexivity|]. unfold g2. destruct (Nat.ltb_spec r P); [reflexivity|lia].
      * intros r Hr. destruct (Nat.ltb_spec r P) as [L|L].
        -- unfold g2. destruct (Nat.ltb_spec r P); [|lia]. apply Hmf. auto.
        -- intros b o. rewrite E2 by auto. reflexivity.
Qed.
End H.

(** ** Two dimensions *)
Lemma all_private : forall N (cm : nat -> cmdC) (s0 s1 : nat -> loc C) (Q : gst C -> Prop), (forall r, r < N -> runs C (cm r) (s0 r) (s1 r)) ->
  (forall gf, (forall r, r < N -> snd (gf r) = s1 r) -> Q gf) -> always_ends C N (fun r => (cm r (Halt C), s0 r)) Q.
Proof.
  intros N cm s0 s1 Q H HQ.
  set (g2 := fun r => if r <? N then (Halt C, s1 r) else (cm r (Halt C), s0 r)).
  destruct (all_local C false N (fun r => (cm r (Halt C), s0 r)) g2) as [n S].
  - intros r Hr. unfold g2. destruct (Nat.ltb_spec r N); [|lia]. apply H; auto.
  - intros r Hr. unfold g2. destruct (Nat.ltb_spec r N); [lia|auto].
  - eapply decides; [exact S| |].
    + intros r Hr. unfold g2. destruct (Nat.ltb_spec r N); [reflexivity|lia].
    + apply HQ. intros r Hr. unfold g2. destruct (Nat.ltb_spec r N); [reflexivity|lia].
Qed.

Section H2.
Variables (X Y P : nat).
Variable G : nat -> nat -> C.
Variable mem0 : nat -> nat -> nat -> C.
Variable bsz0 : nat -> nat -> nat.
Hypothesis HX : 0 < X. Hypothesis HY : 0 < Y. Hypothesis HP : 0 < P.
Notation y0 := (lbeg Y P). Notation dy := (ldim Y P).
Hypothesis Hf : forall r, r < P -> X * dy r <= bsz0 r 0.
Notation xc := (X / 2). Notation xe := (extra1 X).
Record Fin2 (r : nat) (m : nat -> nat -> C) : Prop := mkFin2 {
  f2_f : forall x j, x < X -> j < dy r -> m 0 (dy r * x + j) = hermitian2 X G x (y0 r + j);
  f2_o : forall o, X * dy r <= o -> m 0 o = mem0 r 0 o;
  f2_b : forall b o, 1 <= b -> m b o = mem0 r b o }.

Lemma a2 : forall r x j x' j', j < dy r -> j' < dy r -> dy r * x + j = dy r * x' + j' -> x = x' /\ j = j'.
Proof. intros r x j x' j' Hj Hj' E. apply (Nat.div_mod_unique (dy r)); auto. Qed.
Lemma a2_lt : forall r x j, x < X -> j < dy r -> dy r * x + j < X * dy r.
Proof. intros r x j Hx Hj. assert (dy r * S x <= dy r * X) by (apply Nat.mul_le_mono_l; lia). rewrite Nat.mul_succ_r in *. rewrite (Nat.mul_comm X). lia. Qed.

Lemma half_eqb : (X / 2 =? cq X 2) = Nat.even X.
Proof.
  destruct (half_facts X) as (_ & H1 & H2 & H3 & E). rewrite E. change (cq X 2) with (mxH X).
  destruct (Nat.eqb_spec (X / 2) (mxH X)), (Nat.eqb_spec xe 1); auto; lia.
Qed.

Lemma sym2_run : forall r (s : loc C), r < P -> quiet C s -> bsz C s = bsz0 r -> (forall b o, mem C s b o = mem0 r b o) -> columns2 X Y P r (mem0 r 0) G ->
  exists m', runs C (symX X Y P r) s (setmem C s m') /\ Fin2 r m'.
Proof.
  intros r s Hr Q Z E0 HG. specialize (Hf r Hr). destruct (half_facts X) as (_ & Hx1 & Hx2 & Hx3 & Ex).
  change (forall x j, x < X -> j < dy r -> mem0 r 0 (dy r * x + j) = G x (y0 r + j)) in HG.
  (* the last step *)
  assert (Last : forall m1 (K : nat -> nat -> C), (forall x j, x < X -> j < dy r -> m1 0 (dy r * x + j) = K x j) ->
     (forall o, X * dy r <= o -> m1 0 o = mem0 r 0 o) -> (forall b o, 1 <= b -> m1 b o = mem0 r b o) ->
     (forall x j, x < X -> j < dy r -> (Nat.even X && (x =? 0)) = false -> K x j = hermitian2 X G x (y0 r + j)) ->
     exists m', runs C (if X / 2 =? cq X 2 then fill (dy r) C0 (fun h => (0, h)) else skip C) (setmem C s m1) (setmem C s m') /\ Fin2 r m').
  { intros m1 K F O B HK. rewrite half_eqb. destruct (Nat.even X) eqn:Ev; cbn [andb] in HK.
    - destruct (fill_run (dy r) C0 (fun h => (0, h)) (setmem C s m1) Q) as (m2 & R2 & W2 & U2).
      + intros h Hh. cbn [fst snd bsz setmem]. rewrite Z. pose proof (a2_lt r 0 h HX Hh). rewrite Nat.mul_0_r in *. lia.
      + intros h h' _ _ E. apply (f_equal snd) in E. exact E.
      + exists m2. split; [exact R2|]. constructor.
        * intros x j Hx Hj. destruct (Nat.eq_dec x 0) as [->|Nx].
          -- rewrite Nat.mul_0_r. cbn [Nat.add]. specialize (W2 j Hj). unfold rd2 in W2. cbn [fst snd] in W2. rewrite W2. unfold hermitian2. rewrite Ev. reflexivity.
          -- rewrite U2, <- HK by (try (destruct (Nat.eqb_spec x 0); [lia|reflexivity]); auto; intros h Hh E; apply (f_equal snd) in E; cbn [snd] in E; assert (E' : dy r * x + j = dy r * 0 + h) by lia; apply a2 in E'; auto; lia). apply F; auto.
        * intros o Ho. rewrite U2; auto. intros h Hh E. apply (f_equal snd) in E. cbn [snd] in E. pose proof (a2_lt r 0 h HX Hh). rewrite Nat.mul_0_r in *. lia.
        * intros b o Hb. rewrite U2; auto. intros h Hh E. apply (f_equal fst) in E. cbn [fst] in E. lia.
    - exists m1. split; [apply runs_skip|]. constructor; auto. intros x j Hx Hj. rewrite F by auto. apply HK; auto. }
  unfold symX. destruct (Nat.eqb_spec (y0 r) 0) as [Ey|Ny].
  - destruct (beg0 Y P r HY HP Ey) as [_ Hd].
    assert (Ep : forall i, xc * dy r + (i + 1) * dy r = dy r * (xc + (i + 1)) + 0) by (intros; rewrite Nat.mul_add_distr_l, (Nat.mul_comm (i + 1)), (Nat.mul_comm xc); lia).
    assert (Em : forall i, i < cq X 2 - 1 -> xc * dy r - (i + 1) * dy r = dy r * (xc - (i + 1)) + 0).
    { intros i Hi. rewrite <- Nat.mul_sub_distr_r. rewrite Nat.mul_comm. lia. }
    assert (Eo : xc * dy r = dy r * xc + 0) by lia.
    change (cq X 2) with (mxH X) in *.
    destruct (mapw_run (mxH X - 1) Cconj (fun i => (0, xc * dy r + (i + 1) * dy r)) (fun i => (0, xc * dy r - (i + 1) * dy r)) s Q) as (m1 & R1 & W1 & U1).
    + intros h Hh. cbn [fst snd]. rewrite Ep, Z. pose proof (a2_lt r (xc + (h + 1)) 0 ltac:(lia) Hd). lia.
    + intros h Hh. cbn [fst snd]. rewrite Em, Z by auto. pose proof (a2_lt r (xc - (h + 1)) 0 ltac:(lia) Hd). lia.
    + intros h h' Hh Hh' E. apply (f_equal snd) in E. cbn [snd] in E. rewrite !Em in E by auto. apply a2 in E; auto. lia.
    + intros h h' Hh Hh' N E. apply (f_equal snd) in E. cbn [snd] in E. rewrite Ep, Em in E by auto. apply a2 in E; auto. lia.
    + destruct (mapw_run 1 (fun v => RtoC (re v)) (fun _ => (0, xc * dy r)) (fun _ => (0, xc * dy r)) (setmem C s m1) Q) as (m2 & R2 & W2 & U2).
      * intros h Hh. cbn [fst snd bsz setmem]. rewrite Eo, Z. pose proof (a2_lt r xc 0 ltac:(lia) Hd). lia.
      * intros h Hh. cbn [fst snd bsz setmem]. rewrite Eo, Z. pose proof (a2_lt r xc 0 ltac:(lia) Hd). lia.
      * intros; lia. * intros; lia.
      * specialize (W2 0 ltac:(lia)). unfold rd2 in W2. cbn [fst snd mem setmem] in W2.
        assert (K2 : forall b o, (b, o) <> (0, xc * dy r) -> m2 b o = m1 b o) by (intros b o H; rewrite U2; auto).
        destruct (Last m2 (fun x j => if (j =? 0) && (x <? xc) && (xe <=? x) then Cconj (G (2 * xc - x) 0) else if (j =? 0) && (x =? xc) then mkC (re (G x 0)) 0 else G x j)) as (m3 & R3 & F3).
        -- intros x j Hx Hj. destruct (Nat.eqb_spec j 0) as [->|Nj]; cbn [andb].
           ++ destruct (Nat.ltb_spec x xc), (Nat.leb_spec xe x); cbn [andb].
              ** rewrite K2 by (intros E; apply (f_equal snd) in E; cbn [snd] in E; rewrite Eo in E; apply a2 in E; auto; lia).
                 specialize (W1 (xc - x - 1) ltac:(lia)). unfold rd2 in W1. cbn [fst snd] in W1. rewrite Ep, Em in W1 by lia.
                 replace (xc - (xc - x - 1 + 1)) with x in W1 by lia. rewrite W1, E0, HG by lia. rewrite Ey. cbn [Nat.add]. f_equal. f_equal. lia.
              ** destruct (Nat.eqb_spec x xc); [lia|].
                 rewrite K2 by (intros E; apply (f_equal snd) in E; cbn [snd] in E; rewrite Eo in E; apply a2 in E; auto; lia).
                 rewrite U1 by (intros h Hh E; apply (f_equal snd) in E; cbn [snd] in E; rewrite Em in E by auto; apply a2 in E; auto; lia).
                 rewrite E0, HG by lia. rewrite Ey. reflexivity.
              ** destruct (Nat.eqb_spec x xc) as [->|Nx].
                 { rewrite <- Eo. rewrite W2. rewrite U1 by (intros h Hh E; apply (f_equal snd) in E; cbn [snd] in E; rewrite Em, Eo in E by auto; apply a2 in E; auto; lia).
                   rewrite E0, Eo, HG by lia. rewrite Ey. reflexivity. }
                 rewrite K2 by (intros E; apply (f_equal snd) in E; cbn [snd] in E; rewrite Eo in E; apply a2 in E; auto; lia).
                 rewrite U1 by (intros h Hh E; apply (f_equal snd) in E; cbn [snd] in E; rewrite Em in E by auto; apply a2 in E; auto; lia).
                 rewrite E0, HG by lia. rewrite Ey. reflexivity.
              ** destruct (Nat.eqb_spec x xc) as [->|Nx].
                 { rewrite <- Eo. rewrite W2. rewrite U1 by (intros h Hh E; apply (f_equal snd) in E; cbn [snd] in E; rewrite Em, Eo in E by auto; apply a2 in E; auto; lia).
                   rewrite E0, Eo, HG by lia. rewrite Ey. reflexivity. }
                 rewrite K2 by (intros E; apply (f_equal snd) in E; cbn [snd] in E; rewrite Eo in E; apply a2 in E; auto; lia).
                 rewrite U1 by (intros h Hh E; apply (f_equal snd) in E; cbn [snd] in E; rewrite Em in E by auto; apply a2 in E; auto; lia).
                 rewrite E0, HG by lia. rewrite Ey. reflexivity.
           ++ rewrite K2 by (intros E; apply (f_equal snd) in E; cbn [snd] in E; rewrite Eo in E; apply a2 in E; auto; lia).
              rewrite U1 by (intros h Hh E; apply (f_equal snd) in E; cbn [snd] in E; rewrite Em in E by auto; apply a2 in E; auto; lia).
              rewrite E0, HG by lia. rewrite Ey. reflexivity.
        -- intros o Ho. rewrite K2 by (intros E; apply (f_equal snd) in E; cbn [snd] in E; pose proof (a2_lt r xc 0 ltac:(lia) Hd); lia).
           rewrite U1 by (intros h Hh E; apply (f_equal snd) in E; cbn [snd] in E; rewrite Em in E by auto; pose proof (a2_lt r (xc - (h + 1)) 0 ltac:(lia) Hd); lia). auto.
        -- intros b o Hb. rewrite K2 by (intros E; apply (f_equal fst) in E; cbn [fst] in E; lia).
           rewrite U1 by (intros h Hh E; apply (f_equal fst) in E; cbn [fst] in E; lia). auto.
        -- intros x j Hx Hj E. unfold hermitian2. rewrite E, Ey. cbn [Nat.add]. rewrite Ex in E.
           assert (Hxe : xe <= x) by (destruct (Nat.eqb_spec xe 1), (Nat.eqb_spec x 0); cbn [andb] in E; try discriminate; lia).
           destruct (Nat.leb_spec xe x); [|lia]. rewrite andb_true_r. destruct (Nat.eqb_spec j 0) as [->|]; reflexivity.
        -- exists m3. split; [|exact F3]. intros k. unfold seqc. eapply lstar_trans; [apply R1|]. eapply lstar_trans; [apply R2|]. apply R3.
  - destruct (Last (mem C s) (fun x j => G x (y0 r + j))) as (m3 & R3 & F3); auto.
    + intros. rewrite E0. auto.
    + intros x j Hx Hj E. unfold hermitian2. rewrite E. destruct (Nat.eqb_spec (y0 r + j) 0); [lia|]. reflexivity.
    + exists m3. split; [|exact F3]. rewrite setmem_sameV in R3. exact R3.
Qed.

Theorem symX_always : (forall r, r < P -> columns2 X Y P r (mem0 r 0) G) ->
  always_ends C P (fun r => (symX X Y P r (Halt C), start1 (mem0 r) (bsz0 r))) (fun gf => forall r, r < P -> Fin2 r (mem C (snd (gf r)))).
Proof.
  intros HG.
  assert (H : forall r, r < P -> exists m', runs C (symX X Y P r) (start1 (mem0 r) (bsz0 r)) (setmem C (start1 (mem0 r) (bsz0 r)) m') /\ Fin2 r m').
  { intros r Hr. apply sym2_run; auto. intros a i l. discriminate. }
  destruct (fin_choice' _ (fun _ _ => C0) _ P H) as [mf Hmf].
  apply (all_private P (fun r => symX X Y P r) _ (fun r => setmem C (start1 (mem0 r) (bsz0 r)) (mf r))).
  - intros r Hr. apply Hmf. auto.
  - intros gf E r Hr. rewrite E by auto. apply Hmf. auto.
Qed.
End H2.
