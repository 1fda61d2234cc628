(** The first exchange of mpitranspose among the processes of a block (communicator split). *)
From Coq Require Import List Arith Bool Lia ZArith Permutation.
From Verif Require Import MpiModel MpiDims MpiMachine MpiRun MpiTrModel MpiTrGeom MpiLinks MpiTrForm MpiTrComm MpiTrPhase MpiTrXch.
Import ListNotations.
Local Open Scope nat_scope.
Set Default Proof Using "All".

Section XchA.
Variable V : Type.
Variable c : cfg.
Context {Hc : good c}.
Notation S := (S_ c).
Notation "'U0'" := (n0 c * m0 c * S_ c).
Notation loc := (loc V). Notation prog := (prog V). Notation gst := (gst V).
Notation cmd := (prog -> prog).

Definition count1 (r : nat) : nat := ni c r * mi c r * csz c * a_ c * cL c.
Lemma count1_eq : forall r, subblock c r = true -> count1 r = U0 * a_ c.
Proof. intros r H. unfold count1, S_. destruct (subblock_full c r H) as (_ & _ & -> & ->). ring. Qed.

Definition LS (r : nat) : list link :=
  if subblock c r then a2a_links (count1 r) (schedule c) (split c r) (b_ c) (rk1 c r) (nm1 c r) else [].
Definition itS (sb rb r : nat) : list item :=
  if subblock c r then a2a_items sb rb 1 0 (count1 r) (schedule c) (split c r) (b_ c) (rk1 c r) (nm1 c r) else [].
Definition cpS (r : nat) : option (nat * nat * nat) :=
  if subblock c r then a2a_copy (count1 r) (schedule c) (rk1 c r) else None.
Definition cntS : nat := if schedule c then 2 * (b_ c - 1) else 1.
Definition wlS (r : nat) : list (list (nat * nat)) := if subblock c r then [map (fun i => (1, i)) (seq 0 cntS)] else [].
Definition spost (sb rb r : nat) (k : prog) : prog := post_items V (itS sb rb r) (ocopy V sb rb (cpS r) k).

Definition sctx : nat := if schedule c then 6 else 7.
Lemma LS_in : forall r x, In x (LS r) <-> subblock c r = true /\ exists j, j < b_ c /\ (schedule c = true -> j <> rk1 c r) /\
  x = mkLink (nm1 c r j) sctx (U0 * a_ c * j) (U0 * a_ c) (U0 * a_ c * j) (U0 * a_ c).
Proof.
  intros r x. unfold LS. destruct (subblock c r) eqn:H; [|split; [intros []|intros [E _]; discriminate]].
  destruct (split_is c r H) as (C & E1 & E2 & E3 & E4 & E5 & E6). rewrite a2a_links_in by auto.
  unfold lk_a2a. rewrite count1_eq by auto. rewrite E1, E2. unfold sctx. split.
  - intros (j & J1 & J2 & ->). split; auto. exists j. rewrite (Nat.mul_comm j). auto.
  - intros (_ & j & J1 & J2 & ->). exists j. rewrite (Nat.mul_comm j). auto.
Qed.
Lemma LS_specs : forall sb rb r, specs (itS sb rb r) = specs_of sb rb (LS r).
Proof. intros. unfold itS, LS. destruct (subblock c r); auto. apply a2a_specs. Qed.
Lemma itS_slots : forall sb rb r, NoDup (map islot (itS sb rb r)) /\
  forall a i, In (a, i) (concat (wlS r)) <-> In (a, i) (map islot (itS sb rb r)).
Proof.
  intros. unfold itS, wlS. destruct (subblock c r) eqn:H; [|split; [constructor|reflexivity]].
  destruct (split_is c r H) as (C & E1 & E2 & E3 & E4 & E5 & E6).
  destruct (a2a_slots c sb rb 1 (count1 r) (schedule c) (split c r) (b_ c) (rk1 c r) (nm1 c r) E5) as [N Q].
  split; auto. intros a i. rewrite Q. cbn [concat]. rewrite app_nil_r, in_map_iff. unfold cntS. split.
  - intros (j & E & I). inversion E. apply in_seq in I. lia.
  - intros [-> I]. exists i. split; auto. apply in_seq. lia.
Qed.
Lemma wlS_nodup : forall r, NoDup (concat (wlS r)).
Proof.
  intros r. unfold wlS. destruct (subblock c r); cbn [concat]; [rewrite app_nil_r|constructor].
  apply NoDup_map_inj; [apply seq_NoDup|]. intros x y _ _ E. inversion E; auto.
Qed.
Lemma slotS_bound : forall sb rb r x, In x (itS sb rb r) -> snd (islot x) < reqsize c r (fst (islot x)).
Proof.
  intros sb rb r x I. unfold itS in I. destruct (subblock c r) eqn:H; [|destruct I].
  destruct (split_is c r H) as (C & E1 & E2 & E3 & E4 & E5 & E6).
  destruct (a2a_slots c sb rb 1 (count1 r) (schedule c) (split c r) (b_ c) (rk1 c r) (nm1 c r) E5) as [N Q].
  apply (in_map islot) in I. destruct (islot x) as [a i]. apply Q in I. destruct I as [-> I]. cbn [fst snd].
  unfold reqsize. rewrite E4. destruct (schedule c); lia.
Qed.
Lemma LS_keys : forall r, NoDup (map lkey (LS r)) /\ regions_disj (LS r).
Proof.
  intros r. unfold LS. destruct (subblock c r) eqn:H; [|split; [constructor|intros x y o []]].
  destruct (split_is c r H) as (C & E1 & E2 & E3 & E4 & E5 & E6). split; [apply a2a_links_keys|apply a2a_links_disj]; auto.
Qed.
Lemma S_tot : forall r j, subblock c r = true -> j < b_ c -> U0 * a_ c * j + U0 * a_ c <= cap c r.
Proof.
  intros r j H Hj. destruct (sub_facts c r H) as (H1 & H2 & H3 & _). destruct (subblock_full c r H) as (_ & _ & F1 & F2).
  pose proof (ab_Pbar c H1) as Q. assert (L : b_ c * a_ c * n0 c <= cN c).
  { assert (Hq : a_ c * b_ c - 1 < Pbar c) by lia. pose proof (full_ni c _ Hq) as F.
    pose proof (n0_pos c). pose proof (ni_end c (a_ c * b_ c - 1)) as En. rewrite F in En. specialize (En H0).
    assert (1 <= a_ c * b_ c) by (apply Nat.mul_pos_pos; lia).
    replace (b_ c * a_ c * n0 c) with (n0 c * (a_ c * b_ c - 1) + n0 c); auto.
    rewrite Nat.mul_sub_distr_l. assert (n0 c * 1 <= n0 c * (a_ c * b_ c)) by (apply Nat.mul_le_mono_l; auto).
    rewrite (Nat.mul_comm (b_ c)), (Nat.mul_comm _ (n0 c)). lia. }
  unfold cap. rewrite F1, F2.
  transitivity (cN c * m0 c * S); [|apply Nat.mul_le_mono_r; lia].
  transitivity (U0 * a_ c * b_ c).
  - replace (U0 * a_ c * j + U0 * a_ c) with (U0 * a_ c * (j + 1)) by ring. apply Nat.mul_le_mono_l. lia.
  - replace (U0 * a_ c * b_ c) with (b_ c * a_ c * n0 c * m0 c * S) by ring. apply Nat.mul_le_mono_r, Nat.mul_le_mono_r. auto.
Qed.
Lemma LS_copy : forall r ns nr, cap c r <= ns -> cap c r <= nr -> copy_ok (LS r) ns nr (cpS r).
Proof.
  intros r ns nr Hns Hnr. unfold cpS. destruct (subblock c r) eqn:H; [|exact I]. unfold a2a_copy.
  destruct (schedule c) eqn:Sc; [|exact I]. destruct (split_is c r H) as (C & E1 & E2 & E3 & E4 & E5 & E6).
  cbn [copy_ok]. rewrite count1_eq by auto. rewrite (Nat.mul_comm (rk1 c r)). pose proof (S_tot r (rk1 c r) H E5).
  split; [lia|]. split; [lia|]. intros x o I Ho. apply LS_in in I. destruct I as (_ & j & J1 & J2 & ->). cbn [lroff lrlen].
  intros Ho'. apply (J2 Sc). apply (chunk_uniq' (U0 * a_ c) j (rk1 c r) (U0 * a_ c) (U0 * a_ c) o); auto.
Qed.
Lemma LS_symm : symmetric (size c) LS.
Proof.
  intros r x Hr I. apply LS_in in I. destruct I as (H & j & J1 & J2 & ->). cbn [lpeer lctx lrlen lslen].
  destruct (split_peer c r j H J1) as (P1 & P2 & P3 & P4). split; auto.
  destruct (split_is c r H) as (C & E1 & E2 & E3 & E4 & E5 & E6).
  exists (mkLink (nm1 c (nm1 c r j) (rk1 c r)) sctx (U0 * a_ c * rk1 c r) (U0 * a_ c) (U0 * a_ c * rk1 c r) (U0 * a_ c)).
  split; [|split; [|split]]; [apply LS_in|..]; cbn [lpeer lctx lrlen lslen]; auto.
  - split; auto. exists (rk1 c r). split; auto. split; auto. intros Q. rewrite P3. intros E. apply J2; auto.
  - rewrite P4. auto.
Qed.

Theorem phaseS : forall (g : gst) (pl : nat -> cmd) (k : nat -> prog) (s : nat -> loc) (m1 : nat -> nat -> nat -> V) sb rb bs,
  (sb <> rb \/ schedule c = false) -> In sb bs -> In rb bs ->
  okst V c s bs ->
  (forall r, r < size c -> g r = (pl r (spost sb rb r (waits V (wlS r) (k r))), s r)) ->
  (forall r, r < size c -> runs V (pl r) (s r) (setmem V (s r) (m1 r))) ->
  exists n g2 s2, steps V false (size c) n g g2 /\
    (forall r, r < size c -> g2 r = (k r, s2 r)) /\ (forall r, size c <= r -> g2 r = g r) /\
    okst V c s2 bs /\ (forall r, r < size c -> bsz V (s2 r) = bsz V (s r) /\ slsz V (s2 r) = slsz V (s r)) /\
    (forall r, r < size c ->
      (forall j t, subblock c r = true -> j < b_ c -> t < U0 * a_ c ->
         mem V (s2 r) rb (U0 * a_ c * j + t) = m1 (nm1 c r j) sb (U0 * a_ c * rk1 c r + t)) /\
      (forall b o, b <> rb \/ subblock c r = false \/ U0 * a_ c * b_ c <= o -> mem V (s2 r) b o = m1 r b o)).
Proof.
  intros g pl k s m1 sb rb bs Hb Isb Irb [Bal Qt Sl Bf] Eg Loc.
  assert (Pre : forall r, exists s1, r < size c ->
    runs V (fun k => pl r (spost sb rb r k)) (s r) s1 /\ Posted V (s r) s1 (m1 r) (itS sb rb r) /\
    (forall b o, b <> rb \/ subblock c r = false \/ U0 * a_ c * b_ c <= o -> mem V s1 b o = m1 r b o) /\
    (forall t, subblock c r = true -> schedule c = true -> t < U0 * a_ c ->
       mem V s1 rb (U0 * a_ c * rk1 c r + t) = m1 r sb (U0 * a_ c * rk1 c r + t))).
  { intros r. destruct (Nat.lt_ge_cases r (size c)) as [Hr|]; [|exists (s r); lia].
    set (s0 := setmem V (s r) (m1 r)).
    assert (Q0 : quiet V s0) by (apply (Qt r Hr)).
    destruct (itS_slots sb rb r) as [NDs _].
    assert (Szs : forall x, In x (itS sb rb r) -> snd (islot x) < slsz V s0 (fst (islot x))).
    { intros x I. pose proof (slotS_bound sb rb r x I). pose proof (Sl r (fst (islot x)) Hr).
      unfold s0; cbn [slsz setmem]. lia. }
    destruct (LS_keys r) as [Ks Rg].
    assert (NDL : NoDup (LS r)) by (eapply NoDup_map_inv; eauto).
    assert (Bd : forall x, In x (LS r) -> (0 < lslen x -> lsoff x + lslen x <= bsz V s0 sb) /\ (0 < lrlen x -> lroff x + lrlen x <= bsz V s0 rb)).
    { intros x I. apply LS_in in I. destruct I as (H & j & J1 & J2 & ->). cbn [lsoff lslen lroff lrlen]. unfold s0; cbn [bsz setmem].
      pose proof (Bf r sb Hr Isb). pose proof (Bf r rb Hr Irb). pose proof (S_tot r j H J1). split; lia. }
    pose proof (LS_copy r (bsz V s0 sb) (bsz V s0 rb) (Bf r sb Hr Isb) (Bf r rb Hr Irb)) as CB.
    destruct (Nat.eq_dec sb rb) as [E|E].
    - destruct Hb as [Hb|Sc]; [contradiction|]. destruct (subblock c r) eqn:H.
      + assert (EB : itS sb rb r = [(1, 0, sb =? rb, Some (specs_of sb rb (LS r)))]).
        { unfold itS, LS, a2a_items, a2a_links. rewrite H, Sc. auto. }
        assert (EcB : cpS r = None) by (unfold cpS, a2a_copy; rewrite H, Sc; auto).
        destruct (coll_run V sb rb 1 0 (LS r) s0) as (s1 & R1 & P1 & M1); auto.
        { apply (Szs (1, 0, sb =? rb, Some (specs_of sb rb (LS r)))). rewrite EB. left; auto. }
        exists s1. intros _. rewrite EB. split; [|split; [|split]].
        * apply (runs_seq V (pl r) (spost sb rb r) (s r) s0); [apply Loc; auto|].
          unfold spost. rewrite EB, EcB. exact R1.
        * apply (Posted_pre V (s r) s1 (m1 r) _ (m1 r)). exact P1.
        * intros b o _. rewrite M1. auto.
        * intros; congruence.
      + exists s0. intros _. unfold spost, itS, cpS. rewrite H. cbn [post_items ocopy]. split; [|split; [|split]].
        * apply (runs_seq V (pl r) (fun k => k) (s r) s0); [apply Loc; auto|apply runs_skip].
        * apply Posted_nil.
        * intros; auto.
        * intros; congruence.
    - destruct (pre_run V sb rb (itS sb rb r) [] (cpS r) None (LS r) s0) as (s1 & R1 & P1 & M1); auto.
      { rewrite app_nil_r. apply LS_specs. } { rewrite app_nil_r. auto. } { rewrite app_nil_r. auto. } { exact I. }
      rewrite app_nil_r in P1.
      exists s1. intros _. split; [|split; [|split]].
      + apply (runs_seq V (pl r) (spost sb rb r) (s r) s0); [apply Loc; auto|auto].
      + apply (Posted_pre V (s r) s1 (m1 r) _ (m1 r)). exact P1.
      + intros b o H. rewrite M1. cbn [omem]. destruct (Nat.eq_dec b rb) as [->|Hne]; [|rewrite omem_other; auto].
        destruct H as [H|H]; [contradiction|]. unfold cpS, a2a_copy.
        destruct (subblock c r) eqn:Hs; [|reflexivity]. destruct H as [H|H]; [discriminate|].
        destruct (schedule c); [|reflexivity]. cbn [omem]. unfold move_mem. rewrite count1_eq by auto.
        destruct (split_is c r Hs) as (C & E1 & E2 & E3 & E4 & E5 & E6).
        assert (rk1 c r * (U0 * a_ c) + U0 * a_ c <= o).
        { transitivity (U0 * a_ c * b_ c); auto. replace (rk1 c r * (U0 * a_ c) + U0 * a_ c) with (U0 * a_ c * (rk1 c r + 1)) by ring.
          apply Nat.mul_le_mono_l. lia. }
        destruct (Nat.ltb_spec o (rk1 c r * (U0 * a_ c) + U0 * a_ c)); [lia|]. rewrite andb_false_r. reflexivity.
      + intros t H Sc Ht. rewrite M1. cbn [omem]. unfold cpS, a2a_copy. rewrite H, Sc. rewrite count1_eq by auto.
        rewrite (Nat.mul_comm (rk1 c r)). apply (omem_in V sb rb (U0 * a_ c * rk1 c r) (U0 * a_ c * rk1 c r) (U0 * a_ c)); auto. }
  apply (fchoice loc (fun r s1 => r < size c ->
    runs V (fun k => pl r (spost sb rb r k)) (s r) s1 /\ Posted V (s r) s1 (m1 r) (itS sb rb r) /\
    (forall b o, b <> rb \/ subblock c r = false \/ U0 * a_ c * b_ c <= o -> mem V s1 b o = m1 r b o) /\
    (forall t, subblock c r = true -> schedule c = true -> t < U0 * a_ c ->
       mem V s1 rb (U0 * a_ c * rk1 c r + t) = m1 r sb (U0 * a_ c * rk1 c r + t))) (s 0)) with (K := size c) in Pre.
  destruct Pre as (s1 & CH).
  destruct (link_phase V (size c) g (fun r k => pl r (spost sb rb r k)) wlS k s s1 (itS sb rb) m1 sb rb LS)
    as (n & g2 & s2 & St & E2 & Eo & B2 & Q2 & Z2 & X2); auto.
  - intros r Hr. destruct (CH r Hr Hr) as (C1 & C2 & _). auto.
  - intros r a i Hr. apply itS_slots; auto.
  - intros r Hr. apply wlS_nodup.
  - intros r x Hr I. pose proof (slotS_bound sb rb r x I). pose proof (Sl r (fst (islot x)) Hr). lia.
  - intros r Hr. apply LS_specs.
  - intros r Hr. apply LS_keys.
  - apply LS_symm.
  - exists n, g2, s2. split; auto. split; auto. split; auto. split; [|split; auto].
    { constructor; auto.
      - intros r a Hr. destruct (Z2 r Hr) as [_ ->]. apply Sl; auto.
      - intros r b Hr I. destruct (Z2 r Hr) as [-> _]. apply Bf; auto. }
    intros r Hr. destruct (X2 r Hr) as [XR XO]. destruct (CH r Hr Hr) as (C1 & C2 & C3 & C4).
    split.
    + intros j t G Hj Ht. destruct (split_peer c r j G Hj) as (G1 & G2 & G3 & G4).
      destruct (split_is c r G) as (Cm & K1 & K2 & K3 & K4 & K5 & K6).
      assert (Hsc : schedule c = true /\ j = rk1 c r \/ (schedule c = true -> j <> rk1 c r)).
      { destruct (schedule c); [|right; discriminate]. destruct (Nat.eq_dec j (rk1 c r)); auto. }
      destruct Hsc as [[Sc ->]|Hsc].
      * rewrite K6. rewrite XO; [apply C4; auto|]. intros _ x I.
        pose proof (LS_copy r (cap c r) (cap c r) (le_n _) (le_n _)) as Q. unfold cpS, a2a_copy in Q. rewrite G, Sc in Q.
        cbn [copy_ok] in Q. destruct Q as (_ & _ & Q). rewrite count1_eq in Q by auto. rewrite (Nat.mul_comm (rk1 c r)) in Q.
        apply Q; auto. lia.
      * apply (XR (mkLink (nm1 c r j) sctx (U0 * a_ c * j) (U0 * a_ c) (U0 * a_ c * j) (U0 * a_ c))
                  (mkLink (nm1 c (nm1 c r j) (rk1 c r)) sctx (U0 * a_ c * rk1 c r) (U0 * a_ c) (U0 * a_ c * rk1 c r) (U0 * a_ c)) t); auto.
        -- apply LS_in. eauto.
        -- cbn [lpeer]. apply LS_in. split; auto. exists (rk1 c r). split; auto. split; auto. intros Q. rewrite G3. intros Q'. apply Hsc; auto.
        -- cbn [lpeer]. rewrite G4. auto.
    + intros b o Hb'. rewrite XO; auto. intros -> x I Ho. apply LS_in in I. destruct I as (G & j & J1 & J2 & ->).
      cbn [lroff lrlen] in Ho. destruct Hb' as [Hb'|[Hb'|Hb']]; [contradiction|congruence|].
      assert (U0 * a_ c * (j + 1) <= U0 * a_ c * b_ c) by (apply Nat.mul_le_mono_l; lia).
      rewrite Nat.mul_add_distr_l in H. lia.
Qed.
End XchA.
