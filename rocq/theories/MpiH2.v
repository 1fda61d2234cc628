(** Distributed Hermitian symmetrization: the stages of one rendezvous run; stage t mirrors the column Y/2+t. *)
From Coq Require Import Reals List Arith Bool Lia FunctionalExtensionality.
From Verif Require Import CNum Sums MpiMachine MpiRun MpiTrModel MpiTrGeom MpiTrPhase MpiTrXch MpiTrSpec MpiTrTop MpiColl MpiFftModel MpiFft1 MpiRFft1 MpiCModel MpiC1 MpiHModel MpiHSpec MpiH1.
Import ListNotations.
Local Open Scope nat_scope.
Unset Default Proof Using.

Section H.
Variables (X Y P dz : nat).
Variable dn : nat -> nat.
Variable G : nat -> nat -> nat -> C.
Variable mem0 : nat -> nat -> nat -> C.
Variable bsz0 : nat -> nat -> nat.
Hypothesis HX : 0 < X. Hypothesis HY : 0 < Y. Hypothesis HP : 0 < P. Hypothesis Hz : 0 < dz.
Notation y0 := (lbeg Y P). Notation dy := (ldim Y P).
Hypothesis Hdn : forall r, r < P -> X * (dy r * dz) <= dn r.
Hypothesis Hf : forall r, r < P -> X * (dy r * dz) <= bsz0 r 0.
Hypothesis Hu : forall r, r < P -> nxH X <= bsz0 r 1.
Notation xc := (X / 2). Notation yc := (Y / 2). Notation xe := (extra1 X). Notation ye := (extra1 Y).
Notation locC := (loc C).

Definition cur (t x y k : nat) : C :=
  if k =? 0 then
    if (y <? yc) && (yc <? y + t) && (xe <=? x) then Cconj (G (2 * xc - x) (2 * yc - y) 0)
    else if (y =? yc) && (0 <? t) then
      if (x <? xc) && (xe <=? x) then Cconj (G (2 * xc - x) yc 0) else if x =? xc then mkC (re (G x y k)) 0 else G x y k
    else G x y k
  else G x y k.
Lemma cur0 : forall x y k, cur 0 x y k = G x y k.
Proof.
  intros x y k. unfold cur. destruct (Nat.eqb_spec k 0); auto.
  destruct (Nat.ltb_spec y yc), (Nat.ltb_spec yc (y + 0)); cbn [andb]; try lia; destruct (Nat.eqb_spec y yc); reflexivity.
Qed.
Definition A (r x j k : nat) : nat := dy r * dz * x + dz * j + k.
Record MemI (t r : nat) (m : nat -> nat -> C) : Prop := mkMemI {
  mi_f : forall x j k, x < X -> j < dy r -> k < dz -> m 0 (A r x j k) = cur t x (y0 r + j) k;
  mi_o : forall o, X * (dy r * dz) <= o -> m 0 o = mem0 r 0 o;
  mi_b : forall b o, 2 <= b -> m b o = mem0 r b o }.
Definition owns (r y : nat) : Prop := y0 r <= y < y0 r + dy r.

Lemma cur_same : forall t x y k, (t = 0 -> y <> yc) -> (0 < t -> y + t <> yc) -> cur (S t) x y k = cur t x y k.
Proof.
  intros t x y k H1 H2. unfold cur. destruct (Nat.eqb_spec k 0); auto.
  destruct (Nat.ltb_spec y yc); cbn [andb].
  - assert (y + t <> yc) by (destruct (Nat.eq_dec t 0); [lia|apply H2; lia]).
    destruct (Nat.ltb_spec yc (y + S t)), (Nat.ltb_spec yc (y + t)); cbn [andb]; auto; try lia;
    destruct (Nat.eqb_spec y yc); try lia; auto.
  - destruct (Nat.eqb_spec y yc); cbn [andb]; auto.
    destruct (Nat.ltb_spec 0 (S t)), (Nat.ltb_spec 0 t); auto; try lia.
Qed.
Lemma memI_same : forall t r m m', MemI t r m -> (t = 0 -> ~ owns r yc) -> (0 < t -> t <= yc -> ~ owns r (yc - t)) ->
  (forall b o, b <> 1 -> m' b o = m b o) -> MemI (S t) r m'.
Proof.
  intros t r m m' [F O B] H1 H2 E. constructor.
  - intros x j k Hx Hj Hk. rewrite E by lia. rewrite F by auto. symmetry. apply cur_same.
    + intros -> Ey. apply (H1 eq_refl). unfold owns. lia.
    + intros Ht Ey. apply (H2 Ht ltac:(lia)). unfold owns. lia.
  - intros o Ho. rewrite E by lia. auto.
  - intros b o Hb. rewrite E by lia. auto.
Qed.
Lemma memI_u : forall t r m m', MemI t r m -> (forall b o, b <> 1 -> m' b o = m b o) -> MemI t r m'.
Proof. intros t r m m' [F O B] E. constructor; intros; rewrite E by lia; auto. Qed.
(** column yc-t of process r receives the conjugates *)
Lemma memI_col : forall t r m m' jj, MemI t r m -> 0 < t -> jj < dy r -> y0 r + jj + t = yc ->
  (forall i, i < nxH X -> m' 0 (A r (i + xe) jj 0) = Cconj (G (X - 1 - i) (yc + t) 0)) ->
  (forall b o, (forall i, i < nxH X -> (b, o) <> (0, A r (i + xe) jj 0)) -> b <> 1 -> m' b o = m b o) -> MemI (S t) r m'.
Proof.
  intros t r m m' jj [F O B] Ht Hjj Ey W U. destruct (half_facts X) as (_ & Hx1 & Hx2 & _). constructor.
  - intros x j k Hx Hj Hk.
    assert (Ncur : ~ (j = jj /\ k = 0 /\ xe <= x) -> m' 0 (A r x j k) = cur (S t) x (y0 r + j) k).
    { intros N. rewrite U; [|intros i Hi E; apply (f_equal snd) in E; cbn [snd] in E; apply addr_inj in E; auto; lia|lia]. rewrite F by auto.
      destruct (Nat.eq_dec j jj) as [->|Nj]; [|symmetry; apply cur_same; lia].
      unfold cur. destruct (Nat.eqb_spec k 0); auto.
      destruct (Nat.leb_spec xe x); [exfalso; apply N; auto|]. rewrite !andb_false_r.
      destruct (Nat.eqb_spec (y0 r + jj) yc); [lia|]. reflexivity. }
    destruct (Nat.eq_dec j jj) as [->|Nj]; [|apply Ncur; lia].
    destruct (Nat.eq_dec k 0) as [->|Nk]; [|apply Ncur; lia].
    destruct (le_lt_dec xe x) as [Lx|Lx]; [|apply Ncur; lia].
    replace x with (x - xe + xe) at 1 by lia. unfold nxH in *. rewrite W by lia.
    unfold cur. cbn [Nat.eqb]. destruct (Nat.ltb_spec (y0 r + jj) yc), (Nat.ltb_spec yc (y0 r + jj + S t)), (Nat.leb_spec xe x); try lia.
    cbn [andb]. f_equal. f_equal; lia.
  - intros o Ho. rewrite U; [auto| |lia]. intros i Hi E. apply (f_equal snd) in E; cbn [snd] in E. unfold nxH in Hi.
    pose proof (addr_lt (dy r) dz X (i + xe) jj 0 ltac:(lia) Hjj Hz). unfold A in E. lia.
  - intros b o Hb. rewrite U; [auto| |lia]. intros i Hi E. injection E as -> E. lia.
Qed.
Lemma memI_up : forall t r m j i, MemI t r m -> j < dy r -> y0 r + j = yc + t -> i < nxH X -> m 0 (A r (X - 1 - i) j 0) = G (X - 1 - i) (yc + t) 0.
Proof.
  intros t r m j i [F O B] Hj Ey Hi. unfold nxH in Hi. rewrite F by lia. unfold cur. cbn [Nat.eqb].
  destruct (Nat.ltb_spec (y0 r + j) yc); [lia|]. cbn [andb].
  destruct (Nat.eqb_spec (y0 r + j) yc), (Nat.ltb_spec 0 t); cbn [andb]; try lia; f_equal; lia.
Qed.

Lemma quiet_setmem : forall (s : locC) m, quiet C s -> quiet C (setmem C s m).
Proof. intros s m Q. exact Q. Qed.
Lemma setmem2 : forall (s : locC) m m', setmem C (setmem C s m) m' = setmem C s m'.
Proof. intros [] m m'. reflexivity. Qed.

(** filling u *)
Lemma fillu_run : forall t r (s : locC) j, r < P -> quiet C s -> bsz C s = bsz0 r -> MemI t r (mem C s) -> j < dy r -> y0 r + j = yc + t ->
  exists m', runsC (mapw (nxH X) Cconj (fun i => (0, strideH Y P dz r * (X - 1 - i) + dz * j)) (fun i => (1, i))) s (setmem C s m') /\
    (forall i, i < nxH X -> m' 1 i = Cconj (G (X - 1 - i) (yc + t) 0)) /\ (forall b o, b <> 1 -> m' b o = mem C s b o).
Proof.
  intros t r s j Hr Q Z M Hj Ey.
  assert (EA : forall i, strideH Y P dz r * (X - 1 - i) + dz * j = A r (X - 1 - i) j 0) by (intros; unfold A; lia || (unfold strideH, hdy; lia)).
  destruct (mapw_run (nxH X) Cconj (fun i => (0, strideH Y P dz r * (X - 1 - i) + dz * j)) (fun i => (1, i)) s Q) as (m' & R & W & U).
  - intros h Hh. cbn [fst snd]. rewrite EA, Z. unfold nxH in Hh. pose proof (addr_lt (dy r) dz X (X - 1 - h) j 0 ltac:(lia) Hj Hz). specialize (Hf r Hr). unfold A. lia.
  - intros h Hh. cbn [fst snd]. rewrite Z. specialize (Hu r Hr). lia.
  - intros h h' _ _ E. injection E. auto.
  - intros h h' _ _ _ E. discriminate.
  - exists m'. split; [exact R|]. split.
    + intros i Hi. specialize (W i Hi). unfold rd2 in W. cbn [fst snd] in W. rewrite W, EA. f_equal. apply memI_up; auto.
    + intros b o Hb. apply U. intros h Hh E. injection E as -> _. lia.
Qed.
(** storing u in a column *)
Lemma storeu_run : forall t r (s : locC) jj, r < P -> quiet C s -> bsz C s = bsz0 r -> MemI t r (mem C s) -> 0 < t -> jj < dy r -> y0 r + jj + t = yc ->
  (forall i, i < nxH X -> mem C s 1 i = Cconj (G (X - 1 - i) (yc + t) 0)) ->
  exists m', runsC (mapw (nxH X) (fun v => v) (fun i => (1, i)) (fun i => (0, strideH Y P dz r * (i + xe) + dz * jj))) s (setmem C s m') /\ MemI (S t) r m'.
Proof.
  intros t r s jj Hr Q Z M Ht Hj Ey HU.
  destruct (half_facts X) as (_ & Hx1 & Hx2 & _).
  assert (EA : forall i, strideH Y P dz r * (i + xe) + dz * jj = A r (i + xe) jj 0) by (intros; unfold A, strideH, hdy; lia).
  destruct (mapw_run (nxH X) (fun v => v) (fun i => (1, i)) (fun i => (0, strideH Y P dz r * (i + xe) + dz * jj)) s Q) as (m' & R & W & U).
  - intros h Hh. cbn [fst snd]. rewrite Z. specialize (Hu r Hr). lia.
  - intros h Hh. cbn [fst snd]. rewrite EA, Z. unfold nxH in Hh. pose proof (addr_lt (dy r) dz X (h + xe) jj 0 ltac:(lia) Hj Hz). specialize (Hf r Hr). unfold A. lia.
  - intros h h' _ _ E. apply (f_equal snd) in E; cbn [snd] in E. rewrite !EA in E. apply addr_inj in E; auto. lia.
  - intros h h' _ _ _ E. discriminate.
  - exists m'. split; [exact R|]. apply (memI_col t r (mem C s) m' jj); auto.
    + intros i Hi. specialize (W i Hi). unfold rd2 in W. cbn [fst snd] in W. rewrite EA in W. rewrite W. auto.
    + intros b o Hb Hb1. apply U. intros h Hh. rewrite EA. auto.
Qed.
(** the origin *)
Lemma origin_run : forall r (s : locC) j, r < P -> quiet C s -> bsz C s = bsz0 r -> MemI 0 r (mem C s) -> j < dy r -> y0 r + j = yc ->
  exists m', runsC (originH X Y P dz r j) s (setmem C s m') /\ MemI 1 r m'.
Proof.
  intros r s j Hr Q Z M Hj Ey. destruct (half_facts X) as (E0 & Hx1 & Hx2 & Hx3 & _). specialize (Hf r Hr).
  assert (Eo : strideH Y P dz r * orig X + dz * j = A r xc j 0) by (unfold A, strideH, hdy; rewrite E0; lia).
  assert (Ep : forall i, A r xc j 0 + (i + 1) * strideH Y P dz r = A r (xc + (i + 1)) j 0) by (intros; unfold A, strideH, hdy; rewrite (Nat.mul_add_distr_l _ xc), (Nat.mul_comm (i + 1)); lia).
  assert (Em : forall i, i < mxH X - 1 -> A r xc j 0 - (i + 1) * strideH Y P dz r = A r (xc - (i + 1)) j 0).
  { intros i Hi. assert (E : A r xc j 0 = A r (xc - (i + 1)) j 0 + (i + 1) * strideH Y P dz r); [|lia].
    replace (A r xc j 0) with (A r (xc - (i + 1) + (i + 1)) j 0) by (f_equal; lia). unfold A, strideH, hdy. rewrite (Nat.mul_add_distr_l _ (xc - (i + 1))), (Nat.mul_comm (i + 1)). lia. }
  assert (LA : forall x, x < X -> A r x j 0 < bsz C s 0) by (intros x Hx; rewrite Z; pose proof (addr_lt (dy r) dz X x j 0 Hx Hj Hz); unfold A; lia).
  assert (Inj : forall x x', A r x j 0 = A r x' j 0 -> x = x') by (intros x x' E; apply addr_inj in E; tauto).
  unfold originH. rewrite Eo.
  destruct (mapw_run 1 (fun v => RtoC (re v)) (fun _ => (0, A r xc j 0)) (fun _ => (0, A r xc j 0)) s Q) as (m1 & R1 & W1 & U1).
  - intros h Hh. apply LA. lia. - intros h Hh. apply LA. lia. - intros; lia. - intros; lia.
  - destruct (mapw_run (mxH X - 1) Cconj (fun i => (0, A r xc j 0 + (i + 1) * strideH Y P dz r)) (fun i => (0, A r xc j 0 - (i + 1) * strideH Y P dz r)) (setmem C s m1) Q) as (m2 & R2 & W2 & U2).
    + intros h Hh. cbn [fst snd]. rewrite Ep. apply LA. lia.
    + intros h Hh. cbn [fst snd]. rewrite Em by auto. apply LA. lia.
    + intros h h' Hh Hh' E. apply (f_equal snd) in E; cbn [snd] in E. rewrite !Em in E by auto. apply Inj in E. lia.
    + intros h h' Hh Hh' N E. apply (f_equal snd) in E; cbn [snd] in E. rewrite Ep, Em in E by auto. apply Inj in E. lia.
    + exists m2. split; [intros k; unfold seqc; eapply lstar_trans; [apply R1|rewrite <- (setmem2 s m1 m2); apply R2]|].
      destruct M as [F O B].
      assert (V0 : m1 0 (A r xc j 0) = mkC (re (G xc yc 0)) 0).
      { specialize (W1 0 ltac:(lia)). unfold rd2 in W1. cbn [fst snd] in W1. rewrite W1, F by lia.
        rewrite cur0, Ey. reflexivity. }
      assert (K1 : forall b o, (b, o) <> (0, A r xc j 0) -> m1 b o = mem C s b o) by (intros b o H; apply U1; auto).
      constructor.
      * intros x j' k Hx Hj' Hk.
        destruct (Nat.eq_dec j' j) as [->|Nj]; [destruct (Nat.eq_dec k 0) as [->|Nk]|].
        -- unfold cur. cbn [Nat.eqb]. rewrite Ey, Nat.ltb_irrefl, Nat.eqb_refl. cbn [andb].
           destruct (Nat.ltb_spec 0 1); [|lia].
           destruct (Nat.ltb_spec x xc), (Nat.leb_spec xe x); cbn [andb].
           ++ specialize (W2 (xc - x - 1) ltac:(lia)). unfold rd2 in W2. cbn [fst snd] in W2. rewrite Ep, Em in W2 by lia.
              replace (xc - (xc - x - 1 + 1)) with x in W2 by lia. rewrite W2. cbn [mem setmem].
              rewrite K1 by (intros E; apply (f_equal snd) in E; cbn [snd] in E; apply Inj in E; lia). rewrite F by lia. rewrite cur0, Ey. f_equal. f_equal; lia.
           ++ rewrite U2 by (intros h Hh E; rewrite Em in E by auto; apply (f_equal snd) in E; cbn [snd] in E; apply Inj in E; lia). cbn [mem setmem].
              destruct (Nat.eqb_spec x xc); [lia|].
              rewrite K1 by (intros E; apply (f_equal snd) in E; cbn [snd] in E; apply Inj in E; lia). rewrite F by lia.
              rewrite cur0, Ey. reflexivity.
           ++ rewrite U2 by (intros h Hh E; rewrite Em in E by auto; apply (f_equal snd) in E; cbn [snd] in E; apply Inj in E; lia). cbn [mem setmem].
              destruct (Nat.eqb_spec x xc) as [->|]; [exact V0|].
              rewrite K1 by (intros E; apply (f_equal snd) in E; cbn [snd] in E; apply Inj in E; lia). rewrite F by lia.
              rewrite cur0, Ey. reflexivity.
           ++ rewrite U2 by (intros h Hh E; rewrite Em in E by auto; apply (f_equal snd) in E; cbn [snd] in E; apply Inj in E; lia). cbn [mem setmem].
              destruct (Nat.eqb_spec x xc) as [->|]; [exact V0|].
              rewrite K1 by (intros E; apply (f_equal snd) in E; cbn [snd] in E; apply Inj in E; lia). rewrite F by lia.
              rewrite cur0, Ey. reflexivity.
        -- rewrite U2 by (intros h Hh E; rewrite Em in E by auto; apply (f_equal snd) in E; cbn [snd] in E; apply addr_inj in E; auto; lia). cbn [mem setmem].
           rewrite K1 by (intros E; apply (f_equal snd) in E; cbn [snd] in E; apply addr_inj in E; auto; lia). rewrite F by lia.
           unfold cur. destruct (Nat.eqb_spec k 0); [lia|auto].
        -- rewrite U2 by (intros h Hh E; rewrite Em in E by auto; apply (f_equal snd) in E; cbn [snd] in E; apply addr_inj in E; auto; lia). cbn [mem setmem].
           rewrite K1 by (intros E; apply (f_equal snd) in E; cbn [snd] in E; apply addr_inj in E; auto; lia). rewrite F by lia.
           symmetry. apply cur_same; lia.
      * intros o Ho. rewrite U2. 2:{ intros h Hh E. rewrite Em in E by auto. apply (f_equal snd) in E; cbn [snd] in E. pose proof (addr_lt (dy r) dz X (xc - (h + 1)) j 0 ltac:(lia) Hj Hz). unfold A in E. lia. }
        cbn [mem setmem]. rewrite K1; auto. intros E. apply (f_equal snd) in E; cbn [snd] in E. pose proof (addr_lt (dy r) dz X xc j 0 ltac:(lia) Hj Hz). unfold A in E. lia.
      * intros b o Hb. rewrite U2 by (intros h Hh E; injection E as E; lia). cbn [mem setmem]. rewrite K1; auto. intros E. injection E as E; lia.
Qed.

(** ** The remaining programs at stage t *)
Notation top r := (Nat.min (hdy Y P r) (startH Y P r)).
Definition L1 (t r : nat) : cmdC :=
  let i := Nat.max (startH Y P r) (yc + t - y0 r) in floop C i (hdy Y P r - i) (upper X Y P dz (dn r) r).
Definition L2 (t r : nat) : cmdC :=
  let i := top r - Nat.min (top r) (yc + 1 - t - y0 r) in
  floop C i (top r - j0H Y P r - i) (fun s => lower X Y P dz r (top r - 1 - s)).
Definition progt (t r : nat) : cmdC := seqc C (L1 t r) (L2 t r).

Lemma startH_eq : forall r, startH Y P r = yc - y0 r.
Proof.
  intros r. destruct (half_facts Y) as (E & _). unfold startH, hy0. rewrite E. destruct (Nat.ltb_spec (y0 r) yc); lia.
Qed.
Lemma L1_next : forall t r, ~ owns r (yc + t) -> L1 t r = L1 (S t) r.
Proof.
  intros t r H. unfold L1. rewrite startH_eq. unfold hdy, owns in *.
  destruct (le_lt_dec (y0 r + dy r) (yc + t)).
  - replace (dy r - Nat.max (yc - y0 r) (yc + t - y0 r)) with 0 by lia. replace (dy r - Nat.max (yc - y0 r) (yc + S t - y0 r)) with 0 by lia. reflexivity.
  - replace (Nat.max (yc - y0 r) (yc + S t - y0 r)) with (Nat.max (yc - y0 r) (yc + t - y0 r)) by lia. reflexivity.
Qed.
Lemma L1_none : forall t r, y0 r + dy r <= yc + t -> L1 t r = skip C.
Proof.
  intros t r H. unfold L1. rewrite startH_eq. unfold hdy.
  replace (dy r - Nat.max (yc - y0 r) (yc + t - y0 r)) with 0 by lia. reflexivity.
Qed.
Lemma L1_here : forall t r, owns r (yc + t) -> L1 t r = seqc C (upper X Y P dz (dn r) r (yc + t - y0 r)) (L1 (S t) r).
Proof.
  intros t r H. unfold L1. rewrite startH_eq. unfold hdy, owns in *.
  replace (Nat.max (yc - y0 r) (yc + t - y0 r)) with (yc + t - y0 r) by lia.
  replace (dy r - (yc + t - y0 r)) with (S (dy r - Nat.max (yc - y0 r) (yc + S t - y0 r))) by lia. cbn [floop].
  replace (Nat.max (yc - y0 r) (yc + S t - y0 r)) with (S (yc + t - y0 r)) by lia. reflexivity.
Qed.
Lemma j0_eq : forall r, j0H Y P r = if y0 r =? 0 then ye else 0.
Proof. reflexivity. Qed.
Lemma L2_next : forall t r, (0 < t -> t <= yc -> ~ owns r (yc - t)) -> L2 t r = L2 (S t) r.
Proof.
  intros t r H. unfold L2. rewrite startH_eq. unfold hdy, owns in *.
  destruct (Nat.eq_dec t 0) as [->|Nt].
  { replace (Nat.min (Nat.min (dy r) (yc - y0 r)) (yc + 1 - 1 - y0 r)) with (Nat.min (dy r) (yc - y0 r)) by lia.
    replace (Nat.min (Nat.min (dy r) (yc - y0 r)) (yc + 1 - 0 - y0 r)) with (Nat.min (dy r) (yc - y0 r)) by lia. reflexivity. }
  destruct (le_lt_dec t yc) as [Lt|Lt].
  - specialize (H ltac:(lia) Lt).
    destruct (le_lt_dec (y0 r) (yc - t)).
    + replace (Nat.min (Nat.min (dy r) (yc - y0 r)) (yc + 1 - t - y0 r)) with (Nat.min (dy r) (yc - y0 r)) by lia.
      replace (Nat.min (Nat.min (dy r) (yc - y0 r)) (yc + 1 - S t - y0 r)) with (Nat.min (dy r) (yc - y0 r)) by lia. reflexivity.
    + replace (yc + 1 - t - y0 r) with 0 by lia. replace (yc + 1 - S t - y0 r) with 0 by lia. reflexivity.
  - replace (yc + 1 - S t - y0 r) with 0 by lia. replace (yc + 1 - t - y0 r) with 0 by lia. reflexivity.
Qed.
Lemma L2_here : forall t r, 0 < t -> t < Y - yc -> t <= yc -> owns r (yc - t) ->
  L2 t r = seqc C (lower X Y P dz r (yc - t - y0 r)) (L2 (S t) r).
Proof.
  intros t r Ht HT Ly H. unfold L2. rewrite startH_eq, j0_eq. unfold hdy, owns in *.
  destruct (half_facts Y) as (_ & Hy1 & Hy2 & _).
  set (top := Nat.min (dy r) (yc - y0 r)). set (j0 := if y0 r =? 0 then ye else 0).
  assert (Hj0 : j0 <= yc - t - y0 r) by (unfold j0; destruct (Nat.eqb_spec (y0 r) 0); lia).
  replace (Nat.min top (yc + 1 - t - y0 r)) with (yc + 1 - t - y0 r) by lia.
  replace (Nat.min top (yc + 1 - S t - y0 r)) with (yc - t - y0 r) by lia.
  replace (top - j0 - (top - (yc + 1 - t - y0 r))) with (S (top - j0 - (top - (yc - t - y0 r)))) by lia. cbn [floop].
  replace (S (top - (yc + 1 - t - y0 r))) with (top - (yc - t - y0 r)) by lia.
  replace (top - 1 - (top - (yc + 1 - t - y0 r))) with (yc - t - y0 r) by lia. reflexivity.
Qed.
Lemma progt_end : forall r, progt (Y - yc) r = skip C.
Proof.
  intros r. unfold progt, L1, L2. rewrite startH_eq, j0_eq. unfold hdy. destruct (half_facts Y) as (_ & Hy1 & Hy2 & _).
  destruct (beg_dim Y P r) as [E|E].
  - rewrite E. reflexivity.
  - replace (dy r - Nat.max (yc - y0 r) (yc + (Y - yc) - y0 r)) with 0 by lia.
    set (top := Nat.min (dy r) (yc - y0 r)).
    match goal with |- seqc C _ (floop C ?i ?n ?b) = _ => replace n with 0; [reflexivity|] end.
    destruct (Nat.eqb_spec (y0 r) 0); lia.
Qed.
Lemma progt_start : forall r, progt 0 r = seqc C (floop C (startH Y P r) (hdy Y P r - startH Y P r) (upper X Y P dz (dn r) r))
    (forc C (top r - j0H Y P r) (fun s => lower X Y P dz r (top r - 1 - s))).
Proof.
  intros r. unfold progt, L1, L2, forc. rewrite startH_eq.
  replace (Nat.max (yc - y0 r) (yc + 0 - y0 r)) with (yc - y0 r) by lia.
  replace (Nat.min (hdy Y P r) (yc - y0 r) - Nat.min (Nat.min (hdy Y P r) (yc - y0 r)) (yc + 1 - 0 - y0 r)) with 0 by lia.
  rewrite Nat.sub_0_r. reflexivity.
Qed.

(** ** One stage *)
Record InvS (t : nat) (s : nat -> locC) : Prop := mkInvS {
  is_bal : balanced C P s;
  is_q : forall r, r < P -> quiet C (s r);
  is_z : forall r, r < P -> bsz C (s r) = bsz0 r;
  is_l : forall r, r < P -> 0 < slsz C (s r) 0;
  is_m : forall r, r < P -> MemI t r (mem C (s r)) }.

Lemma owner_of : forall y, y < Y -> owner Y P y P < P /\ owns (owner Y P y P) y.
Proof. intros y Hy. apply owner_is. apply own_ex; auto. Qed.
Lemma reflect_up : forall t r, t < Y - yc -> owns r (yc + t) -> reflect Y P r (yc + t - y0 r) = owner Y P (yc - t) P.
Proof. intros t r Ht H. unfold reflect, hy0, owns in *. destruct (half_facts Y) as (-> & _). f_equal. lia. Qed.
Lemma reflect_dn : forall t r, t <= yc -> owns r (yc - t) -> reflect Y P r (yc - t - y0 r) = owner Y P (yc + t) P.
Proof. intros t r Ht H. unfold reflect, hy0, owns in *. destruct (half_facts Y) as (-> & _). f_equal. lia. Qed.

Lemma inv_map : forall t t' (s : nat -> locC) p m', InvS t s -> p < P -> MemI t' p m' -> (forall r, r < P -> r <> p -> MemI t' r (mem C (s r))) ->
  InvS t' (fun r => if r =? p then setmem C (s p) m' else s r).
Proof.
  intros t t' s p m' [B Q Z L M] Hp Hm Ho. constructor.
  - intros a b c Ha Hb. destruct (Nat.eqb_spec a p), (Nat.eqb_spec b p); subst; cbn [slog rlog setmem]; apply B; auto.
  - intros r Hr. destruct (Nat.eqb_spec r p) as [->|N]; [exact (Q p Hp)|auto].
  - intros r Hr. destruct (Nat.eqb_spec r p) as [->|N]; [exact (Z p Hp)|auto].
  - intros r Hr. destruct (Nat.eqb_spec r p) as [->|N]; [exact (L p Hp)|auto].
  - intros r Hr. destruct (Nat.eqb_spec r p) as [->|N]; [exact Hm|auto].
Qed.

Lemma stage : forall t (g : gst C) k s, t < Y - yc -> InvS t s -> (forall r, r < P -> g r = (progt t r (k r), s r)) ->
  exists n g2 s2, steps C false P n g g2 /\ (forall r, r < P -> g2 r = (progt (S t) r (k r), s2 r)) /\ InvS (S t) s2 /\ (forall r, P <= r -> g2 r = g r).
Proof.
  intros t g k s HT I Eg. destruct (half_facts Y) as (Ho & Hy1 & Hy2 & _).
  assert (Hty : t <= yc) by lia.
  destruct (owner_of (yc + t) ltac:(lia)) as [Hp Op]. destruct (owner_of (yc - t) ltac:(lia)) as [Hq Oq].
  set (p := owner Y P (yc + t) P) in *. set (q := owner Y P (yc - t) P) in *.
  assert (Up : forall r, owns r (yc + t) -> r = p) by (intros r H; apply (own_unique Y P (yc + t)); auto).
  assert (Uq : forall r, owns r (yc - t) -> r = q) by (intros r H; apply (own_unique Y P (yc - t)); auto).
  destruct I as [B Q Z L M].
  assert (Other : forall r, r < P -> r <> p -> r <> q -> progt t r = progt (S t) r).
  { intros r Hr Np Nq. unfold progt. rewrite L1_next by (intros H; apply Np; auto). rewrite (L2_next t r) by (intros _ _ H; apply Nq; auto). reflexivity. }
  assert (OtherM : forall r m, r < P -> r <> q -> MemI t r (mem C (s r)) -> (forall b o, b <> 1 -> m b o = mem C (s r) b o) -> MemI (S t) r m).
  { intros r m Hr Nq Hm E. refine (memI_same t r (mem C (s r)) m Hm _ _ E).
    - intros E0 H. apply Nq, Uq. rewrite E0, Nat.sub_0_r. exact H.
    - intros _ _ H. apply Nq, Uq. exact H. }
  destruct (Nat.eq_dec q p) as [Eqp|Nqp].
  - (* local *)
    assert (Hloc : exists m', runsC (upper X Y P dz (dn p) p (yc + t - y0 p)) (s p) (setmem C (s p) m') /\ MemI (S t) p m').
    { unfold owns in Op, Oq. rewrite Eqp in Oq.
      destruct (fillu_run t p (s p) (yc + t - y0 p) Hp (Q p Hp) (Z p Hp) (M p Hp) ltac:(lia) ltac:(lia)) as (m1 & R1 & W1 & F1).
      assert (M1 : MemI t p m1) by (apply (memI_u t p (mem C (s p))); auto).
      unfold upper. rewrite reflect_up by auto. fold q. rewrite Eqp, Nat.eqb_refl. cbn [negb]. rewrite Ho. unfold hy0.
      destruct (Nat.eqb_spec (y0 p + (yc + t - y0 p)) yc) as [E0|N0]; cbn [negb].
      - assert (t = 0) by lia. subst t.
        destruct (origin_run p (setmem C (s p) m1) (yc + 0 - y0 p) Hp (Q p Hp) (Z p Hp) M1 ltac:(lia) ltac:(lia)) as (m2 & R2 & M2).
        exists m2. split; auto. intros k0. unfold seqc. eapply lstar_trans; [apply R1|]. rewrite <- (setmem2 (s p) m1 m2). apply R2.
      - rewrite copyback_map.
        + destruct (storeu_run t p (setmem C (s p) m1) (2 * (yc - y0 p) - (yc + t - y0 p)) Hp (Q p Hp) (Z p Hp) M1 ltac:(lia) ltac:(lia) ltac:(lia) W1) as (m2 & R2 & M2).
          exists m2. split; auto. intros k0. unfold seqc. eapply lstar_trans; [apply R1|]. rewrite <- (setmem2 (s p) m1 m2). apply R2.
        + intros i Hi. unfold nxH in Hi. destruct (half_facts X) as (_ & Hx1 & Hx2 & _).
          pose proof (addr_lt (dy p) dz X (i + xe) (2 * (yc - y0 p) - (yc + t - y0 p)) 0 ltac:(lia) ltac:(lia) Hz). specialize (Hdn p Hp). unfold strideH, hdy. lia. }
    destruct Hloc as (m' & R' & M').
    set (s2 := fun r => if r =? p then setmem C (s p) m' else s r).
    set (g2 := fun r => if r <? P then (progt (S t) r (k r), s2 r) else g r).
    destruct (all_local C false P g g2) as [n St].
    + intros r Hr. unfold g2, s2. rewrite Eg by auto. destruct (Nat.ltb_spec r P); [|lia].
      destruct (Nat.eqb_spec r p) as [->|N].
      * unfold progt. rewrite L1_here by auto.
        assert (E2 : L2 t p = L2 (S t) p).
        { destruct (Nat.eq_dec t 0) as [E0|N0]; [apply L2_next; lia|]. rewrite <- Eqp in *. rewrite L2_here by (auto; lia). unfold lower. rewrite reflect_dn by auto. fold p.
          rewrite Eqp, Nat.eqb_refl. reflexivity. }
        rewrite E2. unfold seqc at 1 2. apply R'.
      * rewrite Other by (auto; rewrite Eqp; auto). constructor.
    + intros r Hr. unfold g2. destruct (Nat.ltb_spec r P); [lia|auto].
    + exists n, g2, s2. split; [exact St|]. split; [intros r Hr; unfold g2; destruct (Nat.ltb_spec r P); [auto|lia]|]. split.
      * apply (inv_map t); [constructor; auto|auto|auto|]. intros r Hr N. apply OtherM; auto. rewrite Eqp; auto.
      * intros r Hr. unfold g2. destruct (Nat.ltb_spec r P); [lia|auto].
  - (* a message from p to q *)
    assert (Ht : 0 < t) by (destruct (Nat.eq_dec t 0) as [E0|]; [exfalso; apply Nqp; unfold p, q; rewrite E0, Nat.add_0_r, Nat.sub_0_r; auto|lia]).
    unfold owns in Op, Oq.
    destruct (fillu_run t p (s p) (yc + t - y0 p) Hp (Q p Hp) (Z p Hp) (M p Hp) ltac:(lia) ltac:(lia)) as (m1 & R1 & W1 & F1).
    set (n := nxH X).
    set (k1 := fun r => if r =? q then mapw n (fun v => v) (fun i => (1, i)) (fun i => (0, strideH Y P dz q * (i + xe) + dz * (yc - t - y0 q))) (L2 (S t) q (k q))
       else progt (S t) r (k r)).
    set (items := fun r => if r =? p then [((0, 0), false, Some [Snd q 0 1 0 n])] else if r =? q then [((0, 0), false, Some [Rcv p 0 1 0 n])] else [] : list item).
    set (pre := fun r => if r =? p then seqc C (mapw n Cconj (fun i => (0, strideH Y P dz p * (X - 1 - i) + dz * (yc + t - y0 p))) (fun i => (1, i))) (Post C 0 0 false [Snd q 0 1 0 n])
       else if r =? q then Post C 0 0 false [Rcv p 0 1 0 n] else skip C).
    set (wl := fun r => if (r =? p) || (r =? q) then [[(0, 0)]] else [] : list (list (nat * nat))).
    set (s1 := fun r => if r =? p then do_post C (setmem C (s p) m1) 0 0 [Snd q 0 1 0 n] else if r =? q then do_post C (s q) 0 0 [Rcv p 0 1 0 n] else s r).
    set (ms := fun r => if r =? p then m1 else mem C (s r)).
    assert (Bq : y0 q + dy q <= yc + t).
    { destruct (Nat.lt_trichotomy p q) as [Lt|[E|Lt]]; [pose proof (lt_beg Y P p q Lt); lia|congruence|pose proof (lt_beg Y P q p Lt); lia]. }
    assert (Eprog : forall r, r < P -> g r = (pre r (waits C (wl r) (k1 r)), s r)).
    { intros r Hr. rewrite Eg by auto. f_equal. unfold pre, wl, k1.
      destruct (Nat.eqb_spec r p) as [->|Np].
      - destruct (Nat.eqb_spec p q) as [E|_]; [congruence|]. cbn [orb waits]. unfold progt. rewrite L1_here by (unfold owns; lia).
        assert (E2 : L2 t p = L2 (S t) p) by (apply L2_next; intros _ _ H; apply Nqp; symmetry; apply Uq; auto).
        rewrite E2. unfold upper. rewrite reflect_up by (auto; unfold owns; lia). fold q.
        destruct (Nat.eqb_spec q p); [congruence|]. reflexivity.
      - destruct (Nat.eqb_spec r q) as [->|Nq]; cbn [orb waits].
        + unfold progt. rewrite L1_none by auto. rewrite L2_here by (auto; unfold owns; lia). unfold lower. rewrite reflect_dn by (auto; unfold owns; lia). fold p.
          destruct (Nat.eqb_spec p q); [congruence|]. reflexivity.
        + rewrite Other by auto. reflexivity. }
    destruct (phase C P g pre wl k1 s s1 items ms Eprog B Q) as (n1 & g1 & s2 & St1 & E1 & Ho1 & B1 & Q1 & Z1 & X1).
    + intros r Hr. unfold pre, s1, ms, items.
      destruct (Nat.eqb_spec r p) as [->|Np]; [|destruct (Nat.eqb_spec r q) as [->|Nq]].
      * split.
        -- intros k0. unfold seqc. eapply lstar_trans; [apply R1|]. econstructor; [|constructor]. constructor.
           repeat split; cbn [sl slsz setmem bsz]; try (apply L; auto).
           ++ intros l El. exact (Q p Hp 0 0 l El).
           ++ destruct H as (dst & c & off & len & [E|[]] & Ro). inversion E; subst. rewrite Z by auto. specialize (Hu p Hp). unfold n in *. lia.
           ++ apply (qpend C (setmem C (s p) m1) b o (Q p Hp)).
           ++ destruct H as (dst & c & off & len & [E|[]] & Ro). discriminate.
           ++ apply (qpend C (setmem C (s p) m1) b o (Q p Hp)).
           ++ apply (qpend C (setmem C (s p) m1) b o (Q p Hp)).
           ++ intros _ b o _ (src & c & off & len & [E|[]] & _). discriminate.
        -- destruct (Posted_one C (setmem C (s p) m1) 0 0 false [Snd q 0 1 0 n]) as [[A1 A2 A3 A4 A5 A6 A7 A8] _].
           { repeat constructor; auto. }
           constructor; auto.
      * split.
        -- intros k0. econstructor; [|constructor]. constructor.
           repeat split; try (apply L; auto).
           ++ intros l El. exact (Q q Hq 0 0 l El).
           ++ destruct H as (dst & c & off & len & [E|[]] & Ro). discriminate.
           ++ apply (qpend C (s q) b o (Q q Hq)).
           ++ destruct H as (dst & c & off & len & [E|[]] & Ro). inversion E; subst. rewrite Z by auto. specialize (Hu q Hq). unfold n in *. lia.
           ++ apply (qpend C (s q) b o (Q q Hq)).
           ++ apply (qpend C (s q) b o (Q q Hq)).
           ++ intros o Ro (src & c & off & len & [] & _).
           ++ intros _ b o (src & c & off & len & [E|[]] & _). discriminate.
        -- apply Posted_one. repeat constructor; auto.
      * split; [apply runs_skip|]. rewrite <- (setmem_sameV C (s r)) at 2. apply Posted_nil.
    + intros r a i Hr. unfold wl, items. destruct (Nat.eqb_spec r p), (Nat.eqb_spec r q); cbn; tauto.
    + intros r Hr. unfold wl. destruct ((r =? p) || (r =? q)); cbn; repeat constructor; auto.
    + intros r x Hr Hx. unfold items in Hx. destruct (Nat.eqb_spec r p), (Nat.eqb_spec r q); cbn [In] in Hx; destruct Hx as [<-|[]] || destruct Hx; cbn; apply L; auto.
    + intros r Hr. unfold items. destruct (Nat.eqb_spec r p), (Nat.eqb_spec r q); cbn; repeat constructor; auto.
    + intros r q' c b off len Hr. unfold items. destruct (Nat.eqb_spec r p) as [->|]; [|destruct (Nat.eqb_spec r q) as [->|]]; cbn.
      * intros [E|[]]. discriminate.
      * intros [E|[]]. inversion E; subst. split; auto. rewrite Nat.eqb_refl. cbn. exists 1, 0. left. reflexivity.
      * intros [].
    + intros r q' c b off len Hr. unfold items. destruct (Nat.eqb_spec r p) as [->|]; [|destruct (Nat.eqb_spec r q) as [->|]]; cbn.
      * intros [E|[]]. inversion E; subst. split; auto. destruct (Nat.eqb_spec q p); [congruence|]. rewrite Nat.eqb_refl. cbn. exists 1, 0. left. reflexivity.
      * intros [E|[]]. discriminate.
      * intros [].
    + assert (M1m : forall r, r < P -> r <> p -> r <> q -> mem C (s2 r) = mem C (s r)).
      { intros r Hr Np Nq. apply functional_extensionality. intros b. apply functional_extensionality. intros o.
        destruct (X1 r Hr b o) as [(src & c & off & len & bs & offs & Hi & _)|[_ E]].
        - unfold items in Hi. destruct (Nat.eqb_spec r p); [congruence|]. destruct (Nat.eqb_spec r q); [congruence|]. destruct Hi.
        - rewrite E. unfold s1. destruct (Nat.eqb_spec r p); [congruence|]. destruct (Nat.eqb_spec r q); [congruence|]. reflexivity. }
      assert (M1p : mem C (s2 p) = m1).
      { apply functional_extensionality. intros b. apply functional_extensionality. intros o.
        destruct (X1 p Hp b o) as [(src & c & off & len & bs & offs & Hi & _)|[_ E]].
        - unfold items in Hi. rewrite Nat.eqb_refl in Hi. destruct Hi as [Hi|[]]. discriminate.
        - rewrite E. unfold s1. rewrite Nat.eqb_refl. reflexivity. }
      assert (M1q : (forall i, i < n -> mem C (s2 q) 1 i = m1 1 i) /\ (forall b o, b <> 1 -> mem C (s2 q) b o = mem C (s q) b o)).
      { assert (Eq1 : mem C (s1 q) = mem C (s q)) by (unfold s1; destruct (Nat.eqb_spec q p); [congruence|]; rewrite Nat.eqb_refl; reflexivity).
        split.
        - intros i Hi. destruct (X1 q Hq 1 i) as [(src & c & off & len & bs & offs & Hr & Ro & Hs & E)|[Ni E]].
          + unfold items in Hr. destruct (Nat.eqb_spec q p); [congruence|]. rewrite Nat.eqb_refl in Hr. destruct Hr as [Hr|[]]. inversion Hr; subst.
            unfold items in Hs. rewrite Nat.eqb_refl in Hs. destruct Hs as [Hs|[]]. inversion Hs; subst. rewrite E. unfold ms. rewrite Nat.eqb_refl. f_equal. lia.
          + exfalso. apply Ni. unfold items. destruct (Nat.eqb_spec q p); [congruence|]. rewrite Nat.eqb_refl. exists p, 0, 0, n. split; [left; auto|lia].
        - intros b o Hb. destruct (X1 q Hq b o) as [(src & c & off & len & bs & offs & Hr & Ro & Hs & E)|[Ni E]].
          + unfold items in Hr. destruct (Nat.eqb_spec q p); [congruence|]. rewrite Nat.eqb_refl in Hr. destruct Hr as [Hr|[]]. inversion Hr; subst. congruence.
          + rewrite E, Eq1. auto. }
      destruct M1q as [Uq1 Uq2].
      assert (Mq2 : MemI t q (mem C (s2 q))) by (apply (memI_u t q (mem C (s q))); auto).
      assert (Zq2 : bsz C (s2 q) = bsz0 q) by (destruct (Z1 q Hq) as [-> _]; auto).
      destruct (storeu_run t q (s2 q) (yc - t - y0 q) Hq (Q1 q Hq) Zq2 Mq2 Ht ltac:(lia) ltac:(lia)) as (m2 & R2 & M2).
      { intros i Hi. rewrite Uq1 by auto. apply W1. auto. }
      set (s3 := fun r => if r =? q then setmem C (s2 q) m2 else s2 r).
      set (g2 := fun r => if r <? P then (progt (S t) r (k r), s3 r) else g r).
      destruct (all_local C false P g1 g2) as [n2 St2].
      * intros r Hr. unfold g2, s3. rewrite E1 by auto. destruct (Nat.ltb_spec r P); [|lia]. unfold k1.
        destruct (Nat.eqb_spec r q) as [->|N]; [|constructor].
        unfold progt. rewrite L1_none by lia. unfold seqc at 1, skip. apply R2.
      * intros r Hr. unfold g2. destruct (Nat.ltb_spec r P); [lia|]. symmetry. apply Ho1. lia.
      * exists (n1 + n2), g2, s3. split; [eapply steps_trans; eauto|]. split; [intros r Hr; unfold g2; destruct (Nat.ltb_spec r P); [auto|lia]|]. split.
        -- apply (inv_map t); auto.
           ++ constructor; auto.
              ** intros r Hr. destruct (Z1 r Hr) as [-> _]. auto.
              ** intros r Hr. destruct (Z1 r Hr) as [_ ->]. auto.
              ** intros r Hr. destruct (Nat.eq_dec r p) as [->|Np]; [rewrite M1p; apply (memI_u t p (mem C (s p))); auto|].
                 destruct (Nat.eq_dec r q) as [->|Nq]; [auto|]. rewrite M1m by auto. auto.
           ++ intros r Hr Nr. apply OtherM; auto. intros b o Hb.
              destruct (Nat.eq_dec r p) as [->|Np]; [rewrite M1p; auto|]. rewrite M1m by auto. auto.
        -- intros r Hr. unfold g2. destruct (Nat.ltb_spec r P); [lia|auto].
Qed.
End H.
