(** Distributed Hermitian symmetrization: theorems in terms of the specification. *)
From Coq Require Import Reals List Arith Bool Lia Lra FunctionalExtensionality.
From Verif Require Import CNum Sums MpiMachine MpiTrModel MpiTrSpec MpiTrTop MpiCModel MpiHModel MpiHSpec MpiH1 MpiH2 MpiH3 MpiH4.
Import ListNotations.
Local Open Scope nat_scope.
Unset Default Proof Using.

Lemma ends_weaken : forall V P g (Q Q' : gst V -> Prop), (forall gf, Q gf -> Q' gf) -> always_ends V P g Q -> always_ends V P g Q'.
Proof. intros V P g Q Q' H (n & gf & D & HQ & R). exists n, gf. auto. Qed.

Lemma xy_thm : forall X Y P N dz (dn : nat -> nat) G mem0 bsz0, 0 < X -> 0 < Y -> 0 < P -> P <= N -> 0 < dz ->
  (forall r, r < P -> X * (count Y P r * dz) <= dn r /\ X * (count Y P r * dz) <= bsz0 r 0 /\ X <= bsz0 r 1) ->
  (forall r, r < P -> slab X Y P dz r (mem0 r 0) G) ->
  always_ends C N (fun r => (symXYall X Y P dz (dn r) r (Halt C), start1 (mem0 r) (bsz0 r)))
    (fun gf => (forall r, r < P -> slab X Y P dz r (mem C (snd (gf r)) 0) (hermitian3 X Y G) /\
                   (forall o, X * (count Y P r * dz) <= o -> mem C (snd (gf r)) 0 o = mem0 r 0 o) /\
                   (forall b o, 2 <= b -> mem C (snd (gf r)) b o = mem0 r b o)) /\
               (forall r, P <= r < N -> forall b o, mem C (snd (gf r)) b o = mem0 r b o)).
Proof.
  intros X Y P N dz dn G mem0 bsz0 HX HY HP HN Hz Hs HG.
  eapply ends_weaken; [|apply (symXY_always X Y P dz dn G mem0 bsz0 HX HY HP Hz)]; auto.
  - intros gf H. split.
    + intros r Hr. specialize (H r ltac:(lia)). destruct (Nat.ltb_spec r P); [|lia]. destruct H as [F O B]. split; [exact F|]. split; auto.
    + intros r Hr. specialize (H r ltac:(lia)). destruct (Nat.ltb_spec r P); [lia|auto].
  - intros r Hr. apply (Hs r Hr).
  - intros r Hr. apply (Hs r Hr).
  - intros r Hr. destruct (Hs r Hr) as (_ & _ & H). unfold nxH. lia.
Qed.

Lemma x_thm : forall X Y P G mem0 bsz0, 0 < X -> 0 < Y -> 0 < P -> (forall r, r < P -> X * count Y P r <= bsz0 r 0) ->
  (forall r, r < P -> columns2 X Y P r (mem0 r 0) G) ->
  always_ends C P (fun r => (symX X Y P r (Halt C), start1 (mem0 r) (bsz0 r)))
    (fun gf => forall r, r < P -> columns2 X Y P r (mem C (snd (gf r)) 0) (hermitian2 X G) /\
                   (forall o, X * count Y P r <= o -> mem C (snd (gf r)) 0 o = mem0 r 0 o) /\
                   (forall b o, 1 <= b -> mem C (snd (gf r)) b o = mem0 r b o)).
Proof.
  intros X Y P G mem0 bsz0 HX HY HP Hf HG.
  eapply ends_weaken; [|apply (symX_always X Y P G mem0 bsz0 HX HY HP Hf HG)].
  intros gf H r Hr. destruct (H r Hr) as [F O B]. split; [exact F|]. split; auto.
Qed.

Lemma own_in : forall Y P r y, own Y P r y <-> first Y P r <= y < first Y P r + count Y P r.
Proof. intros. reflexivity. Qed.

Lemma half_even : forall X, if Nat.even X then X = 2 * (X / 2) else X = 2 * (X / 2) + 1.
Proof.
  intros X. destruct (half_facts X) as (_ & H1 & H2 & _ & ->). destruct (Nat.eqb_spec (extra1 X) 1); lia.
Qed.
Lemma sym_thm : forall X Y G x y, x < X -> y < Y -> (Nat.even X = true -> 0 < x) -> (Nat.even Y = true -> 0 < y) ->
  hermitian3 X Y G (2 * (X / 2) - x) (2 * (Y / 2) - y) 0 = Cconj (hermitian3 X Y G x y 0).
Proof.
  intros X Y G x y Hx Hy Nx Ny. pose proof (half_even X) as HX. pose proof (half_even Y) as HY.
  assert (E1 : Nat.even X && (x =? 0) || Nat.even Y && (y =? 0) = false).
  { destruct (Nat.even X), (Nat.even Y), (Nat.eqb_spec x 0), (Nat.eqb_spec y 0); cbn; auto; try (specialize (Nx eq_refl); lia); try (specialize (Ny eq_refl); lia). }
  assert (Bx : x <= 2 * (X / 2)) by (destruct (Nat.even X); lia).
  assert (By : y <= 2 * (Y / 2)) by (destruct (Nat.even Y); lia).
  assert (E2 : Nat.even X && (2 * (X / 2) - x =? 0) || Nat.even Y && (2 * (Y / 2) - y =? 0) = false).
  { destruct (Nat.even X), (Nat.even Y), (Nat.eqb_spec (2 * (X / 2) - x) 0), (Nat.eqb_spec (2 * (Y / 2) - y) 0); cbn; auto; lia. }
  clear HX HY. unfold hermitian3. rewrite E1, E2. clear E1 E2. cbn [Nat.eqb andb].
  destruct (Nat.lt_trichotomy y (Y / 2)) as [L|[->|L]].
  - destruct (Nat.ltb_spec y (Y / 2)); [|lia]. destruct (Nat.ltb_spec (2 * (Y / 2) - y) (Y / 2)); [lia|].
    destruct (Nat.eqb_spec (2 * (Y / 2) - y) (Y / 2)); [lia|]. cbn [orb andb]. rewrite Cconj_conj. reflexivity.
  - replace (2 * (Y / 2) - Y / 2) with (Y / 2) by lia. rewrite Nat.ltb_irrefl, Nat.eqb_refl. cbn [orb andb].
    destruct (Nat.lt_trichotomy x (X / 2)) as [L|[->|L]].
    + destruct (Nat.ltb_spec x (X / 2)); [|lia]. destruct (Nat.ltb_spec (2 * (X / 2) - x) (X / 2)); [lia|].
      destruct (Nat.eqb_spec (2 * (X / 2) - x) (X / 2)); [lia|]. rewrite Cconj_conj. reflexivity.
    + replace (2 * (X / 2) - X / 2) with (X / 2) by lia. rewrite Nat.ltb_irrefl, Nat.eqb_refl. unfold Cconj. cbn. f_equal. lra.
    + destruct (Nat.ltb_spec x (X / 2)); [lia|]. destruct (Nat.eqb_spec x (X / 2)); [lia|]. destruct (Nat.ltb_spec (2 * (X / 2) - x) (X / 2)); [|lia].
      f_equal. f_equal; lia.
  - destruct (Nat.ltb_spec y (Y / 2)); [lia|]. destruct (Nat.eqb_spec y (Y / 2)); [lia|]. destruct (Nat.ltb_spec (2 * (Y / 2) - y) (Y / 2)); [|lia].
    cbn [orb andb]. f_equal. f_equal; lia.
Qed.

(** the storage of a global array *)
Definition stored (Y P dz : nat) (G : nat -> nat -> nat -> C) (r : nat) (o : nat) : C :=
  let w := count Y P r * dz in G (o / w) (first Y P r + (o mod w) / dz) (o mod dz).
Lemma stored_slab : forall X Y P dz G r, slab X Y P dz r (stored Y P dz G r) G.
Proof.
  intros X Y P dz G r x j k Hx Hj Hk. unfold stored. set (n := count Y P r) in *.
  assert (Hw : dz * j + k < n * dz). { assert (dz * S j <= dz * n) by (apply Nat.mul_le_mono_l; lia). rewrite Nat.mul_succ_r in *. rewrite (Nat.mul_comm n). lia. }
  replace (n * dz * x + dz * j + k) with (x * (n * dz) + (dz * j + k)) by lia.
  rewrite Nat.div_add_l, (Nat.div_small (dz * j + k)), Nat.add_0_r by lia.
  rewrite (Nat.add_comm (x * (n * dz)) (dz * j + k)), Nat.mod_add, (Nat.mod_small (dz * j + k)) by lia.
  replace (dz * j + k) with (j * dz + k) at 1 by lia. rewrite Nat.div_add_l, (Nat.div_small k), Nat.add_0_r by lia.
  f_equal. rewrite Nat.mul_assoc. replace (dz * j + k + x * n * dz) with (k + (j + x * n) * dz) by lia. rewrite Nat.mod_add, Nat.mod_small by lia. reflexivity.
Qed.

(** two by two processes: plane z=1 is with the processes 2 and 3 *)
Lemma pencil_thm : forall G mem0 bsz0, (forall r, r < 2 -> 2 <= bsz0 r 0 /\ 2 <= bsz0 r 1) ->
  (forall q r, q < 2 -> r < 2 -> slab 2 2 2 1 r (mem0 (2 * q + r) 0) (fun x y _ => G x y q)) ->
  always_ends C 4 (fun r => (symXYall 2 2 2 1 2 r (Halt C), start1 (mem0 r) (bsz0 r)))
    (fun gf => forall r, r < 2 -> slab 2 2 2 1 r (mem C (snd (gf r)) 0) (fun x y _ => hermitian3 2 2 G x y 0) /\
                                  slab 2 2 2 1 r (mem C (snd (gf (2 + r))) 0) (fun x y _ => G x y 1)).
Proof.
  intros G mem0 bsz0 Hs HG.
  eapply ends_weaken; [|apply (xy_thm 2 2 2 4 1 (fun _ => 2) (fun x y _ => G x y 0) mem0 bsz0); try lia].
  - intros gf [H1 H2] r Hr. split.
    + intros x j k Hx Hj Hk. destruct (H1 r Hr) as [F _]. rewrite (F x j k Hx Hj Hk). assert (k = 0) by lia. subst k. reflexivity.
    + intros x j k Hx Hj Hk. rewrite H2 by lia. apply (HG 1 r); auto.
  - intros r Hr. assert (count 2 2 r = 1) as -> by (destruct r as [|[|r]]; [reflexivity|reflexivity|lia]). specialize (Hs r Hr). lia.
  - intros r Hr. specialize (HG 0 r ltac:(lia) Hr). exact HG.
Qed.
Lemma pencil_ref : exists G : nat -> nat -> nat -> C, hermitian3 2 2 G 0 0 1 = C0 /\
  forall mem0 bsz0, (forall r, r < 2 -> 2 <= bsz0 r 0 /\ 2 <= bsz0 r 1) ->
  (forall q r, q < 2 -> r < 2 -> slab 2 2 2 1 r (mem0 (2 * q + r) 0) (fun x y _ => G x y q)) ->
  always_ends C 4 (fun r => (symXYall 2 2 2 1 2 r (Halt C), start1 (mem0 r) (bsz0 r)))
    (fun gf => (forall r, r < 2 -> slab 2 2 2 1 r (mem C (snd (gf r)) 0) (fun x y _ => hermitian3 2 2 G x y 0)) /\
               mem C (snd (gf 2)) 0 0 = RtoC 1).
Proof.
  exists (fun _ _ _ => RtoC 1). split; [reflexivity|]. intros mem0 bsz0 Hs HG.
  eapply ends_weaken; [|apply (pencil_thm (fun _ _ _ => RtoC 1) mem0 bsz0 Hs HG)]. intros gf H. split.
  - intros r Hr. apply H. auto.
  - destruct (H 0 ltac:(lia)) as [_ F]. specialize (F 0 0 0 ltac:(lia) ltac:(vm_compute; lia) ltac:(lia)). exact F.
Qed.
Lemma reflect_thm : forall Y P, 0 < Y -> 0 < P -> forall bsz0 mem0, Y <= bsz0 0 2 -> (forall r, r < P -> count Y P r <= bsz0 r 3) ->
  always_ends nat P (fun r => (setupR Y P r (Halt nat), start1n (mem0 r) (bsz0 r)))
    (fun gf => forall r, r < P ->
       (forall j, j < count Y P r -> (Nat.even Y = true -> 0 < first Y P r + j) ->
          exists q, q < P /\ first Y P q <= 2 * (Y / 2) - (first Y P r + j) < first Y P q + count Y P q /\ mem nat (snd (gf r)) 3 j = q) /\
       (forall b o, (b <> 2 /\ b <> 3) \/ (0 < r /\ b = 2) \/ (b = 2 /\ Y <= o) \/ (b = 3 /\ count Y P r <= o) -> mem nat (snd (gf r)) b o = mem0 r b o)).
Proof.
  intros Y P HY HP bsz0 mem0 H2 H3. eapply ends_weaken; [|apply (setup_always Y P HY HP bsz0 mem0 H2 H3)].
  intros gf H r Hr. destruct (H r Hr) as [A B]. split; [|exact B].
  intros j Hj Hj0. destruct (half_facts Y) as (Eo & H1 & _ & _ & Ev). rewrite Ev in Hj0.
  destruct (A j Hj) as (q & Hq & Oq & E).
  - intros E0. change (first Y P r) with (lbeg Y P r) in Hj0. destruct (Nat.eqb_spec (extra1 Y) 1); [specialize (Hj0 eq_refl)|]; lia.
  - exists q. split; auto. split; auto. apply own_in in Oq. rewrite Eo in Oq. change (first Y P r) with (lbeg Y P r). rewrite Nat.sub_add_distr. exact Oq.
Qed.
