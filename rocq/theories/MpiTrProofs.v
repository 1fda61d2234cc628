(** The distributed transpose: the single-call statements. *)
From Coq Require Import List Arith Bool Lia.
From Verif Require Import MpiMachine MpiTrModel MpiTrGeom MpiTrProg MpiTrStage MpiTrSpec MpiTrTop.
Import ListNotations.
Local Open Scope nat_scope.

Definition cfg_ok (c : cfg) : Prop := 0 < cN c /\ 0 < cM c /\ 0 < cL c /\ 0 < csz c /\ 0 < cP c /\ 0 < oa c.
Lemma cfg_good : forall c, cfg_ok c -> good c.
Proof.
  intros c (A & B & C & D & E & F). constructor; auto. unfold S_. apply Nat.mul_pos_pos; auto.
Qed.

Section S.
Variable V : Type.
Variable c : cfg.
Hypothesis Ok : cfg_ok c.
Notation S := (S_ c).
Notation N := (cN c). Notation M := (cM c). Notation P := (cP c).
Notation size_ := (storage N M S P).

Theorem history : forall (mem0 : nat -> nat -> nat -> V) (bsz0 : nat -> nat -> nat) bs bw kn l,
  In bw bs ->
  (forall r b, r < P -> In b bs -> size_ r <= bsz0 r b) ->
  (forall r b, r < P -> In b bs -> agrees V N M S P (kn b) r (mem0 r b)) ->
  legal_calls V c bs bw l kn ->
  always_ends V P
    (fun r => (calls_prog V c (count N P) (count M P) bw r l, start_loc V c r (mem0 r) (bsz0 r)))
    (fun gf => forall r, r < P ->
       (forall b, In b bs -> agrees V N M S P (effects V bw l kn b) r (mem V (snd (gf r)) b)) /\
       (forall b o, ~ In b (bw :: map cout l) -> mem V (snd (gf r)) b o = mem0 r b o)).
Proof. pose proof (cfg_good c Ok) as Hc. apply (calls_always V c (Hc := Hc)). Qed.

Lemma ends_mono : forall (g : gst V) (Q Q' : gst V -> Prop), (forall gf, Q gf -> Q' gf) -> always_ends V P g Q -> always_ends V P g Q'.
Proof. intros g Q Q' H (n & gf & D & HQ & R). exists n, gf. auto. Qed.

Definition know1 (b : nat) (x : know V) : nat -> know V := fun b' => if b' =? b then x else None.
Definition start (mem0 : nat -> nat -> nat -> V) (bsz0 : nat -> nat -> nat) (p : nat -> prog V) : gst V :=
  fun r => (p r, start_loc V c r (mem0 r) (bsz0 r)).
Definition work (bo bw : nat) : nat := if compact c then bo else bw.

Theorem one_call : forall d (G : matrix V) bi bo bw mem0 bsz0,
  bi <> bw -> bo <> bw -> (d = true -> compact c = true -> bi = bo) ->
  (forall r b, r < P -> In b [bi; bo; bw] -> size_ r <= bsz0 r b) ->
  (forall r, r < P -> agrees V N M S P (Some (d, G)) r (mem0 r bi)) ->
  always_ends V P
    (start mem0 bsz0 (fun r => if d then localize0 V c r (count N P r) (count M P r) bi bo (work bo bw) (Halt V)
                          else localize1 V c r (count N P r) (count M P r) bi bo (work bo bw) (Halt V)))
    (fun gf => forall r, r < P -> agrees V N M S P (Some (negb d, G)) r (mem V (snd (gf r)) bo) /\
       forall b o, b <> bo -> b <> bw -> mem V (snd (gf r)) b o = mem0 r b o).
Proof.
  intros d G bi bo bw mem0 bsz0 H1 H2 H3 Hz Hk.
  pose proof (history mem0 bsz0 [bi; bo; bw] bw (know1 bi (Some (d, G))) [mkCall d bi bo]) as H.
  assert (E : calls_prog V c (count N P) (count M P) bw = fun r l => calls_prog V c (count N P) (count M P) bw r l) by auto.
  assert (Q : always_ends V P
    (fun r => (calls_prog V c (count N P) (count M P) bw r [mkCall d bi bo], start_loc V c r (mem0 r) (bsz0 r)))
    (fun gf => forall r, r < P ->
       (forall b, In b [bi; bo; bw] -> agrees V N M S P (effects V bw [mkCall d bi bo] (know1 bi (Some (d, G))) b) r (mem V (snd (gf r)) b)) /\
       (forall b o, ~ In b (bw :: map cout [mkCall d bi bo]) -> mem V (snd (gf r)) b o = mem0 r b o))).
  { apply H; auto.
    - cbn [In]; auto.
    - intros r b Hr Hb. unfold know1. destruct (Nat.eqb_spec b bi) as [->|]; auto. exact I.
    - cbn [legal_calls]. split; auto. unfold legal_call. cbn [cdir cin cout In]. repeat split; auto.
      exists G. unfold know1. rewrite Nat.eqb_refl. auto. }
  clear H E. unfold start. destruct d; (eapply ends_mono; [|exact Q]);
   intros gf HQ r Hr; destruct (HQ r Hr) as [A B]; (split; [|intros b o Nb Nw; apply B; cbn [map In cout]; intros [|[|[]]]; congruence]);
   specialize (A bo ltac:(cbn [In]; auto)); unfold effects in A; cbn [fold_left] in A; unfold effect, know1 in A; cbn [cdir cin cout negb] in A;
   rewrite !Nat.eqb_refl in A; exact A.
Qed.

Theorem localize0_correct : forall (G : matrix V) bi bo bw mem0 bsz0,
  bi <> bw -> bo <> bw -> (compact c = true -> bi = bo) ->
  (forall r b, r < P -> In b [bi; bo; bw] -> size_ r <= bsz0 r b) ->
  (forall r, r < P -> has_rows V N M S P G r (mem0 r bi)) ->
  always_ends V P
    (start mem0 bsz0 (fun r => localize0 V c r (count N P r) (count M P r) bi bo (work bo bw) (Halt V)))
    (fun gf => forall r, r < P -> has_cols V N M S P G r (mem V (snd (gf r)) bo) /\
       forall b o, b <> bo -> b <> bw -> mem V (snd (gf r)) b o = mem0 r b o).
Proof. intros G bi bo bw mem0 bsz0 H1 H2 H3. apply (one_call true G bi bo bw mem0 bsz0); auto. Qed.

Theorem localize1_correct : forall (G : matrix V) bi bo bw mem0 bsz0,
  bi <> bw -> bo <> bw ->
  (forall r b, r < P -> In b [bi; bo; bw] -> size_ r <= bsz0 r b) ->
  (forall r, r < P -> has_cols V N M S P G r (mem0 r bi)) ->
  always_ends V P
    (start mem0 bsz0 (fun r => localize1 V c r (count N P r) (count M P r) bi bo (work bo bw) (Halt V)))
    (fun gf => forall r, r < P -> has_rows V N M S P G r (mem V (snd (gf r)) bo) /\
       forall b o, b <> bo -> b <> bw -> mem V (snd (gf r)) b o = mem0 r b o).
Proof. intros G bi bo bw mem0 bsz0 H1 H2. apply (one_call false G bi bo bw mem0 bsz0); auto. discriminate. Qed.

(** k in-place round trips in the array [b]: there is no initial knowledge, the data may be
    anything *)
Fixpoint roundtrips (k r b bw : nat) : prog V :=
  match k with
  | 0 => Halt V
  | Datatypes.S k => localize0 V c r (count N P r) (count M P r) b b (work b bw)
       (localize1 V c r (count N P r) (count M P r) b b (work b bw) (roundtrips k r b bw))
  end.
Fixpoint rtcalls (k b : nat) : list call :=
  match k with 0 => [] | Datatypes.S k => mkCall true b b :: mkCall false b b :: rtcalls k b end.
Lemma rt_prog : forall k r b bw, calls_prog V c (count N P) (count M P) bw r (rtcalls k b) = roundtrips k r b bw.
Proof. induction k; intros; cbn [rtcalls calls_prog roundtrips]; auto. rewrite IHk. reflexivity. Qed.
Lemma rt_legal : forall k b bw kn G, b <> bw -> kn b = Some (true, G) ->
  legal_calls V c [b; bw] bw (rtcalls k b) kn /\ effects V bw (rtcalls k b) kn b = Some (true, G).
Proof.
  induction k as [|k IH]; intros b bw kn G Hb Hk; [split; [exact I|exact Hk]|].
  cbn [rtcalls legal_calls]. set (k1 := effect V bw (mkCall true b b) kn). set (k2 := effect V bw (mkCall false b b) k1).
  assert (E1 : k1 b = Some (false, G)) by (unfold k1, effect; cbn [cin cout cdir negb]; rewrite Nat.eqb_refl, Hk; auto).
  assert (E2 : k2 b = Some (true, G)) by (unfold k2, effect; cbn [cin cout cdir negb]; rewrite Nat.eqb_refl, E1; auto).
  destruct (IH b bw k2 G Hb E2) as [L E]. split.
  - unfold legal_call. cbn [cin cout cdir In]. repeat split; auto. exists G; auto. exists G; auto.
  - unfold effects in *. cbn [fold_left]. exact E.
Qed.
Definition matrix_of (mem0 : nat -> nat -> nat -> V) (b : nat) : matrix V := fun i j t =>
  let q := blocklen N P in mem0 (i / q) b ((i mod q * M + j) * S + t).

Theorem roundtrip : forall k b bw mem0 bsz0, b <> bw ->
  (forall r b', r < P -> In b' [b; bw] -> size_ r <= bsz0 r b') ->
  always_ends V P (start mem0 bsz0 (fun r => roundtrips k r b bw))
    (fun gf => forall r, r < P -> forall o, o < count N P r * M * S -> mem V (snd (gf r)) b o = mem0 r b o).
Proof.
  intros k b bw mem0 bsz0 Hb Hz. pose proof (cfg_good c Ok) as Hc. set (G := matrix_of mem0 b).
  assert (Sp : 0 < S) by apply gS. assert (Mp : 0 < M) by apply gM.
  assert (Hr0 : forall r, has_rows V N M S P G r (mem0 r b)).
  { intros r i j t Hi Hj Ht. unfold G, matrix_of. unfold count in Hi. unfold first.
    rewrite (Nat.mul_comm (blocklen N P) r). assert (Hq : i < blocklen N P) by lia.
    rewrite Nat.div_add_l by lia. rewrite (Nat.div_small i) by auto. rewrite Nat.add_0_r.
    rewrite (Nat.add_comm (r * blocklen N P)), Nat.mod_add by lia. rewrite Nat.mod_small by auto. auto. }
  destruct (rt_legal k b bw (know1 b (Some (true, G))) G Hb) as [L E]; [unfold know1; rewrite Nat.eqb_refl; auto|].
  pose proof (history mem0 bsz0 [b; bw] bw (know1 b (Some (true, G))) (rtcalls k b) ltac:(cbn [In]; auto) Hz) as H.
  assert (Q : always_ends V P (start mem0 bsz0 (fun r => roundtrips k r b bw)) (fun gf => forall r, r < P ->
       (forall b0, In b0 [b; bw] -> agrees V N M S P (effects V bw (rtcalls k b) (know1 b (Some (true, G))) b0) r (mem V (snd (gf r)) b0)) /\
       (forall b0 o, ~ In b0 (bw :: map cout (rtcalls k b)) -> mem V (snd (gf r)) b0 o = mem0 r b0 o))).
  { assert (Eg : start mem0 bsz0 (fun r => roundtrips k r b bw) = fun r => (calls_prog V c (count N P) (count M P) bw r (rtcalls k b), start_loc V c r (mem0 r) (bsz0 r))).
    { apply FunctionalExtensionality.functional_extensionality. intros r. unfold start. rewrite rt_prog. auto. }
    rewrite Eg. apply H; auto. intros r b' Hr Hb'. unfold know1. destruct (Nat.eqb_spec b' b) as [->|]; [apply Hr0|exact I]. }
  eapply ends_mono; [|exact Q]. intros gf HQ r Hr o Ho. destruct (HQ r Hr) as [A _].
  specialize (A b ltac:(cbn [In]; auto)). rewrite E in A. cbn [agrees] in A.
  assert (D1 : o = (o / S / M * M + o / S mod M) * S + o mod S).
  { rewrite (Nat.mul_comm (o / S / M)). rewrite <- (Nat.div_mod (o / S) M) by lia. rewrite Nat.mul_comm. apply Nat.div_mod. lia. }
  assert (B1 : o / S / M < count N P r).
  { apply Nat.div_lt_upper_bound; [lia|]. apply Nat.div_lt_upper_bound; [lia|]. nia. }
  assert (B2 : o / S mod M < M) by (apply Nat.mod_upper_bound; lia).
  assert (B3 : o mod S < S) by (apply Nat.mod_upper_bound; lia).
  rewrite D1. rewrite (A _ _ _ B1 B2 B3). rewrite (Hr0 r _ _ _ B1 B2 B3). auto.
Qed.

(** localize0 with distinct arrays in compact mode stops with an error *)
Theorem compact_out_of_place : forall bi bo bw mem0 bsz0, compact c = true -> 1 < size c -> bi <> bo ->
  forall r, r < size c ->
  fst (start mem0 bsz0 (fun r => localize0 V c r (count N P r) (count M P r) bi bo (work bo bw) (Halt V)) r) = Fail V.
Proof.
  intros bi bo bw mem0 bsz0 Cp H1 Hne r Hr. pose proof (cfg_good c Ok) as Hc. unfold start. cbn [fst].
  unfold localize0, seqc, ilocalize0, outphase0, seqc.
  destruct (Nat.leb_spec (size c) r); [lia|]. destruct (Nat.eqb_spec (size c) 1); [lia|].
  assert (U : uniform c = true) by (unfold compact in Cp; apply andb_true_iff in Cp; apply Cp). rewrite U.
  destruct (uniform_U c U) as [U' Eab]. destruct (unif_full c U' r Hr) as [F1 F2].
  unfold transpose, work. rewrite Cp. destruct (Nat.eqb_spec bi bo) as [|Hz]; [congruence|]. cbn [xorb].
  assert (E1 : count N P r = n0 c). { change (count N P r) with (ldim N P r). rewrite <- (ni_ldim c). auto. }
  rewrite E1. pose proof (n0_pos c). pose proof (a_pos c).
  destruct (Nat.eqb_spec (n0 c * a_ c) 0) as [Z|]; [apply Nat.eq_mul_0 in Z; lia|].
  destruct (Nat.eqb_spec (b_ c) 0) as [Z|]; [rewrite Z, Nat.mul_0_r in Eab; lia|]. reflexivity.
Qed.
End S.

Theorem compact_refuted : forall V c bi bo bw mem0 bsz0, cfg_ok c -> compact c = true -> 1 < size c -> bi <> bo ->
  bad V (cP c) (start V c mem0 bsz0 (fun r => localize0 V c r (count (cN c) (cP c) r) (count (cM c) (cP c) r) bi bo (work c bo bw) (Halt V))).
Proof.
  intros V c bi bo bw mem0 bsz0 Ok Cp H1 Hne. pose proof (cfg_good c Ok) as Hc. exists 0. split; [apply gP|].
  pose proof (compact_out_of_place V c Ok bi bo bw mem0 bsz0 Cp H1 Hne 0 ltac:(lia)) as E.
  unfold erroneous. destruct (start V c mem0 bsz0 _ 0) as [p s]. cbn [fst] in E. subst p. intros st' H. inversion H.
Qed.

(** *** concrete cases: a 4 x 5 matrix of 2-byte elements *)
Definition exG : matrix (nat * nat * nat) := fun i j t => (i, j, t).
Definition ex (P a alltoall : nat) : cfg := mkCfg 4 5 1 2 P a alltoall.
Definition ex_mem (P r b o : nat) : nat * nat * nat := (first 4 P r + o / 2 / 5, (o / 2) mod 5, o mod 2).
Lemma ex_rows : forall P r b, has_rows _ 4 5 2 P exG r (ex_mem P r b).
Proof.
  intros P r b i j t Hi Hj Ht. unfold ex_mem, exG.
  rewrite (Nat.div_add_l _ 2) by lia. rewrite (Nat.div_small t) by lia. rewrite Nat.add_0_r.
  rewrite Nat.div_add_l by lia. rewrite (Nat.div_small j) by lia. rewrite Nat.add_0_r.
  rewrite (Nat.add_comm (i * 5)), Nat.mod_add by lia. rewrite (Nat.mod_small j) by lia.
  rewrite (Nat.add_comm (_ * 2)), Nat.mod_add by lia. rewrite (Nat.mod_small t) by lia. auto.
Qed.
