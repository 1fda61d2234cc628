(** The local rearrangements of mpitranspose. *)
From Coq Require Import List Arith Bool Lia ZArith Permutation.
From Verif Require Import MpiModel MpiDims MpiMachine MpiRun MpiTrModel MpiTrGeom MpiLinks MpiTrForm MpiTrComm MpiTrPhase MpiTrXch MpiTrXchA MpiTrProg.
Import ListNotations.
Local Open Scope nat_scope.
Set Default Proof Using "All".

Section Local.
Variable V : Type.
Variable c : cfg.
Context {Hc : good c}.
Notation S := (S_ c).
Notation loc := (loc V). Notation prog := (prog V).
Notation cmd := (prog -> prog).
(** the matrix: N x M blocks of S bytes *)
Variable G : nat -> nat -> nat -> V.

Definition holds (m : nat -> nat -> V) (b e i j : nat) : Prop := forall t, t < S -> m b (e * S + t) = G i j t.
Definition same (m m' : nat -> nat -> V) (b e : nat) : Prop := forall t, t < S -> m' b (e * S + t) = m b (e * S + t).

Lemma quiet_pend : forall s b o, quiet V s -> ~ pendR V s b o /\ ~ pendS V s b o.
Proof.
  intros s b o Q. split; intros (a & i & l & ? & ? & ? & ? & ? & E & _); apply (Q a i l E).
Qed.
Lemma quiet_setmem : forall s m, quiet V s -> quiet V (setmem V s m). Proof. intros s m Q. exact Q. Qed.

(** commands that fill elements of [b2] from [b1] *)
Section Fill.
Variables (b1 b2 : nat) (src : nat -> nat -> V) (n1 n2 : nat) (R : nat -> nat -> nat -> Prop).
Hypothesis Hne : b1 <> b2.
Definition Gd (cm : cmd) (D : nat -> Prop) : Prop :=
  forall s, quiet V s -> n1 * S <= bsz V s b1 -> n2 * S <= bsz V s b2 -> (forall o, mem V s b1 o = src b1 o) ->
  exists m', runs V cm s (setmem V s m') /\ (forall b o, b <> b2 -> m' b o = mem V s b o) /\
    (forall e, D e -> exists i j, R e i j /\ holds m' b2 e i j) /\
    (forall e, same (mem V s) m' b2 e \/ exists i j, R e i j /\ holds m' b2 e i j).

Lemma Gd_weaken : forall cm (D D' : nat -> Prop), (forall e, D' e -> D e) -> Gd cm D -> Gd cm D'.
Proof.
  intros cm D D' H Q s H1 H2 H3 H4. destruct (Q s H1 H2 H3 H4) as (m' & R1 & R2 & R3 & R4).
  exists m'. auto 10.
Qed.
Lemma Gd_skip : Gd (skip V) (fun _ => False).
Proof.
  intros s H1 H2 H3 H4. exists (mem V s). split; [rewrite setmem_mem; apply runs_skip|]. split; auto. split; [intros e []|].
  intros e. left. intros t Ht; auto.
Qed.
Lemma Gd_seq : forall c1 c2 D1 D2, Gd c1 D1 -> Gd c2 D2 -> Gd (seqc V c1 c2) (fun e => D1 e \/ D2 e).
Proof.
  intros c1 c2 D1 D2 G1 G2 s Q Z1 Z2 E. destruct (G1 s Q Z1 Z2 E) as (m1 & A1 & A2 & A3 & A4).
  destruct (G2 (setmem V s m1)) as (m2 & B1 & B2 & B3 & B4); auto.
  { intros o. cbn [mem setmem]. rewrite A2; auto. }
  rewrite setmem_setmem in B1. cbn [mem setmem] in *. exists m2. split; [|split; [|split]].
  - apply (runs_seq V c1 c2 s (setmem V s m1)); auto.
  - intros b o H. rewrite B2, A2; auto.
  - intros e [H|H]; auto. destruct (B4 e) as [Sm|]; auto. destruct (A3 e H) as (i & j & Rx & Hx).
    exists i, j. split; auto. intros t Ht. rewrite Sm by auto. apply Hx; auto.
  - intros e. destruct (B4 e) as [Sm|]; auto. destruct (A4 e) as [Sn|(i & j & Rx & Hx)].
    + left. intros t Ht. rewrite Sm, Sn; auto.
    + right. exists i, j. split; auto. intros t Ht. rewrite Sm by auto. apply Hx; auto.
Qed.
Lemma Gd_floop : forall cnt i0 body (D : nat -> nat -> Prop), (forall i, i0 <= i < i0 + cnt -> Gd (body i) (D i)) ->
  Gd (floop V i0 cnt body) (fun e => exists i, i0 <= i < i0 + cnt /\ D i e).
Proof.
  induction cnt as [|cnt IH]; intros i0 body D H.
  - apply (Gd_weaken _ (fun _ => False)); [intros e (i & Hi & _); lia|]. apply Gd_skip.
  - cbn [floop]. eapply Gd_weaken; [|apply (Gd_seq _ _ (D i0) (fun e => exists i, Datatypes.S i0 <= i < Datatypes.S i0 + cnt /\ D i e))].
    + intros e (i & Hi & De). destruct (Nat.eq_dec i i0) as [->|]; auto. right. exists i. split; auto. lia.
    + apply H. lia.
    + apply IH. intros i Hi. apply H. lia.
Qed.
Lemma Gd_forc : forall cnt body (D : nat -> nat -> Prop), (forall i, i < cnt -> Gd (body i) (D i)) ->
  Gd (forc V cnt body) (fun e => exists i, i < cnt /\ D i e).
Proof.
  intros cnt body D H. eapply Gd_weaken; [|apply Gd_floop with (D := D)].
  - intros e (i & Hi & De). exists i. split; auto. lia.
  - intros i Hi. apply H. lia.
Qed.
Lemma elt_in : forall e y w, y * S <= e * S < y * S + w * S -> y <= e < y + w.
Proof.
  intros e y w [A B]. pose proof gS. rewrite <- Nat.mul_add_distr_r in B.
  apply Nat.mul_le_mono_pos_r in A; auto. apply Nat.mul_lt_mono_pos_r in B; auto.
Qed.
Lemma Gd_copy : forall x y len x' y' w, csz c * x = x' * S -> csz c * y = y' * S -> csz c * len = w * S ->
  (0 < w -> x' + w <= n1) -> (0 < w -> y' + w <= n2) ->
  (forall t, t < w -> exists i j, R (y' + t) i j /\ holds src b1 (x' + t) i j) ->
  Gd (copy V c b1 x b2 y len) (fun e => y' <= e < y' + w).
Proof.
  intros x y len x' y' w Ex Ey El Hx Hy HR s Q Z1 Z2 E.
  set (m' := move_mem V (mem V s) b1 (x' * S) b2 (y' * S) (w * S) (fun o => o)).
  assert (V1 : forall e t, t < S -> y' <= e < y' + w -> m' b2 (e * S + t) = src b1 ((x' + (e - y')) * S + t)).
  { intros e t Ht He. unfold m', move_mem. rewrite Nat.eqb_refl.
    assert (y' * S <= e * S) by (apply Nat.mul_le_mono_r; lia).
    assert ((e + 1) * S <= (y' + w) * S) by (apply Nat.mul_le_mono_r; lia). rewrite !Nat.mul_add_distr_r in H0.
    destruct (Nat.leb_spec (y' * S) (e * S + t)); [|lia]. destruct (Nat.ltb_spec (e * S + t) (y' * S + w * S)); [|lia].
    cbn [andb]. rewrite E. f_equal. rewrite Nat.mul_add_distr_r, Nat.mul_sub_distr_r. lia. }
  assert (V2 : forall e t, t < S -> ~ (y' <= e < y' + w) -> m' b2 (e * S + t) = mem V s b2 (e * S + t)).
  { intros e t Ht He. unfold m', move_mem. rewrite Nat.eqb_refl. cbn [andb].
    destruct (Nat.leb_spec (y' * S) (e * S + t)) as [L1|L1]; [|reflexivity].
    destruct (Nat.ltb_spec (e * S + t) (y' * S + w * S)) as [L2|L2]; [|reflexivity]. exfalso. apply He.
    assert (y' * S < (e + 1) * S) by (rewrite Nat.mul_add_distr_r; lia). apply Nat.mul_lt_mono_pos_r in H; [|apply gS].
    assert (e * S < (y' + w) * S) by (rewrite Nat.mul_add_distr_r; lia). apply Nat.mul_lt_mono_pos_r in H0; [|apply gS]. lia. }
  assert (V3 : forall e, y' <= e < y' + w -> exists i j, R e i j /\ holds m' b2 e i j).
  { intros e He. destruct (HR (e - y') ltac:(lia)) as (i & j & R1 & R2). replace (y' + (e - y')) with e in R1 by lia.
    exists i, j. split; auto. intros t Ht. rewrite V1 by auto. apply R2; auto. }
  exists m'. split; [|split; [|split]]; auto.
  - intros k. eapply ls_S; [|apply ls_0]. unfold copy, copyb. rewrite Ex, Ey, El. apply l_move; auto.
    + intros o Ho. split; [|apply quiet_pend; auto]. assert (0 < w) by (destruct w; lia). specialize (Hx H).
      assert ((x' + w) * S <= n1 * S) by (apply Nat.mul_le_mono_r; lia). rewrite Nat.mul_add_distr_r in H0. lia.
    + intros o Ho. split; [|split; apply quiet_pend; auto]. assert (0 < w) by (destruct w; lia). specialize (Hy H).
      assert ((y' + w) * S <= n2 * S) by (apply Nat.mul_le_mono_r; lia). rewrite Nat.mul_add_distr_r in H0. lia.
  - intros b o H. unfold m', move_mem. destruct (Nat.eqb_spec b b2); [contradiction|]. reflexivity.
  - intros e. destruct (le_lt_dec y' e), (le_lt_dec (y' + w) e); try (right; apply V3; lia); left; intros t Ht; apply V2; lia.
Qed.
End Fill.

(** the transposes: element (ir,ic,jj) of a rows x cols x w array of blocks moves to (ic,ir,jj) *)
Lemma tidx_lt : forall rows cols len o, 0 < len -> o < rows * cols * len -> tidx rows cols len o < rows * cols * len.
Proof.
  intros rows cols len o Hl Ho. unfold tidx.
  assert (Hd : o / len < rows * cols) by (apply Nat.div_lt_upper_bound; [lia|]; rewrite Nat.mul_comm; auto).
  assert (0 < rows) by (destruct rows; lia).
  pose proof (Nat.mod_upper_bound (o / len) rows ltac:(lia)) as A.
  assert (B : (o / len) / rows < cols) by (apply Nat.div_lt_upper_bound; [lia|]; auto).
  pose proof (Nat.mod_upper_bound o len ltac:(lia)).
  assert (C : (o / len) mod rows * cols + (o / len) / rows + 1 <= rows * cols).
  { assert (((o / len) mod rows + 1) * cols <= rows * cols) by (apply Nat.mul_le_mono_r; lia).
    rewrite Nat.mul_add_distr_r in H1. lia. }
  assert (((o / len) mod rows * cols + (o / len) / rows + 1) * len <= rows * cols * len) by (apply Nat.mul_le_mono_r; auto).
  rewrite Nat.mul_add_distr_r in H1. lia.
Qed.
Lemma tidx_at : forall rows cols len ir ic x, ir < rows -> x < len ->
  tidx rows cols len ((ic * rows + ir) * len + x) = (ir * cols + ic) * len + x.
Proof.
  intros rows cols len ir ic x Hi Hx. unfold tidx.
  rewrite Nat.div_add_l by lia. rewrite (Nat.div_small x) by auto. rewrite Nat.add_0_r.
  rewrite (Nat.add_comm (ic * rows)), Nat.mod_add by lia. rewrite Nat.mod_small by auto.
  rewrite Nat.div_add by lia. rewrite (Nat.div_small ir) by auto.
  rewrite (Nat.add_comm _ x), Nat.mod_add by lia. rewrite Nat.mod_small by auto. lia.
Qed.

Lemma transpose_run : forall b1 b2 rows cols len w s, 0 < rows -> 0 < cols -> 0 < w -> csz c * len = w * S ->
  compact c = (b1 =? b2) -> quiet V s ->
  rows * cols * w * S <= bsz V s b1 -> rows * cols * w * S <= bsz V s b2 ->
  exists m', runs V (transpose V c b1 b2 rows cols len) s (setmem V s m') /\
    (forall b o, b <> b2 -> m' b o = mem V s b o) /\
    (forall ir ic x t, ir < rows -> ic < cols -> x < w -> t < S ->
       m' b2 (((ic * rows + ir) * w + x) * S + t) = mem V s b1 (((ir * cols + ic) * w + x) * S + t)) /\
    (forall o, rows * cols * w * S <= o -> m' b2 o = mem V s b2 o).
Proof.
  intros b1 b2 rows cols len w s Hr Hcl Hw El Hcp Q Z1 Z2.
  set (L := w * S). assert (HL : 0 < L) by (apply Nat.mul_pos_pos; auto; apply gS).
  replace (rows * cols * w * S) with (rows * cols * L) in * by (unfold L; ring).
  exists (move_mem V (mem V s) b1 0 b2 0 (rows * cols * L) (tidx rows cols L)). split; [|split; [|split]].
  - intros k. unfold transpose. destruct (Nat.eqb_spec rows 0); [lia|]. destruct (Nat.eqb_spec cols 0); [lia|]. cbn [orb].
    rewrite Hcp, xorb_nilpotent. cbv zeta. rewrite El. fold L. eapply ls_S; [|apply ls_0].
    apply l_move.
    + intros o Ho. apply tidx_lt; auto.
    + intros o Ho. split; [lia|apply quiet_pend; auto].
    + intros o Ho. split; [lia|split; apply quiet_pend; auto].
    + right. left. auto.
  - intros b o H. unfold move_mem. destruct (Nat.eqb_spec b b2); [contradiction|]. reflexivity.
  - intros ir ic x t H1 H2 H3 H4. unfold move_mem. rewrite Nat.eqb_refl.
    replace (((ic * rows + ir) * w + x) * S + t) with ((ic * rows + ir) * L + (x * S + t)) by (unfold L; ring).
    assert (Hx : x * S + t < L).
    { unfold L. assert ((x + 1) * S <= w * S) by (apply Nat.mul_le_mono_r; lia). rewrite Nat.mul_add_distr_r in H. lia. }
    assert (Hb : (ic * rows + ir) * L + (x * S + t) < rows * cols * L).
    { assert ((ic + 1) * rows <= cols * rows) by (apply Nat.mul_le_mono_r; lia). rewrite Nat.mul_add_distr_r in H.
      assert ((ic * rows + ir + 1) * L <= rows * cols * L) by (apply Nat.mul_le_mono_r; lia).
      rewrite (Nat.mul_add_distr_r _ 1) in H0. lia. }
    destruct (Nat.leb_spec 0 ((ic * rows + ir) * L + (x * S + t))); [|lia].
    rewrite !Nat.add_0_l.
    destruct (Nat.ltb_spec ((ic * rows + ir) * L + (x * S + t)) (rows * cols * L)); [|lia]. cbn [andb].
    rewrite Nat.sub_0_r, tidx_at by auto. apply f_equal. unfold L; ring.
  - intros o Ho. unfold move_mem. rewrite Nat.eqb_refl. cbn [andb]. destruct (Nat.ltb_spec o (0 + rows * cols * L)); [lia|].
    rewrite andb_false_r. reflexivity.
Qed.
End Local.
