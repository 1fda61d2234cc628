(** The layouts between the stages of mpitranspose, and the stages that establish them. *)
From Coq Require Import List Arith Bool Lia ZArith Permutation.
From Verif Require Import MpiModel MpiDims MpiMachine MpiRun MpiTrModel MpiTrGeom MpiLinks MpiTrForm MpiTrComm MpiTrPhase MpiTrXch MpiTrXchA MpiTrProg MpiTrLocal.
Import ListNotations.
Local Open Scope nat_scope.
Set Default Proof Using "All".

Lemma pin : forall w x y x' y', y < w -> y' < w -> x * w + y = x' * w + y' -> x = x' /\ y = y'.
Proof.
  intros w x y x' y' H H' E.
  assert (x = x'). { destruct (Nat.lt_trichotomy x x') as [L|[L|L]]; auto; exfalso.
    - assert ((x + 1) * w <= x' * w) by (apply Nat.mul_le_mono_r; lia). rewrite Nat.mul_add_distr_r in H0. lia.
    - assert ((x' + 1) * w <= x * w) by (apply Nat.mul_le_mono_r; lia). rewrite Nat.mul_add_distr_r in H0. lia. }
  subst. split; auto. lia.
Qed.
Lemma pbound : forall w x y K, x < K -> y < w -> x * w + y < K * w.
Proof. intros w x y K H1 H2. assert ((x + 1) * w <= K * w) by (apply Nat.mul_le_mono_r; lia). rewrite Nat.mul_add_distr_r in H. lia. Qed.

Section Stage.
Variable V : Type.
Variable c : cfg.
Context {Hc : good c}.
Notation S := (S_ c).
Notation loc := (loc V). Notation prog := (prog V).
Notation cmd := (prog -> prog).
Variable G : nat -> nat -> nat -> V.
Notation holds := (holds V c G).
Notation N := (cN c). Notation M := (cM c). Notation a := (a_ c). Notation b := (b_ c).

Definition rowsL (m : nat -> nat -> V) (bf r : nat) : Prop :=
  forall i j, i < ni c r -> j < M -> holds m bf (i * M + j) (n0 c * r + i) j.
Definition colsL (m : nat -> nat -> V) (bf r : nat) : Prop :=
  forall i j, i < N -> j < mi c r -> holds m bf (i * mi c r + j) i (m0 c * r + j).
(** what is exchanged directly with process P *)
Definition dirL (m : nat -> nat -> V) (bf r : nat) : Prop :=
  forall P i j, P < size c -> (subblock c r = false \/ a * b <= P) -> i < ni c r -> j < mi c P ->
    holds m bf (ni c r * m0 c * P + i * mi c P + j) (n0 c * r + i) (m0 c * P + j).
Definition subL (m : nat -> nat -> V) (bf r : nat) : Prop :=
  subblock c r = true -> forall k i j x, k < b -> i < n0 c -> j < a -> x < m0 c ->
    holds m bf (((k * n0 c + i) * a + j) * m0 c + x) (n0 c * r + i) (m0 c * (j * b + k) + x).
(** inside a block, between the two exchanges *)
Definition midL (m : nat -> nat -> V) (bf r : nat) : Prop :=
  subblock c r = true -> forall k i j x, k < b -> i < n0 c -> j < a -> x < m0 c ->
    holds m bf (((k * n0 c + i) * a + j) * m0 c + x) (n0 c * (r / b * b + k) + i) (m0 c * (j * b + r mod b) + x).
Definition midT (m : nat -> nat -> V) (bf r : nat) : Prop :=
  subblock c r = true -> forall k i j x, k < b -> i < n0 c -> j < a -> x < m0 c ->
    holds m bf (((j * b + k) * n0 c + i) * m0 c + x) (n0 c * (r / b * b + k) + i) (m0 c * (j * b + r mod b) + x).

Definition capE (r : nat) : nat := Nat.max (ni c r * M) (N * mi c r).
Lemma cap_E : forall r, cap c r = capE r * S. Proof. reflexivity. Qed.

Definition Wpos (r e I J : nat) : Prop :=
  exists i, i < ni c r /\ I = n0 c * r + i /\
   ((exists P j, P < size c /\ (subblock c r = false \/ a * b <= P) /\ j < mi c P /\ J = m0 c * P + j /\
       e = ni c r * m0 c * P + i * mi c P + j) \/
    (subblock c r = true /\ exists k j x, k < b /\ j < a /\ x < m0 c /\ J = m0 c * (j * b + k) + x /\
       e = ((k * n0 c + i) * a + j) * m0 c + x)).
Lemma dpos_lt : forall r P i j, i < ni c r -> j < mi c P -> i * mi c P + j < ni c r * m0 c.
Proof.
  intros r P i j Hi Hj. pose proof (pbound (mi c P) i j (ni c r) Hi Hj). pose proof (mi_le c P).
  assert (ni c r * mi c P <= ni c r * m0 c) by (apply Nat.mul_le_mono_l; auto). lia.
Qed.
Lemma Wpos_fun : forall r e I J I' J', Wpos r e I J -> Wpos r e I' J' -> I = I' /\ J = J'.
Proof.
  intros r e I J I' J' (i & Hi & EI & H) (i' & Hi' & EI' & H').
  destruct H as [(P & j & HP & Hd & Hj & EJ & Ee)|(Hs & k & j & x & Hk & Hj & Hx & EJ & Ee)];
  destruct H' as [(P' & j' & HP' & Hd' & Hj' & EJ' & Ee')|(Hs' & k' & j' & x' & Hk' & Hj' & Hx' & EJ' & Ee')].
  - pose proof (dpos_lt r P i j Hi Hj). pose proof (dpos_lt r P' i' j' Hi' Hj').
    destruct (pin (ni c r * m0 c) P (i * mi c P + j) P' (i' * mi c P' + j')) as [-> E2]; auto. { lia. }
    destruct (pin (mi c P') i j i' j') as [-> ->]; auto. subst. auto.
  - exfalso. destruct Hd as [Hd|Hd]; [congruence|]. destruct (subblock_full c r Hs') as (_ & _ & F1 & F2). rewrite F1 in *.
    assert (B : ((k' * n0 c + i') * a + j') * m0 c + x' < b * n0 c * a * m0 c).
    { apply pbound; auto. apply pbound; auto. apply pbound; auto. }
    assert (n0 c * m0 c * (a * b) <= n0 c * m0 c * P) by (apply Nat.mul_le_mono_l; auto).
    replace (n0 c * m0 c * (a * b)) with (b * n0 c * a * m0 c) in H by ring. lia.
  - exfalso. destruct Hd' as [Hd'|Hd']; [congruence|]. destruct (subblock_full c r Hs) as (_ & _ & F1 & F2). rewrite F1 in *.
    assert (B : ((k * n0 c + i) * a + j) * m0 c + x < b * n0 c * a * m0 c).
    { apply pbound; auto. apply pbound; auto. apply pbound; auto. }
    assert (n0 c * m0 c * (a * b) <= n0 c * m0 c * P') by (apply Nat.mul_le_mono_l; auto).
    replace (n0 c * m0 c * (a * b)) with (b * n0 c * a * m0 c) in H by ring. lia.
  - destruct (subblock_full c r Hs) as (_ & _ & F1 & F2). rewrite F1 in *. rewrite Ee in Ee'.
    apply pin in Ee'; auto. destruct Ee' as [Ee' ->]. apply pin in Ee'; auto. destruct Ee' as [Ee' ->].
    apply pin in Ee'; auto. destruct Ee' as [-> ->]. subst. auto.
Qed.
Definition Rpos (r e I J : nat) : Prop := exists i, i < ni c r /\ I = n0 c * r + i /\ J < M /\ e = i * M + J.
Lemma Rpos_fun : forall r e I J I' J', Rpos r e I J -> Rpos r e I' J' -> I = I' /\ J = J'.
Proof.
  intros r e I J I' J' (i & Hi & EI & HJ & Ee) (i' & Hi' & EI' & HJ' & Ee'). rewrite Ee in Ee'.
  apply pin in Ee'; auto. destruct Ee' as [-> ->]. subst. auto.
Qed.

(** sizes in words, bytes and blocks *)
Lemma wS : forall x, csz c * (x * cL c) = x * S.
Proof. intros. unfold S_. ring. Qed.

Lemma M_eq : m0 c * mlast c + mp c = M. Proof. apply mp_eq; auto. Qed.
Lemma mi_last : mi c (mlast c) = mp c.
Proof. unfold mi. rewrite Nat.ltb_irrefl, Nat.eqb_refl. auto. Qed.
Lemma mi_lt : forall P, P < mlast c -> mi c P = m0 c.
Proof. intros P H. unfold mi. destruct (Nat.ltb_spec P (mlast c)); [auto|lia]. Qed.
Lemma mi_cases : forall P j, j < mi c P -> P < mlast c /\ mi c P = m0 c \/ P = mlast c /\ mi c P = mp c.
Proof.
  intros P j H. unfold mi in *. destruct (Nat.ltb_spec P (mlast c)); auto. destruct (Nat.eqb_spec P (mlast c)); auto. lia.
Qed.


Lemma extra_last : forall r, subblock c r = true -> 0 < M - m0 c * a * b -> a * b <= mlast c.
Proof.
  intros r H E. destruct (sub_facts c r H) as (H1 & _). pose proof (ab_Pbar c H1) as Q. unfold Pbar in Q.
  pose proof (mp_eq c) as [E1 E2]. destruct (Nat.eqb_spec (m0 c) (mp c)) as [Em|Em]; [|lia].
  destruct (Nat.le_gt_cases (a * b) (mlast c)); auto. assert (a * b = mlast c + 1) by lia. exfalso.
  assert (m0 c * a * b = M); [|lia]. rewrite <- Nat.mul_assoc, H2, Nat.mul_add_distr_l, Nat.mul_1_r. lia.
Qed.
Lemma sub_M : forall r, subblock c r = true -> m0 c * a * b <= M.
Proof.
  intros r H. destruct (sub_facts c r H) as (H1 & H2 & H3 & _). pose proof (ab_Pbar c H1) as Q.
  assert (Hq : a * b - 1 < Pbar c) by lia. pose proof (full_mi c _ Hq) as F. pose proof (m0_pos c) as Z.
  pose proof (mi_end c (a * b - 1)) as En. rewrite F in En. specialize (En Z).
  assert (m0 c * (a * b - 1) + m0 c = m0 c * a * b); [|lia].
  rewrite Nat.mul_sub_distr_l, <- Nat.mul_assoc. assert (m0 c * 1 <= m0 c * (a * b)) by (apply Nat.mul_le_mono_l; lia). lia.
Qed.
Lemma no_extra : forall r P j, subblock c r = true -> M - m0 c * a * b = 0 -> a * b <= P -> j < mi c P -> False.
Proof.
  intros r P j H E L Hj. pose proof (sub_M r H). pose proof (mi_end c P ltac:(lia)).
  assert (m0 c * (a * b) <= m0 c * P) by (apply Nat.mul_le_mono_l; auto). rewrite Nat.mul_assoc in H2. lia.
Qed.

Theorem repack_run : forall r bi bw s, r < size c -> size c <> 1 ->
  (bi <> bw /\ compact c = false \/ bi = bw /\ compact c = true) ->
  quiet V s -> cap c r <= bsz V s bi -> cap c r <= bsz V s bw -> rowsL (mem V s) bi r ->
  exists m', runs V (repack V c r bi bw) s (setmem V s m') /\ (forall b o, b <> bw -> m' b o = mem V s b o) /\
    dirL m' bw r /\ subL m' bw r.
Proof.
  intros r bi bw s Hr H1 Hb Q Z1 Z2 HL. unfold repack. destruct (uniform c) eqn:U.
  - destruct (uniform_U c U) as [U' Eab]. destruct (unif_full c U' r Hr) as [F1 F2]. destruct (unif c U') as [EN EM].
    pose proof (a_pos c) as Pa. pose proof (n0_pos c) as Pn. pose proof (m0_pos c) as Pm.
    assert (Pb : 0 < b) by (destruct b; lia). rewrite F1, F2.
    assert (Ez : n0 c * a * b * m0 c * S <= cap c r).
    { rewrite cap_E. apply Nat.mul_le_mono_r. unfold capE. rewrite F1. transitivity (n0 c * M); [|lia].
      rewrite <- EM, <- Eab. apply Nat.eq_le_incl. ring. }
    destruct (transpose_run V c G bi bw (n0 c * a) b (m0 c * cL c) (m0 c) s) as (m' & R1 & R2 & R3 & R4); auto; try lia.
    { apply wS. }
    { destruct Hb as [[X ->]|[-> ->]]; [destruct (Nat.eqb_spec bi bw); [contradiction|]|rewrite Nat.eqb_refl]; auto. }
    exists m'. split; auto. split; auto.
    assert (At : forall k i j x t, k < b -> i < n0 c -> j < a -> x < m0 c -> t < S ->
      m' bw ((((k * n0 c + i) * a + j) * m0 c + x) * S + t) = G (n0 c * r + i) (m0 c * (j * b + k) + x) t).
    { intros k i j x t Hk Hi Hj Hx Ht.
      replace ((k * n0 c + i) * a + j) with (k * (n0 c * a) + (i * a + j)) by ring.
      rewrite R3; auto; [|apply pbound; auto].
      assert (J : m0 c * (j * b + k) + x < M).
      { pose proof (pbound b j k a Hj Hk) as Q1. pose proof (pbound (m0 c) (j * b + k) x (a * b) Q1 Hx) as Q2.
        rewrite <- EM, <- Eab. lia. }
      rewrite <- (HL i (m0 c * (j * b + k) + x)); auto; [|lia].
      apply f_equal. rewrite <- EM, <- Eab. ring. }
    split.
    + intros P i j HP Hd Hi Hj t Ht. rewrite F1 in *. destruct (unif_full c U' P HP) as [F3 F4]. rewrite F4 in *.
      destruct Hd as [Hd|Hd]; [|lia].
      assert (A1 : a = 1). { unfold subblock in Hd. rewrite andb_false_iff, !Nat.ltb_ge in Hd. lia. }
      assert (Eb : b = size c) by (rewrite A1 in Eab; lia).
      rewrite A1 in At.
      replace (n0 c * m0 c * P + i * m0 c + j) with (((P * n0 c + i) * 1 + 0) * m0 c + j) by ring.
      rewrite At; auto; lia.
    + intros Hs k i j x Hk Hi Hj Hx t Ht. apply At; auto.
  - destruct Hb as [[Hne Hcp]|[_ Hcp]]; [|unfold compact in Hcp; rewrite U in Hcp; discriminate].
    rewrite cap_E in Z1, Z2.
    assert (Fin : forall cm (D : nat -> Prop), Gd V c G bi bw (mem V s) (capE r) (capE r) (Wpos r) cm D ->
      (forall e I J, Wpos r e I J -> D e) ->
      exists m', runs V cm s (setmem V s m') /\ (forall b o, b <> bw -> m' b o = mem V s b o) /\ dirL m' bw r /\ subL m' bw r).
    { intros cm D Hg HD. destruct (Hg s Q Z1 Z2 ltac:(auto)) as (m' & R1 & R2 & R3 & R4). exists m'. split; auto. split; auto.
      assert (At : forall e I J, Wpos r e I J -> holds m' bw e I J).
      { intros e I J W. destruct (R3 e (HD _ _ _ W)) as (I' & J' & W' & H'). destruct (Wpos_fun r e I J I' J' W W') as [-> ->]. auto. }
      split.
      - intros P i j HP Hd Hi Hj. apply At. exists i. split; auto. split; auto. left. exists P, j. auto.
      - intros Hs k i j x Hk Hi Hj Hx. destruct (subblock_full c r Hs) as (_ & _ & F1 & F2).
        apply At. exists i. split; [lia|]. split; auto. right. split; auto. exists k, j, x. auto. }
    (* one row piece *)
    assert (Pc : forall x y i j0 w e len, csz c * x = (i * M + j0) * S -> csz c * y = e * S -> csz c * len = w * S ->
      i < ni c r -> j0 + w <= M -> e + w <= capE r ->
      (forall t, t < w -> Wpos r (e + t) (n0 c * r + i) (j0 + t)) ->
      Gd V c G bi bw (mem V s) (capE r) (capE r) (Wpos r) (copy V c bi x bw y len) (fun e' => e <= e' < e + w)).
    { intros x y i j0 w e len Ex Ey El Hi Hj He HW. apply (Gd_copy V c G bi bw (mem V s) (capE r) (capE r) (Wpos r) Hne x y len (i * M + j0) e w); auto.
      - intros _. unfold capE. transitivity (ni c r * M); [|lia].
        assert ((i + 1) * M <= ni c r * M) by (apply Nat.mul_le_mono_r; lia). rewrite Nat.mul_add_distr_r in H. lia.
      - intros t Ht. exists (n0 c * r + i), (j0 + t). split; [apply HW; auto|]. rewrite <- Nat.add_assoc. apply HL; auto. lia. }
    (* positions of the pieces for process P, row i *)
    assert (Dp : forall P i, P <= mlast c -> (subblock c r = false \/ a * b <= P) -> i < ni c r ->
      m0 c * P + mi c P <= M /\ ni c r * m0 c * P + i * mi c P + mi c P <= capE r /\
      forall t, t < mi c P -> Wpos r (ni c r * m0 c * P + i * mi c P + t) (n0 c * r + i) (m0 c * P + t)).
    { intros P i HP Hd Hi. pose proof (mlast_size c) as Ms.
      assert (Pm : 0 < mi c P).
      { destruct (Nat.eq_dec P (mlast c)) as [->|Hn]; [rewrite mi_last; apply (mp_eq c)|rewrite mi_lt by lia; apply m0_pos; auto]. }
      pose proof (mi_end c P Pm) as En. split; auto. split.
      - unfold capE. transitivity (ni c r * M); [|lia].
        assert ((i + 1) * mi c P <= ni c r * mi c P) by (apply Nat.mul_le_mono_r; lia). rewrite Nat.mul_add_distr_r in H.
        assert (ni c r * (m0 c * P + mi c P) <= ni c r * M) by (apply Nat.mul_le_mono_l; auto). rewrite Nat.mul_add_distr_l, Nat.mul_assoc in H0. lia.
      - intros t Ht. exists i. split; auto. split; auto. left. exists P, t. split; [lia|]. split; auto. }
    pose proof (M_eq) as EM. pose proof (m0_pos c) as Pm0.
    destruct (subblock c r) eqn:Hs.
    + destruct (subblock_full c r Hs) as (_ & _ & F1 & F2). destruct (sub_facts c r Hs) as (A1 & A2 & A3 & _).
      pose proof (sub_M r Hs) as SM. cbv zeta. eapply Fin.
      * apply (Gd_seq V c G bi bw (mem V s) (capE r) (capE r) (Wpos r) Hne).
        -- apply (Gd_forc V c G bi bw (mem V s) (capE r) (capE r) (Wpos r) Hne) with (D := fun i e => exists j, j < a /\ exists kk, kk < b /\ ((kk * n0 c + i) * a + j) * m0 c <= e < ((kk * n0 c + i) * a + j) * m0 c + m0 c).
           intros i Hi. apply (Gd_forc V c G bi bw (mem V s) (capE r) (capE r) (Wpos r) Hne) with (D := fun j e => exists kk, kk < b /\ ((kk * n0 c + i) * a + j) * m0 c <= e < ((kk * n0 c + i) * a + j) * m0 c + m0 c).
           intros j Hj. unfold copyfromblock. apply (Gd_forc V c G bi bw (mem V s) (capE r) (capE r) (Wpos r) Hne) with (D := fun kk e => ((kk * n0 c + i) * a + j) * m0 c <= e < ((kk * n0 c + i) * a + j) * m0 c + m0 c).
           intros kk Hk. rewrite F1 in *.
           assert (P1 : j * b + kk < a * b) by (apply pbound; auto).
           assert (P2 : m0 c * (j * b + kk) + m0 c <= m0 c * a * b).
           { assert (m0 c * (j * b + kk + 1) <= m0 c * (a * b)) by (apply Nat.mul_le_mono_l; lia). rewrite <- Nat.mul_assoc. lia. }
           assert (P3 : ((kk * n0 c + i) * a + j) * m0 c + m0 c <= b * n0 c * a * m0 c).
           { assert ((kk * n0 c + i) * a + j < b * n0 c * a) by (apply pbound; auto; apply pbound; auto).
             assert (((kk * n0 c + i) * a + j + 1) * m0 c <= b * n0 c * a * m0 c) by (apply Nat.mul_le_mono_r; lia). lia. }
           apply (Pc _ _ i (m0 c * (j * b + kk)) (m0 c) (((kk * n0 c + i) * a + j) * m0 c)).
           ++ rewrite <- wS. f_equal. replace M with (M - m0 c * a * b + m0 c * a * b) at 2 by lia. ring.
           ++ rewrite <- wS. f_equal. ring.
           ++ apply wS.
           ++ lia.
           ++ lia.
           ++ unfold capE. rewrite F1. transitivity (n0 c * M); [|lia]. transitivity (n0 c * (m0 c * a * b)); [|apply Nat.mul_le_mono_l; auto].
              replace (n0 c * (m0 c * a * b)) with (b * n0 c * a * m0 c) by ring. auto.
           ++ intros t Ht. exists i. split; [lia|]. split; auto. right. split; auto. exists kk, j, t. auto.
        -- destruct (Nat.ltb_spec 0 ((M - m0 c * a * b) * cL c)) as [Ex|Ex]; cbn [ifc].
           2:{ apply (Gd_weaken V c G bi bw (mem V s) (capE r) (capE r) (Wpos r) Hne _ (fun _ => False)); [|apply Gd_skip; auto].
               exact (fun (e : nat) (x : exists P : nat, P <= mlast c /\ a * b <= P /\ 0 < M - m0 c * a * b /\ exists i, i < n0 c /\ n0 c * m0 c * P + i * mi c P <= e < n0 c * m0 c * P + i * mi c P + mi c P) =>
                 ltac:(destruct x as (P & _ & _ & Z & _); destruct (M - m0 c * a * b); [lia|]; pose proof gS as W; unfold S_ in W; destruct (cL c); lia)). }
           assert (Ex' : 0 < M - m0 c * a * b) by (destruct (M - m0 c * a * b); lia).
           pose proof (extra_last r Hs Ex') as Lm.
           eapply (Gd_weaken V c G bi bw (mem V s) (capE r) (capE r) (Wpos r) Hne); [|apply (Gd_seq V c G bi bw (mem V s) (capE r) (capE r) (Wpos r) Hne)].
           ++ intros e (P & HP1 & HP2 & _ & i & Hi & He).
              instantiate (1 := fun e => exists i, i < n0 c /\ n0 c * m0 c * mlast c + i * mp c <= e < n0 c * m0 c * mlast c + i * mp c + mp c).
              instantiate (1 := fun e => exists i, i < n0 c /\ exists kk, kk < mlast c - a * b /\ n0 c * m0 c * (a * b + kk) + i * m0 c <= e < n0 c * m0 c * (a * b + kk) + i * m0 c + m0 c).
              destruct (Nat.eq_dec P (mlast c)) as [->|Hn].
              ** right. exists i. rewrite mi_last in He. auto.
              ** left. exists i. split; auto. exists (P - a * b). split; [lia|]. rewrite mi_lt in He by lia.
                 replace (a * b + (P - a * b)) with P by lia. auto.
           ++ destruct (Nat.ltb_spec 0 (mlast c - a * b)) as [Lc|Lc]; cbn [ifc].
              2:{ apply (Gd_weaken V c G bi bw (mem V s) (capE r) (capE r) (Wpos r) Hne _ (fun _ => False)); [|apply Gd_skip; auto].
                  intros e (i & _ & kk & Z & _). lia. }
              rewrite F1 in *. apply (Gd_forc V c G bi bw (mem V s) (capE r) (capE r) (Wpos r) Hne). intros i Hi. unfold copyfromblock.
              apply (Gd_forc V c G bi bw (mem V s) (capE r) (capE r) (Wpos r) Hne) with (D := fun kk e => n0 c * m0 c * (a * b + kk) + i * m0 c <= e < n0 c * m0 c * (a * b + kk) + i * m0 c + m0 c).
              intros kk Hk. destruct (Dp (a * b + kk) i ltac:(lia) ltac:(right; lia) Hi) as (D1 & D2 & D3).
              rewrite mi_lt in * by lia.
              apply (Pc _ _ i (m0 c * (a * b + kk)) (m0 c) (n0 c * m0 c * (a * b + kk) + i * m0 c)); auto.
              ** rewrite <- wS. f_equal. rewrite <- EM. ring.
              ** rewrite <- wS. f_equal. ring.
              ** apply wS.
           ++ rewrite F1 in *. apply (Gd_forc V c G bi bw (mem V s) (capE r) (capE r) (Wpos r) Hne). intros i Hi.
              destruct (Dp (mlast c) i ltac:(lia) ltac:(right; lia) Hi) as (D1 & D2 & D3). rewrite mi_last in *.
              apply (Pc _ _ i (m0 c * mlast c) (mp c) (n0 c * m0 c * mlast c + i * mp c)); auto.
              ** rewrite <- wS. f_equal. rewrite <- EM. ring.
              ** rewrite <- wS. f_equal. ring.
              ** apply wS.
      * cbv beta. intros e I J (i & Hi & EI & [(P & j & HP & Hd & Hj & EJ & Ee)|(_ & k & j & x & Hk & Hj & Hx & EJ & Ee)]).
        -- right. destruct Hd as [Hd|Hd]; [congruence|]. rewrite F1 in *.
           assert (Ex' : 0 < M - m0 c * a * b).
           { destruct (M - m0 c * a * b) eqn:Z; [|lia]. exfalso. eapply no_extra; eauto. }
           exists P. split; [destruct (mi_cases P j Hj); lia|]. split; auto. split; auto. exists i. split; auto. lia.
        -- left. rewrite F1 in Hi. exists i. rewrite F1. split; auto. exists j. split; auto. exists k. split; auto. lia.
    + cbv zeta. eapply Fin.
      * apply (Gd_forc V c G bi bw (mem V s) (capE r) (capE r) (Wpos r) Hne) with
          (D := fun i e => (exists P, P < mlast c /\ ni c r * m0 c * P + i * m0 c <= e < ni c r * m0 c * P + i * m0 c + m0 c) \/
             (ni c r * m0 c * mlast c + i * mp c <= e < ni c r * m0 c * mlast c + i * mp c + mp c)).
        intros i Hi. apply (Gd_seq V c G bi bw (mem V s) (capE r) (capE r) (Wpos r) Hne).
        -- unfold copyfromblock. apply (Gd_forc V c G bi bw (mem V s) (capE r) (capE r) (Wpos r) Hne) with (D := fun P e => ni c r * m0 c * P + i * m0 c <= e < ni c r * m0 c * P + i * m0 c + m0 c).
           intros P HP. destruct (Dp P i ltac:(lia) ltac:(left; auto) Hi) as (D1 & D2 & D3). rewrite mi_lt in * by lia.
           apply (Pc _ _ i (m0 c * P) (m0 c) (ni c r * m0 c * P + i * m0 c)); auto.
           ++ rewrite <- wS. f_equal. rewrite <- EM. ring.
           ++ rewrite <- wS. f_equal. ring.
           ++ apply wS.
        -- destruct (Dp (mlast c) i ltac:(lia) ltac:(left; auto) Hi) as (D1 & D2 & D3). rewrite mi_last in *.
           apply (Pc _ _ i (m0 c * mlast c) (mp c) (ni c r * m0 c * mlast c + i * mp c)); auto.
           ++ rewrite <- wS. f_equal. rewrite <- EM. ring.
           ++ rewrite <- wS. f_equal. ring.
           ++ apply wS.
      * cbv beta. intros e I J (i & Hi & EI & [(P & j & HP & Hd & Hj & EJ & Ee)|(Hs' & _)]); [|congruence].
        exists i. split; auto. destruct (mi_cases P j Hj) as [[Hp Em]|[-> Em]]; rewrite Em in *.
        -- left. exists P. split; auto. lia.
        -- right. lia.
Qed.

Theorem inpost_run : forall r bw bo s, r < size c -> size c <> 1 ->
  (bw <> bo /\ compact c = false \/ bw = bo /\ compact c = true) ->
  quiet V s -> cap c r <= bsz V s bw -> cap c r <= bsz V s bo -> dirL (mem V s) bw r -> subL (mem V s) bw r ->
  exists m', runs V (inpost V c r (ni c r) (mi c r) bo bw) s (setmem V s m') /\ (forall b o, b <> bo -> m' b o = mem V s b o) /\
    rowsL m' bo r.
Proof.
  intros r bw bo s Hr H1 Hb Q Z1 Z2 HD HS. unfold inpost. rewrite (size_eqb V c r Hr H1). destruct (uniform c) eqn:U.
  - destruct (uniform_U c U) as [U' Eab]. destruct (unif_full c U' r Hr) as [F1 F2]. destruct (unif c U') as [EN EM].
    pose proof (a_pos c) as Pa. pose proof (n0_pos c) as Pn. pose proof (m0_pos c) as Pm.
    assert (Pb : 0 < b) by (destruct b; lia). rewrite F1, F2.
    assert (Ez : b * (n0 c * a) * m0 c * S <= cap c r).
    { rewrite cap_E. apply Nat.mul_le_mono_r. unfold capE. rewrite F1. transitivity (n0 c * M); [|lia].
      rewrite <- EM, <- Eab. apply Nat.eq_le_incl. ring. }
    destruct (transpose_run V c G bw bo b (n0 c * a) (m0 c * cL c) (m0 c) s) as (m' & R1 & R2 & R3 & R4); auto; try lia.
    { apply wS. }
    { destruct Hb as [[X ->]|[-> ->]]; [destruct (Nat.eqb_spec bw bo); [contradiction|]|rewrite Nat.eqb_refl]; auto. }
    exists m'. split; auto. split; auto.
    intros i J Hi HJ t Ht. rewrite F1 in Hi.
    assert (HJ' : J / m0 c < a * b).
    { apply Nat.div_lt_upper_bound; [lia|]. rewrite Eab, EM. auto. }
    pose proof (Nat.div_mod J (m0 c) ltac:(lia)) as DJ. pose proof (Nat.mod_upper_bound J (m0 c) ltac:(lia)) as MJ.
    remember (J / m0 c) as P. remember (J mod m0 c) as x. clear HeqP Heqx.
    pose proof (Nat.div_mod P b ltac:(lia)) as DP. pose proof (Nat.mod_upper_bound P b ltac:(lia)) as MP.
    assert (HP : P / b < a) by (apply Nat.div_lt_upper_bound; [lia|]; rewrite Nat.mul_comm; auto).
    remember (P / b) as j. remember (P mod b) as k. clear Heqj Heqk.
    assert (Ej : i * M + J = ((i * a + j) * b + k) * m0 c + x) by (rewrite <- EM, <- Eab, DJ, DP; ring).
    rewrite Ej. rewrite R3; auto; [|apply pbound; auto].
    assert (EJ : J = m0 c * (j * b + k) + x) by (rewrite DJ; f_equal; f_equal; rewrite DP; ring). rewrite EJ.
    destruct (subblock c r) eqn:Hs.
    + rewrite <- (HS Hs k i j x MP Hi HP MJ t Ht). apply f_equal. ring.
    + assert (A1 : a = 1). { unfold subblock in Hs. rewrite andb_false_iff, !Nat.ltb_ge in Hs. lia. }
      assert (J0 : j = 0) by lia. rewrite J0.
      assert (HPs : k < size c) by lia. destruct (unif_full c U' k HPs) as [F3 F4].
      assert (Hi' : i < ni c r) by lia. assert (MJ' : x < mi c k) by lia.
      assert (Hdd : subblock c r = false \/ a * b <= k) by auto.
      cbn [Nat.mul Nat.add]. rewrite <- (HD k i x HPs Hdd Hi' MJ' t Ht).
      apply f_equal. rewrite F1, F4, A1. ring.
  - destruct Hb as [[Hne Hcp]|[_ Hcp]]; [|unfold compact in Hcp; rewrite U in Hcp; discriminate].
    rewrite cap_E in Z1, Z2.
    assert (Fin : forall cm (D : nat -> Prop), Gd V c G bw bo (mem V s) (capE r) (capE r) (Rpos r) cm D ->
      (forall i J, i < ni c r -> J < M -> D (i * M + J)) ->
      exists m', runs V cm s (setmem V s m') /\ (forall b o, b <> bo -> m' b o = mem V s b o) /\ rowsL m' bo r).
    { intros cm D Hg HDD. destruct (Hg s Q Z1 Z2 ltac:(auto)) as (m' & R1 & R2 & R3 & R4). exists m'. split; auto. split; auto.
      intros i J Hi HJ. destruct (R3 _ (HDD i J Hi HJ)) as (I' & J' & W' & H').
      destruct (Rpos_fun r (i * M + J) (n0 c * r + i) J I' J') as [-> ->]; auto. exists i. auto. }
    assert (Pc : forall x y i j0 w e len, csz c * y = (i * M + j0) * S -> csz c * x = e * S -> csz c * len = w * S ->
      i < ni c r -> j0 + w <= M -> e + w <= capE r ->
      (forall t, t < w -> holds (mem V s) bw (e + t) (n0 c * r + i) (j0 + t)) ->
      Gd V c G bw bo (mem V s) (capE r) (capE r) (Rpos r) (copy V c bw x bo y len) (fun e' => i * M + j0 <= e' < i * M + j0 + w)).
    { intros x y i j0 w e len Ey Ex El Hi Hj He HW. apply (Gd_copy V c G bw bo (mem V s) (capE r) (capE r) (Rpos r) Hne x y len e (i * M + j0) w); auto.
      - intros _. unfold capE. transitivity (ni c r * M); [|lia].
        assert ((i + 1) * M <= ni c r * M) by (apply Nat.mul_le_mono_r; lia). rewrite Nat.mul_add_distr_r in H. lia.
      - intros t Ht. exists (n0 c * r + i), (j0 + t). split; [|apply HW; auto]. exists i. split; auto. split; auto. split; lia. }
    assert (Dp : forall P i, P <= mlast c -> (subblock c r = false \/ a * b <= P) -> i < ni c r ->
      m0 c * P + mi c P <= M /\ ni c r * m0 c * P + i * mi c P + mi c P <= capE r /\
      forall t, t < mi c P -> holds (mem V s) bw (ni c r * m0 c * P + i * mi c P + t) (n0 c * r + i) (m0 c * P + t)).
    { intros P i HP Hd Hi. pose proof (mlast_size c) as Ms.
      assert (Pm : 0 < mi c P).
      { destruct (Nat.eq_dec P (mlast c)) as [->|Hn]; [rewrite mi_last; apply (mp_eq c)|rewrite mi_lt by lia; apply m0_pos; auto]. }
      pose proof (mi_end c P Pm) as En. split; auto. split.
      - unfold capE. transitivity (ni c r * M); [|lia].
        assert ((i + 1) * mi c P <= ni c r * mi c P) by (apply Nat.mul_le_mono_r; lia). rewrite Nat.mul_add_distr_r in H.
        assert (ni c r * (m0 c * P + mi c P) <= ni c r * M) by (apply Nat.mul_le_mono_l; auto). rewrite Nat.mul_add_distr_l, Nat.mul_assoc in H0. lia.
      - intros t Ht. apply HD; auto. lia. }
    pose proof (M_eq) as EM. pose proof (m0_pos c) as Pm0.
    assert (Dec : forall J, J < M -> exists P x, P <= mlast c /\ x < mi c P /\ J = m0 c * P + x).
    { intros J HJ. destruct (col_owner c J HJ) as (C1 & C2 & C3). exists (J / m0 c), (J mod m0 c). split; [|auto].
      destruct (mi_cases (J / m0 c) _ C2); lia. }
    destruct (subblock c r) eqn:Hs.
    + destruct (subblock_full c r Hs) as (_ & _ & F1 & F2). destruct (sub_facts c r Hs) as (A1 & A2 & A3 & _).
      pose proof (sub_M r Hs) as SM. cbv zeta. eapply Fin.
      * apply (Gd_seq V c G bw bo (mem V s) (capE r) (capE r) (Rpos r) Hne).
        -- apply (Gd_forc V c G bw bo (mem V s) (capE r) (capE r) (Rpos r) Hne) with (D := fun i e => exists j, j < a /\ exists kk, kk < b /\ i * M + m0 c * (j * b + kk) <= e < i * M + m0 c * (j * b + kk) + m0 c).
           intros i Hi. apply (Gd_forc V c G bw bo (mem V s) (capE r) (capE r) (Rpos r) Hne) with (D := fun j e => exists kk, kk < b /\ i * M + m0 c * (j * b + kk) <= e < i * M + m0 c * (j * b + kk) + m0 c).
           intros j Hj. unfold copytoblock. apply (Gd_forc V c G bw bo (mem V s) (capE r) (capE r) (Rpos r) Hne) with (D := fun kk e => i * M + m0 c * (j * b + kk) <= e < i * M + m0 c * (j * b + kk) + m0 c).
           intros kk Hk. rewrite F1 in *.
           assert (P1 : j * b + kk < a * b) by (apply pbound; auto).
           assert (P2 : m0 c * (j * b + kk) + m0 c <= m0 c * a * b).
           { assert (m0 c * (j * b + kk + 1) <= m0 c * (a * b)) by (apply Nat.mul_le_mono_l; lia). rewrite <- Nat.mul_assoc. lia. }
           assert (P3 : ((kk * n0 c + i) * a + j) * m0 c + m0 c <= b * n0 c * a * m0 c).
           { assert ((kk * n0 c + i) * a + j < b * n0 c * a) by (apply pbound; auto; apply pbound; auto).
             assert (((kk * n0 c + i) * a + j + 1) * m0 c <= b * n0 c * a * m0 c) by (apply Nat.mul_le_mono_r; lia). lia. }
           apply (Pc _ _ i (m0 c * (j * b + kk)) (m0 c) (((kk * n0 c + i) * a + j) * m0 c)).
           ++ rewrite <- wS. f_equal. replace M with (M - m0 c * a * b + m0 c * a * b) at 2 by lia. ring.
           ++ rewrite <- wS. f_equal. ring.
           ++ apply wS.
           ++ lia.
           ++ lia.
           ++ unfold capE. rewrite F1. transitivity (n0 c * M); [|lia]. transitivity (n0 c * (m0 c * a * b)); [|apply Nat.mul_le_mono_l; auto].
              replace (n0 c * (m0 c * a * b)) with (b * n0 c * a * m0 c) by ring. auto.
           ++ intros t Ht. apply HS; auto.
        -- destruct (Nat.ltb_spec 0 ((M - m0 c * a * b) * cL c)) as [Ex|Ex]; cbn [ifc].
           2:{ apply (Gd_weaken V c G bw bo (mem V s) (capE r) (capE r) (Rpos r) Hne _ (fun _ => False)); [|apply Gd_skip; auto].
               exact (fun (e : nat) (x : exists P : nat, P <= mlast c /\ a * b <= P /\ 0 < M - m0 c * a * b /\ exists i, i < n0 c /\ i * M + m0 c * P <= e < i * M + m0 c * P + mi c P) =>
                 ltac:(destruct x as (P & _ & _ & Z & _); destruct (M - m0 c * a * b); [lia|]; pose proof gS as W; unfold S_ in W; destruct (cL c); lia)). }
           assert (Ex' : 0 < M - m0 c * a * b) by (destruct (M - m0 c * a * b); lia).
           pose proof (extra_last r Hs Ex') as Lm.
           eapply (Gd_weaken V c G bw bo (mem V s) (capE r) (capE r) (Rpos r) Hne); [|apply (Gd_seq V c G bw bo (mem V s) (capE r) (capE r) (Rpos r) Hne)].
           ++ intros e (P & HP1 & HP2 & _ & i & Hi & He).
              instantiate (1 := fun e => exists i, i < n0 c /\ i * M + m0 c * mlast c <= e < i * M + m0 c * mlast c + mp c).
              instantiate (1 := fun e => exists i, i < n0 c /\ exists kk, kk < mlast c - a * b /\ i * M + m0 c * (a * b + kk) <= e < i * M + m0 c * (a * b + kk) + m0 c).
              destruct (Nat.eq_dec P (mlast c)) as [->|Hn].
              ** right. exists i. rewrite mi_last in He. auto.
              ** left. exists i. split; auto. exists (P - a * b). split; [lia|]. rewrite mi_lt in He by lia.
                 replace (a * b + (P - a * b)) with P by lia. auto.
           ++ destruct (Nat.ltb_spec 0 (mlast c - a * b)) as [Lc|Lc]; cbn [ifc].
              2:{ apply (Gd_weaken V c G bw bo (mem V s) (capE r) (capE r) (Rpos r) Hne _ (fun _ => False)); [|apply Gd_skip; auto].
                  intros e (i & _ & kk & Z & _). lia. }
              rewrite F1 in *. apply (Gd_forc V c G bw bo (mem V s) (capE r) (capE r) (Rpos r) Hne). intros i Hi. unfold copytoblock.
              apply (Gd_forc V c G bw bo (mem V s) (capE r) (capE r) (Rpos r) Hne) with (D := fun kk e => i * M + m0 c * (a * b + kk) <= e < i * M + m0 c * (a * b + kk) + m0 c).
              intros kk Hk. destruct (Dp (a * b + kk) i ltac:(lia) ltac:(right; lia) Hi) as (D1 & D2 & D3).
              rewrite mi_lt in * by lia.
              apply (Pc _ _ i (m0 c * (a * b + kk)) (m0 c) (n0 c * m0 c * (a * b + kk) + i * m0 c)); auto.
              ** rewrite <- wS. f_equal. rewrite <- EM. ring.
              ** rewrite <- wS. f_equal. ring.
              ** apply wS.
           ++ rewrite F1 in *. apply (Gd_forc V c G bw bo (mem V s) (capE r) (capE r) (Rpos r) Hne). intros i Hi.
              destruct (Dp (mlast c) i ltac:(lia) ltac:(right; lia) Hi) as (D1 & D2 & D3). rewrite mi_last in *.
              apply (Pc _ _ i (m0 c * mlast c) (mp c) (n0 c * m0 c * mlast c + i * mp c)); auto.
              ** rewrite <- wS. f_equal. rewrite <- EM. ring.
              ** rewrite <- wS. f_equal. ring.
              ** apply wS.
      * cbv beta. intros i J Hi HJ. destruct (Dec J HJ) as (P & x & HP & Hx & ->). destruct (Nat.lt_ge_cases P (a * b)) as [L|L].
        -- left. exists i. split; auto. pose proof (Nat.div_mod P b ltac:(lia)) as DP. pose proof (Nat.mod_upper_bound P b ltac:(lia)) as MP.
           assert (HPb : P / b < a) by (apply Nat.div_lt_upper_bound; [lia|]; rewrite Nat.mul_comm; auto).
           exists (P / b). split; auto. exists (P mod b). split; auto.
           replace (P / b * b + P mod b) with P by lia. pose proof (mi_le c P). lia.
        -- right. exists P. split; auto. split; auto. split.
           { destruct (M - m0 c * a * b) eqn:Z; [|lia]. exfalso. eapply no_extra; eauto. }
           exists i. rewrite F1 in Hi. split; auto. lia.
    + cbv zeta. eapply Fin.
      * apply (Gd_forc V c G bw bo (mem V s) (capE r) (capE r) (Rpos r) Hne) with
          (D := fun i e => (exists P, P < mlast c /\ i * M + m0 c * P <= e < i * M + m0 c * P + m0 c) \/
             (i * M + m0 c * mlast c <= e < i * M + m0 c * mlast c + mp c)).
        intros i Hi. apply (Gd_seq V c G bw bo (mem V s) (capE r) (capE r) (Rpos r) Hne).
        -- unfold copytoblock. apply (Gd_forc V c G bw bo (mem V s) (capE r) (capE r) (Rpos r) Hne) with (D := fun P e => i * M + m0 c * P <= e < i * M + m0 c * P + m0 c).
           intros P HP. destruct (Dp P i ltac:(lia) ltac:(left; auto) Hi) as (D1 & D2 & D3). rewrite mi_lt in * by lia.
           apply (Pc _ _ i (m0 c * P) (m0 c) (ni c r * m0 c * P + i * m0 c)); auto.
           ++ rewrite <- wS. f_equal. rewrite <- EM. ring.
           ++ rewrite <- wS. f_equal. ring.
           ++ apply wS.
        -- destruct (Dp (mlast c) i ltac:(lia) ltac:(left; auto) Hi) as (D1 & D2 & D3). rewrite mi_last in *.
           apply (Pc _ _ i (m0 c * mlast c) (mp c) (ni c r * m0 c * mlast c + i * mp c)); auto.
           ++ rewrite <- wS. f_equal. rewrite <- EM. ring.
           ++ rewrite <- wS. f_equal. ring.
           ++ apply wS.
      * cbv beta. intros i J Hi HJ. exists i. split; auto. destruct (Dec J HJ) as (P & x & HP & Hx & ->).
        destruct (mi_cases P x Hx) as [[Hp Em]|[-> Em]]; rewrite Em in *.
        -- left. exists P. split; auto. lia.
        -- right. lia.
Qed.

Lemma sub_cap : forall r, subblock c r = true -> b * n0 c * a * m0 c * S <= cap c r.
Proof.
  intros r Hs. destruct (subblock_full c r Hs) as (_ & _ & F1 & F2). pose proof (sub_M r Hs) as SM.
  rewrite cap_E. apply Nat.mul_le_mono_r. unfold capE. rewrite F1. transitivity (n0 c * M); [|lia].
  transitivity (n0 c * (m0 c * a * b)); [|apply Nat.mul_le_mono_l; auto]. apply Nat.eq_le_incl. ring.
Qed.
Lemma dir_high : forall r P i j t, subblock c r = true -> a * b <= P -> i < ni c r -> j < mi c P ->
  b * n0 c * a * m0 c * S <= (ni c r * m0 c * P + i * mi c P + j) * S + t.
Proof.
  intros r P i j t Hs HP Hi Hj. destruct (subblock_full c r Hs) as (_ & _ & F1 & F2). rewrite F1.
  assert (b * n0 c * a * m0 c * S <= (n0 c * m0 c * P + i * mi c P + j) * S); [|lia]. apply Nat.mul_le_mono_r.
  assert (n0 c * m0 c * (a * b) <= n0 c * m0 c * P) by (apply Nat.mul_le_mono_l; auto).
  replace (b * n0 c * a * m0 c) with (n0 c * m0 c * (a * b)) by ring. lia.
Qed.

Theorem trout_run : forall r bo bw s, r < size c ->
  (bo <> bw /\ compact c = false \/ bo = bw /\ compact c = true) ->
  quiet V s -> cap c r <= bsz V s bo -> cap c r <= bsz V s bw -> dirL (mem V s) bw r -> midL (mem V s) bo r ->
  exists m', runs V (trout V c r bo bw) s (setmem V s m') /\ (forall b o, b <> bw -> m' b o = mem V s b o) /\
    dirL m' bw r /\ midT m' bw r.
Proof.
  intros r bo bw s Hr Hb Q Z1 Z2 HD HM. unfold trout. destruct (subblock c r) eqn:Hs; cbn [ifc].
  - destruct (subblock_full c r Hs) as (_ & _ & F1 & F2). destruct (sub_facts c r Hs) as (A1 & A2 & A3 & _).
    pose proof (n0_pos c) as Pn. pose proof (m0_pos c) as Pm. rewrite F1, F2. pose proof (sub_cap r Hs) as Cp.
    destruct (transpose_run V c G bo bw (n0 c * b) a (m0 c * cL c) (m0 c) s) as (m' & R1 & R2 & R3 & R4); auto; try lia.
    { apply wS. }
    { destruct Hb as [[X ->]|[-> ->]]; [destruct (Nat.eqb_spec bo bw); [contradiction|]|rewrite Nat.eqb_refl]; auto. }
    exists m'. split; auto. split; auto. split.
    + intros P i j HP Hd Hi Hj t Ht. rewrite R4. { apply HD; auto. }
      destruct Hd as [Hd|Hd]; [congruence|]. pose proof (dir_high r P i j t Hs Hd Hi Hj). lia.
    + intros _ k i j x Hk Hi Hj Hx t Ht.
      replace ((j * b + k) * n0 c + i) with (j * (n0 c * b) + (k * n0 c + i)) by ring.
      rewrite R3; auto. { apply HM; auto. } rewrite (Nat.mul_comm (n0 c)). apply pbound; auto.
  - exists (mem V s). rewrite setmem_mem. split; [apply runs_skip|]. split; auto. split; auto. intros Z. congruence.
Qed.
Theorem trin_run : forall r bw bo s, r < size c ->
  (bw <> bo /\ compact c = false \/ bw = bo /\ compact c = true) ->
  quiet V s -> cap c r <= bsz V s bw -> cap c r <= bsz V s bo -> dirL (mem V s) bw r -> midT (mem V s) bw r ->
  exists m', runs V (trin V c r bw bo) s (setmem V s m') /\ (forall b o, b <> bo -> m' b o = mem V s b o) /\
    dirL m' bw r /\ midL m' bo r.
Proof.
  intros r bw bo s Hr Hb Q Z1 Z2 HD HM. unfold trin. destruct (subblock c r) eqn:Hs; cbn [ifc].
  - destruct (subblock_full c r Hs) as (_ & _ & F1 & F2). destruct (sub_facts c r Hs) as (A1 & A2 & A3 & _).
    pose proof (n0_pos c) as Pn. pose proof (m0_pos c) as Pm. rewrite F1, F2. pose proof (sub_cap r Hs) as Cp.
    destruct (transpose_run V c G bw bo a (n0 c * b) (m0 c * cL c) (m0 c) s) as (m' & R1 & R2 & R3 & R4); auto; try lia.
    { apply wS. }
    { destruct Hb as [[X ->]|[-> ->]]; [destruct (Nat.eqb_spec bw bo); [contradiction|]|rewrite Nat.eqb_refl]; auto. }
    exists m'. split; auto. split; auto. split.
    + intros P i j HP Hd Hi Hj t Ht. destruct (Nat.eq_dec bw bo) as [E|E].
      * rewrite E, R4. { rewrite <- E. apply HD; auto. }
        destruct Hd as [Hd|Hd]; [congruence|]. pose proof (dir_high r P i j t Hs Hd Hi Hj). lia.
      * rewrite R2 by auto. apply HD; auto.
    + intros _ k i j x Hk Hi Hj Hx t Ht.
      rewrite R3; auto; [|rewrite (Nat.mul_comm (n0 c)); apply pbound; auto].
      replace (j * (n0 c * b) + (k * n0 c + i)) with ((j * b + k) * n0 c + i) by ring. apply HM; auto.
  - exists (mem V s). rewrite setmem_mem. split; [apply runs_skip|]. split; auto. split; auto. intros Z. congruence.
Qed.
End Stage.
