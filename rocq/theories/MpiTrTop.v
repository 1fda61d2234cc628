(** Sequences of calls of localize0 and localize1. *)
From Coq Require Import List Arith Bool Lia ZArith Permutation.
From Verif Require Import MpiModel MpiDims MpiMachine MpiRun MpiTrModel MpiTrGeom MpiLinks MpiTrForm MpiTrComm MpiTrPhase MpiTrXch MpiTrXchA MpiTrProg MpiTrLocal MpiTrStage MpiTrMain MpiTrSpec.
Import ListNotations.
Local Open Scope nat_scope.

(** A call: [true] = localize0 (rows to columns), [false] = localize1; arrays in and out.
    The object's work array is [bw]; inphase0 and outphase0 replace it by the output when
    compact (mpitranspose.h:640,749). *)
Record call := mkCall { cdir : bool; cin : nat; cout : nat }.
Section Calls.
Variable V : Type.
Variable c : cfg.
Definition workof (bw : nat) (x : call) : nat := if compact c then cout x else bw.
(** mpitranspose.h:903-913; n and m are the local dimensions given to the constructor *)
Definition call_cmd (n m : nat -> nat) (bw r : nat) (x : call) : prog V -> prog V :=
  if cdir x then localize0 V c r (n r) (m r) (cin x) (cout x) (workof bw x)
  else localize1 V c r (n r) (m r) (cin x) (cout x) (workof bw x).
Fixpoint calls_prog (n m : nat -> nat) (bw r : nat) (l : list call) : prog V :=
  match l with [] => Halt V | x :: l => call_cmd n m bw r x (calls_prog n m bw r l) end.
(** The state in which process r starts: mpitranspose.h:499-520 request arrays *)
Definition start_loc (r : nat) (mem : nat -> nat -> V) (bsz : nat -> nat) : loc V :=
  mkLoc V mem bsz (fun _ _ => Uninit) (reqsize c r) (fun _ _ => []) (fun _ _ => []).

(** Effect of a call on what is known about the arrays *)
Definition effect (bw : nat) (x : call) (k : nat -> know V) : nat -> know V := fun b =>
  if b =? cout x then match k (cin x) with Some (_, G) => Some (negb (cdir x), G) | None => None end
  else if b =? bw then None else k b.
(** A call made correctly: the input holds a matrix in the expected layout, neither array is
    the work array, and localize0 is not used out of place in compact mode *)
Definition legal_call (bs : list nat) (bw : nat) (x : call) (k : nat -> know V) : Prop :=
  In (cin x) bs /\ In (cout x) bs /\ cin x <> bw /\ cout x <> bw /\
  (exists G, k (cin x) = Some (cdir x, G)) /\
  (cdir x = true -> compact c = true -> cin x = cout x).
Fixpoint legal_calls (bs : list nat) (bw : nat) (l : list call) (k : nat -> know V) : Prop :=
  match l with [] => True | x :: l => legal_call bs bw x k /\ legal_calls bs bw l (effect bw x k) end.
Definition effects (bw : nat) (l : list call) (k : nat -> know V) : nat -> know V :=
  fold_left (fun k x => effect bw x k) l k.
End Calls.

Lemma blocklen_cq : forall N P, blocklen N P = cq N P. Proof. reflexivity. Qed.

Lemma step_mono : forall V e P Q g g', P <= Q -> step V e P g g' -> step V e Q g g'.
Proof. intros V e P Q g g' H []. constructor; auto. lia. Qed.
Lemma steps_mono : forall V e P Q n g g', P <= Q -> steps V e P n g g' -> steps V e Q n g g'.
Proof. intros V e P Q n g g' H. induction 1; econstructor; eauto using step_mono. Qed.

Lemma complete_eager : forall V (g : gst V) r x e, complete V false g r x -> complete V e g r x.
Proof. intros V g r [] []; cbn [complete]; auto. Qed.
Lemma step_eager : forall V e P g g', step V false P g g' -> step V e P g g'.
Proof.
  intros V e P g g' [r st Hr []]; constructor; auto.
  - constructor 1; auto. - econstructor 2; eauto. intros. apply complete_eager; auto.
Qed.
Lemma decides : forall V P n g gf, steps V false P n g gf -> done V P gf -> forall Q : gst V -> Prop, Q gf -> always_ends V P g Q.
Proof.
  intros V P n g gf H D Q HQ. exists n, gf. split; auto. split; auto. intros e k g1 H1.
  destruct (one_run_decides V P n g gf H D e k g1 H1) as (A & B & C). repeat (split; auto).
  intros St. inversion B as [|k' x g2 y S1 S2]; subst; auto. exfalso. apply (St g2). apply step_eager; auto.
Qed.

Lemma qpend : forall V (s : loc V) b o, quiet V s -> ~ pendR V s b o /\ ~ pendS V s b o.
Proof. intros V s b o Q. split; intros (a & i & l & ? & ? & ? & ? & ? & E & _); apply (Q a i l E). Qed.

Section Top.
Variable V : Type.
Variable c : cfg.
Context {Hc : good c}.
Notation S := (S_ c).
Notation N := (cN c). Notation M := (cM c). Notation P := (cP c).
Notation loc := (loc V). Notation prog := (prog V). Notation gst := (gst V).

Lemma rows_eq : forall G r m bf, rowsL V c G m bf r <-> has_rows V N M S P G r (m bf).
Proof.
  intros G r m bf. unfold rowsL, has_rows, holds. split.
  - intros H i j t Hi Hj Ht. rewrite (H i j); auto.
    + f_equal. change (first N P r) with (lbeg N P r). rewrite (ni_beg c). auto.
    + rewrite (ni_ldim c). auto.
  - intros H i j Hi Hj t Ht. rewrite (ni_ldim c) in Hi. rewrite (H i j t); auto.
    f_equal. change (first N P r) with (lbeg N P r). rewrite (ni_beg c). auto.
Qed.
Lemma cols_eq : forall G r m bf, colsL V c G m bf r <-> has_cols V N M S P G r (m bf).
Proof.
  intros G r m bf. unfold colsL, has_cols, holds. change (count M P r) with (ldim M P r). rewrite (mi_ldim c). split.
  - intros H i j t Hi Hj Ht. rewrite (H i j); auto.
    f_equal. change (first M P r) with (lbeg M P r). rewrite (mi_beg c). auto.
  - intros H i j Hi Hj t Ht. rewrite (H i j t); auto.
    f_equal. change (first M P r) with (lbeg M P r). rewrite (mi_beg c). auto.
Qed.

(** *** one process *)
Lemma sub_none : forall r, size c <= r -> subblock c r = false.
Proof.
  intros r Hr. unfold subblock. rewrite andb_false_iff, !Nat.ltb_ge. destruct (Nat.le_gt_cases (a_ c) 1); auto. right.
  pose proof (ab_Pbar c ltac:(lia)). pose proof (Pbar_le c). lia.
Qed.
Lemma sub_none1 : size c = 1 -> forall r, subblock c r = false.
Proof.
  intros H1 r. unfold subblock. rewrite andb_false_iff, !Nat.ltb_ge. destruct (Nat.le_gt_cases (a_ c) 1) as [|A]; auto. right.
  pose proof (ab_Pbar c ltac:(lia)). pose proof (Pbar_le c). assert (b_ c = 0).
  { destruct (b_ c) as [|b]; auto. exfalso. rewrite Nat.mul_succ_r in H. lia. }
  rewrite H2. lia.
Qed.
Lemma call_idle : forall n m bw r x k, size c <= r -> call_cmd V c n m bw r x k = k.
Proof.
  intros n m bw r x k Hr. apply Nat.leb_le in Hr as Hl. unfold call_cmd.
  destruct (cdir x); unfold localize0, localize1, ilocalize0, wait0_out, wait1_out, ilocalize1, wait0_in, wait1_in, seqc, outphase0, outsync0, outphase1, outsync1, inphase0, insync0, inphase1, insync1, inpost;
    rewrite ?Hl, ?orb_true_r, ?(sub_none r Hr); reflexivity.
Qed.
Lemma call_single : forall n m bw x k, size c = 1 -> call_cmd V c n m bw 0 x k =
  if cin x =? cout x then k else copy V c (cin x) 0 (cout x) 0 (if cdir x then n 0 * M * cL c else N * m 0 * cL c) k.
Proof.
  intros n m bw x k H1. unfold call_cmd.
  destruct (cdir x); unfold localize0, localize1, ilocalize0, wait0_out, wait1_out, ilocalize1, wait0_in, wait1_in, seqc, outphase0, outsync0, outphase1, outsync1, inphase0, insync0, inphase1, insync1, inpost, outsync;
    rewrite H1, ?(sub_none1 H1); cbn [Nat.eqb Nat.leb orb ifc]; unfold ifc; destruct (cin x =? cout x); reflexivity.
Qed.
Lemma single_dims : size c = 1 -> ni c 0 = N /\ mi c 0 = M.
Proof.
  intros H1. pose proof (nlast_size c). pose proof (mlast_size c). unfold ni, mi.
  destruct (np_eq c) as [A _]. destruct (mp_eq c) as [B _]. pose proof (n0_pos c).
  replace (nlast c) with 0 in * by lia. replace (mlast c) with 0 in * by lia. cbn [Nat.ltb Nat.leb Nat.eqb]. lia.
Qed.

Definition okall (s : nat -> loc) (bs : list nat) (k : nat -> know V) : Prop :=
  okst V c s bs /\ forall r b, r < size c -> In b bs -> agrees V N M S P (k b) r (mem V (s r) b).

Lemma copy_run : forall b1 b2 len s, b1 <> b2 -> quiet V s -> csz c * len <= bsz V s b1 -> csz c * len <= bsz V s b2 ->
  runs V (copy V c b1 0 b2 0 len) s (setmem V s (move_mem V (mem V s) b1 0 b2 0 (csz c * len) (fun o => o))).
Proof.
  intros b1 b2 len s Hne Q Z1 Z2 k. unfold copy, copyb. rewrite Nat.mul_0_r. econstructor; [|constructor].
  constructor; auto.
  - intros o Ho. split; [lia|]. apply (qpend V s b1 (0 + o) Q).
  - intros o Ho. split; [lia|]. split; apply (qpend V s b2 (0 + o) Q).
Qed.

(** *** one call *)
Lemma call_run : forall (g : gst) (k : nat -> prog) (s : nat -> loc) bs bw x kn,
  In bw bs -> okall s bs kn -> legal_call V c bs bw x kn ->
  (forall r, r < size c -> g r = (call_cmd V c (count N P) (count M P) bw r x (k r), s r)) ->
  exists n g2 s2, steps V false P n g g2 /\
    (forall r, r < size c -> g2 r = (k r, s2 r)) /\ (forall r, size c <= r -> g2 r = g r) /\
    okall s2 bs (effect V bw x kn) /\ (forall r, r < size c -> bsz V (s2 r) = bsz V (s r) /\
      forall b o, b <> cout x -> b <> bw -> mem V (s2 r) b o = mem V (s r) b o).
Proof.
  intros g k s bs bw [d bi bo] kn Ibw [Ok Ag] (Ii & Io & Hi & Ho & (G & HG) & Hcp) Eg. cbn [cdir cin cout] in *.
  pose proof (size_le c) as Le.
  assert (Dn : forall r, count N P r = ni c r) by (intros; rewrite (ni_ldim c); reflexivity).
  assert (Dm : forall r, count M P r = mi c r) by (intros; rewrite (mi_ldim c); reflexivity).
  assert (Fin : forall s2, okst V c s2 bs ->
     (forall r, r < size c -> (agrees V N M S P (Some (negb d, G)) r (mem V (s2 r) bo)) /\
        (forall bf o, bf <> bo -> bf <> bw -> mem V (s2 r) bf o = mem V (s r) bf o)) ->
     okall s2 bs (effect V bw {| cdir := d; cin := bi; cout := bo |} kn)).
  { intros s2 O2 A2. split; auto. intros r b Hr Hb. destruct (A2 r Hr) as [A3 A4]. unfold effect. cbn [cout cin cdir]. rewrite HG.
    destruct (Nat.eqb_spec b bo) as [->|Nb]; auto. destruct (Nat.eqb_spec b bw) as [->|Nw]; [exact I|].
    specialize (Ag r b Hr Hb). unfold agrees in *. destruct (kn b) as [[[] G']|]; auto.
    - unfold has_rows in *. intros. rewrite A4 by auto. auto.
    - unfold has_cols in *. intros. rewrite A4 by auto. auto. }
  destruct (Nat.eq_dec (size c) 1) as [H1|H1].
  - (* one active process *)
    destruct (single_dims H1) as [D1 D2]. assert (H0 : 0 < size c) by lia.
    pose proof (Eg 0 H0) as E0. rewrite call_single in E0 by auto. cbn [cin cout cdir] in E0. rewrite Dn, Dm, D1, D2 in E0.
    replace (if d then N * M * cL c else N * M * cL c) with (N * M * cL c) in E0 by (destruct d; auto).
    assert (Sw : forall m : nat -> V, agrees V N M S P (Some (d, G)) 0 m -> agrees V N M S P (Some (negb d, G)) 0 m).
    { assert (F1 : count N P 0 = N) by (rewrite Dn; auto). assert (F2 : count M P 0 = M) by (rewrite Dm; auto).
      assert (Z1 : first N P 0 = 0) by apply Nat.mul_0_r. assert (Z2 : first M P 0 = 0) by apply Nat.mul_0_r.
      intros m. destruct d; cbn [agrees negb]; unfold has_rows, has_cols; rewrite F1, F2, Z1, Z2; auto. }
    pose proof (Ag 0 bi H0 Ii) as Ai. rewrite HG in Ai.
    destruct (Nat.eqb_spec bi bo) as [->|Ne].
    + exists 0, g, s. split; [constructor|]. split; [|split; [auto|split; [|auto]]].
      * intros r Hr. assert (r = 0) by lia. subst r. auto.
      * apply Fin; auto. intros r Hr. assert (r = 0) by lia. subst r. split; auto.
    + set (m1 := move_mem V (mem V (s 0)) bi 0 bo 0 (csz c * (N * M * cL c)) (fun o => o)).
      assert (Eb : csz c * (N * M * cL c) = N * M * S) by (unfold S_; ring).
      assert (Cp : forall b, In b bs -> csz c * (N * M * cL c) <= bsz V (s 0) b).
      { intros b Hb. pose proof (ok_bufs V c s bs Ok 0 b H0 Hb) as Z. unfold cap in Z. rewrite D1, D2 in Z. rewrite Nat.max_id in Z. lia. }
      pose proof (copy_run bi bo (N * M * cL c) (s 0) Ne (ok_quiet V c s bs Ok 0 H0) (Cp bi Ii) (Cp bo Io) (k 0)) as R.
      set (s2 := fun r : nat => if r =? 0 then setmem V (s 0) m1 else s r).
      set (g2 := fun r => if r <? size c then (k r, s2 r) else g r).
      destruct (all_local V false (size c) g g2) as (n & St).
      { intros r Hr. assert (r = 0) by lia. subst r. unfold g2. destruct (Nat.ltb_spec 0 (size c)); [|lia]. rewrite E0. exact R. }
      { intros r Hr. unfold g2. destruct (Nat.ltb_spec r (size c)); auto. lia. }
      exists n, g2, s2. split; [eapply steps_mono; eauto|]. split; [|split; [|split]].
      * intros r Hr. unfold g2. destruct (Nat.ltb_spec r (size c)); auto. lia.
      * intros r Hr. unfold g2. destruct (Nat.ltb_spec r (size c)); auto. lia.
      * apply Fin.
        { destruct Ok as [K1 K2 K3 K4]. constructor.
          - intros p q cx Hp Hq. assert (p = 0) by lia. assert (q = 0) by lia. subst p q. apply (K1 0 0 cx); auto.
          - intros r Hr. assert (r = 0) by lia. subst r. apply (K2 0); auto.
          - intros r a' Hr. assert (r = 0) by lia. subst r. apply (K3 0 a'); auto.
          - intros r b Hr. assert (r = 0) by lia. subst r. apply (K4 0 b); auto. }
        intros r Hr. assert (r = 0) by lia. subst r. split.
        { apply Sw. unfold s2. cbn [Nat.eqb mem setmem].
          assert (Rd : forall o, o < N * M * S -> m1 bo o = mem V (s 0) bi o).
          { intros o Hlt. unfold m1, move_mem. rewrite Nat.eqb_refl. rewrite Nat.add_0_l, Nat.sub_0_r. cbn [andb Nat.leb].
            destruct (Nat.ltb_spec o (csz c * (N * M * cL c))); auto. lia. }
          unfold agrees in *. assert (F1 : count N P 0 = N) by (rewrite Dn; auto). assert (F2 : count M P 0 = M) by (rewrite Dm; auto).
          destruct d; unfold has_rows, has_cols in *; rewrite ?F1, ?F2 in *; intros i j t A B C; rewrite Rd; auto;
            apply pbound; auto; apply pbound; auto. }
        { intros bf o Nb Nw. unfold s2. cbn [Nat.eqb mem setmem]. unfold m1, move_mem. destruct (Nat.eqb_spec bf bo); [congruence|]. auto. }
      * intros r Hr. assert (r = 0) by lia. subst r. unfold s2. cbn [Nat.eqb mem setmem bsz]. split; auto.
        intros bf o Nb Nw. unfold m1, move_mem. destruct (Nat.eqb_spec bf bo); [congruence|]. auto.
  - (* several *)
    unfold call_cmd, workof in Eg. cbn [cdir cin cout] in Eg.
    set (w := if compact c then bo else bw) in *. assert (Iw : In w bs) by (unfold w; destruct (compact c); auto).
    assert (Eg' : forall r, r < size c -> g r = ((if d then localize0 V c r (ni c r) (mi c r) bi bo w (k r) else localize1 V c r (ni c r) (mi c r) bi bo w (k r)), s r)).
    { intros r Hr. rewrite Eg by auto. rewrite Dn, Dm. destruct d; auto. }
    clear Eg. destruct d; cbn [negb] in *.
    + destruct (out_run V c G g k s bi bo w bs H1) as (n & g2 & s2 & St & E2 & O2 & Ok2 & Z2 & X2); auto.
      { unfold w. destruct (compact c) eqn:Cp; [right|left]; auto. }
      { intros r Hr. pose proof (Ag r bi Hr Ii) as A. rewrite HG in A. apply rows_eq. auto. }
      assert (X3 : forall r, r < size c -> forall bf o, bf <> bo -> bf <> bw -> mem V (s2 r) bf o = mem V (s r) bf o).
      { intros r Hr bf o Nb Nw. destruct (X2 r Hr) as [_ X]. apply X; auto. unfold w. destruct (compact c); auto. }
      exists n, g2, s2. split; [eapply steps_mono; eauto|]. split; [auto|split; [auto|split]].
      * apply Fin; auto. intros r Hr. split; auto. cbn [agrees]. apply cols_eq. apply X2; auto.
      * intros r Hr. destruct (Z2 r Hr). auto.
    + destruct (in_run V c G g k s bi bo w bs H1) as (n & g2 & s2 & St & E2 & O2 & Ok2 & Z2 & X2); auto.
      { unfold w. destruct (compact c) eqn:Cp; [right|left]; auto. }
      { intros r Hr. pose proof (Ag r bi Hr Ii) as A. rewrite HG in A. apply cols_eq. auto. }
      assert (X3 : forall r, r < size c -> forall bf o, bf <> bo -> bf <> bw -> mem V (s2 r) bf o = mem V (s r) bf o).
      { intros r Hr bf o Nb Nw. destruct (X2 r Hr) as [_ X]. apply X; auto. unfold w. destruct (compact c); auto. }
      exists n, g2, s2. split; [eapply steps_mono; eauto|]. split; [auto|split; [auto|split]].
      * apply Fin; auto. intros r Hr. split; auto. cbn [agrees]. apply rows_eq. apply X2; auto.
      * intros r Hr. destruct (Z2 r Hr). auto.
Qed.

(** *** a sequence of calls *)
Lemma calls_idle : forall bw r l, size c <= r -> calls_prog V c (count N P) (count M P) bw r l = Halt V.
Proof. intros bw r l Hr. induction l as [|x l IH]; auto. cbn [calls_prog]. rewrite call_idle by auto. auto. Qed.

Lemma calls_run : forall l (g : gst) (s : nat -> loc) bs bw kn,
  In bw bs -> okall s bs kn -> legal_calls V c bs bw l kn ->
  (forall r, r < P -> g r = (calls_prog V c (count N P) (count M P) bw r l, s r)) ->
  exists n g2, steps V false P n g g2 /\ done V P g2 /\
    (forall r b, r < size c -> In b bs -> agrees V N M S P (effects V bw l kn b) r (mem V (snd (g2 r)) b)) /\
    (forall r, r < P -> bsz V (snd (g2 r)) = bsz V (s r) /\
       forall b o, ~ In b (bw :: map cout l) -> mem V (snd (g2 r)) b o = mem V (s r) b o).
Proof.
  induction l as [|x l IH]; intros g s bs bw kn Ib Ok Lg Eg.
  - exists 0, g. split; [constructor|]. split; [intros r Hr; rewrite Eg by auto; reflexivity|]. split.
    + intros r b Hr Hb. pose proof (size_le c). rewrite Eg by lia. apply Ok; auto.
    + intros r Hr. rewrite Eg by auto. auto.
  - destruct Lg as [L1 L2]. pose proof (size_le c) as Le.
    destruct (call_run g (fun r => calls_prog V c (count N P) (count M P) bw r l) s bs bw x kn) as (n1 & g1 & s1 & St1 & E1 & O1 & Ok1 & Z1); auto.
    { intros r Hr. rewrite Eg by lia. reflexivity. }
    set (s1' := fun r => if r <? size c then s1 r else s r).
    destruct (IH g1 s1' bs bw (effect V bw x kn)) as (n2 & g2 & St2 & D2 & A2 & Z2); auto.
    { destruct Ok1 as [[K1 K2 K3 K4] K5]. unfold s1'. split; [constructor|].
      - intros p q cx Hp Hq. destruct (Nat.ltb_spec p (size c)); [|lia]. destruct (Nat.ltb_spec q (size c)); [|lia]. auto.
      - intros r Hr. destruct (Nat.ltb_spec r (size c)); [|lia]. auto.
      - intros r a' Hr. destruct (Nat.ltb_spec r (size c)); [|lia]. auto.
      - intros r b Hr. destruct (Nat.ltb_spec r (size c)); [|lia]. auto.
      - intros r b Hr. destruct (Nat.ltb_spec r (size c)); [|lia]. auto. }
    { intros r Hr. unfold s1'. destruct (Nat.ltb_spec r (size c)); auto. rewrite O1 by auto. rewrite Eg by auto.
      cbn [calls_prog]. rewrite call_idle by auto. auto. }
    exists (n1 + n2), g2. split; [eapply steps_trans; eauto|]. split; auto. split; auto.
    intros r Hr. destruct (Z2 r Hr) as [B1 B2]. unfold s1' in *. destruct (Nat.ltb_spec r (size c)) as [Hs|Hs].
    + destruct (Z1 r Hs) as [C1 C2]. split; [congruence|]. intros b o Hn. cbn [map In] in Hn. rewrite B2; [apply C2|]; cbn [In]; intuition.
    + split; auto. intros b o Hn. cbn [map In] in Hn. apply B2. cbn [In]. intuition.
Qed.

(** every history of calls, every execution *)
Theorem calls_always : forall (mem0 : nat -> nat -> nat -> V) (bsz0 : nat -> nat -> nat) bs bw kn l,
  In bw bs ->
  (forall r b, r < P -> In b bs -> storage N M S P r <= bsz0 r b) ->
  (forall r b, r < P -> In b bs -> agrees V N M S P (kn b) r (mem0 r b)) ->
  legal_calls V c bs bw l kn ->
  always_ends V P
    (fun r => (calls_prog V c (count N P) (count M P) bw r l, start_loc V c r (mem0 r) (bsz0 r)))
    (fun gf => forall r, r < P ->
       (forall b, In b bs -> agrees V N M S P (effects V bw l kn b) r (mem V (snd (gf r)) b)) /\
       (forall b o, ~ In b (bw :: map cout l) -> mem V (snd (gf r)) b o = mem0 r b o)).
Proof.
  intros mem0 bsz0 bs bw kn l Ib Hz Hk Lg. pose proof (size_le c) as Le.
  destruct (calls_run l (fun r => (calls_prog V c (count N P) (count M P) bw r l, start_loc V c r (mem0 r) (bsz0 r)))
     (fun r => start_loc V c r (mem0 r) (bsz0 r)) bs bw kn) as (n & g2 & St & D & A & Z); auto.
  - split; [constructor|].
    + intros p q cx Hp Hq. reflexivity.
    + intros r Hr a' i l' E. discriminate E.
    + intros r a' Hr. apply Nat.le_refl.
    + intros r b Hr Hb. specialize (Hz r b ltac:(lia) Hb). unfold cap. unfold storage in Hz. cbn [start_loc bsz].
      change (count N P r) with (ldim N P r) in Hz. change (count M P r) with (ldim M P r) in Hz.
      rewrite <- (ni_ldim c), <- (mi_ldim c) in Hz. auto.
    + intros r b Hr Hb. apply Hk; auto. lia.
  - eapply decides; eauto. intros r Hr. destruct (Z r Hr) as [_ Z2]. split; auto.
    intros b Hb. destruct (Nat.lt_ge_cases r (size c)) as [Hs|Hs]; auto.
    (* idle processes own nothing *)
    assert (E1 : count N P r = 0). { change (count N P r) with (ldim N P r). rewrite <- (ni_ldim c). apply ni_idle; auto. }
    assert (E2 : count M P r = 0). { change (count M P r) with (ldim M P r). rewrite <- (mi_ldim c). apply mi_idle; auto. }
    destruct (effects V bw l kn b) as [[[] G]|]; cbn [agrees]; auto; unfold has_rows, has_cols; rewrite ?E1, ?E2; intros; lia.
Qed.
End Top.
