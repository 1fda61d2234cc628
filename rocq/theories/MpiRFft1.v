(** The local steps of the distributed real transforms. *)
From Coq Require Import Reals ZArith List Arith Bool Lia FunctionalExtensionality.
From Verif Require Import CNum Sums MpiMachine MpiRun MpiTrModel MpiTrTop MpiFftModel MpiFft1 MpiRFftModel.
Import ListNotations.
Local Open Scope nat_scope.

Section Words.
Variable V : Type.
Notation loc := (loc V). Notation runs := (runs V).
Lemma setmem_sameV : forall s : loc, setmem V s (mem V s) = s.
Proof. intros []; reflexivity. Qed.

Lemma rdw_run : forall b adr n acc k s, quiet V s -> (forall j, j < n -> adr j < bsz V s b) ->
  lstar V (rdw V b adr n acc k, s) (k (fun j => if j <? n then mem V s b (adr j) else acc j), s).
Proof.
  induction n as [|n IH]; intros acc k s Q B; cbn [rdw].
  - match goal with |- lstar _ (k ?a, _) (k ?b, _) => replace b with a; [constructor|] end.
    apply functional_extensionality. intros j. destruct (Nat.ltb_spec j 0); [lia|auto].
  - econstructor.
    + constructor; [apply B; lia|apply (qpend V s b (adr n) Q)].
    + eapply lstar_trans; [apply IH; auto|].
      match goal with |- lstar _ (k ?a, _) (k ?b, _) => replace b with a; [constructor|] end.
      apply functional_extensionality. intros j.
      destruct (Nat.ltb_spec j n), (Nat.ltb_spec j (S n)), (Nat.eqb_spec j n); subst; auto; lia.
Qed.

Lemma wrw_run : forall b adr n f s, quiet V s -> (forall j, j < n -> adr j < bsz V s b) ->
  (forall j j', j < n -> j' < n -> adr j = adr j' -> j = j') ->
  exists m', runs (wrw V b adr n f) s (setmem V s m') /\ (forall j, j < n -> m' b (adr j) = f j) /\
    (forall b' o, b' <> b \/ (forall j, j < n -> o <> adr j) -> m' b' o = mem V s b' o).
Proof.
  intros b adr n f. induction n as [|n IH]; intros s Q B I.
  - exists (mem V s). split; [rewrite setmem_sameV; apply runs_skip|]. split; [intros; lia|auto].
  - set (s1 := setmem V s (upd2 (mem V s) b (adr n) (f n))).
    destruct (IH s1) as (m' & R & W & F).
    + exact Q. + intros j Hj. apply B. lia. + intros j j' Hj Hj'. apply I; lia.
    + exists m'. split; [|split].
      * intros k. cbn [wrw]. unfold seqc. econstructor.
        { constructor; [apply B; lia| |]; apply (qpend V s b (adr n) Q). }
        apply R.
      * intros j Hj. destruct (Nat.eq_dec j n) as [->|N]; [|apply W; lia].
        rewrite F by (right; intros j' Hj' E; apply I in E; lia). cbn [mem s1 setmem]. apply upd2_eq.
      * intros b' o H. rewrite F by (destruct H as [H|H]; [left; auto|right; intros; apply H; lia]).
        cbn [mem s1 setmem]. apply upd2_neq. intros E. inversion E; subst. destruct H as [H|H]; [auto|apply (H n); lia].
Qed.

Lemma plan_run : forall d n n' tr ok junk M adri adro bi bo s, quiet V s ->
  (forall x x', (forall j, j < n -> x j = x' j) -> forall k, k < n' -> tr x k = tr x' k) ->
  (forall x x', (forall j, j < n -> x j = x' j) -> ok x = ok x') ->
  (forall h j, h < M -> j < n -> adri h j < bsz V s bi) -> (forall h k, h < M -> k < n' -> adro h k < bsz V s bo) ->
  inj2 adri M n -> inj2 adro M n' ->
  (bi = bo -> forall h j h' k, h < M -> j < n -> h' < M -> k < n' -> h <> h' -> adri h j <> adro h' k) ->
  (forall h, h < M -> ok (fun j => mem V s bi (adri h j)) = true) ->
  exists m', runs (plan V d n n' tr ok junk M adri adro bi bo) s (setmem V s m') /\
    (forall h k, h < M -> k < n' -> m' bo (adro h k) = tr (fun j => mem V s bi (adri h j)) k) /\
    (forall b o, (b <> bo \/ forall h k, h < M -> k < n' -> o <> adro h k) ->
       (b <> bi \/ junk = None \/ forall h j, h < M -> j < n -> o <> adri h j) -> m' b o = mem V s b o).
Proof.
  intros d n n' tr ok junk M adri adro bi bo s Q E Eo B B' I I' Ap HO.
  set (body := fun h k => rdw V bi (adri h) n (fun _ => d) (fun x =>
    if ok x then match junk with Some f => wrw V bi (adri h) n (f h) | None => skip V end (wrw V bo (adro h) n' (tr x) k) else Fail V)).
  assert (G : forall cnt i, i + cnt <= M -> forall s1, quiet V s1 -> bsz V s1 = bsz V s ->
    (forall h j, i <= h < M -> j < n -> mem V s1 bi (adri h j) = mem V s bi (adri h j)) ->
    exists m', runs (floop V i cnt body) s1 (setmem V s1 m') /\
      (forall h k, i <= h < i + cnt -> k < n' -> m' bo (adro h k) = tr (fun j => mem V s bi (adri h j)) k) /\
      (forall b o, (b <> bo \/ forall h k, i <= h < i + cnt -> k < n' -> o <> adro h k) ->
         (b <> bi \/ junk = None \/ forall h j, i <= h < i + cnt -> j < n -> o <> adri h j) -> m' b o = mem V s1 b o)).
  { induction cnt as [|cnt IH]; intros i Hi s1 Q1 Z1 K1.
    - exists (mem V s1). split; [rewrite setmem_sameV; apply runs_skip|]. split; [intros; lia|auto].
    - set (x := fun j => if j <? n then mem V s1 bi (adri i j) else d).
      assert (Ex : forall j, j < n -> x j = mem V s bi (adri i j)).
      { intros j Hj. unfold x. destruct (Nat.ltb_spec j n); [|lia]. apply K1; lia. }
      (* the input, possibly overwritten *)
      assert (J : exists mj, (forall k, lstar V (match junk with Some f => wrw V bi (adri i) n (f i) | None => skip V end k, s1) (k, setmem V s1 mj)) /\
        (forall b o, (b <> bi \/ junk = None \/ forall j, j < n -> o <> adri i j) -> mj b o = mem V s1 b o)).
      { destruct junk as [f|].
        - destruct (wrw_run bi (adri i) n (f i) s1) as (mj & R & W & F); auto.
          { intros j Hj. rewrite Z1. apply B; lia. }
          { intros j j' Hj Hj' Ej. apply (I i j i j') in Ej; lia. }
          exists mj. split; [exact R|]. intros b o [H|[H|H]]; [apply F; auto|discriminate|apply F; auto].
        - exists (mem V s1). split; [|auto]. intros k. rewrite setmem_sameV. constructor. }
      destruct J as (mj & Rj & Fj).
      destruct (wrw_run bo (adro i) n' (tr x) (setmem V s1 mj)) as (m1 & R1 & W1 & F1); auto.
      { intros j Hj. cbn [bsz setmem]. rewrite Z1. apply B'; lia. }
      { intros j j' Hj Hj' Ej. apply (I' i j i j') in Ej; lia. }
      destruct (IH (S i) ltac:(lia) (setmem V s1 m1)) as (m2 & R2 & W2 & F2); auto.
      { intros h j Hh Hj. cbn [mem setmem]. rewrite F1; [rewrite Fj; [apply K1; lia|]|].
        - right. right. intros j' Hj' Ej. apply (I h j i j') in Ej; lia.
        - destruct (Nat.eq_dec bi bo) as [Eb|Nb]; [right|left; auto]. intros k Hk. apply Ap; auto; lia. }
      exists m2. split; [|split].
      + intros k. cbn [floop]. unfold seqc, body at 1. eapply lstar_trans; [apply rdw_run; auto; intros j Hj; rewrite Z1; apply B; lia|].
        cbv beta. fold x. replace (ok x) with true.
        2:{ rewrite <- (HO i) by lia. apply Eo. intros j Hj. symmetry. apply Ex; auto. }
        cbv iota. eapply lstar_trans; [apply Rj|]. eapply lstar_trans; [apply R1|apply R2].
      + intros h k Hh Hk. destruct (Nat.eq_dec h i) as [->|N]; [|apply W2; lia].
        rewrite F2.
        * cbn [mem setmem]. rewrite W1 by auto. apply E; auto.
        * right. intros h' k' Hh' Hk' Ek. apply (I' i k h' k') in Ek; lia.
        * destruct (Nat.eq_dec bi bo) as [Eb|Nb]; [|left; auto]. right. right. intros h' j' Hh' Hj' Ek. symmetry in Ek. revert Ek. apply Ap; auto; lia.
      + intros b o H1 H2. rewrite F2.
        * cbn [mem setmem]. rewrite F1.
          -- apply Fj. destruct H2 as [H2|[H2|H2]]; [auto|auto|right; right; intros; apply H2; lia].
          -- cbn [setmem mem]. destruct H1 as [H1|H1]; [left; auto|right; intros; apply H1; lia].
        * destruct H1 as [H1|H1]; [left; auto|right; intros; apply H1; lia].
        * destruct H2 as [H2|[H2|H2]]; [auto|auto|right; right; intros; apply H2; lia]. }
  destruct (G M 0 ltac:(lia) s Q eq_refl ltac:(auto)) as (m' & R & W & F). exists m'. split; [exact R|]. split.
  - intros h k Hh Hk. apply W; lia.
  - intros b o H1 H2. apply F.
    + destruct H1 as [H1|H1]; [auto|right; intros; apply H1; lia].
    + destruct H2 as [H2|[H2|H2]]; [auto|auto|right; right; intros; apply H2; lia].
Qed.
End Words.
