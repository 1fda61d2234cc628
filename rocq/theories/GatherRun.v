(** The gather routines: one run, hence all runs. *)
From Coq Require Import List Arith Bool Lia ZArith FunctionalExtensionality.
From Verif Require Import MpiMachine MpiRun MpiModel MpiTrSpec MpiTrTop GatherModel GatherSpec.
Import ListNotations.
Local Open Scope nat_scope.

Section G.
Variable D : Type.
Notation V := (cell D).
Notation cmd := (prog V -> prog V).
Notation loc := (loc V). Notation gst := (gst V). Notation prog := (prog V).

(** nothing pending *)
Definition idle (s : loc) : Prop := forall a i l, sl V s a i <> Act l.
Lemma idle_pend s b o : idle s -> ~ pendR V s b o /\ ~ pendS V s b o.
Proof. intros Q. split; intros (a & i & l & ? & ? & ? & ? & ? & E & _); apply (Q a i l E). Qed.
Lemma idle_setmem s m : idle s -> idle (setmem V s m). Proof. intros Q. exact Q. Qed.
Lemma idle_setbsz s f : idle s -> idle (setbsz V s f). Proof. intros Q. exact Q. Qed.

(** *** local copies into whole: cells of [b] below [n] go to cells of 1 below [W]
    as related by [R] *)
Definition puts (b n W : nat) (R : nat -> nat -> Prop) (cm : cmd) : Prop :=
  forall s, idle s -> n <= bsz V s b -> W <= bsz V s 1 ->
  exists m', runs V cm s (setmem V s m') /\ (forall b' o, b' <> 1 -> m' b' o = mem V s b' o) /\
    forall o, (exists i, i < n /\ R i o /\ m' 1 o = mem V s b i) \/ ((forall i, i < n -> ~ R i o) /\ m' 1 o = mem V s 1 o).

Lemma setmem_id s : setmem V s (mem V s) = s. Proof. destruct s; reflexivity. Qed.
Lemma setmem_twice s m m' : setmem V (setmem V s m) m' = setmem V s m'. Proof. reflexivity. Qed.

Lemma puts_skip b n W : puts b n W (fun _ _ => False) (skip D).
Proof.
  intros s Q _ _. exists (mem V s). rewrite setmem_id. split; [apply runs_skip|]. split; auto.
Qed.
Lemma puts_ext b n W (R R' : nat -> nat -> Prop) cm : (forall i o, R i o <-> R' i o) -> puts b n W R cm -> puts b n W R' cm.
Proof.
  intros E H s Q A B. destruct (H s Q A B) as (m' & M1 & M2 & M3). exists m'. split; auto. split; auto.
  intros o. destruct (M3 o) as [(i & I1 & I2 & I3)|[I1 I2]].
  - left. exists i. rewrite <- E. auto.
  - right. split; auto. intros i Hi. rewrite <- E. auto.
Qed.
Lemma puts_seq b n W R1 R2 c1 c2 : b <> 1 -> puts b n W R1 c1 -> puts b n W R2 c2 ->
  puts b n W (fun i o => R1 i o \/ R2 i o) (seqc D c1 c2).
Proof.
  intros Hb H1 H2 s Q A B. destruct (H1 s Q A B) as (m1 & M1 & M2 & M3).
  destruct (H2 (setmem V s m1) Q A B) as (m2 & N1 & N2 & N3).
  exists m2. split; [exact (runs_seq V c1 c2 s _ _ M1 N1)|]. split.
  - intros b' o Hb'. rewrite N2 by auto. apply M2; auto.
  - intros o. destruct (N3 o) as [(i & I1 & I2 & I3)|[I1 I2]].
    + left. exists i. split; auto. split; auto. rewrite I3. cbn [setmem mem]. apply M2; auto.
    + cbn [setmem mem] in I2. destruct (M3 o) as [(i & J1 & J2 & J3)|[J1 J2]].
      * left. exists i. split; auto. split; auto. congruence.
      * right. split; [|congruence]. intros i Hi [K|K]; [eapply J1|eapply I1]; eauto.
Qed.
Lemma puts_floop b n W (R : nat -> nat -> nat -> Prop) body : b <> 1 -> forall cnt t0,
  (forall t, t0 <= t < t0 + cnt -> puts b n W (R t) (body t)) ->
  puts b n W (fun i o => exists t, t0 <= t < t0 + cnt /\ R t i o) (floop D t0 cnt body).
Proof.
  intros Hb. induction cnt as [|cnt IH]; intros t0 H; cbn [floop].
  - eapply puts_ext; [|apply puts_skip]. intros i o. split; [tauto|]. intros (t & ? & _). lia.
  - eapply puts_ext; [|apply puts_seq with (R1 := R t0); [auto|apply H; lia|apply IH; intros; apply H; lia]].
    intros i o. cbv beta. split.
    + intros [K|(t & T & K)]; [exists t0; split; auto; lia|exists t; split; auto; lia].
    + intros (t & T & K). destruct (Nat.eq_dec t t0) as [->|Ne]; [left; auto|right; exists t; split; auto; lia].
Qed.
Lemma puts_copy b n W o1 o2 len : b <> 1 -> (0 < len -> o1 + len <= n) -> (0 < len -> o2 + len <= W) ->
  puts b n W (fun i o => exists t, t < len /\ i = o1 + t /\ o = o2 + t) (copy D b o1 1 o2 len).
Proof.
  intros Hb L1 L2 s Q A B. exists (move_mem V (mem V s) b o1 1 o2 len (fun o => o)). split; [|split].
  - intros k. unfold copy. econstructor; [|constructor]. constructor; auto.
    + intros o Ho. split; [lia|]. apply idle_pend; auto.
    + intros o Ho. split; [lia|]. apply idle_pend; auto.
  - intros b' o Hb'. unfold move_mem. destruct (Nat.eqb_spec b' 1); [contradiction|]. reflexivity.
  - intros o. unfold move_mem. rewrite Nat.eqb_refl. cbn [andb].
    destruct (Nat.leb_spec o2 o); destruct (Nat.ltb_spec o (o2 + len)); cbn [andb].
    + left. exists (o1 + (o - o2)). split; [lia|]. split; auto. exists (o - o2). lia.
    + right. split; auto. intros i Hi (t & T1 & T2 & T3). lia.
    + right. split; auto. intros i Hi (t & T1 & T2 & T3). lia.
    + right. split; auto. intros i Hi (t & T1 & T2 & T3). lia.
Qed.
Lemma puts_copyfromblock b n W o1 o2 count length stride : b <> 1 ->
  (forall a, a < count -> 0 < length -> o1 + a * length + length <= n) ->
  (forall a, a < count -> 0 < length -> o2 + a * stride + length <= W) ->
  puts b n W (fun i o => exists a t, a < count /\ t < length /\ i = o1 + (a * length + t) /\ o = o2 + a * stride + t)
    (copyfromblock D b o1 1 o2 count length stride).
Proof.
  intros Hb L1 L2. unfold copyfromblock.
  eapply puts_ext; [|apply puts_floop with (R := fun a i o => exists t, t < length /\ i = o1 + a * length + t /\ o = o2 + a * stride + t); [auto|]].
  - intros i o. cbv beta. split.
    + intros (a & A & t & T1 & T2 & T3). exists a, t. repeat split; try lia.
    + intros (a & t & A & T & E1 & E2). exists a. split; [lia|]. exists t. repeat split; auto. lia.
  - intros a Ha. apply puts_copy; auto.
    + apply L1. lia.
    + apply L2. lia.
Qed.

(** *** one message *)
Definition logs (s s' : loc) (sent : nat -> nat -> list (msg V)) (rcvd : nat -> nat -> list nat) : Prop :=
  (forall d c, slog V s' d c = slog V s d c ++ sent d c) /\ (forall d c, rlog V s' d c = rlog V s d c ++ rcvd d c).

Record like (s s' : loc) : Prop := mkLike { (* same memory and sizes, still idle *)
  lk_mem : mem V s' = mem V s; lk_bsz : bsz V s' = bsz V s; lk_idle : idle s'; lk_slsz : slsz V s' = slsz V s }.

Lemma exchange P (g : gst) p kp k0 sp s0 b len b' :
  0 < p < P -> g p = (mpi_send D b len 0 kp, sp) -> g 0 = (mpi_recv D b' len p k0, s0) ->
  idle sp -> idle s0 -> 0 < slsz V sp 0 -> 0 < slsz V s0 0 -> len <= bsz V sp b -> len <= bsz V s0 b' ->
  length (slog V sp 0 0) = length (rlog V s0 p 0) ->
  exists n sp' s0',
    steps V false P n g (upd (upd g p (kp, sp')) 0 (k0, s0')) /\
    like sp sp' /\ idle s0' /\ bsz V s0' = bsz V s0 /\ slsz V s0' = slsz V s0 /\
    (forall bb o, mem V s0' bb o = if (bb =? b') && (o <? len) then mem V sp b o else mem V s0 bb o) /\
    length (slog V sp' 0 0) = length (rlog V s0' p 0) /\
    (forall q, q <> p -> rlog V s0' q 0 = rlog V s0 q 0).
Proof.
  intros Hp Ep E0 Qp Q0 Zp Z0 Lp L0 Eq.
  assert (Np : p <> 0) by lia.
  unfold mpi_send in Ep. unfold mpi_recv in E0.
  set (sp1 := do_post V sp 0 0 [Snd 0 0 b 0 len]). set (s01 := do_post V s0 0 0 [Rcv p 0 b' 0 len]).
  set (g1 := upd g p (Wait V [(0, 0)] kp, sp1)). set (g2 := upd g1 0 (Wait V [(0, 0)] k0, s01)).
  assert (S1 : step V false P g g1).
  { constructor; [lia|]. apply p_loc. rewrite Ep. constructor. split; [split; [auto|apply Qp]|].
    split; [|split; [|split]].
    - intros bb o (d & c & off & ln & [I|[]] & J). injection I as <- <- <- <- <-. split; [lia|]. apply idle_pend; auto.
    - intros bb o (d & c & off & ln & [I|[]] & J). discriminate.
    - exact I.
    - intros _ bb o _ (d & c & off & ln & [I|[]] & J). discriminate. }
  assert (S2 : step V false P g1 g2).
  { constructor; [lia|]. apply p_loc. unfold g1. rewrite upd_neq by lia. rewrite E0. constructor. split; [split; [auto|apply Q0]|].
    split; [|split; [|split]].
    - intros bb o (d & c & off & ln & [I|[]] & J). discriminate.
    - intros bb o (d & c & off & ln & [I|[]] & J). injection I as <- <- <- <- <-. split; [lia|]. apply idle_pend; auto.
    - cbn. split; auto. intros o _ (d & c & off & ln & [] & J).
    - intros _ bb o (d & c & off & ln & [I|[]] & J) _. discriminate. }
  (* the send completes *)
  assert (E2p : g2 p = (Wait V [(0, 0)] kp, sp1)) by (unfold g2, g1; rewrite upd_neq by lia; apply upd_eq).
  assert (E20 : g2 0 = (Wait V [(0, 0)] k0, s01)) by (unfold g2; apply upd_eq).
  assert (Rp : reqs V sp1 [(0, 0)] = [RSnd 0 0 (length (slog V sp 0 0)) b 0 len]) by reflexivity.
  assert (R0 : reqs V s01 [(0, 0)] = [RRcv p 0 (length (rlog V s0 p 0)) b' 0 len]) by reflexivity.
  set (sp2 := mkLoc V (deliver V g2 p (mem V sp1) (reqs V sp1 [(0, 0)])) (bsz V sp1) (clear V sp1 [(0, 0)]) (slsz V sp1) (slog V sp1) (rlog V sp1)).
  set (g3 := upd g2 p (kp, sp2)).
  assert (S3 : step V false P g2 g3).
  { constructor; [lia|]. unfold sp2. apply p_wait; [exact E2p| |].
    - intros a i [I|[]]. injection I as <- <-. split; [exact Zp|]. cbn. discriminate.
    - rewrite Rp. intros x [<-|[]]. cbn [complete]. rewrite E20. cbn [snd s01 do_post postl post1 setsl rlog].
      unfold upd2. rewrite !Nat.eqb_refl. cbn [andb]. rewrite app_length. cbn [length]. lia. }
  set (s02 := mkLoc V (deliver V g3 0 (mem V s01) (reqs V s01 [(0, 0)])) (bsz V s01) (clear V s01 [(0, 0)]) (slsz V s01) (slog V s01) (rlog V s01)).
  assert (M : matched V g3 0 p 0 (length (rlog V s0 p 0)) = Some (mkMsg V len (fun t => mem V sp b (0 + t)))).
  { unfold matched, g3. rewrite upd_eq. cbn [snd sp2 slog sp1 do_post postl post1 setsl]. unfold upd2. cbn [Nat.eqb andb].
    rewrite <- Eq. rewrite nth_error_app2 by lia. rewrite Nat.sub_diag. reflexivity. }
  assert (S4 : step V false P g3 (upd g3 0 (k0, s02))).
  { constructor; [lia|]. unfold s02. apply p_wait.
    - unfold g3. rewrite upd_neq by lia. exact E20.
    - intros a i [I|[]]. injection I as <- <-. split; [exact Z0|]. cbn. discriminate.
    - rewrite R0. intros x [<-|[]]. cbn [complete]. eexists. split; [exact M|reflexivity]. }
  exists 4, sp2, s02. split.
  - econstructor; [exact S1|]. econstructor; [exact S2|]. econstructor; [exact S3|].
    replace (upd (upd g p (kp, sp2)) 0 (k0, s02)) with (upd g3 0 (k0, s02)); [econstructor; [exact S4|constructor]|].
    unfold g3, g2, g1. apply functional_extensionality. intros r. unfold upd.
    destruct (Nat.eqb_spec r 0); auto. destruct (Nat.eqb_spec r p); auto.
  - split; [|split; [|split; [|split; [|split; [|split]]]]].
    + constructor; cbn [sp2 mem bsz slsz]; auto.
      intros a i l. cbn [sp2 sl]. unfold clear. destruct in_dec as [I|I]; [discriminate|].
      cbn [sp1 do_post postl post1 setsl sl]. unfold upd2.
      destruct (Nat.eqb_spec a 0); destruct (Nat.eqb_spec i 0); cbn [andb]; try apply Qp. subst. exfalso. apply I. left; auto.
    + intros a i l. cbn [s02 sl]. unfold clear. destruct in_dec as [I|I]; [discriminate|].
      cbn [s01 do_post postl post1 setsl sl]. unfold upd2.
      destruct (Nat.eqb_spec a 0); destruct (Nat.eqb_spec i 0); cbn [andb]; try apply Q0. subst. exfalso. apply I. left; auto.
    + reflexivity.
    + reflexivity.
    + intros bb o. cbn [s02 mem]. rewrite R0. unfold deliver. cbn [fold_left deliver1]. rewrite M. cbn [mdat].
      rewrite Nat.sub_0_r. cbn [Nat.leb Nat.add]. rewrite andb_true_r. reflexivity.
    + cbn [sp2 slog s02 rlog sp1 s01 do_post postl post1 setsl]. unfold upd2. cbn [Nat.eqb andb]. rewrite Nat.eqb_refl. cbn [andb].
      rewrite !app_length. cbn [length]. lia.
    + intros q Hq. cbn [s02 rlog s01 do_post postl post1 setsl]. unfold upd2. destruct (Nat.eqb_spec q p); [contradiction|]. reflexivity.
Qed.

(** *** the generic routine *)
Variables (cnt : list nat -> nat) (place : nat -> list nat -> cmd).
Definition sender (nd : nat) (dims : list nat) : cmd :=
  seqc D (new_ D 2 nd) (seqc D (write_dims D 0 dims) (seqc D (mpi_send D 2 nd 0)
    (seqc D (if 0 <? cnt dims then mpi_send D 0 (cnt dims) 0 else skip D) (delete_ D 2)))).
Definition receiver1 (nd p : nat) : cmd :=
  seqc D (new_ D 2 nd) (seqc D (mpi_recv D 2 nd p) (read_dims D 0 nd [] (fun dims =>
    seqc D (if 0 <? cnt dims then
              seqc D (new_ D 3 (cnt dims)) (seqc D (mpi_recv D 3 (cnt dims) p) (seqc D (place 3 dims) (delete_ D 3)))
            else skip D) (delete_ D 2)))).
Definition receiver (nd size : nat) (dims : list nat) : cmd :=
  seqc D (place 0 dims) (floop D 1 (size - 1) (receiver1 nd)).

(** numbers in buffer 2 *)
Lemma write_run l : forall i s, idle s -> i + length l <= bsz V s 2 ->
  exists m', runs V (write_dims D i l) s (setmem V s m') /\
    (forall b o, b <> 2 \/ o < i \/ i + length l <= o -> m' b o = mem V s b o) /\
    (forall t, t < length l -> m' 2 (i + t) = Num (nth t l 0)).
Proof.
  induction l as [|n l IH]; intros i s Q B.
  - exists (mem V s). rewrite setmem_id. split; [apply runs_skip|]. split; auto. cbn [length]. intros; lia.
  - cbn [length] in B. destruct (IH (S i) (setmem V s (upd2 (mem V s) 2 i (Num n))) Q ltac:(cbn [setmem bsz]; lia)) as (m' & M1 & M2 & M3).
    exists m'. split; [|split].
    + intros k. cbn [write_dims]. econstructor; [|exact (M1 k)]. constructor; [lia| |]; apply idle_pend; auto.
    + intros b o H. cbn [length] in H. rewrite M2 by lia. cbn [setmem mem]. unfold upd2.
      destruct (Nat.eqb_spec b 2); destruct (Nat.eqb_spec o i); cbn [andb]; auto. lia.
    + intros t Ht. cbn [length] in Ht. destruct t as [|t].
      * rewrite Nat.add_0_r. rewrite M2 by lia. cbn [setmem mem]. unfold upd2. rewrite !Nat.eqb_refl. reflexivity.
      * rewrite <- Nat.add_succ_comm. rewrite M3 by lia. reflexivity.
Qed.
Lemma read_run l : forall i acc body s k, idle s -> i + length l <= bsz V s 2 ->
  (forall t, t < length l -> mem V s 2 (i + t) = Num (nth t l 0)) ->
  lstar V (read_dims D i (length l) acc body k, s) (body (acc ++ l) k, s).
Proof.
  induction l as [|n l IH]; intros i acc body s k Q B H.
  - rewrite app_nil_r. constructor.
  - cbn [length] in *. cbn [read_dims]. econstructor.
    + constructor; [lia|]. apply idle_pend; auto.
    + pose proof (H 0 ltac:(lia)) as H0. rewrite Nat.add_0_r in H0. cbn [nth] in H0. rewrite H0.
      replace (acc ++ n :: l) with ((acc ++ [n]) ++ l) by (rewrite <- app_assoc; reflexivity).
      apply IH; auto; [lia|]. intros t Ht. rewrite Nat.add_succ_comm. rewrite H by lia. reflexivity.
Qed.

(** *** one sender *)
Variables (W : nat) (R : nat -> nat -> nat -> Prop).

Lemma loc_steps P (g : gst) r x y : r < P -> g r = x -> lstar V x y -> exists n, steps V false P n g (upd g r y).
Proof. apply lstar_steps. Qed.

Lemma upd_upd_ne (A : Type) (f : nat -> A) i j x y z : i <> j -> upd (upd (upd f i x) j y) i z = upd (upd f i z) j y.
Proof. intros H. apply functional_extensionality. intros r. unfold upd. destruct (Nat.eqb_spec r i), (Nat.eqb_spec r j); subst; auto; congruence. Qed.

Record root_ok (s : loc) : Prop := mkRoot {
  ro_idle : idle s; ro_sl : 0 < slsz V s 0; ro_W : W <= bsz V s 1;
  ro_2 : bsz V s 2 = 0; ro_3 : bsz V s 3 = 0 }.
Record send_ok (dims : list nat) (s : loc) : Prop := mkSend {
  so_idle : idle s; so_sl : 0 < slsz V s 0; so_2 : bsz V s 2 = 0; so_n : cnt dims <= bsz V s 0 }.

Lemma one_sender nd P (g : gst) p dims kp k0 sp s0 :
  0 < p < P -> length dims = nd -> puts 3 (cnt dims) W (R p) (place 3 dims) ->
  g p = (sender nd dims kp, sp) -> g 0 = (receiver1 nd p k0, s0) ->
  send_ok dims sp -> root_ok s0 -> length (slog V sp 0 0) = length (rlog V s0 p 0) ->
  exists n sp' s0', steps V false P n g (upd (upd g p (kp, sp')) 0 (k0, s0')) /\
    root_ok s0' /\ (forall q, q <> p -> rlog V s0' q 0 = rlog V s0 q 0) /\
    (forall b o, b <> 2 -> mem V sp' b o = mem V sp b o) /\ (forall b, bsz V sp' b = bsz V sp b) /\
    (forall b o, b <> 1 -> b <> 2 -> b <> 3 -> mem V s0' b o = mem V s0 b o) /\ (forall b, bsz V s0' b = bsz V s0 b) /\
    (forall o, (exists i, i < cnt dims /\ R p i o /\ mem V s0' 1 o = mem V sp 0 i) \/
       ((forall i, i < cnt dims -> ~ R p i o) /\ mem V s0' 1 o = mem V s0 1 o)).
Proof.
  intros Hp Ln Hpl Ep E0 [Qp Zp Bp Np] [Q0 Z0 BW B2 B3] Eq. subst nd. assert (Nz : p <> 0) by lia.
  (* the sender prepares its message *)
  set (spa := setbsz V sp (upd (bsz V sp) 2 (length dims))).
  destruct (write_run dims 0 spa Qp) as (mp & W1 & W2 & W3).
  { cbn [spa setbsz bsz]. rewrite upd_eq. lia. }
  set (spb := setmem V spa mp) in *.
  set (kp1 := seqc D (if 0 <? cnt dims then mpi_send D 0 (cnt dims) 0 else skip D) (delete_ D 2) kp).
  destruct (loc_steps P g p (sender (length dims) dims kp, sp) (mpi_send D 2 (length dims) 0 kp1, spb)) as (n1 & T1); [lia|exact Ep| |].
  { unfold sender, seqc. econstructor; [unfold new_; constructor; exact Bp|]. exact (W1 _). }
  set (g1 := upd g p (mpi_send D 2 (length dims) 0 kp1, spb)) in *.
  (* the root allocates dims *)
  set (s0a := setbsz V s0 (upd (bsz V s0) 2 (length dims))).
  set (rest := fun dims0 => seqc D (if 0 <? cnt dims0 then
              seqc D (new_ D 3 (cnt dims0)) (seqc D (mpi_recv D 3 (cnt dims0) p) (seqc D (place 3 dims0) (delete_ D 3)))
            else skip D) (delete_ D 2)).
  destruct (loc_steps P g1 0 (receiver1 (length dims) p k0, s0) (mpi_recv D 2 (length dims) p (read_dims D 0 (length dims) [] rest k0), s0a)) as (n2 & T2); [lia|unfold g1; rewrite upd_neq by lia; exact E0| |].
  { unfold receiver1, seqc. econstructor; [unfold new_; constructor; exact B2|]. constructor. }
  set (g2 := upd g1 0 (mpi_recv D 2 (length dims) p (read_dims D 0 (length dims) [] rest k0), s0a)) in *.
  destruct (exchange P g2 p kp1 (read_dims D 0 (length dims) [] rest k0) spb s0a 2 (length dims) 2) as (n3 & spc & s0b & T3 & [L1 L2 L3 L4] & I0 & F1 & F2 & F3 & F4 & F5); try assumption;
    [unfold g2, g1; rewrite upd_neq by lia; apply upd_eq|unfold g2; apply upd_eq|cbn [spb setmem spa setbsz bsz]; rewrite upd_eq; lia|cbn [s0a setbsz bsz]; rewrite upd_eq; lia|].
  set (g3 := upd (upd g2 p (kp1, spc)) 0 (read_dims D 0 (length dims) [] rest k0, s0b)) in *.
  assert (Hrd : lstar V (read_dims D 0 (length dims) [] rest k0, s0b) (rest dims k0, s0b)).
  { apply (read_run dims 0 [] rest s0b k0 I0).
    - rewrite F1. cbn [s0a setbsz bsz]. rewrite upd_eq. lia.
    - intros t Ht. rewrite F3. cbn [Nat.add Nat.eqb andb]. destruct (Nat.ltb_spec t (length dims)); [|lia].
      cbn [spb setmem mem]. apply (W3 t); auto. }
  destruct (loc_steps P g3 0 _ (rest dims k0, s0b) ltac:(lia) (upd_eq _ _ _ _) Hrd) as (n4 & T4).
  set (g4 := upd g3 0 (rest dims k0, s0b)) in *.
  assert (Mp : forall b o, b <> 2 -> mem V spc b o = mem V sp b o).
  { intros b o Hb. rewrite L1. cbn [spb setmem mem]. rewrite W2 by auto. reflexivity. }
  assert (M0 : forall b o, b <> 2 -> mem V s0b b o = mem V s0 b o).
  { intros b o Hb. rewrite F3. destruct (Nat.eqb_spec b 2); [contradiction|]. reflexivity. }
  assert (Bp' : forall b, upd (bsz V spc) 2 0 b = bsz V sp b).
  { intros b. rewrite L2. cbn [spb setmem spa setbsz bsz]. unfold upd. destruct (Nat.eqb_spec b 2); subst; auto. }
  assert (B0' : forall b, upd (bsz V s0b) 2 0 b = bsz V s0 b).
  { intros b. rewrite F1. cbn [s0a setbsz bsz]. unfold upd. destruct (Nat.eqb_spec b 2); subst; auto. }
  assert (E4p : g4 p = (kp1, spc)) by (unfold g4, g3; rewrite !upd_neq by lia; apply upd_eq).
  assert (E40 : g4 0 = (rest dims k0, s0b)) by (unfold g4; apply upd_eq).
  unfold kp1, rest in *. clear kp1 rest.
  destruct (Nat.ltb_spec 0 (cnt dims)) as [Hn|Hn].
  - (* data follow *)
    set (s0c := setbsz V s0b (upd (bsz V s0b) 3 (cnt dims))).
    set (kr := place 3 dims (delete_ D 3 (delete_ D 2 k0))).
    destruct (loc_steps P g4 0 _ (mpi_recv D 3 (cnt dims) p kr, s0c) ltac:(lia) E40) as (n5 & T5).
    { unfold seqc, new_. econstructor; [|constructor]. constructor. specialize (B0' 3). rewrite upd_neq in B0' by lia. rewrite B0'. exact B3. }
    set (g5 := upd g4 0 (mpi_recv D 3 (cnt dims) p kr, s0c)) in *.
    destruct (exchange P g5 p (delete_ D 2 kp) kr spc s0c 0 (cnt dims) 3) as (n6 & spd & s0d & T6 & [K1 K2 K3 K4] & J0 & G1 & G2 & G3 & G4 & G5); try assumption;
    [unfold g5; rewrite upd_neq by lia; exact E4p|apply upd_eq|rewrite L4; exact Zp|cbn [s0c setbsz slsz]; rewrite F2; exact Z0
    |specialize (Bp' 0); rewrite upd_neq in Bp' by lia; rewrite Bp'; exact Np|cbn [s0c setbsz bsz]; rewrite upd_eq; lia|].
    set (g6 := upd (upd g5 p (delete_ D 2 kp, spd)) 0 (kr, s0d)) in *.
    destruct (loc_steps P g6 p (delete_ D 2 kp, spd) (kp, setbsz V spd (upd (bsz V spd) 2 0))) as (n7 & T7); [lia|unfold g6; rewrite upd_neq by lia; apply upd_eq| |].
    { unfold delete_. econstructor; [|constructor]. constructor. intros o. apply idle_pend; auto. }
    set (g7 := upd g6 p (kp, setbsz V spd (upd (bsz V spd) 2 0))) in *.
    destruct (Hpl s0d J0) as (m' & P1 & P2 & P3).
    { rewrite G1. cbn [s0c setbsz bsz]. rewrite upd_eq. lia. }
    { rewrite G1. cbn [s0c setbsz bsz]. rewrite upd_neq by lia. specialize (B0' 1). rewrite upd_neq in B0' by lia. rewrite B0'. exact BW. }
    set (sA := setmem V s0d m') in *.
    set (sB := setbsz V sA (upd (bsz V sA) 3 0)). set (sC := setbsz V sB (upd (bsz V sB) 2 0)).
    destruct (loc_steps P g7 0 (kr, s0d) (k0, sC)) as (n8 & T8); [lia|unfold g7; rewrite upd_neq by lia; unfold g6; apply upd_eq| |].
    { unfold kr. eapply lstar_trans; [exact (P1 _)|]. fold sA. econstructor.
      - unfold delete_. constructor. intros o. apply idle_pend. exact J0.
      - econstructor; [|constructor]. constructor. intros o. apply idle_pend. exact J0. }
    eexists _, (setbsz V spd (upd (bsz V spd) 2 0)), sC. split; [|split; [|split; [|split; [|split; [|split; [|split]]]]]].
    + replace (upd (upd g p (kp, setbsz V spd (upd (bsz V spd) 2 0))) 0 (k0, sC)) with (upd g7 0 (k0, sC)).
      * exact (steps_trans V _ _ _ _ _ _ _ (steps_trans V _ _ _ _ _ _ _ (steps_trans V _ _ _ _ _ _ _ (steps_trans V _ _ _ _ _ _ _ (steps_trans V _ _ _ _ _ _ _ (steps_trans V _ _ _ _ _ _ _ (steps_trans V _ _ _ _ _ _ _ T1 T2) T3) T4) T5) T6) T7) T8).
      * apply functional_extensionality. intros r. unfold g7, g6, g5, g4, g3, g2, g1, upd.
        destruct (Nat.eqb_spec r 0); auto. destruct (Nat.eqb_spec r p); auto.
    + assert (Eb : forall b, bsz V sC b = bsz V s0 b).
      { intros b. rewrite <- B0'. cbn [sC sB sA setbsz setmem bsz]. rewrite G1. cbn [s0c setbsz bsz]. unfold upd.
        destruct (Nat.eqb_spec b 2); auto. destruct (Nat.eqb_spec b 3); auto. subst.
        specialize (B0' 3). unfold upd in B0'. cbn [Nat.eqb] in B0'. congruence. }
      constructor; auto; try (rewrite Eb; assumption).
      cbn [sC sB sA setbsz setmem slsz]. rewrite G2. cbn [s0c setbsz slsz]. rewrite F2. exact Z0.
    + intros q Hq. cbn [sC sB sA setbsz setmem rlog]. rewrite G5 by auto. cbn [s0c setbsz rlog]. rewrite F5 by auto. reflexivity.
    + intros b o Hb. cbn [setbsz mem]. rewrite K1. auto.
    + intros b. cbn [setbsz bsz]. rewrite K2. apply Bp'.
    + intros b o H1 H2 H3. cbn [sC sB sA setbsz setmem mem]. rewrite P2 by auto. rewrite G3.
      destruct (Nat.eqb_spec b 3); [contradiction|]. cbn [andb s0c setbsz mem]. auto.
    + intros b. rewrite <- B0'. cbn [sC sB sA setbsz setmem bsz]. rewrite G1. cbn [s0c setbsz bsz]. unfold upd.
      destruct (Nat.eqb_spec b 2); auto. destruct (Nat.eqb_spec b 3); auto. subst.
      specialize (B0' 3). unfold upd in B0'. cbn [Nat.eqb] in B0'. congruence.
    + intros o. cbn [sC sB sA setbsz setmem mem]. destruct (P3 o) as [(i & I1 & I2 & I3)|[I1 I2]].
      * left. exists i. split; auto. split; auto. rewrite I3, G3. cbn [Nat.eqb andb]. destruct (Nat.ltb_spec i (cnt dims)); [|lia].
        apply Mp. lia.
      * right. split; auto. rewrite I2, G3. cbn [Nat.eqb andb s0c setbsz mem]. apply M0. lia.
  - (* nothing to send *)
    destruct (loc_steps P g4 p _ (kp, setbsz V spc (upd (bsz V spc) 2 0)) ltac:(lia) E4p) as (n7 & T7).
    { unfold seqc, skip, delete_. econstructor; [|constructor]. constructor. intros o. apply idle_pend; auto. }
    set (g7 := upd g4 p (kp, setbsz V spc (upd (bsz V spc) 2 0))) in *.
    set (sC := setbsz V s0b (upd (bsz V s0b) 2 0)).
    destruct (loc_steps P g7 0 _ (k0, sC) ltac:(lia) ltac:(unfold g7; rewrite upd_neq by lia; exact E40)) as (n8 & T8).
    { unfold seqc, skip, delete_. econstructor; [|constructor]. constructor. intros o. apply idle_pend; auto. }
    eexists _, (setbsz V spc (upd (bsz V spc) 2 0)), sC. split; [|split; [|split; [|split; [|split; [|split; [|split]]]]]].
    + replace (upd (upd g p (kp, setbsz V spc (upd (bsz V spc) 2 0))) 0 (k0, sC)) with (upd g7 0 (k0, sC)).
      * exact (steps_trans V _ _ _ _ _ _ _ (steps_trans V _ _ _ _ _ _ _ (steps_trans V _ _ _ _ _ _ _ (steps_trans V _ _ _ _ _ _ _ (steps_trans V _ _ _ _ _ _ _ T1 T2) T3) T4) T7) T8).
      * apply functional_extensionality. intros r. unfold g7, g4, g3, g2, g1, upd.
        destruct (Nat.eqb_spec r 0); auto. destruct (Nat.eqb_spec r p); auto.
    + constructor; auto; try (cbn [sC setbsz bsz]; rewrite B0'; assumption). cbn [sC setbsz slsz]. rewrite F2. exact Z0.
    + intros q Hq. cbn [sC setbsz rlog]. rewrite F5 by auto. reflexivity.
    + intros b o Hb. cbn [setbsz mem]. auto.
    + intros b. cbn [setbsz bsz]. apply Bp'.
    + intros b o H1 H2 H3. cbn [sC setbsz mem]. auto.
    + intros b. cbn [sC setbsz bsz]. apply B0'.
    + intros o. right. split; [intros; lia|]. cbn [sC setbsz mem]. apply M0. lia.
Qed.

(** *** all senders *)
Lemma senders_run nd P (dims : nat -> list nat) (kk : nat -> prog) k0 : forall np p (g : gst) s0 (s : nat -> loc),
  p + np = P -> 0 < p ->
  (forall r, p <= r < P -> length (dims r) = nd /\ puts 3 (cnt (dims r)) W (R r) (place 3 (dims r)) /\
     g r = (sender nd (dims r) (kk r), s r) /\ send_ok (dims r) (s r) /\
     length (slog V (s r) 0 0) = length (rlog V s0 r 0)) ->
  g 0 = (floop D p np (receiver1 nd) k0, s0) -> root_ok s0 ->
  exists n g2 s0', steps V false P n g g2 /\ g2 0 = (k0, s0') /\ root_ok s0' /\
    (forall r, p <= r < P -> exists s', g2 r = (kk r, s') /\ (forall b o, b <> 2 -> mem V s' b o = mem V (s r) b o) /\
        forall b, bsz V s' b = bsz V (s r) b) /\
    (forall r, 0 < r < p \/ P <= r -> g2 r = g r) /\
    (forall b o, b <> 1 -> b <> 2 -> b <> 3 -> mem V s0' b o = mem V s0 b o) /\ (forall b, bsz V s0' b = bsz V s0 b) /\
    (forall o, (exists r i, p <= r < P /\ i < cnt (dims r) /\ R r i o /\ mem V s0' 1 o = mem V (s r) 0 i) \/
       ((forall r i, p <= r < P -> i < cnt (dims r) -> ~ R r i o) /\ mem V s0' 1 o = mem V s0 1 o)).
Proof.
  induction np as [|np IH]; intros p g s0 s Hnp Hp Hs E0 Ok.
  - exists 0, g, s0. split; [constructor|]. split; [exact E0|]. split; [exact Ok|]. split; [intros; lia|].
    do 3 (split; [reflexivity|]). intros o. right. split; [intros; lia|reflexivity].
  - destruct (Hs p ltac:(lia)) as (Hl & Hpl & Ep & Os & Eq). cbn [floop] in E0. unfold seqc in E0.
    destruct (one_sender nd P g p (dims p) (kk p) _ (s p) s0 ltac:(lia) Hl Hpl Ep E0 Os Ok Eq)
      as (n1 & sp' & s1 & T1 & Ok1 & Rl & Mp & Bp & M0 & B0 & Wh).
    set (g1 := upd (upd g p (kk p, sp')) 0 (floop D (S p) np (receiver1 nd) k0, s1)) in *.
    destruct (IH (S p) g1 s1 s ltac:(lia) ltac:(lia)) as (n2 & g2 & s2 & T2 & E2 & Ok2 & Se & Fr & M2 & B2 & Wh2).
    + intros r Hr. destruct (Hs r ltac:(lia)) as (H1 & H2 & H3 & H4 & H5). split; [exact H1|]. split; [exact H2|].
      split; [|split; [exact H4|]].
      * unfold g1. rewrite !upd_neq by lia. exact H3.
      * rewrite Rl by lia. exact H5.
    + apply upd_eq.
    + exact Ok1.
    + exists (n1 + n2), g2, s2. split; [exact (steps_trans V _ _ _ _ _ _ _ T1 T2)|]. split; [exact E2|]. split; [exact Ok2|].
      split; [|split; [|split; [|split]]].
      * intros r Hr. destruct (Nat.eq_dec r p) as [->|Ne].
        -- exists sp'. split; [|split; assumption]. rewrite Fr by lia. unfold g1. rewrite upd_neq by lia. apply upd_eq.
        -- apply Se. lia.
      * intros r Hr. rewrite Fr by lia. unfold g1. rewrite !upd_neq by lia. reflexivity.
      * intros b o H1 H2 H3. rewrite M2 by assumption. auto.
      * intros b. rewrite B2. auto.
      * intros o. destruct (Wh2 o) as [(r & i & I1 & I2 & I3 & I4)|[I1 I2]].
        -- left. exists r, i. repeat split; auto; lia.
        -- destruct (Wh o) as [(i & J1 & J2 & J3)|[J1 J2]].
           ++ left. exists p, i. repeat split; auto; [lia|]. congruence.
           ++ right. split; [|congruence]. intros r i Hr. destruct (Nat.eq_dec r p) as [->|Ne]; auto. apply I1. lia.
Qed.

(** *** the whole gather: every execution *)
Lemma gather_gen nd P (dims : nat -> list nat) (mem0 : nat -> nat -> nat -> V) (bsz0 : nat -> nat -> nat) :
  0 < P ->
  (forall r, r < P -> length (dims r) = nd) ->
  (forall r, 0 < r < P -> puts 3 (cnt (dims r)) W (R r) (place 3 (dims r))) ->
  puts 0 (cnt (dims 0)) W (R 0) (place 0 (dims 0)) ->
  (forall r, r < P -> bsz0 r 2 = 0 /\ cnt (dims r) <= bsz0 r 0) -> bsz0 0 3 = 0 -> W <= bsz0 0 1 ->
  forall g : gst, (forall r, r < P ->
    g r = (if r =? 0 then receiver nd P (dims 0) (Halt V) else sender nd (dims r) (Halt V), before D (mem0 r) (bsz0 r))) ->
  always_ends V P g (fun gf =>
      (forall o, (exists r i, r < P /\ i < cnt (dims r) /\ R r i o /\ mem V (snd (gf 0)) 1 o = mem0 r 0 i) \/
        ((forall r i, r < P -> i < cnt (dims r) -> ~ R r i o) /\ mem V (snd (gf 0)) 1 o = mem0 0 1 o)) /\
      (forall r b o, r < P -> b <> 2 -> b <> 3 -> (r = 0 -> b <> 1) -> mem V (snd (gf r)) b o = mem0 r b o) /\
      (forall r b, r < P -> bsz V (snd (gf r)) b = bsz0 r b)).
Proof.
  intros HP Hl Hpl Hp0 Hb Hb3 HW g Hg.
  assert (Id : forall r, idle (before D (mem0 r) (bsz0 r))) by (intros r a i l; discriminate).
  destruct (Hp0 (before D (mem0 0) (bsz0 0)) (Id 0)) as (m' & R1 & R2 & R3); [apply Hb; auto|exact HW|].
  set (s0 := setmem V (before D (mem0 0) (bsz0 0)) m') in *.
  destruct (loc_steps P g 0 _ (floop D 1 (P - 1) (receiver1 nd) (Halt V), s0) HP (Hg 0 HP)) as (n1 & T1).
  { cbn [Nat.eqb]. unfold receiver, seqc. exact (R1 _). }
  destruct (senders_run nd P dims (fun _ => Halt V) (Halt V) (P - 1) 1 (upd g 0 (floop D 1 (P - 1) (receiver1 nd) (Halt V), s0)) s0 (fun r => before D (mem0 r) (bsz0 r)) ltac:(lia) ltac:(lia))
    as (n2 & g2 & s2 & T2 & E2 & Ok2 & Se & Fr & M2 & B2 & Wh).
  - intros r Hr. split; [apply Hl; lia|]. split; [apply Hpl; lia|]. split; [|split].
    + rewrite upd_neq by lia. rewrite Hg by lia. destruct (Nat.eqb_spec r 0); [lia|]. reflexivity.
    + constructor; [apply Id|cbn; lia|apply Hb; lia|apply Hb; lia].
    + reflexivity.
  - apply upd_eq.
  - constructor; [exact (Id 0)|cbn; lia|exact HW|apply Hb; lia|exact Hb3].
  - apply (decides V P (n1 + n2) g g2 (steps_trans V _ _ _ _ _ _ _ T1 T2)).
    + intros r Hr. destruct (Nat.eq_dec r 0) as [->|Ne]; [rewrite E2; reflexivity|].
      destruct (Se r ltac:(lia)) as (s' & E' & _). rewrite E'. reflexivity.
    + split; [|split].
      * rewrite E2. cbn [snd]. intros o. destruct (Wh o) as [(r & i & I1 & I2 & I3 & I4)|[I1 I2]].
        -- left. exists r, i. repeat split; auto. lia.
        -- destruct (R3 o) as [(i & J1 & J2 & J3)|[J1 J2]].
           ++ left. exists 0, i. repeat split; auto. rewrite I2. exact J3.
           ++ right. split; [|rewrite I2; exact J2]. intros r i Hr. destruct (Nat.eq_dec r 0) as [->|Ne]; auto. apply I1. lia.
      * intros r b o Hr H2 H3 H1. destruct (Nat.eq_dec r 0) as [->|Ne].
        -- rewrite E2. cbn [snd]. rewrite M2 by auto. exact (R2 b o (H1 eq_refl)).
        -- destruct (Se r ltac:(lia)) as (s' & E' & M' & _). rewrite E'. cbn [snd]. rewrite M' by auto. reflexivity.
      * intros r b Hr. destruct (Nat.eq_dec r 0) as [->|Ne].
        -- rewrite E2. cbn [snd]. rewrite B2. reflexivity.
        -- destruct (Se r ltac:(lia)) as (s' & E' & _ & B'). rewrite E'. cbn [snd]. rewrite B'. reflexivity.
Qed.
End G.
