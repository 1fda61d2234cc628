(** The programs of mpitranspose as local stages and exchanges. *)
From Coq Require Import List Arith Bool Lia ZArith Permutation.
From Verif Require Import MpiModel MpiDims MpiMachine MpiRun MpiTrModel MpiTrGeom MpiLinks MpiTrForm MpiTrComm MpiTrPhase MpiTrXch MpiTrXchA.
Import ListNotations.
Local Open Scope nat_scope.
Set Default Proof Using "All".

Section Prog.
Variable V : Type.
Variable c : cfg.
Context {Hc : good c}.
Notation S := (S_ c).
Notation "'U0'" := (n0 c * m0 c * S_ c).
Notation prog := (prog V).
Notation cmd := (prog -> prog).
Variable r : nat.
Hypothesis Hr : r < size c.
Hypothesis H1 : size c <> 1.
Notation n := (ni c r). Notation m := (mi c r).

Lemma eqS : forall sb rb k, subblock c r = true ->
  Ialltoall V r sb (n * m * csz c * a_ c * cL c) rb (split c r) 1 0 (sched1 c r) k = spost V c sb rb r k.
Proof.
  intros sb rb k H. destruct (split_is c r H) as (C & E1 & E2 & E3 & E4 & E5 & E6).
  unfold spost, itS, cpS. rewrite H. change (n * m * csz c * a_ c * cL c) with (count1 c r).
  unfold sched1. rewrite E3, E4.
  assert (Pos : 0 < count1 c r). { rewrite count1_eq by auto. pose proof (U0_pos c). pose proof (a_pos c). apply Nat.mul_pos_pos; auto. }
  pose proof (Ialltoall_form V sb rb (count1 c r) (split c r) 1 0 (schedule c) (b_ c) (rk1 c r) (nm1 c r) k C E5 Pos) as Q.
  rewrite E6 in Q. exact Q.
Qed.
Lemma eqSw : forall k, subblock c r = true -> waitc V 1 (2 * (splitsize c r - 1)) (schedule c) k = waits V (wlS c r) k.
Proof.
  intros k H. destruct (split_is c r H) as (C & E1 & E2 & E3 & E4 & E5 & E6). unfold wlS. rewrite H.
  unfold waitc, cntS. rewrite E4. destruct (schedule c); reflexivity.
Qed.

Lemma eqB : forall sb rb k,
  ifc V (uniform c || subblock c r) (Ialltoall V r sb (n * m * csz c * (if 1 <? a_ c then b_ c else a_ c) * cL c) rb
     (split2 c r) 1 0 (sched2 c r)) (skip V) k = post_items V (itB c sb rb r) (ocopy V sb rb (cpB c r) k).
Proof.
  intros sb rb k. unfold itB, cpB. fold (grp c r). destruct (grp c r) eqn:G; cbn [ifc]; [|reflexivity].
  destruct (split2_is c r Hr G) as (C & E1 & E2 & E3 & E4 & E5 & E6).
  change (n * m * csz c * (if 1 <? a_ c then b_ c else a_ c) * cL c) with (count2 c r).
  unfold sched2. rewrite E3, E4.
  assert (Pos : 0 < count2 c r).
  { rewrite count2_eq by auto. pose proof (U0_pos c). destruct (cnt2w2 c r Hr G). apply Nat.mul_pos_pos; auto. }
  pose proof (Ialltoall_form V sb rb (count2 c r) (split2 c r) 1 0 (schedule c) (cnt2 c) (rk2 c r) (nm2 c r) k C E5 Pos) as Q.
  rewrite E6 in Q. exact Q.
Qed.
Lemma eqBw : forall k, ifc V (uniform c || subblock c r) (waitc V 1 (2 * (split2size c r - 1)) (schedule c)) (skip V) k
   = waits V (wlB c r) k.
Proof.
  intros k. unfold wlB. fold (grp c r). destruct (grp c r) eqn:G; cbn [ifc]; [|reflexivity].
  destruct (split2_is c r Hr G) as (C & E1 & E2 & E3 & E4 & E5 & E6).
  unfold waitc, cntB. rewrite E4. destruct (schedule c); reflexivity.
Qed.
Lemma eqV : forall sb rb k, uniform c = false -> r < last c ->
  Ialltoall V r sb (n * m * csz c * cL c) rb (splitv c r) 0 (2 * Size c r (last c)) None k =
  post_items V (a2a_items sb rb 0 (2 * Size c r (last c)) (countv c r) false (splitv c r) (last c) r (fun j => j)) k.
Proof.
  intros sb rb k U H. destruct (splitv_is c r U H) as [C E].
  change (n * m * csz c * cL c) with (countv c r).
  assert (Pos : 0 < countv c r) by (rewrite countv_eq by auto; apply U0_pos; auto).
  apply (Ialltoall_form V sb rb (countv c r) (splitv c r) 0 (2 * Size c r (last c)) false (last c) r (fun j => j) k C H Pos).
Qed.

(** the exchange of everything with the processes not handled by the all-to-alls *)
Lemma eqA_out : forall sb rb k,
  ifc V (negb (uniform c)) (ifc V (schedule c) (Ialltoallout V c r n m sb rb (start_ c))
     (seqc V (ifc V (r <? last c) (Ialltoall V r sb (n * m * csz c * cL c) rb (splitv c r) 0 (2 * Size c r (last c)) None) (skip V))
             (Ialltoallout V c r n m sb rb (last c)))) (skip V) k
  = post_items V (itA c true sb rb r) (ocopy V sb rb (cpA c true r) k).
Proof.
  intros sb rb k. unfold itA, cpA. destruct (uniform c) eqn:U; cbn [negb ifc]; [reflexivity|].
  rewrite post_items_app. unfold xstart. destruct (schedule c) eqn:Sc; cbn [negb andb ifc].
  - rewrite Ialltoallout_form by auto. replace (n * S * m) with (m * S * n) by ring. reflexivity.
  - unfold seqc. destruct (Nat.ltb_spec r (last c)) as [L|L]; cbn [ifc].
    + rewrite eqV by auto. rewrite Ialltoallout_form by auto. replace (n * S * m) with (m * S * n) by ring. reflexivity.
    + unfold skip. rewrite Ialltoallout_form by auto. replace (n * S * m) with (m * S * n) by ring. reflexivity.
Qed.
Lemma eqA_in : forall sb rb k,
  ifc V (negb (uniform c)) (ifc V (schedule c) (Ialltoallin V c r n m sb rb (start_ c))
     (seqc V (ifc V (r <? last c) (Ialltoall V r sb (n * m * csz c * cL c) rb (splitv c r) 0 (2 * Size c r (last c)) None) (skip V))
             (Ialltoallin V c r n m sb rb (last c)))) (skip V) k
  = post_items V (itA c false sb rb r) (ocopy V sb rb (cpA c false r) k).
Proof.
  intros sb rb k. unfold itA, cpA. destruct (uniform c) eqn:U; cbn [negb ifc]; [reflexivity|].
  rewrite post_items_app. unfold xstart. destruct (schedule c) eqn:Sc; cbn [negb andb ifc].
  - rewrite Ialltoallin_form by auto. replace (m * S * n) with (n * S * m) by ring. reflexivity.
  - unfold seqc. destruct (Nat.ltb_spec r (last c)) as [L|L]; cbn [ifc].
    + rewrite eqV by auto. rewrite Ialltoallin_form by auto. replace (m * S * n) with (n * S * m) by ring. reflexivity.
    + unfold skip. rewrite Ialltoallin_form by auto. replace (m * S * n) with (n * S * m) by ring. reflexivity.
Qed.
Lemma eqAw : forall k,
  ifc V (negb (uniform c)) (ifc V (schedule c) (waitc V 0 (2 * Size c r (start_ c)) true)
      (waitc V 0 (2 * Size c r (last c) + (if r <? last c then 1 else 0)) true)) (skip V) k = waits V (wlA c r) k.
Proof.
  intros k. unfold wlA, cntA. destruct (uniform c); cbn [negb ifc]; [reflexivity|].
  destruct (schedule c); cbn [ifc]; reflexivity.
Qed.
Lemma waits_app : forall l1 l2 k, waits V (l1 ++ l2) k = waits V l1 (waits V l2 k).
Proof. induction l1 as [|x l1 IH]; intros l2 k; auto. cbn [app waits]. rewrite IH. auto. Qed.

Lemma size_eqb : (size c =? 1) || (size c <=? r) = false.
Proof. destruct (Nat.eqb_spec (size c) 1), (Nat.leb_spec (size c) r); lia || reflexivity. Qed.
Lemma size_leb : (size c <=? r) = false. Proof. apply Nat.leb_gt. auto. Qed.
Lemma size_eq1 : (size c =? 1) = false. Proof. apply Nat.eqb_neq. auto. Qed.

(** the local rearrangements *)
Definition repack (bi bw : nat) : cmd :=
  (if uniform c then transpose V c bi bw (n * a_ c) (b_ c) (m * cL c)
      else if subblock c r then
        let block := m0 c * cL c in
        let cols := n * a_ c in
        let istride := cols * block in
        let ostride := b_ c * block in
        let extra := (cM c - m0 c * a_ c * b_ c) * cL c in
        seqc V (forc V n (fun i =>
                let ai := a_ c * i in
                let src := ai * ostride + i * extra in
                let dest := ai * block in
                forc V (a_ c) (fun j =>
                  copyfromblock V c bi (src + j * ostride) bw (dest + j * block) (b_ c) block istride)))
          (ifc V (0 <? extra)
             (let lastblock := mp c * cL c in
              let istride := n * block in
              let ostride := mlast c * block + lastblock in
              let ab := a_ c * b_ c in
              let count := mlast c - ab in
              let src := ab * block in
              let dest := ab * istride in
              seqc V (ifc V (0 <? count)
                      (forc V n (fun j =>
                         copyfromblock V c bi (src + j * ostride) bw (dest + j * block) count block istride))
                      (skip V))
                   (let src2 := mlast c * block in
                    let dest2 := mlast c * istride in
                    forc V n (fun j => copy V c bi (src2 + j * ostride) bw (dest2 + j * lastblock) lastblock)))
             (skip V))
      else
        let lastblock := mp c * cL c in
        let block := m0 c * cL c in
        let istride := n * block in
        let ostride := mlast c * block + lastblock in
        let mlastblock := mlast c * block in
        let dest := mlast c * istride in
        forc V n (fun j =>
          let src := j * ostride in
          seqc V (copyfromblock V c bi src bw (j * block) (mlast c) block istride)
               (copy V c bi (src + mlastblock) bw (dest + j * lastblock) lastblock))).
Definition trout (bo bw : nat) : cmd := ifc V (subblock c r) (transpose V c bo bw (n * b_ c) (a_ c) (m * cL c)) (skip V).
Definition trin (bw bo : nat) : cmd := ifc V (subblock c r) (transpose V c bw bo (a_ c) (n * b_ c) (m * cL c)) (skip V).

Lemma outphase_eq : forall bo bw k, outphase V c r n m bo bw k = trout bo bw (xpost V c true bw bo r k).
Proof.
  intros. unfold outphase. rewrite size_eqb. unfold seqc at 1. unfold trout. f_equal.
  unfold seqc at 1. rewrite eqA_out. unfold xpost. f_equal. f_equal. apply eqB.
Qed.
Lemma outsync_eq : forall k, outsync V c r k = waits V (xwl c true r) k.
Proof.
  intros. unfold outsync. rewrite size_eqb. unfold seqc. rewrite eqAw, eqBw. unfold xwl. rewrite waits_app. auto.
Qed.
Lemma sub_off : forall sb rb k, subblock c r = false -> spost V c sb rb r k = k.
Proof. intros sb rb k H. unfold spost, itS, cpS. rewrite H. reflexivity. Qed.
Lemma subw_off : forall k, subblock c r = false -> waits V (wlS c r) k = k.
Proof. intros k H. unfold wlS. rewrite H. reflexivity. Qed.

Lemma outphase0_eq : forall bi bo bw k, outphase0 V c r n m bi bo bw k =
  repack bi bw ((if subblock c r then Ialltoall V r bw (n * m * csz c * a_ c * cL c) bo (split c r) 1 0 (sched1 c r)
                 else outphase V c r n m bo bw) k).
Proof. intros. unfold outphase0. rewrite size_leb, size_eq1. reflexivity. Qed.

Theorem localize0_eq : forall bi bo bw k,
  localize0 V c r n m bi bo bw k =
  repack bi bw (spost V c bw bo r (waits V (wlS c r) (trout bo bw (xpost V c true bw bo r (waits V (xwl c true r) k))))).
Proof.
  intros bi bo bw k.
  change (localize0 V c r n m bi bo bw k) with
    (outphase0 V c r n m bi bo bw (outsync0 V c r (outphase1 V c r n m bo bw (outsync1 V c r k)))).
  rewrite outphase0_eq. unfold outsync0, outphase1, outsync1. rewrite size_leb. f_equal.
  destruct (subblock c r) eqn:H; cbn [ifc].
  - rewrite eqS by auto. rewrite eqSw by auto. f_equal. f_equal. rewrite outphase_eq. f_equal. f_equal. apply outsync_eq.
  - rewrite sub_off, subw_off by auto. rewrite outphase_eq. f_equal. f_equal. rewrite outsync_eq. reflexivity.
Qed.

Theorem localize1_eq : forall bi bo bw k,
  localize1 V c r n m bi bo bw k =
  xpost V c false bi bw r (waits V (xwl c false r) (trin bw bo (spost V c bo bw r (waits V (wlS c r) (inpost V c r n m bo bw k))))).
Proof.
  intros bi bo bw k.
  change (localize1 V c r n m bi bo bw k) with
    (inphase0 V c r n m bi bo bw (insync0 V c r (inphase1 V c r n m bo bw (insync1 V c r (inpost V c r n m bo bw k))))).
  unfold inphase0, insync0, inphase1, insync1. rewrite size_leb, size_eq1; cbn [orb].
  unfold seqc at 1. rewrite eqB. unfold xpost. f_equal. f_equal. rewrite eqA_in. f_equal. f_equal.
  unfold seqc at 1. rewrite eqBw. unfold xwl. rewrite waits_app. f_equal.
  rewrite eqAw. f_equal. unfold trin. destruct (subblock c r) eqn:H; cbn [ifc].
  - unfold seqc. f_equal. rewrite eqS by auto. rewrite eqSw by auto. auto.
  - rewrite sub_off, subw_off by auto. reflexivity.
Qed.
End Prog.
