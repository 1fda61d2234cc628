(** The distributed transpose (mpi/mpitranspose.h).

    [cfg]: matrix cN x cM of elements of cL words of csz bytes, cP processes, and the blocking
    parameters (a, alltoall) that the constructor's timing search selects: the theorems
    hold for every choice.  [always_ends] (MpiTrSpec.v): all executions, i.e. every
    interleaving of the processes and any buffering of sends. *)
From Coq Require Import List Arith Bool Lia.
From Verif Require Import MpiMachine MpiTrModel MpiTrSpec MpiTrTop MpiTrProofs.
Import ListNotations.
Local Open Scope nat_scope.

(** *** C35 *)

(** localize0(in,out): from rows to columns.  In place for every configuration; out of place
    except in compact mode (see C35_compact_refuted) *)
Theorem C35_localize0 : forall V c, cfg_ok c ->
  let N := cN c in let M := cM c in let P := cP c in let S := csz c * cL c in
  forall (G : matrix V) bi bo bw mem0 bsz0,
  bi <> bw -> bo <> bw -> (compact c = true -> bi = bo) ->
  (forall r b, r < P -> In b [bi; bo; bw] -> storage N M S P r <= bsz0 r b) ->
  (forall r, r < P -> has_rows V N M S P G r (mem0 r bi)) ->
  always_ends V P
    (start V c mem0 bsz0 (fun r => localize0 V c r (count N P r) (count M P r) bi bo (work c bo bw) (Halt V)))
    (fun gf => forall r, r < P -> has_cols V N M S P G r (mem V (snd (gf r)) bo) /\
       forall b o, b <> bo -> b <> bw -> mem V (snd (gf r)) b o = mem0 r b o).
Proof. exact localize0_correct. Qed.
Print Assumptions C35_localize0.
(** localize1(in,out): from columns to rows *)
Theorem C35_localize1 : forall V c, cfg_ok c ->
  let N := cN c in let M := cM c in let P := cP c in let S := csz c * cL c in
  forall (G : matrix V) bi bo bw mem0 bsz0,
  bi <> bw -> bo <> bw ->
  (forall r b, r < P -> In b [bi; bo; bw] -> storage N M S P r <= bsz0 r b) ->
  (forall r, r < P -> has_cols V N M S P G r (mem0 r bi)) ->
  always_ends V P
    (start V c mem0 bsz0 (fun r => localize1 V c r (count N P r) (count M P r) bi bo (work c bo bw) (Halt V)))
    (fun gf => forall r, r < P -> has_rows V N M S P G r (mem V (snd (gf r)) bo) /\
       forall b o, b <> bo -> b <> bw -> mem V (snd (gf r)) b o = mem0 r b o).
Proof. exact localize1_correct. Qed.
Print Assumptions C35_localize1.
(** any number of in-place round trips restores arbitrary data *)
Theorem C35_roundtrip : forall V c, cfg_ok c ->
  let N := cN c in let M := cM c in let P := cP c in let S := csz c * cL c in
  forall k b bw mem0 bsz0, b <> bw ->
  (forall r b', r < P -> In b' [b; bw] -> storage N M S P r <= bsz0 r b') ->
  always_ends V P (start V c mem0 bsz0 (fun r => roundtrips V c k r b bw))
    (fun gf => forall r, r < P -> forall o, o < count N P r * M * S ->
       mem V (snd (gf r)) b o = mem0 r b o).
Proof. exact roundtrip. Qed.
Print Assumptions C35_roundtrip.
(** any history of calls, each process running ahead of the others as it likes: in the end
    the arrays hold what the calls say ([effects]) *)
Theorem C35_history : forall V c, cfg_ok c ->
  let N := cN c in let M := cM c in let P := cP c in let S := csz c * cL c in
  forall (mem0 : nat -> nat -> nat -> V) (bsz0 : nat -> nat -> nat) bs bw kn l,
  In bw bs ->
  (forall r b, r < P -> In b bs -> storage N M S P r <= bsz0 r b) ->
  (forall r b, r < P -> In b bs -> agrees V N M S P (kn b) r (mem0 r b)) ->
  legal_calls V c bs bw l kn ->
  always_ends V P
    (fun r => (calls_prog V c (count N P) (count M P) bw r l, start_loc V c r (mem0 r) (bsz0 r)))
    (fun gf => forall r, r < P ->
       (forall b, In b bs -> agrees V N M S P (effects V bw l kn b) r (mem V (snd (gf r)) b)) /\
       (forall b o, ~ In b (bw :: map cout l) -> mem V (snd (gf r)) b o = mem0 r b o)).
Proof. exact history. Qed.
Print Assumptions C35_history.
(** in compact mode (alltoall=2 and a uniform distribution) an out-of-place localize0 always
    exits with the "in place" error: the plan was made for equal arrays *)
Theorem C35_compact_refuted : forall V c bi bo bw mem0 bsz0, cfg_ok c ->
  compact c = true -> 1 < size c -> bi <> bo ->
  bad V (cP c) (start V c mem0 bsz0
    (fun r => localize0 V c r (count (cN c) (cP c) r) (count (cM c) (cP c) r) bi bo (work c bo bw) (Halt V))).
Proof. exact compact_refuted. Qed.
Print Assumptions C35_compact_refuted.

(** concrete cases meeting the hypotheses *)
Example C35_cfg3 : cfg_ok (ex 3 1 1) /\ compact (ex 3 1 1) = false /\ uniform (ex 3 1 1) = false /\ size (ex 3 1 1) = 3
  /\ count 4 3 0 = 2 /\ count 4 3 1 = 2 /\ count 4 3 2 = 0 /\ count 5 3 2 = 1.
Proof. unfold cfg_ok. repeat split; try reflexivity; vm_compute; lia. Qed.
(** a 4 x 5 matrix on 3 processes, out of place *)
Example C35_run3 : always_ends _ 3
    (start _ (ex 3 1 1) (ex_mem 3) (fun _ _ => 100)
       (fun r => localize0 _ (ex 3 1 1) r (count 4 3 r) (count 5 3 r) 0 1 (work (ex 3 1 1) 1 2) (Halt _)))
    (fun gf => forall r, r < 3 -> has_cols _ 4 5 2 3 exG r (mem _ (snd (gf r)) 1) /\
       forall b o, b <> 1 -> b <> 2 -> mem _ (snd (gf r)) b o = ex_mem 3 r b o).
Proof.
  apply (C35_localize0 (nat * nat * nat) (ex 3 1 1)).
  - repeat split; cbn; lia.
  - lia. - lia. - discriminate.
  - intros r b Hr _. cbn [cP ex] in Hr. destruct r as [|[|[|r]]]; [apply Nat.leb_le; vm_compute; reflexivity..|lia].
  - intros r Hr. apply ex_rows.
Qed.
(** with two teams of two processes (subblocks), 8 x 9 on 5 processes *)
Example C35_cfg5 : let c := mkCfg 9 10 1 2 5 2 1 in
  cfg_ok c /\ a_ c = 2 /\ b_ c = 2 /\ size c = 5 /\ subblock c 3 = true /\ subblock c 4 = false /\ uniform c = false.
Proof. unfold cfg_ok. repeat split; try reflexivity; vm_compute; lia. Qed.
Example C35_compact : let c := mkCfg 4 4 1 2 4 2 2 in
  cfg_ok c /\ compact c = true /\ 1 < size c /\ a_ c = 2 /\ b_ c = 2.
Proof. unfold cfg_ok. repeat split; try reflexivity; vm_compute; lia. Qed.
(** rows to columns into array 1, back into array 0, and to columns again in place *)
Example C35_calls : legal_calls nat (ex 3 1 1) [0; 1; 2] 2
    [mkCall true 0 1; mkCall false 1 0; mkCall true 0 0] (fun b => if b =? 0 then Some (true, fun i j t => i) else None)
  /\ effects nat 2 [mkCall true 0 1; mkCall false 1 0; mkCall true 0 0]
       (fun b => if b =? 0 then Some (true, fun i j t => i) else None) 0 = Some (false, fun i j t => i).
Proof.
  split; [|reflexivity]. cbn. unfold legal_call. cbn. repeat split; auto; try lia; try (intros; discriminate); eexists; reflexivity.
Qed.
