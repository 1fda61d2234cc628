(** C36: gathering distributed arrays (mpi/mpiutils.h). *)
From Coq Require Import ZArith List Bool Lia.
From Verif Require Import MpiMachine MpiModel MpiSpec MpiTrSpec GatherModel GatherSpec GatherRun GatherProofs.
Notation u := Z.to_nat.
Local Open Scope nat_scope.

(** arrays distributed by rows over the communicator of the split *)
Theorem C36_gatherx : forall D P X Y Zd (d : nat -> split) (G : array3 D), 0 < P ->
  (Z.of_nat X + Z.of_nat P < 2 ^ 31)%Z -> (Z.of_nat Y + Z.of_nat P < 2 ^ 31)%Z ->
  (forall r, r < P -> split_make (Z.of_nat X) (Z.of_nat Y) (Z.of_nat r) (Z.of_nat P) = Some (d r)) ->
  gathers D P (fun r => gatherx D P r (d r) Zd) G X Y Zd
    (fun r => u (sx0 (d r))) (fun r => u (sx (d r))) (fun _ => 0) (fun _ => Y) (fun _ => 0) (fun _ => Zd).
Proof. exact gatherx_correct. Qed.
Print Assumptions C36_gatherx.
(** ... by columns *)
Theorem C36_gathery : forall D P X Y Zd (d : nat -> split) (G : array3 D), 0 < P ->
  (Z.of_nat X + Z.of_nat P < 2 ^ 31)%Z -> (Z.of_nat Y + Z.of_nat P < 2 ^ 31)%Z ->
  (forall r, r < P -> split_make (Z.of_nat X) (Z.of_nat Y) (Z.of_nat r) (Z.of_nat P) = Some (d r)) ->
  gathers D P (fun r => gathery D P r (d r) Zd) G X Y Zd
    (fun _ => 0) (fun _ => X) (fun r => u (sy0 (d r))) (fun r => u (sy (d r))) (fun _ => 0) (fun _ => Zd).
Proof. exact gathery_correct. Qed.
Print Assumptions C36_gathery.
Example C36_case :
  (forall r, r < 3 -> split_make (Z.of_nat 4) (Z.of_nat 2) (Z.of_nat r) (Z.of_nat 3) = Some (gsp r)) /\
  u (sx (gsp 1)) = 2 /\ u (sx0 (gsp 1)) = 2 /\ u (sx (gsp 2)) = 0 /\
  exists mem0 bsz0,
   (forall r, r < 3 -> stores_box (fun i j k => 10 * i + j) (u (sx0 (gsp r))) (u (sx (gsp r))) 0 2 0 1 (mem0 r 0) /\
     u (sx (gsp r)) * 2 * 1 <= bsz0 r 0 /\ bsz0 r 2 = 0 /\ bsz0 r 3 = 0) /\ 4 * 2 * 1 <= bsz0 0 1.
Proof. exact gather_case. Qed.
(** arrays distributed in two directions: any tiling of the plane *)
Theorem C36_gatheryz : forall D P X Y Zd (d : nat -> split3) (G : array3 D), 0 < P ->
  (forall r, r < P -> s3X (d r) = Z.of_nat X /\ s3Y (d r) = Z.of_nat Y /\ s3Z (d r) = Z.of_nat Zd) ->
  tiles (Z.of_nat Y) (Z.of_nat Zd) P (fun r => sy (s3xy (d r))) (fun r => sy0 (s3xy (d r))) (fun r => s3z (d r)) (fun r => s3z0 (d r)) ->
  gathers D P (fun r => gatheryz D P r (d r)) G X Y Zd
    (fun _ => 0) (fun _ => X) (fun r => u (sy0 (s3xy (d r)))) (fun r => u (sy (s3xy (d r)))) (fun r => u (s3z0 (d r))) (fun r => u (s3z (d r))).
Proof. exact gatheryz_correct. Qed.
Print Assumptions C36_gatheryz.
Theorem C36_gatherxy : forall D P X Y Zd (d : nat -> split3) (G : array3 D), 0 < P ->
  (forall r, r < P -> s3X (d r) = Z.of_nat X /\ s3Y (d r) = Z.of_nat Y /\ s3Z (d r) = Z.of_nat Zd) ->
  tiles (Z.of_nat X) (Z.of_nat Y) P (fun r => s3x (d r)) (fun r => s3x0 (d r)) (fun r => sx (s3yz (d r))) (fun r => sx0 (s3yz (d r))) ->
  gathers D P (fun r => gatherxy D P r (d r)) G X Y Zd
    (fun r => u (s3x0 (d r))) (fun r => u (s3x (d r))) (fun r => u (sx0 (s3yz (d r)))) (fun r => u (sx (s3yz (d r)))) (fun _ => 0) (fun _ => Zd).
Proof. exact gatherxy_correct. Qed.
Print Assumptions C36_gatherxy.
(** ... and the process groups the library builds are such tilings, for all sizes *)
Theorem C36_group : forall D (X Y Zd size : nat) pencil,
  (0 < Z.of_nat X < 2 ^ 30)%Z -> (0 < Z.of_nat Y < 2 ^ 30)%Z -> (Z.of_nat Zd < 2 ^ 30)%Z -> (0 < Z.of_nat size < 2 ^ 30)%Z ->
  exists A major, group2_size (Z.of_nat X) (Z.of_nat Y) (Z.of_nat size) pencil = Some (Z.of_nat A, major) /\ 0 < A <= size /\
  forall xyf, exists d,
    (forall r, r < A -> group_split3 (Z.of_nat X) (Z.of_nat Y) (Z.of_nat Y) (Z.of_nat Zd) major A r xyf = Some (d r)) /\
    forall G : array3 D,
    gathers D A (fun r => gatherxy D A r (d r)) G X Y Zd
      (fun r => u (s3x0 (d r))) (fun r => u (s3x (d r))) (fun r => u (sx0 (s3yz (d r)))) (fun r => u (sx (s3yz (d r)))) (fun _ => 0) (fun _ => Zd) /\
    gathers D A (fun r => gatheryz D A r (d r)) G X Y Zd
      (fun _ => 0) (fun _ => X) (fun r => u (sy0 (s3xy (d r)))) (fun r => u (sy (s3xy (d r)))) (fun r => u (s3z0 (d r))) (fun r => u (s3z (d r))).
Proof. exact gather_group. Qed.
Print Assumptions C36_group.
