(** gatherx, gathery, gatheryz, gatherxy gather. *)
From Coq Require Import List Arith Bool Lia ZArith.
From Verif Require Import MpiMachine MpiRun MpiModel MpiSpec MpiDims MpiTrSpec MpiTrTop GatherModel GatherSpec GatherRun.
Import ListNotations.
Local Open Scope nat_scope.

Definition boxR (Y Z x0 x y0 y z0 z i o : nat) : Prop :=
  exists a b c, a < x /\ b < y /\ c < z /\ i = (a * y + b) * z + c /\ o = ((x0 + a) * Y + (y0 + b)) * Z + (z0 + c).

Lemma dm q1 q2 r1 r2 n : r1 < n -> r2 < n -> q1 * n + r1 = q2 * n + r2 -> q1 = q2 /\ r1 = r2.
Proof.
  intros H1 H2 E. assert (q1 = q2) as ->; [|lia].
  destruct (Nat.lt_trichotomy q1 q2) as [L|[L|L]]; auto; exfalso.
  - assert (S q1 * n <= q2 * n) by (apply Nat.mul_le_mono_r; lia). rewrite Nat.mul_succ_l in H. lia.
  - assert (S q2 * n <= q1 * n) by (apply Nat.mul_le_mono_r; lia). rewrite Nat.mul_succ_l in H. lia.
Qed.
Lemma pos3 i j k X Y Z : i < X -> j < Y -> k < Z -> (i * Y + j) * Z + k < X * Y * Z.
Proof.
  intros Hi Hj Hk. assert (H1 : i * Y + j < X * Y).
  { assert (S i * Y <= X * Y) by (apply Nat.mul_le_mono_r; lia). rewrite Nat.mul_succ_l in H. lia. }
  assert (S (i * Y + j) * Z <= X * Y * Z) by (apply Nat.mul_le_mono_r; lia). rewrite Nat.mul_succ_l in H. lia.
Qed.
Lemma pos3_inj i j k i' j' k' Y Z : j < Y -> k < Z -> j' < Y -> k' < Z ->
  (i * Y + j) * Z + k = (i' * Y + j') * Z + k' -> i = i' /\ j = j' /\ k = k'.
Proof.
  intros H0 H1 H2 H3 E. destruct (dm _ _ k k' Z H1 H3 E) as [E' ->].
  destruct (dm _ _ _ _ Y H0 H2 E'). auto.
Qed.

Section S.
Variable D : Type.
Notation V := (cell D).
Variables (P : nat) (X Y Z : nat) (G : array3 D) (x0 x y0 y z0 z : nat -> nat).
Hypothesis HP : 0 < P.
Hypothesis Hin : forall r, r < P -> 0 < x r -> 0 < y r -> 0 < z r -> x0 r + x r <= X /\ y0 r + y r <= Y /\ z0 r + z r <= Z.
Hypothesis Hcov : forall i j k, i < X -> j < Y -> k < Z -> exists r a b c, r < P /\ a < x r /\ b < y r /\ c < z r /\
  i = x0 r + a /\ j = y0 r + b /\ k = z0 r + c.

Lemma box_gather (nd : nat) (cnt : list nat -> nat) place (dims : nat -> list nat) prog_ :
  (forall r, r < P -> length (dims r) = nd /\ cnt (dims r) = x r * y r * z r) ->
  (forall r b, r < P -> b <> 1 -> puts D b (x r * y r * z r) (X * Y * Z) (boxR Y Z (x0 r) (x r) (y0 r) (y r) (z0 r) (z r)) (place b (dims r))) ->
  (forall r, r < P -> prog_ r = if r =? 0 then receiver D cnt place nd P (dims 0) else sender D cnt nd (dims r)) ->
  gathers D P prog_ G X Y Z x0 x y0 y z0 z.
Proof.
  intros Hd Hp Hpr mem0 bsz0 Hs HW.
  set (R := fun r => boxR Y Z (x0 r) (x r) (y0 r) (y r) (z0 r) (z r)).
  assert (Hz : forall r, r < P -> cnt (dims r) = x r * y r * z r) by (intros; apply Hd; auto).
  pose proof (gather_gen D cnt place (X * Y * Z) R nd P dims mem0 bsz0 HP) as H.
  destruct H with (g := fun r => (prog_ r (Halt V), before D (mem0 r) (bsz0 r))) as (n & gf & F1 & (F2 & F3 & F4) & F5); clear H.
  - intros r Hr. apply Hd; auto.
  - intros r Hr. rewrite Hz by lia. apply Hp; lia.
  - rewrite Hz by auto. apply Hp; auto.
  - intros r Hr. rewrite Hz by auto. split; apply Hs; auto.
  - apply (Hs 0 HP).
  - exact HW.
  - intros r Hr. rewrite Hpr by auto. destruct (r =? 0); reflexivity.
  - exists n, gf. split; [exact F1|]. split; [split; [|split; [|split]]|].
    + intros i j k Hi Hj Hk. cbn [Nat.add]. destruct (F2 ((i * Y + j) * Z + k)) as [(r & q & I1 & I2 & I3 & I4)|[I1 _]].
      * rewrite I4. destruct I3 as (a & b & c & A1 & A2 & A3 & -> & E).
        destruct (Hin r I1 ltac:(lia) ltac:(lia) ltac:(lia)) as (B1 & B2 & B3).
        destruct (pos3_inj i j k (x0 r + a) (y0 r + b) (z0 r + c) Y Z) as (-> & -> & ->); try lia.
        apply (Hs r I1); auto.
      * exfalso. destruct (Hcov i j k Hi Hj Hk) as (r & a & b & c & Hr & A1 & A2 & A3 & -> & -> & ->).
        apply (I1 r ((a * y r + b) * z r + c) Hr).
        -- rewrite Hz by auto. apply pos3; auto.
        -- exists a, b, c. repeat split; auto.
    + intros o Ho. destruct (F2 o) as [(r & q & I1 & I2 & I3 & I4)|[I1 I2]]; [|exact I2].
      exfalso. destruct I3 as (a & b & c & A1 & A2 & A3 & -> & ->).
      destruct (Hin r I1 ltac:(lia) ltac:(lia) ltac:(lia)) as (B1 & B2 & B3).
      pose proof (pos3 (x0 r + a) (y0 r + b) (z0 r + c) X Y Z ltac:(lia) ltac:(lia) ltac:(lia)). lia.
    + exact F3.
    + exact F4.
    + exact F5.
Qed.
End S.

Lemma split2 t Y Z : t < Y * Z <-> exists b c, b < Y /\ c < Z /\ t = b * Z + c.
Proof.
  split.
  - intros H. assert (Z <> 0) by (intros ->; rewrite Nat.mul_0_r in H; lia).
    exists (t / Z), (t mod Z). split; [apply Nat.div_lt_upper_bound; auto; rewrite Nat.mul_comm; auto|].
    split; [apply Nat.mod_upper_bound; auto|]. rewrite Nat.mul_comm. apply Nat.div_mod; auto.
  - intros (b & c & Hb & Hc & ->). assert (S b * Z <= Y * Z) by (apply Nat.mul_le_mono_r; lia). rewrite Nat.mul_succ_l in H. lia.
Qed.
Lemma block_end a c n : a < c -> a * n + n <= c * n.
Proof. intros H. assert (S a * n <= c * n) by (apply Nat.mul_le_mono_r; lia). rewrite Nat.mul_succ_l in H0. lia. Qed.

Section Places.
Variable D : Type.
Lemma place_x b X Y Z x0 x : b <> 1 -> (0 < x -> 0 < Y -> 0 < Z -> x0 + x <= X) ->
  puts D b (x * Y * Z) (X * Y * Z) (boxR Y Z x0 x 0 Y 0 Z) (copyfromblock D b 0 1 (x0 * Y * Z) x (Y * Z) (Y * Z)).
Proof.
  intros Hb Hin. eapply puts_ext; [|apply puts_copyfromblock; [exact Hb| |]].
  - intros i o. cbv beta. split.
    + intros (a & t & Ha & Ht & -> & ->). apply split2 in Ht as (j & k & Hj & Hk & ->). exists a, j, k. repeat split; auto; ring.
    + intros (a & j & k & Ha & Hj & Hk & -> & ->). exists a, (j * Z + k). split; auto. split; [apply split2; eauto|]. split; ring.
  - intros a Ha _. rewrite <- Nat.mul_assoc. apply block_end; auto.
  - intros a Ha Hp. assert (0 < Y) by (destruct Y; cbn in Hp; lia). assert (0 < Z) by (destruct Z; rewrite ?Nat.mul_0_r in Hp; lia).
    specialize (Hin ltac:(lia) ltac:(lia) ltac:(lia)). rewrite <- !Nat.mul_assoc, <- Nat.mul_add_distr_r. apply block_end. lia.
Qed.
Lemma place_y b X Y Z y0 y : b <> 1 -> (0 < X -> 0 < y -> 0 < Z -> y0 + y <= Y) ->
  puts D b (X * y * Z) (X * Y * Z) (boxR Y Z 0 X y0 y 0 Z) (copyfromblock D b 0 1 (y0 * Z) X (y * Z) (Y * Z)).
Proof.
  intros Hb Hin. eapply puts_ext; [|apply puts_copyfromblock; [exact Hb| |]].
  - intros i o. cbv beta. split.
    + intros (a & t & Ha & Ht & -> & ->). apply split2 in Ht as (j & k & Hj & Hk & ->). exists a, j, k. repeat split; auto; ring.
    + intros (a & j & k & Ha & Hj & Hk & -> & ->). exists a, (j * Z + k). split; auto. split; [apply split2; eauto|]. split; ring.
  - intros a Ha _. rewrite <- Nat.mul_assoc. apply block_end; auto.
  - intros a Ha Hp. assert (0 < y) by (destruct y; cbn in Hp; lia). assert (0 < Z) by (destruct Z; rewrite ?Nat.mul_0_r in Hp; lia).
    specialize (Hin ltac:(lia) ltac:(lia) ltac:(lia)).
    assert ((y0 + y) * Z <= Y * Z) by (apply Nat.mul_le_mono_r; lia). rewrite Nat.mul_add_distr_r in H1.
    pose proof (block_end a X (Y * Z) Ha). rewrite <- Nat.mul_assoc. lia.
Qed.
Lemma place_yz b X Y Z y0 y z0 z : b <> 1 -> (0 < X -> 0 < y -> 0 < z -> y0 + y <= Y /\ z0 + z <= Z) ->
  puts D b (X * y * z) (X * Y * Z) (boxR Y Z 0 X y0 y z0 z)
    (floop D 0 X (fun i => copyfromblock D b (i * y * z) 1 (i * Y * Z + y0 * Z + z0) y z Z)).
Proof.
  intros Hb Hin. eapply puts_ext; [|apply puts_floop with (R := fun i q o => exists a t, a < y /\ t < z /\ q = i * y * z + (a * z + t) /\ o = i * Y * Z + y0 * Z + z0 + a * Z + t); [exact Hb|]].
  - intros i o. cbv beta. split.
    + intros (a & Ha & j & k & Hj & Hk & -> & ->). exists a, j, k. repeat split; auto; try lia; ring.
    + intros (a & j & k & Ha & Hj & Hk & -> & ->). exists a. split; [lia|]. exists j, k. repeat split; auto; ring.
  - intros i Hi. apply puts_copyfromblock; [exact Hb| |].
    + intros a Ha Hp. pose proof (pos3 i a (z - 1) X y z ltac:(lia) Ha ltac:(lia)). rewrite Nat.mul_add_distr_r in H. lia.
    + intros a Ha Hp. destruct (Hin ltac:(lia) ltac:(lia) ltac:(lia)).
      pose proof (pos3 i (y0 + a) (z0 + z - 1) X Y Z ltac:(lia) ltac:(lia) ltac:(lia)) as H1. rewrite !Nat.mul_add_distr_r in H1. lia.
Qed.
Lemma place_xy b X Y Z x0 x y0 y : b <> 1 -> (0 < x -> 0 < y -> 0 < Z -> x0 + x <= X /\ y0 + y <= Y) ->
  puts D b (x * y * Z) (X * Y * Z) (boxR Y Z x0 x y0 y 0 Z)
    (floop D 0 x (fun i => copyfromblock D b (i * y * Z) 1 ((x0 + i) * Y * Z + y0 * Z) y Z Z)).
Proof.
  intros Hb Hin. eapply puts_ext; [|apply puts_floop with (R := fun i q o => exists a t, a < y /\ t < Z /\ q = i * y * Z + (a * Z + t) /\ o = (x0 + i) * Y * Z + y0 * Z + a * Z + t); [exact Hb|]].
  - intros i o. cbv beta. split.
    + intros (a & Ha & j & k & Hj & Hk & -> & ->). exists a, j, k. repeat split; auto; try lia; ring.
    + intros (a & j & k & Ha & Hj & Hk & -> & ->). exists a. split; [lia|]. exists j, k. repeat split; auto; ring.
  - intros i Hi. apply puts_copyfromblock; [exact Hb| |].
    + intros a Ha Hp. pose proof (pos3 i a (Z - 1) x y Z ltac:(lia) Ha ltac:(lia)). rewrite Nat.mul_add_distr_r in H. lia.
    + intros a Ha Hp. destruct (Hin ltac:(lia) ltac:(lia) ltac:(lia)).
      pose proof (pos3 (x0 + i) (y0 + a) (Z - 1) X Y Z ltac:(lia) ltac:(lia) ltac:(lia)) as H1. rewrite !Nat.mul_add_distr_r in H1.
      rewrite Nat.mul_add_distr_r. rewrite !Nat.mul_add_distr_r. lia.
Qed.
End Places.

Notation u := Z.to_nat.
(** *** split *)
Lemma split_boxes X Y P (d : nat -> split) : 0 < P -> (Z.of_nat X + Z.of_nat P < 2 ^ 31)%Z -> (Z.of_nat Y + Z.of_nat P < 2 ^ 31)%Z ->
  (forall r, r < P -> split_make (Z.of_nat X) (Z.of_nat Y) (Z.of_nat r) (Z.of_nat P) = Some (d r)) ->
  (forall r, r < P -> u (sX (d r)) = X /\ u (sY (d r)) = Y /\
     (0 < u (sx (d r)) -> u (sx0 (d r)) + u (sx (d r)) <= X) /\ (0 < u (sy (d r)) -> u (sy0 (d r)) + u (sy (d r)) <= Y)) /\
  (forall i, i < X -> exists r a, r < P /\ a < u (sx (d r)) /\ i = u (sx0 (d r)) + a) /\
  (forall j, j < Y -> exists r a, r < P /\ a < u (sy (d r)) /\ j = u (sy0 (d r)) + a).
Proof.
  intros HP HX HY Hd.
  destruct (localdimension_partitions (Z.of_nat X) P ltac:(lia) HP HX) as (ex & x0 & Lx & (Cx & Ix & _)).
  destruct (localdimension_partitions (Z.of_nat Y) P ltac:(lia) HP HY) as (ey & y0 & Ly & (Cy & Iy & _)).
  assert (E : forall r, r < P -> sX (d r) = Z.of_nat X /\ sY (d r) = Z.of_nat Y /\ sx (d r) = ex r /\ sx0 (d r) = x0 r /\ sy (d r) = ey r /\ sy0 (d r) = y0 r).
  { intros r Hr. specialize (Hd r Hr). unfold split_make in Hd. rewrite Lx, Ly in Hd by auto. cbn [bind] in Hd. injection Hd as <-. cbn. auto 10. }
  split; [|split].
  - intros r Hr. destruct (E r Hr) as (-> & -> & -> & -> & -> & ->). destruct (Ix r Hr). destruct (Iy r Hr). lia.
  - intros i Hi. destruct (Cx (Z.of_nat i) ltac:(lia)) as (r & Hr & H & _). exists r, (u (Z.of_nat i - x0 r)). destruct (E r Hr) as (_ & _ & -> & -> & _).
    destruct (Ix r Hr). split; auto. lia.
  - intros i Hi. destruct (Cy (Z.of_nat i) ltac:(lia)) as (r & Hr & H & _). exists r, (u (Z.of_nat i - y0 r)). destruct (E r Hr) as (_ & _ & _ & _ & -> & ->).
    destruct (Iy r Hr). split; auto. lia.
Qed.

Theorem gatherx_correct D P X Y Zd (d : nat -> split) (G : array3 D) : 0 < P ->
  (Z.of_nat X + Z.of_nat P < 2 ^ 31)%Z -> (Z.of_nat Y + Z.of_nat P < 2 ^ 31)%Z ->
  (forall r, r < P -> split_make (Z.of_nat X) (Z.of_nat Y) (Z.of_nat r) (Z.of_nat P) = Some (d r)) ->
  gathers D P (fun r => gatherx D P r (d r) Zd) G X Y Zd
    (fun r => u (sx0 (d r))) (fun r => u (sx (d r))) (fun _ => 0) (fun _ => Y) (fun _ => 0) (fun _ => Zd).
Proof.
  intros HP HX HY Hd. destruct (split_boxes X Y P d HP HX HY Hd) as (Hb & Cx & _).
  apply box_gather with (nd := 2) (cnt := fun l => Zd * nth 0 l 0 * Y)
    (place := fun b l => copyfromblock D b 0 1 (nth 1 l 0 * Y * Zd) (nth 0 l 0) (Y * Zd) (Y * Zd)) (dims := fun r => [u (sx (d r)); u (sx0 (d r))]); auto.
  - intros r Hr H1 H2 H3. destruct (Hb r Hr) as (_ & _ & H & _). specialize (H H1). lia.
  - intros i j k Hi Hj Hk. destruct (Cx i Hi) as (r & a & Hr & Ha & ->). exists r, a, j, k. auto 10.
  - intros r Hr. split; auto. cbn [nth]. ring.
  - intros r b Hr Hne. cbn [nth]. apply place_x; auto. intros H1 _ _. apply (Hb r Hr). auto.
  - intros r Hr. destruct (Hb r Hr) as (_ & EY & _). unfold gatherx. rewrite EY.
    destruct (Nat.eqb_spec r 0) as [->|Ne]; reflexivity.
Qed.
Theorem gathery_correct D P X Y Zd (d : nat -> split) (G : array3 D) : 0 < P ->
  (Z.of_nat X + Z.of_nat P < 2 ^ 31)%Z -> (Z.of_nat Y + Z.of_nat P < 2 ^ 31)%Z ->
  (forall r, r < P -> split_make (Z.of_nat X) (Z.of_nat Y) (Z.of_nat r) (Z.of_nat P) = Some (d r)) ->
  gathers D P (fun r => gathery D P r (d r) Zd) G X Y Zd
    (fun _ => 0) (fun _ => X) (fun r => u (sy0 (d r))) (fun r => u (sy (d r))) (fun _ => 0) (fun _ => Zd).
Proof.
  intros HP HX HY Hd. destruct (split_boxes X Y P d HP HX HY Hd) as (Hb & _ & Cy).
  apply box_gather with (nd := 2) (cnt := fun l => Zd * X * nth 0 l 0)
    (place := fun b l => copyfromblock D b 0 1 (nth 1 l 0 * Zd) X (nth 0 l 0 * Zd) (Y * Zd)) (dims := fun r => [u (sy (d r)); u (sy0 (d r))]); auto.
  - intros r Hr H1 H2 H3. destruct (Hb r Hr) as (_ & _ & _ & H). specialize (H H2). lia.
  - intros i j k Hi Hj Hk. destruct (Cy j Hj) as (r & a & Hr & Ha & ->). exists r, i, a, k. auto 10.
  - intros r Hr. split; auto. cbn [nth]. ring.
  - intros r b Hr Hne. cbn [nth]. apply place_y; auto. intros _ H1 _. apply (Hb r Hr). auto.
  - intros r Hr. destruct (Hb r Hr) as (EX & EY & _). unfold gathery. rewrite EX, EY.
    destruct (Nat.eqb_spec r 0) as [->|Ne]; reflexivity.
Qed.

(** *** split3 *)
Lemma tiles_boxes X Y P ex x0 ey y0 : tiles (Z.of_nat X) (Z.of_nat Y) P ex x0 ey y0 ->
  (forall r, r < P -> (0 < u (ex r) -> u (x0 r) + u (ex r) <= X) /\ (0 < u (ey r) -> u (y0 r) + u (ey r) <= Y)) /\
  (forall i j, i < X -> j < Y -> exists r a b, r < P /\ a < u (ex r) /\ b < u (ey r) /\ i = u (x0 r) + a /\ j = u (y0 r) + b).
Proof.
  intros (C & I). split.
  - intros r Hr. destruct (I r Hr) as (A1 & A2 & A3 & A4). lia.
  - intros i j Hi Hj. destruct (C (Z.of_nat i) (Z.of_nat j) ltac:(lia) ltac:(lia)) as (r & Hr & H1 & H2 & _).
    destruct (I r Hr) as (A1 & A2 & A3 & A4). exists r, (u (Z.of_nat i - x0 r)), (u (Z.of_nat j - y0 r)). split; auto. lia.
Qed.
Theorem gatheryz_correct D P X Y Zd (d : nat -> split3) (G : array3 D) : 0 < P ->
  (forall r, r < P -> s3X (d r) = Z.of_nat X /\ s3Y (d r) = Z.of_nat Y /\ s3Z (d r) = Z.of_nat Zd) ->
  tiles (Z.of_nat Y) (Z.of_nat Zd) P (fun r => sy (s3xy (d r))) (fun r => sy0 (s3xy (d r))) (fun r => s3z (d r)) (fun r => s3z0 (d r)) ->
  gathers D P (fun r => gatheryz D P r (d r)) G X Y Zd
    (fun _ => 0) (fun _ => X) (fun r => u (sy0 (s3xy (d r)))) (fun r => u (sy (s3xy (d r)))) (fun r => u (s3z0 (d r))) (fun r => u (s3z (d r))).
Proof.
  intros HP Hd Ht. destruct (tiles_boxes _ _ _ _ _ _ _ Ht) as (Hb & Cv).
  apply box_gather with (nd := 4) (cnt := fun l => X * nth 0 l 0 * nth 1 l 0)
    (place := fun b l => floop D 0 X (fun i => copyfromblock D b (i * nth 0 l 0 * nth 1 l 0) 1 (i * Y * Zd + nth 2 l 0 * Zd + nth 3 l 0) (nth 0 l 0) (nth 1 l 0) Zd))
    (dims := fun r => [u (sy (s3xy (d r))); u (s3z (d r)); u (sy0 (s3xy (d r))); u (s3z0 (d r))]); auto.
  - intros r Hr H1 H2 H3. destruct (Hb r Hr) as (A & B). specialize (A H2). specialize (B H3). lia.
  - intros i j k Hi Hj Hk. destruct (Cv j k Hj Hk) as (r & a & b & Hr & Ha & Hb' & -> & ->). exists r, i, a, b. auto 10.
  - intros r b Hr Hne. cbn [nth]. apply place_yz; auto. intros _ H1 H2. destruct (Hb r Hr) as (A & B). auto.
  - intros r Hr. destruct (Hd r Hr) as (EX & EY & EZ). unfold gatheryz. rewrite EX, EY, EZ, !Nat2Z.id.
    destruct (Nat.eqb_spec r 0) as [->|Ne]; reflexivity.
Qed.
Theorem gatherxy_correct D P X Y Zd (d : nat -> split3) (G : array3 D) : 0 < P ->
  (forall r, r < P -> s3X (d r) = Z.of_nat X /\ s3Y (d r) = Z.of_nat Y /\ s3Z (d r) = Z.of_nat Zd) ->
  tiles (Z.of_nat X) (Z.of_nat Y) P (fun r => s3x (d r)) (fun r => s3x0 (d r)) (fun r => sx (s3yz (d r))) (fun r => sx0 (s3yz (d r))) ->
  gathers D P (fun r => gatherxy D P r (d r)) G X Y Zd
    (fun r => u (s3x0 (d r))) (fun r => u (s3x (d r))) (fun r => u (sx0 (s3yz (d r)))) (fun r => u (sx (s3yz (d r)))) (fun _ => 0) (fun _ => Zd).
Proof.
  intros HP Hd Ht. destruct (tiles_boxes _ _ _ _ _ _ _ Ht) as (Hb & Cv).
  apply box_gather with (nd := 4) (cnt := fun l => nth 0 l 0 * nth 1 l 0 * Zd)
    (place := fun b l => floop D 0 (nth 0 l 0) (fun i => copyfromblock D b (i * nth 1 l 0 * Zd) 1 ((nth 2 l 0 + i) * Y * Zd + nth 3 l 0 * Zd) (nth 1 l 0) Zd Zd))
    (dims := fun r => [u (s3x (d r)); u (sx (s3yz (d r))); u (s3x0 (d r)); u (sx0 (s3yz (d r)))]); auto.
  - intros r Hr H1 H2 H3. destruct (Hb r Hr) as (A & B). specialize (A H1). specialize (B H2). lia.
  - intros i j k Hi Hj Hk. destruct (Cv i j Hi Hj) as (r & a & b & Hr & Ha & Hb' & -> & ->). exists r, a, b, k. auto 10.
  - intros r b Hr Hne. cbn [nth]. apply place_xy; auto. intros H1 H2 _. destruct (Hb r Hr) as (A & B). auto.
  - intros r Hr. destruct (Hd r Hr) as (EX & EY & EZ). unfold gatherxy. rewrite EY, EZ, !Nat2Z.id.
    destruct (Nat.eqb_spec r 0) as [->|Ne]; reflexivity.
Qed.

(** *** the process group of a 3D transform *)
Theorem gather_group D (X Y Zd size : nat) pencil :
  (0 < Z.of_nat X < 2 ^ 30)%Z -> (0 < Z.of_nat Y < 2 ^ 30)%Z -> (Z.of_nat Zd < 2 ^ 30)%Z -> (0 < Z.of_nat size < 2 ^ 30)%Z ->
  exists A major, group2_size (Z.of_nat X) (Z.of_nat Y) (Z.of_nat size) pencil = Some (Z.of_nat A, major) /\ 0 < A <= size /\
  forall xyf, exists d,
    (forall r, r < A -> group_split3 (Z.of_nat X) (Z.of_nat Y) (Z.of_nat Y) (Z.of_nat Zd) major A r xyf = Some (d r)) /\
    forall G : array3 D,
    gathers D A (fun r => gatherxy D A r (d r)) G X Y Zd
      (fun r => u (s3x0 (d r))) (fun r => u (s3x (d r))) (fun r => u (sx0 (s3yz (d r)))) (fun r => u (sx (s3yz (d r)))) (fun _ => 0) (fun _ => Zd) /\
    gathers D A (fun r => gatheryz D A r (d r)) G X Y Zd
      (fun _ => 0) (fun _ => X) (fun r => u (sy0 (s3xy (d r)))) (fun r => u (sy (s3xy (d r)))) (fun r => u (s3z0 (d r))) (fun r => u (s3z (d r))).
Proof.
  intros HX HY HZ Hs. destruct (group2_correct (Z.of_nat X) (Z.of_nat Y) (Z.of_nat Zd) (Z.of_nat size) pencil HX HY ltac:(lia) Hs) as (A & major & E & HA & H).
  exists A, major. split; [exact E|]. split; [lia|]. intros xyf. destruct (H xyf) as (Hn & T1 & _ & T2 & _). clear H.
  assert (exists Sp, Sp = fun r => group_split3 (Z.of_nat X) (Z.of_nat Y) (Z.of_nat Y) (Z.of_nat Zd) major A r xyf) as (Sp & ESp) by (eexists; reflexivity).
  change (forall r, r < A -> (fun r => group_split3 (Z.of_nat X) (Z.of_nat Y) (Z.of_nat Y) (Z.of_nat Zd) major A r xyf) r <> None) in Hn.
  change (tiles (Z.of_nat X) (Z.of_nat Y) A (fun r => get s3x ((fun r => group_split3 (Z.of_nat X) (Z.of_nat Y) (Z.of_nat Y) (Z.of_nat Zd) major A r xyf) r))
    (fun r => get s3x0 ((fun r => group_split3 (Z.of_nat X) (Z.of_nat Y) (Z.of_nat Y) (Z.of_nat Zd) major A r xyf) r))
    (fun r => get (fun s => sx (s3yz s)) ((fun r => group_split3 (Z.of_nat X) (Z.of_nat Y) (Z.of_nat Y) (Z.of_nat Zd) major A r xyf) r))
    (fun r => get (fun s => sx0 (s3yz s)) ((fun r => group_split3 (Z.of_nat X) (Z.of_nat Y) (Z.of_nat Y) (Z.of_nat Zd) major A r xyf) r))) in T1.
  change (tiles (Z.of_nat Y) (Z.of_nat Zd) A (fun r => get (fun s => sy (s3xy s)) ((fun r => group_split3 (Z.of_nat X) (Z.of_nat Y) (Z.of_nat Y) (Z.of_nat Zd) major A r xyf) r))
    (fun r => get (fun s => sy0 (s3xy s)) ((fun r => group_split3 (Z.of_nat X) (Z.of_nat Y) (Z.of_nat Y) (Z.of_nat Zd) major A r xyf) r))
    (fun r => get s3z ((fun r => group_split3 (Z.of_nat X) (Z.of_nat Y) (Z.of_nat Y) (Z.of_nat Zd) major A r xyf) r))
    (fun r => get s3z0 ((fun r => group_split3 (Z.of_nat X) (Z.of_nat Y) (Z.of_nat Y) (Z.of_nat Zd) major A r xyf) r))) in T2.
  rewrite <- ESp in Hn, T1, T2.
  set (z0 := mkSplit3 0 0 0 0 0 0 0 0 0 0 0 0 (mkSplit 0 0 0 0 0 0 0) (mkSplit 0 0 0 0 0 0 0)).
  exists (fun r => match Sp r with Some s => s | None => z0 end).
  assert (Ed : forall r, r < A -> Sp r = Some (match Sp r with Some s => s | None => z0 end)).
  { intros r Hr. pose proof (Hn r Hr) as Hne. destruct (Sp r); [reflexivity|exfalso; apply Hne; reflexivity]. }
  split; [intros r Hr; rewrite <- (Ed r Hr), ESp; reflexivity|].
  assert (Gt : forall r f, f z0 = 0%Z -> get f (Sp r) = f (match Sp r with Some s => s | None => z0 end)).
  { intros r f Hf. destruct (Sp r); [reflexivity|cbn [get]; auto]. }
  assert (Dm : forall r, r < A -> s3X (match Sp r with Some s => s | None => z0 end) = Z.of_nat X /\
     s3Y (match Sp r with Some s => s | None => z0 end) = Z.of_nat Y /\ s3Z (match Sp r with Some s => s | None => z0 end) = Z.of_nat Zd).
  { intros r Hr. pose proof (Hn r Hr) as Hne. rewrite ESp in *. unfold group_split3, split3_make in *.
    destruct (split_make (Z.of_nat X) _ _ _); cbn [bind] in *; [|exfalso; apply Hne; reflexivity].
    destruct (split_make _ (Z.of_nat Zd) _ _); cbn [bind] in *; [|exfalso; apply Hne; reflexivity]. destruct xyf; cbn; auto. }
  assert (Ex : forall P a a' b b' c c' d d', (forall r, a r = a' r) -> (forall r, b r = b' r) -> (forall r, c r = c' r) -> (forall r, d r = d' r) ->
     forall X Y, tiles X Y P a b c d -> tiles X Y P a' b' c' d').
  { intros P a a' b b' c c' e e' H1 H2 H3 H4 X' Y' (C & I). split.
    - intros i j Hi Hj. destruct (C i j Hi Hj) as (r & Hr & A1 & A2 & A3). exists r. rewrite <- H1, <- H2, <- H3, <- H4. repeat split; auto; try lia.
      intros s' Hs'. rewrite <- H1, <- H2, <- H3, <- H4. auto.
    - intros r Hr. rewrite <- H1, <- H2, <- H3, <- H4. auto. }
  intros G. split.
  - apply gatherxy_correct; [lia|exact Dm|]. eapply Ex; [| | | |exact T1]; intros r; cbv beta; [apply (Gt r)|apply (Gt r)|apply (Gt r (fun s => sx (s3yz s)))|apply (Gt r (fun s => sx0 (s3yz s)))]; reflexivity.
  - apply gatheryz_correct; [lia|exact Dm|]. eapply Ex; [| | | |exact T2]; intros r; cbv beta; [apply (Gt r (fun s => sy (s3xy s)))|apply (Gt r (fun s => sy0 (s3xy s)))|apply (Gt r)|apply (Gt r)]; reflexivity.
Qed.

(** *** a concrete case: a 4x2x1 array over 3 processes, the third of which owns nothing *)
Definition gsp (r : nat) : split :=
  match split_make 4 2 (Z.of_nat r) 3 with Some s => s | None => mkSplit 0 0 0 0 0 0 0 end.
Lemma gather_case :
  (forall r, r < 3 -> split_make (Z.of_nat 4) (Z.of_nat 2) (Z.of_nat r) (Z.of_nat 3) = Some (gsp r)) /\
  u (sx (gsp 1)) = 2 /\ u (sx0 (gsp 1)) = 2 /\ u (sx (gsp 2)) = 0 /\
  exists mem0 bsz0,
   (forall r, r < 3 -> stores_box (fun i j k => 10 * i + j) (u (sx0 (gsp r))) (u (sx (gsp r))) 0 2 0 1 (mem0 r 0) /\
     u (sx (gsp r)) * 2 * 1 <= bsz0 r 0 /\ bsz0 r 2 = 0 /\ bsz0 r 3 = 0) /\ 4 * 2 * 1 <= bsz0 0 1.
Proof.
  split; [|split; [reflexivity|split; [reflexivity|split; [reflexivity|]]]].
  - intros r Hr. assert (r = 0 \/ r = 1 \/ r = 2) as [->|[->| ->]] by lia; reflexivity.
  - exists (fun r _ o => Dat (10 * (2 * r + o / 2) + o mod 2)), (fun r b => match b with 0 => 4 | 1 => 8 | _ => 0 end).
    split; [|cbn; lia]. intros r Hr. split; [|split; [|split; reflexivity]].
    + assert (r = 0 \/ r = 1 \/ r = 2) as [->|[->| ->]] by lia; intros i j k Hi Hj Hk; f_equal; rewrite Nat.mul_1_r;
        assert (k = 0) as -> by lia; rewrite Nat.add_0_r.
      * change (u (sx (gsp 0))) with 2 in Hi. change (u (sx0 (gsp 0))) with 0.
        assert (i = 0 \/ i = 1) as [->| ->] by lia; assert (j = 0 \/ j = 1) as [->| ->] by lia; reflexivity.
      * change (u (sx (gsp 1))) with 2 in Hi. change (u (sx0 (gsp 1))) with 2.
        assert (i = 0 \/ i = 1) as [->| ->] by lia; assert (j = 0 \/ j = 1) as [->| ->] by lia; reflexivity.
      * change (u (sx (gsp 2))) with 0 in Hi. lia.
    + assert (r = 0 \/ r = 1 \/ r = 2) as [->|[->| ->]] by lia; vm_compute; lia.
Qed.
