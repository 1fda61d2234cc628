(** The statements of C17. *)
From Coq Require Import Reals ZArith Arith Bool Lia Lra.
From Verif Require Import CNum Mem FftwModel FftwLoops FftwSpec FftwRun FftwProofs HermModel HermSpec HermProofs.

Lemma sym1_thm : forall f m F, cell_C m f F ->
  always (HermitianSymmetrize f) m (fun m' => exists G, cell_C m' f G /\ G = Cconj G /\ re G = re F /\
    forall x, ~ word_of f x -> m' x = m x).
Proof.
  intros f m F H. apply always_WP. unfold HermitianSymmetrize.
  pose proof (WP_im0 f 0 m) as W. rewrite Nat.mul_0_r, Nat.add_0_r in W. apply W.
  - apply (cell_alloc _ _ _ H).
  - intros m' A B. destruct H as [H1 H2]. exists (mkC (re F) 0). repeat split.
    + rewrite B by lia. exact H1.
    + exact A.
    + unfold Cconj. cbn. f_equal. lra.
    + intros x Hx. apply B. intros ->. apply Hx. right. reflexivity.
Qed.

Lemma space_row m f x0 H Sx a j : space m f (2 * ((x0 + H) * Sx)) -> (- Z.of_nat x0 <= a < Z.of_nat H)%Z -> j < Sx ->
  allocated m (mode2 f x0 Sx a j) /\ allocated m (mode2 f x0 Sx a j + 1).
Proof.
  intros Hs Ha Hj. unfold mode2, row.
  assert ((Z.to_nat (Z.of_nat x0 + a) + 1) * Sx <= (x0 + H) * Sx) by (apply Nat.mul_le_mono_r; lia).
  split; [|rewrite <- Nat.add_assoc]; apply Hs; lia.
Qed.


Lemma symX_run Hx Hy x0 f Sx m F : 0 < Hx -> Hx <= x0 + 1 -> 0 < Hy <= Sx -> space m f (2 * ((x0 + Hx) * Sx)) ->
  (forall a, (0 <= a < Z.of_nat Hx)%Z -> cell_C m (mode2 f x0 Sx a 0) (F a)) ->
  WP (HermitianSymmetrizeX Hx Hy x0 f Sx) m (postX Hx Hy x0 f Sx F m).
Proof.
  intros H1 H2 H3 Hs HF. apply symX_WP; try assumption; try lia.
  - intros a Ha. apply (space_row _ _ _ Hx); [exact Hs| |lia]. unfold inside in Ha. lia.
  - intros E j Hj. apply (space_row _ _ _ Hx); [exact Hs| |lia]. lia.
Qed.

Lemma symX_thm : forall Hx Hy x0 f Sx m (F : Z -> C),
  0 < Hx -> Hx <= x0 + 1 -> 0 < Hy <= Sx -> space m f (2 * ((x0 + Hx) * Sx)) ->
  (forall a, (0 <= a < Z.of_nat Hx)%Z -> cell_C m (mode2 f x0 Sx a 0) (F a)) ->
  always (HermitianSymmetrizeX Hx Hy x0 f Sx) m (fun m' =>
    (exists G : Z -> C,
       (forall a, inside Hx a -> cell_C m' (mode2 f x0 Sx a 0) (G a)) /\
       (forall a, G (- a)%Z = Cconj (G a)) /\
       (forall a, (0 < a < Z.of_nat Hx)%Z -> G a = F a) /\ re (G 0%Z) = re (F 0%Z)) /\
    (x0 = Hx -> forall j, j < Hy -> cell_C m' (mode2 f x0 Sx (- Z.of_nat Hx) j) C0) /\
    (forall x, (forall a, inside Hx a -> ~ word_of (mode2 f x0 Sx a 0) x) ->
       (x0 = Hx -> forall j, j < Hy -> ~ word_of (mode2 f x0 Sx (- Z.of_nat Hx) j) x) -> m' x = m x)).
Proof.
  intros Hx Hy x0 f Sx m F H1 H2 H3 Hs HF.
  eapply always_mono; [|apply always_WP; apply (symX_run Hx Hy x0 f Sx m F); assumption].
  intros m' (A & B & D). split; [|split; [exact B|exact D]].
  exists (herm F). split; [exact A|]. split; [apply herm_sym|]. split; [|reflexivity].
  intros a Ha. apply herm_pos. lia.
Qed.

Lemma postX_space Hx Hy x0 f Sx F m m' n : postX Hx Hy x0 f Sx F m m' -> space m f n -> space m' f n.
Proof.
  intros (A & B & D) Hs d Hd.
  destruct (Classical_Prop.classic (exists a, inside Hx a /\ word_of (mode2 f x0 Sx a 0) (f + d))) as [(a & H & T)|N1].
  { destruct (cell_alloc _ _ _ (A a H)) as [U V]. destruct T as [->| ->]; assumption. }
  destruct (Classical_Prop.classic (x0 = Hx /\ exists j, j < Hy /\ word_of (mode2 f x0 Sx (- Z.of_nat Hx) j) (f + d))) as [(E & j & H & T)|N2].
  { destruct (cell_alloc _ _ _ (B E j H)) as [U V]. destruct T as [->| ->]; assumption. }
  unfold allocated. rewrite D; [apply Hs; exact Hd| |].
  - intros a H T. apply N1. eauto.
  - intros E j H T. apply N2. eauto.
Qed.

Lemma symX_idem_thm : forall Hx Hy x0 f Sx m (F : Z -> C),
  0 < Hx -> Hx <= x0 + 1 -> 0 < Hy <= Sx -> space m f (2 * ((x0 + Hx) * Sx)) ->
  (forall a, (0 <= a < Z.of_nat Hx)%Z -> cell_C m (mode2 f x0 Sx a 0) (F a)) ->
  always (HermitianSymmetrizeX Hx Hy x0 f Sx) m (fun m1 =>
    always (HermitianSymmetrizeX Hx Hy x0 f Sx) m1 (fun m2 => forall x, m2 x = m1 x)).
Proof.
  intros Hx Hy x0 f Sx m F H1 H2 H3 Hs HF.
  eapply always_mono; [|apply always_WP; apply (symX_run Hx Hy x0 f Sx m F); assumption].
  intros m1 P1. eapply always_mono; [|apply always_WP; apply (symX_run Hx Hy x0 f Sx m1 (herm F)); try assumption].
  - intros m2 P2. exact (postX_idem _ _ _ _ _ _ _ _ _ H1 P1 P2).
  - eapply postX_space; eassumption.
  - intros a Ha. apply P1. unfold inside. lia.
Qed.

Lemma space_row3 m f x0 y0 Hx Hy Sx Sy a b k : space m f (2 * ((x0 + Hx) * Sx)) -> (y0 + Hy) * Sy <= Sx ->
  (- Z.of_nat x0 <= a < Z.of_nat Hx)%Z -> (- Z.of_nat y0 <= b < Z.of_nat Hy)%Z -> k < Sy ->
  allocated m (mode3 f x0 y0 Sx Sy a b k) /\ allocated m (mode3 f x0 y0 Sx Sy a b k + 1).
Proof.
  intros Hs HS Ha Hb Hk. unfold mode3, row.
  assert ((Z.to_nat (Z.of_nat x0 + a) + 1) * Sx <= (x0 + Hx) * Sx) by (apply Nat.mul_le_mono_r; lia).
  assert ((Z.to_nat (Z.of_nat y0 + b) + 1) * Sy <= (y0 + Hy) * Sy) by (apply Nat.mul_le_mono_r; lia).
  split; [|rewrite <- Nat.add_assoc]; apply Hs; lia.
Qed.

Lemma symXY_run Hx Hy Hz x0 y0 f Sx Sy m F :
  0 < Hx -> 0 < Hy -> Hx <= x0 + 1 -> Hy <= y0 + 1 -> 0 < Hz <= Sy -> (y0 + Hy) * Sy <= Sx ->
  space m f (2 * ((x0 + Hx) * Sx)) ->
  (forall a b, inside Hx a -> inside Hy b -> (0 < b \/ (b = 0 /\ 0 <= a))%Z -> cell_C m (mode3 f x0 y0 Sx Sy a b 0) (F a b)) ->
  WP (HermitianSymmetrizeXY Hx Hy Hz x0 y0 f Sx Sy) m (postXY Hx Hy Hz x0 y0 f Sx Sy F m).
Proof.
  intros H1 H2 H3 H4 H5 H6 Hs HF. apply symXY_WP; try assumption; try lia.
  - intros a b Ha Hb. eapply space_row3; try eassumption; unfold inside in *; lia.
  - intros E b k Hb Hk. eapply space_row3; try eassumption; lia.
  - intros E b k Hb Hk. eapply space_row3; try eassumption; lia.
Qed.

Lemma symXY_thm : forall Hx Hy Hz x0 y0 f Sx Sy m (F : Z -> Z -> C),
  0 < Hx -> 0 < Hy -> Hx <= x0 + 1 -> Hy <= y0 + 1 -> 0 < Hz <= Sy -> (y0 + Hy) * Sy <= Sx ->
  space m f (2 * ((x0 + Hx) * Sx)) ->
  let at3 := mode3 f x0 y0 Sx Sy in
  (forall a b, inside Hx a -> inside Hy b -> (0 < b \/ (b = 0 /\ 0 <= a))%Z -> cell_C m (at3 a b 0) (F a b)) ->
  always (HermitianSymmetrizeXY Hx Hy Hz x0 y0 f Sx Sy) m (fun m' =>
    (exists G : Z -> Z -> C,
       (forall a b, inside Hx a -> inside Hy b -> cell_C m' (at3 a b 0) (G a b)) /\
       (forall a b, G (- a)%Z (- b)%Z = Cconj (G a b)) /\
       (forall a b, (0 < b)%Z -> G a b = F a b) /\ (forall a, (0 < a)%Z -> G a 0%Z = F a 0%Z) /\
       re (G 0%Z 0%Z) = re (F 0%Z 0%Z)) /\
    (x0 = Hx -> forall b k, (- Z.of_nat y0 <= b < Z.of_nat Hy)%Z -> k < Hz -> cell_C m' (at3 (- Z.of_nat Hx)%Z b k) C0) /\
    (y0 = Hy -> forall a k, (- Z.of_nat x0 <= a < Z.of_nat Hx)%Z -> k < Hz -> cell_C m' (at3 a (- Z.of_nat Hy)%Z k) C0) /\
    (forall x, (forall a b, inside Hx a -> inside Hy b -> ~ word_of (at3 a b 0) x) ->
       (x0 = Hx -> forall b k, (- Z.of_nat y0 <= b < Z.of_nat Hy)%Z -> k < Hz -> ~ word_of (at3 (- Z.of_nat Hx)%Z b k) x) ->
       (y0 = Hy -> forall a k, (- Z.of_nat x0 <= a < Z.of_nat Hx)%Z -> k < Hz -> ~ word_of (at3 a (- Z.of_nat Hy)%Z k) x) ->
       m' x = m x)).
Proof.
  intros Hx Hy Hz x0 y0 f Sx Sy m F H1 H2 H3 H4 H5 H6 Hs at3 HF.
  eapply always_mono; [|apply always_WP; apply (symXY_run Hx Hy Hz x0 y0 f Sx Sy m F); assumption].
  intros m' (A & B & D & E). split; [|split; [exact B|split; [exact D|exact E]]].
  exists (herm3 F). split; [exact A|]. split; [apply herm3_sym|]. split; [|split].
  - intros a b Hb. unfold herm3. destruct (Z.ltb_spec 0 b); [reflexivity|lia].
  - intros a Ha. unfold herm3. cbn. exact (herm_pos (fun a => F a 0%Z) a Ha).
  - reflexivity.
Qed.

Lemma postXY_space Hx Hy Hz x0 y0 f Sx Sy F m m' n : postXY Hx Hy Hz x0 y0 f Sx Sy F m m' -> space m f n -> space m' f n.
Proof.
  intros (A & B & D & E) Hs d Hd. set (at3 := mode3 f x0 y0 Sx Sy) in *.
  destruct (Classical_Prop.classic (m' (f + d) = m (f + d))) as [G|G].
  { unfold allocated. rewrite G. apply Hs. exact Hd. }
  apply Classical_Prop.NNPP. intros N. apply G, E.
  - intros a b Ha Hb T. apply N. destruct (cell_alloc _ _ _ (A a b Ha Hb)). destruct T as [->| ->]; assumption.
  - intros U a b Ha Hb T. apply N. destruct (cell_alloc _ _ _ (B U a b Ha Hb)). destruct T as [->| ->]; assumption.
  - intros U a b Ha Hb T. apply N. destruct (cell_alloc _ _ _ (D U a b Ha Hb)). destruct T as [->| ->]; assumption.
Qed.

Lemma symXY_idem_thm : forall Hx Hy Hz x0 y0 f Sx Sy m (F : Z -> Z -> C),
  0 < Hx -> 0 < Hy -> Hx <= x0 + 1 -> Hy <= y0 + 1 -> 0 < Hz <= Sy -> (y0 + Hy) * Sy <= Sx ->
  space m f (2 * ((x0 + Hx) * Sx)) ->
  (forall a b, inside Hx a -> inside Hy b -> (0 < b \/ (b = 0 /\ 0 <= a))%Z -> cell_C m (mode3 f x0 y0 Sx Sy a b 0) (F a b)) ->
  always (HermitianSymmetrizeXY Hx Hy Hz x0 y0 f Sx Sy) m (fun m1 =>
    always (HermitianSymmetrizeXY Hx Hy Hz x0 y0 f Sx Sy) m1 (fun m2 => forall x, m2 x = m1 x)).
Proof.
  intros Hx Hy Hz x0 y0 f Sx Sy m F H1 H2 H3 H4 H5 H6 Hs HF.
  eapply always_mono; [|apply always_WP; apply (symXY_run Hx Hy Hz x0 y0 f Sx Sy m F); assumption].
  intros m1 P1. eapply always_mono; [|apply always_WP; apply (symXY_run Hx Hy Hz x0 y0 f Sx Sy m1 (herm3 F)); try assumption].
  - intros m2 P2. exact (postXY_idem _ _ _ _ _ _ _ _ _ _ _ _ P1 P2).
  - eapply postXY_space; eassumption.
  - intros a b Ha Hb _. apply P1; assumption.
Qed.
