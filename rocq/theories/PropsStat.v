(** Property theorems C24, C25 (statistics.h), over every history of add() and clear(). *)
From Coq Require Import Reals List Sorted Permutation Lra.
From Verif Require Import StatModel StatSpec StatProofs.
Import ListNotations.
Local Open Scope R_scope.

(** C24: count, sum, mean, minimum, maximum, unbiased standard deviation, standard error and
    the total of the one-sided deviations are those of the samples since the last clear(). *)
Theorem C24_running_statistics : forall junk computeMedian os, doubles os -> let xs := samples os [] in
  exists st, steps os (stat_new junk computeMedian) = Some st /\
    st_count st = INR (length xs) /\ st_sum st = Rsum xs /\
    (xs <> [] -> st_mean st = Rmean xs /\ is_min (st_min st) xs /\ is_max (st_max st) xs) /\
    ((1 < length xs)%nat -> 0 <= st_stdev st /\ st_stdev st ^ 2 = deviation2 xs / INR (length xs - 1)
        /\ st_stderror st ^ 2 = deviation2 xs / INR (length xs - 1) / INR (length xs)) /\
    ((2 < length xs)%nat -> st_stdevL st ^ 2 + st_stdevH st ^ 2 = 2 * deviation2 xs / INR (length xs - 2)).
Proof. exact mean_thm. Qed.
Print Assumptions C24_running_statistics.

(** C25: no queue is ever read empty, and median() is the median of the samples. *)
Theorem C25_running_median : forall junk os, doubles os -> samples os [] <> [] ->
  exists st v, steps os (stat_new junk true) = Some st /\ st_median st = Some v /\ is_median v (samples os []).
Proof. exact median_thm. Qed.
Print Assumptions C25_running_median.

Definition history25 : list sop := [Add 7; Clear; Add 5; Add 2; Add 4; Add 9].
Example C24_case : doubles history25 /\ samples history25 [] = [5; 2; 4; 9] /\ is_median (9 / 2) (samples history25 []) /\
  Rmean (samples history25 []) = 5 /\ deviation2 (samples history25 []) = 26.
Proof.
  assert (HB : 9 <= DBL_MAX).
  { unfold DBL_MAX. assert (H : / 2 ^ 52 <= / 1) by (apply Rinv_le_contravar; [lra|apply pow_R1_Rle; lra]).
    assert (H2 : 9 <= 2 ^ 1023). { apply Rle_trans with (2 ^ 4); [lra|]. apply Rle_pow; [lra|]. repeat constructor. }
    rewrite <- (Rmult_1_l 9). apply Rmult_le_compat; lra. }
  split. { intros t Ht. cbn in Ht. repeat (destruct Ht as [E|Ht]; [try discriminate; injection E as <-; lra|]). destruct Ht. }
  split; [reflexivity|]. split.
  - exists [2; 4; 5; 9]. split; [|split; [repeat constructor; lra|cbn; lra]].
    cbn. apply perm_trans with [2; 5; 4; 9]; [apply perm_swap|]. apply perm_skip, perm_swap.
  - unfold deviation2, Rmean, Rsum. cbn. lra.
Qed.
