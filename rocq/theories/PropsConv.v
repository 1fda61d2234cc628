(** Property theorems C09-C16, C39-C41 for one-dimensional convolutions (class Convolution).
    t ranges over every parameter set a constructor accepts ([wf t]; 1D: stride S=1), of class
    fftPad (t = FP s, origin 0) and of class fftPadCentered (t = CP s, origin L/2); a theorem
    about [s : pad] alone is about fftPad.
    [WP c m Q]: every execution of c from m, over all thread schedules, terminates without
    undefined behaviour, data race or error exit, and all end in one memory, satisfying Q. *)
From Coq Require Import Reals ZArith Arith Lia List Bool.
From Verif Require Import CNum Sums Mem PadModel PadKernels ConvModel PadSpec ConvSpec Conv5 Conv6 Conv7 Conv9 PadCases PadProofs ConvProofs CenCases Xf.
Import ListNotations.

(** C09: two inputs, one output, M >= 2L-1: the linear convolution. *)
Theorem C09_linear_convolution : forall s : pad, let t := FP s in wf t -> gS t = 1 -> aA t = 2 -> aB t = 1 -> 2 * aL t <= aM t + 1 ->
  forall g F V w x m0, buffers t g F V w m0 -> holds 2 (aL t) g x m0 ->
  WP (construct_convolve t multBinary F V w g) m0 (fun m' =>
    (forall j, j < aL t -> m' (g 0 + j) = Val (linconv (x 0) (x 1) j)) /\
    (forall a, outside t g F V w a -> m' a = m0 a)).
Proof. exact linear_FP. Qed.
Print Assumptions C09_linear_convolution.

(** ... with any M: the convolution of period m*q (the padded length). *)
Theorem C09_cyclic_convolution : forall s : pad, let t := FP s in wf t -> gS t = 1 -> aA t = 2 -> aB t = 1 ->
  forall g F V w x m0, buffers t g F V w m0 -> holds 2 (aL t) g x m0 ->
  WP (construct_convolve t multBinary F V w g) m0 (fun m' =>
    (forall j, j < aL t -> m' (g 0 + j) = Val (cycconv (gm t * gq t) (aL t) (x 0) (x 1) j)) /\
    (forall a, outside t g F V w a -> m' a = m0 a)).
Proof. exact cyclic_FP. Qed.
Print Assumptions C09_cyclic_convolution.

Definition x9 (a i : nat) : C := if a =? 0 then RtoC (INR (i + 1)) else RtoC (INR (2 * i + 1)).
Example C09_case : wf case1 /\ buffers case1 (lg case1) (lF case1) (lV case1) (lw case1) (lmem case1 x9) /\
  holds 2 (aL case1) (lg case1) x9 (lmem case1 x9) /\
  WP (construct_convolve case1 multBinary (lF case1) (lV case1) (lw case1) (lg case1)) (lmem case1 x9)
     (fun m' => m' (lg case1 0 + 2) = Val (RtoC 14)).
Proof.
  split; [exact case1_wf|]. split; [apply layout_ok|]. split; [exact (layout_holds case1 x9)|].
  eapply WP_mono; [|apply (C09_linear_convolution case1 case1_wf eq_refl eq_refl eq_refl); [vm_compute; lia|apply layout_ok|exact (layout_holds case1 x9)]].
  intros m' [H _]. rewrite (H 2) by (vm_compute; lia). f_equal. unfold linconv, x9. cbn. apply C_ext; cbn; ring.
Qed.

(** Any number of inputs and outputs and any pointwise operation Phi: output b is the inverse
    transform of Phi b applied to the A padded transforms, divided by the padded length.
    With A >= B (or one residue per pass), and, if the two-pass schedule is selected, A-B
    dividing B, which the next theorem shows to be necessary. *)
Theorem C10_any_schedule_partial : forall t, wf t -> gS t = 1 -> (gD t = 1 \/ aB t <= aA t) ->
  (loop2 t = true -> Nat.divide (aA t - aB t) (aB t)) ->
  forall mult Phi, pointwise (aA t) (aB t) mult (fun _ _ => Phi) -> (forall b, of_inputs (aA t) (Phi b)) ->
  forall g F V w x m0, buffers t g F V w m0 -> holds (aA t) (aL t) g x m0 ->
  WP (construct_convolve t mult F V w g) m0 (fun m' =>
    holds (aB t) (aL t) g (fun b j =>
       Cmul (RtoC (/ INR (gM t))) (oidft (origin t) (gM t) (fun k => Phi b (fun a => odft (origin t) (gM t) (aL t) (x a) k)) j)) m' /\
    (forall a, outside t g F V w a -> m' a = m0 a)).
Proof. exact conv_thm. Qed.
Print Assumptions C10_any_schedule_partial.

(** C10 is false in general: with three inputs and one output (the product of the three) the
    two-pass schedule returns 3/2 where the correct value is 2. *)
Theorem C10_two_pass_schedule_refuted : exists t mult Phi g F V w x m0,
  wf t /\ gS t = 1 /\ aB t <= aA t /\ loop2 t = true /\
  pointwise (aA t) (aB t) mult (fun _ _ => Phi) /\ (forall b, of_inputs (aA t) (Phi b)) /\
  buffers t g F V w m0 /\ holds (aA t) (aL t) g x m0 /\
  Cmul (RtoC (/ INR (gM t))) (oidft (origin t) (gM t) (fun k => Phi 0 (fun a => odft (origin t) (gM t) (aL t) (x a) k)) 0) = RtoC 2 /\
  WP (construct_convolve t mult F V w g) m0 (fun m' => m' (g 0) = Val (RtoC (3 / 2))).
Proof. exact loop2_refuted. Qed.
Print Assumptions C10_two_pass_schedule_refuted.
Example C10_case : (* the two-pass schedule with A-B dividing B *)
  wf case1 /\ loop2 case1 = true /\ Nat.divide (aA case1 - aB case1) (aB case1) /\ aB case1 <= aA case1 /\
  pointwise (aA case1) (aB case1) multBinary (fun _ _ _ v => Cmul (v 0) (v 1)).
Proof.
  split; [exact case1_wf|]. split; [reflexivity|]. split; [exists 1; reflexivity|]. split; [vm_compute; lia|].
  apply ok_pointwise. exact multBinary_ok.
Qed.

(** C11 is false: with a caller-supplied work array and explicitly padded out-of-place
    transforms, every execution of convolve ends the program with an error. *)
Theorem C11_user_work_array_refuted : forall s : pad, let t := FP s in wf t -> gS t = 1 -> gq t = 1 -> ainplace t = false -> 1 <= aA t ->
  forall mult g F V w x m0, buffers t g F V w m0 -> holds (aA t) (aL t) g x m0 ->
  let N := max (aA t) (aB t) in
  let obj := cinit t mult (arr N F) (arr (aB t) V) true w in
  forall o, exec (Seq (cinit_cmd obj) (convolve obj (arr N g))) m0 o <-> o = ExitErr.
Proof. exact userW_thm. Qed.
Print Assumptions C11_user_work_array_refuted.
(** For in-place transforms the argument makes no difference (the results are those of the
    other theorems of this file). *)
Theorem C11_user_work_array_inplace_partial : forall t mult F V w g,
  ainplace t = true ->
  let N := max (aA t) (aB t) in
  let obj u := cinit t mult (arr N F) (arr (aB t) V) u w in
  Seq (cinit_cmd (obj true)) (convolve (obj true) (arr N g)) = construct_convolve t mult F V w g.
Proof. exact userW_same. Qed.
Print Assumptions C11_user_work_array_inplace_partial.
Definition case11 : pad := mkpad 3 5 1 1 5 1 false 2 1 true.
Example C11_case : wf case11 /\ gq case11 = 1 /\ ainplace case11 = false /\
  buffers case11 (lg case11) (lF case11) (lV case11) (lw case11) (lmem case11 x9) /\
  holds (aA case11) (aL case11) (lg case11) x9 (lmem case11 x9).
Proof.
  split; [repeat split; vm_compute; try reflexivity; lia|]. split; [reflexivity|]. split; [reflexivity|].
  split; [apply layout_ok|apply layout_holds].
Qed.

(** C12 is false: one input, two outputs (the second a copy of the first) and two residues per
    pass: convolve reads a pointer beyond the end of an array of A pointers. *)
Theorem C12_more_outputs_refuted : exists t mult g F V w, wf t /\ gS t = 1 /\ aA t = 1 /\ aB t = 2 /\
  pointwise (aA t) (aB t) mult (fun _ _ _ v => v 0) /\
  forall x, exists m0, buffers t g F V w m0 /\ holds (aA t) (aL t) g x m0 /\
    exec (construct_convolve t mult F V w g) m0 UB.
Proof. exact more_outputs_refuted. Qed.
Print Assumptions C12_more_outputs_refuted.
(** With one residue per pass, any A and B are safe: no execution has undefined behaviour
    although nothing but the object's buffers is allocated. *)
Theorem C12_any_outputs_partial : forall t, wf t -> gS t = 1 -> gD t = 1 ->
  (loop2 t = true -> Nat.divide (aA t - aB t) (aB t)) ->
  forall mult Phi, pointwise (aA t) (aB t) mult (fun _ _ => Phi) -> (forall b, of_inputs (aA t) (Phi b)) ->
  forall g F V w x m0, buffers t g F V w m0 -> holds (aA t) (aL t) g x m0 ->
  (forall a, outside t g F V w a -> m0 a = Unalloc) ->
  forall o, exec (construct_convolve t mult F V w g) m0 o -> o <> UB /\ o <> ExitErr.
Proof. exact (fun t Hwf HS HD => safe_thm t Hwf HS (or_introl HD)). Qed.
Print Assumptions C12_any_outputs_partial.
Definition case12a : pad := mkpad 1 4 1 1 1 1 true 1 2 false.
Example C12_case : wf case12a /\ gD case12a = 1 /\ loop2 case12a = false /\ aA case12a < aB case12a /\
  pointwise (aA case12a) (aB case12a) multCopy (fun _ _ _ v => v 0).
Proof.
  split; [repeat split; vm_compute; try reflexivity; lia|]. split; [reflexivity|]. split; [reflexivity|].
  split; [vm_compute; lia|]. apply ok_pointwise. exact multCopy_ok.
Qed.

(** C13: after any history of calls (the caller changing its data and even the object's F and V
    in between) the next convolve returns what a fresh object returns for the same inputs. *)
Theorem C13_history_independence : forall t, wf t -> gS t = 1 -> (gD t = 1 \/ aB t <= aA t) ->
  (loop2 t = true -> Nat.divide (aA t - aB t) (aB t)) ->
  forall mult Phi, pointwise (aA t) (aB t) mult (fun _ _ => Phi) -> (forall b, of_inputs (aA t) (Phi b)) ->
  forall g F V w us u x m0 m1 v, buffers t g F V w m0 ->
  (forall s, In s us -> exists y, stores t g F V w s y) -> stores t g F V w u x ->
  buffers t g F V w m1 -> holds (aA t) (aL t) g x m1 ->
  WP (construct_convolve t mult F V w g) m1 (holds (aB t) (aL t) g v) ->
  WP (construct_usage t mult F V w g (us ++ [u])) m0 (holds (aB t) (aL t) g v).
Proof. exact usage_thm. Qed.
Print Assumptions C13_history_independence.
Theorem C13_repeated_linear_convolution : forall s : pad, let t := FP s in wf t -> gS t = 1 -> aA t = 2 -> aB t = 1 -> 2 * aL t <= aM t + 1 ->
  forall g F V w us u x m0, buffers t g F V w m0 ->
  (forall s, In s us -> exists y, stores t g F V w s y) -> stores t g F V w u x ->
  WP (construct_usage t multBinary F V w g (us ++ [u])) m0 (fun m' =>
    forall j, j < aL t -> m' (g 0 + j) = Val (linconv (x 0) (x 1) j)).
Proof. exact usage_linear_FP. Qed.
Print Assumptions C13_repeated_linear_convolution.
(** every choice of inputs has a caller action storing it *)
Example C13_case : forall t, wf t -> gS t = 1 -> forall g F V w x m0, buffers t g F V w m0 ->
  exists u, stores t g F V w u x.
Proof. exact stores_exists. Qed.

(** C14: whatever the schedule, convolve ends in the same memory. *)
Theorem C14_convolve_deterministic : forall t, wf t -> gS t = 1 -> (gD t = 1 \/ aB t <= aA t) ->
  (loop2 t = true -> Nat.divide (aA t - aB t) (aB t)) ->
  forall mult Phi, pointwise (aA t) (aB t) mult (fun _ _ => Phi) -> (forall b, of_inputs (aA t) (Phi b)) ->
  forall g F V w x m0, buffers t g F V w m0 -> holds (aA t) (aL t) g x m0 ->
  exists m', forall o, exec (construct_convolve t mult F V w g) m0 o <-> o = OK m'.
Proof. exact det_thm. Qed.
Print Assumptions C14_convolve_deterministic.

(** C15: convolve stays inside the object's and the caller's buffers. *)
Theorem C15_convolve_in_bounds : forall t, wf t -> gS t = 1 -> (gD t = 1 \/ aB t <= aA t) ->
  (loop2 t = true -> Nat.divide (aA t - aB t) (aB t)) ->
  forall mult Phi, pointwise (aA t) (aB t) mult (fun _ _ => Phi) -> (forall b, of_inputs (aA t) (Phi b)) ->
  forall g F V w x m0, buffers t g F V w m0 -> holds (aA t) (aL t) g x m0 ->
  (forall a, outside t g F V w a -> m0 a = Unalloc) ->
  forall o, exec (construct_convolve t mult F V w g) m0 o -> o <> UB /\ o <> ExitErr.
Proof. exact safe_thm. Qed.
Print Assumptions C15_convolve_in_bounds.

(** C16: with multcorrelation, the cross-correlation. *)
Theorem C16_correlation : forall s : pad, let t := FP s in wf t -> gS t = 1 -> aA t = 2 -> aB t = 1 -> 2 * aL t <= aM t + 1 ->
  forall g F V w x m0, buffers t g F V w m0 -> holds 2 (aL t) g x m0 ->
  WP (construct_convolve t multcorrelation F V w g) m0 (fun m' =>
    (forall j, j < aL t -> m' (g 0 + j) = Val (lincorr (aL t) (x 0) (x 1) j)) /\
    (forall a, outside t g F V w a -> m' a = m0 a)).
Proof. exact corr_FP. Qed.
Print Assumptions C16_correlation.
Example C16_case : 
  WP (construct_convolve case1 multcorrelation (lF case1) (lV case1) (lw case1) (lg case1)) (lmem case1 x9)
     (fun m' => m' (lg case1 0 + 1) = Val (RtoC 11)).
Proof.
  eapply WP_mono; [|apply (C16_correlation case1 case1_wf eq_refl eq_refl eq_refl); [vm_compute; lia|apply layout_ok|exact (layout_holds case1 x9)]].
  intros m' [H _]. rewrite (H 1) by (vm_compute; lia). f_equal. unfold lincorr, x9. cbn. apply C_ext; cbn; ring.
Qed.

(** C39: a multiplier that uses its indices sees the frequency index(r,offset+i) of every
    word, if one block is processed per call or the first pass has a single block, ... *)
Theorem C39_indices_partial : forall t, wf t -> gS t = 1 -> goverwrite t = false -> gD0 t = 1 \/ gD t = 1 ->
  (gD t = 1 \/ aB t <= aA t) -> (loop2 t = true -> Nat.divide (aA t - aB t) (aB t)) ->
  forall mult phi Phi, pointwise (aA t) (aB t) mult phi -> (forall k b, of_inputs (aA t) (Phi k b)) ->
  (forall rs r i b v, loop_trace (gR t) (increment t) 0 rs -> In r rs -> i < noutputs t r -> phi r i b v = Phi (index t r i) b v) ->
  forall g F V w x m0, buffers t g F V w m0 -> holds (aA t) (aL t) g x m0 ->
  WP (construct_convolve t mult F V w g) m0 (holds (aB t) (aL t) g (fun b j =>
       Cmul (RtoC (/ INR (gM t))) (oidft (origin t) (gM t) (fun k => Phi k b (fun a => odft (origin t) (gM t) (aL t) (x a) k)) j))).
Proof. exact index_thm. Qed.
Print Assumptions C39_indices_partial.
(** ... but not otherwise: multiplying each frequency k by k (the derivative of the data 1)
    gives 2/3 instead of 1. *)
Theorem C39_indices_refuted : exists t mult Phi g F V w x m0,
  wf t /\ gS t = 1 /\ goverwrite t = false /\ aB t <= aA t /\ loop2 t = false /\
  pointwise (aA t) (aB t) mult (fun r i => Phi (index t r i)) /\ (forall k b, of_inputs (aA t) (Phi k b)) /\
  buffers t g F V w m0 /\ holds (aA t) (aL t) g x m0 /\
  Cmul (RtoC (/ INR (gM t))) (oidft (origin t) (gM t) (fun k => Phi k 0 (fun a => odft (origin t) (gM t) (aL t) (x a) k)) 0) = RtoC 1 /\
  WP (construct_convolve t mult F V w g) m0 (fun m' => m' (g 0) = Val (RtoC (2 / 3))).
Proof. exact index_refuted. Qed.
Print Assumptions C39_indices_refuted.
Definition case39a : pad := mkpad 3 12 1 1 4 2 true 1 1 false.
Example C39_case : wf case39a /\ gD0 case39a = 1 /\ gD case39a = 2 /\ goverwrite case39a = false /\ gq case39a = 3 /\
  pointwise (aA case39a) (aB case39a) (multIndex case39a) (fun r i _ v => Cmul (v 0) (RtoC (INR (index case39a r i)))).
Proof.
  split; [repeat split; vm_compute; try reflexivity; lia|]. repeat (split; [reflexivity|]).
  apply ok_pointwise, multIndex_ok.
Qed.

(** C40: A=B with the trivial multiplier: the data is unchanged. *)
Theorem C40_identity : forall t, wf t -> gS t = 1 -> aA t = aB t ->
  forall g F V w x m0, buffers t g F V w m0 -> holds (aA t) (aL t) g x m0 ->
  WP (construct_convolve t multNone F V w g) m0 (fun m' =>
    holds (aA t) (aL t) g x m' /\ (forall a, outside t g F V w a -> m' a = m0 a)).
Proof. exact identity_thm. Qed.
Print Assumptions C40_identity.
Definition case40 : pad := mkpad 4 8 1 1 2 1 false 2 2 false.
Example C40_case : wf case40 /\ aA case40 = aB case40 /\
  buffers case40 (lg case40) (lF case40) (lV case40) (lw case40) (lmem case40 x9) /\
  holds (aA case40) (aL case40) (lg case40) x9 (lmem case40 x9).
Proof.
  split; [repeat split; vm_compute; try reflexivity; lia|]. split; [reflexivity|]. split; [apply layout_ok|apply layout_holds].
Qed.

(** C41: convolve(f,offset) works on the data at f[a]+offset and changes nothing else. *)
Theorem C41_offset : forall t, wf t -> gS t = 1 -> aB t <= aA t -> (loop2 t = true -> Nat.divide (aA t - aB t) (aB t)) ->
  forall mult Phi, pointwise (aA t) (aB t) mult (fun _ _ => Phi) -> (forall b, of_inputs (aA t) (Phi b)) ->
  forall f F V w offset x m0, let g a := f a + offset in
  buffers t g F V w m0 -> holds (aA t) (aL t) g x m0 ->
  let obj := object t mult F V w in
  WP (Seq (cinit_cmd obj) (convolveAt obj (arr (max (aA t) (aB t)) f) offset)) m0 (fun m' =>
    holds (aB t) (aL t) g (fun b j =>
       Cmul (RtoC (/ INR (gM t))) (oidft (origin t) (gM t) (fun k => Phi b (fun a => odft (origin t) (gM t) (aL t) (x a) k)) j)) m' /\
    (forall a, outside t g F V w a -> m' a = m0 a)).
Proof. exact offset_thm. Qed.
Print Assumptions C41_offset.

(** C47: centered data (entry j stands for the coordinate j - L/2): two inputs, one output,
    M >= L + L/2 and M >= 2L-1-L/2: the linear convolution about the center. *)
Theorem C47_centered_convolution : forall s : pad, let t := CP s in let c := aL t / 2 in
  wf t -> gS t = 1 -> aA t = 2 -> aB t = 1 -> enough c (aL t) (aM t) ->
  forall g F V w x m0, buffers t g F V w m0 -> holds 2 (aL t) g x m0 ->
  WP (construct_convolve t multBinary F V w g) m0 (fun m' =>
    (forall j, j < aL t -> m' (g 0 + j) = Val (oconv c (aL t) (x 0) (x 1) j)) /\
    (forall a, outside t g F V w a -> m' a = m0 a)).
Proof. exact linear_CP. Qed.
Print Assumptions C47_centered_convolution.
(** ... with any M: that convolution modulo the padded length. *)
Theorem C47_centered_cyclic_convolution : forall s : pad, let t := CP s in let c := aL t / 2 in
  wf t -> gS t = 1 -> aA t = 2 -> aB t = 1 ->
  forall g F V w x m0, buffers t g F V w m0 -> holds 2 (aL t) g x m0 ->
  WP (construct_convolve t multBinary F V w g) m0 (fun m' =>
    (forall j, j < aL t -> m' (g 0 + j) = Val (ocyc c (gM t) (aL t) (x 0) (x 1) j)) /\
    (forall a, outside t g F V w a -> m' a = m0 a)).
Proof. exact cyclic_CP. Qed.
Print Assumptions C47_centered_cyclic_convolution.
(** ... and with multcorrelation, the correlation about the center. *)
Theorem C47_centered_correlation : forall s : pad, let t := CP s in let c := aL t / 2 in
  wf t -> gS t = 1 -> aA t = 2 -> aB t = 1 -> enough c (aL t) (aM t) ->
  forall g F V w x m0, buffers t g F V w m0 -> holds 2 (aL t) g x m0 ->
  WP (construct_convolve t multcorrelation F V w g) m0 (fun m' =>
    (forall j, j < aL t -> m' (g 0 + j) = Val (ocorr c (aL t) (x 0) (x 1) j)) /\
    (forall a, outside t g F V w a -> m' a = m0 a)).
Proof. exact corr_CP. Qed.
Print Assumptions C47_centered_correlation.
(** A case with an inner transform loop and D=2: entry 2 of {1,..,7} with {1,3,..,13} about their
    centers; and a case in overwrite mode meets the hypotheses too. *)
Example C47_case : let t := CP ccase1 in wf t /\ gD t = 2 /\ buffers t (lg t) (lF t) (lV t) (lw t) (lmem t x9) /\
  holds 2 (aL t) (lg t) x9 (lmem t x9) /\
  WP (construct_convolve t multBinary (lF t) (lV t) (lw t) (lg t)) (lmem t x9)
     (fun m' => m' (lg t 0 + 2) = Val (RtoC 91)).
Proof.
  intros t. split; [exact ccase1_wf|]. split; [reflexivity|]. split; [apply layout_ok|]. split; [exact (layout_holds t x9)|].
  eapply WP_mono; [|apply (C47_centered_convolution ccase1 ccase1_wf eq_refl eq_refl eq_refl); [vm_compute; lia|apply layout_ok|exact (layout_holds t x9)]].
  intros m' [H _]. rewrite (H 2) by (vm_compute; lia). f_equal. unfold oconv, x9. cbn. apply C_ext; cbn; ring.
Qed.
Example C47_case_overwrite : let t := CP ccase2o in wf t /\ goverwrite t = true /\ gS t = 1 /\ aA t = 2 /\ aB t = 1 /\
  enough (aL t / 2) (aL t) (aM t).
Proof. intros t. split; [exact ccase2o_wf|]. repeat split; try reflexivity; vm_compute; lia. Qed.
