(** Convolution2 with one column per row and a batched transform in x: the condition D=1 of agree2 is needed. *)
From Coq Require Import Reals Arith List Bool.
From Verif Require Import CNum Sums Mem PadModel ConvModel ConvSpec Team LayerModel LayerSpec Xf LayerBad.
Local Open Scope nat_scope.

(** All the conditions of C18_convolution2_linear hold except D=1 when Sx=1; one element f=2, g=3, M=2; Convolution2
    multiplies only the first batch of the residues and leaves 4 instead of the linear convolution 6. *)
Theorem C45_single_column_refuted : exists (sx sy : pad) T sch F V w rooms f x m0, let tx := FP sx in let ty := FP sy in
  wf tx /\ wf ty /\ (gS tx = 1 /\ gD tx = 2) /\
  (gS ty = 1 /\ gC tx = aL ty /\ aA ty = aA tx /\ aB ty = aB tx /\ aA tx = 2 /\ aB tx = 1 /\ loop2 tx = false /\ loop2 ty = false) /\
  2 * aL tx <= aM tx + 1 /\ 2 * aL ty <= aM ty + 1 /\ (forall r, schedule T (gl tx) (sch r)) /\
  separated (data_blocks tx f 0 ++ work2 tx ty T F V w rooms) /\ provided (work2 tx ty T F V w rooms) m0 /\
  holds2 2 (aL tx) (aL ty) (gS tx) f 0 x m0 /\
  TWP (construct_convolve2 tx ty (fun _ => multBinary) T sch F V w rooms f 0) m0 (fun m' =>
    m' (f 0) = Val (RtoC 4) /\ linconv2 (x 0) (x 1) 0 0 = RtoC 6).
Proof. exact single_column_thm. Qed.
Print Assumptions C45_single_column_refuted.

(** the transforms and the memory of the witness *)
Example C45_case_single_column : gl (FP bx) = 1 /\ noutputs (FP bx) 0 = 2 /\ bm (bf 0) = Val (RtoC (INR 2)) /\ bm (bf 1) = Val (RtoC (INR 3)).
Proof. repeat split; reflexivity. Qed.
