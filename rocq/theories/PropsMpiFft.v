(** The distributed Fourier transforms (mpi/mpifftw++.h).

    X x Y (x Z) array, P processes, transposes with the blocking parameters a, al of the constructor's
    search: the theorems hold for every choice.  [always_ends] (MpiTrSpec.v): all executions, i.e. every
    interleaving of the processes and any buffering of sends, end, without undefined behaviour, in a
    state as stated.  [rows2], [cols2], [rows3], [cols3], [fourier2], [fourier3], [tlegal], [teffects]:
    MpiFftSpec.v. *)
From Coq Require Import Reals ZArith List Arith Bool Lia.
From Verif Require Import CNum Sums MpiMachine MpiTrModel MpiTrSpec MpiTrTop MpiFftModel MpiFftSpec MpiFftProofs.
Import ListNotations.
Local Open Scope nat_scope.

(** *** C54 *)

(** fft2dMPI::Forward(in,out): the two-dimensional transform; the input is kept if out differs *)
Theorem C54_forward2 : forall X Y P a al, 0 < X -> 0 < Y -> 0 < P -> 0 < a ->
  let c := mkCfg X Y 1 1 P a al in
  forall sign bi bo bw G mem0 bsz0, bi <> bw -> bo <> bw ->
  (forall r b, r < P -> In b [bi; bo; bw] -> words X Y 1 P r <= bsz0 r b) ->
  (forall r, r < P -> rows2 X Y P G r (mem0 r bi)) ->
  always_ends C P (initial c mem0 bsz0 (fun r => Forward c sign (bi =? bo) bw r bi (Some bo) (Halt C)))
    (fun gf => forall r, r < P -> cols2 X Y P (fourier2 sign X Y G) r (mem C (snd (gf r)) bo) /\
       (bi <> bo -> rows2 X Y P G r (mem C (snd (gf r)) bi)) /\
       forall b o, b <> bi -> b <> bo -> b <> bw -> mem C (snd (gf r)) b o = mem0 r b o).
Proof. exact forward2. Qed.
Print Assumptions C54_forward2.
(** fft2dMPI::Backward(in,out) *)
Theorem C54_backward2 : forall X Y P a al, 0 < X -> 0 < Y -> 0 < P -> 0 < a ->
  let c := mkCfg X Y 1 1 P a al in
  forall sign bi bo bw G mem0 bsz0, bi <> bw -> bo <> bw ->
  (forall r b, r < P -> In b [bi; bo; bw] -> words X Y 1 P r <= bsz0 r b) ->
  (forall r, r < P -> cols2 X Y P G r (mem0 r bi)) ->
  always_ends C P (initial c mem0 bsz0 (fun r => Backward c sign (bi =? bo) bw r bi (Some bo) (Halt C)))
    (fun gf => forall r, r < P -> rows2 X Y P (fourier2 (- sign) X Y G) r (mem C (snd (gf r)) bo) /\
       forall b o, b <> bi -> b <> bo -> b <> bw -> mem C (snd (gf r)) b o = mem0 r b o).
Proof. exact backward2. Qed.
Print Assumptions C54_backward2.
(** Forward(b1,b2); Backward(b2,b3); Normalize(b3) restores the data, in place or not *)
Theorem C54_roundtrip2 : forall X Y P a al, 0 < X -> 0 < Y -> 0 < P -> 0 < a ->
  let c := mkCfg X Y 1 1 P a al in
  forall sign b1 b2 b3 bw inplace G mem0 bsz0, (sign = 1 \/ sign = -1)%Z ->
  ~ In bw [b1; b2; b3] -> inplace = (b1 =? b2) -> inplace = (b2 =? b3) ->
  (forall r b, r < P -> In b [bw; b1; b2; b3] -> words X Y 1 P r <= bsz0 r b) ->
  (forall r, r < P -> rows2 X Y P G r (mem0 r b1)) ->
  always_ends C P (initial c mem0 bsz0 (fun r =>
       Forward c sign inplace bw r b1 (Some b2) (Backward c sign inplace bw r b2 (Some b3)
         (normalize (X * Y) (ldim X P r * Y) b3 (Halt C)))))
    (fun gf => forall r, r < P -> rows2 X Y P G r (mem C (snd (gf r)) b3)).
Proof. exact roundtrip2. Qed.
Print Assumptions C54_roundtrip2.
(** any history of calls on any arrays *)
Theorem C54_history2 : forall X Y P a al, 0 < X -> 0 < Y -> 0 < P -> 0 < a ->
  let c := mkCfg X Y 1 1 P a al in
  forall sign inplace bs bw kn l mem0 bsz0, ~ In bw bs ->
  (forall r b, r < P -> In b (bw :: bs) -> words X Y 1 P r <= bsz0 r b) ->
  (forall r b, r < P -> In b bs -> held X Y 1 P (kn b) r (mem0 r b)) ->
  tlegal (four2 X Y) sign inplace bs l kn ->
  always_ends C P (initial c mem0 bsz0 (fun r => calls2 c sign inplace bw r l (Halt C)))
    (fun gf => forall r, r < P ->
       (forall b, In b bs -> held X Y 1 P (teffects (four2 X Y) sign l kn b) r (mem C (snd (gf r)) b)) /\
       (forall b o, ~ In b (bw :: bs) -> mem C (snd (gf r)) b o = mem0 r b o)).
Proof. exact history2. Qed.
Print Assumptions C54_history2.

(** fft3dMPI, slabs *)
Theorem C54_forward3 : forall X Y Z P a al, 0 < X -> 0 < Y -> 0 < Z -> 0 < P -> 0 < a ->
  let c := mkCfg X Y Z 1 P a al in
  forall sign bi bo bw G mem0 bsz0, bi <> bw -> bo <> bw ->
  (forall r b, r < P -> In b [bi; bo; bw] -> words X Y Z P r <= bsz0 r b) ->
  (forall r, r < P -> rows3 X Y Z P G r (mem0 r bi)) ->
  always_ends C P (initial c mem0 bsz0 (fun r => Forward3 c sign (bi =? bo) bw r bi (Some bo) (Halt C)))
    (fun gf => forall r, r < P -> cols3 X Y Z P (fourier3 sign X Y Z G) r (mem C (snd (gf r)) bo) /\
       (bi <> bo -> rows3 X Y Z P G r (mem C (snd (gf r)) bi)) /\
       forall b o, b <> bi -> b <> bo -> b <> bw -> mem C (snd (gf r)) b o = mem0 r b o).
Proof. exact forward3. Qed.
Print Assumptions C54_forward3.
Theorem C54_backward3 : forall X Y Z P a al, 0 < X -> 0 < Y -> 0 < Z -> 0 < P -> 0 < a ->
  let c := mkCfg X Y Z 1 P a al in
  forall sign bi bo bw G mem0 bsz0, bi <> bw -> bo <> bw ->
  (forall r b, r < P -> In b [bi; bo; bw] -> words X Y Z P r <= bsz0 r b) ->
  (forall r, r < P -> cols3 X Y Z P G r (mem0 r bi)) ->
  always_ends C P (initial c mem0 bsz0 (fun r => Backward3 c sign (bi =? bo) bw r bi (Some bo) (Halt C)))
    (fun gf => forall r, r < P -> rows3 X Y Z P (fourier3 (- sign) X Y Z G) r (mem C (snd (gf r)) bo) /\
       forall b o, b <> bi -> b <> bo -> b <> bw -> mem C (snd (gf r)) b o = mem0 r b o).
Proof. exact backward3. Qed.
Print Assumptions C54_backward3.
Theorem C54_roundtrip3 : forall X Y Z P a al, 0 < X -> 0 < Y -> 0 < Z -> 0 < P -> 0 < a ->
  let c := mkCfg X Y Z 1 P a al in
  forall sign b1 b2 b3 bw inplace G mem0 bsz0, (sign = 1 \/ sign = -1)%Z ->
  ~ In bw [b1; b2; b3] -> inplace = (b1 =? b2) -> inplace = (b2 =? b3) ->
  (forall r b, r < P -> In b [bw; b1; b2; b3] -> words X Y Z P r <= bsz0 r b) ->
  (forall r, r < P -> rows3 X Y Z P G r (mem0 r b1)) ->
  always_ends C P (initial c mem0 bsz0 (fun r =>
       Forward3 c sign inplace bw r b1 (Some b2) (Backward3 c sign inplace bw r b2 (Some b3)
         (normalize (X * Y * Z) (ldim X P r * Y * Z) b3 (Halt C)))))
    (fun gf => forall r, r < P -> rows3 X Y Z P G r (mem C (snd (gf r)) b3)).
Proof. exact roundtrip3. Qed.
Print Assumptions C54_roundtrip3.
Theorem C54_history3 : forall X Y Z P a al, 0 < X -> 0 < Y -> 0 < Z -> 0 < P -> 0 < a ->
  let c := mkCfg X Y Z 1 P a al in
  forall sign inplace bs bw kn l mem0 bsz0, ~ In bw bs ->
  (forall r b, r < P -> In b (bw :: bs) -> words X Y Z P r <= bsz0 r b) ->
  (forall r b, r < P -> In b bs -> held X Y Z P (kn b) r (mem0 r b)) ->
  tlegal (fun sg G => fourier3 sg X Y Z G) sign inplace bs l kn ->
  always_ends C P (initial c mem0 bsz0 (fun r => calls3 c sign inplace bw r l (Halt C)))
    (fun gf => forall r, r < P ->
       (forall b, In b bs -> held X Y Z P (teffects (fun sg G => fourier3 sg X Y Z G) sign l kn b) r (mem C (snd (gf r)) b)) /\
       (forall b o, ~ In b (bw :: bs) -> mem C (snd (gf r)) b o = mem0 r b o)).
Proof. exact history3. Qed.
Print Assumptions C54_history3.

(** The documented in-place call fft.Forward(f) (mpifftw++.h:26), whose second argument defaults to
    NULL: for every array, number of processes and input there is an execution that transforms the
    null pointer; fft.Backward(f) likewise *)
Theorem C54_default_output_refuted : forall X Y P a al, 0 < X -> 0 < Y -> 0 < P -> 0 < a ->
  let c := mkCfg X Y 1 1 P a al in
  forall sign b bw G mem0 bsz0, b <> bw ->
  (forall r b', r < P -> In b' [b; bw] -> words X Y 1 P r <= bsz0 r b') ->
  ((forall r, r < P -> rows2 X Y P G r (mem0 r b)) ->
   exists k g1, steps C false P k (initial c mem0 bsz0 (fun r => Forward c sign true bw r b None (Halt C))) g1 /\ bad C P g1) /\
  ((forall r, r < P -> cols2 X Y P G r (mem0 r b)) ->
   exists k g1, steps C false P k (initial c mem0 bsz0 (fun r => Backward c sign true bw r b None (Halt C))) g1 /\ bad C P g1).
Proof. exact null2. Qed.
Print Assumptions C54_default_output_refuted.
Theorem C54_default_output3_refuted : forall X Y Z P a al, 0 < X -> 0 < Y -> 0 < Z -> 0 < P -> 0 < a ->
  let c := mkCfg X Y Z 1 P a al in
  forall sign b bw G mem0 bsz0, b <> bw ->
  (forall r b', r < P -> In b' [b; bw] -> words X Y Z P r <= bsz0 r b') ->
  ((forall r, r < P -> rows3 X Y Z P G r (mem0 r b)) ->
   exists k g1, steps C false P k (initial c mem0 bsz0 (fun r => Forward3 c sign true bw r b None (Halt C))) g1 /\ bad C P g1) /\
  ((forall r, r < P -> cols3 X Y Z P G r (mem0 r b)) ->
   exists k g1, steps C false P k (initial c mem0 bsz0 (fun r => Backward3 c sign true bw r b None (Halt C))) g1 /\ bad C P g1).
Proof. exact null3. Qed.
Print Assumptions C54_default_output3_refuted.

(** the hypotheses hold of a 3 x 2 array of distinct values on 2 processes, in place and out of place *)
Definition exG (i j : nat) : C := RtoC (INR (i * 2 + j)).
Definition exmem (r b o : nat) : C := RtoC (INR (o + 4 * r)).
Example C54_case : forall r, r < 2 -> rows2 3 2 2 exG r (exmem r 0) /\ words 3 2 1 2 r <= 6.
Proof.
  intros r Hr. split.
  - intros i j Hi Hj. unfold exmem, exG, first, blocklen. f_equal. f_equal. change ((3 + 2 - 1) / 2) with 2. lia.
  - destruct r as [|[|r]]; [vm_compute; lia|vm_compute; lia|lia].
Qed.
Example C54_case_run :
  always_ends C 2 (initial (mkCfg 3 2 1 1 2 1 0) exmem (fun _ _ => 6) (fun r => Forward (mkCfg 3 2 1 1 2 1 0) (-1) false 2 r 0 (Some 1) (Halt C)))
    (fun gf => forall r, r < 2 -> cols2 3 2 2 (fourier2 (-1) 3 2 exG) r (mem C (snd (gf r)) 1)).
Proof.
  destruct (C54_forward2 3 2 2 1 0 ltac:(lia) ltac:(lia) ltac:(lia) ltac:(lia) (-1)%Z 0 1 2 exG exmem (fun _ _ => 6)) as (n & gf & D & Q & R); try lia.
  - intros r b Hr _. apply C54_case; auto.
  - intros r Hr. apply C54_case; auto.
  - exists n, gf. split; [exact D|]. split; [|exact R]. intros r Hr. apply Q; auto.
Qed.
Example C54_case_history : tlegal (four2 3 2) (-1) false [0; 1]
  [mkT true 0 1; mkT false 1 0; mkT true 0 1] (fun b => if b =? 0 then Some (true, fun i j _ => exG i j) else None).
Proof. cbn. repeat split; auto; eexists; reflexivity. Qed.
