(** The distributed real Fourier transforms rcfft2dMPI (mpi/mpifftw++.h).

    X x Y real array, P processes, Y/2+1 Complex columns; a memory word is one double.  The transposes
    have the blocking parameters a, al of the constructor's search: the theorems hold for every choice.
    [always_ends] (MpiTrSpec.v): all executions, i.e. every interleaving of the processes and any
    buffering of sends, end, without undefined behaviour, in a state as stated.  [junk] is what the
    complex-to-real transform of FFTW leaves in its input: the theorems hold for every junk.
    [rrows], [ccols], [rowdist], [rfourier2], [rinverse2], [symmetric2], [rlegal], [reffects]:
    MpiRFftSpec.v. *)
From Coq Require Import Reals ZArith List Arith Bool Lia.
From Verif Require Import CNum Sums MpiMachine MpiTrModel MpiTrSpec MpiTrTop MpiFftModel MpiFftSpec MpiRFftModel MpiRFftSpec MpiRFftProofs.
Import ListNotations.
Local Open Scope nat_scope.

(** *** C56 *)

(** rcfft2dMPI::Forward(in,out): the real-to-complex transform; the input is kept if out differs *)
Theorem C56_forward2 : forall X Y P a al, 0 < X -> 0 < Y -> 0 < P -> 0 < a ->
  let c := mkCfg X (Y / 2 + 1) 1 2 P a al in
  forall bi bo bw G mem0 bsz0, bi <> bw -> bo <> bw ->
  (forall r b, r < P -> In b [bi; bo; bw] -> doubles X Y P r <= bsz0 r b) ->
  (forall r, r < P -> rrows X Y P (rowdist Y (bi =? bo)) G r (mem0 r bi)) ->
  always_ends R P (initialR c mem0 bsz0 (fun r => ForwardR c Y (bi =? bo) bw r bi (Some bo) (Halt R)))
    (fun gf => forall r, r < P -> ccols X Y P (rfourier2 X Y G) r (mem R (snd (gf r)) bo) /\
       (bi <> bo -> rrows X Y P (rowdist Y (bi =? bo)) G r (mem R (snd (gf r)) bi)) /\
       forall b o, b <> bi -> b <> bo -> b <> bw -> mem R (snd (gf r)) b o = mem0 r b o).
Proof. exact rforward2. Qed.
Print Assumptions C56_forward2.
(** rcfft2dMPI::Backward(in,out) on an array with the symmetry of the transform of a real array *)
Theorem C56_backward2 : forall X Y P a al, 0 < X -> 0 < Y -> 0 < P -> 0 < a ->
  let c := mkCfg X (Y / 2 + 1) 1 2 P a al in
  forall junk bi bo bw H mem0 bsz0, bi <> bw -> bo <> bw ->
  (forall r b, r < P -> In b [bi; bo; bw] -> doubles X Y P r <= bsz0 r b) ->
  (forall r, r < P -> ccols X Y P H r (mem0 r bi)) -> symmetric2 X Y H ->
  always_ends R P (initialR c mem0 bsz0 (fun r => BackwardR c Y (bi =? bo) (junk r) bw r bi (Some bo) (Halt R)))
    (fun gf => forall r, r < P -> rrows X Y P (rowdist Y (bi =? bo)) (rinverse2 X Y H) r (mem R (snd (gf r)) bo) /\
       forall b o, b <> bi -> b <> bo -> b <> bw -> mem R (snd (gf r)) b o = mem0 r b o).
Proof. exact rbackward2. Qed.
Print Assumptions C56_backward2.
(** Forward(b1,b2); Backward(b2,b3); Normalize(b3) restores the data, in place or not, and so do
    Forward0, Backward0, Normalize if X is even *)
Theorem C56_roundtrip2 : forall X Y P a al, 0 < X -> 0 < Y -> 0 < P -> 0 < a ->
  let c := mkCfg X (Y / 2 + 1) 1 2 P a al in
  forall (r0 : bool) junk b1 b2 b3 bw inplace G mem0 bsz0, (r0 = true -> Nat.even X = true) ->
  ~ In bw [b1; b2; b3] -> inplace = (b1 =? b2) -> inplace = (b2 =? b3) ->
  (forall r b, r < P -> In b [bw; b1; b2; b3] -> doubles X Y P r <= bsz0 r b) ->
  (forall r, r < P -> rrows X Y P (rowdist Y inplace) G r (mem0 r b1)) ->
  always_ends R P (initialR c mem0 bsz0 (fun r =>
       (if r0 then Forward0R c Y inplace bw r b1 (Some b2) else ForwardR c Y inplace bw r b1 (Some b2))
      ((if r0 then Backward0R c Y inplace (junk r) bw r b2 (Some b3) else BackwardR c Y inplace (junk r) bw r b2 (Some b3))
       (normalizeR c Y inplace r b3 (Halt R)))))
    (fun gf => forall r, r < P -> rrows X Y P (rowdist Y inplace) G r (mem R (snd (gf r)) b3)).
Proof. exact rroundtrip2. Qed.
Print Assumptions C56_roundtrip2.
(** any history of transforms, normalizations and removals of the Nyquist modes on any arrays *)
Theorem C56_history2 : forall X Y P a al, 0 < X -> 0 < Y -> 0 < P -> 0 < a ->
  let c := mkCfg X (Y / 2 + 1) 1 2 P a al in
  forall inplace junk bs bw kn l mem0 bsz0, ~ In bw bs ->
  (forall r b, r < P -> In b (bw :: bs) -> doubles X Y P r <= bsz0 r b) ->
  (forall r b, r < P -> In b bs -> rheld X Y P inplace (kn b) r (mem0 r b)) ->
  rlegal X Y P inplace bs l kn ->
  always_ends R P (initialR c mem0 bsz0 (fun r => rcalls c Y inplace junk bw r l (Halt R)))
    (fun gf => forall r, r < P ->
       (forall b, In b bs -> rheld X Y P inplace (reffects X Y l kn b) r (mem R (snd (gf r)) b)) /\
       (forall b o, ~ In b (bw :: bs) -> mem R (snd (gf r)) b o = mem0 r b o)).
Proof. exact rhistory2. Qed.
Print Assumptions C56_history2.

(** The in-place call rcfft.Forward(f) whose second argument defaults to NULL: for every array, number of
    processes and input there is an execution that transforms the null pointer *)
Theorem C56_default_output_refuted : forall X Y P a al, 0 < X -> 0 < Y -> 0 < P -> 0 < a ->
  let c := mkCfg X (Y / 2 + 1) 1 2 P a al in
  forall b bw G mem0 bsz0, b <> bw ->
  (forall r b', r < P -> In b' [b; bw] -> doubles X Y P r <= bsz0 r b') ->
  (forall r, r < P -> rrows X Y P (rowdist Y true) G r (mem0 r b)) ->
  exists k g1, steps R false P k (initialR c mem0 bsz0 (fun r => ForwardR c Y true bw r b None (Halt R))) g1 /\ bad R P g1.
Proof. exact rnull2. Qed.
Print Assumptions C56_default_output_refuted.
(** rcfft.Backward0(g) with the default output shifts the null pointer, for every even X *)
Theorem C56_backward0_default_output_refuted : forall X Y P a al, 0 < X -> 0 < Y -> 0 < P -> 0 < a ->
  let c := mkCfg X (Y / 2 + 1) 1 2 P a al in
  forall junk b bw H mem0 bsz0, b <> bw -> Nat.even X = true ->
  (forall r b', r < P -> In b' [b; bw] -> doubles X Y P r <= bsz0 r b') ->
  (forall r, r < P -> ccols X Y P H r (mem0 r b)) -> symmetric2 X Y H ->
  exists k g1, steps R false P k (initialR c mem0 bsz0 (fun r => Backward0R c Y true (junk r) bw r b None (Halt R))) g1 /\ bad R P g1.
Proof. exact rnull2_0. Qed.
Print Assumptions C56_backward0_default_output_refuted.
(** deNyquist writes before the array of a process with an empty share of the columns that starts
    at the end *)
Theorem C56_deNyquist_idle_refuted : forall X Y P a al, 0 < Y ->
  let c := mkCfg X (Y / 2 + 1) 1 2 P a al in
  forall b mem0 bsz0 r, Nat.even Y = true -> r < P ->
  count (Y / 2 + 1) P r = 0 -> first (Y / 2 + 1) P r = Y / 2 + 1 ->
  bad R P (initialR c mem0 bsz0 (fun r => deNyquist c Y r b (Halt R))).
Proof. exact rdeny_bad. Qed.
Print Assumptions C56_deNyquist_idle_refuted.

(** the hypotheses hold of a 4 x 2 array of distinct values on 2 processes, in place and out of place *)
Definition exGr (i j : nat) : R := INR (i * 2 + j).
Definition exrmem (d r b o : nat) : R := INR ((o / d) * 2 + o mod d + 4 * r).
Example C56_case : forall (inplace : bool) r, r < 2 -> rrows 4 2 2 (rowdist 2 inplace) exGr r (exrmem (rowdist 2 inplace) r 0) /\ doubles 4 2 2 r <= 8.
Proof.
  intros inplace r Hr. split.
  - intros i j Hi Hj. unfold exrmem, exGr, first, blocklen. f_equal. change ((4 + 2 - 1) / 2) with 2.
    assert (D : 2 <= rowdist 2 inplace) by (destruct inplace; vm_compute; lia).
    rewrite Nat.div_add_l, Nat.div_small by lia. rewrite (Nat.add_comm (i * _) j), Nat.mod_add, Nat.mod_small by lia. lia.
  - destruct r as [|[|r]]; [vm_compute; lia|vm_compute; lia|lia].
Qed.
Example C56_case_run :
  always_ends R 2 (initialR (mkCfg 4 2 1 2 2 1 0) (exrmem 2) (fun _ _ => 8) (fun r => ForwardR (mkCfg 4 2 1 2 2 1 0) 2 false 2 r 0 (Some 1) (Halt R)))
    (fun gf => forall r, r < 2 -> ccols 4 2 2 (rfourier2 4 2 exGr) r (mem R (snd (gf r)) 1)).
Proof.
  destruct (C56_forward2 4 2 2 1 0 ltac:(lia) ltac:(lia) ltac:(lia) ltac:(lia) 0 1 2 exGr (exrmem 2) (fun _ _ => 8)) as (n & gf & D & Q & R); try lia.
  - intros r b Hr _. exact (proj2 (C56_case false r Hr)).
  - intros r Hr. exact (proj1 (C56_case false r Hr)).
  - exists n, gf. split; [exact D|]. split; [|exact R]. intros r Hr. apply Q; auto.
Qed.
(** the transform of a real array has the symmetry *)
Example C56_case_symmetric : forall X Y G, 0 < X -> 0 < Y -> symmetric2 X Y (rfourier2 X Y G).
Proof. intros X Y G HX HY. apply MpiRFft3.rfourier2_symmetric; auto. Qed.
(** the removal of the Nyquist modes keeps the symmetry, so that Backward0 may follow *)
Example C56_case_denyquist : forall X Y H, 0 < X -> symmetric2 X Y H -> symmetric2 X Y (denyquist X Y H).
Proof.
  intros X Y H HX Sy kx ky Hx Hy. unfold denyquist. rewrite Sy by auto.
  assert (E : ((X - kx) mod X =? 0) = (kx =? 0)).
  { destruct (Nat.eqb_spec kx 0) as [E|E]; [subst kx; rewrite Nat.sub_0_r, Nat.mod_same by lia; reflexivity|].
    rewrite Nat.mod_small by lia. apply Nat.eqb_neq. lia. }
  rewrite E. destruct (_ || _); [|reflexivity]. unfold Cconj, C0, RtoC. cbn [re im]. rewrite Ropp_0. reflexivity.
Qed.
Example C56_case_history : rlegal 4 2 2 false [0; 1]
  [RTrans true false 0 1; RTrans false false 1 0; RNorm 0; RTrans true true 0 1; RDeny 1] (fun b => if b =? 0 then KReal exGr else KNone).
Proof.
  cbn [rlegal In reffect Nat.eqb negb orb andb]. repeat split; auto; try discriminate; try (eexists; reflexivity).
  - apply C56_case_symmetric; lia.
  - intros _ r Hr. destruct r as [|[|r]]; [vm_compute; discriminate|vm_compute; discriminate|lia].
Qed.
(** 6 columns of doubles on 3 processes: 4 Complex columns, two each for the first two processes, and
    an empty share at the end for the third *)
Example C56_case_idle : count (6 / 2 + 1) 3 2 = 0 /\ first (6 / 2 + 1) 3 2 = 6 / 2 + 1.
Proof. split; reflexivity. Qed.
