(** The distributed real Fourier transforms in three dimensions, rcfft3dMPI (mpi/mpifftw++.h,
    mpi/mpifftw++.cc), with the slab decomposition.

    X x Y x Z real array, P processes; process r holds the planes [first X P r, first X P r + count X P r)
    of the input and the columns [first Y P r, ...) of the output; a memory word is one double.  The
    transpose has the blocking parameters a, al of the constructor's search: the theorems hold for every
    choice.  [always_ends] (MpiTrSpec.v): all executions, i.e. every interleaving of the processes and
    any buffering of sends, end, without undefined behaviour, in a state as stated.  [junk] is what the
    complex-to-real transform of FFTW leaves in its input.
    [rslab], [cslab], [rowdist], [rfourier3], [rinverse3], [symmetric3], [rlegal3], [reffects3]:
    MpiR3Spec.v and MpiRFftSpec.v. *)
From Coq Require Import Reals ZArith List Arith Bool Lia.
From Verif Require Import CNum Sums MpiMachine MpiTrModel MpiTrSpec MpiTrTop MpiFftModel MpiFftSpec MpiRFftModel MpiRFftSpec MpiRFftProofs MpiR3Model MpiR3Spec MpiR3Proofs.
Import ListNotations.
Local Open Scope nat_scope.

(** *** C56 *)

(** rcfft3dMPI::Forward(in,out); the input is kept if out differs *)
Theorem C56_forward3 : forall X Y Z P a al, 0 < X -> 0 < Y -> 0 < Z -> 0 < P -> 0 < a ->
  let c := mkCfg X Y (Z / 2 + 1) 2 P a al in
  forall bi bo bw G mem0 bsz0, bi <> bw -> bo <> bw ->
  (forall r b, r < P -> In b [bi; bo; bw] -> doubles3 X Y Z P r <= bsz0 r b) ->
  (forall r, r < P -> rslab X Y Z P (rowdist Z (bi =? bo)) G r (mem0 r bi)) ->
  always_ends R P (initialR c mem0 bsz0 (fun r => Forward3R c Z (bi =? bo) bw r bi (Some bo) (Halt R)))
    (fun gf => forall r, r < P -> cslab X Y Z P (rfourier3 X Y Z G) r (mem R (snd (gf r)) bo) /\
       (bi <> bo -> rslab X Y Z P (rowdist Z (bi =? bo)) G r (mem R (snd (gf r)) bi)) /\
       forall b o, b <> bi -> b <> bo -> b <> bw -> mem R (snd (gf r)) b o = mem0 r b o).
Proof. exact rforward3. Qed.
Print Assumptions C56_forward3.
(** rcfft3dMPI::Backward(in,out) on an array with the symmetry of the transform of a real array *)
Theorem C56_backward3 : forall X Y Z P a al, 0 < X -> 0 < Y -> 0 < Z -> 0 < P -> 0 < a ->
  let c := mkCfg X Y (Z / 2 + 1) 2 P a al in
  forall junk bi bo bw H mem0 bsz0, bi <> bw -> bo <> bw ->
  (forall r b, r < P -> In b [bi; bo; bw] -> doubles3 X Y Z P r <= bsz0 r b) ->
  (forall r, r < P -> cslab X Y Z P H r (mem0 r bi)) -> symmetric3 X Y Z H ->
  always_ends R P (initialR c mem0 bsz0 (fun r => Backward3R c Z (bi =? bo) (junk r) bw r bi (Some bo) (Halt R)))
    (fun gf => forall r, r < P -> rslab X Y Z P (rowdist Z (bi =? bo)) (rinverse3 X Y Z H) r (mem R (snd (gf r)) bo) /\
       forall b o, b <> bi -> b <> bo -> b <> bw -> mem R (snd (gf r)) b o = mem0 r b o).
Proof. exact rbackward3. Qed.
Print Assumptions C56_backward3.
(** Forward(b1,b2); Backward(b2,b3); Normalize(b3) restores the data, in place or not, and so do
    Forward0, Backward0, Normalize if X and Y are even *)
Theorem C56_roundtrip3 : forall X Y Z P a al, 0 < X -> 0 < Y -> 0 < Z -> 0 < P -> 0 < a ->
  let c := mkCfg X Y (Z / 2 + 1) 2 P a al in
  forall (r0 : bool) junk b1 b2 b3 bw inplace G mem0 bsz0, (r0 = true -> Nat.even X = true /\ Nat.even Y = true) ->
  ~ In bw [b1; b2; b3] -> inplace = (b1 =? b2) -> inplace = (b2 =? b3) ->
  (forall r b, r < P -> In b [bw; b1; b2; b3] -> doubles3 X Y Z P r <= bsz0 r b) ->
  (forall r, r < P -> rslab X Y Z P (rowdist Z inplace) G r (mem0 r b1)) ->
  always_ends R P (initialR c mem0 bsz0 (fun r =>
       (if r0 then Forward03R c Z inplace bw r b1 (Some b2) else Forward3R c Z inplace bw r b1 (Some b2))
      ((if r0 then Backward03R c Z inplace (junk r) bw r b2 (Some b3) else Backward3R c Z inplace (junk r) bw r b2 (Some b3))
       (normalize3R c Z inplace r b3 (Halt R)))))
    (fun gf => forall r, r < P -> rslab X Y Z P (rowdist Z inplace) G r (mem R (snd (gf r)) b3)).
Proof. exact rroundtrip3. Qed.
Print Assumptions C56_roundtrip3.
(** any history of transforms, normalizations and removals of the Nyquist modes on any arrays *)
Theorem C56_history3 : forall X Y Z P a al, 0 < X -> 0 < Y -> 0 < Z -> 0 < P -> 0 < a ->
  let c := mkCfg X Y (Z / 2 + 1) 2 P a al in
  forall inplace junk bs bw kn l mem0 bsz0, ~ In bw bs ->
  (forall r b, r < P -> In b (bw :: bs) -> doubles3 X Y Z P r <= bsz0 r b) ->
  (forall r b, r < P -> In b bs -> rheld3 X Y Z P inplace (kn b) r (mem0 r b)) ->
  rlegal3 X Y Z inplace bs l kn ->
  always_ends R P (initialR c mem0 bsz0 (fun r => r3calls c Z inplace junk bw r l (Halt R)))
    (fun gf => forall r, r < P ->
       (forall b, In b bs -> rheld3 X Y Z P inplace (reffects3 X Y Z l kn b) r (mem R (snd (gf r)) b)) /\
       (forall b o, ~ In b (bw :: bs) -> mem R (snd (gf r)) b o = mem0 r b o)).
Proof. exact rhistory3. Qed.
Print Assumptions C56_history3.

(** The in-place call rcfft.Forward(f) whose second argument defaults to NULL: for every array, number of
    processes and input there is an execution that transforms the null pointer *)
Theorem C56_default_output3_refuted : forall X Y Z P a al, 0 < X -> 0 < Y -> 0 < Z -> 0 < P -> 0 < a ->
  let c := mkCfg X Y (Z / 2 + 1) 2 P a al in
  forall b bw G mem0 bsz0, b <> bw ->
  (forall r b', r < P -> In b' [b; bw] -> doubles3 X Y Z P r <= bsz0 r b') ->
  (forall r, r < P -> rslab X Y Z P (rowdist Z true) G r (mem0 r b)) ->
  exists k g1, steps R false P k (initialR c mem0 bsz0 (fun r => Forward3R c Z true bw r b None (Halt R))) g1 /\ bad R P g1.
Proof. exact rnull3. Qed.
Print Assumptions C56_default_output3_refuted.
(** rcfft.Backward0(g) with the default output shifts the null pointer, for all even X and Y *)
Theorem C56_backward0_default_output3_refuted : forall X Y Z P a al, 0 < X -> 0 < Y -> 0 < Z -> 0 < P -> 0 < a ->
  let c := mkCfg X Y (Z / 2 + 1) 2 P a al in
  forall junk b bw H mem0 bsz0, b <> bw -> Nat.even X = true -> Nat.even Y = true ->
  (forall r b', r < P -> In b' [b; bw] -> doubles3 X Y Z P r <= bsz0 r b') ->
  (forall r, r < P -> cslab X Y Z P H r (mem0 r b)) -> symmetric3 X Y Z H ->
  exists k g1, steps R false P k (initialR c mem0 bsz0 (fun r => Backward03R c Z true (junk r) bw r b None (Halt R))) g1 /\ bad R P g1.
Proof. exact rnull3_0. Qed.
Print Assumptions C56_backward0_default_output3_refuted.

(** the hypotheses hold of a 4 x 2 x 3 array of distinct values on 2 processes, in place and out of place *)
Definition exG3r (i j l : nat) : R := INR ((i * 2 + j) * 3 + l).
Definition exr3mem (d r b o : nat) : R := INR ((o / d) * 3 + o mod d + 12 * r).
Example C56_case3 : forall (inplace : bool) r, r < 2 -> rslab 4 2 3 2 (rowdist 3 inplace) exG3r r (exr3mem (rowdist 3 inplace) r 0) /\ doubles3 4 2 3 2 r <= 16.
Proof.
  intros inplace r Hr. split.
  - intros i j l Hi Hj Hl. unfold exr3mem, exG3r, first, blocklen. f_equal. change ((4 + 2 - 1) / 2) with 2.
    assert (D : 3 <= rowdist 3 inplace) by (destruct inplace; vm_compute; lia).
    rewrite Nat.div_add_l, Nat.div_small by lia. rewrite (Nat.add_comm (_ * _) l), Nat.mod_add, Nat.mod_small by lia. lia.
  - destruct r as [|[|r]]; [vm_compute; lia|vm_compute; lia|lia].
Qed.
Example C56_case3_run :
  always_ends R 2 (initialR (mkCfg 4 2 2 2 2 1 0) (exr3mem 3) (fun _ _ => 16) (fun r => Forward3R (mkCfg 4 2 2 2 2 1 0) 3 false 2 r 0 (Some 1) (Halt R)))
    (fun gf => forall r, r < 2 -> cslab 4 2 3 2 (rfourier3 4 2 3 exG3r) r (mem R (snd (gf r)) 1)).
Proof.
  destruct (C56_forward3 4 2 3 2 1 0 ltac:(lia) ltac:(lia) ltac:(lia) ltac:(lia) ltac:(lia) 0 1 2 exG3r (exr3mem 3) (fun _ _ => 16)) as (n & gf & D & Q & R); try lia.
  - intros r b Hr _. exact (proj2 (C56_case3 false r Hr)).
  - intros r Hr. exact (proj1 (C56_case3 false r Hr)).
  - exists n, gf. split; [exact D|]. split; [|exact R]. intros r Hr. apply Q; auto.
Qed.
(** the transform of a real array has the symmetry *)
Example C56_case3_symmetric : forall X Y Z G, 0 < X -> 0 < Y -> 0 < Z -> symmetric3 X Y Z (rfourier3 X Y Z G).
Proof. intros X Y Z G HX HY HZ. apply MpiR3b.rfourier3_symmetric; auto. Qed.
(** the removal of the Nyquist modes keeps the symmetry, so that Backward0 may follow *)
Example C56_case3_denyquist : forall X Y Z H, 0 < X -> 0 < Y -> symmetric3 X Y Z H -> symmetric3 X Y Z (denyquist3 X Y Z H).
Proof.
  intros X Y Z H HX HY Sy kx ky kz Hx Hy Hz. unfold denyquist3. rewrite Sy by auto.
  assert (E : forall n k, 0 < n -> k < n -> ((n - k) mod n =? 0) = (k =? 0)).
  { intros n k Hn Hk. destruct (Nat.eqb_spec k 0) as [E|E]; [subst k; rewrite Nat.sub_0_r, Nat.mod_same by lia; reflexivity|].
    rewrite Nat.mod_small by lia. apply Nat.eqb_neq. lia. }
  rewrite !E by auto. destruct (_ || _); [|reflexivity]. unfold Cconj, C0, RtoC. cbn [re im]. rewrite Ropp_0. reflexivity.
Qed.
Example C56_case3_history : rlegal3 4 2 3 false [0; 1]
  [RTrans true false 0 1; RTrans false false 1 0; RNorm 0; RTrans true true 0 1; RDeny 1] (fun b => if b =? 0 then KReal3 exG3r else KNone3).
Proof.
  cbn [rlegal3 In reffect3 Nat.eqb negb orb andb]. repeat split; auto; try discriminate; try (eexists; reflexivity).
  apply C56_case3_symmetric; lia.
Qed.
