(** Property theorems C18, C45, C47: two- and three-dimensional convolutions (classes Convolution2, Convolution3).
    tx, ty, tz range over every fftPad and fftPadCentered object that a constructor accepts ([wf]), in any mix; T threads; sch r th is the
    list of rows that thread th processes in parallel loop r: any distribution of the rows over the
    threads, in any order ([schedule]).
    [TWP c m Q]: every interleaving of the threads of c from m terminates without undefined
    behaviour, data race or error exit, and all end in one memory, satisfying Q (Team.v).
    The multiplication routine is called with index[0]=kx (2D), index[1]=kx, index[0]=ky (3D). *)
From Coq Require Import Reals ZArith Arith Lia List Bool Permutation.
From Verif Require Import CNum Sums Mem PadModel PadKernels ConvModel PadSpec ConvSpec Team Loops Conv1 Conv7 LayerModel LayerSpec LayerProofs Xf.
Import ListNotations.

(** C45, 2D: A inputs, B outputs, any pointwise operation Phi: the inverse 2D transform of Phi of the
    2D transforms of the zero-padded inputs, divided by Mx*My; no word changes that is neither a data
    element nor work memory (with row stride Sx > Ly the gaps between the rows keep their contents).
    Partial: [agree2] asks for B <= A, for A = B+1 if the outer transform runs in two residue loops, for A-B dividing B
    if the inner transform does (C10 refutes the claim without it), and for D = 1 if Sx = 1. *)
Theorem C45_convolution2_partial : forall tx ty, wf tx -> wf ty -> agree2 tx ty ->
  forall mult Phi, plain_mult mult -> pointwise (aA tx) (aB tx) mult (fun _ _ => Phi) -> (forall b, of_inputs (aA tx) (Phi b)) ->
  forall T sch F V w rooms f off, (forall r, schedule T (gl tx) (sch r)) ->
  separated (data_blocks tx f off ++ work2 tx ty T F V w rooms) ->
  forall x m0, provided (work2 tx ty T F V w rooms) m0 -> holds2 (aA tx) (aL tx) (aL ty) (gS tx) f off x m0 ->
  TWP (construct_convolve2 tx ty (fun _ => mult) T sch F V w rooms f off) m0 (fun m' =>
    holds2 (aB tx) (aL tx) (aL ty) (gS tx) f off (fun b i j =>
      Cmul (RtoC (/ (INR (gM tx) * INR (gM ty)))) (oidft2 (origin tx) (gM tx) (origin ty) (gM ty) (fun kx ky =>
        Phi b (fun a => odft2 (origin tx) (gM tx) (aL tx) (origin ty) (gM ty) (aL ty) (x a) kx ky)) i j)) m' /\
    (forall ad, ~ element2 (aA tx) (aL tx) (aL ty) (gS tx) f off ad -> elsewhere (work2 tx ty T F V w rooms) ad -> m' ad = m0 ad)).
Proof. exact convolution2_thm. Qed.
Print Assumptions C45_convolution2_partial.

(** C18: fftPad transforms, two inputs, one output, M >= 2L-1 in each dimension and the binary product: the 2D linear convolution. *)
Theorem C18_convolution2_linear : forall sx sy : pad, let tx := FP sx in let ty := FP sy in
  wf tx -> wf ty -> agree2 tx ty -> aA tx = 2 -> aB tx = 1 ->
  2 * aL tx <= aM tx + 1 -> 2 * aL ty <= aM ty + 1 ->
  forall T sch F V w rooms f off, (forall r, schedule T (gl tx) (sch r)) ->
  separated (data_blocks tx f off ++ work2 tx ty T F V w rooms) ->
  forall x m0, provided (work2 tx ty T F V w rooms) m0 -> holds2 2 (aL tx) (aL ty) (gS tx) f off x m0 ->
  TWP (construct_convolve2 tx ty (fun _ => multBinary) T sch F V w rooms f off) m0 (fun m' =>
    (forall i j, i < aL tx -> j < aL ty -> m' (f 0 + off + gS tx * i + j) = Val (linconv2 (x 0) (x 1) i j)) /\
    (forall ad, ~ element2 2 (aL tx) (aL ty) (gS tx) f off ad -> elsewhere (work2 tx ty T F V w rooms) ad -> m' ad = m0 ad)).
Proof. exact linear2_FP. Qed.
Print Assumptions C18_convolution2_linear.

(** ... after any sequence of earlier calls on arbitrary data, and whatever the work memory holds. *)
Theorem C45_history2_partial : forall tx ty, wf tx -> wf ty -> agree2 tx ty ->
  forall mult Phi, plain_mult mult -> pointwise (aA tx) (aB tx) mult (fun _ _ => Phi) -> (forall b, of_inputs (aA tx) (Phi b)) ->
  forall T sch F V w rooms f off, (forall r, schedule T (gl tx) (sch r)) ->
  separated (data_blocks tx f off ++ work2 tx ty T F V w rooms) ->
  forall us u x m0, provided (work2 tx ty T F V w rooms) m0 ->
  (forall s, In s us -> keeps (work2 tx ty T F V w rooms) s /\ exists y, forall m, holds2 (aA tx) (aL tx) (aL ty) (gS tx) f off y (s m)) ->
  keeps (work2 tx ty T F V w rooms) u -> (forall m, holds2 (aA tx) (aL tx) (aL ty) (gS tx) f off x (u m)) ->
  TWP (TSeq (emb (convolution2_cmd tx ty (fun _ => mult) T w rooms))
            (calls (lconvolve (convolution2 tx ty (fun _ => mult) T sch F V w rooms) (arr (aA tx) f) off) (us ++ [u]))) m0 (fun m' =>
    holds2 (aB tx) (aL tx) (aL ty) (gS tx) f off (fun b i j =>
      Cmul (RtoC (/ (INR (gM tx) * INR (gM ty)))) (oidft2 (origin tx) (gM tx) (origin ty) (gM ty) (fun kx ky =>
        Phi b (fun a => odft2 (origin tx) (gM tx) (aL tx) (origin ty) (gM ty) (aL ty) (x a) kx ky)) i j)) m').
Proof. exact history2_free. Qed.
Print Assumptions C45_history2_partial.

(** ... with an operation that depends on the frequency (kx,ky): the routine is given kx=index[0] and can
    compute ky by index(r,i).  Partial: not in overwrite mode and not for D0>1 in the innermost
    transform, where the routine cannot compute the frequency (see C39). *)
Theorem C45_frequencies2_partial : forall tx ty, wf tx -> wf ty -> agree2 tx ty ->
  goverwrite tx = false -> goverwrite ty = false -> gD0 ty = 1 \/ gD ty = 1 ->
  forall mult phi Phi, (forall kx, plain_mult (mult kx)) -> (forall kx, pointwise (aA tx) (aB tx) (mult kx) (phi kx)) ->
  (forall kx ky b, of_inputs (aA tx) (Phi kx ky b)) ->
  (forall kx rs r i b v, kx < gM tx -> loop_trace (gR ty) (increment ty) 0 rs -> In r rs -> i < noutputs ty r ->
     phi kx r i b v = Phi kx (index ty r i) b v) ->
  forall T sch F V w rooms f off, (forall r, schedule T (gl tx) (sch r)) ->
  separated (data_blocks tx f off ++ work2 tx ty T F V w rooms) ->
  forall x m0, provided (work2 tx ty T F V w rooms) m0 -> holds2 (aA tx) (aL tx) (aL ty) (gS tx) f off x m0 ->
  TWP (construct_convolve2 tx ty mult T sch F V w rooms f off) m0 (fun m' =>
    holds2 (aB tx) (aL tx) (aL ty) (gS tx) f off (fun b i j =>
      Cmul (RtoC (/ (INR (gM tx) * INR (gM ty)))) (oidft2 (origin tx) (gM tx) (origin ty) (gM ty) (fun kx ky =>
        Phi kx ky b (fun a => odft2 (origin tx) (gM tx) (aL tx) (origin ty) (gM ty) (aL ty) (x a) kx ky)) i j)) m').
Proof. exact frequency2_thm. Qed.
Print Assumptions C45_frequencies2_partial.

(** ... 3D *)
Theorem C45_convolution3_partial : forall tx ty tz, wf tx -> wf ty -> wf tz -> agree3 tx ty tz ->
  forall mult Phi, plain_mult mult -> pointwise (aA tx) (aB tx) mult (fun _ _ => Phi) -> (forall b, of_inputs (aA tx) (Phi b)) ->
  forall T sch F V w rooms schy f off, (forall r, schedule T (gl tx) (sch r)) ->
  (forall th k r, th < T -> schedule (r2T (rooms th)) (gl ty) (schy th k r)) ->
  separated (data_blocks tx f off ++ work3 tx ty tz T F V w rooms) ->
  forall x m0, provided (work3 tx ty tz T F V w rooms) m0 -> holds3 (aA tx) (aL tx) (aL ty) (aL tz) (gS tx) (gS ty) f off x m0 ->
  TWP (construct_convolve3 tx ty tz (fun _ _ => mult) T sch F V w rooms schy f off) m0 (fun m' =>
    holds3 (aB tx) (aL tx) (aL ty) (aL tz) (gS tx) (gS ty) f off (fun b i j l =>
      Cmul (RtoC (/ (INR (gM tx) * (INR (gM ty) * INR (gM tz))))) (oidft3 (origin tx) (gM tx) (origin ty) (gM ty) (origin tz) (gM tz) (fun kx ky kz =>
        Phi b (fun a => odft3 (origin tx) (gM tx) (aL tx) (origin ty) (gM ty) (aL ty) (origin tz) (gM tz) (aL tz) (x a) kx ky kz)) i j l)) m' /\
    (forall ad, ~ element3 (aA tx) (aL tx) (aL ty) (aL tz) (gS tx) (gS ty) f off ad -> elsewhere (work3 tx ty tz T F V w rooms) ad -> m' ad = m0 ad)).
Proof. exact convolution3_thm. Qed.
Print Assumptions C45_convolution3_partial.

Theorem C18_convolution3_linear : forall sx sy sz : pad, let tx := FP sx in let ty := FP sy in let tz := FP sz in
  wf tx -> wf ty -> wf tz -> agree3 tx ty tz -> aA tx = 2 -> aB tx = 1 ->
  2 * aL tx <= aM tx + 1 -> 2 * aL ty <= aM ty + 1 -> 2 * aL tz <= aM tz + 1 ->
  forall T sch F V w rooms schy f off, (forall r, schedule T (gl tx) (sch r)) ->
  (forall th k r, th < T -> schedule (r2T (rooms th)) (gl ty) (schy th k r)) ->
  separated (data_blocks tx f off ++ work3 tx ty tz T F V w rooms) ->
  forall x m0, provided (work3 tx ty tz T F V w rooms) m0 -> holds3 2 (aL tx) (aL ty) (aL tz) (gS tx) (gS ty) f off x m0 ->
  TWP (construct_convolve3 tx ty tz (fun _ _ => multBinary) T sch F V w rooms schy f off) m0 (fun m' =>
    (forall i j l, i < aL tx -> j < aL ty -> l < aL tz -> m' (f 0 + off + gS tx * i + gS ty * j + l) = Val (linconv3 (x 0) (x 1) i j l)) /\
    (forall ad, ~ element3 2 (aL tx) (aL ty) (aL tz) (gS tx) (gS ty) f off ad -> elsewhere (work3 tx ty tz T F V w rooms) ad -> m' ad = m0 ad)).
Proof. exact linear3_FP. Qed.
Print Assumptions C18_convolution3_linear.

Theorem C45_history3_partial : forall tx ty tz, wf tx -> wf ty -> wf tz -> agree3 tx ty tz ->
  forall mult Phi, plain_mult mult -> pointwise (aA tx) (aB tx) mult (fun _ _ => Phi) -> (forall b, of_inputs (aA tx) (Phi b)) ->
  forall T sch F V w rooms schy f off, (forall r, schedule T (gl tx) (sch r)) ->
  (forall th k r, th < T -> schedule (r2T (rooms th)) (gl ty) (schy th k r)) ->
  separated (data_blocks tx f off ++ work3 tx ty tz T F V w rooms) ->
  forall us u x m0, provided (work3 tx ty tz T F V w rooms) m0 ->
  (forall s, In s us -> keeps (work3 tx ty tz T F V w rooms) s /\ exists y, forall m, holds3 (aA tx) (aL tx) (aL ty) (aL tz) (gS tx) (gS ty) f off y (s m)) ->
  keeps (work3 tx ty tz T F V w rooms) u -> (forall m, holds3 (aA tx) (aL tx) (aL ty) (aL tz) (gS tx) (gS ty) f off x (u m)) ->
  TWP (TSeq (emb (convolution3_cmd tx ty tz (fun _ _ => mult) T w rooms))
            (calls (lconvolve (convolution3 tx ty tz (fun _ _ => mult) T sch F V w rooms schy) (arr (aA tx) f) off) (us ++ [u]))) m0 (fun m' =>
    holds3 (aB tx) (aL tx) (aL ty) (aL tz) (gS tx) (gS ty) f off (fun b i j l =>
      Cmul (RtoC (/ (INR (gM tx) * (INR (gM ty) * INR (gM tz))))) (oidft3 (origin tx) (gM tx) (origin ty) (gM ty) (origin tz) (gM tz) (fun kx ky kz =>
        Phi b (fun a => odft3 (origin tx) (gM tx) (aL tx) (origin ty) (gM ty) (aL ty) (origin tz) (gM tz) (aL tz) (x a) kx ky kz)) i j l)) m').
Proof. exact history3_free. Qed.
Print Assumptions C45_history3_partial.

Theorem C45_frequencies3_partial : forall tx ty tz, wf tx -> wf ty -> wf tz -> agree3 tx ty tz ->
  goverwrite tx = false -> goverwrite ty = false -> goverwrite tz = false -> gD0 tz = 1 \/ gD tz = 1 ->
  forall mult phi Phi, (forall kx ky, plain_mult (mult kx ky)) -> (forall kx ky, pointwise (aA tx) (aB tx) (mult kx ky) (phi kx ky)) ->
  (forall kx ky kz b, of_inputs (aA tx) (Phi kx ky kz b)) ->
  (forall kx ky rs r i b v, kx < gM tx -> ky < gM ty -> loop_trace (gR tz) (increment tz) 0 rs -> In r rs -> i < noutputs tz r ->
     phi kx ky r i b v = Phi kx ky (index tz r i) b v) ->
  forall T sch F V w rooms schy f off, (forall r, schedule T (gl tx) (sch r)) ->
  (forall th k r, th < T -> schedule (r2T (rooms th)) (gl ty) (schy th k r)) ->
  separated (data_blocks tx f off ++ work3 tx ty tz T F V w rooms) ->
  forall x m0, provided (work3 tx ty tz T F V w rooms) m0 -> holds3 (aA tx) (aL tx) (aL ty) (aL tz) (gS tx) (gS ty) f off x m0 ->
  TWP (construct_convolve3 tx ty tz mult T sch F V w rooms schy f off) m0 (fun m' =>
    holds3 (aB tx) (aL tx) (aL ty) (aL tz) (gS tx) (gS ty) f off (fun b i j l =>
      Cmul (RtoC (/ (INR (gM tx) * (INR (gM ty) * INR (gM tz))))) (oidft3 (origin tx) (gM tx) (origin ty) (gM ty) (origin tz) (gM tz) (fun kx ky kz =>
        Phi kx ky kz b (fun a => odft3 (origin tx) (gM tx) (aL tx) (origin ty) (gM ty) (aL ty) (origin tz) (gM tz) (aL tz) (x a) kx ky kz)) i j l)) m').
Proof. exact frequency3_thm. Qed.
Print Assumptions C45_frequencies3_partial.

(** C47: with centered transforms in some or all of the dimensions (origin L/2 there, 0 elsewhere): the
    linear convolution about that origin. *)
Theorem C47_centered_convolution2 : forall tx ty, wf tx -> wf ty -> agree2 tx ty -> aA tx = 2 -> aB tx = 1 ->
  enough (origin tx) (aL tx) (aM tx) -> enough (origin ty) (aL ty) (aM ty) ->
  forall T sch F V w rooms f off, (forall r, schedule T (gl tx) (sch r)) ->
  separated (data_blocks tx f off ++ work2 tx ty T F V w rooms) ->
  forall x m0, provided (work2 tx ty T F V w rooms) m0 -> holds2 2 (aL tx) (aL ty) (gS tx) f off x m0 ->
  TWP (construct_convolve2 tx ty (fun _ => multBinary) T sch F V w rooms f off) m0 (fun m' =>
    (forall i j, i < aL tx -> j < aL ty ->
       m' (f 0 + off + gS tx * i + j) = Val (oconv2 (origin tx) (aL tx) (origin ty) (aL ty) (x 0) (x 1) i j)) /\
    (forall ad, ~ element2 2 (aL tx) (aL ty) (gS tx) f off ad -> elsewhere (work2 tx ty T F V w rooms) ad -> m' ad = m0 ad)).
Proof. exact linear2_thm. Qed.
Print Assumptions C47_centered_convolution2.
Theorem C47_centered_convolution3 : forall tx ty tz, wf tx -> wf ty -> wf tz -> agree3 tx ty tz -> aA tx = 2 -> aB tx = 1 ->
  enough (origin tx) (aL tx) (aM tx) -> enough (origin ty) (aL ty) (aM ty) -> enough (origin tz) (aL tz) (aM tz) ->
  forall T sch F V w rooms schy f off, (forall r, schedule T (gl tx) (sch r)) ->
  (forall th k r, th < T -> schedule (r2T (rooms th)) (gl ty) (schy th k r)) ->
  separated (data_blocks tx f off ++ work3 tx ty tz T F V w rooms) ->
  forall x m0, provided (work3 tx ty tz T F V w rooms) m0 -> holds3 2 (aL tx) (aL ty) (aL tz) (gS tx) (gS ty) f off x m0 ->
  TWP (construct_convolve3 tx ty tz (fun _ _ => multBinary) T sch F V w rooms schy f off) m0 (fun m' =>
    (forall i j l, i < aL tx -> j < aL ty -> l < aL tz -> m' (f 0 + off + gS tx * i + gS ty * j + l) =
       Val (oconv3 (origin tx) (aL tx) (origin ty) (aL ty) (origin tz) (aL tz) (x 0) (x 1) i j l)) /\
    (forall ad, ~ element3 2 (aL tx) (aL ty) (aL tz) (gS tx) (gS ty) f off ad -> elsewhere (work3 tx ty tz T F V w rooms) ad -> m' ad = m0 ad)).
Proof. exact linear3_thm. Qed.
Print Assumptions C47_centered_convolution3.

(** ... strides that do not fit end the program in the constructor (convolve.h:1572-1582) *)
Theorem C18_strides3 : forall tx ty tz, wf ty -> wf tz -> agree2 ty tz ->
  ~ (aL ty * gS ty <= gS tx /\ gC tx = if gS ty =? gC ty then aL ty * gS ty else gC ty) ->
  forall mult, forall T F V w rooms, 
  separated (work3 tx ty tz T F V w rooms) ->
  forall m0, provided (work3 tx ty tz T F V w rooms) m0 ->
  exec (convolution3_cmd tx ty tz mult T w rooms) m0 ExitErr /\
  forall o, exec (convolution3_cmd tx ty tz mult T w rooms) m0 o -> o = ExitErr.
Proof. exact exit3_thm. Qed.
Print Assumptions C18_strides3.

(** *** a concrete case: 2 x 2 (x 2) data padded to 4 x 4 (x 4), two threads, two residue loops *)
Definition ex_px := mkpad 2 4 2 2 2 1 false 2 1 false.
Definition ex_py := mkpad 2 4 1 1 2 1 false 2 1 false.
Definition ex_p3 := mkpad 2 4 4 4 2 1 false 2 1 false.
Definition ex_tx : xf := FP ex_px.
Definition ex_ty : xf := FP ex_py.
Definition ex_t3 : xf := FP ex_p3.
Definition ex_f (a : nat) : addr := 16 * a.
Definition ex_F (base a : nat) : addr := base + 8 * a.
Definition ex_V (base b : nat) : addr := base + 16 + 8 * b.
Definition ex_W (base : nat) : addr := base + 24.
Definition ex_room (base th : nat) : room :=
  mkroom (ex_F (base + 32 * th)) (ex_V (base + 32 * th)) (ex_W (base + 32 * th)).
Definition ex_room2 (th : nat) : room2 :=
  let base := 64 + 96 * th in mkroom2 (ex_F base) (ex_V base) (ex_W base) 2 (ex_room (base + 32)).
Definition ex_sch (r th : nat) : list nat := [th].
Definition ex_m : Mem.mem C := fun ad => Val (RtoC (INR ad)).
Definition sepb (l : list block) : bool :=
  (fix go l := match l with
   | [] => true
   | x :: l => forallb (fun y => (fst x + snd x <=? fst y) || (fst y + snd y <=? fst x)) l && go l
   end) l.
Lemma sepb_sound l : sepb l = true -> separated l.
Proof.
  induction l as [|x l IH]; intros H; constructor; cbn in H; apply andb_prop in H; destruct H as [H1 H2].
  - apply Forall_forall. intros y Hy. rewrite forallb_forall in H1. specialize (H1 y Hy). apply orb_prop in H1. unfold apart.
    destruct H1 as [H1|H1]; apply Nat.leb_le in H1; lia.
  - apply IH. exact H2.
Qed.
Lemma ex_agree2 : wf ex_tx /\ wf ex_ty /\ agree2 ex_tx ex_ty.
Proof.
  split; [unfold wf, PadModel.wf; vm_compute; repeat split; lia|]. split; [unfold wf, PadModel.wf; vm_compute; repeat split; lia|].
  constructor; try reflexivity; try (vm_compute; lia).
Qed.
Lemma ex_agree3 : wf ex_t3 /\ agree3 ex_t3 ex_tx ex_ty.
Proof.
  split; [unfold wf, PadModel.wf; vm_compute; repeat split; lia|].
  constructor; try reflexivity; try (vm_compute; lia). apply ex_agree2.
Qed.
Lemma ex_schedule : schedule 2 2 (ex_sch 0).
Proof. unfold schedule. cbn. apply Permutation_refl. Qed.

Example C18_case2 : wf ex_tx /\ wf ex_ty /\ agree2 ex_tx ex_ty /\ loop2 ex_tx = true /\ plain_mult multBinary /\
  pointwise 2 1 multBinary (fun _ _ _ v => Cmul (v 0) (v 1)) /\
  separated (data_blocks ex_tx ex_f 3 ++ work2 ex_tx ex_ty 2 (ex_F 64) (ex_V 64) (ex_W 64) (ex_room 96)) /\
  TWP (construct_convolve2 ex_tx ex_ty (fun _ => multBinary) 2 ex_sch (ex_F 64) (ex_V 64) (ex_W 64) (ex_room 96) ex_f 3) ex_m
    (fun m' => m' 6 = Val (RtoC 364)).
Proof.
  pose proof ex_agree2 as (Hx & Hy & Ha). assert (Hs : separated (data_blocks ex_tx ex_f 3 ++ work2 ex_tx ex_ty 2 (ex_F 64) (ex_V 64) (ex_W 64) (ex_room 96))) by (apply sepb_sound; vm_compute; reflexivity).
  split; [exact Hx|]. split; [exact Hy|]. split; [exact Ha|]. split; [reflexivity|]. split; [exact binary_plain|]. split; [apply binary_pw; reflexivity|]. split; [exact Hs|].
  eapply TWP_mono; [|apply (C18_convolution2_linear ex_px ex_py Hx Hy Ha) with (x := fun a i j => RtoC (INR (ex_f a + 3 + gS ex_tx * i + j)))];
    try reflexivity; try (vm_compute; lia); try (intros; exact ex_schedule); try exact Hs; try (intros b n i _ _; discriminate).
  - intros m' [H _]. specialize (H 1 1 ltac:(vm_compute; lia) ltac:(vm_compute; lia)). change (ex_f 0 + 3 + gS ex_px * 1 + 1) with 6 in H.
    rewrite H. apply (f_equal Val). unfold linconv2, ex_f. cbn. apply C_ext; cbn; ring.
  - intros a i j _ _ _. reflexivity.
Qed.

Example C18_case3 : wf ex_t3 /\ agree3 ex_t3 ex_tx ex_ty /\ loop2 ex_t3 = true /\
  separated (data_blocks ex_t3 ex_f 0 ++ work3 ex_t3 ex_tx ex_ty 2 (ex_F 32) (ex_V 32) (ex_W 32) ex_room2) /\
  TWP (construct_convolve3 ex_t3 ex_tx ex_ty (fun _ _ => multBinary) 2 ex_sch (ex_F 32) (ex_V 32) (ex_W 32) ex_room2 (fun _ _ => ex_sch) ex_f 0) ex_m
    (fun m' => m' 7 = Val (RtoC 504)).
Proof.
  pose proof ex_agree2 as (Hx & Hy & _). pose proof ex_agree3 as (H3 & Ha).
  assert (Hs : separated (data_blocks ex_t3 ex_f 0 ++ work3 ex_t3 ex_tx ex_ty 2 (ex_F 32) (ex_V 32) (ex_W 32) ex_room2)) by (apply sepb_sound; vm_compute; reflexivity).
  split; [exact H3|]. split; [exact Ha|]. split; [reflexivity|]. split; [exact Hs|].
  eapply TWP_mono; [|apply (C18_convolution3_linear ex_p3 ex_px ex_py H3 Hx Hy Ha) with (x := fun a i j l => RtoC (INR (ex_f a + 0 + gS ex_t3 * i + gS ex_tx * j + l)))];
    try reflexivity; try (vm_compute; lia); try (intros; exact ex_schedule); try exact Hs; try (intros b n i _ _; discriminate).
  - intros m' [H _]. specialize (H 1 1 1 ltac:(vm_compute; lia) ltac:(vm_compute; lia) ltac:(vm_compute; lia)).
    change (ex_f 0 + 0 + gS ex_p3 * 1 + gS ex_px * 1 + 1) with 7 in H.
    rewrite H. apply (f_equal Val). unfold linconv3, ex_f. cbn. apply C_ext; cbn; ring.
  - intros a i j l _ _ _ _. reflexivity.
Qed.

(** a frequency-dependent operation: output = kx times the product *)
Example C45_case : goverwrite ex_tx = false /\ goverwrite ex_ty = false /\ gD0 ex_ty = 1 /\
  (forall kx ky b : nat, of_inputs 2 (fun v => Cmul (RtoC (INR kx)) (Cmul (v 0) (v 1)))) /\
  (forall kx, pointwise 2 1 (fun F n _ _ => pget F 0 (fun F0 => pget F 1 (fun F1 => ParFor 0 n (fun j =>
      x <- F0 + j ;; y <- F1 + j ;; F0 + j ::= Cmul (RtoC (INR kx)) (Cmul x y) ;; Ret))))
    (fun _ _ _ v => Cmul (RtoC (INR kx)) (Cmul (v 0) (v 1)))).
Proof.
  split; [reflexivity|]. split; [reflexivity|]. split; [reflexivity|]. split.
  { intros kx _ _ v v' E. rewrite !E by lia. reflexivity. }
  intros kx h n r off x m0 Hd Hx Hal. unfold pget. cbn [max arr Nat.ltb Nat.leb].
  assert (Hd1 : apart (h 0) n (h 1) n) by (apply (Hd 0 1); cbn; lia).
  apply WP_map1 with (dst := fun s => h 0 + s) (g := fun s => Cmul (RtoC (INR kx)) (Cmul (x 0 s) (x 1 s))); unfold rng.
  - intros; lia.
  - intros s Hs. cbn [wp]. unfold apart in Hd1. split.
    + right. reflexivity.
    + exists (x 0 s). split; [apply Hx; lia|]. split.
      * left. intros s' Hs' E'. lia.
      * exists (x 1 s). split; [apply Hx; lia|]. split; [reflexivity|]. split; [apply (Hal 0); [cbn; lia|lia]|apply upd_eq].
  - intros m' HV HF Hal'. split; [|split].
    + intros b i Hb Hi. assert (b = 0) as -> by lia. apply HV; lia.
    + intros ad Had. apply HF. intros s Hs E. specialize (Had 0 ltac:(lia)). lia.
    + exact Hal'.
Qed.

Example C18_case_strides : wf ex_tx /\ wf ex_ty /\ agree2 ex_tx ex_ty /\
  ~ (aL ex_tx * gS ex_tx <= gS ex_tx /\ gC ex_tx = if gS ex_tx =? gC ex_tx then aL ex_tx * gS ex_tx else gC ex_tx) /\
  separated (work3 ex_tx ex_tx ex_ty 2 (ex_F 32) (ex_V 32) (ex_W 32) ex_room2).
Proof.
  pose proof ex_agree2 as (Hx & Hy & Ha). split; [exact Hx|]. split; [exact Hy|]. split; [exact Ha|]. split.
  - intros [H _]. vm_compute in H. lia.
  - apply sepb_sound. vm_compute. reflexivity.
Qed.

(** 3 x 3 data centered in both dimensions, padded to 6 x 6, two threads, three residue loops *)
Definition ex_cx : xf := CP (mkpad 3 5 3 3 2 1 false 2 1 false).
Definition ex_cy : xf := CP (mkpad 3 5 1 1 2 1 false 2 1 false).
Definition exc_room (th : nat) : room := mkroom (fun a => 120 + 40 * th + 10 * a) (fun b => 140 + 40 * th) (150 + 40 * th).
Example C47_case2 : wf ex_cx /\ wf ex_cy /\ agree2 ex_cx ex_cy /\ nloops ex_cx = 3 /\
  separated (data_blocks ex_cx ex_f 3 ++ work2 ex_cx ex_cy 2 (fun a => 64 + 10 * a) (fun b => 84) 94 exc_room) /\
  TWP (construct_convolve2 ex_cx ex_cy (fun _ => multBinary) 2 ex_sch (fun a => 64 + 10 * a) (fun b => 84) 94 exc_room ex_f 3) ex_m
    (fun m' => m' 11 = Val (RtoC 890)).
Proof.
  assert (Hx : wf ex_cx) by (repeat split; vm_compute; try reflexivity; lia).
  assert (Hy : wf ex_cy) by (repeat split; vm_compute; try reflexivity; lia).
  assert (Ha : agree2 ex_cx ex_cy) by (constructor; try reflexivity; try (vm_compute; lia); discriminate).
  assert (Hs : separated (data_blocks ex_cx ex_f 3 ++ work2 ex_cx ex_cy 2 (fun a => 64 + 10 * a) (fun b => 84) 94 exc_room)) by (apply sepb_sound; vm_compute; reflexivity).
  split; [exact Hx|]. split; [exact Hy|]. split; [exact Ha|]. split; [reflexivity|]. split; [exact Hs|].
  eapply TWP_mono; [|apply (C47_centered_convolution2 ex_cx ex_cy Hx Hy Ha) with (x := fun a i j => RtoC (INR (ex_f a + 3 + gS ex_cx * i + j)))];
    try reflexivity; try (vm_compute; lia); try (intros; exact ex_schedule); try exact Hs; try (intros b n i _ _; discriminate).
  - intros m' [H _]. specialize (H 2 2 ltac:(vm_compute; lia) ltac:(vm_compute; lia)). change (ex_f 0 + 3 + gS ex_cx * 2 + 2) with 11 in H.
    rewrite H. apply (f_equal Val). unfold oconv2, ex_f. cbn. apply C_ext; cbn; ring.
  - intros a i j _ _ _. reflexivity.
Qed.
