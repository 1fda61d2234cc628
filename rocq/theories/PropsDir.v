(** The direct convolutions of the test suite compute what they stand for, so that a test compares the result of a
    convolution object with the convolution itself. *)
From Coq Require Import Reals ZArith Arith Lia List Bool.
From Verif Require Import CNum Sums Mem PadModel PadSpec CenModel HerModel HerSpec ConvModel ConvSpec ConvProofs Conv9 HConvModel HConvSpec HConvProofs Team LayerModel LayerSpec LayerProofs
  HLayerModel HLayerSpec WrapModel WrapSpec PropsLayer PropsHLayer PropsWrap DirModel DirSpec Dir1 Dir2 DirProofs DirAgree DirAgree2 Xf.
Import ListNotations.
Notation mem := (Mem.mem C).
Local Open Scope nat_scope.
Local Ltac dcalc := apply C_ext; cbn; try change (Pos.to_nat 1) with 1; try change (Pos.to_nat 2) with 2; cbn; ring.
Definition exd : mem := fun a => Val (RtoC (INR a)).
Definition exv (p : nat) (i : nat) : C := RtoC (INR (p + i)).

(** one dimension: directconv<Complex>::convolve *)
Theorem C59_direct : forall m h f g x y m0, data f m x m0 -> data g m y m0 -> (forall j, j < m -> m0 (h + j) <> Unalloc) ->
  disjoint f m h m -> disjoint g m h m ->
  WP (Par 1 (fun _ => dconv m h f g)) m0 (fun m' => (forall i, i < m -> m' (h + i) = Val (linconv x y i)) /\ only (fun a => h <= a < h + m) m0 m').
Proof. intros m h f g x y m0 Hx Hy Hh S1 S2. exact (dconv_ok m h f g x y m0 Hx Hy Hh S1 S2). Qed.
Print Assumptions C59_direct.
Example C59_direct_case : data 0 3 (exv 0) exd /\ data 3 3 (exv 3) exd /\ disjoint 0 3 6 3 /\ disjoint 3 3 6 3 /\
  WP (Par 1 (fun _ => dconv 3 6 0 3)) exd (fun m' => m' 7 = Val (RtoC 3)).
Proof.
  assert (D0 : data 0 3 (exv 0) exd) by (intros j Hj; reflexivity). assert (D3 : data 3 3 (exv 3) exd) by (intros j Hj; reflexivity).
  assert (S1 : disjoint 0 3 6 3) by (intros a; lia). assert (S2 : disjoint 3 3 6 3) by (intros a; lia).
  split; [exact D0|]. split; [exact D3|]. split; [exact S1|]. split; [exact S2|].
  eapply WP_mono; [|apply (C59_direct 3 6 0 3 (exv 0) (exv 3) exd D0 D3 ltac:(discriminate) S1 S2)].
  intros m' [A _]. specialize (A 1 ltac:(lia)). change (6 + 1) with 7 in A. rewrite A. apply (f_equal Val). unfold linconv, oconv, exv. cbn. dcalc.
Qed.

(** origin at index m/2: directconv<Complex>::convolveC *)
Theorem C59_centered : forall m h f g x y m0, data f m x m0 -> data g m y m0 -> (forall j, j < m -> m0 (h + j) <> Unalloc) ->
  disjoint f m h m -> disjoint g m h m ->
  WP (Par 1 (fun _ => dconvC m h f g)) m0 (fun m' => (forall i, i < m -> m' (h + i) = Val (oconv (m / 2) m x y i)) /\ only (fun a => h <= a < h + m) m0 m').
Proof. intros m h f g x y m0 Hx Hy Hh S1 S2. exact (dconvC_ok m h f g x y m0 Hx Hy Hh S1 S2). Qed.
Print Assumptions C59_centered.
Example C59_centered_case : data 0 3 (exv 0) exd /\ data 3 3 (exv 3) exd /\ disjoint 0 3 6 3 /\ disjoint 3 3 6 3 /\
  WP (Par 1 (fun _ => dconvC 3 6 0 3)) exd (fun m' => m' 7 = Val (RtoC 10)).
Proof.
  assert (D0 : data 0 3 (exv 0) exd) by (intros j Hj; reflexivity). assert (D3 : data 3 3 (exv 3) exd) by (intros j Hj; reflexivity).
  assert (S1 : disjoint 0 3 6 3) by (intros a; lia). assert (S2 : disjoint 3 3 6 3) by (intros a; lia).
  split; [exact D0|]. split; [exact D3|]. split; [exact S1|]. split; [exact S2|].
  eapply WP_mono; [|apply (C59_centered 3 6 0 3 (exv 0) (exv 3) exd D0 D3 ltac:(discriminate) S1 S2)].
  intros m' [A _]. specialize (A 1 ltac:(lia)). change (6 + 1) with 7 in A. rewrite A. apply (f_equal Val). unfold linconv, oconv, exv. cbn. dcalc.
Qed.

Theorem C59_auto : forall m h f x m0, data f m x m0 -> (forall j, j < m -> m0 (h + j) <> Unalloc) -> disjoint f m h m ->
  WP (Par 1 (fun _ => dauto m h f)) m0 (fun m' => (forall i, i < m -> m' (h + i) = Val (linconv x x i)) /\ only (fun a => h <= a < h + m) m0 m').
Proof. exact dauto_ok. Qed.
Print Assumptions C59_auto.
Example C59_auto_case : data 3 3 (exv 3) exd /\ disjoint 3 3 6 3 /\ linconv (exv 3) (exv 3) 1 = RtoC 24.
Proof. split; [intros j Hj; reflexivity|]. split; [intros a; lia|]. unfold linconv, exv. cbn. dcalc. Qed.

(** the m modes of non-negative wave number of two real functions: directconvh::convolve *)
Theorem C59_hermitian1 : forall m h f g x y m0, data f m x m0 -> data g m y m0 -> (forall j, j < m -> m0 (h + j) <> Unalloc) ->
  disjoint f m h m -> disjoint g m h m -> x 0 = RtoC (re (x 0)) -> y 0 = RtoC (re (y 0)) ->
  WP (Par 1 (fun _ => dconvh m h f g)) m0 (fun m' => (forall i, i < m -> m' (h + i) = Val (zconv1 m (her1 m x) (her1 m y) (Z.of_nat i))) /\
    only (fun a => h <= a < h + m) m0 m').
Proof. intros m h f g x y m0 Hx Hy Hh S1 S2. exact (dconvh_ok m h f g x y m0 Hx Hy Hh S1 S2). Qed.
Print Assumptions C59_hermitian1.
Example C59_hermitian1_case : data 0 3 (exv 0) exd /\ data 3 3 (exv 3) exd /\ exv 0 0 = RtoC (re (exv 0 0)) /\ exv 3 0 = RtoC (re (exv 3 0)) /\
  zconv1 3 (her1 3 (exv 0)) (her1 3 (exv 3)) (Z.of_nat 1) = RtoC 16.
Proof.
  split; [intros j Hj; reflexivity|]. split; [intros j Hj; reflexivity|]. split; [reflexivity|]. split; [reflexivity|].
  unfold zconv1, zsum, her1, exv. cbn. dcalc.
Qed.

(** two and three dimensions, rows (planes) S' (S) words apart; 0 stands for no padding *)
Theorem C59_direct2 : forall mx my Sx h f g x y m0, let S := if Sx =? 0 then my else Sx in
  data2 f S mx my x m0 -> data2 g S mx my y m0 -> (forall o, o < mx * my -> m0 (h + o) <> Unalloc) ->
  (forall a, cells2 f S mx my a -> h <= a < h + mx * my -> False) -> (forall a, cells2 g S mx my a -> h <= a < h + mx * my -> False) ->
  WP (Par 1 (fun _ => dconv2 mx my (stride2 my Sx) h f g)) m0 (fun m' =>
    (forall i j, i < mx -> j < my -> m' (h + (i * my + j)) = Val (linconv2 x y i j)) /\ only (fun a => h <= a < h + mx * my) m0 m').
Proof. exact dconv2_ok. Qed.
Print Assumptions C59_direct2.
Definition exv2 (p S : nat) (i j : nat) : C := RtoC (INR (p + (S * i + j))).
Example C59_direct2_case : data2 0 3 2 2 (exv2 0 3) exd /\ data2 6 3 2 2 (exv2 6 3) exd /\ stride2 2 3 = 3 /\
  (forall a, cells2 6 3 2 2 a -> 12 <= a < 12 + 2 * 2 -> False) /\ linconv2 (exv2 0 3) (exv2 6 3) 1 1 = RtoC 54.
Proof.
  split; [intros i j Hi Hj; reflexivity|]. split; [intros i j Hi Hj; reflexivity|]. split; [reflexivity|]. split.
  - intros a (i & j & Hi & Hj & ->). lia.
  - unfold linconv2, exv2. cbn. dcalc.
Qed.
Theorem C59_direct3 : forall mx my mz Sx Sy h f g x y m0, let S' := if Sy =? 0 then mz else Sy in let S := if Sx =? 0 then my * S' else Sx in
  data3 f S S' mx my mz x m0 -> data3 g S S' mx my mz y m0 -> (forall o, o < mx * my * mz -> m0 (h + o) <> Unalloc) ->
  (forall a, cells3 f S S' mx my mz a -> h <= a < h + mx * my * mz -> False) -> (forall a, cells3 g S S' mx my mz a -> h <= a < h + mx * my * mz -> False) ->
  WP (Par 1 (fun _ => dconv3 mx my mz (stride3x my mz Sx Sy) (stride3y mz Sy) h f g)) m0 (fun m' =>
    (forall i j l, i < mx -> j < my -> l < mz -> m' (h + (i * (my * mz) + j * mz + l)) = Val (linconv3 x y i j l)) /\
    only (fun a => h <= a < h + mx * my * mz) m0 m').
Proof. exact dconv3_ok. Qed.
Print Assumptions C59_direct3.
Definition exv3 (p S S' : nat) (i j l : nat) : C := RtoC (INR (p + (S * i + S' * j + l))).
Example C59_direct3_case : data3 0 5 2 2 2 1 (exv3 0 5 2) exd /\ data3 10 5 2 2 2 1 (exv3 10 5 2) exd /\ stride3y 1 2 = 2 /\ stride3x 2 1 5 2 = 5 /\
  (forall a, cells3 10 5 2 2 2 1 a -> 20 <= a < 20 + 2 * 2 * 1 -> False) /\ linconv3 (exv3 0 5 2) (exv3 10 5 2) 1 1 0 = RtoC 160.
Proof.
  split; [intros i j l Hi Hj Hl; reflexivity|]. split; [intros i j l Hi Hj Hl; reflexivity|]. split; [reflexivity|]. split; [reflexivity|]. split.
  - intros a (i & j & l & Hi & Hj & Hl & ->). lia.
  - unfold linconv3, exv3. cbn. dcalc.
Qed.

(** Hermitian data in two dimensions: directconvh2::convolve, which first symmetrizes the data (dense arrays) ... *)
Theorem C59_hermitian2 : forall L H h f g x y m0, 1 <= L -> 1 <= H -> data2 f H L H x m0 -> data2 g H L H y m0 ->
  (forall o, o < L * H -> m0 (h + o) <> Unalloc) -> disjoint f (L * H) g (L * H) -> disjoint f (L * H) h (L * H) -> disjoint g (L * H) h (L * H) ->
  WP (dconvh2 ((L + 1) / 2) H (Nat.odd L) H true h f g) m0 (fun m' =>
    (forall i j, i < L -> j < H -> m' (h + (i * H + j)) = Val (zconv2 L H (her2 L H x) (her2 L H y) (wave L i) (Z.of_nat j))) /\
    only (fun a => f <= a < f + L * H \/ g <= a < g + L * H \/ h <= a < h + L * H) m0 m').
Proof. exact sym2. Qed.
Print Assumptions C59_hermitian2.
Example C59_hermitian2_case : data2 0 2 3 2 (exv2 0 2) exd /\ data2 6 2 3 2 (exv2 6 2) exd /\ disjoint 0 (3 * 2) 6 (3 * 2) /\ disjoint 6 (3 * 2) 12 (3 * 2) /\
  (3 + 1) / 2 = 2 /\ Nat.odd 3 = true /\ zconv2 3 2 (her2 3 2 (exv2 0 2)) (her2 3 2 (exv2 6 2)) (wave 3 1) (Z.of_nat 1) = RtoC 174.
Proof.
  split; [intros i j Hi Hj; reflexivity|]. split; [intros i j Hi Hj; reflexivity|]. split; [intros a; lia|]. split; [intros a; lia|]. split; [reflexivity|]. split; [reflexivity|].
  unfold zconv2, zsum, her2, exv2, wave. cbn. dcalc.
Qed.
(** ... or is given data of real functions, with any stride *)
Theorem C59_hermitian2_given : forall L H Sx h f g x y m0, 1 <= L -> 1 <= H -> data2 f Sx L H x m0 -> data2 g Sx L H y m0 -> hermitian_data2 L H x -> hermitian_data2 L H y ->
  (forall o, o < L * H -> m0 (h + o) <> Unalloc) ->
  (forall a, cells2 f Sx L H a -> h <= a < h + L * H -> False) -> (forall a, cells2 g Sx L H a -> h <= a < h + L * H -> False) ->
  WP (dconvh2 ((L + 1) / 2) H (Nat.odd L) Sx false h f g) m0 (fun m' =>
    (forall i j, i < L -> j < H -> m' (h + (i * H + j)) = Val (zconv2 L H (her2 L H x) (her2 L H y) (wave L i) (Z.of_nat j))) /\ only (fun a => h <= a < h + L * H) m0 m').
Proof. exact given2. Qed.
Print Assumptions C59_hermitian2_given.
Definition exh (i j : nat) : C := match i, j with 0, 0 => mkC 1 (-1) | 1, 0 => RtoC 2 | 2, 0 => mkC 1 1 | 0, 1 => mkC 0 1 | 1, 1 => mkC 3 1 | _, _ => C0 end.
Definition exhm : mem := fun a => if a <? 9 then Val (exh (a / 3) (a mod 3)) else Val C0.
Example C59_hermitian2_given_case : data2 0 3 3 2 exh exhm /\ hermitian_data2 3 2 exh /\ (forall a, cells2 0 3 3 2 a -> 9 <= a < 9 + 3 * 2 -> False) /\
  zconv2 3 2 (her2 3 2 exh) (her2 3 2 exh) (wave 3 1) (Z.of_nat 1) = mkC 10 6.
Proof.
  split; [|split; [|split]].
  - intros i j Hi Hj. destruct i as [|[|[|i]]]; [| | |lia]; (destruct j as [|[|j]]; [| |lia]); reflexivity.
  - intros i j Hi Hj _. destruct i as [|[|[|i]]]; [| | |lia]; (destruct j as [|[|j]]; [| |lia]); cbv -[Cconj RtoC C0 IZR Ropp]; try reflexivity; apply C_ext; cbn; ring.
  - intros a (i & j & Hi & Hj & ->). lia.
  - unfold zconv2, zsum, her2, exh, wave. cbn. dcalc.
Qed.
(** the same in three dimensions: directconvh3::convolve *)
Theorem C59_hermitian3 : forall L L' H h f g x y m0, 1 <= L -> 1 <= L' -> 1 <= H -> data3 f (L' * H) H L L' H x m0 -> data3 g (L' * H) H L L' H y m0 ->
  (forall o, o < L * L' * H -> m0 (h + o) <> Unalloc) ->
  disjoint f (L * L' * H) g (L * L' * H) -> disjoint f (L * L' * H) h (L * L' * H) -> disjoint g (L * L' * H) h (L * L' * H) ->
  WP (dconvh3 ((L + 1) / 2) ((L' + 1) / 2) H (Nat.odd L) (Nat.odd L') (L' * H) H true h f g) m0 (fun m' =>
    (forall i j l, i < L -> j < L' -> l < H -> m' (h + (i * (L' * H) + j * H + l)) = Val (zconv3 L L' H (her3 L L' H x) (her3 L L' H y) (wave L i) (wave L' j) (Z.of_nat l))) /\
    only (fun a => f <= a < f + L * L' * H \/ g <= a < g + L * L' * H \/ h <= a < h + L * L' * H) m0 m').
Proof. exact sym3. Qed.
Print Assumptions C59_hermitian3.
Example C59_hermitian3_case : data3 0 3 1 2 3 1 (exv3 0 3 1) exd /\ data3 6 3 1 2 3 1 (exv3 6 3 1) exd /\ disjoint 0 (2 * 3 * 1) 6 (2 * 3 * 1) /\ disjoint 6 (2 * 3 * 1) 12 (2 * 3 * 1) /\
  (2 + 1) / 2 = 1 /\ Nat.odd 2 = false /\ zconv3 2 3 1 (her3 2 3 1 (exv3 0 3 1)) (her3 2 3 1 (exv3 6 3 1)) (wave 2 1) (wave 3 1) (Z.of_nat 0) = RtoC 150.
Proof.
  split; [intros i j l Hi Hj Hl; reflexivity|]. split; [intros i j l Hi Hj Hl; reflexivity|]. split; [intros a; lia|]. split; [intros a; lia|]. split; [reflexivity|]. split; [reflexivity|].
  unfold zconv3, zsum, her3, exv3, wave. cbn. dcalc.
Qed.
Theorem C59_hermitian3_given : forall L L' H Sx Sy h f g x y m0, 1 <= L -> 1 <= L' -> 1 <= H -> data3 f Sx Sy L L' H x m0 -> data3 g Sx Sy L L' H y m0 ->
  hermitian_data3 L L' H x -> hermitian_data3 L L' H y -> (forall o, o < L * L' * H -> m0 (h + o) <> Unalloc) ->
  (forall a, cells3 f Sx Sy L L' H a -> h <= a < h + L * L' * H -> False) -> (forall a, cells3 g Sx Sy L L' H a -> h <= a < h + L * L' * H -> False) ->
  WP (dconvh3 ((L + 1) / 2) ((L' + 1) / 2) H (Nat.odd L) (Nat.odd L') Sx Sy false h f g) m0 (fun m' =>
    (forall i j l, i < L -> j < L' -> l < H -> m' (h + (i * (L' * H) + j * H + l)) = Val (zconv3 L L' H (her3 L L' H x) (her3 L L' H y) (wave L i) (wave L' j) (Z.of_nat l))) /\
    only (fun a => h <= a < h + L * L' * H) m0 m').
Proof. exact given3. Qed.
Print Assumptions C59_hermitian3_given.
Example C59_hermitian3_given_case : let x := fun i j l => match i with 1 => match j with 0 => mkC 1 (-1) | 1 => RtoC 2 | _ => mkC 1 1 end | _ => RtoC 5 end in
  hermitian_data3 2 3 1 x /\ zconv3 2 3 1 (her3 2 3 1 x) (her3 2 3 1 x) (wave 2 1) (wave 3 1) (Z.of_nat 0) = RtoC 8.
Proof.
  intros x. split.
  - intros i j l Hi Hj Hl Hw _. destruct l as [|l]; [|lia]. destruct i as [|[|i]]; [unfold wave in Hw; cbn in Hw; lia| |lia]. destruct j as [|[|[|j]]]; [| | |lia];
      unfold x; cbv -[Cconj RtoC C0 IZR Ropp]; try reflexivity; apply C_ext; cbn; ring.
  - unfold zconv3, zsum, her3, x, wave. cbn. dcalc.
Qed.

(** Running the direct convolution and then the convolution object on the same data gives the same numbers: the
    comparison made by the tests succeeds (in exact arithmetic) for all sizes, parameters and data ... *)
Theorem C59_agrees : forall L ch, let t := create_conv1d L ch in wf t ->
  forall F V w f g h, nd_shape f = [L] -> nd_shape g = [L] ->
  forall x m0, buffers t (pair_of f g) F V w m0 -> holds 2 L (pair_of f g) x m0 ->
  (forall j, j < L -> m0 (h + j) <> Unalloc /\ outside t (pair_of f g) F V w (h + j)) ->
  TWP (TSeq (emb (Par 1 (fun _ => dconv L h (nd_base f) (nd_base g)))) (TSeq (emb (cinit_cmd (py_object1 t F V w))) (py_convolve1 [L] t F V w f g))) m0
    (fun m' => forall j, j < L -> exists v, m' (nd_base f + j) = Val v /\ m' (h + j) = Val v).
Proof. exact agree1. Qed.
Print Assumptions C59_agrees.
Example C59_agrees_case : wf w1 /\ buffers w1 (pair_of w1f w1g) (Conv9.lF w1) (Conv9.lV w1) (Conv9.lw w1) (Conv9.lmem w1 w1x) /\
  (forall j, j < 3 -> Conv9.lmem w1 w1x (64 + j) <> Unalloc /\ outside w1 (pair_of w1f w1g) (Conv9.lF w1) (Conv9.lV w1) (Conv9.lw w1) (64 + j)).
Proof.
  split; [apply C55_case1|]. split; [apply C55_case1|]. intros j Hj. split.
  - unfold lmem. destruct (_ <? _); discriminate.
  - unfold outside. change (max (aA w1) (aB w1)) with 2. change (aB w1) with 1. repeat split.
    + intros b Hb. destruct b as [|[|b]]; [| |lia]; right; vm_compute; lia.
    + intros b Hb. destruct b as [|[|b]]; [| |lia]; right; vm_compute; lia.
    + intros b Hb. destruct b as [|b]; [|lia]; right; vm_compute; lia.
    + right. vm_compute. lia.
Qed.
(** ... for complex data in two and three dimensions *)
Theorem C59_agrees2 : forall Lx Ly chx chy, let tx := fst (create_conv2d Lx Ly chx chy) in let ty := snd (create_conv2d Lx Ly chx chy) in
  wf tx -> wf ty -> (Ly = 1 -> gD tx = 1) ->
  forall T sch F V w rooms f g h, nd_shape f = [Lx; Ly] -> nd_shape g = [Lx; Ly] -> (forall r, schedule T (gl tx) (sch r)) ->
  let work := work2 tx ty T F V w rooms in
  separated (data_blocks tx (pair_of f g) 0 ++ work) ->
  forall x m0, provided work m0 -> holds2 2 Lx Ly Ly (pair_of f g) 0 x m0 ->
  (forall o, o < Lx * Ly -> m0 (h + o) <> Unalloc /\ ~ element2 2 Lx Ly Ly (pair_of f g) 0 (h + o) /\ elsewhere work (h + o)) ->
  TWP (TSeq (emb (Par 1 (fun _ => dconv2 Lx Ly (stride2 Ly 0) h (nd_base f) (nd_base g))))
         (TSeq (emb (convolution2_cmd tx ty (fun _ => multBinary) T w rooms)) (py_convolve2 [Lx; Ly] tx ty T sch F V w rooms f g))) m0
    (fun m' => forall i j, i < Lx -> j < Ly -> exists v, m' (nd_base f + Ly * i + j) = Val v /\ m' (h + (i * Ly + j)) = Val v).
Proof. exact agree2d. Qed.
Print Assumptions C59_agrees2.
Example C59_agrees2_case : let tx := fst w2 in let ty := snd w2 in let work := work2 tx ty 2 (ex_F 32) (ex_V 32) (ex_W 32) (ex_room 64) in
  wf tx /\ wf ty /\ separated (data_blocks tx (pair_of w2f w2g) 0 ++ work) /\
  (forall o, o < 2 * 2 -> ex_m (8 + o) <> Unalloc /\ ~ element2 2 2 2 2 (pair_of w2f w2g) 0 (8 + o) /\ elsewhere work (8 + o)).
Proof.
  intros tx ty work. split; [apply C55_case2|]. split; [apply C55_case2|]. split; [apply C55_case2|]. intros o Ho. split; [discriminate|]. split.
  - intros (a & i & j & Ha & Hi & Hj & E). destruct a as [|[|a]]; [| |lia]; cbn in E; lia.
  - intros b n Hi. left. assert (32 <= b); [|lia]. vm_compute in Hi. repeat (destruct Hi as [Hi|Hi]; [injection Hi as <- <-; lia|]); destruct Hi.
Qed.
Theorem C59_agrees3 : forall Lx Ly Lz chx chy chz, let tx := fst (fst (create_conv3d Lx Ly Lz chx chy chz)) in let ty := snd (fst (create_conv3d Lx Ly Lz chx chy chz)) in
  let tz := snd (create_conv3d Lx Ly Lz chx chy chz) in
  wf tx -> wf ty -> wf tz -> (Ly * Lz = 1 -> gD tx = 1) -> (Lz = 1 -> gD ty = 1) ->
  forall T sch F V w rooms schy f g h, nd_shape f = [Lx; Ly; Lz] -> nd_shape g = [Lx; Ly; Lz] -> (forall r, schedule T (gl tx) (sch r)) ->
  (forall th k r, th < T -> schedule (r2T (rooms th)) (gl ty) (schy th k r)) ->
  let work := work3 tx ty tz T F V w rooms in
  separated (data_blocks tx (pair_of f g) 0 ++ work) ->
  forall x m0, provided work m0 -> holds3 2 Lx Ly Lz (Ly * Lz) Lz (pair_of f g) 0 x m0 ->
  (forall o, o < Lx * Ly * Lz -> m0 (h + o) <> Unalloc /\ ~ element3 2 Lx Ly Lz (Ly * Lz) Lz (pair_of f g) 0 (h + o) /\ elsewhere work (h + o)) ->
  TWP (TSeq (emb (Par 1 (fun _ => dconv3 Lx Ly Lz (stride3x Ly Lz 0 0) (stride3y Lz 0) h (nd_base f) (nd_base g))))
         (TSeq (emb (convolution3_cmd tx ty tz (fun _ _ => multBinary) T w rooms)) (py_convolve3 [Lx; Ly; Lz] tx ty tz T sch F V w rooms schy f g))) m0
    (fun m' => forall i j l, i < Lx -> j < Ly -> l < Lz -> exists v, m' (nd_base f + Ly * Lz * i + Lz * j + l) = Val v /\ m' (h + (i * (Ly * Lz) + j * Lz + l)) = Val v).
Proof. exact agree3d. Qed.
Print Assumptions C59_agrees3.
Example C59_agrees3_case : let tx := fst (fst w3) in let ty := snd (fst w3) in let tz := snd w3 in
  let work := work3 tx ty tz 2 (ex_F 32) (ex_V 32) (ex_W 32) ex_room2 in
  wf tx /\ wf ty /\ wf tz /\ separated (data_blocks tx (pair_of w3f w3g) 0 ++ work) /\
  (forall o, o < 2 * 2 * 2 -> ex_m (8 + o) <> Unalloc /\ ~ element3 2 2 2 2 (2 * 2) 2 (pair_of w3f w3g) 0 (8 + o) /\ elsewhere work (8 + o)).
Proof.
  intros tx ty tz work. split; [apply C55_case3|]. split; [apply C55_case3|]. split; [apply C55_case3|]. split; [apply C55_case3|]. intros o Ho. split; [discriminate|]. split.
  - intros (a & i & j & l & Ha & Hi & Hj & Hl & E). destruct a as [|[|a]]; [| |lia]; cbn in E; lia.
  - intros b n Hi. left. assert (32 <= b); [|lia]. vm_compute in Hi. repeat (destruct Hi as [Hi|Hi]; [injection Hi as <- <-; lia|]); destruct Hi.
Qed.
(** ... for the non-negative modes of real functions in one dimension (directconvh takes f[0] and g[0] as they are: they must be real) *)
Theorem C59_agrees_hermitian1 : forall al n ch, let t := create_hconv1d (hlength n) ch in 1 <= al -> 1 <= n -> hwf t -> kq t = 1 \/ kn t mod 2 = 0 ->
  forall F V w f g h x m0, hbuffers al t (pair_of f g) F V w m0 -> holds 2 n (pair_of f g) x m0 -> im (x 0 0) = 0%R -> im (x 1 0) = 0%R ->
  (forall j, j < n -> m0 (h + j) <> Unalloc /\ houtside al t (pair_of f g) F V w (h + j)) ->
  TWP (TSeq (emb (Par 1 (fun _ => dconvh n h (nd_base f) (nd_base g)))) (hpy_convolve1 al t F V w f g)) m0
    (fun m' => forall j, j < n -> exists v, m' (nd_base f + j) = Val v /\ m' (h + j) = Val v).
Proof. exact agree_h1. Qed.
Print Assumptions C59_agrees_hermitian1.
Example C59_agrees_hermitian1_case : let t := create_hconv1d (hlength 3) (mkch 4 2 false) in
  hwf t /\ kn t mod 2 = 0 /\ im (RtoC (INR (0 + 1))) = 0%R /\ (forall j, j < 3 -> houtside 1 t (pair_of wh1f wh1g) hF hV 300 (5 + j)).
Proof.
  intros t. split; [apply C55_hermitian1_case|]. split; [apply C55_hermitian1_case|]. split; [reflexivity|]. intros j Hj. unfold houtside, HerSpec.span_of. repeat split.
  - intros b Hb H. change (hH t) with 3 in H. vm_compute in Hb. destruct b as [|[|b]]; [| |lia]; change (pair_of wh1f wh1g 0) with 0 in H; change (pair_of wh1f wh1g 1) with 10 in H; lia.
  - intros b Hb H. unfold hF in H. lia.
  - intros b Hb H. unfold hV in H. lia.
  - intros H. lia.
Qed.
(** ... also for Hermitian data in two dimensions *)
Theorem C59_agrees_hermitian2 : forall al n Lx chx chy, let ty := snd (create_hconv2d Lx (hlength n) chx chy) in let tx := fst (create_hconv2d Lx (hlength n) chx chy) in
  1 <= al -> 1 <= n -> 1 <= Lx -> wf tx -> hwf ty -> (n = 1 -> gD tx = 1) -> kq ty = 1 \/ kn ty mod 2 = 0 ->
  forall T sch F V w rooms f g h, nd_shape f = [Lx; n] -> nd_shape g = [Lx; n] -> (forall r, schedule T (gl tx) (sch r)) ->
  let work := hwork2 al tx ty T F V w rooms in
  separated (data_blocks tx (pair_of f g) 0 ++ work) ->
  forall x m0, provided work m0 -> holds2 2 Lx n n (pair_of f g) 0 x m0 -> hermitian_data2 Lx n (x 0) -> hermitian_data2 Lx n (x 1) ->
  (forall o, o < Lx * n -> m0 (h + o) <> Unalloc /\ ~ element2 2 Lx n n (pair_of f g) 0 (h + o) /\ elsewhere work (h + o)) ->
  TWP (TSeq (emb (dconvh2 ((Lx + 1) / 2) n (Nat.odd Lx) n false h (nd_base f) (nd_base g)))
         (TSeq (emb (hconvolution2_cmd tx w)) (hpy_convolve2 al tx ty T sch F V w rooms f g))) m0
    (fun m' => forall i j, i < Lx -> j < n -> exists v, m' (nd_base f + n * i + j) = Val v /\ m' (h + (i * n + j)) = Val v).
Proof. exact agree_h2. Qed.
Print Assumptions C59_agrees_hermitian2.
Example C59_agrees_hermitian2_case : let tx := fst wh2 in let ty := snd wh2 in let work := hwork2 1 tx ty 2 exh_F (fun b => 96) 112 (exh_room 128) in
  wf tx /\ hwf ty /\ separated (data_blocks tx (pair_of wh2f wh2g) 0 ++ work) /\
  (forall o, o < 3 * 2 -> ~ element2 2 3 2 2 (pair_of wh2f wh2g) 0 (16 + o) /\ elsewhere work (16 + o)).
Proof.
  intros tx ty work. split; [apply C55_hermitian2_case|]. split; [apply C55_hermitian2_case|]. split; [apply C55_hermitian2_case|]. intros o Ho. split.
  - intros (a & i & j & Ha & Hi & Hj & E). destruct a as [|[|a]]; [| |lia]; cbn in E; lia.
  - intros b n Hi. left. assert (64 <= b); [|lia]. vm_compute in Hi. repeat (destruct Hi as [Hi|Hi]; [injection Hi as <- <-; lia|]); destruct Hi.
Qed.

(** ... and in three *)
Theorem C59_agrees_hermitian3 : forall al n Lx Ly chx chy chz, let o := create_hconv3d Lx Ly (hlength n) chx chy chz in
  let tx := fst (fst o) in let ty := snd (fst o) in let tz := snd o in
  1 <= al -> 1 <= n -> 1 <= Lx -> 1 <= Ly -> wf tx -> wf ty -> hwf tz -> (Ly * n = 1 -> gD tx = 1) -> (n = 1 -> gD ty = 1) -> kq tz = 1 \/ kn tz mod 2 = 0 ->
  forall T sch F V w rooms schy f g h, nd_shape f = [Lx; Ly; n] -> nd_shape g = [Lx; Ly; n] -> (forall r, schedule T (gl tx) (sch r)) ->
  (forall th k r, th < T -> schedule (r2T (rooms th)) (gl ty) (schy th k r)) ->
  let work := hwork3 al tx ty tz T F V w rooms in
  separated (data_blocks tx (pair_of f g) 0 ++ work) ->
  forall x m0, provided work m0 -> holds3 2 Lx Ly n (Ly * n) n (pair_of f g) 0 x m0 -> hermitian_data3 Lx Ly n (x 0) -> hermitian_data3 Lx Ly n (x 1) ->
  (forall o, o < Lx * Ly * n -> m0 (h + o) <> Unalloc /\ ~ element3 2 Lx Ly n (Ly * n) n (pair_of f g) 0 (h + o) /\ elsewhere work (h + o)) ->
  TWP (TSeq (emb (dconvh3 ((Lx + 1) / 2) ((Ly + 1) / 2) n (Nat.odd Lx) (Nat.odd Ly) (Ly * n) n false h (nd_base f) (nd_base g)))
         (TSeq (emb (hconvolution3_cmd tx ty T w rooms)) (hpy_convolve3 al tx ty tz T sch F V w rooms schy f g))) m0
    (fun m' => forall i j l, i < Lx -> j < Ly -> l < n -> exists v, m' (nd_base f + Ly * n * i + n * j + l) = Val v /\ m' (h + (i * (Ly * n) + j * n + l)) = Val v).
Proof. exact agree_h3. Qed.
Print Assumptions C59_agrees_hermitian3.
Example C59_agrees_hermitian3_case : let tx := fst (fst wh3) in let ty := snd (fst wh3) in let tz := snd wh3 in
  let work := hwork3 1 tx ty tz 2 exh_F3 (fun b => 170) 240 exh_room2 in
  wf tx /\ wf ty /\ hwf tz /\ separated (data_blocks tx (pair_of wh3f wh3g) 0 ++ work) /\
  (forall o, o < 2 * 3 * 2 -> ~ element3 2 2 3 2 (3 * 2) 2 (pair_of wh3f wh3g) 0 (40 + o) /\ elsewhere work (40 + o)).
Proof.
  intros tx ty tz work. split; [apply C55_hermitian3_case|]. split; [apply C55_hermitian3_case|]. split; [apply C55_hermitian3_case|]. split; [apply C55_hermitian3_case|]. intros o Ho. split.
  - intros (a & i & j & l & Ha & Hi & Hj & Hl & E). destruct a as [|[|a]]; [| |lia]; cbn in E; lia.
  - intros b n Hi. left. assert (52 <= b); [|lia]. vm_compute in Hi. repeat (destruct Hi as [Hi|Hi]; [injection Hi as <- <-; lia|]); destruct Hi.
Qed.

(** directconvh2 with padded rows symmetrizes as if they were dense: the result is wrong unless the data are already
    those of a real function (the tests pass symmetrize=false). *)
Theorem C59_stride_refuted : data2 0 2 3 1 bad_x bad_mem /\ data2 6 2 3 1 bad_x bad_mem /\
  WP (dconvh2 ((3 + 1) / 2) 1 (Nat.odd 3) 2 true 12 0 6) bad_mem (fun m' => m' (12 + (1 * 1 + 0)) = Val C0) /\
  zconv2 3 1 (her2 3 1 bad_x) (her2 3 1 bad_x) (wave 3 1) (Z.of_nat 0) = RtoC 2.
Proof. exact (conj (bad_data 0 (or_introl eq_refl)) (conj (bad_data 6 (or_intror eq_refl)) (conj bad_run bad_value))). Qed.
Print Assumptions C59_stride_refuted.
