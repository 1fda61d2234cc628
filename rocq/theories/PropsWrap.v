(** Properties of the Python convolution classes Convolution and HConvolution (and of the C and C++ wrappers they
    are built on). *)
From Coq Require Import Reals ZArith Arith Lia List Bool Permutation.
From Verif Require Import CNum Sums Mem PadModel PadSpec CenModel HerModel HerSpec ConvModel ConvSpec ConvProofs Conv9 HConvModel HConvSpec HConvProofs Team LayerModel LayerSpec LayerProofs
  HLayerModel HLayerSpec PropsLayer PropsHLayer WrapModel WrapSpec Wrap3 Wrap4 Wrap5 Xf.
Import ListNotations.

Local Ltac wcalc := apply C_ext; cbn; try change (Pos.to_nat 1) with 1; try change (Pos.to_nat 2) with 2; cbn; ring.
(** C55: Convolution((L,)) followed by any sequence of calls of convolve(f,g), other data being stored in f and g before
    each call: the last call leaves in f the linear convolution of the data it was given.  Any parameters the
    optimizer may choose, any schedule of the loops. *)
Theorem C55_convolution1 : forall L ch, let t := create_conv1d L ch in wf t ->
  forall F V w f g, nd_shape f = [L] -> nd_shape g = [L] ->
  forall x m0, buffers t (pair_of f g) F V w m0 -> holds 2 L (pair_of f g) x m0 ->
  TWP (TSeq (emb (cinit_cmd (py_object1 t F V w))) (py_convolve1 [L] t F V w f g)) m0 (fun m' =>
    (forall j, j < L -> m' (nd_base f + j) = Val (linconv (x 0) (x 1) j)) /\
    (forall a, outside t (pair_of f g) F V w a -> m' a = m0 a)).
Proof. exact py1. Qed.
Print Assumptions C55_convolution1.
Theorem C55_convolution1_history : forall L ch, let t := create_conv1d L ch in wf t ->
  forall F V w f g, nd_shape f = [L] -> nd_shape g = [L] ->
  forall us u x m0, buffers t (pair_of f g) F V w m0 ->
  (forall s, In s us -> exists y, stores t (pair_of f g) F V w s y) -> stores t (pair_of f g) F V w u x ->
  TWP (TSeq (emb (cinit_cmd (py_object1 t F V w))) (calls (py_convolve1 [L] t F V w f g) (us ++ [u]))) m0 (fun m' =>
    forall j, j < L -> m' (nd_base f + j) = Val (linconv (x 0) (x 1) j)).
Proof. exact py1_history. Qed.
Print Assumptions C55_convolution1_history.
Definition w1 : xf := create_conv1d 3 (mkch 2 1 false).
Definition w1f := mknd 0 [3].
Definition w1g := mknd 3 [3].
Definition w1x (a i : nat) : C := RtoC (INR (i + 1 + a)).
Example C55_case1 : wf w1 /\ aM w1 = 5 /\ nloops w1 = 3 /\ buffers w1 (pair_of w1f w1g) (Conv9.lF w1) (Conv9.lV w1) (Conv9.lw w1) (Conv9.lmem w1 w1x) /\
  TWP (TSeq (emb (cinit_cmd (py_object1 w1 (Conv9.lF w1) (Conv9.lV w1) (Conv9.lw w1)))) (py_convolve1 [3] w1 (Conv9.lF w1) (Conv9.lV w1) (Conv9.lw w1) w1f w1g)) (Conv9.lmem w1 w1x)
    (fun m' => m' 2 = Val (RtoC 16)) /\
  exists u, stores w1 (Conv9.lg w1) (Conv9.lF w1) (Conv9.lV w1) (Conv9.lw w1) u w1x.
Proof.
  assert (Hw : wf w1) by (unfold wf, PadModel.wf; vm_compute; repeat split; lia).
  assert (Hb : buffers w1 (pair_of w1f w1g) (Conv9.lF w1) (Conv9.lV w1) (Conv9.lw w1) (Conv9.lmem w1 w1x)).
  { apply (buffers_ext w1 (Conv9.lg w1)); [|apply layout_ok]. intros a Ha. change (a < 2) in Ha. destruct a as [|[|a]]; [reflexivity|reflexivity|lia]. }
  split; [exact Hw|]. split; [reflexivity|]. split; [reflexivity|]. split; [exact Hb|]. split.
  - eapply TWP_mono; [|apply (C55_convolution1 3 (mkch 2 1 false) Hw (Conv9.lF w1) (Conv9.lV w1) (Conv9.lw w1) w1f w1g eq_refl eq_refl w1x _ Hb)].
    + intros m' [A _]. specialize (A 2 ltac:(lia)). change (nd_base w1f + 2) with 2 in A. rewrite A. apply (f_equal Val). unfold linconv, w1x. cbn. apply C_ext; cbn; ring.
    + intros a i Ha Hi. pose proof (layout_holds w1 w1x a i) as E. change (aA w1) with 2 in E. change (gL w1) with 3 in E. rewrite <- (E Ha Hi).
      destruct a as [|[|a]]; [reflexivity|reflexivity|lia].
  - exact (stores_exists w1 Hw eq_refl (Conv9.lg w1) (Conv9.lF w1) (Conv9.lV w1) (Conv9.lw w1) w1x (Conv9.lmem w1 w1x) (layout_ok w1 w1x)).
Qed.

(** The same in two dimensions ... *)
Theorem C55_convolution2 : forall Lx Ly chx chy, let tx := fst (create_conv2d Lx Ly chx chy) in let ty := snd (create_conv2d Lx Ly chx chy) in
  wf tx -> wf ty -> (Ly = 1 -> gD tx = 1) ->
  forall T sch F V w rooms f g, nd_shape f = [Lx; Ly] -> nd_shape g = [Lx; Ly] -> (forall r, schedule T (gl tx) (sch r)) ->
  separated (data_blocks tx (pair_of f g) 0 ++ work2 tx ty T F V w rooms) ->
  forall x m0, provided (work2 tx ty T F V w rooms) m0 -> holds2 2 Lx Ly Ly (pair_of f g) 0 x m0 ->
  TWP (TSeq (emb (convolution2_cmd tx ty (fun _ => multBinary) T w rooms)) (py_convolve2 [Lx; Ly] tx ty T sch F V w rooms f g)) m0 (fun m' =>
    (forall i j, i < Lx -> j < Ly -> m' (nd_base f + Ly * i + j) = Val (linconv2 (x 0) (x 1) i j)) /\
    (forall ad, ~ element2 2 Lx Ly Ly (pair_of f g) 0 ad -> elsewhere (work2 tx ty T F V w rooms) ad -> m' ad = m0 ad)).
Proof. exact py2. Qed.
Print Assumptions C55_convolution2.
Theorem C55_convolution2_history : forall Lx Ly chx chy, let tx := fst (create_conv2d Lx Ly chx chy) in let ty := snd (create_conv2d Lx Ly chx chy) in
  wf tx -> wf ty -> (Ly = 1 -> gD tx = 1) ->
  forall T sch F V w rooms f g, nd_shape f = [Lx; Ly] -> nd_shape g = [Lx; Ly] -> (forall r, schedule T (gl tx) (sch r)) ->
  let work := work2 tx ty T F V w rooms in
  separated (data_blocks tx (pair_of f g) 0 ++ work) ->
  forall us u x m0, provided work m0 ->
  (forall s, In s us -> keeps work s /\ exists y, forall m, holds2 2 Lx Ly Ly (pair_of f g) 0 y (s m)) ->
  keeps work u -> (forall m, holds2 2 Lx Ly Ly (pair_of f g) 0 x (u m)) ->
  TWP (TSeq (emb (convolution2_cmd tx ty (fun _ => multBinary) T w rooms)) (calls (py_convolve2 [Lx; Ly] tx ty T sch F V w rooms f g) (us ++ [u]))) m0 (fun m' =>
    forall i j, i < Lx -> j < Ly -> m' (nd_base f + Ly * i + j) = Val (linconv2 (x 0) (x 1) i j)).
Proof. exact py2_history. Qed.
Print Assumptions C55_convolution2_history.
Definition w2 := create_conv2d 2 2 (mkch 2 1 false) (mkch 2 1 false).
Definition w2f := mknd 0 [2; 2].
Definition w2g := mknd 16 [2; 2].
Definition w2u (k : nat) (m : Mem.mem C) : Mem.mem C := fun ad => if ad <? 20 then Val (RtoC (INR (ad + k))) else m ad.
Example C55_case2 : let tx := fst w2 in let ty := snd w2 in let work := work2 tx ty 2 (ex_F 32) (ex_V 32) (ex_W 32) (ex_room 64) in
  wf tx /\ wf ty /\ nloops tx = 2 /\ aM ty = 3 /\ separated (data_blocks tx (pair_of w2f w2g) 0 ++ work) /\
  TWP (TSeq (emb (convolution2_cmd tx ty (fun _ => multBinary) 2 (ex_W 32) (ex_room 64)))
         (calls (py_convolve2 [2; 2] tx ty 2 ex_sch (ex_F 32) (ex_V 32) (ex_W 32) (ex_room 64) w2f w2g) ([w2u 5; w2u 1] ++ [w2u 0]))) ex_m
    (fun m' => m' 3 = Val (RtoC 100)).
Proof.
  intros tx ty work.
  assert (Hx : wf tx) by (unfold wf, PadModel.wf; vm_compute; repeat split; lia).
  assert (Hy : wf ty) by (unfold wf, PadModel.wf; vm_compute; repeat split; lia).
  assert (Hs : separated (data_blocks tx (pair_of w2f w2g) 0 ++ work)) by (apply sepb_sound; vm_compute; reflexivity).
  assert (Hb : forall b n, In (b, n) work -> 32 <= b).
  { intros b n Hi. vm_compute in Hi. repeat (destruct Hi as [Hi|Hi]; [injection Hi as <- <-; lia|]); destruct Hi. }
  assert (Hk : forall k, keeps work (w2u k)).
  { intros k m. split.
    - intros b n i Hi Hn. specialize (Hb b n Hi). unfold w2u. destruct (Nat.ltb_spec (b + i) 20); [lia|reflexivity].
    - intros a Ha. unfold w2u. destruct (a <? 20); [discriminate|exact Ha]. }
  assert (Hh : forall k m, holds2 2 2 2 2 (pair_of w2f w2g) 0 (fun a i j => RtoC (INR (16 * a + 2 * i + j + k))) (w2u k m)).
  { intros k m a i j H1 H2 H3. unfold w2u, pair_of, w2f, w2g. destruct a as [|[|a]]; [| |lia]; cbn [Nat.eqb nd_base];
      match goal with |- context [?e <? 20] => destruct (Nat.ltb_spec e 20); [|lia] end; do 3 f_equal; lia. }
  split; [exact Hx|]. split; [exact Hy|]. split; [reflexivity|]. split; [reflexivity|]. split; [exact Hs|].
  eapply TWP_mono; [|apply (C55_convolution2_history 2 2 (mkch 2 1 false) (mkch 2 1 false) Hx Hy) with (x := fun a i j => RtoC (INR (16 * a + 2 * i + j + 0)))].
  - intros m' A. specialize (A 1 1 ltac:(lia) ltac:(lia)). change (nd_base w2f + 2 * 1 + 1) with 3 in A. rewrite A. apply (f_equal Val). unfold linconv2. cbn. apply C_ext; cbn; ring.
  - discriminate.
  - reflexivity.
  - reflexivity.
  - intros r. exact ex_schedule.
  - exact Hs.
  - intros b n i _ _. discriminate.
  - intros s [<- | [<- | []]]; (split; [apply Hk|eexists; apply Hh]).
  - apply Hk.
  - apply Hh.
Qed.

(** ... and in three. *)
Theorem C55_convolution3 : forall Lx Ly Lz chx chy chz, let tx := fst (fst (create_conv3d Lx Ly Lz chx chy chz)) in let ty := snd (fst (create_conv3d Lx Ly Lz chx chy chz)) in
  let tz := snd (create_conv3d Lx Ly Lz chx chy chz) in
  wf tx -> wf ty -> wf tz -> (Ly * Lz = 1 -> gD tx = 1) -> (Lz = 1 -> gD ty = 1) ->
  forall T sch F V w rooms schy f g, nd_shape f = [Lx; Ly; Lz] -> nd_shape g = [Lx; Ly; Lz] -> (forall r, schedule T (gl tx) (sch r)) ->
  (forall th k r, th < T -> schedule (r2T (rooms th)) (gl ty) (schy th k r)) ->
  separated (data_blocks tx (pair_of f g) 0 ++ work3 tx ty tz T F V w rooms) ->
  forall x m0, provided (work3 tx ty tz T F V w rooms) m0 -> holds3 2 Lx Ly Lz (Ly * Lz) Lz (pair_of f g) 0 x m0 ->
  TWP (TSeq (emb (convolution3_cmd tx ty tz (fun _ _ => multBinary) T w rooms)) (py_convolve3 [Lx; Ly; Lz] tx ty tz T sch F V w rooms schy f g)) m0 (fun m' =>
    (forall i j l, i < Lx -> j < Ly -> l < Lz -> m' (nd_base f + Ly * Lz * i + Lz * j + l) = Val (linconv3 (x 0) (x 1) i j l)) /\
    (forall ad, ~ element3 2 Lx Ly Lz (Ly * Lz) Lz (pair_of f g) 0 ad -> elsewhere (work3 tx ty tz T F V w rooms) ad -> m' ad = m0 ad)).
Proof. exact py3. Qed.
Print Assumptions C55_convolution3.
Theorem C55_convolution3_history : forall Lx Ly Lz chx chy chz, let tx := fst (fst (create_conv3d Lx Ly Lz chx chy chz)) in let ty := snd (fst (create_conv3d Lx Ly Lz chx chy chz)) in
  let tz := snd (create_conv3d Lx Ly Lz chx chy chz) in
  wf tx -> wf ty -> wf tz -> (Ly * Lz = 1 -> gD tx = 1) -> (Lz = 1 -> gD ty = 1) ->
  forall T sch F V w rooms schy f g, nd_shape f = [Lx; Ly; Lz] -> nd_shape g = [Lx; Ly; Lz] -> (forall r, schedule T (gl tx) (sch r)) ->
  (forall th k r, th < T -> schedule (r2T (rooms th)) (gl ty) (schy th k r)) ->
  let work := work3 tx ty tz T F V w rooms in
  separated (data_blocks tx (pair_of f g) 0 ++ work) ->
  forall us u x m0, provided work m0 ->
  (forall s, In s us -> keeps work s /\ exists y, forall m, holds3 2 Lx Ly Lz (Ly * Lz) Lz (pair_of f g) 0 y (s m)) ->
  keeps work u -> (forall m, holds3 2 Lx Ly Lz (Ly * Lz) Lz (pair_of f g) 0 x (u m)) ->
  TWP (TSeq (emb (convolution3_cmd tx ty tz (fun _ _ => multBinary) T w rooms)) (calls (py_convolve3 [Lx; Ly; Lz] tx ty tz T sch F V w rooms schy f g) (us ++ [u]))) m0 (fun m' =>
    forall i j l, i < Lx -> j < Ly -> l < Lz -> m' (nd_base f + Ly * Lz * i + Lz * j + l) = Val (linconv3 (x 0) (x 1) i j l)).
Proof. exact py3_history. Qed.
Print Assumptions C55_convolution3_history.
Definition w3 := create_conv3d 2 2 2 (mkch 2 1 false) (mkch 2 1 false) (mkch 2 1 false).
Definition w3f := mknd 0 [2; 2; 2].
Definition w3g := mknd 16 [2; 2; 2].
Example C55_case3 : let tx := fst (fst w3) in let ty := snd (fst w3) in let tz := snd w3 in
  let work := work3 tx ty tz 2 (ex_F 32) (ex_V 32) (ex_W 32) ex_room2 in
  wf tx /\ wf ty /\ wf tz /\ nloops tx = 2 /\ separated (data_blocks tx (pair_of w3f w3g) 0 ++ work) /\
  TWP (TSeq (emb (convolution3_cmd tx ty tz (fun _ _ => multBinary) 2 (ex_W 32) ex_room2))
         (py_convolve3 [2; 2; 2] tx ty tz 2 ex_sch (ex_F 32) (ex_V 32) (ex_W 32) ex_room2 (fun _ _ => ex_sch) w3f w3g)) ex_m
    (fun m' => m' 7 = Val (RtoC 504)).
Proof.
  intros tx ty tz work.
  assert (Hx : wf tx) by (unfold wf, PadModel.wf; vm_compute; repeat split; lia).
  assert (Hy : wf ty) by (unfold wf, PadModel.wf; vm_compute; repeat split; lia).
  assert (Hz : wf tz) by (unfold wf, PadModel.wf; vm_compute; repeat split; lia).
  assert (Hs : separated (data_blocks tx (pair_of w3f w3g) 0 ++ work)) by (apply sepb_sound; vm_compute; reflexivity).
  split; [exact Hx|]. split; [exact Hy|]. split; [exact Hz|]. split; [reflexivity|]. split; [exact Hs|].
  eapply TWP_mono; [|apply (C55_convolution3 2 2 2 (mkch 2 1 false) (mkch 2 1 false) (mkch 2 1 false) Hx Hy Hz) with (x := fun a i j l => RtoC (INR (16 * a + 4 * i + 2 * j + l)))].
  - intros m' [A _]. specialize (A 1 1 1 ltac:(lia) ltac:(lia) ltac:(lia)). change (nd_base w3f + 2 * 2 * 1 + 2 * 1 + 1) with 7 in A. rewrite A. apply (f_equal Val). unfold linconv3. cbn. apply C_ext; cbn; ring.
  - discriminate.
  - discriminate.
  - reflexivity.
  - reflexivity.
  - intros r. exact ex_schedule.
  - intros th k r Hth. exact ex_schedule.
  - exact Hs.
  - intros b n i _ _. discriminate.
  - intros a i j l H1 H2 H3 H4. unfold ex_m, pair_of. destruct a as [|[|a]]; [| |lia]; cbn [Nat.eqb nd_base w3f w3g]; do 3 f_equal; lia.
Qed.

(** An array of the wrong shape (or number of dimensions) is never computed on: the call raises an error. *)
Theorem C55_wrong_shape : forall shape f g, nd_shape f <> shape \/ nd_shape g <> shape ->
  (forall t F V w m o, texec (py_convolve1 shape t F V w f g) m o -> o = ExitErr) /\
  (forall tx ty T sch F V w rooms m o, texec (py_convolve2 shape tx ty T sch F V w rooms f g) m o -> o = ExitErr) /\
  (forall tx ty tz T sch F V w rooms schy m o, texec (py_convolve3 shape tx ty tz T sch F V w rooms schy f g) m o -> o = ExitErr).
Proof.
  intros shape f g Hd. split; [|split]; intros; eapply assert_exit; eassumption.
Qed.
Print Assumptions C55_wrong_shape.
Example C55_wrong_shape_case : nd_shape w2f <> [2; 2; 2] /\ nd_shape w2f <> [4].
Proof. split; discriminate. Qed.

(** HConvolution((n,)): f and g hold f_0 .. f_{n-1} of arrays with f_{-j} = conj f_j (the imaginary part of f_0 is
    ignored).  Any sequence of calls of convolve(f,g): the last one leaves in f the entries 0 .. n-1 of the convolution
    of the two Hermitian arrays.  Proved if the number of residues is even or one (see C55_odd_residues_refuted). *)
Theorem C55_hermitian1 : forall al n ch, let t := create_hconv1d (hlength n) ch in 1 <= al -> 1 <= n -> hwf t ->
  kq t = 1 \/ kn t mod 2 = 0 -> forall F V w f g x m0,
  hbuffers al t (pair_of f g) F V w m0 -> holds 2 n (pair_of f g) x m0 ->
  TWP (hpy_convolve1 al t F V w f g) m0 (fun m' =>
    (forall j, j < n -> m' (nd_base f + j) = Val (zconv1 n (her1 n (x 0)) (her1 n (x 1)) (Z.of_nat j))) /\
    (forall a, houtside al t (pair_of f g) F V w a -> m' a = m0 a)).
Proof. intros al n ch t Hal Hn Hw Hev F V w f g x m0. exact (hpy1_once al n ch Hal Hn Hw Hev F V w f g x m0). Qed.
Print Assumptions C55_hermitian1.
Theorem C55_hermitian1_history : forall al n ch, let t := create_hconv1d (hlength n) ch in 1 <= al -> 1 <= n -> hwf t ->
  kq t = 1 \/ kn t mod 2 = 0 -> forall F V w f g us u x m0,
  hbuffers al t (pair_of f g) F V w m0 ->
  (forall s, In s us -> keeps [] s /\ exists y, forall m, holds 2 n (pair_of f g) y (s m)) ->
  keeps [] u -> (forall m, holds 2 n (pair_of f g) x (u m)) ->
  TWP (calls (hpy_convolve1 al t F V w f g) (us ++ [u])) m0 (fun m' =>
    forall j, j < n -> m' (nd_base f + j) = Val (zconv1 n (her1 n (x 0)) (her1 n (x 1)) (Z.of_nat j))).
Proof. intros al n ch t Hal Hn Hw Hev F V w f g us u x m0. exact (hpy1_history al n ch Hal Hn Hw Hev F V w f g us u x m0). Qed.
Print Assumptions C55_hermitian1_history.

(** Refuted without that hypothesis: with an odd number of residues and freshly allocated work memory the first call
    reads indeterminate values, whatever the data. *)
Theorem C55_odd_residues_refuted : forall al n ch, let t := create_hconv1d (hlength n) ch in 1 <= al -> 1 <= n -> hwf t ->
  kq t <> 1 -> kn t mod 2 <> 0 -> forall F V w f g x m0,
  hbuffers al t (pair_of f g) F V w m0 -> holds 2 n (pair_of f g) x m0 -> (forall i, i < houtputSize al t -> m0 (F 0 + i) = Undef) ->
  texec (hpy_convolve1 al t F V w f g) m0 UB.
Proof.
  intros al n ch t Hal Hn Hw Hq Hodd F V w f g x m0 Hb Hx Hf. exact (hpy1_fresh al n ch Hal Hn Hw F V w f g x m0 Hq Hodd Hb Hx Hf).
Qed.
Print Assumptions C55_odd_residues_refuted.
Definition wh1f := mknd 0 [3].
Definition wh1g := mknd 10 [3].
Example C55_hermitian1_case : let t := create_hconv1d (hlength 3) (mkch 4 2 false) in let t' := create_hconv1d (hlength 3) (mkch 3 2 false) in
  hwf t /\ kM t = 8 /\ kn t mod 2 = 0 /\ hwf t' /\ kq t' <> 1 /\ kn t' mod 2 <> 0 /\
  TWP (hpy_convolve1 1 t hF hV 300 wh1f wh1g) hmem (fun m' => m' 1 = Val (RtoC 16)) /\
  texec (hpy_convolve1 1 t' hF hV 300 wh1f wh1g) hmem UB.
Proof.
  intros t t'.
  assert (Hw : hwf t) by (repeat split; vm_compute; try reflexivity; lia).
  assert (Hw' : hwf t') by (repeat split; vm_compute; try reflexivity; lia).
  assert (Hb : forall s, hH s <= 10 -> houtputSize 1 s <= 50 -> hworkSizeV s <= 20 -> PadModel.aA s = 2 -> PadModel.aB s = 1 -> hbuffers 1 s (pair_of wh1f wh1g) hF hV 300 hmem).
  { intros s H1 H2 H3 H4 H5. apply (hbuffers_ext 1 s hg); [|apply hmem_buf; assumption]. rewrite H4, H5. intros a Ha. cbn [Nat.max] in Ha. destruct a as [|[|a]]; [reflexivity|reflexivity|lia]. }
  assert (Hx : holds 2 3 (pair_of wh1f wh1g) (fun _ j => RtoC (INR (j + 1))) hmem).
  { intros a j Ha Hj. rewrite <- (hmem_x a j Ha) by lia. destruct a as [|[|a]]; [reflexivity|reflexivity|lia]. }
  split; [exact Hw|]. split; [reflexivity|]. split; [reflexivity|]. split; [exact Hw'|]. split; [vm_compute; lia|]. split; [vm_compute; lia|]. split.
  - eapply TWP_mono; [|apply (C55_hermitian1 1 3 (mkch 4 2 false) (le_n 1) ltac:(lia) Hw ltac:(right; reflexivity) hF hV 300 wh1f wh1g (fun _ j => RtoC (INR (j + 1))) hmem)].
    + intros m' [A _]. specialize (A 1 ltac:(lia)). change (nd_base wh1f + 1) with 1 in A. rewrite A. apply (f_equal Val). unfold zconv1, zsum, her1. cbn. wcalc.
    + apply Hb; vm_compute; try reflexivity; lia.
    + exact Hx.
  - apply (C55_odd_residues_refuted 1 3 (mkch 3 2 false) (le_n 1) ltac:(lia) Hw' ltac:(vm_compute; lia) ltac:(vm_compute; lia) hF hV 300 wh1f wh1g (fun _ j => RtoC (INR (j + 1))) hmem).
    + apply Hb; vm_compute; try reflexivity; lia.
    + exact Hx.
    + intros i Hi. vm_compute in Hi. unfold hmem, hF. destruct (Nat.ltb_spec (100 + 50 * 0 + i) 20); [lia|reflexivity].
Qed.

(** HConvolution((Lx,n)): f and g hold the rows i = 0 .. Lx-1 (wave numbers i - Lx/2) of the half j = 0 .. n-1 of arrays
    with f(-i,-j) = conj f(i,j).  convolve first enforces the symmetry on the redundant entries (row -i of column 0, the
    imaginary part of the origin; the Nyquist row of an even Lx is set to zero), then convolves. *)
Theorem C55_hermitian2 : forall al n Lx chx chy, let ty := snd (create_hconv2d Lx (hlength n) chx chy) in let tx := fst (create_hconv2d Lx (hlength n) chx chy) in
  1 <= al -> 1 <= n -> wf tx -> hwf ty -> (n = 1 -> gD tx = 1) -> kq ty = 1 \/ kn ty mod 2 = 0 ->
  forall T sch F V w rooms f g, nd_shape f = [Lx; n] -> nd_shape g = [Lx; n] -> (forall r, schedule T (gl tx) (sch r)) ->
  let work := hwork2 al tx ty T F V w rooms in
  separated (data_blocks tx (pair_of f g) 0 ++ work) ->
  forall x m0, provided work m0 -> holds2 2 Lx n n (pair_of f g) 0 x m0 ->
  TWP (TSeq (emb (hconvolution2_cmd tx w)) (hpy_convolve2 al tx ty T sch F V w rooms f g)) m0 (fun m' =>
    (forall i j, i < Lx -> j < n -> m' (nd_base f + n * i + j) =
       Val (zconv2 Lx n (her2 Lx n (x 0)) (her2 Lx n (x 1)) (wave Lx i) (Z.of_nat j))) /\
    (forall ad, ~ element2 2 Lx n n (pair_of f g) 0 ad -> elsewhere work ad -> m' ad = m0 ad)).
Proof.
  intros al n Lx chx chy ty tx Hal Hn Hx Hy HD Hev T sch F V w rooms f g Ef _ Hsch work Hs x m0 Hp Hh.
  exact (hpy2_once al n Lx chx chy Hal Hn Hx Hy HD Hev T sch F V w rooms f g Ef Hsch Hs x m0 Hp Hh).
Qed.
Print Assumptions C55_hermitian2.
Theorem C55_hermitian2_history : forall al n Lx chx chy, let ty := snd (create_hconv2d Lx (hlength n) chx chy) in let tx := fst (create_hconv2d Lx (hlength n) chx chy) in
  1 <= al -> 1 <= n -> wf tx -> hwf ty -> (n = 1 -> gD tx = 1) -> kq ty = 1 \/ kn ty mod 2 = 0 ->
  forall T sch F V w rooms f g, nd_shape f = [Lx; n] -> nd_shape g = [Lx; n] -> (forall r, schedule T (gl tx) (sch r)) ->
  let work := hwork2 al tx ty T F V w rooms in
  separated (data_blocks tx (pair_of f g) 0 ++ work) ->
  forall us u x m0, provided work m0 ->
  (forall s, In s us -> keeps work s /\ exists y, forall m, holds2 2 Lx n n (pair_of f g) 0 y (s m)) ->
  keeps work u -> (forall m, holds2 2 Lx n n (pair_of f g) 0 x (u m)) ->
  TWP (TSeq (emb (hconvolution2_cmd tx w)) (calls (hpy_convolve2 al tx ty T sch F V w rooms f g) (us ++ [u]))) m0 (fun m' =>
    forall i j, i < Lx -> j < n -> m' (nd_base f + n * i + j) =
       Val (zconv2 Lx n (her2 Lx n (x 0)) (her2 Lx n (x 1)) (wave Lx i) (Z.of_nat j))).
Proof.
  intros al n Lx chx chy ty tx Hal Hn Hx Hy HD Hev T sch F V w rooms f g Ef _ Hsch work Hs us u x m0 Hp Hus Hk Hh.
  exact (hpy2_history al n Lx chx chy Hal Hn Hx Hy HD Hev T sch F V w rooms f g Ef Hsch Hs us u x m0 Hp Hus Hk Hh).
Qed.
Print Assumptions C55_hermitian2_history.
Definition wh2 := create_hconv2d 3 (hlength 2) (mkch 2 1 false) (mkch 2 2 false).
Definition wh2f := mknd 0 [3; 2].
Definition wh2g := mknd 6 [3; 2].
Definition wh2x (k a i j : nat) : C := mkC (INR (6 * a + 2 * i + j + k)) (INR (i + j + k)).
Definition wh2u (k : nat) (m : Mem.mem C) : Mem.mem C := fun ad => if ad <? 12 then Val (wh2x k (ad / 6) (ad mod 6 / 2) (ad mod 2)) else m ad.
Definition wh2m : Mem.mem C := wh2u 0 (fun _ => Undef).
Example C55_hermitian2_case : let tx := fst wh2 in let ty := snd wh2 in let work := hwork2 1 tx ty 2 exh_F (fun b => 96) 112 (exh_room 128) in
  wf tx /\ hwf ty /\ kn ty = 2 /\ nloops tx = 2 /\ separated (data_blocks tx (pair_of wh2f wh2g) 0 ++ work) /\
  TWP (TSeq (emb (hconvolution2_cmd tx 112)) (calls (hpy_convolve2 1 tx ty 2 ex_sch exh_F (fun b => 96) 112 (exh_room 128) wh2f wh2g)
       ([wh2u 4; wh2u 2] ++ [wh2u 0]))) wh2m
    (fun m' => m' 2 = Val (RtoC 310)).
Proof.
  intros tx ty work.
  assert (Hx : wf tx) by (repeat split; vm_compute; try reflexivity; lia).
  assert (Hy : hwf ty) by (repeat split; vm_compute; try reflexivity; lia).
  assert (Hs : separated (data_blocks tx (pair_of wh2f wh2g) 0 ++ work)) by (apply sepb_sound; vm_compute; reflexivity).
  assert (Hb : forall b n, In (b, n) work -> 64 <= b).
  { intros b n Hi. vm_compute in Hi. repeat (destruct Hi as [Hi|Hi]; [injection Hi as <- <-; lia|]); destruct Hi. }
  assert (Hk : forall k, keeps work (wh2u k)).
  { intros k m. split.
    - intros b n i Hi Hn. specialize (Hb b n Hi). unfold wh2u. destruct (Nat.ltb_spec (b + i) 12); [lia|reflexivity].
    - intros a Ha. unfold wh2u. destruct (a <? 12); [discriminate|exact Ha]. }
  assert (Hh : forall k m, holds2 2 3 2 2 (pair_of wh2f wh2g) 0 (wh2x k) (wh2u k m)).
  { intros k m a i j H1 H2 H3. destruct a as [|[|a]]; [| |lia]; (destruct i as [|[|[|i]]]; [| | |lia]); (destruct j as [|[|j]]; [| |lia]); reflexivity. }
  split; [exact Hx|]. split; [exact Hy|]. split; [reflexivity|]. split; [reflexivity|]. split; [exact Hs|].
  eapply TWP_mono; [|apply (C55_hermitian2_history 1 2 3 (mkch 2 1 false) (mkch 2 2 false) (le_n 1) ltac:(lia) Hx Hy ltac:(discriminate) ltac:(right; reflexivity) 2 ex_sch exh_F (fun b => 96) 112 (exh_room 128) wh2f wh2g eq_refl eq_refl) with (x := wh2x 0)].
  - intros m' A. specialize (A 1 0 ltac:(lia) ltac:(lia)). change (nd_base wh2f + 2 * 1 + 0) with 2 in A. rewrite A. apply (f_equal Val). unfold zconv2, zsum, her2, wave, wh2x. cbn. wcalc.
  - intros r. exact ex_schedule.
  - exact Hs.
  - intros b n i Hi Hn. specialize (Hb b n Hi). unfold wh2m, wh2u. destruct (Nat.ltb_spec (b + i) 12); [lia|discriminate].
  - intros s [<- | [<- | []]]; (split; [apply Hk|eexists; apply Hh]).
  - apply Hk.
  - apply Hh.
Qed.

(** HConvolution((Lx,Ly,n)). *)
Theorem C55_hermitian3 : forall al n Lx Ly chx chy chz, let o := create_hconv3d Lx Ly (hlength n) chx chy chz in
  let tx := fst (fst o) in let ty := snd (fst o) in let tz := snd o in
  1 <= al -> 1 <= n -> wf tx -> wf ty -> hwf tz -> (Ly * n = 1 -> gD tx = 1) -> (n = 1 -> gD ty = 1) -> kq tz = 1 \/ kn tz mod 2 = 0 ->
  forall T sch F V w rooms schy f g, nd_shape f = [Lx; Ly; n] -> nd_shape g = [Lx; Ly; n] -> (forall r, schedule T (gl tx) (sch r)) ->
  (forall th k r, th < T -> schedule (r2T (rooms th)) (gl ty) (schy th k r)) ->
  let work := hwork3 al tx ty tz T F V w rooms in
  separated (data_blocks tx (pair_of f g) 0 ++ work) ->
  forall x m0, provided work m0 -> holds3 2 Lx Ly n (Ly * n) n (pair_of f g) 0 x m0 ->
  TWP (TSeq (emb (hconvolution3_cmd tx ty T w rooms)) (hpy_convolve3 al tx ty tz T sch F V w rooms schy f g)) m0 (fun m' =>
    (forall i j l, i < Lx -> j < Ly -> l < n -> m' (nd_base f + Ly * n * i + n * j + l) =
       Val (zconv3 Lx Ly n (her3 Lx Ly n (x 0)) (her3 Lx Ly n (x 1)) (wave Lx i) (wave Ly j) (Z.of_nat l))) /\
    (forall ad, ~ element3 2 Lx Ly n (Ly * n) n (pair_of f g) 0 ad -> elsewhere work ad -> m' ad = m0 ad)).
Proof.
  intros al n Lx Ly chx chy chz o tx ty tz Hal Hn Hx Hy Hz HDx HDy Hev T sch F V w rooms schy f g Ef _ Hsch Hschy work Hs x m0 Hp Hh.
  exact (hpy3_once al n Lx Ly chx chy chz Hal Hn Hx Hy Hz HDx HDy Hev T sch F V w rooms schy f g Ef Hsch Hschy Hs x m0 Hp Hh).
Qed.
Print Assumptions C55_hermitian3.
Theorem C55_hermitian3_history : forall al n Lx Ly chx chy chz, let o := create_hconv3d Lx Ly (hlength n) chx chy chz in
  let tx := fst (fst o) in let ty := snd (fst o) in let tz := snd o in
  1 <= al -> 1 <= n -> wf tx -> wf ty -> hwf tz -> (Ly * n = 1 -> gD tx = 1) -> (n = 1 -> gD ty = 1) -> kq tz = 1 \/ kn tz mod 2 = 0 ->
  forall T sch F V w rooms schy f g, nd_shape f = [Lx; Ly; n] -> nd_shape g = [Lx; Ly; n] -> (forall r, schedule T (gl tx) (sch r)) ->
  (forall th k r, th < T -> schedule (r2T (rooms th)) (gl ty) (schy th k r)) ->
  let work := hwork3 al tx ty tz T F V w rooms in
  separated (data_blocks tx (pair_of f g) 0 ++ work) ->
  forall us u x m0, provided work m0 ->
  (forall s, In s us -> keeps work s /\ exists y, forall m, holds3 2 Lx Ly n (Ly * n) n (pair_of f g) 0 y (s m)) ->
  keeps work u -> (forall m, holds3 2 Lx Ly n (Ly * n) n (pair_of f g) 0 x (u m)) ->
  TWP (TSeq (emb (hconvolution3_cmd tx ty T w rooms)) (calls (hpy_convolve3 al tx ty tz T sch F V w rooms schy f g) (us ++ [u]))) m0 (fun m' =>
    forall i j l, i < Lx -> j < Ly -> l < n -> m' (nd_base f + Ly * n * i + n * j + l) =
       Val (zconv3 Lx Ly n (her3 Lx Ly n (x 0)) (her3 Lx Ly n (x 1)) (wave Lx i) (wave Ly j) (Z.of_nat l))).
Proof.
  intros al n Lx Ly chx chy chz o tx ty tz Hal Hn Hx Hy Hz HDx HDy Hev T sch F V w rooms schy f g Ef _ Hsch Hschy work Hs us u x m0 Hp Hus Hk Hh.
  exact (hpy3_history al n Lx Ly chx chy chz Hal Hn Hx Hy Hz HDx HDy Hev T sch F V w rooms schy f g Ef Hsch Hschy Hs us u x m0 Hp Hus Hk Hh).
Qed.
Print Assumptions C55_hermitian3_history.
Definition wh3 := create_hconv3d 2 3 (hlength 2) (mkch 1 1 false) (mkch 2 1 false) (mkch 2 2 false).
Definition wh3f := mknd 0 [2; 3; 2].
Definition wh3g := mknd 12 [2; 3; 2].
Definition wh3m : Mem.mem C := fun ad => if ad <? 24 then Val (mkC (INR ad) 1) else Undef.
Definition wh3s (r th : nat) : list nat := if th =? 1 then [0] else [].
(** even Lx: the row of wave number -Lx/2 does not take part *)
Example C55_hermitian3_case : let tx := fst (fst wh3) in let ty := snd (fst wh3) in let tz := snd wh3 in
  let work := hwork3 1 tx ty tz 2 exh_F3 (fun b => 170) 240 exh_room2 in
  wf tx /\ wf ty /\ hwf tz /\ kn tz = 2 /\ separated (data_blocks tx (pair_of wh3f wh3g) 0 ++ work) /\
  TWP (TSeq (emb (hconvolution3_cmd tx ty 2 240 exh_room2)) (hpy_convolve3 1 tx ty tz 2 wh3s exh_F3 (fun b => 170) 240 exh_room2 (fun _ _ => ex_sch) wh3f wh3g)) wh3m
    (fun m' => m' 8 = Val (RtoC 1758) /\ m' 40 = Undef).
Proof.
  intros tx ty tz work.
  assert (Hx : wf tx) by (repeat split; vm_compute; try reflexivity; lia).
  assert (Hy : wf ty) by (repeat split; vm_compute; try reflexivity; lia).
  assert (Hz : hwf tz) by (repeat split; vm_compute; try reflexivity; lia).
  assert (Hs : separated (data_blocks tx (pair_of wh3f wh3g) 0 ++ work)) by (apply sepb_sound; vm_compute; reflexivity).
  split; [exact Hx|]. split; [exact Hy|]. split; [exact Hz|]. split; [reflexivity|]. split; [exact Hs|].
  eapply TWP_mono; [|apply (C55_hermitian3 1 2 2 3 (mkch 1 1 false) (mkch 2 1 false) (mkch 2 2 false) (le_n 1) ltac:(lia) Hx Hy Hz ltac:(discriminate) ltac:(discriminate) ltac:(right; reflexivity) 2 wh3s exh_F3 (fun b => 170) 240 exh_room2 (fun _ _ => ex_sch) wh3f wh3g eq_refl eq_refl)
      with (x := fun a i j l => mkC (INR (12 * a + 6 * i + 2 * j + l)) 1)].
  - intros m' [A B]. split.
    + specialize (A 1 1 0 ltac:(lia) ltac:(lia) ltac:(lia)). change (nd_base wh3f + 3 * 2 * 1 + 2 * 1 + 0) with 8 in A. rewrite A. apply (f_equal Val). unfold zconv3, zsum, her3, wave. cbn. wcalc.
    + rewrite B; [reflexivity| |].
      * intros (a & i & j & l & H1 & H2 & H3 & H4 & E). unfold pair_of in E. destruct a as [|[|a]]; [| |lia]; cbn [Nat.eqb nd_base wh3f wh3g] in E; lia.
      * intros b n Hi. vm_compute in Hi. repeat (destruct Hi as [Hi|Hi]; [injection Hi as <- <-; lia|]). destruct Hi.
  - intros r. unfold schedule. cbn. apply Permutation_refl.
  - intros th k r Hth. exact ex_schedule.
  - exact Hs.
  - intros b n i Hi Hn. vm_compute in Hi. unfold wh3m.
    assert (64 <= b) by (repeat (destruct Hi as [Hi|Hi]; [injection Hi as <- <-; lia|]); destruct Hi).
    destruct (Nat.ltb_spec (b + i) 24); [lia|discriminate].
  - intros a i j l H1 H2 H3 H4. unfold wh3m, pair_of. destruct a as [|[|a]]; [| |lia]; cbn [Nat.eqb nd_base wh3f wh3g];
      match goal with |- context [?e <? 24] => destruct (Nat.ltb_spec e 24); [|lia] end; do 3 f_equal; lia.
Qed.

(** The default padding of the C++ classes HybridConvolutionHermitian*: two wave numbers less than n in magnitude and a
    result wave number never differ by the padded size or more (no aliasing with two inputs) ... *)
Theorem C55_default_padding : forall n (k1 k2 k : Z), 1 <= n ->
  (Z.abs k1 < Z.of_nat n)%Z -> (Z.abs k2 < Z.of_nat n)%Z -> (Z.abs k < Z.of_nat n)%Z ->
  (Z.abs (k1 + k2 - k) < Z.of_nat (aM (create_hconv1d (hlength n) (mkch 1 1 false))))%Z.
Proof. intros n k1 k2 k Hn H1 H2 H3. apply Z.nle_gt. exact (no_alias2 n k1 k2 k Hn H1 H2 H3). Qed.
Print Assumptions C55_default_padding.
(** ... refuted for a constructor call with A >= 3 inputs and the default M: the padding does not depend on A (that of
    HybridConvolution does), and for every n >= 2 some A wave numbers alias to a result wave number. *)
Theorem C55_default_padding_refuted : forall n A B ch, 2 <= n -> 3 <= A ->
  exists (ks : list Z) (k : Z), length ks = A /\ Forall (fun i => (Z.abs i < Z.of_nat n)%Z) ks /\ (Z.abs k < Z.of_nat n)%Z /\
  fold_right Z.add 0%Z ks = (k + Z.of_nat (aM (HybridConvolutionHermitian (hlength n) 0 A B ch)))%Z.
Proof. intros n A B ch. exact (alias3 n A). Qed.
Print Assumptions C55_default_padding_refuted.
Example C55_default_padding_case : aM (create_hconv1d (hlength 3) (mkch 1 1 false)) = 7 /\ aM (HybridConvolutionHermitian (hlength 3) 0 4 1 (mkch 1 1 false)) = 7 /\
  aM (HybridConvolution 3 0 4 1 (mkch 1 1 false)) = 9.
Proof. repeat split; reflexivity. Qed.
