(** Properties of the C++ classes of wrappers/HybridConvolution.h with padded sizes chosen by the caller. *)
From Coq Require Import Reals ZArith Arith Lia List Bool.
From Verif Require Import CNum Sums Mem PadModel PadSpec CenModel HerModel HerSpec ConvModel ConvSpec ConvProofs Conv9 HConvModel HConvSpec HConvProofs Team LayerModel LayerSpec LayerProofs
  HLayerModel HLayerSpec PropsLayer PropsHLayer WrapModel WrapSpec Wrap6 PropsWrap Xf.
Import ListNotations.
Local Ltac wcalc := apply C_ext; cbn; try change (Pos.to_nat 1) with 1; try change (Pos.to_nat 2) with 2; cbn; ring.

(** The C++ classes of HybridConvolution.h.  The caller chooses the padded sizes; 0 stands for the default padding.
    HybridConvolution(L,M,2,1): if M is 0, or at least 2L-1, constructing the convolution and calling it stores the linear
    convolution of the two inputs in the first array. *)
Theorem C55_explicit_padding1 : forall L M ch, let t := HybridConvolution L M 2 1 ch in wf t -> M = 0 \/ 2 * L <= M + 1 ->
  forall g F V w x m0, buffers t g F V w m0 -> holds 2 L g x m0 ->
  WP (construct_convolve t multBinary F V w g) m0 (fun m' =>
    (forall j, j < L -> m' (g 0 + j) = Val (linconv (x 0) (x 1) j)) /\
    (forall a, outside t g F V w a -> m' a = m0 a)).
Proof. exact explicit1. Qed.
Print Assumptions C55_explicit_padding1.
Definition e1 : xf := HybridConvolution 3 8 2 1 (mkch 2 1 false).
Example C55_explicit_case1 : wf e1 /\ aM e1 = 8 /\ nloops e1 = 4 /\
  WP (construct_convolve e1 multBinary (Conv9.lF e1) (Conv9.lV e1) (Conv9.lw e1) (Conv9.lg e1)) (Conv9.lmem e1 w1x) (fun m' => m' (Conv9.lg e1 0 + 2) = Val (RtoC 16)).
Proof.
  assert (Hw : wf e1) by (unfold wf, PadModel.wf; vm_compute; repeat split; lia).
  split; [exact Hw|]. split; [reflexivity|]. split; [reflexivity|].
  eapply WP_mono; [|apply (C55_explicit_padding1 3 8 (mkch 2 1 false) Hw ltac:(right; lia) (Conv9.lg e1) (Conv9.lF e1) (Conv9.lV e1) (Conv9.lw e1) w1x _ (layout_ok e1 w1x) (layout_holds e1 w1x))].
  intros m' [A _]. rewrite (A 2 ltac:(lia)). apply (f_equal Val). unfold linconv, w1x. cbn. apply C_ext; cbn; ring.
Qed.

(** HybridConvolution2(Lx,Ly,Mx,My,2,1): each direction has its own padded size. *)
Theorem C55_explicit_padding2 : forall Lx Ly Mx My chx chy, let tx := fst (HybridConvolution2 Lx Ly Mx My 2 1 chx chy) in let ty := snd (HybridConvolution2 Lx Ly Mx My 2 1 chx chy) in
  wf tx -> wf ty -> (Ly = 1 -> gD tx = 1) -> Mx = 0 \/ 2 * Lx <= Mx + 1 -> My = 0 \/ 2 * Ly <= My + 1 ->
  forall T sch F V w rooms f off, (forall r, schedule T (gl tx) (sch r)) ->
  separated (data_blocks tx f off ++ work2 tx ty T F V w rooms) ->
  forall x m0, provided (work2 tx ty T F V w rooms) m0 -> holds2 2 Lx Ly Ly f off x m0 ->
  TWP (construct_convolve2 tx ty (fun _ => multBinary) T sch F V w rooms f off) m0 (fun m' =>
    (forall i j, i < Lx -> j < Ly -> m' (f 0 + off + Ly * i + j) = Val (linconv2 (x 0) (x 1) i j)) /\
    (forall ad, ~ element2 2 Lx Ly Ly f off ad -> elsewhere (work2 tx ty T F V w rooms) ad -> m' ad = m0 ad)).
Proof. exact explicit2. Qed.
Print Assumptions C55_explicit_padding2.
Definition e2 := HybridConvolution2 2 2 7 3 2 1 (mkch 2 1 false) (mkch 2 1 false).
Definition ef (a : nat) : addr := 16 * a.
Example C55_explicit_case2 : let tx := fst e2 in let ty := snd e2 in let work := work2 tx ty 2 (ex_F 32) (ex_V 32) (ex_W 32) (ex_room 64) in
  wf tx /\ wf ty /\ aM tx = 7 /\ aM ty = 3 /\ nloops tx = 4 /\ separated (data_blocks tx ef 0 ++ work) /\
  TWP (construct_convolve2 tx ty (fun _ => multBinary) 2 ex_sch (ex_F 32) (ex_V 32) (ex_W 32) (ex_room 64) ef 0) ex_m (fun m' => m' 3 = Val (RtoC 100)).
Proof.
  intros tx ty work.
  assert (Hx : wf tx) by (unfold wf, PadModel.wf; vm_compute; repeat split; lia).
  assert (Hy : wf ty) by (unfold wf, PadModel.wf; vm_compute; repeat split; lia).
  assert (Hs : separated (data_blocks tx ef 0 ++ work)) by (apply sepb_sound; vm_compute; reflexivity).
  split; [exact Hx|]. split; [exact Hy|]. split; [reflexivity|]. split; [reflexivity|]. split; [reflexivity|]. split; [exact Hs|].
  eapply TWP_mono; [|apply (C55_explicit_padding2 2 2 7 3 (mkch 2 1 false) (mkch 2 1 false) Hx Hy ltac:(discriminate) ltac:(right; lia) ltac:(right; lia) 2 ex_sch (ex_F 32) (ex_V 32) (ex_W 32) (ex_room 64) ef 0)
    with (x := fun a i j => RtoC (INR (16 * a + 2 * i + j)))].
  - intros m' [A _]. specialize (A 1 1 ltac:(lia) ltac:(lia)). change (ef 0 + 0 + 2 * 1 + 1) with 3 in A. rewrite A. apply (f_equal Val). unfold linconv2. cbn. apply C_ext; cbn; ring.
  - intros r. exact ex_schedule.
  - exact Hs.
  - intros b n i _ _. discriminate.
  - intros a i j H1 H2 H3. unfold ex_m, ef. do 3 f_equal; lia.
Qed.

(** HybridConvolution3(Lx,Ly,Lz,Mx,My,Mz,2,1) *)
Theorem C55_explicit_padding3 : forall Lx Ly Lz Mx My Mz chx chy chz, let t3 := HybridConvolution3 Lx Ly Lz Mx My Mz 2 1 chx chy chz in
  let tx := fst (fst t3) in let ty := snd (fst t3) in let tz := snd t3 in
  wf tx -> wf ty -> wf tz -> (Ly * Lz = 1 -> gD tx = 1) -> (Lz = 1 -> gD ty = 1) ->
  Mx = 0 \/ 2 * Lx <= Mx + 1 -> My = 0 \/ 2 * Ly <= My + 1 -> Mz = 0 \/ 2 * Lz <= Mz + 1 ->
  forall T sch F V w rooms schy f off, (forall r, schedule T (gl tx) (sch r)) ->
  (forall th k r, th < T -> schedule (r2T (rooms th)) (gl ty) (schy th k r)) ->
  separated (data_blocks tx f off ++ work3 tx ty tz T F V w rooms) ->
  forall x m0, provided (work3 tx ty tz T F V w rooms) m0 -> holds3 2 Lx Ly Lz (Ly * Lz) Lz f off x m0 ->
  TWP (construct_convolve3 tx ty tz (fun _ _ => multBinary) T sch F V w rooms schy f off) m0 (fun m' =>
    (forall i j l, i < Lx -> j < Ly -> l < Lz -> m' (f 0 + off + Ly * Lz * i + Lz * j + l) = Val (linconv3 (x 0) (x 1) i j l)) /\
    (forall ad, ~ element3 2 Lx Ly Lz (Ly * Lz) Lz f off ad -> elsewhere (work3 tx ty tz T F V w rooms) ad -> m' ad = m0 ad)).
Proof. exact explicit3. Qed.
Print Assumptions C55_explicit_padding3.
Definition e3 := HybridConvolution3 2 2 2 3 7 4 2 1 (mkch 2 1 false) (mkch 2 1 false) (mkch 2 1 false).
Example C55_explicit_case3 : let tx := fst (fst e3) in let ty := snd (fst e3) in let tz := snd e3 in
  let work := work3 tx ty tz 2 (ex_F 32) (ex_V 32) (ex_W 32) ex_room2 in
  wf tx /\ wf ty /\ wf tz /\ aM tx = 3 /\ aM ty = 7 /\ aM tz = 4 /\ separated (data_blocks tx ef 0 ++ work) /\
  TWP (construct_convolve3 tx ty tz (fun _ _ => multBinary) 2 ex_sch (ex_F 32) (ex_V 32) (ex_W 32) ex_room2 (fun _ _ => ex_sch) ef 0) ex_m (fun m' => m' 7 = Val (RtoC 504)).
Proof.
  intros tx ty tz work.
  assert (Hx : wf tx) by (unfold wf, PadModel.wf; vm_compute; repeat split; lia).
  assert (Hy : wf ty) by (unfold wf, PadModel.wf; vm_compute; repeat split; lia).
  assert (Hz : wf tz) by (unfold wf, PadModel.wf; vm_compute; repeat split; lia).
  assert (Hs : separated (data_blocks tx ef 0 ++ work)) by (apply sepb_sound; vm_compute; reflexivity).
  split; [exact Hx|]. split; [exact Hy|]. split; [exact Hz|]. split; [reflexivity|]. split; [reflexivity|]. split; [reflexivity|]. split; [exact Hs|].
  eapply TWP_mono; [|apply (C55_explicit_padding3 2 2 2 3 7 4 (mkch 2 1 false) (mkch 2 1 false) (mkch 2 1 false) Hx Hy Hz ltac:(discriminate) ltac:(discriminate) ltac:(right; lia) ltac:(right; lia) ltac:(right; lia)
     2 ex_sch (ex_F 32) (ex_V 32) (ex_W 32) ex_room2 (fun _ _ => ex_sch) ef 0) with (x := fun a i j l => RtoC (INR (16 * a + 4 * i + 2 * j + l)))].
  - intros m' [A _]. specialize (A 1 1 1 ltac:(lia) ltac:(lia) ltac:(lia)). change (ef 0 + 0 + 2 * 2 * 1 + 2 * 1 + 1) with 7 in A. rewrite A. apply (f_equal Val). unfold linconv3. cbn. apply C_ext; cbn; ring.
  - intros r. exact ex_schedule.
  - intros th k r Hth. exact ex_schedule.
  - exact Hs.
  - intros b n i _ _. discriminate.
  - intros a i j l H1 H2 H3 H4. unfold ex_m, ef. do 3 f_equal; lia.
Qed.

(** HybridConvolutionHermitian(L,M,2,1), H=ceil(L/2): M is 0 or at least 3H-2. *)
Theorem C55_explicit_padding_hermitian1 : forall L M ch al, let t := HybridConvolutionHermitian L M 2 1 ch in hwf t -> 1 <= al -> M = 0 \/ 3 * cq L 2 <= M + 2 ->
  forall g F V w (x : nat -> nat -> C) m0, hbuffers al t g F V w m0 ->
  let H := cq L 2 in
  (forall a j, a < 2 -> j < H -> m0 (g a + j) = Val (x a j)) -> (forall a, a < 2 -> im (x a 0) = 0%R) ->
  kq t = 1 \/ kn t mod 2 = 0 \/ initialised al t F m0 ->
  WP (hconstruct_convolve al t realMultBinary F V w g) m0 (fun m' =>
    (forall j, j < H -> m' (g 0 + j) = Val (oconv (H - 1) (2 * H - 1) (hseq H (x 0)) (hseq H (x 1)) (j + (H - 1)))) /\
    (forall j, j < H -> m' (g 1 + j) = Val (x 1 j)) /\
    (forall a, houtside al t g F V w a -> m' a = m0 a)).
Proof. exact explicitH1. Qed.
Print Assumptions C55_explicit_padding_hermitian1.
Example C55_explicit_hermitian_case1 : let t := HybridConvolutionHermitian 5 14 2 1 (mkch 4 2 false) in
  hwf t /\ aM t = 14 /\ kM t = 16 /\ kn t = 4 /\ kq t = 4 /\
  WP (hconstruct_convolve 1 t realMultBinary hF hV 300 hg) hmem (fun m' => m' (hg 0 + 1) = Val (RtoC 16)).
Proof.
  intros t.
  assert (Hw : hwf t) by (repeat split; vm_compute; try reflexivity; lia).
  split; [exact Hw|]. split; [reflexivity|]. split; [reflexivity|]. split; [reflexivity|]. split; [reflexivity|].
  eapply WP_mono; [|apply (C55_explicit_padding_hermitian1 5 14 (mkch 4 2 false) 1 Hw (le_n 1) ltac:(right; vm_compute; lia) hg hF hV 300 (fun _ j => RtoC (INR (j + 1))) hmem)].
  - intros m' [A _]. specialize (A 1 ltac:(vm_compute; lia)). rewrite A. apply (f_equal Val). change (cq 5 2) with 3. unfold oconv, hseq. cbn. wcalc.
  - apply hmem_buf; vm_compute; try reflexivity; lia.
  - intros a j Ha Hj. apply hmem_x; [exact Ha|]. change (cq 5 2) with 3 in Hj. lia.
  - intros a Ha. reflexivity.
  - right. left. reflexivity.
Qed.

(** HybridConvolutionHermitian2(Lx,Ly,Mx,My,2,1): Hermitian in y (My 0 or at least 3H-2); in x the padded size must keep
    the input free of aliases (unaliased2: 3*(Lx/2) < Mx, or one less when the wave number -Lx/2 is zero). *)
Theorem C55_explicit_padding_hermitian2 : forall Lx Ly Mx My chx chy al, let th := HybridConvolutionHermitian2 Lx Ly Mx My 2 1 chx chy in let tx := fst th in let ty := snd th in
  1 <= al -> wf tx -> hwf ty -> (cq Ly 2 = 1 -> gD tx = 1) -> kq ty = 1 \/ kn ty mod 2 = 0 -> My = 0 \/ 3 * cq Ly 2 <= My + 2 ->
  forall T sch F V w rooms f off, (forall r, schedule T (gl tx) (sch r)) ->
  separated (data_blocks tx f off ++ hwork2 al tx ty T F V w rooms) ->
  forall x m0, provided (hwork2 al tx ty T F V w rooms) m0 ->
  let H := cq Ly 2 in let c := Lx / 2 in
  holds2 2 Lx H H f off x m0 -> (forall a, a < 2 -> hermitian0 c Lx (x a)) ->
  (forall a, a < 2 -> unaliased2 c Lx H (gM tx) (x a)) ->
  TWP (hconstruct_convolve2 al tx ty realMultBinary T sch F V w rooms f off) m0 (fun m' =>
    (forall i j, i < Lx -> j < H -> m' (f 0 + off + H * i + j) =
       Val (oconv2 c (2 * c + 1) (H - 1) (2 * H - 1) (full2 c Lx H (x 0)) (full2 c Lx H (x 1)) i (j + (H - 1)))) /\
    (forall ad, ~ element2 2 Lx H H f off ad -> elsewhere (hwork2 al tx ty T F V w rooms) ad -> m' ad = m0 ad)).
Proof. exact explicitH2. Qed.
Print Assumptions C55_explicit_padding_hermitian2.
Definition eh2 := HybridConvolutionHermitian2 3 3 5 8 2 1 (mkch 2 1 false) (mkch 2 2 false).
Example C55_explicit_hermitian_case2 : let tx := fst eh2 in let ty := snd eh2 in
  wf tx /\ hwf ty /\ aM tx = 5 /\ aM ty = 8 /\ kn ty = 4 /\
  separated (data_blocks tx (fun a => 6 * a) 0 ++ hwork2 1 tx ty 2 exh_F (fun b => 96) 112 (exh_room 128)) /\
  TWP (hconstruct_convolve2 1 tx ty realMultBinary 2 ex_sch exh_F (fun b => 96) 112 (exh_room 128) (fun a => 6 * a) 0) exh_m (fun m' => m' 2 = Val (RtoC 42)).
Proof.
  intros tx ty.
  assert (Hx : wf tx) by (repeat split; vm_compute; try reflexivity; lia).
  assert (Hy : hwf ty) by (repeat split; vm_compute; try reflexivity; lia).
  assert (Hs : separated (data_blocks tx (fun a => 6 * a) 0 ++ hwork2 1 tx ty 2 exh_F (fun b => 96) 112 (exh_room 128))) by (apply sepb_sound; vm_compute; reflexivity).
  split; [exact Hx|]. split; [exact Hy|]. split; [reflexivity|]. split; [reflexivity|]. split; [reflexivity|]. split; [exact Hs|].
  eapply TWP_mono; [|apply (C55_explicit_padding_hermitian2 3 3 5 8 (mkch 2 1 false) (mkch 2 2 false) 1 (le_n 1) Hx Hy ltac:(discriminate) ltac:(right; reflexivity) ltac:(right; vm_compute; lia)
    2 ex_sch exh_F (fun b => 96) 112 (exh_room 128) (fun a => 6 * a) 0) with (x := exh_x)].
  - intros m' [E1 _]. specialize (E1 1 0 ltac:(lia) ltac:(vm_compute; lia)). change (6 * 0 + 0 + cq 3 2 * 1 + 0) with 2 in E1.
    rewrite E1. apply (f_equal Val). unfold oconv2, full2. cbn. apply C_ext; cbn; ring.
  - intros r. exact ex_schedule.
  - exact Hs.
  - intros b n i Hi Hn. vm_compute in Hi. unfold exh_m.
    assert (64 <= b) by (repeat (destruct Hi as [Hi|Hi]; [injection Hi as <- <-; lia|]); destruct Hi).
    destruct (Nat.ltb_spec (b + i) 12); [lia|discriminate].
  - intros a i j H1 H2 H3. change (cq 3 2) with 2 in H3.
    destruct a as [|[|a]]; [| |lia]; (destruct i as [|[|[|i]]]; [| | |lia]); (destruct j as [|[|j]]; [| |lia]); reflexivity.
  - intros a H1 i H2. change (3 / 2) with 1. destruct i as [|[|[|i]]]; [| | |lia]; cbn; apply C_ext; cbn; ring.
  - intros a H1. left. vm_compute. lia.
Qed.

(** HybridConvolutionHermitian3(Lx,Ly,Lz,Mx,My,Mz,2,1) *)
Theorem C55_explicit_padding_hermitian3 : forall Lx Ly Lz Mx My Mz chx chy chz al, let th := HybridConvolutionHermitian3 Lx Ly Lz Mx My Mz 2 1 chx chy chz in
  let tx := fst (fst th) in let ty := snd (fst th) in let tz := snd th in
  1 <= al -> wf tx -> wf ty -> hwf tz -> (Ly * cq Lz 2 = 1 -> gD tx = 1) -> (cq Lz 2 = 1 -> gD ty = 1) -> kq tz = 1 \/ kn tz mod 2 = 0 ->
  Mz = 0 \/ 3 * cq Lz 2 <= Mz + 2 ->
  forall T sch F V w rooms schy f off, (forall r, schedule T (gl tx) (sch r)) ->
  (forall th k r, th < T -> schedule (r2T (rooms th)) (gl ty) (schy th k r)) ->
  separated (data_blocks tx f off ++ hwork3 al tx ty tz T F V w rooms) ->
  forall x m0, provided (hwork3 al tx ty tz T F V w rooms) m0 ->
  let H := cq Lz 2 in let c := Lx / 2 in let c' := Ly / 2 in
  holds3 2 Lx Ly H (Ly * H) H f off x m0 -> (forall a, a < 2 -> hermitian00 c Lx c' Ly (x a)) ->
  (forall a, a < 2 -> unaliased3 c Lx (gM tx) c' Ly (gM ty) H (x a)) ->
  TWP (hconstruct_convolve3 al tx ty tz realMultBinary T sch F V w rooms schy f off) m0 (fun m' =>
    (forall i j l, i < Lx -> j < Ly -> l < H -> m' (f 0 + off + Ly * H * i + H * j + l) =
       Val (oconv3 c (2 * c + 1) c' (2 * c' + 1) (H - 1) (2 * H - 1) (full3 c Lx c' Ly H (x 0)) (full3 c Lx c' Ly H (x 1)) i j (l + (H - 1)))) /\
    (forall ad, ~ element3 2 Lx Ly H (Ly * H) H f off ad -> elsewhere (hwork3 al tx ty tz T F V w rooms) ad -> m' ad = m0 ad)).
Proof. exact explicitH3. Qed.
Print Assumptions C55_explicit_padding_hermitian3.
Definition eh3 := HybridConvolutionHermitian3 3 3 3 5 7 8 2 1 (mkch 2 1 false) (mkch 2 1 false) (mkch 2 2 false).
Example C55_explicit_hermitian_case3 : let tx := fst (fst eh3) in let ty := snd (fst eh3) in let tz := snd eh3 in
  wf tx /\ wf ty /\ hwf tz /\ aM tx = 5 /\ aM ty = 7 /\ aM tz = 8 /\
  separated (data_blocks tx (fun a => 18 * a) 0 ++ hwork3 1 tx ty tz 2 exh_F3 (fun b => 170) 240 exh_room2) /\
  TWP (hconstruct_convolve3 1 tx ty tz realMultBinary 2 ex_sch exh_F3 (fun b => 170) 240 exh_room2 (fun _ _ => ex_sch) (fun a => 18 * a) 0) exh_m3
    (fun m' => m' 8 = Val (RtoC 290)).
Proof.
  intros tx ty tz.
  assert (Hx : wf tx) by (repeat split; vm_compute; try reflexivity; lia).
  assert (Hy : wf ty) by (repeat split; vm_compute; try reflexivity; lia).
  assert (Hz : hwf tz) by (repeat split; vm_compute; try reflexivity; lia).
  assert (Hs : separated (data_blocks tx (fun a => 18 * a) 0 ++ hwork3 1 tx ty tz 2 exh_F3 (fun b => 170) 240 exh_room2)) by (apply sepb_sound; vm_compute; reflexivity).
  split; [exact Hx|]. split; [exact Hy|]. split; [exact Hz|]. split; [reflexivity|]. split; [reflexivity|]. split; [reflexivity|]. split; [exact Hs|].
  eapply TWP_mono; [|apply (C55_explicit_padding_hermitian3 3 3 3 5 7 8 (mkch 2 1 false) (mkch 2 1 false) (mkch 2 2 false) 1 (le_n 1) Hx Hy Hz ltac:(discriminate) ltac:(discriminate) ltac:(right; reflexivity) ltac:(right; vm_compute; lia)
    2 ex_sch exh_F3 (fun b => 170) 240 exh_room2 (fun _ _ => ex_sch) (fun a => 18 * a) 0) with (x := exh_x3)].
  - intros m' [E1 _]. specialize (E1 1 1 0 ltac:(lia) ltac:(lia) ltac:(vm_compute; lia)). change (18 * 0 + 0 + 3 * cq 3 2 * 1 + cq 3 2 * 1 + 0) with 8 in E1.
    rewrite E1. apply (f_equal Val). unfold oconv3, full3. cbn. apply C_ext; cbn; ring.
  - intros r. exact ex_schedule.
  - intros th k r Hth. exact ex_schedule.
  - exact Hs.
  - intros b n i Hi Hn. vm_compute in Hi. unfold exh_m3.
    assert (64 <= b) by (repeat (destruct Hi as [Hi|Hi]; [injection Hi as <- <-; lia|]); destruct Hi).
    destruct (Nat.ltb_spec (b + i) 36); [lia|discriminate].
  - intros a i j l H1 H2 H3 H4. change (cq 3 2) with 2 in H4.
    destruct a as [|[|a]]; [| |lia]; (destruct i as [|[|[|i]]]; [| | |lia]); (destruct j as [|[|[|j]]]; [| | |lia]); (destruct l as [|[|l]]; [| |lia]); reflexivity.
  - intros a H1 i j H2 H3. change (3 / 2) with 1.
    destruct i as [|[|[|i]]]; [| | |lia]; (destruct j as [|[|[|j]]]; [| | |lia]); cbn; apply C_ext; cbn; ring.
  - intros a H1. split; left; vm_compute; lia.
Qed.

