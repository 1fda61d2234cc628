(** Properties of two- and three-dimensional Hermitian convolutions (classes Convolution2 and Convolution3
    with fftPadCentered in x, y and fftPadHermitian in the last dimension, realMultBinary).
    sx, sy, ty, tz range over every argument list that the constructors accept ([wf], [hwf]); T threads; sch r th is the
    list of rows that thread th processes in parallel loop r: any distribution of the rows over the
    threads, in any order ([schedule]).
    [TWP c m Q]: every interleaving of the threads of c from m terminates without undefined
    behaviour, data race or error exit, and all end in one memory, satisfying Q (Team.v). *)
From Coq Require Import Reals ZArith Arith Lia List Bool Permutation.
From Verif Require Import CNum Sums Mem PadModel CenModel HerModel ConvModel ConvSpec HConvModel HConvSpec HConvProofs Team LayerModel LayerSpec
  HLayerModel HLayerSpec HLayerExit HLayerProofs HLayerProofs3 PropsLayer Xf.
Import ListNotations.

(** C51, 2D: the stored half of the convolution of two 2D Hermitian arrays, if the padding is enough;
    nothing but the two arrays and the work memory changes. *)
Theorem C51_hermitian_convolution2 : forall al sx ty, let tx := CP sx in 1 <= al -> wf tx -> hwf ty -> hagree2 tx ty ->
  forall T sch F V w rooms f off, (forall r, schedule T (gl tx) (sch r)) ->
  separated (data_blocks tx f off ++ hwork2 al tx ty T F V w rooms) ->
  forall x m0, provided (hwork2 al tx ty T F V w rooms) m0 ->
  let c := origin tx in let L := aL tx in let H := hH ty in
  holds2 2 L H (gS tx) f off x m0 -> (forall a, a < 2 -> hermitian0 c L (x a)) ->
  3 * H <= PadModel.aM ty + 2 -> (forall a, a < 2 -> unaliased2 c L H (gM tx) (x a)) ->
  TWP (hconstruct_convolve2 al tx ty realMultBinary T sch F V w rooms f off) m0 (fun m' =>
    (forall i j, i < L -> j < H -> m' (f 0 + off + gS tx * i + j) =
       Val (oconv2 c (2 * c + 1) (H - 1) (2 * H - 1) (full2 c L H (x 0)) (full2 c L H (x 1)) i (j + (H - 1)))) /\
    (forall ad, ~ element2 2 L H (gS tx) f off ad -> elsewhere (hwork2 al tx ty T F V w rooms) ad -> m' ad = m0 ad)).
Proof.
  intros al sx ty tx Hal Hx Hy Ha T sch F V w rooms f off Hsch Hs x m0 Hp c L H Hh Hsym H1 H2.
  exact (h2_linear al sx ty T sch F V w rooms f off Hal Hx Hy Ha Hsch Hs x m0 Hp Hh Hsym H1 H2).
Qed.
Print Assumptions C51_hermitian_convolution2.

(** C51, 2D, any padded sizes: the cyclic convolution modulo the sizes (Mx,My) of the transforms. *)
Theorem C51_hermitian_cyclic_convolution2 : forall al sx ty, let tx := CP sx in 1 <= al -> wf tx -> hwf ty -> hagree2 tx ty ->
  forall T sch F V w rooms f off, (forall r, schedule T (gl tx) (sch r)) ->
  separated (data_blocks tx f off ++ hwork2 al tx ty T F V w rooms) ->
  forall x m0, provided (hwork2 al tx ty T F V w rooms) m0 ->
  let c := origin tx in let L := aL tx in let H := hH ty in
  holds2 2 L H (gS tx) f off x m0 -> (forall a, a < 2 -> hermitian0 c L (x a)) ->
  TWP (hconstruct_convolve2 al tx ty realMultBinary T sch F V w rooms f off) m0 (fun m' =>
    holds2 1 L H (gS tx) f off (fun _ i j =>
      ocyc2 c (gM tx) (2 * c + 1) (H - 1) (kM ty) (2 * H - 1) (full2 c L H (x 0)) (full2 c L H (x 1)) i (j + (H - 1))) m' /\
    (forall ad, ~ element2 2 L H (gS tx) f off ad -> elsewhere (hwork2 al tx ty T F V w rooms) ad -> m' ad = m0 ad)).
Proof.
  intros al sx ty tx Hal Hx Hy Ha T sch F V w rooms f off Hsch Hs x m0 Hp c L H Hh Hsym.
  exact (h2_thm al sx ty T sch F V w rooms f off Hal Hx Hy Ha Hsch Hs x m0 Hp Hh Hsym).
Qed.
Print Assumptions C51_hermitian_cyclic_convolution2.

(** C51, 2D, histories: however often the object has been used (each s in us: the user stores new data, then
    calls convolve), the next call is right. *)
Theorem C51_hermitian_convolution2_history : forall al sx ty, let tx := CP sx in 1 <= al -> wf tx -> hwf ty -> hagree2 tx ty ->
  forall T sch F V w rooms f off, (forall r, schedule T (gl tx) (sch r)) ->
  let work := hwork2 al tx ty T F V w rooms in
  separated (data_blocks tx f off ++ work) ->
  forall us u x m0, provided work m0 ->
  let c := origin tx in let L := aL tx in let H := hH ty in
  (forall s, In s us -> keeps work s /\ exists y, (forall a, a < 2 -> hermitian0 c L (y a)) /\ forall m, holds2 2 L H (gS tx) f off y (s m)) ->
  keeps work u -> (forall a, a < 2 -> hermitian0 c L (x a)) -> (forall m, holds2 2 L H (gS tx) f off x (u m)) ->
  TWP (TSeq (emb (hconvolution2_cmd tx w))
            (calls (lconvolve (hconvolution2 al tx ty realMultBinary T sch F V w rooms) (arr (aA tx) f) off) (us ++ [u]))) m0 (fun m' =>
    holds2 1 L H (gS tx) f off (fun _ i j =>
      ocyc2 c (gM tx) (2 * c + 1) (H - 1) (kM ty) (2 * H - 1) (full2 c L H (x 0)) (full2 c L H (x 1)) i (j + (H - 1))) m').
Proof.
  intros al sx ty tx Hal Hx Hy Ha T sch F V w rooms f off Hsch work Hs us u x m0 Hp c L H Hus Hk Hsym Hu.
  exact (h2_history al sx ty T sch F V w rooms f off Hal Hx Hy Ha Hsch Hs us u x m0 Hp Hus Hk Hsym Hu).
Qed.
Print Assumptions C51_hermitian_convolution2_history.

(** C51, 3D *)
Theorem C51_hermitian_convolution3 : forall al sx sy tz, let tx := CP sx in let ty := CP sy in
  1 <= al -> wf tx -> wf ty -> hwf tz -> hagree3 tx ty tz ->
  forall T sch F V w rooms schy f off, (forall r, schedule T (gl tx) (sch r)) ->
  (forall th k r, th < T -> schedule (r2T (rooms th)) (gl ty) (schy th k r)) ->
  separated (data_blocks tx f off ++ hwork3 al tx ty tz T F V w rooms) ->
  forall x m0, provided (hwork3 al tx ty tz T F V w rooms) m0 ->
  let c := origin tx in let L := aL tx in let c' := origin ty in let L' := aL ty in let H := hH tz in
  holds3 2 L L' H (gS tx) (gS ty) f off x m0 -> (forall a, a < 2 -> hermitian00 c L c' L' (x a)) ->
  3 * H <= PadModel.aM tz + 2 -> (forall a, a < 2 -> unaliased3 c L (gM tx) c' L' (gM ty) H (x a)) ->
  TWP (hconstruct_convolve3 al tx ty tz realMultBinary T sch F V w rooms schy f off) m0 (fun m' =>
    (forall i j l, i < L -> j < L' -> l < H -> m' (f 0 + off + gS tx * i + gS ty * j + l) =
       Val (oconv3 c (2 * c + 1) c' (2 * c' + 1) (H - 1) (2 * H - 1) (full3 c L c' L' H (x 0)) (full3 c L c' L' H (x 1)) i j (l + (H - 1)))) /\
    (forall ad, ~ element3 2 L L' H (gS tx) (gS ty) f off ad -> elsewhere (hwork3 al tx ty tz T F V w rooms) ad -> m' ad = m0 ad)).
Proof.
  intros al sx sy tz tx ty Hal Hx Hy Hz Ha T sch F V w rooms schy f off Hsch Hschy Hs x m0 Hp c L c' L' H Hh Hsym H1 H2.
  exact (h3_linear al sx sy tz T sch F V w rooms schy f off Hal Hx Hy Hz Ha Hsch Hschy Hs x m0 Hp Hh Hsym H1 H2).
Qed.
Print Assumptions C51_hermitian_convolution3.

Theorem C51_hermitian_cyclic_convolution3 : forall al sx sy tz, let tx := CP sx in let ty := CP sy in
  1 <= al -> wf tx -> wf ty -> hwf tz -> hagree3 tx ty tz ->
  forall T sch F V w rooms schy f off, (forall r, schedule T (gl tx) (sch r)) ->
  (forall th k r, th < T -> schedule (r2T (rooms th)) (gl ty) (schy th k r)) ->
  separated (data_blocks tx f off ++ hwork3 al tx ty tz T F V w rooms) ->
  forall x m0, provided (hwork3 al tx ty tz T F V w rooms) m0 ->
  let c := origin tx in let L := aL tx in let c' := origin ty in let L' := aL ty in let H := hH tz in
  holds3 2 L L' H (gS tx) (gS ty) f off x m0 -> (forall a, a < 2 -> hermitian00 c L c' L' (x a)) ->
  TWP (hconstruct_convolve3 al tx ty tz realMultBinary T sch F V w rooms schy f off) m0 (fun m' =>
    holds3 1 L L' H (gS tx) (gS ty) f off (fun _ i j l =>
      ocyc3 c (gM tx) (2 * c + 1) c' (gM ty) (2 * c' + 1) (H - 1) (kM tz) (2 * H - 1) (full3 c L c' L' H (x 0)) (full3 c L c' L' H (x 1)) i j (l + (H - 1))) m' /\
    (forall ad, ~ element3 2 L L' H (gS tx) (gS ty) f off ad -> elsewhere (hwork3 al tx ty tz T F V w rooms) ad -> m' ad = m0 ad)).
Proof.
  intros al sx sy tz tx ty Hal Hx Hy Hz Ha T sch F V w rooms schy f off Hsch Hschy Hs x m0 Hp c L c' L' H Hh Hsym.
  exact (h3_thm al sx sy tz T sch F V w rooms schy f off Hal Hx Hy Hz Ha Hsch Hschy Hs x m0 Hp Hh Hsym).
Qed.
Print Assumptions C51_hermitian_cyclic_convolution3.

Theorem C51_hermitian_convolution3_history : forall al sx sy tz, let tx := CP sx in let ty := CP sy in
  1 <= al -> wf tx -> wf ty -> hwf tz -> hagree3 tx ty tz ->
  forall T sch F V w rooms schy f off, (forall r, schedule T (gl tx) (sch r)) ->
  (forall th k r, th < T -> schedule (r2T (rooms th)) (gl ty) (schy th k r)) ->
  let work := hwork3 al tx ty tz T F V w rooms in
  separated (data_blocks tx f off ++ work) ->
  forall us u x m0, provided work m0 ->
  let c := origin tx in let L := aL tx in let c' := origin ty in let L' := aL ty in let H := hH tz in
  (forall s, In s us -> keeps work s /\ exists y, (forall a, a < 2 -> hermitian00 c L c' L' (y a)) /\ forall m, holds3 2 L L' H (gS tx) (gS ty) f off y (s m)) ->
  keeps work u -> (forall a, a < 2 -> hermitian00 c L c' L' (x a)) -> (forall m, holds3 2 L L' H (gS tx) (gS ty) f off x (u m)) ->
  TWP (TSeq (emb (hconvolution3_cmd tx ty T w rooms))
            (calls (lconvolve (hconvolution3 al tx ty tz realMultBinary T sch F V w rooms schy) (arr (aA tx) f) off) (us ++ [u]))) m0 (fun m' =>
    holds3 1 L L' H (gS tx) (gS ty) f off (fun _ i j l =>
      ocyc3 c (gM tx) (2 * c + 1) c' (gM ty) (2 * c' + 1) (H - 1) (kM tz) (2 * H - 1) (full3 c L c' L' H (x 0)) (full3 c L c' L' H (x 1)) i j (l + (H - 1))) m').
Proof.
  intros al sx sy tz tx ty Hal Hx Hy Hz Ha T sch F V w rooms schy f off Hsch Hschy work Hs us u x m0 Hp c L c' L' H Hus Hk Hsym Hu.
  exact (h3_history al sx sy tz T sch F V w rooms schy f off Hal Hx Hy Hz Ha Hsch Hschy Hs us u x m0 Hp Hus Hk Hsym Hu).
Qed.
Print Assumptions C51_hermitian_convolution3_history.

(** strides that do not fit end the program in the constructor *)
Theorem C51_strides3 : forall al tx ty tz, 1 <= al -> wf ty -> hwf tz -> hagree2 ty tz ->
  ~ (aL ty * gS ty <= gS tx /\ gC tx = if gS ty =? gC ty then aL ty * gS ty else gC ty) ->
  forall T F V w rooms,
  separated (hwork3 al tx ty tz T F V w rooms) ->
  forall m0, provided (hwork3 al tx ty tz T F V w rooms) m0 ->
  exec (hconvolution3_cmd tx ty T w rooms) m0 ExitErr /\
  forall o, exec (hconvolution3_cmd tx ty T w rooms) m0 o -> o = ExitErr.
Proof. exact hexit3_thm. Qed.
Print Assumptions C51_strides3.

(** *** concrete cases: 3 x 3 (x 3) Hermitian data, stored as 3 x 2 (3 x 3 x 2) complex words, two threads;
    x, y padded to 6 in three residue loops, z padded to 12 with n=6 residues *)
Definition exh_x (a i j : nat) : C := RtoC (INR (if j =? 0 then a + i * (2 - i) else a + i + 1)).
Definition exh_m : Mem.mem C := fun ad => if ad <? 12 then Val (exh_x (ad / 6) (ad mod 6 / 2) (ad mod 2)) else Undef.
Definition exh_px := mkpad 3 5 2 2 2 1 false 2 1 false.
Definition exh_F (a : nat) : addr := 64 + 16 * a.
Definition exh_room (base th : nat) : room := mkroom (fun a => base + 100 * th + 20 * a) (fun b => base + 40 + 100 * th) (base + 60 + 100 * th).
Example C51_case2 : wf (CP exh_px) /\ hwf hk3 /\ hagree2 (CP exh_px) hk3 /\ nloops (CP exh_px) = 3 /\
  separated (data_blocks (CP exh_px) (fun a => 6 * a) 0 ++ hwork2 1 (CP exh_px) hk3 2 exh_F (fun b => 96) 112 (exh_room 128)) /\
  TWP (hconstruct_convolve2 1 (CP exh_px) hk3 realMultBinary 2 ex_sch exh_F (fun b => 96) 112 (exh_room 128) (fun a => 6 * a) 0) exh_m
    (fun m' => m' 2 = Val (RtoC 42) /\ m' 40 = Undef).
Proof.
  assert (Hx : wf (CP exh_px)) by (repeat split; vm_compute; try reflexivity; lia).
  assert (Ha : hagree2 (CP exh_px) hk3) by (constructor; try reflexivity; try (vm_compute; lia)).
  assert (Hs : separated (data_blocks (CP exh_px) (fun a => 6 * a) 0 ++ hwork2 1 (CP exh_px) hk3 2 exh_F (fun b => 96) 112 (exh_room 128))) by (apply sepb_sound; vm_compute; reflexivity).
  split; [exact Hx|]. split; [exact hk3_wf|]. split; [exact Ha|]. split; [reflexivity|]. split; [exact Hs|].
  eapply TWP_mono; [|apply (C51_hermitian_convolution2 1 exh_px hk3 (le_n 1) Hx hk3_wf Ha 2 ex_sch exh_F (fun b => 96) 112 (exh_room 128) (fun a => 6 * a) 0) with (x := exh_x)].
  - intros m' [E1 E2]. split.
    + specialize (E1 1 0 ltac:(vm_compute; lia) ltac:(vm_compute; lia)). change (6 * 0 + 0 + gS (CP exh_px) * 1 + 0) with 2 in E1.
      rewrite E1. apply (f_equal Val). unfold oconv2, full2. cbn. apply C_ext; cbn; ring.
    + rewrite E2; [reflexivity| |].
      * intros (a & i & j & H1 & H2 & H3 & E). change (aL (CP exh_px)) with 3 in H2. change (gS (CP exh_px)) with 2 in E. change (hH hk3) with 2 in H3. lia.
      * intros b n Hi. vm_compute in Hi. repeat (destruct Hi as [Hi|Hi]; [injection Hi as <- <-; lia|]). destruct Hi.
  - intros r. exact ex_schedule.
  - exact Hs.
  - intros b n i Hi Hn. vm_compute in Hi. unfold exh_m.
    assert (64 <= b) by (repeat (destruct Hi as [Hi|Hi]; [injection Hi as <- <-; lia|]); destruct Hi).
    destruct (Nat.ltb_spec (b + i) 12); [lia|discriminate].
  - intros a i j H1 H2 H3. change (aL (CP exh_px)) with 3 in H2. change (hH hk3) with 2 in H3.
    destruct a as [|[|a]]; [| |lia]; (destruct i as [|[|[|i]]]; [| | |lia]); (destruct j as [|[|j]]; [| |lia]); reflexivity.
  - intros a H1 i H2. change (aL (CP exh_px)) with 3 in *. change (origin (CP exh_px)) with 1.
    destruct i as [|[|[|i]]]; [| | |lia]; cbn; apply C_ext; cbn; ring.
  - vm_compute. lia.
  - intros a H1. left. vm_compute. lia.
Qed.

Definition exh_x3 (a i j l : nat) : C := RtoC (INR (if l =? 0 then a + i * (2 - i) + j * (2 - j) else a + 2 * i + j)).
Definition exh_m3 : Mem.mem C := fun ad => if ad <? 36 then Val (exh_x3 (ad / 18) (ad mod 18 / 6) (ad mod 6 / 2) (ad mod 2)) else Undef.
Definition exh_p3 := mkpad 3 5 6 6 2 1 false 2 1 false.
Definition exh_F3 (a : nat) : addr := 64 + 48 * a.
Definition exh_room2 (th : nat) : room2 :=
  let base := 300 + 500 * th in mkroom2 (fun a => base + 20 * a) (fun b => base + 40 + 20 * b) (base + 80) 2 (exh_room (base + 200)).
Example C51_case3 : wf (CP exh_p3) /\ wf (CP exh_px) /\ hwf hk3 /\ hagree3 (CP exh_p3) (CP exh_px) hk3 /\
  separated (data_blocks (CP exh_p3) (fun a => 18 * a) 0 ++ hwork3 1 (CP exh_p3) (CP exh_px) hk3 2 exh_F3 (fun b => 170) 240 exh_room2) /\
  TWP (hconstruct_convolve3 1 (CP exh_p3) (CP exh_px) hk3 realMultBinary 2 ex_sch exh_F3 (fun b => 170) 240 exh_room2 (fun _ _ => ex_sch) (fun a => 18 * a) 0) exh_m3
    (fun m' => m' 8 = Val (RtoC 290) /\ m' 40 = Undef).
Proof.
  assert (Hx : wf (CP exh_p3)) by (repeat split; vm_compute; try reflexivity; lia).
  assert (Hy : wf (CP exh_px)) by (repeat split; vm_compute; try reflexivity; lia).
  assert (Ha2 : hagree2 (CP exh_px) hk3) by (constructor; try reflexivity; try (vm_compute; lia)).
  assert (Ha : hagree3 (CP exh_p3) (CP exh_px) hk3) by (constructor; [exact Ha2|vm_compute; lia..]).
  assert (Hs : separated (data_blocks (CP exh_p3) (fun a => 18 * a) 0 ++ hwork3 1 (CP exh_p3) (CP exh_px) hk3 2 exh_F3 (fun b => 170) 240 exh_room2)) by (apply sepb_sound; vm_compute; reflexivity).
  split; [exact Hx|]. split; [exact Hy|]. split; [exact hk3_wf|]. split; [exact Ha|]. split; [exact Hs|].
  eapply TWP_mono; [|apply (C51_hermitian_convolution3 1 exh_p3 exh_px hk3 (le_n 1) Hx Hy hk3_wf Ha 2 ex_sch exh_F3 (fun b => 170) 240 exh_room2 (fun _ _ => ex_sch) (fun a => 18 * a) 0) with (x := exh_x3)].
  - intros m' [E1 E2]. split.
    + specialize (E1 1 1 0 ltac:(vm_compute; lia) ltac:(vm_compute; lia) ltac:(vm_compute; lia)). change (18 * 0 + 0 + gS (CP exh_p3) * 1 + gS (CP exh_px) * 1 + 0) with 8 in E1.
      rewrite E1. apply (f_equal Val). unfold oconv3, full3. cbn. apply C_ext; cbn; ring.
    + rewrite E2; [reflexivity| |].
      * intros (a & i & j & l & H1 & H2 & H3 & H4 & E). change (aL (CP exh_p3)) with 3 in H2. change (aL (CP exh_px)) with 3 in H3.
        change (gS (CP exh_p3)) with 6 in E. change (gS (CP exh_px)) with 2 in E. change (hH hk3) with 2 in H4. lia.
      * intros b n Hi. vm_compute in Hi. repeat (destruct Hi as [Hi|Hi]; [injection Hi as <- <-; lia|]). destruct Hi.
  - intros r. exact ex_schedule.
  - intros th k r Hth. exact ex_schedule.
  - exact Hs.
  - intros b n i Hi Hn. vm_compute in Hi. unfold exh_m3.
    assert (64 <= b) by (repeat (destruct Hi as [Hi|Hi]; [injection Hi as <- <-; lia|]); destruct Hi).
    destruct (Nat.ltb_spec (b + i) 36); [lia|discriminate].
  - intros a i j l H1 H2 H3 H4. change (aL (CP exh_p3)) with 3 in H2. change (aL (CP exh_px)) with 3 in H3. change (hH hk3) with 2 in H4.
    destruct a as [|[|a]]; [| |lia]; (destruct i as [|[|[|i]]]; [| | |lia]); (destruct j as [|[|[|j]]]; [| | |lia]); (destruct l as [|[|l]]; [| |lia]); reflexivity.
  - intros a H1 i j H2 H3. change (aL (CP exh_p3)) with 3 in *. change (aL (CP exh_px)) with 3 in *. change (origin (CP exh_p3)) with 1. change (origin (CP exh_px)) with 1.
    destruct i as [|[|[|i]]]; [| | |lia]; (destruct j as [|[|[|j]]]; [| | |lia]); cbn; apply C_ext; cbn; ring.
  - vm_compute. lia.
  - intros a H1. split; left; vm_compute; lia.
Qed.

(** two earlier calls with other data, then a call with the data above *)
Definition exh_user (k : nat) (m : Mem.mem C) : Mem.mem C := fun ad => if ad <? 12 then Val (exh_x (k + ad / 6) (ad mod 6 / 2) (ad mod 2)) else m ad.
Definition exh_user3 (k : nat) (m : Mem.mem C) : Mem.mem C := fun ad => if ad <? 36 then Val (exh_x3 (k + ad / 18) (ad mod 18 / 6) (ad mod 6 / 2) (ad mod 2)) else m ad.
Example C51_history_case2 : let work := hwork2 1 (CP exh_px) hk3 2 exh_F (fun b => 96) 112 (exh_room 128) in
  (forall k, keeps work (exh_user k) /\ exists y, (forall a, a < 2 -> hermitian0 1 3 (y a)) /\ forall m, holds2 2 3 2 2 (fun a => 6 * a) 0 y (exh_user k m)) /\
  TWP (TSeq (emb (hconvolution2_cmd (CP exh_px) 112))
            (calls (lconvolve (hconvolution2 1 (CP exh_px) hk3 realMultBinary 2 ex_sch exh_F (fun b => 96) 112 (exh_room 128)) (arr 2 (fun a => 6 * a)) 0)
               ([exh_user 3; exh_user 1] ++ [exh_user 0]))) exh_m
    (fun m' => m' 2 = Val (RtoC 42)).
Proof.
  intros work.
  assert (Hb : forall b n, In (b, n) work -> 64 <= b).
  { intros b n Hi. vm_compute in Hi. repeat (destruct Hi as [Hi|Hi]; [injection Hi as <- <-; lia|]); destruct Hi. }
  assert (Hk : forall k, keeps work (exh_user k)).
  { intros k m. split.
    - intros b n i Hi Hn. specialize (Hb b n Hi). unfold exh_user. destruct (Nat.ltb_spec (b + i) 12); [lia|reflexivity].
    - intros a Ha. unfold exh_user. destruct (a <? 12); [discriminate|exact Ha]. }
  assert (Hy : forall k a, hermitian0 1 3 (exh_x (k + a))).
  { intros k a i Hi. unfold exh_x. destruct i as [|[|[|i]]]; [| | |lia]; cbn -[INR]; apply C_ext; cbn -[INR]; ring. }
  assert (Hh : forall k m, holds2 2 3 2 2 (fun a => 6 * a) 0 (fun a => exh_x (k + a)) (exh_user k m)).
  { intros k m a i j H1 H2 H3. destruct a as [|[|a]]; [| |lia]; (destruct i as [|[|[|i]]]; [| | |lia]); (destruct j as [|[|j]]; [| |lia]); reflexivity. }
  split.
  { intros k. split; [apply Hk|]. exists (fun a => exh_x (k + a)). split; [intros a Ha; apply Hy|apply Hh]. }
  assert (Hx : wf (CP exh_px)) by (repeat split; vm_compute; try reflexivity; lia).
  assert (Ha : hagree2 (CP exh_px) hk3) by (constructor; try reflexivity; try (vm_compute; lia)).
  assert (Hs : separated (data_blocks (CP exh_px) (fun a => 6 * a) 0 ++ work)) by (apply sepb_sound; vm_compute; reflexivity).
  eapply TWP_mono; [|apply (C51_hermitian_convolution2_history 1 exh_px hk3 (le_n 1) Hx hk3_wf Ha 2 ex_sch exh_F (fun b => 96) 112 (exh_room 128) (fun a => 6 * a) 0) with (x := fun a => exh_x (0 + a))].
  - intros m' E1. specialize (E1 0 1 0 ltac:(lia) ltac:(vm_compute; lia) ltac:(vm_compute; lia)). etransitivity; [exact E1|].
    apply (f_equal Val). unfold ocyc2, full2. cbn. apply C_ext; cbn; ring.
  - intros r. exact ex_schedule.
  - exact Hs.
  - intros b n i Hi Hn. specialize (Hb b n Hi). unfold exh_m. destruct (Nat.ltb_spec (b + i) 12); [lia|discriminate].
  - intros s [<- | [<- | []]]; (split; [apply Hk|]).
    + exists (fun a => exh_x (3 + a)). split; [intros a Haa; apply Hy|apply Hh].
    + exists (fun a => exh_x (1 + a)). split; [intros a Haa; apply Hy|apply Hh].
  - apply Hk.
  - intros a Haa. apply Hy.
  - apply Hh.
Qed.
Example C51_history_case3 : let work := hwork3 1 (CP exh_p3) (CP exh_px) hk3 2 exh_F3 (fun b => 170) 240 exh_room2 in
  forall k, keeps work (exh_user3 k) /\ exists y, (forall a, a < 2 -> hermitian00 1 3 1 3 (y a)) /\ forall m, holds3 2 3 3 2 6 2 (fun a => 18 * a) 0 y (exh_user3 k m).
Proof.
  intros work k. split; [|exists (fun a => exh_x3 (k + a)); split].
  - assert (Hb : forall b n, In (b, n) work -> 64 <= b).
    { intros b n Hi. vm_compute in Hi. repeat (destruct Hi as [Hi|Hi]; [injection Hi as <- <-; lia|]); destruct Hi. }
    intros m. split.
    + intros b n i Hi Hn. specialize (Hb b n Hi). unfold exh_user3. destruct (Nat.ltb_spec (b + i) 36); [lia|reflexivity].
    + intros a Ha. unfold exh_user3. destruct (a <? 36); [discriminate|exact Ha].
  - intros a Ha i j Hi Hj. unfold exh_x3. destruct i as [|[|[|i]]]; [| | |lia]; (destruct j as [|[|[|j]]]; [| | |lia]); cbn -[INR]; apply C_ext; cbn -[INR]; ring.
  - intros m a i j l H1 H2 H3 H4.
    destruct a as [|[|a]]; [| |lia]; (destruct i as [|[|[|i]]]; [| | |lia]); (destruct j as [|[|[|j]]]; [| | |lia]); (destruct l as [|[|l]]; [| |lia]); reflexivity.
Qed.

(** planes of 4 words are too small for 3 rows of 2 words *)
Definition exh_p4 := mkpad 3 5 4 4 2 1 false 2 1 false.
Example C51_case_strides :
  exec (hconvolution3_cmd (CP exh_p4) (CP exh_px) 2 240 exh_room2) exh_m3 ExitErr.
Proof.
  assert (Hy : wf (CP exh_px)) by (repeat split; vm_compute; try reflexivity; lia).
  assert (Ha2 : hagree2 (CP exh_px) hk3) by (constructor; try reflexivity; try (vm_compute; lia)).
  apply (C51_strides3 1 (CP exh_p4) (CP exh_px) hk3 (le_n 1) Hy hk3_wf Ha2 ltac:(vm_compute; lia) 2 exh_F3 (fun b => 170) 240 exh_room2).
  - apply sepb_sound; vm_compute; reflexivity.
  - intros b n i Hi Hn. vm_compute in Hi. unfold exh_m3.
    assert (64 <= b) by (repeat (destruct Hi as [Hi|Hi]; [injection Hi as <- <-; lia|]); destruct Hi).
    destruct (Nat.ltb_spec (b + i) 36); [lia|discriminate].
Qed.
