(** The convolution classes give what the direct convolutions give: the remaining kinds of data. *)
From Coq Require Import Reals ZArith Arith Lia List Bool.
From Verif Require Import CNum Sums Mem PadModel PadSpec CenModel HerModel HerSpec ConvModel ConvSpec ConvProofs Conv9 HConvModel HConvSpec HConvProofs Team LayerModel LayerSpec LayerProofs
  HLayerModel HLayerSpec WrapModel WrapSpec Wrap1 PropsWrap DirModel DirSpec Dir1 Dir2 DirProofs DirAgree Xf.
Import ListNotations.
Notation mem := (Mem.mem C).
Local Open Scope nat_scope.

Lemma hbuffers_mem al t g F V w (m m1 : mem) : (forall a, m a <> Unalloc -> m1 a <> Unalloc) -> hbuffers al t g F V w m -> hbuffers al t g F V w m1.
Proof. intros Ha [b1 b2 b3 b4 b5 b6 b7 b8 b9 c1 c2 c3 c4]. constructor; try assumption; [intros a Hlt i Hi; apply Ha, (c1 a Hlt i Hi)|intros a Hlt i Hi; apply Ha, (c2 a Hlt i Hi)|intros a Hlt i Hi; apply Ha, (c3 a Hlt i Hi)|intros i Hi; apply Ha, (c4 i Hi)]. Qed.
Lemma agree_h1 al n ch : let t := create_hconv1d (hlength n) ch in 1 <= al -> 1 <= n -> hwf t -> kq t = 1 \/ kn t mod 2 = 0 ->
  forall F V w f g h x m0, hbuffers al t (pair_of f g) F V w m0 -> holds 2 n (pair_of f g) x m0 -> im (x 0 0) = 0%R -> im (x 1 0) = 0%R ->
  (forall j, j < n -> m0 (h + j) <> Unalloc /\ houtside al t (pair_of f g) F V w (h + j)) ->
  TWP (TSeq (emb (Par 1 (fun _ => dconvh n h (nd_base f) (nd_base g)))) (hpy_convolve1 al t F V w f g)) m0
    (fun m' => forall j, j < n -> exists v, m' (nd_base f + j) = Val v /\ m' (h + j) = Val v).
Proof.
  intros t Hal Hn Hw Hev F V w f g h x m0 Hb Hx X0 X1 Hh.
  assert (EH : hH t = n) by (exact (proj1 (Wrap3.hlength_H n Hn))).
  assert (Hsep : forall b, b < 2 -> forall a, Wrap1.block (pair_of f g b) n a -> Wrap1.block h n a -> False).
  { intros b Hb' a [A1 A2] [B1 B2]. destruct (proj2 (Hh (a - h) ltac:(lia))) as [O _]. apply (O b Hb'). unfold span_of. rewrite EH. lia. }
  assert (R : forall z : C, im z = 0%R -> z = RtoC (re z)) by (intros z Hz; apply C_ext; [reflexivity|exact Hz]).
  apply TWP_seq, TWP_emb. eapply WP_mono; [|apply (dconvh_ok n h (nd_base f) (nd_base g) (x 0) (x 1) m0)].
  - intros m1 [A1 B1]. eapply TWP_mono; [|apply (C55_hermitian1 al n ch Hal Hn Hw Hev F V w f g x m1)].
    + intros m2 [A2 B2] j Hj. eexists. split; [apply A2; exact Hj|]. rewrite B2; [apply A1; exact Hj|]. apply Hh. exact Hj.
    + eapply hbuffers_mem; [|exact Hb]. apply B1.
    + intros a i Ha Hi. rewrite (proj1 B1); [apply Hx; assumption|]. intros Hc. apply (Hsep a Ha (pair_of f g a + i)); [unfold Wrap1.block; lia|exact Hc].
  - intros j Hj. exact (Hx 0 j ltac:(lia) Hj).
  - intros j Hj. exact (Hx 1 j ltac:(lia) Hj).
  - intros j Hj. apply Hh. exact Hj.
  - exact (Hsep 0 ltac:(lia)).
  - exact (Hsep 1 ltac:(lia)).
  - apply R. exact X0.
  - apply R. exact X1.
Qed.
Lemma agree2d Lx Ly chx chy : let tx := fst (create_conv2d Lx Ly chx chy) in let ty := snd (create_conv2d Lx Ly chx chy) in
  wf tx -> wf ty -> (Ly = 1 -> gD tx = 1) ->
  forall T sch F V w rooms f g h, nd_shape f = [Lx; Ly] -> nd_shape g = [Lx; Ly] -> (forall r, schedule T (gl tx) (sch r)) ->
  let work := work2 tx ty T F V w rooms in
  separated (data_blocks tx (pair_of f g) 0 ++ work) ->
  forall x m0, provided work m0 -> holds2 2 Lx Ly Ly (pair_of f g) 0 x m0 ->
  (forall o, o < Lx * Ly -> m0 (h + o) <> Unalloc /\ ~ element2 2 Lx Ly Ly (pair_of f g) 0 (h + o) /\ elsewhere work (h + o)) ->
  TWP (TSeq (emb (Par 1 (fun _ => dconv2 Lx Ly (stride2 Ly 0) h (nd_base f) (nd_base g))))
         (TSeq (emb (convolution2_cmd tx ty (fun _ => multBinary) T w rooms)) (py_convolve2 [Lx; Ly] tx ty T sch F V w rooms f g))) m0
    (fun m' => forall i j, i < Lx -> j < Ly -> exists v, m' (nd_base f + Ly * i + j) = Val v /\ m' (h + (i * Ly + j)) = Val v).
Proof.
  intros tx ty Hx Hy HD T sch F V w rooms f g h Ef Eg Hsch work Hs x m0 Hp Hh Ho.
  assert (Hsep : forall b, b < 2 -> forall a, cells2 (pair_of f g b) Ly Lx Ly a -> Wrap1.block h (Lx * Ly) a -> False).
  { intros b Hb a (i & j & Hi & Hj & E) [B1 B2]. destruct (Ho (a - h) ltac:(lia)) as [_ [Hn' _]]. apply Hn'. exists b, i, j. repeat split; try assumption. lia. }
  apply TWP_seq, TWP_emb. eapply WP_mono; [|apply (dconv2_ok Lx Ly 0 h (nd_base f) (nd_base g) (x 0) (x 1) m0)]; change (stride2 Ly 0) with Ly.
  - intros m1 [A1 B1]. eapply TWP_mono; [|apply (C55_convolution2 Lx Ly chx chy Hx Hy HD T sch F V w rooms f g Ef Eg Hsch Hs x m1)].
    + intros m2 [A2 B2] i j Hi Hj. eexists. split; [apply A2; assumption|]. pose proof (dense2_lt Lx Ly i j Hi Hj) as Hd.
      rewrite B2; [apply A1; assumption|apply Ho; exact Hd|apply Ho; exact Hd].
    + intros b k i Hi Hk. apply (proj2 B1). exact (Hp b k i Hi Hk).
    + intros a i j Ha Hi Hj. rewrite (proj1 B1); [apply Hh; assumption|]. intros Hc. apply (Hsep a Ha _) with (2 := Hc). exists i, j. repeat split; try assumption. lia.
  - intros i j Hi Hj. specialize (Hh 0 i j ltac:(lia) Hi Hj). rewrite <- Hh. f_equal. change (pair_of f g 0) with (nd_base f). lia.
  - intros i j Hi Hj. specialize (Hh 1 i j ltac:(lia) Hi Hj). rewrite <- Hh. f_equal. change (pair_of f g 1) with (nd_base g). lia.
  - intros o Hoo. apply Ho. exact Hoo.
  - exact (Hsep 0 ltac:(lia)).
  - exact (Hsep 1 ltac:(lia)).
Qed.
Lemma agree3d Lx Ly Lz chx chy chz : let tx := fst (fst (create_conv3d Lx Ly Lz chx chy chz)) in let ty := snd (fst (create_conv3d Lx Ly Lz chx chy chz)) in
  let tz := snd (create_conv3d Lx Ly Lz chx chy chz) in
  wf tx -> wf ty -> wf tz -> (Ly * Lz = 1 -> gD tx = 1) -> (Lz = 1 -> gD ty = 1) ->
  forall T sch F V w rooms schy f g h, nd_shape f = [Lx; Ly; Lz] -> nd_shape g = [Lx; Ly; Lz] -> (forall r, schedule T (gl tx) (sch r)) ->
  (forall th k r, th < T -> schedule (r2T (rooms th)) (gl ty) (schy th k r)) ->
  let work := work3 tx ty tz T F V w rooms in
  separated (data_blocks tx (pair_of f g) 0 ++ work) ->
  forall x m0, provided work m0 -> holds3 2 Lx Ly Lz (Ly * Lz) Lz (pair_of f g) 0 x m0 ->
  (forall o, o < Lx * Ly * Lz -> m0 (h + o) <> Unalloc /\ ~ element3 2 Lx Ly Lz (Ly * Lz) Lz (pair_of f g) 0 (h + o) /\ elsewhere work (h + o)) ->
  TWP (TSeq (emb (Par 1 (fun _ => dconv3 Lx Ly Lz (stride3x Ly Lz 0 0) (stride3y Lz 0) h (nd_base f) (nd_base g))))
         (TSeq (emb (convolution3_cmd tx ty tz (fun _ _ => multBinary) T w rooms)) (py_convolve3 [Lx; Ly; Lz] tx ty tz T sch F V w rooms schy f g))) m0
    (fun m' => forall i j l, i < Lx -> j < Ly -> l < Lz -> exists v, m' (nd_base f + Ly * Lz * i + Lz * j + l) = Val v /\ m' (h + (i * (Ly * Lz) + j * Lz + l)) = Val v).
Proof.
  intros tx ty tz Hx Hy Hz HDx HDy T sch F V w rooms schy f g h Ef Eg Hsch Hschy work Hs x m0 Hp Hh Ho.
  assert (Hsep : forall b, b < 2 -> forall a, cells3 (pair_of f g b) (Ly * Lz) Lz Lx Ly Lz a -> Wrap1.block h (Lx * Ly * Lz) a -> False).
  { intros b Hb a (i & j & l & Hi & Hj & Hl & E) [B1 B2]. destruct (Ho (a - h) ltac:(lia)) as [_ [Hn' _]]. apply Hn'. exists b, i, j, l. repeat split; try assumption. lia. }
  apply TWP_seq, TWP_emb. eapply WP_mono; [|apply (dconv3_ok Lx Ly Lz 0 0 h (nd_base f) (nd_base g) (x 0) (x 1) m0)]; change (stride3y Lz 0) with Lz; change (stride3x Ly Lz 0 0) with (Ly * Lz).
  - intros m1 [A1 B1]. eapply TWP_mono; [|apply (C55_convolution3 Lx Ly Lz chx chy chz Hx Hy Hz HDx HDy T sch F V w rooms schy f g Ef Eg Hsch Hschy Hs x m1)].
    + intros m2 [A2 B2] i j l Hi Hj Hl. eexists. split; [apply A2; assumption|]. pose proof (dense3_lt Lx Ly Lz i j l Hi Hj Hl) as Hd.
      rewrite B2; [apply A1; assumption|apply Ho; exact Hd|apply Ho; exact Hd].
    + intros b k i Hi Hk. apply (proj2 B1). exact (Hp b k i Hi Hk).
    + intros a i j l Ha Hi Hj Hl. rewrite (proj1 B1); [apply Hh; assumption|]. intros Hc. apply (Hsep a Ha _) with (2 := Hc). exists i, j, l. repeat split; try assumption. lia.
  - intros i j l Hi Hj Hl. specialize (Hh 0 i j l ltac:(lia) Hi Hj Hl). rewrite <- Hh. f_equal. change (pair_of f g 0) with (nd_base f). lia.
  - intros i j l Hi Hj Hl. specialize (Hh 1 i j l ltac:(lia) Hi Hj Hl). rewrite <- Hh. f_equal. change (pair_of f g 1) with (nd_base g). lia.
  - intros o Hoo. apply Ho. exact Hoo.
  - exact (Hsep 0 ltac:(lia)).
  - exact (Hsep 1 ltac:(lia)).
Qed.
Lemma agree_h3 al n Lx Ly chx chy chz : let o := create_hconv3d Lx Ly (hlength n) chx chy chz in
  let tx := fst (fst o) in let ty := snd (fst o) in let tz := snd o in
  1 <= al -> 1 <= n -> 1 <= Lx -> 1 <= Ly -> wf tx -> wf ty -> hwf tz -> (Ly * n = 1 -> gD tx = 1) -> (n = 1 -> gD ty = 1) -> kq tz = 1 \/ kn tz mod 2 = 0 ->
  forall T sch F V w rooms schy f g h, nd_shape f = [Lx; Ly; n] -> nd_shape g = [Lx; Ly; n] -> (forall r, schedule T (gl tx) (sch r)) ->
  (forall th k r, th < T -> schedule (r2T (rooms th)) (gl ty) (schy th k r)) ->
  let work := hwork3 al tx ty tz T F V w rooms in
  separated (data_blocks tx (pair_of f g) 0 ++ work) ->
  forall x m0, provided work m0 -> holds3 2 Lx Ly n (Ly * n) n (pair_of f g) 0 x m0 -> hermitian_data3 Lx Ly n (x 0) -> hermitian_data3 Lx Ly n (x 1) ->
  (forall o, o < Lx * Ly * n -> m0 (h + o) <> Unalloc /\ ~ element3 2 Lx Ly n (Ly * n) n (pair_of f g) 0 (h + o) /\ elsewhere work (h + o)) ->
  TWP (TSeq (emb (dconvh3 ((Lx + 1) / 2) ((Ly + 1) / 2) n (Nat.odd Lx) (Nat.odd Ly) (Ly * n) n false h (nd_base f) (nd_base g)))
         (TSeq (emb (hconvolution3_cmd tx ty T w rooms)) (hpy_convolve3 al tx ty tz T sch F V w rooms schy f g))) m0
    (fun m' => forall i j l, i < Lx -> j < Ly -> l < n -> exists v, m' (nd_base f + Ly * n * i + n * j + l) = Val v /\ m' (h + (i * (Ly * n) + j * n + l)) = Val v).
Proof.
  intros o tx ty tz Hal Hn HL HL' Hx Hy Hz HDx HDy Hev T sch F V w rooms schy f g h Ef Eg Hsch Hschy work Hs x m0 Hp Hh Xh Yh Ho.
  assert (Hsep : forall b, b < 2 -> forall a, cells3 (pair_of f g b) (Ly * n) n Lx Ly n a -> Wrap1.block h (Lx * Ly * n) a -> False).
  { intros b Hb a (i & j & l & Hi & Hj & Hl & E) [B1 B2]. destruct (Ho (a - h) ltac:(lia)) as [_ [Hn' _]]. apply Hn'. exists b, i, j, l. repeat split; try assumption. lia. }
  apply TWP_seq, TWP_emb. eapply WP_mono; [|apply (given3 Lx Ly n (Ly * n) n h (nd_base f) (nd_base g) (x 0) (x 1) m0 HL HL' Hn)].
  - intros m1 [A1 B1]. eapply TWP_mono; [|apply (C55_hermitian3 al n Lx Ly chx chy chz Hal Hn Hx Hy Hz HDx HDy Hev T sch F V w rooms schy f g Ef Eg Hsch Hschy Hs x m1)].
    + intros m2 [A2 B2] i j l Hi Hj Hl. eexists. split; [apply A2; assumption|]. pose proof (dense3_lt Lx Ly n i j l Hi Hj Hl) as Hd.
      rewrite B2; [apply A1; assumption|apply Ho; exact Hd|apply Ho; exact Hd].
    + intros b k i Hi Hk. apply (proj2 B1). exact (Hp b k i Hi Hk).
    + intros a i j l Ha Hi Hj Hl. rewrite (proj1 B1); [apply Hh; assumption|]. intros Hc. apply (Hsep a Ha _) with (2 := Hc). exists i, j, l. repeat split; try assumption. lia.
  - intros i j l Hi Hj Hl. specialize (Hh 0 i j l ltac:(lia) Hi Hj Hl). rewrite <- Hh. f_equal. change (pair_of f g 0) with (nd_base f). lia.
  - intros i j l Hi Hj Hl. specialize (Hh 1 i j l ltac:(lia) Hi Hj Hl). rewrite <- Hh. f_equal. change (pair_of f g 1) with (nd_base g). lia.
  - exact Xh.
  - exact Yh.
  - intros o' Hoo. apply Ho. exact Hoo.
  - exact (Hsep 0 ltac:(lia)).
  - exact (Hsep 1 ltac:(lia)).
Qed.
