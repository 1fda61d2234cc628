(** The C++ classes of HybridConvolution.h with the padded sizes chosen by the caller (or left at 0: default padding). *)
From Coq Require Import Reals ZArith Arith Lia List Bool.
From Verif Require Import CNum Sums Mem PadModel PadSpec CenModel HerModel HerSpec ConvModel ConvSpec ConvProofs HConvModel HConvSpec HConvProofs Team LayerModel LayerSpec LayerProofs
  HLayerModel HLayerSpec HLayer1 HLayer2 HLayerProofs HLayerProofs3 WrapModel WrapSpec Wrap1 Wrap2 Wrap3 Xf XfProofs.
Import ListNotations.
Notation mem := (Mem.mem C).

Lemma padded_fits L M : 1 <= L -> M = 0 \/ 2 * L <= M + 1 -> 2 * L <= padded 2 L M + 1.
Proof. unfold padded. destruct (Nat.eqb_spec M 0); lia. Qed.
Lemma paddedHermitian_fits L M : M = 0 \/ 3 * cq L 2 <= M + 2 -> 3 * cq L 2 <= paddedHermitian L M + 2.
Proof.
  unfold paddedHermitian. pose proof (Nat.mod_upper_bound L 2 ltac:(lia)). destruct (Nat.eqb_spec M 0); lia.
Qed.

Lemma explicit1 L M ch : let t := HybridConvolution L M 2 1 ch in wf t -> M = 0 \/ 2 * L <= M + 1 ->
  forall g F V w x m0, buffers t g F V w m0 -> holds 2 L g x m0 ->
  WP (construct_convolve t multBinary F V w g) m0 (fun m' =>
    (forall j, j < L -> m' (g 0 + j) = Val (linconv (x 0) (x 1) j)) /\
    (forall a, outside t g F V w a -> m' a = m0 a)).
Proof.
  intros t Hwf HM g F V w x m0 Hb Hx.
  exact (linear_FP _ Hwf eq_refl eq_refl eq_refl (padded_fits L M (proj1 Hwf) HM) g F V w x m0 Hb Hx).
Qed.
Lemma explicit2 Lx Ly Mx My chx chy : let tx := fst (HybridConvolution2 Lx Ly Mx My 2 1 chx chy) in let ty := snd (HybridConvolution2 Lx Ly Mx My 2 1 chx chy) in
  wf tx -> wf ty -> (Ly = 1 -> gD tx = 1) -> Mx = 0 \/ 2 * Lx <= Mx + 1 -> My = 0 \/ 2 * Ly <= My + 1 ->
  forall T sch F V w rooms f off, (forall r, schedule T (gl tx) (sch r)) ->
  separated (data_blocks tx f off ++ work2 tx ty T F V w rooms) ->
  forall x m0, provided (work2 tx ty T F V w rooms) m0 -> holds2 2 Lx Ly Ly f off x m0 ->
  TWP (construct_convolve2 tx ty (fun _ => multBinary) T sch F V w rooms f off) m0 (fun m' =>
    (forall i j, i < Lx -> j < Ly -> m' (f 0 + off + Ly * i + j) = Val (linconv2 (x 0) (x 1) i j)) /\
    (forall ad, ~ element2 2 Lx Ly Ly f off ad -> elsewhere (work2 tx ty T F V w rooms) ad -> m' ad = m0 ad)).
Proof.
  intros tx ty Hx Hy HD HMx HMy T sch F V w rooms f off Hsch Hs x m0 Hp Hh.
  assert (Ha : agree2 tx ty). { constructor; try reflexivity; try exact HD; try (cbn; lia). }
  exact (linear2_FP _ _ Hx Hy Ha eq_refl eq_refl (padded_fits Lx Mx (proj1 Hx) HMx) (padded_fits Ly My (proj1 Hy) HMy) T sch F V w rooms f off Hsch Hs x m0 Hp Hh).
Qed.
Lemma explicit3 Lx Ly Lz Mx My Mz chx chy chz : let t3 := HybridConvolution3 Lx Ly Lz Mx My Mz 2 1 chx chy chz in
  let tx := fst (fst t3) in let ty := snd (fst t3) in let tz := snd t3 in
  wf tx -> wf ty -> wf tz -> (Ly * Lz = 1 -> gD tx = 1) -> (Lz = 1 -> gD ty = 1) ->
  Mx = 0 \/ 2 * Lx <= Mx + 1 -> My = 0 \/ 2 * Ly <= My + 1 -> Mz = 0 \/ 2 * Lz <= Mz + 1 ->
  forall T sch F V w rooms schy f off, (forall r, schedule T (gl tx) (sch r)) ->
  (forall th k r, th < T -> schedule (r2T (rooms th)) (gl ty) (schy th k r)) ->
  separated (data_blocks tx f off ++ work3 tx ty tz T F V w rooms) ->
  forall x m0, provided (work3 tx ty tz T F V w rooms) m0 -> holds3 2 Lx Ly Lz (Ly * Lz) Lz f off x m0 ->
  TWP (construct_convolve3 tx ty tz (fun _ _ => multBinary) T sch F V w rooms schy f off) m0 (fun m' =>
    (forall i j l, i < Lx -> j < Ly -> l < Lz -> m' (f 0 + off + Ly * Lz * i + Lz * j + l) = Val (linconv3 (x 0) (x 1) i j l)) /\
    (forall ad, ~ element3 2 Lx Ly Lz (Ly * Lz) Lz f off ad -> elsewhere (work3 tx ty tz T F V w rooms) ad -> m' ad = m0 ad)).
Proof.
  intros t3 tx ty tz Hx Hy Hz HDx HDy HMx HMy HMz T sch F V w rooms schy f off Hsch Hschy Hs x m0 Hp Hh.
  assert (Ha : agree2 ty tz). { constructor; try reflexivity; try exact HDy; try (cbn; lia). }
  assert (Ha3 : agree3 tx ty tz). { constructor; try reflexivity; try exact HDx; try assumption.
    - change (gS ty) with Lz. change (gC ty) with Lz. rewrite Nat.eqb_refl. reflexivity. }
  exact (linear3_FP _ _ _ Hx Hy Hz Ha3 eq_refl eq_refl (padded_fits Lx Mx (proj1 Hx) HMx) (padded_fits Ly My (proj1 Hy) HMy) (padded_fits Lz Mz (proj1 Hz) HMz)
    T sch F V w rooms schy f off Hsch Hschy Hs x m0 Hp Hh).
Qed.

Lemma explicitH1 L M ch al : let t := HybridConvolutionHermitian L M 2 1 ch in hwf t -> 1 <= al -> M = 0 \/ 3 * cq L 2 <= M + 2 ->
  forall g F V w (x : nat -> nat -> C) m0, hbuffers al t g F V w m0 ->
  let H := cq L 2 in
  (forall a j, a < 2 -> j < H -> m0 (g a + j) = Val (x a j)) -> (forall a, a < 2 -> im (x a 0) = 0%R) ->
  kq t = 1 \/ kn t mod 2 = 0 \/ initialised al t F m0 ->
  WP (hconstruct_convolve al t realMultBinary F V w g) m0 (fun m' =>
    (forall j, j < H -> m' (g 0 + j) = Val (oconv (H - 1) (2 * H - 1) (hseq H (x 0)) (hseq H (x 1)) (j + (H - 1)))) /\
    (forall j, j < H -> m' (g 1 + j) = Val (x 1 j)) /\
    (forall a, houtside al t g F V w a -> m' a = m0 a)).
Proof.
  intros t Hw Hal HM g F V w x m0 Hb H Hx Him Hev.
  exact (hlin_thm al t Hw Hal eq_refl eq_refl eq_refl g F V w x m0 Hb Hx Him Hev (paddedHermitian_fits L M HM)).
Qed.
Lemma explicitH2 Lx Ly Mx My chx chy al : let th := HybridConvolutionHermitian2 Lx Ly Mx My 2 1 chx chy in let tx := fst th in let ty := snd th in
  1 <= al -> wf tx -> hwf ty -> (cq Ly 2 = 1 -> gD tx = 1) -> kq ty = 1 \/ kn ty mod 2 = 0 -> My = 0 \/ 3 * cq Ly 2 <= My + 2 ->
  forall T sch F V w rooms f off, (forall r, schedule T (gl tx) (sch r)) ->
  separated (data_blocks tx f off ++ hwork2 al tx ty T F V w rooms) ->
  forall x m0, provided (hwork2 al tx ty T F V w rooms) m0 ->
  let H := cq Ly 2 in let c := Lx / 2 in
  holds2 2 Lx H H f off x m0 -> (forall a, a < 2 -> hermitian0 c Lx (x a)) ->
  (forall a, a < 2 -> unaliased2 c Lx H (gM tx) (x a)) ->
  TWP (hconstruct_convolve2 al tx ty realMultBinary T sch F V w rooms f off) m0 (fun m' =>
    (forall i j, i < Lx -> j < H -> m' (f 0 + off + H * i + j) =
       Val (oconv2 c (2 * c + 1) (H - 1) (2 * H - 1) (full2 c Lx H (x 0)) (full2 c Lx H (x 1)) i (j + (H - 1)))) /\
    (forall ad, ~ element2 2 Lx H H f off ad -> elsewhere (hwork2 al tx ty T F V w rooms) ad -> m' ad = m0 ad)).
Proof.
  intros th tx ty Hal Hx Hy HD Hev HMy T sch F V w rooms f off Hsch Hs x m0 Hp H c Hh Hsym Hun.
  assert (Ha : hagree2 tx ty). { constructor; try reflexivity; assumption. }
  exact (h2_linear al _ _ T sch F V w rooms f off Hal Hx Hy Ha Hsch Hs x m0 Hp Hh Hsym (paddedHermitian_fits Ly My HMy) Hun).
Qed.
Lemma explicitH3 Lx Ly Lz Mx My Mz chx chy chz al : let th := HybridConvolutionHermitian3 Lx Ly Lz Mx My Mz 2 1 chx chy chz in
  let tx := fst (fst th) in let ty := snd (fst th) in let tz := snd th in
  1 <= al -> wf tx -> wf ty -> hwf tz -> (Ly * cq Lz 2 = 1 -> gD tx = 1) -> (cq Lz 2 = 1 -> gD ty = 1) -> kq tz = 1 \/ kn tz mod 2 = 0 ->
  Mz = 0 \/ 3 * cq Lz 2 <= Mz + 2 ->
  forall T sch F V w rooms schy f off, (forall r, schedule T (gl tx) (sch r)) ->
  (forall th k r, th < T -> schedule (r2T (rooms th)) (gl ty) (schy th k r)) ->
  separated (data_blocks tx f off ++ hwork3 al tx ty tz T F V w rooms) ->
  forall x m0, provided (hwork3 al tx ty tz T F V w rooms) m0 ->
  let H := cq Lz 2 in let c := Lx / 2 in let c' := Ly / 2 in
  holds3 2 Lx Ly H (Ly * H) H f off x m0 -> (forall a, a < 2 -> hermitian00 c Lx c' Ly (x a)) ->
  (forall a, a < 2 -> unaliased3 c Lx (gM tx) c' Ly (gM ty) H (x a)) ->
  TWP (hconstruct_convolve3 al tx ty tz realMultBinary T sch F V w rooms schy f off) m0 (fun m' =>
    (forall i j l, i < Lx -> j < Ly -> l < H -> m' (f 0 + off + Ly * H * i + H * j + l) =
       Val (oconv3 c (2 * c + 1) c' (2 * c' + 1) (H - 1) (2 * H - 1) (full3 c Lx c' Ly H (x 0)) (full3 c Lx c' Ly H (x 1)) i j (l + (H - 1)))) /\
    (forall ad, ~ element3 2 Lx Ly H (Ly * H) H f off ad -> elsewhere (hwork3 al tx ty tz T F V w rooms) ad -> m' ad = m0 ad)).
Proof.
  intros th tx ty tz Hal Hx Hy Hz HDx HDy Hev HMz T sch F V w rooms schy f off Hsch Hschy Hs x m0 Hp H c c' Hh Hsym Hun.
  assert (Hyz : hagree2 ty tz). { constructor; try reflexivity; assumption. }
  assert (Ha : hagree3 tx ty tz). { constructor; try reflexivity; try assumption.
    - change (gS ty) with (cq Lz 2). change (gC ty) with (cq Lz 2). rewrite Nat.eqb_refl. reflexivity. }
  exact (h3_linear al _ _ _ T sch F V w rooms schy f off Hal Hx Hy Hz Ha Hsch Hschy Hs x m0 Hp Hh Hsym (paddedHermitian_fits Lz Mz HMz) Hun).
Qed.
