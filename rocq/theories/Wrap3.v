(** The Python convolution classes. *)
From Coq Require Import Reals ZArith Arith Lia List Bool FunctionalExtensionality.
From Verif Require Import CNum Sums Mem PadModel PadSpec CenModel HerModel HerSpec ConvModel ConvSpec ConvProofs HConvModel HConvSpec HConvProofs Team LayerModel LayerSpec LayerProofs
  HLayerModel HLayerSpec Layer6 HLayer1 HLayer2 HLayerMath HLayerMath3 HLayerProofs HLayerProofs3 WrapModel WrapSpec Wrap1 Wrap2 Xf XfProofs.
Import ListNotations.
Notation mem := (Mem.mem C).

Lemma same_shape_refl l : same_shape l l = true.
Proof. induction l as [|a l IH]; [reflexivity|]. cbn [same_shape]. rewrite Nat.eqb_refl. exact IH. Qed.
Lemma same_shape_eq a : forall b, same_shape a b = true -> a = b.
Proof.
  induction a as [|x a IH]; intros [|y b] E; try discriminate; [reflexivity|]. cbn [same_shape] in E. apply andb_true_iff in E. destruct E as [E1 E2].
  apply Nat.eqb_eq in E1. rewrite E1, (IH b E2). reflexivity.
Qed.
Lemma assert_ok s f k : nd_shape f = s -> assert_shape s f k = k.
Proof. intros <-. unfold assert_shape. rewrite same_shape_refl. reflexivity. Qed.
Lemma padded_ge L : 1 <= L -> 2 * L <= padded 2 L 0 + 1.
Proof. unfold padded. cbn [Nat.eqb]. lia. Qed.

(** *** complex convolutions *)
Lemma py1 L ch : let t := create_conv1d L ch in wf t ->
  forall F V w f g, nd_shape f = [L] -> nd_shape g = [L] ->
  forall x m0, buffers t (pair_of f g) F V w m0 -> holds 2 L (pair_of f g) x m0 ->
  TWP (TSeq (emb (cinit_cmd (py_object1 t F V w))) (py_convolve1 [L] t F V w f g)) m0 (fun m' =>
    (forall j, j < L -> m' (nd_base f + j) = Val (linconv (x 0) (x 1) j)) /\
    (forall a, outside t (pair_of f g) F V w a -> m' a = m0 a)).
Proof.
  intros t Hwf F V w f g Ef Eg x m0 Hb Hx. unfold py_convolve1. rewrite !assert_ok by assumption.
  change (TSeq (emb (cinit_cmd (py_object1 t F V w))) (emb (convolve (py_object1 t F V w) (arr (max (aA t) (aB t)) (pair_of f g))))) with (emb (construct_convolve t multBinary F V w (pair_of f g))).
  apply TWP_emb. apply (linear_FP _ Hwf eq_refl eq_refl eq_refl (padded_ge L (proj1 Hwf)) (pair_of f g) F V w x m0 Hb Hx).
Qed.
Lemma py2 Lx Ly chx chy : let tx := fst (create_conv2d Lx Ly chx chy) in let ty := snd (create_conv2d Lx Ly chx chy) in
  wf tx -> wf ty -> (Ly = 1 -> gD tx = 1) ->
  forall T sch F V w rooms f g, nd_shape f = [Lx; Ly] -> nd_shape g = [Lx; Ly] -> (forall r, schedule T (gl tx) (sch r)) ->
  separated (data_blocks tx (pair_of f g) 0 ++ work2 tx ty T F V w rooms) ->
  forall x m0, provided (work2 tx ty T F V w rooms) m0 -> holds2 2 Lx Ly Ly (pair_of f g) 0 x m0 ->
  TWP (TSeq (emb (convolution2_cmd tx ty (fun _ => multBinary) T w rooms)) (py_convolve2 [Lx; Ly] tx ty T sch F V w rooms f g)) m0 (fun m' =>
    (forall i j, i < Lx -> j < Ly -> m' (nd_base f + Ly * i + j) = Val (linconv2 (x 0) (x 1) i j)) /\
    (forall ad, ~ element2 2 Lx Ly Ly (pair_of f g) 0 ad -> elsewhere (work2 tx ty T F V w rooms) ad -> m' ad = m0 ad)).
Proof.
  intros tx ty Hx Hy HD T sch F V w rooms f g Ef Eg Hsch Hs x m0 Hp Hh. unfold py_convolve2. rewrite !assert_ok by assumption.
  assert (Ha : agree2 tx ty). { constructor; try reflexivity; try exact HD; try (cbn; lia). }
  eapply TWP_mono; [|apply (linear2_FP _ _ Hx Hy Ha eq_refl eq_refl (padded_ge Lx (proj1 Hx)) (padded_ge Ly (proj1 Hy)) T sch F V w rooms (pair_of f g) 0 Hsch Hs x m0 Hp Hh)].
  intros m' [A B]. split; [|exact B]. intros i j Hi Hj. specialize (A i j Hi Hj). rewrite Nat.add_0_r in A. exact A.
Qed.
Lemma py3 Lx Ly Lz chx chy chz : let tx := fst (fst (create_conv3d Lx Ly Lz chx chy chz)) in let ty := snd (fst (create_conv3d Lx Ly Lz chx chy chz)) in
  let tz := snd (create_conv3d Lx Ly Lz chx chy chz) in
  wf tx -> wf ty -> wf tz -> (Ly * Lz = 1 -> gD tx = 1) -> (Lz = 1 -> gD ty = 1) ->
  forall T sch F V w rooms schy f g, nd_shape f = [Lx; Ly; Lz] -> nd_shape g = [Lx; Ly; Lz] -> (forall r, schedule T (gl tx) (sch r)) ->
  (forall th k r, th < T -> schedule (r2T (rooms th)) (gl ty) (schy th k r)) ->
  separated (data_blocks tx (pair_of f g) 0 ++ work3 tx ty tz T F V w rooms) ->
  forall x m0, provided (work3 tx ty tz T F V w rooms) m0 -> holds3 2 Lx Ly Lz (Ly * Lz) Lz (pair_of f g) 0 x m0 ->
  TWP (TSeq (emb (convolution3_cmd tx ty tz (fun _ _ => multBinary) T w rooms)) (py_convolve3 [Lx; Ly; Lz] tx ty tz T sch F V w rooms schy f g)) m0 (fun m' =>
    (forall i j l, i < Lx -> j < Ly -> l < Lz -> m' (nd_base f + Ly * Lz * i + Lz * j + l) = Val (linconv3 (x 0) (x 1) i j l)) /\
    (forall ad, ~ element3 2 Lx Ly Lz (Ly * Lz) Lz (pair_of f g) 0 ad -> elsewhere (work3 tx ty tz T F V w rooms) ad -> m' ad = m0 ad)).
Proof.
  intros tx ty tz Hx Hy Hz HDx HDy T sch F V w rooms schy f g Ef Eg Hsch Hschy Hs x m0 Hp Hh. unfold py_convolve3. rewrite !assert_ok by assumption.
  assert (Ha : agree2 ty tz). { constructor; try reflexivity; try exact HDy; try (cbn; lia). }
  assert (Ha3 : agree3 tx ty tz). { constructor; try reflexivity; try exact HDx; try assumption.
    - change (gS ty) with Lz. change (gC ty) with Lz. rewrite Nat.eqb_refl. reflexivity. }
  eapply TWP_mono; [|apply (linear3_FP _ _ _ Hx Hy Hz Ha3 eq_refl eq_refl (padded_ge Lx (proj1 Hx)) (padded_ge Ly (proj1 Hy)) (padded_ge Lz (proj1 Hz)) T sch F V w rooms schy (pair_of f g) 0 Hsch Hschy Hs x m0 Hp Hh)].
  intros m' [A B]. split; [|exact B]. intros i j l Hi Hj Hl. specialize (A i j l Hi Hj Hl). rewrite Nat.add_0_r in A. exact A.
Qed.

(** *** Hermitian convolutions *)
Lemma hlength_H n : 1 <= n -> cq (hlength n) 2 = n /\ hlength n mod 2 = 1.
Proof.
  intros Hn. unfold cq, hlength. split.
  - replace (2 * n - 1 + 2 - 1) with (n * 2) by lia. apply Nat.div_mul. lia.
  - replace (2 * n - 1) with (1 + (n - 1) * 2) by lia. rewrite Nat.mod_add by lia. reflexivity.
Qed.
Lemma paddedH n : 1 <= n -> paddedHermitian (hlength n) 0 = 3 * n - 2.
Proof. intros Hn. unfold paddedHermitian. cbn [Nat.eqb]. destruct (hlength_H n Hn) as [-> ->]. lia. Qed.
Lemma keeps_of (work : list LayerSpec.block) (m m1 : mem) : (forall a, inb work a = true -> m1 a = m a) -> (forall a, m a <> Unalloc -> m1 a <> Unalloc) ->
  exists u, keeps work u /\ u m = m1.
Proof.
  intros H1 H2. exists (fun mm a => if inb work a then mm a else match m1 a with Unalloc => mm a | v => v end). split.
  - intros mm. split.
    + intros b n i Hi Hn. replace (inb work (b + i)) with true; [reflexivity|]. symmetry. apply inb_iff. exists b, n. split; [assumption|lia].
    + intros a Ha. destruct (inb work a); [assumption|]. destruct (m1 a); [assumption|discriminate|discriminate].
  - apply functional_extensionality. intros a. destruct (inb work a) eqn:Ea; [symmetry; apply H1; assumption|].
    destruct (m1 a) eqn:E1; try reflexivity. specialize (H2 a). destruct (m a); [reflexivity| |]; exfalso; apply H2; auto; discriminate.
Qed.
Lemma TWP_store (s : mem -> mem) m (Q : mem -> Prop) : Q (s m) -> TWP (TExt (fun _ => True) (fun m m' => m' = s m)) m Q.
Proof. intros HQ. apply (TWP_emb _ (Ext (fun _ => True) (fun m m' => m' = s m))). apply WP_ext with (m' := s m); auto. Qed.

Section H2.
Variables (al n Lx : nat) (chx chy : choice).
Notation Ly := (hlength n).
Notation sx := (transform 2 1 Lx (paddedHermitian Lx 0) (cq Ly 2) chx).
Notation tx := (CP sx).
Notation ty := (transform 2 1 Ly (paddedHermitian Ly 0) 1 chy).
Hypothesis Hal : 1 <= al.
Hypothesis Hn : 1 <= n.
Hypothesis Hwx : wf tx.
Hypothesis Hwy : hwf ty.
Hypothesis HD : n = 1 -> gD tx = 1.
Hypothesis Hev : kq ty = 1 \/ kn ty mod 2 = 0.
Variables (T : nat) (sch : nat -> nat -> list nat) (F V : nat -> addr) (w : addr) (rooms : nat -> room) (f g : ndarray).
Hypothesis Ef : nd_shape f = [Lx; n].
Hypothesis Eg : nd_shape g = [Lx; n].
Hypothesis Hsch : forall r, schedule T (gl tx) (sch r).
Notation fg := (pair_of f g).
Notation work := (hwork2 al tx ty T F V w rooms).
Hypothesis Hs : separated (data_blocks tx fg 0 ++ work).
Notation hold k x := (holds2 k Lx n n fg 0 x).
Notation call := (hpy_convolve2 al tx ty T sch F V w rooms f g).
Notation st := (stH al tx ty T sch F V w rooms).
Lemma h2_len : cq Ly 2 = n. Proof. exact (proj1 (hlength_H n Hn)). Qed.
Lemma h2_H : hH ty = n. Proof. exact h2_len. Qed.
Lemma h2_S : gS tx = n. Proof. change (gS tx) with (cq Ly 2). exact h2_len. Qed.
Lemma h2_agree : hagree2 tx ty.
Proof.
  constructor; try reflexivity.
  - rewrite h2_S. exact HD.
  - exact Hev.
Qed.
Lemma data2 (a : nat) : a < 2 -> In (fg a, n * Lx) (data_blocks tx fg 0).
Proof.
  intros Ha. unfold data_blocks. change (gL tx) with Lx. change (aA tx) with 2. rewrite h2_S.
  apply in_map_iff. exists a. split; [rewrite Nat.add_0_r; reflexivity|apply in_seq; lia].
Qed.
Lemma apart_fg : ConvSpec.apart (fg 0) (n * Lx) (fg 1) (n * Lx).
Proof.
  apply sep_app in Hs. destruct Hs as (Hd & _ & _). unfold data_blocks in Hd. change (aA tx) with 2 in Hd. change (gL tx) with Lx in Hd. rewrite h2_S in Hd. cbn [seq map] in Hd.
  inversion Hd as [|? ? Hd1 _]; subst. inversion Hd1 as [|? ? Hd2 _]; subst. cbn [fst snd] in Hd2. rewrite !Nat.add_0_r in Hd2. exact Hd2.
Qed.

Lemma data_work a b : block (fg a) (n * Lx) b -> a < 2 -> inb work b = false.
Proof.
  intros Hb Ha. destruct (inb work b) eqn:E; [|reflexivity]. exfalso. apply sep_app in Hs. destruct Hs as (_ & _ & Hc).
  eapply cross_inb; [exact Hc| |exact E]. apply inb_iff. exists (fg a), (n * Lx). split; [apply data2; assumption|exact Hb].
Qed.
Lemma apart_blk b : block (fg 0) (n * Lx) b -> ~ block (fg 1) (n * Lx) b.
Proof. intros H0 H1. pose proof apart_fg as Ha. unfold ConvSpec.apart, block in *. lia. Qed.
Lemma in_row a i j : i < Lx -> j < n -> block (fg a) (n * Lx) (fg a + n * i + j).
Proof. intros Hi Hj. unfold block. assert (n * (i + 1) <= n * Lx) by (apply Nat.mul_le_mono_l; lia). lia. Qed.
Lemma st_only m m1 P : st m -> only P m m1 -> (forall a, P a -> inb work a = false) -> st m1.
Proof.
  intros Hst [O1 O2] HP. destruct (keeps_of work m m1) as (u & Hu & <-).
  - intros a Ha. apply O1. intros Hp. rewrite (HP a Hp) in Ha. discriminate.
  - exact O2.
  - apply (hst_keeps al sx ty T sch F V w rooms fg 0 Hal Hwx Hwy h2_agree Hsch Hs); assumption.
Qed.
Notation elem := (element2 2 Lx n n fg 0).
Lemma blk_elem a b : a < 2 -> block (fg a) (n * Lx) b -> elem b.
Proof.
  intros Ha Hb. unfold block in Hb. exists a, ((b - fg a) / n), ((b - fg a) mod n).
  pose proof (Nat.div_mod_eq (b - fg a) n). pose proof (Nat.mod_upper_bound (b - fg a) n ltac:(lia)).
  split; [assumption|]. split; [apply Nat.div_lt_upper_bound; lia|]. split; [assumption|]. lia.
Qed.
(** one call of HConvolution.convolve *)
Lemma hpy2_call x m0 : hold 2 x m0 -> st m0 ->
  TWP call m0 (fun m' => (forall i j, i < Lx -> j < n -> m' (nd_base f + n * i + j) = Val (zconv2 Lx n (her2 Lx n (x 0)) (her2 Lx n (x 1)) (wave Lx i) (Z.of_nat j))) /\
    st m' /\ only (fun ad => elem ad \/ inb work ad = true) m0 m').
Proof.
  intros Hx Hst. assert (HLx : 1 <= Lx) by exact (proj1 Hwx).
  assert (Hx0 : forall a i j, a < 2 -> i < Lx -> j < n -> m0 (fg a + n * i + j) = Val (x a i j)).
  { intros a i j Ha Hi Hj. specialize (Hx a i j Ha Hi Hj). rewrite Nat.add_0_r in Hx. exact Hx. }
  unfold hpy_convolve2. cbv zeta. unfold shape_at. rewrite Ef. cbn [nth].
  apply TWP_seq, TWP_emb. eapply WP_mono; [|apply (symmetrizeX_spec (fg 0) Lx n (x 0) m0 HLx Hn); intros i j Hi Hj; apply Hx0; auto].
  intros m1 [A1 B1]. apply TWP_seq, TWP_emb.
  assert (G1 : forall i j, i < Lx -> j < n -> m1 (fg 1 + n * i + j) = Val (x 1 i j)).
  { intros i j Hi Hj. rewrite (proj1 B1); [apply Hx0; auto|]. intros Hb. exact (apart_blk _ Hb (in_row 1 i j Hi Hj)). }
  eapply WP_mono; [|apply (symmetrizeX_spec (fg 1) Lx n (x 1) m1 HLx Hn G1)].
  intros m2 [A2 B2].
  assert (S2 : st m2).
  { eapply st_only; [eapply st_only; [exact Hst|exact B1|]|exact B2|]; intros a Ha; [apply (data_work 0)|apply (data_work 1)]; try assumption; lia. }
  assert (Hold2 : holds2 2 (aL tx) (hH ty) (gS tx) fg 0 (fun a => sX Lx (x a)) m2).
  { rewrite h2_S, h2_H. change (aL tx) with Lx. intros a i j Ha Hi Hj. rewrite Nat.add_0_r. destruct a as [|[|a]]; [| |lia].
    - rewrite (proj1 B2); [apply A1; assumption|]. intros Hb. exact (apart_blk _ (in_row 0 i j Hi Hj) Hb).
    - apply A2; assumption. }
  eapply TWP_mono; [|apply (hcall_spec al sx ty T sch F V w rooms fg 0 Hal Hwx Hwy h2_agree Hsch Hs (fun a => sX Lx (x a)) m2)].
  - intros m' (R1 & R2 & R3). split; [|split; [exact R2|]].
    + intros i j Hi Hj. rewrite h2_S, h2_H in R1. change (aL tx) with Lx in R1. specialize (R1 0 i j Nat.lt_0_1 Hi Hj). rewrite Nat.add_0_r in R1. change (fg 0) with (nd_base f) in R1. rewrite R1. apply (f_equal Val).
      rewrite <- (oconv2_her2 Lx n HLx Hn (x 0) (x 1) i j).
      assert (HM : paddedHermitian Lx 0 <= gM tx) by exact (wf_aM tx Hwx).
      change (origin tx) with (Lx / 2).
      assert (HMy : 3 * n - 2 <= kM ty). { rewrite <- (paddedH n Hn). apply Hwy. }
      apply hlin2; try assumption; try (exact (M_pos tx Hwx)); try lia.
      * apply cL with (al := al) (sx := sx). exact Hal.
      * apply sX_unaliased; assumption.
      * apply sX_unaliased; assumption.
    + eapply only_trans; [eapply only_sub; [exact B1|]|eapply only_trans; [eapply only_sub; [exact B2|]|eapply only_sub; [exact R3|]]].
      * intros a Ha. left. apply (blk_elem 0); [lia|exact Ha].
      * intros a Ha. left. apply (blk_elem 1); [lia|exact Ha].
      * rewrite h2_S, h2_H. change (aL tx) with Lx. intros a Ha. exact Ha.
  - intros a Ha. apply (sX_hermitian Lx n); assumption.
  - exact Hold2.
  - exact S2.
Qed.
Notation result x i j := (zconv2 Lx n (her2 Lx n (x 0)) (her2 Lx n (x 1)) (wave Lx i) (Z.of_nat j)).
Lemma init_hold x m0 m1 : hold 2 x m0 -> only (fun ad => inb work ad = true) m0 m1 -> hold 2 x m1.
Proof.
  intros Hx [K2 _] a i j Ha Hi Hj. rewrite K2; [apply Hx; assumption|]. rewrite Nat.add_0_r. intros Hp.
  rewrite (data_work a) in Hp; [discriminate|apply in_row; assumption|assumption].
Qed.
Lemma hpy2_once x m0 : provided work m0 -> hold 2 x m0 ->
  TWP (TSeq (emb (hconvolution2_cmd tx w)) call) m0 (fun m' =>
    (forall i j, i < Lx -> j < n -> m' (nd_base f + n * i + j) = Val (result x i j)) /\
    (forall ad, ~ elem ad -> elsewhere work ad -> m' ad = m0 ad)).
Proof.
  intros Hp Hx. apply TWP_seq, TWP_emb.
  eapply WP_mono; [|apply (initH al tx ty (hfit2_of al tx ty Hal Hwx Hwy h2_agree) T sch F V w rooms Hsch (proj1 (proj2 (proj1 (sep_app _ _) Hs))) m0 Hp)].
  intros m1 (K1 & K2). eapply TWP_mono; [|apply (hpy2_call x m1); [eapply init_hold; eassumption|exact K1]].
  intros m2 (H1 & _ & H2'). split; [exact H1|]. intros ad Hne Hel. rewrite (proj1 H2'), (proj1 K2); [reflexivity| |].
  - intros Hy. eapply inb_false_of; eassumption.
  - intros [Hy|Hy]; [contradiction|eapply inb_false_of; eassumption].
Qed.
Lemma hpy2_calls us u x : forall m0, st m0 -> (forall s, In s us -> keeps work s /\ exists y, forall m, hold 2 y (s m)) ->
  keeps work u -> (forall m, hold 2 x (u m)) ->
  TWP (calls call (us ++ [u])) m0 (fun m' => forall i j, i < Lx -> j < n -> m' (nd_base f + n * i + j) = Val (result x i j)).
Proof.
  induction us as [|s us IH]; intros m0 Hst Hus Hk Hx; cbn [app calls]; apply TWP_seq, TWP_store; apply TWP_seq.
  - eapply TWP_mono; [|apply (hpy2_call x)]; [|apply Hx|apply (hst_keeps al sx ty T sch F V w rooms fg 0 Hal Hwx Hwy h2_agree Hsch Hs); assumption].
    intros m' (H1 & _). apply TWP_skip. exact H1.
  - destruct (Hus s (or_introl eq_refl)) as [Hks (y & Hy)].
    eapply TWP_mono; [|apply (hpy2_call y)]; [|apply Hy|apply (hst_keeps al sx ty T sch F V w rooms fg 0 Hal Hwx Hwy h2_agree Hsch Hs); assumption].
    intros m' (_ & H2' & _). apply IH; auto. intros s' Hs'. apply Hus. right. exact Hs'.
Qed.
Lemma hpy2_history us u x m0 : provided work m0 -> (forall s, In s us -> keeps work s /\ exists y, forall m, hold 2 y (s m)) ->
  keeps work u -> (forall m, hold 2 x (u m)) ->
  TWP (TSeq (emb (hconvolution2_cmd tx w)) (calls call (us ++ [u]))) m0 (fun m' => forall i j, i < Lx -> j < n -> m' (nd_base f + n * i + j) = Val (result x i j)).
Proof.
  intros Hp Hus Hk Hx. apply TWP_seq, TWP_emb.
  eapply WP_mono; [|apply (initH al tx ty (hfit2_of al tx ty Hal Hwx Hwy h2_agree) T sch F V w rooms Hsch (proj1 (proj2 (proj1 (sep_app _ _) Hs))) m0 Hp)].
  intros m1 (K1 & K2). apply hpy2_calls; auto.
Qed.
End H2.
