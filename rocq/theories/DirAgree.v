(** The convolution classes give what the direct convolutions give. *)
From Coq Require Import Reals ZArith Arith Lia List Bool.
From Verif Require Import CNum Sums Mem PadModel PadSpec CenModel HerModel HerSpec ConvModel ConvSpec ConvProofs Conv9 HConvModel HConvSpec HConvProofs Team LayerModel LayerSpec LayerProofs
  HLayerModel HLayerSpec WrapModel WrapSpec PropsWrap DirModel DirSpec Dir1 Dir2 DirProofs Xf.
Import ListNotations.
Notation mem := (Mem.mem C).
Local Open Scope nat_scope.

Lemma buffers_mem t g F V w (m m1 : mem) : (forall a, m a <> Unalloc -> m1 a <> Unalloc) -> buffers t g F V w m -> buffers t g F V w m1.
Proof. intros Ha [b1 b2 b3 b4 b5 b6 b7 b8 b9 c1 c2 c3 c4]. constructor; auto. Qed.
Lemma agree1 L ch : let t := create_conv1d L ch in wf t ->
  forall F V w f g h, nd_shape f = [L] -> nd_shape g = [L] ->
  forall x m0, buffers t (pair_of f g) F V w m0 -> holds 2 L (pair_of f g) x m0 ->
  (forall j, j < L -> m0 (h + j) <> Unalloc /\ outside t (pair_of f g) F V w (h + j)) ->
  TWP (TSeq (emb (Par 1 (fun _ => dconv L h (nd_base f) (nd_base g)))) (TSeq (emb (cinit_cmd (py_object1 t F V w))) (py_convolve1 [L] t F V w f g))) m0
    (fun m' => forall j, j < L -> exists v, m' (nd_base f + j) = Val v /\ m' (h + j) = Val v).
Proof.
  intros t Hw F V w f g h Ef Eg x m0 Hb Hx Hh.
  assert (Out : forall b j j', b < 2 -> j < L -> j' < L -> pair_of f g b + j <> h + j').
  { intros b j j' Hb' Hj Hj' E. destruct (proj2 (Hh j' Hj')) as [O _]. specialize (O b Hb'). change (aL t) with L in O. lia. }
  assert (Hsep : forall b, b < 2 -> forall a, Wrap1.block (pair_of f g b) L a -> Wrap1.block h L a -> False).
  { intros b Hb' a [A1 A2] [B1 B2]. apply (Out b (a - pair_of f g b) (a - h)); [assumption|lia|lia|lia]. }
  apply TWP_seq, TWP_emb. eapply WP_mono; [|apply (dconv_ok L h (nd_base f) (nd_base g) (x 0) (x 1) m0)].
  - intros m1 [A1 B1]. eapply TWP_mono; [|apply (C55_convolution1 L ch Hw F V w f g Ef Eg x m1)].
    + intros m2 [A2 B2] j Hj. exists (linconv (x 0) (x 1) j). split; [apply A2; exact Hj|]. rewrite B2; [apply A1; exact Hj|]. apply Hh. exact Hj.
    + eapply buffers_mem; [|exact Hb]. apply B1.
    + intros a i Ha Hi. rewrite (proj1 B1); [apply Hx; assumption|]. intros Hc. apply (Hsep a Ha (pair_of f g a + i)); [unfold Wrap1.block; lia|exact Hc].
  - intros j Hj. exact (Hx 0 j ltac:(lia) Hj).
  - intros j Hj. exact (Hx 1 j ltac:(lia) Hj).
  - intros j Hj. apply Hh. exact Hj.
  - exact (Hsep 0 ltac:(lia)).
  - exact (Hsep 1 ltac:(lia)).
Qed.
Lemma agree_h2 al n Lx chx chy : let ty := snd (create_hconv2d Lx (hlength n) chx chy) in let tx := fst (create_hconv2d Lx (hlength n) chx chy) in
  1 <= al -> 1 <= n -> 1 <= Lx -> wf tx -> hwf ty -> (n = 1 -> gD tx = 1) -> kq ty = 1 \/ kn ty mod 2 = 0 ->
  forall T sch F V w rooms f g h, nd_shape f = [Lx; n] -> nd_shape g = [Lx; n] -> (forall r, schedule T (gl tx) (sch r)) ->
  let work := hwork2 al tx ty T F V w rooms in
  separated (data_blocks tx (pair_of f g) 0 ++ work) ->
  forall x m0, provided work m0 -> holds2 2 Lx n n (pair_of f g) 0 x m0 -> hermitian_data2 Lx n (x 0) -> hermitian_data2 Lx n (x 1) ->
  (forall o, o < Lx * n -> m0 (h + o) <> Unalloc /\ ~ element2 2 Lx n n (pair_of f g) 0 (h + o) /\ elsewhere work (h + o)) ->
  TWP (TSeq (emb (dconvh2 ((Lx + 1) / 2) n (Nat.odd Lx) n false h (nd_base f) (nd_base g)))
         (TSeq (emb (hconvolution2_cmd tx w)) (hpy_convolve2 al tx ty T sch F V w rooms f g))) m0
    (fun m' => forall i j, i < Lx -> j < n -> exists v, m' (nd_base f + n * i + j) = Val v /\ m' (h + (i * n + j)) = Val v).
Proof.
  intros ty tx Hal Hn HL Hx Hy HD Hev T sch F V w rooms f g h Ef Eg Hsch work Hs x m0 Hp Hh Xh Yh Ho.
  assert (Hsep : forall b, b < 2 -> forall a, cells2 (pair_of f g b) n Lx n a -> Wrap1.block h (Lx * n) a -> False).
  { intros b Hb a (i & j & Hi & Hj & E) [B1 B2]. destruct (Ho (a - h) ltac:(lia)) as [_ [Hn' _]]. apply Hn'. exists b, i, j. repeat split; try assumption. lia. }
  apply TWP_seq, TWP_emb. eapply WP_mono; [|apply (given2 Lx n n h (nd_base f) (nd_base g) (x 0) (x 1) m0 HL Hn)].
  - intros m1 [A1 B1]. eapply TWP_mono; [|apply (C55_hermitian2 al n Lx chx chy Hal Hn Hx Hy HD Hev T sch F V w rooms f g Ef Eg Hsch Hs x m1)].
    + intros m2 [A2 B2] i j Hi Hj. eexists. split; [apply A2; assumption|]. pose proof (dense2_lt Lx n i j Hi Hj) as Hd.
      rewrite B2; [apply A1; assumption|apply Ho; exact Hd|apply Ho; exact Hd].
    + intros b k i Hi Hk. apply (proj2 B1). exact (Hp b k i Hi Hk).
    + intros a i j Ha Hi Hj. rewrite (proj1 B1); [apply Hh; assumption|]. intros Hc. apply (Hsep a Ha _) with (2 := Hc). exists i, j. repeat split; try assumption. lia.
  - intros i j Hi Hj. specialize (Hh 0 i j ltac:(lia) Hi Hj). rewrite <- Hh. f_equal. change (pair_of f g 0) with (nd_base f). lia.
  - intros i j Hi Hj. specialize (Hh 1 i j ltac:(lia) Hi Hj). rewrite <- Hh. f_equal. change (pair_of f g 1) with (nd_base g). lia.
  - exact Xh.
  - exact Yh.
  - intros o Hoo. apply Ho. exact Hoo.
  - exact (Hsep 0 ltac:(lia)).
  - exact (Hsep 1 ltac:(lia)).
Qed.
