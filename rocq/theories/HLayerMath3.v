(** The convolution theorem for three-dimensional Hermitian data. *)
From Coq Require Import Reals ZArith Arith Lia Lra List Bool.
From Verif Require Import CNum Sums Roots Mem PadModel PadLemmas ConvMath CenModel HerModel HerSpec HerMath HerForward ConvSpec HConvSpec HConvMath
  LayerSpec LayerProofs HLayerSpec ConvProofs Layer9 HLayerMath.
Local Open Scope C_scope.

Lemma swap22 n m (h : nat -> nat -> nat -> nat -> C) :
  Csum n (fun a => Csum n (fun b => Csum m (fun p => Csum m (fun q => h a b p q)))) =
  Csum m (fun p => Csum m (fun q => Csum n (fun a => Csum n (fun b => h a b p q)))).
Proof.
  rewrite (Csum_ext n _ (fun a => Csum m (fun p => Csum n (fun b => Csum m (fun q => h a b p q))))).
  2: { intros a _. apply Csum_swap. }
  rewrite Csum_swap. apply Csum_ext. intros p _.
  rewrite (Csum_ext n _ (fun a => Csum m (fun q => Csum n (fun b => h a b p q)))).
  2: { intros a _. apply Csum_swap. }
  apply Csum_swap.
Qed.
Lemma Csum2_ext n (h h' : nat -> nat -> C) : (forall a b, (a < n)%nat -> (b < n)%nat -> h a b = h' a b) ->
  Csum n (fun a => Csum n (fun b => h a b)) = Csum n (fun a => Csum n (fun b => h' a b)).
Proof. intros E. apply Csum_ext. intros a Ha. apply Csum_ext. intros b Hb. apply E; assumption. Qed.
Lemma Csum2_if n (b : bool) (h : nat -> nat -> C) : (if b then Csum n (fun a => Csum n (fun d => h a d)) else C0) = Csum n (fun a => Csum n (fun d => if b then h a d else C0)).
Proof. destruct b; [reflexivity|]. symmetry. apply Csum_zero. intros a _. apply Csum_zero. intros d _. reflexivity. Qed.
Lemma Csum2_mul n z (h : nat -> nat -> C) : Cmul z (Csum n (fun a => Csum n (fun d => h a d))) = Csum n (fun a => Csum n (fun d => Cmul z (h a d))).
Proof. rewrite <- Csum_mul_l. apply Csum_ext. intros a _. rewrite <- Csum_mul_l. reflexivity. Qed.

Section Full3.
Variables (c M L c' M' L' : nat).
Hypothesis HM : (0 < M)%nat.
Hypothesis HM' : (0 < M')%nat.
Hypothesis HL : (L <= 2 * c + 1)%nat.
Hypothesis HL' : (L' <= 2 * c' + 1)%nat.
Notation K := (2 * c + 1)%nat.
Notation K' := (2 * c' + 1)%nat.
Lemma long2 x kx ky : odft c' M' L' (fun j => odft c M L (fun i => x i j) kx) ky =
  odft c' M' K' (fun j => odft c M K (fun i => if (i <? L)%nat && (j <? L')%nat then x i j else C0) kx) ky.
Proof.
  rewrite odft_long by assumption. apply odft_ext. intros j Hj. destruct (j <? L')%nat.
  - rewrite odft_long by assumption. apply odft_ext. intros i Hi. rewrite andb_true_r. reflexivity.
  - symmetry. unfold odft. apply Csum_zero. intros i Hi. rewrite andb_false_r. ring.
Qed.
Lemma conj2 x kx ky : Cconj (odft c' M' K' (fun j => odft c M K (fun i => x i j) kx) ky) =
  odft c' M' K' (fun j => odft c M K (fun i => Cconj (x (2 * c - i)%nat (2 * c' - j)%nat)) kx) ky.
Proof. rewrite (odft_conj c' M' L') by assumption. apply odft_ext. intros j Hj. apply (odft_conj c M L); assumption. Qed.
Lemma row_full3 H x kx ky l : (1 <= H)%nat -> (l < 2 * H - 1)%nat ->
  hseq H (fun l => odft c' M' L' (fun j => odft c M L (fun i => x i j l) kx) ky) l =
  odft c' M' K' (fun j => odft c M K (fun i => full3 c L c' L' H x i j l) kx) ky.
Proof.
  intros HH Hl. unfold hseq, full3. destruct (Nat.ltb_spec l (H - 1)) as [E|E].
  - rewrite (long2 (fun i j => x i j (H - 1 - l)%nat)), conj2. apply odft_ext. intros j Hj. apply odft_ext. intros i Hi.
    replace (H - 1 <=? l)%nat with false by (symmetry; apply Nat.leb_gt; lia). destruct (_ && _); [reflexivity|apply Cconj_0].
  - rewrite (long2 (fun i j => x i j (l - (H - 1))%nat)). apply odft_ext. intros j Hj. apply odft_ext. intros i Hi.
    replace (H - 1 <=? l)%nat with true by (symmetry; apply Nat.leb_le; lia). reflexivity.
Qed.
Lemma row_real3 x kx ky : hermitian00 c L c' L' x -> im (odft c' M' L' (fun j => odft c M L (fun i => x i j 0%nat) kx) ky) = 0%R.
Proof.
  intros Hx. set (z := odft c' M' L' _ ky). assert (E : Cconj z = z).
  { unfold z. rewrite (long2 (fun i j => x i j 0%nat)), conj2. apply odft_ext. intros j Hj. apply odft_ext. intros i Hi.
    destruct (Nat.ltb_spec (2 * c - i) L) as [E1|E1]; [destruct (Nat.ltb_spec (2 * c' - j) L') as [E2|E2]|].
    - cbn [andb]. rewrite (Hx _ _ E1 E2). replace (2 * c - i <=? 2 * c)%nat with true by (symmetry; apply Nat.leb_le; lia).
      replace (2 * c' - j <=? 2 * c')%nat with true by (symmetry; apply Nat.leb_le; lia).
      replace (2 * c - (2 * c - i))%nat with i by lia. replace (2 * c' - (2 * c' - j))%nat with j by lia. cbn [andb].
      destruct (_ && _); [apply Cconj_conj|apply Cconj_0].
    - cbn [andb]. rewrite Cconj_0. destruct (Nat.ltb_spec i L) as [E3|E3]; [|reflexivity]. destruct (Nat.ltb_spec j L') as [E4|E4]; [|reflexivity]. cbn [andb].
      rewrite (Hx i j E3 E4). replace (2 * c' - j <? L')%nat with false by (symmetry; apply Nat.ltb_ge; lia). rewrite !andb_false_r. reflexivity.
    - cbn [andb]. rewrite Cconj_0. destruct (Nat.ltb_spec i L) as [E3|E3]; [|reflexivity]. destruct (Nat.ltb_spec j L') as [E4|E4]; [|reflexivity]. cbn [andb].
      rewrite (Hx i j E3 E4). replace (2 * c - i <? L)%nat with false by (symmetry; apply Nat.ltb_ge; lia). rewrite !andb_false_r. reflexivity. }
  apply (f_equal im) in E. cbn in E. lra.
Qed.
End Full3.

Lemma hcyc3 c M L c' M' L' M'' H (x : nat -> nat -> nat -> nat -> C) i j l : (0 < M)%nat -> (0 < M')%nat -> (0 < M'')%nat ->
  (L <= 2 * c + 1)%nat -> (L' <= 2 * c' + 1)%nat -> (1 <= H)%nat ->
  hermitian00 c L c' L' (x 0%nat) -> hermitian00 c L c' L' (x 1%nat) ->
  let X := fun a kx ky l => odft c' M' L' (fun j => odft c M L (fun i => x a i j l) kx) ky in
  oidft c M (fun kx => oidft c' M' (fun ky => hpartial_inverse M'' M'' (fun k => k) (fun kz =>
    (re (hdft M'' H (X 0%nat kx ky) kz) * re (hdft M'' H (X 1%nat kx ky) kz))%R) l) j) i =
  Cmul (RtoC (INR M)) (Cmul (RtoC (INR M')) (Cmul (RtoC (INR M'')) (ocyc3 c M (2 * c + 1) c' M' (2 * c' + 1) (H - 1) M'' (2 * H - 1)
    (full3 c L c' L' H (x 0%nat)) (full3 c L c' L' H (x 1%nat)) i j (l + (H - 1))))).
Proof.
  intros HM HM' HM'' HL HL' HH H0 H1 X. set (K := (2 * c + 1)%nat). set (K' := (2 * c' + 1)%nat). set (K'' := (2 * H - 1)%nat).
  set (f := full3 c L c' L' H (x 0%nat)). set (g := full3 c L c' L' H (x 1%nat)).
  set (bl := fun l1 l2 => ((l1 + l2) mod M'' =? (l + (H - 1) + (H - 1)) mod M'')%nat).
  set (bj := fun j1 j2 => ((j1 + j2) mod M' =? (j + c') mod M')%nat).
  set (bi := fun i1 i2 => ((i1 + i2) mod M =? (i + c) mod M)%nat).
  set (G := fun h l kx j => odft c M K (fun i => (h : nat -> nat -> nat -> C) i j l) kx).
  set (P := fun h kx ky l => odft c' M' K' (G h l kx) ky).
  transitivity (oidft c M (fun kx => Cmul (RtoC (INR M'')) (oidft c' M' (fun ky => Csum K'' (fun l1 => Csum K'' (fun l2 =>
     if bl l1 l2 then Cmul (P f kx ky l1) (P g kx ky l2) else C0))) j)) i).
  { apply oidft_ext. intros kx Hkx. rewrite <- oidft_scale. apply oidft_ext. intros ky Hky.
    rewrite hconv_cyc by (try assumption; apply row_real3; assumption). f_equal. unfold ocyc.
    apply Csum2_ext. intros l1 l2 Hl1 Hl2. unfold X. rewrite !row_full3 by assumption. reflexivity. }
  rewrite oidft_scale.
  transitivity (Cmul (RtoC (INR M'')) (oidft c M (fun kx => Csum K'' (fun l1 => Csum K'' (fun l2 => if bl l1 l2 then
     Cmul (RtoC (INR M')) (Csum K' (fun j1 => Csum K' (fun j2 => if bj j1 j2 then Cmul (G f l1 kx j1) (G g l2 kx j2) else C0))) else C0))) i)).
  { f_equal. apply oidft_ext. intros kx Hkx. rewrite (oidft_pairs c' M' K'' bl (fun l1 l2 ky => Cmul (P f kx ky l1) (P g kx ky l2))).
    apply Csum2_ext. intros l1 l2 _ _. destruct (bl l1 l2); [|reflexivity]. unfold P. rewrite odft_cyc by assumption. reflexivity. }
  rewrite (oidft_pairs c M K'' bl (fun l1 l2 kx => Cmul (RtoC (INR M')) (Csum K' (fun j1 => Csum K' (fun j2 => if bj j1 j2 then Cmul (G f l1 kx j1) (G g l2 kx j2) else C0))))).
  transitivity (Cmul (RtoC (INR M'')) (Csum K'' (fun l1 => Csum K'' (fun l2 => Csum K' (fun j1 => Csum K' (fun j2 => Csum K (fun i1 => Csum K (fun i2 =>
     Cmul (Cmul (RtoC (INR M')) (RtoC (INR M))) (if bi i1 i2 && bj j1 j2 && bl l1 l2 then Cmul (f i1 j1 l1) (g i2 j2 l2) else C0))))))))).
  { f_equal. apply Csum2_ext. intros l1 l2 _ _.
    transitivity (Csum K' (fun j1 => Csum K' (fun j2 => if bl l1 l2 then Cmul (RtoC (INR M')) (if bj j1 j2 then oidft c M (fun kx => Cmul (G f l1 kx j1) (G g l2 kx j2)) i else C0) else C0))).
    { rewrite <- Csum2_if. destruct (bl l1 l2); [|reflexivity]. rewrite oidft_scale, (oidft_pairs c M K' bj (fun j1 j2 kx => Cmul (G f l1 kx j1) (G g l2 kx j2))), Csum2_mul. reflexivity. }
    apply Csum2_ext. intros j1 j2 _ _. rewrite <- Csum2_mul. destruct (bl l1 l2).
    - destruct (bj j1 j2).
      + unfold G. rewrite odft_cyc by assumption. rewrite Cmul_assoc. f_equal. unfold ocyc. apply Csum2_ext. intros i1 i2 _ _. rewrite !andb_true_r. reflexivity.
      + rewrite (Csum_zero K) by (intros i1 _; apply Csum_zero; intros i2 _; rewrite andb_false_r; reflexivity). ring.
    - rewrite (Csum_zero K) by (intros i1 _; apply Csum_zero; intros i2 _; rewrite andb_false_r; reflexivity). ring. }
  replace (ocyc3 _ _ _ _ _ _ _ _ _ _ _ _ _ _) with (Csum K (fun i1 => Csum K (fun i2 => Csum K' (fun j1 => Csum K' (fun j2 => Csum K'' (fun l1 => Csum K'' (fun l2 =>
     (if bi i1 i2 && bj j1 j2 && bl l1 l2 then Cmul (f i1 j1 l1) (g i2 j2 l2) else C0)))))))) by reflexivity.
  transitivity (Cmul (Cmul (RtoC (INR M'')) (Cmul (RtoC (INR M')) (RtoC (INR M)))) (Csum K'' (fun l1 => Csum K'' (fun l2 => Csum K' (fun j1 => Csum K' (fun j2 => Csum K (fun i1 => Csum K (fun i2 =>
     (if bi i1 i2 && bj j1 j2 && bl l1 l2 then Cmul (f i1 j1 l1) (g i2 j2 l2) else C0))))))))).
  { rewrite <- Cmul_assoc. f_equal. rewrite Csum2_mul. apply Csum2_ext. intros l1 l2 _ _. rewrite Csum2_mul. apply Csum2_ext. intros j1 j2 _ _. rewrite Csum2_mul. reflexivity. }
  rewrite (Cmul_assoc (RtoC (INR M'))), (Cmul_assoc (RtoC (INR M))). apply f_equal2; [ring|].
  set (h := fun i1 i2 j1 j2 l1 l2 => if bi i1 i2 && bj j1 j2 && bl l1 l2 then Cmul (f i1 j1 l1) (g i2 j2 l2) else C0).
  change (Csum K'' (fun l1 => Csum K'' (fun l2 => Csum K' (fun j1 => Csum K' (fun j2 => Csum K (fun i1 => Csum K (fun i2 => h i1 i2 j1 j2 l1 l2)))))) =
          Csum K (fun i1 => Csum K (fun i2 => Csum K' (fun j1 => Csum K' (fun j2 => Csum K'' (fun l1 => Csum K'' (fun l2 => h i1 i2 j1 j2 l1 l2))))))).
  rewrite (Csum2_ext K'' _ (fun l1 l2 => Csum K (fun i1 => Csum K (fun i2 => Csum K' (fun j1 => Csum K' (fun j2 => h i1 i2 j1 j2 l1 l2)))))).
  2: { intros l1 l2 _ _. apply (swap22 K' K (fun j1 j2 i1 i2 => h i1 i2 j1 j2 l1 l2)). }
  rewrite (swap22 K'' K (fun l1 l2 i1 i2 => Csum K' (fun j1 => Csum K' (fun j2 => h i1 i2 j1 j2 l1 l2)))).
  apply Csum2_ext. intros i1 i2 _ _. apply (swap22 K'' K' (fun l1 l2 j1 j2 => h i1 i2 j1 j2 l1 l2)).
Qed.

(** enough padding: no aliases *)
Lemma full3_edge_x c L c' L' H x i j l : (1 <= H)%nat -> (l < 2 * H - 1)%nat -> (L <= 2 * c)%nat -> (forall j l, (j < L')%nat -> (l < H)%nat -> x 0%nat j l = C0) ->
  (i = 0 \/ i = 2 * c)%nat -> full3 c L c' L' H x i j l = C0.
Proof.
  intros HH Hl HL Hx Hi. unfold full3. destruct (Nat.leb_spec (H - 1) l) as [E|E].
  - destruct (Nat.ltb_spec i L) as [E1|E1]; [|reflexivity]. destruct (Nat.ltb_spec j L') as [E2|E2]; [|reflexivity]. replace i with 0%nat by lia. apply Hx; lia.
  - destruct (Nat.ltb_spec (2 * c - i) L) as [E1|E1]; [|reflexivity]. destruct (Nat.ltb_spec (2 * c' - j) L') as [E2|E2]; [|reflexivity]. cbn [andb].
    replace (2 * c - i)%nat with 0%nat by lia. rewrite Hx by lia. apply Cconj_0.
Qed.
Lemma full3_edge_y c L c' L' H x i j l : (1 <= H)%nat -> (l < 2 * H - 1)%nat -> (L' <= 2 * c')%nat -> (forall i l, (i < L)%nat -> (l < H)%nat -> x i 0%nat l = C0) ->
  (j = 0 \/ j = 2 * c')%nat -> full3 c L c' L' H x i j l = C0.
Proof.
  intros HH Hl HL Hx Hi. unfold full3. destruct (Nat.leb_spec (H - 1) l) as [E|E].
  - destruct (Nat.ltb_spec i L) as [E1|E1]; [|reflexivity]. destruct (Nat.ltb_spec j L') as [E2|E2]; [|reflexivity]. replace j with 0%nat by lia. apply Hx; lia.
  - destruct (Nat.ltb_spec (2 * c - i) L) as [E1|E1]; [|reflexivity]. destruct (Nat.ltb_spec (2 * c' - j) L') as [E2|E2]; [|reflexivity]. cbn [andb].
    replace (2 * c' - j)%nat with 0%nat by lia. rewrite Hx by lia. apply Cconj_0.
Qed.
Lemma edge_cases c M i i1 i2 (b : bool) (v : C) : (0 < M)%nat -> (i < 2 * c + 1)%nat -> (i1 < 2 * c + 1)%nat -> (i2 < 2 * c + 1)%nat ->
  (3 * c < M \/ (i < 2 * c /\ 3 * c <= M + 1 /\ ((i1 = 0 \/ i1 = 2 * c) -> v = C0)))%nat ->
  (3 * c < M \/ (i < 2 * c /\ 3 * c <= M + 1 /\ ((i2 = 0 \/ i2 = 2 * c) -> v = C0)))%nat ->
  (if ((i1 + i2) mod M =? (i + c) mod M)%nat && b then v else C0) = (if (i1 + i2 =? i + c)%nat && b then v else C0).
Proof.
  intros HM Hi Hi1 Hi2 Qx Qy.
  destruct Qx as [Q|(Q1 & Q2 & Q3)]; [rewrite (mod_dec M (i1 + i2)) by lia; reflexivity|].
  destruct Qy as [Q|(_ & _ & Q4)]; [rewrite (mod_dec M (i1 + i2)) by lia; reflexivity|].
  destruct (Nat.eq_dec i1 0) as [E|E1]; [|destruct (Nat.eq_dec i1 (2 * c)) as [E|E2]].
  1,2: rewrite Q3 by lia; destruct (_ && _), (_ && _); reflexivity.
  destruct (Nat.eq_dec i2 0) as [E|E3]; [|destruct (Nat.eq_dec i2 (2 * c)) as [E|E4]].
  1,2: rewrite Q4 by lia; destruct (_ && _), (_ && _); reflexivity.
  rewrite (mod_dec M (i1 + i2)) by lia. reflexivity.
Qed.
Lemma hlin3 c M L c' M' L' M'' H (x y : nat -> nat -> nat -> C) i j l : (1 <= H)%nat -> (0 < M)%nat -> (0 < M')%nat -> (3 * H <= M'' + 2)%nat ->
  (i < L)%nat -> (L <= 2 * c + 1)%nat -> (j < L')%nat -> (L' <= 2 * c' + 1)%nat -> (l < H)%nat ->
  unaliased3 c L M c' L' M' H x -> unaliased3 c L M c' L' M' H y ->
  ocyc3 c M (2 * c + 1) c' M' (2 * c' + 1) (H - 1) M'' (2 * H - 1) (full3 c L c' L' H x) (full3 c L c' L' H y) i j (l + (H - 1)) =
  oconv3 c (2 * c + 1) c' (2 * c' + 1) (H - 1) (2 * H - 1) (full3 c L c' L' H x) (full3 c L c' L' H y) i j (l + (H - 1)).
Proof.
  intros HH HM HM' HM'' Hi HL Hj HL' Hl [Qx Rx] [Qy Ry]. unfold ocyc3, oconv3. apply Csum2_ext. intros i1 i2 Hi1 Hi2. apply Csum2_ext. intros j1 j2 Hj1 Hj2.
  apply Csum2_ext. intros l1 l2 Hl1 Hl2. rewrite (mod_dec M'' (l1 + l2)) by lia.
  rewrite <- !andb_assoc. rewrite (edge_cases c M i i1 i2); try assumption; try lia.
  - rewrite !(andb_comm (i1 + i2 =? i + c)%nat), <- !andb_assoc. apply (edge_cases c' M' j j1 j2); try assumption; try lia.
    + destruct Rx as [R|(R1 & R2 & R3)]; [left; exact R|right]. split; [lia|]. split; [exact R2|]. intros E. rewrite (full3_edge_y c L c' L' H x i1 j1 l1) by (try assumption; lia). ring.
    + destruct Ry as [R|(R1 & R2 & R3)]; [left; exact R|right]. split; [lia|]. split; [exact R2|]. intros E. rewrite (full3_edge_y c L c' L' H y i2 j2 l2) by (try assumption; lia). ring.
  - destruct Qx as [R|(R1 & R2 & R3)]; [left; exact R|right]. split; [lia|]. split; [exact R2|]. intros E. rewrite (full3_edge_x c L c' L' H x i1 j1 l1) by (try assumption; lia). ring.
  - destruct Qy as [R|(R1 & R2 & R3)]; [left; exact R|right]. split; [lia|]. split; [exact R2|]. intros E. rewrite (full3_edge_x c L c' L' H y i2 j2 l2) by (try assumption; lia). ring.
Qed.
