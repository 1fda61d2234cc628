(** Proofs of the theorems of PropsLayer.v. *)
From Coq Require Import Reals ZArith Arith Lia Lra List Bool Permutation FunctionalExtensionality.
From Verif Require Import CNum Sums Roots Mem VecModel PadModel PadKernels Loops PadLemmas PadGeom PadIndex Fwd1 FwdAll
  ConvMath ConvModel ConvSpec Conv1 Conv2 Conv3 Conv4 Conv5 Conv6 Conv7 PadSpec PadRound PadBridge PadProofs ConvProofs
  Team TeamGood LayerModel LayerSpec Layer1 Layer2 Layer3 Layer4 Layer5 Layer6 Layer7 Layer8 Layer9 Xf XfProofs XfBridge.
Import ListNotations.

(** *** nested transforms *)
Lemma odft2_nest c M L c' M' L' x kx ky : odft c' M' L' (fun j => odft c M L (fun i => x i j) kx) ky = odft2 c M L c' M' L' x kx ky.
Proof.
  unfold odft2, odft. rewrite Csum_swap. apply Csum_ext. intros j Hj. rewrite <- Csum_mul_r. apply Csum_ext. intros i Hi. ring.
Qed.
Lemma oidft2_nest c M c' M' y i j : oidft c M (fun kx => oidft c' M' (y kx) j) i = oidft2 c M c' M' y i j.
Proof.
  unfold oidft2, oidft. apply Csum_ext. intros kx Hk. rewrite <- Csum_mul_r. apply Csum_ext. intros ky Hky. ring.
Qed.
Lemma odft3_nest c M L c' M' L' c'' M'' L'' x kx ky kz :
  odft c'' M'' L'' (fun l => odft c' M' L' (fun j => odft c M L (fun i => x i j l) kx) ky) kz = odft3 c M L c' M' L' c'' M'' L'' x kx ky kz.
Proof.
  transitivity (odft c'' M'' L'' (fun l => odft2 c M L c' M' L' (fun i j => x i j l) kx ky) kz).
  { apply odft_ext. intros l Hl. apply (odft2_nest c M L c' M' L' (fun i j => x i j l)). }
  unfold odft3, odft2, odft.
  transitivity (Csum L'' (fun l => Csum L (fun i => Csum L' (fun j => Cmul (x i j l)
    (Cmul (expi (2 * PI * ((INR i - INR c) * INR kx) / INR M))
      (Cmul (expi (2 * PI * ((INR j - INR c') * INR ky) / INR M')) (expi (2 * PI * ((INR l - INR c'') * INR kz) / INR M'')))))))).
  { apply Csum_ext. intros l Hl. rewrite <- Csum_mul_r. apply Csum_ext. intros i Hi. rewrite <- Csum_mul_r. apply Csum_ext. intros j Hj. ring. }
  rewrite Csum_swap. apply Csum_ext. intros i Hi. apply Csum_swap.
Qed.
Lemma oidft3_nest c M c' M' c'' M'' y i j l :
  oidft c M (fun kx => oidft c' M' (fun ky => oidft c'' M'' (y kx ky) l) j) i = oidft3 c M c' M' c'' M'' y i j l.
Proof.
  unfold oidft3, oidft. apply Csum_ext. intros kx Hk. rewrite <- Csum_mul_r. apply Csum_ext. intros ky Hky.
  rewrite <- !Csum_mul_r. apply Csum_ext. intros kz Hkz. ring.
Qed.
Lemma oidft_ext c M y z j : (forall k, k < M -> y k = z k) -> oidft c M y j = oidft c M z j.
Proof. intros H. unfold oidft. apply Csum_ext. intros k Hk. rewrite H by assumption. reflexivity. Qed.
Lemma oidft_scale c M a y j : oidft c M (fun k => Cmul a (y k)) j = Cmul a (oidft c M y j).
Proof. unfold oidft. rewrite <- Csum_mul_l. apply Csum_ext. intros k Hk. ring. Qed.
Lemma oidft_sum c M n y j : oidft c M (fun k => Csum n (fun i => y i k)) j = Csum n (fun i => oidft c M (y i) j).
Proof. unfold oidft. rewrite Csum_swap. apply Csum_ext. intros k Hk. rewrite Csum_mul_r. reflexivity. Qed.
Lemma oidft_if c M (b : bool) y j : oidft c M (fun k => if b then y k else C0) j = if b then oidft c M y j else C0.
Proof.
  destruct b; [reflexivity|]. unfold oidft. apply Csum_zero. intros k Hk. ring.
Qed.
Lemma Csum_if n (b : bool) f : Csum n (fun k => if b then f k else C0) = if b then Csum n f else C0.
Proof. destruct b; [reflexivity|]. apply Csum_zero. reflexivity. Qed.
Lemma if_mul (b : bool) a x : (if b then Cmul a x else C0) = Cmul a (if b then x else C0).
Proof. destruct b; ring. Qed.
Lemma oidft_pairs c M n (b : nat -> nat -> bool) y j :
  oidft c M (fun k => Csum n (fun i1 => Csum n (fun i2 => if b i1 i2 then y i1 i2 k else C0))) j =
  Csum n (fun i1 => Csum n (fun i2 => if b i1 i2 then oidft c M (y i1 i2) j else C0)).
Proof.
  rewrite oidft_sum. apply Csum_ext. intros i1 _. rewrite oidft_sum. apply Csum_ext. intros i2 _. apply oidft_if.
Qed.

(** *** linear convolutions *)
Lemma lin1 t x y j : wf t -> enough (origin t) (aL t) (gM t) -> j < aL t ->
  oidft (origin t) (gM t) (fun k => Cmul (odft (origin t) (gM t) (aL t) x k) (odft (origin t) (gM t) (aL t) y k)) j =
  Cmul (RtoC (INR (gM t))) (oconv (origin t) (aL t) x y j).
Proof.
  intros Hwf [H1 H2] Hj. pose proof (wf_LM t Hwf) as HLM. pose proof (M_pos t Hwf) as HM. unfold gL in HLM.
  rewrite <- idftx_odft.
  transitivity (idftx t (fun k => Cmul (outx t x (Z.of_nat k)) (outx t y (Z.of_nat k))) j).
  { unfold idftx. apply Csum_ext. intros k Hk. rewrite !outx_odft. reflexivity. }
  rewrite (outx_prod t Hwf). f_equal. unfold oconv, gL. apply Csum_ext. intros a Ha. apply Csum_ext. intros b Hb.
  destruct (Nat.eqb_spec (a + b) (j + origin t)) as [E|E].
  - replace (Z.of_nat a + Z.of_nat b - Z.of_nat j - Z.of_nat (origin t))%Z with 0%Z by lia. rewrite Z.mod_0_l by lia. reflexivity.
  - destruct (Z.eqb_spec ((Z.of_nat a + Z.of_nat b - Z.of_nat j - Z.of_nat (origin t)) mod Z.of_nat (gM t)) 0) as [E'|E']; [|reflexivity].
    apply (zdiv t Hwf) in E'; lia.
Qed.
Lemma lin2 t t' x y i j : wf t -> wf t' -> enough (origin t) (aL t) (gM t) -> enough (origin t') (aL t') (gM t') -> i < aL t -> j < aL t' ->
  let D := fun (z : nat -> nat -> C) kx ky => odft (origin t') (gM t') (aL t') (fun j => odft (origin t) (gM t) (aL t) (fun i => z i j) kx) ky in
  oidft (origin t) (gM t) (fun kx => oidft (origin t') (gM t') (fun ky => Cmul (D x kx ky) (D y kx ky)) j) i =
  Cmul (RtoC (INR (gM t))) (Cmul (RtoC (INR (gM t'))) (oconv2 (origin t) (aL t) (origin t') (aL t') x y i j)).
Proof.
  intros Hwf Hwf' He He' Hi Hj D.
  rewrite (oidft_ext (origin t) (gM t) _ (fun kx => Cmul (RtoC (INR (gM t'))) (oconv (origin t') (aL t')
    (fun j => odft (origin t) (gM t) (aL t) (fun i => x i j) kx) (fun j => odft (origin t) (gM t) (aL t) (fun i => y i j) kx) j)))
    by (intros k Hk; apply lin1; assumption).
  rewrite oidft_scale. unfold oconv at 1. rewrite oidft_pairs.
  transitivity (Cmul (RtoC (INR (gM t'))) (Cmul (RtoC (INR (gM t))) (Csum (aL t') (fun j1 => Csum (aL t') (fun j2 =>
    if j1 + j2 =? j + origin t' then oconv (origin t) (aL t) (fun i => x i j1) (fun i => y i j2) i else C0))))).
  { f_equal. rewrite <- Csum_mul_l. apply Csum_ext. intros j1 _. rewrite <- Csum_mul_l. apply Csum_ext. intros j2 _.
    rewrite <- if_mul. destruct (_ =? _); [|reflexivity]. apply lin1; assumption. }
  rewrite !Cmul_assoc, (Cmul_comm (RtoC (INR (gM t')))). f_equal. unfold oconv2, oconv.
  transitivity (Csum (aL t') (fun j1 => Csum (aL t') (fun j2 => Csum (aL t) (fun i1 => Csum (aL t) (fun i2 =>
    if (i1 + i2 =? i + origin t) && (j1 + j2 =? j + origin t') then Cmul (x i1 j1) (y i2 j2) else C0))))).
  { apply Csum_ext. intros j1 _. apply Csum_ext. intros j2 _. rewrite <- Csum_if. apply Csum_ext. intros i1 _. rewrite <- Csum_if.
    apply Csum_ext. intros i2 _. destruct (_ =? _), (_ =? _); reflexivity. }
  (* j1 j2 i1 i2 -> i1 i2 j1 j2 *)
  rewrite (Csum_ext (aL t') _ (fun j1 => Csum (aL t) (fun i1 => Csum (aL t) (fun i2 => Csum (aL t') (fun j2 =>
    if (i1 + i2 =? i + origin t) && (j1 + j2 =? j + origin t') then Cmul (x i1 j1) (y i2 j2) else C0))))).
  2:{ intros j1 _. rewrite Csum_swap. apply Csum_ext. intros i1 _. apply Csum_swap. }
  rewrite Csum_swap. apply Csum_ext. intros i1 _. apply Csum_swap.
Qed.
Lemma lin3 t t' t'' x y i j l : wf t -> wf t' -> wf t'' ->
  enough (origin t) (aL t) (gM t) -> enough (origin t') (aL t') (gM t') -> enough (origin t'') (aL t'') (gM t'') ->
  i < aL t -> j < aL t' -> l < aL t'' ->
  let D := fun (z : nat -> nat -> nat -> C) kx ky kz => odft (origin t'') (gM t'') (aL t'') (fun l => odft (origin t') (gM t') (aL t') (fun j =>
    odft (origin t) (gM t) (aL t) (fun i => z i j l) kx) ky) kz in
  oidft (origin t) (gM t) (fun kx => oidft (origin t') (gM t') (fun ky => oidft (origin t'') (gM t'') (fun kz => Cmul (D x kx ky kz) (D y kx ky kz)) l) j) i =
  Cmul (RtoC (INR (gM t))) (Cmul (RtoC (INR (gM t'))) (Cmul (RtoC (INR (gM t'')))
    (oconv3 (origin t) (aL t) (origin t') (aL t') (origin t'') (aL t'') x y i j l))).
Proof.
  intros Hwf Hwf' Hwf'' He He' He'' Hi Hj Hl D.
  pose (E := fun (z : nat -> nat -> C) kx ky => odft (origin t') (gM t') (aL t') (fun j => odft (origin t) (gM t) (aL t) (fun i => z i j) kx) ky).
  rewrite (oidft_ext (origin t) (gM t) _ (fun kx => Cmul (RtoC (INR (gM t''))) (Csum (aL t'') (fun l1 => Csum (aL t'') (fun l2 =>
     if l1 + l2 =? l + origin t'' then oidft (origin t') (gM t') (fun ky => Cmul (E (fun i j => x i j l1) kx ky) (E (fun i j => y i j l2) kx ky)) j else C0))))).
  2:{ intros kx Hkx. rewrite <- oidft_pairs, <- oidft_scale. apply oidft_ext. intros ky Hky. apply lin1; assumption. }
  rewrite oidft_scale. rewrite oidft_pairs.
  transitivity (Cmul (RtoC (INR (gM t''))) (Cmul (RtoC (INR (gM t))) (Cmul (RtoC (INR (gM t'))) (Csum (aL t'') (fun l1 => Csum (aL t'') (fun l2 =>
    if l1 + l2 =? l + origin t'' then oconv2 (origin t) (aL t) (origin t') (aL t') (fun i j => x i j l1) (fun i j => y i j l2) i j else C0)))))).
  { f_equal. rewrite Cmul_assoc, <- Csum_mul_l. apply Csum_ext. intros l1 _. rewrite <- Csum_mul_l. apply Csum_ext. intros l2 _.
    rewrite <- if_mul. destruct (_ =? _); [|reflexivity]. rewrite <- Cmul_assoc. apply (lin2 t t' (fun i j => x i j l1) (fun i j => y i j l2)); assumption. }
  rewrite (Cmul_assoc (RtoC (INR (gM t''))) (RtoC (INR (gM t)))), (Cmul_comm (RtoC (INR (gM t'')))), <- Cmul_assoc. f_equal.
  rewrite (Cmul_assoc (RtoC (INR (gM t''))) (RtoC (INR (gM t')))), (Cmul_comm (RtoC (INR (gM t'')))), <- Cmul_assoc. f_equal. f_equal.
  unfold oconv3, oconv2.
  pose (h := fun i1 i2 j1 j2 l1 l2 => if (i1 + i2 =? i + origin t) && (j1 + j2 =? j + origin t') && (l1 + l2 =? l + origin t'') then Cmul (x i1 j1 l1) (y i2 j2 l2) else C0).
  transitivity (Csum (aL t'') (fun l1 => Csum (aL t'') (fun l2 => Csum (aL t) (fun i1 => Csum (aL t) (fun i2 => Csum (aL t') (fun j1 => Csum (aL t') (fun j2 => h i1 i2 j1 j2 l1 l2))))))).
  { apply Csum_ext. intros l1 _. apply Csum_ext. intros l2 _. rewrite <- Csum_if. apply Csum_ext. intros i1 _. rewrite <- Csum_if. apply Csum_ext. intros i2 _.
    rewrite <- Csum_if. apply Csum_ext. intros j1 _. rewrite <- Csum_if. apply Csum_ext. intros j2 _. unfold h.
    destruct (l1 + l2 =? _), ((_ =? _) && (_ =? _)); reflexivity. }
  (* l2 inwards, then l1 *)
  rewrite (Csum_ext (aL t'') _ (fun l1 => Csum (aL t) (fun i1 => Csum (aL t) (fun i2 => Csum (aL t') (fun j1 => Csum (aL t') (fun j2 => Csum (aL t'') (fun l2 => h i1 i2 j1 j2 l1 l2))))))).
  2:{ intros l1 _. rewrite Csum_swap. apply Csum_ext. intros i1 _. rewrite Csum_swap. apply Csum_ext. intros i2 _. rewrite Csum_swap. apply Csum_ext. intros j1 _. apply Csum_swap. }
  rewrite Csum_swap. apply Csum_ext. intros i1 _. rewrite Csum_swap. apply Csum_ext. intros i2 _. rewrite Csum_swap. apply Csum_ext. intros j1 _. apply Csum_swap.
Qed.
(** origin 0 *)
Lemma diag_0 L i (h : nat -> nat -> C) : i < L -> Csum L (fun i1 => Csum L (fun i2 => if i1 + i2 =? i + 0 then h i1 i2 else C0)) = Csum (S i) (fun i1 => h i1 (i - i1)).
Proof.
  intros Hj. rewrite (Csum_cut L (S i)); [|lia|].
  - apply Csum_ext. intros i1 Hi. rewrite (Csum_one L (i - i1)) by first [lia | intros k Hk Hne; cbv beta; destruct (Nat.eqb_spec (i1 + k) (i + 0)); [lia|reflexivity]].
    destruct (Nat.eqb_spec (i1 + (i - i1)) (i + 0)); [reflexivity|lia].
  - intros i1 Hi Hi'. rewrite (Csum_cut L 0); [reflexivity|lia|]. intros k _ Hk.
    destruct (Nat.eqb_spec (i1 + k) (i + 0)); [lia|reflexivity].
Qed.
Lemma oconv2_0 L L' f g i j : i < L -> j < L' -> oconv2 0 L 0 L' f g i j = linconv2 f g i j.
Proof.
  intros Hi Hj. unfold oconv2, linconv2.
  rewrite <- (diag_0 L i (fun i1 i2 => Csum (S j) (fun j' => Cmul (f i1 j') (g i2 (j - j')))) Hi).
  apply Csum_ext. intros i1 _. apply Csum_ext. intros i2 _.
  rewrite <- (diag_0 L' j (fun j1 j2 => Cmul (f i1 j1) (g i2 j2)) Hj). rewrite <- Csum_if. apply Csum_ext. intros j1 _. rewrite <- Csum_if. apply Csum_ext. intros j2 _.
  destruct (_ =? _), (_ =? _); reflexivity.
Qed.
Lemma oconv3_0 L L' L'' f g i j l : i < L -> j < L' -> l < L'' -> oconv3 0 L 0 L' 0 L'' f g i j l = linconv3 f g i j l.
Proof.
  intros Hi Hj Hl. unfold oconv3, linconv3.
  rewrite <- (diag_0 L i (fun i1 i2 => Csum (S j) (fun j' => Csum (S l) (fun l' => Cmul (f i1 j' l') (g i2 (j - j') (l - l'))))) Hi).
  apply Csum_ext. intros i1 _. apply Csum_ext. intros i2 _.
  rewrite <- (diag_0 L' j (fun j1 j2 => Csum (S l) (fun l' => Cmul (f i1 j1 l') (g i2 j2 (l - l')))) Hj). rewrite <- Csum_if. apply Csum_ext. intros j1 _. rewrite <- Csum_if. apply Csum_ext. intros j2 _.
  rewrite <- (diag_0 L'' l (fun l1 l2 => Cmul (f i1 j1 l1) (g i2 j2 l2)) Hl). rewrite <- !Csum_if. apply Csum_ext. intros l1 _. rewrite <- !Csum_if. apply Csum_ext. intros l2 _.
  destruct (_ =? _), (_ =? _), (_ =? _); reflexivity.
Qed.

(** *** Convolution2 *)
Lemma D_of (t : xf) : wf t -> (gS t = 1 -> gD t = 1) -> gD t = 1.
Proof.
  intros Hwf H. destruct (Nat.eq_dec (gS t) 1) as [E|E]; [auto|]. exact (valid_D1 t Hwf E).
Qed.
Lemma fit2_of tx ty : wf tx -> wf ty -> agree2 tx ty -> fit2 tx ty.
Proof.
  intros Hx Hy [a b c d e g h i]. constructor; auto.
  - apply D_of; assumption.
  - pose proof (wf_CS tx Hx). change (gL ty) with (aL ty). lia.
  - intros H. destruct (i H) as [z Hz]. exists z. lia.
Qed.
Lemma fit3_of tx ty tz : wf tx -> wf ty -> wf tz -> agree3 tx ty tz -> fit3 tx ty tz.
Proof.
  intros Hx Hy Hz [a b c d e g h]. constructor; auto.
  - apply fit2_of; assumption.
  - apply D_of; assumption.
  - unfold checkStrides, contiguous. apply andb_true_intro. split; [apply Nat.leb_le; exact b|apply Nat.eqb_eq; exact c].
Qed.

(** a multiplier that does not use its indices *)
Lemma sees1_free t Phi : sees1 t (fun _ _ => Phi) (fun _ => Phi).
Proof. unfold sees1. destruct (goverwrite t); intros; reflexivity. Qed.
Lemma plain_mult_good mult : plain_mult mult -> good_mult mult.
Proof. intros H P n r off. apply plain_good, H. Qed.
Lemma mul2_free tx ty mult Phi : plain_mult mult -> pointwise (aA tx) (aB tx) mult (fun _ _ => Phi) -> (forall b, of_inputs (aA tx) (Phi b)) ->
  mul2 tx ty (fun _ => mult) (fun _ _ _ => Phi) (fun _ _ => Phi).
Proof.
  intros Hp Hm He. constructor.
  - intros _. apply pointwise_ok. exact Hm.
  - intros _. apply plain_mult_good. exact Hp.
  - intros _ _ b v v' E. apply He. exact E.
  - intros k _. apply sees1_free.
  - intros _. split; [intros; apply sees1_free|reflexivity].
Qed.
(** a multiplier that uses them *)
Lemma sees1_index t phi Phi : wf t -> goverwrite t = false -> gD0 t = 1 \/ gD t = 1 ->
  (forall rs r i b v, loop_trace (gR t) (increment t) 0 rs -> In r rs -> i < noutputs t r -> phi r i b v = Phi (index t r i) b v) ->
  sees1 t phi Phi.
Proof.
  intros Hwf How HD H. unfold sees1. rewrite How. intros r i b v Hr Hi.
  assert (E0 : noutputs t 0 = gl t). { unfold noutputs, blocksize. cbn [Nat.eqb]. destruct HD as [->|HD]; [lia|]. rewrite (D0_D1 t HD). lia. }
  assert (Hl : gl t <> 0). { pose proof (l_pos t Hwf). lia. }
  rewrite E0, <- (Nat.div_mod i (gl t) Hl). apply (H (residues t)); auto. apply residues_trace. assumption.
Qed.

Definition good_call2 tx ty mult Phi T sch F V w rooms f off : Prop :=
  forall x m0, provided (work2 tx ty T F V w rooms) m0 -> holds2 (aA tx) (aL tx) (aL ty) (gS tx) f off x m0 ->
  TWP (construct_convolve2 tx ty mult T sch F V w rooms f off) m0 (fun m' =>
    holds2 (aB tx) (aL tx) (aL ty) (gS tx) f off (fun b i j =>
      Cmul (RtoC (/ (INR (gM tx) * INR (gM ty)))) (oidft2 (origin tx) (gM tx) (origin ty) (gM ty) (fun kx ky =>
        Phi kx ky b (fun a => odft2 (origin tx) (gM tx) (aL tx) (origin ty) (gM ty) (aL ty) (x a) kx ky)) i j)) m' /\
    (forall ad, ~ element2 (aA tx) (aL tx) (aL ty) (gS tx) f off ad -> elsewhere (work2 tx ty T F V w rooms) ad -> m' ad = m0 ad)).

Lemma inb_false_of l ad : elsewhere l ad -> inb l ad = true -> False.
Proof. intros H H1. apply inb_out in H. congruence. Qed.

Lemma out2_spec tx ty mult phi Phi x b i j : mul2 tx ty mult phi Phi ->
  out2 tx ty Phi x b i j = oidft2 (origin tx) (gM tx) (origin ty) (gM ty) (fun kx ky => Phi kx ky b (fun a => odft2 (origin tx) (gM tx) (aL tx) (origin ty) (gM ty) (aL ty) (x a) kx ky)) i j.
Proof.
  intros HM. unfold out2. rewrite <- oidft2_nest. apply oidft_ext. intros kx Hkx. unfold Z2. apply oidft_ext. intros ky Hky.
  apply (u_ext _ _ _ _ _ HM). intros a Ha. apply (odft2_nest (origin tx) (gM tx) (gL tx) (origin ty) (gM ty) (gL ty) (x a)).
Qed.

Section Two.
Variables (tx ty : xf) (mult : nat -> multiplier) (phi : nat -> nat -> nat -> nat -> (nat -> C) -> C) (Phi : nat -> nat -> nat -> (nat -> C) -> C).
Variables (T : nat) (sch : nat -> nat -> list nat) (F V : nat -> addr) (w : addr) (rooms : nat -> room) (f : nat -> addr) (off : nat).
Hypothesis HF : fit2 tx ty.
Hypothesis HM : mul2 tx ty mult phi Phi.
Hypothesis Hsch : forall r, schedule T (gl tx) (sch r).
Hypothesis Hs : separated (data_blocks tx f off ++ work2 tx ty T F V w rooms).
Notation st := (st2 tx ty mult T sch F V w rooms).
Notation work := (work2 tx ty T F V w rooms).
Notation call := (lconvolve (convolution2 tx ty mult T sch F V w rooms) (arr (aA tx) f) off).
Lemma Hwork : separated work.
Proof. apply sep_app in Hs. tauto. Qed.
Lemma elem_block ad : element2 (aA tx) (aL tx) (aL ty) (gS tx) f off ad -> inb (data_blocks tx f off) ad = true.
Proof.
  intros (a & i & j & Ha & Hi & Hj & ->). apply inb_iff. exists (f a + off), (gS tx * gL tx). split.
  - unfold data_blocks. apply (in_map (fun a => (f a + off, gS tx * gL tx))), in_seq. lia.
  - pose proof (f_S _ _ HF) as HS. change (gL ty) with (aL ty) in HS.
    assert (gS tx * i + gS tx <= gS tx * gL tx). { replace (gS tx * i + gS tx) with (gS tx * (i + 1)) by lia. apply Nat.mul_le_mono_l. change (gL tx) with (aL tx). lia. } lia.
Qed.
Lemma init_keeps x m0 m1 : holds2 (aA tx) (aL tx) (aL ty) (gS tx) f off x m0 -> only (fun ad => inb work ad = true) m0 m1 ->
  holds2 (aA tx) (aL tx) (aL ty) (gS tx) f off x m1.
Proof.
  intros Hx [K2 _] a i j Ha Hi Hj. rewrite K2; [apply Hx; assumption|]. intros Hp. apply sep_app in Hs. destruct Hs as (_ & _ & Hc).
  eapply cross_inb; [exact Hc| |exact Hp]. apply elem_block. exists a, i, j. auto.
Qed.
Notation result x := (fun b i j =>
      Cmul (RtoC (/ (INR (gM tx) * INR (gM ty)))) (oidft2 (origin tx) (gM tx) (origin ty) (gM ty) (fun kx ky =>
        Phi kx ky b (fun a => odft2 (origin tx) (gM tx) (aL tx) (origin ty) (gM ty) (aL ty) (x a) kx ky)) i j)).
Lemma call_spec x m0 : holds2 (aA tx) (aL tx) (aL ty) (gS tx) f off x m0 -> st m0 ->
  TWP call m0 (fun m' => holds2 (aB tx) (aL tx) (aL ty) (gS tx) f off (result x) m' /\ st m' /\
    only (fun ad => element2 (aA tx) (aL tx) (aL ty) (gS tx) f off ad \/ inb work ad = true) m0 m').
Proof.
  intros Hx Hst. eapply TWP_mono; [|apply (conv2 tx ty mult phi Phi HF HM T sch F V w rooms Hsch Hwork (arr (aA tx) f) f off x m0)]; auto.
  - intros m' (K1 & K2 & K3). split; [|split; [exact K2|exact K3]]. intros b i j Hb Hi Hj. rewrite K1 by assumption.
    rewrite (out2_spec tx ty mult phi Phi x b i j HM). apply (f_equal Val). apply Cmul_comm.
  - intros a Ha. apply arr_some. assumption.
Qed.
Lemma good2_thm : good_call2 tx ty mult Phi T sch F V w rooms f off.
Proof.
  intros x m0 Hp Hx. unfold construct_convolve2. apply TWP_seq, TWP_emb.
  eapply WP_mono; [|apply (init2 tx ty mult phi Phi HF HM T sch F V w rooms Hsch Hwork m0 Hp)]. intros m1 (K1 & K2).
  eapply TWP_mono; [|apply (call_spec x m1); [eapply init_keeps; eassumption|exact K1]].
  intros m2 (H1 & _ & H2). split; [exact H1|]. intros ad Hne Hel. rewrite (proj1 H2), (proj1 K2); [reflexivity| |].
  - intros H. eapply inb_false_of; eassumption.
  - intros [H|H]; [contradiction|eapply inb_false_of; eassumption].
Qed.

(** any history of calls *)
Lemma st_keeps u m : keeps work u -> st m -> st (u m).
Proof.
  intros Hk H. unfold st2 in *.
  refine (lst_loc (convolution2 tx ty mult T sch F V w rooms) (gL ty) F V w (fun th => room_blocks ty (rooms th)) (rdy2 ty mult rooms) (Z2 ty Phi) (fun k => sees1 ty (phi k) (Phi k))
    (fun _ => True) (geo2 tx ty HF) _ (f_BA _ _ HF) (f_l2x _ _ HF) _ m (u m) _ H).
  - apply built2.
  - apply (rowok2 tx ty mult phi Phi HF HM T sch F V w rooms Hsch Hwork).
  - intros a Ha. apply inb_iff in Ha. destruct Ha as (b & n & Hi & Hr). replace a with (b + (a - b)) by lia. symmetry. apply (proj1 (Hk m) b n); [exact Hi|lia].
Qed.
Lemma calls_spec us u x : forall m0, st m0 -> (forall s, In s us -> keeps work s /\ exists y, forall m, holds2 (aA tx) (aL tx) (aL ty) (gS tx) f off y (s m)) ->
  keeps work u -> (forall m, holds2 (aA tx) (aL tx) (aL ty) (gS tx) f off x (u m)) ->
  TWP (calls call (us ++ [u])) m0 (fun m' => holds2 (aB tx) (aL tx) (aL ty) (gS tx) f off (result x) m').
Proof.
  assert (Hext : forall (s : mem -> mem) m (Q : mem -> Prop), Q (s m) -> TWP (TExt (fun _ => True) (fun m m' => m' = s m)) m Q).
  { intros s m Q HQ. apply (TWP_emb _ (Ext (fun _ => True) (fun m m' => m' = s m))). apply WP_ext with (m' := s m); auto. }
  induction us as [|s us IH]; intros m0 Hst Hus Hk Hx; cbn [app calls]; apply TWP_seq, Hext; apply TWP_seq.
  - eapply TWP_mono; [|apply (call_spec x)]; [|apply Hx|apply st_keeps; assumption]. intros m' (H1 & _). apply TWP_skip. exact H1.
  - destruct (Hus s (or_introl eq_refl)) as [Hks (y & Hy)].
    eapply TWP_mono; [|apply (call_spec y)]; [|apply Hy|apply st_keeps; assumption]. intros m' (_ & H2 & _). apply IH; auto. intros s' Hs'. apply Hus. right. exact Hs'.
Qed.
Lemma history2_thm us u x m0 : provided work m0 -> (forall s, In s us -> keeps work s /\ exists y, forall m, holds2 (aA tx) (aL tx) (aL ty) (gS tx) f off y (s m)) ->
  keeps work u -> (forall m, holds2 (aA tx) (aL tx) (aL ty) (gS tx) f off x (u m)) ->
  TWP (TSeq (emb (convolution2_cmd tx ty mult T w rooms)) (calls call (us ++ [u]))) m0 (fun m' => holds2 (aB tx) (aL tx) (aL ty) (gS tx) f off (result x) m').
Proof.
  intros Hp Hus Hk Hx. apply TWP_seq, TWP_emb.
  eapply WP_mono; [|apply (init2 tx ty mult phi Phi HF HM T sch F V w rooms Hsch Hwork m0 Hp)]. intros m1 (K1 & K2).
  apply calls_spec; auto.
Qed.
End Two.

(** *** Convolution3 *)
Lemma mul3_free tx ty tz mult Phi : plain_mult mult -> aA ty = aA tx -> aB ty = aB tx -> pointwise (aA tx) (aB tx) mult (fun _ _ => Phi) -> (forall b, of_inputs (aA tx) (Phi b)) ->
  mul3 tx ty tz (fun _ _ => mult) (fun _ _ _ _ => Phi) (fun _ _ _ => Phi).
Proof.
  intros Hp HA HB Hm He. assert (H : mul2 ty tz (fun _ => mult) (fun _ _ _ => Phi) (fun _ _ => Phi)).
  { apply mul2_free; [exact Hp|rewrite HA, HB; exact Hm|rewrite HA; exact He]. }
  constructor; auto. intros _ _. apply plain_mult_good. exact Hp.
Qed.

Section Three.
Variables (tx ty tz : xf) (mult : nat -> nat -> multiplier) (phi : nat -> nat -> nat -> nat -> nat -> (nat -> C) -> C) (Phi : nat -> nat -> nat -> nat -> (nat -> C) -> C).
Variables (T : nat) (sch : nat -> nat -> list nat) (F V : nat -> addr) (w : addr) (rooms : nat -> room2) (schy : nat -> nat -> nat -> nat -> list nat) (f : nat -> addr) (off : nat).
Hypothesis HF : fit3 tx ty tz.
Hypothesis HM : mul3 tx ty tz mult phi Phi.
Hypothesis Hsch : forall r, schedule T (gl tx) (sch r).
Hypothesis Hschy : forall th k r, th < T -> schedule (r2T (rooms th)) (gl ty) (schy th k r).
Hypothesis Hs : separated (data_blocks tx f off ++ work3 tx ty tz T F V w rooms).
Notation st := (st3 tx ty tz mult T sch F V w rooms schy).
Notation work := (work3 tx ty tz T F V w rooms).
Notation call := (lconvolve (convolution3 tx ty tz mult T sch F V w rooms schy) (arr (aA tx) f) off).
Notation el := (element3 (aA tx) (aL tx) (aL ty) (aL tz) (gS tx) (gS ty) f off).
Notation hold n x := (holds3 n (aL tx) (aL ty) (aL tz) (gS tx) (gS ty) f off x).
Lemma Hwork3 : separated work.
Proof. apply sep_app in Hs. tauto. Qed.
Lemma elem_block3 ad : el ad -> inb (data_blocks tx f off) ad = true.
Proof.
  intros (a & i & j & l & Ha & Hi & Hj & Hl & ->). apply inb_iff. exists (f a + off), (gS tx * gL tx). split.
  - unfold data_blocks. apply (in_map (fun a => (f a + off, gS tx * gL tx))), in_seq. lia.
  - destruct (strides tx ty tz HF) as [H1 _]. pose proof (rowlt tx ty tz HF j l Hj Hl) as H2.
    assert (gS tx * i + gS tx <= gS tx * gL tx). { replace (gS tx * i + gS tx) with (gS tx * (i + 1)) by lia. apply Nat.mul_le_mono_l. change (gL tx) with (aL tx). lia. } lia.
Qed.
Lemma init_keeps3 x m0 m1 : hold (aA tx) x m0 -> only (fun ad => inb work ad = true) m0 m1 -> hold (aA tx) x m1.
Proof.
  intros Hx [K2 _] a i j l Ha Hi Hj Hl. rewrite K2; [apply Hx; assumption|]. intros Hp. apply sep_app in Hs. destruct Hs as (_ & _ & Hc).
  eapply cross_inb; [exact Hc| |exact Hp]. apply elem_block3. exists a, i, j, l. repeat split; assumption.
Qed.
Notation result x := (fun b i j l =>
      Cmul (RtoC (/ (INR (gM tx) * (INR (gM ty) * INR (gM tz))))) (oidft3 (origin tx) (gM tx) (origin ty) (gM ty) (origin tz) (gM tz) (fun kx ky kz =>
        Phi kx ky kz b (fun a => odft3 (origin tx) (gM tx) (aL tx) (origin ty) (gM ty) (aL ty) (origin tz) (gM tz) (aL tz) (x a) kx ky kz)) i j l)).
Lemma out3_spec x b i j l : out3 tx ty tz Phi x b i j l =
  oidft3 (origin tx) (gM tx) (origin ty) (gM ty) (origin tz) (gM tz) (fun kx ky kz => Phi kx ky kz b (fun a => odft3 (origin tx) (gM tx) (aL tx) (origin ty) (gM ty) (aL ty) (origin tz) (gM tz) (aL tz) (x a) kx ky kz)) i j l.
Proof.
  unfold out3. rewrite <- oidft3_nest. apply oidft_ext. intros kx Hkx. apply oidft_ext. intros ky Hky. apply oidft_ext. intros kz Hkz.
  apply (u_ext _ _ _ _ _ (u3_k _ _ _ _ _ _ HM kx Hkx)). intros a Ha. apply (odft3_nest (origin tx) (gM tx) (gL tx) (origin ty) (gM ty) (gL ty) (origin tz) (gM tz) (gL tz) (x a)).
Qed.
Lemma call3_spec x m0 : hold (aA tx) x m0 -> st m0 ->
  TWP call m0 (fun m' => hold (aB tx) (result x) m' /\ st m' /\ only (fun ad => el ad \/ inb work ad = true) m0 m').
Proof.
  intros Hx Hst. eapply TWP_mono; [|apply (conv3 tx ty tz mult phi Phi HF HM T sch F V w rooms schy Hsch Hschy Hwork3 (arr (aA tx) f) f off x m0)]; auto.
  - intros m' (K1 & K2 & K3). split; [|split; [exact K2|exact K3]]. intros b i j l Hb Hi Hj Hl. rewrite K1 by assumption.
    rewrite out3_spec. apply (f_equal Val). apply Cmul_comm.
  - intros a Ha. apply arr_some. assumption.
Qed.
Lemma good3_thm x m0 : provided work m0 -> hold (aA tx) x m0 ->
  TWP (construct_convolve3 tx ty tz mult T sch F V w rooms schy f off) m0 (fun m' =>
    hold (aB tx) (result x) m' /\ (forall ad, ~ el ad -> elsewhere work ad -> m' ad = m0 ad)).
Proof.
  intros Hp Hx. unfold construct_convolve3. apply TWP_seq, TWP_emb.
  eapply WP_mono; [|apply (init3 tx ty tz mult phi Phi HF HM T sch F V w rooms schy Hsch Hschy Hwork3 m0 Hp)]. intros m1 (K1 & K2).
  eapply TWP_mono; [|apply (call3_spec x m1); [eapply init_keeps3; eassumption|exact K1]].
  intros m2 (H1 & _ & H2). split; [exact H1|]. intros ad Hne Hel. rewrite (proj1 H2), (proj1 K2); [reflexivity| |].
  - intros H. eapply inb_false_of; eassumption.
  - intros [H|H]; [contradiction|eapply inb_false_of; eassumption].
Qed.
Lemma st_keeps3 u m : keeps work u -> st m -> st (u m).
Proof.
  intros Hk H. unfold st3 in *.
  refine (lst_loc (convolution3 tx ty tz mult T sch F V w rooms schy) (gS ty * gL ty) F V w (fun th => room2_blocks ty tz (rooms th)) (rdy3 ty tz mult rooms schy) (Z3 ty tz Phi) (fun k => mul2 ty tz (mult k) (phi k) (Phi k))
    (fun _ => True) (geo3 tx ty tz HF) _ (B_A tx ty tz HF) (f3_l2x _ _ _ HF) _ m (u m) _ H).
  - apply built3.
  - apply (rowok3 tx ty tz mult phi Phi HF HM T sch F V w rooms schy Hsch Hschy Hwork3).
  - intros a Ha. apply inb_iff in Ha. destruct Ha as (b & n & Hi & Hr). replace a with (b + (a - b)) by lia. symmetry. apply (proj1 (Hk m) b n); [exact Hi|lia].
Qed.
Lemma calls3_spec us u x : forall m0, st m0 -> (forall s, In s us -> keeps work s /\ exists y, forall m, hold (aA tx) y (s m)) ->
  keeps work u -> (forall m, hold (aA tx) x (u m)) ->
  TWP (calls call (us ++ [u])) m0 (fun m' => hold (aB tx) (result x) m').
Proof.
  assert (Hext : forall (s : mem -> mem) m (Q : mem -> Prop), Q (s m) -> TWP (TExt (fun _ => True) (fun m m' => m' = s m)) m Q).
  { intros s m Q HQ. apply (TWP_emb _ (Ext (fun _ => True) (fun m m' => m' = s m))). apply WP_ext with (m' := s m); auto. }
  induction us as [|s us IH]; intros m0 Hst Hus Hk Hx; cbn [app calls]; apply TWP_seq, Hext; apply TWP_seq.
  - eapply TWP_mono; [|apply (call3_spec x)]; [|apply Hx|apply st_keeps3; assumption]. intros m' (H1 & _). apply TWP_skip. exact H1.
  - destruct (Hus s (or_introl eq_refl)) as [Hks (y & Hy)].
    eapply TWP_mono; [|apply (call3_spec y)]; [|apply Hy|apply st_keeps3; assumption]. intros m' (_ & H2 & _). apply IH; auto. intros s' Hs'. apply Hus. right. exact Hs'.
Qed.
Lemma history3_thm us u x m0 : provided work m0 -> (forall s, In s us -> keeps work s /\ exists y, forall m, hold (aA tx) y (s m)) ->
  keeps work u -> (forall m, hold (aA tx) x (u m)) ->
  TWP (TSeq (emb (convolution3_cmd tx ty tz mult T w rooms)) (calls call (us ++ [u]))) m0 (fun m' => hold (aB tx) (result x) m').
Proof.
  intros Hp Hus Hk Hx. apply TWP_seq, TWP_emb.
  eapply WP_mono; [|apply (init3 tx ty tz mult phi Phi HF HM T sch F V w rooms schy Hsch Hschy Hwork3 m0 Hp)]. intros m1 (K1 & K2).
  apply calls3_spec; auto.
Qed.
End Three.

(** *** the statements of PropsLayer.v *)
Lemma convolution2_thm tx ty : wf tx -> wf ty -> agree2 tx ty ->
  forall mult Phi, plain_mult mult -> pointwise (aA tx) (aB tx) mult (fun _ _ => Phi) -> (forall b, of_inputs (aA tx) (Phi b)) ->
  forall T sch F V w rooms f off, (forall r, schedule T (gl tx) (sch r)) ->
  separated (data_blocks tx f off ++ work2 tx ty T F V w rooms) ->
  forall x m0, provided (work2 tx ty T F V w rooms) m0 -> holds2 (aA tx) (aL tx) (aL ty) (gS tx) f off x m0 ->
  TWP (construct_convolve2 tx ty (fun _ => mult) T sch F V w rooms f off) m0 (fun m' =>
    holds2 (aB tx) (aL tx) (aL ty) (gS tx) f off (fun b i j =>
      Cmul (RtoC (/ (INR (gM tx) * INR (gM ty)))) (oidft2 (origin tx) (gM tx) (origin ty) (gM ty) (fun kx ky =>
        Phi b (fun a => odft2 (origin tx) (gM tx) (aL tx) (origin ty) (gM ty) (aL ty) (x a) kx ky)) i j)) m' /\
    (forall ad, ~ element2 (aA tx) (aL tx) (aL ty) (gS tx) f off ad -> elsewhere (work2 tx ty T F V w rooms) ad -> m' ad = m0 ad)).
Proof.
  intros Hx Hy Ha mult Phi Hp Hm He T sch F V w rooms f off Hsch Hs x m0 Hpr Hh.
  apply (good2_thm tx ty (fun _ => mult) (fun _ _ _ => Phi) (fun _ _ => Phi) T sch F V w rooms f off); auto using fit2_of, mul2_free.
Qed.
Lemma history2_free tx ty : wf tx -> wf ty -> agree2 tx ty ->
  forall mult Phi, plain_mult mult -> pointwise (aA tx) (aB tx) mult (fun _ _ => Phi) -> (forall b, of_inputs (aA tx) (Phi b)) ->
  forall T sch F V w rooms f off, (forall r, schedule T (gl tx) (sch r)) ->
  separated (data_blocks tx f off ++ work2 tx ty T F V w rooms) ->
  forall us u x m0, provided (work2 tx ty T F V w rooms) m0 ->
  (forall s, In s us -> keeps (work2 tx ty T F V w rooms) s /\ exists y, forall m, holds2 (aA tx) (aL tx) (aL ty) (gS tx) f off y (s m)) ->
  keeps (work2 tx ty T F V w rooms) u -> (forall m, holds2 (aA tx) (aL tx) (aL ty) (gS tx) f off x (u m)) ->
  TWP (TSeq (emb (convolution2_cmd tx ty (fun _ => mult) T w rooms))
            (calls (lconvolve (convolution2 tx ty (fun _ => mult) T sch F V w rooms) (arr (aA tx) f) off) (us ++ [u]))) m0 (fun m' =>
    holds2 (aB tx) (aL tx) (aL ty) (gS tx) f off (fun b i j =>
      Cmul (RtoC (/ (INR (gM tx) * INR (gM ty)))) (oidft2 (origin tx) (gM tx) (origin ty) (gM ty) (fun kx ky =>
        Phi b (fun a => odft2 (origin tx) (gM tx) (aL tx) (origin ty) (gM ty) (aL ty) (x a) kx ky)) i j)) m').
Proof.
  intros Hx Hy Ha mult Phi Hp Hm He T sch F V w rooms f off Hsch Hs us u x m0 Hpr Hus Hk Hu.
  apply (history2_thm tx ty (fun _ => mult) (fun _ _ _ => Phi) (fun _ _ => Phi) T sch F V w rooms f off); auto using fit2_of, mul2_free.
Qed.
Lemma frequency2_thm tx ty : wf tx -> wf ty -> agree2 tx ty ->
  goverwrite tx = false -> goverwrite ty = false -> gD0 ty = 1 \/ gD ty = 1 ->
  forall mult phi Phi, (forall kx, plain_mult (mult kx)) -> (forall kx, pointwise (aA tx) (aB tx) (mult kx) (phi kx)) ->
  (forall kx ky b, of_inputs (aA tx) (Phi kx ky b)) ->
  (forall kx rs r i b v, kx < gM tx -> loop_trace (gR ty) (increment ty) 0 rs -> In r rs -> i < noutputs ty r ->
     phi kx r i b v = Phi kx (index ty r i) b v) ->
  forall T sch F V w rooms f off, (forall r, schedule T (gl tx) (sch r)) ->
  separated (data_blocks tx f off ++ work2 tx ty T F V w rooms) ->
  forall x m0, provided (work2 tx ty T F V w rooms) m0 -> holds2 (aA tx) (aL tx) (aL ty) (gS tx) f off x m0 ->
  TWP (construct_convolve2 tx ty mult T sch F V w rooms f off) m0 (fun m' =>
    holds2 (aB tx) (aL tx) (aL ty) (gS tx) f off (fun b i j =>
      Cmul (RtoC (/ (INR (gM tx) * INR (gM ty)))) (oidft2 (origin tx) (gM tx) (origin ty) (gM ty) (fun kx ky =>
        Phi kx ky b (fun a => odft2 (origin tx) (gM tx) (aL tx) (origin ty) (gM ty) (aL ty) (x a) kx ky)) i j)) m').
Proof.
  intros Hx Hy Ha How Howy HD mult phi Phi Hp Hm He Hphi T sch F V w rooms f off Hsch Hs x m0 Hpr Hh.
  assert (HM : mul2 tx ty mult phi Phi).
  { constructor.
    + intros k. apply pointwise_ok, Hm.
    + intros k. apply plain_mult_good, Hp.
    + intros k ky b v v' E. apply He. exact E.
    + intros k Hk. apply sees1_index; auto. intros rs r i b v. apply Hphi. exact Hk.
    + rewrite How. discriminate. }
  eapply TWP_mono; [|exact (good2_thm tx ty mult phi Phi T sch F V w rooms f off (fit2_of _ _ Hx Hy Ha) HM Hsch Hs x m0 Hpr Hh)].
  intros m' [H _]. exact H.
Qed.

Lemma binary_of A : A = 2 -> forall b : nat, of_inputs A (fun v : nat -> C => Cmul (v 0) (v 1)).
Proof. intros -> b v v' E. rewrite !E by lia. reflexivity. Qed.
Lemma binary_pw A B : A = 2 -> B = 1 -> pointwise A B multBinary (fun _ _ _ v => Cmul (v 0) (v 1)).
Proof. intros -> ->. apply ok_pointwise, multBinary_ok. Qed.
Lemma binary_plain : plain_mult multBinary.
Proof.
  intros P n r off. unfold multBinary, pget.
  destruct (P 0); [destruct (P 1)|]; cbn; auto. Qed.
Lemma M_ge t : wf t -> enough (origin t) (aL t) (aM t) -> enough (origin t) (aL t) (gM t).
Proof. intros Hwf [H1 H2]. pose proof (wf_aM t Hwf). unfold enough. lia. Qed.

Lemma linear2_thm tx ty : wf tx -> wf ty -> agree2 tx ty -> aA tx = 2 -> aB tx = 1 ->
  enough (origin tx) (aL tx) (aM tx) -> enough (origin ty) (aL ty) (aM ty) ->
  forall T sch F V w rooms f off, (forall r, schedule T (gl tx) (sch r)) ->
  separated (data_blocks tx f off ++ work2 tx ty T F V w rooms) ->
  forall x m0, provided (work2 tx ty T F V w rooms) m0 -> holds2 2 (aL tx) (aL ty) (gS tx) f off x m0 ->
  TWP (construct_convolve2 tx ty (fun _ => multBinary) T sch F V w rooms f off) m0 (fun m' =>
    (forall i j, i < aL tx -> j < aL ty -> m' (f 0 + off + gS tx * i + j) = Val (oconv2 (origin tx) (aL tx) (origin ty) (aL ty) (x 0) (x 1) i j)) /\
    (forall ad, ~ element2 2 (aL tx) (aL ty) (gS tx) f off ad -> elsewhere (work2 tx ty T F V w rooms) ad -> m' ad = m0 ad)).
Proof.
  intros Hx Hy Ha EA EB HLx HLy T sch F V w rooms f off Hsch Hs x m0 Hpr Hh. pose proof (M_ge tx Hx HLx) as Kx. pose proof (M_ge ty Hy HLy) as Ky.
  eapply TWP_mono; [|apply (convolution2_thm tx ty Hx Hy Ha multBinary (fun _ v => Cmul (v 0) (v 1)) binary_plain (binary_pw _ _ EA EB) (binary_of _ EA) T sch F V w rooms f off Hsch Hs x m0 Hpr)].
  - rewrite EA, EB. intros m' [H1 H2]. split; [|exact H2]. intros i j Hi Hj. rewrite (H1 0 i j) by (auto; lia). apply (f_equal Val).
    rewrite <- oidft2_nest.
    rewrite (oidft_ext (origin tx) (gM tx) _ (fun kx => oidft (origin ty) (gM ty) (fun ky => Cmul (odft (origin ty) (gM ty) (aL ty) (fun j => odft (origin tx) (gM tx) (aL tx) (fun i => x 0 i j) kx) ky) (odft (origin ty) (gM ty) (aL ty) (fun j => odft (origin tx) (gM tx) (aL tx) (fun i => x 1 i j) kx) ky)) j)).
    2:{ intros kx Hkx. apply oidft_ext. intros ky Hky. rewrite !odft2_nest. reflexivity. }
    rewrite lin2 by assumption. rewrite !Cmul_assoc, <- !RtoC_mul. pose proof (M_pos tx Hx). pose proof (M_pos ty Hy).
    replace (/ (INR (gM tx) * INR (gM ty)) * INR (gM tx) * INR (gM ty))%R with 1%R by (field; split; apply not_0_INR; lia). apply Cmul_1_l.
  - rewrite EA. exact Hh.
Qed.

Lemma convolution3_thm tx ty tz : wf tx -> wf ty -> wf tz -> agree3 tx ty tz ->
  forall mult Phi, plain_mult mult -> pointwise (aA tx) (aB tx) mult (fun _ _ => Phi) -> (forall b, of_inputs (aA tx) (Phi b)) ->
  forall T sch F V w rooms schy f off, (forall r, schedule T (gl tx) (sch r)) ->
  (forall th k r, th < T -> schedule (r2T (rooms th)) (gl ty) (schy th k r)) ->
  separated (data_blocks tx f off ++ work3 tx ty tz T F V w rooms) ->
  forall x m0, provided (work3 tx ty tz T F V w rooms) m0 -> holds3 (aA tx) (aL tx) (aL ty) (aL tz) (gS tx) (gS ty) f off x m0 ->
  TWP (construct_convolve3 tx ty tz (fun _ _ => mult) T sch F V w rooms schy f off) m0 (fun m' =>
    holds3 (aB tx) (aL tx) (aL ty) (aL tz) (gS tx) (gS ty) f off (fun b i j l =>
      Cmul (RtoC (/ (INR (gM tx) * (INR (gM ty) * INR (gM tz))))) (oidft3 (origin tx) (gM tx) (origin ty) (gM ty) (origin tz) (gM tz) (fun kx ky kz =>
        Phi b (fun a => odft3 (origin tx) (gM tx) (aL tx) (origin ty) (gM ty) (aL ty) (origin tz) (gM tz) (aL tz) (x a) kx ky kz)) i j l)) m' /\
    (forall ad, ~ element3 (aA tx) (aL tx) (aL ty) (aL tz) (gS tx) (gS ty) f off ad -> elsewhere (work3 tx ty tz T F V w rooms) ad -> m' ad = m0 ad)).
Proof.
  intros Hx Hy Hz Ha mult Phi Hp Hm He T sch F V w rooms schy f off Hsch Hschy Hs x m0 Hpr Hh.
  apply (good3_thm tx ty tz (fun _ _ => mult) (fun _ _ _ _ => Phi) (fun _ _ _ => Phi) T sch F V w rooms schy f off); auto using fit3_of.
  destruct Ha. apply mul3_free; auto.
Qed.
Lemma history3_free tx ty tz : wf tx -> wf ty -> wf tz -> agree3 tx ty tz ->
  forall mult Phi, plain_mult mult -> pointwise (aA tx) (aB tx) mult (fun _ _ => Phi) -> (forall b, of_inputs (aA tx) (Phi b)) ->
  forall T sch F V w rooms schy f off, (forall r, schedule T (gl tx) (sch r)) ->
  (forall th k r, th < T -> schedule (r2T (rooms th)) (gl ty) (schy th k r)) ->
  separated (data_blocks tx f off ++ work3 tx ty tz T F V w rooms) ->
  forall us u x m0, provided (work3 tx ty tz T F V w rooms) m0 ->
  (forall s, In s us -> keeps (work3 tx ty tz T F V w rooms) s /\ exists y, forall m, holds3 (aA tx) (aL tx) (aL ty) (aL tz) (gS tx) (gS ty) f off y (s m)) ->
  keeps (work3 tx ty tz T F V w rooms) u -> (forall m, holds3 (aA tx) (aL tx) (aL ty) (aL tz) (gS tx) (gS ty) f off x (u m)) ->
  TWP (TSeq (emb (convolution3_cmd tx ty tz (fun _ _ => mult) T w rooms))
            (calls (lconvolve (convolution3 tx ty tz (fun _ _ => mult) T sch F V w rooms schy) (arr (aA tx) f) off) (us ++ [u]))) m0 (fun m' =>
    holds3 (aB tx) (aL tx) (aL ty) (aL tz) (gS tx) (gS ty) f off (fun b i j l =>
      Cmul (RtoC (/ (INR (gM tx) * (INR (gM ty) * INR (gM tz))))) (oidft3 (origin tx) (gM tx) (origin ty) (gM ty) (origin tz) (gM tz) (fun kx ky kz =>
        Phi b (fun a => odft3 (origin tx) (gM tx) (aL tx) (origin ty) (gM ty) (aL ty) (origin tz) (gM tz) (aL tz) (x a) kx ky kz)) i j l)) m').
Proof.
  intros Hx Hy Hz Ha mult Phi Hp Hm He T sch F V w rooms schy f off Hsch Hschy Hs us u x m0 Hpr Hus Hk Hu.
  apply (history3_thm tx ty tz (fun _ _ => mult) (fun _ _ _ _ => Phi) (fun _ _ _ => Phi) T sch F V w rooms schy f off); auto using fit3_of.
  destruct Ha. apply mul3_free; auto.
Qed.
Lemma frequency3_thm tx ty tz : wf tx -> wf ty -> wf tz -> agree3 tx ty tz ->
  goverwrite tx = false -> goverwrite ty = false -> goverwrite tz = false -> gD0 tz = 1 \/ gD tz = 1 ->
  forall mult phi Phi, (forall kx ky, plain_mult (mult kx ky)) -> (forall kx ky, pointwise (aA tx) (aB tx) (mult kx ky) (phi kx ky)) ->
  (forall kx ky kz b, of_inputs (aA tx) (Phi kx ky kz b)) ->
  (forall kx ky rs r i b v, kx < gM tx -> ky < gM ty -> loop_trace (gR tz) (increment tz) 0 rs -> In r rs -> i < noutputs tz r ->
     phi kx ky r i b v = Phi kx ky (index tz r i) b v) ->
  forall T sch F V w rooms schy f off, (forall r, schedule T (gl tx) (sch r)) ->
  (forall th k r, th < T -> schedule (r2T (rooms th)) (gl ty) (schy th k r)) ->
  separated (data_blocks tx f off ++ work3 tx ty tz T F V w rooms) ->
  forall x m0, provided (work3 tx ty tz T F V w rooms) m0 -> holds3 (aA tx) (aL tx) (aL ty) (aL tz) (gS tx) (gS ty) f off x m0 ->
  TWP (construct_convolve3 tx ty tz mult T sch F V w rooms schy f off) m0 (fun m' =>
    holds3 (aB tx) (aL tx) (aL ty) (aL tz) (gS tx) (gS ty) f off (fun b i j l =>
      Cmul (RtoC (/ (INR (gM tx) * (INR (gM ty) * INR (gM tz))))) (oidft3 (origin tx) (gM tx) (origin ty) (gM ty) (origin tz) (gM tz) (fun kx ky kz =>
        Phi kx ky kz b (fun a => odft3 (origin tx) (gM tx) (aL tx) (origin ty) (gM ty) (aL ty) (origin tz) (gM tz) (aL tz) (x a) kx ky kz)) i j l)) m').
Proof.
  intros Hx Hy Hz Ha How Howy Howz HD mult phi Phi Hp Hm He Hphi T sch F V w rooms schy f off Hsch Hschy Hs x m0 Hpr Hh.
  assert (HM : mul3 tx ty tz mult phi Phi).
  { assert (H : forall k, k < gM tx -> mul2 ty tz (mult k) (phi k) (Phi k)).
    { intros k Hk. constructor.
      + intros ky. apply pointwise_ok. rewrite (ag3_A _ _ _ Ha), (ag3_B _ _ _ Ha). apply Hm.
      + intros ky. apply plain_mult_good, Hp.
      + intros ky kz b v v' E. apply He. rewrite <- (ag3_A _ _ _ Ha). exact E.
      + intros ky Hky. apply sees1_index; auto. intros rs r i b v. apply Hphi; assumption.
      + rewrite Howy. discriminate. }
    constructor.
    + intros k ky. apply plain_mult_good, Hp.
    + apply H. pose proof (M_pos tx Hx). lia.
    + exact H.
    + rewrite How. discriminate. }
  eapply TWP_mono; [|exact (good3_thm tx ty tz mult phi Phi T sch F V w rooms schy f off (fit3_of _ _ _ Hx Hy Hz Ha) HM Hsch Hschy Hs x m0 Hpr Hh)].
  intros m' [H _]. exact H.
Qed.
Lemma linear3_thm tx ty tz : wf tx -> wf ty -> wf tz -> agree3 tx ty tz -> aA tx = 2 -> aB tx = 1 ->
  enough (origin tx) (aL tx) (aM tx) -> enough (origin ty) (aL ty) (aM ty) -> enough (origin tz) (aL tz) (aM tz) ->
  forall T sch F V w rooms schy f off, (forall r, schedule T (gl tx) (sch r)) ->
  (forall th k r, th < T -> schedule (r2T (rooms th)) (gl ty) (schy th k r)) ->
  separated (data_blocks tx f off ++ work3 tx ty tz T F V w rooms) ->
  forall x m0, provided (work3 tx ty tz T F V w rooms) m0 -> holds3 2 (aL tx) (aL ty) (aL tz) (gS tx) (gS ty) f off x m0 ->
  TWP (construct_convolve3 tx ty tz (fun _ _ => multBinary) T sch F V w rooms schy f off) m0 (fun m' =>
    (forall i j l, i < aL tx -> j < aL ty -> l < aL tz -> m' (f 0 + off + gS tx * i + gS ty * j + l) = Val (oconv3 (origin tx) (aL tx) (origin ty) (aL ty) (origin tz) (aL tz) (x 0) (x 1) i j l)) /\
    (forall ad, ~ element3 2 (aL tx) (aL ty) (aL tz) (gS tx) (gS ty) f off ad -> elsewhere (work3 tx ty tz T F V w rooms) ad -> m' ad = m0 ad)).
Proof.
  intros Hx Hy Hz Ha EA EB HLx HLy HLz T sch F V w rooms schy f off Hsch Hschy Hs x m0 Hpr Hh.
  pose proof (M_ge tx Hx HLx) as Kx. pose proof (M_ge ty Hy HLy) as Ky. pose proof (M_ge tz Hz HLz) as Kz.
  eapply TWP_mono; [|apply (convolution3_thm tx ty tz Hx Hy Hz Ha multBinary (fun _ v => Cmul (v 0) (v 1)) binary_plain (binary_pw _ _ EA EB) (binary_of _ EA) T sch F V w rooms schy f off Hsch Hschy Hs x m0 Hpr)].
  - rewrite EA, EB. intros m' [H1 H2]. split; [|exact H2]. intros i j l Hi Hj Hl. rewrite (H1 0 i j l) by (auto; lia). apply (f_equal Val).
    rewrite <- oidft3_nest.
    rewrite (oidft_ext (origin tx) (gM tx) _ (fun kx => oidft (origin ty) (gM ty) (fun ky => oidft (origin tz) (gM tz) (fun kz =>
      Cmul (odft (origin tz) (gM tz) (aL tz) (fun l => odft (origin ty) (gM ty) (aL ty) (fun j => odft (origin tx) (gM tx) (aL tx) (fun i => x 0 i j l) kx) ky) kz)
           (odft (origin tz) (gM tz) (aL tz) (fun l => odft (origin ty) (gM ty) (aL ty) (fun j => odft (origin tx) (gM tx) (aL tx) (fun i => x 1 i j l) kx) ky) kz)) l) j)).
    2:{ intros kx Hkx. apply oidft_ext. intros ky Hky. apply oidft_ext. intros kz Hkz. rewrite !odft3_nest. reflexivity. }
    rewrite lin3 by assumption. rewrite !Cmul_assoc, <- !RtoC_mul. pose proof (M_pos tx Hx). pose proof (M_pos ty Hy). pose proof (M_pos tz Hz).
    replace (/ (INR (gM tx) * (INR (gM ty) * INR (gM tz))) * INR (gM tx) * INR (gM ty) * INR (gM tz))%R with 1%R
      by (field; repeat split; apply not_0_INR; lia). apply Cmul_1_l.
  - rewrite EA. exact Hh.
Qed.

(** strides that do not fit: the constructor of Convolution3 ends the program *)
Lemma exit3_thm tx ty tz : wf ty -> wf tz -> agree2 ty tz ->
  ~ (aL ty * gS ty <= gS tx /\ gC tx = if gS ty =? gC ty then aL ty * gS ty else gC ty) ->
  forall mult, forall T F V w rooms, 
  separated (work3 tx ty tz T F V w rooms) ->
  forall m0, provided (work3 tx ty tz T F V w rooms) m0 ->
  exec (convolution3_cmd tx ty tz mult T w rooms) m0 ExitErr /\
  forall o, exec (convolution3_cmd tx ty tz mult T w rooms) m0 o -> o = ExitErr.
Proof.
  intros Hy Hz Ha Hn mult T F V w rooms Hs m0 Hp. unfold convolution3_cmd.
  assert (E : checkStrides tx ty = false).
  { apply not_true_is_false. intros H. apply Hn. unfold checkStrides, contiguous in H. apply andb_prop in H. destruct H as [H1 H2].
    apply Nat.leb_le in H1. apply Nat.eqb_eq in H2. split; assumption. }
  rewrite E.
  assert (HF : fit2 ty tz) by (apply fit2_of; assumption).
  assert (HW : WP (cfor T (fun th => convolution2_cmd ty tz (mult 0) (r2T (rooms th)) (r2W (rooms th)) (r2rooms (rooms th)))) m0 (fun m' => forall a, m0 a <> Unalloc -> m' a <> Unalloc)).
  { apply WP_cfor with (I := fun n m' => forall a, m0 a <> Unalloc -> m' a <> Unalloc); [auto|]. intros th mm Hth Hal. unfold convolution2_cmd. apply WP_seq.
    set (rm := rooms th).
    assert (Hpt : forall b n i, In (b, n) (room2_blocks ty tz rm) -> i < n -> mm (b + i) <> Unalloc).
    { intros b n i Hi Hlt. apply Hal. apply (Hp b n i); [|exact Hlt]. unfold work3. apply in_or_app. right. apply in_flat_map. exists th. split; [apply in_seq; lia|exact Hi]. }
    assert (H1 : WP (cfor (r2T rm) (fun th' => cinit_cmd (cobj tz (mult 0) (r2rooms rm th') 0))) mm (fun m' => forall a, mm a <> Unalloc -> m' a <> Unalloc)).
    { apply WP_cfor with (I := fun n m' => forall a, mm a <> Unalloc -> m' a <> Unalloc); [auto|]. intros th' m1 Hth' Hal'.
      eapply WP_mono; [|apply (init_own tz (rF (r2rooms rm th')) (rV (r2rooms rm th')) (rW (r2rooms rm th')) (mult 0 0) m1 Hz (ag_S _ _ Ha))].
      - intros m' [_ [_ H]] a Haa. apply H, Hal', Haa.
      - intros i Hi. apply Hal'. apply (Hpt (rW (r2rooms rm th')) (workSizeW tz) i); [|exact Hi]. unfold room2_blocks, work2. apply in_or_app. right.
        apply in_flat_map. exists th'. split; [apply in_seq; lia|apply in_W]. }
    eapply WP_mono; [|exact H1]. intros m1 Hal1.
    unfold lay_W, padOpt. destruct (ainplace ty) eqn:Ei.
    - replace (repad ty) with false by (unfold repad; rewrite Ei; reflexivity). rewrite orb_true_r. apply WP_skip. intros a Haa. apply Hal1, Hal, Haa.
    - eapply WP_mono; [|apply (pad_x ty Hy (r2W rm) m1)].
      + intros m' [_ [_ H]] a Haa. apply H, Hal1, Hal, Haa.
      + pose proof (geo2 ty tz HF) as HG. rewrite (g_D _ _ _ _ HG), Nat.mul_1_r. apply (word_prov (convolution2 ty tz (mult 0) (r2T rm) (fun _ _ => []) (r2F rm) (r2V rm) (r2W rm) (r2rooms rm)) (gL tz) HG (ag_BA _ _ Ha) (ag_l2x _ _ Ha)).
        intros i Hi. apply Hal1. apply (Hpt (r2W rm) (workSizeW ty) i).
        * unfold room2_blocks, work2. apply in_or_app. left. apply in_W.
        * unfold workSizeW. rewrite Ei, (OS_Sl ty 1 0 (gL tz) HG). exact Hi. }
  destruct HW as (m1 & He & _ & Hu). split.
  - eapply ex_seq; [exact He|constructor].
  - intros o Ho. inversion Ho as [|? ? ? m2 ? H1 H2|? ? ? H1|? ? ? H1| | | |]; subst.
    + inversion H2. reflexivity.
    + apply Hu in H1. discriminate.
    + reflexivity.
Qed.

(** *** fftPad: the ordinary linear convolutions *)
Lemma linear2_FP (sx sy : pad) : let tx := FP sx in let ty := FP sy in wf tx -> wf ty -> agree2 tx ty -> aA tx = 2 -> aB tx = 1 ->
  2 * aL tx <= aM tx + 1 -> 2 * aL ty <= aM ty + 1 ->
  forall T sch F V w rooms f off, (forall r, schedule T (gl tx) (sch r)) ->
  separated (data_blocks tx f off ++ work2 tx ty T F V w rooms) ->
  forall x m0, provided (work2 tx ty T F V w rooms) m0 -> holds2 2 (aL tx) (aL ty) (gS tx) f off x m0 ->
  TWP (construct_convolve2 tx ty (fun _ => multBinary) T sch F V w rooms f off) m0 (fun m' =>
    (forall i j, i < aL tx -> j < aL ty -> m' (f 0 + off + gS tx * i + j) = Val (linconv2 (x 0) (x 1) i j)) /\
    (forall ad, ~ element2 2 (aL tx) (aL ty) (gS tx) f off ad -> elsewhere (work2 tx ty T F V w rooms) ad -> m' ad = m0 ad)).
Proof.
  intros tx ty Hx Hy Ha EA EB HLx HLy T sch F V w rooms f off Hsch Hs x m0 Hpr Hh.
  eapply TWP_mono; [|apply (linear2_thm tx ty Hx Hy Ha EA EB (enough_FP sx Hx HLx) (enough_FP sy Hy HLy) T sch F V w rooms f off Hsch Hs x m0 Hpr Hh)].
  intros m' [H1 H2]. split; [|exact H2]. intros i j Hi Hj. rewrite (H1 i j Hi Hj). f_equal. apply oconv2_0; assumption.
Qed.
Lemma linear3_FP (sx sy sz : pad) : let tx := FP sx in let ty := FP sy in let tz := FP sz in
  wf tx -> wf ty -> wf tz -> agree3 tx ty tz -> aA tx = 2 -> aB tx = 1 ->
  2 * aL tx <= aM tx + 1 -> 2 * aL ty <= aM ty + 1 -> 2 * aL tz <= aM tz + 1 ->
  forall T sch F V w rooms schy f off, (forall r, schedule T (gl tx) (sch r)) ->
  (forall th k r, th < T -> schedule (r2T (rooms th)) (gl ty) (schy th k r)) ->
  separated (data_blocks tx f off ++ work3 tx ty tz T F V w rooms) ->
  forall x m0, provided (work3 tx ty tz T F V w rooms) m0 -> holds3 2 (aL tx) (aL ty) (aL tz) (gS tx) (gS ty) f off x m0 ->
  TWP (construct_convolve3 tx ty tz (fun _ _ => multBinary) T sch F V w rooms schy f off) m0 (fun m' =>
    (forall i j l, i < aL tx -> j < aL ty -> l < aL tz -> m' (f 0 + off + gS tx * i + gS ty * j + l) = Val (linconv3 (x 0) (x 1) i j l)) /\
    (forall ad, ~ element3 2 (aL tx) (aL ty) (aL tz) (gS tx) (gS ty) f off ad -> elsewhere (work3 tx ty tz T F V w rooms) ad -> m' ad = m0 ad)).
Proof.
  intros tx ty tz Hx Hy Hz Ha EA EB HLx HLy HLz T sch F V w rooms schy f off Hsch Hschy Hs x m0 Hpr Hh.
  eapply TWP_mono; [|apply (linear3_thm tx ty tz Hx Hy Hz Ha EA EB (enough_FP sx Hx HLx) (enough_FP sy Hy HLy) (enough_FP sz Hz HLz) T sch F V w rooms schy f off Hsch Hschy Hs x m0 Hpr Hh)].
  intros m' [H1 H2]. split; [|exact H2]. intros i j l Hi Hj Hl. rewrite (H1 i j l Hi Hj Hl). f_equal. apply oconv3_0; assumption.
Qed.
