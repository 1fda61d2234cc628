(** The properties of the distributed convolution. *)
From Coq Require Import Reals ZArith List Arith Bool Lia Lra FunctionalExtensionality Permutation.
From Verif Require Import CNum Sums Roots PadModel PadSpec PadMath ConvMath PadBridge PadProofs MpiMachine MpiRun MpiTrModel MpiTrGeom MpiTrPhase MpiTrXch MpiTrSpec MpiTrTop MpiTrProofs MpiColl MpiFftModel MpiFft1 MpiRFft1 MpiCModel MpiC1 MpiC2 MpiC3 MpiCSpec.
Import PadModel PadBridge.
Import ListNotations.
Local Open Scope nat_scope.

Definition initialM (c : cfg) (mem0 : nat -> nat -> nat -> C) (bsz0 : nat -> nat -> nat) (p : nat -> prog C) : gst C :=
  fun r => (p r, start_loc C c r (mem0 r) (bsz0 r)).
(** the transposes of X x Y words over P processes *)
Definition tcfg (X Y P a al : nat) : cfg := mkCfg X Y 1 1 P a al.
(** sizes of the arrays: F[a] and the work array of the transposes, f[a], V[b] *)
Definition enough (X Y P A B Lx off : nat) (K : kern) (bsz0 : nat -> nat -> nat) : Prop :=
  (forall r b, r < P -> b <= Nat.max A B -> storage X Y 1 P r <= bsz0 r b) /\
  (forall r a, r < P -> a < Nat.max A B -> off + Lx * count Y P r <= bsz0 r (fb A B a)) /\
  (1 < nblocks K -> forall r b, r < P -> b < B -> Lx * count Y P r <= bsz0 r (vb A B b)).

Section Top.
Variables (X Y P a al A B Lx off : nat) (K : kern).
Hypotheses (HX : 0 < X) (HY : 0 < Y) (HP : 0 < P) (Ha : 0 < a).
Hypothesis HPY : P = 1 \/ 1 < Y.
Hypothesis Hnb : 0 < nblocks K.
Hypothesis Hbk : forall i, i < nblocks K -> kblock K i <= X.
Hypothesis Hloc : local_kernels A Lx Y K.
Let c := tcfg X Y P a al.
Local Instance goodM : good c.
Proof. constructor; cbn; auto; lia. Qed.

Lemma iter_eq : forall scale n f, conviter c B K scale n f = Nat.iter n (pipeline X P B K scale) f.
Proof.
  intros scale. assert (E : forall f, convf c B K scale f = pipeline X P B K scale f).
  { intros f. apply functional_extensionality. intros b. unfold convf, pipeline.
    destruct (b <? B); apply functional_extensionality; intros x; apply functional_extensionality; intros j; reflexivity. }
  induction n as [|n IH]; intros f; [reflexivity|]. cbn [conviter]. rewrite IH, E.
  clear. induction n as [|n IH]; [reflexivity|]. cbn [Nat.iter nat_rect] in *. rewrite <- IH. reflexivity.
Qed.
Theorem history_thm : forall scale n f mem0 bsz0, enough X Y P A B Lx off K bsz0 ->
  (forall r b, r < P -> b < Nat.max A B -> columns Lx Y P off (f b) r (mem0 r (fb A B b))) ->
  always_ends C P (initialM c mem0 bsz0 (fun r => convolvesM c A B Lx off K scale r n (Halt C)))
    (fun gf => forall r, r < P ->
       (forall b, b < Nat.max A B -> columns Lx Y P off (Nat.iter n (pipeline X P B K scale) f b) r (mem C (snd (gf r)) (fb A B b))) /\
       (0 < count X P r + count Y P r -> forall b o, b < Nat.max A B -> o < off \/ off + Lx * count Y P r <= o ->
          mem C (snd (gf r)) (fb A B b) o = mem0 r (fb A B b) o) /\
       (forall b o, 3 * Nat.max A B + 1 <= b -> mem C (snd (gf r)) b o = mem0 r b o)).
Proof.
  intros scale n f mem0 bsz0 (S1 & S2 & S3) HG. destruct Hloc as (K1 & K2 & K3).
  assert (HT : P = 1 \/ blocklen Y P < Y).
  { destruct HPY as [->|H1]; [auto|]. destruct (Nat.eq_dec P 1) as [->|]; [auto|]. right. unfold blocklen.
    apply Nat.div_lt_upper_bound; [lia|]. nia. }
  assert (HS : S_ c = 1) by reflexivity.
  rewrite <- (iter_eq scale n f).
  pose (v := fun b x j => mem0 (j / blocklen Y P) (vb A B b) (x * count Y P (j / blocklen Y P) + j mod blocklen Y P)).
  assert (S1' : forall r b, r < cP c -> b <= nN A B -> storage (cN c) (cM c) (S_ c) (cP c) r <= bsz0 r b) by (intros; rewrite HS; apply S1; auto).
  assert (S3' : many K = true -> forall r b, r < cP c -> b < B -> Lx * count (cM c) (cP c) r <= bsz0 r (vb A B b)).
  { intros M. apply S3. unfold many in M. apply Nat.ltb_lt in M. exact M. }
  pose proof (convolves_coll c eq_refl eq_refl A B Lx off K HT Hbk K1 K2 K3 bsz0 mem0 S1' S2 S3' Hnb scale n f v) as H.
  unfold initialM. eapply (coll_end C c (fun r => convolvesM c A B Lx off K scale r n) _ _ _ _ H).
  - exists (fun _ _ _ => C0).
    apply (cinv_start C c).
    + intros r b Hr Hb. apply in_seq in Hb. apply S1'; auto. lia.
    + intros r b Hr Hb. unfold kn. destruct (b <? nN A B); exact Logic.I.
    + intros r Hr. assert (HrP : r < P). { pose proof (size_le c). change (cP c) with P in *. lia. }
      split; [|split].
      * intros a' x j Ha' Hx Hj. apply HG; auto.
      * intros _ b x j Hb Hx Hj. unfold v. destruct (owner c eq_refl eq_refl HT r j Hj) as [E1 E2].
        change (cM c) with Y in *. change (cP c) with P in *. rewrite E1, E2. reflexivity.
      * auto.
  - intros s g Es [F [v' [[Ok Ag] HE Zb Fr]]] r Hr. rewrite (Es r Hr). split; [|split].
    + intros b Hb x j Hx Hj.
      destruct (Nat.lt_ge_cases r (size c)) as [Hs|Hs].
      * destruct (HE r Hs) as (E1 & _). apply E1; auto.
      * pose proof (y_none c r Hs) as E0. change (cM c) with Y in E0. change (cP c) with P in E0. lia.
    + intros Hw b o Hb Ho. destruct (Nat.lt_ge_cases r (size c)) as [Hs|Hs].
      * destruct (HE r Hs) as (_ & _ & E3). apply E3; auto.
      * pose proof (y_none c r Hs) as E0. pose proof (x_none c r Hs) as E1. change (cM c) with Y in E0. change (cN c) with X in E1. change (cP c) with P in *. lia.
    + intros b o Hb. apply Fr; auto. rewrite in_seq. unfold nN. lia.
Qed.
End Top.

Lemma Csum_nth : forall (g : nat -> C) rs, Csum (length rs) (fun i => g (nth i rs 0)) = Clist rs g.
Proof.
  intros g rs. rewrite <- ConvMath.csl_seq.
  assert (E : map (fun i => nth i rs 0) (seq 0 (length rs)) = rs).
  { apply nth_ext with (d := 0) (d' := 0); [rewrite map_length, seq_length; reflexivity|].
    intros n Hn. rewrite map_length, seq_length in Hn. rewrite (nth_indep _ 0 (nth 0 rs 0)) by (rewrite map_length, seq_length; auto).
    rewrite (map_nth (fun i => nth i rs 0) (seq 0 (length rs)) 0 n). rewrite seq_nth by auto. reflexivity. }
  transitivity (ConvMath.csl (map (fun i => nth i rs 0) (seq 0 (length rs))) g).
  - rewrite ConvMath.csl_map. reflexivity.
  - rewrite E. reflexivity.
Qed.

Section Padded.
Variable t : pad.
Hypothesis Hwf : wf t.
Variable rs : list nat.
Hypothesis Hrs : loop_trace (gR t) (increment t) 0 rs.
Variables (Ly P a al A B off : nat).
Hypotheses (HLy : 0 < Ly) (HP : 0 < P) (Ha : 0 < a) (HPY : P = 1 \/ 1 < Ly).
Variable row : nat -> (nat -> nat -> C) -> nat -> nat -> C.
Hypothesis Hrow : forall q w w' b j, (forall a j, a < A -> j < Ly -> w a j = w' a j) -> row q w b j = row q w' b j.
Hypothesis Hidx : P = 1 \/ forall q q' w b j, row q w b j = row q' w b j.
Let X := gl t * gD t.
Let c := tcfg X Ly P a al.
Let K := padkern t rs row.

Lemma fits : forall r, noutputs t r <= X.
Proof.
  intros r. pose proof (pass_fits_thm t Hwf r) as H. unfold outputSize, gb, X in *.
  assert (1 <= gS t) by (destruct Hwf as (_ & _ & H1 & H2 & _); lia). nia.
Qed.
Lemma gM_pos : 0 < gM t.
Proof. destruct Hwf as (H1 & H2 & H3 & H4 & H5 & H6 & H7 & _). unfold gM in *. destruct (gm t * gq t) eqn:E; [|lia].
  unfold gL in *. assert (aM t = 0) by lia. lia. Qed.
Lemma ones_neq : C0 <> ipdft (gM t) (fun _ => C1) 0.
Proof.
  assert (Hc : ipdft (gM t) (fun _ => C1) 0 = RtoC (INR (gM t))).
  { unfold ipdft. rewrite (Csum_ext (gM t) _ (fun _ => C1)).
    - clear. induction (gM t) as [|n IH]; [reflexivity|]. cbn [Csum]. rewrite IH, S_INR. apply C_ext; cbn; lra.
    - intros k _. rewrite Cmul_1_l. rewrite Nat.mul_0_l. cbn [INR]. replace (- (2 * PI * 0 / INR (gM t)))%R with 0%R by (unfold Rdiv; ring).
      apply C_ext; cbn; [apply cos_0|apply sin_0]. }
  rewrite Hc. intros H. assert (E : INR (gM t) = 0%R) by (injection H; auto).
  pose proof gM_pos. revert E. apply not_0_INR. lia.
Qed.
Lemma rs_pos : 0 < length rs.
Proof.
  destruct rs as [|r l]; [|cbn; lia]. exfalso. pose proof (passes_b t Hwf [] (fun _ => C1) 0 Hrs) as H. exact (ones_neq H).
Qed.
Lemma pad_local : local_kernels A (gL t) Ly K.
Proof.
  split; [|split]; cbn [kfwd kbwd krow kblock nblocks K padkern].
  - intros i k x x' _ _ H. unfold pdft. apply Csum_ext. intros j Hj. rewrite H by auto. reflexivity.
  - intros i s y y' _ H. unfold partial_inverse. apply Csum_ext. intros j Hj. rewrite H by auto. reflexivity.
  - intros i k w w' b j _ H. apply Hrow. auto.
Qed.
(** the residue blocks add up to the inverse transform *)
Lemma pad_pipeline : forall scale f b x j, b < B -> pipeline X P B K scale f b x j =
  Cmul (RtoC scale) (ipdft (gM t) (fun q => row q (fun a j => pdft (gM t) (gL t) (fun x => f a x j) q) b j) x).
Proof.
  intros scale f b x j Hb. unfold pipeline. destruct (Nat.ltb_spec b B); [|lia]. f_equal. cbn [kfwd kbwd krow kblock nblocks K padkern].
  rewrite <- (passes_b t Hwf rs (fun q => row q (fun a j => pdft (gM t) (gL t) (fun x => f a x j) q) b j) x Hrs).
  rewrite <- Csum_nth. apply Csum_ext. intros i Hi. unfold partial_inverse. apply Csum_ext. intros k Hk. f_equal.
  pose proof (fits (nth i rs 0)) as Ht. destruct Hidx as [->|Hx].
  - unfold blocklen. replace (X + 1 - 1) with X by lia. rewrite Nat.div_1_r, Nat.mod_small by lia. reflexivity.
  - apply Hx.
Qed.
Theorem padded_thm : forall scale f mem0 bsz0, enough X Ly P A B (gL t) off K bsz0 ->
  (forall r b, r < P -> b < Nat.max A B -> columns (gL t) Ly P off (f b) r (mem0 r (fb A B b))) ->
  always_ends C P (initialM c mem0 bsz0 (fun r => convolveM c A B (gL t) off K scale r (Halt C)))
    (fun gf => forall r, r < P ->
       (forall b, b < B -> columns (gL t) Ly P off
          (fun x j => Cmul (RtoC scale) (ipdft (gM t) (fun q => row q (fun a j => pdft (gM t) (gL t) (fun x => f a x j) q) b j) x))
          r (mem C (snd (gf r)) (fb A B b))) /\
       (forall b, B <= b < A -> columns (gL t) Ly P off (f b) r (mem C (snd (gf r)) (fb A B b)))).
Proof.
  intros scale f mem0 bsz0 Hen HG.
  assert (HX : 0 < X).
  { pose proof rs_pos. pose proof (fits 0). assert (0 < gl t * gD t); [|auto]. 
    destruct (Nat.eq_dec (gl t * gD t) 0) as [E|]; [|lia]. exfalso.
    pose proof (passes_b t Hwf rs (fun _ => C1) 0 Hrs) as H'.
    assert (Z0 : forall r, noutputs t r = 0) by (intros r; pose proof (fits r); unfold X in *; lia).
    assert (Hc0 : Clist rs (fun r => partial_inverse (gM t) (noutputs t r) (index t r) (fun _ => C1) 0) = C0).
    { clear -Z0. induction rs as [|r l IH]; [reflexivity|]. cbn [Clist fold_right] in *. unfold Clist in IH. rewrite IH.
      unfold partial_inverse. rewrite Z0. cbn [Csum]. apply Cadd_0_l. }
    apply ones_neq. rewrite <- H'. symmetry. exact Hc0. }
  pose proof (history_thm X Ly P a al A B (gL t) off K HX HLy HP Ha HPY rs_pos (fun i _ => fits _) pad_local scale 1 f mem0 bsz0 Hen HG) as H.
  eapply (ends_mono C c); [|exact H]. intros gf Hg r Hr. destruct (Hg r Hr) as (H1 & _ & _). split.
  - intros b Hb x j Hx Hj. rewrite (H1 b ltac:(lia) x j Hx Hj). cbn [Nat.iter nat_rect]. apply pad_pipeline; auto.
  - intros b Hb x j Hx Hj. rewrite (H1 b ltac:(lia) x j Hx Hj). cbn [Nat.iter nat_rect]. unfold pipeline. destruct (Nat.ltb_spec b B); [lia|auto].
Qed.
End Padded.

Lemma lin_math : forall M L (f g : nat -> nat -> C) (s : R) x y, x < L -> 2 * L <= M + 1 ->
  ipdft M (fun q => Cmul (RtoC s) (Csum (S y) (fun u => Cmul (pdft M L (fun x => f x u) q) (pdft M L (fun x => g x (y - u)) q)))) x =
  Cmul (RtoC (s * INR M)) (lin2 f g x y).
Proof.
  intros M L f g s x y Hx HM. rewrite <- idft_ipdft. unfold idft.
  transitivity (Csum (S y) (fun u => Cmul (RtoC s) (idft M (fun k => Cmul (outv M L (fun x => f x u) (Z.of_nat k)) (outv M L (fun x => g x (y - u)) (Z.of_nat k))) x))).
  - unfold idft. rewrite (Csum_ext (S y) _ (fun u => Csum M (fun k => Cmul (RtoC s) (Cmul (Cmul (pdft M L (fun x => f x u) k) (pdft M L (fun x => g x (y - u)) k)) (zeta M (- (Z.of_nat x * Z.of_nat k))))))).
    + rewrite Csum_swap. apply Csum_ext. intros k Hk. rewrite Csum_mul_l. rewrite <- Cmul_assoc. f_equal. rewrite <- Csum_mul_r. reflexivity.
    + intros u Hu. rewrite Csum_mul_l. f_equal. apply Csum_ext. intros k Hk. rewrite !outv_pdft. reflexivity.
  - rewrite RtoC_mul. unfold lin2. rewrite Csum_swap. rewrite <- Csum_mul_l. apply Csum_ext. intros u Hu.
    rewrite (linear_conv M L (fun x => f x u) (fun x => g x (y - u)) x Hx HM). ring.
Qed.
Theorem linear_thm : forall (t : pad) rs Ly P a al off row (s : R) f mem0 bsz0, wf t -> loop_trace (gR t) (increment t) 0 rs ->
  0 < Ly -> 0 < P -> 0 < a -> P = 1 \/ 1 < Ly -> 2 * gL t <= gM t + 1 -> s <> 0%R ->
  (forall q w w' b j, (forall a j, a < 2 -> j < Ly -> w a j = w' a j) -> row q w b j = row q w' b j) ->
  (forall q q' w b j, row q w b j = row q' w b j) ->
  (forall q w j, j < Ly -> row q w 0 j = Cmul (RtoC s) (Csum (S j) (fun u => Cmul (w 0 u) (w 1 (j - u))))) ->
  let X := gl t * gD t in let K := padkern t rs row in
  enough X Ly P 2 1 (gL t) off K bsz0 ->
  (forall r b, r < P -> b < 2 -> columns (gL t) Ly P off (f b) r (mem0 r (fb 2 1 b))) ->
  always_ends C P (initialM (tcfg X Ly P a al) mem0 bsz0 (fun r => convolveM (tcfg X Ly P a al) 2 1 (gL t) off K (/ (s * INR (gM t))) r (Halt C)))
    (fun gf => forall r, r < P ->
       columns (gL t) Ly P off (lin2 (f 0) (f 1)) r (mem C (snd (gf r)) (fb 2 1 0)) /\
       columns (gL t) Ly P off (f 1) r (mem C (snd (gf r)) (fb 2 1 1))).
Proof.
  intros t rs Ly P a al off row s f mem0 bsz0 Hwf Hrs HLy HP Ha HPY HM Hs R1 R2 R3 X K Hen HG.
  eapply (ends_mono C (tcfg X Ly P a al)); [|apply (padded_thm t Hwf rs Hrs Ly P a al 2 1 off HLy HP Ha HPY row R1 (or_intror R2) (/ (s * INR (gM t))) f mem0 bsz0 Hen HG)].
  intros gf Hg r Hr. destruct (Hg r Hr) as [H1 H2]. split; [|apply H2; lia].
  intros x j Hx Hj. rewrite (H1 0 ltac:(lia) x j Hx Hj).
  assert (HjY : first Ly P r + j < Ly) by (unfold count in Hj; lia).
  transitivity (Cmul (RtoC (/ (s * INR (gM t)))) (ipdft (gM t) (fun q => Cmul (RtoC s) (Csum (S (first Ly P r + j)) (fun u =>
     Cmul (pdft (gM t) (gL t) (fun x => f 0 x u) q) (pdft (gM t) (gL t) (fun x => f 1 x (first Ly P r + j - u)) q)))) x)).
  - f_equal. unfold ipdft. apply Csum_ext. intros k Hk. rewrite R3 by auto. reflexivity.
  - rewrite lin_math by auto. rewrite Cmul_assoc, <- RtoC_mul.
    assert (INR (gM t) <> 0%R) by (apply not_0_INR; pose proof (gM_pos t Hwf); lia).
    replace (/ (s * INR (gM t)) * (s * INR (gM t)))%R with 1%R by (field; auto). apply Cmul_1_l.
Qed.

(** *** cases *)
Definition mt : pad := mkpad 2 6 1 1 2 1 true 2 1 false.
Lemma mt_wf : wf mt. Proof. repeat split; vm_compute; try reflexivity; lia. Qed.
Lemma mt_trace : loop_trace (gR mt) (increment mt) 0 [0; 1; 2].
Proof.
  apply lt_step; [vm_compute; lia|]. change (0 + increment mt 0) with 1.
  apply lt_step; [vm_compute; lia|]. change (1 + increment mt 1) with 2.
  apply lt_step; [vm_compute; lia|]. change (2 + increment mt 2) with 3.
  apply lt_stop. vm_compute. lia.
Qed.
Definition mrow (q : nat) (w : nat -> nat -> C) (b j : nat) : C :=
  if j <? 3 then Cmul (RtoC 5) (Csum (S j) (fun u => Cmul (w 0 u) (w 1 (j - u)))) else C0.
Lemma mrow_local : forall q w w' b j, (forall a j, a < 2 -> j < 3 -> w a j = w' a j) -> mrow q w b j = mrow q w' b j.
Proof.
  intros q w w' b j H. unfold mrow. destruct (Nat.ltb_spec j 3); [|reflexivity]. f_equal. apply Csum_ext. intros u Hu.
  rewrite !H by lia. reflexivity.
Qed.
Lemma mt_enough : enough 2 3 2 2 1 2 1 (padkern mt [0; 1; 2] mrow) (fun _ _ => 100).
Proof.
  split; [|split].
  - intros r b Hr _. destruct r as [|[|r]]; [vm_compute; lia|vm_compute; lia|lia].
  - intros r b Hr _. destruct r as [|[|r]]; [vm_compute; lia|vm_compute; lia|lia].
  - intros _ r b Hr _. destruct r as [|[|r]]; [vm_compute; lia|vm_compute; lia|lia].
Qed.
(** memory in which the arrays f[a] hold the columns of f *)
Definition spread (Lx Ly P off A B : nat) (f : nat -> nat -> nat -> C) (r b o : nat) : C :=
  f (b - (Nat.max A B + 1)) ((o - off) / count Ly P r) (first Ly P r + (o - off) mod count Ly P r).
Lemma spread_columns : forall Lx Ly P off A B f r b, b < Nat.max A B -> columns Lx Ly P off (f b) r (spread Lx Ly P off A B f r (fb A B b)).
Proof.
  intros Lx Ly P off A B f r b Hb x j Hx Hj. unfold spread, fb, nN.
  replace (Nat.max A B + 1 + b - (Nat.max A B + 1)) with b by lia.
  replace (off + (x * count Ly P r + j) - off) with (x * count Ly P r + j) by lia.
  assert (Hd : (x * count Ly P r + j) / count Ly P r = x) by (symmetry; apply (Nat.div_unique _ _ x j); lia).
  assert (Hm : (x * count Ly P r + j) mod count Ly P r = j) by (symmetry; apply (Nat.mod_unique _ _ x j); lia).
  rewrite Hd, Hm. reflexivity.
Qed.

(** *** a multiplier that looks at its index *)
Definition it : pad := mkpad 1 2 1 1 2 1 true 1 1 false.
Lemma it_wf : wf it. Proof. repeat split; vm_compute; try reflexivity; lia. Qed.
Lemma it_trace : loop_trace (gR it) (increment it) 0 [0].
Proof.
  apply lt_step; [vm_compute; lia|]. change (0 + increment it 0) with 1. apply lt_stop. vm_compute. lia.
Qed.
(** multiplies the row of frequency q by q *)
Definition irow (q : nat) (w : nat -> nat -> C) (b j : nat) : C := if j <? 2 then Cmul (RtoC (INR q)) (w 0 j) else C0.
Lemma irow_local : forall q w w' b j, (forall a j, a < 1 -> j < 2 -> w a j = w' a j) -> irow q w b j = irow q w' b j.
Proof. intros q w w' b j H. unfold irow. destruct (Nat.ltb_spec j 2); [|reflexivity]. rewrite H by lia. reflexivity. Qed.
Definition iK : kern := padkern it [0] irow.
Definition correct (f : nat -> nat -> nat -> C) (x j : nat) : C :=
  Cmul (RtoC (/ 2)) (ipdft 2 (fun q => irow q (fun a j => pdft 2 1 (fun x => f a x j) q) 0 j) x).
Lemma correct_is : forall f j, j < 2 -> correct f 0 j = Cmul (RtoC (/ 2)) (f 0 0 j).
Proof.
  intros f j Hj. unfold correct. f_equal. unfold ipdft, irow, pdft. destruct (Nat.ltb_spec j 2); [|lia]. cbn [Csum Nat.mul Nat.add INR].
  replace (2 * PI * 0 / (1 + 1))%R with 0%R by (unfold Rdiv; ring).
  rewrite ?Ropp_0. replace (expi 0) with C1 by (apply C_ext; cbn; [symmetry; apply cos_0|symmetry; apply sin_0]).
  apply C_ext; cbn; ring.
Qed.
Lemma index_one : forall a al off f mem0 bsz0, 0 < a -> enough 2 2 1 1 1 1 off iK bsz0 ->
  (forall r, r < 1 -> columns 1 2 1 off (f 0) r (mem0 r (fb 1 1 0))) ->
  always_ends C 1 (initialM (tcfg 2 2 1 a al) mem0 bsz0 (fun r => convolveM (tcfg 2 2 1 a al) 1 1 1 off iK (/ 2) r (Halt C)))
    (fun gf => forall r, r < 1 -> columns 1 2 1 off (correct f) r (mem C (snd (gf r)) (fb 1 1 0))).
Proof.
  intros a al off f mem0 bsz0 Ha Hen HG.
  eapply (ends_mono C (tcfg 2 2 1 a al)); [|apply (padded_thm it it_wf [0] it_trace 2 1 a al 1 1 off ltac:(lia) ltac:(lia) Ha (or_introl eq_refl) irow irow_local (or_introl eq_refl) (/ 2) f mem0 bsz0 Hen)].
  - intros gf Hg r Hr. destruct (Hg r Hr) as [H _]. exact (H 0 ltac:(lia)).
  - intros r b Hr Hb. assert (b = 0) by (cbn in Hb; lia). subst b. apply HG; auto.
Qed.
Lemma index_two : forall a al off f mem0 bsz0, 0 < a -> enough 2 2 2 1 1 1 off iK bsz0 ->
  (forall r, r < 2 -> columns 1 2 2 off (f 0) r (mem0 r (fb 1 1 0))) ->
  always_ends C 2 (initialM (tcfg 2 2 2 a al) mem0 bsz0 (fun r => convolveM (tcfg 2 2 2 a al) 1 1 1 off iK (/ 2) r (Halt C)))
    (fun gf => forall r, r < 2 -> columns 1 2 2 off (fun _ _ => C0) r (mem C (snd (gf r)) (fb 1 1 0))).
Proof.
  intros a al off f mem0 bsz0 Ha Hen HG.
  assert (Hb : forall i, i < nblocks iK -> kblock iK i <= 2).
  { intros i Hi. assert (i = 0) by (unfold iK in Hi; cbn in Hi; lia). subst i. vm_compute. lia. }
  assert (Hl : local_kernels 1 1 2 iK) by exact (pad_local it [0] 2 1 irow irow_local).
  pose proof (history_thm 2 2 2 a al 1 1 1 off iK ltac:(lia) ltac:(lia) ltac:(lia) Ha (or_intror (le_n 2)) (le_n 1) Hb Hl (/ 2) 1 f mem0 bsz0 Hen) as H.
  eapply (ends_mono C (tcfg 2 2 2 a al)); [|apply H].
  - intros gf Hg r Hr. destruct (Hg r Hr) as [H1 _]. specialize (H1 0 ltac:(cbn; lia)). intros x j Hx Hj. rewrite (H1 x j Hx Hj).
    cbn [Nat.iter nat_rect]. unfold pipeline. cbn [Nat.ltb Nat.leb].
    assert (E : Csum (nblocks iK) (fun i => kbwd iK i x (fun k => krow iK i (k mod blocklen 2 2) (fun a j => kfwd iK i k (fun x => f a x j)) 0 (first 2 2 r + j))) = C0); [|rewrite E; apply C_ext; cbn; ring].
    change (nblocks iK) with 1. cbn [Csum]. change (blocklen 2 2) with 1.
    unfold iK, padkern. cbn [kbwd krow kfwd nth]. unfold partial_inverse. change (noutputs it 0) with 2. cbn [Csum]. rewrite !Nat.mod_1_r.
    change (index it 0 0) with 0. unfold irow. destruct (first 2 2 r + j <? 2); apply C_ext; cbn; ring.
  - intros r b Hr Hb'. assert (b = 0) by (cbn in Hb'; lia). subst b. apply HG; auto.
Qed.
