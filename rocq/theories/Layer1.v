(** Rows and columns of the outer transform: forward and backward of all columns of the A
    arrays (Convolution2/Convolution3::forward, backward). *)
From Coq Require Import Reals ZArith Arith Lia List Bool Permutation.
From Verif Require Import CNum Sums Roots Mem VecModel PadModel PadKernels Loops PadLemmas PadGeom Fwd1 FwdAll
  ConvModel Conv1 PadSpec PadRound PadBridge PadProofs Team LayerModel ConvSpec Xf XfProofs XfBridge.
Import ListNotations.

Lemma only_refl (P : nat -> Prop) m : only P m m.
Proof. split; auto. Qed.
Lemma only_trans (P Q R : nat -> Prop) m1 m2 m3 : only P m1 m2 -> only Q m2 m3 ->
  (forall a, P a -> R a) -> (forall a, Q a -> R a) -> only R m1 m3.
Proof. intros [A1 B1] [A2 B2] H1 H2. split; [intros a Ha; rewrite A2, A1; auto|auto]. Qed.
Lemma only_mono (P Q : nat -> Prop) m1 m2 : only P m1 m2 -> (forall a, P a -> Q a) -> only Q m1 m2.
Proof. intros [A B] H. split; auto. Qed.

(** The geometry of a row: J groups of C columns, group j starting at column Sy*j, inside a
    row of rl words; successive rows are S words apart. *)
Record geo (t : xf) (J Sy rl : nat) : Prop := mkgeo {
  g_wf : wf t;
  g_D : gD t = 1;
  g_rl : forall j, j < J -> Sy * j + gC t <= rl;
  g_S : rl <= gS t;
  g_gr : forall j j' c c', j < J -> j' < J -> c < gC t -> c' < gC t -> Sy * j + c = Sy * j' + c' -> j = j'
}.

Section Cols.
Variable t : xf.
Notation L := (gL t). Notation S := (gS t). Notation CC := (gC t). Notation l := (gl t). Notation M := (gM t).
Variables (J Sy rl : nat).
Hypothesis HG : geo t J Sy rl.
Notation Hwf := (g_wf _ _ _ _ HG). Notation HD := (g_D _ _ _ _ HG). Notation HJrl := (g_rl _ _ _ _ HG).
Notation HrlS := (g_S _ _ _ _ HG). Notation Hgr := (g_gr _ _ _ _ HG).

(** column o belongs to the row *)
Definition col (o : nat) : Prop := exists j c, j < J /\ c < CC /\ o = Sy * j + c.
Lemma col_lt o : col o -> o < rl.
Proof. intros (j & c & Hj & Hc & ->). pose proof (HJrl j Hj). lia. Qed.
Lemma col_S o : col o -> o < S.
Proof. intros H. apply col_lt in H. pose proof HrlS. lia. Qed.

(** the words of n rows of the array at b *)
Definition rw (b n a : nat) : Prop := exists i o, i < n /\ col o /\ a = b + S * i + o.
Definition hasr (b n : nat) (x : nat -> nat -> C) (m : mem) : Prop :=
  forall i o, i < n -> col o -> m (b + S * i + o) = Val (x i o).
Definition allocr (b n : nat) (m : mem) : Prop := forall a, rw b n a -> m a <> Unalloc.

Lemma rw_blk b n a : rw b n a -> b <= a < b + S * n.
Proof.
  intros (i & o & Hi & Ho & ->). apply col_S in Ho. split; [lia|].
  assert (S * i + S <= S * n). { replace (S * i + S) with (S * (i + 1)) by lia. apply Nat.mul_le_mono_l. lia. } lia.
Qed.
Lemma rw_dj b n b' n' a : dj b (S * n) b' (S * n') -> rw b n a -> rw b' n' a -> False.
Proof. intros H H1 H2. apply rw_blk in H1, H2. unfold dj in H. lia. Qed.
Lemma rw_ex b n i o : i < n -> col o -> rw b n (b + S * i + o).
Proof. intros. exists i, o. auto. Qed.
Lemma word_rw b n j a : j < J -> word S CC (b + Sy * j) n a -> rw b n a.
Proof. intros Hj (i & c & Hi & Hc & ->). exists i, (Sy * j + c). split; [assumption|]. split; [exists j, c; auto|lia]. Qed.
Lemma rw_word b n a : rw b n a -> exists j, j < J /\ word S CC (b + Sy * j) n a.
Proof. intros (i & o & Hi & (j & c & Hj & Hc & ->) & ->). exists j. split; [assumption|]. exists i, c. repeat split; auto. lia. Qed.
Lemma word_grp b n n' j j' a : j < J -> j' < J -> word S CC (b + Sy * j) n a -> word S CC (b + Sy * j') n' a -> j = j'.
Proof.
  intros Hj Hj' (i & c & Hi & Hc & ->) (i' & c' & Hi' & Hc' & E).
  pose proof (HJrl j Hj). pose proof (HJrl j' Hj'). pose proof HrlS.
  assert (i = i').
  { destruct (Nat.lt_trichotomy i i') as [Hlt|[He|Hlt]]; [|assumption|]; exfalso.
    - assert (S * i + S <= S * i'). { replace (S * i + S) with (S * (i + 1)) by lia. apply Nat.mul_le_mono_l. lia. } lia.
    - assert (S * i' + S <= S * i). { replace (S * i' + S) with (S * (i' + 1)) by lia. apply Nat.mul_le_mono_l. lia. } lia. }
  subst i'. apply (Hgr j j' c c'); auto. lia.
Qed.
Lemma hasr_only P b n x m m' : hasr b n x m -> only P m m' -> (forall a, P a -> rw b n a -> False) -> hasr b n x m'.
Proof. intros H [HF _] Hd i o Hi Ho. rewrite HF; [auto|]. intros HP. eapply Hd; [exact HP|]. apply rw_ex; assumption. Qed.
Lemma allocr_only P b n m m' : allocr b n m -> only P m m' -> allocr b n m'.
Proof. intros H [_ Ha] a Hr. apply Ha, H, Hr. Qed.
Lemma hasr_alloc b n x m : hasr b n x m -> allocr b n m.
Proof. intros H a (i & o & Hi & Ho & ->). rewrite H by assumption. discriminate. Qed.
Lemma hasr_ext b n x y m : hasr b n x m -> (forall i o, i < n -> col o -> x i o = y i o) -> hasr b n y m.
Proof. intros H E i o Hi Ho. rewrite H by assumption. rewrite E by assumption. reflexivity. Qed.

Lemma noutl r : noutputs t r = l.
Proof. unfold noutputs, blocksize. rewrite HD, (D0_D1 t HD). destruct (r =? 0); lia. Qed.
Lemma l_posl : 1 <= l. Proof. exact (XfProofs.l_pos t Hwf). Qed.
Lemma S_pos : 1 <= S. Proof. pose proof (wf_C t Hwf). pose proof (wf_CS t Hwf). lia. Qed.
Lemma Sl_pos : 1 <= S * l. Proof. pose proof S_pos. pose proof l_posl. nia. Qed.
Lemma tr_res : loop_trace (gR t) (increment t) 0 (residues t).
Proof. apply residues_trace. exact Hwf. Qed.

(** the work array: allocated and padded *)
Definition Ww (W : option addr) (a : nat) : Prop := match W with Some w => word S CC w l a | None => False end.
Definition Wal (W : option addr) (m : mem) : Prop :=
  match W with Some w => ainplace t = false /\ allocated S CC w l m | None => ainplace t = true end.
Definition Wst (W : option addr) (m : mem) : Prop :=
  Wal W m /\ match W with Some w => padded t w l m | None => True end.
Definition Wfree (W : option addr) (b n : nat) : Prop := match W with Some w => dj b n w (S * l) | None => True end.
Lemma word_blk b n a : word S CC b n a -> b <= a < b + S * n.
Proof.
  intros (i & c & Hi & Hc & ->). pose proof (wf_CS t Hwf).
  assert (S * i + S <= S * n). { replace (S * i + S) with (S * (i + 1)) by lia. apply Nat.mul_le_mono_l. lia. } lia.
Qed.
Lemma Wfree_no W b n a : Wfree W b n -> b <= a < b + n -> Ww W a -> False.
Proof. unfold Wfree, Ww. destruct W as [w|]; [|auto]. intros H Ha Hw. apply word_blk in Hw. unfold dj in H. lia. Qed.
Lemma Wal_only P W m m' : Wal W m -> only P m m' -> Wal W m'.
Proof. unfold Wal. destruct W as [w|]; [|auto]. intros [H1 H2] [_ H3]. split; [assumption|]. intros i c Hi Hc. apply H3, H2; assumption. Qed.
Lemma Wst_only P W m m' : Wst W m -> only P m m' -> (forall a, P a -> Ww W a -> False) -> Wst W m'.
Proof.
  intros [H1 H2] Ho Hd. split; [eapply Wal_only; eassumption|]. destruct W as [w|]; [|auto].
  intros A1 A2 A3 i c Hi Hc Hm. destruct Ho as [HF _]. rewrite HF; [apply H2; assumption|].
  intros HP. eapply Hd; [exact HP|]. exists i, c. auto.
Qed.

Lemma sep_dj j b n b' n' : j < J -> dj b (S * n) b' (S * n') -> separate S CC (b + Sy * j) n (b' + Sy * j) n'.
Proof. intros Hj H a H1 H2. apply word_rw in H1; [|assumption]. apply word_rw in H2; [|assumption]. eapply rw_dj; eassumption. Qed.
Lemma sep_djw j b n w n' : j < J -> dj b (S * n) w (S * n') -> separate S CC (b + Sy * j) n w n'.
Proof. intros Hj H a H1 H2. apply word_rw in H1; [|assumption]. apply rw_blk in H1. apply word_blk in H2. unfold dj in H. lia. Qed.

Section NoOv.
Hypothesis How : goverwrite t = false.

(** one array, all its columns *)
Lemma fwd1 W f F r x (m0 : mem) : In r (residues t) ->
  dj f (S * L) F (S * l) -> Wfree W f (S * L) -> Wfree W F (S * l) ->
  hasr f L x m0 -> allocr F l m0 -> Wst W m0 ->
  WP (cfor J (fun j => forward t (f + Sy * j) (F + Sy * j) r W)) m0 (fun m' =>
    hasr F l (fun i o => odft (origin t) M L (fun k => x k o) (index t r i)) m' /\ Wst W m' /\
    only (fun a => rw F l a \/ Ww W a) m0 m').
Proof.
  intros Hr HfF HfW HFW Hx HF HW.
  pose (I := fun k (m' : mem) =>
    (forall j, j < k -> j < J -> has S CC (F + Sy * j) l (fun i c => odft (origin t) M L (fun k => x k (Sy * j + c)) (index t r i)) m') /\
    Wst W m' /\ only (fun a => rw F l a \/ Ww W a) m0 m').
  apply WP_mono with (Q := I J).
  { intros m' (H1 & H2 & H3). split; [|auto]. intros i o Hi (j & c & Hj & Hc & ->).
    rewrite <- (H1 j Hj Hj i c Hi Hc). f_equal. lia. }
  apply WP_cfor with (I := I).
  { split; [intros; lia|]. split; [assumption|apply only_refl]. }
  intros j mm Hj (H1 & H2 & H3).
  assert (Hx' : has S CC (f + Sy * j) L (fun i c => x i (Sy * j + c)) mm).
  { intros i c Hi Hc. assert (Hcol : col (Sy * j + c)) by (exists j, c; auto).
    replace (f + Sy * j + S * i + c) with (f + S * i + (Sy * j + c)) by lia.
    eapply (hasr_only (fun a => rw F l a \/ Ww W a)); [exact Hx|exact H3| |assumption|assumption].
    intros a [Ha|Ha] Hf; [eapply rw_dj; [|exact Hf|exact Ha]; assumption|].
    eapply Wfree_no; [exact HfW| |exact Ha]. apply rw_blk in Hf. exact Hf. }
  assert (HaF : allocated S CC (F + Sy * j) l mm).
  { intros i c Hi Hc. apply (allocr_only _ F l m0 mm HF H3). apply word_rw with (j := j); [assumption|]. exists i, c. auto. }
  pose proof (forward_b t Hwf (f + Sy * j) (F + Sy * j) W r (fun i c => x i (Sy * j + c)) mm) as HT.
  cbv zeta in HT. rewrite noutl in HT.
  assert (Hin : ainplace t = (getW (F + Sy * j) W =? F + Sy * j)).
  { destruct H2 as [H2 _]. unfold Wal in H2. destruct W as [w|]; cbn [getW].
    - destruct H2 as [-> _]. symmetry. apply Nat.eqb_neq. intros E. pose proof Sl_pos. pose proof (HJrl j Hj).
      pose proof (wf_C t Hwf). pose proof HrlS. unfold Wfree, dj in HFW.
      assert (S <= S * l) by (pose proof l_posl; nia). lia.
    - rewrite H2. symmetry. apply Nat.eqb_refl. }
  eapply WP_mono; [|apply HT].
  - intros m' (G1 & G3 & G4).
    assert (Honly : only (fun a => word S CC (F + Sy * j) l a \/ Ww W a) mm m').
    { eapply only_mono; [exact G4|]. intros a [Ha|Ha]; [left; assumption|].
      destruct W as [w|]; cbn [getW] in Ha; [right; exact Ha|left; exact Ha]. }
    split; [|split].
    + intros j' Hj' HjJ. destruct (Nat.eq_dec j' j) as [->|Hne]; [exact G1|].
      intros i c Hi Hc. destruct Honly as [HO _]. rewrite HO; [apply H1; auto; lia|].
      assert (Hwd : word S CC (F + Sy * j') l (F + Sy * j' + S * i + c)) by (exists i, c; auto).
      intros [Ha|Ha].
      * apply Hne. eapply word_grp; [| |exact Hwd|exact Ha]; assumption.
      * apply word_rw in Hwd; [|assumption]. eapply Wfree_no; [exact HFW| |exact Ha]. apply rw_blk in Hwd. exact Hwd.
    + split; [eapply Wal_only; [apply H2|exact G4]|]. destruct W as [w|]; [exact G3|exact Logic.I].
    + eapply only_trans; [exact H3|exact Honly| |]; [auto|]. intros a [Ha|Ha]; [left; eapply word_rw; eassumption|right; assumption].
  - exact How.
  - exact Hr.
  - exact Hin.
  - destruct W as [w|]; cbn [getW]; [apply sep_djw; assumption|apply sep_dj; assumption].
  - apply sep_dj; assumption.
  - destruct W as [w|]; cbn [getW]; [right|left; reflexivity]. intros a Ha1 Ha2.
    revert Ha2 Ha1. apply sep_djw; assumption.
  - exact Hx'.
  - destruct W as [w|]; cbn [getW]; [apply H2|exact HaF].
  - exact HaF.
  - destruct W as [w|]; cbn [getW]; [apply H2|]. destruct H2 as [H2 _]. cbn in H2. intros E. rewrite H2 in E. discriminate.
Qed.

Lemma bwd1 W F h r y acc (m0 : mem) : In r (residues t) ->
  dj h (S * L) F (S * l) -> Wfree W h (S * L) -> Wfree W F (S * l) ->
  hasr F l y m0 -> allocr h L m0 -> (r <> 0 -> hasr h L acc m0) -> Wal W m0 ->
  WP (cfor J (fun j => backward t (F + Sy * j) (h + Sy * j) r W)) m0 (fun m' =>
    hasr h L (fun k o => Cadd (if r =? 0 then C0 else acc k o) (badd t r (fun i => y i o) k)) m' /\
    only (fun a => rw h L a \/ rw F l a \/ Ww W a) m0 m').
Proof.
  intros Hr HhF HhW HFW Hy Hh Hacc HW.
  pose (V := fun k o => Cadd (if r =? 0 then C0 else acc k o) (badd t r (fun i => y i o) k)).
  pose (P := fun k a => (exists j, j < k /\ j < J /\ (word S CC (h + Sy * j) L a \/ word S CC (F + Sy * j) l a)) \/ Ww W a).
  pose (I := fun k (m' : mem) =>
    (forall j, j < k -> j < J -> has S CC (h + Sy * j) L (fun i c => V i (Sy * j + c)) m') /\ only (P k) m0 m').
  apply WP_mono with (Q := I J).
  { intros m' (H1 & H3). split.
    - intros i o Hi (j & c & Hj & Hc & ->). replace (h + S * i + (Sy * j + c)) with (h + Sy * j + S * i + c) by lia. apply (H1 j Hj Hj i c Hi Hc).
    - eapply only_mono; [exact H3|]. intros a [(j & _ & Hj & [Ha|Ha])|Ha]; [left; eapply word_rw; eassumption| |right; right; assumption].
      right; left. eapply word_rw; eassumption. }
  apply WP_cfor with (I := I).
  { split; [intros; lia|apply only_refl]. }
  intros j mm Hj (H1 & H3).
  (* the words of group j are still as in m0 *)
  assert (Hun : forall a, word S CC (h + Sy * j) L a \/ word S CC (F + Sy * j) l a -> mm a = m0 a).
  { intros a Ha. destruct H3 as [HF _]. apply HF. intros [(j' & Hj' & HjJ & [Hb|Hb])|Hb].
    - destruct Ha as [Ha|Ha].
      + assert (j = j') by (eapply word_grp; [| |exact Ha|exact Hb]; assumption). lia.
      + apply word_rw in Ha; [|assumption]. apply word_rw in Hb; [|assumption]. eapply rw_dj; [exact HhF|exact Hb|exact Ha].
    - destruct Ha as [Ha|Ha].
      + apply word_rw in Ha; [|assumption]. apply word_rw in Hb; [|assumption]. eapply rw_dj; [exact HhF|exact Ha|exact Hb].
      + assert (j = j') by (eapply word_grp; [| |exact Ha|exact Hb]; assumption). lia.
    - destruct Ha as [Ha|Ha]; apply word_rw in Ha; try assumption; apply rw_blk in Ha;
        [eapply (Wfree_no W h)|eapply (Wfree_no W F)]; eassumption. }
  assert (HW' : Wal W mm) by (eapply Wal_only; eassumption).
  assert (Hy' : has S CC (F + Sy * j) l (fun i c => y i (Sy * j + c)) mm).
  { intros i c Hi Hc. rewrite Hun by (right; exists i, c; auto).
    replace (F + Sy * j + S * i + c) with (F + S * i + (Sy * j + c)) by lia. apply Hy; [assumption|exists j, c; auto]. }
  assert (Hah : allocated S CC (h + Sy * j) L mm).
  { intros i c Hi Hc. rewrite Hun by (left; exists i, c; auto). apply Hh. apply word_rw with (j := j); [assumption|]. exists i, c. auto. }
  pose proof (backward_b t Hwf (h + Sy * j) (F + Sy * j) W r (fun i c => y i (Sy * j + c)) (fun i c => acc i (Sy * j + c)) mm) as HT.
  cbv zeta in HT. rewrite noutl in HT.
  assert (Hin : ainplace t = (getW (F + Sy * j) W =? F + Sy * j)).
  { unfold Wal in HW. destruct W as [w|]; cbn [getW].
    - destruct HW as [-> _]. symmetry. apply Nat.eqb_neq. intros E. pose proof Sl_pos. pose proof (HJrl j Hj).
      pose proof (wf_C t Hwf). pose proof HrlS. unfold Wfree, dj in HFW.
      assert (S <= S * l) by (pose proof l_posl; nia). lia.
    - rewrite HW. symmetry. apply Nat.eqb_refl. }
  eapply WP_mono; [|apply HT].
  - intros m' (G1 & G4).
    assert (Honly : only (fun a => word S CC (h + Sy * j) L a \/ word S CC (F + Sy * j) l a \/ Ww W a) mm m').
    { eapply only_mono; [exact G4|]. intros a [Ha|[Ha|Ha]]; [left; assumption| |right; left; exact Ha].
      destruct W as [w|]; cbn [getW] in Ha; [right; right; exact Ha|right; left; exact Ha]. }
    split.
    + intros j' Hj' HjJ. destruct (Nat.eq_dec j' j) as [->|Hne]; [exact G1|].
      intros i c Hi Hc. destruct Honly as [HO _]. rewrite HO; [apply H1; auto; lia|].
      assert (Hwd : word S CC (h + Sy * j') L (h + Sy * j' + S * i + c)) by (exists i, c; auto).
      intros [Ha|[Ha|Ha]].
      * apply Hne. eapply word_grp; [| |exact Hwd|exact Ha]; assumption.
      * apply word_rw in Ha; [|assumption]. apply word_rw in Hwd; [|assumption]. eapply rw_dj; [exact HhF|exact Hwd|exact Ha].
      * apply word_rw in Hwd; [|assumption]. apply rw_blk in Hwd. eapply (Wfree_no W h); eassumption.
    + eapply only_trans; [exact H3|exact Honly| |].
      * intros a [(j' & Hj' & Hx)|Ha]; [left; exists j'; split; [lia|exact Hx]|right; assumption].
      * intros a [Ha|[Ha|Ha]]; [left; exists j; split; [lia|auto]|left; exists j; split; [lia|auto]|right; assumption].
  - exact How.
  - exact Hr.
  - exact Hin.
  - destruct W as [w|]; cbn [getW]; [apply sep_djw; assumption|apply sep_dj; assumption].
  - apply sep_dj; assumption.
  - destruct W as [w|]; cbn [getW]; [right|left; reflexivity]. intros a Ha1 Ha2.
    revert Ha2 Ha1. apply sep_djw; assumption.
  - exact Hy'.
  - destruct W as [w|]; cbn [getW]; [apply HW'|]. intros i c Hi Hc. rewrite Hun by (right; exists i, c; auto).
    replace (F + Sy * j + S * i + c) with (F + S * i + (Sy * j + c)) by lia. rewrite Hy; [discriminate|assumption|exists j, c; auto].
  - exact Hah.
  - intros Hr0 i c Hi Hc. rewrite Hun by (left; exists i, c; auto).
    replace (h + Sy * j + S * i + c) with (h + S * i + (Sy * j + c)) by lia. apply Hacc; [assumption|assumption|exists j, c; auto].
Qed.
End NoOv.

(** *** overwrite mode (in place): the residues 0..p-1 replace the data, residue p=n-1 is in F *)
Section Ov.
Hypothesis How : goverwrite t = true.
Notation p := (gn t - 1).
(** the frequency of row i of residue r *)
Notation ofreq := (ofr t).
Lemma ow_L : L = p * l. Proof. apply (ow_facts t Hwf How). Qed.
Lemma ow_n : gn t = p + 1. Proof. pose proof (ow_facts t Hwf How). lia. Qed.
Lemma ow_in : ainplace t = true. Proof. apply (ow_facts t Hwf How). Qed.
(** block u of the data *)
Lemma ow_sub f u a : u < p -> rw (f + S * (l * u)) l a -> rw f L a.
Proof.
  intros Hu (i & o & Hi & Ho & ->). exists (l * u + i), o. split; [|split; [assumption|rewrite Nat.mul_add_distr_l; lia]].
  rewrite ow_L. assert (l * u + l <= l * p). { replace (l * u + l) with (l * (u + 1)) by lia. apply Nat.mul_le_mono_l. lia. } lia.
Qed.

Lemma ofwd1 W f F r x (m0 : mem) :
  dj f (S * L) F (S * l) -> hasr f L x m0 -> allocr F l m0 ->
  WP (cfor J (fun j => forward t (f + Sy * j) (F + Sy * j) r W)) m0 (fun m' =>
    (forall u, u < p -> hasr (f + S * (l * u)) l (fun i o => odft (origin t) M L (fun k => x k o) (ofreq u i)) m') /\
    hasr F l (fun i o => odft (origin t) M L (fun k => x k o) (ofreq p i)) m' /\
    only (fun a => rw F l a \/ rw f L a) m0 m').
Proof.
  intros HfF Hx HF. 
  pose (P := fun k a => exists j, j < k /\ j < J /\ (word S CC (F + Sy * j) l a \/ word S CC (f + Sy * j) L a)).
  pose (I := fun k (m' : mem) =>
    (forall j u, j < k -> j < J -> u < p -> has S CC (f + Sy * j + S * (l * u)) l (fun i c => odft (origin t) M L (fun k => x k (Sy * j + c)) (ofreq u i)) m') /\
    (forall j, j < k -> j < J -> has S CC (F + Sy * j) l (fun i c => odft (origin t) M L (fun k => x k (Sy * j + c)) (ofreq p i)) m') /\
    only (P k) m0 m').
  apply WP_mono with (Q := I J).
  { intros m' (H0 & H1 & H3). split; [|split].
    - intros u Hu i o Hi (j & c & Hj & Hc & ->). 
      rewrite <- (H0 j u Hj Hj Hu i c Hi Hc). f_equal. lia.
    - intros i o Hi (j & c & Hj & Hc & ->). rewrite <- (H1 j Hj Hj i c Hi Hc). f_equal. lia.
    - eapply only_mono; [exact H3|]. intros a (j & _ & Hj & [Ha|Ha]); [left|right]; eapply word_rw; eassumption. }
  apply WP_cfor with (I := I).
  { split; [intros; lia|]. split; [intros; lia|apply only_refl]. }
  intros j mm Hj (H0 & H1 & H3).
  assert (Hun : forall a, word S CC (f + Sy * j) L a \/ word S CC (F + Sy * j) l a -> mm a = m0 a).
  { intros a Ha. destruct H3 as [HFr _]. apply HFr. intros (j' & Hj' & HjJ & Hb). destruct Ha as [Ha|Ha], Hb as [Hb|Hb].
    - apply word_rw in Ha; [|assumption]. apply word_rw in Hb; [|assumption]. eapply rw_dj; [exact HfF|exact Ha|exact Hb].
    - assert (j = j') by (eapply word_grp; [| |exact Ha|exact Hb]; assumption). lia.
    - assert (j = j') by (eapply word_grp; [| |exact Ha|exact Hb]; assumption). lia.
    - apply word_rw in Ha; [|assumption]. apply word_rw in Hb; [|assumption]. eapply rw_dj; [exact HfF|exact Hb|exact Ha]. }
  pose proof (oforward_b t Hwf How (f + Sy * j) (F + Sy * j) r W (fun i c => x i (Sy * j + c)) mm) as HT. cbv zeta in HT.
  eapply WP_mono; [|apply HT].
  - intros m' (G0 & G1 & G4).
    assert (Hkeep : forall j' a, j' < j -> (word S CC (f + Sy * j') L a \/ word S CC (F + Sy * j') l a) -> m' a = mm a).
    { intros j' a Hj' Ha. apply G4. intros Hb. destruct Ha as [Ha|Ha], Hb as [Hb|Hb].
      - apply word_rw in Ha; [|lia]. apply word_rw in Hb; [|assumption]. eapply rw_dj; [exact HfF|exact Ha|exact Hb].
      - assert (j = j') by (eapply word_grp; [| |exact Hb|exact Ha]; lia). lia.
      - assert (j = j') by (eapply word_grp; [| |exact Hb|exact Ha]; lia). lia.
      - apply word_rw in Ha; [|lia]. apply word_rw in Hb; [|assumption]. eapply rw_dj; [exact HfF|exact Hb|exact Ha]. }
    split; [|split].
    + intros j' u Hj' HjJ Hu. destruct (Nat.eq_dec j' j) as [->|Hne]; [apply G0; assumption|].
      intros i c Hi Hc. rewrite (Hkeep j'); [apply H0; auto; lia|lia|]. left. exists (l * u + i), c.
      split; [|split; [assumption|rewrite Nat.mul_add_distr_l; lia]]. rewrite ow_L.
      assert (l * u + l <= l * p). { replace (l * u + l) with (l * (u + 1)) by lia. apply Nat.mul_le_mono_l. lia. } lia.
    + intros j' Hj' HjJ. destruct (Nat.eq_dec j' j) as [->|Hne]; [exact G1|].
      intros i c Hi Hc. rewrite (Hkeep j'); [apply H1; auto; lia|lia|]. right. exists i, c. auto.
    + eapply only_trans; [exact H3|exact G4| |].
      * intros a (j' & Hj' & Hx'). exists j'. split; [lia|exact Hx'].
      * intros a Ha. exists j. split; [lia|auto].
  - apply sep_dj; assumption.
  - intros i c Hi Hc. rewrite Hun by (left; exists i, c; auto).
    replace (f + Sy * j + S * i + c) with (f + S * i + (Sy * j + c)) by lia. apply Hx; [assumption|exists j, c; auto].
  - intros i c Hi Hc. rewrite Hun by (right; exists i, c; auto). apply HF. apply word_rw with (j := j); [assumption|]. exists i, c. auto.
Qed.

Lemma obwd1 W F f r (Y : nat -> nat -> C) (m0 : mem) :
  dj f (S * L) F (S * l) ->
  (forall u, u < p -> hasr (f + S * (l * u)) l (fun k o => Y o (ofreq u k)) m0) ->
  hasr F l (fun k o => Y o (ofreq p k)) m0 ->
  WP (cfor J (fun j => backward t (F + Sy * j) (f + Sy * j) r W)) m0 (fun m' =>
    hasr f L (fun k o => oidft (origin t) M (Y o) k) m' /\
    only (fun a => rw F l a \/ rw f L a) m0 m').
Proof.
  intros HfF Hf HF. 
  pose (P := fun k a => exists j, j < k /\ j < J /\ (word S CC (F + Sy * j) l a \/ word S CC (f + Sy * j) L a)).
  pose (I := fun k (m' : mem) =>
    (forall j, j < k -> j < J -> has S CC (f + Sy * j) L (fun i c => oidft (origin t) M (Y (Sy * j + c)) i) m') /\ only (P k) m0 m').
  apply WP_mono with (Q := I J).
  { intros m' (H1 & H3). split.
    - intros i o Hi (j & c & Hj & Hc & ->). rewrite <- (H1 j Hj Hj i c Hi Hc). f_equal. lia.
    - eapply only_mono; [exact H3|]. intros a (j & _ & Hj & [Ha|Ha]); [left|right]; eapply word_rw; eassumption. }
  apply WP_cfor with (I := I).
  { split; [intros; lia|apply only_refl]. }
  intros j mm Hj (H1 & H3).
  assert (Hun : forall a, word S CC (f + Sy * j) L a \/ word S CC (F + Sy * j) l a -> mm a = m0 a).
  { intros a Ha. destruct H3 as [HFr _]. apply HFr. intros (j' & Hj' & HjJ & Hb). destruct Ha as [Ha|Ha], Hb as [Hb|Hb].
    - apply word_rw in Ha; [|assumption]. apply word_rw in Hb; [|assumption]. eapply rw_dj; [exact HfF|exact Ha|exact Hb].
    - assert (j = j') by (eapply word_grp; [| |exact Ha|exact Hb]; assumption). lia.
    - assert (j = j') by (eapply word_grp; [| |exact Ha|exact Hb]; assumption). lia.
    - apply word_rw in Ha; [|assumption]. apply word_rw in Hb; [|assumption]. eapply rw_dj; [exact HfF|exact Hb|exact Ha]. }
  pose proof (obackward_b t Hwf How (f + Sy * j) (F + Sy * j) r W (fun c => Y (Sy * j + c)) mm) as HT. cbv zeta in HT.
  eapply WP_mono; [|apply HT].
  - intros m' (G1 & G4).
    assert (Hkeep : forall j' a, j' < j -> word S CC (f + Sy * j') L a -> m' a = mm a).
    { intros j' a Hj' Ha. apply G4. intros [Hb|Hb].
      - apply word_rw in Ha; [|lia]. apply word_rw in Hb; [|assumption]. eapply rw_dj; [exact HfF|exact Ha|exact Hb].
      - assert (j = j') by (eapply word_grp; [| |exact Hb|exact Ha]; lia). lia. }
    split.
    + intros j' Hj' HjJ. destruct (Nat.eq_dec j' j) as [->|Hne]; [exact G1|].
      intros i c Hi Hc. rewrite (Hkeep j'); [apply H1; auto; lia|lia|]. exists i, c. auto.
    + eapply only_trans; [exact H3|exact G4| |].
      * intros a (j' & Hj' & Hx'). exists j'. split; [lia|exact Hx'].
      * intros a Ha. exists j. split; [lia|auto].
  - apply sep_dj; assumption.
  - intros u Hu k c Hk Hc.
    assert (Hwd : word S CC (f + Sy * j) L (f + Sy * j + S * (l * u) + S * k + c)).
    { exists (l * u + k), c. split; [|split; [assumption|rewrite Nat.mul_add_distr_l; lia]]. rewrite ow_L.
      assert (l * u + l <= l * p). { replace (l * u + l) with (l * (u + 1)) by lia. apply Nat.mul_le_mono_l. lia. } lia. }
    rewrite Hun by (left; exact Hwd).
    replace (f + Sy * j + S * (l * u) + S * k + c) with (f + S * (l * u) + S * k + (Sy * j + c)) by lia.
    apply Hf; [assumption|assumption|exists j, c; auto].
  - intros k c Hk Hc. rewrite Hun by (right; exists k, c; auto).
    replace (F + Sy * j + S * k + c) with (F + S * k + (Sy * j + c)) by lia. apply HF; [assumption|exists j, c; auto].
Qed.
End Ov.
End Cols.
