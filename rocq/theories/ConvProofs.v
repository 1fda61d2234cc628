(** Proofs of the property theorems of PropsConv.v. *)
From Coq Require Import Reals ZArith Arith Lia Lra List Bool Permutation.
From Verif Require Import CNum Sums Roots Mem VecModel VecProofs PadModel PadKernels Loops
  PadLemmas PadMath PadGeom Fwd1 FwdAll PadForward PadRound ConvMath ConvModel ConvSpec
  Conv1 Conv2 Conv3 Conv4 Conv5 Conv6 Conv7 Conv8 Conv9 PadSpec PadBridge PadCases PadProofs Xf XfProofs.
Import ListNotations.

(** constructor followed by one convolve(g) *)
Definition first (t : xf) (mult : multiplier) (F V : nat -> addr) (w : addr) (g : nat -> addr) : cmd C :=
  let obj := cc t F V w mult in
  Seq (cinit_cmd obj) (convolve obj (arr (max (aA t) (aB t)) g)).
(** constructor followed by a history of prepare-and-convolve steps *)
Definition history (t : xf) (mult : multiplier) (F V : nat -> addr) (w : addr) (g : nat -> addr)
  (us : list (Mem.mem C -> Mem.mem C)) : cmd C :=
  let obj := cc t F V w mult in Seq (cinit_cmd obj) (calls t g obj us).

Lemma outx_odft t x k : outx t x (Z.of_nat k) = odft (origin t) (gM t) (gL t) x k.
Proof. unfold outx, odft. apply Csum_ext. intros j _. rewrite CenIndex.zeta_c. reflexivity. Qed.
Lemma idftx_odft t y j : idftx t y j = oidft (origin t) (gM t) y j.
Proof. unfold idftx, oidft. apply Csum_ext. intros j' _. rewrite CenIndex.zeta_c_neg. reflexivity. Qed.
(** with the origin at index 0 these are the ordinary ones *)
Lemma Csum_one n a (f : nat -> C) : a < n -> (forall i, i < n -> i <> a -> f i = C0) -> Csum n f = f a.
Proof.
  revert a. induction n as [|n IH]; intros a Ha Hz; [lia|]. cbn [Csum].
  destruct (Nat.eq_dec a n) as [->|Hne].
  - replace (Csum n f) with C0; [ring|]. symmetry. clear IH Ha. 
    assert (G : forall m, m <= n -> Csum m f = C0).
    { induction m as [|m IHm]; intros Hm; [reflexivity|]. cbn [Csum]. rewrite IHm, (Hz m) by lia. ring. }
    apply G. lia.
  - rewrite (IH a) by (try lia; intros; apply Hz; lia). rewrite (Hz n) by lia. ring.
Qed.
Lemma Csum_cut n k (f : nat -> C) : k <= n -> (forall i, k <= i -> i < n -> f i = C0) -> Csum n f = Csum k f.
Proof.
  induction n as [|n IH]; intros Hk Hz; [replace k with 0 by lia; reflexivity|].
  destruct (Nat.eq_dec k (S n)) as [->|Hne]; [reflexivity|]. cbn [Csum].
  rewrite IH by (try lia; intros; apply Hz; lia). rewrite (Hz n) by lia. ring.
Qed.
Lemma oconv_0 L f g j : j < L -> oconv 0 L f g j = linconv f g j.
Proof.
  intros Hj. unfold oconv, linconv. rewrite (Csum_cut L (S j)); [|lia|].
  - apply Csum_ext. intros i Hi. rewrite (Csum_one L (j - i)) by first [lia | intros k Hk Hne; cbv beta; destruct (Nat.eqb_spec (i + k) (j + 0)); [lia|reflexivity]].
    destruct (Nat.eqb_spec (i + (j - i)) (j + 0)); [reflexivity|lia].
  - intros i Hi Hi'. rewrite (Csum_cut L 0); [reflexivity|lia|]. intros k _ Hk.
    destruct (Nat.eqb_spec (i + k) (j + 0)); [lia|reflexivity].
Qed.
Lemma Csum_swap' n k (f : nat -> nat -> C) : Csum n (fun i => Csum k (f i)) = Csum k (fun j => Csum n (fun i => f i j)).
Proof.
  induction n as [|n IH]; cbn [Csum].
  - symmetry. rewrite (Csum_cut k 0); [reflexivity|lia|reflexivity].
  - rewrite IH. rewrite <- Csum_add. reflexivity.
Qed.
Lemma ocorr_0 L f g j : j < L -> ocorr 0 L f g j = lincorr L f g j.
Proof.
  intros Hj. unfold ocorr, lincorr. rewrite Csum_swap'. rewrite (Csum_cut L (L - j)); [|lia|].
  - apply Csum_ext. intros k Hk.
    rewrite (Csum_one L (j + k)) by first [lia | intros i Hi Hne; cbv beta; destruct (Nat.eqb_spec (i + 0) (j + k)); [lia|reflexivity]].
    destruct (Nat.eqb_spec (j + k + 0) (j + k)); [reflexivity|lia].
  - intros k Hk Hk'. rewrite (Csum_cut L 0); [reflexivity|lia|]. intros i _ Hi.
    destruct (Nat.eqb_spec (i + 0) (j + k)); [lia|reflexivity].
Qed.
Lemma ocyc_0 M L f g j : ocyc 0 M L f g j = cycconv M L f g j.
Proof. unfold ocyc. rewrite Nat.add_0_r. reflexivity. Qed.

Section T.
Variable t : xf.
Hypothesis Hwf : wf t.
Hypothesis HS : gS t = 1.
Notation L := (gL t). Notation A := (aA t). Notation B := (aB t). Notation M := (gM t).
Variables (g F V : nat -> addr) (w : addr).

Lemma result_ip Phi x b j : (forall b v v', (forall a, a < A -> v a = v' a) -> Phi b v = Phi b v') ->
  result t Phi x b j =
  Cmul (oidft (origin t) M (fun k => Phi b (fun a => odft (origin t) M L (x a) k)) j) (RtoC (/ INR M)).
Proof.
  intros He. unfold result. f_equal. rewrite <- idftx_odft. unfold idftx. apply Csum_ext. intros k Hk. f_equal.
  apply He. intros a Ha. apply outx_odft.
Qed.

Lemma generic_thm mult Phi x m0 : oksched t mult Phi -> buffers t g F V w m0 -> holds A L g x m0 ->
  WP (first t mult F V w g) m0 (fun m' =>
    (forall b j, b < B -> j < L -> m' (g b + j) =
       Val (Cmul (oidft (origin t) M (fun k => Phi b (fun a => odft (origin t) M L (x a) k)) j) (RtoC (/ INR M)))) /\
    (forall a, outside t g F V w a -> m' a = m0 a)).
Proof.
  intros Hok Hb Hx. apply (first_call t Hwf HS g F V w mult Phi Hok x); auto.
  intros m' HV HF _. split; [|assumption]. intros b j Hb' Hj. rewrite HV by assumption. rewrite result_ip; [reflexivity|].
  destruct Hok as (_ & H & _). exact H.
Qed.

Lemma ok_binary : A = 2 -> B = 1 -> oksched t multBinary (fun _ v => Cmul (v 0) (v 1)).
Proof.
  intros HA HB. split; [rewrite HA, HB; apply multBinary_ok|]. split.
  - intros b v v' E. rewrite !E by lia. reflexivity.
  - split; [right; lia|]. intros _. exists 1. lia.
Qed.
Lemma ok_corr : A = 2 -> B = 1 -> oksched t multcorrelation (fun _ v => Cmul (v 0) (Cconj (v 1))).
Proof.
  intros HA HB. split; [rewrite HA, HB; apply multcorrelation_ok|]. split.
  - intros b v v' E. rewrite !E by lia. reflexivity.
  - split; [right; lia|]. intros _. exists 1. lia.
Qed.
Notation c0 := (origin t).
Lemma LM2 : enough c0 L (aM t) -> enough c0 L M.
Proof. intros H. pose proof (wf_aM t Hwf). unfold enough in *. lia. Qed.

Lemma linear_thm x m0 : A = 2 -> B = 1 -> enough c0 L (aM t) -> buffers t g F V w m0 -> holds 2 L g x m0 ->
  WP (first t multBinary F V w g) m0 (fun m' =>
    (forall j, j < L -> m' (g 0 + j) = Val (oconv c0 L (x 0) (x 1) j)) /\
    (forall a, outside t g F V w a -> m' a = m0 a)).
Proof.
  intros HA HB HL Hb Hx. apply LM2 in HL.
  apply (first_call t Hwf HS g F V w multBinary _ (ok_binary HA HB) x); auto.
  - rewrite HA. assumption.
  - intros m' HV HF _. split; [|assumption]. intros j Hj. rewrite HV by lia. rewrite (result_conv t Hwf) by assumption. reflexivity.
Qed.
Lemma cyclic_thm x m0 : A = 2 -> B = 1 -> buffers t g F V w m0 -> holds 2 L g x m0 ->
  WP (first t multBinary F V w g) m0 (fun m' =>
    (forall j, j < L -> m' (g 0 + j) = Val (ocyc c0 M L (x 0) (x 1) j)) /\
    (forall a, outside t g F V w a -> m' a = m0 a)).
Proof.
  intros HA HB Hb Hx.
  apply (first_call t Hwf HS g F V w multBinary _ (ok_binary HA HB) x); auto.
  - rewrite HA. assumption.
  - intros m' HV HF _. split; [|assumption]. intros j Hj. rewrite HV by lia. rewrite (result_cyc t Hwf HS). reflexivity.
Qed.
Lemma corr_thm x m0 : A = 2 -> B = 1 -> enough c0 L (aM t) -> buffers t g F V w m0 -> holds 2 L g x m0 ->
  WP (first t multcorrelation F V w g) m0 (fun m' =>
    (forall j, j < L -> m' (g 0 + j) = Val (ocorr c0 L (x 0) (x 1) j)) /\
    (forall a, outside t g F V w a -> m' a = m0 a)).
Proof.
  intros HA HB HL Hb Hx. apply LM2 in HL.
  apply (first_call t Hwf HS g F V w multcorrelation _ (ok_corr HA HB) x); auto.
  - rewrite HA. assumption.
  - intros m' HV HF _. split; [|assumption]. intros j Hj. rewrite HV by lia. rewrite (result_corr t Hwf) by assumption. reflexivity.
Qed.

Lemma none_thm x m0 : A = B -> buffers t g F V w m0 -> holds A L g x m0 ->
  WP (first t multNone F V w g) m0 (fun m' =>
    (forall b j, b < B -> j < L -> m' (g b + j) = Val (x b j)) /\
    (forall a, outside t g F V w a -> m' a = m0 a)).
Proof.
  intros HA Hb Hx.
  assert (Hok : oksched t multNone (fun b v => if b <? A then v b else C0)).
  { split; [|split; [|split; [right; lia|]]].
    - intros h cnt r off y mm K Hd Hy Ha HK P HP. apply WP_skip. apply HK; auto.
      intros b i Hb' Hi. destruct (Nat.ltb_spec b A); [|lia]. apply Hy; lia.
    - intros b v v' E. destruct (Nat.ltb_spec b A); auto.
    - intros H. unfold loop2 in H. rewrite HA, Nat.ltb_irrefl, andb_false_r in H. discriminate. }
  apply (first_call t Hwf HS g F V w multNone _ Hok x); auto.
  intros m' HV HF _. split; [|assumption]. intros b j Hb' Hj. rewrite HV by assumption. f_equal.
  rewrite <- (result_id t Hwf HS x b j Hj). unfold result. destruct (Nat.ltb_spec b A); [reflexivity|lia].
Qed.

(** history independence *)
Lemma WP_uniq {T} (c : cmd T) m Q Q' : WP c m Q -> WP c m Q' -> exists m', Q m' /\ Q' m'.
Proof. intros (m1 & E1 & H1 & _) (m2 & E2 & H2 & U2). exists m1. split; [assumption|]. apply U2 in E1. injection E1 as ->. assumption. Qed.

Lemma history_thm mult Phi us u x m0 m1 v : oksched t mult Phi ->
  buffers t g F V w m0 -> (forall s, In s us -> exists y, prepares t g F V w s y) -> prepares t g F V w u x ->
  buffers t g F V w m1 -> holds A L g x m1 ->
  WP (first t mult F V w g) m1 (fun m' => forall b j, b < B -> j < L -> m' (g b + j) = Val (v b j)) ->
  WP (history t mult F V w g (us ++ [u])) m0 (fun m' => forall b j, b < B -> j < L -> m' (g b + j) = Val (v b j)).
Proof.
  intros Hok Hb Hus Hu Hb1 Hx1 Hfirst.
  assert (Hr : forall b j, b < B -> j < L -> v b j = result t Phi x b j).
  { assert (H2 : WP (first t mult F V w g) m1 (fun m' => forall b j, b < B -> j < L -> m' (g b + j) = Val (result t Phi x b j))).
    { apply (first_call t Hwf HS g F V w mult Phi Hok x); auto. }
    destruct (WP_uniq _ _ _ _ Hfirst H2) as (m' & E1 & E2). intros b j Hb' Hj.
    specialize (E1 b j Hb' Hj). rewrite (E2 b j Hb' Hj) in E1. injection E1 as ->. reflexivity. }
  apply (history_spec t Hwf HS g F V w mult Phi Hok us u x); auto.
  intros m' HV _ b j Hb' Hj. rewrite HV by assumption. rewrite Hr by assumption. reflexivity.
Qed.

Lemma history_conv us u x m0 : A = 2 -> B = 1 -> enough c0 L (aM t) ->
  buffers t g F V w m0 -> (forall s, In s us -> exists y, prepares t g F V w s y) -> prepares t g F V w u x ->
  WP (history t multBinary F V w g (us ++ [u])) m0 (fun m' =>
    forall j, j < L -> m' (g 0 + j) = Val (oconv c0 L (x 0) (x 1) j)).
Proof.
  intros HA HB HL Hb Hus Hu. apply LM2 in HL.
  apply (history_spec t Hwf HS g F V w multBinary _ (ok_binary HA HB) us u x); auto.
  intros m' HV _ j Hj. rewrite HV by lia. rewrite (result_conv t Hwf) by assumption. reflexivity.
Qed.

Lemma at_thm mult Phi off x m0 : oksched t mult Phi -> B <= A -> buffers t (fun a => g a + off) F V w m0 ->
  holds A L (fun a => g a + off) x m0 ->
  let obj := cc t F V w mult in
  WP (Seq (cinit_cmd obj) (convolveAt obj (arr (max A B) g) off)) m0 (fun m' =>
    (forall b j, b < B -> j < L -> m' (g b + off + j) =
       Val (Cmul (oidft (origin t) M (fun k => Phi b (fun a => odft (origin t) M L (x a) k)) j) (RtoC (/ INR M)))) /\
    (forall a, outside t (fun a => g a + off) F V w a -> m' a = m0 a)).
Proof.
  intros Hok HAB Hb Hx obj. unfold obj. rewrite (at_same t HS g F V w mult off HAB).
  apply (first_call t Hwf HS (fun a => g a + off) F V w mult Phi Hok x); auto.
  intros m' HV HF _. split; [|assumption]. intros b j Hb' Hj. rewrite HV by assumption. rewrite result_ip; [reflexivity|].
  destruct Hok as (_ & H & _). exact H.
Qed.

(** a multiplier that uses the frequency indices *)
Lemma indexed_thm mult phi Phi x m0 :
  mult_ok A B phi mult -> (forall k b v v', (forall a, a < A -> v a = v' a) -> Phi k b v = Phi k b v') ->
  (forall r i b v, In r (residues t) -> i < noutputs t r -> phi r i b v = Phi (index t r i) b v) ->
  goverwrite t = false -> gD0 t = 1 \/ gD t = 1 -> (gD t = 1 \/ B <= A) ->
  (loop2 t = true -> exists s, B = (A - B) * s) ->
  buffers t g F V w m0 -> holds A L g x m0 ->
  WP (first t mult F V w g) m0 (fun m' => forall b j, b < B -> j < L -> m' (g b + j) =
       Val (Cmul (oidft (origin t) M (fun k => Phi k b (fun a => odft (origin t) M L (x a) k)) j) (RtoC (/ INR M)))).
Proof.
  intros Hm He Hphi How HD HAB Hdiv Hb Hx. unfold first. apply WP_seq.
  apply (init_spec t Hwf HS g F V w mult); auto. intros m1 Hr Hf Hal.
  apply (convolve_spec t Hwf HS g F V w mult phi Hm Phi He x); auto.
  - unfold sees. rewrite How. intros r i b v Hr' Hi.
    assert (E : opos (cc t F V w mult) i = i).
    { unfold opos. change (cpad (cc t F V w mult)) with t.
      assert (E0 : noutputs t 0 = gl t).
      { unfold noutputs, blocksize. cbn [Nat.eqb]. destruct HD as [->|HD]; [lia|]. rewrite (D0_D1 t HD). lia. }
      rewrite E0. symmetry. apply Nat.div_mod.
      assert (1 <= gl t) by (apply (XfProofs.l_pos t Hwf)). lia. }
    rewrite E. apply Hphi; assumption.
  - intros a i Ha Hi. rewrite Hf; [auto|]. pose proof (b_gw _ _ _ _ _ _ Hb a ltac:(lia)) as Hd. unfold apart in Hd. unfold gL in Hi. lia.
  - intros m' HV _ _ b j Hb' Hj. rewrite HV by assumption. do 2 f_equal. rewrite <- idftx_odft. unfold idftx.
    apply Csum_ext. intros k Hk. f_equal. unfold Yk. apply He. intros a Ha. apply outx_odft.
Qed.
End T.

(** *** C10 witness: A=3, B=1, L=1, m=1, M=2, two passes *)
Definition multTernary : multiplier := fun F n _ _ =>
  pget F 0 (fun F0 => pget F 1 (fun F1 => pget F 2 (fun F2 =>
    ParFor 0 n (fun j => x <- F0 + j ;; y <- F1 + j ;; z <- F2 + j ;; F0 + j ::= Cmul (Cmul x y) z ;; Ret)))).
Lemma multTernary_ok : mult_ok 3 1 (fun _ _ _ v => Cmul (Cmul (v 0) (v 1)) (v 2)) multTernary.
Proof.
  intros h cnt r off x m0 K Hd Hx Ha HK P HP. unfold multTernary, pget. rewrite !HP. cbn [max arr Nat.ltb Nat.leb].
  apply WP_map1 with (dst := fun s => h 0 + s) (g := fun s => Cmul (Cmul (x 0 s) (x 1 s)) (x 2 s)); unfold rng.
  - intros; lia.
  - intros s Hs. cbn [wp]. split; [right; reflexivity|]. exists (x 0 s). split; [apply Hx; lia|].
    split.
    { left. intros s' Hs' E'. pose proof (Hd 0 1 ltac:(cbn; lia) ltac:(cbn; lia) ltac:(lia)) as H. unfold dj in H. lia. }
    exists (x 1 s). split; [apply Hx; lia|]. split.
    { left. intros s' Hs' E'. pose proof (Hd 0 2 ltac:(cbn; lia) ltac:(cbn; lia) ltac:(lia)) as H. unfold dj in H. lia. }
    exists (x 2 s). split; [apply Hx; lia|]. split; [reflexivity|]. split; [apply (Ha 0); [cbn; lia|lia]|apply upd_eq].
  - intros m' HV HF Hal. apply HK; auto.
    + intros b i Hb Hi. assert (b = 0) by lia. subst b. apply HV. lia.
    + intros ad Had. apply HF. intros s Hs. specialize (Had 0 ltac:(cbn; lia)). lia.
Qed.

Definition case10 : pad := mkpad 1 2 1 1 1 1 true 3 1 false.
Lemma case10_wf : wf case10. Proof. repeat split; vm_compute; try reflexivity; lia. Qed.
Definition x10 (a _ : nat) : C := if a =? 1 then RtoC 2 else C1.

Lemma expi_of_0 (r : R) : r = 0%R -> expi r = C1. Proof. intros ->. apply expi_0. Qed.
Lemma odft_1 M x k : odft 0 M 1 x k = x 0.
Proof.
  unfold odft. cbn [Csum Nat.mul]. rewrite expi_of_0; [ring|]. cbn [INR]. unfold Rdiv. ring.
Qed.
Lemma oidft_0 M y : oidft 0 M y 0 = Csum M y.
Proof.
  unfold oidft. apply Csum_ext. intros k Hk. cbn [Nat.mul]. rewrite expi_of_0; [ring|]. cbn [INR]. unfold Rdiv. ring.
Qed.

Lemma raw_then_norm t mult F V w g (m0 : Mem.mem C) Q :
  WP (Seq (cinit_cmd (cc t F V w mult)) (convolveRaw (cc t F V w mult) (arr (max (aA t) (aB t)) g))) m0
    (fun m1 => WP (normalize (cc t F V w mult) (arr (max (aA t) (aB t)) g) 0) m1 Q) ->
  WP (first t mult F V w g) m0 Q.
Proof.
  intros (m1 & He & (m2 & He2 & HQ & Hu2) & Hu). exists m2. inversion He as [|? ? ? ma ? Ha Hb| | | | | |]; subst.
  split.
  - unfold first. econstructor; [exact Ha|]. unfold convolve. econstructor; eassumption.
  - split; [assumption|]. intros o Ho. unfold first in Ho. inversion Ho as [|? ? ? mb ? Ha' Hb'|? ? ? Hub|? ? ? Hub| | | |]; subst.
    + unfold convolve in Hb'. inversion Hb' as [|? ? ? mc ? Hc Hd|? ? ? Hub|? ? ? Hub| | | |]; subst.
      * assert (E : OK mc = OK m1) by (apply Hu; econstructor; eassumption). injection E as ->. apply Hu2. assumption.
      * assert (E : UB = OK m1) by (apply Hu; eapply ex_seq; eassumption). discriminate.
      * assert (E : ExitErr = OK m1) by (apply Hu; eapply ex_seq; eassumption). discriminate.
    + assert (E : UB = OK m1) by (apply Hu; apply ex_seq_ub; assumption). discriminate.
    + assert (E : ExitErr = OK m1) by (apply Hu; apply ex_seq_exit; assumption). discriminate.
Qed.

Lemma loop2_witness : 
  WP (first case10 multTernary (lF case10) (lV case10) (lw case10) (lg case10)) (lmem case10 x10)
     (fun m' => m' (lg case10 0) = Val (RtoC (3 / 2))).
Proof.
  apply raw_then_norm.
  apply (loop2_bad_call case10 case10_wf eq_refl (lg case10) (lF case10) (lV case10) (lw case10) multTernary
     (fun _ v => Cmul (Cmul (v 0) (v 1)) (v 2)) x10).
  - vm_compute. reflexivity.
  - vm_compute. lia.
  - apply multTernary_ok.
  - apply layout_ok.
  - apply layout_holds; vm_compute; lia.
  - intros m' HV. specialize (HV 0 0 ltac:(vm_compute; lia) ltac:(vm_compute; lia)).
    rewrite normalize_eq. change (aB (cpad (cc case10 (lF case10) (lV case10) (lw case10) multTernary))) with 1.
    cbn [cfor]. apply WP_seq, WP_skip. unfold sh, pget. cbn [arr max Nat.ltb Nat.leb option_map lg].
    change (gL (cpad (cc case10 (lF case10) (lV case10) (lw case10) multTernary))) with 1.
    change (gM (cpad (cc case10 (lF case10) (lV case10) (lw case10) multTernary))) with 2.
    unfold pForR. cbn [Nat.sub pfor pseq]. 
    assert (Eb : m' (lg case10 0 + 0) = Val (RtoC 3)).
    { rewrite HV. f_equal. unfold badd. change (increment case10 0) with 1. change (noutputs case10 1) with 1. cbn [Csum].
      change (index case10 1 0) with 1. change (gM case10) with 2. change (gL case10) with 1.
      rewrite !outx_odft. rewrite !odft_1. cbn [x10 Nat.eqb].
      unfold x10. cbn [Nat.eqb]. cbn [origin]. replace (zeta 2 (- ((Z.of_nat 0 - Z.of_nat 0) * Z.of_nat 1))) with C1 by (symmetry; apply zeta_0). apply C_ext; cbn; ring. }
    change (lg case10 0) with 0 in *. cbn [arr max aA aB case10 Nat.ltb Nat.leb lg Nat.add option_map] in *. 
    eapply WP_mono with (Q := fun m2 => m2 0 = Val (RtoC (3 / 2))); [auto|].
    change (WP (ParFor 0 1 (fun _ => x <- 0 ;; 0 ::= Cmul x (RtoC (/ INR 2)) ;; Ret)) m' (fun m2 : nat -> cell => m2 0 = Val (RtoC (3 / 2)))).
    apply WP_map1 with (lo := 0) (hi := 1) (dst := fun _ => 0) (g := fun _ => RtoC (3 / 2)) ; unfold rng.
    + intros; lia.
    + intros s Hs. cbn [wp pseq]. split; [right; reflexivity|]. exists (RtoC 3). split; [exact Eb|].
      split; [reflexivity|]. split; [rewrite Eb; discriminate|]. cbn [wp]. rewrite upd_eq. f_equal.
      apply C_ext; cbn; field.
    + intros m2 HV2 _ _. apply (HV2 0). lia.
Qed.

(** *** C11: a caller-supplied work array *)
Definition always_exit (c : cmd C) (m : Mem.mem C) : Prop := forall o, exec c m o <-> o = ExitErr.
Lemma ae_seq a b m : always_exit a m -> always_exit (Seq a b) m.
Proof.
  intros H o. split.
  - intros Ho. inversion Ho as [|? ? ? mb ? Ha' Hb'|? ? ? Hub|? ? ? Hub| | | |]; subst.
    + apply H in Ha'. discriminate.
    + apply H in Hub. discriminate.
    + reflexivity.
  - intros ->. apply ex_seq_exit. apply H. reflexivity.
Qed.
Lemma ae_after a b m : WP a m (fun m1 => always_exit b m1) -> always_exit (Seq a b) m.
Proof.
  intros (m1 & He & Hb & Hu) o. split.
  - intros Ho. inversion Ho as [|? ? ? mb ? Ha' Hb'|? ? ? Hub|? ? ? Hub| | | |]; subst.
    + apply Hu in Ha'. injection Ha' as ->. apply Hb. assumption.
    + apply Hu in Hub. discriminate.
    + reflexivity.
  - intros ->. eapply ex_seq; [exact He|]. apply Hb. reflexivity.
Qed.
Lemma ae_exit m : always_exit Exit m.
Proof. intros o. split; [intros H; inversion H; reflexivity|intros ->; constructor]. Qed.
Lemma ae_cfor n b m : always_exit (b 0) m -> always_exit (cfor (S n) b) m.
Proof.
  intros H. induction n as [|n IH].
  - cbn [cfor]. apply ae_after. apply WP_skip. assumption.
  - change (cfor (S (S n)) b) with (Seq (cfor (S n) b) (b (S n))). apply ae_seq. assumption.
Qed.

Lemma userW_thm (s0 : pad) : let t := FP s0 in wf t -> gS t = 1 -> gq t = 1 -> ainplace t = false -> 1 <= aA t ->
  forall mult g F V w x m0, buffers t g F V w m0 -> holds (aA t) (gL t) g x m0 ->
  let N := max (aA t) (aB t) in
  let obj := cinit t mult (arr N F) (arr (aB t) V) true w in
  forall o, exec (Seq (cinit_cmd obj) (convolve obj (arr N g))) m0 o <-> o = ExitErr.
Proof.
  intros t Hwf HS Hq Hi HA mult g F V w x m0 Hb Hx N obj.
  change (always_exit (Seq (cinit_cmd obj) (convolve obj (arr N g))) m0).
  pose proof (wf_LM t Hwf) as HLM.
  assert (Hq' : PadModel.gq s0 = 1) by exact Hq. assert (HS' : PadModel.gS s0 = 1) by exact HS.
  assert (Hi' : PadModel.ainplace s0 = false) by exact Hi.
  assert (HOS : gM t = outputSize t).
  { change (PadModel.gM s0 = PadModel.outputSize s0).
    unfold PadModel.outputSize, PadModel.gb, PadModel.gl, PadModel.gD. rewrite Hq', HS'. cbn [Nat.eqb]. lia. }
  apply ae_after. unfold cinit_cmd. change (cpad obj) with t. rewrite Hq. cbn [Nat.eqb]. apply WP_skip.
  unfold convolve. apply ae_seq. unfold convolveRaw. change (cpad obj) with t. rewrite Hq. cbn [Nat.eqb]. apply ae_seq.
  unfold cforward. rewrite Nat.sub_0_r. change (cpad obj) with t. destruct (aA t) as [|A'] eqn:EA; [lia|].
  apply ae_cfor. cbn [Nat.add]. unfold pget. assert (HN : 0 < N) by (unfold N; lia).
  change (cF obj) with (arr N F). rewrite !arr_some by assumption. change (cW obj) with (@None addr).
  change (forward t (g 0) (F 0) 0 None) with (PadKernels.forward s0 (g 0) (F 0) 0 None).
  unfold PadKernels.forward. rewrite Hq', HS'. cbn [Nat.eqb]. unfold forwardExplicit. cbn [getW].
  assert (E : fft (fftm s0 1) (F 0) (F 0) = Exit).
  { unfold fft, fftm. rewrite Hq', HS'. cbn [Nat.eqb pl_inplace]. rewrite Hi', Nat.eqb_refl. reflexivity. }
  rewrite E. change (PadModel.gL s0) with (gL t). change (PadModel.gM s0) with (gM t).
  assert (Hal : forall i, i < gM t -> m0 (F 0 + i) <> Unalloc).
  { intros i Hi''. apply (b_Fa _ _ _ _ _ _ Hb); [rewrite EA; unfold N in HN; lia|lia]. }
  pose proof (b_gF _ _ _ _ _ _ Hb 0 0 ltac:(rewrite EA; lia) ltac:(rewrite EA; lia)) as Hgf. unfold apart in Hgf.
  change (aL t) with (gL t) in Hgf.
  apply ae_after. apply WP_map1 with (dst := fun s => F 0 + s) (g := fun s => x 0 s); unfold rng.
  - intros; lia.
  - intros s Hs. cbn [wp]. split; [left; intros s' Hs'; lia|]. exists (x 0 s). split; [apply Hx; lia|].
    split; [reflexivity|]. split; [apply Hal; lia|apply upd_eq].
  - intros m1 _ _ Ha1. apply ae_after. apply WP_map1 with (dst := fun s => F 0 + s) (g := fun s => C0); unfold rng.
    + intros; lia.
    + intros s Hs. cbn [wp]. split; [reflexivity|]. split; [apply Ha1, Hal; lia|apply upd_eq].
    + intros m2 _ _ _. apply ae_exit.
Qed.
(** in place, the argument W is not used at all *)
Lemma userW_inplace t mult F V w : ainplace t = true -> cinit t mult F V true w = cinit t mult F V false w.
Proof. intros H. unfold cinit. rewrite H. reflexivity. Qed.

(** *** C12 *)
Definition case12 : pad := mkpad 1 4 1 1 1 2 true 1 2 false.
Lemma case12_wf : wf case12. Proof. repeat split; vm_compute; try reflexivity; lia. Qed.
Lemma c12_ub x : exec (first case12 multCopy (lF case12) (lV case12) (lw case12) (lg case12)) (lmem case12 x) UB.
Proof.
  unfold first, convolve.
  apply (more_outputs_ub case12 case12_wf eq_refl (lg case12) (lF case12) (lV case12) (lw case12) multCopy
    (fun _ _ _ v => v 0) x).
  - vm_compute. lia.
  - reflexivity.
  - vm_compute. lia.
  - vm_compute. lia.
  - apply multCopy_ok.
  - apply multCopy_ub.
  - apply layout_ok.
  - apply layout_holds; vm_compute; lia.
Qed.

(** *** C39: indices seen by the multiplier *)
Definition multIndex (t : xf) : multiplier := fun F n r off =>
  pget F 0 (fun F0 => ParFor 0 n (fun j => x <- F0 + j ;; F0 + j ::= Cmul x (RtoC (INR (index t r (off + j)))) ;; Ret)).
Lemma multIndex_ok t : mult_ok 1 1 (fun r i _ v => Cmul (v 0) (RtoC (INR (index t r i)))) (multIndex t).
Proof.
  intros h cnt r off x m0 K Hd Hx Ha HK P HP. unfold multIndex, pget. rewrite !HP. cbn [max arr Nat.ltb Nat.leb].
  apply WP_map1 with (dst := fun s => h 0 + s) (g := fun s => Cmul (x 0 s) (RtoC (INR (index t r (off + s))))); unfold rng.
  - intros; lia.
  - intros s Hs. cbn [wp]. split; [right; reflexivity|]. exists (x 0 s). split; [apply Hx; lia|].
    split; [reflexivity|]. split; [apply (Ha 0); [cbn; lia|lia]|apply upd_eq].
  - intros m' HV HF Hal. apply HK; auto.
    + intros b i Hb Hi. assert (b = 0) by lia. subst b. apply HV. lia.
    + intros ad Had. apply HF. intros s Hs. specialize (Had 0 ltac:(cbn; lia)). lia.
Qed.
Definition case39 : pad := mkpad 1 3 1 1 1 3 true 1 1 false.
Lemma case39_wf : wf case39. Proof. repeat split; vm_compute; try reflexivity; lia. Qed.
Lemma c39_bad :
  WP (first case39 (multIndex case39) (lF case39) (lV case39) (lw case39) (lg case39)) (lmem case39 (fun _ _ => C1))
     (fun m' => m' (lg case39 0) = Val (RtoC (2 / 3))).
Proof.
  unfold first. apply WP_seq.
  apply (init_spec case39 case39_wf eq_refl (lg case39) (lF case39) (lV case39) (lw case39) (multIndex case39)); [apply layout_ok|].
  intros m1 Hr Hf Hal.
  apply (convolve_spec case39 case39_wf eq_refl (lg case39) (lF case39) (lV case39) (lw case39) (multIndex case39)
    (fun r i _ v => Cmul (v 0) (RtoC (INR (index case39 r i)))) (multIndex_ok case39)
    (fun k _ v => Cmul (v 0) (RtoC (INR (match k with 1 => 2 | _ => 0 end)))) ) with (x := fun _ _ => C1).
  - intros k b v v' E. rewrite E by (cbn; lia). reflexivity.
  - change (forall r i (b : nat) (v : nat -> C), In r [0] -> i < noutputs case39 r ->
      Cmul (v 0) (RtoC (INR (index case39 r (opos (cc case39 (lF case39) (lV case39) (lw case39) (multIndex case39)) i)))) =
      Cmul (v 0) (RtoC (INR (match index case39 r i with 1 => 2 | _ => 0 end)))).
    intros r i b v [<-|[]] Hi. change (noutputs case39 0) with 3 in Hi.
    assert (i = 0 \/ i = 1 \/ i = 2) as [->|[->| ->]] by lia; reflexivity.
  - right. vm_compute. lia.
  - intros H. vm_compute in H. discriminate.
  - exact Hr.
  - intros a i Ha Hi. rewrite Hf.
    + apply layout_holds; auto.
    + pose proof (b_gw _ _ _ _ _ _ (layout_ok case39 (fun _ _ => C1)) a ltac:(lia)) as Hd. unfold apart in Hd. unfold gL in Hi. lia.
  - intros m' HV _ _. specialize (HV 0 0 ltac:(vm_compute; lia) ltac:(vm_compute; lia)).
    change (lg case39 0 + 0) with (lg case39 0) in HV. rewrite HV. f_equal.
    unfold idftx, Yk. change (gM case39) with 3. cbn [Csum]. change (cpad (cc case39 (lF case39) (lV case39) (lw case39) (multIndex case39))) with (FP case39).
    change (gM case39) with 3. change (gL case39) with 1. rewrite !outx_odft, !odft_1. cbn [origin].
    replace (zeta 3 (- ((Z.of_nat 0 - Z.of_nat 0) * Z.of_nat 0))) with C1 by (symmetry; apply zeta_0).
    replace (zeta 3 (- ((Z.of_nat 0 - Z.of_nat 0) * Z.of_nat 1))) with C1 by (symmetry; apply zeta_0).
    replace (zeta 3 (- ((Z.of_nat 0 - Z.of_nat 0) * Z.of_nat 2))) with C1 by (symmetry; apply zeta_0).
    apply C_ext; cbn; field.
Qed.

(** *** the specification's vocabulary *)
Lemma pointwise_ok A B mult phi : pointwise A B mult phi -> mult_ok A B phi mult.
Proof.
  intros H h cnt r off x m0 K Hd Hx Ha HK P HP.
  assert (E : P = arr (max A B) h) by (apply FunctionalExtensionality.functional_extensionality; exact HP).
  rewrite E. eapply WP_mono; [|apply (H h cnt r off x m0)].
  - intros m' (H1 & H2 & H3). apply HK; [exact H1| |exact H3].
    intros ad Had. apply H2. intros b Hb. apply Had. lia.
  - intros a b Ha' Hb Hne. specialize (Hd a b Ha' Hb Hne). unfold dj, apart in *. lia.
  - exact Hx.
  - exact Ha.
Qed.
Lemma ok_pointwise A B mult phi : mult_ok A B phi mult -> pointwise A B mult phi.
Proof.
  intros H h n r off x m0 Hd Hx Ha. apply (H h n r off x m0); [|exact Hx|exact Ha| |reflexivity].
  { intros a b Ha' Hb Hne. specialize (Hd a b Ha' Hb Hne). unfold dj, apart in *. lia. }
  intros m' H1 H2 H3. split; [exact H1|]. split; [|exact H3]. intros a Hout. apply H2. intros b Hb. apply Hout. lia.
Qed.
Lemma usage_calls t g obj us : usage t obj g us = calls t g obj us.
Proof. induction us as [|u us IH]; [reflexivity|]. cbn [usage calls]. rewrite IH. reflexivity. Qed.

Definition schedule_ok (t : xf) : Prop :=
  (gD t = 1 \/ aB t <= aA t) /\ (loop2 t = true -> exists s, aB t = (aA t - aB t) * s).

Lemma conv_thm t : wf t -> gS t = 1 -> (gD t = 1 \/ aB t <= aA t) -> (loop2 t = true -> Nat.divide (aA t - aB t) (aB t)) ->
  forall mult Phi, pointwise (aA t) (aB t) mult (fun _ _ => Phi) -> (forall b, of_inputs (aA t) (Phi b)) ->
  forall g F V w x m0, buffers t g F V w m0 -> holds (aA t) (aL t) g x m0 ->
  WP (construct_convolve t mult F V w g) m0 (fun m' =>
    holds (aB t) (aL t) g (fun b j =>
       Cmul (RtoC (/ INR (gM t))) (oidft (origin t) (gM t) (fun k => Phi b (fun a => odft (origin t) (gM t) (aL t) (x a) k)) j)) m' /\
    (forall a, outside t g F V w a -> m' a = m0 a)).
Proof.
  intros Hwf HS HD Hl mult Phi Hp He g F V w x m0 Hb Hx.
  eapply WP_mono; [|apply (generic_thm t Hwf HS g F V w mult Phi x m0); [|exact Hb|exact Hx]].
  - intros m' (H1 & H2). split; [|exact H2]. intros b j Hb' Hj. rewrite H1 by assumption. f_equal. apply Cmul_comm.
  - split; [apply pointwise_ok; exact Hp|]. split; [intros b; apply He|]. split; [exact HD|].
    intros H. destruct (Hl H) as [z Hz]. exists z. lia.
Qed.
Lemma det_thm t : wf t -> gS t = 1 -> (gD t = 1 \/ aB t <= aA t) -> (loop2 t = true -> Nat.divide (aA t - aB t) (aB t)) ->
  forall mult Phi, pointwise (aA t) (aB t) mult (fun _ _ => Phi) -> (forall b, of_inputs (aA t) (Phi b)) ->
  forall g F V w x m0, buffers t g F V w m0 -> holds (aA t) (aL t) g x m0 ->
  exists m', forall o, exec (construct_convolve t mult F V w g) m0 o <-> o = OK m'.
Proof.
  intros Hwf HS HD Hl mult Phi Hp He g F V w x m0 Hb Hx.
  destruct (conv_thm t Hwf HS HD Hl mult Phi Hp He g F V w x m0 Hb Hx) as (m' & He' & _ & Hu).
  exists m'. intros o. split; [apply Hu|intros ->; assumption].
Qed.
Lemma safe_thm t : wf t -> gS t = 1 -> (gD t = 1 \/ aB t <= aA t) -> (loop2 t = true -> Nat.divide (aA t - aB t) (aB t)) ->
  forall mult Phi, pointwise (aA t) (aB t) mult (fun _ _ => Phi) -> (forall b, of_inputs (aA t) (Phi b)) ->
  forall g F V w x m0, buffers t g F V w m0 -> holds (aA t) (aL t) g x m0 ->
  (forall a, outside t g F V w a -> m0 a = Unalloc) ->
  forall o, exec (construct_convolve t mult F V w g) m0 o -> o <> UB /\ o <> ExitErr.
Proof.
  intros Hwf HS HD Hl mult Phi Hp He g F V w x m0 Hb Hx _ o Ho.
  destruct (det_thm t Hwf HS HD Hl mult Phi Hp He g F V w x m0 Hb Hx) as (m' & H).
  apply H in Ho. subst o. split; discriminate.
Qed.
Lemma usage_thm t : wf t -> gS t = 1 -> (gD t = 1 \/ aB t <= aA t) -> (loop2 t = true -> Nat.divide (aA t - aB t) (aB t)) ->
  forall mult Phi, pointwise (aA t) (aB t) mult (fun _ _ => Phi) -> (forall b, of_inputs (aA t) (Phi b)) ->
  forall g F V w us u x m0 m1 v, buffers t g F V w m0 ->
  (forall s, In s us -> exists y, stores t g F V w s y) -> stores t g F V w u x ->
  buffers t g F V w m1 -> holds (aA t) (aL t) g x m1 ->
  WP (construct_convolve t mult F V w g) m1 (holds (aB t) (aL t) g v) ->
  WP (construct_usage t mult F V w g (us ++ [u])) m0 (holds (aB t) (aL t) g v).
Proof.
  intros Hwf HS HD Hl mult Phi Hp He g F V w us u x m0 m1 v Hb Hus Hu Hb1 Hx1 Hv.
  unfold construct_usage. rewrite usage_calls.
  apply (history_thm t Hwf HS g F V w mult Phi us u x m0 m1 v); auto.
  split; [apply pointwise_ok; exact Hp|]. split; [intros b; apply He|]. split; [exact HD|].
  intros H. destruct (Hl H) as [z Hz]. exists z. lia.
Qed.

Lemma loop2_refuted : exists t mult Phi g F V w x m0,
  wf t /\ gS t = 1 /\ aB t <= aA t /\ loop2 t = true /\
  pointwise (aA t) (aB t) mult (fun _ _ => Phi) /\ (forall b, of_inputs (aA t) (Phi b)) /\
  buffers t g F V w m0 /\ holds (aA t) (aL t) g x m0 /\
  Cmul (RtoC (/ INR (gM t))) (oidft (origin t) (gM t) (fun k => Phi 0 (fun a => odft (origin t) (gM t) (aL t) (x a) k)) 0) = RtoC 2 /\
  WP (construct_convolve t mult F V w g) m0 (fun m' => m' (g 0) = Val (RtoC (3 / 2))).
Proof.
  exists case10, multTernary, (fun _ v => Cmul (Cmul (v 0) (v 1)) (v 2)), (lg case10), (lF case10), (lV case10), (lw case10), x10, (lmem case10 x10).
  split; [exact case10_wf|]. split; [reflexivity|]. split; [vm_compute; lia|]. split; [reflexivity|].
  split; [apply ok_pointwise, multTernary_ok|]. split.
  { intros b v v' E. rewrite !E by (vm_compute; lia). reflexivity. }
  split; [apply layout_ok|]. split; [apply layout_holds; vm_compute; lia|]. split; [|exact loop2_witness].
  change (gM case10) with 2. change (aL case10) with 1. rewrite oidft_0. cbn [Csum]. rewrite !odft_1. unfold x10. cbn [Nat.eqb].
  apply C_ext; cbn; field.
Qed.

Lemma index_refuted : exists t mult Phi g F V w x m0,
  wf t /\ gS t = 1 /\ goverwrite t = false /\ aB t <= aA t /\ loop2 t = false /\
  pointwise (aA t) (aB t) mult (fun r i => Phi (index t r i)) /\ (forall k b, of_inputs (aA t) (Phi k b)) /\
  buffers t g F V w m0 /\ holds (aA t) (aL t) g x m0 /\
  Cmul (RtoC (/ INR (gM t))) (oidft (origin t) (gM t) (fun k => Phi k 0 (fun a => odft (origin t) (gM t) (aL t) (x a) k)) 0) = RtoC 1 /\
  WP (construct_convolve t mult F V w g) m0 (fun m' => m' (g 0) = Val (RtoC (2 / 3))).
Proof.
  exists case39, (multIndex case39), (fun k _ v => Cmul (v 0) (RtoC (INR k))), (lg case39), (lF case39), (lV case39), (lw case39), (fun _ _ => C1), (lmem case39 (fun _ _ => C1)).
  split; [exact case39_wf|]. split; [reflexivity|]. split; [reflexivity|]. split; [vm_compute; lia|]. split; [reflexivity|].
  split; [apply ok_pointwise, multIndex_ok|]. split.
  { intros k b v v' E. rewrite !E by (vm_compute; lia). reflexivity. }
  split; [apply layout_ok|]. split; [apply layout_holds; vm_compute; lia|]. split; [|exact c39_bad].
  change (gM case39) with 3. change (aL case39) with 1. rewrite oidft_0. cbn [Csum]. rewrite !odft_1.
  apply C_ext; cbn; field.
Qed.
Lemma index_thm t : wf t -> gS t = 1 -> goverwrite t = false -> gD0 t = 1 \/ gD t = 1 -> (gD t = 1 \/ aB t <= aA t) ->
  (loop2 t = true -> Nat.divide (aA t - aB t) (aB t)) ->
  forall mult phi Phi, pointwise (aA t) (aB t) mult phi -> (forall k b, of_inputs (aA t) (Phi k b)) ->
  (forall rs r i b v, loop_trace (gR t) (increment t) 0 rs -> In r rs -> i < noutputs t r -> phi r i b v = Phi (index t r i) b v) ->
  forall g F V w x m0, buffers t g F V w m0 -> holds (aA t) (aL t) g x m0 ->
  WP (construct_convolve t mult F V w g) m0 (holds (aB t) (aL t) g (fun b j =>
       Cmul (RtoC (/ INR (gM t))) (oidft (origin t) (gM t) (fun k => Phi k b (fun a => odft (origin t) (gM t) (aL t) (x a) k)) j))).
Proof.
  intros Hwf HS How HD HAB Hl mult phi Phi Hp He Hphi g F V w x m0 Hb Hx.
  eapply WP_mono; [|apply (indexed_thm t Hwf HS g F V w mult phi Phi x m0); auto].
  - intros m' H b j Hb' Hj. rewrite H by assumption. f_equal. apply Cmul_comm.
  - apply pointwise_ok; exact Hp.
  - intros r i b v Hr Hi. 
    
    apply (Hphi (residues t)); [apply residues_trace|apply Hr|apply Hi]; assumption.
  - intros H. destruct (Hl H) as [z Hz]. exists z. lia.
Qed.
Lemma userW_same t mult F V w g : ainplace t = true ->
  let N := max (aA t) (aB t) in
  let obj u := cinit t mult (arr N F) (arr (aB t) V) u w in
  Seq (cinit_cmd (obj true)) (convolve (obj true) (arr N g)) = construct_convolve t mult F V w g.
Proof. intros Hi N obj. unfold construct_convolve, object. unfold obj. rewrite (userW_inplace t mult (arr N F) (arr (aB t) V) w Hi). reflexivity. Qed.
Lemma more_outputs_refuted : exists t mult g F V w, wf t /\ gS t = 1 /\ aA t = 1 /\ aB t = 2 /\
  pointwise (aA t) (aB t) mult (fun _ _ _ v => v 0) /\
  forall x, exists m0, buffers t g F V w m0 /\ holds (aA t) (aL t) g x m0 /\
    exec (construct_convolve t mult F V w g) m0 UB.
Proof.
  exists case12, multCopy, (lg case12), (lF case12), (lV case12), (lw case12).
  split; [exact case12_wf|]. do 3 (split; [reflexivity|]). split; [apply ok_pointwise; exact multCopy_ok|].
  intros x. exists (lmem case12 x). split; [apply layout_ok|]. split; [apply layout_holds|]. apply c12_ub.
Qed.
Lemma usage_linear_thm t : wf t -> gS t = 1 -> aA t = 2 -> aB t = 1 -> enough (origin t) (aL t) (aM t) ->
  forall g F V w us u x m0, buffers t g F V w m0 ->
  (forall s, In s us -> exists y, stores t g F V w s y) -> stores t g F V w u x ->
  WP (construct_usage t multBinary F V w g (us ++ [u])) m0 (fun m' =>
    forall j, j < aL t -> m' (g 0 + j) = Val (oconv (origin t) (aL t) (x 0) (x 1) j)).
Proof.
  intros Hwf HS HA HB HL g F V w us u x m0 Hb Hus Hu. unfold construct_usage. rewrite usage_calls.
  exact (history_conv t Hwf HS g F V w us u x m0 HA HB HL Hb Hus Hu).
Qed.
Lemma stores_exists t : wf t -> gS t = 1 -> forall g F V w x m0, buffers t g F V w m0 ->
  exists u, stores t g F V w u x.
Proof. intros Hwf HS g F V w x m0 Hb. destruct (prepares_exists t HS g F V w x) as (u & Hu). exists u. exact Hu. Qed.
Lemma identity_thm t : wf t -> gS t = 1 -> aA t = aB t ->
  forall g F V w x m0, buffers t g F V w m0 -> holds (aA t) (aL t) g x m0 ->
  WP (construct_convolve t multNone F V w g) m0 (fun m' =>
    holds (aA t) (aL t) g x m' /\ (forall a, outside t g F V w a -> m' a = m0 a)).
Proof.
  intros Hwf HS HA g F V w x m0 Hb Hx. eapply WP_mono; [|apply (none_thm t Hwf HS g F V w x m0 HA Hb Hx)].
  intros m' (H1 & H2). split; [|exact H2]. intros b j Hb' Hj. apply H1; [rewrite <- HA|]; assumption.
Qed.
Lemma offset_thm t : wf t -> gS t = 1 -> aB t <= aA t -> (loop2 t = true -> Nat.divide (aA t - aB t) (aB t)) ->
  forall mult Phi, pointwise (aA t) (aB t) mult (fun _ _ => Phi) -> (forall b, of_inputs (aA t) (Phi b)) ->
  forall f F V w offset x m0, let g a := f a + offset in
  buffers t g F V w m0 -> holds (aA t) (aL t) g x m0 ->
  let obj := object t mult F V w in
  WP (Seq (cinit_cmd obj) (convolveAt obj (arr (max (aA t) (aB t)) f) offset)) m0 (fun m' =>
    holds (aB t) (aL t) g (fun b j =>
       Cmul (RtoC (/ INR (gM t))) (oidft (origin t) (gM t) (fun k => Phi b (fun a => odft (origin t) (gM t) (aL t) (x a) k)) j)) m' /\
    (forall a, outside t g F V w a -> m' a = m0 a)).
Proof.
  intros Hwf HS HAB Hl mult Phi Hp He f F V w offset x m0 g Hb Hx obj.
  eapply WP_mono; [|apply (at_thm t Hwf HS f F V w mult Phi offset x m0); [|exact HAB|exact Hb|exact Hx]].
  - intros m' (H1 & H2). split; [|exact H2]. intros b j Hb' Hj. unfold g. rewrite H1 by assumption. f_equal. apply Cmul_comm.
  - split; [apply pointwise_ok; exact Hp|]. split; [intros b; apply He|]. split; [right; exact HAB|].
    intros H. destruct (Hl H) as [z Hz]. exists z. lia.
Qed.

(** *** origin at index 0 (class fftPad) *)
Lemma enough_FP (s : pad) : wf s -> 2 * aL s <= aM s + 1 -> enough (origin s) (aL s) (aM s).
Proof. intros Hwf H. pose proof (wf_L s Hwf) as H1. unfold gL in H1. cbn [origin]. unfold enough. lia. Qed.
Lemma linear_FP (s : pad) : let t := FP s in wf t -> gS t = 1 -> aA t = 2 -> aB t = 1 -> 2 * aL t <= aM t + 1 ->
  forall g F V w x m0, buffers t g F V w m0 -> holds 2 (aL t) g x m0 ->
  WP (construct_convolve t multBinary F V w g) m0 (fun m' =>
    (forall j, j < aL t -> m' (g 0 + j) = Val (linconv (x 0) (x 1) j)) /\
    (forall a, outside t g F V w a -> m' a = m0 a)).
Proof.
  intros t Hwf HS HA HB HL g F V w x m0 Hb Hx.
  eapply WP_mono; [|apply (linear_thm t Hwf HS g F V w x m0 HA HB (enough_FP s Hwf HL) Hb Hx)].
  intros m' [H1 H2]. split; [|exact H2]. intros j Hj. rewrite (H1 j Hj). f_equal. apply oconv_0. exact Hj.
Qed.
Lemma cyclic_FP (s : pad) : let t := FP s in wf t -> gS t = 1 -> aA t = 2 -> aB t = 1 ->
  forall g F V w x m0, buffers t g F V w m0 -> holds 2 (aL t) g x m0 ->
  WP (construct_convolve t multBinary F V w g) m0 (fun m' =>
    (forall j, j < aL t -> m' (g 0 + j) = Val (cycconv (gm t * gq t) (aL t) (x 0) (x 1) j)) /\
    (forall a, outside t g F V w a -> m' a = m0 a)).
Proof.
  intros t Hwf HS HA HB g F V w x m0 Hb Hx.
  eapply WP_mono; [|apply (cyclic_thm t Hwf HS g F V w x m0 HA HB Hb Hx)].
  intros m' [H1 H2]. split; [|exact H2]. intros j Hj. rewrite (H1 j Hj). f_equal. apply ocyc_0.
Qed.
Lemma corr_FP (s : pad) : let t := FP s in wf t -> gS t = 1 -> aA t = 2 -> aB t = 1 -> 2 * aL t <= aM t + 1 ->
  forall g F V w x m0, buffers t g F V w m0 -> holds 2 (aL t) g x m0 ->
  WP (construct_convolve t multcorrelation F V w g) m0 (fun m' =>
    (forall j, j < aL t -> m' (g 0 + j) = Val (lincorr (aL t) (x 0) (x 1) j)) /\
    (forall a, outside t g F V w a -> m' a = m0 a)).
Proof.
  intros t Hwf HS HA HB HL g F V w x m0 Hb Hx.
  eapply WP_mono; [|apply (corr_thm t Hwf HS g F V w x m0 HA HB (enough_FP s Hwf HL) Hb Hx)].
  intros m' [H1 H2]. split; [|exact H2]. intros j Hj. rewrite (H1 j Hj). f_equal. apply ocorr_0. exact Hj.
Qed.
Lemma usage_linear_FP (s : pad) : let t := FP s in wf t -> gS t = 1 -> aA t = 2 -> aB t = 1 -> 2 * aL t <= aM t + 1 ->
  forall g F V w us u x m0, buffers t g F V w m0 ->
  (forall s, In s us -> exists y, stores t g F V w s y) -> stores t g F V w u x ->
  WP (construct_usage t multBinary F V w g (us ++ [u])) m0 (fun m' =>
    forall j, j < aL t -> m' (g 0 + j) = Val (linconv (x 0) (x 1) j)).
Proof.
  intros t Hwf HS HA HB HL g F V w us u x m0 Hb Hus Hu.
  eapply WP_mono; [|apply (usage_linear_thm t Hwf HS HA HB (enough_FP s Hwf HL) g F V w us u x m0 Hb Hus Hu)].
  intros m' H j Hj. rewrite (H j Hj). f_equal. apply oconv_0. exact Hj.
Qed.
(** *** centered (class fftPadCentered) *)
Lemma linear_CP (s : pad) : let t := CP s in let c := aL t / 2 in
  wf t -> gS t = 1 -> aA t = 2 -> aB t = 1 -> enough c (aL t) (aM t) ->
  forall g F V w x m0, buffers t g F V w m0 -> holds 2 (aL t) g x m0 ->
  WP (construct_convolve t multBinary F V w g) m0 (fun m' =>
    (forall j, j < aL t -> m' (g 0 + j) = Val (oconv c (aL t) (x 0) (x 1) j)) /\
    (forall a, outside t g F V w a -> m' a = m0 a)).
Proof. intros t c Hwf HS HA HB HL g F V w x m0. exact (linear_thm t Hwf HS g F V w x m0 HA HB HL). Qed.
Lemma cyclic_CP (s : pad) : let t := CP s in let c := aL t / 2 in
  wf t -> gS t = 1 -> aA t = 2 -> aB t = 1 ->
  forall g F V w x m0, buffers t g F V w m0 -> holds 2 (aL t) g x m0 ->
  WP (construct_convolve t multBinary F V w g) m0 (fun m' =>
    (forall j, j < aL t -> m' (g 0 + j) = Val (ocyc c (gM t) (aL t) (x 0) (x 1) j)) /\
    (forall a, outside t g F V w a -> m' a = m0 a)).
Proof. intros t c Hwf HS HA HB g F V w x m0. exact (cyclic_thm t Hwf HS g F V w x m0 HA HB). Qed.
Lemma corr_CP (s : pad) : let t := CP s in let c := aL t / 2 in
  wf t -> gS t = 1 -> aA t = 2 -> aB t = 1 -> enough c (aL t) (aM t) ->
  forall g F V w x m0, buffers t g F V w m0 -> holds 2 (aL t) g x m0 ->
  WP (construct_convolve t multcorrelation F V w g) m0 (fun m' =>
    (forall j, j < aL t -> m' (g 0 + j) = Val (ocorr c (aL t) (x 0) (x 1) j)) /\
    (forall a, outside t g F V w a -> m' a = m0 a)).
Proof. intros t c Hwf HS HA HB HL g F V w x m0. exact (corr_thm t Hwf HS g F V w x m0 HA HB HL). Qed.
