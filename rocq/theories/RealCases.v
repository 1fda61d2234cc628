(** Concrete real transforms, and the theorems in the form the property file uses. *)
From Coq Require Import Reals ZArith Arith Lia Lra List Bool Permutation.
From Verif Require Import CNum Sums Roots Mem VecModel PadModel PadKernels PadSpec PadBridge PadMath CenModel HerModel RealModel RealMath RealGeom RLoops RFft RealSpec RFwd RBwd RealFreq RealProofs RealThms.
Import ListNotations.

Lemma rtrace_in t rs r : rwf t -> loop_trace (rR t) (rincrement t) 0 rs -> In r rs -> rpass t r.
Proof. intros Hwf HT Hin. apply (rtrace_pass t Hwf). rewrite <- (rtrace_unique t Hwf rs HT). exact Hin. Qed.

Lemma rforward_thm : forall t, rwf t -> forall f F W r x m0 rs,
  let W0 := getW F W in let N := routputSize t in
  loop_trace (rR t) (rincrement t) 0 rs -> In r rs ->
  ainplace t = (W0 =? F) ->
  reals f (aL t) x m0 -> dalloc F (2 * N) m0 -> dalloc W0 (2 * rworkSizeW t) m0 ->
  dapart f (aL t) F (2 * N) -> dapart f (aL t) W0 (2 * rworkSizeW t) ->
  (W0 = F \/ dapart W0 (2 * rworkSizeW t) F (2 * N)) ->
  rpadded t W0 m0 ->
  WP (rforward t f F r W) m0 (fun m' =>
    complexes F (rnoutputs t r) (fun i => rdft (gM t) (aL t) x (rfreq (gM t) (gq t) (am t) r i)) m' /\
    reals f (aL t) x m' /\
    ronly (fun a => dspan F (2 * N) a \/ dspan W0 (2 * rworkSizeW t) a) m0 m' /\
    rpadded t W0 m').
Proof. intros t Hwf f F W r x m0 rs W0 N HT Hin Hip. apply (rforward_b t Hwf F W Hip f r x m0 (rtrace_in t rs r Hwf HT Hin)). Qed.

Lemma rbackward_thm : forall t, rwf t -> forall f F W r y acc m0 rs,
  let W0 := getW F W in let N := routputSize t in
  loop_trace (rR t) (rincrement t) 0 rs -> In r rs ->
  ainplace t = (W0 =? F) ->
  complexes F (rnoutputs t r) y m0 ->
  (forall i, i < rnoutputs t r -> (2 * rfreq (gM t) (gq t) (am t) r i) mod gM t = 0 -> im (y i) = 0%R) ->
  (r <> 0 -> reals f (aL t) acc m0) ->
  dalloc f (aL t) m0 -> dalloc F (2 * N) m0 -> dalloc W0 (2 * rworkSizeW t) m0 ->
  dapart f (aL t) F (2 * N) -> dapart f (aL t) W0 (2 * rworkSizeW t) ->
  (W0 = F \/ dapart W0 (2 * rworkSizeW t) F (2 * N)) ->
  WP (rbackward t F f r W) m0 (fun m' =>
    reals f (aL t) (fun j => (if r =? 0 then 0 else acc j) +
      rpartial_inverse (gM t) (rnoutputs t r) (rfreq (gM t) (gq t) (am t) r) y j)%R m' /\
    ronly (fun a => dspan f (aL t) a \/ dspan F (2 * N) a \/ dspan W0 (2 * rworkSizeW t) a) m0 m').
Proof. intros t Hwf f F W r y acc m0 rs W0 N HT Hin Hip. apply (rbackward_b t Hwf F W Hip f r y acc m0 (rtrace_in t rs r Hwf HT Hin)). Qed.

Lemma rpad_thm : forall t, rwf t -> forall W m0, dalloc W (2 * rworkSizeW t) m0 ->
  WP (rPad t W) m0 (fun m' => rpadded t W m' /\ ronly (dspan W (2 * rworkSizeW t)) m0 m').
Proof. exact rPad_b. Qed.

Lemma rloop_thm : forall t, rwf t -> exists rs, loop_trace (rR t) (rincrement t) 0 rs /\
  forall rs', loop_trace (rR t) (rincrement t) 0 rs' -> rs' = rs.
Proof. intros t Hwf. exists (rtrace t). split; [apply rtrace_ok; assumption|apply rtrace_unique; assumption]. Qed.

Lemma rfreqs_thm : forall t, rwf t -> forall rs, loop_trace (rR t) (rincrement t) 0 rs ->
  Permutation (seq 0 (gM t))
    (flat_map (mirror (gM t)) (flat_map (fun r => map (rfreq (gM t) (gq t) (am t) r) (seq 0 (rnoutputs t r))) rs)).
Proof. intros t Hwf rs HT. rewrite (rtrace_unique t Hwf rs HT). apply (freq_perm t Hwf). Qed.

Lemma rpasses_thm : forall t, rwf t -> forall rs (Y : nat -> C) j, loop_trace (rR t) (rincrement t) 0 rs ->
  (forall k, 0 < k < gM t -> Y (gM t - k) = Cconj (Y k)) ->
  Rlist rs (fun r => rpartial_inverse (gM t) (rnoutputs t r) (rfreq (gM t) (gq t) (am t) r) (fun i => Y (rfreq (gM t) (gq t) (am t) r i)) j)
  = re (ipdft (gM t) Y j).
Proof. intros t Hwf rs Y j HT HY. rewrite (rtrace_unique t Hwf rs HT). apply (passes_sum t Hwf Y j HY). Qed.

Lemma rroundtrip_thm : forall t, rwf t -> forall f F h W x m0 rs,
  let W0 := getW F W in let N := routputSize t in
  loop_trace (rR t) (rincrement t) 0 rs ->
  ainplace t = (W0 =? F) ->
  reals f (aL t) x m0 -> dalloc F (2 * N) m0 -> dalloc W0 (2 * rworkSizeW t) m0 -> dalloc h (aL t) m0 ->
  dapart f (aL t) F (2 * N) -> dapart f (aL t) W0 (2 * rworkSizeW t) ->
  dapart h (aL t) F (2 * N) -> dapart h (aL t) W0 (2 * rworkSizeW t) -> dapart f (aL t) h (aL t) ->
  (W0 = F \/ dapart W0 (2 * rworkSizeW t) F (2 * N)) ->
  WP (rloop rs (fun r => Seq (rPad t W0) (Seq (rforward t f F r W) (rbackward t F h r W)))) m0 (fun m' =>
    reals h (aL t) (fun j => INR (gM t) * x j)%R m' /\
    reals f (aL t) x m' /\
    ronly (fun a => dspan F (2 * N) a \/ dspan W0 (2 * rworkSizeW t) a \/ dspan h (aL t) a) m0 m').
Proof.
  intros t Hwf f F h W x m0 rs W0 N HT Hip H1 H2 H3 H4 H5 H6 H7 H8 H9 H10.
  exact (roundtrip_b t Hwf f F h W x m0 Hip H1 H2 H3 H4 H5 H6 H7 H8 H9 H10 rs HT).
Qed.

Lemma rinbounds_thm : forall t, rwf t -> forall f F W r x m0 rs,
  let W0 := getW F W in let N := routputSize t in
  loop_trace (rR t) (rincrement t) 0 rs -> In r rs ->
  ainplace t = (W0 =? F) ->
  reals f (aL t) x m0 -> dalloc F (2 * N) m0 -> dalloc W0 (2 * rworkSizeW t) m0 ->
  dapart f (aL t) F (2 * N) -> dapart f (aL t) W0 (2 * rworkSizeW t) ->
  (W0 = F \/ dapart W0 (2 * rworkSizeW t) F (2 * N)) ->
  rpadded t W0 m0 ->
  (forall a, ~ dspan f (aL t) a -> ~ dspan F (2 * N) a -> ~ dspan W0 (2 * rworkSizeW t) a -> m0 a = Unalloc) ->
  exists m', forall o, exec (rforward t f F r W) m0 o <-> o = OK m'.
Proof.
  intros t Hwf f F W r x m0 rs W0 N H1 H2 H3 H4 H5 H6 H7 H8 H9 H10 _.
  destruct (rforward_thm t Hwf f F W r x m0 rs H1 H2 H3 H4 H5 H6 H7 H8 H9 H10) as (m1 & He & _ & Hu).
  exists m1. intros o. split; [apply Hu|intros ->; exact He].
Qed.
Lemma rbinbounds_thm : forall t, rwf t -> forall f F W r y acc m0 rs,
  let W0 := getW F W in let N := routputSize t in
  loop_trace (rR t) (rincrement t) 0 rs -> In r rs ->
  ainplace t = (W0 =? F) ->
  complexes F (rnoutputs t r) y m0 ->
  (forall i, i < rnoutputs t r -> (2 * rfreq (gM t) (gq t) (am t) r i) mod gM t = 0 -> im (y i) = 0%R) ->
  (r <> 0 -> reals f (aL t) acc m0) ->
  dalloc f (aL t) m0 -> dalloc F (2 * N) m0 -> dalloc W0 (2 * rworkSizeW t) m0 ->
  dapart f (aL t) F (2 * N) -> dapart f (aL t) W0 (2 * rworkSizeW t) ->
  (W0 = F \/ dapart W0 (2 * rworkSizeW t) F (2 * N)) ->
  (forall a, ~ dspan f (aL t) a -> ~ dspan F (2 * N) a -> ~ dspan W0 (2 * rworkSizeW t) a -> m0 a = Unalloc) ->
  exists m', forall o, exec (rbackward t F f r W) m0 o <-> o = OK m'.
Proof.
  intros t Hwf f F W r y acc m0 rs W0 N H1 H2 H3 H4 H5 H6 H7 H8 H9 H10 H11 H12 _.
  destruct (rbackward_thm t Hwf f F W r y acc m0 rs H1 H2 H3 H4 H5 H6 H7 H8 H9 H10 H11 H12) as (m1 & He & _ & Hu).
  exists m1. intros o. split; [apply Hu|intros ->; exact He].
Qed.

(** *** concrete transforms.  rcase1: q=2, out of place; rcase2: p=2, q=3, in place;
    rcase3: D=2, q=5; rcase4: p=2, q=6, out of place; rcase5: q=1 *)
Definition rcase1 : pad := mkpad 4 8 1 1 4 1 false 2 1 false.
Definition rcase2 : pad := mkpad 6 12 1 1 4 1 true 2 1 false.
Definition rcase3 : pad := mkpad 3 15 1 1 3 2 false 2 1 false.
Definition rcase4 : pad := mkpad 7 24 1 1 4 1 false 2 1 false.
Definition rcase5 : pad := mkpad 5 9 1 1 9 1 true 2 1 false.
Ltac rw := unfold rwf; repeat split; try (vm_compute; lia).
Lemma rcase1_wf : rwf rcase1. Proof. rw. Qed.
Lemma rcase2_wf : rwf rcase2. Proof. rw. Qed.
Lemma rcase3_wf : rwf rcase3. Proof. rw. Qed.
Lemma rcase4_wf : rwf rcase4. Proof. rw. Qed.
Lemma rcase5_wf : rwf rcase5. Proof. rw. Qed.
Definition rm0 (n : nat) : mem := fun a => if a <? n then Val (INR (a + 1)) else Undef.
Lemma rm0_al n b k : dalloc b k (rm0 n).
Proof. intros a _. unfold rm0. destruct (a <? n); discriminate. Qed.
Lemma rm0_has n L : L <= n -> reals 0 L (fun j => INR (j + 1)) (rm0 n).
Proof. intros H k Hk. unfold rm0. destruct (Nat.ltb_spec (0 + k) n); [reflexivity|lia]. Qed.
Lemma dap a n b k : a + n <= b \/ b + k <= a -> dapart a n b k.
Proof. intros H x H1 H2. unfold dspan in *. lia. Qed.
Lemma rcase_tr t l : rwf t -> rtrace t = l -> loop_trace (rR t) (rincrement t) 0 l.
Proof. intros Hwf <-. apply rtrace_ok. assumption. Qed.
Ltac rgo := first [reflexivity | apply rm0_has; vm_compute; lia | apply rm0_al | apply dap; vm_compute; lia | right; apply dap; vm_compute; lia | left; reflexivity].
Lemma rcase1_roundtrip : WP (rloop [0; 1] (fun r => Seq (rPad rcase1 200) (Seq (rforward rcase1 0 100 r (Some 200)) (rbackward rcase1 100 300 r (Some 200))))) (rm0 4)
  (fun m' => m' 302 = Val 24%R).
Proof.
  eapply WP_mono; [|apply (rroundtrip_thm rcase1 rcase1_wf 0 100 300 (Some 200) (fun j => INR (j + 1)) (rm0 4) [0; 1]); [apply rcase_tr; [exact rcase1_wf|reflexivity]|rgo..]].
  intros m' (HV & _). specialize (HV 2 ltac:(vm_compute; lia)). change (300 + 2) with 302 in HV. rewrite HV. f_equal. change (gM rcase1) with 8. cbn. lra.
Qed.
Lemma rcase4_roundtrip : WP (rloop [0; 1; 2; 3] (fun r => Seq (rPad rcase4 200) (Seq (rforward rcase4 0 100 r (Some 200)) (rbackward rcase4 100 300 r (Some 200))))) (rm0 7)
  (fun m' => m' 306 = Val 168%R).
Proof.
  eapply WP_mono; [|apply (rroundtrip_thm rcase4 rcase4_wf 0 100 300 (Some 200) (fun j => INR (j + 1)) (rm0 7) [0; 1; 2; 3]); [apply rcase_tr; [exact rcase4_wf|reflexivity]|rgo..]].
  intros m' (HV & _). specialize (HV 6 ltac:(vm_compute; lia)). change (300 + 6) with 306 in HV. rewrite HV. f_equal. change (gM rcase4) with 24. cbn. lra.
Qed.
Lemma rcase3_roundtrip : WP (rloop [0; 1] (fun r => Seq (rPad rcase3 200) (Seq (rforward rcase3 0 100 r (Some 200)) (rbackward rcase3 100 300 r (Some 200))))) (rm0 3)
  (fun m' => m' 302 = Val 45%R).
Proof.
  eapply WP_mono; [|apply (rroundtrip_thm rcase3 rcase3_wf 0 100 300 (Some 200) (fun j => INR (j + 1)) (rm0 3) [0; 1]); [apply rcase_tr; [exact rcase3_wf|reflexivity]|rgo..]].
  intros m' (HV & _). specialize (HV 2 ltac:(vm_compute; lia)). change (300 + 2) with 302 in HV. rewrite HV. f_equal. change (gM rcase3) with 15. cbn. lra.
Qed.

(** *** index() does not report the stored frequency *)
Definition delta1 (j : nat) : R := if j =? 1 then 1%R else 0%R.
Definition rmd : mem := fun a => if a <? 4 then Val (delta1 a) else Undef.
Lemma rindex_refuted : ~ (forall t, rwf t -> forall f F W r x m0 rs,
  let W0 := getW F W in let N := routputSize t in
  loop_trace (rR t) (rincrement t) 0 rs -> In r rs ->
  ainplace t = (W0 =? F) ->
  reals f (aL t) x m0 -> dalloc F (2 * N) m0 -> dalloc W0 (2 * rworkSizeW t) m0 ->
  dapart f (aL t) F (2 * N) -> dapart f (aL t) W0 (2 * rworkSizeW t) ->
  (W0 = F \/ dapart W0 (2 * rworkSizeW t) F (2 * N)) ->
  rpadded t W0 m0 ->
  WP (rforward t f F r W) m0 (fun m' =>
    complexes F (rnoutputs t r) (fun i => rdft (gM t) (aL t) x (rindex t r i)) m')).
Proof.
  intros HC.
  assert (HT : loop_trace (rR rcase1) (rincrement rcase1) 0 [0; 1]) by (apply rcase_tr; [exact rcase1_wf|reflexivity]).
  assert (Hx : reals 0 4 delta1 rmd) by (intros k Hk; unfold rmd; destruct (Nat.ltb_spec (0 + k) 4); [reflexivity|lia]).
  assert (Hal : forall b k, dalloc b k rmd) by (intros b k a _; unfold rmd; destruct (a <? 4); discriminate).
  assert (Hpd : rpadded rcase1 200 rmd) by (intros _ _ _ d s Hd Hs; vm_compute in Hd; vm_compute in Hs; lia).
  specialize (HC rcase1 rcase1_wf 0 100 (Some 200) 0 delta1 rmd [0; 1] HT ltac:(left; reflexivity) eq_refl Hx (Hal _ _) (Hal _ _)
    ltac:(apply dap; vm_compute; lia) ltac:(apply dap; vm_compute; lia) ltac:(right; apply dap; vm_compute; lia) Hpd).
  pose proof (rforward_thm rcase1 rcase1_wf 0 100 (Some 200) 0 delta1 rmd [0; 1] HT ltac:(left; reflexivity) eq_refl Hx (Hal _ _) (Hal _ _)
    ltac:(apply dap; vm_compute; lia) ltac:(apply dap; vm_compute; lia) ltac:(right; apply dap; vm_compute; lia) Hpd) as HG.
  destruct HC as (m1 & E1 & V1 & U1). destruct HG as (m2 & E2 & (V2 & _) & _). apply U1 in E2. injection E2 as ->.
  assert (H1 : 1 < rnoutputs rcase1 0) by (vm_compute; lia).
  destruct (V1 1 H1) as [_ A]. destruct (V2 1 H1) as [_ B]. cbv beta in A, B. rewrite A in B. apply (f_equal (fun c => match c with Val v => v | _ => 0%R end)) in B. cbv beta iota in B.
  change (rindex rcase1 0 1) with 2 in B. change (rfreq (gM rcase1) (gq rcase1) (am rcase1) 0 1) with 6 in B.
  change 6 with (gM rcase1 - 2) in B. rewrite (rdft_sym rcase1 delta1 2) in B by (vm_compute; lia).
  assert (Ev : rdft (gM rcase1) (aL rcase1) delta1 2 = Ci).
  { change (gM rcase1) with 8. change (aL rcase1) with 4. unfold rdft, pdft. cbn [Csum]. unfold delta1. cbn [Nat.eqb].
    replace (2 * PI * INR (1 * 2) / INR 8)%R with (PI / 2)%R by (cbn; field). unfold expi at 2. rewrite cos_PI2, sin_PI2. apply C_ext; cbn; ring. }
  rewrite Ev in B. cbn in B. lra.
Qed.
Lemma rindex_mid_thm : forall t, rwf t -> aD t = 1 -> forall r i, 1 <= r -> 2 * r < gq t -> i < rnoutputs t r ->
  rindex t r i = rfreq (gM t) (gq t) (am t) r i.
Proof.
  intros t Hwf HD r i H1 H2 Hi. assert (Hq : gq t <> 1) by lia.
  rewrite (r_noutm t Hwf) in Hi by assumption. pose proof (midw_pos t Hwf r). assert (Hi' : i < am t) by nia.
  unfold rindex, rfreq. destruct (Nat.eqb_spec (gq t) 1); [contradiction|]. destruct (Nat.eqb_spec r 0); [lia|]. destruct (Nat.eqb_spec (2 * r) (gq t)); [lia|].
  rewrite HD. change (1 <? 1) with false. cbn [andb]. rewrite (Nat.div_small i (am t)) by assumption.
  assert (Hp : 1 <= gp t) by (destruct (r_p t Hwf) as [(-> & _)|(-> & _)]; lia).
  rewrite Nat.mod_0_l by lia. rewrite (Nat.div_small i) by nia. lia.
Qed.
