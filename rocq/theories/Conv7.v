(** The library multipliers satisfy the multiplier contract; convolution, correlation and
    round trip through a Convolution object; histories of calls. *)
From Coq Require Import Reals ZArith Arith Lia List Bool Permutation FunctionalExtensionality.
From Verif Require Import CNum Sums Roots Mem VecModel VecProofs PadModel PadKernels Loops PadLemmas PadMath PadGeom Fwd1 FwdAll PadForward ConvMath ConvModel ConvSpec Conv1 Conv2 Conv3 Conv4 Conv5 Conv6 Xf XfProofs.
Import ListNotations.

Lemma mult2_ok (op : C -> C -> C) (mult : multiplier) :
  (forall P n r off, mult P n r off = pget P 0 (fun F0 => pget P 1 (fun F1 =>
    ParFor 0 n (fun j => x <- F0 + j ;; y <- F1 + j ;; F0 + j ::= op x y ;; Ret)))) ->
  mult_ok 2 1 (fun _ _ _ v => op (v 0) (v 1)) mult.
Proof.
  intros E h cnt r off x m0 K Hd Hx Ha HK P HP. rewrite E. unfold pget. rewrite !HP. cbn [max arr Nat.ltb Nat.leb].
  apply WP_map1 with (dst := fun s => h 0 + s) (g := fun s => op (x 0 s) (x 1 s)); unfold rng.
  - intros; lia.
  - intros s Hs. cbn [wp]. split; [right; reflexivity|]. exists (x 0 s). split; [apply Hx; lia|].
    split.
    + left. intros s' Hs' E'. pose proof (Hd 0 1 ltac:(cbn; lia) ltac:(cbn; lia) ltac:(lia)) as H. unfold dj in H. lia.
    + exists (x 1 s). split; [apply Hx; lia|]. split; [reflexivity|]. split; [apply (Ha 0); [cbn; lia|lia]|apply upd_eq].
  - intros m' HV HF Hal. apply HK; auto.
    + intros b i Hb Hi. assert (b = 0) by lia. subst b. apply HV. lia.
    + intros ad Had. apply HF. intros s Hs. specialize (Had 0 ltac:(cbn; lia)). lia.
Qed.
Lemma multBinary_ok : mult_ok 2 1 (fun _ _ _ v => Cmul (v 0) (v 1)) multBinary.
Proof. apply mult2_ok. reflexivity. Qed.
Lemma multcorrelation_ok : mult_ok 2 1 (fun _ _ _ v => Cmul (v 0) (Cconj (v 1))) multcorrelation.
Proof. apply (mult2_ok (fun x y => Cmul x (Cconj y))). reflexivity. Qed.
Lemma multNone_ok A B : B <= A -> mult_ok A B (fun _ _ b v => v b) multNone.
Proof.
  intros HAB h cnt r off x m0 K Hd Hx Ha HK P HP. apply WP_skip. apply HK; auto.
  intros b i Hb Hi. apply Hx; lia.
Qed.

Section T.
Variable t : xf.
Hypothesis Hwf : wf t.
Hypothesis HS : gS t = 1.
Notation L := (gL t). Notation A := (aA t). Notation B := (aB t). Notation M := (gM t).
Notation N := (max A B).
Variables (ga Fa Va : nat -> addr) (w : addr).

Lemma M_inv (z : C) : Cmul (Cmul (RtoC (INR M)) z) (RtoC (/ INR M)) = z.
Proof.
  pose proof (M_pos t Hwf) as HM. rewrite (Cmul_comm (RtoC (INR M)) z), <- Cmul_assoc.
  rewrite <- RtoC_mul. rewrite Rinv_r by (apply not_0_INR; lia). unfold C1. apply Cmul_1_r.
Qed.

Lemma loop2_21 : A = 2 -> B = 1 -> loop2 t = true -> exists s, B = (A - B) * s.
Proof. intros -> -> _. exists 1. reflexivity. Qed.
Lemma loop2_same : A = B -> loop2 t = true -> exists s, B = (A - B) * s.
Proof. intros E H. unfold loop2 in H. rewrite E, Nat.ltb_irrefl, andb_false_r in H. discriminate. Qed.

(** index-free multipliers see every element of the spectrum in every mode *)
Lemma sees_free mult phi (Phi : nat -> (nat -> C) -> C) :
  (forall r i b v, phi r i b v = Phi b v) -> sees t Fa Va w mult phi (fun _ => Phi).
Proof. intros H. unfold sees. destruct (goverwrite t); [intros; apply H|]. intros r i b v _ _. apply H. Qed.

(** the outputs of one call for an index-free multiplier with values Phi *)
Definition result (Phi : nat -> (nat -> C) -> C) (x : nat -> nat -> C) (b j : nat) : C :=
  Cmul (idftx t (fun k => Phi b (fun a => outx t (x a) (Z.of_nat k))) j) (RtoC (/ INR M)).

(** the caller prepares the inputs x of the next call by some action u on memory; it may
    change any word except those of the work array w (it may not free memory) *)
Definition prepares (u : mem -> mem) (x : nat -> nat -> C) : Prop :=
  forall m, buffers t ga Fa Va w m ->
    holds A L ga x (u m) /\ (forall a, w <= a < w + workSizeW t -> u m a = m a) /\
    (forall a, m a <> Unalloc -> u m a <> Unalloc).
Definition load (u : mem -> mem) : cmd C := Ext (fun _ => True) (fun m m' => m' = u m).

Fixpoint calls (cc : conv) (us : list (mem -> mem)) : cmd C :=
  match us with
  | [] => Skip
  | u :: us => Seq (load u) (Seq (convolve cc (arr N ga)) (calls cc us))
  end.

(** a caller that just stores x into its arrays is such a caller *)
Lemma prepares_exists y : exists u, prepares u y.
Proof.
  exists (fun mm a => match find (fun s => (ga s <=? a) && (a <? ga s + L)) (seq 0 A) with
        | Some s => Val (y s (a - ga s)) | None => mm a end).
  intros mm Hb. pose proof Hb as [Hgg _ _ _ _ _ Hgw _ _ Hga _ _ _].
  split; [|split].
  + intros s i Hs Hi. destruct (find _ _) as [s'|] eqn:Ef.
    * apply find_some in Ef. destruct Ef as [Hin Hc]. apply in_seq in Hin. apply andb_true_iff in Hc. destruct Hc as [C1 C2].
      apply Nat.leb_le in C1. apply Nat.ltb_lt in C2.
      assert (s' = s). { destruct (Nat.eq_dec s' s) as [|Hne]; [assumption|]. exfalso.
        pose proof (Hgg s' s ltac:(lia) ltac:(lia) Hne) as Hd. unfold apart in Hd. unfold gL in *. lia. }
      subst s'. do 2 f_equal. lia.
    * exfalso. pose proof (find_none _ _ Ef s ltac:(apply in_seq; lia)) as Hf. cbv beta in Hf.
      destruct (Nat.leb_spec (ga s) (ga s + i)), (Nat.ltb_spec (ga s + i) (ga s + L)); try discriminate; lia.
  + intros a Hab. destruct (find _ _) as [s'|] eqn:Ef; [|reflexivity]. exfalso.
    apply find_some in Ef. destruct Ef as [Hin Hc]. apply in_seq in Hin. apply andb_true_iff in Hc. destruct Hc as [C1 C2].
    apply Nat.leb_le in C1. apply Nat.ltb_lt in C2. pose proof (Hgw s' ltac:(lia)) as Hd. unfold apart in Hd. unfold gL in *. lia.
  + intros a Hu. destruct (find _ _); [discriminate|assumption].
Qed.

Definition oksched (mult : multiplier) (Phi : nat -> (nat -> C) -> C) : Prop :=
  mult_ok A B (fun _ _ => Phi) mult /\
  (forall b v v', (forall a, a < A -> v a = v' a) -> Phi b v = Phi b v') /\
  (gD t = 1 \/ B <= A) /\ (loop2 t = true -> exists s, B = (A - B) * s).

Section Obj.
Variables (mult : multiplier) (Phi : nat -> (nat -> C) -> C).
Hypothesis Hok : oksched mult Phi.
Notation obj := (cc t Fa Va w mult).

Lemma call_spec x (m0 : mem) (K : mem -> Prop) :
  ready t ga Fa Va w mult m0 -> holds A L ga x m0 ->
  (forall m', (forall b j, b < B -> j < L -> m' (ga b + j) = Val (result Phi x b j)) ->
     (forall ad, outside t ga Fa Va w ad -> m' ad = m0 ad) -> ready t ga Fa Va w mult m' -> K m') ->
  WP (convolve obj (arr N ga)) m0 K.
Proof.
  intros Hr Hx HK. destruct Hok as (H1 & H2 & H3 & H4).
  apply (convolve_spec t Hwf HS ga Fa Va w mult (fun _ _ => Phi) H1 (fun _ => Phi)) with (x := x); auto.
  apply sees_free. reflexivity.
Qed.

Lemma first_call x (m0 : mem) (K : mem -> Prop) :
  buffers t ga Fa Va w m0 -> holds A L ga x m0 ->
  (forall m', (forall b j, b < B -> j < L -> m' (ga b + j) = Val (result Phi x b j)) ->
     (forall ad, outside t ga Fa Va w ad -> m' ad = m0 ad) -> ready t ga Fa Va w mult m' -> K m') ->
  WP (Seq (cinit_cmd obj) (convolve obj (arr N ga))) m0 K.
Proof.
  intros Hb Hx HK. apply WP_seq. apply (init_spec t Hwf HS ga Fa Va w mult); auto.
  intros m1 Hr Hf Hal. apply (call_spec x); auto.
  - intros a i Ha Hi. rewrite Hf; [auto|]. pose proof (b_gw _ _ _ _ _ _ Hb a ltac:(lia)) as Hd. unfold apart in Hd. unfold gL in Hi. lia.
  - intros m' HV HF Hr'. apply HK; auto. intros ad Had. rewrite HF by assumption. apply Hf. apply Had.
Qed.

(** any history of calls, then one more *)
Lemma history_spec us u x (m0 : mem) (K : mem -> Prop) :
  buffers t ga Fa Va w m0 ->
  (forall v, In v us -> exists y, prepares v y) -> prepares u x ->
  (forall m', (forall b j, b < B -> j < L -> m' (ga b + j) = Val (result Phi x b j)) ->
     ready t ga Fa Va w mult m' -> K m') ->
  WP (Seq (cinit_cmd obj) (calls obj (us ++ [u]))) m0 K.
Proof.
  intros Hb Hus Hu HK. apply WP_seq. apply (init_spec t Hwf HS ga Fa Va w mult); auto.
  intros m1 Hr _ _. clear Hb m0. revert m1 Hr. 
  assert (HL : forall v y (mm : mem) (K' : mem -> Prop), prepares v y -> ready t ga Fa Va w mult mm ->
    (forall m', ready t ga Fa Va w mult m' -> holds A L ga y m' -> K' m') -> WP (load v) mm K').
  { intros v y mm K' Hv (Hb & Hw) HK'. destruct (Hv mm Hb) as (H1 & H2 & H3).
    unfold load. apply WP_ext with (m' := v mm); [exact I|reflexivity|auto|].
    apply HK'; [|assumption]. split; [eapply buffers_alloc; eauto|].
      apply (Wok_frame obj HS mm); [assumption|]. intros a Ho. apply H2. unfold outW in Ho. cbn [cc cinit cW negb andb] in Ho.
      destruct (ainplace t) eqn:Ei; cbn [negb] in Ho; [exfalso; apply Ho; exact I|]. rewrite (wW_out t Ei). change (OS obj) with (outputSize t) in Ho. lia. }
  induction us as [|v us IH]; intros mm Hr; cbn [calls app].
  - apply WP_seq. apply (HL u x); [assumption|assumption|]. intros m1 Hr1 Hx1. apply WP_seq. apply (call_spec x); auto.
    intros m' HV HF Hr'. cbn [calls]. apply WP_skip. apply HK; auto.
  - destruct (Hus v (or_introl eq_refl)) as (y & Hy).
    apply WP_seq. apply (HL v y); [assumption|assumption|]. intros m1 Hr1 Hx1. apply WP_seq. apply (call_spec y); auto.
    intros m' _ _ Hr'. apply IH; [|assumption]. intros v' Hv'. apply Hus. right. assumption.
Qed.
End Obj.

(** *** values *)
Notation c0 := (origin t).
Lemma result_conv x j : enough c0 L M -> j < L ->
  result (fun _ v => Cmul (v 0) (v 1)) x 0 j = oconv c0 L (x 0) (x 1) j.
Proof.
  intros [HM HM'] Hj. unfold result. rewrite (outx_prod t Hwf). rewrite M_inv. unfold oconv.
  apply Csum_ext. intros a Ha. apply Csum_ext. intros b Hb.
  destruct (Nat.eqb_spec (a + b) (j + c0)) as [E|E].
  - replace (Z.of_nat a + Z.of_nat b - Z.of_nat j - Z.of_nat c0)%Z with 0%Z by lia. rewrite Z.mod_0_l by lia. reflexivity.
  - destruct (Z.eqb_spec ((Z.of_nat a + Z.of_nat b - Z.of_nat j - Z.of_nat c0) mod Z.of_nat M) 0) as [E'|E']; [|reflexivity].
    apply (zdiv t Hwf) in E'; lia.
Qed.
Lemma result_cyc x j : result (fun _ v => Cmul (v 0) (v 1)) x 0 j = ocyc c0 M L (x 0) (x 1) j.
Proof.
  unfold result. rewrite (outx_prod t Hwf). rewrite M_inv. unfold ocyc. pose proof (M_pos t Hwf) as HM.
  apply Csum_ext. intros a Ha. apply Csum_ext. intros b Hb.
  replace ((Z.of_nat a + Z.of_nat b - Z.of_nat j - Z.of_nat c0) mod Z.of_nat M =? 0)%Z with ((a + b) mod M =? (j + c0) mod M); [reflexivity|].
  replace (Z.of_nat a + Z.of_nat b - Z.of_nat j - Z.of_nat c0)%Z with (Z.of_nat (a + b) - Z.of_nat (j + c0))%Z by lia.
  apply eq_true_iff_eq. rewrite Nat.eqb_eq, Z.eqb_eq.
  rewrite <- (Nat2Z.inj_iff ((a + b) mod M) ((j + c0) mod M)), !Nat2Z.inj_mod. split; intros E.
  - rewrite Zminus_mod, E, Z.sub_diag. apply Z.mod_0_l. lia.
  - apply Z.mod_divide in E; [|lia]. destruct E as [k E].
    replace (Z.of_nat (a + b)) with (Z.of_nat (j + c0) + k * Z.of_nat M)%Z by lia. apply Z.mod_add. lia.
Qed.
Lemma result_corr x j : enough c0 L M -> j < L ->
  result (fun _ v => Cmul (v 0) (Cconj (v 1))) x 0 j = ocorr c0 L (x 0) (x 1) j.
Proof.
  intros [HM HM'] Hj. unfold result. rewrite (outx_corr t Hwf). rewrite M_inv. unfold ocorr.
  apply Csum_ext. intros a Ha. apply Csum_ext. intros b Hb.
  destruct (Nat.eqb_spec (a + c0) (j + b)) as [E|E].
  - replace (Z.of_nat a + Z.of_nat c0 - Z.of_nat j - Z.of_nat b)%Z with 0%Z by lia. rewrite Z.mod_0_l by lia. reflexivity.
  - destruct (Z.eqb_spec ((Z.of_nat a + Z.of_nat c0 - Z.of_nat j - Z.of_nat b) mod Z.of_nat M) 0) as [E'|E']; [|reflexivity].
    apply (zdiv t Hwf) in E'; lia.
Qed.
Lemma result_id x b j : j < L -> result (fun b v => v b) x b j = x b j.
Proof. intros Hj. unfold result. rewrite (idftx_outx t Hwf) by assumption. apply M_inv. Qed.

(** *** convolve(f,offset) *)
Lemma at_eq mult off : B <= A ->
  convolveAt (cc t Fa Va w mult) (arr N ga) off =
  Seq (convolveRaw (cc t Fa Va w mult) (arr N (fun a => ga a + off))) (normalize (cc t Fa Va w mult) (arr N ga) off).
Proof.
  intros HAB. unfold convolveAt, convolveRawAt. do 2 f_equal. apply functional_extensionality. intros a.
  change (cpad (cc t Fa Va w mult)) with t. unfold arr. replace N with A by lia.
  destruct (a <? A); reflexivity.
Qed.
Lemma at_norm mult off : normalize (cc t Fa Va w mult) (arr N ga) off =
  normalize (cc t Fa Va w mult) (arr N (fun a => ga a + off)) 0.
Proof.
  rewrite !normalize_eq. apply cfor_ext. intros b Hb. unfold pget, sh, arr. destruct (b <? N); cbn [option_map]; [|reflexivity].
  rewrite !Nat.add_0_r. reflexivity.
Qed.
Lemma at_same mult off : B <= A ->
  convolveAt (cc t Fa Va w mult) (arr N ga) off = convolve (cc t Fa Va w mult) (arr N (fun a => ga a + off)).
Proof. intros H. rewrite at_eq, at_norm by assumption. reflexivity. Qed.
End T.
