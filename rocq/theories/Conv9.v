(** More outputs than inputs with D > 1: undefined behaviour; a concrete memory layout. *)
From Coq Require Import Reals ZArith Arith Lia Lra List Bool Permutation.
From Verif Require Import CNum Sums Roots Mem VecModel VecProofs PadModel PadKernels Loops PadLemmas PadMath PadGeom Fwd1 FwdAll PadForward ConvMath ConvModel ConvSpec Conv1 Conv2 Conv3 Conv4 Conv5 Conv6 Conv7 Xf XfProofs.
Import ListNotations.

(** Every parameter set has a legal memory: data arrays, F, V, W one after another. *)
Section Layout.
Variable t : xf.
Notation L := (aL t). Notation N := (max (aA t) (aB t)). Notation O := (outputSize t).
Definition lg (a : nat) : addr := L * a.
Definition lF (a : nat) : addr := L * N + O * a.
Definition lV (b : nat) : addr := L * N + O * N + workSizeV t * b.
Definition lw : addr := L * N + O * N + workSizeV t * aB t.
Definition lmem (x : nat -> nat -> C) : mem :=
  fun ad => if ad <? L * N then Val (x (ad / L) (ad mod L)) else Val C0.

Lemma mul_bound k a b : a < b -> k * a + k <= k * b.
Proof. nia. Qed.
Lemma layout_ok x : buffers t lg lF lV lw (lmem x).
Proof.
  assert (Hm : forall ad, lmem x ad <> Unalloc) by (intros ad; unfold lmem; destruct (_ <? _); discriminate).
  constructor; try (intros; apply Hm); unfold apart, lg, lF, lV, lw.
  - intros a b Ha Hb Hne. assert (a < b \/ b < a) as [H|H] by lia; apply (mul_bound L) in H; lia.
  - intros a b Ha Hb Hne. assert (a < b \/ b < a) as [H|H] by lia; apply (mul_bound O) in H; lia.
  - intros a b Ha Hb Hne. assert (a < b \/ b < a) as [H|H] by lia; apply (mul_bound (workSizeV t)) in H; lia.
  - intros a b Ha Hb. apply (mul_bound L) in Ha. lia.
  - intros a b Ha Hb. apply (mul_bound L) in Ha. lia.
  - intros a b Ha Hb. apply (mul_bound O) in Hb. lia.
  - intros a Ha. apply (mul_bound L) in Ha. lia.
  - intros a Ha. apply (mul_bound O) in Ha. lia.
  - intros a Ha. apply (mul_bound (workSizeV t)) in Ha. lia.
Qed.
Lemma layout_holds x : holds (aA t) (gL t) lg x (lmem x).
Proof.
  intros a i Ha Hi. unfold gL in Hi. unfold lmem, lg.
  assert (Ha' : a < N) by lia. apply (mul_bound L) in Ha'.
  destruct (Nat.ltb_spec (L * a + i) (L * N)); [|lia].
  rewrite (Nat.mul_comm L a), Nat.add_comm, Nat.div_add, Nat.mod_add by lia.
  rewrite Nat.div_small, Nat.mod_small by assumption. reflexivity.
Qed.
End Layout.

Section U.
Variable t : xf.
Hypothesis Hwf : wf t.
Hypothesis HS : gS t = 1.
Notation L := (gL t). Notation A := (aA t). Notation B := (aB t). Notation M := (gM t).
Notation N := (max A B).
Variables (ga Fa Va : nat -> addr) (w : addr).

Lemma more_outputs_ub mult phi x rest (m0 : mem) :
  gq t <> 1 -> goverwrite t = false -> A < B -> 1 < gD0 t ->
  mult_ok A B phi mult ->
  (forall P n r off m, P A = None -> exec (mult P n r off) m UB) ->
  buffers t ga Fa Va w m0 -> holds A L ga x m0 ->
  exec (Seq (cinit_cmd (cc t Fa Va w mult)) (Seq (convolveRaw (cc t Fa Va w mult) (arr N ga)) rest)) m0 UB.
Proof.
  intros Hq How HAB HD0 Hmult Hub Hb Hx. set (c := cc t Fa Va w mult).
  assert (Hi : WP (cinit_cmd c) m0 (fun m1 => ready t ga Fa Va w mult m1 /\ holds A L ga x m1)).
  { apply (init_spec t Hwf HS ga Fa Va w mult); auto. intros m1 Hr Hf Hal. split; [assumption|].
    intros a i Ha Hi. rewrite Hf; [auto|]. pose proof (b_gw _ _ _ _ _ _ Hb a ltac:(lia)) as Hd. unfold apart in Hd. unfold gL in Hi. lia. }
  destruct Hi as (m1 & E1 & (Hr1 & Hx1) & _).
  eapply ex_seq; [exact E1|]. apply ex_seq_ub. clear E1 Hb Hx m0. destruct Hr1 as (Hb & HW).
  unfold convolveRaw. change (cpad c) with t. destruct (Nat.eqb_spec (gq t) 1); [contradiction|]. rewrite How.
  assert (Hl2 : loop2 t = false) by (unfold loop2; destruct (Nat.ltb_spec B A); [lia|rewrite andb_false_r; reflexivity]).
  rewrite Hl2. apply ex_seq_ub.
  destruct (residues_shape t Hwf) as (k & ER & _).
  assert (Hin : In 0 (residues t)) by (rewrite ER; left; reflexivity).
  rewrite ER. cbn [rfor]. apply ex_seq_ub.
  destruct (bfacts t Hwf HS ga Fa Va w mult m1 Hb) as (Hgg & HFF & HgF & Hw & _).
  pose proof (b_ga _ _ _ _ _ _ Hb) as Hga. pose proof (b_Fa _ _ _ _ _ _ Hb) as HFal.
  assert (EN : N = B) by lia.
  assert (HgW : forall a, a < N -> Wdj c (ga a) L).
  { intros a Ha. unfold Wdj. cbn [c cc cinit cW negb andb]. destruct (ainplace t); cbn [negb]; [exact I|]. apply (Hw eq_refl). assumption. }
  assert (HFW : forall a, a < N -> Wdj c (Fa a) (OS c)).
  { intros a Ha. unfold Wdj. cbn [c cc cinit cW negb andb]. destruct (ainplace t); cbn [negb]; [exact I|]. apply (Hw eq_refl). assumption. }
  assert (Hf : WP (cforward c (arr N ga) (cF c) 0 0 A) m1 (fun m2 =>
     (forall a i, a < A -> i < noutputs t 0 -> m2 (Fa a + i) = Val (outx t (x a) (Z.of_nat (index t 0 i)))) /\
     (forall ad, m1 ad <> Unalloc -> m2 ad <> Unalloc))).
  { apply (cforward_spec c Hwf HS) with (ga := ga) (Fa := Fa) (x := x); auto; try lia.
    - intros a Ha. change (cF c) with (arr N Fa). rewrite !arr_some by lia. auto.
    - intros. apply HgF; lia.
    - intros. apply HFF; lia.
    - intros. split; [apply HgW|apply HFW]; lia.
    - intros a i Ha Hi; apply Hx1; [lia|exact Hi].
    - intros; apply HFal; [lia|assumption].
    - intros m' HV HF' HW' Hal. split; [|assumption]. intros; apply HV; [lia|assumption]. }
  destruct Hf as (m2 & E2 & (H2v & H2a) & _).
  eapply ex_seq; [exact E2|]. apply ex_seq_ub. unfold operate.
  assert (Hl : 1 <= gl t) by (apply (XfProofs.l_pos (cpad c) Hwf)).
  assert (Hl1 : gl t <= noutputs t 0). { change (noutputs t 0) with (gl t * gD0 t). clear -HD0 Hl. nia. }
  pose proof (nout_OS c Hwf HS 0) as HnO. change (cpad c) with t in HnO.
  assert (Hm : WP (cmult c (cF c) (gl t) 0 0) m2 (fun _ => True)).
  { eapply (mult_blk c HS phi Hmult (cF c) Fa (gl t) 0 0 0 (fun a i => outx t (x a) (Z.of_nat (index t 0 i)))); auto; try lia.
    - intros a. change (cF c) with (arr N Fa). change (NN c) with N. unfold arr. rewrite Nat.add_0_r. reflexivity.
    - intros a i Ha Hi. apply H2v; [exact Ha|lia].
    - intros a i Ha Hi. apply H2a, HFal; assumption. }
  destruct Hm as (m3 & E3 & _). eapply ex_seq; [exact E3|].
  assert (Hsp : span t 0 = gl t * gD0 t) by (unfold span; rewrite HS; change (noutputs t 0) with (gl t * gD0 t); lia).
  change (cpad c) with t.
  destruct (span t 0) as [|fu] eqn:Esp; [clear -Hsp Hl HD0; nia|]. cbn [oploop]. change (cpad c) with t.
  assert (Hcond : gb t * 1 <? span t 0 = true).
  { apply Nat.ltb_lt. rewrite Esp, Hsp. unfold gb. rewrite HS. clear -Hl HD0. nia. }
  rewrite Hcond. apply ex_seq_ub. apply Hub. rewrite Nat.ltb_irrefl. reflexivity.
Qed.

End U.

(** a multiplier with one input and two outputs: F[1] = F[0] *)
Definition multCopy : multiplier := fun F n _ _ =>
  pget F 0 (fun F0 => pget F 1 (fun F1 => ParFor 0 n (fun j => x <- F0 + j ;; F1 + j ::= x ;; Ret))).
Lemma multCopy_ok : mult_ok 1 2 (fun _ _ _ v => v 0) multCopy.
Proof.
  intros h cnt r off x m0 K Hd Hx Ha HK P HP. unfold multCopy, pget. rewrite !HP. cbn [max arr Nat.ltb Nat.leb].
  apply WP_map1 with (dst := fun s => h 1 + s) (g := fun s => x 0 s); unfold rng.
  - intros; lia.
  - intros s Hs. cbn [wp]. split.
    + left. intros s' Hs' E'. pose proof (Hd 0 1 ltac:(cbn; lia) ltac:(cbn; lia) ltac:(lia)) as H. unfold dj in H. lia.
    + exists (x 0 s). split; [apply Hx; lia|]. split; [reflexivity|]. split; [apply (Ha 1); [cbn; lia|lia]|apply upd_eq].
  - intros m' HV HF Hal. apply HK; auto.
    + intros b i Hb Hi. assert (b = 0 \/ b = 1) as [->| ->] by lia; [|apply HV; lia].
      rewrite HF; [apply Hx; lia|]. intros s Hs. pose proof (Hd 0 1 ltac:(cbn; lia) ltac:(cbn; lia) ltac:(lia)) as H. unfold dj in H. lia.
    + intros ad Had. apply HF. intros s Hs. specialize (Had 1 ltac:(cbn; lia)). lia.
Qed.
Lemma multCopy_ub P n r off m : P 1 = None -> exec (multCopy P n r off) m UB.
Proof.
  intros H. unfold multCopy, pget. rewrite H.
  assert (G : exec UBc m UB) by (apply ex_ext_ub; intros []).
  destruct (P 0); exact G.
Qed.
