(** pad(W) for every stride, the round trip over all residues, and the residue classes of the rows. *)
From Coq Require Import Reals ZArith Arith Lia List Bool.
From Verif Require Import CNum Sums Roots Mem VecModel VecProofs PadModel PadKernels Loops
  PadLemmas PadMath PadGeom PadIndex Fwd1 FwdAll PadForward PadBackward ConvMath ConvModel PadSpec.
Import ListNotations.

Section T.
Variable t : pad.
Hypothesis Hwf : wf t.
Notation L := (gL t).  Notation CC := (gC t). Notation SS := (gS t). Notation n := (gn t).
Notation m := (gm t). Notation q := (gq t). Notation M := (gM t). Notation p := (gp t).
Notation N := (gl t * gD t).

Lemma nout_N r : noutputs t r <= N.
Proof.
  unfold noutputs, blocksize. apply Nat.mul_le_mono_l. pose proof (D0_bounds t Hwf).
  destruct (r =? 0); lia.
Qed.

Lemma rows_div m0 i : 1 <= m0 -> i = m0 * (i / m0) + i mod m0 /\ i mod m0 < m0.
Proof. intros H. split; [apply Nat.div_mod; lia|apply Nat.mod_upper_bound; lia]. Qed.

(** pad(W) re-establishes the zero padding *)
Lemma padW1_spec w (m0 : mem) (K : mem -> Prop) : SS = 1 ->
  (forall i, i < N -> m0 (w + i) <> Unalloc) ->
  (forall m',
     (repad t = true -> q <> 1 -> p = 1 -> forall i, i < N -> L <= i mod m -> m' (w + i) = Val C0) ->
     (forall a, a < w \/ w + N <= a -> m' a = m0 a) ->
     (forall a, m0 a <> Unalloc -> m' a <> Unalloc) -> K m') ->
  WP (padW t w) m0 K.
Proof.
  intros HS Ha HK. unfold padW. assert (EO : N = m * gP t * gD t) by (rewrite (l_eq t Hwf); reflexivity).
  pose proof (wf_m t Hwf) as Hm. rewrite HS, Nat.eqb_refl.
  destruct (Nat.eqb_spec q 1) as [Hq|Hq]; cbn [orb].
  { apply WP_skip. apply HK; auto. intros; contradiction. }
  destruct (Nat.eqb_spec p 1) as [Hp|Hp]; cbn [orb negb].
  2:{ apply WP_skip. apply HK; auto. intros; contradiction. }
  destruct (repad t) eqn:Hr; cbn [negb].
  2:{ apply WP_skip. apply HK; auto. intros; discriminate. }
  rewrite (P_small t Hwf), Nat.mul_1_r in EO by lia. unfold padSingle. cbv zeta. rewrite Hp, Nat.mul_1_r.
  apply WP_mono with (Q := fun mm =>
    (forall d s, d < gD t -> L <= s < m -> mm (w + m * d + s) = Val C0) /\
    (forall a, a < w \/ w + N <= a -> mm a = m0 a) /\ (forall a, m0 a <> Unalloc -> mm a <> Unalloc)).
  { intros mm (H1 & H2 & H3). apply HK; auto. intros _ _ _ i Hi Hi'.
    destruct (rows_div m i Hm) as [E1 E2]. rewrite EO in Hi.
    assert (i / m < gD t) by (apply Nat.div_lt_upper_bound; lia).
    rewrite E1, Nat.add_assoc. apply H1; [assumption|]. lia. }
  apply WP_cfor with (I := fun k mm =>
    (forall d s, d < k -> L <= s < m -> mm (w + m * d + s) = Val C0) /\
    (forall a, a < w \/ w + N <= a -> mm a = m0 a) /\ (forall a, m0 a <> Unalloc -> mm a <> Unalloc)).
  { split; [intros; lia|]. auto. }
  intros k mm Hk (H1 & H2 & H3).
  assert (Hkm : m * k + m <= N) by (rewrite EO; clear -Hk; nia).
  apply WP_map1 with (dst := fun s => w + m * k + s) (g := fun _ => C0); unfold rng.
  { intros; lia. }
  { intros s Hs. cbn [wp]. split; [reflexivity|]. split; [|apply upd_eq].
    rewrite <- Nat.add_assoc. apply H3, Ha. lia. }
  intros m' HV HF Hal. split; [|split; [|auto]].
  - intros d s Hd Hs. destruct (Nat.eq_dec d k) as [->|Hne]; [apply HV; assumption|].
    assert (m * d + m <= m * k) by (assert (d < k) by lia; clear -H; nia).
    rewrite HF by (intros; lia). apply H1; lia.
  - intros a Hb. rewrite HF by (intros; lia). auto.
Qed.

Lemma padWg_spec w (m0 : mem) (K : mem -> Prop) :
  (forall i c, i < N -> c < CC -> m0 (w + SS * i + c) <> Unalloc) ->
  (forall m', wzero t w N m' ->
     (forall a, ~ inbuf SS CC w N a -> m' a = m0 a) ->
     (forall a, m0 a <> Unalloc -> m' a <> Unalloc) -> K m') ->
  WP (padW t w) m0 K.
Proof.
  intros Ha HK. destruct (Nat.eq_dec SS 1) as [HS|HS].
  - pose proof (S1_C1 t Hwf HS) as HC.
    apply (padW1_spec w); [exact HS| |].
    { intros i Hi. specialize (Ha i 0 Hi ltac:(lia)). rewrite HS in Ha. replace (w + 1 * i + 0) with (w + i) in Ha by lia. exact Ha. }
    intros m' HZ HF Hal. apply HK; auto.
    + intros H1 H2 H3 i c' Hi Hc Hp. rewrite HS. replace (w + 1 * i + c') with (w + i) by lia. apply HZ; assumption.
    + intros a Hn. apply HF. destruct (Nat.lt_ge_cases a w); [auto|]. destruct (Nat.lt_ge_cases a (w + N)); [|auto].
      exfalso. apply Hn. exists (a - w), 0. rewrite HS. lia.
  - assert (HD : gD t = 1).
    { destruct (Nat.eq_dec (gD t) 1) as [|Hne]; [assumption|]. exfalso. pose proof Hwf as (_ & _ & _ & _ & _ & _ & _ & Hv). unfold valid in Hv.
      destruct (q =? 1); [apply Nat.eqb_eq in Hv; contradiction|]. apply orb_true_iff in Hv. destruct Hv as [Hv|Hv]; [apply Nat.eqb_eq in Hv; contradiction|].
      apply andb_true_iff in Hv. destruct Hv as [Hv _]. apply Nat.eqb_eq in Hv. contradiction. }
    pose proof (wf_C t Hwf) as HC. pose proof (wf_m t Hwf) as Hm.
    unfold padW. destruct (Nat.eqb_spec SS 1); [contradiction|].
    destruct (Nat.eqb_spec q 1) as [Hq|Hq]; cbn [orb].
    { apply WP_skip. apply HK; auto. intros _ H. contradiction. }
    destruct (Nat.eqb_spec p 1) as [Hp|Hp]; cbn [orb negb].
    2:{ apply WP_skip. apply HK; auto. intros _ _ H. contradiction. }
    destruct (repad t) eqn:Hr; cbn [negb].
    2:{ apply WP_skip. apply HK; auto. intros H. rewrite Hr in H. discriminate. }
    assert (El : N = m) by (rewrite HD, (l_eq t Hwf), (P_small t Hwf) by lia; lia).
    unfold padMany. cbv zeta. rewrite Hp, Nat.mul_1_r.
    apply WP_map2 with (lo2 := 0) (hi2 := CC) (inner := fun s c => w + SS * s + c ::= C0 ;; Ret)
      (dst := fun s c => w + SS * s + c) (g := fun _ _ => C0); unfold rng.
    + reflexivity.
    + intros s c s' c' Hs Hc Hs' Hc' E. assert (CC <= SS) by (destruct Hwf as (_ & _ & _ & H & _); exact H).
      assert (s = s') by nia. subst s'. split; [reflexivity|lia].
    + intros s c Hs Hc. cbn [wp]. split; [reflexivity|]. split; [apply Ha; lia|apply upd_eq].
    + intros m' HV HF Hal. apply HK; auto.
      * intros _ _ _ i c Hi Hc Hpr. unfold padrow in Hpr. rewrite El in Hi. rewrite Nat.mod_small in Hpr by assumption. apply HV; lia.
      * intros a Hn. apply HF. intros s c Hs Hc E. apply Hn. exists s, c. rewrite El. lia.
Qed.

(** The caller's loop: for every residue of the loop, pad the work array, transform forward,
    transform backward into h.  (fftPad's own test loop and every convolution have this shape.) *)
Definition roundtrip (f F h : addr) (W : option addr) : cmd C :=
  rfor (residues t) (fun r =>
    Seq (match W with Some w => padW t w | None => Skip end)
   (Seq (forward t f F r W) (backward t F h r W))).

Lemma roundtrip_spec f F h W (x : nat -> nat -> C) (m0 : mem) (K : mem -> Prop) :
  let W0 := getW F W in
  goverwrite t = false ->
  ainplace t = (W0 =? F) ->
  sepbuf SS CC f L W0 N -> sepbuf SS CC f L F N -> (W0 = F \/ sepbuf SS CC W0 N F N) ->
  sepbuf SS CC h L W0 N -> sepbuf SS CC h L F N -> sepbuf SS CC f L h L ->
  (forall i c, i < L -> c < CC -> m0 (f + SS * i + c) = Val (x i c)) ->
  (forall i c, i < N -> c < CC -> m0 (W0 + SS * i + c) <> Unalloc) ->
  (forall i c, i < N -> c < CC -> m0 (F + SS * i + c) <> Unalloc) ->
  (forall i c, i < L -> c < CC -> m0 (h + SS * i + c) <> Unalloc) ->
  (forall m',
     (forall j c, j < L -> c < CC -> m' (h + SS * j + c) = Val (Cmul (RtoC (INR M)) (x j c))) ->
     (forall a, ~ inbuf SS CC F N a -> ~ inbuf SS CC W0 N a -> ~ inbuf SS CC h L a -> m' a = m0 a) ->
     (forall a, m0 a <> Unalloc -> m' a <> Unalloc) -> K m') ->
  WP (roundtrip f F h W) m0 K.
Proof.
  intros W0 How Hin HfW HfF HWF HhW HhF Hfh Hx HWa HFa Hha HK. unfold roundtrip.
  set (y := fun r c i => outv M L (fun j => x j c) (Z.of_nat (index t r i))).
  set (acc := fun done c j => csl done (fun r => badd t r (y r c) j)).
  assert (G : forall rs done (mm : mem), residues t = done ++ rs ->
    (done <> [] -> forall j c, j < L -> c < CC -> mm (h + SS * j + c) = Val (acc done c j)) ->
    (forall a, ~ inbuf SS CC F N a -> ~ inbuf SS CC W0 N a -> ~ inbuf SS CC h L a -> mm a = m0 a) ->
    (forall a, m0 a <> Unalloc -> mm a <> Unalloc) ->
    WP (rfor rs (fun r => Seq (match W with Some w => padW t w | None => Skip end)
       (Seq (forward t f F r W) (backward t F h r W)))) mm K).
  { induction rs as [|r rs IH]; intros done mm E Hacc Hfr Hal.
    - cbn [rfor]. apply WP_skip. rewrite app_nil_r in E. apply HK; auto.
      intros j c Hj Hc. rewrite Hacc; [|rewrite <- E|assumption|assumption].
      + f_equal. unfold acc. rewrite <- E. rewrite <- (idft_outv M L (fun j => x j c) j Hj).
        * apply (pass_sum t Hwf (fun k => outv M L (fun j => x j c) (Z.of_nat k)) j).
        * pose proof Hwf as (_ & H1 & _ & _ & _ & _ & H2 & _). unfold gM. unfold gL in *. lia.
      + destruct (residues_shape t Hwf) as (k & ER & _). rewrite ER. discriminate.
    - cbn [rfor]. assert (Hr : In r (residues t)) by (rewrite E; apply in_or_app; right; left; reflexivity).
      pose proof (residues_passr t Hwf r Hr) as Hpr. pose proof (nout_N r) as HN.
      apply WP_seq, WP_seq.
      assert (HP : forall K' : mem -> Prop, (forall m1, wzero t W0 N m1 ->
          (forall a, ~ inbuf SS CC W0 N a -> m1 a = mm a) -> (forall a, mm a <> Unalloc -> m1 a <> Unalloc) -> K' m1) ->
          WP (match W with Some w => padW t w | None => Skip end) mm K').
      { intros K' HK'. unfold W0, getW in *. destruct W as [w|].
        - apply padWg_spec; [|assumption]. intros i c Hi Hc. apply Hal, HWa; assumption.
        - apply WP_skip. apply HK'; auto. intros Hrp. unfold repad in Hrp. rewrite Hin, Nat.eqb_refl in Hrp. discriminate. }
      apply HP. clear HP. intros m1 Hz1 Hf1 Ha1. apply WP_seq.
      assert (Hoff : forall i c, i < L -> c < CC -> ~ inbuf SS CC F N (f + SS * i + c) /\ ~ inbuf SS CC W0 N (f + SS * i + c) /\ ~ inbuf SS CC h L (f + SS * i + c)).
      { intros i c Hi Hc. split; [|split]; intros (i' & c' & Hi' & Hc' & E'); [apply (HfF i c i' c')|apply (HfW i c i' c')|apply (Hfh i c i' c')]; auto. }
      assert (Hofh : forall i c, i < L -> c < CC -> ~ inbuf SS CC F N (h + SS * i + c) /\ ~ inbuf SS CC W0 N (h + SS * i + c)).
      { intros i c Hi Hc. split; intros (i' & c' & Hi' & Hc' & E'); [apply (HhF i c i' c')|apply (HhW i c i' c')]; auto. }
      assert (Hinb : forall X a, inbuf SS CC X (noutputs t r) a -> inbuf SS CC X N a).
      { intros X a (i & c & Hi & Hc & E'). exists i, c. repeat split; auto. lia. }
      apply forward_spec with (x := x); auto.
      { eapply sepbuf_le; [exact HfW| |]; lia. }
      { eapply sepbuf_le; [exact HfF| |]; lia. }
      { destruct HWF as [H|H]; [left; exact H|right]. eapply sepbuf_le; [exact H| |]; lia. }
      { intros i c Hi Hc. destruct (Hoff i c Hi Hc) as (O1 & O2 & O3). rewrite Hf1 by assumption. rewrite Hfr by assumption. auto. }
      { intros i c Hi Hc. apply Ha1, Hal, HWa; [lia|assumption]. }
      { intros i c Hi Hc. apply Ha1, Hal, HFa; [lia|assumption]. }
      { intros H1 H2 H3 i c Hi Hc Hp. apply Hz1; auto. lia. }
      intros m2 H2v H2f _ H2a.
      apply backward_spec with (y := fun i c => y r c i) (acc := fun j c => acc done c j); auto.
      { eapply sepbuf_le; [exact HhW| |]; lia. }
      { eapply sepbuf_le; [exact HhF| |]; lia. }
      { destruct HWF as [H|H]; [left; exact H|right]. eapply sepbuf_le; [exact H| |]; lia. }
      { intros i c Hi Hc. apply H2a, Ha1, Hal, HWa; [lia|assumption]. }
      { intros Hr0 j c Hj Hc. destruct (Hofh j c Hj Hc) as (O1 & O2).
        rewrite H2f, Hf1; [apply Hacc; auto|assumption| |]; [|intros H; apply O1, Hinb, H|intros H; apply O2, Hinb, H].
        intros ->. cbn [app] in E. destruct (residues_shape t Hwf) as (k & ER & _). rewrite ER in E. injection E as E1 _. congruence. }
      intros m3 H3v H3f H3a. apply (IH (done ++ [r])).
      + rewrite <- app_assoc. assumption.
      + intros _ j c Hj Hc. rewrite H3v by assumption. f_equal. unfold bpass, acc. rewrite csl_app. cbn [csl fold_right].
        destruct (Nat.eqb_spec r 0) as [->|Hr0].
        * assert (done = []).
          { destruct done as [|d done]; [reflexivity|]. exfalso. cbn [app] in E.
            destruct (residues_shape t Hwf) as (k & ER & _ & _ & H0 & _). rewrite ER in E. injection E as E1 E.
            assert (Hi0 : In 0 (map (fun i => increment t 0 + gdr t * i) (seq 0 k))) by (rewrite E; apply in_or_app; right; left; reflexivity).
            apply in_map_iff in Hi0. destruct Hi0 as (i & Ei & _). lia. }
          subst done. cbn [csl fold_right]. change (fun k => y 0 c k) with (y 0 c); ring.
        * change (fun k => y r c k) with (y r c); ring.
      + intros a O1 O2 O3. rewrite H3f, H2f, Hf1; auto.
      + auto. }
  apply (G (residues t) []); auto. intros H. contradiction.
Qed.

(** *** the rows of a pass and the residue classes modulo q *)
Lemma row_class r e k : In r (residues t) -> e < nrows t r -> k < m ->
  (Z.of_nat (index t r (m * e + k)) mod Z.of_nat q = rho t r e mod Z.of_nat q)%Z.
Proof.
  intros Hr He Hk. destruct (index_rho t Hwf r e k (residues_passr t Hwf r Hr) He Hk) as [_ H].
  pose proof (q_pos t Hwf) as Hq. pose proof (wf_m t Hwf) as Hm.
  assert (EM : Z.of_nat M = (Z.of_nat m * Z.of_nat q)%Z) by (unfold gM; apply Nat2Z.inj_mul).
  set (i := Z.of_nat (index t r (m * e + k))) in *.
  pose proof (Z.div_mod i (Z.of_nat M) ltac:(lia)) as E1.
  pose proof (Z.div_mod (Z.of_nat q * Z.of_nat k + rho t r e) (Z.of_nat M) ltac:(lia)) as E2.
  rewrite H in E1. set (d1 := (i / Z.of_nat M)%Z) in *. set (d2 := ((Z.of_nat q * Z.of_nat k + rho t r e) / Z.of_nat M)%Z) in *.
  replace i with (rho t r e + (Z.of_nat k + Z.of_nat m * (d1 - d2)) * Z.of_nat q)%Z.
  - apply Z.mod_add. lia.
  - rewrite EM in *. nia.
Qed.

(** every residue class modulo q is produced by exactly one row of exactly one pass *)
Lemma class_unique rr : rr < q ->
  exists r e, In r (residues t) /\ m * e < noutputs t r /\
    (forall k, k < m -> index t r (m * e + k) mod q = rr) /\
    (forall r' e', In r' (residues t) -> m * e' < noutputs t r' ->
       (exists k, k < m /\ index t r' (m * e' + k) mod q = rr) -> r' = r /\ e' = e).
Proof.
  intros Hrr. pose proof (q_pos t Hwf) as Hq. pose proof (wf_m t Hwf) as Hm. pose proof (M_pos t Hwf) as HM.
  destruct (row_exists t Hwf rr Hrr) as (r & e & z & Hr & He & Erho).
  assert (HN : forall r, noutputs t r = m * nrows t r) by (intros; apply noutputs_rows; assumption).
  exists r, e. split; [assumption|]. split; [rewrite HN; clear -He Hm; nia|]. split.
  - intros k Hk. pose proof (row_class r e k Hr He Hk) as H. rewrite Erho in H.
    rewrite Z.mul_comm, Z.mod_add in H by lia. rewrite Z.mod_small with (a := Z.of_nat rr) in H by lia.
    rewrite <- Nat2Z.inj_mod in H. lia.
  - intros r' e' Hr' He' (k' & Hk' & Ek').
    assert (He2 : e' < nrows t r') by (rewrite HN in He'; clear -He' Hm; nia).
    pose proof (index_rho t Hwf r' e' k' (residues_passr t Hwf r' Hr') He2 Hk') as [Hlt' _].
    (* the same index appears in row (r,e) *)
    set (i0 := index t r' (m * e' + k')) in *.
    assert (Ei0 : exists k, k < m /\ index t r (m * e + k) = i0).
    { pose proof (Nat.div_mod i0 q ltac:(lia)) as Ed. rewrite Ek' in Ed. set (d := i0 / q) in *.
      set (kz := ((Z.of_nat d - z) mod Z.of_nat m)%Z).
      assert (Hkz : (0 <= kz < Z.of_nat m)%Z) by (apply Z.mod_pos_bound; lia).
      exists (Z.to_nat kz). split; [lia|].
      destruct (index_rho t Hwf r e (Z.to_nat kz) (residues_passr t Hwf r Hr) He ltac:(lia)) as [Hlt Hmod].
      rewrite Z2Nat.id in Hmod by lia. rewrite Erho in Hmod.
      assert (EM : Z.of_nat M = (Z.of_nat m * Z.of_nat q)%Z) by (unfold gM; apply Nat2Z.inj_mul).
      pose proof (Z.div_mod (Z.of_nat d - z) (Z.of_nat m) ltac:(lia)) as Ez. fold kz in Ez.
      set (w := ((Z.of_nat d - z) / Z.of_nat m)%Z) in *.
      assert (E3 : (Z.of_nat q * kz + (Z.of_nat rr + Z.of_nat q * z) = Z.of_nat i0 + (- w) * Z.of_nat M)%Z).
      { rewrite EM. assert (Z.of_nat i0 = Z.of_nat q * Z.of_nat d + Z.of_nat rr)%Z by lia.
        replace kz with (Z.of_nat d - z - Z.of_nat m * w)%Z by lia. rewrite H. ring. }
      rewrite E3, Z.mod_add in Hmod by lia. rewrite !Z.mod_small in Hmod by lia. lia. }
    destruct Ei0 as (k & Hk & Ek).
    destruct (index_inj t Hwf r' (m * e' + k') r (m * e + k)) as [E1 E2]; auto.
    + rewrite HN. clear -He2 Hk'. nia.
    + rewrite HN. clear -He Hk. nia.
    + split; [assumption|]. clear -E2 Hk Hk'.
      assert (e' = e \/ e' < e \/ e < e') as [H|[H|H]] by lia; [assumption| |]; exfalso; nia.
Qed.

(** the list of residues is the trace of for(r=0; r < R; r += increment(r)) *)
Lemma residues_trace : loop_trace (gR t) (increment t) 0 (residues t).
Proof.
  assert (H0 : 1 <= increment t 0 /\ 1 <= gdr t) by (destruct (residues_shape t Hwf) as (k & _ & _ & _ & H0 & H1 & _); auto).
  assert (Hpos : forall r, 1 <= increment t r).
  { intros r. unfold increment in *. destruct (0 <? r); [apply H0|]. exact (proj1 H0). }
  unfold residues. assert (G : forall fuel r, gR t <= r + fuel -> loop_trace (gR t) (increment t) r (rloop t fuel r)).
  { induction fuel as [|fuel IH]; intros r Hf; cbn [rloop].
    - constructor. lia.
    - destruct (Nat.ltb_spec r (gR t)); [|constructor; lia].
      constructor; [assumption|]. apply IH. specialize (Hpos r). lia. }
  apply G. lia.
Qed.
End T.
