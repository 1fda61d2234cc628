(** The passes of the real transforms and the frequencies they hold. *)
From Coq Require Import Reals ZArith Arith Lia List Bool Permutation.
From Verif Require Import CNum Sums Roots Mem PadModel PadSpec PadBridge PadMath RealModel RealSpec RealGeom RFft.
Import ListNotations.

Section T.
Variable t : pad.
Hypothesis Hwf : rwf t.
Notation L := (aL t).  Notation m := (am t).  Notation D := (aD t).
Notation q := (gq t).  Notation e := (re_ t).  Notation D0 := (rD0 t).
Notation M := (gM t).
Notation HH := ((gq t - 1) / 2).

Definition rtail : list nat := if q mod 2 =? 0 then [q / 2] else [].
Fixpoint chain (r k : nat) : list nat := match k with O => rtail | S k => r :: chain (r + D) k end.
Definition rtrace : list nat :=
  if q =? 1 then [0] else if q =? 2 then [0; 1] else 0 :: 1 :: chain (1 + D0) ((HH - D0) / D).

Lemma R_val : q <> 1 -> rR t = (q + 2) / 2.
Proof.
  intros Hq. unfold rR, rresidueBlocks, cq. apply Nat.eqb_neq in Hq. rewrite Hq, (r_rn t Hwf). f_equal. lia.
Qed.
Lemma H_div : q <> 1 -> (q mod 2 = 0 /\ q = 2 * (HH + 1) /\ q / 2 = HH + 1 /\ rR t = HH + 2) \/ (q mod 2 = 1 /\ q = 2 * HH + 1 /\ rR t = HH + 1).
Proof.
  intros Hq. pose proof (r_q1 t Hwf). rewrite R_val by assumption.
  pose proof (Nat.div_mod (q - 1) 2 ltac:(lia)). pose proof (Nat.mod_upper_bound (q - 1) 2 ltac:(lia)).
  pose proof (Nat.div_mod (q + 2) 2 ltac:(lia)). pose proof (Nat.mod_upper_bound (q + 2) 2 ltac:(lia)).
  pose proof (Nat.div_mod q 2 ltac:(lia)). pose proof (Nat.mod_upper_bound q 2 ltac:(lia)). lia.
Qed.
Lemma tail_trace : q <> 1 -> loop_trace (rR t) (rincrement t) (HH + 1) rtail.
Proof.
  intros Hq. unfold rtail. pose proof (r_D0 t Hwf) as HD0. destruct (H_div Hq) as [(E1 & E2 & E3 & E4)|(E1 & E2 & E3)].
  - rewrite E1. cbn [Nat.eqb]. rewrite E3. constructor; [lia|]. constructor.
    unfold rincrement. destruct (Nat.ltb_spec 1 (HH + 1)); [lia|]. destruct (Nat.eqb_spec (HH + 1) 1); lia.
  - rewrite E1. cbn [Nat.eqb]. constructor. lia.
Qed.
Lemma chain_trace k : q <> 1 -> forall r, 2 <= r -> HH + 1 = r + k * D -> loop_trace (rR t) (rincrement t) r (chain r k).
Proof.
  intros Hq. pose proof (r_D t Hwf) as HD. induction k as [|k IH]; intros r Hr E; cbn [chain].
  - rewrite Nat.mul_0_l, Nat.add_0_r in E. rewrite <- E. apply tail_trace. assumption.
  - constructor.
    + destruct (H_div Hq) as [(_ & _ & _ & E4)|(_ & _ & E4)]; nia.
    + assert (E5 : rincrement t r = D) by (unfold rincrement; destruct (Nat.ltb_spec 1 r); [reflexivity|lia]). rewrite E5. apply IH; lia.
Qed.
Lemma k_val : 3 <= q -> HH + 1 = 1 + D0 + (HH - D0) / D * D.
Proof.
  intros H3. destruct (r_D0_mod t Hwf ltac:(lia) H3) as [k E]. pose proof (r_D t Hwf). rewrite E.
  replace (D0 + k * D - D0) with (k * D) by lia. rewrite Nat.div_mul by lia. lia.
Qed.
Lemma q2_geo : q = 2 -> rR t = 2 /\ D = 1 /\ D0 = 1.
Proof.
  intros E. split; [rewrite R_val by lia; rewrite E; reflexivity|].
  destruct (r_Dv t Hwf ltac:(lia)) as [HD|HD]; [|rewrite <- (r_q t Hwf), E in HD; change ((2 - 1) / 2) with 0 in HD; pose proof (r_D t Hwf); lia].
  pose proof (r_D0 t Hwf). lia.
Qed.
Lemma rtrace_ok : loop_trace (rR t) (rincrement t) 0 rtrace.
Proof.
  unfold rtrace. destruct (Nat.eqb_spec q 1) as [E|E].
  - assert (ER : rR t = 1) by (unfold rR; rewrite E; reflexivity). constructor; [lia|]. constructor. rewrite ER. cbn. lia.
  - destruct (Nat.eqb_spec q 2) as [E2|E2].
    + destruct (q2_geo E2) as (ER & _ & ED). constructor; [lia|]. cbn [rincrement]. constructor; [cbn; lia|]. constructor.
      rewrite ER. unfold rincrement. cbn. lia.
    + pose proof (r_q1 t Hwf). pose proof (r_D0 t Hwf) as HD0. assert (H3 : 3 <= q) by lia. pose proof (k_val H3) as Ek.
      assert (HHe : D0 <= HH) by lia.
      constructor; [destruct (H_div E) as [(_ & _ & _ & E4)|(_ & _ & E4)]; lia|].
      change (0 + rincrement t 0) with 1. constructor; [destruct (H_div E) as [(_ & _ & _ & E4)|(_ & _ & E4)]; lia|].
      change (1 + rincrement t 1) with (1 + D0). apply chain_trace; [assumption|lia|assumption].
Qed.
Lemma rtrace_unique rs : loop_trace (rR t) (rincrement t) 0 rs -> rs = rtrace.
Proof. intros HT. eapply PadBridge.trace_det; [exact HT|apply rtrace_ok]. Qed.

(** the kinds of passes in the trace *)
Lemma tail_pass r : q <> 1 -> In r rtail -> 2 * r = q.
Proof.
  intros Hq. unfold rtail. destruct (H_div Hq) as [(E1 & E2 & E3 & E4)|(E1 & E2 & E3)]; rewrite E1; cbn [Nat.eqb In]; [|tauto].
  intros [E|[]]. lia.
Qed.
Lemma midw_D r : 2 <= r -> midw t r = D.
Proof. intros Hr. unfold midw. destruct (Nat.eqb_spec r 1); [lia|reflexivity]. Qed.
Lemma midw_1 : midw t 1 = D0.
Proof. unfold midw. cbn [Nat.eqb andb]. destruct (Nat.eqb_spec D0 D); cbn [negb]; lia. Qed.
Lemma chain_pass k : q <> 1 -> forall r r', 2 <= r -> HH + 1 = r + k * D -> In r' (chain r k) -> rpass t r'.
Proof.
  intros Hq. pose proof (r_D t Hwf) as HD. induction k as [|k IH]; intros r r' Hr E Hin; cbn [chain] in Hin.
  - right. right. split; [assumption|]. apply tail_pass; assumption.
  - destruct Hin as [<-|Hin].
    + right. left. rewrite midw_D by assumption. pose proof (Nat.mul_add_distr_r 1 k D) as Ed. cbn [Nat.add] in Ed. rewrite Ed in E.
      destruct (H_div Hq) as [(_ & E2 & _)|(_ & E2 & _)]; repeat split; try assumption; try lia.
    + apply (IH (r + D)); [lia|lia|assumption].
Qed.
Lemma rtrace_pass r : In r rtrace -> rpass t r.
Proof.
  unfold rtrace. destruct (Nat.eqb_spec q 1) as [E|E].
  - intros [<-|[]]. left. reflexivity.
  - destruct (Nat.eqb_spec q 2) as [E2|E2].
    + intros [<-|[<-|[]]]; [left; reflexivity|]. right. right. lia.
    + pose proof (r_q1 t Hwf). assert (H3 : 3 <= q) by lia. pose proof (k_val H3) as Ek. pose proof (r_D0 t Hwf) as HD0.
      intros [<-|[<-|Hin]]; [left; reflexivity| |].
      * right. left. rewrite midw_1. destruct (H_div E) as [(_ & E4 & _)|(_ & E4 & _)]; repeat split; try assumption; lia.
      * eapply chain_pass; [assumption| |exact Ek|exact Hin]. lia.
Qed.
(** every residue has its pass *)
Lemma chain_cover k : q <> 1 -> forall r rho, 2 <= r -> HH + 1 = r + k * D -> r <= rho <= HH ->
  exists r', In r' (chain r k) /\ 1 <= r' /\ 2 * r' < q /\ r' <= rho < r' + midw t r'.
Proof.
  intros Hq. pose proof (r_D t Hwf) as HD. induction k as [|k IH]; intros r rho Hr E Hrho; [lia|]. cbn [chain].
  destruct (Nat.lt_ge_cases rho (r + D)) as [Hl|Hl].
  - exists r. split; [left; reflexivity|]. rewrite midw_D by assumption. destruct (H_div Hq) as [(_ & E2 & _)|(_ & E2 & _)]; lia.
  - destruct (IH (r + D) rho ltac:(lia) ltac:(lia) ltac:(lia)) as (r' & Hin & Hr'). exists r'. split; [right; assumption|assumption].
Qed.
Lemma rtrace_cover rho : 1 <= rho -> 2 * rho < q -> exists r, In r rtrace /\ 1 <= r /\ 2 * r < q /\ r <= rho < r + midw t r.
Proof.
  intros H1 H2. assert (Hq : q <> 1) by lia. assert (Hq3 : 3 <= q) by lia. pose proof (k_val Hq3) as Ek. pose proof (r_D0 t Hwf) as HD0.
  unfold rtrace. destruct (Nat.eqb_spec q 1); [contradiction|]. destruct (Nat.eqb_spec q 2); [lia|].
  assert (Hh : rho <= HH) by (apply Nat.div_le_lower_bound; lia).
  destruct (Nat.lt_ge_cases rho (1 + D0)) as [Hl|Hl].
  - exists 1. split; [right; left; reflexivity|]. rewrite midw_1. lia.
  - destruct (chain_cover _ Hq (1 + D0) rho ltac:(lia) Ek ltac:(lia)) as (r & Hin & Hr). exists r. split; [right; right; assumption|assumption].
Qed.
Lemma rtrace_0 : In 0 rtrace.
Proof. unfold rtrace. destruct (q =? 1); [left; reflexivity|]. destruct (q =? 2); left; reflexivity. Qed.
Lemma chain_tail k r r' : In r' rtail -> In r' (chain r k).
Proof. revert r. induction k as [|k IH]; intros r Hin; cbn [chain]; [assumption|]. right. apply IH. assumption. Qed.
Lemma rtrace_half r : q <> 1 -> 2 * r = q -> In r rtrace.
Proof.
  intros Hq H2. unfold rtrace. destruct (Nat.eqb_spec q 1); [contradiction|]. destruct (Nat.eqb_spec q 2) as [E|E].
  - right. left. lia.
  - right. right. apply chain_tail. unfold rtail. destruct (H_div Hq) as [(E1 & E2 & E3 & _)|(_ & E2 & _)]; [|lia].
    rewrite E1. cbn [Nat.eqb]. left. lia.
Qed.

(** *** frequencies *)
Definition stored (r : nat) : list nat := map (rfreq M q m r) (seq 0 (rnoutputs t r)).
Lemma sizes : 1 <= m /\ 1 <= q /\ M = m * q. Proof. split; [apply r_m; assumption|]. split; [apply r_q1; assumption|reflexivity]. Qed.
Lemma mirror_in k : k < M -> In k (mirror M k) /\ (0 < k -> In (M - k) (mirror M k)).
Proof.
  intros Hk. unfold mirror. destruct (Nat.eqb_spec ((2 * k) mod M) 0) as [E|E]; [|split; [left; reflexivity|intros; right; left; reflexivity]].
  split; [left; reflexivity|]. intros H0. left. apply Nat.mod_divides in E; [|lia]. destruct E as [c E].
  assert (c = 1) by nia. subst c. lia.
Qed.
Lemma stored_in r i : i < rnoutputs t r -> In (rfreq M q m r i) (stored r).
Proof. intros Hi. apply in_map. apply in_seq. lia. Qed.
Lemma freq_mid r i : 1 <= r -> 2 * r < q -> 2 * (r + midw t r) <= q + 1 -> i < m * midw t r ->
  rfreq M q m r i = q * (i mod m) + r + i / m /\ i / m < midw t r /\ i mod m < m.
Proof.
  intros H1 H2 H3 Hi. destruct sizes as (Hm & Hq & HM). unfold rfreq. destruct (Nat.eqb_spec r 0); [lia|]. destruct (Nat.eqb_spec (2 * r) q); [lia|].
  split; [reflexivity|]. split; [apply Nat.div_lt_upper_bound; lia|apply Nat.mod_upper_bound; lia].
Qed.
Lemma freq_lt r i : rpass t r -> i < rnoutputs t r -> rfreq M q m r i < M.
Proof.
  intros Hr Hi. destruct sizes as (Hm & Hq & HM). destruct Hr as [->|[(Hq1 & H1 & H2 & H3)|(Hq1 & H2)]].
  - unfold rfreq. cbn [Nat.eqb]. apply Nat.mod_upper_bound. nia.
  - rewrite (r_noutm t Hwf) in Hi by assumption. destruct (freq_mid r i H1 H2 H3 Hi) as (E & Hd & Hs). rewrite E, HM. nia.
  - rewrite (r_nouth t Hwf) in Hi by assumption. unfold rfreq. destruct (Nat.eqb_spec r 0); [lia|]. destruct (Nat.eqb_spec (2 * r) q); [|lia].
    pose proof (Nat.div_mod m 2 ltac:(lia)). nia.
Qed.
(** which stored frequencies are their own mirrors *)
Lemma self_0 i : i < e -> ((2 * rfreq M q m 0 i) mod M =? 0) = ((2 * i) mod m =? 0).
Proof.
  intros Hi. destruct sizes as (Hm & Hq & HM). unfold rfreq. cbn [Nat.eqb]. unfold re_ in Hi. pose proof (Nat.div_mod m 2 ltac:(lia)).
  assert (Hle : q * i <= M) by (rewrite HM; nia).
  destruct (Nat.eq_dec i 0) as [->|Hi0].
  { rewrite Nat.mul_0_r, Nat.sub_0_r, Nat.mod_same by (rewrite HM; nia). rewrite !Nat.mul_0_r, !Nat.mod_0_l by nia. reflexivity. }
  rewrite (Nat.mod_small (M - q * i)) by nia.
  destruct (Nat.eqb_spec ((2 * i) mod m) 0) as [E|E].
  - apply Nat.mod_divides in E; [|lia]. destruct E as [c E]. apply Nat.eqb_eq. apply Nat.mod_divides; [nia|]. exists (2 - c). 
    assert (Hc : c <= 1) by nia. rewrite Nat.mul_sub_distr_l, Nat.mul_sub_distr_l. 
    assert (E' : 2 * (q * i) = M * c) by (rewrite HM; nia). lia.
  - apply Nat.eqb_neq. intros E'. apply E. apply Nat.mod_divides in E'; [|nia]. destruct E' as [c E'].
    apply Nat.mod_divides; [lia|]. exists (2 - c). assert (Hc : c < 2) by nia.
    rewrite HM in E'. assert (Hcc : q * (2 * i) = q * (m * (2 - c))) by (destruct c as [|[|c]]; nia). apply Nat.mul_cancel_l in Hcc; [assumption|lia].
Qed.
Lemma self_mid r i : 1 <= r -> 2 * r < q -> 2 * (r + midw t r) <= q + 1 -> i < m * midw t r -> (2 * rfreq M q m r i) mod M <> 0.
Proof.
  intros H1 H2 H3 Hi E. destruct sizes as (Hm & Hq & HM). destruct (freq_mid r i H1 H2 H3 Hi) as (Ef & Hd & Hs). rewrite Ef in E.
  apply Nat.mod_divides in E; [|nia]. destruct E as [c E]. rewrite HM in E.
  assert (E2 : 2 * (r + i / m) = q * (m * c - 2 * (i mod m))) by (rewrite Nat.mul_sub_distr_l; lia).
  destruct (m * c - 2 * (i mod m)) as [|k]; [lia|]. nia.
Qed.
Lemma self_half r i : q <> 1 -> 2 * r = q -> i < m / 2 -> (2 * rfreq M q m r i) mod M <> 0.
Proof.
  intros Hq1 H2 Hi E. destruct sizes as (Hm & Hq & HM). unfold rfreq in E. destruct (Nat.eqb_spec r 0); [lia|]. destruct (Nat.eqb_spec (2 * r) q); [|lia].
  assert (He2 : q mod 2 = 0) by (rewrite <- H2, Nat.mul_comm; apply Nat.mod_mul; lia).
  pose proof (r_even t Hwf Hq1 He2) as Hm2. set (h := m / 2) in *.
  apply Nat.mod_divides in E; [|nia]. destruct E as [c E]. rewrite HM, Hm2 in E.
  assert (E2 : q * (1 + 4 * i) = q * (2 * h * c)) by nia. apply Nat.mul_cancel_l in E2; [lia|lia].
Qed.
(** *** counting *)
Definition mlen (r : nat) : nat := length (flat_map (mirror M) (stored r)).
Lemma flat_len (l : list nat) : length (flat_map (mirror M) l) = fold_right (fun k a => (if (2 * k) mod M =? 0 then 1 else 2) + a) 0 l.
Proof. induction l as [|k l IH]; cbn [flat_map fold_right]; [reflexivity|]. rewrite app_length, IH. unfold mirror. destruct (_ =? 0); reflexivity. Qed.
Lemma len_two f n : (forall i, i < n -> (2 * f i) mod M <> 0) -> length (flat_map (mirror M) (map f (seq 0 n))) = 2 * n.
Proof.
  intros Hf. assert (G : forall l, (forall i, In i l -> i < n) -> length (flat_map (mirror M) (map f l)) = 2 * length l).
  { induction l as [|i l IH]; intros Hl; cbn [map flat_map length]; [reflexivity|]. rewrite app_length, IH by (intros; apply Hl; right; assumption).
    unfold mirror. destruct (Nat.eqb_spec ((2 * f i) mod M) 0) as [E|E]; [exfalso; apply (Hf i); [apply Hl; left; reflexivity|assumption]|]. cbn [length]. lia. }
  rewrite G, seq_length by (intros i Hi; apply in_seq in Hi; lia). reflexivity.
Qed.
Lemma mlen_mid r : q <> 1 -> 1 <= r -> 2 * r < q -> 2 * (r + midw t r) <= q + 1 -> mlen r = 2 * (m * midw t r).
Proof.
  intros Hq H1 H2 H3. unfold mlen, stored. rewrite len_two; rewrite (r_noutm t Hwf) by assumption; [reflexivity|]. intros i Hi. apply self_mid; assumption.
Qed.
Lemma mlen_half r : q <> 1 -> 2 * r = q -> mlen r = m.
Proof.
  intros Hq H2. assert (He2 : q mod 2 = 0) by (rewrite <- H2, Nat.mul_comm; apply Nat.mod_mul; lia).
  pose proof (r_even t Hwf Hq He2) as Hm2.
  unfold mlen, stored. rewrite len_two; rewrite (r_nouth t Hwf) by assumption; [symmetry; exact Hm2|]. intros i Hi. apply self_half; assumption.
Qed.
Lemma mlen_0 : mlen 0 = m.
Proof.
  destruct sizes as (Hm & Hq & HM). unfold mlen, stored. rewrite r_nout0. rewrite flat_len.
  assert (G : forall n, n <= e -> fold_right (fun k a => (if (2 * k) mod M =? 0 then 1 else 2) + a) 0 (map (rfreq M q m 0) (seq 0 n)) =
     fold_right (fun i a => (if (2 * i) mod m =? 0 then 1 else 2) + a) 0 (seq 0 n)).
  { intros n Hn. assert (G : forall l, (forall i, In i l -> i < e) -> fold_right (fun k a => (if (2 * k) mod M =? 0 then 1 else 2) + a) 0 (map (rfreq M q m 0) l) =
       fold_right (fun i a => (if (2 * i) mod m =? 0 then 1 else 2) + a) 0 l).
    { induction l as [|i l IH]; intros Hl; cbn [map fold_right]; [reflexivity|]. rewrite IH by (intros; apply Hl; right; assumption). rewrite self_0 by (apply Hl; left; reflexivity). reflexivity. }
    apply G. intros i Hi. apply in_seq in Hi. lia. }
  rewrite G by lia. clear G. unfold re_.
  pose proof (Nat.div_mod m 2 ltac:(lia)) as Edm. pose proof (Nat.mod_upper_bound m 2 ltac:(lia)) as Emb. set (h := m / 2) in *.
  assert (G : forall a n, 1 <= a -> 2 * (a + n) <= m + 1 -> fold_right (fun i b => (if (2 * i) mod m =? 0 then 1 else 2) + b) 0 (seq a n) = 2 * n - (if (a + n =? h + 1) && (2 * h =? m) && (1 <=? n) then 1 else 0)).
  { intros a n Ha Hn.
    assert (Hb : (a + n =? h + 1) && (2 * h =? m) && (1 <=? n) = false).
    { destruct (Nat.eqb_spec (a + n) (h + 1)); [|reflexivity]. destruct (Nat.eqb_spec (2 * h) m); [|reflexivity]. lia. }
    rewrite Hb. clear Hb. revert a Ha Hn. induction n as [|n IH]; intros a Ha Hn; cbn [seq fold_right]; [reflexivity|]. rewrite IH by lia.
    rewrite Nat.mod_small by lia. destruct (Nat.eqb_spec (2 * a) 0); lia. }
  rewrite Nat.add_1_r. cbn [seq fold_right]. rewrite Nat.mul_0_r, Nat.mod_0_l by lia. cbn [Nat.eqb].
  destruct (Nat.eq_dec (m mod 2) 0) as [Ev|Ev].
  - assert (E : h = (h - 1) + 1) by lia. rewrite E at 1. rewrite seq_app, fold_right_app. cbn [seq fold_right].
    replace (1 + (h - 1)) with h by lia. replace (2 * h) with m by lia. rewrite Nat.mod_same by lia. cbn [Nat.eqb].
    assert (G2 : forall l c, fold_right (fun i b => (if (2 * i) mod m =? 0 then 1 else 2) + b) c l = fold_right (fun i b => (if (2 * i) mod m =? 0 then 1 else 2) + b) 0 l + c).
    { induction l as [|i l IH]; intros c; cbn [fold_right]; [reflexivity|]. rewrite IH. lia. }
    rewrite G2, G by lia. destruct (Nat.eqb_spec (1 + (h - 1)) (h + 1)); [lia|]. cbn [andb]. lia.
  - rewrite G by lia. destruct (Nat.eqb_spec (2 * h) m); [lia|]. rewrite andb_false_r. cbn [andb]. lia.
Qed.
Definition total (l : list nat) : nat := fold_right (fun r a => mlen r + a) 0 l.
Lemma total_len l : length (flat_map (mirror M) (flat_map stored l)) = total l.
Proof. induction l as [|r l IH]; cbn [flat_map total fold_right]; [reflexivity|]. rewrite flat_map_app, app_length, IH. reflexivity. Qed.
Lemma total_tail : q <> 1 -> total rtail = m * (q - 1 - 2 * HH).
Proof.
  intros Hq. unfold rtail. destruct (H_div Hq) as [(E1 & E2 & E3 & E4)|(E1 & E2 & E3)]; rewrite E1; cbn [Nat.eqb total fold_right].
  - rewrite mlen_half by lia. replace (q - 1 - 2 * HH) with 1 by lia. lia.
  - replace (q - 1 - 2 * HH) with 0 by lia. lia.
Qed.
Lemma total_chain k : q <> 1 -> forall r, 2 <= r -> HH + 1 = r + k * D -> total (chain r k) = 2 * (m * (k * D)) + m * (q - 1 - 2 * HH).
Proof.
  intros Hq. pose proof (r_D t Hwf) as HD. induction k as [|k IH]; intros r Hr E; cbn [chain].
  - rewrite total_tail by assumption. lia.
  - cbn [total fold_right]. change (fold_right (fun r a => mlen r + a) 0 ?l) with (total l). rewrite IH by lia.
    assert (HP : rpass t r) by (apply (chain_pass (S k) Hq r r Hr E); left; reflexivity).
    pose proof (Nat.mul_add_distr_r 1 k D) as Ed. cbn [Nat.add] in Ed. rewrite Ed in E.
    destruct (H_div Hq) as [(_ & E2 & _)|(_ & E2 & _)]; (rewrite mlen_mid; rewrite ?midw_D by assumption; [nia|assumption|lia|lia|lia]).
Qed.
Lemma total_all : total rtrace = M.
Proof.
  destruct sizes as (Hm & Hq0 & HM). unfold rtrace. destruct (Nat.eqb_spec q 1) as [E|E].
  - cbn [total fold_right]. rewrite mlen_0, HM, E. lia.
  - destruct (Nat.eqb_spec q 2) as [E2|E2].
    + cbn [total fold_right]. rewrite mlen_0, mlen_half by lia. rewrite HM, E2. lia.
    + assert (H3 : 3 <= q) by lia. pose proof (k_val H3) as Ek. pose proof (r_D0 t Hwf) as HD0.
      cbn [total fold_right]. change (fold_right (fun r a => mlen r + a) 0 ?l) with (total l).
      rewrite (total_chain _ E (1 + D0)) by lia. rewrite mlen_0.
      assert (HP : rpass t 1) by (apply rtrace_pass; unfold rtrace; destruct (Nat.eqb_spec q 1); [contradiction|]; destruct (Nat.eqb_spec q 2); [contradiction|]; right; left; reflexivity).
      destruct HP as [HP|[(_ & _ & P2 & P3)|(_ & P2)]]; [lia| |lia].
      rewrite mlen_mid by (assumption || lia). rewrite midw_1. rewrite HM. set (kD := (HH - D0) / D * D) in *.
      destruct (H_div E) as [(_ & E4 & _)|(_ & E4 & _)].
      * replace (q - 1 - 2 * HH) with 1 by lia. rewrite E4. replace HH with (D0 + kD) by lia. lia.
      * replace (q - 1 - 2 * HH) with 0 by lia. rewrite E4 at 1. replace HH with (D0 + kD) by lia. lia.
Qed.
(** every frequency, or its mirror, is stored *)
Lemma covered k : k < M -> In k (flat_map (mirror M) (flat_map stored rtrace)).
Proof.
  intros Hk. destruct sizes as (Hm & Hq0 & HM).
  assert (G : forall r i k', In r rtrace -> i < rnoutputs t r -> rfreq M q m r i = k' -> k' = k \/ (0 < k' /\ M - k' = k) -> In k (flat_map (mirror M) (flat_map stored rtrace))).
  { intros r i k' Hr Hi Ef Ek. apply in_flat_map. exists k'. split.
    - apply in_flat_map. exists r. split; [assumption|]. rewrite <- Ef. apply stored_in. assumption.
    - assert (Hlt : k' < M) by (rewrite <- Ef; apply freq_lt; [apply rtrace_pass; assumption|assumption]).
      destruct (mirror_in k' Hlt) as [A B]. destruct Ek as [<-|[H0 <-]]; [exact A|apply B; assumption]. }
  set (rho := k mod q). set (s := k / q).
  assert (Ek : k = q * s + rho) by (apply Nat.div_mod; lia).
  assert (Hrho : rho < q) by (apply Nat.mod_upper_bound; lia).
  assert (Hs : s < m) by (apply Nat.div_lt_upper_bound; [lia|]; rewrite HM in Hk; lia).
  pose proof (Nat.div_mod m 2 ltac:(lia)) as Edm. pose proof (Nat.mod_upper_bound m 2 ltac:(lia)) as Emb.
  assert (Hqs : q * s + q <= M) by (rewrite HM; nia).
  assert (Eqm : q * m = M) by lia.
  destruct (Nat.eq_dec rho 0) as [E0|E0].
  - destruct (Nat.eq_dec s 0) as [Es|Es].
    { apply (G 0 0 0); [apply rtrace_0|rewrite r_nout0; unfold re_; lia| |left; rewrite Ek, Es, E0; lia].
      unfold rfreq. cbn [Nat.eqb]. rewrite Nat.mul_0_r, Nat.sub_0_r. apply Nat.mod_same. lia. }
    destruct (Nat.le_gt_cases s (m / 2)) as [Hl|Hl].
    + apply (G 0 s (M - q * s)); [apply rtrace_0|rewrite r_nout0; unfold re_; lia| |right; lia].
      unfold rfreq. cbn [Nat.eqb]. apply Nat.mod_small. nia.
    + apply (G 0 (m - s) k); [apply rtrace_0|rewrite r_nout0; unfold re_; lia| |left; reflexivity].
      unfold rfreq. cbn [Nat.eqb]. rewrite Nat.mul_sub_distr_l, Eqm. replace (M - (M - q * s)) with (q * s) by lia.
      rewrite Nat.mod_small by lia. lia.
  - assert (Hq1 : q <> 1) by lia.
    destruct (Nat.lt_trichotomy (2 * rho) q) as [Hl|[He|Hg]].
    + destruct (rtrace_cover rho ltac:(lia) Hl) as (r & Hin & H1 & H2 & H3).
      assert (Hlt : m * (rho - r) + s < m * midw t r) by nia.
      apply (G r (m * (rho - r) + s) k); [assumption|rewrite (r_noutm t Hwf) by assumption; assumption| |left; reflexivity].
      unfold rfreq. destruct (Nat.eqb_spec r 0); [lia|]. destruct (Nat.eqb_spec (2 * r) q); [lia|].
      destruct (row_div m (rho - r) s Hs) as [E1 E2]. rewrite E1, E2. lia.
    + assert (He2 : q mod 2 = 0) by (rewrite <- He, Nat.mul_comm; apply Nat.mod_mul; lia).
      pose proof (r_even t Hwf Hq1 He2) as Hm2. 
      pose proof (Nat.div_mod s 2 ltac:(lia)) as Eds. pose proof (Nat.mod_upper_bound s 2 ltac:(lia)) as Ems.
      assert (Ff : forall i, rfreq M q m rho i = rho + 2 * q * i).
      { intros i. unfold rfreq. destruct (Nat.eqb_spec rho 0); [lia|]. destruct (Nat.eqb_spec (2 * rho) q); [reflexivity|lia]. }
      destruct (Nat.eq_dec (s mod 2) 0) as [Ev|Ev].
      * apply (G rho (s / 2) k); [apply rtrace_half; assumption|rewrite (r_nouth t Hwf) by assumption; lia|rewrite Ff; nia|left; reflexivity].
      * apply (G rho ((m - 1 - s) / 2) (M - k)); [apply rtrace_half; assumption|rewrite (r_nouth t Hwf) by assumption; apply Nat.div_lt_upper_bound; lia| |right; lia].
        rewrite Ff. pose proof (Nat.div_mod (m - 1 - s) 2 ltac:(lia)) as Edx.
        assert (Evx : (m - 1 - s) mod 2 = 0). { assert (Hx : m - 1 - s = (m / 2 - 1 - s / 2) * 2) by lia. rewrite Hx. apply Nat.mod_mul. lia. }
        assert (Ex : 2 * ((m - 1 - s) / 2) = m - 1 - s) by lia.
        replace (2 * q * ((m - 1 - s) / 2)) with (q * (2 * ((m - 1 - s) / 2))) by lia. rewrite Ex, !Nat.mul_sub_distr_l, Eqm. lia.
    + destruct (rtrace_cover (q - rho) ltac:(lia) ltac:(lia)) as (r & Hin & H1 & H2 & H3).
      assert (Hlt : m * (q - rho - r) + (m - 1 - s) < m * midw t r) by nia.
      apply (G r (m * (q - rho - r) + (m - 1 - s)) (M - k)); [assumption|rewrite (r_noutm t Hwf) by assumption; assumption| |right; lia].
      unfold rfreq. destruct (Nat.eqb_spec r 0); [lia|]. destruct (Nat.eqb_spec (2 * r) q); [lia|].
      destruct (row_div m (q - rho - r) (m - 1 - s) ltac:(lia)) as [E1 E2]. rewrite E1, E2.
      rewrite !Nat.mul_sub_distr_l, Eqm. lia.
Qed.
Lemma freq_perm : Permutation (seq 0 M) (flat_map (mirror M) (flat_map stored rtrace)).
Proof.
  apply NoDup_Permutation_bis.
  - apply seq_NoDup.
  - rewrite total_len, total_all, seq_length. lia.
  - intros k Hk. apply in_seq in Hk. apply covered. lia.
Qed.
End T.
