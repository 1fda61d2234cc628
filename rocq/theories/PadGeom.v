(** Geometry facts of a well-formed fftPad, and the residue carried by each row of a pass. *)
From Coq Require Import Reals ZArith Arith Lia List Bool.
From Verif Require Import CNum Sums Roots Mem VecModel PadModel PadMath.

Lemma cq_le a b : 1 <= b -> a <= b * cq a b.
Proof.
  intros Hb. unfold cq. pose proof (Nat.div_mod (a + b - 1) b).
  pose proof (Nat.mod_upper_bound (a + b - 1) b). lia.
Qed.
Lemma cq_lt a b : 1 <= b -> 1 <= a -> b * (cq a b - 1) < a.
Proof.
  intros Hb Ha. unfold cq.
  assert (b * ((a + b - 1) / b) <= a + b - 1) by (apply Nat.mul_div_le; lia).
  destruct ((a + b - 1) / b) as [|k]; [lia|]. cbn [Nat.sub]. nia.
Qed.
Lemma cq_pos a b : 1 <= b -> 1 <= a -> 1 <= cq a b.
Proof. intros Hb Ha. pose proof (cq_le a b Hb). destruct (cq a b); lia. Qed.

Section G.
Variable t : pad.
Hypothesis Hwf : wf t.

Lemma wf_L : 1 <= gL t. Proof. apply Hwf. Qed.
Lemma wf_C : 1 <= gC t. Proof. apply Hwf. Qed.
Lemma wf_CS : gC t <= gS t. Proof. apply Hwf. Qed.
Lemma wf_m : 1 <= gm t. Proof. apply Hwf. Qed.
Lemma wf_D : 1 <= gD t.
Proof. unfold gD. destruct (gq t =? 1); [lia|]. apply Hwf. Qed.
Lemma wf_LM : gL t <= gM t.
Proof. unfold gM. destruct Hwf as (A & B & _ & _ & _ & _ & E & _). lia. Qed.

Lemma wf_p : 1 <= gp t.
Proof. apply cq_pos; [apply wf_m|apply wf_L]. Qed.
Lemma wf_Lmp : gL t <= gm t * gp t.
Proof. apply cq_le, wf_m. Qed.
Lemma wf_mpL : gm t * (gp t - 1) < gL t.
Proof. apply cq_lt; [apply wf_m|apply wf_L]. Qed.

Lemma P_eq : param_P false (gp t) = gP t.
Proof.
  unfold param_P, gP. cbn [andb orb]. destruct (Nat.eqb_spec (gp t) 2) as [->|]; reflexivity.
Qed.
Lemma q_eq : gq t = gP t * gn t.
Proof. unfold gq, gn, param_q. fold (gp t). rewrite P_eq. reflexivity. Qed.
Lemma P_pos : 1 <= gP t.
Proof. unfold gP. pose proof wf_p. destruct (gp t =? 2); lia. Qed.
Lemma aM_pos : 1 <= aM t.
Proof. destruct Hwf as (A & B & _). lia. Qed.
Lemma n_pos : 1 <= gn t.
Proof.
  unfold gn, param_n. fold (gp t). rewrite P_eq. apply cq_pos; [|apply aM_pos].
  pose proof P_pos. pose proof wf_m. unfold gm in *. nia.
Qed.
Lemma q_pos : 1 <= gq t.
Proof. rewrite q_eq. pose proof P_pos. pose proof n_pos. nia. Qed.
Lemma M_pos : 1 <= gM t.
Proof. unfold gM. pose proof q_pos. pose proof wf_m. nia. Qed.
Lemma M_eq : gM t = gm t * gq t. Proof. reflexivity. Qed.

Lemma q1_p1 : gq t = 1 -> gp t = 1.
Proof.
  intros H. pose proof q_eq as E. pose proof wf_LM as HL. unfold gM in HL. rewrite H in *.
  pose proof wf_mpL. pose proof wf_p. pose proof n_pos. pose proof wf_m.
  unfold gP in E. destruct (Nat.eqb_spec (gp t) 2) as [E2|E2].
  - rewrite E2 in *. lia.
  - nia.
Qed.
Lemma q1_n1 : gq t = 1 -> gn t = 1.
Proof. intros H. pose proof q_eq as E. pose proof P_pos. nia. Qed.

Lemma P_small : gp t <= 2 -> gP t = 1.
Proof. unfold gP. pose proof wf_p. destruct (Nat.eqb_spec (gp t) 2); lia. Qed.
Lemma q_small : gp t <= 2 -> gq t = gn t.
Proof. intros H. rewrite q_eq, P_small by assumption. lia. Qed.
Lemma P_big : 2 < gp t -> gP t = gp t.
Proof. unfold gP. destruct (Nat.eqb_spec (gp t) 2); lia. Qed.

Lemma valid_D : gq t <> 1 ->
  gD t = 1 \/ (gS t = 1 /\ ((gD t < gn t /\ gD t mod 2 = 0) \/ gD t = gn t)).
Proof.
  intros H. destruct Hwf as (_ & _ & _ & _ & _ & _ & _ & V). unfold valid in V.
  destruct (Nat.eqb_spec (gq t) 1); [contradiction|].
  apply orb_true_iff in V. rewrite Nat.eqb_eq in V. destruct V as [V|V]; [auto|right].
  apply andb_true_iff in V. destruct V as [V1 V2]. apply Nat.eqb_eq in V1. split; [assumption|].
  apply orb_true_iff in V2. destruct V2 as [V2|V2].
  - apply andb_true_iff in V2. destruct V2 as [V2 V3].
    apply Nat.ltb_lt in V2. apply Nat.eqb_eq in V3. auto.
  - apply Nat.eqb_eq in V2. auto.
Qed.

Lemma D0_bounds : 1 <= gD0 t <= gD t.
Proof.
  unfold gD0. pose proof wf_D. destruct (gq t =? 1) eqn:E.
  - unfold gD in *. rewrite E in *. lia.
  - pose proof (Nat.mod_upper_bound (gn t) (gD t)).
    destruct (Nat.eqb_spec (gn t mod gD t) 0); lia.
Qed.

Lemma D0_le_n : gD0 t <= gn t.
Proof.
  pose proof n_pos. unfold gD0. destruct (Nat.eqb_spec (gq t) 1); [lia|].
  destruct (Nat.eqb_spec (gn t mod gD t) 0).
  - destruct (valid_D n) as [V|[_ [[V _]|V]]]; lia.
  - apply Nat.mod_le. pose proof wf_D. lia.
Qed.

(** n = D0 + D*(number of later passes) *)
Lemma n_D0 : gq t <> 1 -> exists k, gn t = gD0 t + gD t * k.
Proof.
  intros H. unfold gD0. destruct (Nat.eqb_spec (gq t) 1); [contradiction|].
  pose proof wf_D. pose proof n_pos.
  pose proof (Nat.div_mod (gn t) (gD t)).
  destruct (Nat.eqb_spec (gn t mod gD t) 0) as [E|E].
  - exists (gn t / gD t - 1). rewrite E in *.
    assert (gn t / gD t <> 0) by (intros Z; rewrite Z in *; lia). nia.
  - exists (gn t / gD t). lia.
Qed.

Lemma D0_parity : gq t <> 1 -> gD t <> 1 -> gD0 t mod 2 = gn t mod 2.
Proof.
  intros H HD. destruct (valid_D H) as [V|[_ [[V V']|V]]]; [lia| |].
  - destruct (n_D0 H) as [k ->]. rewrite (Nat.div_mod (gD t) 2), V' by lia.
    replace (gD0 t + (2 * (gD t / 2) + 0) * k) with (gD0 t + (gD t / 2 * k) * 2) by lia.
    rewrite Nat.mod_add by lia. reflexivity.
  - unfold gD0. destruct (Nat.eqb_spec (gq t) 1); [lia|].
    rewrite V, Nat.mod_same by (pose proof n_pos; lia). reflexivity.
Qed.

Lemma S1_C1 : gS t = 1 -> gC t = 1.
Proof. pose proof wf_C. pose proof wf_CS. lia. Qed.

Lemma l_eq : gl t = gm t * gP t.
Proof.
  unfold gl. destruct (Nat.eqb_spec (gq t) 1) as [E|]; [|reflexivity].
  rewrite (P_small) by (rewrite q1_p1 by assumption; lia). unfold gM. rewrite E. reflexivity.
Qed.

(** number of rows of pass r *)
Definition nrows (r : nat) : nat := gP t * (if r =? 0 then gD0 t else gD t).
Lemma noutputs_rows r : noutputs t r = gm t * nrows r.
Proof. unfold noutputs, blocksize, nrows. rewrite l_eq. lia. Qed.

(** Residue of row e of pass r: output m*e+k of pass r is the DFT at frequency
    q*k+rho (mod M). *)
Definition rho (r e : nat) : Z :=
  if 2 <? gp t then Z.of_nat (gn t * (e mod gp t) + (r + e / gp t))
  else if gD t =? 1 then Z.of_nat r
  else
    let off := if r =? 0 then (if gn t mod 2 =? 1 then 1 else 2) else 0 in
    let r1 := if r =? 0 then 1 else r in
    if e <? off then
      (if e =? 0 then 0%Z
       else if gp t =? 2 then (- Z.of_nat (gq t / 2))%Z else Z.of_nat (gq t / 2))
    else let d := (e - off) / 2 in
         if (e - off) mod 2 =? 0 then Z.of_nat (r1 + d) else (- Z.of_nat (r1 + d))%Z.
End G.

(** A residue at which a pass of the loop  for(r=0; r < R; r += increment(r))  starts. *)
Definition passr (t : pad) (r : nat) : Prop := 
  r = 0 \/ (increment t 0 <= r /\ 1 <= r /\ r + gdr t <= gR t).

Lemma R_le_n t : wf t -> gR t <= gn t.
Proof.
  intros Hwf. pose proof (n_pos t Hwf). unfold gR, residueBlocks. destruct (gq t =? 1); [lia|].
  destruct (conjugates t); [|lia]. unfold cq. apply Nat.div_le_upper_bound; lia.
Qed.
Lemma n_le_q t : wf t -> gn t <= gq t.
Proof. intros Hwf. rewrite (q_eq t). pose proof (P_pos t Hwf). nia. Qed.

Lemma dr_D1 t : gD t = 1 -> gdr t = 1.
Proof.
  intros H. unfold gdr, gDr, conjugates. rewrite H. cbn. destruct (gq t =? 1); reflexivity.
Qed.
Lemma dr_pair t : gq t <> 1 -> gp t <= 2 -> 1 < gD t -> gdr t = gD t / 2.
Proof.
  intros Hq Hp HD. unfold gdr, gDr, conjugates. destruct (Nat.eqb_spec (gq t) 1); [lia|].
  destruct (Nat.ltb_spec 1 (gD t)); [|lia]. destruct (Nat.leb_spec (gp t) 2); [reflexivity|lia].
Qed.
Lemma D0_D1 t : gD t = 1 -> gD0 t = 1.
Proof. intros H. unfold gD0. destruct (gq t =? 1); [reflexivity|]. rewrite H. reflexivity. Qed.

(** later passes exist only when D is even *)
Lemma D_even t r : wf t -> gq t <> 1 -> gp t <= 2 -> 1 < gD t -> 1 <= r -> passr t r -> gD t = 2 * (gD t / 2).
Proof.
  intros Hwf Hq Hp HD Hr [H|(Hinc & _ & H)]; [lia|].
  destruct (valid_D t Hwf Hq) as [V|[_ [[V V']|V]]]; [lia| |].
  - rewrite (Nat.div_mod (gD t) 2) at 1 by lia. lia.
  - (* D = n: no later pass *)
    exfalso. unfold increment in Hinc. cbn [Nat.ltb Nat.leb] in Hinc.
    rewrite (dr_pair t Hq Hp HD) in H.
    unfold gR, residueBlocks, conjugates in H. unfold conjugates in Hinc.
    destruct (Nat.eqb_spec (gq t) 1); [lia|].
    destruct (Nat.ltb_spec 1 (gD t)); [|lia]. destruct (Nat.leb_spec (gp t) 2); [|lia].
    cbn [andb] in H, Hinc.
    assert (E0 : gD0 t = gn t).
    { unfold gD0. destruct (Nat.eqb_spec (gq t) 1); [lia|]. rewrite V, Nat.mod_same by lia. reflexivity. }
    rewrite E0 in Hinc. assert (1 <= gD t / 2) by (apply Nat.div_le_lower_bound; lia). lia.
Qed.

(** residue of row e' of the rows written by the tail of a pass starting at residue r0 *)
Definition tailrho (D r0 e : nat) : Z :=
  if D =? 1 then Z.of_nat r0
  else if e mod 2 =? 0 then Z.of_nat (r0 + e / 2) else (- Z.of_nat (r0 + e / 2))%Z.

Lemma tailrho_even D r0 d : D <> 1 -> tailrho D r0 (2 * d) = Z.of_nat (r0 + d).
Proof.
  intros H. unfold tailrho. destruct (Nat.eqb_spec D 1); [lia|].
  replace (2 * d) with (d * 2) by lia. rewrite Nat.mod_mul, Nat.div_mul by lia. reflexivity.
Qed.
Lemma tailrho_odd D r0 d : D <> 1 -> tailrho D r0 (2 * d + 1) = (- Z.of_nat (r0 + d))%Z.
Proof.
  intros H. unfold tailrho. destruct (Nat.eqb_spec D 1); [lia|].
  replace (2 * d + 1) with (1 + d * 2) by lia. rewrite Nat.mod_add, Nat.div_add by lia. reflexivity.
Qed.


Section Small.
Variable t : pad.
Hypothesis Hwf : wf t.
Notation D := (gD t). Notation q := (gq t).

Lemma nrows_small : gp t <= 2 -> forall r, nrows t r = if r =? 0 then gD0 t else D.
Proof. intros Hp r. unfold nrows. rewrite (P_small t Hwf) by assumption. lia. Qed.

Lemma rho_D1 r e : gp t <= 2 -> D = 1 -> rho t r e = Z.of_nat r.
Proof. intros Hp H. unfold rho. destruct (Nat.ltb_spec 2 (gp t)); [lia|]. rewrite H. reflexivity. Qed.

Lemma rho_tail0 e off : gp t <= 2 -> D <> 1 -> off = (if gn t mod 2 =? 1 then 1 else 2) -> off <= e ->
  rho t 0 e = tailrho D 1 (e - off).
Proof.
  intros Hp H Hoff He. unfold rho, tailrho. destruct (Nat.ltb_spec 2 (gp t)); [lia|].
  destruct (Nat.eqb_spec D 1); [lia|]. rewrite Nat.eqb_refl, <- Hoff. cbv zeta.
  destruct (Nat.ltb_spec e off); [lia|]. reflexivity.
Qed.
Lemma rho_tail r e : gp t <= 2 -> D <> 1 -> 1 <= r -> rho t r e = tailrho D r e.
Proof.
  intros Hp H Hr. unfold rho, tailrho. destruct (Nat.ltb_spec 2 (gp t)); [lia|].
  destruct (Nat.eqb_spec D 1); [lia|].
  destruct (Nat.eqb_spec r 0); [lia|]. cbv zeta. destruct (Nat.ltb_spec e 0); [lia|].
  rewrite Nat.sub_0_r. reflexivity.
Qed.
Lemma rho_00 : gp t <= 2 -> rho t 0 0 = 0%Z.
Proof.
  intros Hp. unfold rho. destruct (Nat.ltb_spec 2 (gp t)); [lia|].
  destruct (D =? 1); [reflexivity|]. destruct (gn t mod 2 =? 1); reflexivity.
Qed.
Lemma rho_01 : gp t <= 2 -> D <> 1 -> gn t mod 2 = 0 ->
  rho t 0 1 = if gp t =? 2 then (- Z.of_nat (q / 2))%Z else Z.of_nat (q / 2).
Proof.
  intros Hp H E. unfold rho. destruct (Nat.ltb_spec 2 (gp t)); [lia|]. rewrite E.
  destruct (Nat.eqb_spec D 1); [lia|reflexivity].
Qed.

Hypothesis Hq : q <> 1.
(** rows of the first pass after its unpaired residues *)
Lemma D0_odd : D = 1 \/ gn t mod 2 = 1 ->
  gD0 t = 1 + (if D =? 1 then (gD0 t - 1) / 2 else 2 * ((gD0 t - 1) / 2)).
Proof.
  intros H. destruct (Nat.eqb_spec D 1) as [ED|ED].
  - rewrite (D0_D1 t ED). reflexivity.
  - destruct H as [|Hn1]; [contradiction|].
    pose proof (D0_parity t Hwf Hq ED) as Hpar. pose proof (D0_bounds t Hwf).
    pose proof (Nat.div_mod (gD0 t) 2 ltac:(lia)) as H1. rewrite Hpar, Hn1 in H1.
    pose proof (Nat.div_mod (gD0 t - 1) 2 ltac:(lia)).
    pose proof (Nat.mod_upper_bound (gD0 t - 1) 2 ltac:(lia)). lia.
Qed.
Lemma D0_even : D <> 1 -> gn t mod 2 = 0 ->
  gD0 t = 2 + (if D =? 1 then (gD0 t - 2) / 2 else 2 * ((gD0 t - 2) / 2)).
Proof.
  intros ED Hn0. destruct (Nat.eqb_spec D 1) as [|_]; [contradiction|].
  pose proof (D0_parity t Hwf Hq ED) as Hpar. pose proof (D0_bounds t Hwf).
  pose proof (Nat.div_mod (gD0 t) 2 ltac:(lia)) as H1. rewrite Hpar, Hn0 in H1.
  pose proof (Nat.div_mod (gD0 t - 2) 2 ltac:(lia)).
  pose proof (Nat.mod_upper_bound (gD0 t - 2) 2 ltac:(lia)). lia.
Qed.
Lemma q_parity : gp t <= 2 -> 2 * (q / 2) + gn t mod 2 = q.
Proof.
  intros Hp. rewrite <- (q_small t Hwf) by lia. symmetry. apply Nat.div_mod. lia.
Qed.
End Small.
