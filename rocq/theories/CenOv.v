(** Overwrite mode of the centered transforms (n=3, L=p*m, D=1): f holds 2l rows, F holds l rows. *)
From Coq Require Import Reals ZArith Arith Lia List Bool.
From Verif Require Import CNum Sums Roots Mem VecModel VecProofs PadModel PadKernels Loops
  PadLemmas PadMath PadGeom Fwd1 PadForward Fill CenModel CenMath CenGeom CenFft CenF2 CenPass CenStage CenTw CenFI CenThree.

(** a parallel loop over the columns of the rows in R *)
Lemma WP_parcols adr CC g N (Hinj : injrows adr CC N) (P R : nat -> Prop) inner (m m1 : mem) (K : mem -> Prop) :
  dn adr CC g P m m1 ->
  (forall i, P i -> i < N) -> (forall i, R i -> i < N /\ ~ P i) ->
  (forall c, c < CC -> wpe (outs adr CC N) (fun a v => exists i, R i /\ row adr g i c a v) (inner c) m) ->
  (forall m', dn adr CC g (fun i => P i \/ R i) m m' -> K m') ->
  WP (ParFor 0 CC inner) m1 K.
Proof.
  intros Hdn HP HR Hb HK.
  apply (WP_eff (rset adr CC g P) (fun c a v => exists i, R i /\ row adr g i c a v) 0 CC inner m m1).
  - exact Hdn.
  - unfold rng. intros c c' a v v' Hc Hc' (i & Hi & Hr) (i' & Hi' & Hr').
    eapply (row_inj adr CC g N Hinj i c i' c'); [apply HR; assumption|apply HR; assumption|lia|lia|exact Hr|exact Hr'].
  - unfold rng. intros c a v v' Hc (i & Hi & Hr) (i' & c' & Hi' & Hc' & Hr').
    destruct (HR i Hi) as [Hn1 Hn2].
    destruct (row_inj adr CC g N Hinj i c i' c' a v v') as [-> _]; auto. lia.
  - unfold rng. intros c Hc. eapply wp_weaken; [| |apply (Hb c); lia].
    + intros a Ha. left. split.
      * intros v (i & c' & Hi & Hc' & E & _). apply (Ha i c'); auto.
      * intros c' v Hc' (i & Hi & E & _). apply (Ha i c'); [apply HR; assumption|lia|assumption].
    + auto.
  - intros m' He. apply HK. eapply eff_iff; [|exact He]. unfold rng. intros a v. split.
    + intros [(i & c & Hi & H)|(c & Hc & i & Hi & H)]; exists i, c; (split; [auto|]); [assumption|]. split; [lia|assumption].
    + intros (i & c & [Hi|Hi] & Hc & H); [left; exists i, c; auto|right]. exists c. split; [lia|]. exists i. auto.
Qed.

(** rows of three blocks *)
Section At3.
Variables (adr : nat -> addr) (CC : nat) (g : nat -> nat -> C) (N m P B : nat).
Hypothesis Hinj : injrows adr CC N.
Hypothesis Hm : 1 <= m. Hypothesis HP : 1 <= P. Hypothesis HN : m * P * B <= N.
Hypothesis HB : B = 3.
Notation l := (m * P).
Lemma lset_at3_b3 u0 s0 p (m0 : mem) : u0 < P -> s0 < m ->
  lset adr CC g N (fun i => m * u0 + s0 = i \/ l + (m * u0 + s0) = i \/ l * 2 + (m * u0 + s0) = i) p m0 ->
  lset adr CC g N (at3 m P B (fun b u s => u = u0 /\ s = s0)) p m0.
Proof.
  intros Hu Hs. apply lset_iff. intros i. split.
  - intros [<-|[<-|<-]]; [exists 0|exists 1|exists 2]; exists u0, s0; repeat split; lia.
  - intros (b & u & s & Hb' & Hu' & Hs' & -> & -> & ->). destruct b as [|[|[|b]]]; [left|right; left|right; right|exfalso]; lia.
Qed.
Lemma lset_at3_b12 u0 s0 p (m0 : mem) : u0 < P -> s0 < m ->
  lset adr CC g N (fun i => l + (m * u0 + s0) = i \/ l * 2 + (m * u0 + s0) = i) p m0 ->
  lset adr CC g N (at3 m P B (fun b u s => 1 <= b /\ u = u0 /\ s = s0)) p m0.
Proof.
  intros Hu Hs. apply lset_iff. intros i. split.
  - intros [<-|<-]; [exists 1|exists 2]; exists u0, s0; repeat split; lia.
  - intros (b & u & s & Hb' & Hu' & Hs' & -> & H1 & -> & ->). destruct b as [|[|[|b]]]; [exfalso|left|right|exfalso]; lia.
Qed.
(** all rows u0 *)
Lemma lset_at3_u u0 inner (m0 : mem) : u0 < P ->
  (forall s, s < m -> lset adr CC g N (fun i => m * u0 + s = i \/ l + (m * u0 + s) = i \/ l * 2 + (m * u0 + s) = i) (inner s) m0) ->
  lset adr CC g N (at3 m P B (fun b u s => u = u0)) (pForR 0 m inner) m0.
Proof.
  intros Hu Hi.
  eapply lset_iff; [|apply (lset_for adr CC g N Hinj (fun s i => at3 m P B (fun b u s' => u = u0 /\ s' = s) i)); unfold rng].
  - unfold rng. intros i. split.
    + intros (s & Hs & b & u & s' & Hb & Hu' & Hs' & E & -> & ->). exists b, u0, s. auto 10.
    + intros (b & u & s & Hb & Hu' & Hs & E & ->). exists s. split; [lia|]. exists b, u0, s. auto 10.
  - intros s i Hs Ha. eapply Nat.lt_le_trans; [|exact HN]. apply (at3_lt N m P B Hm HP HN _ _ Ha).
  - intros s s' i Hs Hs' (b & u & s1 & Hb & Hu' & Hs1 & E & -> & ->) (b' & u' & s2 & Hb' & Hu2 & Hs2 & E' & -> & ->).
    rewrite E in E'. apply (at3_inj N m P B Hm HP HN) in E'; try assumption. lia.
  - intros s Hs. apply lset_at3_b3; [assumption|lia|]. apply Hi. lia.
Qed.
(** rows u0, s>=lo: one loop for each block *)
Lemma lset_at3_r3 lo u0 i0 i1 i2 (m0 : mem) : u0 < P ->
  (forall s, lo <= s < m -> lset adr CC g N (eq (m * u0 + s)) (i0 s) m0) ->
  (forall s, lo <= s < m -> lset adr CC g N (eq (l + (m * u0 + s))) (i1 s) m0) ->
  (forall s, lo <= s < m -> lset adr CC g N (eq (l * 2 + (m * u0 + s))) (i2 s) m0) ->
  lset adr CC g N (at3 m P B (fun b u s => u = u0 /\ lo <= s))
    (pseq (pForR lo m i0) (pseq (pForR lo m i1) (pForR lo m i2))) m0.
Proof.
  intros Hu H0 H1 H2.
  apply (lset_at3_iff adr CC g N m P B) with (Q := fun b u s => (b = 0 /\ u = u0 /\ lo <= s) \/ ((b = 1 /\ u = u0 /\ lo <= s) \/ (b = 2 /\ u = u0 /\ lo <= s)));
    [intros; lia|].
  apply (lset_at3_seq adr CC g N Hinj m P B Hm HP HN); [intros; lia| |].
  - apply (lset_at3_row adr CC g N Hinj m P B Hm HP HN); [lia|assumption|]. intros s Hs. rewrite Nat.mul_0_r. apply H0. assumption.
  - apply (lset_at3_seq adr CC g N Hinj m P B Hm HP HN); [intros; lia| |].
    + apply (lset_at3_row adr CC g N Hinj m P B Hm HP HN); [lia|assumption|]. intros s Hs. rewrite Nat.mul_1_r. apply H1. assumption.
    + apply (lset_at3_row adr CC g N Hinj m P B Hm HP HN); [lia|assumption|]. intros s Hs. apply H2. assumption.
Qed.
End At3.

Definition rh3 (b : nat) : Z := match b with 0 => 0%Z | 1 => 1%Z | _ => Z.opp 1 end.

Section T.
Variable t : pad.
Hypothesis Hwf : kwf t.
Hypothesis Hov : koverwrite t = true.
Notation L := (aL t).  Notation CC := (aC t).  Notation SS := (aS t).  Notation m := (am t).
Notation q := (kq t).   Notation n := (kn t).   Notation M := (kM t).
Notation D := (kD t).  Notation P := (kP t). Notation l := (kl t).
Notation H := (kH t). Notation m0 := (km0 t). Notation m1 := (km1 t).

Lemma ov_q : q <> 1.
Proof. unfold koverwrite in Hov. destruct (Nat.eqb_spec q 1); [discriminate|assumption]. Qed.
Lemma ov_facts : ainplace t = true /\ L = kp t * m /\ n = 3 /\ D = 1.
Proof.
  pose proof Hov as Ho. unfold koverwrite in Ho. destruct (Nat.eqb_spec q 1); [discriminate|].
  repeat (apply andb_prop in Ho; destruct Ho as [Ho ?]).
  repeat match goal with E : (_ =? _) = true |- _ => apply Nat.eqb_eq in E end. auto.
Qed.
Lemma ov_L : L = l * 2.
Proof.
  destruct ov_facts as (_ & E & _). pose proof (k_even t Hwf ov_q) as [Hp _]. rewrite E, (lP t ov_q), (k_P t). rewrite Hp at 1. lia.
Qed.
Lemma ov_H : H = l. Proof. unfold kH. rewrite ov_L. apply Nat.div_mul. lia. Qed.
Lemma ov_H2 : L / 2 = l. Proof. exact ov_H. Qed.
Lemma ov_m0 : m0 = 0. Proof. unfold km0. rewrite ov_H, <- (k_P t), (lP t ov_q). lia. Qed.
Lemma ov_kb : kb t = SS * l. Proof. reflexivity. Qed.
Lemma ov_p : P + P = kp t.
Proof. pose proof (k_even t Hwf ov_q) as [Hp _]. rewrite (k_P t). lia. Qed.

Variables (f F : addr).
Definition base3 (b : nat) : addr := match b with 0 => f | 1 => f + kb t | _ => F end.
Definition adr3 (i : nat) : addr := if i <? l * 2 then f + SS * i else F + SS * (i - l * 2).
Lemma adr3_base b i : b < 3 -> i < l -> base3 b + SS * i = adr3 (l * b + i).
Proof.
  intros Hb Hi. unfold adr3, kb. destruct b as [|[|[|b]]]; [| | |lia]; unfold base3, kb.
  - destruct (Nat.ltb_spec (l * 0 + i) (l * 2)); [|lia]. f_equal. f_equal. lia.
  - destruct (Nat.ltb_spec (l * 1 + i) (l * 2)); [|lia]. lia.
  - destruct (Nat.ltb_spec (l * 2 + i) (l * 2)); [lia|]. f_equal. f_equal. lia.
Qed.
Lemma adr3_0 i : i < l -> adr3 i = f + SS * i.
Proof. intros Hi. pose proof (adr3_base 0 i ltac:(lia) Hi) as E. rewrite Nat.mul_0_r in E. cbn [base3 Nat.add] in E. auto. Qed.
Lemma adr3_1 i : i < l -> adr3 (l + i) = f + kb t + SS * i.
Proof. intros Hi. pose proof (adr3_base 1 i ltac:(lia) Hi) as E. rewrite Nat.mul_1_r in E. cbn [base3] in E. auto. Qed.
Lemma adr3_2 i : i < l -> adr3 (l * 2 + i) = F + SS * i.
Proof. intros Hi. pose proof (adr3_base 2 i ltac:(lia) Hi) as E. cbn [base3] in E. auto. Qed.
Lemma adr3_f i : i < l * 2 -> adr3 i = f + SS * i.
Proof. intros Hi. unfold adr3. destruct (Nat.ltb_spec i (l * 2)); [reflexivity|lia]. Qed.
Hypothesis Hsep : sepbuf SS CC f L F l.
Lemma adr3_inj : injrows adr3 CC (l * 3).
Proof.
  pose proof (k_CS t Hwf) as HCS. intros i c i' c' Hi Hi' Hc Hc'. unfold adr3.
  destruct (Nat.ltb_spec i (l * 2)), (Nat.ltb_spec i' (l * 2)); intros E.
  - apply (stride_inj SS); lia.
  - exfalso. refine (Hsep i c (i' - l * 2) c' _ _ _ _ _); try assumption; rewrite ?ov_L; lia.
  - exfalso. refine (Hsep i' c' (i - l * 2) c _ _ _ _ _); try assumption; rewrite ?ov_L; lia.
  - assert (i - l * 2 = i' - l * 2 /\ c = c') by (apply (stride_inj SS); lia). lia.
Qed.
Lemma adr3_ne i i' c : i < l * 3 -> i' < l * 3 -> c < CC -> i <> i' -> adr3 i + c <> adr3 i' + c.
Proof. intros Hi Hi' Hc Hne E. apply adr3_inj in E; try assumption. lia. Qed.

(** *** the state after each stage *)
Variables (x : nat -> nat -> C) (mm : mem).
Hypothesis Hsrc : forall j c, j < L -> c < CC -> mm (f + SS * j + c) = Val (x j c).
Hypothesis HFa : forall i c, i < l -> c < CC -> mm (F + SS * i + c) <> Unalloc.
Lemma src3_0 i c : i < l -> c < CC -> mm (adr3 i + c) = Val (x i c).
Proof. intros. rewrite adr3_0 by assumption. apply Hsrc; rewrite ?ov_L; lia. Qed.
Lemma src3_1 i c : i < l -> c < CC -> mm (adr3 (l + i) + c) = Val (x (l + i) c).
Proof. intros. rewrite adr3_f by lia. apply Hsrc; rewrite ?ov_L; lia. Qed.
Lemma src3_2 i c : i < l -> c < CC -> mm (adr3 (l * 2 + i) + c) <> Unalloc.
Proof. intros. rewrite adr3_2 by assumption. auto. Qed.

(** one butterfly: reads rows i and l+i, writes rows i, l+i and 2l+i *)
Lemma bfly R g i c a0 a1 a2 k0 k1 k2 : i < l -> c < CC ->
  a0 = adr3 i + c -> a1 = adr3 (l + i) + c -> a2 = adr3 (l * 2 + i) + c ->
  k0 (x i c) (x (l + i) c) = g i c -> k1 (x i c) (x (l + i) c) = g (l + i) c -> k2 (x i c) (x (l + i) c) = g (l * 2 + i) c ->
  wpe R (row3 adr3 g i (l + i) (l * 2 + i) c)
    (Rd a0 (fun V0 => Rd a1 (fun V1 => Wr a0 (k0 V0 V1) (Wr a1 (k1 V0 V1) (Wr a2 (k2 V0 V1) Ret))))) mm.
Proof.
  intros Hi Hc -> -> -> E0 E1 E2.
  eapply wpe_rd; [right; eexists; left; split; reflexivity|apply src3_0; assumption|].
  eapply wpe_rd; [right; eexists; right; left; split; reflexivity|apply src3_1; assumption|].
  apply row_w3; try reflexivity; try assumption; try (apply adr3_ne; lia).
  - rewrite src3_0 by assumption. discriminate.
  - rewrite src3_1 by assumption. discriminate.
  - apply src3_2; assumption.
Qed.

(** the values of the folded data *)
Notation A := (cstA t rh3 x).
Lemma ov_fold b u s c : 2 < kp t -> b < 3 -> u < P -> s < m ->
  A (l * b + (m * u + s)) c = (zeta q (rh3 b * Z.of_nat u) * (x (l + (m * u + s))%nat c + zeta n (- rh3 b) * x (m * u + s)%nat c))%C.
Proof.
  intros Hp Hb Hu Hs. replace (m * u + s) with (u * m + s) by lia.
  assert (Hlt : u * m + s < l) by (rewrite (lP t ov_q); nia).
  rewrite a_mid; try assumption; try apply ov_q; [|rewrite ov_m0, ov_H, ov_L; lia].
  rewrite ov_H, ov_m0, Nat.sub_0_r. reflexivity.
Qed.
(** p=2 *)
Lemma ov_val2 b s c : kp t = 2 -> b < 3 -> s < m ->
  cval t rh3 x (l * b + s) c = (zeta M (rh3 b * Z.of_nat s) * x (l + s)%nat c + zeta M (rh3 b * (Z.of_nat s - Z.of_nat m)) * x s c)%C.
Proof.
  intros Hp Hb Hs. pose proof (rg2 t Hwf ov_q Hp) as Hg. pose proof (l2 t ov_q Hp) as Hl. pose proof ov_L. pose proof ov_H2 as EH.
  unfold cval. replace (l * b + s) with (s + b * l) by lia. rewrite (Nat.mod_add s b l) by lia.
  rewrite Nat.div_add by lia. rewrite Hl. rewrite (Nat.div_small s m), (Nat.mod_small s m) by lia.
  replace ((s + b * m) mod m) with s by (rewrite Nat.mod_add, Nat.mod_small by lia; reflexivity).
  rewrite (Nat.div_small s m) by lia. cbn [Nat.add].
  rewrite (v_mid t Hwf ov_q Hp) by lia. rewrite EH, Hl, Nat.sub_diag, Nat.sub_0_r. reflexivity.
Qed.
End T.
