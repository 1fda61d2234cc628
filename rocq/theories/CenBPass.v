(** The composition of the pieces of a centered backward pass (S=1 kernels). *)
From Coq Require Import Reals ZArith Arith Lia List Bool.
From Verif Require Import CNum Sums Roots Mem VecModel VecProofs PadModel PadKernels Loops
  PadLemmas PadMath PadGeom Fwd1 PadIndex PadForward Fill CenModel CenMath CenGeom CenFft CenF2 CenPass CenStage CenTw CenOv CenExp CenBack CenB2.

Section T.
Variable t : pad.
Hypothesis Hwf : kwf t.
Hypothesis Hq : kq t <> 1.
Notation L := (aL t).  Notation m := (am t).
Notation q := (kq t).   Notation n := (kn t).   Notation M := (kM t).
Notation D := (kD t).  Notation D0 := (kD0 t). Notation P := (kP t). Notation l := (kl t).

Lemma rowv_shift sg Y e i c : rowv m sg (fun i => Y (l * e + i)) i c = rowv m sg Y (l * e + i) c.
Proof.
  destruct (mP1 t Hwf Hq). unfold rowv. rewrite (lP t Hq). replace (m * P * e + i) with (i + (P * e) * m) by lia.
  rewrite Nat.div_add, Nat.mod_add by lia. apply dft_ext. intros s Hs. f_equal. lia.
Qed.
Lemma bsum_add e B rh rh' Y j c : (forall b, b < B -> rh (e + b) = rh' b) ->
  Cadd (bsum t e rh Y j c) (bsum t B rh' (fun i => Y (l * e + i)) j c) = bsum t (e + B) rh Y j c.
Proof.
  intros HR. unfold bsum. rewrite Csum_split. f_equal. apply Csum_ext. intros b Hb. rewrite <- HR by assumption.
  unfold cb. apply Csum_ext. intros u Hu. apply Csum_ext. intros k Hk. f_equal. f_equal. lia.
Qed.
Lemma bsum_ext B rh rh' Y Y' j c : (forall b, b < B -> rh b = rh' b) ->
  (forall i, i < l * B -> Y i c = Y' i c) -> bsum t B rh Y j c = bsum t B rh' Y' j c.
Proof.
  intros HR HY. destruct (mP1 t Hwf Hq). unfold bsum. apply Csum_ext. intros b Hb. rewrite <- HR by assumption.
  unfold cb. apply Csum_ext. intros u Hu. apply Csum_ext. intros k Hk. f_equal. apply HY.
  rewrite (lP t Hq). assert (m * u + k < m * P) by nia. assert (m * P * (b + 1) <= m * P * B) by (apply Nat.mul_le_mono_l; lia). lia.
Qed.

(** *** one block after another *)
Section Inv.
Variables (f W0 E : nat) (rh : nat -> Z) (Y base : nat -> nat -> C) (m0 : mem).
Hypothesis Hsep : sepbuf 1 1 f L W0 (l * E).
Definition brest (e : nat) (m2 : mem) : Prop :=
  (forall i c, l * e <= i < l * E -> c < 1 -> m2 (W0 + 1 * i + c) = Val (rowv m (-1) Y i c)) /\
  (forall a, ~ inbuf 1 1 f L a -> ~ inbuf 1 1 W0 (l * E) a -> m2 a = m0 a) /\
  (forall a, m0 a <> Unalloc -> m2 a <> Unalloc).
Definition bval (e : nat) (m2 : mem) : Prop :=
  forall j c, j < L -> c < 1 -> m2 (f + 1 * j + c) = Val (Cadd (base j c) (bsum t e rh Y j c)).
Lemma bstep e B rh' ini p m2 : bpiece t B rh' ini p -> e + B <= E ->
  (forall b, b < B -> rh (e + b) = rh' b) ->
  (forall j c, j < L -> c < 1 -> m0 (f + 1 * j + c) <> Unalloc) ->
  (if ini then e = 0 /\ base = (fun _ _ => C0) else bval e m2) ->
  brest e m2 -> WP (p f (W0 + l * e)) m2 (fun m3 => brest (e + B) m3 /\ bval (e + B) m3).
Proof.
  intros Hp HeB HR Hal Hf (R1 & R2 & R3).
  assert (Hle : l * (e + B) <= l * E) by (apply Nat.mul_le_mono_l; lia). rewrite Nat.mul_add_distr_l in Hle.
  assert (Ea : forall i c, W0 + l * e + 1 * i + c = W0 + 1 * (l * e + i) + c) by (intros; lia).
  eapply WP_mono; [|apply (Hp f (W0 + l * e) (fun j c => Cadd (base j c) (bsum t e rh Y j c)) (fun i => Y (l * e + i)) m2)].
  - intros m3 (B1 & B2 & B3).
    assert (Hin : forall a, inbuf 1 1 (W0 + l * e) (l * B) a -> inbuf 1 1 W0 (l * E) a).
    { intros a (i & c & Hi & Hc & ->). exists (l * e + i), c. split; [lia|]. split; [assumption|]. lia. }
    split; [split; [|split]|].
    + intros i c Hi Hc. rewrite Nat.mul_add_distr_l in Hi. rewrite B2.
      * apply R1; [lia|assumption].
      * intros (j & c' & Hj & Hc' & E'). apply (Hsep j c' i c); auto; lia.
      * intros (i' & c' & Hi' & Hc' & E'). lia.
      * intros (i' & c' & Hi' & Hc' & E'). lia.
    + intros a Ha Hb. rewrite B2, R2; auto.
    + auto.
    + intros j c Hj Hc. rewrite B1 by assumption. f_equal. rewrite <- (bsum_add e B rh rh' Y j c HR). destruct ini.
      * destruct Hf as [-> ->]. unfold bsum at 2. cbn [Csum]. ring.
      * ring.
  - intros j c i c' Hj Hc Hi Hc'. rewrite Ea. apply Hsep; auto; lia.
  - intros i c Hi Hc. rewrite Ea, rowv_shift. apply R1; [lia|assumption].
  - intros. apply R3. apply Hal; assumption.
  - intros ->. exact Hf.
Qed.
End Inv.

Hypothesis HS : aS t = 1.
Lemma kpl sg : kfftm t sg = mkplan m sg (P * D) 1 m (ainplace t).
Proof.
  unfold kfftm. destruct (Nat.eqb_spec q 1); [contradiction|]. rewrite HS, (k_S1 t Hwf HS). cbn [Nat.eqb].
  f_equal. lia.
Qed.
Lemma kpl0 sg : (if D0 =? D then kfftm t sg else kfftm0 t sg) = mkplan m sg (P * D0) 1 m (ainplace t).
Proof.
  destruct (Nat.eqb_spec D0 D) as [->|]; [apply kpl|]. unfold kfftm0. f_equal. lia.
Qed.
Variables (zero1 zero2 : addr -> addr -> cmd C) (res1 res2 : addr -> addr -> nat -> cmd C) (nq bb : nat).
Hypothesis Hbb : bb = l.
Hypothesis Hnq : nq = n.
Definition gbtail (f W : addr) (r0 dr0 : nat) : cmd C :=
  if D =? 1 then (if 0 <? dr0 then res1 f W r0 else Skip)
  else cfor dr0 (fun d => res2 f (W + 2 * bb * d) (r0 + d)).
Definition gbpass (F0 f : addr) (r0 : nat) (W : option addr) : cmd C :=
  let W := getW F0 W in
  Seq (fft (if (0 <? r0) || (D0 =? D) then kfftm t (-1) else kfftm0 t (-1)) F0 W)
  (if r0 =? 0 then
     if (D =? 1) || (2 * (nq / 2) <? nq) then
       Seq (zero1 f W) (gbtail f (W + 1 * bb) 1 ((D0 - 1) / 2))
     else
       Seq (zero2 f W) (gbtail f (W + 2 * bb) 1 ((D0 - 2) / 2))
   else gbtail f W r0 (kdr t)).
Hypothesis Hz1 : bpiece t 1 (fun _ => 0%Z) true zero1.
Hypothesis Hz2 : n mod 2 = 0 -> bpiece t 2 (fun b => if b =? 0 then 0%Z else Z.of_nat (n / 2)) true zero2.
Hypothesis Hr1 : forall r, 1 <= r < n -> bpiece t 1 (fun _ => Z.of_nat r) false (fun f W => res1 f W r).
Hypothesis Hr2 : forall r, 1 <= r < n ->
  bpiece t 2 (fun b => if b =? 0 then Z.of_nat r else (- Z.of_nat r)%Z) false (fun f W => res2 f W r).

Lemma gbtail_ok f W0 Wt r0 dr0 e0 E (rh : nat -> Z) Y base (m0 m1 : mem) :
  Wt = W0 + l * e0 ->
  E = e0 + (if D =? 1 then dr0 else 2 * dr0) ->
  (D = 1 -> dr0 <= 1) ->
  1 <= r0 -> (1 <= dr0 -> r0 + dr0 <= n) ->
  sepbuf 1 1 f L W0 (l * E) ->
  (forall j c, j < L -> c < 1 -> m0 (f + 1 * j + c) <> Unalloc) ->
  brest f W0 E Y m0 e0 m1 -> bval f rh Y base e0 m1 ->
  (forall e, e0 <= e < E -> rh e = tailrho D r0 (e - e0)) ->
  WP (gbtail f Wt r0 dr0) m1 (fun m2 => brest f W0 E Y m0 E m2 /\ bval f rh Y base E m2).
Proof.
  intros HWt HE HD1 Hr0 Hrn Hsep Hal Hre Hva Hrh. unfold gbtail.
  destruct (Nat.eqb_spec D 1) as [ED|ED].
  - destruct (Nat.ltb_spec 0 dr0) as [Hd|Hd].
    + assert (dr0 = 1) by lia. subst dr0. assert (HE1 : E = e0 + 1) by lia. rewrite HWt, HE1 in *.
      apply (bstep f W0 (e0 + 1) rh Y base m0 Hsep e0 1 (fun _ => Z.of_nat r0) false (fun f W => res1 f W r0)); try assumption.
      * apply Hr1. lia.
      * lia.
      * intros b Hb. rewrite Hrh by lia. unfold tailrho. rewrite ED. reflexivity.
    + apply WP_skip. replace E with e0 in * by lia. auto.
  - eapply WP_mono; [|apply (WP_cfor C dr0 _ (fun d m2 => brest f W0 E Y m0 (e0 + 2 * d) m2 /\ bval f rh Y base (e0 + 2 * d) m2))].
    + intros m2 H2. cbv beta in H2. rewrite <- HE in H2. exact H2.
    + replace (e0 + 2 * 0) with e0 by lia. auto.
    + intros d m2 Hd [H2 H2'].
      assert (EW : Wt + 2 * bb * d = W0 + l * (e0 + 2 * d)) by (rewrite HWt, Hbb; lia). rewrite EW.
      replace (e0 + 2 * S d) with (e0 + 2 * d + 2) by lia.
      apply (bstep f W0 E rh Y base m0 Hsep (e0 + 2 * d) 2 (fun b => if b =? 0 then Z.of_nat (r0 + d) else (- Z.of_nat (r0 + d))%Z) false (fun f W => res2 f W (r0 + d))); try assumption.
      * apply Hr2. lia.
      * lia.
      * intros b Hb. rewrite Hrh by lia. destruct b as [|[|b]]; [| |lia]; cbn [Nat.eqb].
        -- replace (e0 + 2 * d + 0 - e0) with (2 * d) by lia. apply tailrho_even. assumption.
        -- replace (e0 + 2 * d + 1 - e0) with (2 * d + 1) by lia. apply tailrho_odd. assumption.
Qed.

Lemma gbpass_ok f F0 W r y acc (m0 : mem) (W0 := getW F0 W) (E := kblocks t r) :
  passr (sh t) r -> ainplace t = (W0 =? F0) ->
  sepbuf 1 1 f L W0 (l * E) -> (W0 = F0 \/ sepbuf 1 1 W0 (l * E) F0 (l * E)) ->
  (forall i c, i < l * E -> c < 1 -> m0 (F0 + 1 * i + c) = Val (y i c)) ->
  (forall i c, i < l * E -> c < 1 -> m0 (W0 + 1 * i + c) <> Unalloc) ->
  (forall j c, j < L -> c < 1 -> m0 (f + 1 * j + c) <> Unalloc) ->
  (r <> 0 -> forall j c, j < L -> c < 1 -> m0 (f + 1 * j + c) = Val (acc j c)) ->
  WP (gbpass F0 f r W) m0 (bdone 1 1 f L F0 W0 (l * E)
    (fun j c => Cadd (if r =? 0 then C0 else acc j c) (bsum t E (krho t r) y j c)) m0).
Proof.
  intros Hpass Hin Hsep HWF Hsrc HWa Hfa Hacc.
  pose proof (sh_wf t Hwf) as Hw. pose proof (sh_p t Hwf) as Ep. pose proof (sh_n t Hwf) as En.
  pose proof (sh_D t Hwf) as ED. pose proof (sh_D0 t Hwf) as ED0. pose proof (sh_dr t Hwf) as Edr.
  pose proof (sh_q t Hwf) as Eq. pose proof (k_n2 t Hwf Hq) as Hn2.
  assert (Hshq : gq (sh t) <> 1) by lia.
  pose proof (D0_bounds _ Hw) as HB. pose proof (D0_le_n _ Hw) as HB'. rewrite ED0, ED, En in *.
  unfold gbpass. cbv zeta. fold W0.
  assert (Epl : (if (0 <? r) || (D0 =? D) then kfftm t (-1) else kfftm0 t (-1)) = mkplan m (-1) (P * E) 1 m (ainplace t)).
  { unfold E, kblocks. destruct (Nat.eqb_spec r 0) as [->|Hr].
    - change (0 <? 0) with false. cbn [orb]. apply kpl0.
    - destruct (Nat.ltb_spec 0 r); [|lia]. cbn [orb]. apply kpl. }
  rewrite Epl. apply WP_seq.
  assert (ElE : l * E = m * (P * E)) by (rewrite (lP t Hq); lia).
  eapply WP_mono; [|apply (rows1_ok t Hwf Hq (-1) (P * E) F0 W0 y m0)].
  2:{ rewrite Hin. apply Nat.eqb_sym. }
  2:{ rewrite <- ElE. assumption. }
  2:{ rewrite <- ElE. assumption. }
  2:{ rewrite <- ElE. destruct HWF as [|HW]; [auto|right; apply sepbuf_sym; assumption]. }
  rewrite <- ElE. intros m1 (S1 & S2 & S3).
  assert (Hre0 : brest f W0 E y m0 0 m1).
  { split; [|split].
    - intros i c Hi Hc. apply S1; [lia|assumption].
    - intros a _ Hb. apply S2. apply outs_inbuf. assumption.
    - assumption. }
  set (base := fun j c => if r =? 0 then C0 else acc j c).
  assert (Hfin : forall m2, brest f W0 E y m0 E m2 /\ bval f (krho t r) y base E m2 ->
    bdone 1 1 f L F0 W0 (l * E) (fun j c => Cadd (if r =? 0 then C0 else acc j c) (bsum t E (krho t r) y j c)) m0 m2).
  { intros m2 ((R1 & R2 & R3) & V). split; [exact V|]. split; [|exact R3]. intros a Ha Hb _. apply R2; assumption. }
  unfold E, kblocks in *. clear E. destruct (Nat.eqb_spec r 0) as [Hr|Hr].
  - assert (Hb0 : base = (fun _ _ => C0)) by reflexivity.
    destruct ((D =? 1) || (2 * (nq / 2) <? nq)) eqn:Ec.
    + assert (Hodd : D = 1 \/ n mod 2 = 1).
      { apply orb_prop in Ec. destruct Ec as [Ec|Ec]; [left; apply Nat.eqb_eq; assumption|right].
        apply Nat.ltb_lt in Ec. rewrite Hnq in Ec. pose proof (Nat.div_mod n 2 ltac:(lia)).
        pose proof (Nat.mod_upper_bound n 2 ltac:(lia)). lia. }
      pose proof (D0_odd _ Hw Hshq) as HD0. rewrite ED0, ED, En in HD0. specialize (HD0 Hodd).
      apply WP_seq. replace W0 with (W0 + l * 0) at 1 by lia.
      eapply WP_mono; [|apply (bstep f W0 D0 (krho t r) y base m0 Hsep 0 1 (fun _ => 0%Z) true zero1); try assumption].
      * intros m2 [H2 H2']. cbn [Nat.add] in H2, H2'. eapply WP_mono; [exact Hfin|].
        apply (gbtail_ok f W0 _ 1 ((D0 - 1) / 2) 1 D0); try assumption.
        -- rewrite Hbb. lia.
        -- intros E1. rewrite E1 in HB. replace D0 with 1 by lia. cbn. lia.
        -- lia.
        -- pose proof (Nat.div_le_upper_bound (D0 - 1) 2 (D0 - 1) ltac:(lia) ltac:(lia)). lia.
        -- intros e He. destruct (Nat.eq_dec D 1) as [D1|D1].
           { exfalso. rewrite D1 in HB. lia. }
           unfold krho. rewrite <- ED, Hr. apply (rho_tail0 (sh t)); [lia|lia| |lia]. rewrite En.
           destruct Hodd as [|Hodd]; [contradiction|]. rewrite Hodd. reflexivity.
      * lia.
      * intros b Hb. replace (0 + b) with 0 by lia. rewrite Hr. apply rho_00. lia.
      * auto.
    + apply orb_false_elim in Ec. destruct Ec as [Ec1 Ec2]. apply Nat.eqb_neq in Ec1. apply Nat.ltb_ge in Ec2.
      assert (Hev : n mod 2 = 0).
      { rewrite Hnq in Ec2. pose proof (Nat.div_mod n 2 ltac:(lia)). lia. }
      pose proof (D0_even _ Hw Hshq) as HD0. rewrite ED0, ED, En in HD0. specialize (HD0 Ec1 Hev).
      apply WP_seq. replace W0 with (W0 + l * 0) at 1 by lia.
      eapply WP_mono; [|apply (bstep f W0 D0 (krho t r) y base m0 Hsep 0 2 (fun b => if b =? 0 then 0%Z else Z.of_nat (n / 2)) true zero2); try assumption].
      * intros m2 [H2 H2']. cbn [Nat.add] in H2, H2'. eapply WP_mono; [exact Hfin|].
        apply (gbtail_ok f W0 _ 1 ((D0 - 2) / 2) 2 D0); try assumption.
        -- rewrite Hbb. lia.
        -- intros; contradiction.
        -- lia.
        -- pose proof (Nat.div_le_upper_bound (D0 - 2) 2 (D0 - 2) ltac:(lia) ltac:(lia)). lia.
        -- intros e He. unfold krho. rewrite <- ED, Hr. apply (rho_tail0 (sh t)); [lia|lia| |lia]. rewrite En, Hev. reflexivity.
      * apply Hz2. assumption.
      * lia.
      * intros b Hb. unfold krho. rewrite Hr. destruct b as [|[|b]]; [| |lia]; cbn [Nat.eqb Nat.add].
        -- apply rho_00. lia.
        -- rewrite (rho_01 (sh t)); [|lia|lia|rewrite En; assumption]. rewrite Ep, Eq. reflexivity.
      * auto.
  - assert (HrR : r + kdr t <= n).
    { destruct Hpass as [|(_ & _ & H)]; [contradiction|]. pose proof (R_le_n _ Hw). rewrite En, Edr in *. lia. }
    eapply WP_mono; [exact Hfin|]. apply (gbtail_ok f W0 W0 r (kdr t) 0 D); try assumption.
    + lia.
    + destruct (Nat.eqb_spec D 1) as [D1|D1].
      * rewrite <- Edr, dr_D1 by lia. lia.
      * pose proof (D_even (sh t) r Hw Hshq) as HDe. rewrite Ep, ED in HDe.
        rewrite <- Edr. rewrite (dr_pair (sh t)); [|assumption|lia|pose proof (k_D t Hwf); lia]. rewrite ED.
        cbn [Nat.add]. apply HDe; try assumption; try lia; pose proof (k_D t Hwf); lia.
    + intros D1. rewrite <- Edr, dr_D1 by lia. lia.
    + lia.
    + intros _. assumption.
    + intros j c Hj Hc. rewrite S2.
      * rewrite (Hacc Hr) by assumption. unfold bsum, base. cbn [Csum]. f_equal. ring.
      * intros i c' Hi Hc'. apply Hsep; assumption.
    + intros e He. rewrite Nat.sub_0_r. unfold krho. destruct (Nat.eq_dec D 1) as [D1|D1].
      * rewrite rho_D1 by lia. unfold tailrho. rewrite D1. reflexivity.
      * rewrite <- ED. apply rho_tail; lia.
Qed.
End T.
