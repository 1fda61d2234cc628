(** Direct Hermitian convolutions in two and three dimensions. *)
From Coq Require Import Reals ZArith Arith Lia List Bool FunctionalExtensionality.
From Verif Require Import CNum Sums Mem PadModel PadSpec ConvSpec LayerSpec WrapModel WrapSpec Wrap1 Wrap2 DirModel DirSpec Dir1 Dir2.
Import ListNotations.
Notation mem := (Mem.mem C).
Local Open Scope nat_scope.

Lemma b2z_odd L : Z.b2z (Nat.odd L) = Z.of_nat (L mod 2).
Proof. rewrite <- (Nat.bit0_mod L), Nat.bit0_odd. destruct (Nat.odd L); reflexivity. Qed.
Lemma b2z_even L : Z.b2z (negb (Nat.odd L)) = (1 - Z.of_nat (L mod 2))%Z.
Proof. rewrite <- b2z_odd. destruct (Nat.odd L); reflexivity. Qed.
Lemma xo_eq L : (Z.of_nat ((L + 1) / 2) - Z.b2z (Nat.odd L))%Z = Z.of_nat (L / 2).
Proof. rewrite b2z_odd. destruct (half_eq L) as [E1 E2]. lia. Qed.
Lemma x1_eq L : (- Z.of_nat (L / 2) + Z.b2z (negb (Nat.odd L)))%Z = (1 - Z.of_nat ((L + 1) / 2))%Z.
Proof. rewrite b2z_even. destruct (half_eq L) as [E1 E2]. lia. Qed.
Lemma wp_rdZ p d k v (m : mem) Q a : (Z.of_nat p + d = Z.of_nat a)%Z -> m a = Val v -> wp T T (k v) m Q -> wp T T (rdZ p d k) m Q.
Proof.
  intros E Hv Hk. unfold rdZ. rewrite E. destruct (Z.leb_spec 0 (Z.of_nat a)); [|lia]. rewrite Nat2Z.id. cbn [wp]. split; [left; exact Logic.I|]. exists v. auto.
Qed.
Lemma wp_wrZ p d k v (m : mem) Q a : (Z.of_nat p + d = Z.of_nat a)%Z -> m a <> Unalloc -> wp T T k (upd m a (Val v)) Q -> wp T T (wrZ p d v k) m Q.
Proof.
  intros E Hv Hk. unfold wrZ. rewrite E. destruct (Z.leb_spec 0 (Z.of_nat a)); [|lia]. rewrite Nat2Z.id. cbn [wp]. split; [exact Logic.I|]. auto.
Qed.

(** *** two dimensions *)
Section Two.
Variables (L H Sx : nat).
Hypothesis (HL : 1 <= L) (HH : 1 <= H).
Notation K := ((L + 1) / 2).
Notation xo := (L / 2).
Definition in2 (px py : Z) : Prop := (Z.abs px < Z.of_nat K)%Z /\ (Z.abs py < Z.of_nat H)%Z.
(** the modes of F are stored at p *)
Definition st_her2 (p : addr) (F : Z -> Z -> C) (m : mem) : Prop :=
  (forall px j, (Z.abs px < Z.of_nat K)%Z -> j < H -> m (p + (Sx * Z.to_nat (Z.of_nat xo + px) + j)) = Val (F px (Z.of_nat j))) /\
  (forall px py, F (- px)%Z (- py)%Z = Cconj (F px py)).
Lemma wp_half2 p F px py k (m : mem) Q : st_her2 p F m -> in2 px py -> wp T T (k (F px py)) m Q -> wp T T (half2 (Z.of_nat Sx) (Z.of_nat xo) p px py k) m Q.
Proof.
  intros [S1 S2] [I1 I2] Hk. destruct (half_eq L) as [E1 E2]. unfold half2. destruct (Z.leb_spec 0 py).
  - eapply wp_rdZ; [|apply (S1 px (Z.to_nat py)); lia|]; [|rewrite Z2Nat.id by lia; exact Hk]. rewrite !Nat2Z.inj_add, Nat2Z.inj_mul, !Z2Nat.id by lia. ring.
  - eapply wp_rdZ; [|apply (S1 (- px)%Z (Z.to_nat (- py))); lia|]; [|rewrite Z2Nat.id by lia; rewrite S2, Cconj_2; exact Hk].
    rewrite !Nat2Z.inj_add, Nat2Z.inj_mul, !Z2Nat.id by lia. ring.
Qed.
Variables (h f g : nat) (F G : Z -> Z -> C) (blk : addr -> Prop) (m0 : mem).
Hypothesis HF : forall m1, only (block h (L * H)) m0 m1 -> st_her2 f F m1.
Hypothesis HG : forall m1, only (block h (L * H)) m0 m1 -> st_her2 g G m1.
Hypothesis G0 : forall px py, ~ in2 px py -> G px py = C0.
Hypothesis Hh : forall o, o < L * H -> m0 (h + o) <> Unalloc.
Lemma loops2_ok : WP (Par 1 (fun _ => loops2 K H (Nat.odd L) Sx h f g)) m0 (fun m' =>
  (forall i j, i < L -> j < H -> m' (h + (i * H + j)) = Val (zconv2 L H F G (wave L i) (Z.of_nat j))) /\ only (block h (L * H)) m0 m').
Proof.
  destruct (half_eq L) as [E1 E2]. apply WP_seqprog. unfold loops2. cbv zeta. rewrite xo_eq, x1_eq.
  replace (Z.to_nat (Z.of_nat K - - Z.of_nat xo)) with L by lia.
  eapply wp_mono; [|apply (st2 L H (fun i j => h + (i * H + j)) (fun i j => zconv2 L H F G (wave L i) (Z.of_nat j)) _ (block h (L * H)) m0)].
  - intros m' [A B]. split; [exact A|]. eapply only_sub; [exact B|]. intros a (i & j & Hi & Hj & ->). pose proof (dense2_lt L H i j Hi Hj). unfold block. lia.
  - intros i j Hi Hj. pose proof (dense2_lt L H i j Hi Hj). unfold block. lia.
  - intros i j Hi Hj. apply Hh. apply dense2_lt; assumption.
  - intros i j i' j' Hi Hj Hi' Hj' E. apply (dense2 H); [assumption|assumption|lia].
  - intros i j m1 Q Hi Hj Hm1 Ha HQ. set (p := h + (i * H + j)) in *.
    assert (Hp : block h (L * H) p) by (pose proof (dense2_lt L H i j Hi Hj); unfold p, block; lia).
    set (v := fun c => zsum H (fun py => Cmul (F (Z.of_nat c - (Z.of_nat K - 1))%Z py) (G (wave L i - (Z.of_nat c - (Z.of_nat K - 1)))%Z (Z.of_nat j - py)%Z))).
    match goal with |- wp _ _ (sumloop _ ?b _ _) _ _ => set (body := b) end.
    assert (Hbody : forall c s k m2, c < 2 * K - 1 -> only (block h (L * H)) m0 m2 -> m2 p <> Unalloc ->
      wp T T (k (Cadd s (v c))) (upd m2 p (Val (Cadd s (v c)))) Q -> wp T T (body c s k) m2 Q).
    { intros c s k m2 Hc Hm2 Ha2 Hk. unfold body. replace (Z.to_nat (Z.of_nat H - (1 - Z.of_nat H))) with (2 * H - 1) by lia.
      pose proof (HF m2 Hm2) as SF. pose proof (HG m2 Hm2) as SG.
      set (px := (1 - Z.of_nat K + Z.of_nat c)%Z) in *. replace (- Z.of_nat xo + Z.of_nat i)%Z with (wave L i) by (unfold wave; lia).
      apply (wp_sum _ _ (fun d => Cmul (F px (Z.of_nat d - (Z.of_nat H - 1))%Z) (G (wave L i - px)%Z (Z.of_nat j - (Z.of_nat d - (Z.of_nat H - 1)))%Z))).
      - intros d s' k' Hd Hk'. set (py := (1 - Z.of_nat H + Z.of_nat d)%Z) in *. replace (Z.of_nat d - (Z.of_nat H - 1))%Z with py in Hk' by (unfold py; lia).
        assert (Hout : ~ in2 (wave L i - px) (Z.of_nat j - py) -> wp T T (k' s') m2 Q).
        { intros Hn. rewrite (G0 _ _ Hn), Cmul_0_r, Cadd_0_r in Hk'. exact Hk'. }
        destruct (Z.leb_spec (1 - Z.of_nat K) (wave L i - px)); destruct (Z.ltb_spec (wave L i - px) (Z.of_nat K)); cbn [andb]; try (apply Hout; unfold in2; lia).
        destruct (Z.leb_spec (1 - Z.of_nat H) (Z.of_nat j - py)); destruct (Z.ltb_spec (Z.of_nat j - py) (Z.of_nat H)); cbn [andb]; try (apply Hout; unfold in2; lia).
        apply (wp_half2 f F); [exact SF|unfold in2, px, py; lia|]. apply (wp_half2 g G); [exact SG|unfold in2; lia|]. exact Hk'.
      - apply (wp_wrZ _ _ _ _ _ _ p); [unfold p, wave; rewrite !Nat2Z.inj_add, Nat2Z.inj_mul; ring|exact Ha2|].
        unfold v, zsum in Hk. replace (Z.of_nat c - (Z.of_nat K - 1))%Z with px in Hk by (unfold px; lia). exact Hk. }
    replace (Z.to_nat (Z.of_nat K - (1 - Z.of_nat K))) with (S (2 * K - 2)) by lia.
    apply (wp_sumw _ _ v p).
    + intros c s k z Hc Hk. apply Hbody; [lia| | |rewrite upd_upd; exact Hk].
      * eapply only_trans; [exact Hm1|]. split; [intros a Hn; apply upd_neq; intros <-; exact (Hn Hp)|intros a Hn; unfold upd; destruct (p =? a); [discriminate|exact Hn]].
      * rewrite upd_eq. discriminate.
    + intros s k Hk. apply Hbody; [lia|exact Hm1|exact Ha|exact Hk].
    + rewrite Cadd_0_l. replace (S (2 * K - 2)) with (2 * K - 1) by lia. exact HQ.
  - split; auto.
Qed.
End Two.

(** *** three dimensions *)
Section Three.
Variables (L L' H Sx Sy : nat).
Hypothesis (HL : 1 <= L) (HL' : 1 <= L') (HH : 1 <= H).
Notation K := ((L + 1) / 2).
Notation K' := ((L' + 1) / 2).
Notation xo := (L / 2).
Notation yo := (L' / 2).
Definition in3 (px py pz : Z) : Prop := (Z.abs px < Z.of_nat K)%Z /\ (Z.abs py < Z.of_nat K')%Z /\ (Z.abs pz < Z.of_nat H)%Z.
Definition st_her3 (p : addr) (F : Z -> Z -> Z -> C) (m : mem) : Prop :=
  (forall px py l, (Z.abs px < Z.of_nat K)%Z -> (Z.abs py < Z.of_nat K')%Z -> l < H ->
     m (p + (Sx * Z.to_nat (Z.of_nat xo + px) + Sy * Z.to_nat (Z.of_nat yo + py) + l)) = Val (F px py (Z.of_nat l))) /\
  (forall px py pz, F (- px)%Z (- py)%Z (- pz)%Z = Cconj (F px py pz)).
Lemma wp_half3 p F px py pz k (m : mem) Q : st_her3 p F m -> in3 px py pz -> wp T T (k (F px py pz)) m Q ->
  wp T T (half3 (Z.of_nat Sx) (Z.of_nat Sy) (Z.of_nat xo) (Z.of_nat yo) p px py pz k) m Q.
Proof.
  intros [S1 S2] [I1 [I2 I3]] Hk. destruct (half_eq L) as [E1 E2]. destruct (half_eq L') as [E1' E2']. unfold half3. destruct (Z.leb_spec 0 pz).
  - eapply wp_rdZ; [|apply (S1 px py (Z.to_nat pz)); lia|]; [|rewrite Z2Nat.id by lia; exact Hk]. rewrite !Nat2Z.inj_add, !Nat2Z.inj_mul, !Z2Nat.id by lia. ring.
  - eapply wp_rdZ; [|apply (S1 (- px)%Z (- py)%Z (Z.to_nat (- pz))); lia|]; [|rewrite Z2Nat.id by lia; rewrite S2, Cconj_2; exact Hk].
    rewrite !Nat2Z.inj_add, !Nat2Z.inj_mul, !Z2Nat.id by lia. ring.
Qed.
Variables (h f g : nat) (F G : Z -> Z -> Z -> C) (m0 : mem).
Hypothesis HF : forall m1, only (block h (L * L' * H)) m0 m1 -> st_her3 f F m1.
Hypothesis HG : forall m1, only (block h (L * L' * H)) m0 m1 -> st_her3 g G m1.
Hypothesis G0 : forall px py pz, ~ in3 px py pz -> G px py pz = C0.
Hypothesis Hh : forall o, o < L * L' * H -> m0 (h + o) <> Unalloc.
Lemma loops3_ok : WP (Par 1 (fun _ => loops3 K K' H (Nat.odd L) (Nat.odd L') Sx Sy h f g)) m0 (fun m' =>
  (forall i j l, i < L -> j < L' -> l < H -> m' (h + (i * (L' * H) + j * H + l)) = Val (zconv3 L L' H F G (wave L i) (wave L' j) (Z.of_nat l))) /\ only (block h (L * L' * H)) m0 m').
Proof.
  destruct (half_eq L) as [E1 E2]. destruct (half_eq L') as [E1' E2']. apply WP_seqprog. unfold loops3. cbv zeta. rewrite !xo_eq, !x1_eq.
  replace (Z.to_nat (Z.of_nat K - - Z.of_nat xo)) with L by lia. replace (Z.to_nat (Z.of_nat K' - - Z.of_nat yo)) with L' by lia.
  apply (st3 L L' H (fun i j l => h + (i * (L' * H) + j * H + l)) (fun i j l => zconv3 L L' H F G (wave L i) (wave L' j) (Z.of_nat l)) _ (block h (L * L' * H)) m0).
  - intros i j l Hi Hj Hl. pose proof (dense3_lt L L' H i j l Hi Hj Hl). unfold block. lia.
  - intros i j l Hi Hj Hl. apply Hh. apply dense3_lt; assumption.
  - intros i j l i' j' l' Hi Hj Hl Hi' Hj' Hl' E. apply (dense3 L' H); try assumption. lia.
  - intros i j l m1 Q Hi Hj Hl Hm1 Ha HQ. set (p := h + (i * (L' * H) + j * H + l)) in *.
    pose proof (HF m1 Hm1) as SF. pose proof (HG m1 Hm1) as SG.
    replace (- Z.of_nat xo + Z.of_nat i)%Z with (wave L i) by (unfold wave; lia). replace (- Z.of_nat yo + Z.of_nat j)%Z with (wave L' j) by (unfold wave; lia).
    replace (Z.to_nat (Z.of_nat K - (1 - Z.of_nat K))) with (2 * K - 1) by lia. replace (Z.to_nat (Z.of_nat K' - (1 - Z.of_nat K'))) with (2 * K' - 1) by lia.
    replace (Z.to_nat (Z.of_nat H - (1 - Z.of_nat H))) with (2 * H - 1) by lia.
    set (w := fun px py pz => Cmul (F px py pz) (G (wave L i - px)%Z (wave L' j - py)%Z (Z.of_nat l - pz)%Z)).
    apply (wp_sum _ _ (fun a => zsum K' (fun py => zsum H (fun pz => w (Z.of_nat a - (Z.of_nat K - 1))%Z py pz)))).
    + intros a s k Ha' Hk. cbv beta zeta. set (px := (1 - Z.of_nat K + Z.of_nat a)%Z) in *. replace (Z.of_nat a - (Z.of_nat K - 1))%Z with px in Hk by (unfold px; lia).
      apply (wp_sum _ _ (fun b => zsum H (fun pz => w px (Z.of_nat b - (Z.of_nat K' - 1))%Z pz))); [|exact Hk].
      intros b s1 k1 Hb Hk1. cbv beta zeta. set (py := (1 - Z.of_nat K' + Z.of_nat b)%Z) in *. replace (Z.of_nat b - (Z.of_nat K' - 1))%Z with py in Hk1 by (unfold py; lia).
      apply (wp_sum _ _ (fun c => w px py (Z.of_nat c - (Z.of_nat H - 1))%Z)); [|exact Hk1].
      intros c s2 k2 Hc Hk2. cbv beta zeta. set (pz := (1 - Z.of_nat H + Z.of_nat c)%Z) in *. replace (Z.of_nat c - (Z.of_nat H - 1))%Z with pz in Hk2 by (unfold pz; lia).
      assert (Hout : ~ in3 (wave L i - px) (wave L' j - py) (Z.of_nat l - pz) -> wp T T (k2 s2) m1 Q).
      { intros Hn. unfold w in Hk2. rewrite (G0 _ _ _ Hn), Cmul_0_r, Cadd_0_r in Hk2. exact Hk2. }
      destruct (Z.leb_spec (1 - Z.of_nat K) (wave L i - px)); destruct (Z.ltb_spec (wave L i - px) (Z.of_nat K)); cbn [andb]; try (apply Hout; unfold in3; lia).
      destruct (Z.leb_spec (1 - Z.of_nat K') (wave L' j - py)); destruct (Z.ltb_spec (wave L' j - py) (Z.of_nat K')); cbn [andb]; try (apply Hout; unfold in3; lia).
      destruct (Z.leb_spec (1 - Z.of_nat H) (Z.of_nat l - pz)); destruct (Z.ltb_spec (Z.of_nat l - pz) (Z.of_nat H)); cbn [andb]; try (apply Hout; unfold in3; lia).
      apply (wp_half3 f F); [exact SF|unfold in3, px, py, pz; lia|]. apply (wp_half3 g G); [exact SG|unfold in3; lia|]. exact Hk2.
    + apply (wp_wrZ _ _ _ _ _ _ p); [|exact Ha|].
      * replace (2 * Z.of_nat K' - Z.b2z (Nat.odd L'))%Z with (Z.of_nat L') by (pose proof (xo_eq L'); lia).
        unfold p, wave. rewrite !Nat2Z.inj_add, !Nat2Z.inj_mul. ring.
      * rewrite Cadd_0_l. cbn [wp]. unfold zconv3, zsum in HQ |- *. exact HQ.
Qed.
End Three.

(** *** symmetrization of the data *)
Lemma her2_conj L H x px py : her2 L H x (- px) (- py) = Cconj (her2 L H x px py).
Proof.
  unfold her2. rewrite !Z.abs_opp. destruct ((2 * Z.abs px <? Z.of_nat L)%Z && (Z.abs py <? Z.of_nat H)%Z); [|symmetry; apply Cconj_0].
  destruct (Z.ltb_spec 0 py); destruct (Z.ltb_spec 0 (- py)); destruct (Z.eqb_spec py 0); destruct (Z.eqb_spec (- py) 0); try lia; cbn [orb andb].
  - do 2 f_equal; lia.
  - rewrite Cconj_2. f_equal; lia.
  - destruct (Z.ltb_spec 0 px); destruct (Z.ltb_spec 0 (- px)); destruct (Z.eqb_spec px 0); destruct (Z.eqb_spec (- px) 0); try lia; cbn [andb orb].
    + do 2 f_equal; lia.
    + rewrite Cconj_2. f_equal; lia.
    + rewrite Cconj_R. reflexivity.
Qed.
Lemma her3_conj L L' H x px py pz : her3 L L' H x (- px) (- py) (- pz) = Cconj (her3 L L' H x px py pz).
Proof.
  unfold her3. rewrite !Z.abs_opp. destruct ((2 * Z.abs px <? Z.of_nat L)%Z && (2 * Z.abs py <? Z.of_nat L')%Z && (Z.abs pz <? Z.of_nat H)%Z); [|symmetry; apply Cconj_0].
  destruct (Z.ltb_spec 0 pz); destruct (Z.ltb_spec 0 (- pz)); destruct (Z.eqb_spec pz 0); destruct (Z.eqb_spec (- pz) 0); try lia; cbn [orb andb].
  - do 2 f_equal; lia.
  - rewrite Cconj_2. f_equal; lia.
  - destruct (Z.ltb_spec 0 py); destruct (Z.ltb_spec 0 (- py)); destruct (Z.eqb_spec py 0); destruct (Z.eqb_spec (- py) 0); try lia; cbn [andb orb].
    + do 2 f_equal; lia.
    + rewrite Cconj_2. f_equal; lia.
    + destruct (Z.ltb_spec 0 px); destruct (Z.ltb_spec 0 (- px)); destruct (Z.eqb_spec px 0); destruct (Z.eqb_spec (- px) 0); try lia; cbn [andb orb].
      * do 2 f_equal; lia.
      * rewrite Cconj_2. f_equal; lia.
      * rewrite Cconj_R. reflexivity.
Qed.
Lemma sX_her2 L H x px j : 1 <= L -> (Z.abs px < Z.of_nat ((L + 1) / 2))%Z -> j < H -> sX L x (Z.to_nat (Z.of_nat (L / 2) + px)) j = her2 L H x px (Z.of_nat j).
Proof.
  intros HL Hp Hj. destruct (half_eq L) as [E1 E2]. unfold sX, her2.
  destruct (Z.ltb_spec (2 * Z.abs px) (Z.of_nat L)); [|lia]. destruct (Z.ltb_spec (Z.abs (Z.of_nat j)) (Z.of_nat H)); [|lia]. cbn [andb].
  set (i := Z.to_nat (Z.of_nat (L / 2) + px)).
  assert (En : (L mod 2 =? 0) && (i =? 0) = false). { destruct (Nat.eqb_spec (L mod 2) 0); [|reflexivity]. destruct (Nat.eqb_spec i 0); [unfold i in *; lia|reflexivity]. }
  rewrite En. destruct (Nat.eqb_spec j 0) as [->|].
  - change (0 <? Z.of_nat 0)%Z with false. change (Z.of_nat 0 =? 0)%Z with true. cbn [orb andb].
    destruct (Z.ltb_spec 0 px); destruct (Nat.ltb_spec (L / 2) i); try (unfold i in *; lia); [reflexivity|].
    destruct (Z.eqb_spec px 0); destruct (Nat.eqb_spec i (L / 2)); try (unfold i in *; lia); [rewrite Nat2Z.id; reflexivity|]. f_equal. f_equal; unfold i; lia.
  - destruct (Z.ltb_spec 0 (Z.of_nat j)); [|lia]. cbn [orb]. rewrite Nat2Z.id. reflexivity.
Qed.
