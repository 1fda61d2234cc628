(** The direct Hermitian convolutions, and the stride of the symmetrization. *)
From Coq Require Import Reals ZArith Arith Lia Lra List Bool FunctionalExtensionality.
From Verif Require Import CNum Sums Mem PadModel PadSpec ConvSpec LayerSpec WrapModel WrapSpec Wrap1 Wrap2 DirModel DirSpec Dir1 Dir2 Dir3.
Import ListNotations.
Notation mem := (Mem.mem C).
Local Open Scope nat_scope.

Lemma sXY_her3 L L' H x px py l : 1 <= L -> 1 <= L' -> (Z.abs px < Z.of_nat ((L + 1) / 2))%Z -> (Z.abs py < Z.of_nat ((L' + 1) / 2))%Z -> l < H ->
  sXY L L' x (Z.to_nat (Z.of_nat (L / 2) + px)) (Z.to_nat (Z.of_nat (L' / 2) + py)) l = her3 L L' H x px py (Z.of_nat l).
Proof.
  intros HL HL' Hp Hq Hl. destruct (half_eq L) as [E1 E2]. destruct (half_eq L') as [E1' E2']. unfold sXY, her3.
  destruct (Z.ltb_spec (2 * Z.abs px) (Z.of_nat L)); [|lia]. destruct (Z.ltb_spec (2 * Z.abs py) (Z.of_nat L')); [|lia]. destruct (Z.ltb_spec (Z.abs (Z.of_nat l)) (Z.of_nat H)); [|lia]. cbn [andb].
  set (i := Z.to_nat (Z.of_nat (L / 2) + px)). set (j := Z.to_nat (Z.of_nat (L' / 2) + py)).
  assert (En : (L mod 2 =? 0) && (i =? 0) = false). { destruct (Nat.eqb_spec (L mod 2) 0); [|reflexivity]. destruct (Nat.eqb_spec i 0); [unfold i in *; lia|reflexivity]. }
  assert (En' : (L' mod 2 =? 0) && (j =? 0) = false). { destruct (Nat.eqb_spec (L' mod 2) 0); [|reflexivity]. destruct (Nat.eqb_spec j 0); [unfold j in *; lia|reflexivity]. }
  rewrite En, En'. cbn [orb]. destruct (Nat.eqb_spec l 0) as [->|].
  - change (0 <? Z.of_nat 0)%Z with false. change (Z.of_nat 0 =? 0)%Z with true. cbn [orb andb].
    destruct (Z.ltb_spec 0 py); destruct (Nat.ltb_spec (L' / 2) j); try (unfold j in *; lia); [reflexivity|]. cbn [orb].
    destruct (Z.eqb_spec py 0); destruct (Nat.eqb_spec j (L' / 2)) as [Ej|]; try (unfold j in *; lia).
    + cbn [andb]. destruct (Z.ltb_spec 0 px); destruct (Nat.ltb_spec (L / 2) i); try (unfold i in *; lia); [rewrite <- Ej; reflexivity|].
      destruct (Z.eqb_spec px 0); destruct (Nat.eqb_spec i (L / 2)); try (unfold i in *; lia); [rewrite !Nat2Z.id; reflexivity|]. f_equal. f_equal; unfold i; try lia; try reflexivity.
    + cbn [andb]. f_equal. f_equal; unfold i, j; lia.
  - destruct (Z.ltb_spec 0 (Z.of_nat l)); [|lia]. cbn [orb]. rewrite Nat2Z.id. reflexivity.
Qed.
Lemma mx_xo L : (L + 1) / 2 - (if Nat.odd L then 1 else 0) = L / 2.
Proof. pose proof (xo_eq L) as E. destruct (Nat.odd L); cbn [Z.b2z] in E; lia. Qed.
Lemma her2_0 L H x px py : 1 <= L -> 1 <= H -> ~ in2 L H px py -> her2 L H x px py = C0.
Proof. intros HL HH Hn. unfold in2 in Hn. apply her2_out; try assumption. lia. Qed.
Lemma her3_0 L L' H x px py pz : 1 <= L -> 1 <= L' -> 1 <= H -> ~ in3 L L' H px py pz -> her3 L L' H x px py pz = C0.
Proof. intros HL HL' HH Hn. unfold in3 in Hn. apply her3_out; try assumption. lia. Qed.
Lemma wave_to L i : i < L -> Z.to_nat (Z.of_nat (L / 2) + wave L i) = i.
Proof. intros Hi. unfold wave. lia. Qed.


Lemma given2 L H Sx h f g x y (m0 : mem) : 1 <= L -> 1 <= H -> data2 f Sx L H x m0 -> data2 g Sx L H y m0 -> hermitian_data2 L H x -> hermitian_data2 L H y ->
  (forall o, o < L * H -> m0 (h + o) <> Unalloc) ->
  (forall a, cells2 f Sx L H a -> block h (L * H) a -> False) -> (forall a, cells2 g Sx L H a -> block h (L * H) a -> False) ->
  WP (dconvh2 ((L + 1) / 2) H (Nat.odd L) Sx false h f g) m0 (fun m' =>
    (forall i j, i < L -> j < H -> m' (h + (i * H + j)) = Val (zconv2 L H (her2 L H x) (her2 L H y) (wave L i) (Z.of_nat j))) /\ only (block h (L * H)) m0 m').
Proof.
  intros HL HH Hx Hy Xh Yh Hh Sf Sg. destruct (half_eq L) as [E1 E2]. unfold dconvh2.
  assert (Hst : forall p z, data2 p Sx L H z m0 -> hermitian_data2 L H z -> (forall a, cells2 p Sx L H a -> block h (L * H) a -> False) ->
    forall m1, only (block h (L * H)) m0 m1 -> st_her2 L H Sx p (her2 L H z) m1).
  { intros p z Hz Zh Sp m1 Hm1. pose proof (data2_only _ _ _ _ _ _ _ _ Sp Hm1 Hz) as Dz. split; [|intros; apply her2_conj].
    intros px j Hp Hj. replace (p + (Sx * Z.to_nat (Z.of_nat (L / 2) + px) + j)) with (p + (Sx * Z.to_nat (Z.of_nat (L / 2) + px) + j)) by lia.
    rewrite Dz by lia. f_equal. rewrite Zh by (unfold wave; lia). f_equal. unfold wave. lia. }
  apply (loops2_ok L H Sx HL HH h f g (her2 L H x) (her2 L H y) m0).
  - apply Hst; assumption.
  - apply Hst; assumption.
  - intros px py Hn. apply her2_0; assumption.
  - exact Hh.
Qed.
Lemma given3 L L' H Sx Sy h f g x y (m0 : mem) : 1 <= L -> 1 <= L' -> 1 <= H -> data3 f Sx Sy L L' H x m0 -> data3 g Sx Sy L L' H y m0 -> hermitian_data3 L L' H x -> hermitian_data3 L L' H y ->
  (forall o, o < L * L' * H -> m0 (h + o) <> Unalloc) ->
  (forall a, cells3 f Sx Sy L L' H a -> block h (L * L' * H) a -> False) -> (forall a, cells3 g Sx Sy L L' H a -> block h (L * L' * H) a -> False) ->
  WP (dconvh3 ((L + 1) / 2) ((L' + 1) / 2) H (Nat.odd L) (Nat.odd L') Sx Sy false h f g) m0 (fun m' =>
    (forall i j l, i < L -> j < L' -> l < H -> m' (h + (i * (L' * H) + j * H + l)) = Val (zconv3 L L' H (her3 L L' H x) (her3 L L' H y) (wave L i) (wave L' j) (Z.of_nat l))) /\ only (block h (L * L' * H)) m0 m').
Proof.
  intros HL HL' HH Hx Hy Xh Yh Hh Sf Sg. destruct (half_eq L) as [E1 E2]. destruct (half_eq L') as [E1' E2']. unfold dconvh3. cbv zeta.
  assert (Hst : forall p z, data3 p Sx Sy L L' H z m0 -> hermitian_data3 L L' H z -> (forall a, cells3 p Sx Sy L L' H a -> block h (L * L' * H) a -> False) ->
    forall m1, only (block h (L * L' * H)) m0 m1 -> st_her3 L L' H Sx Sy p (her3 L L' H z) m1).
  { intros p z Hz Zh Sp m1 Hm1. pose proof (data3_only _ _ _ _ _ _ _ _ _ _ Sp Hm1 Hz) as Dz. split; [|intros; apply her3_conj].
    intros px py l Hp Hq Hl. rewrite Dz by lia. f_equal. rewrite Zh by (unfold wave; lia). f_equal; unfold wave; lia. }
  apply (loops3_ok L L' H Sx Sy HL HL' HH h f g (her3 L L' H x) (her3 L L' H y) m0).
  - apply Hst; assumption.
  - apply Hst; assumption.
  - intros px py pz Hn. apply her3_0; assumption.
  - exact Hh.
Qed.

Lemma sym2 L H h f g x y (m0 : mem) : 1 <= L -> 1 <= H -> data2 f H L H x m0 -> data2 g H L H y m0 ->
  (forall o, o < L * H -> m0 (h + o) <> Unalloc) ->
  disjoint f (L * H) g (L * H) -> disjoint f (L * H) h (L * H) -> disjoint g (L * H) h (L * H) ->
  WP (dconvh2 ((L + 1) / 2) H (Nat.odd L) H true h f g) m0 (fun m' =>
    (forall i j, i < L -> j < H -> m' (h + (i * H + j)) = Val (zconv2 L H (her2 L H x) (her2 L H y) (wave L i) (Z.of_nat j))) /\
    only (fun a => block f (L * H) a \/ block g (L * H) a \/ block h (L * H) a) m0 m').
Proof.
  intros HL HH Hx Hy Hh Sfg Sfh Sgh. destruct (half_eq L) as [E1 E2]. unfold dconvh2. cbv zeta. rewrite mx_xo.
  assert (Hin : forall p i j, i < L -> j < H -> block p (L * H) (p + (H * i + j))) by (intros p i j Hi Hj; pose proof (dense2_lt L H i j Hi Hj); unfold block; lia).
  apply WP_seq. eapply WP_mono; [|apply (symmetrizeX_spec f L H x m0 HL HH); intros i j Hi Hj; rewrite <- Nat.add_assoc; apply Hx; assumption].
  intros m1 [A1 B1]. rewrite (Nat.mul_comm H L) in B1. apply WP_seq.
  assert (Hy1 : forall i j, i < L -> j < H -> m1 (g + (H * i + j)) = Val (y i j)).
  { intros i j Hi Hj. rewrite (proj1 B1); [apply Hy; assumption|]. intros Hc. exact (Sfg _ Hc (Hin g i j Hi Hj)). }
  eapply WP_mono; [|apply (symmetrizeX_spec g L H y m1 HL HH); intros i j Hi Hj; rewrite <- Nat.add_assoc; apply Hy1; assumption].
  intros m2 [A2 B2]. rewrite (Nat.mul_comm H L) in B2.
  assert (B12 : only (fun a => block f (L * H) a \/ block g (L * H) a \/ block h (L * H) a) m0 m2).
  { eapply only_trans; [eapply only_sub; [exact B1|]|eapply only_sub; [exact B2|]]; intros a Ha; tauto. }
  eapply WP_mono; [|apply (loops2_ok L H H HL HH h f g (her2 L H x) (her2 L H y) m2)].
  - intros m3 [A3 B3]. split; [exact A3|]. eapply only_trans; [exact B12|]. eapply only_sub; [exact B3|]. intros a Ha. tauto.
  - intros m3 B3. split; [|intros; apply her2_conj]. intros px j Hp Hj. set (i := Z.to_nat (Z.of_nat (L / 2) + px)). assert (Hi : i < L) by (unfold i; lia).
    rewrite (proj1 B3) by (intros Hc; exact (Sfh _ (Hin f i j Hi Hj) Hc)). rewrite (proj1 B2) by (intros Hc; exact (Sfg _ (Hin f i j Hi Hj) Hc)).
    rewrite Nat.add_assoc, A1 by assumption. f_equal. apply sX_her2; assumption.
  - intros m3 B3. split; [|intros; apply her2_conj]. intros px j Hp Hj. set (i := Z.to_nat (Z.of_nat (L / 2) + px)). assert (Hi : i < L) by (unfold i; lia).
    rewrite (proj1 B3) by (intros Hc; exact (Sgh _ (Hin g i j Hi Hj) Hc)).
    rewrite Nat.add_assoc, A2 by assumption. f_equal. apply sX_her2; assumption.
  - intros px py Hn. apply her2_0; assumption.
  - intros o Ho. apply (proj2 B12). apply Hh. exact Ho.
Qed.
Lemma sym3 L L' H h f g x y (m0 : mem) : 1 <= L -> 1 <= L' -> 1 <= H -> data3 f (L' * H) H L L' H x m0 -> data3 g (L' * H) H L L' H y m0 ->
  (forall o, o < L * L' * H -> m0 (h + o) <> Unalloc) ->
  disjoint f (L * L' * H) g (L * L' * H) -> disjoint f (L * L' * H) h (L * L' * H) -> disjoint g (L * L' * H) h (L * L' * H) ->
  WP (dconvh3 ((L + 1) / 2) ((L' + 1) / 2) H (Nat.odd L) (Nat.odd L') (L' * H) H true h f g) m0 (fun m' =>
    (forall i j l, i < L -> j < L' -> l < H -> m' (h + (i * (L' * H) + j * H + l)) = Val (zconv3 L L' H (her3 L L' H x) (her3 L L' H y) (wave L i) (wave L' j) (Z.of_nat l))) /\
    only (fun a => block f (L * L' * H) a \/ block g (L * L' * H) a \/ block h (L * L' * H) a) m0 m').
Proof.
  intros HL HL' HH Hx Hy Hh Sfg Sfh Sgh. destruct (half_eq L) as [E1 E2]. destruct (half_eq L') as [E1' E2']. unfold dconvh3. cbv zeta. rewrite !mx_xo.
  set (N := L * L' * H) in *.
  assert (Ha3 : forall p i j l, p + (L' * H * i + H * j + l) = p + a3 L' H i j l) by (intros; unfold a3; lia).
  assert (Hin : forall p i j l, i < L -> j < L' -> l < H -> block p N (p + (L' * H * i + H * j + l))) by (intros p i j l Hi Hj Hl; pose proof (dense3_lt L L' H i j l Hi Hj Hl); unfold block, N; lia).
  assert (EN : L' * H * L = N) by (unfold N; lia).
  assert (Dx : forall i j l, i < L -> j < L' -> l < H -> m0 (f + a3 L' H i j l) = Val (x i j l)) by (intros i j l Hi Hj Hl; rewrite <- Ha3; apply Hx; assumption).
  apply WP_seq. eapply WP_mono; [|exact (symmetrizeXY_spec f L L' H x m0 HL HL' HH Dx)].
  intros m1 [A1 B1]. rewrite EN in B1. apply WP_seq.
  assert (Hy1 : forall i j l, i < L -> j < L' -> l < H -> m1 (g + a3 L' H i j l) = Val (y i j l)).
  { intros i j l Hi Hj Hl. rewrite <- Ha3. rewrite (proj1 B1); [apply Hy; assumption|]. intros Hc. exact (Sfg _ Hc (Hin g i j l Hi Hj Hl)). }
  eapply WP_mono; [|exact (symmetrizeXY_spec g L L' H y m1 HL HL' HH Hy1)].
  intros m2 [A2 B2]. rewrite EN in B2.
  assert (B12 : only (fun a => block f N a \/ block g N a \/ block h N a) m0 m2).
  { eapply only_trans; [eapply only_sub; [exact B1|]|eapply only_sub; [exact B2|]]; intros a Ha; tauto. }
  eapply WP_mono; [|apply (loops3_ok L L' H (L' * H) H HL HL' HH h f g (her3 L L' H x) (her3 L L' H y) m2)].
  - intros m3 [A3 B3]. split; [exact A3|]. eapply only_trans; [exact B12|]. eapply only_sub; [exact B3|]. intros a Ha. fold N in Ha. tauto.
  - intros m3 B3. fold N in B3. split; [|intros; apply her3_conj]. intros px py l Hp Hq Hl. set (i := Z.to_nat (Z.of_nat (L / 2) + px)). set (j := Z.to_nat (Z.of_nat (L' / 2) + py)).
    assert (Hi : i < L) by (unfold i; lia). assert (Hj : j < L') by (unfold j; lia).
    rewrite (proj1 B3) by (intros Hc; exact (Sfh _ (Hin f i j l Hi Hj Hl) Hc)). rewrite (proj1 B2) by (intros Hc; exact (Sfg _ (Hin f i j l Hi Hj Hl) Hc)).
    rewrite Ha3, A1 by assumption. f_equal. apply sXY_her3; assumption.
  - intros m3 B3. fold N in B3. split; [|intros; apply her3_conj]. intros px py l Hp Hq Hl. set (i := Z.to_nat (Z.of_nat (L / 2) + px)). set (j := Z.to_nat (Z.of_nat (L' / 2) + py)).
    assert (Hi : i < L) by (unfold i; lia). assert (Hj : j < L') by (unfold j; lia).
    rewrite (proj1 B3) by (intros Hc; exact (Sgh _ (Hin g i j l Hi Hj Hl) Hc)).
    rewrite Ha3, A2 by assumption. f_equal. apply sXY_her3; assumption.
  - intros px py pz Hn. apply her3_0; assumption.
  - intros o Ho. apply (proj2 B12). apply Hh. exact Ho.
Qed.

(** *** The four-argument HermitianSymmetrizeX assumes the row stride my. *)
Definition bad_mem : mem := fun a =>
  if (a =? 4) || (a =? 10) then Val (RtoC 1) else if a <? 15 then Val C0 else Unalloc.
Definition bad_x (i j : nat) : C := if i =? 2 then RtoC 1 else C0.
Lemma bad_data p : p = 0 \/ p = 6 -> data2 p 2 3 1 bad_x bad_mem.
Proof. intros Hp i j Hi Hj. destruct j as [|j]; [|lia]. destruct i as [|[|[|i]]]; [| | |lia]; destruct Hp as [-> | ->]; reflexivity. Qed.
Lemma bad_value : zconv2 3 1 (her2 3 1 bad_x) (her2 3 1 bad_x) (wave 3 1) (Z.of_nat 0) = RtoC 2.
Proof. cbv -[Cadd Cmul Cconj RtoC re C0]. apply C_ext; cbn; ring. Qed.
Lemma bad_run : WP (dconvh2 2 1 true 2 true 12 0 6) bad_mem (fun m' => m' (12 + (1 * 1 + 0)) = Val C0).
Proof.
  unfold dconvh2. cbv zeta. change (2 - 1) with 1.
  set (z := fun (p i j : nat) => match bad_mem (p + (1 * i + j)) with Val v => v | _ => C0 end).
  assert (Hz : forall p i j, p = 0 \/ p = 6 -> i < 3 -> j < 1 -> bad_mem (p + 1 * i + j) = Val (z p i j)).
  { intros p i j Hp Hi Hj. destruct j as [|j]; [|lia]. unfold z. destruct i as [|[|[|i]]]; [| | |lia]; destruct Hp as [-> | ->]; reflexivity. }
  apply WP_seq. eapply WP_mono; [|apply (symmetrizeX_spec 0 3 1 (z 0) bad_mem ltac:(lia) ltac:(lia)); intros i j Hi Hj; apply Hz; auto].
  intros m1 [A1 B1]. apply WP_seq. eapply WP_mono; [|apply (symmetrizeX_spec 6 3 1 (z 6) m1 ltac:(lia) ltac:(lia)); intros i j Hi Hj].
  2:{ rewrite (proj1 B1) by (unfold block; lia). apply Hz; auto. }
  intros m2 [A2 B2].
  assert (M : forall a, a < 15 -> m2 a = bad_mem a).
  { intros a Ha. assert (Hd : block 0 3 a \/ block 6 3 a \/ (~ block 0 3 a /\ ~ block 6 3 a)) by (unfold block; lia). destruct Hd as [Hd|[Hd|[Hd1 Hd2]]].
    - rewrite (proj1 B2) by (unfold block in *; lia). specialize (A1 a 0 ltac:(unfold block in *; lia) ltac:(lia)). replace (0 + 1 * a + 0) with a in A1 by lia. rewrite A1.
      destruct a as [|[|[|a]]]; [| | |unfold block in *; lia]; cbv -[Cconj RtoC re C0]; f_equal; apply C_ext; cbn; ring.
    - specialize (A2 (a - 6) 0 ltac:(unfold block in *; lia) ltac:(lia)). replace (6 + 1 * (a - 6) + 0) with a in A2 by (unfold block in *; lia). rewrite A2.
      assert (Ea : a = 6 \/ a = 7 \/ a = 8) by (unfold block in *; lia). destruct Ea as [-> |[-> | ->]]; cbv -[Cconj RtoC re C0]; f_equal; apply C_ext; cbn; ring.
    - rewrite (proj1 B2), (proj1 B1) by assumption. reflexivity. }
  apply WP_seqprog. match goal with |- wp _ _ ?p _ _ => let p' := eval cbv -[Cadd Cmul Cconj C0] in p in change (wp T T p' m2 (fun m' => m' (12 + (1 * 1 + 0)) = Val C0)) end.
  assert (E0 : m2 0 = Val C0) by (apply M; lia). assert (E2 : m2 2 = Val C0) by (apply M; lia). assert (E4 : m2 4 = Val (RtoC 1)) by (apply M; lia).
  assert (E6 : m2 6 = Val C0) by (apply M; lia). assert (E8 : m2 8 = Val C0) by (apply M; lia). assert (E10 : m2 10 = Val (RtoC 1)) by (apply M; lia).
  assert (E12 : m2 12 <> Unalloc) by (rewrite M by lia; discriminate). assert (E13 : m2 13 <> Unalloc) by (rewrite M by lia; discriminate). assert (E14 : m2 14 <> Unalloc) by (rewrite M by lia; discriminate).
  clear M A1 A2 B1 B2 Hz. cbn [wp].
  Ltac go_rd := split; [left; exact Logic.I|]; eexists; split; [unfold upd; cbn [Nat.eqb]; eassumption|].
  Ltac go_wr := split; [exact Logic.I|]; split; [unfold upd; cbn [Nat.eqb]; try discriminate; assumption|].
  repeat first [go_rd|go_wr]. unfold upd. cbn. f_equal. apply C_ext; cbn; ring.
Qed.
