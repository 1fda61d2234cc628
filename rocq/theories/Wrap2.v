(** Symmetrized data as Hermitian arrays on integer wave vectors; their convolutions. *)
From Coq Require Import Reals ZArith Arith Lia List Bool.
From Verif Require Import CNum Sums Mem PadModel CenModel HerModel ConvModel ConvSpec HConvModel HConvSpec Team LayerModel LayerSpec HLayerModel HLayerSpec WrapModel WrapSpec Wrap1.
Import ListNotations.

Lemma Cconj_R r : Cconj (RtoC r) = RtoC r.
Proof. apply C_ext; cbn; ring. Qed.
Lemma Cconj_0 : Cconj C0 = C0.
Proof. apply C_ext; cbn; ring. Qed.
Lemma Cconj_2 z : Cconj (Cconj z) = z.
Proof. apply C_ext; cbn; ring. Qed.

(** *** convolutions about an origin as convolutions on the integers *)
Definition off (c : nat) (k : nat) : Z := (Z.of_nat k - Z.of_nat c)%Z.
(** G vanishes outside the n values starting at -c *)
Lemma collapse n c s i (G : Z -> C) : (forall z, ~ (- Z.of_nat c <= z < Z.of_nat n - Z.of_nat c)%Z -> G z = C0) ->
  Csum n (fun k => if i + k =? s then G (off c k) else C0) = G (off c s - Z.of_nat i)%Z.
Proof.
  intros HG. destruct (le_lt_dec i s) as [Hi|Hi]; [destruct (lt_dec (s - i) n) as [Hn|Hn]|].
  - rewrite (Csum_single n (s - i)); [|assumption|intros k Hk Hne; destruct (Nat.eqb_spec (i + k) s); [lia|reflexivity]].
    destruct (Nat.eqb_spec (i + (s - i)) s); [|lia]. f_equal. unfold off. lia.
  - rewrite HG by (unfold off; lia). apply Csum_zero. intros k Hk. destruct (Nat.eqb_spec (i + k) s); [lia|reflexivity].
  - rewrite HG by (unfold off; lia). apply Csum_zero. intros k Hk. destruct (Nat.eqb_spec (i + k) s); [lia|reflexivity].
Qed.
(** the sum over the 2c+1 values around the origin, K-1 <= c *)
Lemma zsum_of c K (F : Z -> C) : 1 <= K -> K <= c + 1 -> (forall z, (Z.of_nat K <= Z.abs z)%Z -> F z = C0) -> Csum (2 * c + 1) (fun k => F (off c k)) = zsum K F.
Proof.
  intros H1 HK HF. unfold zsum. replace (2 * c + 1) with ((c + 1 - K) + ((2 * K - 1) + (c + 1 - K))) by lia.
  rewrite Csum_split, Csum_split. rewrite (Csum_zero (c + 1 - K) (fun i => F (off c i))) by (intros k Hk; apply HF; unfold off; lia).
  rewrite (Csum_zero (c + 1 - K) (fun i => F (off c (c + 1 - K + (2 * K - 1 + i))))) by (intros k Hk; apply HF; unfold off; lia).
  rewrite Cadd_0_l, Cadd_0_r. apply Csum_ext. intros k Hk. f_equal. unfold off. lia.
Qed.
Lemma out_box c K z : K <= c + 1 -> ~ (- Z.of_nat c <= z < Z.of_nat (2 * c + 1) - Z.of_nat c)%Z -> (Z.of_nat K <= Z.abs z)%Z.
Proof. lia. Qed.
Lemma if_mul (b : bool) a z : (if b then Cmul a z else C0) = Cmul a (if b then z else C0).
Proof. destruct b; [reflexivity|]. rewrite Cmul_0_r. reflexivity. Qed.

Lemma oconv_z c K (F G : Z -> C) j : 1 <= K -> K <= c + 1 ->
  (forall z, (Z.of_nat K <= Z.abs z)%Z -> F z = C0) -> (forall z, (Z.of_nat K <= Z.abs z)%Z -> G z = C0) ->
  oconv c (2 * c + 1) (fun k => F (off c k)) (fun k => G (off c k)) j = zconv1 K F G (off c j).
Proof.
  intros H1 HK HF HG. unfold oconv, zconv1. rewrite <- (zsum_of c K (fun z => Cmul (F z) (G (off c j - z)%Z))); [|assumption|assumption|intros z Hz; rewrite (HF z Hz); apply Cmul_0_l].
  apply Csum_ext. intros i Hi. rewrite (Csum_ext _ _ (fun k => Cmul (F (off c i)) (if i + k =? j + c then G (off c k) else C0))) by (intros k _; apply if_mul).
  rewrite Csum_mul_l, collapse by (intros z Hz; apply HG, (out_box c); assumption). do 2 f_equal. unfold off. lia.
Qed.
Lemma oconv2_z c K c' K' (F G : Z -> Z -> C) i j : 1 <= K -> K <= c + 1 -> 1 <= K' -> K' <= c' + 1 ->
  (forall z z', (Z.of_nat K <= Z.abs z \/ Z.of_nat K' <= Z.abs z')%Z -> F z z' = C0) -> (forall z z', (Z.of_nat K <= Z.abs z \/ Z.of_nat K' <= Z.abs z')%Z -> G z z' = C0) ->
  oconv2 c (2 * c + 1) c' (2 * c' + 1) (fun a b => F (off c a) (off c' b)) (fun a b => G (off c a) (off c' b)) i j =
  zsum K (fun i1 => zsum K' (fun j1 => Cmul (F i1 j1) (G (off c i - i1)%Z (off c' j - j1)%Z))).
Proof.
  intros H1 HK H1' HK' HF HG. unfold oconv2.
  rewrite <- (zsum_of c K (fun i1 => zsum K' (fun j1 => Cmul (F i1 j1) (G (off c i - i1)%Z (off c' j - j1)%Z))));
    [|assumption|assumption|intros z Hz; unfold zsum; apply Csum_zero; intros; rewrite HF by auto; apply Cmul_0_l].
  apply Csum_ext. intros i1 Hi1.
  assert (E : forall i2, Csum (2 * c' + 1) (fun j1 => Csum (2 * c' + 1) (fun j2 => if (i1 + i2 =? i + c) && (j1 + j2 =? j + c') then Cmul (F (off c i1) (off c' j1)) (G (off c i2) (off c' j2)) else C0)) =
    if i1 + i2 =? i + c then (fun z => zsum K' (fun j1 => Cmul (F (off c i1) j1) (G z (off c' j - j1)%Z))) (off c i2) else C0).
  { intros i2. destruct (i1 + i2 =? i + c); cbn [andb].
    - exact (oconv_z c' K' (F (off c i1)) (G (off c i2)) j H1' HK' (fun z Hz => HF _ z (or_intror Hz)) (fun z Hz => HG _ z (or_intror Hz))).
    - apply Csum_zero. intros j1 _. apply Csum_zero. reflexivity. }
  rewrite (Csum_ext _ _ _ (fun i2 _ => E i2)).
  rewrite (collapse (2 * c + 1) c (i + c) i1 (fun z => zsum K' (fun j1 => Cmul (F (off c i1) j1) (G z (off c' j - j1)%Z)))).
  - cbv beta. unfold zsum. apply Csum_ext. intros a _. do 2 f_equal. unfold off. lia.
  - intros z Hz. unfold zsum. apply Csum_zero. intros a _. rewrite HG by (left; apply (out_box c); assumption). apply Cmul_0_r.
Qed.
Lemma oconv3_z c K c' K' c'' K'' (F G : Z -> Z -> Z -> C) i j l : 1 <= K -> K <= c + 1 -> 1 <= K' -> K' <= c' + 1 -> 1 <= K'' -> K'' <= c'' + 1 ->
  (forall z z' z'', (Z.of_nat K <= Z.abs z \/ Z.of_nat K' <= Z.abs z' \/ Z.of_nat K'' <= Z.abs z'')%Z -> F z z' z'' = C0) ->
  (forall z z' z'', (Z.of_nat K <= Z.abs z \/ Z.of_nat K' <= Z.abs z' \/ Z.of_nat K'' <= Z.abs z'')%Z -> G z z' z'' = C0) ->
  oconv3 c (2 * c + 1) c' (2 * c' + 1) c'' (2 * c'' + 1) (fun a b d => F (off c a) (off c' b) (off c'' d)) (fun a b d => G (off c a) (off c' b) (off c'' d)) i j l =
  zsum K (fun i1 => zsum K' (fun j1 => zsum K'' (fun l1 => Cmul (F i1 j1 l1) (G (off c i - i1)%Z (off c' j - j1)%Z (off c'' l - l1)%Z)))).
Proof.
  intros H1 HK H1' HK' H1'' HK'' HF HG. unfold oconv3.
  rewrite <- (zsum_of c K (fun i1 => zsum K' (fun j1 => zsum K'' (fun l1 => Cmul (F i1 j1 l1) (G (off c i - i1)%Z (off c' j - j1)%Z (off c'' l - l1)%Z)))));
    [|assumption|assumption|intros z Hz; unfold zsum; apply Csum_zero; intros; apply Csum_zero; intros; rewrite HF by auto; apply Cmul_0_l].
  apply Csum_ext. intros i1 Hi1.
  assert (E : forall i2, Csum (2 * c' + 1) (fun j1 => Csum (2 * c' + 1) (fun j2 => Csum (2 * c'' + 1) (fun l1 => Csum (2 * c'' + 1) (fun l2 =>
     if (i1 + i2 =? i + c) && (j1 + j2 =? j + c') && (l1 + l2 =? l + c'') then Cmul (F (off c i1) (off c' j1) (off c'' l1)) (G (off c i2) (off c' j2) (off c'' l2)) else C0)))) =
    if i1 + i2 =? i + c then (fun z => zsum K' (fun j1 => zsum K'' (fun l1 => Cmul (F (off c i1) j1 l1) (G z (off c' j - j1)%Z (off c'' l - l1)%Z)))) (off c i2) else C0).
  { intros i2. destruct (i1 + i2 =? i + c); cbn [andb].
    - exact (oconv2_z c' K' c'' K'' (F (off c i1)) (G (off c i2)) j l H1' HK' H1'' HK'' (fun z z' Hz => HF _ z z' (or_intror Hz)) (fun z z' Hz => HG _ z z' (or_intror Hz))).
    - apply Csum_zero. intros j1 _. apply Csum_zero. intros j2 _. apply Csum_zero. intros l1 _. apply Csum_zero. reflexivity. }
  rewrite (Csum_ext _ _ _ (fun i2 _ => E i2)).
  rewrite (collapse (2 * c + 1) c (i + c) i1 (fun z => zsum K' (fun j1 => zsum K'' (fun l1 => Cmul (F (off c i1) j1 l1) (G z (off c' j - j1)%Z (off c'' l - l1)%Z))))).
  - cbv beta. unfold zsum. apply Csum_ext. intros a _. apply Csum_ext. intros b _. do 2 f_equal. unfold off. lia.
  - intros z Hz. unfold zsum. apply Csum_zero. intros a _. apply Csum_zero. intros b _. rewrite HG by (left; apply (out_box c); assumption). apply Cmul_0_r.
Qed.

(** *** one dimension *)
Definition s1 (x : nat -> C) (j : nat) : C := if j =? 0 then RtoC (re (x 0)) else x j.
Lemma her1_out H x z : (Z.of_nat H <= Z.abs z)%Z -> her1 H x z = C0.
Proof. intros Hz. unfold her1. destruct (Z.ltb_spec (Z.abs z) (Z.of_nat H)); [lia|reflexivity]. Qed.
Lemma hseq_her1 H x i : 1 <= H -> i < 2 * H - 1 -> hseq H (s1 x) i = her1 H x (off (H - 1) i).
Proof.
  intros HH Hi. unfold hseq, s1, her1, off.
  destruct (Z.ltb_spec (Z.abs (Z.of_nat i - Z.of_nat (H - 1))) (Z.of_nat H)); [|lia].
  destruct (Nat.ltb_spec i (H - 1)).
  - destruct (Nat.eqb_spec (H - 1 - i) 0); [lia|]. destruct (Z.ltb_spec 0 (Z.of_nat i - Z.of_nat (H - 1))); [lia|].
    destruct (Z.eqb_spec (Z.of_nat i - Z.of_nat (H - 1)) 0); [lia|]. do 2 f_equal. lia.
  - destruct (Nat.eqb_spec (i - (H - 1)) 0).
    + destruct (Z.ltb_spec 0 (Z.of_nat i - Z.of_nat (H - 1))); [lia|]. destruct (Z.eqb_spec (Z.of_nat i - Z.of_nat (H - 1)) 0); [reflexivity|lia].
    + destruct (Z.ltb_spec 0 (Z.of_nat i - Z.of_nat (H - 1))); [|lia]. f_equal. lia.
Qed.
Lemma oconv_her1 H x y j : 1 <= H ->
  oconv (H - 1) (2 * H - 1) (hseq H (s1 x)) (hseq H (s1 y)) (j + (H - 1)) = zconv1 H (her1 H x) (her1 H y) (Z.of_nat j).
Proof.
  intros HH. replace (Z.of_nat j) with (off (H - 1) (j + (H - 1))) by (unfold off; lia).
  rewrite <- (oconv_z (H - 1) H) by (try lia; apply her1_out). replace (2 * (H - 1) + 1) with (2 * H - 1) by lia.
  unfold oconv. apply Csum_ext. intros i Hi. apply Csum_ext. intros k Hk. rewrite !hseq_her1 by assumption. reflexivity.
Qed.

(** *** two dimensions *)
Section Two.
Variables (L H : nat).
Hypothesis (HL : 1 <= L) (HH : 1 <= H).
Notation c := (L / 2). Notation K := ((L + 1) / 2).
Lemma her2_out x z z' : (Z.of_nat K <= Z.abs z \/ Z.of_nat H <= Z.abs z')%Z -> her2 L H x z z' = C0.
Proof.
  intros Hz. unfold her2. destruct (half_eq L) as [E1 E2].
  destruct (Z.ltb_spec (2 * Z.abs z) (Z.of_nat L)), (Z.ltb_spec (Z.abs z') (Z.of_nat H)); cbn [andb]; try reflexivity. lia.
Qed.
Lemma sX_hermitian x : hermitian0 c L (sX L x).
Proof.
  intros i Hi. destruct (half_eq L) as [E1 E2]. unfold sX. cbn [Nat.eqb].
  assert (Ebool : forall b : bool, (if b then true else false) = b) by (intros []; reflexivity).
  destruct E2 as [[Ev EK]|[Od EK]].
  - rewrite Ev. cbn [Nat.eqb andb]. destruct (Nat.leb_spec i (2 * c)); [|lia]. cbn [andb].
    destruct (Nat.eqb_spec i 0) as [->|Hi0].
    + destruct (Nat.ltb_spec (2 * c - 0) L); [lia|reflexivity].
    + destruct (Nat.ltb_spec (2 * c - i) L); [|lia]. destruct (Nat.eqb_spec (2 * c - i) 0); [lia|].
      destruct (Nat.ltb_spec c i).
      * destruct (Nat.ltb_spec c (2 * c - i)); [lia|]. destruct (Nat.eqb_spec (2 * c - i) c); [lia|]. rewrite Cconj_2. f_equal. lia.
      * destruct (Nat.eqb_spec i c) as [->|]; [|destruct (Nat.ltb_spec c (2 * c - i)); [reflexivity|lia]].
        destruct (Nat.ltb_spec c (2 * c - c)); [lia|]. destruct (Nat.eqb_spec (2 * c - c) c); [|lia]. rewrite Cconj_R. reflexivity.
  - rewrite Od. cbn [Nat.eqb andb]. destruct (Nat.leb_spec i (2 * c)); [|lia]. cbn [andb].
    destruct (Nat.ltb_spec (2 * c - i) L); [|lia].
    destruct (Nat.ltb_spec c i).
    + destruct (Nat.ltb_spec c (2 * c - i)); [lia|]. destruct (Nat.eqb_spec (2 * c - i) c); [lia|]. rewrite Cconj_2. f_equal. lia.
    + destruct (Nat.eqb_spec i c) as [->|]; [|destruct (Nat.ltb_spec c (2 * c - i)); [reflexivity|lia]].
      destruct (Nat.ltb_spec c (2 * c - c)); [lia|]. destruct (Nat.eqb_spec (2 * c - c) c); [|lia]. rewrite Cconj_R. reflexivity.
Qed.
Lemma full2_her2 x i j : i < 2 * c + 1 -> j < 2 * H - 1 -> full2 c L H (sX L x) i j = her2 L H x (off c i) (off (H - 1) j).
Proof.
  intros Hi Hj. destruct (half_eq L) as [E1 E2]. unfold full2, her2, sX.
  destruct (Z.ltb_spec (Z.abs (off (H - 1) j)) (Z.of_nat H)) as [_|]; [|unfold off in *; lia]. rewrite andb_true_r.
  destruct (Z.ltb_spec (2 * Z.abs (off c i)) (Z.of_nat L)) as [Hin|Hout]; unfold off in *.
  - assert (En : forall i', (Z.abs (Z.of_nat i' - Z.of_nat c) = Z.abs (Z.of_nat i - Z.of_nat c))%Z -> (L mod 2 =? 0) && (i' =? 0) = false).
    { intros i' Hi'. destruct (Nat.eqb_spec (L mod 2) 0); [|reflexivity]. destruct (Nat.eqb_spec i' 0); [lia|reflexivity]. }
    destruct (Nat.leb_spec (H - 1) j).
    + destruct (Nat.ltb_spec i L); [|lia]. rewrite En by lia. destruct (Nat.eqb_spec (j - (H - 1)) 0).
      * destruct (Z.ltb_spec 0 (Z.of_nat j - Z.of_nat (H - 1))); [lia|]. destruct (Z.eqb_spec (Z.of_nat j - Z.of_nat (H - 1)) 0); [|lia]. cbn [orb andb].
        destruct (Nat.ltb_spec c i); destruct (Z.ltb_spec 0 (Z.of_nat i - Z.of_nat c)); try lia; [f_equal; lia|].
        destruct (Nat.eqb_spec i c); destruct (Z.eqb_spec (Z.of_nat i - Z.of_nat c) 0); try lia; [do 2 f_equal; rewrite Nat2Z.id; reflexivity|]. do 2 f_equal; lia.
      * destruct (Z.ltb_spec 0 (Z.of_nat j - Z.of_nat (H - 1))); [|lia]. cbn [orb]. f_equal; lia.
    + destruct (Nat.ltb_spec (2 * c - i) L); [|lia]. rewrite En by lia. destruct (Nat.eqb_spec (H - 1 - j) 0); [lia|].
      destruct (Z.ltb_spec 0 (Z.of_nat j - Z.of_nat (H - 1))); [lia|]. destruct (Z.eqb_spec (Z.of_nat j - Z.of_nat (H - 1)) 0); [lia|]. cbn [orb andb].
      do 2 f_equal; lia.
  - destruct (Nat.leb_spec (H - 1) j).
    + destruct (Nat.ltb_spec i L); [|reflexivity]. replace (L mod 2 =? 0) with true by (symmetry; apply Nat.eqb_eq; lia). replace (i =? 0) with true by (symmetry; apply Nat.eqb_eq; lia). reflexivity.
    + destruct (Nat.ltb_spec (2 * c - i) L); [|reflexivity]. replace (L mod 2 =? 0) with true by (symmetry; apply Nat.eqb_eq; lia). replace (2 * c - i =? 0) with true by (symmetry; apply Nat.eqb_eq; lia). cbn [andb]. apply Cconj_0.
Qed.
Lemma oconv2_her2 x y i j : 
  oconv2 c (2 * c + 1) (H - 1) (2 * H - 1) (full2 c L H (sX L x)) (full2 c L H (sX L y)) i (j + (H - 1)) =
  zconv2 L H (her2 L H x) (her2 L H y) (wave L i) (Z.of_nat j).
Proof.
  destruct (half_eq L) as [E1 E2]. unfold zconv2. replace (Z.of_nat j) with (off (H - 1) (j + (H - 1))) by (unfold off; lia). change (wave L i) with (off c i).
  rewrite <- (oconv2_z c K (H - 1) H) by (try lia; apply her2_out). replace (2 * (H - 1) + 1) with (2 * H - 1) by lia.
  unfold oconv2. apply Csum_ext. intros i1 Hi1. apply Csum_ext. intros i2 Hi2. apply Csum_ext. intros j1 Hj1. apply Csum_ext. intros j2 Hj2.
  rewrite !full2_her2 by assumption. reflexivity.
Qed.
Lemma sX_unaliased x M : 3 * cq L 2 - 2 * (L mod 2) <= M -> unaliased2 c L H M (sX L x).
Proof.
  intros HM. destruct (half_eq L) as [E1 E2]. unfold cq in HM. replace ((L + 2 - 1) / 2) with K in HM by (f_equal; lia).
  destruct E2 as [[Ev EK]|[Od EK]].
  - right. split; [lia|]. split; [lia|]. intros j Hj. unfold sX. rewrite Ev. reflexivity.
  - left. lia.
Qed.
End Two.

(** *** three dimensions *)
Section Three.
Variables (L L' H : nat).
Hypothesis (HL : 1 <= L) (HL' : 1 <= L') (HH : 1 <= H).
Notation c := (L / 2). Notation K := ((L + 1) / 2). Notation c' := (L' / 2). Notation K' := ((L' + 1) / 2).
Lemma her3_out x z z' z'' : (Z.of_nat K <= Z.abs z \/ Z.of_nat K' <= Z.abs z' \/ Z.of_nat H <= Z.abs z'')%Z -> her3 L L' H x z z' z'' = C0.
Proof.
  intros Hz. unfold her3. destruct (half_eq L) as [E1 E2]. destruct (half_eq L') as [E1' E2'].
  destruct (Z.ltb_spec (2 * Z.abs z) (Z.of_nat L)), (Z.ltb_spec (2 * Z.abs z') (Z.of_nat L')), (Z.ltb_spec (Z.abs z'') (Z.of_nat H)); cbn [andb]; try reflexivity. lia.
Qed.
(** i in the range of the symmetric wave numbers of n *)
Definition inr (n i : nat) : Prop := (2 * Z.abs (Z.of_nat i - Z.of_nat (n / 2)) < Z.of_nat n)%Z.
Lemma inr_ny n i : inr n i -> (n mod 2 =? 0) && (i =? 0) = false.
Proof. unfold inr. intros Hi. destruct (half_eq n) as [E1 E2]. destruct (Nat.eqb_spec (n mod 2) 0); [|reflexivity]. destruct (Nat.eqb_spec i 0); [lia|reflexivity]. Qed.
Lemma inr_flip n i : inr n i -> inr n (2 * (n / 2) - i).
Proof. unfold inr. destruct (half_eq n) as [E1 E2]. lia. Qed.
Lemma inr_lt n i : inr n i -> i < n.
Proof. unfold inr. destruct (half_eq n) as [E1 E2]. lia. Qed.
Lemma inr_le n i : inr n i -> i <= 2 * (n / 2).
Proof. unfold inr. destruct (half_eq n) as [E1 E2]. lia. Qed.
Lemma inr_2 n i : inr n i -> 2 * (n / 2) - (2 * (n / 2) - i) = i.
Proof. intros Hi. apply inr_le in Hi. lia. Qed.
Lemma not_inr n i : 1 <= n -> i < n -> ~ inr n i -> n mod 2 = 0 /\ i = 0.
Proof. unfold inr. destruct (half_eq n) as [E1 E2]. lia. Qed.
Lemma inr_dec n i : inr n i \/ ~ inr n i.
Proof. unfold inr. lia. Qed.
Lemma ny_of n i : 1 <= n -> i < n -> ~ inr n i -> (n mod 2 =? 0) && (i =? 0) = true.
Proof. intros Hn Hi Hr. destruct (not_inr n i Hn Hi Hr) as [E ->]. rewrite E. reflexivity. Qed.
Lemma not_inr_flip n i : 1 <= n -> i < n -> ~ inr n i -> 2 * (n / 2) - i < n -> False.
Proof. unfold inr. destruct (half_eq n) as [E1 E2]. lia. Qed.

Lemma sXY_hermitian x : hermitian00 c L c' L' (sXY L L' x).
Proof.
  intros i j Hi Hj. destruct (half_eq L) as [E1 E2]. destruct (half_eq L') as [E1' E2'].
  destruct (inr_dec L i) as [Ri|Ri]; [destruct (inr_dec L' j) as [Rj|Rj]|].
  - pose proof (inr_le _ _ Ri). pose proof (inr_le _ _ Rj). pose proof (inr_lt _ _ (inr_flip _ _ Ri)). pose proof (inr_lt _ _ (inr_flip _ _ Rj)).
    destruct (Nat.leb_spec i (2 * c)); [|lia]. destruct (Nat.leb_spec j (2 * c')); [|lia]. destruct (Nat.ltb_spec (2 * c - i) L); [|lia]. destruct (Nat.ltb_spec (2 * c' - j) L'); [|lia].
    cbn [andb]. unfold sXY. rewrite (inr_ny _ _ Ri), (inr_ny _ _ Rj), (inr_ny _ _ (inr_flip _ _ Ri)), (inr_ny _ _ (inr_flip _ _ Rj)). cbn [orb Nat.eqb].
    destruct (Nat.ltb_spec c' j).
    + destruct (Nat.ltb_spec c' (2 * c' - j)); [lia|]. destruct (Nat.eqb_spec (2 * c' - j) c'); [lia|]. rewrite Cconj_2, !inr_2 by assumption. reflexivity.
    + destruct (Nat.eqb_spec j c') as [->|Hj'].
      * destruct (Nat.ltb_spec c' (2 * c' - c')); [lia|]. destruct (Nat.eqb_spec (2 * c' - c') c'); [|lia].
        destruct (Nat.ltb_spec c i).
        -- destruct (Nat.ltb_spec c (2 * c - i)); [lia|]. destruct (Nat.eqb_spec (2 * c - i) c); [lia|]. rewrite Cconj_2, inr_2 by assumption. reflexivity.
        -- destruct (Nat.eqb_spec i c) as [->|]; [|destruct (Nat.ltb_spec c (2 * c - i)); [reflexivity|lia]].
           destruct (Nat.ltb_spec c (2 * c - c)); [lia|]. destruct (Nat.eqb_spec (2 * c - c) c); [|lia]. rewrite Cconj_R. reflexivity.
      * destruct (Nat.ltb_spec c' (2 * c' - j)); [reflexivity|lia].
  - destruct (Nat.ltb_spec (2 * c' - j) L') as [Hf|_]; [exfalso; exact (not_inr_flip L' j HL' Hj Rj Hf)|]. rewrite !andb_false_r.
    unfold sXY. rewrite (ny_of L' j HL' Hj Rj), orb_true_r. reflexivity.
  - destruct (Nat.ltb_spec (2 * c - i) L) as [Hf|_]; [exfalso; exact (not_inr_flip L i HL Hi Ri Hf)|]. rewrite andb_false_r. cbn [andb].
    unfold sXY. rewrite (ny_of L i HL Hi Ri). reflexivity.
Qed.
Lemma full3_her3 x i j l : i < 2 * c + 1 -> j < 2 * c' + 1 -> l < 2 * H - 1 ->
  full3 c L c' L' H (sXY L L' x) i j l = her3 L L' H x (off c i) (off c' j) (off (H - 1) l).
Proof.
  intros Hi Hj Hl. destruct (half_eq L) as [E1 E2]. destruct (half_eq L') as [E1' E2']. unfold full3, her3, sXY.
  destruct (Z.ltb_spec (Z.abs (off (H - 1) l)) (Z.of_nat H)) as [_|]; [|unfold off in *; lia]. rewrite andb_true_r.
  assert (Hout : ~ inr L i \/ ~ inr L' j -> (if H - 1 <=? l then (if (i <? L) && (j <? L') then sXY L L' x i j (l - (H - 1)) else C0)
     else if (2 * c - i <? L) && (2 * c' - j <? L') then Cconj (sXY L L' x (2 * c - i) (2 * c' - j) (H - 1 - l)) else C0) = C0).
  { intros Hr. destruct (H - 1 <=? l).
    - destruct (Nat.ltb_spec i L); [|reflexivity]. destruct (Nat.ltb_spec j L'); [|reflexivity]. cbn [andb]. unfold sXY. destruct Hr as [Hr|Hr].
      + rewrite (ny_of L i) by assumption. reflexivity.
      + rewrite (ny_of L' j) by assumption. rewrite orb_true_r. reflexivity.
    - destruct (Nat.ltb_spec (2 * c - i) L); [|reflexivity]. destruct (Nat.ltb_spec (2 * c' - j) L'); [|reflexivity]. cbn [andb]. unfold sXY. destruct Hr as [Hr|Hr].
      + rewrite (ny_of L (2 * c - i)); [apply Cconj_0|assumption|assumption|]. unfold inr in *. lia.
      + rewrite (ny_of L' (2 * c' - j)); [rewrite orb_true_r; apply Cconj_0|assumption|assumption|]. unfold inr in *. lia. }
  unfold sXY in Hout.
  destruct (Z.ltb_spec (2 * Z.abs (off c i)) (Z.of_nat L)) as [Ri|Ri]; [|cbn [andb]; apply Hout; left; unfold inr, off in *; lia].
  destruct (Z.ltb_spec (2 * Z.abs (off c' j)) (Z.of_nat L')) as [Rj|Rj]; [|cbn [andb]; apply Hout; right; unfold inr, off in *; lia].
  clear Hout. fold (inr L i) in Ri. fold (inr L' j) in Rj. cbn [andb]. unfold off.
  pose proof (inr_lt _ _ Ri). pose proof (inr_lt _ _ Rj). pose proof (inr_lt _ _ (inr_flip _ _ Ri)). pose proof (inr_lt _ _ (inr_flip _ _ Rj)).
  destruct (Nat.leb_spec (H - 1) l).
  - destruct (Nat.ltb_spec i L); [|lia]. destruct (Nat.ltb_spec j L'); [|lia]. cbn [andb]. rewrite (inr_ny _ _ Ri), (inr_ny _ _ Rj). cbn [orb].
    destruct (Nat.eqb_spec (l - (H - 1)) 0).
    + destruct (Z.ltb_spec 0 (Z.of_nat l - Z.of_nat (H - 1))); [lia|]. destruct (Z.eqb_spec (Z.of_nat l - Z.of_nat (H - 1)) 0); [|lia]. cbn [orb andb].
      destruct (Nat.ltb_spec c' j); destruct (Z.ltb_spec 0 (Z.of_nat j - Z.of_nat c')); try lia; cbn [orb]; [f_equal; lia|].
      destruct (Nat.eqb_spec j c') as [Ej|Ej]; destruct (Z.eqb_spec (Z.of_nat j - Z.of_nat c') 0); try lia; cbn [andb].
      * destruct (Nat.ltb_spec c i); destruct (Z.ltb_spec 0 (Z.of_nat i - Z.of_nat c)); try lia; [f_equal; lia|].
        destruct (Nat.eqb_spec i c); destruct (Z.eqb_spec (Z.of_nat i - Z.of_nat c) 0); try lia; [rewrite !Nat2Z.id; reflexivity|]. do 2 f_equal; lia.
      * do 2 f_equal; lia.
    + destruct (Z.ltb_spec 0 (Z.of_nat l - Z.of_nat (H - 1))); [|lia]. cbn [orb]. f_equal; lia.
  - destruct (Nat.ltb_spec (2 * c - i) L); [|lia]. destruct (Nat.ltb_spec (2 * c' - j) L'); [|lia]. cbn [andb].
    rewrite (inr_ny _ _ (inr_flip _ _ Ri)), (inr_ny _ _ (inr_flip _ _ Rj)). cbn [orb]. destruct (Nat.eqb_spec (H - 1 - l) 0); [lia|].
    destruct (Z.ltb_spec 0 (Z.of_nat l - Z.of_nat (H - 1))); [lia|]. destruct (Z.eqb_spec (Z.of_nat l - Z.of_nat (H - 1)) 0); [lia|]. cbn [orb andb].
    do 2 f_equal; lia.
Qed.
Lemma oconv3_her3 x y i j l :
  oconv3 c (2 * c + 1) c' (2 * c' + 1) (H - 1) (2 * H - 1) (full3 c L c' L' H (sXY L L' x)) (full3 c L c' L' H (sXY L L' y)) i j (l + (H - 1)) =
  zconv3 L L' H (her3 L L' H x) (her3 L L' H y) (wave L i) (wave L' j) (Z.of_nat l).
Proof.
  destruct (half_eq L) as [E1 E2]. destruct (half_eq L') as [E1' E2']. unfold zconv3. replace (Z.of_nat l) with (off (H - 1) (l + (H - 1))) by (unfold off; lia).
  change (wave L i) with (off c i). change (wave L' j) with (off c' j).
  rewrite <- (oconv3_z c K c' K' (H - 1) H) by (try lia; apply her3_out). replace (2 * (H - 1) + 1) with (2 * H - 1) by lia.
  unfold oconv3. apply Csum_ext. intros i1 Hi1. apply Csum_ext. intros i2 Hi2. apply Csum_ext. intros j1 Hj1. apply Csum_ext. intros j2 Hj2. apply Csum_ext. intros l1 Hl1. apply Csum_ext. intros l2 Hl2.
  rewrite !full3_her3 by assumption. reflexivity.
Qed.
Lemma sXY_unaliased x M M' : 3 * cq L 2 - 2 * (L mod 2) <= M -> 3 * cq L' 2 - 2 * (L' mod 2) <= M' -> unaliased3 c L M c' L' M' H (sXY L L' x).
Proof.
  intros HM HM'. destruct (half_eq L) as [E1 E2]. destruct (half_eq L') as [E1' E2']. unfold cq in HM, HM'.
  replace ((L + 2 - 1) / 2) with K in HM by (f_equal; lia). replace ((L' + 2 - 1) / 2) with K' in HM' by (f_equal; lia). split.
  - destruct E2 as [[Ev EK]|[Od EK]]; [right|left; lia]. split; [lia|]. split; [lia|]. intros j l Hj Hl. unfold sXY. rewrite Ev. reflexivity.
  - destruct E2' as [[Ev EK]|[Od EK]]; [right|left; lia]. split; [lia|]. split; [lia|]. intros j l Hj Hl. unfold sXY. rewrite Ev. cbn [Nat.eqb andb]. rewrite orb_true_r. reflexivity.
Qed.
End Three.
