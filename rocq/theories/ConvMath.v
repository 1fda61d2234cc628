(** Sums over the passes of the residue loop, and the convolution theorem. *)
From Coq Require Import Reals ZArith Arith Lia List Bool Permutation.
From Verif Require Import CNum Sums Roots Mem VecModel PadModel PadMath PadGeom PadIndex FwdAll PadBackward.
Import ListNotations.

(** sum of f over a list *)
Definition csl {T} (l : list T) (f : T -> C) : C := fold_right (fun r a => Cadd (f r) a) C0 l.

Lemma csl_app {T} (l l' : list T) f : csl (l ++ l') f = Cadd (csl l f) (csl l' f).
Proof.
  induction l as [|a l IH]; cbn [csl fold_right app].
  - change (csl l' f = Cadd C0 (csl l' f)). ring.
  - change (Cadd (f a) (csl (l ++ l') f) = Cadd (Cadd (f a) (csl l f)) (csl l' f)). rewrite IH. ring.
Qed.
Lemma csl_perm {T} (l l' : list T) f : Permutation l l' -> csl l f = csl l' f.
Proof.
  induction 1; cbn [csl fold_right] in *.
  - reflexivity.
  - fold (csl l f) (csl l' f). rewrite IHPermutation. reflexivity.
  - fold (csl l f). ring.
  - congruence.
Qed.
Lemma csl_map {T U} (g : T -> U) l f : csl (map g l) f = csl l (fun x => f (g x)).
Proof. induction l as [|a l IH]; cbn; [reflexivity|]. fold (csl (map g l) f) (csl l (fun x => f (g x))). rewrite IH. reflexivity. Qed.
Lemma csl_flat_map {T U} (g : T -> list U) l f : csl (flat_map g l) f = csl l (fun x => csl (g x) f).
Proof.
  induction l as [|a l IH]; cbn [flat_map]; [reflexivity|].
  rewrite csl_app, IH. reflexivity.
Qed.
Lemma csl_ext {T} (l : list T) f g : (forall x, In x l -> f x = g x) -> csl l f = csl l g.
Proof.
  induction l as [|a l IH]; intros H; [reflexivity|].
  change (Cadd (f a) (csl l f) = Cadd (g a) (csl l g)).
  rewrite H, IH; [reflexivity| |left; reflexivity]. intros; apply H; right; assumption.
Qed.
Lemma csl_seq n f : csl (seq 0 n) f = Csum n f.
Proof.
  induction n as [|n IH]; [reflexivity|]. rewrite seq_S, csl_app, IH. cbn [csl fold_right Csum Nat.add]. ring.
Qed.

(** unnormalised inverse DFT of length M *)
Definition idft (M : nat) (y : nat -> C) (j : nat) : C :=
  Csum M (fun k => Cmul (y k) (zeta M (- (Z.of_nat j * Z.of_nat k)))).

Section T.
Variable t : pad.
Hypothesis Hwf : wf t.
Notation L := (gL t).  Notation n := (gn t).
Notation m := (gm t). Notation q := (gq t). Notation M := (gM t). Notation p := (gp t).

(** adding up all passes gives the whole inverse transform *)
Lemma pass_sum (y : nat -> C) j :
  csl (residues t) (fun r => badd t r (fun i => y (index t r i)) j) = idft M y j.
Proof.
  unfold idft. rewrite <- csl_seq, (csl_perm _ _ _ (index_perm t Hwf)).
  unfold all_indices. rewrite csl_flat_map. apply csl_ext. intros r Hr.
  rewrite csl_map, csl_seq. reflexivity.
Qed.

Lemma cyc_shift k0 (h : Z -> C) : (forall k, h (k + Z.of_nat k0) = h k)%Z ->
  Csum k0 (fun k => h (Z.of_nat k - 1)%Z) = Csum k0 (fun k => h (Z.of_nat k)).
Proof.
  intros H. destruct k0 as [|k0]; [reflexivity|]. rewrite Csum_S_l. cbn [Csum].
  rewrite Cadd_comm. f_equal.
  - apply Csum_ext. intros i Hi. f_equal. lia.
  - rewrite <- H. f_equal. lia.
Qed.

Lemma ow_sum (y : Z -> C) j : goverwrite t = true ->
  (forall k k', (k mod Z.of_nat M = k' mod Z.of_nat M)%Z -> y k = y k') ->
  obwd t (fun u k => y (Z.of_nat q * Z.of_nat k + orho u)%Z) j = idft M (fun k => y (Z.of_nat k)) j.
Proof.
  intros How Hper. destruct (ow_facts t Hwf How) as (Hq & Hi & HL & Hn & HD & Hp2 & Hqp & Hsg).
  pose proof (wf_p t Hwf) as Hp1. pose proof (M_pos t Hwf) as HM. pose proof (wf_m t Hwf) as Hm.
  pose proof (M_eq t) as EM.
  unfold obwd, idft. replace (S p) with q by lia.
  assert (HC : forall f, Csum M f = Csum q (fun u => Csum m (fun k => f (q * k + u)))).
  { intros f. rewrite EM, Csum_mul_nat. apply Csum_swap. }
  rewrite HC. apply Csum_ext. intros u Hu.
  set (g := fun k => Cmul (y k) (zeta M (- (Z.of_nat j * k)))).
  assert (Hg : forall k k', (k mod Z.of_nat M = k' mod Z.of_nat M)%Z -> g k = g k').
  { intros k k' E. unfold g. rewrite (Hper k k' E). f_equal. apply zeta_mod_eq; [assumption|].
    rewrite <- !Z.mul_opp_l. rewrite Z.mul_mod, E, <- Z.mul_mod by lia. reflexivity. }
  unfold bval. change (Csum m (fun k => g (Z.of_nat q * Z.of_nat k + orho u)%Z) = Csum m (fun k => g (Z.of_nat (q * k + u)))).
  unfold orho. destruct (Nat.eqb_spec u 2) as [->|Hu2].
  2:{ apply Csum_ext. intros k Hk. f_equal. lia. }
  assert (Eq : q = 3) by lia.
  rewrite (Csum_ext m _ (fun k => g (Z.of_nat q * (Z.of_nat k - 1) + 2)%Z)).
  2:{ intros k Hk. f_equal. rewrite Eq. lia. }
  rewrite (cyc_shift m (fun z => g (Z.of_nat q * z + 2)%Z)).
  2:{ intros k. apply Hg. rewrite EM, Nat2Z.inj_mul.
      replace (Z.of_nat q * (k + Z.of_nat m) + 2)%Z with (Z.of_nat q * k + 2 + 1 * (Z.of_nat m * Z.of_nat q))%Z by ring.
      apply Z.mod_add. nia. }
  apply Csum_ext. intros k Hk. f_equal. lia.
Qed.
End T.

(** *** The convolution theorem *)
Lemma outv_prod M L (x y : nat -> C) j : 1 <= M ->
  idft M (fun k => Cmul (outv M L x (Z.of_nat k)) (outv M L y (Z.of_nat k))) j =
  Cmul (RtoC (INR M)) (Csum L (fun a => Csum L (fun b =>
    if ((Z.of_nat a + Z.of_nat b - Z.of_nat j) mod Z.of_nat M =? 0)%Z then Cmul (x a) (y b) else C0))).
Proof.
  intros HM. unfold idft, outv.
  transitivity (Csum M (fun k => Csum L (fun a => Csum L (fun b =>
    Cmul (Cmul (x a) (y b)) (zeta M (Z.of_nat k * (Z.of_nat a + Z.of_nat b - Z.of_nat j))))))).
  { apply Csum_ext. intros k Hk. rewrite <- Csum_mul_r, <- Csum_mul_r. apply Csum_ext. intros a Ha.
    rewrite <- Csum_mul_l, <- Csum_mul_r. apply Csum_ext. intros b Hb.
    replace (Z.of_nat k * (Z.of_nat a + Z.of_nat b - Z.of_nat j))%Z with
      (Z.of_nat a * Z.of_nat k + Z.of_nat b * Z.of_nat k + - (Z.of_nat j * Z.of_nat k))%Z by ring.
    rewrite !zeta_add. ring. }
  rewrite Csum_swap. rewrite <- Csum_mul_l. apply Csum_ext. intros a Ha.
  rewrite Csum_swap. rewrite <- Csum_mul_l. apply Csum_ext. intros b Hb.
  rewrite Csum_mul_l, zeta_orth by assumption.
  destruct (_ =? 0)%Z; ring.
Qed.

(** with M >= 2L-1 the first L elements are those of the linear convolution *)
Lemma linear_conv M L (x y : nat -> C) j : j < L -> 2 * L <= M + 1 ->
  idft M (fun k => Cmul (outv M L x (Z.of_nat k)) (outv M L y (Z.of_nat k))) j =
  Cmul (RtoC (INR M)) (Csum (S j) (fun i => Cmul (x i) (y (j - i)))).
Proof.
  intros Hj HM. rewrite outv_prod by lia. f_equal.
  rewrite (Csum_ext L _ (fun a => if a <=? j then Cmul (x a) (y (j - a)) else C0)).
  - rewrite (Csum_pad (S j) L); [|lia|intros i Hi Hi'; destruct (Nat.leb_spec i j); [lia|reflexivity]].
    apply Csum_ext. intros i Hi. destruct (Nat.leb_spec i j); [reflexivity|lia].
  - intros a Ha.
    assert (Hz : forall b, b < L -> ((Z.of_nat a + Z.of_nat b - Z.of_nat j) mod Z.of_nat M = 0)%Z -> a + b = j).
    { intros b Hb E. apply Z.mod_divide in E; [|lia]. destruct E as [z E].
      assert (-1 < z < 1)%Z by nia. assert (z = 0)%Z by lia. subst z. lia. }
    destruct (Nat.leb_spec a j) as [Haj|Haj].
    + rewrite (Csum_single L (j - a)); [|lia|].
      * replace (Z.of_nat a + Z.of_nat (j - a) - Z.of_nat j)%Z with 0%Z by lia. rewrite Z.mod_0_l by lia. reflexivity.
      * intros b Hb Hne. destruct (Z.eqb_spec ((Z.of_nat a + Z.of_nat b - Z.of_nat j) mod Z.of_nat M) 0) as [E|E]; [|reflexivity].
        specialize (Hz b Hb E). lia.
    + apply Csum_zero. intros b Hb. destruct (Z.eqb_spec ((Z.of_nat a + Z.of_nat b - Z.of_nat j) mod Z.of_nat M) 0) as [E|E]; [|reflexivity].
      specialize (Hz b Hb E). lia.
Qed.

Lemma outv_conj M L x k : Cconj (outv M L x k) = outv M L (fun j => Cconj (x j)) (- k).
Proof.
  unfold outv. rewrite Csum_conj. apply Csum_ext. intros j Hj. rewrite Cconj_mul, <- zeta_neg.
  f_equal. f_equal. ring.
Qed.

(** correlation: the product with a conjugated transform *)
Lemma linear_corr M L (x y : nat -> C) j : j < L -> 2 * L <= M + 1 ->
  idft M (fun k => Cmul (outv M L x (Z.of_nat k)) (Cconj (outv M L y (Z.of_nat k)))) j =
  Cmul (RtoC (INR M)) (Csum (L - j) (fun i => Cmul (x (j + i)) (Cconj (y i)))).
Proof.
  intros Hj HM. unfold idft.
  transitivity (Csum M (fun k => Csum L (fun b => Csum L (fun a =>
    Cmul (Cmul (x a) (Cconj (y b))) (zeta M (Z.of_nat k * (Z.of_nat a - Z.of_nat b - Z.of_nat j))))))).
  { apply Csum_ext. intros k Hk. rewrite outv_conj. unfold outv.
    rewrite <- Csum_mul_l, <- Csum_mul_r. apply Csum_ext. intros b Hb.
    rewrite <- !Csum_mul_r. apply Csum_ext. intros a Ha.
    replace (Z.of_nat k * (Z.of_nat a - Z.of_nat b - Z.of_nat j))%Z with
      (Z.of_nat a * Z.of_nat k + Z.of_nat b * - Z.of_nat k + - (Z.of_nat j * Z.of_nat k))%Z by ring.
    rewrite !zeta_add. ring. }
  rewrite Csum_swap, <- Csum_mul_l.
  rewrite (Csum_pad (L - j) L); [apply Csum_ext; intros b Hb|lia|intros b Hb Hb'].
  all: rewrite Csum_swap.
  all: assert (Hz : forall a, a < L -> ((Z.of_nat a - Z.of_nat b - Z.of_nat j) mod Z.of_nat M = 0)%Z -> a = j + b)
    by (intros a Ha E; apply Z.mod_divide in E; [|lia]; destruct E as [z E];
      assert (-1 < z < 1)%Z by nia; assert (z = 0)%Z by lia; subst z; lia).
  - rewrite (Csum_single L (j + b)); [|lia|].
    + rewrite Csum_mul_l, zeta_orth by lia.
      replace (Z.of_nat (j + b) - Z.of_nat b - Z.of_nat j)%Z with 0%Z by lia. rewrite Z.mod_0_l by lia. cbn [Z.eqb]. ring.
    + intros a Ha Hne. rewrite Csum_mul_l, zeta_orth by lia.
      destruct (Z.eqb_spec ((Z.of_nat a - Z.of_nat b - Z.of_nat j) mod Z.of_nat M) 0) as [E|E]; [|ring].
      specialize (Hz a Ha E). lia.
  - apply Csum_zero. intros a Ha. rewrite Csum_mul_l, zeta_orth by lia.
    destruct (Z.eqb_spec ((Z.of_nat a - Z.of_nat b - Z.of_nat j) mod Z.of_nat M) 0) as [E|E]; [|ring].
    specialize (Hz a Ha E). lia.
Qed.

(** inverse of the padded transform *)
Lemma idft_outv M L (x : nat -> C) j : j < L -> L <= M ->
  idft M (fun k => outv M L x (Z.of_nat k)) j = Cmul (RtoC (INR M)) (x j).
Proof.
  intros Hj HM. unfold idft, outv.
  transitivity (Csum M (fun k => Csum L (fun a => Cmul (x a) (zeta M (Z.of_nat k * (Z.of_nat a - Z.of_nat j)))))).
  { apply Csum_ext. intros k Hk. rewrite <- Csum_mul_r. apply Csum_ext. intros a Ha.
    replace (Z.of_nat k * (Z.of_nat a - Z.of_nat j))%Z with (Z.of_nat a * Z.of_nat k + - (Z.of_nat j * Z.of_nat k))%Z by ring.
    rewrite zeta_add. ring. }
  rewrite Csum_swap. rewrite (Csum_single L j); [|assumption|].
  - rewrite Csum_mul_l, zeta_orth by lia. rewrite Z.sub_diag, Z.mod_0_l by lia. cbn [Z.eqb]. ring.
  - intros a Ha Hne. rewrite Csum_mul_l, zeta_orth by lia.
    destruct (Z.eqb_spec ((Z.of_nat a - Z.of_nat j) mod Z.of_nat M) 0) as [E|E]; [|ring].
    apply Z.mod_divide in E; [|lia]. destruct E as [z E].
    assert (-1 < z < 1)%Z by nia. assert (z = 0)%Z by lia. subst z. lia.
Qed.
