(** Proofs about Array.h and align.h. *)
From Coq Require Import Arith ZArith List Bool Lia.
Import ListNotations.
From Verif Require Import ArrayModel ArraySpec ArrayOwn ArrayDisc.

(** ** Indexing *)
Section Idx.
Open Scope Z_scope.
Lemma position_range : forall dims offs idx, in_box dims offs idx -> 0 <= position dims offs idx < volume dims.
Proof.
  induction dims as [|n dims IH]; intros [|o offs] [|i idx] H; cbn [in_box] in H; try tauto.
  - cbn. lia.
  - destruct H as [H1 H2]. apply IH in H2. cbn [position volume]. set (p := position dims offs idx) in *. set (w := volume dims) in *.
    clearbody p w. clear IH. assert ((i - o) * w + w <= n * w) by nia. nia.
Qed.
Lemma position_inj : forall dims offs idx idx', in_box dims offs idx -> in_box dims offs idx' ->
  position dims offs idx = position dims offs idx' -> idx = idx'.
Proof.
  induction dims as [|n dims IH]; intros [|o offs] [|i idx] [|i' idx'] H H' E; cbn [in_box] in *; try tauto.
  destruct H as [H1 H2], H' as [H1' H2']. cbn [position] in E.
  pose proof (position_range _ _ _ H2). pose proof (position_range _ _ _ H2').
  assert (i = i'). { set (p := position dims offs idx) in *. set (p' := position dims offs idx') in *. set (w := volume dims) in *.
    clearbody p p' w. nia. }
  subst i'. f_equal. eapply IH; eauto. lia.
Qed.
Lemma volume_pos dims : Forall (fun n => 0 <= n) dims -> 0 <= volume dims.
Proof. induction 1; cbn [volume]; nia. Qed.
Lemma position_surj : forall dims offs k, length offs = length dims -> Forall (fun n => 0 <= n) dims ->
  0 <= k < volume dims -> exists idx, in_box dims offs idx /\ position dims offs idx = k.
Proof.
  induction dims as [|n dims IH]; intros [|o offs] k L F H; try discriminate.
  - exists []. cbn in *. split; auto. lia.
  - cbn [volume] in H. inversion F as [|? ? F1 F2]; subst. pose proof (volume_pos dims F2) as W.
    assert (0 < volume dims) by nia.
    destruct (IH offs (k mod volume dims)) as (idx & B & P); [auto|auto|apply Z.mod_pos_bound; auto|].
    exists (o + k / volume dims :: idx). cbn [in_box position]. rewrite P.
    assert (0 <= k / volume dims < n).
    { split; [apply Z.div_pos; lia|]. apply Z.div_lt_upper_bound; lia. }
    split; [split; [lia|auto]|].
    rewrite (Z.div_mod k (volume dims)) at 3 by lia. ring.
Qed.

Lemma chk_true nd i n a : 0 <= i < n -> chk nd i n a = a.
Proof. intros. unfold chk. destruct nd; auto. destruct (Z.ltb_spec i 0); [lia|]. destruct (Z.leb_spec n i); [lia|]. reflexivity. Qed.
Lemma chk_false i n a : ~ 0 <= i < n -> chk false i n a = Exited.
Proof. intros. unfold chk. destruct (Z.ltb_spec i 0); auto. destruct (Z.leb_spec n i); auto. lia. Qed.
Lemma chk_cases i n a : (0 <= i < n /\ chk false i n a = a) \/ (~ 0 <= i < n /\ chk false i n a = Exited).
Proof. destruct (Z_lt_dec i 0); [right; split; [lia|apply chk_false; lia]|]. destruct (Z_lt_dec i n); [left|right]; (split; [lia|]); [apply chk_true|apply chk_false]; lia. Qed.
Lemma chk_nd i n a : chk true i n a = a. Proof. reflexivity. Qed.

Ltac idx := unfold indexes; cbn [in_box position volume]; rewrite ?chk_nd;
  split; [intros H; rewrite ?chk_true by (try lia; tauto || (repeat match goal with H : _ /\ _ |- _ => destruct H end; lia))
         | intros H; repeat (match goal with |- context [chk false ?i ?n ?a] =>
             destruct (chk_cases i n a) as [[? ->]|[? ->]] end); auto; exfalso; apply H; repeat split; lia].
Ltac ats := repeat match goal with H : _ /\ _ |- _ => destruct H end; rewrite ?chk_true by lia; split; f_equal; ring.
Ltac idx' := unfold indexes; cbn [in_box position volume]; unfold chk at 2 3 4 5 6 7 8 9 10 11; cbv iota;
  split; [intros H; ats|].

Lemma array1_thm v n i : indexes [n] [0] [i] v (array1_at false v n i) (array1_at true v n i).
Proof.
  unfold indexes, array1_at. cbn [in_box position volume]. rewrite chk_nd. split.
  - intros (H & _). rewrite chk_true by lia. split; f_equal; ring.
  - intros H. apply chk_false. lia.
Qed.
Ltac go := unfold indexes; cbn [in_box position volume]; rewrite ?chk_nd; split;
  [ intros H; repeat match goal with H : _ /\ _ |- _ => destruct H end; cbn [sub]; rewrite ?chk_true by lia; cbn [sub];
    repeat (rewrite ?chk_true by lia; cbn [sub]); split; f_equal; ring
  | intros H; repeat (match goal with |- context [chk false ?i ?n ?a] =>
      destruct (chk_cases i n a) as [[? ->]|[? ->]] end; cbn [sub]; try reflexivity); exfalso; apply H; repeat split; lia ].

Lemma array2_thm v nx ny ix iy :
  indexes [nx; ny] [0; 0] [ix; iy] v (array2_at false v nx ny ix iy) (array2_at true v nx ny ix iy) /\
  indexes [nx; ny] [0; 0] [ix; iy] v (array2_chain false v nx ny ix iy) (array2_chain true v nx ny ix iy).
Proof. split; unfold array2_chain, array2_sub, array2_at, array1_at; go. Qed.
Lemma array3_thm v nx ny nz ix iy iz :
  indexes [nx; ny; nz] [0; 0; 0] [ix; iy; iz] v (array3_at false v nx ny nz ix iy iz) (array3_at true v nx ny nz ix iy iz) /\
  indexes [nx; ny; nz] [0; 0; 0] [ix; iy; iz] v (array3_chain false v nx ny nz ix iy iz) (array3_chain true v nx ny nz ix iy iz).
Proof. split; unfold array3_chain, array3_sub, array3_at, array2_chain, array2_sub, array1_at; cbv zeta; go. Qed.
Lemma array4_thm v nx ny nz nw ix iy iz iw :
  indexes [nx; ny; nz; nw] [0; 0; 0; 0] [ix; iy; iz; iw] v (array4_at false v nx ny nz nw ix iy iz iw) (array4_at true v nx ny nz nw ix iy iz iw) /\
  indexes [nx; ny; nz; nw] [0; 0; 0; 0] [ix; iy; iz; iw] v (array4_chain false v nx ny nz nw ix iy iz iw) (array4_chain true v nx ny nz nw ix iy iz iw).
Proof. split; unfold array4_chain, array4_sub, array4_at, array3_chain, array3_sub, array2_chain, array2_sub, array1_at; cbv zeta; go. Qed.
Lemma array5_thm v nx ny nz nw nv ix iy iz iw iv :
  indexes [nx; ny; nz; nw; nv] [0; 0; 0; 0; 0] [ix; iy; iz; iw; iv] v (array5_at false v nx ny nz nw nv ix iy iz iw iv) (array5_at true v nx ny nz nw nv ix iy iz iw iv) /\
  indexes [nx; ny; nz; nw; nv] [0; 0; 0; 0; 0] [ix; iy; iz; iw; iv] v (array5_chain false v nx ny nz nw nv ix iy iz iw iv) (array5_chain true v nx ny nz nw nv ix iy iz iw iv).
Proof. split; unfold array5_chain, array5_sub, array5_at, array4_chain, array4_sub, array3_chain, array3_sub, array2_chain, array2_sub, array1_at; cbv zeta; go. Qed.
Lemma Array1_thm v n o i : indexes [n] [o] [i] v (Array1_at false v n o i) (Array1_at true v n o i).
Proof. unfold Array1_at; cbv zeta; go. Qed.
Lemma Array2_thm v nx ny ox oy ix iy :
  indexes [nx; ny] [ox; oy] [ix; iy] v (Array2_at false v nx ny ox oy ix iy) (Array2_at true v nx ny ox oy ix iy) /\
  indexes [nx; ny] [ox; oy] [ix; iy] v (Array2_chain false v nx ny ox oy ix iy) (Array2_chain true v nx ny ox oy ix iy) /\
  (in_box [nx; ny] [ox; oy] [ix; iy] -> Array2_raw v ny ox oy ix iy = At (v + position [nx; ny] [ox; oy] [ix; iy])).
Proof.
  split; [|split]; unfold Array2_raw, Array2_chain, Array2_sub, Array2_at, Array1_at; cbv zeta; [go|go|].
  intros _. cbn [position volume]. f_equal. ring.
Qed.
Lemma Array3_thm v nx ny nz ox oy oz ix iy iz :
  indexes [nx; ny; nz] [ox; oy; oz] [ix; iy; iz] v (Array3_at false v nx ny nz ox oy oz ix iy iz) (Array3_at true v nx ny nz ox oy oz ix iy iz) /\
  indexes [nx; ny; nz] [ox; oy; oz] [ix; iy; iz] v (Array3_chain false v nx ny nz ox oy oz ix iy iz) (Array3_chain true v nx ny nz ox oy oz ix iy iz).
Proof. split; unfold Array3_chain, Array3_sub, Array3_at, Array2_chain, Array2_sub, Array1_at; cbv zeta; go. Qed.
Lemma Array4_thm v nx ny nz nw ox oy oz ow ix iy iz iw :
  indexes [nx; ny; nz; nw] [ox; oy; oz; ow] [ix; iy; iz; iw] v (Array4_at false v nx ny nz nw ox oy oz ow ix iy iz iw) (Array4_at true v nx ny nz nw ox oy oz ow ix iy iz iw) /\
  indexes [nx; ny; nz; nw] [ox; oy; oz; ow] [ix; iy; iz; iw] v (Array4_chain false v nx ny nz nw ox oy oz ow ix iy iz iw) (Array4_chain true v nx ny nz nw ox oy oz ow ix iy iz iw).
Proof. split; unfold Array4_chain, Array4_sub, Array4_at, Array3_chain, Array3_sub, Array2_chain, Array2_sub, Array1_at; cbv zeta; go. Qed.
Lemma Array5_thm v nx ny nz nw nv ox oy oz ow ov ix iy iz iw iv :
  indexes [nx; ny; nz; nw; nv] [ox; oy; oz; ow; ov] [ix; iy; iz; iw; iv] v (Array5_at false v nx ny nz nw nv ox oy oz ow ov ix iy iz iw iv) (Array5_at true v nx ny nz nw nv ox oy oz ow ov ix iy iz iw iv) /\
  indexes [nx; ny; nz; nw; nv] [ox; oy; oz; ow; ov] [ix; iy; iz; iw; iv] v (Array5_chain false v nx ny nz nw nv ox oy oz ow ov ix iy iz iw iv) (Array5_chain true v nx ny nz nw nv ox oy oz ow ov ix iy iz iw iv).
Proof. split; unfold Array5_chain, Array5_sub, Array5_at, Array4_chain, Array4_sub, Array3_chain, Array3_sub, Array2_chain, Array2_sub, Array1_at; cbv zeta; go. Qed.

Lemma eqs_spec l : eqs l = true <-> Forall (fun ab => fst ab = snd ab) l.
Proof. unfold eqs. rewrite forallb_forall, Forall_forall. split; intros H x Hx; specialize (H x Hx); apply Z.eqb_eq; auto. Qed.
End Idx.

(** ** Loops *)
Lemma stride_loop_spec {V} (g : nat -> V -> V) inc size : 1 <= inc -> forall fuel i a k, size <= i + fuel * inc ->
  stride_loop fuel g i inc size a k =
    (if (i <=? k) && (k <? size) && ((k - i) mod inc =? 0) then g k (a k) else a k).
Proof.
  intros Hi. induction fuel; intros i a k Hf; simpl.
  - destruct (Nat.leb_spec i k), (Nat.ltb_spec k size); auto. lia.
  - destruct (Nat.ltb_spec i size) as [L|L].
    + rewrite IHfuel by lia. unfold set_at.
      destruct (Nat.eqb_spec k i) as [->|N].
      * destruct (Nat.leb_spec (i + inc) i); [lia|]. rewrite Nat.leb_refl. destruct (Nat.ltb_spec i size); [|lia].
        rewrite Nat.sub_diag, Nat.mod_0_l by lia. reflexivity.
      * destruct (Nat.leb_spec i k) as [L1|L1], (Nat.leb_spec (i + inc) k) as [L2|L2]; try lia; simpl; auto.
        -- replace (k - i) with ((k - (i + inc)) + 1 * inc) by lia. rewrite Nat.mod_add by lia. reflexivity.
        -- rewrite (Nat.mod_small (k - i)) by lia. destruct (Nat.eqb_spec (k - i) 0); [lia|]. rewrite andb_false_r. reflexivity.
    + destruct (Nat.leb_spec i k), (Nat.ltb_spec k size); auto. lia.
Qed.
Lemma full_loop {V} (g : nat -> V -> V) size a k : stride_loop size g 0 1 size a k = if k <? size then g k (a k) else a k.
Proof. rewrite stride_loop_spec by lia. rewrite Nat.mod_1_r. simpl. rewrite andb_true_r. reflexivity. Qed.

Lemma elementwise_thm {V} (op : V -> V -> V) (x : V) (b : nat -> V) size a k :
  Load x size a k = (if k <? size then x else a k) /\
  LoadP b size a k = (if k <? size then b k else a k) /\
  opArray op b size a k = (if k <? size then op (a k) (b k) else a k) /\
  opScalar op x size a k = (if k <? size then op (a k) x else a k).
Proof. unfold Load, LoadP, opArray, opScalar. rewrite !full_loop. auto. Qed.

(** the flat indices visited with stride ny+1 *)
Lemma diag_hit nx ny i j : i < nx -> j < ny -> nx <= ny + 1 ->
  ((i * ny + j) mod (ny + 1) =? 0) = (i =? j).
Proof.
  intros Hi Hj Hn. destruct (Nat.eqb_spec i j) as [->|N].
  - replace (j * ny + j) with (j * (ny + 1)) by ring. rewrite Nat.mod_mul by lia. reflexivity.
  - apply Nat.eqb_neq. intros E. apply Nat.div_exact in E; [|lia]. set (q := (i * ny + j) / (ny + 1)) in *. clearbody q.
    assert (q = i \/ q < i \/ i < q) as [->|[L|L]] by lia; nia.
Qed.
Lemma flat_lt nx ny i j : i < nx -> j < ny -> i * ny + j < nx * ny.
Proof. intros. nia. Qed.
Lemma addscalar2_thm {V} (op : V -> V -> V) x nx ny a i j : nx <= ny + 1 -> i < nx -> j < ny ->
  array2_addscalar op x nx ny a (i * ny + j) = (if i =? j then op (a (i * ny + j)) x else a (i * ny + j)).
Proof.
  intros. unfold array2_addscalar. rewrite stride_loop_spec by nia. rewrite Nat.sub_0_r, diag_hit with (nx := nx) by auto.
  pose proof (flat_lt nx ny i j). destruct (Nat.ltb_spec (i * ny + j) (nx * ny)); [reflexivity|lia].
Qed.
Lemma Identity_thm {V} (zero one : V) nx ny a i j : nx <= ny + 1 -> i < nx -> j < ny ->
  Identity zero one nx ny a (i * ny + j) = (if i =? j then one else zero).
Proof.
  intros. unfold Identity. rewrite stride_loop_spec by nia. rewrite Nat.sub_0_r, diag_hit with (nx := nx) by auto.
  pose proof (flat_lt nx ny i j). destruct (Nat.ltb_spec (i * ny + j) (nx * ny)); [|lia].
  unfold Load. rewrite full_loop. destruct (Nat.ltb_spec (i * ny + j) (nx * ny)); [reflexivity|lia].
Qed.
Lemma outside_thm {V} (op : V -> V -> V) x (zero one : V) nx ny a k : nx * ny <= k ->
  array2_addscalar op x nx ny a k = a k /\ Identity zero one nx ny a k = a k.
Proof.
  intros. unfold array2_addscalar, Identity, Load. rewrite !stride_loop_spec by nia.
  destruct (Nat.ltb_spec k (nx * ny)); [lia|]. rewrite !andb_false_r. auto.
Qed.
(** one more row than that and element (ny+1,0) is hit *)
Lemma Identity_wrong {V} (zero one : V) nx ny a : 0 < ny -> ny + 1 < nx ->
  Identity zero one nx ny a ((ny + 1) * ny + 0) = one.
Proof.
  intros. unfold Identity. rewrite stride_loop_spec by nia.
  replace ((ny + 1) * ny + 0 - 0) with (ny * (ny + 1)) by lia. rewrite Nat.mod_mul by lia.
  destruct (Nat.ltb_spec ((ny + 1) * ny + 0) (nx * ny)); [reflexivity|nia].
Qed.
Lemma addscalar_wrong {V} (op : V -> V -> V) x nx ny a : 0 < ny -> ny + 1 < nx ->
  array2_addscalar op x nx ny a ((ny + 1) * ny + 0) = op (a ((ny + 1) * ny + 0)) x.
Proof.
  intros. unfold array2_addscalar. rewrite stride_loop_spec by nia.
  replace ((ny + 1) * ny + 0 - 0) with (ny * (ny + 1)) by lia. rewrite Nat.mod_mul by lia.
  destruct (Nat.ltb_spec ((ny + 1) * ny + 0) (nx * ny)); [reflexivity|nia].
Qed.
(** cubes *)
Lemma cube_hit n i j k : i < n -> j < n -> k < n ->
  ((i * (n * n) + j * n + k) mod (n * n + n + 1) =? 0) = ((i =? j) && (j =? k)).
Proof.
  intros Hi Hj Hk. destruct (Nat.eqb_spec i j) as [->|N].
  - destruct (Nat.eqb_spec j k) as [->|N].
    + replace (k * (n * n) + k * n + k) with (k * (n * n + n + 1)) by ring. rewrite Nat.mod_mul by lia. reflexivity.
    + apply Nat.eqb_neq. intros E. apply Nat.div_exact in E; [|lia]. set (q := _ / _) in E. clearbody q.
      assert (q = j \/ q < j \/ j < q) as [->|[L|L]] by lia; [nia| |]; exfalso.
      * assert (q * (n * n + n + 1) + (n * n + n + 1) <= j * (n * n + n + 1)) by nia. nia.
      * assert (j * (n * n + n + 1) + (n * n + n + 1) <= q * (n * n + n + 1)) by nia. nia.
  - apply Nat.eqb_neq. intros E. apply Nat.div_exact in E; [|lia]. set (q := _ / _) in E. clearbody q.
    assert (q = i \/ q < i \/ i < q) as [->|[L|L]] by lia.
    + apply N. nia.
    + assert (q * (n * n + n + 1) + (n * n + n + 1) <= i * (n * n + n + 1)) by nia.
      assert (j * n + k < n * n) by nia. nia.
    + assert (i * (n * n + n + 1) + (n * n + n + 1) <= q * (n * n + n + 1)) by nia.
      assert (j * n + k < n * n) by nia. nia.
Qed.
Lemma addscalar3_thm {V} (op : V -> V -> V) x n a i j k : i < n -> j < n -> k < n ->
  let p := i * (n * n) + j * n + k in
  array3_addscalar op x n n n a p = (if (i =? j) && (j =? k) then op (a p) x else a p).
Proof.
  intros Hi Hj Hk p. unfold array3_addscalar. rewrite stride_loop_spec by nia. rewrite Nat.sub_0_r. unfold p. rewrite cube_hit by auto.
  assert (i * (n * n) + j * n + k < n * (n * n)). { assert (j * n + k < n * n) by nia. nia. }
  destruct (Nat.ltb_spec (i * (n * n) + j * n + k) (n * (n * n))); [reflexivity|lia].
Qed.
Lemma addscalar3_wrong {V} (op : V -> V -> V) x a :
  array3_addscalar op x 3 3 1 a 5 = op (a 5) x.
Proof. unfold array3_addscalar. rewrite stride_loop_spec by lia. reflexivity. Qed.

Lemma fold_min {V} (lt : V -> V -> bool) (a : nat -> V) :
  (forall x y z, lt x y = false -> lt y z = false -> lt x z = false) -> (forall x y, lt x y = true -> lt y x = false) ->
  (forall x, lt x x = false) ->
  forall l m, let r := fold_left (fun m i => if lt (a i) m then a i else m) l m in
    (r = m \/ exists i, In i l /\ r = a i) /\ lt m r = false /\ forall i, In i l -> lt (a i) r = false.
Proof.
  intros Tr As Ir. induction l as [|j l IH]; intros m; cbn [fold_left].
  - cbv zeta. split; [auto|]. split; [apply Ir|]. intros i [].
  - destruct (IH (if lt (a j) m then a j else m)) as (R1 & R2 & R3). cbv zeta. split; [|split].
    + destruct R1 as [E|(i & Hi & E)].
      * rewrite E. destruct (lt (a j) m); [right; exists j; simpl; auto|auto].
      * right. exists i. simpl; auto.
    + destruct (lt (a j) m) eqn:E; [|exact R2]. eapply Tr; [apply As, E|exact R2].
    + intros i [<-|Hi]; [|auto]. destruct (lt (a j) m) eqn:E; [exact R2|]. eapply Tr; [exact E|exact R2].
Qed.
Lemma Min_thm {V} (lt : V -> V -> bool) size (a : nat -> V) :
  (forall x y z, lt x y = false -> lt y z = false -> lt x z = false) -> (forall x y, lt x y = true -> lt y x = false) ->
  (forall x, lt x x = false) ->
  (size = 0 -> Min lt size a = None /\ Max lt size a = None) /\
  (0 < size ->
   (exists m, Min lt size a = Some m /\ (exists i, i < size /\ m = a i) /\ forall i, i < size -> lt (a i) m = false) /\
   (exists m, Max lt size a = Some m /\ (exists i, i < size /\ m = a i) /\ forall i, i < size -> lt m (a i) = false)).
Proof.
  intros Tr As Ir. split; [intros ->; auto|]. intros H. destruct size as [|n]; [lia|]. unfold Min, Max. split.
  - destruct (fold_min lt a Tr As Ir (seq 1 n) (a 0)) as (R1 & R2 & R3). eexists. split; [reflexivity|]. split.
    + destruct R1 as [E|(i & Hi & E)]; [exists 0; split; [lia|exact E]|]. exists i. apply in_seq in Hi. split; [lia|exact E].
    + intros i Hi. destruct i; [exact R2|]. apply R3. apply in_seq. lia.
  - destruct (fold_min (fun x y => lt y x) a) with (l := seq 1 n) (m := a 0) as (R1 & R2 & R3).
    + intros x y z H1 H2. eapply Tr; eauto.
    + intros x y E. apply As; auto.
    + auto.
    + eexists. split; [reflexivity|]. split.
      * destruct R1 as [E|(i & Hi & E)]; [exists 0; split; [lia|exact E]|]. exists i. apply in_seq in Hi. split; [lia|exact E].
      * intros i Hi. destruct i; [exact R2|]. apply R3. apply in_seq. lia.
Qed.
