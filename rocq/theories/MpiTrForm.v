(** The communication calls of mpitranspose as lists of requests. *)
From Coq Require Import List Arith Bool Lia ZArith Permutation.
From Verif Require Import MpiModel MpiSpec MpiSched MpiMachine MpiRun MpiTrModel MpiTrGeom MpiLinks.
Import ListNotations.
Local Open Scope nat_scope.

(** schedules are permutations *)
Lemma mksched_perm : forall w n, w < n -> Permutation (mksched w n) (seq 0 n).
Proof.
  intros w n H. unfold mksched. destruct (sched_matched n ltac:(lia)) as [Pm _].
  rewrite (Permutation_map Z.to_nat (Pm w H)). rewrite map_map.
  rewrite (map_ext _ (fun x => x)) by (intros; apply Nat2Z.id). rewrite map_id. auto.
Qed.
Lemma mksched_len : forall w n, w < n -> length (mksched w n) = n.
Proof. intros. rewrite (Permutation_length (mksched_perm w n H)). apply seq_length. Qed.
Lemma mksched_in : forall w n P, w < n -> (In P (mksched w n) <-> P < n).
Proof.
  intros w n P H. rewrite (Permutation_in' eq_refl (mksched_perm w n H)). rewrite in_seq. lia.
Qed.
Lemma mksched_nodup : forall w n, w < n -> NoDup (mksched w n).
Proof. intros. eapply Permutation_NoDup; [symmetry; apply mksched_perm; auto|apply seq_NoDup]. Qed.

Section Form.
Variable V : Type.
Notation cmd := (prog V -> prog V).

Lemma floop_ext : forall cnt i (f f' : nat -> cmd), (forall j k, i <= j < i + cnt -> f j k = f' j k) ->
  forall k, floop V i cnt f k = floop V i cnt f' k.
Proof.
  induction cnt as [|cnt IH]; intros i f f' H k; simpl; auto. unfold seqc.
  rewrite H by lia. rewrite (IH (S i) f f'). { auto. } intros; apply H; lia.
Qed.

Lemma forc_list : forall (l : list nat) (body : nat -> cmd) (it : nat -> list item),
  (forall P k, In P l -> body P k = post_items V (it P) k) ->
  forall k, forc V (length l) (fun p => body (nth p l 0)) k = post_items V (flat_map it l) k.
Proof.
  intros l body it H k. unfold forc.
  assert (Q : forall l2 l1, l = l1 ++ l2 -> forall k,
    floop V (length l1) (length l2) (fun p => body (nth p l 0)) k = post_items V (flat_map it l2) k).
  { induction l2 as [|x l2 IH]; intros l1 E k'; auto. cbn [length floop flat_map]. unfold seqc.
    rewrite E at 1. rewrite nth_middle. rewrite H by (rewrite E; apply in_or_app; right; left; auto).
    assert (post_items_app : forall a b k, post_items V (a ++ b) k = post_items V a (post_items V b k)).
    { clear. induction a; intros; auto. cbn [app post_items]. rewrite IHa. auto. }
    rewrite post_items_app. f_equal.
    specialize (IH (l1 ++ [x])). rewrite app_length in IH. cbn [length] in IH. rewrite Nat.add_1_r in IH.
    apply IH. rewrite <- app_assoc. auto. }
  apply (Q l []). auto.
Qed.

Lemma post_items_app : forall a b k, post_items V (a ++ b) k = post_items V a (post_items V b k).
Proof. induction a; intros; auto. cbn [app post_items]. rewrite IHa. auto. Qed.

Lemma flat_map_filter : forall (A B : Type) (p : A -> bool) (f : A -> list B) l,
  flat_map (fun x => if p x then f x else []) l = flat_map f (filter p l).
Proof. intros. induction l; auto. cbn [flat_map filter]. destruct (p a); cbn [flat_map]; rewrite IHl; auto. Qed.

Lemma length_seq_forc : forall n w (body : nat -> cmd) (it : nat -> list item), w < n ->
  (forall P k, P < n -> body P k = post_items V (it P) k) ->
  forall k, forc V n (fun p => body (nth p (mksched w n) 0)) k = post_items V (flat_map it (mksched w n)) k.
Proof.
  intros n w body it H Hb k. rewrite <- (mksched_len w n H) at 1. apply forc_list.
  intros P k' I. apply Hb. apply mksched_in in I; auto.
Qed.

Lemma items_of_flat : forall arr sb rb iR iS lk l,
  flat_map (fun P => items_of arr sb rb iR iS lk [P]) l = items_of arr sb rb iR iS lk l.
Proof.
  intros. induction l as [|x l IH]; [reflexivity|]. cbn [flat_map]. rewrite IH. reflexivity.
Qed.

(** ** Ialltoallout, Ialltoallin *)
Definition pcond (r start P : nat) : bool := negb (P =? r) && ((start <=? r) || (start <=? P)).
Definition pindex (r start P : nat) : nat := if start <=? r then (if P <? r then P else P - 1) else P - start.

Section Rank.
Variables (c : cfg) (r : nat).
Notation n := (ni c r). Notation m := (mi c r).
Notation S := (S_ c).

Definition peers (start : nat) : list nat := filter (pcond r start) (sched c r).
Definition lk_out (P : nat) : link :=
  mkLink P 0 (m * S * n0 c * P) (m * S * ni c P) (n * S * m0 c * P) (n * S * mi c P).
Definition lk_in (P : nat) : link :=
  mkLink P 0 (n * S * m0 c * P) (n * S * mi c P) (m * S * n0 c * P) (m * S * ni c P).
Definition p2p_items (sb rb start : nat) (lk : nat -> link) : list item :=
  items_of 0 sb rb (pindex r start) (fun P => Size c r start + pindex r start P) lk (peers start).

Lemma Ialltoallout_form : forall sb rb start k, r < size c ->
  Ialltoallout V c r n m sb rb start k =
  post_items V (p2p_items sb rb start lk_out)
    (ocopy V sb rb (if start <=? r then Some (n * S * m0 c * r, m * S * n0 c * r, n * S * mi c r) else None) k).
Proof.
  intros sb rb start k Hr. unfold Ialltoallout, seqc. unfold sched.
  set (body := fun P => ifc V (negb (P =? r) && ((start <=? r) || (start <=? P)))
      (let index := if start <=? r then (if P <? r then P else P - 1) else P - start in
       let count := m * S * ni c P in let count2 := n * S * mi c P in
       fun k0 => ifc V (0 <? count) (Post V 0 index false [Rcv P 0 rb (m * S * n0 c * P) count]) (SetNull V 0 index)
         (ifc V (0 <? count2) (Post V 0 (Size c r start + index) false [Snd P 0 sb (n * S * m0 c * P) count2])
            (SetNull V 0 (Size c r start + index)) k0)) (skip V)).
  change (forc V (size c) (fun p => body (nth p (mksched r (size c)) 0))
    (ifc V (start <=? r) (copyb V sb (n * S * m0 c * r) rb (m * S * n0 c * r) (n * S * mi c r)) (skip V) k) = 
    post_items V (p2p_items sb rb start lk_out)
    (ocopy V sb rb (if start <=? r then Some (n * S * m0 c * r, m * S * n0 c * r, n * S * mi c r) else None) k)).
  replace (ifc V (start <=? r) (copyb V sb (n * S * m0 c * r) rb (m * S * n0 c * r) (n * S * mi c r)) (skip V) k)
    with (ocopy V sb rb (if start <=? r then Some (n * S * m0 c * r, m * S * n0 c * r, n * S * mi c r) else None) k)
    by (destruct (start <=? r); reflexivity).
  rewrite (length_seq_forc (size c) r body (fun P => if pcond r start P then
     items_of 0 sb rb (pindex r start) (fun P => Size c r start + pindex r start P) lk_out [P] else [])); auto.
  - f_equal. rewrite flat_map_filter. unfold p2p_items, peers, sched.
    apply items_of_flat.
  - intros P k0 HP. unfold body, pcond. destruct (negb (P =? r) && _); [|reflexivity].
    unfold ifc, items_of, lk_out. cbn [flat_map app lpeer lctx lroff lrlen lsoff lslen]. cbv zeta.
    cbn [app post_items post_item]. unfold pindex.
    destruct (0 <? m * S * ni c P), (0 <? n * S * mi c P); reflexivity.
Qed.

Lemma Ialltoallin_form : forall sb rb start k, r < size c ->
  Ialltoallin V c r n m sb rb start k =
  post_items V (p2p_items sb rb start lk_in)
    (ocopy V sb rb (if start <=? r then Some (m * S * n0 c * r, n * S * m0 c * r, m * S * ni c r) else None) k).
Proof.
  intros sb rb start k Hr. unfold Ialltoallin, seqc. unfold sched.
  set (body := fun P => ifc V (negb (P =? r) && ((start <=? r) || (start <=? P)))
      (let index := if start <=? r then (if P <? r then P else P - 1) else P - start in
       let count := n * S * mi c P in let count2 := m * S * ni c P in
       fun k0 => ifc V (0 <? count) (Post V 0 index false [Rcv P 0 rb (n * S * m0 c * P) count]) (SetNull V 0 index)
         (ifc V (0 <? count2) (Post V 0 (Size c r start + index) false [Snd P 0 sb (m * S * n0 c * P) count2])
            (SetNull V 0 (Size c r start + index)) k0)) (skip V)).
  change (forc V (size c) (fun p => body (nth p (mksched r (size c)) 0))
    (ifc V (start <=? r) (copyb V sb (m * S * n0 c * r) rb (n * S * m0 c * r) (m * S * ni c r)) (skip V) k) = 
    post_items V (p2p_items sb rb start lk_in)
    (ocopy V sb rb (if start <=? r then Some (m * S * n0 c * r, n * S * m0 c * r, m * S * ni c r) else None) k)).
  replace (ifc V (start <=? r) (copyb V sb (m * S * n0 c * r) rb (n * S * m0 c * r) (m * S * ni c r)) (skip V) k)
    with (ocopy V sb rb (if start <=? r then Some (m * S * n0 c * r, n * S * m0 c * r, m * S * ni c r) else None) k)
    by (destruct (start <=? r); reflexivity).
  rewrite (length_seq_forc (size c) r body (fun P => if pcond r start P then
     items_of 0 sb rb (pindex r start) (fun P => Size c r start + pindex r start P) lk_in [P] else [])); auto.
  - f_equal. rewrite flat_map_filter. unfold p2p_items, peers, sched.
    apply items_of_flat.
  - intros P k0 HP. unfold body, pcond. destruct (negb (P =? r) && _); [|reflexivity].
    unfold ifc, items_of, lk_in. cbn [flat_map app lpeer lctx lroff lrlen lsoff lslen]. cbv zeta.
    cbn [app post_items post_item]. unfold pindex.
    destruct (0 <? m * S * ni c P), (0 <? n * S * mi c P); reflexivity.
Qed.

Lemma peers_in : forall start P, r < size c -> (In P (peers start) <-> P < size c /\ P <> r /\ (start <= r \/ start <= P)).
Proof.
  intros start P Hr. unfold peers. rewrite filter_In. unfold sched. rewrite mksched_in by auto. unfold pcond.
  rewrite andb_true_iff, negb_true_iff, Nat.eqb_neq, orb_true_iff, !Nat.leb_le. tauto.
Qed.
Lemma peers_nodup : forall start, r < size c -> NoDup (peers start).
Proof. intros. unfold peers. apply NoDup_filter. apply mksched_nodup; auto. Qed.

Lemma pindex_lt : forall start P, r < size c -> start <= size c -> In P (peers start) -> pindex r start P < Size c r start.
Proof.
  intros start P Hr Hs I. apply peers_in in I; auto. unfold pindex, Size. destruct (Nat.leb_spec start r); [|lia].
  destruct (Nat.ltb_spec P r); lia.
Qed.
Lemma pindex_inj : forall start P Q, r < size c -> In P (peers start) -> In Q (peers start) ->
  pindex r start P = pindex r start Q -> P = Q.
Proof.
  intros start P Q Hr I J E. apply peers_in in I; auto. apply peers_in in J; auto. unfold pindex in E.
  destruct (Nat.leb_spec start r); [|lia]. destruct (Nat.ltb_spec P r), (Nat.ltb_spec Q r); lia.
Qed.
Lemma pindex_surj : forall start i, r < size c -> i < Size c r start ->
  exists P, In P (peers start) /\ pindex r start P = i.
Proof.
  intros start i Hr Hi. unfold Size in Hi. destruct (Nat.leb_spec start r) as [H|H].
  - exists (if i <? r then i else i + 1). rewrite peers_in by auto. unfold pindex.
    destruct (Nat.leb_spec start r); [|lia].
    destruct (Nat.ltb_spec i r) as [Q|Q]; [destruct (Nat.ltb_spec i r)|destruct (Nat.ltb_spec (i + 1) r)]; lia.
  - exists (i + start). rewrite peers_in by auto. unfold pindex. destruct (Nat.leb_spec start r); lia.
Qed.
End Rank.

(** slots of a list of pairs of requests *)
Lemma pair_slots_nodup : forall (arr base K : nat) (idx : nat -> nat) Ps, NoDup Ps ->
  (forall P Q, In P Ps -> In Q Ps -> idx P = idx Q -> P = Q) -> (forall P, In P Ps -> idx P < K) ->
  NoDup (flat_map (fun P => [(arr, base + idx P); (arr, base + K + idx P)]) Ps).
Proof.
  intros arr base K idx Ps ND Inj Lt. induction Ps as [|P Ps IH]; simpl; [constructor|]. inversion ND; subst.
  assert (Q : forall x, In (arr, x) (flat_map (fun P => [(arr, base + idx P); (arr, base + K + idx P)]) Ps) ->
    exists P', In P' Ps /\ (x = base + idx P' \/ x = base + K + idx P')).
  { intros x I. apply in_flat_map in I. destruct I as (P' & I & [E|[E|[]]]); inversion E; subst; exists P'; auto. }
  pose proof (Lt P (or_introl eq_refl)).
  constructor; [|constructor].
  - intros [E|E]; [inversion E; lia|]. apply Q in E. destruct E as (P' & I & [E|E]).
    + assert (P = P') by (apply Inj; [left|right|lia]; auto). subst; auto.
    + lia.
  - intros E. apply Q in E. destruct E as (P' & I & [E|E]).
    + pose proof (Lt P' (or_intror I)). lia.
    + assert (P = P') by (apply Inj; [left|right|lia]; auto). subst; auto.
  - apply IH; auto. { intros; apply Inj; auto; right; auto. } { intros; apply Lt; right; auto. }
Qed.
Lemma pair_slots_in : forall (arr base K : nat) (idx : nat -> nat) Ps (a i : nat),
  (forall P, In P Ps -> idx P < K) -> (forall j, j < K -> exists P, In P Ps /\ idx P = j) ->
  (In (a, i) (flat_map (fun P => [(arr, base + idx P); (arr, base + K + idx P)]) Ps) <-> a = arr /\ base <= i < base + 2 * K).
Proof.
  intros arr base K idx Ps a i Lt Sj. rewrite in_flat_map. split.
  - intros (P & I & [E|[E|[]]]); inversion E; subst; specialize (Lt P I); lia.
  - intros [-> H]. destruct (Nat.lt_ge_cases i (base + K)).
    + destruct (Sj (i - base) ltac:(lia)) as (P & I & E). exists P. split; auto. left. f_equal. lia.
    + destruct (Sj (i - base - K) ltac:(lia)) as (P & I & E). exists P. split; auto. right; left. f_equal. lia.
Qed.

(** ** Ialltoall *)
(** a communicator: its members are nm 0 < nm 1 < ... *)
Record commis (cm : comm) (cnt : nat) (nm : nat -> nat) : Prop := mkCommis {
  ci_mem : cmem cm = map nm (seq 0 cnt);
  ci_inc : forall i j, i < j -> j < cnt -> nm i < nm j }.

Lemma ci_len : forall cm cnt nm, commis cm cnt nm -> length (cmem cm) = cnt.
Proof. intros cm cnt nm [E _]. rewrite E, map_length, seq_length. auto. Qed.
Lemma ci_inj : forall cm cnt nm, commis cm cnt nm -> forall i j, i < cnt -> j < cnt -> nm i = nm j -> i = j.
Proof.
  intros cm cnt nm [_ I] i j Hi Hj E. destruct (Nat.lt_trichotomy i j) as [H|[H|H]]; auto.
  - specialize (I i j H Hj). lia. - specialize (I j i H Hi). lia.
Qed.
Lemma ci_nth : forall cm cnt nm P, commis cm cnt nm -> P < cnt -> nth P (cmem cm) 0 = nm P.
Proof.
  intros cm cnt nm P [E _] H. rewrite E. rewrite (nth_indep _ 0 (nm 0)) by (rewrite map_length, seq_length; auto).
  rewrite map_nth, seq_nth; auto.
Qed.
Lemma ci_rank : forall cm cnt nm rk, commis cm cnt nm -> rk < cnt -> crank (cmem cm) (nm rk) = rk.
Proof.
  intros cm cnt nm rk C Hr. destruct C as [E I]. unfold crank. rewrite E.
  assert (Q : forall n, n <= cnt -> length (filter (fun s => s <? nm rk) (map nm (seq 0 n))) = Nat.min n rk).
  { induction n as [|n IH]; intros Hn; auto. rewrite seq_S, map_app, filter_app, app_length, IH by lia. cbn [Nat.add map filter].
    destruct (Nat.ltb_spec (nm n) (nm rk)) as [L|L]; cbn [length].
    - assert (n < rk). { destruct (Nat.lt_ge_cases n rk); auto. destruct (Nat.eq_dec n rk) as [->|]; [lia|].
        specialize (I rk n ltac:(lia) ltac:(lia)). lia. } lia.
    - assert (rk <= n). { destruct (Nat.le_gt_cases rk n); auto. specialize (I n rk ltac:(lia) ltac:(lia)). lia. } lia. }
  rewrite Q by lia. lia.
Qed.

Definition lk_a2a (ctx count : nat) (nm : nat -> nat) (P : nat) : link := mkLink (nm P) ctx (P * count) count (P * count) count.
Definition rindex (rk P : nat) : nat := if P <? rk then P else P - 1.

(** what Ialltoall posts: requests, the links they realise, the own copy *)
Definition a2a_peers (sch : bool) (rk cnt : nat) : list nat :=
  if sch then filter (fun P => negb (P =? rk)) (mksched rk cnt) else seq 0 cnt.
Definition a2a_items (sb rb arr base count : nat) (sch : bool) (cm : comm) (cnt rk : nat) (nm : nat -> nat) : list item :=
  if sch then items_of arr sb rb (fun P => base + rindex rk P) (fun P => base + (cnt - 1) + rindex rk P)
                (lk_a2a (cp2p cm) count nm) (a2a_peers true rk cnt)
  else [(arr, base, sb =? rb, Some (specs_of sb rb (map (lk_a2a (ccol cm) count nm) (a2a_peers false rk cnt))))].
Definition a2a_links (count : nat) (sch : bool) (cm : comm) (cnt rk : nat) (nm : nat -> nat) : list link :=
  map (lk_a2a (if sch then cp2p cm else ccol cm) count nm) (a2a_peers sch rk cnt).
Definition a2a_copy (count : nat) (sch : bool) (rk : nat) : option (nat * nat * nat) :=
  if sch then Some (rk * count, rk * count, count) else None.

Lemma a2a_specs : forall sb rb arr base count sch cm cnt rk (nm : nat -> nat),
  specs (a2a_items sb rb arr base count sch cm cnt rk nm) = specs_of sb rb (a2a_links count sch cm cnt rk nm).
Proof.
  intros. unfold a2a_items, a2a_links. destruct sch; [apply items_of_specs|].
  unfold specs; cbn [flat_map ispecs snd]. apply app_nil_r.
Qed.

Lemma Ialltoall_form : forall sb rb count cm arr base (sch : bool) cnt rk nm k, commis cm cnt nm -> rk < cnt -> 0 < count ->
  Ialltoall V (nm rk) sb count rb cm arr base (if sch then Some (mksched rk cnt) else None) k =
  post_items V (a2a_items sb rb arr base count sch cm cnt rk nm) (ocopy V sb rb (a2a_copy count sch rk) k).
Proof.
  intros sb rb count cm arr base sch cnt rk nm k C Hr Hc. unfold Ialltoall.
  rewrite (ci_len _ _ _ C), (ci_rank _ _ _ _ C Hr). destruct sch.
  - unfold seqc.
    set (body := fun P => ifc V (negb (P =? rk)) (let index := if P <? rk then P else P - 1 in
       fun k0 => Post V arr (base + index) false [Rcv (nth P (cmem cm) 0) (cp2p cm) rb (P * count) count]
         (Post V arr (base + (cnt - 1) + index) false [Snd (nth P (cmem cm) 0) (cp2p cm) sb (P * count) count] k0)) (skip V)).
    change (forc V cnt (fun p => body (nth p (mksched rk cnt) 0)) (copyb V sb (rk * count) rb (rk * count) count k) =
      post_items V (a2a_items sb rb arr base count true cm cnt rk nm) (copyb V sb (rk * count) rb (rk * count) count k)).
    rewrite (length_seq_forc cnt rk body (fun P => if negb (P =? rk) then items_of arr sb rb (fun P => base + rindex rk P)
      (fun P => base + (cnt - 1) + rindex rk P) (lk_a2a (cp2p cm) count nm) [P] else [])); auto.
    + f_equal. rewrite flat_map_filter. unfold a2a_items, a2a_peers.
      apply items_of_flat.
    + intros P k0 HP. unfold body. destruct (negb (P =? rk)); [|reflexivity].
      rewrite (ci_nth _ _ _ _ C HP). unfold ifc, items_of, lk_a2a, rindex.
      cbn [flat_map app lpeer lctx lroff lrlen lsoff lslen]. cbv zeta. cbn [app post_items post_item].
      destruct (Nat.ltb_spec 0 count); [|lia]. reflexivity.
  - unfold a2a_items, a2a_copy, a2a_peers, ocopy. cbn [post_items post_item]. f_equal. unfold specs_of.
    rewrite flat_map_concat_map, flat_map_concat_map, map_map. f_equal. apply map_ext_in. intros P I. apply in_seq in I.
    rewrite (ci_nth _ _ _ _ C) by lia. unfold lk_a2a, lr, ls. cbn [lpeer lctx lroff lrlen lsoff lslen].
    destruct (Nat.ltb_spec 0 count); [|lia]. reflexivity.
Qed.

Lemma a2a_peers_in : forall sch rk cnt P, rk < cnt -> (In P (a2a_peers sch rk cnt) <-> P < cnt /\ (sch = true -> P <> rk)).
Proof.
  intros sch rk cnt P H. unfold a2a_peers. destruct sch.
  - rewrite filter_In, mksched_in by auto. rewrite negb_true_iff, Nat.eqb_neq. tauto.
  - rewrite in_seq. split; intros; [split; [lia|discriminate]|lia].
Qed.
Lemma a2a_peers_nodup : forall sch rk cnt, rk < cnt -> NoDup (a2a_peers sch rk cnt).
Proof. intros [] rk cnt H; unfold a2a_peers; [apply NoDup_filter, mksched_nodup; auto|apply seq_NoDup]. Qed.

Lemma a2a_links_in : forall count sch cm cnt rk nm x, rk < cnt ->
  (In x (a2a_links count sch cm cnt rk nm) <->
   exists P, P < cnt /\ (sch = true -> P <> rk) /\ x = lk_a2a (if sch then cp2p cm else ccol cm) count nm P).
Proof.
  intros. unfold a2a_links. rewrite in_map_iff. split.
  - intros (P & <- & I). apply a2a_peers_in in I; auto. exists P. tauto.
  - intros (P & H1 & H2 & ->). exists P. split; auto. apply a2a_peers_in; auto.
Qed.

Lemma NoDup_map_inj : forall (A B : Type) (f : A -> B) l, NoDup l ->
  (forall x y, In x l -> In y l -> f x = f y -> x = y) -> NoDup (map f l).
Proof.
  intros A B f l ND Inj. induction ND as [|x l N ND IH]; simpl; constructor.
  - intros I. apply in_map_iff in I. destruct I as (y & E & I). apply N.
    rewrite (Inj x y); [auto|left; auto|right; auto|auto].
  - apply IH. intros; apply Inj; auto; right; auto.
Qed.

Lemma a2a_links_keys : forall count sch cm cnt rk nm, commis cm cnt nm -> rk < cnt ->
  NoDup (map lkey (a2a_links count sch cm cnt rk nm)).
Proof.
  intros count sch cm cnt rk nm C Hr. unfold a2a_links. rewrite map_map. apply NoDup_map_inj.
  - apply a2a_peers_nodup; auto.
  - intros x y Ix Iy E. apply a2a_peers_in in Ix; auto. apply a2a_peers_in in Iy; auto.
    unfold lkey, lk_a2a in E; cbn [lpeer lctx] in E. inversion E. eapply ci_inj; eauto; tauto.
Qed.

(** a chunk of [count] cells *)
Lemma chunk_uniq : forall count P Q o, P * count <= o < P * count + count -> Q * count <= o < Q * count + count -> P = Q.
Proof.
  intros count P Q o H1 H2. destruct (Nat.lt_trichotomy P Q) as [L|[E|L]]; auto.
  - assert ((P + 1) * count <= Q * count) by (apply Nat.mul_le_mono_r; lia). rewrite Nat.mul_add_distr_r in H. lia.
  - assert ((Q + 1) * count <= P * count) by (apply Nat.mul_le_mono_r; lia). rewrite Nat.mul_add_distr_r in H. lia.
Qed.
Lemma a2a_links_disj : forall count sch cm cnt rk nm, rk < cnt -> regions_disj (a2a_links count sch cm cnt rk nm).
Proof.
  intros count sch cm cnt rk nm Hr x y o Ix Iy H1 H2. apply a2a_links_in in Ix; auto. apply a2a_links_in in Iy; auto.
  destruct Ix as (P & _ & _ & ->). destruct Iy as (Q & _ & _ & ->). cbn [lk_a2a lroff lrlen] in *.
  rewrite (chunk_uniq count P Q o); auto.
Qed.
End Form.
