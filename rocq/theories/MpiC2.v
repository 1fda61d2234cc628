(** The phases of the distributed convolution. *)
From Coq Require Import Reals List Arith Bool Lia FunctionalExtensionality.
From Verif Require Import CNum Sums MpiMachine MpiRun MpiTrModel MpiTrGeom MpiTrPhase MpiTrXch MpiTrSpec MpiTrTop MpiColl MpiFftModel MpiFft1 MpiRFft1 MpiCModel MpiC1.
Import ListNotations.
Local Open Scope nat_scope.

Section Phases.
Variable c : cfg.
Context {Hc : good c}.
Hypothesis Hz : csz c = 1. Hypothesis HL : cL c = 1.
Variables (A B Lx off : nat) (K : kern).
Notation X := (cN c). Notation Y := (cM c). Notation P := (cP c). Notation Z_ := (S_ c).
Notation N := (nN A B).
Notation fb := (fb A B). Notation vb := (vb A B).
Hypothesis HT : P = 1 \/ blocklen Y P < Y.
Hypothesis Hbk : forall i, i < nblocks K -> kblock K i <= X.
Hypothesis Kf : forall i k x x', i < nblocks K -> k < kblock K i -> (forall t, t < Lx -> x t = x' t) -> kfwd K i k x = kfwd K i k x'.
Hypothesis Kb : forall i t y y', i < nblocks K -> (forall k, k < kblock K i -> y k = y' k) -> kbwd K i t y = kbwd K i t y'.
Hypothesis Kr : forall i k w w' b j, i < nblocks K -> (forall a j, a < A -> j < Y -> w a j = w' a j) -> krow K i k w b j = krow K i k w' b j.
Variables (bsz0 : nat -> nat -> nat) (mem0 : nat -> nat -> nat -> C).
Definition many : bool := 1 <? nblocks K.
Hypothesis Hcap : forall r b, r < P -> b <= N -> storage X Y Z_ P r <= bsz0 r b.
Hypothesis Hf : forall r a, r < P -> a < N -> off + Lx * count Y P r <= bsz0 r (fb a).
Hypothesis Hv : many = true -> forall r b, r < P -> b < B -> Lx * count Y P r <= bsz0 r (vb b).
Notation bs := (seq 0 (N + 1)).
Notation fr := (seq 0 (3 * N + 1)).

Lemma S1 : Z_ = 1. Proof. unfold S_. rewrite Hz, HL. reflexivity. Qed.

(** what is known: the layouts l of the arrays F, their contents F, and those of f and of V *)
Definition kn (l : nat -> option bool) (F : nat -> nat -> nat -> C) (b : nat) : know C :=
  if b <? N then match l b with Some d => Some (d, fun k j (_ : nat) => F b k j) | None => None end else None.
Definition En (f v : nat -> nat -> nat -> C) (r : nat) (m : nat -> nat -> C) : Prop :=
  (forall a x j, a < N -> x < Lx -> j < count Y P r -> m (fb a) (off + (x * count Y P r + j)) = f a x (first Y P r + j)) /\
  (many = true -> forall b x j, b < B -> x < Lx -> j < count Y P r -> m (vb b) (x * count Y P r + j) = v b x (first Y P r + j)) /\
  (forall a o, a < N -> o < off \/ off + Lx * count Y P r <= o -> m (fb a) o = mem0 r (fb a) o).
Definition Inv (l : nat -> option bool) (F f v : nat -> nat -> nat -> C) : (nat -> loc C) -> Prop :=
  CInv C c bs bsz0 mem0 (kn l F) (En f v) fr.
Notation CollC := (Coll C c).

Lemma in_bs : forall b, In b bs <-> b <= N. Proof. intros b. rewrite in_seq. lia. Qed.
Lemma in_fr : forall b, In b fr <-> b < 3 * N + 1. Proof. intros b. rewrite in_seq. lia. Qed.

Lemma cols_eq : forall G r m, agrees C X Y Z_ P (Some (false, fun k j _ => G k j)) r m <->
  forall k j, k < X -> j < count Y P r -> m (k * count Y P r + j) = G k (first Y P r + j).
Proof.
  intros G r m. cbn [agrees]. unfold has_cols. rewrite S1. split; intros H.
  - intros k j Hk Hj. specialize (H k j 0 Hk Hj ltac:(lia)). rewrite Nat.mul_1_r, Nat.add_0_r in H. exact H.
  - intros k j t Hk Hj Ht. replace t with 0 by lia. rewrite Nat.mul_1_r, Nat.add_0_r. auto.
Qed.
Lemma rows_eq : forall G r m, agrees C X Y Z_ P (Some (true, fun k j _ => G k j)) r m <->
  forall k j, k < count X P r -> j < Y -> m (k * Y + j) = G (first X P r + k) j.
Proof.
  intros G r m. cbn [agrees]. unfold has_rows. rewrite S1. split; intros H.
  - intros k j Hk Hj. specialize (H k j 0 Hk Hj ltac:(lia)). rewrite Nat.mul_1_r, Nat.add_0_r in H. exact H.
  - intros k j t Hk Hj Ht. replace t with 0 by lia. rewrite Nat.mul_1_r, Nat.add_0_r. auto.
Qed.

Lemma inv_phase : forall cm l l' F F' f f' v v',
  (forall r k, size c <= r -> r < P -> cm r k = k) ->
  (forall r s, r < size c -> quiet C s -> bsz C s = bsz0 r ->
     (forall a, a < N -> agrees C X Y Z_ P (kn l F a) r (mem C s a)) -> En f v r (mem C s) ->
     exists m', runs C (cm r) s (setmem C s m') /\ (forall a, a < N -> agrees C X Y Z_ P (kn l' F' a) r (m' a)) /\ En f' v' r m' /\
       forall b o, 3 * N + 1 <= b -> m' b o = mem C s b o) ->
  CollC cm (Inv l F f v) (Inv l' F' f' v').
Proof.
  intros cm l l' F F' f f' v v' Hi Hl. apply coll_local; auto. intros r s Hr Q Zs _ Ha HE.
  destruct (Hl r s Hr Q Zs) as (m' & R & G & E & Fm); auto.
  - intros a Ha'. apply Ha. apply in_bs. lia.
  - exists m'. split; [exact R|]. split; [|split; [exact E|]].
    + intros b Hb. apply in_bs in Hb. destruct (Nat.lt_ge_cases b N) as [H|H]; auto.
      unfold kn. destruct (Nat.ltb_spec b N); [lia|exact Logic.I].
    + intros b o Hb. apply Fm. rewrite in_fr in Hb. lia.
Qed.
Lemma inv_fwd : forall l l' F F' f v s, (forall a, a < N -> l' a = None \/ (l' a = l a /\ F' a = F a)) ->
  Inv l F f v s -> Inv l' F' f v s.
Proof.
  intros l l' F F' f v s H [[Ok Ag] HE Zb Fr]. constructor; auto. split; [exact Ok|]. intros r b Hr Hb.
  unfold kn. destruct (Nat.ltb_spec b N) as [Hn|Hn]; [|exact Logic.I].
  destruct (H b Hn) as [->|[-> ->]]; [exact Logic.I|].
  specialize (Ag r b Hr Hb). unfold kn in Ag. destruct (Nat.ltb_spec b N); [exact Ag|lia].
Qed.
Definition set1 (T : Type) (l : nat -> T) (a : nat) (x : T) : nat -> T := fun b => if b =? a then x else l b.
Arguments set1 {T}.
(** whatever an array holds can be seen as columns *)
Lemma owner : forall r j, j < count Y P r -> (first Y P r + j) / blocklen Y P = r /\ (first Y P r + j) mod blocklen Y P = j.
Proof.
  intros r j Hj. assert (Hb : j < blocklen Y P) by (unfold count in Hj; lia). unfold first.
  split; symmetry.
  - apply (Nat.div_unique _ _ r j); lia.
  - apply (Nat.mod_unique _ _ r j); lia.
Qed.
Lemma inv_view : forall l F f v s a, a < N -> Inv l F f v s ->
  exists G, Inv (set1 l a (Some false)) (set1 F a G) f v s.
Proof.
  intros l F f v s a Ha [[Ok Ag] HE Zb Fr].
  exists (fun k j => mem C (s (j / blocklen Y P)) a (k * count Y P (j / blocklen Y P) + j mod blocklen Y P)).
  constructor; auto. split; [exact Ok|]. intros r b Hr Hb. unfold kn, set1.
  destruct (Nat.ltb_spec b N) as [Hn|Hn]; [|exact Logic.I].
  destruct (Nat.eqb_spec b a) as [->|Nb].
  - apply cols_eq. intros k j Hk Hj. destruct (owner r j Hj) as [-> ->]. reflexivity.
  - specialize (Ag r b Hr Hb). unfold kn in Ag. destruct (Nat.ltb_spec b N); [exact Ag|lia].
Qed.

Lemma y_idle : forall r, size c <= r -> ldim Y P r = 0. Proof. intros r H. apply (y_none c r H). Qed.
Lemma x_idle : forall r, size c <= r -> ldim X P r = 0. Proof. intros r H. apply (x_none c r H). Qed.
Lemma kernels_none : forall n n' tr M ai ao k, M = 0 -> kernels n n' tr M ai ao k = k.
Proof. intros; subst; reflexivity. Qed.
Lemma cap_cols : forall r k j a, r < P -> a < N -> k < X -> j < count Y P r -> k * count Y P r + j < bsz0 r a.
Proof.
  intros r k j a Hr Ha Hk Hj. specialize (Hcap r a Hr ltac:(lia)). unfold storage in Hcap. rewrite S1 in Hcap.
  pose proof (fit k j X (count Y P r) Hk Hj). lia.
Qed.
Lemma cap_rows : forall r k j a, r < P -> a < N -> k < count X P r -> j < Y -> k * Y + j < bsz0 r a.
Proof.
  intros r k j a Hr Ha Hk Hj. specialize (Hcap r a Hr ltac:(lia)). unfold storage in Hcap. rewrite S1 in Hcap.
  pose proof (fit k j (count X P r) Y Hk Hj). lia.
Qed.
Lemma size_lt : forall r, r < size c -> r < P. Proof. intros r H. pose proof (size_le c). lia. Qed.
Lemma count_le : forall r j, j < count Y P r -> first Y P r + j < Y. Proof. intros r j. unfold count. lia. Qed.

(** fftx->Forward of one array *)
Lemma fwd1_phase : forall l F f v i a, i < nblocks K -> a < A -> l a = Some false ->
  CollC (fun r => fwd1 c A B Lx off K r i a) (Inv l F f v)
    (Inv l (set1 F a (fun k j => if k <? kblock K i then kfwd K i k (fun x => f a x j) else F a k j)) f v).
Proof.
  intros l F f v i a Hi Ha El. assert (HaN : a < N) by (unfold nN; lia). pose proof (Hbk i Hi) as Bk.
  apply inv_phase.
  - intros r k H1 H2. apply kernels_none. apply y_idle; auto.
  - intros r s Hr Q Zs Ag (E1 & E2 & E3). pose proof (size_lt r Hr) as HrP. unfold fwd1.
    change (ldim Y P r) with (count Y P r) in *.
    set (ly := count Y P r) in *.
    destruct (kernels_run Lx (kblock K i) (fun _ x k => kfwd K i k x) ly
      (fun j t => (fb a, off + (t * ly + j))) (fun j k => (a, k * ly + j)) s Q) as (m' & R & W & Fm); cbn [fst snd].
    + intros h x x' _ E k Hk. apply Kf; auto.
    + intros h j Hh Hj. rewrite Zs. pose proof (fit j h Lx ly Hj Hh). pose proof (Hf r a HrP HaN). fold ly in H0. lia.
    + intros h k Hh Hk. rewrite Zs. apply cap_cols; auto. lia.
    + intros h k h' k' Hh Hk Hh' Hk' E. inversion E as [E']. apply split2 in E'; auto. tauto.
    + intros h j h' k _ _ _ _ _ E. inversion E. unfold MpiCModel.fb in *. lia.
    + exists m'. split; [exact R|]. split; [|split].
      * intros b Hb. unfold kn. destruct (Nat.ltb_spec b N) as [_|]; [|exact Logic.I]. unfold set1.
        destruct (Nat.eqb_spec b a) as [->|Nb].
        -- rewrite El. apply cols_eq. fold ly. intros k j Hk Hj. destruct (Nat.ltb_spec k (kblock K i)) as [Hkb|Hkb].
           ++ specialize (W j k Hj Hkb). unfold rd2 in W. cbn [fst snd] in W. rewrite W. apply Kf; auto.
           ++ rewrite Fm.
              ** specialize (Ag a HaN). unfold kn in Ag. destruct (Nat.ltb_spec a N); [|lia]. rewrite El in Ag. apply (proj1 (cols_eq (F a) r _) Ag); auto.
              ** intros h k' Hh Hk' E. inversion E as [E']. apply split2 in E'; auto. lia.
        -- replace (m' b) with (mem C s b).
           ++ specialize (Ag b Hb). unfold kn in Ag. destruct (Nat.ltb_spec b N); [|lia]. exact Ag.
           ++ apply functional_extensionality. intros o. symmetry. apply Fm. intros h k _ _ E. inversion E. auto.
      * split; [|split].
        -- intros a' x j Ha' Hx Hj. rewrite Fm; [apply E1; auto|]. intros h k _ _ E. inversion E. unfold MpiCModel.fb in *. lia.
        -- intros Mt b x j Hb Hx Hj. rewrite Fm; [apply E2; auto|]. intros h k _ _ E. inversion E. unfold MpiCModel.vb in *. lia.
        -- intros a' o Ha' Ho. rewrite Fm; [apply E3; auto|]. intros h k _ _ E. inversion E. unfold MpiCModel.fb in *. lia.
      * intros b o Hb. apply Fm. intros h k _ _ E. inversion E. lia.
Qed.

(** a transpose, or nothing if one process holds everything *)
Lemma one_cols : forall G r m, P = 1 -> r < P ->
  (agrees C X Y Z_ P (Some (true, fun k j _ => G k j)) r m <-> agrees C X Y Z_ P (Some (false, fun k j _ => G k j)) r m).
Proof.
  intros G r m E Hr. rewrite cols_eq, rows_eq.
  assert (E1 : forall M, 0 < M -> count M P r = M /\ first M P r = 0).
  { intros M HM. unfold count, first, blocklen. rewrite E. replace r with 0 by lia. rewrite Nat.div_1_r. lia. }
  destruct (E1 X gN) as [-> ->]. destruct (E1 Y gM) as [-> ->]. tauto.
Qed.
Lemma turn_phase : forall l F f v d a, a < N -> l a = Some d ->
  CollC (fun r => turn c A B r d a) (Inv l F f v) (Inv (set1 l a (Some (negb d))) F f v).
Proof.
  intros l F f v d a Ha El. destruct HT as [H1|H1].
  - eapply coll_eq with (cm := fun _ => skip C).
    + intros r k Hr. unfold turn. replace (ldim Y P r <? Y) with false; [reflexivity|]. symmetry. apply Nat.ltb_ge.
      change (ldim Y P r) with (count Y P r). unfold count, first, blocklen. rewrite H1. replace r with 0 by lia. rewrite Nat.div_1_r. lia.
    + eapply coll_mono; [|apply coll_skip]. intros s [[Ok Ag] HE Zb Fr]. constructor; auto. split; [exact Ok|].
      intros r b Hr Hb. specialize (Ag r b Hr Hb). unfold kn, set1 in *. destruct (Nat.ltb_spec b N) as [Hn|Hn]; [|exact Logic.I].
      destruct (Nat.eqb_spec b a) as [->|Nb]; [|exact Ag]. rewrite El in Ag.
      destruct d; cbn [negb]; apply (one_cols (F a) r _ H1 (size_lt r Hr)); exact Ag.
  - eapply coll_eq with (cm := fun r => localizeV C c N r d a).
    + intros r k Hr. unfold turn. replace (ldim Y P r <? Y) with true; [reflexivity|]. symmetry. apply Nat.ltb_lt.
      change (ldim Y P r) with (count Y P r). unfold count. lia.
    + pose proof (coll_call C c bs bsz0 mem0 d a N (kn l F) (En f v) (En f v) fr) as H.
      replace (kn (set1 l a (Some (negb d))) F) with (effect C N (mkCall d a a) (kn l F)).
      2:{ apply functional_extensionality. intros b. unfold effect, kn, set1. cbn [cin cout cdir].
          destruct (Nat.eqb_spec b a) as [->|Nb].
          - destruct (Nat.ltb_spec a N); [|lia]. rewrite El. reflexivity.
          - destruct (Nat.eqb_spec b N) as [->|]; auto. destruct (Nat.ltb_spec N N); [lia|auto]. }
      unfold Inv. replace (kn (set1 l a (Some (negb d))) F) with (effect C N (mkCall d a a) (kn l F)).
      * apply H.
        -- apply in_bs. lia.
        -- unfold legal_call. cbn [cin cout cdir]. rewrite !in_bs. split; [lia|]. split; [lia|]. split; [lia|]. split; [lia|].
           split; [|auto]. unfold kn. destruct (Nat.ltb_spec a N); [|lia]. rewrite El. eexists. reflexivity.
        -- apply in_fr. lia.
        -- apply in_fr. lia.
        -- intros r m m' Hr Fm (E1 & E2 & E3). split; [|split].
           ++ intros a' x j Ha' Hx Hj. rewrite Fm; [apply E1; auto| |]; unfold MpiCModel.fb; lia.
           ++ intros Mt b x j Hb Hx Hj. rewrite Fm; [apply E2; auto| |]; unfold MpiCModel.vb; lia.
           ++ intros a' o Ha' Ho. rewrite Fm; [apply E3; auto| |]; unfold MpiCModel.fb; lia.
      * apply functional_extensionality. intros b. unfold effect, kn, set1. cbn [cin cout cdir].
        destruct (Nat.eqb_spec b a) as [->|Nb].
        -- destruct (Nat.ltb_spec a N); [|lia]. rewrite El. reflexivity.
        -- destruct (Nat.eqb_spec b N) as [->|]; auto. destruct (Nat.ltb_spec N N); [lia|auto].
Qed.

(** the convolutions of the rows *)
Lemma dm : forall b j, j < Y -> (b * Y + j) / Y = b /\ (b * Y + j) mod Y = j.
Proof.
  intros b j Hj. split; symmetry.
  - apply (Nat.div_unique _ _ b j); lia.
  - apply (Nat.mod_unique _ _ b j); lia.
Qed.
Lemma dm_lt : forall n t, t < n * Y -> t / Y < n /\ t mod Y < Y.
Proof.
  intros n t Ht. pose proof (gM (c := c)). split.
  - apply Nat.div_lt_upper_bound; lia.
  - apply Nat.mod_upper_bound. lia.
Qed.
Lemma ownerx : forall r k, k < count X P r -> (first X P r + k) mod blocklen X P = k.
Proof.
  intros r k Hk. assert (Hb : k < blocklen X P) by (unfold count in Hk; lia). unfold first.
  symmetry. apply (Nat.mod_unique _ _ r k); lia.
Qed.
Definition rowed (i : nat) (F : nat -> nat -> nat -> C) (b k j : nat) : C :=
  krow K i (k mod blocklen X P) (fun a j => F a k j) b j.
Lemma sub_phase : forall l F f v i, i < nblocks K -> (forall a, a < A -> l a = Some true) ->
  CollC (fun r => subconv c A B K r i) (Inv l F f v) (Inv (fun _ => Some true) (rowed i F) f v).
Proof.
  intros l F f v i Hi El. pose proof (gM (c := c)) as HM.
  assert (AN : A <= N) by (unfold nN; lia).
  apply inv_phase.
  - intros r k H1 H2. apply kernels_none. apply x_idle; auto.
  - intros r s Hr Q Zs Ag (E1 & E2 & E3). pose proof (size_lt r Hr) as HrP. unfold subconv.
    change (ldim X P r) with (count X P r).
    destruct (kernels_run (A * Y) (N * Y) (fun k x t => krow K i k (fun a j => x (a * Y + j)) (t / Y) (t mod Y)) (count X P r)
      (fun k t => (t / Y, k * Y + t mod Y)) (fun k t => (t / Y, k * Y + t mod Y)) s Q) as (m' & R & W & Fm); cbn [fst snd].
    + intros h x x' _ E k Hk. apply Kr; auto. intros a j Ha Hj. apply E. apply fit; auto.
    + intros h t Hh Ht. destruct (dm_lt A t Ht). rewrite Zs. apply cap_rows; auto. lia.
    + intros h t Hh Ht. destruct (dm_lt N t Ht). rewrite Zs. apply cap_rows; auto.
    + intros h k h' k' Hh Hk Hh' Hk' E. destruct (dm_lt N k Hk) as [L1 L2]. destruct (dm_lt N k' Hk') as [L3 L4].
      injection E as Ed E'. apply split2 in E'; auto. destruct E' as [-> Em]. split; auto.
      rewrite (Nat.div_mod k Y), (Nat.div_mod k' Y), Ed, Em by lia. reflexivity.
    + intros h j h' k Hh Hj Hh' Hk Nh E. destruct (dm_lt A j Hj) as [L1 L2]. destruct (dm_lt N k Hk) as [L3 L4].
      injection E as Ed E'. apply split2 in E'; auto. tauto.
    + exists m'. split; [exact R|]. split; [|split].
      * intros b Hb. unfold kn. destruct (Nat.ltb_spec b N) as [_|]; [|lia]. apply rows_eq. intros k j Hk Hj.
        specialize (W k (b * Y + j) Hk ltac:(apply fit; auto)). destruct (dm b j Hj) as [D1 D2]. rewrite D1, D2 in W.
        unfold rd2 in W at 1. cbn [fst snd] in W. rewrite W. unfold rowed. rewrite ownerx by auto. apply Kr; auto.
        intros a j' Ha Hj'. destruct (dm a j' Hj') as [-> ->]. unfold rd2. cbn [fst snd].
        specialize (Ag a ltac:(lia)). unfold kn in Ag. destruct (Nat.ltb_spec a N); [|lia]. rewrite El in Ag by auto.
        apply (proj1 (rows_eq (F a) r _) Ag); auto.
      * split; [|split].
        -- intros a' x j Ha' Hx Hj. rewrite Fm; [apply E1; auto|]. intros h k _ Hk E. destruct (dm_lt N k Hk). inversion E. unfold MpiCModel.fb in *. lia.
        -- intros Mt b x j Hb Hx Hj. rewrite Fm; [apply E2; auto|]. intros h k _ Hk E. destruct (dm_lt N k Hk). inversion E. unfold MpiCModel.vb in *. lia.
        -- intros a' o Ha' Ho. rewrite Fm; [apply E3; auto|]. intros h k _ Hk E. destruct (dm_lt N k Hk). inversion E. unfold MpiCModel.fb in *. lia.
      * intros b o Hb. apply Fm. intros h k _ Hk E. destruct (dm_lt N k Hk). inversion E. lia.
Qed.

(** fftx->Backward of one array *)
Definition added (i : nat) (old : nat -> nat -> C) (G : nat -> nat -> C) (x j : nat) : C :=
  if i =? 0 then kbwd K i x (fun k => G k j) else Cadd (old x j) (kbwd K i x (fun k => G k j)).
Lemma bwd1_phase : forall l F f v i b, i < nblocks K -> b < B -> l b = Some false ->
  CollC (fun r => bwd1 c Lx K r i (if many then vb else fb) (if many then 0 else off) b) (Inv l F f v)
    (Inv l F (if many then f else set1 f b (added i (f b) (F b))) (if many then set1 v b (added i (v b) (F b)) else v)).
Proof.
  intros l F f v i b Hi Hb El. pose proof (Hbk i Hi) as Bk. assert (HbN : b < N) by (unfold nN; lia).
  apply inv_phase.
  - intros r k H1 H2. apply kernels_none. apply y_idle; auto.
  - intros r s Hr Q Zs Ag (E1 & E2 & E3). pose proof (size_lt r Hr) as HrP. unfold bwd1.
    change (ldim Y P r) with (count Y P r) in *.
    set (ly := count Y P r) in *. set (bk := kblock K i) in *.
    set (h := if many then vb else fb). set (o := if many then 0 else off).
    assert (Hh : forall x j, x < Lx -> j < ly -> o + (x * ly + j) < bsz0 r (h b)).
    { intros x j Hx Hj. pose proof (fit x j Lx ly Hx Hj) as Ft. unfold o, h. destruct many eqn:Em.
      - pose proof (Hv eq_refl r b HrP Hb). fold ly in H. lia.
      - pose proof (Hf r b HrP HbN). fold ly in H. lia. }
    assert (Hhb : N < h b < 3 * N + 1). { unfold h, MpiCModel.vb, MpiCModel.fb. destruct many; lia. }
    destruct (kernels_run (bk + Lx) Lx
      (fun _ x k => if i =? 0 then kbwd K i k x else Cadd (x (bk + k)) (kbwd K i k x)) ly
      (fun j t => if t <? bk then (b, t * ly + j) else (h b, o + ((t - bk) * ly + j)))
      (fun j k => (h b, o + (k * ly + j))) s Q) as (m' & R & W & Fm); cbn [fst snd].
    + intros hh x x' _ E k Hk. assert (Ek : kbwd K i k x = kbwd K i k x').
      { apply Kb; auto. intros k' Hk'. apply E. fold bk in Hk'. lia. }
      rewrite Ek, (E (bk + k)) by lia. reflexivity.
    + intros j t Hj Ht. rewrite Zs. destruct (Nat.ltb_spec t bk); cbn [fst snd].
      * apply cap_cols; auto. lia.
      * apply Hh; auto. lia.
    + intros j k Hj Hk. rewrite Zs. apply Hh; auto.
    + intros j k j' k' Hj Hk Hj' Hk' E. inversion E as [E']. apply Nat.add_cancel_l, split2 in E'; auto. tauto.
    + intros j t j' k Hj Ht Hj' Hk Nj E. destruct (Nat.ltb_spec t bk).
      * inversion E. lia.
      * inversion E as [E']. apply Nat.add_cancel_l, split2 in E'; auto. lia.
    + exists m'. split; [exact R|].
      assert (W' : forall x j, x < Lx -> j < ly -> m' (h b) (o + (x * ly + j)) =
        added i (fun x j => mem C s (h b) (o + (x * ly + j))) (fun k j => mem C s b (k * ly + j)) x j).
      { intros x j Hx Hj. specialize (W j x Hj Hx). unfold rd2 in W at 1. cbn [fst snd] in W. rewrite W. unfold added.
        assert (Ek : kbwd K i x (fun t => rd2 (mem C s) (if t <? bk then (b, t * ly + j) else (h b, o + ((t - bk) * ly + j)))) =
                     kbwd K i x (fun k => mem C s b (k * ly + j))).
        { apply Kb; auto. intros k Hk. fold bk in Hk. destruct (Nat.ltb_spec k bk); [reflexivity|lia]. }
        rewrite Ek. destruct (i =? 0); auto. destruct (Nat.ltb_spec (bk + x) bk); [lia|]. unfold rd2. cbn [fst snd].
        replace (bk + x - bk) with x by lia. reflexivity. }
      assert (AgF : forall k j, k < bk -> j < ly -> mem C s b (k * ly + j) = F b k (first Y P r + j)).
      { intros k j Hk Hj. specialize (Ag b HbN). unfold kn in Ag. destruct (Nat.ltb_spec b N); [|lia]. rewrite El in Ag.
        apply (proj1 (cols_eq (F b) r _) Ag); auto. lia. }
      assert (Fm' : forall b' o', b' <> h b -> m' b' o' = mem C s b' o').
      { intros b' o' Nb. apply Fm. intros j k _ _ E. inversion E. auto. }
      split; [|split].
      * intros b' Hb'. replace (m' b') with (mem C s b'); [apply Ag; auto|]. apply functional_extensionality. intros o'.
        symmetry. apply Fm'. lia.
      * assert (AE : forall old x j, x < Lx -> j < ly -> (mem C s (h b) (o + (x * ly + j)) = old x (first Y P r + j)) ->
          m' (h b) (o + (x * ly + j)) = added i old (F b) x (first Y P r + j)).
        { intros old x j Hx Hj Eo. rewrite W' by auto. unfold added. rewrite Eo.
          assert (Ek : kbwd K i x (fun k => mem C s b (k * ly + j)) = kbwd K i x (fun k => F b k (first Y P r + j))).
          { apply Kb; auto. }
          rewrite Ek. reflexivity. }
        unfold h, o in *. clear h o. destruct many eqn:Em.
        -- split; [|split].
           ++ intros a' x j Ha' Hx Hj. rewrite Fm' by (unfold MpiCModel.fb, MpiCModel.vb; lia). apply E1; auto.
           ++ intros _ b' x j Hb' Hx Hj. unfold set1. destruct (Nat.eqb_spec b' b) as [->|Nb].
              ** rewrite <- AE; auto. rewrite Nat.add_0_l. apply E2; auto.
              ** rewrite Fm' by (unfold MpiCModel.vb; lia). apply E2; auto.
           ++ intros a' o' Ha' Ho. rewrite Fm' by (unfold MpiCModel.fb, MpiCModel.vb; lia). apply E3; auto.
        -- split; [|split].
           ++ intros a' x j Ha' Hx Hj. unfold set1. destruct (Nat.eqb_spec a' b) as [->|Nb].
              ** rewrite <- AE; auto; apply E1; auto.
              ** rewrite Fm' by (unfold MpiCModel.fb; lia). apply E1; auto.
           ++ rewrite Em. discriminate.
           ++ intros a' o' Ha' Ho. rewrite Fm; [apply E3; auto|]. intros j k Hj Hk E. inversion E as [[E4 E5]].
              pose proof (fit k j Lx ly Hk Hj). fold ly in Ho. lia.
      * intros b' o' Hb'. apply Fm'. lia.
Qed.

(** copying V and normalizing *)
Lemma map_phase : forall l F f v (g : C -> C) (fromV : bool) b, (fromV = true -> many = true) -> b < B ->
  CollC (fun r => kernels 1 1 (fun _ x _ => g (x 0)) (Lx * ldim Y P r) (fun h _ => if fromV then (vb b, h) else (fb b, off + h)) (fun h _ => (fb b, off + h)))
    (Inv l F f v) (Inv l F (set1 f b (fun x j => g (if fromV then v b x j else f b x j))) v).
Proof.
  intros l F f v g fromV b Hm Hb. assert (HbN : b < N) by (unfold nN; lia).
  apply inv_phase.
  - intros r k H1 H2. apply kernels_none. rewrite y_idle by auto. lia.
  - intros r s Hr Q Zs Ag (E1 & E2 & E3). pose proof (size_lt r Hr) as HrP.
    change (ldim Y P r) with (count Y P r) in *. set (ly := count Y P r) in *.
    pose proof (Hf r b HrP HbN) as Bf. fold ly in Bf.
    destruct (kernels_run 1 1 (fun _ x _ => g (x 0)) (Lx * ly)
      (fun h _ => if fromV then (vb b, h) else (fb b, off + h)) (fun h _ => (fb b, off + h)) s Q) as (m' & R & W & Fm); cbn [fst snd].
    + intros h x x' _ E k _. rewrite E by lia. reflexivity.
    + intros h j Hh _. rewrite Zs. destruct fromV; cbn [fst snd]; [|lia].
      pose proof (Hv (Hm eq_refl) r b HrP Hb) as Bv. fold ly in Bv. lia.
    + intros h k Hh _. rewrite Zs. lia.
    + intros h k h' k' _ Hk _ Hk' E. inversion E. lia.
    + intros h j h' k _ _ _ _ Nh E. destruct fromV; inversion E; [|lia]. unfold MpiCModel.fb, MpiCModel.vb in *. lia.
    + exists m'. split; [exact R|].
      assert (Fm' : forall b' o', b' <> fb b -> m' b' o' = mem C s b' o').
      { intros b' o' Nb. apply Fm. intros j k _ _ E. inversion E. auto. }
      split; [|split; [split; [|split]|]].
      * intros b' Hb'. replace (m' b') with (mem C s b'); [apply Ag; auto|]. apply functional_extensionality. intros o'.
        symmetry. apply Fm'. unfold MpiCModel.fb. lia.
      * intros a' x j Ha' Hx Hj. unfold set1. destruct (Nat.eqb_spec a' b) as [->|Nb].
        -- pose proof (fit x j Lx ly Hx Hj) as Ft. specialize (W (x * ly + j) 0 Ft ltac:(lia)). unfold rd2 in W at 1.
           cbn [fst snd] in W. fold ly. rewrite W. f_equal. destruct fromV; unfold rd2; cbn [fst snd]; [apply E2|apply E1]; auto.
        -- rewrite Fm' by (unfold MpiCModel.fb; lia). apply E1; auto.
      * intros Mt b' x j Hb' Hx Hj. rewrite Fm' by (unfold MpiCModel.fb, MpiCModel.vb; lia). apply E2; auto.
      * intros a' o' Ha' Ho. rewrite Fm; [apply E3; auto|]. intros j k Hj Hk E. inversion E as [[E4 E5]]. fold ly in Ho. lia.
      * intros b' o' Hb'. apply Fm'. unfold MpiCModel.fb. lia.
Qed.
Lemma inv_eq : forall l F f f' v v' s, f = f' -> v = v' -> Inv l F f v s -> Inv l F f' v' s.
Proof. intros; subst; auto. Qed.
End Phases.
